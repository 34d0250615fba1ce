(** Specification: building, copying and converting manifolds. *)
From Coq Require Import Reals String List Arith Bool.
From Verif Require Import Py Tensor ManifoldModel SpecManifold.
Import ListNotations.
Open Scope list_scope.
Open Scope nat_scope.

(** An argument of the constructor for n descriptors, with the list l of its tensors: None,
    or a tensor if n = 1, or a list of n tensors. *)
Definition optional (n : nat) (v : pyv) (l : list tob) : Prop :=
  (v = VNone /\ l = []) \/ (n = 1 /\ exists t, v = VT t /\ l = [t]) \/ (2 <= n /\ length l = n /\ v = VL (map VT l)).

(** Two of the tensors differ. *)
Definition differ {P} (prop : tob -> P) (l : list tob) : Prop := exists s t, In s l /\ In t l /\ prop s <> prop t.

(** x is the value given by the user, or the common one of the tensors. *)
Definition settled {P} (prop : tob -> P) (given : option P) (l : list tob) (x : P) : Prop :=
  match given with Some y => x = y | None => l <> [] /\ Forall (fun t => prop t = x) l end.

(** What a manifold with nb points holds where nothing was given. *)
Definition fresh (shapes : list (list nat)) (nb : nat) (D : device) (T : dtype) : list tob :=
  map (fun sh => mkTob (tzeros (nb :: sh)) D T false) shapes.
Definition held (v : pyv) (l z : list tob) : list tob := match v with VNone => z | _ => l end.

(** No compound without members. *)
Inductive peopled : man -> Prop :=
| peo_leaf lf : peopled (MLeaf lf)
| peo_empty n dv dt : peopled (MEmpty n dv dt)
| peo_comp dv dt ms : ms <> [] -> Forall peopled ms -> peopled (MComp dv dt ms).

(** m' is m with f applied to every tensor, D to the reported devices and T to the reported
    dtypes of its members; nothing else is changed, but for what compounds store. *)
Inductive copied (f : tob -> tob) (D : option device -> option device) (T : dtype -> dtype) : man -> man -> Prop :=
| cop_leaf l l' : l_shapes l' = l_shapes l -> l_nb l' = l_nb l -> Some (l_dev l') = D (Some (l_dev l)) -> l_dty l' = T (l_dty l) ->
    (forall p ts, c_tensors (get_part p l) = map VT ts -> c_tensors (get_part p l') = map VT (map f ts)) ->
    copied f D T (MLeaf l) (MLeaf l')
| cop_empty n dv dt : copied f D T (MEmpty n dv dt) (MEmpty n (D dv) (T dt))
| cop_comp dv dt dv' dt' ms ms' : Forall2 (copied f D T) ms ms' -> copied f D T (MComp dv dt ms) (MComp dv' dt' ms').

(** The number of points, read from the descriptors themselves. *)
Fixpoint points (m : man) : nat :=
  match m with
  | MLeaf l => match c_tensors (l_gd l) with VT t :: _ => nth 0 (shape (tval t)) 0 | _ => 0 end
  | MEmpty _ _ _ => 0
  | MComp _ _ ms => list_sum (map points ms)
  end.

(** Every part of every leaf holds one tensor per descriptor, those of a part agreeing on
    device and dtype. *)
Definition whole (m : man) : Prop := all_leaves leaf_made m /\ forall p, all_leaves (leaf_full p) m.

(** Integers, then float32, then float64. *)
Definition rank (t : dtype) : nat := match t with I64 => 0 | F32 => 1 | F64 => 2 end.

(** The rows of a tensor along its first dimension, as tensors. *)
Definition rows (t : tob) : list tob :=
  map (fun i => mkTob (mkT (tl (shape (tval t))) (fun idx => get (tval t) (i :: idx))) (tdev t) (tdty t) (trg t)) (seq 0 (hd 0 (shape (tval t)))).
