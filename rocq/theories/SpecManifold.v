(** Vocabulary for the properties of manifold storage. *)
From Coq Require Import Reals String List Arith Bool.
From Verif Require Import Py Tensor ManifoldModel.
Import ListNotations.
Open Scope list_scope.
Open Scope nat_scope.

(** All tensors on the same device and of the same dtype. *)
Definition uniform (l : list tob) : Prop :=
  exists dv dt, Forall (fun t => tdev t = dv /\ tdty t = dt) l.

(** [arg m v l]: [v] is a proper argument of the fill and add methods of the manifold
    tree [m], and [l] is the flat list of its tensors.  A leaf with one descriptor takes a
    tensor, a leaf with several a sequence of tensors which agree on device and
    dtype, a compound a list with one argument per member; a manifold without points
    accepts anything. *)
Inductive arg : man -> pyv -> list tob -> Prop :=
| arg_leaf1 lf t : length (l_shapes lf) = 1 -> arg (MLeaf lf) (VT t) [t]
| arg_leafn lf l : length (l_shapes lf) = length l -> 2 <= length l -> uniform l ->
    arg (MLeaf lf) (VL (map VT l)) l
| arg_empty n dv dt v : arg (MEmpty n dv dt) v []
| arg_comp dv dt ms vs ls : args ms vs ls -> arg (MComp dv dt ms) (VL vs) (List.concat ls)
with args : list man -> list pyv -> list (list tob) -> Prop :=
| args_nil : args [] [] []
| args_cons m ms v vs l ls : arg m v l -> args ms vs ls -> args (m :: ms) (v :: vs) (l :: ls).

(** [splits m l]: the flat list [l] has one tensor per descriptor of the tree, and the
    tensors falling on the same leaf agree on device and dtype. *)
Inductive splits : man -> list tob -> Prop :=
| spl_leaf lf l : length (l_shapes lf) = length l -> 1 <= length l -> uniform l -> splits (MLeaf lf) l
| spl_empty n dv dt : splits (MEmpty n dv dt) []
| spl_comp dv dt ms ls : splits_all ms ls -> splits (MComp dv dt ms) (List.concat ls)
with splits_all : list man -> list (list tob) -> Prop :=
| spl_nil : splits_all [] []
| spl_cons m ms l ls : splits m l -> splits_all ms ls -> splits_all (m :: ms) (l :: ls).

(** The three containers of a leaf were made for the leaf's shapes (true from
    construction on). *)
Definition leaf_made (lf : leaf) : Prop :=
  forall p, c_shapes (get_part p lf) = leaf_shape_gd (l_shapes lf) (l_nb lf).
Inductive all_leaves (P : leaf -> Prop) : man -> Prop :=
| al_leaf lf : P lf -> all_leaves P (MLeaf lf)
| al_empty n dv dt : all_leaves P (MEmpty n dv dt)
| al_comp dv dt ms : Forall (all_leaves P) ms -> all_leaves P (MComp dv dt ms).

(** Every leaf holds, in part [p], one tensor per descriptor. *)
Definition leaf_full (p : part) (lf : leaf) : Prop :=
  exists l, c_tensors (get_part p lf) = map VT l /\ length l = length (l_shapes lf) /\
    1 <= length l /\ uniform l.

Inductive no_empty : man -> Prop :=
| ne_leaf lf : no_empty (MLeaf lf)
| ne_comp dv dt ms : Forall no_empty ms -> no_empty (MComp dv dt ms).

(** The part of a manifold an operation is meant to modify. *)
Definition touches (o : op) (q : part) : Prop :=
  match o with
  | OFill p _ _ _ | OAdd p _ | ONegate p | ORequires p _ _ | OZeros p _ | ORandn p _ _ => p = q
  | OTo _ => True
  end.

(** Pointwise addition and negation of flat lists of tensors. *)
Definition add_all (a b : list tob) : list tob := map (fun p => tob_add (fst p) (snd p)) (combine a b).
Definition neg_all (a : list tob) : list tob :=
  map (fun t => mkTob (topp (tval t)) (tdev t) (tdty t) (trg t)) a.
Definition same_devices (a b : list tob) : Prop := Forall2 (fun s t => tdev s = tdev t) a b.

(** The device and dtype reported by a leaf are those of all the tensors it holds. *)
Definition leaf_truthful (lf : leaf) : Prop :=
  forall p x, In x (c_tensors (get_part p lf)) ->
    exists t, x = VT t /\ tdev t = l_dev lf /\ tdty t = l_dty lf.

(** Every leaf holds, in part [p], one tensor of the declared shape per descriptor. *)
Definition leaf_shaped (p : part) (lf : leaf) : Prop :=
  exists l, c_tensors (get_part p lf) = map VT l /\
    map (fun t => shape (tval t)) l = leaf_shape_gd (l_shapes lf) (l_nb lf).

(** The entries of a tensor in row-major order, and the successive slices of given
    lengths of a flat vector. *)
Definition flat (t : tensor) : list R := map (fun k => get t (unravel (shape t) k)) (seq 0 (prod (shape t))).
Fixpoint slices (sizes : list nat) (x : list R) : list (list R) :=
  match sizes with
  | [] => []
  | n :: sizes' => firstn n x :: slices sizes' (skipn n x)
  end.

(** Every leaf holds one tensor per descriptor in part [p] (no condition on device and dtype). *)
Definition leaf_filled (p : part) (lf : leaf) : Prop :=
  exists l, c_tensors (get_part p lf) = map VT l /\ length l = length (l_shapes lf).

(** Reported device and dtype are right, for the manifold and for its containers. *)
Definition leaf_consistent (lf : leaf) : Prop :=
  forall p, c_dev (get_part p lf) = l_dev lf /\ c_dty (get_part p lf) = l_dty lf /\
    forall x, In x (c_tensors (get_part p lf)) -> exists t, x = VT t /\ tdev t = l_dev lf /\ tdty t = l_dty lf.

(** An argument made of tensors of the reported device and dtype. *)
Definition arg_matches (lf : leaf) (v : pyv) : Prop :=
  exists l, (v = VL (map VT l) \/ exists t, v = VT t /\ l = [t]) /\
    Forall (fun t => tdev t = l_dev lf /\ tdty t = l_dty lf) l.

(** A history on a leaf all of whose filled and added tensors have, when they are
    given, the device and dtype the manifold reports. *)
Fixpoint matching_history (ops : list op) (lf : leaf) : Prop :=
  match ops with
  | [] => True
  | o :: ops' =>
      match o with
      | OFill _ v _ _ | OAdd _ v => arg_matches lf v
      | _ => True
      end /\
      match fst (step (MLeaf lf) o) with
      | MLeaf lf' => matching_history ops' lf'
      | _ => False
      end
  end.
