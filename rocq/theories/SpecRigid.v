(** Specification: the same scene placed elsewhere by a rigid motion x |-> Q x + c. *)
From Coq Require Import Reals List Arith.
From Verif Require Import Py RSum Tensor KernelModel FieldModel GeometryModel ModuleModel ShootingModel
  SpecKernel SpecField SpecGeometry SpecModule SpecShooting SpecMotion.
Import ListNotations.
Open Scope R_scope.

(** Q is a rotation or a reflection of R^d. *)
Definition rigid (d : nat) (Q : mat) : Prop := orthonormal d Q /\ orthonormal d (mtr Q).

(** The image Q u of a vector, and Q x + c of a point. *)
Definition turned (d : nat) (Q : mat) (u : nat -> R) (a : nat) : R := rsum d (fun b => Q a b * u b).
Definition placed (d : nat) (Q : mat) (c x : nat -> R) (a : nat) : R := turned d Q x a + c a.
(** Q A Q^T. *)
Definition conj_by (d : nat) (Q A : mat) (a l : nat) : R :=
  rsum d (fun b => Q a b * rsum d (fun k => Q l k * A b k)).

(** Tensors of shape (N, d) whose rows are vectors or points, and of shape (N, d, d) whose
    slices are frames (one vector per column). *)
Definition turn_rows (d : nat) (Q : mat) (t : tensor) : tensor :=
  mkT (shape t) (fun idx => match idx with [i; a] => turned d Q (vrow t i) a | _ => get t idx end).
Definition place_rows (d : nat) (Q : mat) (c : nat -> R) (t : tensor) : tensor :=
  mkT (shape t) (fun idx => match idx with [i; a] => placed d Q c (vrow t i) a | _ => get t idx end).
Definition turn_frames (d : nat) (Q : mat) (t : tensor) : tensor :=
  mkT (shape t) (fun idx => match idx with [i; a; j] => turned d Q (fun b => t @3 i b j) a | _ => get t idx end).
(** Tensors of shape (N, d, d) whose slices are matrices. *)
Definition turn_mats (d : nat) (Q : mat) (t : tensor) : tensor :=
  mkT (shape t) (fun idx => match idx with [i; a; l] => conj_by d Q (slice t i) a l | _ => get t idx end).

(** A manifold placed elsewhere: points are moved, directions, frames and cotangents are
    turned.  (CompoundLandmarks are not considered.) *)
Fixpoint placed_man (d : nat) (Q : mat) (c : nat -> R) (g : gman) : gman :=
  match g with
  | GLm dim nb gd ct => GLm dim nb (place_rows d Q c gd) (turn_rows d Q ct)
  | GDir tr dim nb gd0 gd1 c0 c1 =>
      GDir tr dim nb (place_rows d Q c gd0) (turn_rows d Q gd1) (turn_rows d Q c0) (turn_rows d Q c1)
  | GFrame dim nb gd0 gd1 c0 c1 =>
      GFrame dim nb (place_rows d Q c gd0) (turn_frames d Q gd1) (turn_rows d Q c0) (turn_frames d Q c1)
  | GCLm _ _ _ _ _ _ _ _ _ | GEmpty _ => g
  | GComp gs => GComp (map (placed_man d Q c) gs)
  end.

(** Two modules of the same structure with the same parameters, apart from the back ends;
    values of descriptors, moments and controls are not looked at.  The matrix of a linear
    module is turned; the closures of LocalConstrainedTranslations give support points that
    are placed and vectors that are turned. *)
Fixpoint twin (d : nat) (Q : mat) (c : nat -> R) (m m' : dmod) {struct m} : Prop :=
  match m, m' with
  | MGlobal dim co _, MGlobal dim' co' _ => dim' = dim /\ co' = co
  | MTrans _ sg dim nb _ _ _, MTrans _ sg' dim' nb' _ _ _ => sg' = sg /\ dim' = dim /\ nb' = nb
  | MImp0 _ sg nu co dim nb _ _ _, MImp0 _ sg' nu' co' dim' nb' _ _ _ =>
      sg' = sg /\ nu' = nu /\ co' = co /\ dim' = dim /\ nb' = nb
  | MOriented sg co tr dim nb _ _ _ _ _, MOriented sg' co' tr' dim' nb' _ _ _ _ _ =>
      sg' = sg /\ co' = co /\ tr' = tr /\ dim' = dim /\ nb' = nb
  | MLocal sg co fs fv dim nb _ _ _, MLocal sg' co' fs' fv' dim' nb' _ _ _ =>
      sg' = sg /\ co' = co /\ dim' = dim /\ nb' = nb /\
      forall gd gd' s v s' v', teq gd' (place_rows d Q c gd) ->
        fs gd = Ok s -> fv gd = Ok v -> fs' gd' = Ok s' -> fv' gd' = Ok v' ->
        teq s' (place_rows d Q c s) /\ teq v' (turn_rows d Q v)
  | MLinear A co _ _ _, MLinear A' co' _ _ _ =>
      co' = co /\ shape A' = shape A /\
      forall i j, (i < d)%nat -> (j < d)%nat -> A' @2 i j = conj_by d Q (fun k l => A @2 k l) i j
  | MSilent _, MSilent _ => True
  | MImp1 _ sg nu co C dim nb _ _ _ _ _ _, MImp1 _ sg' nu' co' C' dim' nb' _ _ _ _ _ _ =>
      sg' = sg /\ nu' = nu /\ co' = co /\ teq C' C /\ dim' = dim /\ nb' = nb
  | MDivFree sg cd nu co dim n0 n1 _ _ _ _, MDivFree sg' cd' nu' co' dim' n0' n1' _ _ _ _ =>
      sg' = sg /\ cd' = cd /\ nu' = nu /\ co' = co /\ dim' = dim /\ n0' = n0 /\ n1' = n1
  | MArap sg ca nu co dim n0 n1 _ _ _ _, MArap sg' ca' nu' co' dim' n0' n1' _ _ _ _ =>
      sg' = sg /\ ca' = ca /\ nu' = nu /\ co' = co /\ dim' = dim /\ n0' = n0 /\ n1' = n1
  | MComp ms, MComp ms' =>
      (fix go (ms ms' : list dmod) : Prop :=
         match ms, ms' with
         | [], [] => True
         | m :: r, m' :: r' => twin d Q c m m' /\ go r r'
         | _, _ => False
         end) ms ms'
  | _, _ => False
  end.

(** m' is m placed elsewhere: twins whose manifolds hold the placed values. *)
Definition elsewhere (d : nat) (Q : mat) (c : nat -> R) (m m' : dmod) : Prop :=
  twin d Q c m m' /\ same_values (mod_manifold m') (placed_man d Q c (mod_manifold m)).

(** Controls that stand for vectors are turned, scalar ones stay.  The controls of the
    divergence-free and as-rigid-as-possible modules may be flattened; k-th vector of d
    coordinates. *)
Definition block (d : nat) (t : tensor) (k b : nat) : R := (tflatten t) @1 (k * d + b)%nat.
Fixpoint turned_ctrl (d : nat) (Q : mat) (m : dmod) (c c' : ctrl) {struct m} : Prop :=
  match m, c, c' with
  | MGlobal _ _ _, CLeaf t, CLeaf t' => forall a, (a < d)%nat -> t' @1 a = turned d Q (fun b => t @1 b) a
  | MTrans _ _ _ _ _ _ _, CLeaf t, CLeaf t' | MImp0 _ _ _ _ _ _ _ _ _, CLeaf t, CLeaf t' => teq t' (turn_rows d Q t)
  | MOriented _ _ _ _ _ _ _ _ _ _, CLeaf t, CLeaf t' => teq t' t
  | MLocal _ _ _ _ _ _ _ _ _, CLeaf t, CLeaf t' => item t' = item t
  | MLinear _ _ _ _ _, CLeaf t, CLeaf t' => item t' = item t
  | MSilent _, CLeaf _, CLeaf _ => True
  | MImp1 _ _ _ _ _ _ _ _ _ _ _ _ _, CLeaf t, CLeaf t' => teq t' t
  | MDivFree _ _ _ _ _ _ n1 _ _ _ _, CLeaf t, CLeaf t' | MArap _ _ _ _ _ _ n1 _ _ _ _, CLeaf t, CLeaf t' =>
      forall k a, (k < n1)%nat -> (a < d)%nat -> block d t' k a = turned d Q (block d t k) a
  | MComp ms, CList cs, CList cs' =>
      (fix go (ms : list dmod) (cs cs' : list ctrl) : Prop :=
         match ms, cs, cs' with
         | [], [], [] => True
         | m :: r, x :: xs, x' :: xs' => turned_ctrl d Q m x x' /\ go r xs xs'
         | _, _, _ => False
         end) ms cs cs'
  | _, _, _ => False
  end.

(** Given controls: none, or as many sets of controls, each turned. *)
Definition turned_ctrls (d : nat) (Q : mat) (m : dmod) (cs cs' : option (list ctrl)) : Prop :=
  match cs, cs' with
  | None, None => True
  | Some l, Some l' => Forall2 (turned_ctrl d Q m) l l'
  | _, _ => False
  end.

(** What shoot() leaves when everything is placed elsewhere: the placed descriptors and the
    turned moments, the same costs, intermediate states that are the placed ones. *)
Definition shot_elsewhere (d : nat) (Q : mat) (c : nat -> R) (a b : shot) : Prop :=
  same_values (mod_manifold (sh_mod b)) (placed_man d Q c (mod_manifold (sh_mod a))) /\
  sh_costs b = sh_costs a /\
  match sh_inter a, sh_inter b with
  | Some i, Some j => Forall2 (fun g g' => same_values g' (placed_man d Q c g)) (in_states i) (in_states j)
  | None, None => True
  | _, _ => False
  end.

(** Two runs gave the same result. *)
Definition same_shot (a b : shot) : Prop :=
  same_values (mod_manifold (sh_mod b)) (mod_manifold (sh_mod a)) /\
  sh_costs b = sh_costs a /\
  match sh_inter a, sh_inter b with
  | Some i, Some j => Forall2 (fun g g' => same_values g' g) (in_states i) (in_states j)
  | None, None => True
  | _, _ => False
  end.

(** The controls kept with the intermediate states are turned, at the states where the
    controls were given or the configuration is regular. *)
Definition kept_turned (d : nat) (Q : mat) (m : dmod) (given : Prop) (a b : shot) : Prop :=
  forall i j n g mg ks ks', sh_inter a = Some i -> sh_inter b = Some j ->
    nth_error (in_states i) n = Some g -> set_manifold m g = Ok mg -> given \/ regular d mg ->
    nth_error (in_controls i) n = Some ks -> nth_error (in_controls j) n = Some ks' ->
    turned_ctrl d Q m (CList ks) (CList ks').

(** The module b does elsewhere what the module a does: the same cost and the same
    Hamiltonian, and its field takes at the placed points the turned velocities, with the
    turned derivatives. *)
Definition same_elsewhere (d : nat) (Q : mat) (c : nat -> R) (a b : dmod) : Prop :=
  (exists x, cost a = Ok x /\ cost b = Ok x) /\ hamiltonian b = hamiltonian a /\
  forall p N, shape p = [N; d] ->
    (exists v v', velocity a p 0 = Ok v /\ velocity b (place_rows d Q c p) 0 = Ok v' /\ teq v' (turn_rows d Q v)) /\
    (exists j j', velocity a p 1 = Ok j /\ velocity b (place_rows d Q c p) 1 = Ok j' /\ teq j' (turn_mats d Q j)).
