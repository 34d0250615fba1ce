(** Specification: moving a scene (points, descriptors of manifolds) by a translation. *)
From Coq Require Import Reals List Arith.
From Verif Require Import Py RSum Tensor KernelModel FieldModel GeometryModel ModuleModel ShootingModel SpecShooting.
Import ListNotations.
Open Scope R_scope.

(** The vector of R^d with coordinates v 0, ..., v (d - 1). *)
Definition vec (d : nat) (v : nat -> R) : nat -> R := fun a => v (a mod d).

(** The points of a tensor of shape (N, d), moved by the vector c. *)
Definition shift (c : nat -> R) (t : tensor) : tensor :=
  mkT (shape t) (fun idx => match idx with [i; a] => t @2 i a + c a | _ => get t idx end).

(** A manifold whose points are moved by c: directions, frames and cotangents are free
    vectors, and stay. *)
Fixpoint moved (c : nat -> R) (g : gman) : gman :=
  match g with
  | GLm dim nb gd ct => GLm dim nb (shift c gd) ct
  | GDir tr dim nb gd0 gd1 c0 c1 => GDir tr dim nb (shift c gd0) gd1 c0 c1
  | GFrame dim nb gd0 gd1 c0 c1 => GFrame dim nb (shift c gd0) gd1 c0 c1
  | GCLm dim nb0 nb1 gd0 gd1 c0 c1 i0 i1 => GCLm dim nb0 nb1 (shift c gd0) (shift c gd1) c0 c1 i0 i1
  | GEmpty dim => GEmpty dim
  | GComp gs => GComp (map (moved c) gs)
  end.

(** No CompoundLandmarks. *)
Fixpoint ordinary_man (g : gman) : Prop :=
  match g with
  | GCLm _ _ _ _ _ _ _ _ _ => False
  | GComp gs => fold_right (fun g acc => ordinary_man g /\ acc) True gs
  | _ => True
  end.

(** The closures given to LocalConstrainedTranslations follow the translation: support
    points move along, vectors stay; linear modules have one centre, a point of R^d. *)
Fixpoint follows (d : nat) (c : nat -> R) (m : dmod) : Prop :=
  match m with
  | MLocal _ _ fs fv _ _ _ _ _ =>
      forall gd, fs (shift c gd) = (s <- fs gd ;; Ok (shift c s)) /\ fv (shift c gd) = fv gd
  | MLinear _ _ gd _ _ => shape gd = [1%nat; d]
  | MSilent man => ordinary_man man
  | MComp ms => fold_right (fun m acc => follows d c m /\ acc) True ms
  | _ => True
  end.

(** Two results of the same kind: the same exception, or values related by P. *)
Definition same_result {A B} (P : A -> B -> Prop) (x : res A) (y : res B) : Prop :=
  match x, y with
  | Ok a, Ok b => P a b
  | Err e, Err e' => e = e'
  | _, _ => False
  end.

(** The field generated by a module, evaluated at points. *)
Definition velocity (m : dmod) (points : tensor) (k : nat) : res tensor :=
  f <- field_generator m ;; feval f points k.

(** The module b is the module a in the moved scene: its manifold is the moved one, its
    controls, cost and Hamiltonian are the same, and its field takes at the moved points the
    values of the field of a. *)
Definition same_in_moved_scene (c : nat -> R) (a b : dmod) : Prop :=
  mod_manifold b = moved c (mod_manifold a) /\ controls b = controls a /\
  cost b = cost a /\ hamiltonian b = hamiltonian a /\
  forall points k, velocity b (shift c points) k = velocity a points k.

(** An automatic differentiation that answers the same for a function of the descriptors
    and moments of a manifold and for its translate, taken at the translated point (as the
    exact derivatives are the same). *)
Definition translation_natural (c : nat -> R) (ag : autograd) : Prop :=
  forall (F F' : list tensor -> res R) (g : gman),
    (forall g', skel g' = skel g -> map shape (phase g') = map shape (phase g) -> F' (phase (moved c g')) = F (phase g')) ->
    ag F' (phase (moved c g)) = ag F (phase g).

(** What shoot() leaves in the moved scene: the module in the moved scene, the same costs,
    intermediate states that are the moved ones, the same intermediate controls. *)
Definition same_shot_in_moved_scene (c : nat -> R) (a b : shot) : Prop :=
  same_in_moved_scene c (sh_mod a) (sh_mod b) /\ sh_costs b = sh_costs a /\
  match sh_inter a, sh_inter b with
  | Some i, Some j => in_states j = map (moved c) (in_states i) /\ in_controls j = in_controls i
  | None, None => True
  | _, _ => False
  end.

(** Coordinate a of the total linear momentum: the sum of the moments of the points. *)
Fixpoint linear_momentum (g : gman) (a : nat) : R :=
  match g with
  | GLm _ _ _ ct => rsum (nrows ct) (fun i => ct @2 i a)
  | GDir _ _ _ _ _ c0 _ | GFrame _ _ _ _ c0 _ => rsum (nrows c0) (fun i => c0 @2 i a)
  | GCLm _ _ _ _ _ c0 c1 _ _ => rsum (nrows c0) (fun i => c0 @2 i a) + rsum (nrows c1) (fun i => c1 @2 i a)
  | GEmpty _ => 0
  | GComp gs => fold_right (fun g acc => linear_momentum g a + acc) 0 gs
  end.

(** Differentiability of a function of tensors at l: all the directional derivatives exist,
    and they are given by a gradient G. *)
Definition ldot (a b : list tensor) : R := fold_right Rplus 0 (map (fun p : tensor * tensor => tdot (fst p) (snd p)) (combine a b)).
Definition differentiable (F : list tensor -> res R) (l : list tensor) : Prop :=
  exists G, map shape G = map shape l /\
    forall u, map shape u = map shape l ->
      exists eps f, 0 < eps /\ (forall s, Rabs s < eps -> F (ladd l (lscal s u)) = Ok (f s)) /\
        derivable_pt_lim f 0 (ldot G u).
(** Differentiable wherever it is defined, among tensors of given shapes. *)
Definition smooth_on (shapes : list (list nat)) (F : list tensor -> res R) : Prop :=
  forall l x, map shape l = shapes -> F l = Ok x -> differentiable F l.
