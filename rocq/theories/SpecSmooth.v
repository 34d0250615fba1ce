(** Specification: what makes the Hamiltonian of a module differentiable. *)
From Coq Require Import Reals List.
From Verif Require Import Py RSum Tensor KernelModel FieldModel GeometryModel ModuleModel ShootingModel
  SpecKernel SpecModule SpecShooting SpecMotion.
Import ListNotations.
Open Scope R_scope.

(** A curve of tensors passes through t at time 0 with velocity v. *)
Definition passes (c : R -> tensor) (t v : tensor) : Prop :=
  c 0 = t /\ (forall s, shape (c s) = shape t) /\ shape v = shape t /\
  forall idx, valid (shape t) idx -> derivable_pt_lim (fun s => get (c s) idx) 0 (get v idx).

(** The same for lists of tensors. *)
Definition lpasses (c : R -> list tensor) (l v : list tensor) : Prop :=
  c 0 = l /\ (forall s, map shape (c s) = map shape l) /\ map shape v = map shape l /\
  forall i t idx, nth_error l i = Some t -> valid (shape t) idx -> derivable_pt_lim (fun s => entry (c s) i idx) 0 (entry v i idx).

(** A function of a tensor with values of shape sh is differentiable at t: along any
    curve through t with velocity v it answers near t, and each entry of the answer has a
    derivative, linear in v. *)
Definition closure_differentiable (f : tensor -> res tensor) (t : tensor) (sh : list nat) : Prop :=
  exists J : list nat -> tensor, (forall idx, shape (J idx) = shape t) /\
    forall c v, passes c t v -> exists eps S, 0 < eps /\
      (forall s, Rabs s < eps -> f (c s) = Ok (S s) /\ shape (S s) = sh) /\
      forall idx, valid sh idx -> derivable_pt_lim (fun s => get (S s) idx) 0 (tdot (J idx) v).

(** The same for a function of a list of tensors with values in R: there is a gradient G,
    and the derivative along any curve is the product of G and the velocity. *)
Definition differentiable_along (F : list tensor -> res R) (l : list tensor) : Prop :=
  exists G, map shape G = map shape l /\
    forall c v, lpasses c l v -> exists eps f, 0 < eps /\ (forall s, Rabs s < eps -> F (c s) = Ok (f s)) /\
      derivable_pt_lim f 0 (ldot G v).
Definition smooth_along (shapes : list (list nat)) (F : list tensor -> res R) : Prop :=
  forall l x, map shape l = shapes -> F l = Ok x -> differentiable_along F l.

(** The support and the vectors of local constrained translations are differentiable
    functions of the points. *)
Fixpoint locals_differentiable (d : nat) (m : dmod) : Prop :=
  match m with
  | MLocal _ _ fs fv _ _ gd _ _ => exists M, closure_differentiable fs gd [M; d] /\ closure_differentiable fv gd [M; d]
  | MComp ms => fold_right (fun m acc => locals_differentiable d m /\ acc) True ms
  | _ => True
  end.

(** They are so wherever the points are. *)
Fixpoint locals_smooth (d : nat) (m : dmod) : Prop :=
  match m with
  | MLocal _ _ fs fv _ nb _ _ _ => forall gd, shape gd = [nb; d] ->
      exists M, closure_differentiable fs gd [M; d] /\ closure_differentiable fv gd [M; d]
  | MComp ms => fold_right (fun m acc => locals_smooth d m /\ acc) True ms
  | _ => True
  end.

(** A property of the module that holds wherever the descriptors and the moments are. *)
Definition everywhere (P : dmod -> Prop) (m : dmod) : Prop :=
  forall g m1, skel g = skel (mod_manifold m) -> map shape (phase g) = map shape (phase (mod_manifold m)) ->
    set_manifold m g = Ok m1 -> P m1.

(** The automatic differentiation answers at least where the function is differentiable. *)
Definition differentiates (ag : autograd) : Prop := forall F l, differentiable F l -> is_ok (ag F l).
