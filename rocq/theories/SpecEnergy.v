(** Specification: the exact motions that shoot() approximates, and the quantities they
    conserve. *)
From Coq Require Import Reals List Arith.
From Verif Require Import Py RSum Tensor KernelModel FieldModel GeometryModel ModuleModel ShootingModel
  SpecKernel SpecField SpecModule SpecShooting SpecMotion SpecRigid.
Import ListNotations.
Open Scope R_scope.

(** On the time interval (a, b), the curve c of descriptors and moments is a solution of
    Hamilton's equations for H: at each of these times H can be evaluated and the velocity
    of c is the Hamiltonian vector field of H (dq/dt = dH/dp, dp/dt = - dH/dq). *)
Definition solution (H : list tensor -> res R) (c : R -> list tensor) (a b : R) : Prop :=
  (forall s t, map shape (c s) = map shape (c t)) /\
  forall t, a < t < b -> is_ok (H (c t)) /\ exists k, hamilton H (c t) k /\
    forall i x idx, nth_error (c t) i = Some x -> valid (shape x) idx ->
      derivable_pt_lim (fun s => entry (c s) i idx) t (entry k i idx).

(** The angular momentum in the plane of the axes a and b: the sum over all points,
    directions and columns of frames q, with moments p, of q_a p_b - q_b p_a. *)
Definition rows_momentum (a b : nat) (q p : tensor) : R :=
  rsum (tnth (shape q) 0) (fun i => q @2 i a * p @2 i b - q @2 i b * p @2 i a).
Definition frames_momentum (a b : nat) (q p : tensor) : R :=
  rsum (tnth (shape q) 0) (fun i => rsum (tnth (shape q) 2) (fun j => q @3 i a j * p @3 i b j - q @3 i b j * p @3 i a j)).
Fixpoint angular_momentum (a b : nat) (g : gman) : R :=
  match g with
  | GLm _ _ gd ct => rows_momentum a b gd ct
  | GDir _ _ _ gd0 gd1 c0 c1 => rows_momentum a b gd0 c0 + rows_momentum a b gd1 c1
  | GFrame _ _ gd0 gd1 c0 c1 => rows_momentum a b gd0 c0 + frames_momentum a b gd1 c1
  | GCLm _ _ _ gd0 gd1 c0 c1 _ _ => rows_momentum a b gd0 c0 + rows_momentum a b gd1 c1
  | GEmpty _ => 0
  | GComp gs => fold_right Rplus 0 (map (angular_momentum a b) gs)
  end.

(** The module has no preferred direction: turned by any rotation about the origin it is
    the same module.  (A linear module with a general matrix is not.) *)
Definition isotropic (d : nat) (m : dmod) : Prop := forall Q, rigid d Q -> twin d Q (fun _ => 0) m m.
