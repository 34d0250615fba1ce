(** Specification of the geometry of manifolds: for a vector field v of R^d with
    Jacobian D (D a l = derivative along axis l of component a), what its action
    on descriptors is and how it pairs with cotangents. *)
From Coq Require Import Reals List.
From Verif Require Import Py RSum Tensor KernelModel FieldModel GeometryModel SpecKernel SpecField.
Import ListNotations.
Open Scope R_scope.

(** Well-shaped manifold of dimension [d] ([CompoundLandmarks] excluded; compounds
    may be nested and may be empty). *)
Fixpoint wf_gman (d : nat) (m : gman) : Prop :=
  match m with
  | GLm dim nb gd cotan => dim = d /\ shape gd = [nb; d] /\ shape cotan = [nb; d]
  | GDir _ dim nb gd0 gd1 c0 c1 =>
      dim = d /\ shape gd0 = [nb; d] /\ shape gd1 = [nb; d] /\
      shape c0 = [nb; d] /\ shape c1 = [nb; d]
  | GFrame dim nb gd0 gd1 c0 c1 =>
      dim = d /\ shape gd0 = [nb; d] /\ shape gd1 = [nb; d; d] /\
      shape c0 = [nb; d] /\ shape c1 = [nb; d; d]
  | GCLm _ _ _ _ _ _ _ _ _ => False
  | GEmpty dim => dim = d
  | GComp ms => fold_right (fun m acc => wf_gman d m /\ acc) True ms
  end.

(** No compound without members ([cot_to_vs] of an empty compound raises). *)
Fixpoint no_empty_comp (m : gman) : Prop :=
  match m with
  | GComp ms => ms <> [] /\ fold_right (fun m acc => no_empty_comp m /\ acc) True ms
  | _ => True
  end.

(** Does the tree contain descriptors that need the Jacobian of the field? *)
Fixpoint needs_jac (m : gman) : Prop :=
  match m with
  | GDir _ _ _ _ _ _ _ | GFrame _ _ _ _ _ _ => True
  | GComp ms => fold_right (fun m acc => needs_jac m \/ acc) False ms
  | _ => False
  end.

(** Does the tree contain landmarks with directions? *)
Fixpoint has_dir (m : gman) : Prop :=
  match m with
  | GDir _ _ _ _ _ _ _ => True
  | GComp ms => fold_right (fun m acc => has_dir m \/ acc) False ms
  | _ => False
  end.

(** Pairing of the cotangents with the velocities of the descriptors:
    a point x moves with v(x); a direction u at x with D(x) u ("vector") or
    - D(x)^T u ("orthogonal"); a frame r at x with (D(x) - D(x)^T)/2 r. *)
Fixpoint pairing (d : nat) (m : gman)
    (v : (nat -> R) -> nat -> R) (D : (nat -> R) -> nat -> nat -> R) : R :=
  let points nb gd cotan :=
    rsum nb (fun n => rsum d (fun a => cotan @2 n a * v (vrow gd n) a)) in
  match m with
  | GLm _ nb gd cotan => points nb gd cotan
  | GDir Vector _ nb gd0 gd1 c0 c1 =>
      points nb gd0 c0 +
      rsum nb (fun n => rsum d (fun a => c1 @2 n a *
        rsum d (fun l => D (vrow gd0 n) a l * gd1 @2 n l)))
  | GDir Orthogonal _ nb gd0 gd1 c0 c1 =>
      points nb gd0 c0 +
      rsum nb (fun n => rsum d (fun a => c1 @2 n a *
        - rsum d (fun l => D (vrow gd0 n) l a * gd1 @2 n l)))
  | GFrame _ nb gd0 gd1 c0 c1 =>
      points nb gd0 c0 +
      rsum nb (fun n => rsum d (fun i => rsum d (fun j => c1 @3 n i j *
        rsum d (fun k => (D (vrow gd0 n) i k - D (vrow gd0 n) k i) / 2 * gd1 @3 n k j))))
  | GCLm _ _ _ _ _ _ _ _ _ => 0
  | GEmpty _ => 0
  | GComp ms => fold_right (fun m acc => pairing d m v D + acc) 0 ms
  end.

(** Cotangents of a manifold in the same tree form as the tangents of its action. *)
Fixpoint cotans (m : gman) : gtan :=
  match m with
  | GLm _ _ _ c => TLm c
  | GDir _ _ _ _ _ c0 c1 => TPair c0 c1
  | GFrame _ _ _ _ c0 c1 => TPair c0 c1
  | GCLm _ _ _ _ _ c0 c1 _ _ => TPair c0 c1
  | GEmpty _ => TEmpty
  | GComp ms => TComp (map cotans ms)
  end.

(** Sum over all descriptors of the dot products of two such trees. *)
Fixpoint tree_dot (c t : gtan) {struct c} : R :=
  match c, t with
  | TLm a, TLm b => tdot a b
  | TPair a a', TPair b b' => tdot a b + tdot a' b'
  | TComp cs, TComp ts =>
      (fix go (cs ts : list gtan) : R :=
         match cs, ts with
         | c :: cs', t :: ts' => tree_dot c t + go cs' ts'
         | _, _ => 0
         end) cs ts
  | _, _ => 0
  end.

(** The callable [F] answers orders 0 and 1 with tensors of the expected shape. *)
Definition answers (d : nat) (F : vfield) : Prop :=
  forall p N, shape p = [N; d] ->
    (exists t, F p 0%nat = Ok t /\ shape t = [N; d]) /\
    (exists t, F p 1%nat = Ok t /\ shape t = [N; d; d]).

(** [H] is the combination a F + b G at orders 0 and 1. *)
Definition is_lincomb (d : nat) (a b : R) (F G H : vfield) : Prop :=
  forall p N k, shape p = [N; d] -> (k <= 1)%nat ->
    exists f g h, F p k = Ok f /\ G p k = Ok g /\ H p k = Ok h /\
      shape f = N :: repeat d (k + 1) /\ shape g = shape f /\ shape h = shape f /\
      forall idx, valid (shape f) idx -> get h idx = a * get f idx + b * get g idx.

(** The n-th d x d matrix of a tensor of matrices, matrix product, transpose. *)
Definition mat := nat -> nat -> R.
Definition slice (t : tensor) (n : nat) : mat := fun i j => t @3 n i j.
Definition mprod (d : nat) (A B : mat) : mat := fun i j => rsum d (fun k => A i k * B k j).
Definition mtr (A : mat) : mat := fun i j => A j i.
Definition meq (d : nat) (A B : mat) : Prop := forall i j, (i < d)%nat -> (j < d)%nat -> A i j = B i j.
Definition skew (d : nat) (A : mat) : Prop := forall i j, (i < d)%nat -> (j < d)%nat -> A j i = - A i j.
Definition mid : mat := delta.
Definition orthonormal (d : nat) (A : mat) : Prop := meq d (mprod d (mtr A) A) mid.
