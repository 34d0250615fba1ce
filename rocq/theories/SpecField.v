(** Specification of the vector fields: the mathematical value and Jacobian of
    each kind of field at a point p of R^d.

    With K the Gaussian of scale sigma, x_j the support points:
      SF_0     v(p)   = sum_j K(p - x_j) m_j
      SF_0_u   v(p)   = sum_j < -grad K(p - x_j), u_j > m_j
      SF_1     v(p)_a = sum_j (d_a K)(x_j - p) m_j
      SF_p/m   v(p)   = sum_j P_j (-grad K(p - x_j)),  P_j = (m_j +/- m_j^T)/2
      affine   v(p)   = A (p - x0) + u
      constant v(p)   = m ;  null v(p) = 0 ;  sum: pointwise sum. *)
From Coq Require Import Reals List.
From Verif Require Import RSum Tensor KernelModel FieldModel SpecKernel.
Import ListNotations.
Open Scope R_scope.

Definition symP (m : tensor) (j a c : nat) : R := (m @3 j a c + m @3 j c a) / 2.
Definition skewP (m : tensor) (j a c : nat) : R := (m @3 j a c - m @3 j c a) / 2.

Fixpoint fval (d : nat) (f : sfield) (p : nat -> R) (a : nat) : R :=
  match f with
  | SF_0 _ s m sg => rsum (nrows s) (fun j => gaussian d sg (vsub p (vrow s j)) * m @2 j a)
  | SF_0_u _ s m u sg =>
      rsum (nrows s) (fun j =>
        rsum d (fun c => - dgauss d sg (vsub p (vrow s j)) c * u @2 j c) * m @2 j a)
  | SF_1 _ s m sg => rsum (nrows s) (fun j => dgauss d sg (vsub (vrow s j) p) a * m @1 j)
  | SF_p _ s m sg =>
      rsum (nrows s) (fun j => rsum d (fun c => symP m j a c * - dgauss d sg (vsub p (vrow s j)) c))
  | SF_m _ s m sg =>
      rsum (nrows s) (fun j => rsum d (fun c => skewP m j a c * - dgauss d sg (vsub p (vrow s j)) c))
  | SF_affine A x0 u => rsum d (fun c => A @2 a c * (p c - x0 @1 c)) + u @1 a
  | SF_const m => m @1 a
  | SF_null _ => 0
  | SF_sum fs => fold_right (fun g acc => fval d g p a + acc) 0 fs
  end.

(** Entry (a, l) of the Jacobian: derivative along axis l of component a. *)
Fixpoint fjac (d : nat) (f : sfield) (p : nat -> R) (a l : nat) : R :=
  match f with
  | SF_0 _ s m sg => rsum (nrows s) (fun j => dgauss d sg (vsub p (vrow s j)) l * m @2 j a)
  | SF_0_u _ s m u sg =>
      rsum (nrows s) (fun j =>
        rsum d (fun c => - d2gauss d sg (vsub p (vrow s j)) c l * u @2 j c) * m @2 j a)
  | SF_1 _ s m sg => rsum (nrows s) (fun j => - d2gauss d sg (vsub (vrow s j) p) a l * m @1 j)
  | SF_p _ s m sg =>
      rsum (nrows s) (fun j => rsum d (fun c => symP m j a c * - d2gauss d sg (vsub p (vrow s j)) c l))
  | SF_m _ s m sg =>
      rsum (nrows s) (fun j => rsum d (fun c => skewP m j a c * - d2gauss d sg (vsub p (vrow s j)) c l))
  | SF_affine A _ _ => A @2 a l
  | SF_const _ => 0
  | SF_null _ => 0
  | SF_sum fs => fold_right (fun g acc => fjac d g p a l + acc) 0 fs
  end.

(** Well-formed field of dimension [d]: tensor shapes as required by the
    constructors, non-zero scales, non-empty sums. *)
Fixpoint wf_field (d : nat) (f : sfield) : Prop :=
  match f with
  | SF_0 _ s m sg => sg <> 0 /\ exists M, shape s = [M; d] /\ shape m = [M; d]
  | SF_0_u _ s m u sg =>
      sg <> 0 /\ exists M, shape s = [M; d] /\ shape m = [M; d] /\ shape u = [M; d]
  | SF_1 _ s m sg => sg <> 0 /\ exists M, shape s = [M; d] /\ shape m = [M]
  | SF_p _ s m sg | SF_m _ s m sg =>
      sg <> 0 /\ exists M, shape s = [M; d] /\ shape m = [M; d; d]
  | SF_affine A x0 u => shape A = [d; d] /\ shape x0 = [d] /\ shape u = [d]
  | SF_const m => shape m = [d]
  | SF_null d' => d' = d
  | SF_sum fs => fs <> [] /\ fold_right (fun g acc => wf_field d g /\ acc) True fs
  end.

(** Fields whose value (order 0) is implemented. *)
Fixpoint has0 (f : sfield) : Prop :=
  match f with
  | SF_1 Keops _ _ _ => False
  | SF_sum fs => fold_right (fun g acc => has0 g /\ acc) True fs
  | _ => True
  end.

(** Fields whose Jacobian (order 1) is implemented. *)
Fixpoint has1 (f : sfield) : Prop :=
  match f with
  | SF_1 Keops _ _ _ => False
  | SF_0_u _ _ _ _ _ => False
  | SF_sum fs => fold_right (fun g acc => has1 g /\ acc) True fs
  | _ => True
  end.

(** Entry (a, l, l') of the second derivative (only the fields for which the code
    implements order 2). *)
Fixpoint fhess (d : nat) (f : sfield) (p : nat -> R) (a l l' : nat) : R :=
  match f with
  | SF_0 _ s m sg => rsum (nrows s) (fun j => d2gauss d sg (vsub p (vrow s j)) l l' * m @2 j a)
  | SF_sum fs => fold_right (fun g acc => fhess d g p a l l' + acc) 0 fs
  | _ => 0
  end.

Fixpoint has2 (f : sfield) : Prop :=
  match f with
  | SF_0 Torch _ _ _ | SF_affine _ _ _ | SF_const _ | SF_null _ => True
  | SF_sum fs => fold_right (fun g acc => has2 g /\ acc) True fs
  | _ => False
  end.

(** Replace every back end choice of a field by [b]. *)
Fixpoint with_backend (b : backend) (f : sfield) : sfield :=
  match f with
  | SF_0 _ s m sg => SF_0 b s m sg
  | SF_0_u _ s m u sg => SF_0_u b s m u sg
  | SF_1 _ s m sg => SF_1 b s m sg
  | SF_p _ s m sg => SF_p b s m sg
  | SF_m _ s m sg => SF_m b s m sg
  | SF_affine A x0 u => SF_affine A x0 u
  | SF_const m => SF_const m
  | SF_null d => SF_null d
  | SF_sum fs => SF_sum (map (with_backend b) fs)
  end.

(** The kernel fields, as a family indexed by their kind. *)
Inductive fkind := K0 | K0u (directions : tensor) | K1 | Kp | Km.

Definition kfield (kd : fkind) (b : backend) (s m : tensor) (sg : R) : sfield :=
  match kd with
  | K0 => SF_0 b s m sg
  | K0u u => SF_0_u b s m u sg
  | K1 => SF_1 b s m sg
  | Kp => SF_p b s m sg
  | Km => SF_m b s m sg
  end.

(** [t] is the concatenation of [t1] and [t2] along the first axis. *)
Definition is_cat (M1 : nat) (t t1 t2 : tensor) : Prop :=
  forall j r, get t (j :: r) = if Nat.ltb j M1 then get t1 (j :: r) else get t2 ((j - M1)%nat :: r).

(** Directions are cut together with the support. *)
Definition kind_cat (M1 : nat) (kd kd1 kd2 : fkind) : Prop :=
  match kd, kd1, kd2 with
  | K0u u, K0u u1, K0u u2 => is_cat M1 u u1 u2
  | K0, K0, K0 | K1, K1, K1 | Kp, Kp, Kp | Km, Km, Km => True
  | _, _, _ => False
  end.

(** Shape of the answer at order k, and availability of orders 0 and 1. *)
Definition shape_k (N d k : nat) : list nat := N :: repeat d (k + 1).
Definition has_k (k : nat) (f : sfield) : Prop :=
  match k with 0%nat => has0 f | 1%nat => has1 f | _ => False end.

(** The points [p] with coordinate [l] of point [n] replaced by [t]. *)
Definition upd_point (p : tensor) (n l : nat) (t : R) : tensor :=
  mkT (shape p) (fun idx =>
    match idx with
    | [n'; l'] => if Nat.eqb n' n && Nat.eqb l' l then t else get p idx
    | _ => get p idx
    end)%bool.
