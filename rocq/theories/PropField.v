(** Property theorems about structured fields (C10, C11, C12). *)
From Coq Require Import Reals String List Arith Lia Lra.
From Verif Require Import Py Tensor KernelModel FieldModel SpecKernel SpecField FieldLinear.
Import ListNotations.
Open Scope R_scope.

(** A concrete field used as witness that the hypotheses below are satisfiable:
    a sum of all kinds of fields in the plane, on three support points. *)
Definition ex_support : tensor := mk2 3 2 (fun i j => INR (i + 2 * j)).
Definition ex_moments : tensor := mk2 3 2 (fun i j => INR (i * j) - 1).
Definition ex_matrices : tensor := mk3 3 2 2 (fun i a b => INR (i + 2 * a) - INR b).
Definition ex_scalars : tensor := mk1 3 (fun i => INR i - 1).
Definition ex_points : tensor := mk2 4 2 (fun i j => INR i / 2 - INR j).
Definition ex_field : sfield :=
  SF_sum [SF_0 Torch ex_support ex_moments 2; SF_0 Keops ex_support ex_moments 1;
          SF_1 Torch ex_support ex_scalars 3; SF_p Keops ex_support ex_matrices 2;
          SF_sum [SF_m Torch ex_support ex_matrices 1; SF_const (mk1 2 (fun _ => 1))];
          SF_affine (eye 2) (mk1 2 INR) (mk1 2 (fun _ => 3)); SF_null 2].

(** C10: the answer to [k=1] is the Jacobian of the answers to [k=0]: for every
    entry, replacing coordinate l of point n by t gives at order 0 a function F of
    t whose derivative at the current coordinate is that entry. *)
Theorem C10_order1_is_jacobian : forall d f p N,
  wf_field d f -> has1 f -> shape p = [N; d] ->
  exists J, feval f p 1 = Ok J /\ shape J = [N; d; d] /\
    forall n a l, (n < N)%nat -> (a < d)%nat -> (l < d)%nat ->
      exists F : R -> R,
        (forall t, exists v, feval f (upd_point p n l t) 0 = Ok v /\ v @2 n a = F t) /\
        derivable_pt_lim F (p @2 n l) (J @3 n a l).
Proof. exact feval_jacobian. Qed.
Print Assumptions C10_order1_is_jacobian.

Example C10_hypotheses : wf_field 2 ex_field /\ has1 ex_field /\ shape ex_points = [4; 2]%nat.
Proof.
  cbn. repeat split; try discriminate; try lra; exists 3%nat; repeat split; reflexivity.
Qed.

(** C10: order 2 differentiates order 1, for the fields that implement it. *)
Theorem C10_order2_is_hessian : forall d f p N,
  wf_field d f -> has2 f -> shape p = [N; d] ->
  exists H, feval f p 2 = Ok H /\ shape H = [N; d; d; d] /\
    forall n a l l', (n < N)%nat -> (a < d)%nat -> (l < d)%nat -> (l' < d)%nat ->
      exists F : R -> R,
        (forall t, exists v, feval f (upd_point p n l' t) 1 = Ok v /\ v @3 n a l = F t) /\
        derivable_pt_lim F (p @2 n l') (H @4 n a l l').
Proof. exact feval_hessian. Qed.
Print Assumptions C10_order2_is_hessian.

Example C10_order2_hypotheses :
  let f := SF_sum [SF_0 Torch ex_support ex_moments 2; SF_affine (eye 2) (mk1 2 INR) (mk1 2 INR)] in
  wf_field 2 f /\ has2 f.
Proof. cbn. repeat split; try discriminate; try lra. exists 3%nat. split; reflexivity. Qed.

(** C10: where order 1 is not implemented the call raises NotImplementedError
    rather than returning a wrong Jacobian. *)
Theorem C10_order1_or_not_implemented : forall d f p N,
  wf_field d f -> shape p = [N; d] ->
  (has1 f /\ is_ok (feval f p 1)) \/ (~ has1 f /\ feval f p 1 = Err NotImplementedError).
Proof. exact feval_1_total. Qed.
Print Assumptions C10_order1_or_not_implemented.

(** C11: both back ends give the same tensor at orders 0 and 1. *)
Theorem C11_fields_backend_independent : forall d f p N k b1 b2,
  wf_field d f -> has_k k (with_backend b1 f) -> has_k k (with_backend b2 f) -> shape p = [N; d] ->
  exists t1 t2, feval (with_backend b1 f) p k = Ok t1 /\ feval (with_backend b2 f) p k = Ok t2 /\ teq t1 t2.
Proof. exact feval_backend. Qed.
Print Assumptions C11_fields_backend_independent.

Example C11_hypotheses :
  let f := SF_sum [SF_0 Torch ex_support ex_moments 2; SF_p Keops ex_support ex_matrices 2;
                   SF_m Torch ex_support ex_matrices 1] in
  wf_field 2 f /\ has_k 1 (with_backend Torch f) /\ has_k 1 (with_backend Keops f).
Proof. cbn. repeat split; try discriminate; try lra; exists 3%nat; split; reflexivity. Qed.

(** C12: a sum of fields is the sum of their answers, at every order; if a member
    raises so does the sum. *)
Theorem C12_sum_is_pointwise : forall fs p k ts,
  fs <> [] -> Forall2 (fun f t => feval f p k = Ok t) fs ts ->
  exists t, feval (SF_sum fs) p k = Ok t /\ shape t = shape (hd t ts) /\
    forall idx, get t idx = fold_right (fun t' acc => get t' idx + acc) 0 ts.
Proof. exact feval_sum_ok. Qed.
Print Assumptions C12_sum_is_pointwise.

Theorem C12_sum_raises_first_error : forall fs1 f fs2 p k e,
  (forall g, In g fs1 -> exists t, feval g p k = Ok t) -> feval f p k = Err e ->
  feval (SF_sum (fs1 ++ f :: fs2)) p k = Err e.
Proof. exact feval_sum_err. Qed.
Print Assumptions C12_sum_raises_first_error.

(** C12: every kernel field is linear in its moments (orders 0 and 1). *)
Theorem C12_linear_in_moments : forall kd b s m1 m2 c1 c2 sg d p N k,
  wf_field d (kfield kd b s m1 sg) -> wf_field d (kfield kd b s m2 sg) ->
  has_k k (kfield kd b s m1 sg) -> shape p = [N; d] ->
  exists t t1 t2,
    feval (kfield kd b s (tadd (tscal c1 m1) (tscal c2 m2)) sg) p k = Ok t /\
    feval (kfield kd b s m1 sg) p k = Ok t1 /\
    feval (kfield kd b s m2 sg) p k = Ok t2 /\
    shape t = shape_k N d k /\ shape t1 = shape_k N d k /\ shape t2 = shape_k N d k /\
    forall idx, valid (shape_k N d k) idx -> get t idx = c1 * get t1 idx + c2 * get t2 idx.
Proof. exact feval_lin. Qed.
Print Assumptions C12_linear_in_moments.

(** C12: cutting the support (with its moments) in two gives two fields whose sum
    is the original field. *)
Theorem C12_additive_in_support : forall kd kd1 kd2 b s s1 s2 m m1 m2 sg d p N k M1,
  wf_field d (kfield kd b s m sg) -> wf_field d (kfield kd1 b s1 m1 sg) -> wf_field d (kfield kd2 b s2 m2 sg) ->
  kind_cat M1 kd kd1 kd2 -> nrows s1 = M1 -> nrows s = (M1 + nrows s2)%nat ->
  is_cat M1 s s1 s2 -> is_cat M1 m m1 m2 ->
  has_k k (kfield kd b s m sg) -> shape p = [N; d] ->
  exists t t12,
    feval (kfield kd b s m sg) p k = Ok t /\
    feval (SF_sum [kfield kd1 b s1 m1 sg; kfield kd2 b s2 m2 sg]) p k = Ok t12 /\
    shape t = shape_k N d k /\ shape t12 = shape_k N d k /\
    forall idx, valid (shape_k N d k) idx -> get t idx = get t12 idx.
Proof. exact feval_cat. Qed.
Print Assumptions C12_additive_in_support.

Example C12_cat_hypotheses :
  let c (M : nat) (t : list nat -> R) (d : nat) := mkT [M; d] t in
  let s1 := c 1%nat (fun idx => INR (nth 1 idx 0%nat)) 2%nat in
  let s2 := c 2%nat (fun idx => INR (nth 0 idx 0%nat) + 1) 2%nat in
  let s := c 3%nat (fun idx => match idx with
                       | j :: r => if Nat.ltb j 1 then get s1 (j :: r) else get s2 ((j - 1)%nat :: r)
                       | [] => 0 end) 2%nat in
  is_cat 1 s s1 s2 /\ wf_field 2 (kfield Kp Torch s (mkT [3; 2; 2]%nat (get s)) 1).
Proof.
  cbn [kfield wf_field]. split; [intros j r; reflexivity|].
  split; [lra|]. exists 3%nat. split; reflexivity.
Qed.
