(** Property theorems about eta and the strain matrices (C13, C14, part of C11). *)
From Coq Require Import Reals String List Arith Lia Lra.
From Verif Require Import Py RSum Tensor KernelModel SpecKernel SpecLinAlg FieldModel SpecField SpecSKS SKSFacts.
Import ListNotations.
Open Scope R_scope.

(** C13: in dimensions 2 and 3, eta is a list of d(d+1)/2 symmetric matrices,
    orthonormal for the Frobenius product. *)
Theorem C13_eta_orthonormal : forall d e, eta d = Ok e ->
  let s := (d * (d + 1) / 2)%nat in
  shape e = [d; d; s] /\
  (forall t, (t < s)%nat -> sym_mat d (bmat e t)) /\
  (forall t u, (t < s)%nat -> (u < s)%nat -> frob d (bmat e t) (bmat e u) = if Nat.eqb t u then 1 else 0).
Proof.
  exact (fun d e H => let '(conj A (conj B (conj C _))) := eta_basis d e H in
    conj A (conj (fun t Ht i j Hi Hj => B i j t Hi Hj Ht) C)).
Qed.
Print Assumptions C13_eta_orthonormal.

(** C13: coordinates -> matrix -> coordinates is the identity, and matrix ->
    coordinates -> matrix is the symmetric part (the matrix itself if symmetric). *)
Theorem C13_round_trips : forall d e, eta d = Ok e ->
  let s := (d * (d + 1) / 2)%nat in
  (forall lam, sym_mat d (from_coords s e lam) /\
     forall t, (t < s)%nat -> coords d e (from_coords s e lam) t = lam t) /\
  (forall M i j, (i < d)%nat -> (j < d)%nat ->
     from_coords s e (coords d e M) i j = (M i j + M j i) / 2) /\
  (forall M, sym_mat d M -> forall i j, (i < d)%nat -> (j < d)%nat ->
     from_coords s e (coords d e M) i j = M i j).
Proof. exact eta_round_trips. Qed.
Print Assumptions C13_round_trips.

(** C13: exactly the dimensions 2 and 3 are supported; others are refused. *)
Theorem C13_dimensions : forall d,
  ((d = 2%nat \/ d = 3%nat) -> exists e, eta d = Ok e) /\
  (d <> 2%nat -> d <> 3%nat -> eta d = Err NotImplementedError).
Proof. exact (fun d => conj (proj2 (eta_ok d)) (eta_err d)). Qed.
Print Assumptions C13_dimensions.

Example C13_hypotheses : eta 2 = Ok eta2 /\ eta 3 = Ok eta3 /\
  sym_mat 2 (fun i j => INR (i + j)) /\ ~ sym_mat 2 (fun i _ => INR i).
Proof.
  split; [reflexivity|]. split; [reflexivity|]. split.
  - intros i j _ _. rewrite Nat.add_comm. reflexivity.
  - intros H. specialize (H 0%nat 1%nat ltac:(lia) ltac:(lia)). cbn in H. lra.
Qed.

(** C14: the order-1 matrix is symmetric, positive semi-definite, and positive
    definite when the points are pairwise distinct. *)
Theorem C14_sks_symmetric_psd : forall x N d e sigma,
  sigma <> 0 -> shape x = [N; d] -> eta d = Ok e ->
  let n := (d * (d + 1) / 2 * N)%nat in
  exists S, compute_sks x sigma 1 (u_tensor d e) = Ok S /\ shape S = [n; n] /\
    symmetric n (entries S) /\ psd n (entries S) /\ (distinct d N (vrow x) -> pd n (entries S)).
Proof. exact sks_properties. Qed.
Print Assumptions C14_sks_symmetric_psd.

(** C14: applied to the coordinates lam of matrices P_j, the matrix gives at each
    point the coordinates of the strain of the field SF_p with moments P_j. *)
Theorem C14_sks_computes_strain : forall x N d e sigma,
  sigma <> 0 -> shape x = [N; d] -> eta d = Ok e ->
  let s := (d * (d + 1) / 2)%nat in
  exists S, compute_sks x sigma 1 (u_tensor d e) = Ok S /\
    forall b lam i, (i < N)%nat ->
      let f := SF_p b x (moments_of N d s e lam) sigma in
      wf_field d f /\
      (forall t, (t < s)%nat ->
        rsum (s * N) (fun q => S @2 (i * s + t)%nat q * lam q) = coords d e (strain d f (vrow x i)) t) /\
      (forall a c, (a < d)%nat -> (c < d)%nat ->
        strain d f (vrow x i) a c =
        from_coords s e (fun t => rsum (s * N) (fun q => S @2 (i * s + t)%nat q * lam q)) a c).
Proof. exact sks_strain. Qed.
Print Assumptions C14_sks_computes_strain.

(** C14: the order-0 matrix is the scalar kernel matrix times the identity. *)
Theorem C14_order0_is_kernel : forall x N d sigma u, sigma <> 0 -> shape x = [N; d] ->
  exists S, compute_sks x sigma 0 u = Ok S /\ shape S = [(d * N)%nat; (d * N)%nat] /\
    forall i j a b, (i < N)%nat -> (j < N)%nat -> (a < d)%nat -> (b < d)%nat ->
      S @2 (i * d + a)%nat (j * d + b)%nat = entries (K_xx x sigma) i j * (if Nat.eqb a b then 1 else 0).
Proof. exact sks_order0. Qed.
Print Assumptions C14_order0_is_kernel.

(** C14: other orders are refused. *)
Theorem C14_other_orders_refused : forall x sigma k u,
  (2 <= k)%nat -> compute_sks x sigma k u = Err NotImplementedError.
Proof. exact sks_refused. Qed.
Print Assumptions C14_other_orders_refused.

(** C11: the KeOps matrix has the same entries as the torch one. *)
Theorem C11_sks_backend_independent : forall x N d e sigma,
  sigma <> 0 -> shape x = [N; d] -> eta d = Ok e ->
  exists S S', compute_sks x sigma 1 (u_tensor d e) = Ok S /\
    compute_sks_keops x sigma 1 (u_tensor d e) = Ok S' /\ teq S S'.
Proof. exact sks_backends. Qed.
Print Assumptions C11_sks_backend_independent.

Definition ex_pts : tensor := mk2 3 2 (fun i c => INR (i * (c + 1))).
Example C14_hypotheses : (2 : R) <> 0 /\ shape ex_pts = [3; 2]%nat /\ (exists e, eta 2 = Ok e) /\
  distinct 2 3 (vrow ex_pts).
Proof.
  split; [lra|]. split; [reflexivity|]. split; [eexists; reflexivity|].
  intros i j Hi Hj Hij. exists 0%nat. split; [lia|]. unfold vrow, ex_pts. cbn [mk2 get].
  intros E. apply INR_eq in E. lia.
Qed.
