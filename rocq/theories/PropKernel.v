(** Property theorems about the Gaussian kernel (C08, C09). *)
From Coq Require Import Reals String List Arith Lia Lra.
From Verif Require Import Py Tensor KernelModel SpecKernel SpecLinAlg KernelFacts GaussPSD.
Import ListNotations.
Open Scope R_scope.

(** C09: gauss_kernel at order 0 is the Gaussian, at order 1 its gradient [D], at
    order 2 the derivative of the gradient. *)
Theorem C09_gauss_kernel_derivatives : forall x n d sigma,
  sigma <> 0 -> shape x = [n; d] ->
  exists t0 t1 t2 (D : (nat -> R) -> nat -> R),
    gauss_kernel x 0 sigma = Ok (Some t0) /\ shape t0 = [n] /\
    gauss_kernel x 1 sigma = Ok (Some t1) /\ shape t1 = [n; d] /\
    gauss_kernel x 2 sigma = Ok (Some t2) /\ shape t2 = [n; d; d] /\
    (forall z l, (l < d)%nat -> is_partial (gaussian d sigma) z l (D z l)) /\
    forall r, (r < n)%nat ->
      t0 @1 r = gaussian d sigma (vrow x r) /\
      forall l, (l < d)%nat ->
        t1 @2 r l = D (vrow x r) l /\
        forall l', (l' < d)%nat -> is_partial (fun z => D z l) (vrow x r) l' (t2 @3 r l l').
Proof. exact gauss_kernel_derivatives. Qed.
Print Assumptions C09_gauss_kernel_derivatives.

Example C09_hypotheses : (2 : R) <> 0 /\ shape (mk2 3 2 (fun i j => INR (i + 2 * j))) = [3; 2]%nat.
Proof. split; [lra | reflexivity]. Qed.

(** C09: order 3 is refused with NotImplementedError ... *)
Theorem C09_order3_refused : forall x sigma, gauss_kernel x 3 sigma = Err NotImplementedError.
Proof. exact gauss_kernel_3. Qed.
Print Assumptions C09_order3_refused.

(** ... but every order >= 4 silently returns None instead of being refused. *)
Theorem C09_higher_orders_refused_refuted : forall x k sigma,
  (4 <= k)%nat -> gauss_kernel x k sigma = Ok None.
Proof. exact gauss_kernel_ge4. Qed.
Print Assumptions C09_higher_orders_refused_refuted.

(** C08: the kernel matrix of any point set is symmetric with unit diagonal and
    entries in (0, 1]; exchanging the arguments transposes the matrix. *)
Theorem C08_kernel_matrix_basic : forall x N d sigma, sigma <> 0 -> shape x = [N; d] ->
  shape (K_xx x sigma) = [N; N] /\
  symmetric N (entries (K_xx x sigma)) /\
  (forall i, (i < N)%nat -> entries (K_xx x sigma) i i = 1) /\
  (forall i j, 0 < entries (K_xx x sigma) i j <= 1).
Proof. exact K_xx_basic. Qed.
Print Assumptions C08_kernel_matrix_basic.

Theorem C08_cross_kernel_transpose : forall x y N M d sigma,
  sigma <> 0 -> shape x = [N; d] -> shape y = [M; d] ->
  shape (K_xy x y sigma) = [N; M] /\ shape (K_xy y x sigma) = [M; N] /\
  forall i j, entries (K_xy y x sigma) j i = entries (K_xy x y sigma) i j.
Proof. exact K_xy_transpose. Qed.
Print Assumptions C08_cross_kernel_transpose.

(** C08: positive semi-definite for every configuration (repeated points allowed). *)
Theorem C08_kernel_matrix_psd : forall x N d sigma,
  sigma <> 0 -> shape x = [N; d] -> psd N (entries (K_xx x sigma)).
Proof. exact K_xx_psd. Qed.
Print Assumptions C08_kernel_matrix_psd.

(** C08: positive definite as soon as the points are pairwise distinct. *)
Theorem C08_kernel_matrix_pd : forall x N d sigma,
  sigma <> 0 -> shape x = [N; d] -> distinct d N (vrow x) -> pd N (entries (K_xx x sigma)).
Proof. exact K_xx_pd. Qed.
Print Assumptions C08_kernel_matrix_pd.

(** C08: hence the linear system has exactly one solution. *)
Theorem C08_kernel_system_unique_solution : forall x N d sigma b,
  sigma <> 0 -> shape x = [N; d] -> distinct d N (vrow x) ->
  exists h, solves N (entries (K_xx x sigma)) h b /\
    forall h', solves N (entries (K_xx x sigma)) h' b -> forall i, (i < N)%nat -> h' i = h i.
Proof. exact K_xx_solvable. Qed.
Print Assumptions C08_kernel_system_unique_solution.

Example C08_hypotheses :
  let x := mk2 5 3 (fun i c => INR (i + c)) in
  shape x = [5; 3]%nat /\ distinct 3 5 (vrow x).
Proof.
  split; [reflexivity|]. intros i j _ _ Hij. exists 0%nat. split; [lia|].
  cbn. rewrite !Nat.add_0_r. intros E. apply INR_eq in E. contradiction.
Qed.

(** C08: pairwise distances are the Euclidean norms of the differences; they do not depend
    on the order of the arguments, and their squares are the squared distances. *)
Theorem C08_pairwise_distances : forall x y N M d, shape x = [N; d] -> shape y = [M; d] ->
  shape (distances x y) = [N; M] /\ shape (sqdistances x y) = [N; M] /\
  forall i j, (i < N)%nat -> (j < M)%nat ->
    entries (distances x y) i j = sqrt (rsum d (fun c => (entries x i c - entries y j c) ^ 2)) /\
    entries (sqdistances x y) i j = entries (distances x y) i j ^ 2 /\
    entries (distances y x) j i = entries (distances x y) i j /\
    (entries (distances x y) i j = 0 <-> forall c, (c < d)%nat -> entries x i c = entries y j c).
Proof.
  intros x y N M d Sx Sy. unfold distances, sqdistances, nrows, ncols. rewrite !Sx, !Sy. repeat split; try reflexivity.
  - unfold entries. cbn [get mk2 nth tnth]. rewrite <- Rsqr_pow2, Rsqr_sqrt; [reflexivity|]. apply rsum_nonneg. intros. apply pow2_ge_0.
  - unfold entries. cbn [get mk2 nth tnth]. f_equal. apply rsum_ext. intros c _. unfold unsq_diff. cbn [get mk3]. ring.
  - unfold entries. cbn [get mk2 nth tnth]. intros E c Hc.
    apply sqrt_eq_0 in E; [|apply rsum_nonneg; intros; apply pow2_ge_0].
    assert (Z := rsum_nonneg_zero d _ (fun c _ => pow2_ge_0 _) E c Hc). cbn beta in Z. unfold unsq_diff in Z. cbn [get mk3] in Z. rewrite <- Rsqr_pow2 in Z. apply Rsqr_eq_0 in Z. lra.
  - intros E. unfold entries in *. cbn [get mk2 nth tnth]. rewrite (rsum_ext d _ (fun _ => 0)); [rewrite rsum_const, Rmult_0_r; apply sqrt_0|].
    intros c Hc. unfold unsq_diff. cbn [get mk3]. rewrite (E c Hc). ring.
Qed.
Print Assumptions C08_pairwise_distances.
