(** Entries of the kernel tensors in terms of the Gaussian specification, and
    the derivative property of [gauss_kernel]. *)
From Coq Require Import Reals String List Arith Lia Lra FunctionalExtensionality.
From Verif Require Import Py Tensor TensorFacts KernelModel SpecKernel.
Import ListNotations.
Open Scope R_scope.

Lemma gaussian_ext d sigma z z' :
  (forall c, (c < d)%nat -> z c = z' c) -> gaussian d sigma z = gaussian d sigma z'.
Proof.
  intros H. unfold gaussian, sqn. f_equal. f_equal. f_equal. apply rsum_ext.
  intros c Hc. rewrite H by assumption. reflexivity.
Qed.

Lemma dgauss_ext d sigma z z' l :
  (l < d)%nat -> (forall c, (c < d)%nat -> z c = z' c) -> dgauss d sigma z l = dgauss d sigma z' l.
Proof.
  intros Hl H. unfold dgauss. rewrite (gaussian_ext d sigma z z' H), (H l Hl). reflexivity.
Qed.

Lemma d2gauss_ext d sigma z z' l l' :
  (l < d)%nat -> (l' < d)%nat -> (forall c, (c < d)%nat -> z c = z' c) ->
  d2gauss d sigma z l l' = d2gauss d sigma z' l l'.
Proof.
  intros Hl Hl' H. unfold d2gauss.
  rewrite (gaussian_ext d sigma z z' H), (H l Hl), (H l' Hl'). reflexivity.
Qed.

Lemma gaussian_pos d sigma z : 0 < gaussian d sigma z.
Proof. apply exp_pos. Qed.

Lemma sqn_nonneg d z : 0 <= sqn d z.
Proof. apply rsum_nonneg. intros. apply pow2_ge_0. Qed.

Lemma gaussian_le_1 d sigma z : sigma <> 0 -> gaussian d sigma z <= 1.
Proof.
  intros Hs. unfold gaussian. rewrite <- exp_0.
  assert (Hs2 : 0 < sigma ^ 2) by (rewrite <- Rsqr_pow2; apply Rsqr_pos_lt; assumption).
  assert (H : - sqn d z / (2 * sigma ^ 2) <= 0).
  { unfold Rdiv. rewrite Ropp_mult_distr_l_reverse.
    assert (0 <= sqn d z * / (2 * sigma ^ 2)).
    { apply Rmult_le_pos; [apply sqn_nonneg|]. left. apply Rinv_0_lt_compat. lra. }
    lra. }
  destruct H as [H|H]; [left; apply exp_increasing; assumption | right; f_equal; assumption].
Qed.

Lemma sqn_opp d z : sqn d (fun c => - z c) = sqn d z.
Proof. unfold sqn. apply rsum_ext. intros. ring. Qed.

Lemma sqn_vsub_sym d x y : sqn d (vsub x y) = sqn d (vsub y x).
Proof. unfold sqn, vsub. apply rsum_ext. intros. ring. Qed.

Lemma gaussian_vsub_sym d sigma x y : gaussian d sigma (vsub x y) = gaussian d sigma (vsub y x).
Proof. unfold gaussian. rewrite sqn_vsub_sym. reflexivity. Qed.

(** The gradient is odd and the Hessian even. *)
Lemma dgauss_vsub_odd d sigma x y l : dgauss d sigma (vsub x y) l = - dgauss d sigma (vsub y x) l.
Proof. unfold dgauss. rewrite gaussian_vsub_sym. unfold vsub, Rdiv. ring. Qed.

Lemma d2gauss_vsub_even d sigma x y l l' :
  d2gauss d sigma (vsub x y) l l' = d2gauss d sigma (vsub y x) l l'.
Proof. unfold d2gauss. rewrite gaussian_vsub_sym. unfold vsub, Rdiv. ring. Qed.

Lemma d2gauss_sym d sigma z l l' : d2gauss d sigma z l l' = d2gauss d sigma z l' l.
Proof. unfold d2gauss. rewrite (delta_sym l l'). unfold Rdiv. ring. Qed.

(** ** Derivatives *)

Lemma upd_same z l t : upd z l t l = t.
Proof. unfold upd. rewrite Nat.eqb_refl. reflexivity. Qed.

Lemma upd_other z l t c : c <> l -> upd z l t c = z c.
Proof. intros H. unfold upd. apply Nat.eqb_neq in H. rewrite H. reflexivity. Qed.

Lemma upd_id z l c : upd z l (z l) c = z c.
Proof. unfold upd. destruct (Nat.eqb_spec c l); congruence. Qed.

Lemma derivable_ext f g x D :
  (forall t, f t = g t) -> derivable_pt_lim f x D -> derivable_pt_lim g x D.
Proof.
  intros H Hf. replace g with f; [assumption|]. apply functional_extensionality. exact H.
Qed.

Lemma derivable_const c x : derivable_pt_lim (fun _ => c) x 0.
Proof. apply derivable_pt_lim_const. Qed.

Lemma derivable_rsum n (f : nat -> R -> R) x (D : nat -> R) :
  (forall i, (i < n)%nat -> derivable_pt_lim (f i) x (D i)) ->
  derivable_pt_lim (fun t => rsum n (fun i => f i t)) x (rsum n D).
Proof.
  induction n as [|n IH]; intros H; cbn [rsum].
  - apply derivable_pt_lim_const.
  - apply (derivable_pt_lim_plus (fun t => rsum n (fun i => f i t)) (f n)).
    + apply IH. intros i Hi. apply H. lia.
    + apply H. lia.
Qed.

Lemma derivable_scal c f x D :
  derivable_pt_lim f x D -> derivable_pt_lim (fun t => c * f t) x (c * D).
Proof. intros H. apply (derivable_pt_lim_scal f c x D H). Qed.

Lemma derivable_scal_r c f x D :
  derivable_pt_lim f x D -> derivable_pt_lim (fun t => f t * c) x (D * c).
Proof.
  intros H. rewrite Rmult_comm. apply (derivable_ext (fun t => c * f t)).
  - intros; ring.
  - apply derivable_scal; assumption.
Qed.

Lemma derivable_sub_const c f x D :
  derivable_pt_lim f x D -> derivable_pt_lim (fun t => f t - c) x D.
Proof.
  intros H. replace D with (D - 0) by ring.
  apply (derivable_pt_lim_minus f (fun _ => c)); [assumption | apply derivable_pt_lim_const].
Qed.

(** d/dz_l |z - y|^2 = 2 (z_l - y_l) *)
Lemma partial_sqn d z l :
  (l < d)%nat -> is_partial (sqn d) z l (2 * z l).
Proof.
  intros Hl. unfold is_partial, sqn.
  replace (2 * z l) with (rsum d (fun c => delta c l * (2 * z c))).
  - apply derivable_rsum. intros c Hc. unfold delta, upd.
    destruct (Nat.eqb_spec c l) as [->|Hne].
    + replace (1 * (2 * z l)) with (INR 2 * z l ^ pred 2) by (cbn; ring).
      apply derivable_pt_lim_pow.
    + replace (0 * (2 * z c)) with 0 by ring. apply derivable_pt_lim_const.
  - rewrite rsum_delta_l by assumption. reflexivity.
Qed.

Lemma partial_gaussian d sigma z l :
  sigma <> 0 -> (l < d)%nat -> is_partial (gaussian d sigma) z l (dgauss d sigma z l).
Proof.
  intros Hs Hl. unfold is_partial, gaussian.
  pose (c := - / (2 * sigma ^ 2)).
  apply (derivable_ext (fun t => exp (c * sqn d (upd z l t)))).
  { intros t. f_equal. unfold c, Rdiv. ring. }
  replace (dgauss d sigma z l) with (exp (c * sqn d (upd z l (z l))) * (c * (2 * z l))).
  - apply (derivable_pt_lim_comp (fun t => c * sqn d (upd z l t)) exp).
    + apply derivable_scal. apply partial_sqn; assumption.
    + apply derivable_pt_lim_exp.
  - unfold dgauss, gaussian.
    replace (sqn d (upd z l (z l))) with (sqn d z).
    2: { unfold sqn. apply rsum_ext. intros. rewrite upd_id. reflexivity. }
    replace (c * sqn d z) with (- sqn d z / (2 * sigma ^ 2)) by (unfold c, Rdiv; ring).
    unfold c. field. assumption.
Qed.

Lemma partial_dgauss d sigma z l l' :
  sigma <> 0 -> (l < d)%nat -> (l' < d)%nat ->
  is_partial (fun w => dgauss d sigma w l) z l' (d2gauss d sigma z l l').
Proof.
  intros Hs Hl Hl'. unfold is_partial, dgauss.
  replace (d2gauss d sigma z l l')
    with (- (delta l l' / sigma ^ 2) * gaussian d sigma (upd z l' (z l'))
          + - (upd z l' (z l') l / sigma ^ 2) * dgauss d sigma z l').
  - apply (derivable_pt_lim_mult (fun t => - (upd z l' t l / sigma ^ 2))
                                 (fun t => gaussian d sigma (upd z l' t))).
    + unfold delta, upd. destruct (Nat.eqb_spec l l') as [->|Hne].
      * apply (derivable_ext (fun t => (- / sigma ^ 2) * t)).
        { intros t. unfold Rdiv. ring. }
        replace (- (1 / sigma ^ 2)) with (- / sigma ^ 2 * 1) by (unfold Rdiv; ring).
        apply derivable_scal. apply derivable_pt_lim_id.
      * replace (- (0 / sigma ^ 2)) with 0 by (unfold Rdiv; ring).
        apply derivable_pt_lim_const.
    + apply partial_gaussian; assumption.
  - rewrite (gaussian_ext d sigma (upd z l' (z l')) z) by (intros; apply upd_id).
    rewrite upd_id. unfold d2gauss, dgauss. field. assumption.
Qed.

(** ** Entries of the model tensors *)

Lemma rel_differences_get x y N M d i j c :
  shape x = [N; d] -> shape y = [M; d] -> (i < N)%nat -> (j < M)%nat -> (c < d)%nat ->
  (rel_differences x y) @2 (i * M + j)%nat c = x @2 i c - y @2 j c.
Proof.
  intros Hx Hy Hi Hj Hc. unfold rel_differences, unsq_diff, nrows, ncols. rewrite Hx, Hy. cbn [tnth nth].
  rewrite (get_reshape_merge N M [d] _ i j [c]); [reflexivity | reflexivity | assumption..|].
  cbn; auto.
Qed.

Lemma rel_differences_shape x y N M d :
  shape x = [N; d] -> shape y = [M; d] -> shape (rel_differences x y) = [(N * M)%nat; d].
Proof. intros Hx Hy. cbn. unfold nrows, ncols. rewrite Hx, Hy. reflexivity. Qed.

Lemma vrow_rel x y N M d i j c :
  shape x = [N; d] -> shape y = [M; d] -> (i < N)%nat -> (j < M)%nat -> (c < d)%nat ->
  vrow (rel_differences x y) (i * M + j) c = vsub (vrow x i) (vrow y j) c.
Proof. intros. unfold vrow at 1. rewrite (rel_differences_get x y N M d) by assumption. reflexivity. Qed.

Lemma sqdistances_get x y N M d i j :
  shape x = [N; d] -> shape y = [M; d] ->
  (sqdistances x y) @2 i j = sqn d (vsub (vrow x i) (vrow y j)).
Proof. intros Hx Hy. cbn. unfold ncols. rewrite Hx. reflexivity. Qed.

Lemma K_xy_get x y N M d sigma i j :
  sigma <> 0 -> shape x = [N; d] -> shape y = [M; d] ->
  (K_xy x y sigma) @2 i j = gaussian d sigma (vsub (vrow x i) (vrow y j)).
Proof.
  intros Hs Hx Hy. unfold K_xy, tmap. cbn [get]. rewrite (sqdistances_get x y N M d) by assumption.
  unfold gaussian. f_equal. field. assumption.
Qed.

Lemma K_xy_shape x y N M d sigma :
  shape x = [N; d] -> shape y = [M; d] -> shape (K_xy x y sigma) = [N; M].
Proof. intros Hx Hy. cbn. unfold nrows. rewrite Hx, Hy. reflexivity. Qed.

Lemma k0_gaussian z n d sigma r :
  sigma <> 0 -> shape z = [n; d] ->
  exp (- rsum (ncols z) (fun c => z @2 r c ^ 2) / 2 / (sigma * sigma)) = gaussian d sigma (vrow z r).
Proof.
  intros Hs Hz. unfold ncols. rewrite Hz. cbn [tnth nth]. unfold gaussian, sqn, vrow. f_equal.
  field. assumption.
Qed.

Lemma gauss_kernel_0 z n d sigma :
  sigma <> 0 -> shape z = [n; d] ->
  exists t, gauss_kernel z 0 sigma = Ok (Some t) /\ shape t = [n] /\
    forall r, t @1 r = gaussian d sigma (vrow z r).
Proof.
  intros Hs Hz. eexists. split; [reflexivity|]. split.
  - cbn. unfold nrows. rewrite Hz. reflexivity.
  - intros r. cbn. rewrite <- (k0_gaussian z n d sigma r Hs Hz). reflexivity.
Qed.

Lemma gauss_kernel_1 z n d sigma :
  sigma <> 0 -> shape z = [n; d] ->
  exists t, gauss_kernel z 1 sigma = Ok (Some t) /\ shape t = [n; d] /\
    forall r c, t @2 r c = dgauss d sigma (vrow z r) c.
Proof.
  intros Hs Hz. eexists. split; [reflexivity|]. split.
  - cbn. unfold nrows, ncols. rewrite Hz. reflexivity.
  - intros r c. cbn [mk2 get mk1]. rewrite (k0_gaussian z n d sigma r Hs Hz).
    unfold dgauss, vrow. field. assumption.
Qed.

Lemma gauss_kernel_2 z n d sigma :
  sigma <> 0 -> shape z = [n; d] ->
  exists t, gauss_kernel z 2 sigma = Ok (Some t) /\ shape t = [n; d; d] /\
    forall r a b, t @3 r a b = d2gauss d sigma (vrow z r) a b.
Proof.
  intros Hs Hz. eexists. split; [reflexivity|]. split.
  - cbn. unfold nrows, ncols. rewrite Hz. reflexivity.
  - intros r a b. cbn [mk3 get mk1].
    rewrite (k0_gaussian z n d sigma r Hs Hz).
    replace (get (einsum "ki, kj->kij" [z; z]) [r; a; b]) with (z @2 r a * z @2 r b).
    2: { unfold einsum. cbn. ring. }
    cbn [eye mk2 get]. unfold d2gauss, vrow. field. assumption.
Qed.

Lemma gauss_kernel_derivatives x n d sigma :
  sigma <> 0 -> shape x = [n; d] ->
  exists t0 t1 t2 (D : (nat -> R) -> nat -> R),
    gauss_kernel x 0 sigma = Ok (Some t0) /\ shape t0 = [n] /\
    gauss_kernel x 1 sigma = Ok (Some t1) /\ shape t1 = [n; d] /\
    gauss_kernel x 2 sigma = Ok (Some t2) /\ shape t2 = [n; d; d] /\
    (forall z l, (l < d)%nat -> is_partial (gaussian d sigma) z l (D z l)) /\
    forall r, (r < n)%nat ->
      t0 @1 r = gaussian d sigma (vrow x r) /\
      forall l, (l < d)%nat ->
        t1 @2 r l = D (vrow x r) l /\
        forall l', (l' < d)%nat -> is_partial (fun z => D z l) (vrow x r) l' (t2 @3 r l l').
Proof.
  intros Hs Hx.
  destruct (gauss_kernel_0 x n d sigma Hs Hx) as (t0 & E0 & S0 & G0).
  destruct (gauss_kernel_1 x n d sigma Hs Hx) as (t1 & E1 & S1 & G1).
  destruct (gauss_kernel_2 x n d sigma Hs Hx) as (t2 & E2 & S2 & G2).
  exists t0, t1, t2, (dgauss d sigma). do 6 (split; [assumption|]). split.
  - intros z l Hl. apply partial_gaussian; assumption.
  - intros r Hr. split; [apply G0|]. intros l Hl. split; [apply G1|].
    intros l' Hl'. rewrite G2. apply partial_dgauss; assumption.
Qed.

Lemma gauss_kernel_3 x sigma : gauss_kernel x 3 sigma = Err NotImplementedError.
Proof. reflexivity. Qed.

Lemma gauss_kernel_ge4 x k sigma : (4 <= k)%nat -> gauss_kernel x k sigma = Ok None.
Proof. intros H. do 4 (destruct k as [|k]; [lia|]). reflexivity. Qed.
