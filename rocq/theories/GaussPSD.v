(** The Gaussian kernel is positive semi-definite, and positive definite on
    pairwise distinct points. *)
From Coq Require Import Reals List Arith Lia Lra.
From Verif Require Import RSum LinAlg Tensor SpecKernel KernelFacts.
Open Scope R_scope.

Section Powers.
  Variables (d N : nat) (y : nat -> nat -> R).  (* y i c: coordinate c of point i *)

  Definition ip (i j : nat) : R := rsum d (fun c => y i c * y j c).
  Definition Qn (n : nat) (f : nat -> R) : R := quad N (fun i j => ip i j ^ n) f.

  Lemma Qn_0 f : Qn 0 f = rsum N f ^ 2.
  Proof.
    unfold Qn, quad. cbn [pow].
    replace (rsum N f * (rsum N f * 1)) with (rsum N f * rsum N f) by ring.
    rewrite rsum_mult. apply rsum_ext. intros i _. apply rsum_ext. intros j _. ring.
  Qed.

  Lemma Qn_S n f : Qn (S n) f = rsum d (fun c => Qn n (fun i => f i * y i c)).
  Proof.
    unfold Qn, quad. symmetry. rewrite rsum_swap. apply rsum_ext. intros i _. rewrite rsum_swap.
    apply rsum_ext. intros j _. symmetry. cbn [pow]. unfold ip at 1. rewrite <- rsum_scal_r, <- rsum_scal.
    apply rsum_ext. intros c _. ring.
  Qed.

  Lemma Qn_nonneg n f : 0 <= Qn n f.
  Proof.
    revert f. induction n as [|n IH]; intros f.
    - rewrite Qn_0. apply pow2_ge_0.
    - rewrite Qn_S. apply rsum_nonneg. intros c _. apply IH.
  Qed.

  (** Weights seen as zero by all powers. *)
  Definition Z (f : nat -> R) : Prop := forall n, Qn n f = 0.

  Lemma Z_ext f g : (forall i, (i < N)%nat -> f i = g i) -> Z f -> Z g.
  Proof.
    intros H Hf n. rewrite <- (Hf n). unfold Qn. symmetry. apply quad_ext; [reflexivity|assumption].
  Qed.

  Lemma Z_sum f : Z f -> rsum N f = 0.
  Proof.
    intros H. specialize (H 0%nat). rewrite Qn_0 in H.
    destruct (Req_dec (rsum N f) 0) as [E|E]; [assumption|].
    exfalso. revert H. apply pow_nonzero. assumption.
  Qed.

  Lemma Z_coord f c : (c < d)%nat -> Z f -> Z (fun i => f i * y i c).
  Proof.
    intros Hc H n. pose proof (H (S n)) as Hn. rewrite Qn_S in Hn.
    apply (rsum_nonneg_zero d (fun c => Qn n (fun i => f i * y i c))); auto.
    intros c' _. apply Qn_nonneg.
  Qed.

  Lemma Z_plus f g : Z f -> Z g -> Z (fun i => f i + g i).
  Proof. intros Hf Hg n. apply psd_zero_plus; [intros h; apply Qn_nonneg|apply Hf|apply Hg]. Qed.

  Lemma Z_scal a f : Z f -> Z (fun i => a * f i).
  Proof. intros Hf n. unfold Qn. rewrite quad_scal. fold (Qn n f). rewrite Hf. ring. Qed.

  Lemma Z_shift f c a : (c < d)%nat -> Z f -> Z (fun i => f i * (y i c - a)).
  Proof.
    intros Hc H. apply (Z_ext (fun i => f i * y i c + (- a) * f i)); [intros; ring|].
    apply Z_plus; [apply Z_coord; assumption|apply Z_scal; assumption].
  Qed.

  Lemma Z_rsum m (F : nat -> nat -> R) :
    (forall k, (k < m)%nat -> Z (F k)) -> Z (fun i => rsum m (fun k => F k i)).
  Proof.
    induction m as [|m IH]; intros H; cbn [rsum].
    - intros n. unfold Qn. apply quad_0. reflexivity.
    - apply (Z_plus (fun i => rsum m (fun k => F k i)) (F m)); [apply IH; intros; apply H; lia|apply H; lia].
  Qed.

  (** squared distance to point j *)
  Definition D2 (j i : nat) : R := rsum d (fun c => (y i c - y j c) ^ 2).

  Lemma Z_D2 f j : Z f -> Z (fun i => f i * D2 j i).
  Proof.
    intros H. apply (Z_ext (fun i => rsum d (fun c => f i * (y i c - y j c) * (y i c - y j c)))).
    { intros i _. unfold D2. rewrite <- rsum_scal. apply rsum_ext. intros c _. ring. }
    apply (Z_rsum d (fun c i => f i * (y i c - y j c) * (y i c - y j c))). intros c Hc.
    apply Z_shift; [assumption|]. apply Z_shift; assumption.
  Qed.

  (** product of the squared distances to points j < m, j <> k *)
  Fixpoint sep (k m i : nat) : R :=
    match m with
    | 0%nat => 1
    | S m' => sep k m' i * (if Nat.eqb m' k then 1 else D2 m' i)
    end.

  Lemma Z_sep f k m : Z f -> Z (fun i => f i * sep k m i).
  Proof.
    intros H. induction m as [|m IH]; cbn [sep].
    - apply (Z_ext f); [intros; ring|assumption].
    - destruct (Nat.eqb m k).
      + apply (Z_ext (fun i => f i * sep k m i)); [intros; ring|assumption].
      + apply (Z_ext (fun i => f i * sep k m i * D2 m i)); [intros; ring|].
        apply (Z_D2 (fun i => f i * sep k m i)). assumption.
  Qed.

  Lemma sep_zero k m i : (i < m)%nat -> i <> k -> sep k m i = 0.
  Proof.
    induction m as [|m IH]; intros Hi Hne; [lia|]. cbn [sep].
    destruct (Nat.eqb_spec m k) as [->|Hmk].
    - rewrite IH by lia. ring.
    - destruct (Nat.eq_dec i m) as [->|].
      + replace (D2 m m) with 0; [ring|]. unfold D2. symmetry. apply rsum_zero. intros; ring.
      + rewrite IH by lia. ring.
  Qed.

  Lemma D2_pos j i : (exists c, (c < d)%nat /\ y i c <> y j c) -> 0 < D2 j i.
  Proof.
    intros (c & Hc & Hne). unfold D2.
    assert (H0 : 0 <= rsum d (fun c => (y i c - y j c) ^ 2)) by (apply rsum_nonneg; intros; apply pow2_ge_0).
    destruct H0 as [H0|H0]; [assumption|]. exfalso.
    assert (Hz : (y i c - y j c) ^ 2 = 0).
    { apply (rsum_nonneg_zero d (fun c => (y i c - y j c) ^ 2)); auto. intros; apply pow2_ge_0. }
    revert Hz. apply pow_nonzero. lra.
  Qed.

  Lemma sep_pos k m : distinct d N y -> (k < N)%nat -> (m <= N)%nat -> 0 < sep k m k.
  Proof.
    intros Hd Hk. induction m as [|m IH]; intros Hm; cbn [sep]; [lra|].
    apply Rmult_lt_0_compat; [apply IH; lia|].
    destruct (Nat.eqb_spec m k) as [|Hne]; [lra|]. apply D2_pos. apply Hd; lia.
  Qed.

  Lemma Z_trivial f : distinct d N y -> Z f -> forall k, (k < N)%nat -> f k = 0.
  Proof.
    intros Hd Hf k Hk.
    pose proof (Z_sum _ (Z_sep f k N Hf)) as Hs.
    rewrite (rsum_single N _ k Hk) in Hs.
    - pose proof (sep_pos k N Hd Hk (le_n N)) as Hp.
      apply Rmult_integral in Hs. destruct Hs as [|Hs]; [assumption|lra].
    - intros i Hi Hne. rewrite sep_zero by assumption. ring.
  Qed.
End Powers.

(** ** Exponential series *)

Lemma exp_series t : infinite_sum (fun n => / INR (fact n) * t ^ n) (exp t).
Proof. unfold exp. destruct (exist_exp t) as [l Hl]. exact Hl. Qed.

Lemma infinite_sum_scal s l c : infinite_sum s l -> infinite_sum (fun n => c * s n) (c * l).
Proof.
  intros H. apply Un_cv_ext with (un := fun n => c * sum_f_R0 s n).
  { intros n. rewrite scal_sum. apply sum_eq. intros; ring. }
  apply (CV_mult (fun _ => c) (sum_f_R0 s)); [|exact H].
  intros eps He. exists 0%nat. intros. rewrite R_dist_eq. assumption.
Qed.

Lemma infinite_sum_plus s1 s2 l1 l2 :
  infinite_sum s1 l1 -> infinite_sum s2 l2 -> infinite_sum (fun n => s1 n + s2 n) (l1 + l2).
Proof.
  intros H1 H2. apply Un_cv_ext with (un := fun n => sum_f_R0 s1 n + sum_f_R0 s2 n).
  { intros n. rewrite plus_sum. reflexivity. }
  apply (CV_plus (sum_f_R0 s1) (sum_f_R0 s2)); assumption.
Qed.

Lemma infinite_sum_0 : infinite_sum (fun _ => 0) 0.
Proof.
  intros eps He. exists 0%nat. intros n _. rewrite sum_eq_R0 by reflexivity. rewrite R_dist_eq. assumption.
Qed.

Lemma infinite_sum_ext s1 s2 l : (forall n, s1 n = s2 n) -> infinite_sum s1 l -> infinite_sum s2 l.
Proof.
  intros H Hs. apply Un_cv_ext with (un := sum_f_R0 s1); [|exact Hs].
  intros n. apply sum_eq. intros; apply H.
Qed.

Lemma infinite_sum_rsum m (s : nat -> nat -> R) (l : nat -> R) :
  (forall i, (i < m)%nat -> infinite_sum (s i) (l i)) ->
  infinite_sum (fun n => rsum m (fun i => s i n)) (rsum m l).
Proof.
  induction m as [|m IH]; intros H; cbn [rsum].
  - apply infinite_sum_0.
  - apply infinite_sum_plus; [apply IH; intros; apply H; lia|apply H; lia].
Qed.

Lemma sum_f_R0_ge_term s n k : (forall i, 0 <= s i) -> (k <= n)%nat -> s k <= sum_f_R0 s n.
Proof.
  intros H Hk. induction n as [|n IH].
  - replace k with 0%nat by lia. cbn. lra.
  - cbn [sum_f_R0]. destruct (Nat.eq_dec k (S n)) as [->|].
    + assert (0 <= sum_f_R0 s n) by (apply cond_pos_sum; assumption). lra.
    + specialize (IH ltac:(lia)). pose proof (H (S n)). lra.
Qed.

(** A convergent series of non-negative terms dominates each term. *)
Lemma infinite_sum_ge_term s l k : (forall i, 0 <= s i) -> infinite_sum s l -> s k <= l.
Proof.
  intros H Hs. destruct (Rle_lt_dec (s k) l) as [|Hlt]; [assumption|].
  destruct (Hs (s k - l) ltac:(lra)) as (n0 & Hn0).
  specialize (Hn0 (Nat.max n0 k) ltac:(lia)).
  pose proof (sum_f_R0_ge_term s (Nat.max n0 k) k H ltac:(lia)) as Hk.
  unfold R_dist in Hn0. apply Rabs_def2 in Hn0. lra.
Qed.

Section Gauss.
  Variables (d N : nat) (sigma : R) (x : nat -> nat -> R).
  Hypothesis Hs : sigma <> 0.

  Definition G (i j : nat) : R := gaussian d sigma (vsub (x i) (x j)).
  Definition ysc (i c : nat) : R := x i c / sigma.
  Definition w (i : nat) : R := exp (- sqn d (x i) / (2 * sigma ^ 2)).

  Lemma G_factor i j : G i j = w i * w j * exp (ip d ysc i j).
  Proof.
    unfold G, w, gaussian. rewrite <- !exp_plus. f_equal. unfold ip, sqn, vsub, ysc.
    rewrite (rsum_ext d (fun c => x i c / sigma * (x j c / sigma)) (fun c => / sigma ^ 2 * (x i c * x j c)))
      by (intros; field; assumption).
    rewrite rsum_scal.
    rewrite (rsum_ext d (fun c => (x i c - x j c) ^ 2)
               (fun c => x i c ^ 2 + x j c ^ 2 - 2 * (x i c * x j c))) by (intros; ring).
    rewrite rsum_minus, rsum_plus, rsum_scal. field. assumption.
  Qed.

  Lemma quad_G_series f :
    infinite_sum (fun n => / INR (fact n) * Qn d N ysc n (fun i => f i * w i)) (quad N G f).
  Proof.
    unfold quad.
    apply (infinite_sum_ext
      (fun n => rsum N (fun i => rsum N (fun j =>
         (f i * w i) * (f j * w j) * (/ INR (fact n) * ip d ysc i j ^ n))))).
    { intros n. unfold Qn, quad. rewrite <- rsum_scal. apply rsum_ext. intros i _.
      rewrite <- rsum_scal. apply rsum_ext. intros j _. ring. }
    apply infinite_sum_rsum. intros i _.
    apply (infinite_sum_rsum N (fun j n => (f i * w i) * (f j * w j) * (/ INR (fact n) * ip d ysc i j ^ n))).
    intros j _.
    replace (f i * f j * G i j) with ((f i * w i) * (f j * w j) * exp (ip d ysc i j))
      by (rewrite G_factor; ring).
    apply infinite_sum_scal. apply exp_series.
  Qed.

  Lemma term_nonneg n g : 0 <= / INR (fact n) * Qn d N ysc n g.
  Proof.
    apply Rmult_le_pos; [|apply Qn_nonneg]. left. apply Rinv_0_lt_compat. apply INR_fact_lt_0.
  Qed.

  Lemma G_psd : psd N G.
  Proof.
    intros f. eapply Rle_trans; [apply (term_nonneg 0)|].
    apply (infinite_sum_ge_term _ _ 0%nat (fun n => term_nonneg n _) (quad_G_series f)).
  Qed.

  Lemma G_zero f : quad N G f = 0 -> Z d N ysc (fun i => f i * w i).
  Proof.
    intros H n. pose proof (infinite_sum_ge_term _ _ n (fun n => term_nonneg n _) (quad_G_series f)) as Hn.
    cbn beta in Hn. rewrite H in Hn.
    pose proof (Qn_nonneg d N ysc n (fun i => f i * w i)) as H0.
    assert (Hf : 0 < / INR (fact n)) by (apply Rinv_0_lt_compat; apply INR_fact_lt_0).
    destruct H0 as [H0|H0]; [|symmetry; assumption].
    assert (0 < / INR (fact n) * Qn d N ysc n (fun i => f i * w i)) by (apply Rmult_lt_0_compat; assumption).
    lra.
  Qed.

  Lemma G_pd : distinct d N x -> pd N G.
  Proof.
    intros Hd f (i & Hi & Hf). destruct (G_psd f) as [Hq|Hq]; [assumption|]. exfalso. apply Hf.
    assert (Hd' : distinct d N ysc).
    { intros a b Ha Hb Hab. destruct (Hd a b Ha Hb Hab) as (c & Hc & Hne). exists c. split; [assumption|].
      unfold ysc. intros E. apply Hne.
      apply (f_equal (fun t => t * sigma)) in E. unfold Rdiv in E.
      rewrite !Rmult_assoc, Rinv_l, !Rmult_1_r in E by assumption. assumption. }
    pose proof (Z_trivial d N ysc _ Hd' (G_zero f (eq_sym Hq)) i Hi) as Hz. cbn beta in Hz.
    apply Rmult_integral in Hz. destruct Hz as [|Hz]; [assumption|].
    pose proof (exp_pos (- sqn d (x i) / (2 * sigma ^ 2))) as Hw. unfold w in Hz. lra.
  Qed.

  Lemma G_sym : symmetric N G.
  Proof. intros i j _ _. apply gaussian_vsub_sym. Qed.

  Lemma G_diag i : G i i = 1.
  Proof.
    unfold G, gaussian. replace (sqn d (vsub (x i) (x i))) with 0.
    - unfold Rdiv. rewrite Ropp_0, Rmult_0_l. apply exp_0.
    - unfold sqn, vsub. symmetry. apply rsum_zero. intros; ring.
  Qed.
End Gauss.

(** ** Kernel matrices *)
From Verif Require Import KernelModel.
Import ListNotations.

Lemma K_xx_entries x N d sigma : sigma <> 0 -> shape x = [N; d] ->
  forall i j, entries (K_xx x sigma) i j = G d sigma (vrow x) i j.
Proof. intros Hs Hx i j. unfold entries. apply (K_xy_get x x N N d); assumption. Qed.

Lemma K_xx_basic x N d sigma : sigma <> 0 -> shape x = [N; d] ->
  shape (K_xx x sigma) = [N; N] /\
  symmetric N (entries (K_xx x sigma)) /\
  (forall i, (i < N)%nat -> entries (K_xx x sigma) i i = 1) /\
  (forall i j, 0 < entries (K_xx x sigma) i j <= 1).
Proof.
  intros Hs Hx. pose proof (K_xx_entries x N d sigma Hs Hx) as HK.
  split; [apply (K_xy_shape x x N N d); assumption|]. split; [|split].
  - intros i j Hi Hj. rewrite !HK. apply G_sym with (N := N); assumption.
  - intros i _. rewrite HK. apply G_diag.
  - intros i j. rewrite HK. split; [apply gaussian_pos|apply gaussian_le_1; assumption].
Qed.

Lemma K_xy_transpose x y N M d sigma : sigma <> 0 -> shape x = [N; d] -> shape y = [M; d] ->
  shape (K_xy x y sigma) = [N; M] /\ shape (K_xy y x sigma) = [M; N] /\
  forall i j, entries (K_xy y x sigma) j i = entries (K_xy x y sigma) i j.
Proof.
  intros Hs Hx Hy. split; [apply (K_xy_shape x y N M d); assumption|].
  split; [apply (K_xy_shape y x M N d); assumption|].
  intros i j. unfold entries. rewrite (K_xy_get y x M N d), (K_xy_get x y N M d) by assumption.
  apply gaussian_vsub_sym.
Qed.

Lemma psd_ext n K K' : (forall i j, (i < n)%nat -> (j < n)%nat -> K i j = K' i j) -> psd n K -> psd n K'.
Proof. intros H HK f. rewrite <- (quad_ext n K K' f f) by auto. apply HK. Qed.

Lemma pd_ext n K K' : (forall i j, (i < n)%nat -> (j < n)%nat -> K i j = K' i j) -> pd n K -> pd n K'.
Proof. intros H HK f Hf. rewrite <- (quad_ext n K K' f f) by auto. apply HK. assumption. Qed.

Lemma K_xx_psd x N d sigma : sigma <> 0 -> shape x = [N; d] -> psd N (entries (K_xx x sigma)).
Proof.
  intros Hs Hx. apply (psd_ext N (G d sigma (vrow x))).
  - intros. symmetry. apply (K_xx_entries x N d); assumption.
  - apply G_psd. assumption.
Qed.

Lemma K_xx_pd x N d sigma : sigma <> 0 -> shape x = [N; d] -> distinct d N (vrow x) ->
  pd N (entries (K_xx x sigma)).
Proof.
  intros Hs Hx Hd. apply (pd_ext N (G d sigma (vrow x))).
  - intros. symmetry. apply (K_xx_entries x N d); assumption.
  - apply G_pd; assumption.
Qed.

Lemma K_xx_solvable x N d sigma b : sigma <> 0 -> shape x = [N; d] -> distinct d N (vrow x) ->
  exists h, solves N (entries (K_xx x sigma)) h b /\
    forall h', solves N (entries (K_xx x sigma)) h' b -> forall i, (i < N)%nat -> h' i = h i.
Proof.
  intros Hs Hx Hd.
  pose proof (K_xx_pd x N d sigma Hs Hx Hd) as Hpd.
  destruct (K_xx_basic x N d sigma Hs Hx) as (_ & Hsym & _).
  destruct (pd_solvable N _ b Hsym Hpd) as (h & Hh). exists h. split; [assumption|].
  intros h' Hh'. apply (pd_unique N _ h' h b Hpd); assumption.
Qed.
