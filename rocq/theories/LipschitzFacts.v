(** The fields are Lipschitz, with explicit constants. *)
From Coq Require Import Reals List Arith Lia Lra Psatz.
From Verif Require Import Py RSum Tensor TensorFacts KernelModel FieldModel SpecKernel SpecField SpecTransport KernelFacts FieldFacts.
Import ListNotations.
Open Scope R_scope.

Lemma dist1_nneg d x y : 0 <= dist1 d x y.
Proof. apply rsum_nonneg. intros. apply Rabs_pos. Qed.

(** ** Mean value *)

Lemma mvt_bound f f' B a b : (forall t, derivable_pt_lim f t (f' t)) -> (forall t, Rabs (f' t) <= B) -> Rabs (f b - f a) <= B * Rabs (b - a).
Proof.
  intros D H.
  assert (M : forall a b, a < b -> Rabs (f b - f a) <= B * Rabs (b - a)).
  { intros x y L. destruct (MVT_cor2 f f' x y L (fun c _ => D c)) as (c & E & _). rewrite E, Rabs_mult. apply Rmult_le_compat_r; [apply Rabs_pos|apply H]. }
  destruct (Rtotal_order a b) as [L|[->|L]]; [apply M; exact L| |].
  - rewrite !Rminus_diag_eq, Rabs_R0 by reflexivity. lra.
  - rewrite Rabs_minus_sym, (Rabs_minus_sym b a). apply M. exact L.
Qed.

Definition mix (k : nat) (u w : nat -> R) : nat -> R := fun c => if Nat.ltb c k then u c else w c.

Lemma coord_bound d (F : (nat -> R) -> R) D B u w :
  (forall z z', (forall c, (c < d)%nat -> z c = z' c) -> F z = F z') ->
  (forall z l, (l < d)%nat -> is_partial F z l (D z l)) -> (forall z l, (l < d)%nat -> Rabs (D z l) <= B) ->
  Rabs (F u - F w) <= B * dist1 d u w.
Proof.
  intros X P H.
  assert (K : forall k, (k <= d)%nat -> Rabs (F (mix k u w) - F w) <= B * rsum k (fun a => Rabs (u a - w a))).
  { induction k as [|k IH]; intros Hk.
    - cbn [rsum]. rewrite (X (mix 0 u w) w) by reflexivity. rewrite Rminus_diag_eq, Rabs_R0 by reflexivity. lra.
    - cbn [rsum]. specialize (IH ltac:(lia)).
      replace (F (mix (S k) u w) - F w) with ((F (mix (S k) u w) - F (mix k u w)) + (F (mix k u w) - F w)) by ring.
      eapply Rle_trans; [apply Rabs_triang|]. rewrite Rmult_plus_distr_l.
      assert (Q : Rabs (F (upd (mix k u w) k (u k)) - F (upd (mix k u w) k (w k))) <= B * Rabs (u k - w k)).
      { apply (mvt_bound (fun t => F (upd (mix k u w) k t)) (fun t => D (upd (mix k u w) k t) k)).
        - intros t. pose proof (P (upd (mix k u w) k t) k ltac:(lia)) as Q. unfold is_partial in Q. rewrite upd_same in Q.
          eapply derivable_ext; [|exact Q]. intros s. apply X. intros c _. unfold upd. destruct (Nat.eqb_spec c k); reflexivity.
        - intros t. apply H. lia. }
      rewrite (X (mix (S k) u w) (upd (mix k u w) k (u k))).
      + rewrite (X (mix k u w) (upd (mix k u w) k (w k))) at 1; [lra|]. intros c _. unfold upd, mix. destruct (Nat.eqb_spec c k) as [->|]; [|reflexivity]. rewrite Nat.ltb_irrefl. reflexivity.
      + intros c _. unfold upd, mix. destruct (Nat.eqb_spec c k) as [->|N].
        * replace (Nat.ltb k (S k)) with true; [reflexivity|]. symmetry. apply Nat.ltb_lt. lia.
        * destruct (Nat.ltb_spec c (S k)), (Nat.ltb_spec c k); try reflexivity; lia. }
  specialize (K d (le_n d)). rewrite (X (mix d u w) u) in K; [exact K|]. intros c Hc. unfold mix. apply Nat.ltb_lt in Hc. rewrite Hc. reflexivity.
Qed.

(** ** The Gaussian *)

Lemma sq_pos x : x <> 0 -> 0 < x ^ 2.
Proof. intros H. rewrite <- Rsqr_pow2. apply Rlt_0_sqr. exact H. Qed.

Lemma sqn_nneg d z : 0 <= sqn d z.
Proof. apply rsum_nonneg. intros. apply pow2_ge_0. Qed.
Lemma sqn_ge1 d z l : (l < d)%nat -> z l ^ 2 <= sqn d z.
Proof.
  unfold sqn. induction d as [|d IH]; intros H; [lia|]. cbn [rsum]. pose proof (sqn_nneg d z). unfold sqn in *. pose proof (pow2_ge_0 (z d)).
  destruct (Nat.eq_dec l d) as [->|N]; [lra|]. specialize (IH ltac:(lia)). lra.
Qed.
Lemma sqn_ge2 d z l l' : (l < d)%nat -> (l' < d)%nat -> l <> l' -> z l ^ 2 + z l' ^ 2 <= sqn d z.
Proof.
  unfold sqn. induction d as [|d IH]; intros H H' N; [lia|]. cbn [rsum]. pose proof (pow2_ge_0 (z d)).
  destruct (Nat.eq_dec l d) as [->|Nl]; [|destruct (Nat.eq_dec l' d) as [->|Nl']].
  - pose proof (sqn_ge1 d z l' ltac:(lia)). unfold sqn in *. lra.
  - pose proof (sqn_ge1 d z l ltac:(lia)). unfold sqn in *. lra.
  - specialize (IH ltac:(lia) ltac:(lia) N). lra.
Qed.

Lemma gauss_dom d sg z q : sg <> 0 -> q * (2 * sg ^ 2) <= sqn d z -> gaussian d sg z <= exp (- q).
Proof.
  intros Hs H. unfold gaussian. assert (P : 0 < sg ^ 2) by (apply sq_pos; exact Hs).
  destruct (Rle_lt_or_eq_dec q (sqn d z / (2 * sg ^ 2))) as [L|E].
  - apply Rmult_le_reg_r with (2 * sg ^ 2); [lra|]. unfold Rdiv. rewrite Rmult_assoc, Rinv_l by lra. lra.
  - apply Rlt_le, exp_increasing. unfold Rdiv in *. lra.
  - rewrite E. right. f_equal. unfold Rdiv. ring.
Qed.
Lemma exp_times a q : Rabs a <= exp q -> Rabs a * exp (- q) <= 1.
Proof.
  intros H. replace 1 with (exp q * exp (- q)) by (rewrite <- exp_plus; replace (q + - q) with 0 by ring; apply exp_0).
  apply Rmult_le_compat_r; [left; apply exp_pos|exact H].
Qed.
Lemma gauss_pos d sg z : 0 < gaussian d sg z.
Proof. apply exp_pos. Qed.

Lemma dgauss_bound d sg z l : sg <> 0 -> (l < d)%nat -> Rabs (dgauss d sg z l) <= 1 / Rabs sg.
Proof.
  intros Hs L. assert (P : 0 < sg ^ 2) by (apply sq_pos; exact Hs). pose proof (Rabs_pos_lt sg Hs) as A.
  set (s := z l / sg). assert (E : dgauss d sg z l = - (s * gaussian d sg z) / sg) by (unfold dgauss, s; field; exact Hs).
  rewrite E. unfold Rdiv. rewrite Rabs_mult, Rabs_Ropp, Rabs_mult, Rabs_inv, (Rabs_right (gaussian d sg z)) by (left; apply gauss_pos).
  apply Rmult_le_compat_r; [left; apply Rinv_0_lt_compat; exact A|].
  assert (G : gaussian d sg z <= exp (- (s ^ 2 / 2))).
  { apply gauss_dom; [exact Hs|]. replace (s ^ 2 / 2 * (2 * sg ^ 2)) with (z l ^ 2) by (unfold s; field; exact Hs). apply sqn_ge1. exact L. }
  eapply Rle_trans; [apply Rmult_le_compat_l; [apply Rabs_pos|exact G]|]. apply exp_times.
  pose proof (exp_ineq1_le (s ^ 2 / 2)). unfold Rabs. destruct (Rcase_abs s); nra.
Qed.

Lemma exp_sq r : 0 <= r -> (1 + r / 2) ^ 2 <= exp r.
Proof.
  intros H. replace (exp r) with (exp (r / 2) ^ 2) by (cbn; rewrite Rmult_1_r, <- exp_plus; f_equal; field).
  pose proof (exp_ineq1_le (r / 2)). apply pow_incr. lra.
Qed.
Lemma d2gauss_bound d sg z l l' : sg <> 0 -> (l < d)%nat -> (l' < d)%nat -> Rabs (d2gauss d sg z l l') <= 1 / sg ^ 2.
Proof.
  intros Hs L L'. assert (P : 0 < sg ^ 2) by (apply sq_pos; exact Hs).
  set (s := z l / sg). set (t := z l' / sg). assert (E : d2gauss d sg z l l' = (s * t - delta l l') * gaussian d sg z * / sg ^ 2) by (unfold d2gauss, s, t; field; exact Hs).
  rewrite E. unfold Rdiv. rewrite !Rabs_mult, (Rabs_right (gaussian d sg z)) by (left; apply gauss_pos).
  rewrite (Rabs_right (/ sg ^ 2)) by (left; apply Rinv_0_lt_compat; exact P).
  apply Rmult_le_compat_r; [left; apply Rinv_0_lt_compat; exact P|].
  destruct (Nat.eq_dec l l') as [<-|N].
  - assert (G : gaussian d sg z <= exp (- (s ^ 2 / 2))).
    { apply gauss_dom; [exact Hs|]. replace (s ^ 2 / 2 * (2 * sg ^ 2)) with (z l ^ 2) by (unfold s; field; exact Hs). apply sqn_ge1. exact L. }
    eapply Rle_trans; [apply Rmult_le_compat_l; [apply Rabs_pos|exact G]|]. apply exp_times. rewrite delta_same. fold s in t. unfold t.
    pose proof (pow2_ge_0 s) as Q. pose proof (exp_sq (s ^ 2 / 2) ltac:(lra)). apply Rabs_le. pose proof (pow2_ge_0 (s ^ 2 / 4 - 1)). nra.
  - assert (G : gaussian d sg z <= exp (- ((s ^ 2 + t ^ 2) / 2))).
    { apply gauss_dom; [exact Hs|]. replace ((s ^ 2 + t ^ 2) / 2 * (2 * sg ^ 2)) with (z l ^ 2 + z l' ^ 2) by (unfold s, t; field; exact Hs). apply sqn_ge2; assumption. }
    eapply Rle_trans; [apply Rmult_le_compat_l; [apply Rabs_pos|exact G]|]. apply exp_times. rewrite delta_diff by exact N.
    pose proof (exp_ineq1_le ((s ^ 2 + t ^ 2) / 2)). apply Rabs_le. pose proof (pow2_ge_0 (s - t)). pose proof (pow2_ge_0 (s + t)). nra.
Qed.

Lemma gauss_ext d sg z z' : (forall c, (c < d)%nat -> z c = z' c) -> gaussian d sg z = gaussian d sg z'.
Proof. intros H. unfold gaussian, sqn. do 3 f_equal. apply rsum_ext. intros c Hc. rewrite H by exact Hc. reflexivity. Qed.
Lemma gauss_lip d sg u w : sg <> 0 -> Rabs (gaussian d sg u - gaussian d sg w) <= dist1 d u w / Rabs sg.
Proof.
  intros Hs. replace (dist1 d u w / Rabs sg) with (1 / Rabs sg * dist1 d u w) by (unfold Rdiv; ring).
  apply (coord_bound d _ (dgauss d sg)); [intros; apply gauss_ext; assumption|intros; apply partial_gaussian; assumption|intros; apply dgauss_bound; assumption].
Qed.
Lemma dgauss_lip d sg u w l : sg <> 0 -> (l < d)%nat -> Rabs (dgauss d sg u l - dgauss d sg w l) <= dist1 d u w / sg ^ 2.
Proof.
  intros Hs L. replace (dist1 d u w / sg ^ 2) with (1 / sg ^ 2 * dist1 d u w) by (unfold Rdiv; ring).
  apply (coord_bound d (fun z => dgauss d sg z l) (fun z => d2gauss d sg z l)).
  - intros z z' H. unfold dgauss. rewrite (gauss_ext d sg z z' H), (H l L). reflexivity.
  - intros z l' L'. apply partial_dgauss; assumption.
  - intros z l' L'. apply d2gauss_bound; assumption.
Qed.

(** ** The fields *)

Lemma dist1_vsub d x y s : dist1 d (vsub x s) (vsub y s) = dist1 d x y.
Proof. unfold dist1, vsub. apply rsum_ext. intros a _. f_equal. ring. Qed.
Lemma dist1_vsub_r d x y s : dist1 d (vsub s x) (vsub s y) = dist1 d x y.
Proof. unfold dist1, vsub. apply rsum_ext. intros a _. rewrite <- Rabs_Ropp. f_equal. ring. Qed.

(** A sum over the support of kernels with coefficients. *)
Lemma kernel_sum_lip n d (K K' : nat -> R) (c : nat -> nat -> R) B : (forall j, (j < n)%nat -> Rabs (K j - K' j) <= B j) ->
  rsum d (fun a => Rabs (rsum n (fun j => K j * c j a) - rsum n (fun j => K' j * c j a))) <= rsum n (fun j => B j * rsum d (fun a => Rabs (c j a))).
Proof.
  intros H. replace (rsum n (fun j => B j * rsum d (fun a => Rabs (c j a)))) with (rsum d (fun a => rsum n (fun j => B j * Rabs (c j a)))).
  2: { rewrite rsum_swap. apply rsum_ext. intros j _. apply rsum_scal. }
  apply rsum_le. intros a _. rewrite <- rsum_minus. eapply Rle_trans; [apply Rabs_rsum|]. apply rsum_le. intros j Hj.
  replace (K j * c j a - K' j * c j a) with ((K j - K' j) * c j a) by ring. rewrite Rabs_mult. apply Rmult_le_compat_r; [apply Rabs_pos|auto].
Qed.
Lemma matrix_sum_lip n d (K K' : nat -> nat -> R) (P : nat -> nat -> nat -> R) B : (forall j c, (j < n)%nat -> (c < d)%nat -> Rabs (K j c - K' j c) <= B) ->
  rsum d (fun a => Rabs (rsum n (fun j => rsum d (fun c => P j a c * K j c)) - rsum n (fun j => rsum d (fun c => P j a c * K' j c)))) <=
  B * rsum n (fun j => rsum d (fun a => rsum d (fun c => Rabs (P j a c)))).
Proof.
  intros H. replace (B * rsum n (fun j => rsum d (fun a => rsum d (fun c => Rabs (P j a c))))) with (rsum d (fun a => rsum n (fun j => rsum d (fun c => B * Rabs (P j a c))))).
  2: { rewrite rsum_swap, <- rsum_scal. apply rsum_ext. intros j _. rewrite <- rsum_scal. apply rsum_ext. intros a _. apply rsum_scal. }
  apply rsum_le. intros a _. rewrite <- rsum_minus. eapply Rle_trans; [apply Rabs_rsum|]. apply rsum_le. intros j Hj.
  rewrite <- rsum_minus. eapply Rle_trans; [apply Rabs_rsum|]. apply rsum_le. intros c Hc.
  replace (P j a c * K j c - P j a c * K' j c) with ((K j c - K' j c) * P j a c) by ring. rewrite Rabs_mult. apply Rmult_le_compat_r; [apply Rabs_pos|auto].
Qed.
Lemma part_sum d (m : nat -> nat -> R) e : e = 1 \/ e = -1 -> rsum d (fun a => rsum d (fun c => Rabs ((m a c + e * m c a) / 2))) <= rsum d (fun a => rsum d (fun c => Rabs (m a c))).
Proof.
  intros He. assert (S : rsum d (fun a => rsum d (fun c => Rabs (m c a))) = rsum d (fun a => rsum d (fun c => Rabs (m a c)))) by apply rsum_swap.
  eapply Rle_trans; [apply (rsum_le _ _ (fun a => rsum d (fun c => Rabs (m a c)) / 2 + rsum d (fun c => Rabs (m c a)) / 2))|].
  - intros a _. rewrite <- !rsum_div, <- rsum_plus. apply rsum_le. intros c _. unfold Rdiv. rewrite Rabs_mult, (Rabs_right (/ 2)) by lra.
    pose proof (Rabs_triang (m a c) (e * m c a)) as T. rewrite (Rabs_mult e) in T. assert (Rabs e = 1) as Ea. { destruct He as [->| ->]; [apply Rabs_right; lra|rewrite Rabs_left; lra]. }
    rewrite Ea in T. lra.
  - rewrite rsum_plus, !rsum_div, S. lra.
Qed.

Lemma part_bound n sg D (p q : nat -> R) : sg <> 0 -> 0 <= D -> (forall j, p j <= q j) -> D / sg ^ 2 * rsum n p <= rsum n q / sg ^ 2 * D.
Proof.
  intros Hs HD H. assert (0 < / sg ^ 2) by (apply Rinv_0_lt_compat; pose proof (Rsqr_pos_lt sg Hs) as Q; unfold Rsqr in Q; nra).
  replace (rsum n q / sg ^ 2 * D) with (D / sg ^ 2 * rsum n q) by (unfold Rdiv; ring). apply Rmult_le_compat_l; [unfold Rdiv; apply Rmult_le_pos; lra|apply rsum_le; intros; apply H].
Qed.

Lemma field_lip d f : wf_field d f -> forall x y, dist1 d (fval d f x) (fval d f y) <= rate d f * dist1 d x y.
Proof.
  induction f as [b s m sg|b s m u sg|b s m sg|b s m sg|b s m sg|A x0 u|m|d'|fs IH] using sfield_ind'; intros W x y; cbn [wf_field] in W.
  - destruct W as (Hs & _). unfold dist1 at 1. cbn [fval rate].
    eapply Rle_trans; [apply (kernel_sum_lip (nrows s) d _ _ (fun j a => m @2 j a) (fun _ => dist1 d x y / Rabs sg))|].
    + intros j _. rewrite <- (dist1_vsub d x y (vrow s j)). apply gauss_lip. exact Hs.
    + rewrite rsum_scal. right. unfold Rdiv. ring.
  - destruct W as (Hs & _). unfold dist1 at 1. cbn [fval rate].
    eapply Rle_trans; [apply (kernel_sum_lip (nrows s) d _ _ (fun j a => m @2 j a) (fun j => dist1 d x y / sg ^ 2 * rsum d (fun c => Rabs (u @2 j c))))|].
    + intros j _. rewrite <- rsum_minus, <- rsum_scal. eapply Rle_trans; [apply Rabs_rsum|]. apply rsum_le. intros c Hc.
      match goal with |- Rabs (- ?k * ?v - - ?k' * ?v) <= _ => replace (- k * v - - k' * v) with (- (k - k') * v) by ring end.
      rewrite Rabs_mult, Rabs_Ropp. apply Rmult_le_compat_r; [apply Rabs_pos|]. rewrite <- (dist1_vsub d x y (vrow s j)). apply dgauss_lip; assumption.
    + right. unfold Rdiv. rewrite Rmult_assoc, (Rmult_comm (/ sg ^ 2)), <- Rmult_assoc, <- rsum_scal_r. 
      rewrite <- rsum_scal_r. apply rsum_ext. intros j _. ring.
  - destruct W as (Hs & _). unfold dist1 at 1. cbn [fval rate].
    eapply Rle_trans; [apply (rsum_le _ _ (fun _ => rsum (nrows s) (fun j => dist1 d x y / sg ^ 2 * Rabs (m @1 j))))|].
    + intros a Ha. rewrite <- rsum_minus. eapply Rle_trans; [apply Rabs_rsum|]. apply rsum_le. intros j _. rewrite <- Rmult_minus_distr_r, Rabs_mult.
      apply Rmult_le_compat_r; [apply Rabs_pos|]. rewrite <- (dist1_vsub_r d x y (vrow s j)). apply dgauss_lip; assumption.
    + rewrite rsum_const, rsum_scal. right. unfold Rdiv. ring.
  - destruct W as (Hs & _). unfold dist1 at 1. cbn [fval rate].
    eapply Rle_trans; [apply (matrix_sum_lip (nrows s) d _ _ (symP m) (dist1 d x y / sg ^ 2))|].
    + intros j c _ Hc. replace (- dgauss d sg (vsub x (vrow s j)) c - - dgauss d sg (vsub y (vrow s j)) c) with (- (dgauss d sg (vsub x (vrow s j)) c - dgauss d sg (vsub y (vrow s j)) c)) by ring.
      rewrite Rabs_Ropp, <- (dist1_vsub d x y (vrow s j)). apply dgauss_lip; assumption.
    + apply part_bound; [exact Hs|apply dist1_nneg|]. intros j. eapply Rle_trans; [|apply (part_sum d (fun a c => m @3 j a c) (1)); lra]. right.
      apply rsum_ext. intros a _. apply rsum_ext. intros c _. unfold symP. f_equal. field.
  - destruct W as (Hs & _). unfold dist1 at 1. cbn [fval rate].
    eapply Rle_trans; [apply (matrix_sum_lip (nrows s) d _ _ (skewP m) (dist1 d x y / sg ^ 2))|].
    + intros j c _ Hc. replace (- dgauss d sg (vsub x (vrow s j)) c - - dgauss d sg (vsub y (vrow s j)) c) with (- (dgauss d sg (vsub x (vrow s j)) c - dgauss d sg (vsub y (vrow s j)) c)) by ring.
      rewrite Rabs_Ropp, <- (dist1_vsub d x y (vrow s j)). apply dgauss_lip; assumption.
    + apply part_bound; [exact Hs|apply dist1_nneg|]. intros j. eapply Rle_trans; [|apply (part_sum d (fun a c => m @3 j a c) (-1)); lra]. right.
      apply rsum_ext. intros a _. apply rsum_ext. intros c _. unfold skewP. f_equal. field.
  - unfold dist1 at 1. cbn [fval rate].
    eapply Rle_trans; [apply (rsum_le _ _ (fun a => rsum d (fun c => Rabs (A @2 a c)) * dist1 d x y))|rewrite rsum_scal_r; lra].
    intros a _. match goal with |- Rabs (?s + ?v - (?s' + ?v)) <= _ => replace (s + v - (s' + v)) with (s - s') by ring end.
    rewrite <- rsum_minus. eapply Rle_trans; [apply Rabs_rsum|]. rewrite <- rsum_scal_r. apply rsum_le. intros c Hc.
    match goal with |- Rabs (?p * (?q - ?r) - ?p * (?q' - ?r)) <= _ => replace (p * (q - r) - p * (q' - r)) with (p * (q - q')) by ring end.
    rewrite Rabs_mult. apply Rmult_le_compat_l; [apply Rabs_pos|]. unfold dist1.
    rewrite <- (rsum_delta_l d (fun c => Rabs (x c - y c)) c Hc). apply rsum_le. intros i _. pose proof (Rabs_pos (x i - y i)). unfold delta. destruct (Nat.eqb i c); nra.
  - unfold dist1 at 1. cbn [fval rate]. rewrite rsum_zero; [lra|]. intros. rewrite Rminus_diag_eq, Rabs_R0; reflexivity.
  - unfold dist1 at 1. cbn [fval rate]. rewrite rsum_zero; [lra|]. intros. rewrite Rminus_diag_eq, Rabs_R0; reflexivity.
  - destruct W as (_ & W). cbn [rate]. induction IH as [|f fs Hf _ IHs].
    + unfold dist1 at 1. cbn [fval fold_right]. rewrite rsum_zero; [lra|]. intros. rewrite Rminus_diag_eq, Rabs_R0; reflexivity.
    + cbn [fold_right] in *. destruct W as (W1 & W2). specialize (Hf W1 x y). specialize (IHs W2). rewrite Rmult_plus_distr_r.
      eapply Rle_trans; [|apply Rplus_le_compat; [exact Hf|exact IHs]]. unfold dist1. rewrite <- rsum_plus. apply rsum_le. intros a _. cbn [fval fold_right].
      match goal with |- Rabs (?p + ?q - (?p' + ?q')) <= _ => replace (p + q - (p' + q')) with ((p - p') + (q - q')) by ring end. apply Rabs_triang.
Qed.
