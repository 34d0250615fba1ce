(** Proofs about FourierModel.v. *)
From Coq Require Import Reals String List Arith Lia Lra.
From Verif Require Import Py RSum Tensor TensorFacts KernelModel Fl AttachmentModel FourierModel PropAttachment.
Import ListNotations.
Open Scope R_scope.

(** ** Roots of unity *)
Lemma cos_telescope t : forall n, 2 * sin (t / 2) * rsum n (fun k => cos (INR k * t)) = sin ((INR n - 1 / 2) * t) + sin (t / 2).
Proof.
  induction n as [|n IH]; [cbn [rsum]; replace ((INR 0 - 1 / 2) * t) with (- (t / 2)) by (cbn; field); rewrite sin_neg; ring|].
  rewrite rsum_S, Rmult_plus_distr_l, IH.
  replace ((INR (S n) - 1 / 2) * t) with (INR n * t + t / 2) by (rewrite S_INR; field). replace ((INR n - 1 / 2) * t) with (INR n * t - t / 2) by field.
  rewrite sin_plus, sin_minus. ring.
Qed.
Lemma sin_telescope t : forall n, 2 * sin (t / 2) * rsum n (fun k => sin (INR k * t)) = cos (t / 2) - cos ((INR n - 1 / 2) * t).
Proof.
  induction n as [|n IH]; [cbn [rsum]; replace ((INR 0 - 1 / 2) * t) with (- (t / 2)) by (cbn; field); rewrite cos_neg; ring|].
  rewrite rsum_S, Rmult_plus_distr_l, IH.
  replace ((INR (S n) - 1 / 2) * t) with (INR n * t + t / 2) by (rewrite S_INR; field). replace ((INR n - 1 / 2) * t) with (INR n * t - t / 2) by field.
  rewrite cos_plus, cos_minus. ring.
Qed.
Lemma full_turns x j : cos (x + 2 * PI * INR j) = cos x /\ sin (x + 2 * PI * INR j) = sin x.
Proof. replace (x + 2 * PI * INR j) with (x + 2 * INR j * PI) by ring. split; [apply cos_period|apply sin_period]. Qed.
Lemma roots N j : (0 < j < N)%nat -> let t := 2 * PI * INR j / INR N in
  rsum N (fun k => cos (INR k * t)) = 0 /\ rsum N (fun k => sin (INR k * t)) = 0.
Proof.
  intros (J & L) t. assert (HN : 0 < INR N) by (apply lt_0_INR; lia). assert (HJ : 0 < INR j) by (apply lt_0_INR; lia). assert (HL : INR j < INR N) by (apply lt_INR; exact L).
  assert (S : 0 < sin (t / 2)).
  { apply sin_gt_0; unfold t.
    - apply Rmult_lt_0_compat; [|lra]. apply Rmult_lt_0_compat; [|apply Rinv_0_lt_compat; exact HN]. pose proof PI_RGT_0. nra.
    - replace (2 * PI * INR j / INR N / 2) with (PI * (INR j / INR N)) by (field; lra). rewrite <- (Rmult_1_r PI) at 2. apply Rmult_lt_compat_l; [exact PI_RGT_0|].
      apply (Rmult_lt_reg_r (INR N)); [exact HN|]. unfold Rdiv. rewrite Rmult_assoc, Rinv_l by lra. lra. }
  assert (E : (INR N - 1 / 2) * t = - (t / 2) + 2 * PI * INR j) by (unfold t; field; lra).
  destruct (full_turns (- (t / 2)) j) as (C1 & S1). split.
  - pose proof (cos_telescope t N) as X. rewrite E, S1, sin_neg in X. replace (- sin (t / 2) + sin (t / 2)) with 0 in X by ring. apply Rmult_integral in X. destruct X as [X|X]; [lra|exact X].
  - pose proof (sin_telescope t N) as X. rewrite E, C1, cos_neg in X. replace (cos (t / 2) - cos (t / 2)) with 0 in X by ring. apply Rmult_integral in X. destruct X as [X|X]; [lra|exact X].
Qed.
(** Sums over the frequencies of the waves n and m. *)
Lemma orthogonal N n m : (n < N)%nat -> (m < N)%nat ->
  rsum N (fun k => cos (2 * PI * INR k * INR n / INR N - 2 * PI * INR k * INR m / INR N)) = INR N * delta n m /\
  rsum N (fun k => sin (2 * PI * INR k * INR n / INR N - 2 * PI * INR k * INR m / INR N)) = 0.
Proof.
  intros Hn Hm. assert (HN : INR N <> 0) by (apply not_0_INR; lia).
  assert (W : forall n m, (m < n)%nat -> forall k, 2 * PI * INR k * INR n / INR N - 2 * PI * INR k * INR m / INR N = INR k * (2 * PI * INR (n - m) / INR N)) by (intros a b L k; rewrite minus_INR by lia; field; exact HN).
  destruct (Nat.lt_trichotomy n m) as [L|[Q|L]].
  - rewrite delta_diff by lia. destruct (roots N (m - n) ltac:(lia)) as (C & S). split.
    + rewrite (rsum_ext N _ (fun k => cos (INR k * (2 * PI * INR (m - n) / INR N)))); [rewrite C; ring|]. intros k _. rewrite <- (W m n L k), <- cos_neg. f_equal. ring.
    + rewrite (rsum_ext N _ (fun k => - sin (INR k * (2 * PI * INR (m - n) / INR N)))); [rewrite rsum_opp, S; ring|]. intros k _. rewrite <- (W m n L k), <- sin_neg. f_equal. ring.
  - subst m. rewrite delta_same. split.
    + rewrite (rsum_ext N _ (fun _ => 1)); [apply rsum_const|]. intros k _. replace (2 * PI * INR k * INR n / INR N - 2 * PI * INR k * INR n / INR N) with 0 by ring. exact cos_0.
    + apply rsum_zero. intros k _. replace (2 * PI * INR k * INR n / INR N - 2 * PI * INR k * INR n / INR N) with 0 by ring. exact sin_0.
  - rewrite delta_diff by lia. destruct (roots N (n - m) ltac:(lia)) as (C & S). split.
    + rewrite (rsum_ext N _ (fun k => cos (INR k * (2 * PI * INR (n - m) / INR N)))); [rewrite C; ring|]. intros k _. rewrite (W n m L k). reflexivity.
    + rewrite (rsum_ext N _ (fun k => sin (INR k * (2 * PI * INR (n - m) / INR N)))); [exact S|]. intros k _. rewrite (W n m L k). reflexivity.
Qed.

(** ** Parseval in one dimension *)
Lemma rsum_square N f : rsum N f ^ 2 = rsum N (fun n => rsum N (fun m => f n * f m)).
Proof. transitivity (rsum N (fun n => f n * rsum N f)); [rewrite rsum_scal_r; ring|]. apply rsum_ext. intros. symmetry. apply rsum_scal. Qed.
Lemma parseval1 N a b : let w := fun k n => 2 * PI * INR k * INR n / INR N in
  rsum N (fun k => rsum N (fun n => a n * cos (w k n) + b n * sin (w k n)) ^ 2 + rsum N (fun n => b n * cos (w k n) - a n * sin (w k n)) ^ 2)
  = INR N * rsum N (fun n => a n ^ 2 + b n ^ 2).
Proof.
  intros w.
  rewrite (rsum_ext N _ (fun k => rsum N (fun n => rsum N (fun m => (a n * a m + b n * b m) * cos (w k n - w k m) + (b n * a m - a n * b m) * sin (w k n - w k m))))).
  - rewrite rsum_swap. rewrite (rsum_ext N _ (fun n => INR N * (a n ^ 2 + b n ^ 2))); [apply rsum_scal|]. intros n Hn. rewrite rsum_swap.
    rewrite (rsum_ext N _ (fun m => delta n m * (INR N * (a n * a m + b n * b m)))); [rewrite rsum_delta_r by exact Hn; ring|]. intros m Hm.
    rewrite rsum_plus, !rsum_scal. destruct (orthogonal N n m Hn Hm) as (C & S). unfold w. rewrite C, S. ring.
  - intros k _. rewrite !rsum_square, <- rsum_plus. apply rsum_ext. intros n _. rewrite <- rsum_plus. apply rsum_ext. intros m _. rewrite cos_minus, sin_minus. ring.
Qed.

(** ** Any number of dimensions *)
Lemma sum_idx_plus sh : forall f g, sum_idx sh (fun i => f i + g i) = sum_idx sh f + sum_idx sh g.
Proof. induction sh as [|n sh IH]; intros f g; cbn [sum_idx]; [reflexivity|]. rewrite <- rsum_plus. apply rsum_ext. intros. apply IH. Qed.
Lemma sum_idx_mul sh c : forall f, sum_idx sh (fun i => c * f i) = c * sum_idx sh f.
Proof. induction sh as [|n sh IH]; intros f; cbn [sum_idx]; [reflexivity|]. rewrite <- rsum_scal. apply rsum_ext. intros. apply IH. Qed.
Lemma sum_idx_swap sh N : forall f, rsum N (fun k => sum_idx sh (fun i => f k i)) = sum_idx sh (fun i => rsum N (fun k => f k i)).
Proof. induction sh as [|n sh IH]; intros f; cbn [sum_idx]; [reflexivity|]. rewrite rsum_swap. apply rsum_ext. intros i _. apply IH. Qed.
Lemma sum_idx_all sh : forall f g, (forall i, f i = g i) -> sum_idx sh f = sum_idx sh g.
Proof. intros f g E. apply sum_idx_ext. intros; apply E. Qed.

Lemma dft_cons N sh x y k0 k :
  dft_re (N :: sh) x y (k0 :: k) = rsum N (fun n => dft_re sh (fun i => x (n :: i)) (fun i => y (n :: i)) k * cos (2 * PI * INR k0 * INR n / INR N) + dft_im sh (fun i => x (n :: i)) (fun i => y (n :: i)) k * sin (2 * PI * INR k0 * INR n / INR N)) /\
  dft_im (N :: sh) x y (k0 :: k) = rsum N (fun n => dft_im sh (fun i => x (n :: i)) (fun i => y (n :: i)) k * cos (2 * PI * INR k0 * INR n / INR N) - dft_re sh (fun i => x (n :: i)) (fun i => y (n :: i)) k * sin (2 * PI * INR k0 * INR n / INR N)).
Proof.
  unfold dft_re, dft_im. cbn [sum_idx angle]. split; apply rsum_ext; intros n _; set (w := 2 * PI * INR k0 * INR n / INR N).
  - rewrite (Rmult_comm _ (cos w)), (Rmult_comm _ (sin w)), <- !sum_idx_mul, <- sum_idx_plus. apply sum_idx_all. intros i. rewrite cos_plus, sin_plus. ring.
  - rewrite (Rmult_comm _ (cos w)), (Rmult_comm _ (sin w)).
    match goal with |- _ = ?a - ?b * ?c => replace (a - b * c) with (a + (- b) * c) by ring end. rewrite <- !sum_idx_mul, <- sum_idx_plus. apply sum_idx_all. intros i. rewrite cos_plus, sin_plus. ring.
Qed.
Lemma parseval sh : forall x y, sum_idx sh (fun k => dft_re sh x y k ^ 2 + dft_im sh x y k ^ 2) = INR (prod sh) * sum_idx sh (fun n => x n ^ 2 + y n ^ 2).
Proof.
  induction sh as [|N sh IH]; intros x y.
  - unfold dft_re, dft_im. cbn. rewrite cos_0, sin_0. ring.
  - cbn [sum_idx]. rewrite sum_idx_swap.
    rewrite (sum_idx_all sh _ (fun k => INR N * rsum N (fun n => dft_re sh (fun i => x (n :: i)) (fun i => y (n :: i)) k ^ 2 + dft_im sh (fun i => x (n :: i)) (fun i => y (n :: i)) k ^ 2))).
    2: { intros k. rewrite <- parseval1. cbv zeta. apply rsum_ext. intros k0 _. destruct (dft_cons N sh x y k0 k) as (-> & ->). reflexivity. }
    rewrite sum_idx_mul, <- sum_idx_swap. rewrite prod_cons, mult_INR, Rmult_assoc. f_equal. rewrite <- rsum_scal. apply rsum_ext. intros n _. apply IH.
Qed.
Lemma dft_diff sh x y x' y' k :
  dft_re sh x y k - dft_re sh x' y' k = dft_re sh (fun n => x n - x' n) (fun n => y n - y' n) k /\
  dft_im sh x y k - dft_im sh x' y' k = dft_im sh (fun n => x n - x' n) (fun n => y n - y' n) k.
Proof.
  unfold dft_re, dft_im. split; match goal with |- ?a - ?b = _ => replace (a - b) with (a + (-1) * b) by ring end; rewrite <- sum_idx_mul, <- sum_idx_plus; apply sum_idx_all; intros i; ring.
Qed.

(** ** The loss *)
Definition factor (normalized : bool) (sh : list nat) : R := if normalized then / sqrt (INR (prod sh)) else 1.
Lemma fft_plane x H W normalized : shape x = [H; W] ->
  exists fx a b, torch_fft (complexify x) (length (shape x)) normalized = Ok fx /\ third fx 0 = Ok a /\ third fx 1 = Ok b /\
    shape a = [H; W] /\ shape b = [H; W] /\
    (forall i j, a @2 i j = factor normalized [H; W] * dft_re [H; W] (get x) (fun _ => 0) [i; j]) /\
    forall i j, b @2 i j = factor normalized [H; W] * dft_im [H; W] (get x) (fun _ => 0) [i; j].
Proof.
  intros E. unfold torch_fft, complexify. rewrite E. cbn [length app shape firstn Nat.leb andb]. eexists _, _, _. split; [reflexivity|]. split; [reflexivity|]. split; [reflexivity|]. split; [reflexivity|]. split; [reflexivity|].
  split; intros i j; cbn [get firstn skipn]; unfold factor, dft_re, dft_im; (apply (f_equal2 Rmult); [destruct normalized; reflexivity|]); apply sum_idx_ext; intros [|p [|q [|? ?]]] V; cbn in V; try tauto; reflexivity.
Qed.
Lemma sum_zero_dim sh f : prod sh = 0%nat -> sum_idx sh f = 0.
Proof.
  revert f. induction sh as [|n sh IH]; intros f E; cbn in E; [discriminate|]. apply Nat.eq_mul_0 in E. cbn [sum_idx]. destruct E as [->|E]; [reflexivity|]. apply rsum_zero. intros. apply IH. exact E.
Qed.
Lemma factor_sq normalized sh f : factor normalized sh ^ 2 * (INR (prod sh) * sum_idx sh f) = (if normalized then 1 else INR (prod sh)) * sum_idx sh f.
Proof.
  destruct normalized; cbn [factor]; [|ring]. destruct (Nat.eq_dec (prod sh) 0) as [Z|Z]; [rewrite (sum_zero_dim sh f Z); ring|].
  assert (P : 0 < INR (prod sh)) by (apply lt_0_INR; lia). rewrite <- Rinv_pow by (apply Rgt_not_eq, sqrt_lt_R0; exact P). rewrite pow2_sqrt by lra. field. lra.
Qed.
Lemma fft_loss_plane x y H W normalized : shape x = [H; W] -> shape y = [H; W] ->
  loss_fft true normalized x y = Ok ((if normalized then 1 else INR (H * W)) * sum_idx [H; W] (fun idx => (get x idx - get y idx) ^ 2)).
Proof.
  intros Ex Ey. unfold loss_fft. destruct (fft_plane x H W normalized Ex) as (fx & a & b & -> & A & B & Sa & Sb & Va & Vb). destruct (fft_plane y H W normalized Ey) as (fy & a' & b' & -> & A' & B' & Sa' & Sb' & Va' & Vb').
  cbn [bind]. rewrite A, A', B, B'. cbn [bind]. f_equal. rewrite !l2_value by congruence. rewrite Sa, Sb, <- sum_idx_plus.
  replace (INR (H * W)) with (INR (prod [H; W])) by (f_equal; cbn; lia). rewrite <- factor_sq.
  pose proof (parseval [H; W] (fun n => get x n - get y n) (fun _ => 0 - 0)) as P.
  rewrite (sum_idx_all _ (fun n => (get x n - get y n) ^ 2 + (0 - 0) ^ 2) (fun idx => (get x idx - get y idx) ^ 2)) in P by (intros; ring). rewrite <- P, <- sum_idx_mul.
  apply sum_idx_ext. intros [|i [|j [|? ?]]] V; cbn in V; try tauto. rewrite Va, Va', Vb, Vb'. destruct (dft_diff [H; W] (get x) (fun _ => 0) (get y) (fun _ => 0) [i; j]) as (R & I). rewrite <- R, <- I. ring.
Qed.

(** Volumes: only the first two frequencies of the last dimension are compared. *)
Lemma fft_volume x a b c normalized : shape x = [a; b; c] -> (2 <= c)%nat ->
  exists fx u v, torch_fft (complexify x) (length (shape x)) normalized = Ok fx /\ third fx 0 = Ok u /\ third fx 1 = Ok v /\
    shape u = [a; b; 2%nat] /\ shape v = [a; b; 2%nat] /\
    forall i j, u @3 i j 0%nat = factor normalized [a; b; c] * dft_re [a; b; c] (get x) (fun _ => 0) [i; j; 0%nat] /\ u @3 i j 1%nat = factor normalized [a; b; c] * dft_im [a; b; c] (get x) (fun _ => 0) [i; j; 0%nat] /\
      v @3 i j 0%nat = factor normalized [a; b; c] * dft_re [a; b; c] (get x) (fun _ => 0) [i; j; 1%nat] /\ v @3 i j 1%nat = factor normalized [a; b; c] * dft_im [a; b; c] (get x) (fun _ => 0) [i; j; 1%nat].
Proof.
  intros E C. unfold torch_fft, complexify. rewrite E. cbn [length app shape firstn Nat.leb andb]. unfold third. cbn [shape].
  destruct (Nat.ltb_spec 0 c); [|lia]. destruct (Nat.ltb_spec 1 c); [|lia].
  eexists _, _, _. split; [reflexivity|]. cbn [shape]. rewrite (proj2 (Nat.ltb_lt 0 c)), (proj2 (Nat.ltb_lt 1 c)) by lia. split; [reflexivity|]. split; [reflexivity|]. split; [reflexivity|]. split; [reflexivity|].
  intros i j; cbn [get firstn skipn]; unfold factor, dft_re, dft_im. repeat split; (apply (f_equal2 Rmult); [destruct normalized; reflexivity|]); apply sum_idx_ext; intros [|p [|q [|r [|? ?]]]] V; cbn in V; try tauto; reflexivity.
Qed.
Lemma alternating_invisible a b s l i j : (l < 2)%nat ->
  let d := fun n => s * (-1) ^ nth 2 n 0%nat in
  dft_re [a; b; 4%nat] d (fun _ => 0) [i; j; l] = 0 /\ dft_im [a; b; 4%nat] d (fun _ => 0) [i; j; l] = 0.
Proof.
  intros L d. unfold dft_re, dft_im. cbn [sum_idx angle]. split; apply rsum_zero; intros p _; apply rsum_zero; intros q _; cbn [rsum]; unfold d; cbn [nth pow];
  set (w := 2 * PI * INR i * INR p / INR a); set (w' := 2 * PI * INR j * INR q / INR b); replace (INR 4) with 4 by (cbn; ring);
  destruct l as [|[|l]]; [| |lia| | |lia]; cbn [INR].
  1, 3: rewrite !Rmult_0_r, !Rmult_0_l; unfold Rdiv; rewrite !Rmult_0_l; ring.
  all: rewrite !Rmult_0_l, !Rmult_0_r, !Rmult_1_r; unfold Rdiv; rewrite !Rmult_0_l, !Rplus_0_r;
    replace (2 * PI * / 4) with (PI / 2) by field; replace (2 * PI * (1 + 1) * / 4) with PI by field; replace (2 * PI * (1 + 1 + 1) * / 4) with (3 * (PI / 2)) by field;
    rewrite <- !Rplus_assoc, ?(cos_plus (w + w')), ?(sin_plus (w + w')), ?cos_PI2, ?sin_PI2, ?cos_PI, ?sin_PI, ?cos_3PI2, ?sin_3PI2; ring.
Qed.

(** ** Resizing *)
Lemma enlarged_dim n k f : (0 < k)%nat -> (0 < n)%nat -> rsum (n * k) (fun i => f (i * n / (n * k))%nat) = INR k * rsum n f.
Proof.
  intros K N. rewrite rsum_flat, <- rsum_scal. apply rsum_ext. intros i _. rewrite <- (rsum_const k (f i)). apply rsum_ext. intros j Hj. f_equal.
  rewrite (Nat.mul_comm n k), Nat.div_mul_cancel_r by lia. apply div_pair. exact Hj.
Qed.
Lemma enlarged_sum k : (0 < k)%nat -> forall sh f, ~ In 0%nat sh ->
  sum_idx (map (fun n => n * k)%nat sh) (fun idx => f (sources sh (map (fun n => n * k)%nat sh) idx)) = INR k ^ length sh * sum_idx sh f.
Proof.
  intros K. induction sh as [|n sh IH]; intros f NZ; cbn [map sum_idx length pow sources]; [ring|].
  assert (Hn : (0 < n)%nat) by (destruct n; [elim NZ; left; reflexivity|lia]).
  rewrite (rsum_ext (n * k) _ (fun i => (fun i => INR k ^ length sh * sum_idx sh (fun idx => f (i :: idx))) (i * n / (n * k))%nat)).
  - rewrite (enlarged_dim n k (fun i => INR k ^ length sh * sum_idx sh (fun idx => f (i :: idx)))) by assumption. rewrite rsum_scal. ring.
  - intros i _. apply (IH (fun idx => f ((i * n / (n * k))%nat :: idx))). intros X. apply NZ. right. exact X.
Qed.
Lemma increasing_sum n f (g : nat -> nat) : (forall i, 0 <= f i) -> forall m, (forall i j, (i < j < m)%nat -> (g i < g j)%nat) -> (forall i, (i < m)%nat -> (g i < n)%nat) ->
  rsum m (fun i => f (g i)) <= rsum n f.
Proof.
  intros P. revert n. intros n m. revert n. induction m as [|m IH]; intros n I B; [apply rsum_nonneg; intros; apply P|].
  rewrite rsum_S. apply Rle_trans with (rsum (g m) f + f (g m)).
  - apply Rplus_le_compat_r. apply IH; [intros; apply I; lia|]. intros i Hi. apply I. lia.
  - rewrite <- rsum_S. replace n with (S (g m) + (n - S (g m)))%nat by (specialize (B m ltac:(lia)); lia). rewrite rsum_split.
    assert (0 <= rsum (n - S (g m)) (fun i => f (S (g m) + i)%nat)) by (apply rsum_nonneg; intros; apply P). lra.
Qed.
Lemma shrunk_dim n m i j : (0 < m <= n)%nat -> (i < j)%nat -> (i * n / m < j * n / m)%nat.
Proof.
  intros (M & L) IJ. apply Nat.lt_le_trans with (S (i * n / m)); [lia|]. apply Nat.div_le_lower_bound; [lia|].
  pose proof (Nat.mul_div_le (i * n) m ltac:(lia)). nia.
Qed.
Lemma shrunk_sum : forall from to f, Forall2 (fun n m => (0 < m <= n)%nat) from to -> (forall i, 0 <= f i) ->
  sum_idx to (fun idx => f (sources from to idx)) <= sum_idx from f.
Proof.
  intros from to f F. revert f. induction F as [|n m from to (M & L) _ IH]; intros f P; cbn [sum_idx sources]; [apply Rle_refl|].
  apply Rle_trans with (rsum m (fun i => (fun i => sum_idx from (fun idx => f (i :: idx))) (i * n / m)%nat)).
  - apply rsum_le. intros i _. apply (IH (fun idx => f ((i * n / m)%nat :: idx))). intros; apply P.
  - apply (increasing_sum n (fun i => sum_idx from (fun idx => f (i :: idx))) (fun i => (i * n / m)%nat)).
    + intros i. apply sum_idx_nonneg. intros; apply P.
    + intros i j (A & B). apply shrunk_dim; lia.
    + intros i Hi. apply Nat.div_lt_upper_bound; [lia|]. nia.
Qed.
Lemma nonzero_list l : ~ In 0%nat l -> existsb (Nat.eqb 0) l = false.
Proof. intros N. apply Bool.not_true_is_false. intros E. apply existsb_exists in E. destruct E as (x & I & X). apply Nat.eqb_eq in X. subst x. exact (N I). Qed.
Lemma resized_ok t size : length size = length (shape t) -> (1 <= length size <= 3)%nat -> ~ In 0%nat size -> ~ In 0%nat (shape t) ->
  resized t size = Ok (mkT size (fun idx => get t (sources (shape t) size idx))).
Proof.
  intros L R N N'. unfold resized. rewrite L, Nat.eqb_refl, (nonzero_list _ N), (nonzero_list _ N'). cbn [negb orb]. rewrite <- L. destruct (length size) as [|[|[|[|n]]]]; try lia; reflexivity.
Qed.
