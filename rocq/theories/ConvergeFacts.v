(** Proofs for PropConverge.v: the error of explicit schemes. *)
From Coq Require Import Reals List Arith Lia Lra Psatz.
From Coquelicot Require Import Derive.
From Verif Require Import Py RSum Tensor TensorFacts ShootingModel SpecShooting SpecConverge ShootingPack.
Import ListNotations.
Open Scope R_scope.

(** ** The entries of a list of tensors *)
Definition spots (shs : list (list nat)) : list (nat * list nat) :=
  concat (map (fun p => map (fun k => (fst p, unravel (snd p) k)) (seq 0 (prod (snd p)))) (combine (seq 0 (length shs)) shs)).
Lemma nth_combine_seq {A} (l : list A) : forall i k x, nth_error l i = Some x -> In ((k + i)%nat, x) (combine (seq k (length l)) l).
Proof.
  induction l as [|a l IH]; intros [|i] k x E; try discriminate E; cbn in *.
  - injection E as ->. left. f_equal. lia.
  - right. replace (k + S i)%nat with (S k + i)%nat by lia. apply IH. exact E.
Qed.
Lemma spots_in shs i s idx : nth_error shs i = Some s -> valid s idx -> In (i, idx) (spots shs).
Proof.
  intros E V. unfold spots. apply in_concat. exists (map (fun k => (i, unravel s k)) (seq 0 (prod s))). split.
  - apply in_map_iff. exists (i, s). split; [reflexivity|]. exact (nth_combine_seq shs i 0 s E).
  - apply in_map_iff. exists (ravel s idx). split; [rewrite unravel_ravel by exact V; reflexivity|]. apply in_seq. pose proof (ravel_lt s idx V). lia.
Qed.
Lemma least {A} (P : A -> R -> Prop) (l : list A) : (forall x d d', P x d -> 0 < d' <= d -> P x d') -> (forall x, exists d, 0 < d /\ P x d) ->
  exists d, 0 < d /\ forall x, In x l -> P x d.
Proof.
  intros M E. induction l as [|a l (d & D & H)]; [exists 1; split; [lra|intros x []]|]. destruct (E a) as (d' & D' & H').
  exists (Rmin d d'). split; [apply Rmin_pos; assumption|]. intros x [<-|I]; [apply (M a d'); [exact H'|]|apply (M x d); [exact (H x I)|]];
    (split; [apply Rmin_pos; assumption|]); [apply Rmin_r|apply Rmin_l].
Qed.
Lemma largest {A} (f : A -> R) (l : list A) : exists B, 0 <= B /\ forall x, In x l -> Rabs (f x) <= B.
Proof.
  induction l as [|a l (B & P & H)]; [exists 0; split; [lra|intros x []]|]. exists (Rmax B (Rabs (f a))). split; [apply Rle_trans with B; [exact P|apply Rmax_l]|].
  intros x [<-|I]; [apply Rmax_r|]. apply Rle_trans with B; [exact (H x I)|apply Rmax_l].
Qed.
Lemma entry_ladd : forall a b i idx, length a = length b -> entry (ladd a b) i idx = entry a i idx + entry b i idx.
Proof.
  unfold entry, ladd. induction a as [|x a IH]; intros [|y b] i idx L; try discriminate L; [destruct i; cbn; ring|].
  injection L as L. destruct i as [|i]; [reflexivity|]. cbn [combine map nth_error]. exact (IH b i idx L).
Qed.
Lemma entry_lscal : forall r a i idx, entry (lscal r a) i idx = r * entry a i idx.
Proof. intros r a i idx. unfold entry, lscal. rewrite nth_error_map. destruct (nth_error a i); cbn; [reflexivity|ring]. Qed.
Lemma shapes_len a b : map shape a = map shape b -> length a = length b.
Proof. intros E. rewrite <- (map_length shape a), E, map_length. reflexivity. Qed.
Lemma shape_ladd a b : map shape a = map shape b -> map shape (ladd a b) = map shape a.
Proof.
  revert b. unfold ladd. induction a as [|x a IH]; intros [|y b] E; try discriminate E; [reflexivity|]. cbn in E. injection E as E1 E2. cbn [combine map fst snd]. rewrite (IH b E2). reflexivity.
Qed.
Lemma shape_lscal r a : map shape (lscal r a) = map shape a.
Proof. unfold lscal. rewrite map_map. reflexivity. Qed.
Lemma leq_entry a b i s idx : leq a b -> nth_error (map shape b) i = Some s -> valid s idx -> entry a i idx = entry b i idx.
Proof.
  intros Q. revert i. unfold entry. induction Q as [|x y a b (S & E) _ IH]; intros [|i] N V; try discriminate N; cbn in *; [injection N as <-; apply E; rewrite S; exact V|exact (IH i N V)].
Qed.
Lemma near_trans e e' a b c : near e a b -> near e' b c -> near (e + e') a c.
Proof.
  intros (S & H) (S' & H'). split; [congruence|]. intros i s idx N V. pose proof (H i s idx N V) as X. rewrite S in N. pose proof (H' i s idx N V) as Y.
  replace (entry a i idx - entry c i idx) with ((entry a i idx - entry b i idx) + (entry b i idx - entry c i idx)) by ring. eapply Rle_trans; [apply Rabs_triang|lra].
Qed.
Lemma near_sym e a b : near e a b -> near e b a.
Proof. intros (S & H). split; [congruence|]. intros i s idx N V. rewrite Rabs_minus_sym. apply (H i s idx); [rewrite S; exact N|exact V]. Qed.
Lemma near_le e e' a b : near e a b -> e <= e' -> near e' a b.
Proof. intros (S & H) L. split; [exact S|]. intros i s idx N V. eapply Rle_trans; [exact (H i s idx N V)|exact L]. Qed.
Lemma near_refl e a : 0 <= e -> near e a a.
Proof. intros P. split; [reflexivity|]. intros. rewrite Rminus_diag_eq, Rabs_R0 by reflexivity. exact P. Qed.
Lemma near_leq e a b b' : near e a b -> leq b' b -> near e a b'.
Proof. intros (S & H) Q. split; [rewrite (leq_shape _ _ Q); exact S|]. intros i s idx N V. rewrite (leq_entry b' b i s idx Q); [exact (H i s idx N V)|rewrite <- S; exact N|exact V]. Qed.
(** The numbers of one list. *)
Definition within (B : R) (a : list tensor) : Prop := forall i s idx, nth_error (map shape a) i = Some s -> valid s idx -> Rabs (entry a i idx) <= B.
Lemma within_near B e a b : within B a -> near e a b -> within (B + e) b.
Proof.
  intros W (S & H) i s idx N V. rewrite <- S in N. pose proof (W i s idx N V). pose proof (H i s idx N V) as X. rewrite Rabs_minus_sym in X.
  replace (entry b i idx) with (entry a i idx + (entry b i idx - entry a i idx)) by ring. eapply Rle_trans; [apply Rabs_triang|lra].
Qed.
Lemma within_add B B' a b : map shape a = map shape b -> within B a -> within B' b -> within (B + B') (ladd a b).
Proof.
  intros S W W' i s idx N V. rewrite shape_ladd in N by exact S. rewrite entry_ladd by exact (shapes_len _ _ S). eapply Rle_trans; [apply Rabs_triang|]. pose proof (W i s idx N V). rewrite S in N. pose proof (W' i s idx N V). lra.
Qed.
Lemma within_scal r B a : within B a -> within (Rabs r * B) (lscal r a).
Proof. intros W i s idx N V. rewrite shape_lscal in N. rewrite entry_lscal, Rabs_mult. apply Rmult_le_compat_l; [apply Rabs_pos|exact (W i s idx N V)]. Qed.
Lemma within_le B B' a : within B a -> B <= B' -> within B' a.
Proof. intros W L i s idx N V. eapply Rle_trans; [exact (W i s idx N V)|exact L]. Qed.
(** A step away. *)
Lemma near_step l v B r l' : map shape v = map shape l -> within B v -> 0 <= r -> leq l' (ladd l (lscal r v)) -> near (r * B) l l'.
Proof.
  intros S W P Q. apply near_leq with (b := ladd l (lscal r v)); [|exact Q]. split; [rewrite shape_ladd; [reflexivity|rewrite shape_lscal; congruence]|].
  intros i s idx N V. rewrite entry_ladd, entry_lscal by (unfold lscal; rewrite map_length; symmetry; exact (shapes_len _ _ S)).
  replace (entry l i idx - (entry l i idx + r * entry v i idx)) with (- (r * entry v i idx)) by ring. rewrite Rabs_Ropp, Rabs_mult, (Rabs_pos_eq r P). apply Rmult_le_compat_l; [exact P|].
  apply (W i s idx); [rewrite S; exact N|exact V].
Qed.

Ltac shp := solve [repeat first [rewrite shape_lscal | rewrite shape_ladd by shp]; congruence].

Section Run.
Variables (shs : list (list nat)) (F : list tensor -> list tensor -> Prop) (c : R -> list tensor) (T rho L : R).
Hypothesis FS : forall l k, F l k -> map shape k = map shape l.
Hypothesis CS : forall t, map shape (c t) = shs.
Hypothesis SOL : forall t, 0 <= t <= T -> exists k, F (c t) k /\ forall i s idx, nth_error shs i = Some s -> valid s idx -> derivable_pt_lim (fun x => entry (c x) i idx) t (entry k i idx).
Hypothesis LIP : forall t l l' k k' e, 0 <= t <= T -> near rho (c t) l -> near rho (c t) l' -> F l k -> F l' k' -> near e l l' -> near (L * e) k k'.
Hypothesis HR : 0 < rho.
Hypothesis HL : 0 <= L.
Hypothesis HT : 0 < T.

Lemma continuous_curve e : 0 < e -> exists d, 0 < d /\ forall s t, 0 <= s <= T -> 0 <= t <= T -> Rabs (s - t) < d -> near e (c s) (c t).
Proof.
  intros E.
  destruct (least (fun (p : nat * list nat) d => forall sh, nth_error shs (fst p) = Some sh -> valid sh (snd p) -> forall s t, 0 <= s <= T -> 0 <= t <= T -> Rabs (s - t) < d -> Rabs (entry (c s) (fst p) (snd p) - entry (c t) (fst p) (snd p)) <= e) (spots shs)) as (d & D & H).
  - intros p d d' H (P & Q) sh N V s t S1 S2 X. apply (H sh N V s t S1 S2). lra.
  - intros (i & idx). cbn [fst snd]. destruct (nth_error shs i) as [sh|] eqn:N; [|exists 1; split; [lra|discriminate]].
    destruct (Rle_dec 0 0) as [_|]; [|lra].
    assert (UC : (exists sh', Some sh = Some sh' /\ valid sh' idx) \/ ~ exists sh', Some sh = Some sh' /\ valid sh' idx).
    { destruct (Coq.Logic.Classical_Prop.classic (exists sh', Some sh = Some sh' /\ valid sh' idx)); [left|right]; assumption. }
    destruct UC as [(sh' & Q & V)|NV]; [injection Q as <-|exists 1; split; [lra|intros sh' Q V; elim NV; exists sh'; split; assumption]].
    assert (U : uniform_continuity (fun x => entry (c x) i idx) (fun x => 0 <= x <= T)).
    { apply Heine; [apply compact_P3|]. intros x X. destruct (SOL x X) as (k & _ & DK). apply derivable_continuous_pt. exists (entry k i idx). exact (DK i sh idx N V). }
    destruct (U (mkposreal e E)) as (d & UD). exists d. split; [apply cond_pos|]. intros sh' _ _ s t S1 S2 X. left. exact (UD s t S1 S2 X).
  - exists d. split; [exact D|]. intros s t S1 S2 X. split; [rewrite !CS; reflexivity|]. intros i sh idx N V. rewrite CS in N. exact (H (i, idx) (spots_in shs i sh idx N V) sh N V s t S1 S2 X).
Qed.

Lemma bounded_speed : exists M, 0 <= M /\ forall t k, 0 <= t <= T -> F (c t) k -> within M k.
Proof.
  destruct (continuous_curve rho HR) as (d & D & C).
  assert (X : forall n, exists M, 0 <= M /\ forall t k, 0 <= t <= T -> t <= INR n * (d / 2) -> F (c t) k -> within M k).
  { induction n as [|n (M & PM & IH)].
    - destruct (SOL 0 ltac:(lra)) as (k0 & F0 & _). destruct (largest (fun p => entry k0 (fst p) (snd p)) (spots shs)) as (B & PB & HB). exists B. split; [exact PB|].
      intros t k T0 T1 FK. cbn in T1. assert (t = 0) by lra. subst t. assert (N0 : near (L * 0) k0 k) by (apply (LIP 0 (c 0) (c 0)); try assumption; try (apply near_refl; lra)).
      apply (within_near B (L * 0)) in N0; [replace (B + L * 0) with B in N0 by ring; exact N0|]. intros i s idx N V. rewrite (FS _ _ F0), CS in N. exact (HB (i, idx) (spots_in shs i s idx N V)).
    - exists (M + L * rho). split; [nra|]. intros t k T0 T1 FK. rewrite S_INR in T1.
      destruct (Rle_dec t (INR n * (d / 2))) as [LE|GT]; [apply within_le with M; [exact (IH t k T0 LE FK)|nra]|].
      set (s := t - d / 2). assert (PN : 0 <= INR n) by apply pos_INR. assert (S0 : 0 <= t) by lra.
      destruct (Rle_dec 0 s) as [SP|SN].
      + assert (SI : 0 <= s <= T) by (unfold s in *; lra). destruct (SOL s SI) as (ks & FKs & _). apply (within_near M (L * rho) ks k); [apply (IH s ks SI); [unfold s; lra|exact FKs]|].
        apply (LIP s (c s) (c t)); try assumption; [apply near_refl; lra| |]; apply C; try assumption; unfold s; replace (t - d / 2 - t) with (- (d / 2)) by ring; rewrite Rabs_Ropp, Rabs_pos_eq; lra.
      + assert (SI : 0 <= 0 <= T) by lra. destruct (SOL 0 SI) as (ks & FKs & _). apply (within_near M (L * rho) ks k); [apply (IH 0 ks SI); [nra|exact FKs]|].
        apply (LIP 0 (c 0) (c t)); try assumption; [apply near_refl; lra| |]; apply C; try assumption; unfold s in SN; replace (0 - t) with (- t) by ring; rewrite Rabs_Ropp, Rabs_pos_eq; lra. }
  destruct (archimed (T / (d / 2))) as (A & _). assert (PT : 0 < T / (d / 2)) by (apply Rdiv_lt_0_compat; lra).
  assert (ZP : (0 <= up (T / (d / 2)))%Z) by (apply le_IZR; lra). destruct (X (Z.to_nat (up (T / (d / 2))))) as (M & PM & H). exists M. split; [exact PM|]. intros t k T0 FK. apply (H t k T0); [|exact FK].
  rewrite INR_IZR_INZ, Z2Nat.id by exact ZP. apply Rle_trans with T; [lra|]. apply (Rmult_lt_compat_r (d / 2)) in A; [|lra]. replace (T / (d / 2) * (d / 2)) with T in A by (field; lra). lra.
Qed.

Variable M : R.
Hypothesis PM : 0 <= M.
Hypothesis SPEED : forall t k, 0 <= t <= T -> F (c t) k -> within M k.

Lemma between f f' B a b : a <= b -> (forall t, a <= t <= b -> exists y, derivable_pt_lim f t y /\ Rabs (y - f') <= B) -> Rabs (f b - f a - (b - a) * f') <= (b - a) * B.
Proof.
  intros AB D. destruct (Req_dec a b) as [EQ|NE]; [rewrite EQ; replace (f b - f b - (b - b) * f') with 0 by ring; rewrite Rabs_R0; lra|].
  assert (X : forall t, a <= t <= b -> derivable_pt_lim f t (Derive f t) /\ Rabs (Derive f t - f') <= B).
  { intros t Ht. destruct (D t Ht) as (y & DY & BY). apply is_derive_Reals in DY. rewrite (is_derive_unique f t y DY). split; [apply is_derive_Reals; exact DY|exact BY]. }
  destruct (MVT_cor2 f (Derive f) a b ltac:(lra) (fun x Hx => proj1 (X x Hx))) as (x & E & Hx). rewrite E.
  replace (Derive f x * (b - a) - (b - a) * f') with ((b - a) * (Derive f x - f')) by ring. rewrite Rabs_mult, (Rabs_pos_eq (b - a)) by lra. apply Rmult_le_compat_l; [lra|]. apply X. lra.
Qed.
Lemma travel s t : 0 <= s <= t -> t <= T -> near (M * (t - s)) (c s) (c t).
Proof.
  intros S1 S2. split; [rewrite !CS; reflexivity|]. intros i sh idx N V. rewrite CS in N. rewrite Rabs_minus_sym.
  pose proof (between (fun x => entry (c x) i idx) 0 M s t ltac:(lra)) as X. cbv beta in X. replace (entry (c t) i idx - entry (c s) i idx) with (entry (c t) i idx - entry (c s) i idx - (t - s) * 0) by ring.
  rewrite (Rmult_comm M). apply X. intros x Hx. destruct (SOL x ltac:(lra)) as (k & FK & DK). exists (entry k i idx). split; [exact (DK i sh idx N V)|]. rewrite Rminus_0_r.
  apply (SPEED x k ltac:(lra) FK i sh idx); [rewrite (FS _ _ FK), CS; exact N|exact V].
Qed.
(** The exact motion against a step along its velocity. *)
Lemma local_error t h k : 0 <= t -> 0 <= h -> t + h <= T -> M * h <= rho -> F (c t) k -> near (h * (L * (M * h))) (c (t + h)) (ladd (c t) (lscal h k)).
Proof.
  intros T0 H0 T1 MH FK. pose proof (FS _ _ FK) as SK. split; [rewrite shape_ladd; [rewrite !CS; reflexivity|rewrite shape_lscal; congruence]|]. intros i sh idx N V. rewrite CS in N.
  rewrite entry_ladd, entry_lscal by (unfold lscal; rewrite map_length; symmetry; exact (shapes_len _ _ SK)).
  pose proof (between (fun x => entry (c x) i idx) (entry k i idx) (L * (M * h)) t (t + h) ltac:(lra)) as X. cbv beta in X. replace (t + h - t) with h in X by ring.
  replace (entry (c (t + h)) i idx - (entry (c t) i idx + h * entry k i idx)) with (entry (c (t + h)) i idx - entry (c t) i idx - h * entry k i idx) by ring. apply X.
  intros x Hx. destruct (SOL x ltac:(lra)) as (kx & FX & DX). exists (entry kx i idx). split; [exact (DX i sh idx N V)|].
  assert (NE : near (M * h) (c t) (c x)) by (apply near_le with (M * (x - t)); [apply travel; lra|apply Rmult_le_compat_l; lra]).
  assert (NK : near (L * (M * h)) k kx) by (apply (LIP t (c t) (c x)); try assumption; [lra|apply near_refl; lra|apply near_le with (M * h); assumption]).
  apply near_sym in NK. apply (proj2 NK i sh idx); [rewrite (FS _ _ FX), CS; exact N|exact V].
Qed.

(** The slope used by a step of one of the schemes, against the velocity of the exact motion
    nearby. *)
Definition M' := M + L * rho.
Lemma nearby t e l k kl : 0 <= t <= T -> near e (c t) l -> e <= rho -> F (c t) k -> F l kl -> near (L * e) k kl /\ within M' kl /\ map shape kl = shs.
Proof.
  intros Ht NE ER FK FL. assert (NK : near (L * e) k kl) by (apply (LIP t (c t) l); try assumption; [apply near_refl; lra|apply near_le with e; assumption]).
  split; [exact NK|]. split; [apply within_le with (M + L * e); [exact (within_near _ _ _ _ (SPEED t k Ht FK) NK)|unfold M'; nra]|]. rewrite (FS _ _ FL), <- (proj1 NE). apply CS.
Qed.
Lemma near_lin a e k v : near e k v -> forall e' v', near e' k v' -> 0 <= a <= 1 -> near (a * e + (1 - a) * e') k (ladd (lscal a v) (lscal (1 - a) v')).
Proof.
  intros (S & H) e' v' (S' & H') A. assert (SV : map shape (lscal a v) = map shape (lscal (1 - a) v')) by (rewrite !shape_lscal; congruence).
  split; [rewrite shape_ladd, shape_lscal by exact SV; exact S|]. intros i s idx N V. rewrite entry_ladd, !entry_lscal by exact (shapes_len _ _ SV).
  replace (entry k i idx - (a * entry v i idx + (1 - a) * entry v' i idx)) with (a * (entry k i idx - entry v i idx) + (1 - a) * (entry k i idx - entry v' i idx)) by ring.
  eapply Rle_trans; [apply Rabs_triang|]. rewrite !Rabs_mult, (Rabs_pos_eq a), (Rabs_pos_eq (1 - a)) by lra. pose proof (H i s idx N V). pose proof (H' i s idx N V). nra.
Qed.
Lemma slope sch h t e l ss l' k : 0 <= t <= T -> 0 <= h -> 0 <= e -> near e (c t) l -> e + 3 * h * M' <= rho -> F (c t) k ->
  scheme_step sch (fun _ => F) h l ss l' ->
  exists v, near (L * (e + 3 * h * M')) k v /\ map shape v = shs /\ forall i s idx, nth_error shs i = Some s -> valid s idx -> entry l' i idx = entry l i idx + h * entry v i idx.
Proof.
  intros Ht H0 E0 NE ER FK ST. assert (PM' : 0 <= M') by (unfold M'; nra). assert (SL : map shape l = shs) by (rewrite <- (proj1 NE); apply CS). assert (HM : 0 <= h * M') by nra.
  assert (FAR : forall r v l2, map shape v = shs -> within (r * M') v -> 0 <= r -> r <= 3 -> leq l2 (ladd l (lscal h v)) -> near (e + 3 * h * M') (c t) l2).
  { intros r v l2 SV WV R0 R3 Q. apply near_le with (e + h * (r * M')); [|nra]. apply near_trans with l; [exact NE|]. apply (near_step l v (r * M') h l2); try assumption. congruence. }
  assert (FIN : forall v, map shape v = shs -> leq l' (ladd l (lscal h v)) -> forall i s idx, nth_error shs i = Some s -> valid s idx -> entry l' i idx = entry l i idx + h * entry v i idx).
  { intros v SV Q i s idx N V. assert (LV : length l = length (lscal h v)) by (unfold lscal; rewrite map_length; apply shapes_len; congruence).
    rewrite (leq_entry _ _ i s idx Q); [rewrite entry_ladd, entry_lscal by exact LV; reflexivity| |exact V]. rewrite shape_ladd; [rewrite SL; exact N|rewrite shape_lscal; congruence]. }
  assert (ELE : e <= e + 3 * h * M') by nra.
  destruct sch; cbn [scheme_step] in ST.
  - destruct ST as (k1 & _ & F1 & Q). destruct (nearby t e l k k1 Ht NE ltac:(lra) FK F1) as (N1 & W1 & S1). exists k1. split; [apply near_le with (L * e); [exact N1|nra]|]. split; [exact S1|]. exact (FIN k1 S1 Q).
  - destruct ST as (k1 & l2 & k2 & _ & F1 & Q1 & F2 & Q). destruct (nearby t e l k k1 Ht NE ltac:(lra) FK F1) as (N1 & W1 & S1).
    assert (N2 : near (e + 3 * h * M') (c t) l2).
    { apply near_le with (e + (h / 2) * M'); [|nra]. apply near_trans with l; [exact NE|]. apply (near_step l k1 M' (h / 2) l2); try assumption; [congruence|lra]. }
    destruct (nearby t _ l2 k k2 Ht N2 ER FK F2) as (N3 & W3 & S3). exists k2. split; [exact N3|]. split; [exact S3|]. exact (FIN k2 S3 Q).
  - destruct ST as (k1 & l2 & k2 & l3 & k3 & l4 & k4 & _ & F1 & Q1 & F2 & Q2 & F3 & Q3 & F4 & Q). destruct (nearby t e l k k1 Ht NE ltac:(lra) FK F1) as (N1 & W1 & S1).
    assert (P2 : near (e + 3 * h * M') (c t) l2).
    { apply near_le with (e + (h / 3) * M'); [|nra]. apply near_trans with l; [exact NE|]. apply (near_step l k1 M' (h / 3) l2); try assumption; [congruence|lra]. }
    destruct (nearby t _ l2 k k2 Ht P2 ER FK F2) as (N2 & W2 & S2).
    assert (P3 : near (e + 3 * h * M') (c t) l3).
    { apply (FAR 2 (ladd k2 (lscal (- (1 / 3)) k1)) l3); try lra; try exact Q2; [rewrite shape_ladd; [exact S2|rewrite shape_lscal; congruence]|].
      apply within_le with (M' + Rabs (- (1 / 3)) * M'); [apply within_add; [rewrite shape_lscal; congruence|exact W2|apply within_scal; exact W1]|]. rewrite Rabs_Ropp, Rabs_pos_eq by lra. nra. }
    destruct (nearby t _ l3 k k3 Ht P3 ER FK F3) as (N3 & W3 & S3).
    assert (P4 : near (e + 3 * h * M') (c t) l4).
    { apply (FAR 3 (ladd (ladd k1 (lscal (-1) k2)) k3) l4); try lra; try exact Q3; [rewrite !shape_ladd; rewrite ?shape_ladd, ?shape_lscal; rewrite ?shape_lscal; congruence|].
      apply within_le with (M' + Rabs (-1) * M' + M'); [apply within_add; [rewrite shape_ladd; rewrite ?shape_lscal; congruence|apply within_add; [rewrite shape_lscal; congruence|exact W1|apply within_scal; exact W2]|exact W3]|].
      replace (-1) with (- (1)) by ring. rewrite Rabs_Ropp, Rabs_R1. lra. }
    destruct (nearby t _ l4 k k4 Ht P4 ER FK F4) as (N4 & W4 & S4).
    set (b := L * (e + 3 * h * M')) in *. assert (N1' : near b k k1) by (apply near_le with (L * e); [exact N1|unfold b; nra]).
    assert (H23 : near b k (ladd (lscal (1 / 2) k2) (lscal (1 - 1 / 2) k3))) by (apply near_le with (1 / 2 * b + (1 - 1 / 2) * b); [apply near_lin; try assumption; lra|lra]).
    assert (H14 : near b k (ladd (lscal (1 / 2) k1) (lscal (1 - 1 / 2) k4))) by (apply near_le with (1 / 2 * b + (1 - 1 / 2) * b); [apply near_lin; try assumption; lra|lra]).
    set (v14 := ladd (lscal (1 / 2) k1) (lscal (1 - 1 / 2) k4)) in *. set (v23 := ladd (lscal (1 / 2) k2) (lscal (1 - 1 / 2) k3)) in *.
    assert (S14 : map shape v14 = shs) by (unfold v14; rewrite shape_ladd; rewrite ?shape_lscal; congruence). assert (S23 : map shape v23 = shs) by (unfold v23; rewrite shape_ladd; rewrite ?shape_lscal; congruence).
    exists (ladd (lscal (1 / 4) v14) (lscal (1 - 1 / 4) v23)). split; [apply near_le with (1 / 4 * b + (1 - 1 / 4) * b); [apply near_lin; try assumption; lra|lra]|].
    split; [rewrite shape_ladd; rewrite ?shape_lscal; congruence|]. intros i s idx N V.
    set (w := ladd (ladd k1 (lscal 3 (ladd k2 k3))) k4) in Q.
    assert (Sw : map shape w = shs) by (unfold w; shp).
    assert (LV : length l = length (lscal (h / 8) w)) by (unfold lscal; rewrite map_length; apply shapes_len; congruence).
    rewrite (leq_entry _ _ i s idx Q); [|rewrite shape_ladd; [rewrite SL; exact N|shp]|exact V]. rewrite entry_ladd, entry_lscal by exact LV.
    unfold w, v14, v23. rewrite !entry_lscal || idtac. repeat first [rewrite entry_lscal | rewrite entry_ladd by (apply shapes_len; unfold v14, v23; shp)]. field.
Qed.

Lemma step_shape sch h l ss l' : map shape l = shs -> scheme_step sch (fun _ => F) h l ss l' -> map shape l' = shs.
Proof.
  intros SL ST. destruct sch; cbn [scheme_step] in ST.
  - destruct ST as (k1 & _ & F1 & Q). rewrite (leq_shape _ _ Q), shape_ladd; [exact SL|]. rewrite shape_lscal, (FS _ _ F1). reflexivity.
  - destruct ST as (k1 & l2 & k2 & _ & F1 & Q1 & F2 & Q). rewrite (leq_shape _ _ Q), shape_ladd; [exact SL|]. rewrite shape_lscal, (FS _ _ F2), (leq_shape _ _ Q1), shape_ladd; [reflexivity|]. rewrite shape_lscal, (FS _ _ F1). reflexivity.
  - destruct ST as (k1 & l2 & k2 & l3 & k3 & l4 & k4 & _ & F1 & Q1 & F2 & Q2 & F3 & Q3 & F4 & Q). assert (S1 : map shape k1 = shs) by (rewrite (FS _ _ F1); exact SL).
    assert (S2 : map shape k2 = shs) by (rewrite (FS _ _ F2), (leq_shape _ _ Q1), shape_ladd; [exact SL|shp]).
    assert (S3 : map shape k3 = shs) by (rewrite (FS _ _ F3), (leq_shape _ _ Q2), shape_ladd; [exact SL|]; shp).
    assert (S4 : map shape k4 = shs) by (rewrite (FS _ _ F4), (leq_shape _ _ Q3), shape_ladd; [exact SL|]; shp).
    rewrite (leq_shape _ _ Q), shape_ladd; [exact SL|]. shp.
Qed.
Definition K := 3 * L * M' + L * M.
Lemma one_step sch h t e l ss l' : 0 <= t -> 0 <= h -> t + h <= T -> 0 <= e -> near e (c t) l -> e + 3 * h * M' <= rho -> scheme_step sch (fun _ => F) h l ss l' ->
  near ((1 + h * L) * e + K * h ^ 2) (c (t + h)) l'.
Proof.
  intros T0 H0 T1 E0 NE ER ST. assert (Ht : 0 <= t <= T) by lra. destruct (SOL t Ht) as (k & FK & _). destruct (slope sch h t e l ss l' k Ht H0 E0 NE ER FK ST) as (v & NV & SV & EV).
  assert (PL : 0 <= L * rho) by nra. assert (LE : near (h * (L * (M * h))) (c (t + h)) (ladd (c t) (lscal h k))) by (apply local_error; try assumption; unfold M' in ER; nra).
  pose proof (FS _ _ FK) as SK. rewrite CS in SK.
  assert (LK : length (c t) = length (lscal h k)) by (unfold lscal; rewrite map_length; apply shapes_len; rewrite CS; congruence).
  assert (SL : map shape l' = shs) by exact (step_shape sch h l ss l' ltac:(rewrite <- (proj1 NE); apply CS) ST).
  split; [rewrite CS, SL; reflexivity|]. intros i s idx N V. rewrite CS in N. rewrite (EV i s idx N V).
  assert (X1 : Rabs (entry (c (t + h)) i idx - (entry (c t) i idx + h * entry k i idx)) <= h * (L * (M * h))).
  { rewrite <- entry_lscal, <- entry_ladd by exact LK. apply (proj2 LE i s idx); [rewrite CS; exact N|exact V]. }
  assert (X2 : Rabs (entry (c t) i idx - entry l i idx) <= e) by (apply (proj2 NE i s idx); [rewrite CS; exact N|exact V]).
  assert (X3 : Rabs (entry k i idx - entry v i idx) <= L * (e + 3 * h * M')) by (apply (proj2 NV i s idx); [rewrite SK; exact N|exact V]).
  replace (entry (c (t + h)) i idx - (entry l i idx + h * entry v i idx)) with ((entry (c (t + h)) i idx - (entry (c t) i idx + h * entry k i idx)) + ((entry (c t) i idx - entry l i idx) + h * (entry k i idx - entry v i idx))) by ring.
  eapply Rle_trans; [apply Rabs_triang|]. assert (X4 : Rabs (h * (entry k i idx - entry v i idx)) <= h * (L * (e + 3 * h * M'))) by (rewrite Rabs_mult, (Rabs_pos_eq h H0); apply Rmult_le_compat_l; assumption).
  pose proof (Rabs_triang (entry (c t) i idx - entry l i idx) (h * (entry k i idx - entry v i idx))). unfold K. nra.
Qed.

Definition err (h : R) (n : nat) : R := K * h ^ 2 * INR n * (1 + h * L) ^ n.
Lemma K_pos : 0 <= K.
Proof. unfold K, M'. assert (0 <= L * rho) by nra. assert (0 <= L * (M + L * rho)) by (apply Rmult_le_pos; lra). nra. Qed.
Lemma err_step h n : 0 <= h -> (1 + h * L) * err h n + K * h ^ 2 <= err h (S n).
Proof.
  intros H0. unfold err. rewrite S_INR. cbn [pow]. pose proof K_pos as KP. assert (B : 1 <= 1 + h * L) by nra. assert (P : 1 <= (1 + h * L) ^ n) by (apply pow_R1_Rle; exact B).
  assert (Q : 1 <= (1 + h * L) * (1 + h * L) ^ n) by nra. set (z := (1 + h * L) ^ n) in *. set (a := 1 + h * L) in *. assert (KH : 0 <= K * (h * (h * 1))) by (apply Rmult_le_pos; [exact KP|nra]).
  set (y := K * (h * (h * 1))) in *. set (x := INR n). replace (a * (y * x * z)) with (y * x * (a * z)) by ring. replace (y * (x + 1) * (a * z)) with (y * x * (a * z) + y * (a * z)) by ring. nra.
Qed.
Lemma err_mono h n : 0 <= h -> 0 <= err h n /\ err h n <= err h (S n).
Proof.
  intros H0. pose proof K_pos as KP. assert (B : 1 <= 1 + h * L) by nra. assert (P : 0 <= err h n).
  { unfold err. apply Rmult_le_pos; [apply Rmult_le_pos; [apply Rmult_le_pos; [exact KP|apply pow2_ge_0]|apply pos_INR]|apply pow_le; lra]. }
  split; [exact P|]. pose proof (err_step h n H0). assert (0 <= K * h ^ 2) by (apply Rmult_le_pos; [exact KP|apply pow2_ge_0]). nra.
Qed.
Lemma err_le h n m : 0 <= h -> (n <= m)%nat -> err h n <= err h m.
Proof. intros H0 LE. induction LE as [|m _ IH]; [lra|]. pose proof (proj2 (err_mono h m H0)). lra. Qed.
Definition C := K * T * exp (L * T).
Lemma exp_power x n : exp x ^ n = exp (INR n * x).
Proof. induction n as [|n IH]; [cbn; rewrite Rmult_0_l, exp_0; reflexivity|]. rewrite S_INR. cbn [pow]. rewrite IH, <- exp_plus. f_equal. ring. Qed.
Lemma err_bound h n : 0 <= h -> h * INR n <= T -> err h n <= C * h.
Proof.
  intros H0 HN. unfold err, C. pose proof K_pos as KP.
  assert (E : (1 + h * L) ^ n <= exp (L * T)).
  { apply Rle_trans with (exp (h * L) ^ n); [apply pow_incr; split; [nra|]; pose proof (exp_ineq1_le (h * L)); lra|].
    rewrite exp_power. assert (X : INR n * (h * L) <= L * T) by nra. destruct X as [X|X]; [left; apply exp_increasing; exact X|rewrite X; right; reflexivity]. }
  replace (K * h ^ 2 * INR n * (1 + h * L) ^ n) with (K * h * (h * INR n) * (1 + h * L) ^ n) by ring. replace (K * T * exp (L * T) * h) with (K * h * T * exp (L * T)) by ring.
  assert (PH : 0 <= K * h) by (apply Rmult_le_pos; assumption). assert (PN : 0 <= h * INR n) by (apply Rmult_le_pos; [exact H0|apply pos_INR]).
  apply Rmult_le_compat; [apply Rmult_le_pos; assumption|apply pow_le; nra|apply Rmult_le_compat_l; assumption|exact E].
Qed.
Lemma all_steps sch h states stages : 0 <= h -> h * INR (length stages) <= T -> C * h + 3 * h * M' <= rho ->
  trajectory sch (fun _ => F) h states stages -> (forall l, nth_error states 0 = Some l -> leq l (c 0)) ->
  forall n l, nth_error states n = Some l -> near (err h n) (c (INR n * h)) l.
Proof.
  intros H0 HN ER (LS & ST) S0. induction n as [|n IH]; intros l El.
  - cbn [INR]. replace (0 * h) with 0 by ring. apply near_leq with (c 0); [|exact (S0 l El)]. apply near_refl. apply err_mono. exact H0.
  - assert (Nn : (n < length stages)%nat) by (assert (S n < length states)%nat by (apply nth_error_Some; congruence); lia).
    destruct (nth_error states n) as [l0|] eqn:E0; [|apply nth_error_None in E0; lia]. destruct (nth_error stages n) as [ss|] eqn:Es; [|apply nth_error_None in Es; lia].
    assert (TN : h * INR (S n) <= T) by (apply Rle_trans with (h * INR (length stages)); [apply Rmult_le_compat_l; [exact H0|apply le_INR; lia]|exact HN]).
    apply near_le with ((1 + h * L) * err h n + K * h ^ 2); [|apply err_step; exact H0].
    replace (INR (S n) * h) with (INR n * h + h) by (rewrite S_INR; ring). apply (one_step sch h (INR n * h) (err h n) l0 ss l); try assumption.
    + apply Rmult_le_pos; [apply pos_INR|exact H0].
    + rewrite S_INR in TN. lra.
    + apply err_mono. exact H0.
    + exact (IH l0 eq_refl).
    + assert (err h n <= C * h); [|lra]. apply err_bound; [exact H0|]. rewrite S_INR in TN. lra.
    + exact (ST n l0 ss l E0 Es El).
Qed.
End Run.

(** The error is at most proportional to the length of the steps. *)
Lemma first_order_error (shs : list (list nat)) (F : list tensor -> list tensor -> Prop) (c : R -> list tensor) (T rho L : R) : (forall l k, F l k -> map shape k = map shape l) -> (forall t, map shape (c t) = shs) ->
  (forall t, 0 <= t <= T -> exists k, F (c t) k /\ forall i s idx, nth_error shs i = Some s -> valid s idx -> derivable_pt_lim (fun x => entry (c x) i idx) t (entry k i idx)) ->
  (forall t l l' k k' e, 0 <= t <= T -> near rho (c t) l -> near rho (c t) l' -> F l k -> F l' k' -> near e l l' -> near (L * e) k k') -> 0 < rho -> 0 <= L -> 0 < T ->
  exists A h0, 0 <= A /\ 0 < h0 /\ forall sch h states stages, 0 <= h <= h0 -> h * INR (length stages) <= T ->
    trajectory sch (fun _ => F) h states stages -> (forall l, nth_error states 0 = Some l -> leq l (c 0)) ->
    forall n l, nth_error states n = Some l -> near (A * h) (c (INR n * h)) l.
Proof.
  intros FS CS SOL LIP HR HL HT. destruct (bounded_speed shs F c T rho L FS CS SOL LIP HR HL HT) as (M & PM & SP).
  pose proof (K_pos rho L HR HL M PM) as KP. set (A := C T rho L M). assert (PA : 0 <= A) by (unfold A, C; apply Rmult_le_pos; [apply Rmult_le_pos; lra|left; apply exp_pos]).
  assert (PM' : 0 <= M' rho L M) by (unfold M'; nra). set (B := A + 3 * M' rho L M). assert (PB : 0 <= B) by (unfold B; lra).
  exists A, (rho / (B + 1)). split; [exact PA|]. split; [apply Rdiv_lt_0_compat; lra|]. intros sch h states stages (H0 & H1) HN TR S0 n l El.
  assert (ER : A * h + 3 * h * M' rho L M <= rho).
  { apply (Rmult_le_compat_r (B + 1)) in H1; [|lra]. replace (rho / (B + 1) * (B + 1)) with rho in H1 by (field; lra). unfold B in *. nra. }
  apply near_le with (err rho L M h n); [apply (all_steps shs F c T rho L FS CS SOL LIP HR HL M PM SP sch h states stages); assumption|].
  apply (err_bound T rho L HR HL M PM); [exact H0|]. apply Rle_trans with (h * INR (length stages)); [|exact HN]. apply Rmult_le_compat_l; [exact H0|]. apply le_INR. destruct TR as (LS & _).
  assert (n < length states)%nat by (apply nth_error_Some; congruence). lia.
Qed.
