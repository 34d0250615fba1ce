(** Motions run backwards: exact motions, and shooting there and back. *)
From Coq Require Import Reals String List Arith Lia Lra Psatz FunctionalExtensionality.
From Coquelicot Require Import Coquelicot.
From Verif Require Import Py RSum Tensor TensorFacts KernelModel FieldModel GeometryModel ModuleModel ShootingModel
  SpecField SpecGeometry SpecModule SpecShooting SpecMotion SpecTransport ModuleLeaves ModuleMain GeometryFacts ShootingPack ShootingDyn ShootingInst MotionMomentum TransportFacts
  SpecEnergy EnergyFacts SpecConverge ConvergeFacts SpecReverse ReverseFacts.
Import ListNotations.
Open Scope R_scope.

(** ** Lists of descriptors and moments *)

Lemma flip_app q p : length q = length p -> flip (q ++ p) = q ++ map topp p.
Proof.
  intros E. unfold flip. rewrite app_length, <- E. replace (length q + length q)%nat with (2 * length q)%nat by lia. rewrite Nat.div2_double.
  rewrite firstn_app, skipn_app, Nat.sub_diag, firstn_all, skipn_all. cbn. rewrite app_nil_r. reflexivity.
Qed.
Lemma halves (l : list tensor) n : length l = (n + n)%nat -> exists q p, l = q ++ p /\ length q = n /\ length p = n.
Proof. intros E. exists (firstn n l), (skipn n l). split; [symmetry; apply firstn_skipn|]. rewrite firstn_length, skipn_length. lia. Qed.
Lemma topp_topp t : topp (topp t) = t.
Proof. destruct t as [sh g]. unfold topp, tmap. cbn. f_equal. apply functional_extensionality. intros i. ring. Qed.
Lemma topps l : map topp (map topp l) = l.
Proof. rewrite map_map. rewrite <- (map_id l) at 2. apply map_ext. exact topp_topp. Qed.
Lemma flip_phase g : phase (reversed g) = flip (phase g).
Proof. unfold phase. rewrite rev_gd, rev_cotan, flip_app; [reflexivity|]. rewrite g_gd_len, g_cotan_len. reflexivity. Qed.
Lemma flip_shape l : map shape (flip l) = map shape l.
Proof. unfold flip. rewrite map_app, topp_shapes, <- map_app, firstn_skipn. reflexivity. Qed.
Lemma flip_flip l n : length l = (n + n)%nat -> flip (flip l) = l.
Proof.
  intros E. destruct (halves l n E) as (q & p & -> & Lq & Lp). rewrite flip_app by lia. rewrite flip_app by (rewrite map_length; lia). rewrite topps. reflexivity.
Qed.
Lemma entry_topp l : forall i idx, entry (map topp l) i idx = - entry l i idx.
Proof. intros i idx. unfold entry. rewrite nth_error_map. destruct (nth_error l i); cbn; [reflexivity|ring]. Qed.
Lemma entry_flip1 l n i idx : length l = (n + n)%nat -> (i < n)%nat -> entry (flip l) i idx = entry l i idx.
Proof.
  intros E I. destruct (halves l n E) as (q & p & -> & Lq & Lp). rewrite flip_app by lia. rewrite !entry_app1 by lia. reflexivity.
Qed.
Lemma entry_flip2 l n i idx : length l = (n + n)%nat -> entry (flip l) (n + i) idx = - entry l (n + i) idx.
Proof.
  intros E. destruct (halves l n E) as (q & p & -> & Lq & Lp). rewrite flip_app by lia. rewrite <- Lq, !entry_app_r. apply entry_topp.
Qed.
Lemma upd_app_l a b : forall i idx s, (i < length a)%nat -> upd (a ++ b) i idx s = upd a i idx s ++ b.
Proof. induction a as [|t a IH]; intros i idx s I; [cbn in I; lia|]. destruct i as [|i]; cbn; [reflexivity|]. rewrite IH by (cbn in I; lia). reflexivity. Qed.
Lemma upd_len a i idx s : length (upd a i idx s) = length a.
Proof. apply shapes_len. apply upd_shape. Qed.
Lemma upd_topp a : forall i idx s, upd (map topp a) i idx s = map topp (upd a i idx (- s)).
Proof.
  induction a as [|t a IH]; intros i idx s; [reflexivity|]. destruct i as [|i]; cbn [map upd]; [|rewrite IH; reflexivity].
  f_equal. unfold tset, topp, tmap. cbn. f_equal. apply functional_extensionality. intros j. destruct (idx_eqb j idx); ring.
Qed.
Lemma flip_upd1 l n i idx s : length l = (n + n)%nat -> (i < n)%nat -> upd (flip l) i idx s = flip (upd l i idx s).
Proof.
  intros E I. destruct (halves l n E) as (q & p & -> & Lq & Lp). rewrite flip_app by lia. rewrite !upd_app_l by lia. rewrite flip_app by (rewrite upd_len; lia). reflexivity.
Qed.
Lemma flip_upd2 l n i idx s : length l = (n + n)%nat -> upd (flip l) (n + i) idx s = flip (upd l (n + i) idx (- s)).
Proof.
  intros E. destruct (halves l n E) as (q & p & -> & Lq & Lp). rewrite flip_app by lia. rewrite <- Lq, !upd_app_r. rewrite flip_app by (rewrite upd_len; lia). rewrite upd_topp. reflexivity.
Qed.
Lemma near_flip e a b n : length a = (n + n)%nat -> near e a b -> near e (flip a) (flip b).
Proof.
  intros E (S & N). assert (E' : length b = (n + n)%nat) by (rewrite <- E; symmetry; apply shapes_len; exact S).
  split; [rewrite !flip_shape; exact S|]. intros i s idx. rewrite flip_shape. intros Es V. pose proof (N i s idx Es V) as X.
  destruct (le_lt_dec n i) as [I|I].
  - replace i with (n + (i - n))%nat in * by lia. rewrite (entry_flip2 a n), (entry_flip2 b n) by assumption.
    replace (- entry a (n + (i - n)) idx - - entry b (n + (i - n)) idx) with (- (entry a (n + (i - n)) idx - entry b (n + (i - n)) idx)) by ring. rewrite Rabs_Ropp. exact X.
  - rewrite (entry_flip1 a n), (entry_flip1 b n) by assumption. exact X.
Qed.

(** Velocities of the reversed motion. *)
Definition back (n : nat) (k : list tensor) : list tensor := map topp (firstn n k) ++ skipn n k.
Lemma back_shape n k : map shape (back n k) = map shape k.
Proof. unfold back. rewrite map_app, topp_shapes, <- map_app, firstn_skipn. reflexivity. Qed.
Lemma entry_back1 n k i idx : length k = (n + n)%nat -> (i < n)%nat -> entry (back n k) i idx = - entry k i idx.
Proof.
  intros E I. destruct (halves k n E) as (q & p & -> & Lq & Lp). unfold back. rewrite firstn_app, skipn_app, <- Lq, Nat.sub_diag, firstn_all, skipn_all. cbn [firstn skipn app]. rewrite app_nil_r.
  rewrite !entry_app1 by (rewrite ?map_length; lia). apply entry_topp.
Qed.
Lemma entry_back2 n k i idx : length k = (n + n)%nat -> entry (back n k) (n + i) idx = entry k (n + i) idx.
Proof.
  intros E. destruct (halves k n E) as (q & p & -> & Lq & Lp). unfold back. rewrite firstn_app, skipn_app, <- Lq, Nat.sub_diag, firstn_all, skipn_all. cbn [firstn skipn app]. rewrite app_nil_r.
  rewrite entry_app_r. replace (length q) with (length (map topp q)) by apply map_length. apply entry_app_r.
Qed.
Lemma near_back e n a b : length a = (n + n)%nat -> near e (back n a) (back n b) -> near e a b.
Proof.
  intros E (S & N). rewrite !back_shape in S. assert (E' : length b = (n + n)%nat) by (rewrite <- E; symmetry; apply shapes_len; exact S).
  split; [exact S|]. intros i s idx Es V. assert (X := N i s idx ltac:(rewrite back_shape; exact Es) V).
  destruct (le_lt_dec n i) as [I|I].
  - replace i with (n + (i - n))%nat in * by lia. rewrite (entry_back2 n a), (entry_back2 n b) in X by assumption. exact X.
  - rewrite (entry_back1 n a), (entry_back1 n b) in X by assumption.
    replace (entry a i idx - entry b i idx) with (- (- entry a i idx - - entry b i idx)) by ring. rewrite Rabs_Ropp. exact X.
Qed.

(** ** Hamilton's equations *)

Definition even_on (H : list tensor -> res R) (shs : list (list nat)) : Prop :=
  forall l x, map shape l = shs -> H l = Ok x -> H (flip l) = Ok x.

Lemma lim_neg f x g : derivable_pt_lim f x g -> derivable_pt_lim (fun s => f (- s)) (- x) (- g).
Proof.
  intros D. assert (D1 : derivable_pt_lim (fun s => - s) (- x) (- (1))). { apply (derivable_pt_lim_opp id (- x) 1). apply derivable_pt_lim_id. }
  assert (D2 : derivable_pt_lim f (- - x) g) by (rewrite Ropp_involutive; exact D). pose proof (derivable_pt_lim_comp _ _ _ _ _ D1 D2) as D3. unfold comp in D3.
  replace (- g) with (g * - (1)) by ring. exact D3.
Qed.

Lemma hamilton_flip H shs l k : even_on H shs -> map shape l = shs -> hamilton H l k -> hamilton H (flip l) (back (Nat.div2 (length l)) k).
Proof.
  intros EV SL (SK & n & LN & SS & HK). assert (N2 : Nat.div2 (length l) = n) by (rewrite LN; replace (n + n)%nat with (2 * n)%nat by lia; apply Nat.div2_double). rewrite N2.
  assert (LK : length k = (n + n)%nat) by (rewrite <- LN; apply shapes_len; exact SK).
  split; [rewrite back_shape, flip_shape; exact SK|]. exists n. split; [rewrite <- LN; apply shapes_len; apply flip_shape|].
  split. { destruct (halves l n LN) as (q & p & -> & Lq & Lp). rewrite flip_app by lia. rewrite firstn_app, skipn_app in *. rewrite <- Lq, Nat.sub_diag, firstn_all, skipn_all in *. cbn [firstn skipn app] in *. rewrite app_nil_r, topp_shapes in *. exact SS. }
  intros i t idx I Et V. assert (Et' : nth_error l i = Some t).
  { destruct (halves l n LN) as (q & p & -> & Lq & Lp). rewrite flip_app in Et by lia. rewrite nth_error_app1 in * by lia. exact Et. }
  destruct (HK i t idx I Et' V) as ((e1 & f1 & P1 & A1 & D1) & (e2 & f2 & P2 & A2 & D2)). split.
  - exists e1, (fun s => f1 (- s)). split; [exact P1|]. rewrite (entry_flip2 l n) by exact LN. split.
    + intros s Hs. rewrite (flip_upd2 l n) by exact LN. apply EV; [rewrite upd_shape; exact SL|]. apply A1.
      replace (- s - entry l (n + i) idx) with (- (s - - entry l (n + i) idx)) by ring. rewrite Rabs_Ropp. exact Hs.
    + rewrite (entry_back1 n k) by assumption. apply lim_neg. exact D1.
  - exists e2, f2. split; [exact P2|]. rewrite (entry_flip1 l n) by assumption. split.
    + intros s Hs. rewrite (flip_upd1 l n) by assumption. apply EV; [rewrite upd_shape; exact SL|]. apply A2. exact Hs.
    + rewrite (entry_back2 n k) by assumption. exact D2.
Qed.

Lemma hamilton_len H l k : hamilton H l k -> exists n, length l = (n + n)%nat /\ length k = (n + n)%nat.
Proof. intros (S & n & E & _). exists n. split; [exact E|]. rewrite <- E. apply shapes_len. exact S. Qed.

(** The motion run backwards. *)
Definition retrace (c : R -> list tensor) (T : R) : R -> list tensor := fun t => flip (c (T - t)).

Lemma solution_retrace H c a b T : (forall t, even_on H (map shape (c t))) -> solution H c a b -> solution H (retrace c T) (T - b) (T - a).
Proof.
  intros EV (SC & SO). split; [intros s t; unfold retrace; rewrite !flip_shape; apply SC|]. intros t Ht. destruct (SO (T - t) ltac:(lra)) as ((x & Ex) & k & HK & D).
  split; [exists x; apply (EV (T - t)); [reflexivity|exact Ex]|]. destruct (hamilton_len _ _ _ HK) as (n & LN & LK).
  assert (N2 : Nat.div2 (length (c (T - t))) = n) by (rewrite LN; replace (n + n)%nat with (2 * n)%nat by lia; apply Nat.div2_double).
  exists (back n k). split; [rewrite <- N2; apply (hamilton_flip H (map shape (c (T - t)))); [apply EV|reflexivity|exact HK]|].
  assert (LS : forall s, length (c s) = (n + n)%nat) by (intros s; rewrite <- LN; apply shapes_len; apply SC).
  assert (TL : derivable_pt_lim (fun s => T - s) t (- (1))). { replace (- (1)) with (0 - 1) by ring. apply (derivable_pt_lim_minus (fun _ => T) id t 0 1); [apply derivable_pt_lim_const|apply derivable_pt_lim_id]. }
  assert (CH : forall i x idx, nth_error (c (T - t)) i = Some x -> valid (shape x) idx -> derivable_pt_lim (fun s => entry (c (T - s)) i idx) t (- entry k i idx)).
  { intros i y idx Ey V. pose proof (derivable_pt_lim_comp _ _ _ _ _ TL (D i y idx Ey V)) as X. unfold comp in X. replace (- entry k i idx) with (entry k i idx * - (1)) by ring. exact X. }
  intros i y idx Ey V. unfold retrace in *.
  assert (SY : exists z, nth_error (c (T - t)) i = Some z /\ shape z = shape y).
  { pose proof (map_nth_error shape _ _ Ey) as M. rewrite flip_shape, nth_error_map in M. destruct (nth_error (c (T - t)) i) as [z|]; [|discriminate M]. injection M as M. exists z. auto. }
  destruct SY as (z & Ez & Sz). rewrite <- Sz in V. pose proof (CH i z idx Ez V) as X. destruct (le_lt_dec n i) as [I|I].
  - replace i with (n + (i - n))%nat in * by lia. rewrite (entry_back2 n k) by assumption.
    apply derivable_pt_lim_ext with (fun s => - entry (c (T - s)) (n + (i - n)) idx); [intros s; rewrite (entry_flip2 _ n) by apply LS; reflexivity|].
    rewrite <- (Ropp_involutive (entry k (n + (i - n)) idx)). apply (derivable_pt_lim_opp (fun s => entry (c (T - s)) (n + (i - n)) idx)). exact X.
  - rewrite (entry_back1 n k) by assumption. apply derivable_pt_lim_ext with (fun s => entry (c (T - s)) i idx); [intros s; rewrite (entry_flip1 _ n) by (apply LS || exact I); reflexivity|exact X].
Qed.

Lemma tame_retrace H c T rho L : (forall t, even_on H (map shape (c t))) -> tame H c T rho L -> tame H (retrace c T) T rho L.
Proof.
  intros EV (R0 & L0 & LIP). split; [exact R0|]. split; [exact L0|]. intros t l l' k k' e Ht N N' HK HK' NE. unfold retrace in *.
  destruct (hamilton_len _ _ _ HK) as (n & LN & LK). destruct (hamilton_len _ _ _ HK') as (n' & LN' & LK').
  assert (LC : length (c (T - t)) = (n + n)%nat) by (rewrite <- LN; rewrite <- (shapes_len _ _ (proj1 N)); apply shapes_len; symmetry; apply flip_shape).
  assert (EN : n' = n) by (pose proof (shapes_len _ _ (proj1 NE)); lia). subst n'.
  assert (SF : forall x, near rho (flip (c (T - t))) x -> length x = (n + n)%nat -> near rho (c (T - t)) (flip x) /\ map shape x = map shape (c (T - t))).
  { intros x NX LX. split; [|rewrite <- (proj1 NX); apply flip_shape]. rewrite <- (flip_flip (c (T - t)) n LC). apply near_flip with n; [|exact NX].
    rewrite <- LC. apply shapes_len. apply flip_shape. }
  destruct (SF l N LN) as (M1 & S1). destruct (SF l' N' LN') as (M2 & S2).
  assert (DV : forall x : list tensor, length x = (n + n)%nat -> Nat.div2 (length x) = n) by (intros x E; rewrite E; replace (n + n)%nat with (2 * n)%nat by lia; apply Nat.div2_double).
  pose proof (hamilton_flip H _ l k (EV (T - t)) S1 HK) as HF. pose proof (hamilton_flip H _ l' k' (EV (T - t)) S2 HK') as HF'. rewrite DV in HF, HF' by assumption.
  apply near_back with n; [exact LK|]. apply (LIP (T - t) (flip l) (flip l')); try assumption; [lra|]. apply near_flip with n; assumption.
Qed.

(** ** A start that is not exact *)

Lemma first_order_from (shs : list (list nat)) (F : list tensor -> list tensor -> Prop) (c : R -> list tensor) (T rho L C0 : R) : (forall l k, F l k -> map shape k = map shape l) -> (forall t, map shape (c t) = shs) ->
  (forall t, 0 <= t <= T -> exists k, F (c t) k /\ forall i s idx, nth_error shs i = Some s -> valid s idx -> derivable_pt_lim (fun x => entry (c x) i idx) t (entry k i idx)) ->
  (forall t l l' k k' e, 0 <= t <= T -> near rho (c t) l -> near rho (c t) l' -> F l k -> F l' k' -> near e l l' -> near (L * e) k k') -> 0 < rho -> 0 <= L -> 0 < T -> 0 <= C0 ->
  exists A h0, 0 <= A /\ 0 < h0 /\ forall sch h states stages, 0 <= h <= h0 -> h * INR (length stages) <= T ->
    trajectory sch (fun _ => F) h states stages -> (forall l, nth_error states 0 = Some l -> near (C0 * h) (c 0) l) ->
    forall n l, nth_error states n = Some l -> near (A * h) (c (INR n * h)) l.
Proof.
  intros FS CS SOL LIP HR HL HT HC. destruct (bounded_speed shs F c T rho L FS CS SOL LIP HR HL HT) as (M & PM & SP).
  pose proof (K_pos rho L HR HL M PM) as KP. set (A0 := C T rho L M). assert (PA0 : 0 <= A0) by (unfold A0, C; apply Rmult_le_pos; [apply Rmult_le_pos; lra|left; apply exp_pos]).
  set (A := A0 + C0 * exp (L * T)). assert (PE : 0 <= C0 * exp (L * T)) by (apply Rmult_le_pos; [exact HC|left; apply exp_pos]). assert (PA : 0 <= A) by (unfold A; lra).
  assert (PM' : 0 <= M' rho L M) by (unfold M'; nra). set (B := A + 3 * M' rho L M). assert (PB : 0 <= B) by (unfold B; lra).
  exists A, (rho / (B + 1)). split; [exact PA|]. split; [apply Rdiv_lt_0_compat; lra|]. intros sch h states stages (H0 & H1) HN (LS & ST) S0.
  assert (ER : A * h + 3 * h * M' rho L M <= rho).
  { apply (Rmult_le_compat_r (B + 1)) in H1; [|lra]. replace (rho / (B + 1) * (B + 1)) with rho in H1 by (field; lra). unfold B in *. nra. }
  set (er := fun n => err rho L M h n + C0 * h * (1 + h * L) ^ n). assert (PB1 : 1 <= 1 + h * L) by nra.
  assert (PW : forall n, 0 <= C0 * h * (1 + h * L) ^ n) by (intros n; apply Rmult_le_pos; [apply Rmult_le_pos; assumption|apply pow_le; lra]).
  assert (EP : forall n, 0 <= er n). { intros n. unfold er. pose proof (proj1 (err_mono rho L HR HL M PM h n H0)). specialize (PW n). lra. }
  assert (EB : forall n, h * INR n <= T -> er n <= A * h).
  { intros n Hn. unfold er, A. rewrite Rmult_plus_distr_r. apply Rplus_le_compat; [apply (err_bound T rho L HR HL M PM); assumption|].
    replace (C0 * exp (L * T) * h) with (C0 * h * exp (L * T)) by ring. apply Rmult_le_compat_l; [apply Rmult_le_pos; assumption|].
    apply Rle_trans with (exp (h * L) ^ n); [apply pow_incr; split; [lra|]; pose proof (exp_ineq1_le (h * L)); lra|].
    rewrite exp_power. assert (X : INR n * (h * L) <= L * T) by nra. destruct X as [X|X]; [left; apply exp_increasing; exact X|rewrite X; right; reflexivity]. }
  assert (ALL : forall n l, nth_error states n = Some l -> near (er n) (c (INR n * h)) l).
  { induction n as [|n IH]; intros l El.
    - cbn [INR]. replace (0 * h) with 0 by ring. apply near_le with (C0 * h); [exact (S0 l El)|]. unfold er. pose proof (proj1 (err_mono rho L HR HL M PM h 0 H0)). cbn [pow]. lra.
    - assert (Nn : (n < length stages)%nat) by (assert (S n < length states)%nat by (apply nth_error_Some; congruence); lia).
      destruct (nth_error states n) as [l0|] eqn:E0; [|apply nth_error_None in E0; lia]. destruct (nth_error stages n) as [ss|] eqn:Es; [|apply nth_error_None in Es; lia].
      assert (TN : h * INR (S n) <= T) by (apply Rle_trans with (h * INR (length stages)); [apply Rmult_le_compat_l; [exact H0|apply le_INR; lia]|exact HN]). rewrite S_INR in TN.
      apply near_le with ((1 + h * L) * er n + K rho L M * h ^ 2).
      + rewrite S_INR. replace ((INR n + 1) * h) with (INR n * h + h) by ring. apply (one_step shs F c T rho L FS CS SOL LIP HR HL M PM SP sch h (INR n * h) (er n) l0 ss l); try assumption.
        * apply Rmult_le_pos; [apply pos_INR|exact H0].
        * lra.
        * apply EP.
        * exact (IH l0 eq_refl).
        * specialize (EB n ltac:(lra)). lra.
        * exact (ST n l0 ss l E0 Es El).
      + unfold er. pose proof (err_step rho L HR HL M PM h n H0). cbn [pow]. nra. }
  intros n l El. apply near_le with (er n); [exact (ALL n l El)|]. apply EB. apply Rle_trans with (h * INR (length stages)); [|exact HN]. apply Rmult_le_compat_l; [exact H0|]. apply le_INR.
  assert (n < length states)%nat by (apply nth_error_Some; congruence). lia.
Qed.

(** ** The reduced Hamiltonian *)

Lemma write_state m g : skel g = skel (mod_manifold m) -> exists m1, write_manifold m (phase g) = Ok m1 /\ set_manifold m g = Ok m1 /\ mod_manifold m1 = g /\ frozen m1 = frozen m /\ controls m1 = controls m.
Proof.
  intros K. pose proof (skel_len _ _ K) as KL. unfold write_manifold, phase.
  destruct (put_gd_ok (mod_manifold m) (g_gd g) (g_cotan g)) as (g1 & P1 & G1 & C1 & K1); [rewrite g_gd_len; exact KL|]. rewrite P1. cbn [bind].
  destruct (put_cotan_ok g1 (g_cotan g) []) as (g2 & P2 & C2 & G2 & K2); [rewrite g_cotan_len, (skel_len _ _ K1); exact KL|]. rewrite app_nil_r in P2. rewrite P2. cbn [bind].
  assert (E : g2 = g) by (apply g_ext; congruence). subst g2. destruct (set_ok m g K) as (m1 & E & M & F & CT). exists m1. auto.
Qed.

Lemma even_hamiltonian sv b0 d m : exact_solver sv -> wf_mod d m -> locals_total d m ->
  even_on (ham_of m (geodesic_controls sv b0)) (map shape (phase (mod_manifold m))).
Proof.
  intros HS W LT l x SL E. destruct (state_of m l SL) as (g & <- & K & SG & SC). rewrite <- flip_phase.
  destruct (write_state m g K) as (m1 & E1 & S1 & M1 & F1 & _). assert (KR : skel (reversed g) = skel (mod_manifold m)) by (rewrite rev_skel; exact K).
  destruct (write_state m (reversed g) KR) as (m2 & E2 & S2 & M2 & F2 & _).
  assert (W1 : wf_mod d m1) by (apply (wf_set d m g m1); assumption).
  unfold ham_of in *. rewrite E1 in E. rewrite E2. cbn [bind] in *. destruct (geodesic_controls sv b0 m1) as [m1'|] eqn:G1; [|discriminate E]. cbn [bind] in E.
  destruct (set_ok m1 (reversed g)) as (mr & ER & MR & FR & _); [rewrite M1; apply rev_skel|].
  destruct (reversed_controls sv b0 d HS m1 mr m1' W1) as (mr1 & y & GR & _ & _ & _ & HY & HR); [rewrite M1; exact ER|exact G1|].
  rewrite (geodesic_determined sv b0 m2 mr), GR by congruence. cbn [bind]. rewrite HR, <- HY. exact E.
Qed.

(** The Hamiltonian does not depend on the current state of the module. *)
Lemma write_any m m' l m1 : frozen m' = frozen m -> skel (mod_manifold m') = skel (mod_manifold m) -> write_manifold m l = Ok m1 ->
  exists m1', write_manifold m' l = Ok m1' /\ frozen m1' = frozen m1 /\ mod_manifold m1' = mod_manifold m1.
Proof.
  intros F K E. pose proof (skel_len _ _ K) as KL. set (n := g_len (mod_manifold m)) in *.
  destruct (le_lt_dec (2 * n) (length l)) as [Q|Q]; [|destruct (write_short m l Q) as (e & X); rewrite X in E; discriminate E].
  assert (SP : exists q p r, l = q ++ p ++ r /\ length q = n /\ length p = n).
  { exists (firstn n l), (firstn n (skipn n l)), (skipn n (skipn n l)). rewrite !firstn_skipn. split; [reflexivity|]. rewrite !firstn_length, skipn_length. lia. }
  destruct SP as (q & p & r & -> & Lq & Lp). unfold write_manifold in *.
  destruct (put_gd_ok (mod_manifold m) q (p ++ r) Lq) as (g1 & P1 & G1 & _ & K1). rewrite P1 in E. cbn [bind] in E.
  destruct (put_cotan_ok g1 p r) as (g2 & P2 & C2 & G2 & K2); [rewrite (skel_len _ _ K1); exact Lp|]. rewrite P2 in E. cbn [bind] in E.
  destruct (put_gd_ok (mod_manifold m') q (p ++ r)) as (g1' & P1' & G1' & _ & K1'); [lia|]. rewrite P1'. cbn [bind].
  destruct (put_cotan_ok g1' p r) as (g2' & P2' & C2' & G2' & K2'); [rewrite (skel_len _ _ K1'); lia|]. rewrite P2'. cbn [bind].
  assert (X : g2' = g2) by (apply g_ext; congruence). subst g2'.
  destruct (set_ok m g2) as (a & Ea & Ma & Fa & _); [congruence|]. rewrite E in Ea. injection Ea as <-.
  destruct (set_ok m' g2) as (b & Eb & Mb & Fb & _); [congruence|]. exists b. split; [exact Eb|]. split; congruence.
Qed.
Lemma ham_any sv b0 m m' l x : frozen m' = frozen m -> skel (mod_manifold m') = skel (mod_manifold m) ->
  ham_of m (geodesic_controls sv b0) l = Ok x -> ham_of m' (geodesic_controls sv b0) l = Ok x.
Proof.
  intros F K. unfold ham_of. destruct (write_manifold m l) as [m1|] eqn:E; [|discriminate]. cbn [bind]. destruct (write_any m m' l m1 F K E) as (m1' & E' & F' & M'). rewrite E'. cbn [bind].
  rewrite (geodesic_determined sv b0 m1' m1 F' M'). auto.
Qed.
Lemma partial_more (H H' : list tensor -> res R) l i idx g : (forall l x, H l = Ok x -> H' l = Ok x) -> partial_derivative H l i idx g -> partial_derivative H' l i idx g.
Proof. intros X (e & f & P & A & D). exists e, f. split; [exact P|]. split; [|exact D]. intros s Hs. apply X. apply A. exact Hs. Qed.
Lemma hamilton_more (H H' : list tensor -> res R) l k : (forall l x, H l = Ok x -> H' l = Ok x) -> hamilton H l k -> hamilton H' l k.
Proof.
  intros X (S & n & L & SS & HK). split; [exact S|]. exists n. split; [exact L|]. split; [exact SS|]. intros i t idx I Et V. destruct (HK i t idx I Et V) as (A & B).
  split; apply (partial_more H H'); assumption.
Qed.
Lemma trajectory_more sch (F G : list tensor -> list tensor -> Prop) dt states stages : (forall l k, F l k -> G l k) ->
  trajectory sch (fun _ => F) dt states stages -> trajectory sch (fun _ => G) dt states stages.
Proof.
  intros X (LS & ST). split; [exact LS|]. intros k l ss l' E1 E2 E3. pose proof (ST k l ss l' E1 E2 E3) as Z. clear ST. destruct sch; cbn [scheme_step] in *.
  - destruct Z as (k1 & A & B & C). exists k1. auto.
  - destruct Z as (k1 & l2 & k2 & A & B & C & D & E). exists k1, l2, k2. auto 10.
  - destruct Z as (k1 & l2 & k2 & l3 & k3 & l4 & k4 & A & B1 & C1 & B2 & C2 & B3 & C3 & B4 & C4). exists k1, l2, k2, l3, k3, l4, k4. repeat (split; [auto|]). exact C4.
Qed.
