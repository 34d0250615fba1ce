(** Hamilton's equations and the numerical schemes when each tensor is multiplied by a
    number of its own. *)
From Coq Require Import Reals String List Arith Lia Lra.
From Coquelicot Require Import Coquelicot.
From Verif Require Import Py RSum Tensor TensorFacts KernelModel FieldModel GeometryModel ModuleModel ShootingModel
  SpecShooting ShootingPack MotionMomentum TransportFacts RigidShoot SpecEnergy EnergyFacts SpecConverge ConvergeFacts.
Import ListNotations.
Open Scope R_scope.

Definition weighed (w : nat -> R) (l l' : list tensor) : Prop :=
  map shape l' = map shape l /\
  forall i s idx, nth_error (map shape l) i = Some s -> valid s idx -> entry l' i idx = w i * entry l i idx.

Lemma weighed_leq w a b a' b' : leq a' a -> leq b' b -> weighed w a b -> weighed w a' b'.
Proof.
  intros A B (S & E). split; [rewrite (ShootingPack.leq_shape _ _ A), (ShootingPack.leq_shape _ _ B); exact S|]. intros i s idx N V. rewrite (ShootingPack.leq_shape _ _ A) in N.
  rewrite (leq_entry a' a i s idx A N V), (leq_entry b' b i s idx B ltac:(rewrite S; exact N) V). exact (E i s idx N V).
Qed.
Lemma weighed_add w a b a' b' : map shape b = map shape a -> weighed w a a' -> weighed w b b' -> weighed w (ladd a b) (ladd a' b').
Proof.
  intros SB (S & E) (S' & E'). assert (X : map shape (ladd a b) = map shape a) by (apply shape_ladd; congruence). assert (X' : map shape (ladd a' b') = map shape a') by (apply shape_ladd; congruence).
  split; [congruence|]. intros i s idx N V. rewrite X in N. rewrite !entry_ladd by (apply shapes_len; congruence). rewrite (E i s idx N V), (E' i s idx ltac:(rewrite SB; exact N) V). ring.
Qed.
Lemma weighed_scal w r t a a' : weighed (fun i => t * w i) a a' -> weighed w (lscal (r * t) a) (lscal r a').
Proof.
  intros (S & E). split; [rewrite !shape_lscal; exact S|]. intros i s idx N V. rewrite shape_lscal in N. rewrite !entry_lscal, (E i s idx N V). ring.
Qed.
Lemma weighed_scal' w r a a' : weighed w a a' -> weighed w (lscal r a) (lscal r a').
Proof. intros (S & E). split; [rewrite !shape_lscal; exact S|]. intros i s idx N V. rewrite shape_lscal in N. rewrite !entry_lscal, (E i s idx N V). ring. Qed.

Lemma entry_upd : forall l i t idx x j jdx, nth_error l i = Some t ->
  entry (upd l i idx x) j jdx = if (Nat.eqb j i && idx_eqb jdx idx)%bool then x else entry l j jdx.
Proof.
  induction l as [|a l IH]; intros i t idx x j jdx N; [destruct i; discriminate N|]. destruct i as [|i]; cbn [upd].
  - destruct j as [|j]; [cbn [Nat.eqb andb]; unfold entry; cbn [nth_error tset get]; destruct (idx_eqb jdx idx); reflexivity|reflexivity].
  - destruct j as [|j]; [reflexivity|]. exact (IH i t idx x j jdx N).
Qed.
Lemma weighed_upd w l l' i t idx x : nth_error l i = Some t -> weighed w l l' -> weighed w (upd l i idx x) (upd l' i idx (w i * x)).
Proof.
  intros N (S & E). split; [rewrite !upd_shape; exact S|]. intros j s jdx Nj V. rewrite upd_shape in Nj.
  assert (X : exists t', nth_error l' i = Some t').
  { assert (Y : (i < length l')%nat) by (rewrite (shapes_len _ _ S); apply nth_error_Some; congruence). destruct (nth_error l' i) eqn:Z; [eauto|apply nth_error_None in Z; lia]. }
  destruct X as (t' & N'). rewrite (entry_upd l i t idx x j jdx N), (entry_upd l' i t' idx _ j jdx N').
  destruct (Nat.eqb_spec j i) as [->|]; cbn [andb]; [destruct (idx_eqb jdx idx); [reflexivity|exact (E i s jdx Nj V)]|exact (E j s jdx Nj V)].
Qed.

Lemma lim_factor a x : derivable_pt_lim (fun y => a * y) x a.
Proof. pose proof (derivable_pt_lim_scal id a x 1 (derivable_pt_lim_id x)) as D. rewrite Rmult_1_r in D. exact D. Qed.

(** ** Hamilton's equations, from both runs *)

Section Both.
Variables (H H' : list tensor -> res R) (shs : list (list nat)) (w : nat -> R) (ka om : R).
Hypothesis HH : forall l l' v v', map shape l = shs -> weighed w l l' -> H l = Ok v -> H' l' = Ok v' -> v' = ka * v.

Lemma partial_weighed l l' i t idx g g' : map shape l = shs -> weighed w l l' -> w i <> 0 -> nth_error l i = Some t -> valid (shape t) idx ->
  partial_derivative H l i idx g -> partial_derivative H' l' i idx g' -> w i * g' = ka * g.
Proof.
  intros SL (SW & EW) W0 N V (e & f & P & A & D) (e' & f' & P' & A' & D').
  assert (E : entry l' i idx = w i * entry l i idx) by (apply (EW i (shape t)); [rewrite nth_error_map, N; reflexivity|exact V]).
  set (x0 := entry l i idx) in *. rewrite E in *. assert (PW : 0 < Rabs (w i)) by (apply Rabs_pos_lt; exact W0).
  assert (D1 : derivable_pt_lim (fun x => f' (w i * x)) x0 (g' * w i)).
  { assert (DW : derivable_pt_lim (fun x => w i * x) x0 (w i)) by apply lim_factor.
    exact (derivable_pt_lim_comp (fun x => w i * x) f' x0 (w i) g' DW D'). }
  assert (D2 : derivable_pt_lim (fun x => ka * f x) x0 (ka * g)) by (apply (derivable_pt_lim_scal f ka x0 g); exact D).
  assert (D3 : derivable_pt_lim (fun x => ka * f x) x0 (g' * w i)).
  { assert (PD : 0 < Rmin e (e' / Rabs (w i))) by (apply Rmin_pos; [exact P|apply Rdiv_lt_0_compat; assumption]).
    apply (lim_loc (fun x => f' (w i * x)) _ x0 _ _ PD); [|exact D1]. intros x Hx.
    assert (B1 : Rabs (x - x0) < e) by (eapply Rlt_le_trans; [exact Hx|apply Rmin_l]). assert (B2 : Rabs (x - x0) < e' / Rabs (w i)) by (eapply Rlt_le_trans; [exact Hx|apply Rmin_r]).
    assert (B3 : Rabs (w i * x - w i * x0) < e').
    { replace (w i * x - w i * x0) with (w i * (x - x0)) by ring. rewrite Rabs_mult. apply (Rmult_lt_compat_l (Rabs (w i))) in B2; [|exact PW].
      replace (Rabs (w i) * (e' / Rabs (w i))) with e' in B2 by (field; lra). exact B2. }
    apply (HH (upd l i idx x) (upd l' i idx (w i * x))); [rewrite upd_shape; exact SL|apply (weighed_upd w l l' i t); [exact N|split; assumption]|apply A; exact B1|apply A'; exact B3]. }
  rewrite Rmult_comm. exact (uniqueness_limite _ _ _ _ D3 D2).
Qed.

Hypothesis W0 : forall i, (i < length shs)%nat -> w i <> 0.
Hypothesis WP : forall n i, length shs = (n + n)%nat -> (i < n)%nat -> w i * w (n + i)%nat = om.

Lemma hamilton_weighed l l' k k' : map shape l = shs -> weighed w l l' -> hamilton H l k -> hamilton H' l' k' -> weighed (fun i => ka / om * w i) k k'.
Proof.
  intros SL WL (SK & n & LN & SS & HK) (SK' & n' & LN' & SS' & HK'). pose proof (proj1 WL) as SW.
  assert (n' = n) by (pose proof (shapes_len _ _ SW); lia). subst n'. assert (LS : length shs = (n + n)%nat) by (rewrite <- SL, map_length; exact LN).
  split; [congruence|]. intros j s idx Nj V. rewrite SK in Nj.
  assert (NN : forall i, (i < n)%nat -> exists t u t' u', nth_error l i = Some t /\ nth_error l (n + i) = Some u /\ shape u = shape t /\ nth_error l' i = Some t' /\ nth_error l' (n + i) = Some u' /\ shape t' = shape t /\ shape u' = shape t).
  { intros i I. destruct (nth_error l i) as [t|] eqn:Et; [|apply nth_error_None in Et; lia]. destruct (nth_error l (n + i)) as [u|] eqn:Eu; [|apply nth_error_None in Eu; lia].
    destruct (nth_error l' i) as [t'|] eqn:Et'; [|apply nth_error_None in Et'; lia]. destruct (nth_error l' (n + i)) as [u'|] eqn:Eu'; [|apply nth_error_None in Eu'; lia].
    assert (X : shape u = shape t).
    { pose proof (f_equal (fun x => nth_error x i) SS) as Y. cbv beta in Y. rewrite !nth_error_map, nth_first, nth_skip, Et, Eu in Y by exact I. injection Y as Y. congruence. }
    assert (Z : forall a x x', nth_error l a = Some x -> nth_error l' a = Some x' -> shape x' = shape x).
    { intros a x x' Ex Ex'. pose proof (f_equal (fun y => nth_error y a) SW) as Y. cbv beta in Y. rewrite !nth_error_map, Ex, Ex' in Y. injection Y as Y. exact Y. }
    exists t, u, t', u'. repeat (split; [assumption || reflexivity|]). split; [exact (Z _ _ _ Et Et')|]. rewrite <- X. exact (Z _ _ _ Eu Eu'). }
  assert (KK : forall i t, (i < n)%nat -> nth_error l i = Some t -> forall idx, valid (shape t) idx ->
     entry k' i idx = ka / om * w i * entry k i idx /\ entry k' (n + i) idx = ka / om * w (n + i)%nat * entry k (n + i) idx).
  { intros i t I Et z Vz. destruct (NN i I) as (t0 & u & t' & u' & E0 & Eu & Su & Et' & Eu' & St' & Su'). rewrite Et in E0. injection E0 as <-.
    destruct (HK i t z I Et Vz) as (A & B). destruct (HK' i t' z I Et' ltac:(rewrite St'; exact Vz)) as (A' & B').
    assert (Wi : w i <> 0) by (apply W0; lia). assert (Wn : w (n + i)%nat <> 0) by (apply W0; lia). pose proof (WP n i LS I) as OM. assert (O0 : om <> 0) by (rewrite <- OM; apply Rmult_integral_contrapositive; split; assumption).
    pose proof (partial_weighed l l' (n + i) u z _ _ SL WL Wn Eu ltac:(rewrite Su; exact Vz) A A') as R1. pose proof (partial_weighed l l' i t z _ _ SL WL Wi Et Vz B B') as R2.
    rewrite <- OM. split.
    - apply (Rmult_eq_reg_l (w (n + i)%nat)); [|exact Wn]. rewrite R1. field. split; assumption.
    - apply (Rmult_eq_reg_l (w i)); [|exact Wi]. replace (w i * entry k' (n + i) z) with (- (w i * - entry k' (n + i) z)) by ring. rewrite R2. field. split; assumption. }
  assert (J : (j < n + n)%nat) by (rewrite <- LN, <- (map_length shape); apply nth_error_Some; congruence).
  destruct (le_lt_dec n j) as [I|I].
  - replace j with (n + (j - n))%nat in * by lia. destruct (NN (j - n)%nat ltac:(lia)) as (t & u & _ & _ & Et & Eu & Su & _). rewrite nth_error_map, Eu in Nj. injection Nj as <-.
    apply (KK (j - n)%nat t); [lia|exact Et|rewrite <- Su; exact V].
  - destruct (NN j I) as (t & _ & _ & _ & Et & _). rewrite nth_error_map, Et in Nj. injection Nj as <-. apply (KK j t I Et idx V).
Qed.
End Both.

(** ** Schemes *)

Section Steps.
Variables (shs : list (list nat)) (w : nat -> R) (tau : R) (F F' : vfields).
Hypothesis rel : forall j l l' k k', map shape l = shs -> weighed w l l' -> F j l k -> F' j l' k' -> map shape k = shs /\ weighed (fun i => tau * w i) k k'.

Definition rel_by (s s' : list tensor) : Prop := map shape s = shs /\ weighed w s s'.
Notation slow := (fun k k' => map shape k = shs /\ weighed (fun i => tau * w i) k k').

Lemma next_weighed l l' k k' a r r' : rel_by l l' -> slow k k' -> leq r (ladd l (lscal (a * tau) k)) -> leq r' (ladd l' (lscal a k')) -> rel_by r r'.
Proof.
  intros (S & E) (K & EK) A A'. assert (SA : map shape (ladd l (lscal (a * tau) k)) = shs) by (rewrite shape_ladd; [exact S|rewrite shape_lscal; congruence]).
  split; [rewrite (ShootingPack.leq_shape _ _ A); exact SA|]. apply (weighed_leq w _ _ _ _ A A'). apply weighed_add; [rewrite shape_lscal; congruence|exact E|]. apply weighed_scal. exact EK.
Qed.
Lemma slow_add k k' v v' : slow k k' -> slow v v' -> slow (ladd k v) (ladd k' v').
Proof. intros (S & E) (S' & E'). split; [rewrite shape_ladd; [exact S|congruence]|]. apply weighed_add; [congruence|exact E|exact E']. Qed.
Lemma slow_scal a k k' : slow k k' -> slow (lscal a k) (lscal a k').
Proof. intros (S & E). split; [rewrite shape_lscal; exact S|]. apply weighed_scal'. exact E. Qed.
Lemma leq_factor r l a b k : a = b -> leq r (ladd l (lscal a k)) -> leq r (ladd l (lscal b k)).
Proof. intros ->. auto. Qed.

Ltac lin := repeat first [split; assumption | assumption | apply slow_add | apply slow_scal].

Lemma step_weighed sch o dt dt' l l' ss ss' r r' : dt = dt' * tau -> rel_by l l' ->
  scheme_step sch (fun j => F (o + j)%nat) dt l ss r -> scheme_step sch (fun j => F' (o + j)%nat) dt' l' ss' r' -> rel_by r r' /\ Forall2 rel_by ss ss'.
Proof.
  intros DT R. destruct sch; cbn [scheme_step].
  - intros (k & -> & K & E) (k' & -> & K' & E'). pose proof (rel _ _ _ _ _ (proj1 R) (proj2 R) K K') as V1.
    split; [apply (next_weighed l l' k k' dt'); [exact R|exact V1|exact (leq_factor _ _ _ _ _ DT E)|exact E']|]. apply Forall2_cons; [exact R|constructor].
  - intros (k1 & l2 & k2 & -> & K1 & E2 & K2 & E) (k1' & l2' & k2' & -> & K1' & E2' & K2' & E').
    pose proof (rel _ _ _ _ _ (proj1 R) (proj2 R) K1 K1') as V1.
    assert (R2 : rel_by l2 l2') by (apply (next_weighed l l' k1 k1' (dt' / 2)); [exact R|exact V1|apply (leq_factor _ _ (dt / 2)); [rewrite DT; field|exact E2]|exact E2']).
    pose proof (rel _ _ _ _ _ (proj1 R2) (proj2 R2) K2 K2') as V2.
    split; [apply (next_weighed l l' k2 k2' dt'); [exact R|exact V2|exact (leq_factor _ _ _ _ _ DT E)|exact E']|]. apply Forall2_cons; [exact R|]. apply Forall2_cons; [exact R2|constructor].
  - intros (k1 & l2 & k2 & l3 & k3 & l4 & k4 & -> & K1 & E2 & K2 & E3 & K3 & E4 & K4 & E) (k1' & l2' & k2' & l3' & k3' & l4' & k4' & -> & K1' & E2' & K2' & E3' & K3' & E4' & K4' & E').
    pose proof (rel _ _ _ _ _ (proj1 R) (proj2 R) K1 K1') as V1.
    assert (R2 : rel_by l2 l2') by (apply (next_weighed l l' k1 k1' (dt' / 3)); [exact R|exact V1|apply (leq_factor _ _ (dt / 3)); [rewrite DT; field|exact E2]|exact E2']).
    pose proof (rel _ _ _ _ _ (proj1 R2) (proj2 R2) K2 K2') as V2.
    assert (R3 : rel_by l3 l3') by (eapply (next_weighed l l' _ _ dt'); [exact R| |exact (leq_factor _ _ _ _ _ DT E3)|exact E3']; lin).
    pose proof (rel _ _ _ _ _ (proj1 R3) (proj2 R3) K3 K3') as V3.
    assert (R4 : rel_by l4 l4') by (eapply (next_weighed l l' _ _ dt'); [exact R| |exact (leq_factor _ _ _ _ _ DT E4)|exact E4']; lin).
    pose proof (rel _ _ _ _ _ (proj1 R4) (proj2 R4) K4 K4') as V4.
    split; [eapply (next_weighed l l' _ _ (dt' / 8)); [exact R| |apply (leq_factor _ _ (dt / 8)); [rewrite DT; field|exact E]|exact E']; lin|].
    repeat (apply Forall2_cons; [assumption|]). constructor.
Qed.

Lemma trajectory_weighed sch dt dt' states stages states' stages' l0 l0' : dt = dt' * tau ->
  trajectory sch F dt states stages -> trajectory sch F' dt' states' stages' -> length stages' = length stages ->
  nth_error states 0 = Some l0 -> nth_error states' 0 = Some l0' -> rel_by l0 l0' ->
  forall i l l', nth_error states i = Some l -> nth_error states' i = Some l' ->
    rel_by l l' /\ forall ss ss', nth_error stages i = Some ss -> nth_error stages' i = Some ss' -> Forall2 rel_by ss ss'.
Proof.
  intros DT (L & T) (L' & T') LL E0 E0' R0.
  assert (X : forall i l l', nth_error states i = Some l -> nth_error states' i = Some l' -> rel_by l l').
  { induction i as [|i IH]; intros l l' E E'; [congruence|].
    assert (I : (S i < length states)%nat) by (apply nth_error_Some; congruence).
    destruct (nth_error states i) as [x|] eqn:Ex; [|apply nth_error_None in Ex; lia]. destruct (nth_error states' i) as [x'|] eqn:Ex'; [|apply nth_error_None in Ex'; lia].
    destruct (nth_error stages i) as [ss|] eqn:Es; [|apply nth_error_None in Es; lia]. destruct (nth_error stages' i) as [ss'|] eqn:Es'; [|apply nth_error_None in Es'; lia].
    exact (proj1 (step_weighed sch _ dt dt' x x' ss ss' l l' DT (IH x x' eq_refl eq_refl) (T i x ss l Ex Es E) (T' i x' ss' l' Ex' Es' E'))). }
  intros i l l' E E'. split; [exact (X i l l' E E')|]. intros ss ss' Es Es'.
  assert (I : (i < length stages)%nat) by (apply nth_error_Some; congruence).
  destruct (nth_error states (S i)) as [y|] eqn:Ey; [|apply nth_error_None in Ey; lia]. destruct (nth_error states' (S i)) as [y'|] eqn:Ey'; [|apply nth_error_None in Ey'; lia].
  exact (proj2 (step_weighed sch _ dt dt' l l' ss ss' y y' DT (X i l l' E E') (T i l ss y E Es Ey) (T' i l' ss' y' E' Es' Ey'))).
Qed.
End Steps.

(** ** Exact motions, from one of them *)

Section Image.
Variables (H H' : list tensor -> res R) (shs : list (list nat)) (w : nat -> R) (ka om : R) (T : list tensor -> list tensor).
Hypothesis TS : forall l, map shape l = shs -> map shape (T l) = shs.
Hypothesis TE : forall l i idx, map shape l = shs -> (i < length l)%nat -> entry (T l) i idx = w i * entry l i idx.
Hypothesis TU : forall l i idx x, map shape l = shs -> (i < length l)%nat -> upd (T l) i idx (w i * x) = T (upd l i idx x).
Hypothesis HH : forall l v, map shape l = shs -> H l = Ok v -> H' (T l) = Ok (ka * v).
Hypothesis W0 : forall i, (i < length shs)%nat -> w i <> 0.
Hypothesis WP : forall n i, length shs = (n + n)%nat -> (i < n)%nat -> w i * w (n + i)%nat = om.

Lemma partial_image l i idx g : map shape l = shs -> (i < length l)%nat -> partial_derivative H l i idx g -> partial_derivative H' (T l) i idx (ka / w i * g).
Proof.
  intros SL I (e & f & P & A & D). assert (Wi : w i <> 0) by (apply W0; rewrite <- SL, map_length; exact I). assert (PW : 0 < Rabs (w i)) by (apply Rabs_pos_lt; exact Wi).
  exists (e * Rabs (w i)), (fun x => ka * f (x / w i)). split; [apply Rmult_lt_0_compat; assumption|]. rewrite (TE l i idx SL I). split.
  - intros x Hx. replace x with (w i * (x / w i)) at 1 by (field; exact Wi). rewrite TU by assumption. apply HH; [rewrite upd_shape; exact SL|]. apply A.
    apply (Rmult_lt_reg_r (Rabs (w i))); [exact PW|]. rewrite <- Rabs_mult. replace ((x / w i - entry l i idx) * w i) with (x - w i * entry l i idx) by (field; exact Wi). exact Hx.
  - replace (ka / w i * g) with (ka * (g * / w i)) by (field; exact Wi). apply (derivable_pt_lim_scal (fun x => f (x / w i))).
    assert (DW : derivable_pt_lim (fun x => x / w i) (w i * entry l i idx) (/ w i)).
    { apply derivable_pt_lim_ext with (fun x => / w i * x); [intros x; unfold Rdiv; ring|]. apply lim_factor. }
    refine (derivable_pt_lim_comp (fun x => x / w i) f _ _ _ DW _). replace (w i * entry l i idx / w i) with (entry l i idx) by (field; exact Wi). exact D.
Qed.

Lemma hamilton_image l k : map shape l = shs -> hamilton H l k -> hamilton H' (T l) (lscal (ka / om) (T k)).
Proof.
  intros SL (SK & n & LN & SS & HK). assert (SK' : map shape k = shs) by congruence. assert (LS : length shs = (n + n)%nat) by (rewrite <- SL, map_length; exact LN).
  assert (ST : map shape (T l) = map shape l) by (rewrite SL; apply TS; exact SL).
  split; [rewrite shape_lscal, (TS k SK'), (TS l SL); reflexivity|]. exists n. split; [rewrite <- LN; apply shapes_len; exact ST|].
  split; [rewrite <- firstn_map, <- skipn_map, ST, firstn_map, skipn_map; exact SS|].
  intros i t idx I Et V. assert (Et' : exists u, nth_error l i = Some u /\ shape u = shape t).
  { pose proof (map_nth_error shape _ _ Et) as M. rewrite ST, nth_error_map in M. destruct (nth_error l i) as [z|]; [|discriminate M]. injection M as M. eauto. }
  destruct Et' as (u & Eu & Su). rewrite <- Su in V. destruct (HK i u idx I Eu V) as (A & B). pose proof (shapes_len _ _ SK) as LK.
  assert (Wi : w i <> 0) by (apply W0; lia). assert (Wn : w (n + i)%nat <> 0) by (apply W0; lia). pose proof (WP n i LS I) as OM.
  rewrite !entry_lscal, !TE by (assumption || lia). rewrite <- OM. split.
  - replace (ka / (w i * w (n + i)%nat) * (w i * entry k i idx)) with (ka / w (n + i)%nat * entry k i idx) by (field; split; assumption).
    apply partial_image; [exact SL|lia|exact A].
  - replace (- (ka / (w i * w (n + i)%nat) * (w (n + i)%nat * entry k (n + i) idx))) with (ka / w i * - entry k (n + i) idx) by (field; split; assumption).
    apply partial_image; [exact SL|lia|exact B].
Qed.

Lemma solution_image c a b a' b' : (forall t, map shape (c t) = shs) -> (forall t, a' < t < b' -> a < ka / om * t < b) ->
  solution H c a b -> solution H' (fun t => T (c (ka / om * t))) a' b'.
Proof.
  intros SC IN (_ & SO). split; [intros s t; rewrite !TS by apply SC; reflexivity|]. intros t Ht. destruct (SO (ka / om * t) (IN t Ht)) as ((v & Ev) & k & HK & D).
  split; [exists (ka * v); apply HH; [apply SC|exact Ev]|]. exists (lscal (ka / om) (T k)). split; [apply hamilton_image; [apply SC|exact HK]|].
  assert (SK : map shape k = shs) by (rewrite (proj1 HK); apply SC).
  intros i x idx Ex V. assert (Eu : exists u, nth_error (c (ka / om * t)) i = Some u /\ shape u = shape x).
  { pose proof (map_nth_error shape _ _ Ex) as M. rewrite (TS _ (SC _)), <- (SC (ka / om * t)), nth_error_map in M. destruct (nth_error (c (ka / om * t)) i) as [z|]; [|discriminate M]. injection M as M. eauto. }
  destruct Eu as (u & Eu & Su). rewrite <- Su in V. pose proof (D i u idx Eu V) as X.
  assert (I : (i < length shs)%nat) by (rewrite <- (SC (ka / om * t)), map_length; apply nth_error_Some; congruence).
  assert (LL : forall y : list tensor, map shape y = shs -> (i < length y)%nat) by (intros y E; rewrite <- (map_length shape), E; exact I).
  rewrite entry_lscal, TE by (exact SK || apply LL; exact SK).
  apply derivable_pt_lim_ext with (fun s => w i * entry (c (ka / om * s)) i idx); [intros s; rewrite TE by (apply SC || apply LL, SC); reflexivity|].
  replace (ka / om * (w i * entry k i idx)) with (w i * (entry k i idx * (ka / om))) by ring. apply (derivable_pt_lim_scal (fun s => entry (c (ka / om * s)) i idx)).
  assert (DW : derivable_pt_lim (fun s => ka / om * s) t (ka / om)) by apply lim_factor.
  exact (derivable_pt_lim_comp (fun s => ka / om * s) (fun s => entry (c s) i idx) t _ _ DW X).
Qed.
End Image.
