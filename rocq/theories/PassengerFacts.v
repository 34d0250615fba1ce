(** Facts about passengers. *)
From Coq Require Import Reals String List Arith Lia Lra Permutation.
From Verif Require Import Py RSum Tensor TensorFacts KernelModel FieldModel GeometryModel ModuleModel ShootingModel
  SpecKernel SpecField SpecGeometry SpecModule SpecShooting SpecMotion SpecTransport SpecSmooth SpecOrder SpecPassenger GeometryFacts ModuleAlg ModuleLeaves ModuleDual ModuleMain ShootingPack ShootingDyn MotionFacts MotionShoot MotionMomentum
  TransportFacts RigidControl RigidShoot DiffBuild EnergyFacts OrderFacts OrderShoot.
Import ListNotations.
Open Scope R_scope.

(** ** One passenger *)
Lemma null2 n d t : shape t = [n; d] -> null t -> forall i a, (i < n)%nat -> (a < d)%nat -> t @2 i a = 0.
Proof. intros S N i a I A. apply N. rewrite S. cbn. auto. Qed.
Lemma null3 n d e t : shape t = [n; d; e] -> null t -> forall i a b, (i < n)%nat -> (a < d)%nat -> (b < e)%nat -> t @3 i a b = 0.
Proof. intros S N i a b I A B. apply N. rewrite S. cbn. auto. Qed.

Lemma pairing_null d g v D : wf_gman d g -> no_moments g -> pairing d g v D = 0.
Proof.
  assert (Z : forall n t u, shape t = [n; d] -> null t -> rsum n (fun i => rsum d (fun a => t @2 i a * u i a)) = 0).
  { intros n t u S N. apply rsum_zero. intros i I. apply rsum_zero. intros a A. rewrite (null2 n d t S N i a I A). ring. }
  assert (Z3 : forall n t u, shape t = [n; d; d] -> null t -> rsum n (fun i => rsum d (fun a => rsum d (fun b => t @3 i a b * u i a b))) = 0).
  { intros n t u S N. apply rsum_zero. intros i I. apply rsum_zero. intros a A. apply rsum_zero. intros b B. rewrite (null3 n d d t S N i a b I A B). ring. }
  induction g as [| | | | |gs IH] using GeometryFacts.gman_ind'; intros W NM; unfold no_moments in NM; cbn [g_cotan] in NM; cbn [wf_gman] in W; cbn [pairing].
  - destruct W as (-> & _ & W). inversion NM; subst. apply (Z n c (fun i a => v (vrow g i) a)); assumption.
  - destruct W as (-> & _ & _ & W0 & W1). inversion NM as [|? ? N0 N1']; subst. inversion N1' as [|? ? N1 _]; subst.
    destruct tr; rewrite (Z n c0 (fun i a => v (vrow g0 i) a) W0 N0); [rewrite (Z n c1 (fun i a => rsum d (fun l => D (vrow g0 i) a l * g1 @2 i l)) W1 N1)|rewrite (Z n c1 (fun i a => - rsum d (fun l => D (vrow g0 i) l a * g1 @2 i l)) W1 N1)]; ring.
  - destruct W as (-> & _ & _ & W0 & W1). inversion NM as [|? ? N0 N1']; subst. inversion N1' as [|? ? N1 _]; subst.
    rewrite (Z n c0 (fun i a => v (vrow g0 i) a) W0 N0), (Z3 n c1 (fun i a b => rsum d (fun k => (D (vrow g0 i) a k - D (vrow g0 i) k a) / 2 * g1 @3 i k b)) W1 N1). ring.
  - reflexivity.
  - reflexivity.
  - induction IH as [|g gs Hg _ IHs]; [reflexivity|]. cbn [flat_map] in NM. apply Forall_app in NM. cbn [fold_right] in W |- *. rewrite (Hg (proj1 W) (proj1 NM)), (IHs (proj2 W) (proj2 NM)). ring.
Qed.

(** ** Modules whose leaves differ by passengers *)
Lemma lsum_null {A} (f : A -> R) l : Forall (fun x => f x = 0) l -> lsum (map f l) = 0.
Proof. unfold lsum. induction 1 as [|x l E _ IH]; [reflexivity|]. cbn [map fold_right]. rewrite E, IH. ring. Qed.
Lemma passenger_costs d es : Forall (passenger d) es -> exists xs, mapM cost es = Ok xs /\ lsum xs = 0.
Proof.
  induction 1 as [|e es (g & -> & _) _ (xs & E & L)]; [exists []; split; reflexivity|]. exists (0 :: xs). cbn [mapM cost bind]. rewrite E. split; [reflexivity|]. unfold lsum in *. cbn [fold_right]. lra.
Qed.
Lemma passenger_fields d es : Forall (passenger d) es -> exists fs, mapM field_generator es = Ok fs /\ Forall (fun f => exists n, f = SF_null n) fs.
Proof.
  induction 1 as [|e es (g & -> & _) _ (fs & E & L)]; [exists []; split; [reflexivity|constructor]|]. exists (SF_null (gdim g) :: fs). cbn [mapM field_generator bind]. rewrite E. split; [reflexivity|]. constructor; [eauto|exact L].
Qed.
Lemma passenger_fills sv d es : Forall (passenger d) es -> forall ks, length ks = length es -> mapM (fun x => fill_controls sv (fst x) (snd x)) (combine es ks) = Ok es.
Proof.
  induction 1 as [|e es (g & -> & _) _ IH]; intros [|k ks] L; try discriminate L; [reflexivity|]. cbn [combine mapM fst snd]. cbn [fill_controls bind]. rewrite IH by (injection L; auto). reflexivity.
Qed.
Lemma passenger_controls d es : Forall (passenger d) es -> exists ks, Forall2 (ctrl_ok d) es ks.
Proof. induction 1 as [|e es (g & -> & _) _ (ks & K)]; [exists []; constructor|]. exists (CLeaf (tzeros [0%nat]) :: ks). constructor; [reflexivity|exact K]. Qed.

(** The same leaves, then passengers. *)
Definition differ (d : nat) (m m' : dmod) : Prop :=
  exists ls es es', leaves m = ls ++ es /\ leaves m' = ls ++ es' /\ Forall (passenger d) es /\ Forall (passenger d) es'.
Lemma differ_sym d m m' : differ d m m' -> differ d m' m.
Proof. intros (ls & es & es' & A & B & C & D). exists ls, es', es. auto. Qed.

Lemma differ_alike d m m' : differ d m m' ->
  (forall x x', cost m = Ok x -> cost m' = Ok x' -> x' = x) /\
  (forall f f', field_generator m = Ok f -> field_generator m' = Ok f' -> (forall p a, fval d f' p a = fval d f p a) /\ forall p a b, fjac d f' p a b = fjac d f p a b) /\
  (forall v D, pairing d (mod_manifold m') v D = pairing d (mod_manifold m) v D).
Proof.
  intros (ls & es & es' & A & B & P & P'). split; [|split].
  - intros x x' E E'. destruct (cost_leaves m x E) as (xs & Ex & ->). destruct (cost_leaves m' x' E') as (xs' & Ex' & ->).
    rewrite A, mapM_app in Ex. rewrite B, mapM_app in Ex'. destruct (mapM cost ls) as [ys|]; [|discriminate Ex]. destruct (passenger_costs d es P) as (zs & Ez & Lz). destruct (passenger_costs d es' P') as (zs' & Ez' & Lz').
    cbn [bind] in Ex, Ex'. rewrite Ez in Ex. rewrite Ez' in Ex'. injection Ex as <-. injection Ex' as <-. rewrite !lsum_app. lra.
  - intros f f' E E'. destruct (field_leaves d m f E) as (xs & Ex & V & J). destruct (field_leaves d m' f' E') as (xs' & Ex' & V' & J').
    rewrite A, mapM_app in Ex. rewrite B, mapM_app in Ex'. destruct (mapM field_generator ls) as [ys|]; [|discriminate Ex]. destruct (passenger_fields d es P) as (zs & Ez & Lz). destruct (passenger_fields d es' P') as (zs' & Ez' & Lz').
    cbn [bind] in Ex, Ex'. rewrite Ez in Ex. rewrite Ez' in Ex'. injection Ex as <-. injection Ex' as <-.
    split; intros; [rewrite V, V'|rewrite J, J']; rewrite !map_app, !lsum_app; f_equal; rewrite !lsum_null; try reflexivity;
      [revert Lz|revert Lz'|revert Lz|revert Lz']; apply Forall_impl; intros ? (n & ->); reflexivity.
  - intros v D. rewrite (pairing_leaves d m), (pairing_leaves d m'), A, B, !map_app, !lsum_app. f_equal.
    rewrite !lsum_null; [reflexivity| |]; [revert P|revert P']; apply Forall_impl; intros ? (g & -> & W & _ & N); apply pairing_null; assumption.
Qed.

Section Ham.
Variables (sv : solver) (d : nat).
Hypothesis HS : exact_solver sv.

Lemma gain_differ m m' c c' m1 m1' : wf_mod d m -> wf_mod d m' -> ctrl_ok d m c -> ctrl_ok d m' c' -> fill_controls sv m c = Ok m1 -> fill_controls sv m' c' = Ok m1' ->
  differ d m1 m1' -> gain m1' (mod_manifold m') = gain m1 (mod_manifold m).
Proof.
  intros W W' O O' F F' P. destruct (filled sv d HS m c m1 W O F) as (f & x & FG & GF & C). destruct (filled sv d HS m' c' m1' W' O' F') as (f' & x' & FG' & GF' & C').
  destruct (differ_alike d m1 m1' P) as (PC & PF & PP). destruct (PF f f' FG FG') as (PV & PJ).
  destruct (good_parts d f GF) as (A1 & A2 & A3). destruct (good_parts d f' GF') as (B1 & B2 & B3).
  destruct (wf_mod_manifold d m W) as (WG & _). destruct (wf_mod_manifold d m' W') as (WG' & _).
  unfold gain. rewrite FG, FG'. cbn [bind]. rewrite (inner_pairing_field d _ f WG A1 A2 (fun _ => A3)), (inner_pairing_field d _ f' WG' B1 B2 (fun _ => B3)). cbn [bind].
  rewrite C, C', (PC x x' C C'). cbn [bind]. do 2 f_equal.
  rewrite <- (fill_manifold sv m c m1 F), <- (fill_manifold sv m' c' m1' F'), PP. apply pairing_ext; intros; [apply PV|apply PJ].
Qed.

(** Filled with controls that agree on the common leaves. *)
Lemma fill_differ m m' c c' m1 m1' ls es es' ks k k' :
  leaves m = ls ++ es -> leaves m' = ls ++ es' -> Forall (passenger d) es -> Forall (passenger d) es' ->
  ctrl_ok d m c -> ctrl_ok d m' c' -> cpieces m c = ks ++ k -> cpieces m' c' = ks ++ k' -> length ks = length ls ->
  fill_controls sv m c = Ok m1 -> fill_controls sv m' c' = Ok m1' ->
  exists ls1, leaves m1 = ls1 ++ es /\ leaves m1' = ls1 ++ es'.
Proof.
  intros A B P P' O O' K K' LK F F'. pose proof (fill_leaves sv d m c m1 O F) as X. pose proof (fill_leaves sv d m' c' m1' O' F') as X'.
  pose proof (F2len (ctrl_leaves d m c O)) as L. pose proof (F2len (ctrl_leaves d m' c' O')) as L'.
  rewrite A, K in X, L. rewrite B, K' in X', L'. rewrite !app_length in L, L'.
  rewrite combine_app2, mapM_app in X, X' by congruence. destruct (mapM _ (combine ls ks)) as [ls1|]; [|discriminate X]. cbn [bind] in X, X'.
  rewrite (passenger_fills sv d es P) in X by lia. rewrite (passenger_fills sv d es' P') in X' by lia. injection X as X. injection X' as X'. eauto.
Qed.

Variable b0 : backend.

Lemma best_differ m m' m1 m1' : wf_mod d m -> wf_mod d m' -> differ d m m' ->
  geodesic_controls sv b0 m = Ok m1 -> geodesic_controls sv b0 m' = Ok m1' ->
  exists g g', gain m1 (mod_manifold m) = Ok g /\ gain m1' (mod_manifold m') = Ok g' /\ g <= g'.
Proof.
  intros W W' (ls & es & es' & A & B & P & P') E E'. unfold geodesic_controls in E, E'. destruct (wf_mod_manifold d m W) as (WG & NE). destruct (wf_mod_manifold d m' W') as (WG' & NE').
  destruct (geodesic_max sv b0 d HS m _ m1 W WG NE E) as (O & F & g & G & _). destruct (geodesic_max sv b0 d HS m' _ m1' W' WG' NE' E') as (O' & F' & g' & G' & MX).
  exists g, g'. split; [exact G|]. split; [exact G'|].
  pose proof (ctrl_leaves d m _ O) as CL. rewrite A in CL. apply Forall2_app_inv_l in CL. destruct CL as (ks & k & CK & _ & EK).
  destruct (passenger_controls d es' P') as (k' & CK'). destruct (assemble d m' (ks ++ k')) as (c' & OC & EC); [rewrite B; apply Forall2_app; assumption|].
  destruct (MX c' OC) as (n1 & gn & n2 & e & FN & GN & _ & _ & _ & PE & EQ).
  destruct (fill_differ m m' _ c' m1 n1 ls es es' ks k k' A B P P' O OC EK EC (eq_sym (F2len CK)) F FN) as (ls1 & A1 & B1).
  pose proof (gain_differ m m' _ c' m1 n1 W W' O OC F FN (ex_intro _ ls1 (ex_intro _ es (ex_intro _ es' (conj A1 (conj B1 (conj P P'))))))) as X. rewrite G, GN in X. injection X as X. lra.
Qed.
Lemma geodesic_differ m m' m1 m1' : wf_mod d m -> wf_mod d m' -> differ d m m' ->
  geodesic_controls sv b0 m = Ok m1 -> geodesic_controls sv b0 m' = Ok m1' ->
  exists x, hamiltonian m1 = Ok x /\ hamiltonian m1' = Ok x /\ cost m1 = Ok x /\ cost m1' = Ok x /\ gain m1 (mod_manifold m) = gain m1' (mod_manifold m').
Proof.
  intros W W' P E E'. destruct (best_differ m m' m1 m1' W W' P E E') as (g & g' & G & G' & L). destruct (best_differ m' m m1' m1 W' W (differ_sym _ _ _ P) E' E) as (g2' & g2 & G2' & G2 & L2).
  rewrite G in G2. injection G2 as <-. rewrite G' in G2'. injection G2' as <-. assert (X : g' = g) by lra. subst g'.
  destruct (hamiltonian_cost sv b0 d HS m m1 W E) as (x & C & H & _). destruct (hamiltonian_cost sv b0 d HS m' m1' W' E') as (x' & C' & H' & _).
  unfold geodesic_controls in E, E'. destruct (wf_mod_manifold d m W) as (WG & NE). destruct (wf_mod_manifold d m' W') as (WG' & NE').
  destruct (geodesic_max sv b0 d HS m _ m1 W WG NE E) as (_ & F & _). destruct (geodesic_max sv b0 d HS m' _ m1' W' WG' NE' E') as (_ & F' & _).
  pose proof H as Y. rewrite ham_gain_own, (fill_manifold sv m _ m1 F), G in Y. injection Y as Y. pose proof H' as Y'. rewrite ham_gain_own, (fill_manifold sv m' _ m1' F'), G' in Y'. injection Y' as Y'.
  exists x. replace x' with x in * by lra. rewrite G, G'. auto.
Qed.
End Ham.

(** ** States of the modules inside states with passengers *)
Section Lists.
Variables (N K : nat).
(** Places of the descriptors and moments of the modules. *)
Definition seats : list nat := seq 0 N ++ seq (N + K) N.
(** The moments of the passengers. *)
Definition still (l : list tensor) : Prop := forall j t, (N + K + N <= j)%nat -> nth_error l j = Some t -> null t.
Lemma seats_nodup : NoDup seats.
Proof.
  unfold seats. assert (X : forall a b : list nat, NoDup a -> NoDup b -> (forall x, In x a -> ~ In x b) -> NoDup (a ++ b)).
  { induction a as [|x a IH]; intros b A B D; [exact B|]. inversion A; subst. cbn. constructor; [rewrite in_app_iff; intros [I|I]; [auto|exact (D x (or_introl eq_refl) I)]|]. apply IH; auto. intros y Y. apply D. right. exact Y. }
  apply X; [apply seq_NoDup|apply seq_NoDup|]. intros x I J. apply in_seq in I, J. lia.
Qed.
Lemma seats_low i j : nth_error seats j = Some i -> (i < N + K + N)%nat.
Proof. intros E. apply nth_error_In in E. unfold seats in E. apply in_app_iff in E. destruct E as [E|E]; apply in_seq in E; lia. Qed.
Lemma seats_first j : (j < N)%nat -> nth_error seats j = Some j.
Proof. intros J. unfold seats. rewrite nth_error_app1 by (rewrite seq_length; exact J). rewrite nth_error_nth' with (d := 0%nat) by (rewrite seq_length; exact J). rewrite seq_nth by exact J. reflexivity. Qed.
Lemma seats_second j : (j < N)%nat -> nth_error seats (N + j) = Some (N + K + j)%nat.
Proof. intros J. unfold seats. rewrite nth_error_app2 by (rewrite seq_length; lia). rewrite seq_length. replace (N + j - N)%nat with j by lia. rewrite nth_error_nth' with (d := 0%nat) by (rewrite seq_length; exact J). rewrite seq_nth by exact J. reflexivity. Qed.
Lemma seats_len : length seats = (N + N)%nat.
Proof. unfold seats. rewrite app_length, !seq_length. reflexivity. Qed.

Lemma still_leq a b : leq a b -> still b -> still a.
Proof.
  intros E Z j t J T. destruct (nth_error b j) as [u|] eqn:U.
  - destruct (leq_at _ _ E j t u T U) as (S1 & S2). intros idx V. rewrite S2 by exact V. apply (Z j u J U). rewrite <- S1. exact V.
  - apply nth_error_None in U. rewrite <- (F2len E) in U. assert (j < length a)%nat by (apply nth_error_Some; congruence). lia.
Qed.
Lemma still_scal s a : still a -> still (lscal s a).
Proof.
  intros Z j t J T. unfold lscal in T. rewrite nth_error_map in T. destruct (nth_error a j) as [u|] eqn:U; [|discriminate T]. injection T as <-. intros idx V. cbn. rewrite (Z j u J U idx V). ring.
Qed.
Lemma still_add a b : map shape a = map shape b -> still a -> still b -> still (ladd a b).
Proof.
  intros SH ZA ZB j t J T. unfold ladd in T. rewrite nth_error_map in T. destruct (nth_error (combine a b) j) as [(u, w)|] eqn:U; [|discriminate T]. injection T as <-.
  assert (UW : nth_error a j = Some u /\ nth_error b j = Some w).
  { clear - U. revert b j U. induction a as [|x a IH]; intros [|y b] [|j] U; try discriminate U; cbn in *; [injection U as <- <-; auto|apply IH; exact U]. }
  destruct UW as (A & B). assert (SU : shape u = shape w).
  { assert (X : nth_error (map shape a) j = Some (shape u)) by (rewrite nth_error_map, A; reflexivity). rewrite SH, nth_error_map, B in X. injection X as X. congruence. }
  intros idx V. cbn in V |- *. rewrite (ZA j u J A idx V), (ZB j w J B idx ltac:(rewrite <- SU; exact V)). ring.
Qed.
Lemma still_upd l i idx s : (i < N + K + N)%nat -> still l -> still (upd l i idx s).
Proof. intros I Z j t J T. rewrite nth_upd in T. destruct (Nat.eqb_spec j i); [lia|]. exact (Z j t J T). Qed.

Variable shs : list (list nat).
Hypothesis LS : length shs = ((N + K) + (N + K))%nat.
Definition rides (l l' : list tensor) : Prop := map shape l' = shs /\ leq l (pick seats l') /\ still l'.

Lemma seats_bound (l : list tensor) : map shape l = shs -> Forall (fun i => (i < length l)%nat) seats.
Proof.
  intros E. rewrite <- (map_length shape l), E, LS. unfold seats. apply Forall_app. split; apply Forall_forall; intros i I; apply in_seq in I; lia.
Qed.

Lemma rides_leq l l' r r' : leq r l -> leq r' l' -> rides l l' -> rides r r'.
Proof.
  intros E E' (A & B & C). split; [rewrite (leq_shape _ _ E'); exact A|]. split; [|exact (still_leq _ _ E' C)].
  apply (leq_trans' _ _ _ E), (leq_trans' _ _ _ B), leq_pick, leq_sym, E'.
Qed.
Lemma rides_scal s l l' : rides l l' -> rides (lscal s l) (lscal s l').
Proof. intros (A & B & C). split; [rewrite DiffBuild.lscal_shape; exact A|]. split; [rewrite pick_lscal; apply leq_scal; exact B|apply still_scal; exact C]. Qed.
Lemma rides_add l l' k k' : rides l l' -> rides k k' -> rides (ladd l k) (ladd l' k').
Proof.
  intros (A & B & C) (A' & B' & C'). split; [rewrite DiffBuild.ladd_shape; congruence|].
  split; [|apply still_add; [congruence|exact C|exact C']]. rewrite pick_ladd by (rewrite <- (map_length shape l'), <- (map_length shape k'); congruence).
  apply leq_add; [rewrite !pick_shape, A, A'; reflexivity|exact B|exact B'].
Qed.
End Lists.

(** ** Related trajectories *)
Section Pairs.
Variables (P : list tensor -> list tensor -> Prop) (F F' : vfields).
Hypothesis Pleq : forall l l' r r', leq r l -> leq r' l' -> P l l' -> P r r'.
Hypothesis Pscal : forall s l l', P l l' -> P (lscal s l) (lscal s l').
Hypothesis Padd : forall l l' k k', P l l' -> P k k' -> P (ladd l k) (ladd l' k').
Hypothesis rel : forall j l l' k k', P l l' -> F j l k -> F' j l' k' -> P k k'.

Ltac lin := repeat first [assumption | apply Padd | apply Pscal].

Lemma step_related sch o dt l l' ss ss' r r' : P l l' -> scheme_step sch (fun j => F (o + j)%nat) dt l ss r -> scheme_step sch (fun j => F' (o + j)%nat) dt l' ss' r' ->
  P r r' /\ Forall2 P ss ss'.
Proof.
  intros X. destruct sch; cbn [scheme_step].
  - intros (k & -> & K & E) (k' & -> & K' & E'). pose proof (rel _ _ _ _ _ X K K') as R1. split; [apply (Pleq _ _ _ _ E E'); lin|repeat constructor; exact X].
  - intros (k1 & l2 & k2 & -> & K1 & E2 & K2 & E) (k1' & l2' & k2' & -> & K1' & E2' & K2' & E').
    pose proof (rel _ _ _ _ _ X K1 K1') as R1. assert (X2 : P l2 l2') by (apply (Pleq _ _ _ _ E2 E2'); lin). pose proof (rel _ _ _ _ _ X2 K2 K2') as R2.
    split; [apply (Pleq _ _ _ _ E E'); lin|repeat constructor; assumption].
  - intros (k1 & l2 & k2 & l3 & k3 & l4 & k4 & -> & K1 & E2 & K2 & E3 & K3 & E4 & K4 & E) (k1' & l2' & k2' & l3' & k3' & l4' & k4' & -> & K1' & E2' & K2' & E3' & K3' & E4' & K4' & E').
    pose proof (rel _ _ _ _ _ X K1 K1') as R1. assert (X2 : P l2 l2') by (apply (Pleq _ _ _ _ E2 E2'); lin). pose proof (rel _ _ _ _ _ X2 K2 K2') as R2.
    assert (X3 : P l3 l3') by (apply (Pleq _ _ _ _ E3 E3'); lin). pose proof (rel _ _ _ _ _ X3 K3 K3') as R3.
    assert (X4 : P l4 l4') by (apply (Pleq _ _ _ _ E4 E4'); lin). pose proof (rel _ _ _ _ _ X4 K4 K4') as R4.
    split; [apply (Pleq _ _ _ _ E E'); lin|repeat constructor; assumption].
Qed.

Lemma trajectory_related sch dt states stages states' stages' l0 l0' :
  trajectory sch F dt states stages -> trajectory sch F' dt states' stages' -> length stages' = length stages ->
  nth_error states 0 = Some l0 -> nth_error states' 0 = Some l0' -> P l0 l0' ->
  forall i l l', nth_error states i = Some l -> nth_error states' i = Some l' ->
    P l l' /\ forall ss ss', nth_error stages i = Some ss -> nth_error stages' i = Some ss' -> Forall2 P ss ss'.
Proof.
  intros (L & T) (L' & T') LL E0 E0' R0.
  assert (X : forall i l l', nth_error states i = Some l -> nth_error states' i = Some l' -> P l l').
  { induction i as [|i IH]; intros l l' E E'; [congruence|].
    assert (I : (S i < length states)%nat) by (apply nth_error_Some; congruence).
    destruct (nth_error states i) as [x|] eqn:Ex; [|apply nth_error_None in Ex; lia]. destruct (nth_error states' i) as [x'|] eqn:Ex'; [|apply nth_error_None in Ex'; lia].
    destruct (nth_error stages i) as [ss|] eqn:Es; [|apply nth_error_None in Es; lia]. destruct (nth_error stages' i) as [ss'|] eqn:Es'; [|apply nth_error_None in Es'; lia].
    exact (proj1 (step_related sch _ dt x x' ss ss' l l' (IH x x' eq_refl eq_refl) (T i x ss l Ex Es E) (T' i x' ss' l' Ex' Es' E'))). }
  intros i l l' E E'. split; [exact (X i l l' E E')|]. intros ss ss' Es Es'.
  assert (I : (i < length stages)%nat) by (apply nth_error_Some; congruence).
  destruct (nth_error states (S i)) as [y|] eqn:Ey; [|apply nth_error_None in Ey; lia]. destruct (nth_error states' (S i)) as [y'|] eqn:Ey'; [|apply nth_error_None in Ey'; lia].
  exact (proj2 (step_related sch _ dt l l' ss ss' y y' (X i l l' E E') (T i l ss y E Es Ey) (T' i l' ss' y' E' Es' Ey'))).
Qed.
End Pairs.

(** ** Hamilton's equations *)
Lemma flat_map_same {A B} (f g : A -> list B) l : (forall a, In a l -> f a = g a) -> flat_map f l = flat_map g l.
Proof. induction l as [|a l IH]; intros E; [reflexivity|]. cbn [flat_map]. rewrite (E a (or_introl eq_refl)), IH; [reflexivity|]. intros b B1. apply E. right. exact B1. Qed.
Section Hamilton.
Variables (N K : nat) (shs : list (list nat)) (H H' : list tensor -> res R).
Hypothesis LS : length shs = ((N + K) + (N + K))%nat.
Notation rides := (rides N K shs).
Notation seats := (seats N K).
Hypothesis same : forall x x' v v', rides x x' -> H x = Ok v -> H' x' = Ok v' -> v' = v.
Hypothesis same' : forall x x' x'' v' v'', rides x x' -> rides x x'' -> pick seats x'' = pick seats x' -> H' x' = Ok v' -> H' x'' = Ok v'' -> v'' = v'.

Lemma deriv_rides l l' i j t idx g g' : rides l l' -> nth_error seats j = Some i -> nth_error l' i = Some t -> valid (shape t) idx ->
  partial_derivative H l j idx g -> partial_derivative H' l' i idx g' -> g' = g.
Proof.
  intros (S & E & Z) J T V (e1 & f1 & P1 & Q1 & D1) (e2 & f2 & P2 & Q2 & D2). pose proof (seats_bound N K shs LS l' S) as B.
  rewrite (entry_picked seats l' l i j t idx B E J T V) in Q1, D1.
  apply (uniqueness_limite f1 (entry l' i idx)); [|exact D1]. apply (lim_loc f2 f1 _ _ (Rmin e1 e2)); [apply Rmin_pos; assumption| |exact D2]. intros s A.
  specialize (Q1 s ltac:(eapply Rlt_le_trans; [exact A|apply Rmin_l])). specialize (Q2 s ltac:(eapply Rlt_le_trans; [exact A|apply Rmin_r])).
  refine (same _ _ _ _ _ Q1 Q2). split; [rewrite upd_shape; exact S|]. split; [apply (upd_picked seats l' l i j idx s (seats_nodup N K) B E J)|].
  apply still_upd; [exact (seats_low N K i j J)|exact Z].
Qed.
Lemma deriv_passenger l l' i idx g' : rides l l' -> (N <= i < N + K)%nat -> partial_derivative H' l' i idx g' -> g' = 0.
Proof.
  intros RI I (e2 & f2 & P2 & Q2 & D2). pose proof RI as (S & E & Z).
  apply (uniqueness_limite f2 (entry l' i idx)); [exact D2|]. apply (lim_loc (fun _ => f2 (entry l' i idx)) f2 _ _ e2 P2); [|apply derivable_pt_lim_const]. intros s A.
  pose proof (Q2 s A) as Q. specialize (Q2 (entry l' i idx) ltac:(rewrite Rminus_diag_eq by reflexivity; rewrite Rabs_R0; exact P2)).
  assert (PU : forall s, pick seats (upd l' i idx s) = pick seats l').
  { intros u. unfold pick. apply flat_map_same. intros a IA. rewrite nth_upd. destruct (Nat.eqb_spec a i); [|reflexivity]. subst a. unfold PassengerFacts.seats in IA. apply in_app_iff in IA. destruct IA as [IA|IA]; apply in_seq in IA; lia. }
  assert (RU : forall s, rides l (upd l' i idx s)).
  { intros u. split; [rewrite upd_shape; exact S|]. split; [rewrite PU; exact E|apply still_upd; [lia|exact Z]]. }
  symmetry. eapply same'; [apply RU|apply RU| |exact Q2|exact Q]. rewrite !PU. reflexivity.
Qed.

Lemma hamilton_rides l l' k k' : rides l l' -> hamilton H l k -> hamilton H' l' k' -> rides k k'.
Proof.
  intros RI (SK & n & Ln & SS & HK) (SK' & n' & Ln' & SS' & HK'). pose proof RI as (S & E & Z). pose proof (seats_bound N K shs LS l' S) as B.
  assert (Ll' : length l' = ((N + K) + (N + K))%nat) by (rewrite <- (map_length shape l'), S; exact LS). assert (n' = (N + K)%nat) by lia. subst n'.
  assert (Ll : length l = (N + N)%nat) by (rewrite (F2len E), (pick_length seats l' B); apply seats_len). assert (n = N) by lia. subst n.
  assert (SH : map shape k' = shs) by congruence. pose proof (seats_bound N K shs LS k' SH) as BK. split; [exact SH|]. split.
  - apply leq_entries; [rewrite SK, (leq_shape _ _ E), !pick_shape, SK'; reflexivity|]. intros j t idx Ej V.
    assert (LP : length (pick seats k') = (N + N)%nat) by (rewrite (pick_length seats k' BK); apply seats_len).
    assert (J : (j < N + N)%nat) by (rewrite <- LP; apply nth_error_Some; congruence).
    assert (IJ : exists i, nth_error seats j = Some i). { destruct (nth_error seats j) as [i|] eqn:X; [eauto|]. apply nth_error_None in X. rewrite seats_len in X. lia. }
    destruct IJ as (i & SI). assert (EP : entry (pick seats k') j idx = entry k' i idx) by (unfold entry; rewrite (nth_pick seats k' j i BK SI); reflexivity).
    rewrite (nth_pick seats k' j i BK SI) in Ej.
    assert (TI : exists t', nth_error l' i = Some t' /\ shape t' = shape t).
    { assert (X : nth_error (map shape k') i = Some (shape t)) by (rewrite nth_error_map, Ej; reflexivity). rewrite SK', nth_error_map in X. destruct (nth_error l' i) as [u|]; [|discriminate X]. injection X as X. eauto. }
    destruct TI as (t' & Et' & St'). rewrite EP.
    assert (TL : exists w, nth_error l j = Some w /\ shape w = shape t).
    { destruct (nth_error l j) as [w|] eqn:Ew; [|apply nth_error_None in Ew; lia]. exists w. split; [reflexivity|]. destruct (leq_at _ _ E j w t' Ew ltac:(rewrite (nth_pick seats l' j i B SI); exact Et')). congruence. }
    destruct TL as (w & Ew & Sw).
    destruct (Nat.ltb_spec j N) as [JN|JN].
    + assert (i = j) by (rewrite (seats_first N K j JN) in SI; congruence). subst i.
      destruct (HK j w idx JN Ew ltac:(rewrite Sw; exact V)) as (A1 & _). destruct (HK' j t' idx ltac:(lia) Et' ltac:(rewrite St'; exact V)) as (C1 & _).
      destruct (nth_error l' (N + K + j)) as [u|] eqn:Eu; [|apply nth_error_None in Eu; lia].
      assert (SU : shape u = shape t'). { assert (X : nth_error (map shape (firstn (N + K) l')) j = Some (shape t')) by (rewrite nth_error_map, nth_first, Et' by lia; reflexivity). rewrite SS', nth_error_map, nth_skip, Eu in X. injection X as X. congruence. }
      symmetry. exact (deriv_rides l l' (N + K + j) (N + j) u idx _ _ RI (seats_second N K j JN) Eu ltac:(rewrite SU, St'; exact V) A1 C1).
    + set (j0 := (j - N)%nat). assert (J0 : (j0 < N)%nat) by (unfold j0; lia). replace j with (N + j0)%nat in * by (unfold j0; lia). clearbody j0. rewrite (seats_second N K j0 J0) in SI. injection SI as <-.
      destruct (nth_error l j0) as [w0|] eqn:Ew0; [|apply nth_error_None in Ew0; lia]. destruct (nth_error l' j0) as [u0|] eqn:Eu0; [|apply nth_error_None in Eu0; lia].
      assert (SW : shape w0 = shape t). { assert (X : nth_error (map shape (firstn N l)) j0 = Some (shape w0)) by (rewrite nth_error_map, nth_first, Ew0 by exact J0; reflexivity). rewrite SS, nth_error_map, nth_skip, Ew in X. injection X as X. congruence. }
      assert (SU : shape u0 = shape t). { destruct (leq_at _ _ E j0 w0 u0 Ew0 ltac:(rewrite (nth_pick seats l' j0 j0 B (seats_first N K j0 J0)); exact Eu0)). congruence. }
      destruct (HK j0 w0 idx J0 Ew0 ltac:(rewrite SW; exact V)) as (_ & A2). destruct (HK' j0 u0 idx ltac:(lia) Eu0 ltac:(rewrite SU; exact V)) as (_ & C2).
      pose proof (deriv_rides l l' j0 j0 u0 idx _ _ RI (seats_first N K j0 J0) Eu0 ltac:(rewrite SU; exact V) A2 C2). lra.
  - intros j t J T idx V. set (z := (j - (N + K))%nat). assert (EZ : j = (N + K + z)%nat) by (unfold z; lia). assert (ZB : (N <= z)%nat) by (unfold z; lia). clearbody z. subst j.
    assert (LK : length k' = ((N + K) + (N + K))%nat) by (rewrite <- (map_length shape k'), SH; exact LS).
    assert (ZB2 : (z < N + K)%nat) by (assert ((N + K + z < length k')%nat) by (apply nth_error_Some; congruence); lia).
    destruct (nth_error l' z) as [u|] eqn:Eu; [|apply nth_error_None in Eu; lia].
    assert (SU : shape u = shape t).
    { assert (X : nth_error (map shape (firstn (N + K) l')) z = Some (shape u)) by (rewrite nth_error_map, nth_first, Eu by lia; reflexivity). rewrite SS', nth_error_map, nth_skip in X.
      assert (Y : nth_error (map shape k') (N + K + z) = Some (shape t)) by (rewrite nth_error_map, T; reflexivity). rewrite SK', nth_error_map in Y. destruct (nth_error l' (N + K + z)); [|discriminate X]. injection X as X. injection Y as Y. congruence. }
    destruct (HK' z u idx ZB2 Eu ltac:(rewrite SU; exact V)) as (_ & C2). pose proof (deriv_passenger l l' z idx _ RI (conj ZB ZB2) C2) as D0.
    unfold entry in D0. rewrite T in D0. lra.
Qed.
End Hamilton.

(** ** Modules with passengers *)
Lemma fold_and {A} (P : A -> Prop) l : fold_right (fun x acc => P x /\ acc) True l <-> Forall P l.
Proof. induction l as [|x l IH]; cbn [fold_right]; [split; constructor|]. rewrite IH. split; [intros (A1 & B1); constructor; assumption|intros X; inversion X; auto]. Qed.
Lemma sets_app ms gs es ps : length ms = length gs -> sets (ms ++ es) (gs ++ ps) = (a <- sets ms gs ;; b <- sets es ps ;; Ok (a ++ b)).
Proof.
  revert gs. induction ms as [|m ms IH]; intros [|g gs] L; try discriminate L; [cbn [app]; cbn [sets bind]; destruct (sets es ps); reflexivity|].
  cbn [app]. cbn [sets]. destruct (set_manifold m g) as [m1|]; [|reflexivity]. cbn [bind]. rewrite IH by (injection L; auto). destruct (sets ms gs) as [a|]; [|reflexivity]. cbn [bind]. destruct (sets es ps); reflexivity.
Qed.
Lemma sets_silent d es : Forall (passenger d) es -> forall ps r, sets es ps = Ok r -> r = map MSilent ps.
Proof.
  induction 1 as [|e es (g & -> & _) _ IH]; intros [|p ps] r E; cbn [sets] in E; try discriminate E; [injection E as <-; reflexivity|].
  assert (X : set_manifold (MSilent g) p = Ok (MSilent p)) by (destruct p; reflexivity). rewrite X in E. cbn [bind] in E. bok E r1 Er. injection E as <-. rewrite (IH ps r1 Er). reflexivity.
Qed.
Lemma sets_len ms : forall gs r, sets ms gs = Ok r -> length r = length ms.
Proof. induction ms as [|m ms IH]; intros [|g gs] r E; cbn [sets] in E; try discriminate E; [injection E as <-; reflexivity|]. bok E x Ex. bok E y Ey. injection E as <-. cbn. rewrite (IH gs y Ey). reflexivity. Qed.
Lemma flat_silent (es : list dmod) : Forall (fun e => exists g, e = MSilent g) es -> flat_map leaves es = es.
Proof. induction 1 as [|e es (g & ->) _ IH]; [reflexivity|]. cbn [flat_map leaves app]. rewrite IH. reflexivity. Qed.
Lemma skel_split hs (a b : list gman) : map skel hs = map skel (a ++ b) -> exists gs ps, hs = gs ++ ps /\ map skel gs = map skel a /\ map skel ps = map skel b.
Proof.
  revert hs. induction a as [|x a IH]; intros hs E; [exists [], hs; auto|]. destruct hs as [|h hs]; [discriminate E|]. cbn [app map] in E. injection E as E1 E2.
  destruct (IH hs E2) as (gs & ps & -> & A & B). exists (h :: gs), ps. cbn [map]. rewrite E1, A. auto.
Qed.
Lemma cpieces_app ms es k e : length k = length ms -> cpieces (MComp (ms ++ es)) (CList (k ++ e)) = cpieces (MComp ms) (CList k) ++ cpieces (MComp es) (CList e).
Proof.
  cbn [cpieces]. revert k. induction ms as [|m ms IH]; intros [|c k] L; try discriminate L; [reflexivity|]. cbn [app]. rewrite IH by (injection L; auto). apply app_assoc.
Qed.

Section Modules.
Variables (d : nat) (ms es : list dmod) (sv : solver) (b0 : backend) (cs cs' : option (list ctrl)).
Hypothesis HS : exact_solver sv.
Notation m := (MComp ms).
Notation m' := (MComp (ms ++ es)).
Hypothesis W : wf_mod d m.
Hypothesis PE : Forall (passenger d) es.
Hypothesis LS : locals_smooth d m.
Hypothesis CS : match cs, cs' with None, None => True | Some l, Some l' => Forall2 cboarded l l' | _, _ => False end.
Hypothesis CO : forall l x, cs = Some l -> In x l -> ctrl_ok d m x.
Hypothesis CO' : forall l x, cs' = Some l -> In x l -> ctrl_ok d m' x.
Notation g0 := (mod_manifold m).
Notation g0' := (mod_manifold m').
Notation ge := (GComp (map mod_manifold es)).
Notation N := (g_len g0).
Notation K := (g_len ge).
Notation shs := (map shape (phase g0')).
Notation Q := (seats N K).

Lemma board_wf : wf_mod d m'.
Proof.
  destruct W as (A & B). cbn [wf_mod]. split; [intros Z; apply app_eq_nil in Z; apply A, Z|]. apply fold_and. apply fold_and in B. apply Forall_app. split; [exact B|].
  revert PE. apply Forall_impl. intros e (g & -> & A1 & A2 & _). split; assumption.
Qed.
Lemma board_smooth : locals_smooth d m'.
Proof.
  cbn [locals_smooth]. apply fold_and. cbn [locals_smooth] in LS. apply fold_and in LS. apply Forall_app. split; [exact LS|]. revert PE. apply Forall_impl. intros e (g & -> & _). exact Logic.I.
Qed.
Lemma len_app (a b : list gman) : g_len (GComp (a ++ b)) = (g_len (GComp a) + g_len (GComp b))%nat.
Proof. rewrite <- !g_gd_len. cbn [g_gd]. rewrite flat_map_app, app_length. reflexivity. Qed.
Lemma board_len : length shs = ((N + K) + (N + K))%nat.
Proof. rewrite map_length, phase_len. cbn [mod_manifold]. rewrite map_app, len_app. reflexivity. Qed.

Lemma phase_parts gs ps : skel (GComp gs) = skel g0 -> skel (GComp ps) = skel ge -> pick Q (phase (GComp (gs ++ ps))) = phase (GComp gs) /\ (still N K (phase (GComp (gs ++ ps))) <-> Forall no_moments ps).
Proof.
  intros KG KP. pose proof (skel_len _ _ KG) as LG. pose proof (skel_len _ _ KP) as LP.
  pose proof (g_gd_len (GComp gs)) as G1. pose proof (g_cotan_len (GComp gs)) as G2. pose proof (g_gd_len (GComp ps)) as P1. pose proof (g_cotan_len (GComp ps)) as P2.
  rewrite LG in G1, G2. rewrite LP in P1, P2. unfold phase. cbn [g_gd g_cotan] in *. rewrite !flat_map_app.
  set (A := flat_map g_gd gs) in *. set (B := flat_map g_gd ps) in *. set (C := flat_map g_cotan gs) in *. set (D := flat_map g_cotan ps) in *. split.
  - unfold seats. rewrite pick_app. f_equal.
    + rewrite <- G1 at 1. rewrite <- app_assoc. apply pick_firsts.
    + replace (N + K)%nat with (length (A ++ B) + 0)%nat by (rewrite app_length; lia). rewrite pick_skip. rewrite <- G2 at 1. apply pick_firsts.
  - assert (X : forall j, (N + K + N <= j)%nat -> nth_error ((A ++ B) ++ C ++ D) j = nth_error D (j - (N + K + N))).
    { intros j J. rewrite app_assoc. rewrite nth_error_app2 by (rewrite !app_length; lia). f_equal. rewrite !app_length. lia. }
    split.
    + intros Z. assert (ZD : Forall null D). { apply Forall_forall. intros t T. apply In_nth_error in T. destruct T as (j & T). apply (Z (N + K + N + j)%nat t ltac:(lia)). rewrite X by lia. replace (N + K + N + j - (N + K + N))%nat with j by lia. exact T. }
      unfold D in ZD. clear - ZD. induction ps as [|p ps IH]; [constructor|]. cbn [flat_map] in ZD. apply Forall_app in ZD. constructor; [apply ZD|apply IH, ZD].
    + intros F j t J T. rewrite X in T by exact J. apply nth_error_In in T. unfold D in T. apply in_flat_map in T. destruct T as (p & IP & T). rewrite Forall_forall in F. pose proof (F p IP) as NP. unfold no_moments in NP. rewrite Forall_forall in NP. exact (NP t T).
Qed.

Lemma comp_skel g (l : list dmod) : skel g = skel (GComp (map mod_manifold l)) -> exists gs, g = GComp gs /\ map skel gs = map skel (map mod_manifold l).
Proof. destruct g as [| | | | |gs]; intros E; try discriminate E. cbn [skel] in E. injection E as E. eauto. Qed.
Lemma comp_split g' : skel g' = skel g0' -> exists gs ps, g' = GComp (gs ++ ps) /\ skel (GComp gs) = skel g0 /\ skel (GComp ps) = skel ge /\ length gs = length ms.
Proof.
  intros E. destruct (comp_skel g' (ms ++ es) E) as (hs & -> & KH). rewrite map_app in KH. destruct (skel_split hs _ _ KH) as (gs & ps & -> & A & B). exists gs, ps.
  split; [reflexivity|]. cbn [mod_manifold skel]. rewrite A, B. split; [reflexivity|]. split; [reflexivity|]. rewrite <- (map_length skel), A, !map_length. reflexivity.
Qed.

Lemma start_rides : rides N K shs (phase g0) (phase g0').
Proof.
  split; [reflexivity|]. cbn [mod_manifold]. rewrite map_app. destruct (phase_parts (map mod_manifold ms) (map mod_manifold es) eq_refl eq_refl) as (A & B). cbn [mod_manifold] in A, B. rewrite A. split; [apply leq_refl'|].
  apply B. pose proof PE as PZ. clear - PZ. induction PZ as [|e es (g & -> & _ & _ & Z) _ IH]; cbn [map]; constructor; assumption.
Qed.

Lemma rides_aboard g g' : skel g = skel g0 -> skel g' = skel g0' -> rides N K shs (phase g) (phase g') -> aboard es g g'.
Proof.
  intros KG KG' (_ & E & Z). destruct (comp_split g' KG') as (gs' & ps & -> & K1 & K2 & _). destruct (comp_skel g ms KG) as (gs & -> & KS).
  destruct (phase_parts gs' ps K1 K2) as (A & B). rewrite A in E. apply B in Z. exists gs, gs', ps. split; [reflexivity|]. split; [reflexivity|]. split; [|split; [|exact Z]].
  - assert (K3 : map skel gs' = map skel gs) by (rewrite KS; cbn [mod_manifold skel] in K1; injection K1 as K1; exact K1).
    assert (LN : map g_len gs = map g_len gs').
    { clear - K3. revert gs K3. induction gs' as [|x l IH]; intros [|y r] X; try discriminate X; [reflexivity|]. cbn in *. injection X as X1 X2. rewrite (IH r X2), (skel_len x y X1). reflexivity. }
    assert (L1 : map (@length tensor) (map g_gd gs) = map (@length tensor) (map g_gd gs')) by (rewrite !map_map, !(map_ext _ _ g_gd_len); exact LN).
    assert (L2 : map (@length tensor) (map g_cotan gs) = map (@length tensor) (map g_cotan gs')) by (rewrite !map_map, !(map_ext _ _ g_cotan_len); exact LN).
    unfold phase in E. cbn [g_gd g_cotan] in E. rewrite !flat_map_concat_map in E.
    apply halves in E; [|apply len_concat; exact L1]. destruct E as (E1 & E2). apply (concat_forall2 _ _ _ L1) in E1. apply (concat_forall2 _ _ _ L2) in E2.
    clear - K3 E1 E2. revert gs K3 E1 E2. induction gs' as [|x l IH]; intros [|y r] X E1 E2; try discriminate X; [constructor|].
    cbn [map] in X, E1, E2. injection X as X1 X2. inversion E1; subst. inversion E2; subst. constructor; [|apply IH; assumption]. split; (split; [assumption|apply leq_sym; assumption]).
  - cbn [skel] in K2. injection K2 as K2. rewrite K2, map_map. reflexivity.
Qed.

(** Written to the modules: those of the modules alone, then passengers. *)
Lemma split_write x' n : map shape x' = shs -> still N K x' -> write_manifold m' x' = Ok n ->
  exists ms1 es1, n = MComp (ms1 ++ es1) /\ write_manifold m (pick Q x') = Ok (MComp ms1) /\ Forall (passenger d) es1 /\ wf_mod d n /\ wf_mod d (MComp ms1) /\ length ms1 = length ms /\
    (forall c, ctrl_ok d (MComp ms1) c <-> ctrl_ok d m c) /\ (forall c, ctrl_ok d n c <-> ctrl_ok d m' c).
Proof.
  intros SX Z E. destruct (fill_state d m' board_wf board_smooth x' n SX E) as (g' & Pg & Kg & Sg & Mg & Wn).
  destruct (comp_split g' Kg) as (gs & ps & -> & K1 & K2 & LG). destruct (phase_parts gs ps K1 K2) as (A & B). rewrite Pg in A, B. apply B in Z.
  pose proof Sg as Sg0. rewrite set_comp, sets_app in Sg by (symmetry; exact LG). bok Sg r Er. bok Er ms1 EA. bok Er es1 EB. injection Er as <-. injection Sg as <-.
  exists ms1, es1. split; [reflexivity|]. rewrite A, (write_phase m (GComp gs) K1), set_comp, EA. split; [reflexivity|].
  pose proof (sets_silent d es PE ps es1 EB) as ES. pose proof (sets_len ms gs ms1 EA) as L1. destruct Wn as (NE & WF). pose proof WF as WF0. apply fold_and in WF. apply Forall_app in WF. destruct WF as (W1 & W2).
  split; [|split; [split; assumption|split; [split; [destruct W as (NM & _); intros ->; apply NM, length_zero_iff_nil; symmetry; exact L1|apply fold_and; exact W1]|split; [exact L1|]]]].
  - subst es1. clear - W2 Z. induction ps as [|p ps IH]; [constructor|]. cbn [map] in *. pose proof (Forall_inv W2) as (A & B). pose proof (Forall_inv_tail W2) as C. pose proof (Forall_inv Z) as Z1. pose proof (Forall_inv_tail Z) as Z2. constructor; [exists p; auto|apply IH; assumption].
  - split; intros c; [|exact (ctrl_set d m' _ _ c Sg0)]. refine (ctrl_set d m (GComp gs) (MComp ms1) c _). rewrite set_comp, EA. reflexivity.
Qed.

(** Modules that differ by passengers, controlled alike. *)
Definition control (o : option ctrl) (n : dmod) : res dmod := match o with None => geodesic_controls sv b0 n | Some c => fill_controls sv n c end.
Lemma value_differ ms1 e1 e2 o1 o2 n1 n2 : wf_mod d (MComp (ms1 ++ e1)) -> wf_mod d (MComp (ms1 ++ e2)) -> Forall (passenger d) e1 -> Forall (passenger d) e2 ->
  match o1, o2 with
  | None, None => True
  | Some c1, Some c2 => ctrl_ok d (MComp (ms1 ++ e1)) c1 /\ ctrl_ok d (MComp (ms1 ++ e2)) c2 /\ exists k a b, length k = length ms1 /\ c1 = CList (k ++ a) /\ c2 = CList (k ++ b)
  | _, _ => False
  end ->
  control o1 (MComp (ms1 ++ e1)) = Ok n1 -> control o2 (MComp (ms1 ++ e2)) = Ok n2 -> hamiltonian n2 = hamiltonian n1.
Proof.
  intros W1 W2 P1 P2 OO C1 C2.
  assert (LV : forall e, Forall (passenger d) e -> leaves (MComp (ms1 ++ e)) = flat_map leaves ms1 ++ e).
  { intros e P. cbn [leaves]. rewrite flat_map_app. f_equal. apply flat_silent. revert P. apply Forall_impl. intros x (g & -> & _). eauto. }
  destruct o1 as [c1|], o2 as [c2|]; try contradiction OO.
  - destruct OO as (O1 & O2 & k & a & b & L & -> & ->). cbn [control] in C1, C2.
    assert (LK : length (cpieces (MComp ms1) (CList k)) = length (flat_map leaves ms1)).
    { assert (Z : ctrl_ok d (MComp ms1) (CList k)). { clear - O1 L. change (ctrls_ok d (ms1 ++ e1) (k ++ a)) in O1. change (ctrls_ok d ms1 k). revert k L O1. induction ms1 as [|x l IH]; intros [|y k] L O; try discriminate L; [exact Logic.I|]. cbn [app ctrls_ok] in *. split; [apply O|apply IH; [injection L; auto|apply O]]. }
      symmetry. exact (F2len (ctrl_leaves d _ _ Z)). }
    destruct (fill_differ sv d _ _ _ _ n1 n2 _ e1 e2 _ _ _ (LV e1 P1) (LV e2 P2) P1 P2 O1 O2 (cpieces_app ms1 e1 k a L) (cpieces_app ms1 e2 k b L) LK C1 C2) as (ls1 & A & B).
    pose proof (gain_differ sv d HS _ _ _ _ n1 n2 W1 W2 O1 O2 C1 C2 (ex_intro _ ls1 (ex_intro _ e1 (ex_intro _ e2 (conj A (conj B (conj P1 P2))))))) as G.
    rewrite !ham_gain_own, (fill_manifold sv _ _ n1 C1), (fill_manifold sv _ _ n2 C2). exact G.
  - destruct (geodesic_differ sv d HS b0 _ _ n1 n2 W1 W2 (ex_intro _ _ (ex_intro _ e1 (ex_intro _ e2 (conj (LV e1 P1) (conj (LV e2 P2) (conj P1 P2)))))) C1 C2) as (x & A & B & _). congruence.
Qed.

Lemma value_rides i x x' v v' : rides N K shs x x' -> ham_of m (step_controls sv b0 cs i) x = Ok v -> ham_of m' (step_controls sv b0 cs' i) x' = Ok v' -> v' = v.
Proof.
  intros (SX & E & Z) X X'.
  assert (SL : map shape x = map shape (phase g0)). { rewrite (leq_shape _ _ E), pick_shape, SX, <- pick_shape. destruct start_rides as (_ & E0 & _). symmetry. exact (leq_shape _ _ E0). }
  assert (Y : ham_of m (step_controls sv b0 cs i) (pick Q x') = Ok v).
  { apply (along_leq _ x); [|exact X|apply leq_sym; exact E]. exact (along_step sv b0 d HS m cs i W LS CO x v SL X). }
  unfold ham_of in Y, X'. bok Y m1 Ew. bok Y m2 Ex. bok X' m1' Ew'. bok X' m2' Ex'.
  destruct (split_write x' m1' SX Z Ew') as (ms1 & es1 & -> & E1 & P1 & W1' & W1 & L1 & C1 & C1'). rewrite Ew in E1. injection E1 as ->.
  assert (HH : hamiltonian m2' = hamiltonian m2); [|congruence].
  unfold step_controls in Ex, Ex'. destruct cs as [k|], cs' as [k'|]; try contradiction CS.
  - destruct (nth_error k i) as [c|] eqn:Ek; [|discriminate Ex]. destruct (nth_error k' i) as [c'|] eqn:Ek'; [|discriminate Ex'].
    assert (DA : cboarded c c'). { clear - CS Ek Ek'. pose proof CS as ZZ. clear CS. revert i Ek Ek'. induction ZZ as [|a b r r' A _ IH]; intros [|i] Ek Ek'; try discriminate Ek; cbn in Ek, Ek'; [congruence|apply (IH i); assumption]. }
    pose proof (proj2 (C1 c) (CO k c eq_refl (nth_error_In _ _ Ek))) as O. pose proof (proj2 (C1' c') (CO' k' c' eq_refl (nth_error_In _ _ Ek'))) as O'.
    destruct DA as (ck & ce & -> & ->). assert (LC : length ck = length ms1) by exact (ctrls_ok_length d ms1 ck O).
    apply (value_differ ms1 [] es1 (Some (CList ck)) (Some (CList (ck ++ ce)))); rewrite ?app_nil_r; try assumption; try constructor; [exact O|]. split; [exact O'|]. exists ck, [], ce. rewrite app_nil_r. auto.
  - apply (value_differ ms1 [] es1 None None); rewrite ?app_nil_r; try assumption; constructor.
Qed.

Lemma value_rides' i (x x' x'' : list tensor) v' v'' : rides N K shs x x' -> rides N K shs x x'' -> pick Q x'' = pick Q x' ->
  ham_of m' (step_controls sv b0 cs' i) x' = Ok v' -> ham_of m' (step_controls sv b0 cs' i) x'' = Ok v'' -> v'' = v'.
Proof.
  intros (SX & _ & Z) (SY & _ & ZY) EQ X Y. unfold ham_of in X, Y. bok X m1 Ew. bok X m2 Ex. bok Y m1' Ew'. bok Y m2' Ex'.
  destruct (split_write x' m1 SX Z Ew) as (ms1 & es1 & -> & E1 & P1 & W1' & W1 & L1 & C1 & C1'). destruct (split_write x'' m1' SY ZY Ew') as (ms2 & es2 & -> & E2 & P2 & W2' & W2 & L2 & C2 & C2').
  rewrite EQ, E1 in E2. injection E2 as <-.
  assert (HH : hamiltonian m2' = hamiltonian m2); [|congruence].
  unfold step_controls in Ex, Ex'. destruct cs as [k|], cs' as [k'|]; try contradiction CS.
  - destruct (nth_error k' i) as [c'|] eqn:Ek'; [|discriminate Ex'].
    assert (DA : exists c, In c k /\ cboarded c c'). { clear - CS Ek'. pose proof CS as ZZ. clear CS. revert i Ek'. induction ZZ as [|a b r r' A _ IH]; intros [|i] Ek'; try discriminate Ek'; cbn in Ek'; [injection Ek' as <-; exists a; split; [left; reflexivity|exact A]|]. destruct (IH i Ek') as (c & I & B). exists c. split; [right; exact I|exact B]. }
    destruct DA as (c & IC & ck & ce & -> & ->). pose proof (proj2 (C1 _) (CO k _ eq_refl IC)) as O. assert (LC : length ck = length ms1) by exact (ctrls_ok_length d ms1 ck O).
    pose proof (CO' k' _ eq_refl (nth_error_In _ _ Ek')) as OK.
    apply (value_differ ms1 es1 es2 (Some (CList (ck ++ ce))) (Some (CList (ck ++ ce)))); try assumption. split; [apply C1'; exact OK|]. split; [apply C2'; exact OK|]. exists ck, ce, ce. auto.
  - apply (value_differ ms1 es1 es2 None None); try assumption; constructor.
Qed.

Lemma cost_rides l l' n n' x x' : cs = None -> cs' = None -> rides N K shs l l' -> at_state m (geodesic_controls sv b0) l = Ok n -> at_state m' (geodesic_controls sv b0) l' = Ok n' ->
  cost n = Ok x -> cost n' = Ok x' -> x' = x.
Proof.
  intros N1 N2 RI A A' C C'. pose proof RI as (SX & E & _).
  assert (SL : map shape l = map shape (phase g0)). { rewrite (leq_shape _ _ E), pick_shape, SX, <- pick_shape. destruct start_rides as (_ & E0 & _). symmetry. exact (leq_shape _ _ E0). }
  unfold at_state in A, A'. bok A m1 Ew. bok A' m1' Ew'. destruct (fill_state d m W LS l m1 SL Ew) as (_ & _ & _ & _ & _ & W1). destruct (fill_state d m' board_wf board_smooth l' m1' SX Ew') as (_ & _ & _ & _ & _ & W1').
  destruct (hamiltonian_cost sv b0 d HS m1 n W1 A) as (y & C1 & H1 & _). destruct (hamiltonian_cost sv b0 d HS m1' n' W1' A') as (y' & C1' & H1' & _).
  rewrite C in C1. injection C1 as <-. rewrite C' in C1'. injection C1' as <-. apply (value_rides 0 l l' x x' RI); unfold ham_of; [rewrite Ew, N1|rewrite Ew', N2]; cbn [bind step_controls]; [rewrite A|rewrite A']; assumption.
Qed.

Lemma run_rides sch dt states stages states' stages' l0 l0' :
  trajectory sch (fun n => hamilton (ham_of m (step_controls sv b0 cs n))) dt states stages ->
  trajectory sch (fun n => hamilton (ham_of m' (step_controls sv b0 cs' n))) dt states' stages' -> length stages' = length stages ->
  nth_error states 0 = Some l0 -> nth_error states' 0 = Some l0' -> rides N K shs l0 l0' ->
  forall i l l', nth_error states i = Some l -> nth_error states' i = Some l' ->
    rides N K shs l l' /\ forall ss ss', nth_error stages i = Some ss -> nth_error stages' i = Some ss' -> Forall2 (rides N K shs) ss ss'.
Proof.
  intros H H' LL E0 E0' R0. eapply trajectory_related; [apply rides_leq|apply rides_scal|apply rides_add| |exact H|exact H'|exact LL|exact E0|exact E0'|exact R0].
  intros j l l' k k' RI HK HK'. eapply (hamilton_rides N K shs _ _ board_len); [| |exact RI|exact HK|exact HK'].
  - intros x x' v v'. apply value_rides.
  - intros x x' x'' v' v''. apply value_rides'.
Qed.
End Modules.
