(** Property theorem about the number of steps of shoot(): convergence to the exact motion
    (C90). *)
From Coq Require Import Reals String List Arith Lia Lra Psatz.
From Coquelicot Require Import Coquelicot.
From Verif Require Import Py RSum Tensor TensorFacts KernelModel FieldModel GeometryModel ModuleModel ShootingModel
  SpecField SpecGeometry SpecModule SpecShooting SpecMotion SpecTransport SpecSmooth ModuleLeaves ModuleMain ShootingPack ShootingDyn ShootingEuler PropShooting MotionFacts MotionShoot MotionMomentum
  TransportFacts SpecRigid RigidShoot SolverExists MotionExample SmoothRun PropRigid PropSmooth SpecEnergy EnergyFacts PropEnergy SpecConverge ConvergeFacts.
Import ListNotations.
Open Scope R_scope.

(** The common part: any of the schemes, with steps of length T / it. *)
Lemma fine_steps H c u v T rho L : 0 < T -> u < 0 -> T < v -> solution H c u v -> tame H c T rho L ->
  exists N C, 0 <= C /\ forall sch it states stages, (0 < it)%nat -> (N <= it)%nat -> length stages = it ->
    trajectory sch (fun _ => hamilton H) (T / INR it) states stages -> (forall l, nth_error states 0 = Some l -> leq l (c 0)) ->
    forall n l, nth_error states n = Some l -> near (C / INR it) (c (T * INR n / INR it)) l.
Proof.
  intros HT U V (SC & SO) (R0 & L0 & LIP).
  destruct (first_order_error (map shape (c 0)) (hamilton H) c T rho L) as (A & h0 & PA & PH & ERR); try assumption.
  - intros l k HK. exact (proj1 HK).
  - intros t. apply SC.
  - intros t Ht. destruct (SO t ltac:(lra)) as (_ & k & HK & D). exists k. split; [exact HK|]. intros i s idx N VI. rewrite (SC 0 t), nth_error_map in N.
    destruct (nth_error (c t) i) as [x|] eqn:E; [|discriminate N]. cbn in N. injection N as <-. exact (D i x idx E VI).
  - destruct (archimed_cor1 (h0 / T)) as (N & HN & NP); [apply Rdiv_lt_0_compat; lra|]. exists N, (A * T). split; [apply Rmult_le_pos; lra|].
    intros sch it states stages IT NI LS TR S0 n l El. assert (PI : 0 < INR it) by (apply lt_0_INR; exact IT). assert (PN : 0 < INR N) by (apply lt_0_INR; exact NP).
    replace (A * T / INR it) with (A * (T / INR it)) by (field; lra). replace (T * INR n / INR it) with (INR n * (T / INR it)) by (field; lra).
    apply (ERR sch (T / INR it) states stages); try assumption.
    + split; [apply Rlt_le, Rdiv_lt_0_compat; lra|]. apply Rle_trans with (T / INR N).
      * unfold Rdiv. apply Rmult_le_compat_l; [lra|]. apply Rinv_le_contravar; [exact PN|apply le_INR; exact NI].
      * apply Rlt_le. apply (Rmult_lt_compat_l T) in HN; [|exact HT]. replace (T * (h0 / T)) with h0 in HN by (field; lra). exact HN.
    + rewrite LS. right. field. lra.
Qed.

(** With the integrator torch_euler and the exact solution of the geodesic equations that
    starts where the module is: from some number of steps on, the error at the final state
    and at every kept state is at most C / it. *)
Theorem C90_torch_euler : forall sv b0 d m c u v rho L,
  wf_mod d m -> u < 0 -> 1 < v -> solution (ham_of m (geodesic_controls sv b0)) c u v ->
  leq (phase (mod_manifold m)) (c 0) -> tame (ham_of m (geodesic_controls sv b0)) c 1 rho L ->
  exists N C, 0 <= C /\ forall ck others ag it t1 keep costs0 sh, exact_grad ag -> (N <= it)%nat ->
    shoot ck others sv b0 ag "torch_euler" it t1 None keep costs0 m = Ok sh ->
    near (C / INR it) (c 1) (phase (mod_manifold (sh_mod sh))) /\
    forall i n g, sh_inter sh = Some i -> nth_error (in_states i) n = Some g -> near (C / INR it) (c (INR n / INR it)) (phase g).
Proof.
  intros sv b0 d m c u v rho L W U V SO S0 TM. destruct (wf_mod_manifold d m W) as (WG & _).
  destruct (fine_steps _ c u v 1 rho L ltac:(lra) U V SO TM) as (N & C & PC & ERR). exists N, C. split; [exact PC|].
  intros ck others ag it t1 keep costs0 sh EX NI E.
  destruct (C25_torch_euler_steps ck others sv b0 ag it t1 None keep costs0 m sh EX (wf_shapes d _ WG) E) as (IT & states & mods & LS & LM & E0 & E1 & T & AT & K & _ & KE).
  assert (PI : INR it <> 0) by (apply not_0_INR; lia).
  assert (ALL : forall n g, nth_error states n = Some g -> near (C / INR it) (c (INR n / INR it)) (phase g)).
  { intros n g Eg. rewrite <- (Rmult_1_l (INR n)). apply (ERR SEuler it (map phase states) _ IT NI) with (2 := T).
    - rewrite map_length, firstn_length_le; [reflexivity|lia].
    - intros l El. rewrite nth_error_map, E0 in El. injection El as <-. exact S0.
    - rewrite nth_error_map, Eg. reflexivity. }
  split; [replace 1 with (INR it / INR it) by (field; exact PI); exact (ALL it _ E1)|].
  intros i n g Ei Eg. destruct keep; [|congruence]. destruct KE as (ks & _ & KE). rewrite KE in Ei. injection Ei as <-. exact (ALL n g Eg).
Qed.
Print Assumptions C90_torch_euler.

(** With the fixed-step schemes, up to the time t1. *)
Theorem C90_fixed_step_schemes : forall sv b0 m c u v t1 rho L,
  shootable m -> 0 < t1 -> u < 0 -> t1 < v -> solution (ham_of m (geodesic_controls sv b0)) c u v ->
  leq (phase (mod_manifold m)) (c 0) -> tame (ham_of m (geodesic_controls sv b0)) c t1 rho L ->
  exists N C, 0 <= C /\ forall others ag sch it keep costs0 sh, exact_grad ag -> (0 < it)%nat -> (N <= it)%nat ->
    shoot real_clock others sv b0 ag (scheme_name sch) it t1 None keep costs0 m = Ok sh ->
    near (C / INR it) (c t1) (phase (mod_manifold (sh_mod sh))) /\
    forall i n g, sh_inter sh = Some i -> nth_error (in_states i) n = Some g -> near (C / INR it) (c (t1 * INR n / INR it)) (phase g).
Proof.
  intros sv b0 m c u v t1 rho L SH T1 U V SO S0 TM. destruct (fine_steps _ c u v t1 rho L T1 U V SO TM) as (N & C & PC & ERR). exists N, C. split; [exact PC|].
  intros others ag sch it keep costs0 sh EX IT NI E.
  destruct (C25_fixed_step_schemes others sv b0 ag sch it t1 keep costs0 m sh EX SH T1 IT E) as (states & stages & mods & LS & LG & _ & T & (g0 & E0 & SV) & E1 & _ & KE).
  assert (PI : INR it <> 0) by (apply not_0_INR; lia).
  assert (ALL : forall n g, nth_error states n = Some g -> near (C / INR it) (c (t1 * INR n / INR it)) (phase g)).
  { intros n g Eg. apply (ERR sch it (map phase states) stages IT NI LG T).
    - intros l El. rewrite nth_error_map, E0 in El. injection El as <-. apply leq_trans' with (phase (mod_manifold m)); [apply values_phase; exact SV|exact S0].
    - rewrite nth_error_map, Eg. reflexivity. }
  split; [replace t1 with (t1 * INR it / INR it) at 1 by (field; exact PI); exact (ALL it _ E1)|].
  intros i n g Ei Eg. destruct keep; [|congruence]. destruct KE as (ks & _ & KE). rewrite KE in Ei. injection Ei as <-. exact (ALL n g Eg).
Qed.
Print Assumptions C90_fixed_step_schemes.

(** ** An example: the scaling of PropEnergy.v, where a point at (e^t, 0) moves *)

Lemma prod_diff x y x' y' X Y a b : Rabs x <= X -> Rabs y' <= Y -> Rabs (x - x') <= a -> Rabs (y - y') <= b -> 0 <= a -> 0 <= b -> Rabs (x * y - x' * y') <= X * b + Y * a.
Proof.
  intros HX HY HA HB PA PB. replace (x * y - x' * y') with (x * (y - y') + (x - x') * y') by ring. eapply Rle_trans; [apply Rabs_triang|]. rewrite !Rabs_mult.
  assert (Rabs x * Rabs (y - y') <= X * b) by (apply Rmult_le_compat; try apply Rabs_pos; assumption). assert (Rabs (x - x') * Rabs y' <= a * Y) by (apply Rmult_le_compat; try apply Rabs_pos; assumption). lra.
Qed.
Lemma sum_diff x y x' y' a b : Rabs (x - x') <= a -> Rabs (y - y') <= b -> Rabs (x + y - (x' + y')) <= a + b.
Proof. intros A B. replace (x + y - (x' + y')) with ((x - x') + (y - y')) by ring. eapply Rle_trans; [apply Rabs_triang|lra]. Qed.
Lemma minus_diff x y x' y' a b : Rabs (x - x') <= a -> Rabs (y - y') <= b -> Rabs (x - y - (x' - y')) <= a + b.
Proof. intros A B. replace (x - y - (x' - y')) with ((x - x') + - (y - y')) by ring. eapply Rle_trans; [apply Rabs_triang|rewrite Rabs_Ropp; lra]. Qed.

Lemma reach_diff a0 a1 p0 p1 a0' a1' p0' p1' e : 0 <= e ->
  Rabs a0 <= 8 -> Rabs a1 <= 8 -> Rabs p0' <= 4 -> Rabs p1' <= 4 -> Rabs (a0 - a0') <= 2 * e -> Rabs (a1 - a1') <= 2 * e -> Rabs (p0 - p0') <= e -> Rabs (p1 - p1') <= e ->
  Rabs ((a0 * p0 + a1 * p1) - (a0' * p0' + a1' * p1')) <= 32 * e.
Proof.
  intros E A0 A1 P0 P1 D0 D1 G0 G1. replace (32 * e) with ((8 * e + 4 * (2 * e)) + (8 * e + 4 * (2 * e))) by ring. apply sum_diff; apply prod_diff; lra.
Qed.

(** A list of four tensors of shape (1, 2), by its eight numbers. *)
Lemma four l : map shape l = [row; row; row; row] -> exists q c p r, l = [q; c; p; r] /\ shape q = row /\ shape c = row /\ shape p = row /\ shape r = row.
Proof.
  destruct l as [|q [|c [|p [|r [|]]]]]; try discriminate. cbn. intros E. injection E as E1 E2 E3 E4. exists q, c, p, r. auto.
Qed.
Lemma spin_entry l i j : map shape l = [row; row; row; row] -> (i < 4)%nat -> (j < 2)%nat -> exists s, nth_error (map shape l) i = Some s /\ valid s [0%nat; j].
Proof. intros S I J. rewrite S. exists row. split; [destruct i as [|[|[|[|i]]]]; [reflexivity..|lia]|cbn; lia]. Qed.

Lemma spin_tame sv b0 : tame (ham_of spin0 (geodesic_controls sv b0)) (fun t => phase (spin_path t)) 1 1 384.
Proof.
  split; [lra|]. split; [lra|]. intros t l l' k k' e T N N' HK HK' NE.
  assert (SC : map shape (phase (spin_path t)) = [row; row; row; row]) by reflexivity.
  assert (SL : map shape l = [row; row; row; row]) by (rewrite <- (proj1 N); exact SC). assert (SL' : map shape l' = [row; row; row; row]) by (rewrite <- (proj1 N'); exact SC).
  assert (B : forall i j, (i < 4)%nat -> (j < 2)%nat -> Rabs (entry (phase (spin_path t)) i [0%nat; j]) <= 3).
  { assert (E1 : 0 < exp t <= 3). { split; [apply exp_pos|]. apply Rle_trans with (exp 1); [|apply exp_le_3]. destruct (Rle_lt_or_eq_dec t 1 ltac:(lra)) as [X| ->]; [left; apply exp_increasing; exact X|right; reflexivity]. }
    assert (E2 : 0 < exp (- t) <= 1). { split; [apply exp_pos|]. rewrite <- exp_0. destruct (Rle_lt_or_eq_dec (- t) 0 ltac:(lra)) as [X| ->]; [left; apply exp_increasing; exact X|right; reflexivity]. }
    intros i j I J. apply Rabs_le. destruct i as [|[|[|[|i]]]]; [| | | |lia]; destruct j as [|[|j]]; try lia; unfold entry; cbn; lra. }
  assert (BL : forall x, near 1 (phase (spin_path t)) x -> forall i j, (i < 4)%nat -> (j < 2)%nat -> Rabs (entry x i [0%nat; j]) <= 4).
  { intros x (_ & NX) i j I J. destruct (spin_entry _ i j SC I J) as (s & E & V). pose proof (NX i s _ E V) as X. pose proof (B i j I J) as Y. set (a := entry (phase (spin_path t)) i [0%nat; j]) in *.
    replace (entry x i [0%nat; j]) with (a + - (a - entry x i [0%nat; j])) by ring. eapply Rle_trans; [apply Rabs_triang|]. rewrite Rabs_Ropp. lra. }
  pose proof (BL l N) as BX. pose proof (BL l' N') as BX'. clear BL B.
  assert (D : forall i j, (i < 4)%nat -> (j < 2)%nat -> Rabs (entry l i [0%nat; j] - entry l' i [0%nat; j]) <= e).
  { intros i j I J. destruct (spin_entry _ i j SL I J) as (s & E & V). exact (proj2 NE i s _ E V). }
  destruct (four l SL) as (q & c & p & r & -> & Sq & Sc & Sp & Sr). destruct (four l' SL') as (q' & c' & p' & r' & -> & Sq' & Sc' & Sp' & Sr').
  pose proof (hamilton_unique _ _ _ _ HK (spin_field sv b0 _ _ _ _ _ q c p r Sq Sc Sp Sr)) as QK. pose proof (hamilton_unique _ _ _ _ HK' (spin_field sv b0 _ _ _ _ _ q' c' p' r' Sq' Sc' Sp' Sr')) as QK'.
  assert (SK : map shape k = [row; row; row; row]) by (rewrite (leq_shape _ _ QK); reflexivity). assert (SK' : map shape k' = [row; row; row; row]) by (rewrite (leq_shape _ _ QK'); reflexivity).
  split; [congruence|]. intros i s idx E V. rewrite SK in E.
  rewrite (leq_entry _ _ i s idx QK E V), (leq_entry _ _ i s idx QK' E V).
  assert (PE : 0 <= e) by (eapply Rle_trans; [apply Rabs_pos|apply (D 0%nat 0%nat); lia]).
  pose proof (D 0%nat 0%nat ltac:(lia) ltac:(lia)) as D00. pose proof (D 0%nat 1%nat ltac:(lia) ltac:(lia)) as D01. pose proof (D 1%nat 0%nat ltac:(lia) ltac:(lia)) as D10. pose proof (D 1%nat 1%nat ltac:(lia) ltac:(lia)) as D11.
  pose proof (D 2%nat 0%nat ltac:(lia) ltac:(lia)) as D20. pose proof (D 2%nat 1%nat ltac:(lia) ltac:(lia)) as D21.
  pose proof (BX 0%nat 0%nat ltac:(lia) ltac:(lia)) as X00. pose proof (BX 0%nat 1%nat ltac:(lia) ltac:(lia)) as X01. pose proof (BX 1%nat 0%nat ltac:(lia) ltac:(lia)) as X10. pose proof (BX 1%nat 1%nat ltac:(lia) ltac:(lia)) as X11.
  pose proof (BX 2%nat 0%nat ltac:(lia) ltac:(lia)) as X20. pose proof (BX 2%nat 1%nat ltac:(lia) ltac:(lia)) as X21.
  pose proof (BX' 0%nat 0%nat ltac:(lia) ltac:(lia)) as Y00. pose proof (BX' 0%nat 1%nat ltac:(lia) ltac:(lia)) as Y01. pose proof (BX' 1%nat 0%nat ltac:(lia) ltac:(lia)) as Y10. pose proof (BX' 1%nat 1%nat ltac:(lia) ltac:(lia)) as Y11.
  pose proof (BX' 2%nat 0%nat ltac:(lia) ltac:(lia)) as Y20. pose proof (BX' 2%nat 1%nat ltac:(lia) ltac:(lia)) as Y21.
  unfold entry in D00, D01, D10, D11, D20, D21, X00, X01, X10, X11, X20, X21, Y00, Y01, Y10, Y11, Y20, Y21. cbn [nth_error] in D00, D01, D10, D11, D20, D21, X00, X01, X10, X11, X20, X21, Y00, Y01, Y10, Y11, Y20, Y21.
  clear D BX BX' N N' NE HK HK' QK QK' SK SK' SL SL' SC.
  assert (W : forall x y, Rabs x <= 4 -> Rabs y <= 4 -> Rabs (x - y) <= 8) by (intros x y HX HY; replace (x - y) with (x + - y) by ring; eapply Rle_trans; [apply Rabs_triang|rewrite Rabs_Ropp; lra]).
  assert (W2 : forall x y, Rabs x <= 8 -> Rabs y <= 4 -> Rabs (x * y) <= 32) by (intros x y HX HY; rewrite Rabs_mult; pose proof (Rabs_pos x); pose proof (Rabs_pos y); nra).
  assert (RD : Rabs (reach q c p - reach q' c' p') <= 32 * e) by (unfold reach; apply reach_diff; try assumption; try (apply W; assumption); replace (2 * e) with (e + e) by ring; apply minus_diff; assumption).
  assert (RB : Rabs (reach q c p) <= 64) by (unfold reach; eapply Rle_trans; [apply Rabs_triang|]; replace 64 with (32 + 32) by ring; apply Rplus_le_compat; apply W2; try assumption; apply W; assumption).
  set (g := reach q c p) in *. set (g' := reach q' c' p') in *.
  assert (KA : forall x y x' y', Rabs x' <= 4 -> Rabs y' <= 4 -> Rabs (x - x') <= e -> Rabs (y - y') <= e -> Rabs (g * (x - y) - g' * (x' - y')) <= 384 * e).
  { intros x y x' y' HX HY DX DY. replace (384 * e) with (64 * (e + e) + 8 * (32 * e)) by ring. apply prod_diff; try assumption; try lra; [apply W; assumption|apply minus_diff; assumption]. }
  assert (KP : forall x x', Rabs x' <= 4 -> Rabs (x - x') <= e -> Rabs (g * x - g' * x') <= 384 * e).
  { intros x x' HX DX. apply Rle_trans with (64 * e + 4 * (32 * e)); [apply prod_diff; try assumption; lra|lra]. }
  assert (KN : forall x x', Rabs x' <= 4 -> Rabs (x - x') <= e -> Rabs (- g * x - - g' * x') <= 384 * e).
  { intros x x' HX DX. replace (- g * x - - g' * x') with (- (g * x - g' * x')) by ring. rewrite Rabs_Ropp. apply KP; assumption. }
  assert (R : s = row /\ (i < 4)%nat) by (destruct i as [|[|[|[|i]]]]; cbn in E; [injection E as <-; split; [reflexivity|lia]..|destruct i; discriminate E]).
  destruct R as (-> & I). assert (R : exists a, idx = [0%nat; a] /\ (a = 0%nat \/ a = 1%nat)) by (unfold row in V; idx2 V; destruct V as (V1 & V2 & _); exists a; split; try lia; f_equal; lia).
  destruct R as (a & -> & R). unfold spin_velocity. fold g g'. destruct i as [|[|[|[|i]]]]; [| | | |lia]; destruct R as [-> | ->]; unfold entry; cbn [nth_error pt get];
    first [apply KA; assumption|apply KP; assumption|apply KN; assumption|rewrite Rminus_diag_eq by reflexivity; rewrite Rabs_R0; lra].
Qed.

Example C90_hypotheses : forall b0,
  wf_mod 2 spin0 /\ shootable spin0 /\ solution (ham_of spin0 (geodesic_controls exact_sv b0)) (fun t => phase (spin_path t)) (-1) 2 /\
  leq (phase (mod_manifold spin0)) (phase (spin_path 0)) /\ tame (ham_of spin0 (geodesic_controls exact_sv b0)) (fun t => phase (spin_path t)) 1 1 384 /\
  (forall it, (0 < it)%nat -> is_ok (shoot real_clock (fun _ => None) exact_sv b0 std_ag "torch_euler" it 1 None true None spin0)) /\
  (forall sch it, (0 < it)%nat -> is_ok (shoot real_clock (fun _ => None) exact_sv b0 std_ag (scheme_name sch) it 1 None true None spin0)).
Proof.
  intros b0. assert (W : wf_mod 2 spin0) by (apply spin_wf; reflexivity). assert (L : locals_smooth 2 spin0) by (cbn; tauto).
  assert (RG : everywhere (regular 2) spin0).
  { intros g m1 K _ E. destruct g as [| | | | |gs]; try discriminate K. cbn [spin0 spin mod_manifold map skel] in K. injection K as K. destruct gs as [|g0 [|g1 [|]]]; try discriminate K.
    cbn [map] in K. injection K as K0 K1. destruct g0; try discriminate K0. destruct g1; try discriminate K1. cbn in E. injection E as <-. cbn. tauto. }
  assert (SI : Forall simple (map mod_manifold [MSilent (GLm 2 1 (pt 1 0) (pt 1 1)); MLinear (mk2 2 2 delta) 1 (pt 0 0) (pt 0 0) (mk0 0)])) by repeat constructor.
  assert (SH : shootable spin0) by (eexists; split; [reflexivity|]; split; [exact SI|repeat constructor]).
  split; [exact W|]. split; [exact SH|]. split; [apply spin_solution|]. split; [|split; [apply spin_tame|split]].
  - cbn. rewrite Ropp_0, exp_0. replace (1 - 1) with 0 by ring. apply leq_refl'.
  - intros it IT. apply (C82_torch_euler real_clock (fun _ => None) exact_sv b0 std_ag it 1 None true None 2 spin0 std_exact std_differentiates exact_sv_exact W L RG);
      [intros _ _; cbn; tauto|discriminate|discriminate|exact IT|right; eexists; split; [reflexivity|exact SI]].
  - intros sch it IT. apply (C82_fixed_step_schemes (fun _ => None) exact_sv b0 std_ag sch it 1 true None 2 spin0 std_exact std_differentiates exact_sv_exact W L RG);
      [intros _; cbn; tauto|exact SH|cbn; lia|lra|exact IT].
Qed.
