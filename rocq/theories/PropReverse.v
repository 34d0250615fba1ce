(** Property theorems about negating the moments: the motion is retraced (C96). *)
From Coq Require Import Reals String List Arith Lia Lra Psatz.
From Coquelicot Require Import Coquelicot.
From Verif Require Import Py RSum Tensor TensorFacts KernelModel FieldModel GeometryModel ModuleModel ShootingModel
  SpecField SpecGeometry SpecModule SpecShooting SpecMotion SpecTransport SpecSmooth ModuleLeaves ModuleMain GeometryFacts ShootingPack ShootingDyn ShootingInst ShootingTotal ShootingEuler PropShooting MotionFacts MotionShoot MotionMomentum
  TransportFacts RegistrationShoot RegistrationRun SpecRigid RigidShoot SolverExists MotionExample SmoothRun PropRigid PropSmooth SpecEnergy EnergyFacts PropEnergy SpecConverge ConvergeFacts ReduceFacts PropConverge SpecReverse ReverseFacts ReverseShoot.
Import ListNotations.
Open Scope R_scope.

(** With opposite moments the geodesic controls are the opposite ones, the cost and the
    Hamiltonian are the same. *)
Theorem C96_controls : forall sv b0 d m mr m1, exact_solver sv -> wf_mod d m ->
  set_manifold m (reversed (mod_manifold m)) = Ok mr -> geodesic_controls sv b0 m = Ok m1 ->
  exists mr1 x, geodesic_controls sv b0 mr = Ok mr1 /\ ceq (controls mr1) (cscal (-1) (controls m1)) /\
    cost m1 = Ok x /\ cost mr1 = Ok x /\ hamiltonian m1 = Ok x /\ hamiltonian mr1 = Ok x.
Proof. intros sv b0 d m mr m1 HS. exact (reversed_controls sv b0 d HS m mr m1). Qed.
Print Assumptions C96_controls.

(** An exact motion read backwards with opposite moments is an exact motion. *)
Theorem C96_motion : forall sv b0 d m c a b T, exact_solver sv -> wf_mod d m -> locals_total d m ->
  (forall t, map shape (c t) = map shape (phase (mod_manifold m))) ->
  solution (ham_of m (geodesic_controls sv b0)) c a b ->
  solution (ham_of m (geodesic_controls sv b0)) (fun t => flip (c (T - t))) (T - b) (T - a).
Proof.
  intros sv b0 d m c a b T HS W LT SC SO. apply (solution_retrace _ c a b T); [|exact SO]. intros t. rewrite SC. apply (even_hamiltonian sv b0 d m HS W LT).
Qed.
Print Assumptions C96_motion.

(** ** Shooting there and back *)

Lemma steps_from H c u v T rho L C0 : 0 < T -> u < 0 -> T < v -> 0 <= C0 -> solution H c u v -> tame H c T rho L ->
  exists N C, 0 <= C /\ forall sch it states stages, (0 < it)%nat -> (N <= it)%nat -> length stages = it ->
    trajectory sch (fun _ => hamilton H) (T / INR it) states stages -> (forall l, nth_error states 0 = Some l -> near (C0 / INR it) (c 0) l) ->
    forall n l, nth_error states n = Some l -> near (C / INR it) (c (T * INR n / INR it)) l.
Proof.
  intros HT U V PC0 (SC & SO) (R0 & L0 & LIP).
  destruct (first_order_from (map shape (c 0)) (hamilton H) c T rho L (C0 / T)) as (A & h0 & PA & PH & ERR); try assumption.
  - intros l k HK. exact (proj1 HK).
  - intros t. apply SC.
  - intros t Ht. destruct (SO t ltac:(lra)) as (_ & k & HK & D). exists k. split; [exact HK|]. intros i s idx N VI. rewrite (SC 0 t), nth_error_map in N.
    destruct (nth_error (c t) i) as [x|] eqn:E; [|discriminate N]. cbn in N. injection N as <-. exact (D i x idx E VI).
  - apply Rmult_le_pos; [exact PC0|]. left. apply Rinv_0_lt_compat. exact HT.
  - destruct (archimed_cor1 (h0 / T)) as (N & HN & NP); [apply Rdiv_lt_0_compat; lra|]. exists N, (A * T). split; [apply Rmult_le_pos; lra|].
    intros sch it states stages IT NI LS TR S0 n l El. assert (PI : 0 < INR it) by (apply lt_0_INR; exact IT). assert (PN : 0 < INR N) by (apply lt_0_INR; exact NP).
    replace (A * T / INR it) with (A * (T / INR it)) by (field; lra). replace (T * INR n / INR it) with (INR n * (T / INR it)) by (field; lra).
    apply (ERR sch (T / INR it) states stages); try assumption.
    + split; [apply Rlt_le, Rdiv_lt_0_compat; lra|]. apply Rle_trans with (T / INR N).
      * unfold Rdiv. apply Rmult_le_compat_l; [lra|]. apply Rinv_le_contravar; [exact PN|apply le_INR; exact NI].
      * apply Rlt_le. apply (Rmult_lt_compat_l T) in HN; [|exact HT]. replace (T * (h0 / T)) with h0 in HN by (field; lra). exact HN.
    + rewrite LS. right. field. lra.
    + intros y Ey. replace (C0 / T * (T / INR it)) with (C0 / INR it) by (field; lra). exact (S0 y Ey).
Qed.

Lemma there_and_back H c u v T rho L : 0 < T -> u < 0 -> T < v -> (forall t, even_on H (map shape (c t))) -> solution H c u v -> tame H c T rho L ->
  exists N C, 0 <= C /\ forall sch sch' it states stages states' stages', (0 < it)%nat -> (N <= it)%nat -> length stages = it -> length stages' = it ->
    trajectory sch (fun _ => hamilton H) (T / INR it) states stages -> (forall l, nth_error states 0 = Some l -> leq l (c 0)) ->
    trajectory sch' (fun _ => hamilton H) (T / INR it) states' stages' -> (forall l l', nth_error states it = Some l -> nth_error states' 0 = Some l' -> leq l' (flip l)) ->
    forall n l l', (n <= it)%nat -> nth_error states (it - n) = Some l -> nth_error states' n = Some l' -> near (C / INR it) (flip l) l'.
Proof.
  intros HT U V EV SO TM. destruct (fine_steps H c u v T rho L HT U V SO TM) as (N1 & C1 & P1 & X1).
  destruct (steps_from H (retrace c T) (T - v) (T - u) T rho L C1 HT ltac:(lra) ltac:(lra) P1 (solution_retrace H c u v T EV SO) (tame_retrace H c T rho L EV TM)) as (N2 & C2 & P2 & X2).
  exists (Nat.max N1 N2), (C1 + C2). split; [lra|]. intros sch sch' it states stages states' stages' IT NI LS LS' TR S0 TR' S0' n l l' Hn El El'.
  assert (PI : 0 < INR it) by (apply lt_0_INR; exact IT).
  assert (EL : exists k, length (c 0) = (k + k)%nat). { destruct (proj2 SO 0 ltac:(lra)) as (_ & k & (_ & n0 & E & _) & _). exists n0. exact E. }
  destruct EL as (nn & EL). assert (ELt : forall t, length (c t) = (nn + nn)%nat) by (intros t; rewrite <- EL; apply shapes_len; apply (proj1 SO)).
  assert (FW : forall j y, nth_error states j = Some y -> near (C1 / INR it) (flip (c (T * INR j / INR it))) (flip y)).
  { intros j y Ey. apply near_flip with nn; [apply ELt|]. apply (X1 sch it states stages IT ltac:(lia) LS TR S0 j y Ey). }
  assert (BW : near (C2 / INR it) (retrace c T (T * INR n / INR it)) l').
  { apply (X2 sch' it states' stages' IT ltac:(lia) LS' TR'); [|exact El']. intros y Ey.
    destruct (nth_error states it) as [z|] eqn:Ez; [|apply nth_error_None in Ez; destruct TR as (Z & _); lia].
    apply near_leq with (flip z); [|exact (S0' z y eq_refl Ey)]. unfold retrace. rewrite Rminus_0_r. replace T with (T * INR it / INR it) at 1 by (field; lra). exact (FW it z Ez). }
  unfold retrace in BW. replace ((C1 + C2) / INR it) with (C1 / INR it + C2 / INR it) by (field; lra). apply near_trans with (flip (c (T * INR (it - n) / INR it))).
  - apply near_sym. exact (FW _ _ El).
  - replace (T * INR (it - n) / INR it) with (T - T * INR n / INR it); [exact BW|]. rewrite minus_INR by exact Hn. field. lra.
Qed.

(** Shoot, negate the moments, shoot again with the same number of steps: the descriptors
    come back to their starting values and the moments to the opposite of theirs, up to
    C / it; so do all the states in between, met in the opposite order. *)
Theorem C96_there_and_back_torch_euler : forall sv b0 d m c u v rho L,
  exact_solver sv -> wf_mod d m -> locals_total d m -> u < 0 -> 1 < v ->
  solution (ham_of m (geodesic_controls sv b0)) c u v -> leq (phase (mod_manifold m)) (c 0) -> tame (ham_of m (geodesic_controls sv b0)) c 1 rho L ->
  exists N C, 0 <= C /\ forall ck others ag it t1 t1' keep costs0 costs0' sh m' sh', exact_grad ag -> (N <= it)%nat ->
    shoot ck others sv b0 ag "torch_euler" it t1 None keep costs0 m = Ok sh ->
    set_manifold (sh_mod sh) (reversed (mod_manifold (sh_mod sh))) = Ok m' ->
    shoot ck others sv b0 ag "torch_euler" it t1' None keep costs0' m' = Ok sh' ->
    near (C / INR it) (phase (reversed (mod_manifold m))) (phase (mod_manifold (sh_mod sh'))) /\
    forall i i' n g g', sh_inter sh = Some i -> sh_inter sh' = Some i' -> (n <= it)%nat ->
      nth_error (in_states i) (it - n) = Some g -> nth_error (in_states i') n = Some g' -> near (C / INR it) (phase (reversed g)) (phase g').
Proof.
  intros sv b0 d m c u v rho L HS W LT U V SO S0 TM. destruct (wf_mod_manifold d m W) as (WG & _).
  assert (EV : forall t, even_on (ham_of m (geodesic_controls sv b0)) (map shape (c t))).
  { intros t. rewrite (proj1 SO t 0), <- (leq_shape _ _ S0). apply (even_hamiltonian sv b0 d m HS W LT). }
  destruct (there_and_back _ c u v 1 rho L ltac:(lra) U V EV SO TM) as (N & C & PC & ERR). exists N, C. split; [exact PC|].
  intros ck others ag it t1 t1' keep costs0 costs0' sh m' sh' EX NI E ES E'.
  destruct (C25_torch_euler_steps ck others sv b0 ag it t1 None keep costs0 m sh EX (wf_shapes d _ WG) E) as (IT & states & mods & LS & LM & E0 & E1 & T & AT & K & _ & KE).
  pose proof (shoot_skel _ _ _ _ _ _ _ _ _ _ _ _ _ E) as SK. pose proof (shoot_key ck others sv b0 ag t1 it None keep "torch_euler" costs0 m sh E) as FK. change (frozen (sh_mod sh) = frozen m) in FK.
  set (gf := mod_manifold (sh_mod sh)) in *. destruct (set_ok (sh_mod sh) (reversed gf) (rev_skel gf)) as (x & Ex & MM & FM & _). rewrite ES in Ex. injection Ex as <-.
  assert (SF : forall g, In g states -> map shape (phase g) = map shape (phase (mod_manifold m))).
  { intros g Ig. apply In_nth_error in Ig. destruct Ig as (j & Ej).
    apply (trajectory_shapes SEuler (ham_of m (geodesic_controls sv b0)) _ _ _ (phase (mod_manifold m)) T (map_nth_error phase 0 states E0) j (phase g)). exact (map_nth_error phase j states Ej). }
  assert (BAL : map shape (g_cotan (mod_manifold m')) = map shape (g_gd (mod_manifold m'))).
  { rewrite MM, rev_gd, rev_cotan, topp_shapes. pose proof (SF gf (nth_error_In _ _ E1)) as SS. unfold phase in SS. rewrite !map_app in SS.
    apply TransportFacts.app_inj_len in SS; [|rewrite !map_length, !g_gd_len; apply skel_len; exact SK]. destruct SS as (SS1 & SS2). rewrite SS1, SS2. exact (wf_shapes d _ WG). }
  destruct (C25_torch_euler_steps ck others sv b0 ag it t1' None keep costs0' m' sh' EX BAL E') as (_ & states' & mods' & LS' & LM' & E0' & E1' & T' & AT' & K' & _ & KE').
  assert (HM : forall l x, ham_of m' (geodesic_controls sv b0) l = Ok x -> ham_of m (geodesic_controls sv b0) l = Ok x).
  { intros l y. apply ham_any; [congruence|rewrite MM, rev_skel; symmetry; exact SK]. }
  assert (TT : trajectory SEuler (fun _ => hamilton (ham_of m (geodesic_controls sv b0))) (1 / INR it) (map phase states') (map (fun g => [phase g]) (firstn it states'))).
  { apply (trajectory_more SEuler (hamilton (ham_of m' (geodesic_controls sv b0)))); [|exact T']. intros l k. apply hamilton_more. exact HM. }
  assert (ALL : forall n g g', (n <= it)%nat -> nth_error states (it - n) = Some g -> nth_error states' n = Some g' -> near (C / INR it) (phase (reversed g)) (phase g')).
  { intros n g g' Hn Eg Eg'. rewrite flip_phase.
    refine (ERR SEuler SEuler it (map phase states) _ (map phase states') _ IT NI _ _ T _ TT _ n (phase g) (phase g') Hn _ _).
    - rewrite map_length, firstn_length_le; [reflexivity|lia].
    - rewrite map_length, firstn_length_le; [reflexivity|lia].
    - intros l El. rewrite nth_error_map, E0 in El. injection El as <-. exact S0.
    - intros l l' El El'. rewrite nth_error_map, E1 in El. injection El as <-. rewrite nth_error_map, E0' in El'. injection El' as <-. rewrite MM, flip_phase. apply leq_refl'.
    - rewrite nth_error_map, Eg. reflexivity.
    - rewrite nth_error_map, Eg'. reflexivity. }
  split; [apply (ALL it); [lia|rewrite Nat.sub_diag; exact E0|exact E1']|].
  intros i i' n g g' Ei Ei' Hn Eg Eg'. destruct keep; [|congruence]. destruct KE as (ks & _ & KE). rewrite KE in Ei. injection Ei as <-. destruct KE' as (ks' & _ & KE'). rewrite KE' in Ei'. injection Ei' as <-. exact (ALL n g g' Hn Eg Eg').
Qed.
Print Assumptions C96_there_and_back_torch_euler.

Lemma shaped_same g : forall g', skel g' = skel g -> map shape (g_gd g') = map shape (g_gd g) -> map shape (g_cotan g') = map shape (g_cotan g) -> shaped g -> shaped g'.
Proof.
  induction g as [g S|gs IH] using ShootingPack.gman_ind'; intros g' K G C SH.
  - assert (KS : g_shapes g' = g_shapes g) by (apply gshapes_skel; exact K).
    destruct g; try (elim S); destruct g'; try discriminate K; cbn [shaped] in *; rewrite ?KS, ?G, ?C; exact SH.
  - destruct g' as [| | | | |gs']; try discriminate K. cbn [shaped skel g_gd g_cotan] in *. injection K as K.
    revert gs' K G C SH. induction IH as [|g gs Hg _ IHs]; intros gs' K G C SH; destruct gs' as [|g' gs']; try discriminate K; [exact Logic.I|].
    cbn [map flat_map fold_right] in *. injection K as K1 K2. apply app_shapes in G; [|rewrite !g_gd_len; apply skel_len; exact K1].
    apply app_shapes in C; [|rewrite !g_cotan_len; apply skel_len; exact K1]. destruct SH as (SH1 & SH2). split; [apply Hg; tauto|apply IHs; tauto].
Qed.
Lemma shootable_same m m' : shootable m -> frozen m' = frozen m -> skel (mod_manifold m') = skel (mod_manifold m) ->
  map shape (phase (mod_manifold m')) = map shape (phase (mod_manifold m)) -> shootable m'.
Proof.
  intros (ms & -> & SI & SH) F K SS. destruct m' as [| | | | | | | | | |ms']; try discriminate F. exists ms'. split; [reflexivity|]. split.
  - cbn [mod_manifold skel] in K. injection K as K. apply (simple_skels (map mod_manifold ms)); [symmetry; exact K|exact SI].
  - unfold phase in SS. rewrite !map_app in SS. apply TransportFacts.app_inj_len in SS; [|rewrite !map_length, !g_gd_len; apply skel_len; exact K]. destruct SS. apply (shaped_same (mod_manifold (MComp ms))); assumption.
Qed.

(** The same with the fixed-step schemes, up to the time t1 and back. *)
Theorem C96_there_and_back_fixed_step : forall sv b0 d m c u v t1 rho L,
  exact_solver sv -> wf_mod d m -> locals_total d m -> shootable m -> 0 < t1 -> u < 0 -> t1 < v ->
  solution (ham_of m (geodesic_controls sv b0)) c u v -> leq (phase (mod_manifold m)) (c 0) -> tame (ham_of m (geodesic_controls sv b0)) c t1 rho L ->
  exists N C, 0 <= C /\ forall others ag sch it keep costs0 costs0' sh m' sh', exact_grad ag -> (0 < it)%nat -> (N <= it)%nat ->
    shoot real_clock others sv b0 ag (scheme_name sch) it t1 None keep costs0 m = Ok sh ->
    set_manifold (sh_mod sh) (reversed (mod_manifold (sh_mod sh))) = Ok m' ->
    shoot real_clock others sv b0 ag (scheme_name sch) it t1 None keep costs0' m' = Ok sh' ->
    near (C / INR it) (phase (reversed (mod_manifold m))) (phase (mod_manifold (sh_mod sh'))) /\
    forall i i' n g g', sh_inter sh = Some i -> sh_inter sh' = Some i' -> (n <= it)%nat ->
      nth_error (in_states i) (it - n) = Some g -> nth_error (in_states i') n = Some g' -> near (C / INR it) (phase (reversed g)) (phase g').
Proof.
  intros sv b0 d m c u v t1 rho L HS W LT SH T1 U V SO S0 TM.
  assert (EV : forall t, even_on (ham_of m (geodesic_controls sv b0)) (map shape (c t))).
  { intros t. rewrite (proj1 SO t 0), <- (leq_shape _ _ S0). apply (even_hamiltonian sv b0 d m HS W LT). }
  destruct (there_and_back _ c u v t1 rho L T1 U V EV SO TM) as (N & C & PC & ERR). exists N, C. split; [exact PC|].
  intros others ag sch it keep costs0 costs0' sh m' sh' EX IT NI E ES E'.
  destruct (C25_fixed_step_schemes others sv b0 ag sch it t1 keep costs0 m sh EX SH T1 IT E) as (states & stages & mods & LS & LG & _ & T & (g0 & E0 & SV) & E1 & _ & KE).
  pose proof (shoot_skel _ _ _ _ _ _ _ _ _ _ _ _ _ E) as SK. pose proof (shoot_key real_clock others sv b0 ag t1 it None keep (scheme_name sch) costs0 m sh E) as FK. change (frozen (sh_mod sh) = frozen m) in FK.
  set (gf := mod_manifold (sh_mod sh)) in *. destruct (set_ok (sh_mod sh) (reversed gf) (rev_skel gf)) as (x & Ex & MM & FM & _). rewrite ES in Ex. injection Ex as <-.
  pose proof (values_phase _ _ SV) as VP.
  assert (SF : map shape (phase gf) = map shape (phase (mod_manifold m))).
  { rewrite <- (leq_shape _ _ VP). apply (trajectory_shapes sch (ham_of m (geodesic_controls sv b0)) _ _ _ (phase g0) T (map_nth_error phase 0 states E0) it (phase gf)). exact (map_nth_error phase it states E1). }
  assert (SH' : shootable m').
  { apply (shootable_same m); [exact SH|congruence|rewrite MM, rev_skel; exact SK|]. rewrite MM, flip_phase, flip_shape. exact SF. }
  destruct (C25_fixed_step_schemes others sv b0 ag sch it t1 keep costs0' m' sh' EX SH' T1 IT E') as (states' & stages' & mods' & LS' & LG' & _ & T' & (g0' & E0' & SV') & E1' & _ & KE').
  assert (HM : forall l x, ham_of m' (geodesic_controls sv b0) l = Ok x -> ham_of m (geodesic_controls sv b0) l = Ok x).
  { intros l y. apply ham_any; [congruence|rewrite MM, rev_skel; symmetry; exact SK]. }
  assert (TT : trajectory sch (fun _ => hamilton (ham_of m (geodesic_controls sv b0))) (t1 / INR it) (map phase states') stages').
  { apply (trajectory_more sch (hamilton (ham_of m' (geodesic_controls sv b0)))); [|exact T']. intros l k. apply hamilton_more. exact HM. }
  assert (ST : forall l, nth_error (map phase states) 0 = Some l -> leq l (c 0)).
  { intros l El. rewrite nth_error_map, E0 in El. injection El as <-. apply leq_trans' with (phase (mod_manifold m)); assumption. }
  assert (ST' : forall l l', nth_error (map phase states) it = Some l -> nth_error (map phase states') 0 = Some l' -> leq l' (flip l)).
  { intros l l' El El'. rewrite nth_error_map, E1 in El. injection El as <-. rewrite nth_error_map, E0' in El'. injection El' as <-. fold gf. rewrite <- flip_phase, <- MM. apply values_phase. exact SV'. }
  assert (ALL : forall n g g', (n <= it)%nat -> nth_error states (it - n) = Some g -> nth_error states' n = Some g' -> near (C / INR it) (phase (reversed g)) (phase g')).
  { intros n g g' Hn Eg Eg'. rewrite flip_phase. refine (ERR sch sch it (map phase states) stages (map phase states') stages' IT NI LG LG' T ST TT ST' n (phase g) (phase g') Hn _ _).
    - rewrite nth_error_map, Eg. reflexivity.
    - rewrite nth_error_map, Eg'. reflexivity. }
  split.
  - pose proof (ALL it g0 _ (le_n it) ltac:(rewrite Nat.sub_diag; exact E0) E1') as X. apply near_sym. apply near_leq with (phase (reversed g0)); [apply near_sym; exact X|].
    rewrite !flip_phase. destruct SV as ((_ & SV1) & (_ & SV2)). unfold phase. rewrite !flip_app by (rewrite g_gd_len, g_cotan_len; reflexivity).
    apply Forall2_app; [apply leq_sym; exact SV1|]. clear - SV2. induction SV2 as [|a b l l' (Sab & Vab) _ IH]; constructor; [|exact IH]. split; [symmetry; exact Sab|]. intros idx VI. cbn. rewrite Vab; [reflexivity|rewrite Sab; exact VI].
  - intros i i' n g g' Ei Ei' Hn Eg Eg'. destruct keep; [|congruence]. destruct KE as (ks & _ & KE). rewrite KE in Ei. injection Ei as <-. destruct KE' as (ks' & _ & KE'). rewrite KE' in Ei'. injection Ei' as <-. exact (ALL n g g' Hn Eg Eg').
Qed.
Print Assumptions C96_there_and_back_fixed_step.

(** The state a shooting stops in is a state of the same kind as the one it started from. *)
Lemma stop_torch_euler ck others sv b0 ag it t1 keep costs0 d m sh : exact_grad ag -> wf_mod d m ->
  shoot ck others sv b0 ag "torch_euler" it t1 None keep costs0 m = Ok sh -> map shape (phase (mod_manifold (sh_mod sh))) = map shape (phase (mod_manifold m)).
Proof.
  intros EX W E. destruct (wf_mod_manifold d m W) as (WG & _).
  destruct (C25_torch_euler_steps ck others sv b0 ag it t1 None keep costs0 m sh EX (wf_shapes d _ WG) E) as (_ & states & mods & _ & _ & E0 & E1 & T & _).
  apply (trajectory_shapes SEuler (ham_of m (geodesic_controls sv b0)) _ _ _ (phase (mod_manifold m)) T (map_nth_error phase 0 states E0) it). exact (map_nth_error phase it states E1).
Qed.
Lemma stop_fixed_step others sv b0 ag sch it t1 keep costs0 m sh : exact_grad ag -> shootable m -> 0 < t1 -> (0 < it)%nat ->
  shoot real_clock others sv b0 ag (scheme_name sch) it t1 None keep costs0 m = Ok sh -> map shape (phase (mod_manifold (sh_mod sh))) = map shape (phase (mod_manifold m)).
Proof.
  intros EX SH T1 IT E.
  destruct (C25_fixed_step_schemes others sv b0 ag sch it t1 keep costs0 m sh EX SH T1 IT E) as (states & stages & mods & _ & _ & _ & T & (g0 & E0 & SV) & E1 & _).
  rewrite <- (leq_shape _ _ (values_phase _ _ SV)).
  apply (trajectory_shapes sch (ham_of m (geodesic_controls sv b0)) _ _ _ (phase g0) T (map_nth_error phase 0 states E0) it). exact (map_nth_error phase it states E1).
Qed.

(** The way back can be shot whenever C82 says the way out can. *)
Theorem C96_way_back_torch_euler : forall ck others sv b0 ag it t1 t1' keep costs0 costs0' d m sh,
  exact_grad ag -> differentiates ag -> exact_solver sv -> wf_mod d m -> locals_smooth d m ->
  everywhere (regular d) m -> (first_order m -> ~ has_dir (mod_manifold m)) -> (0 < it)%nat ->
  keep = false \/ (exists ms, m = MComp ms /\ Forall simple (map mod_manifold ms)) ->
  shoot ck others sv b0 ag "torch_euler" it t1 None keep costs0 m = Ok sh ->
  exists m', set_manifold (sh_mod sh) (reversed (mod_manifold (sh_mod sh))) = Ok m' /\
    is_ok (shoot ck others sv b0 ag "torch_euler" it t1' None keep costs0' m').
Proof.
  intros ck others sv b0 ag it t1 t1' keep costs0 costs0' d m sh EX AN HS W LS RG HF IT KP E.
  pose proof (shoot_skel _ _ _ _ _ _ _ _ _ _ _ _ _ E) as SK. pose proof (shoot_key ck others sv b0 ag t1 it None keep "torch_euler" costs0 m sh E) as FK. change (frozen (sh_mod sh) = frozen m) in FK.
  pose proof (stop_torch_euler _ _ _ _ _ _ _ _ _ _ _ _ EX W E) as SS.
  destruct (set_ok (sh_mod sh) (reversed (mod_manifold (sh_mod sh))) (rev_skel _)) as (m' & ES & MM & FM & _). exists m'. split; [exact ES|].
  assert (CO : forall l c, @None (list ctrl) = Some l -> In c l -> ctrl_ok d m c) by discriminate.
  apply (run_goes_from sv b0 ag d None m HS EX AN W LS CO (regular_reached sv b0 d m None HS W LS RG (fun _ => HF) CO)); [|exact IT|discriminate|exact KP].
  split; [exact (eq_trans FM FK)|]. split; [rewrite MM, rev_skel; exact SK|]. rewrite MM, flip_phase, flip_shape. exact SS.
Qed.
Print Assumptions C96_way_back_torch_euler.

Theorem C96_way_back_fixed_step : forall others sv b0 ag sch it t1 keep costs0 costs0' d m sh,
  exact_grad ag -> differentiates ag -> exact_solver sv -> wf_mod d m -> locals_smooth d m ->
  everywhere (regular d) m -> (first_order m -> ~ has_dir (mod_manifold m)) ->
  shootable m -> (0 < numel (g_gd (mod_manifold m)))%nat -> 0 < t1 -> (0 < it)%nat ->
  shoot real_clock others sv b0 ag (scheme_name sch) it t1 None keep costs0 m = Ok sh ->
  exists m', set_manifold (sh_mod sh) (reversed (mod_manifold (sh_mod sh))) = Ok m' /\
    is_ok (shoot real_clock others sv b0 ag (scheme_name sch) it t1 None keep costs0' m').
Proof.
  intros others sv b0 ag sch it t1 keep costs0 costs0' d m sh EX AN HS W LS RG HF SH NP T1 IT E.
  pose proof (shoot_skel _ _ _ _ _ _ _ _ _ _ _ _ _ E) as SK. pose proof (shoot_key real_clock others sv b0 ag t1 it None keep (scheme_name sch) costs0 m sh E) as FK. change (frozen (sh_mod sh) = frozen m) in FK.
  pose proof (stop_fixed_step _ _ _ _ _ _ _ _ _ _ _ EX SH T1 IT E) as SS.
  destruct (set_ok (sh_mod sh) (reversed (mod_manifold (sh_mod sh))) (rev_skel _)) as (m' & ES & MM & FM & _). exists m'. split; [exact ES|].
  assert (F' : frozen m' = frozen m) by exact (eq_trans FM FK). assert (K' : skel (mod_manifold m') = skel (mod_manifold m)) by (rewrite MM, rev_skel; exact SK).
  assert (S' : map shape (phase (mod_manifold m')) = map shape (phase (mod_manifold m))) by (rewrite MM, flip_phase, flip_shape; exact SS).
  assert (SG' : map shape (g_gd (mod_manifold m')) = map shape (g_gd (mod_manifold m))) by (apply app_shapes in S'; [tauto|rewrite !g_gd_len; apply skel_len; exact K']).
  destruct (shootable_same m m' SH F' K' S') as (ms & -> & SI & SP). clear MM ES.
  apply (moments_total sv b0 ag t1 it keep ms T1 IT SI SP); [|exact EX|].
  - unfold numel in *. rewrite <- (map_map shape) in NP |- *. rewrite SG'. exact NP.
  - intros n F K SG SC.
    assert (HR : reached None m n).
    { split; [exact (eq_trans F F')|]. split; [congruence|]. unfold phase. rewrite !map_app, SG, SC, SG'. f_equal. symmetry. apply wf_shapes with (d := d). apply wf_mod_manifold. exact W. }
    assert (CO : forall l c, @None (list ctrl) = Some l -> In c l -> ctrl_ok d m c) by discriminate.
    destruct (regular_reached sv b0 d m None HS W LS RG (fun _ => HF) CO 0%nat n HR Logic.I) as (m2 & E2). cbn [step_controls] in E2.
    exists m2. split; [exact E2|]. split.
    + destruct (there d None m W LS n HR) as (m1 & _ & M & _ & W1 & _ & _ & A). change (geodesic_controls sv b0 n) with (step_controls sv b0 None 0 n) in E2.
      rewrite <- (ctl_det sv b0 None 0 m1 n A M) in E2. destruct (hamiltonian_cost sv b0 d HS m1 m2 W1 E2) as (x & C & _). eexists. exact C.
    + apply AN. exact (differentiable_at sv b0 d None m HS W LS CO 0%nat n m2 HR E2).
Qed.
Print Assumptions C96_way_back_fixed_step.

(** The example of C90 meets the hypotheses, and both shootings succeed. *)
Example C96_hypotheses : forall b0,
  wf_mod 2 spin0 /\ locals_total 2 spin0 /\ locals_smooth 2 spin0 /\ shootable spin0 /\ everywhere (regular 2) spin0 /\
  (forall it, (0 < it)%nat -> exists sh m' sh', shoot real_clock (fun _ => None) exact_sv b0 std_ag "torch_euler" it 1 None true None spin0 = Ok sh /\
     set_manifold (sh_mod sh) (reversed (mod_manifold (sh_mod sh))) = Ok m' /\
     shoot real_clock (fun _ => None) exact_sv b0 std_ag "torch_euler" it 1 None true None m' = Ok sh') /\
  (forall sch it, (0 < it)%nat -> exists sh m' sh', shoot real_clock (fun _ => None) exact_sv b0 std_ag (scheme_name sch) it 1 None true None spin0 = Ok sh /\
     set_manifold (sh_mod sh) (reversed (mod_manifold (sh_mod sh))) = Ok m' /\
     shoot real_clock (fun _ => None) exact_sv b0 std_ag (scheme_name sch) it 1 None true None m' = Ok sh').
Proof.
  intros b0. destruct (C90_hypotheses b0) as (W & SH & _ & _ & _ & A & B). assert (L : locals_smooth 2 spin0) by (cbn; tauto).
  assert (RG : everywhere (regular 2) spin0).
  { intros g m1 K _ E. destruct g as [| | | | |gs]; try discriminate K. cbn [spin0 spin mod_manifold map skel] in K. injection K as K. destruct gs as [|g0 [|g1 [|]]]; try discriminate K.
    cbn [map] in K. injection K as K0 K1. destruct g0; try discriminate K0. destruct g1; try discriminate K1. cbn in E. injection E as <-. cbn. tauto. }
  split; [exact W|]. split; [cbn; tauto|]. split; [exact L|]. split; [exact SH|]. split; [exact RG|]. split.
  - intros it IT. destruct (A it IT) as (sh & E).
    destruct (C96_way_back_torch_euler real_clock (fun _ => None) exact_sv b0 std_ag it 1 1 true None None 2 spin0 sh std_exact std_differentiates exact_sv_exact W L RG) as (m' & Em & sh' & E');
      [intros _; cbn; tauto|exact IT|right; destruct SH as (ms & Es & SI & _); exists ms; split; [exact Es|exact SI]|exact E|]. exists sh, m', sh'. auto.
  - intros sch it IT. destruct (B sch it IT) as (sh & E).
    destruct (C96_way_back_fixed_step (fun _ => None) exact_sv b0 std_ag sch it 1 true None None 2 spin0 sh std_exact std_differentiates exact_sv_exact W L RG) as (m' & Em & sh' & E');
      [intros _; cbn; tauto|exact SH|cbn; lia|lra|exact IT|exact E|]. exists sh, m', sh'. auto.
Qed.

(** A finding: the retracing is only up to the step size.  One step of torch_euler brings the
    landmark of the example from (1, 0) to (2, 0) with a null moment, and back nowhere. *)
Lemma spin_one_step q c p pc l : shape q = row -> shape c = row -> shape p = row -> shape pc = row ->
  euler_scheme (fun _ => hamilton (ham_of spin0 (geodesic_controls exact_sv Torch))) 1 [q; c; p; pc] [[q; c; p; pc]] l ->
  leq l (ladd [q; c; p; pc] (lscal 1 (spin_velocity q c p))).
Proof.
  intros Sq Sc Sp Spc (k & _ & HK & EL).
  pose proof (hamilton_unique _ _ _ _ HK (spin_field exact_sv Torch _ _ _ _ _ q c p pc Sq Sc Sp Spc)) as KE. apply (leq_trans' _ _ _ EL).
  inversion KE as [|a ? k1 ? A1 KE1]; subst. inversion KE1 as [|b ? k2 ? A2 KE2]; subst. inversion KE2 as [|e ? k3 ? A3 KE3]; subst. inversion KE3 as [|f ? k4 ? A4 KE4]; subst. inversion KE4; subst.
  assert (G : forall x a b : tensor, shape x = row -> teq a b -> shape b = row -> teq (tadd x (tscal 1 a)) (tadd x (tscal 1 b))).
  { intros x y z Sx (S & V) Sz. split; [reflexivity|]. intros idx VI. cbn in *. rewrite V; [reflexivity|]. rewrite S, Sz, <- Sx. exact VI. }
  cbn. repeat (apply Forall2_cons; [apply G; [assumption|assumption|reflexivity]|]). apply Forall2_nil.
Qed.
Theorem C96_exactly_back_refuted : exists ag sv b0 d m sh m' sh', exact_grad ag /\ exact_solver sv /\ wf_mod d m /\
  shoot real_clock (fun _ => None) sv b0 ag "torch_euler" 1 1 None true None m = Ok sh /\
  set_manifold (sh_mod sh) (reversed (mod_manifold (sh_mod sh))) = Ok m' /\
  shoot real_clock (fun _ => None) sv b0 ag "torch_euler" 1 1 None true None m' = Ok sh' /\
  entry (phase (mod_manifold m)) 0 [0%nat; 0%nat] = 1 /\ entry (phase (mod_manifold (sh_mod sh'))) 0 [0%nat; 0%nat] = 2.
Proof.
  destruct (C96_hypotheses Torch) as (W & _ & _ & _ & _ & A & _). destruct (A 1%nat ltac:(lia)) as (sh & m' & sh' & E & ES & E').
  exists std_ag, exact_sv, Torch, 2%nat, spin0, sh, m', sh'. split; [exact std_exact|]. split; [exact exact_sv_exact|]. split; [exact W|]. split; [exact E|]. split; [exact ES|]. split; [exact E'|].
  split; [reflexivity|]. destruct (wf_mod_manifold 2 spin0 W) as (WG & _).
  pose proof (shoot_skel _ _ _ _ _ _ _ _ _ _ _ _ _ E) as SK. pose proof (shoot_key real_clock (fun _ => None) exact_sv Torch std_ag 1 1 None true "torch_euler" None spin0 sh E) as FK. change (frozen (sh_mod sh) = frozen spin0) in FK.
  pose proof (stop_torch_euler _ _ _ _ _ _ _ _ _ _ _ _ std_exact W E) as SS.
  destruct (C25_torch_euler_steps _ _ _ _ _ _ _ _ _ _ _ _ std_exact (wf_shapes 2 _ WG) E) as (_ & states & mods & LS & LM & E0 & E1 & T & _).
  set (gf := mod_manifold (sh_mod sh)) in *. destruct (set_ok (sh_mod sh) (reversed gf) (rev_skel gf)) as (x & Ex & MM & FM & _). rewrite ES in Ex. injection Ex as <-.
  assert (BAL : map shape (g_cotan (mod_manifold m')) = map shape (g_gd (mod_manifold m'))).
  { rewrite MM, rev_gd, rev_cotan, topp_shapes. apply app_shapes in SS; [|rewrite !g_gd_len; apply skel_len; exact SK]. destruct SS as (-> & ->). exact (wf_shapes 2 _ WG). }
  destruct (C25_torch_euler_steps _ _ _ _ _ _ _ _ _ _ _ _ std_exact BAL E') as (_ & states' & mods' & LS' & LM' & E0' & E1' & T' & _).
  assert (TT : trajectory SEuler (fun _ => hamilton (ham_of spin0 (geodesic_controls exact_sv Torch))) (1 / INR 1) (map phase states') (map (fun g => [phase g]) (firstn 1 states'))).
  { apply (trajectory_more SEuler (hamilton (ham_of m' (geodesic_controls exact_sv Torch)))); [|exact T']. intros l k. apply hamilton_more. intros l0 y. apply ham_any; [congruence|rewrite MM, rev_skel; symmetry; exact SK]. }
  destruct states as [|s0 [|s1 [|]]]; try discriminate LS. destruct states' as [|s0' [|s1' [|]]]; try discriminate LS'. cbn [nth_error] in E0, E1, E0', E1'. injection E0 as ->. injection E1 as ->. injection E0' as ->. injection E1' as ->.
  replace (1 / INR 1) with 1 in T, TT by (cbn; field).
  pose proof (proj2 T 0%nat _ _ _ eq_refl eq_refl eq_refl) as X. change (phase (mod_manifold spin0)) with [pt 1 0; pt 0 0; pt 1 1; pt 0 0] in X.
  apply spin_one_step in X; try reflexivity.
  destruct gf as [| | | | |gs] eqn:Egf; try discriminate SK. cbn [spin0 spin mod_manifold map skel] in SK. injection SK as SK. destruct gs as [|g0 [|g1 [|]]]; try discriminate SK.
  cbn [map] in SK. injection SK as K0 K1. destruct g0 as [d0 n0 q p| | | | |]; try discriminate K0. destruct g1 as [d1 n1 c pc| | | | |]; try discriminate K1.
  unfold phase in X. cbn [g_gd g_cotan flat_map app] in X. 
  inversion X as [|? ? ? ? Q1 X1]; subst. inversion X1 as [|? ? ? ? Q2 X2]; subst. inversion X2 as [|? ? ? ? Q3 X3]; subst. inversion X3 as [|? ? ? ? Q4 _]; subst. clear X X1 X2 X3.
  assert (G : forall (t t' : tensor), teq t t' -> shape t' = row -> shape t = row /\ t @2 0%nat 0%nat = t' @2 0%nat 0%nat /\ t @2 0%nat 1%nat = t' @2 0%nat 1%nat).
  { intros t t' (S & V) S'. rewrite S'  in S. split; [exact S|]. split; [apply (V [0%nat; 0%nat])|apply (V [0%nat; 1%nat])]; rewrite S; cbn; lia. }
  destruct (G _ _ Q1 eq_refl) as (S1 & A1 & B1). destruct (G _ _ Q2 eq_refl) as (S2 & A2 & B2). destruct (G _ _ Q3 eq_refl) as (S3 & A3 & B3). destruct (G _ _ Q4 eq_refl) as (S4 & A4 & B4). clear G.
  pose proof (proj2 TT 0%nat _ _ _ eq_refl eq_refl eq_refl) as Y. rewrite MM in Y. change (phase (reversed (GComp [GLm d0 n0 q p; GLm d1 n1 c pc]))) with [q; c; topp p; topp pc] in Y.
  apply spin_one_step in Y; try assumption.
  rewrite (leq_entry _ _ 0 row [0%nat; 0%nat] Y); [|cbn; rewrite S1; reflexivity|cbn; lia]. clear Y.
  cbn in A1, B1, A2, B2, A3, B3. unfold reach in *. cbn in A1, B1, A2, B2, A3, B3. unfold entry. cbn. unfold reach. cbn. rewrite A1, B1, A2, B2, A3, B3. field.
Qed.
Print Assumptions C96_exactly_back_refuted.
