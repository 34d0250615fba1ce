(** Property theorems about multiplying the moments by a number: the same motion at another
    pace (C98). *)
From Coq Require Import Reals String List Arith Lia Lra Psatz.
From Coquelicot Require Import Coquelicot.
From Verif Require Import Py RSum Tensor TensorFacts LinAlg SpecLinAlg KernelModel FieldModel GeometryModel ModuleModel ShootingModel
  SpecField SpecGeometry SpecModule SpecShooting SpecMotion SpecTransport SpecSmooth ModuleLeaves ModuleMain GeometryFacts ShootingPack ShootingDyn ShootingInst ShootingFinal ShootingTotal ShootingEuler PropShooting MotionFacts MotionShoot MotionMomentum
  TransportFacts RegistrationShoot RegistrationRun SpecRigid RigidShoot SolverExists MotionExample SmoothRun PropRigid PropSmooth SpecEnergy EnergyFacts PropEnergy SpecConverge ConvergeFacts ReduceFacts PropConverge SpecReverse ReverseFacts ReverseShoot PropReverse
  SpecScale ScaleFlow ScaleFacts.
Import ListNotations.
Open Scope R_scope.

(** Moments s times as large ask for controls s times as large, at a cost and with a
    Hamiltonian s * s times as large. *)
Theorem C98_controls : forall s sv b0 d m mr m1, exact_solver sv -> wf_mod d m ->
  set_manifold m (quickened s (mod_manifold m)) = Ok mr -> geodesic_controls sv b0 m = Ok m1 ->
  exists mr1 x, geodesic_controls sv b0 mr = Ok mr1 /\ ceq (controls mr1) (cscal s (controls m1)) /\
    cost m1 = Ok x /\ cost mr1 = Ok (s * s * x) /\ hamiltonian m1 = Ok x /\ hamiltonian mr1 = Ok (s * s * x).
Proof. intros s sv b0 d m mr m1 HS. exact (quickened_controls s sv b0 d HS m mr m1). Qed.
Print Assumptions C98_controls.

(** An exact motion run s times as fast, with moments s times as large, is an exact motion.
    For s < 0 this is the motion run backwards. *)
Theorem C98_motion : forall s sv b0 d m c a b a' b', s <> 0 -> exact_solver sv -> wf_mod d m -> locals_total d m ->
  (forall t, map shape (c t) = map shape (phase (mod_manifold m))) -> (forall t, a' < t < b' -> a < s * t < b) ->
  solution (ham_of m (geodesic_controls sv b0)) c a b ->
  solution (ham_of m (geodesic_controls sv b0)) (fun t => quick s (c (s * t))) a' b'.
Proof.
  intros s sv b0 d m c a b a' b' S0 HS W LT SC IN SO. set (n := g_len (mod_manifold m)).
  assert (LN : length (phase (mod_manifold m)) = (n + n)%nat) by apply phase_len. assert (LL : forall l, map shape l = map shape (phase (mod_manifold m)) -> length l = (n + n)%nat) by (intros l E; rewrite <- LN; apply shapes_len; exact E).
  assert (KO : s * s / s = s) by (field; exact S0).
  enough (X : solution (ham_of m (geodesic_controls sv b0)) (fun t => quick s (c (s * s / s * t))) a' b') by (rewrite KO in X; exact X).
  apply (solution_image (ham_of m (geodesic_controls sv b0)) (ham_of m (geodesic_controls sv b0)) (map shape (phase (mod_manifold m))) (pace s n) (s * s) s (quick s)) with (a := a) (b := b); try assumption.
  - intros l E. rewrite quick_shape. exact E.
  - intros l i idx E _. apply entry_quick. apply LL. exact E.
  - intros l i idx x E _. apply quick_upd. apply LL. exact E.
  - apply (quick_hamiltonian s sv b0 d m HS W LT).
  - intros i _. apply pace_nonzero. exact S0.
  - intros n' i E I. rewrite map_length, LN in E. assert (n' = n) by lia. subst n'. apply pace_product. exact I.
  - intros t Ht. rewrite KO. exact (IN t Ht).
Qed.
Print Assumptions C98_motion.

(** ** Shooting *)

(** The values of descriptors and moments are all that matters. *)
Lemma same_state sv sv' b0 b0' d m x x' a b : exact_solver sv -> exact_solver sv' -> wf_mod d m -> locals_total d m -> twin d delta still m m ->
  map shape x = map shape (phase (mod_manifold m)) -> leq x' x ->
  at_state m (geodesic_controls sv b0) x = Ok a -> at_state m (geodesic_controls sv' b0') x' = Ok b -> hamiltonian b = hamiltonian a /\ cost b = cost a.
Proof.
  intros HS HS' W LT TW SX E A B. assert (EW : elsewhere d delta still m m) by (split; [exact TW|]; apply same_values_sym; apply placed_still; apply wf_mod_manifold; exact W).
  assert (R : related d delta still (kinds (mod_manifold m)) (map shape (phase (mod_manifold m))) x x').
  { split; [exact SX|]. apply (leq_trans' _ _ _ E). destruct (state_of m x SX) as (g & <- & K & SG & SC). rewrite <- (kinds_same g _ K).
    assert (WG : wf_gman d g) by (apply (state_wf d m W LT g K SX)). apply (values_placed d delta still g g WG). apply same_values_sym. apply placed_still. exact WG. }
  destruct (mods_pair d delta (rigid_delta d) still sv sv' b0 b0' HS HS' m m None None W W LT LT EW Logic.I ltac:(discriminate) ltac:(discriminate) 0 x x' a b R A B) as (H1 & H2 & _). auto.
Qed.

Lemma at_any sv b0 m m' l a : frozen m' = frozen m -> skel (mod_manifold m') = skel (mod_manifold m) ->
  at_state m (geodesic_controls sv b0) l = Ok a -> at_state m' (geodesic_controls sv b0) l = Ok a.
Proof.
  intros F K. unfold at_state. destruct (write_manifold m l) as [m1|] eqn:E; [|discriminate]. cbn [bind]. destruct (write_any m m' l m1 F K E) as (m1' & E' & F' & M'). rewrite E'. cbn [bind].
  rewrite (geodesic_determined sv b0 m1' m1 F' M'). auto.
Qed.
Lemma ham_at sv b0 m l v : ham_of m (geodesic_controls sv b0) l = Ok v <-> exists a, at_state m (geodesic_controls sv b0) l = Ok a /\ hamiltonian a = Ok v.
Proof.
  unfold ham_of, at_state. destruct (write_manifold m l) as [m1|]; cbn [bind]; [|split; [discriminate|intros (a & X & _); discriminate X]].
  destruct (geodesic_controls sv b0 m1) as [m2|]; cbn [bind]; [|split; [discriminate|intros (a & X & _); discriminate X]].
  split; [intros H; exists m2; auto|]. intros (a & X & H). injection X as <-. exact H.
Qed.

Lemma quickened_values s g g' : skel g' = skel g -> leq (phase g') (quick s (phase g)) -> same_values g' (quickened s g).
Proof.
  intros K E. rewrite <- quick_phase in E. unfold phase in E. pose proof (quick_skel s g) as SP.
  assert (X : forall (a b a' b' : list tensor), length a = length a' -> leq (a ++ b) (a' ++ b') -> leq a a' /\ leq b b').
  { clear. induction a as [|x a IH]; intros b [|y a'] b' L E; try discriminate L; [split; [constructor|exact E]|]. inversion E; subst.
    destruct (IH b a' b') as (A & B); [injection L; auto|assumption|]. split; [constructor; assumption|exact B]. }
  apply X in E; [|rewrite !g_gd_len; apply skel_len; congruence]. split; split; try congruence; apply E.
Qed.

Section Pace.
Variables (s : R) (sv sv' : solver) (b0 b0' : backend) (d : nat) (m m' : dmod).
Hypothesis HS : exact_solver sv.
Hypothesis HS' : exact_solver sv'.
Hypothesis W : wf_mod d m.
Hypothesis LT : locals_total d m.
Hypothesis TW : twin d delta still m m.
Hypothesis ES : set_manifold m (quickened s (mod_manifold m)) = Ok m'.
Notation shs := (map shape (phase (mod_manifold m))).
Notation n := (g_len (mod_manifold m)).

Lemma pace_set : mod_manifold m' = quickened s (mod_manifold m) /\ frozen m' = frozen m.
Proof. destruct (set_ok m (quickened s (mod_manifold m)) (quick_skel s _)) as (x & Ex & MM & FM & _). rewrite ES in Ex. injection Ex as <-. auto. Qed.
Lemma pace_len l : map shape l = shs -> length l = (n + n)%nat.
Proof. intros E. rewrite <- phase_len. apply shapes_len. exact E. Qed.

Lemma pace_mods l l' a b : map shape l = shs -> weighed (pace s n) l l' ->
  at_state m (geodesic_controls sv b0) l = Ok a -> at_state m' (geodesic_controls sv' b0') l' = Ok b ->
  exists x, hamiltonian a = Ok x /\ hamiltonian b = Ok (s * s * x) /\ cost a = Ok x /\ cost b = Ok (s * s * x).
Proof.
  intros SL WL A B. destruct (quick_state s sv b0 d m l a HS W LT SL A) as (a' & x & A' & _ & C1 & C2 & H1 & H2). destruct pace_set as (MM & FM).
  assert (B' : at_state m (geodesic_controls sv' b0') l' = Ok b) by (apply (at_any sv' b0' m'); [congruence|rewrite MM; symmetry; apply quick_skel|exact B]).
  assert (SQ : map shape (quick s l) = shs) by (rewrite quick_shape; exact SL).
  destruct (same_state sv sv' b0 b0' d m (quick s l) l' a' b HS HS' W LT TW SQ) as (HE & CE); [apply (weighed_quick s l l' n (pace_len l SL) WL)|exact A'|exact B'|].
  exists x. rewrite HE, CE. auto.
Qed.

Hypothesis S0 : s <> 0.
Lemma pace_fields l l' k k' : map shape l = shs -> weighed (pace s n) l l' ->
  hamilton (ham_of m (geodesic_controls sv b0)) l k -> hamilton (ham_of m' (geodesic_controls sv' b0')) l' k' ->
  map shape k = shs /\ weighed (fun i => s * pace s n i) k k'.
Proof.
  intros SL WL HK HK'. split; [rewrite (proj1 HK); exact SL|]. assert (KO : s * s / s = s) by (field; exact S0).
  enough (X : weighed (fun i => s * s / s * pace s n i) k k') by (rewrite KO in X; exact X).
  apply (hamilton_weighed (ham_of m (geodesic_controls sv b0)) (ham_of m' (geodesic_controls sv' b0')) shs (pace s n) (s * s) s) with (l := l) (l' := l'); try assumption.
  - intros y y' v v' SY WY V V'. apply ham_at in V. apply ham_at in V'. destruct V as (a & A & HA). destruct V' as (b & B & HB).
    destruct (pace_mods y y' a b SY WY A B) as (x & H1 & H2 & _). congruence.
  - intros i _. apply pace_nonzero. exact S0.
  - intros n' i E I. rewrite map_length, phase_len in E. assert (n' = n) by lia. subst n'. apply pace_product. exact I.
Qed.
End Pace.

(** Shooting with moments s times as large for the time t1 goes, with the fixed-step schemes
    and the same number of steps, through the states of the shooting for the time s * t1,
    with moments s times as large and costs s * s times as large. *)
Theorem C98_fixed_step : forall s others others' sv sv' b0 b0' ag ag' sch it t1 keep costs0 costs0' d m m' sh sh',
  0 < s -> exact_grad ag -> exact_grad ag' -> exact_solver sv -> exact_solver sv' ->
  wf_mod d m -> locals_total d m -> twin d delta still m m -> shootable m -> 0 < t1 -> (0 < it)%nat ->
  set_manifold m (quickened s (mod_manifold m)) = Ok m' ->
  shoot real_clock others sv b0 ag (scheme_name sch) it (s * t1) None keep costs0 m = Ok sh ->
  shoot real_clock others' sv' b0' ag' (scheme_name sch) it t1 None keep costs0' m' = Ok sh' ->
  shot_quickened s sh sh'.
Proof.
  intros s others others' sv sv' b0 b0' ag ag' sch it t1 keep costs0 costs0' d m m' sh sh' SP EX EX' HS HS' W LT TW SH T1 IT ES E E'.
  destruct (pace_set s m m' ES) as (MM & FM).
  assert (SH' : shootable m').
  { apply (shootable_same m); [exact SH|exact FM|rewrite MM; apply quick_skel|]. rewrite MM, quick_phase, quick_shape. reflexivity. }
  assert (ST : 0 < s * t1) by (apply Rmult_lt_0_compat; assumption). assert (S0 : s <> 0) by lra.
  assert (X : forall sv b0 ag others costs0 keep m sh t1, 0 < t1 -> shootable m -> exact_grad ag ->
    shoot real_clock others sv b0 ag (scheme_name sch) it t1 None keep costs0 m = Ok sh ->
    exists states stages mods costs,
      length states = S it /\ length stages = it /\ Forall (fun ss => length ss = evaluations sch) stages /\
      trajectory sch (fun n => hamilton (ham_of m (step_controls sv b0 None n))) (t1 / INR it) (map phase states) stages /\
      (exists g, nth_error states 0 = Some g /\ same_values g (mod_manifold m)) /\
      nth_error states it = Some (mod_manifold (sh_mod sh)) /\
      Forall (fun g => skel g = skel (mod_manifold m)) states /\
      mapM (at_state m (geodesic_controls sv b0)) (List.concat stages) = Ok mods /\
      sh_costs sh = Some costs /\ length costs = it /\
      (forall k, (k < it)%nat -> exists mk c, nth_error mods (recorded_at sch k) = Some mk /\ cost mk = Ok c /\ nth_error costs k = Some c) /\
      (if keep then exists cs, mapM (fun m => clone_controls (controls m)) mods = Ok cs /\ sh_inter sh = Some (mkInter states cs)
       else sh_inter sh = None)).
  { intros sv1 b1 ag1 oth1 co1 keep1 m1 sh1 t T (ms & -> & SI1 & SP1) EX1 E1. exact (whole_moments sv1 b1 ag1 t it keep1 ms T IT SI1 SP1 EX1 oth1 sch co1 sh1 E1). }
  destruct (X sv b0 ag others costs0 keep m sh (s * t1) ST SH EX E) as (states & stages & mods & costs & L & LS & LE & T & (g0 & E0 & V0) & E1 & K & AT & CS & CL & CR & KE).
  destruct (X sv' b0' ag' others' costs0' keep m' sh' t1 T1 SH' EX' E') as (states' & stages' & mods' & costs' & L' & LS' & LE' & T' & (g0' & E0' & V0') & E1' & K' & AT' & CS' & CL' & CR' & KE').
  clear X E E' SH SH'. rewrite Forall_forall in K, K'. set (n := g_len (mod_manifold m)). set (shs := map shape (phase (mod_manifold m))).
  assert (R0 : rel_by shs (pace s n) (phase g0) (phase g0')).
  { pose proof (values_phase _ _ V0) as P0. pose proof (values_phase _ _ V0') as P0'. split; [exact (leq_shape _ _ P0)|].
    rewrite MM, quick_phase in P0'. apply (weighed_leq _ _ _ _ _ P0 P0'). apply quick_weighed. apply phase_len. }
  assert (R : forall i g g', nth_error states i = Some g -> nth_error states' i = Some g' -> rel_by shs (pace s n) (phase g) (phase g') /\
    forall ss ss', nth_error stages i = Some ss -> nth_error stages' i = Some ss' -> Forall2 (rel_by shs (pace s n)) ss ss').
  { intros i g g' Eg Eg'.
    refine (trajectory_weighed shs (pace s n) s _ _ _ sch (s * t1 / INR it) (t1 / INR it) (map phase states) stages (map phase states') stages' (phase g0) (phase g0') _ T T' _ _ _ R0 i (phase g) (phase g') _ _).
    - intros j l l' k k' SL WL HK HK'. exact (pace_fields s sv sv' b0 b0' d m m' HS HS' W LT TW ES S0 l l' k k' SL WL HK HK').
    - field. apply not_0_INR. lia.
    - congruence.
    - exact (map_nth_error phase 0 states E0).
    - exact (map_nth_error phase 0 states' E0').
    - exact (map_nth_error phase i states Eg).
    - exact (map_nth_error phase i states' Eg'). }
  assert (P : forall i g g', nth_error states i = Some g -> nth_error states' i = Some g' -> same_values g' (quickened s g)).
  { intros i g g' Eg Eg'. destruct (R i g g' Eg Eg') as ((SG & WG) & _). apply quickened_values; [rewrite (K g (nth_error_In _ _ Eg)), (K' g' (nth_error_In _ _ Eg')), MM; apply quick_skel|].
    apply (weighed_quick s _ _ n); [apply pace_len; exact SG|exact WG]. }
  split; [exact (P it _ _ E1 E1')|]. split.
  - rewrite CS, CS'. cbn [option_map]. f_equal. apply costs_eq; [rewrite map_length; congruence|]. intros k x' x Ex' Ex. rewrite nth_error_map in Ex. destruct (nth_error costs k) as [y|] eqn:Ey; [|discriminate Ex]. cbn [option_map] in Ex. injection Ex as <-.
    assert (Kt : (k < it)%nat) by (rewrite <- CL; apply nth_error_Some; congruence).
    destruct (CR k Kt) as (mk & z & Em & Cm & Ez). destruct (CR' k Kt) as (mk' & z' & Em' & Cm' & Ez'). rewrite Ey in Ez. injection Ez as <-. rewrite Ex' in Ez'. injection Ez' as <-.
    destruct (mapM_back _ _ _ _ _ AT Em) as (l & El & Al). destruct (mapM_back _ _ _ _ _ AT' Em') as (l' & El' & Al').
    assert (RS : Forall2 (Forall2 (rel_by shs (pace s n))) stages stages').
    { apply PropRigid.forall2_nth; [congruence|]. intros i ss ss' Es Es'. assert (Ii : (i < it)%nat) by (rewrite <- LS; apply nth_error_Some; congruence).
      destruct (nth_error states i) as [g|] eqn:Eg; [|apply nth_error_None in Eg; lia]. destruct (nth_error states' i) as [g'|] eqn:Eg'; [|apply nth_error_None in Eg'; lia].
      exact (proj2 (R i g g' Eg Eg') ss ss' Es Es'). }
    destruct (forall2_at _ _ _ (forall2_concat _ _ _ RS) _ _ _ El El') as (SL & WL).
    destruct (pace_mods s sv sv' b0 b0' d m m' HS HS' W LT TW ES l l' mk mk' SL WL Al Al') as (v & _ & _ & C1 & C2). congruence.
  - destruct keep; [|rewrite KE, KE'; exact Logic.I]. destruct KE as (ks & _ & ->). destruct KE' as (ks' & _ & ->). cbn [in_states]. apply PropRigid.forall2_nth; [congruence|exact P].
Qed.
Print Assumptions C98_fixed_step.

(** Whenever C82 says that the module can be shot, it can be with the other moments. *)
Theorem C98_can_be_shot : forall s others sv b0 ag sch it t1 keep costs0 d m,
  exact_grad ag -> differentiates ag -> exact_solver sv -> wf_mod d m -> locals_smooth d m ->
  everywhere (regular d) m -> (first_order m -> ~ has_dir (mod_manifold m)) ->
  shootable m -> (0 < numel (g_gd (mod_manifold m)))%nat -> 0 < t1 -> (0 < it)%nat ->
  exists m', set_manifold m (quickened s (mod_manifold m)) = Ok m' /\
    is_ok (shoot real_clock others sv b0 ag (scheme_name sch) it t1 None keep costs0 m').
Proof.
  intros s others sv b0 ag sch it t1 keep costs0 d m EX AN HS W LS RG HF SH NP T1 IT.
  destruct (set_ok m (quickened s (mod_manifold m)) (quick_skel s _)) as (m' & ES & MM & FM & _). exists m'. split; [exact ES|].
  assert (K' : skel (mod_manifold m') = skel (mod_manifold m)) by (rewrite MM; apply quick_skel).
  assert (S' : map shape (phase (mod_manifold m')) = map shape (phase (mod_manifold m))) by (rewrite MM, quick_phase, quick_shape; reflexivity).
  assert (SG' : map shape (g_gd (mod_manifold m')) = map shape (g_gd (mod_manifold m))) by (rewrite MM, quick_gd; reflexivity).
  destruct (shootable_same m m' SH FM K' S') as (ms & -> & SI & SP). clear MM ES.
  apply (moments_total sv b0 ag t1 it keep ms T1 IT SI SP); [|exact EX|].
  - unfold numel in *. rewrite <- (map_map shape) in NP |- *. rewrite SG'. exact NP.
  - intros n F K SG SC.
    assert (HR : reached None m n).
    { split; [exact (eq_trans F FM)|]. split; [congruence|]. unfold phase. rewrite !map_app, SG, SC, SG'. f_equal. symmetry. apply wf_shapes with (d := d). apply wf_mod_manifold. exact W. }
    assert (CO : forall l c, @None (list ctrl) = Some l -> In c l -> ctrl_ok d m c) by discriminate.
    destruct (regular_reached sv b0 d m None HS W LS RG (fun _ => HF) CO 0%nat n HR Logic.I) as (m2 & E2). cbn [step_controls] in E2.
    exists m2. split; [exact E2|]. split.
    + destruct (there d None m W LS n HR) as (m1 & _ & M & _ & W1 & _ & _ & A). change (geodesic_controls sv b0 n) with (step_controls sv b0 None 0 n) in E2.
      rewrite <- (ctl_det sv b0 None 0 m1 n A M) in E2. destruct (hamiltonian_cost sv b0 d HS m1 m2 W1 E2) as (x & C & _). eexists. exact C.
    + apply AN. exact (differentiable_at sv b0 d None m HS W LS CO 0%nat n m2 HR E2).
Qed.
Print Assumptions C98_can_be_shot.

(** The example of C90 meets the hypotheses: twice the moments for half the time. *)
Example C98_hypotheses : forall b0, 
  wf_mod 2 spin0 /\ locals_total 2 spin0 /\ twin 2 delta still spin0 spin0 /\ shootable spin0 /\
  solution (ham_of spin0 (geodesic_controls exact_sv b0)) (fun t => phase (spin_path t)) (-1) 2 /\
  forall sch it, (0 < it)%nat -> exists sh m' sh', set_manifold spin0 (quickened 2 (mod_manifold spin0)) = Ok m' /\
    shoot real_clock (fun _ => None) exact_sv b0 std_ag (scheme_name sch) it (2 * (1 / 2)) None true None spin0 = Ok sh /\
    shoot real_clock (fun _ => None) exact_sv b0 std_ag (scheme_name sch) it (1 / 2) None true None m' = Ok sh'.
Proof.
  intros b0. destruct (C96_hypotheses b0) as (W & LT & L & SH & RG & _). split; [exact W|]. split; [exact LT|].
  split; [apply (spin_isotropic _ _ _ _ _ delta (rigid_delta 2))|]. split; [exact SH|]. split; [apply spin_solution|]. intros sch it IT.
  destruct (C82_fixed_step_schemes (fun _ => None) exact_sv b0 std_ag sch it (2 * (1 / 2)) true None 2 spin0 std_exact std_differentiates exact_sv_exact W L RG) as (sh & E);
    [intros _; cbn; tauto|exact SH|cbn; lia|lra|exact IT|].
  destruct (C98_can_be_shot 2 (fun _ => None) exact_sv b0 std_ag sch it (1 / 2) true None 2 spin0 std_exact std_differentiates exact_sv_exact W L RG) as (m' & Em & sh' & E');
    [intros _; cbn; tauto|exact SH|cbn; lia|lra|exact IT|]. exists sh, m', sh'. auto.
Qed.

(** A finding: torch_euler always integrates up to the time 1, whatever the end asked for
    (shooting.py 42-44, 55): asking for a longer time does not replace larger moments. *)
Theorem C98_torch_euler_end_refuted : exists ag sv b0 d m m' sh sh', exact_grad ag /\ exact_solver sv /\ wf_mod d m /\
  set_manifold m (quickened 2 (mod_manifold m)) = Ok m' /\
  shoot real_clock (fun _ => None) sv b0 ag "torch_euler" 1 2 None false None m = Ok sh /\
  shoot real_clock (fun _ => None) sv b0 ag "torch_euler" 1 1 None false None m' = Ok sh' /\
  entry (phase (mod_manifold (sh_mod sh))) 0 [0%nat; 0%nat] = 2 /\ entry (phase (mod_manifold (sh_mod sh'))) 0 [0%nat; 0%nat] = 3.
Proof.
  destruct (C96_hypotheses Torch) as (W & LT & L & SH & RG & _). set (m' := spin (pt 1 0) (pt 0 0) (tscal 2 (pt 1 1)) (tscal 2 (pt 0 0)) (mk0 0)).
  assert (ES : set_manifold spin0 (quickened 2 (mod_manifold spin0)) = Ok m') by reflexivity.
  assert (W' : wf_mod 2 m') by (apply spin_wf; reflexivity). assert (L' : locals_smooth 2 m') by (cbn; tauto).
  assert (RG' : everywhere (regular 2) m').
  { intros g m1 K _ E. destruct g as [| | | | |gs]; try discriminate K. cbn [m' spin mod_manifold map skel] in K. injection K as K. destruct gs as [|g0 [|g1 [|]]]; try discriminate K.
    cbn [map] in K. injection K as K0 K1. destruct g0; try discriminate K0. destruct g1; try discriminate K1. cbn in E. injection E as <-. cbn. tauto. }
  destruct (C82_torch_euler real_clock (fun _ => None) exact_sv Torch std_ag 1 2 None false None 2 spin0 std_exact std_differentiates exact_sv_exact W L RG) as (sh & E);
    [intros _ _; cbn; tauto|discriminate|discriminate|lia|left; reflexivity|].
  destruct (C82_torch_euler real_clock (fun _ => None) exact_sv Torch std_ag 1 1 None false None 2 m' std_exact std_differentiates exact_sv_exact W' L' RG') as (sh' & E');
    [intros _ _; cbn; tauto|discriminate|discriminate|lia|left; reflexivity|].
  exists std_ag, exact_sv, Torch, 2%nat, spin0, m', sh, sh'. split; [exact std_exact|]. split; [exact exact_sv_exact|]. split; [exact W|]. split; [exact ES|]. split; [exact E|]. split; [exact E'|].
  assert (X : forall q c p pc sh t1, shape q = row -> shape c = row -> shape p = row -> shape pc = row -> let m := spin q c p pc (mk0 0) in
    shoot real_clock (fun _ => None) exact_sv Torch std_ag "torch_euler" 1 t1 None false None m = Ok sh ->
    entry (phase (mod_manifold (sh_mod sh))) 0 [0%nat; 0%nat] = q @2 0%nat 0%nat + reach q c p * (q @2 0%nat 0%nat - c @2 0%nat 0%nat)).
  { intros q c p pc shx t1 Sq Sc Sp Spc m Ex. destruct (wf_mod_manifold 2 m (spin_wf q c p pc Sq Sc Sp Spc)) as (WG & _).
    destruct (C25_torch_euler_steps _ _ _ _ _ _ _ _ _ _ _ _ std_exact (wf_shapes 2 _ WG) Ex) as (_ & states & mods & LS & LM & E0 & E1 & T & _).
    destruct states as [|s0 [|s1 [|]]]; try discriminate LS. cbn [nth_error] in E0, E1. injection E0 as ->. injection E1 as ->.
    replace (1 / INR 1) with 1 in T by (cbn; field). pose proof (proj2 T 0%nat _ _ _ eq_refl eq_refl eq_refl) as Y.
    change (phase (mod_manifold m)) with [q; c; p; pc] in Y.
    assert (Z : euler_scheme (fun _ => hamilton (ham_of spin0 (geodesic_controls exact_sv Torch))) 1 [q; c; p; pc] [[q; c; p; pc]] (phase (mod_manifold (sh_mod shx)))).
    { destruct Y as (k & A & B & C). exists k. split; [exact A|]. split; [|exact C]. revert B. apply hamilton_more. intros l x. apply ham_any; reflexivity. }
    apply spin_one_step in Z; try assumption. rewrite (leq_entry _ _ 0 row [0%nat; 0%nat] Z); [|cbn; rewrite Sq; reflexivity|cbn; lia].
    unfold entry. cbn. ring. }
  split.
  - rewrite (X (pt 1 0) (pt 0 0) (pt 1 1) (pt 0 0) sh 2 eq_refl eq_refl eq_refl eq_refl E). unfold reach. cbn. ring.
  - rewrite (X (pt 1 0) (pt 0 0) (tscal 2 (pt 1 1)) (tscal 2 (pt 0 0)) sh' 1 eq_refl eq_refl eq_refl eq_refl E'). unfold reach. cbn. ring.
Qed.
Print Assumptions C98_torch_euler_end_refuted.
