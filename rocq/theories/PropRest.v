(** Property theorems about shooting with all moments equal to zero (C118): nothing moves,
    at no cost. *)
From Coq Require Import Reals String List Arith Lia Lra.
From Verif Require Import Py RSum Tensor TensorFacts KernelModel KernelFacts FieldModel Fl MeshModel AttachmentModel
  SpecKernel SpecAttachment
  GeometryModel ModuleModel ShootingModel RegistrationModel SpecField SpecGeometry SpecModule SpecShooting SpecSmooth SpecMotion SpecTransport SpecRegistration SpecRigid SpecElsewhere SpecReduce
  GeometryFacts ModuleHistory ModuleLeaves ModuleMain ShootingPack ShootingDyn ShootingInst ShootingTotal ShootingExample SpecLinAlg LinAlg TransportFacts MotionShoot MotionMomentum RegistrationRun RegistrationShoot ReduceFacts RigidField RigidShoot PropRigid ElsewhereFacts
  SolverExists MotionFacts MotionExample ShootingEuler ShootingFinal DiffBuild SmoothRun PropShooting PropSmooth PropElsewhere PropFitElsewhere PropRegistration SpecEnergy EnergyFacts SpecConverge ConvergeFacts ReverseShoot SpecScale ScaleFlow ScaleFacts PropScale PropUnitsReg SpecRest.
Import ListNotations.
Open Scope string_scope.
Open Scope list_scope.
Open Scope R_scope.

Definition nought (k : list tensor) : Prop := forall i s idx, nth_error (map shape k) i = Some s -> valid s idx -> entry k i idx = 0.

Lemma nought_add a b : map shape b = map shape a -> nought a -> nought b -> nought (ladd a b).
Proof.
  intros S A B. assert (X : weighed (fun _ => 2) (ladd a b) (ladd a b)).
  { apply weighed_add; [exact S| |]; (split; [reflexivity|]); intros i s idx N V; [rewrite (A i s idx N V)|rewrite (B i s idx N V)]; ring. }
  intros i s idx N V. pose proof (proj2 X i s idx N V). lra.
Qed.
Lemma nought_scal r a : nought a -> nought (lscal r a).
Proof.
  intros A. assert (X : weighed (fun _ => 2) (lscal r a) (lscal r a)).
  { apply weighed_scal'. split; [reflexivity|]. intros i s idx N V. rewrite (A i s idx N V). ring. }
  intros i s idx N V. pose proof (proj2 X i s idx N V). lra.
Qed.
Lemma leq_add_nought l : forall k, map shape k = map shape l -> nought k -> leq (ladd l k) l.
Proof.
  induction l as [|x l IH]; intros [|y k] S N; try discriminate S; [constructor|]. cbn [map] in S. injection S as S1 S2. constructor.
  - split; [reflexivity|]. intros idx V. cbn in V |- *. pose proof (N 0%nat (shape y) idx eq_refl) as Z. unfold entry in Z. cbn [nth_error] in Z. rewrite Z; [ring|]. rewrite S1. exact V.
  - apply IH; [exact S2|]. intros i s idx E V. exact (N (S i) s idx E V).
Qed.

Section Rest.
Variables (sv : solver) (b0 : backend) (d : nat) (m : dmod).
Hypothesis HS : exact_solver sv.
Hypothesis W : wf_mod d m.
Hypothesis LT : locals_total d m.
Hypothesis TW : twin d delta still m m.
Notation shs := (map shape (phase (mod_manifold m))).
Notation n := (g_len (mod_manifold m)).
Notation H := (ham_of m (geodesic_controls sv b0)).

(** Doubling the moments changes nothing: they are zero. *)
Definition resting (l : list tensor) : Prop := map shape l = shs /\ weighed (pace 2 n) l l.

Lemma double_mods l l' a b : map shape l = shs -> weighed (pace 2 n) l l' ->
  at_state m (geodesic_controls sv b0) l = Ok a -> at_state m (geodesic_controls sv b0) l' = Ok b ->
  exists x, hamiltonian a = Ok x /\ hamiltonian b = Ok (2 * 2 * x) /\ cost a = Ok x /\ cost b = Ok (2 * 2 * x).
Proof.
  intros SL WL A B. destruct (set_ok m (quickened 2 (mod_manifold m)) (quick_skel 2 _)) as (m' & ES & MM & FM & _).
  apply (pace_mods 2 sv sv b0 b0 d m m' HS HS W LT TW ES l l' a b SL WL A). apply (at_any sv b0 m m'); [exact FM|rewrite MM; apply quick_skel|exact B].
Qed.

Lemma resting_field l k : resting l -> hamilton H l k -> nought k.
Proof.
  intros (SL & WL) HK.
  assert (X : weighed (fun i => 2 * 2 / 2 * pace 2 n i) k k).
  { apply (hamilton_weighed H H shs (pace 2 n) (2 * 2) 2) with (l := l) (l' := l); try assumption.
    - intros y y' v v' SY WY V V'. apply ham_at in V. apply ham_at in V'. destruct V as (a & A & HA). destruct V' as (b & B & HB).
      destruct (double_mods y y' a b SY WY A B) as (x & H1 & H2 & _). congruence.
    - intros i _. apply pace_nonzero. lra.
    - intros n' i E I. rewrite map_length, phase_len in E. assert (n' = n) by lia. subst n'. apply pace_product. exact I. }
  intros i s idx N V. pose proof (proj2 X i s idx N V) as E. unfold pace in E. destruct (Nat.ltb i n); lra.
Qed.
Lemma resting_cost l a x : resting l -> at_state m (geodesic_controls sv b0) l = Ok a -> cost a = Ok x -> x = 0.
Proof. intros (SL & WL) A C. destruct (double_mods l l a a SL WL A A) as (y & _ & _ & C1 & C2). rewrite C in C1, C2. injection C1 as <-. injection C2 as E. lra. Qed.
Lemma resting_leq l l' : leq l' l -> resting l -> resting l'.
Proof. intros E (S & WL). split; [rewrite (ShootingPack.leq_shape _ _ E); exact S|]. exact (weighed_leq _ _ _ _ _ E E WL). Qed.
Lemma resting_next l k r : resting l -> map shape k = map shape l -> nought k -> leq r (ladd l k) -> leq r l.
Proof. intros _ S N E. exact (leq_trans' _ _ _ E (leq_add_nought l k S N)). Qed.

Ltac noughts := repeat first [assumption | apply nought_add | apply nought_scal | rewrite shape_ladd | rewrite shape_lscal | congruence].

Lemma step_rests sch dt l ss r : resting l -> scheme_step sch (fun _ => hamilton H) dt l ss r -> leq r l /\ Forall (fun x => leq x l) ss.
Proof.
  intros R. pose proof (leq_refl' l) as LR. destruct sch; cbn [scheme_step].
  - intros (k & -> & K & E). pose proof (resting_field l k R K) as N. pose proof (proj1 K) as SK. split; [|repeat constructor; assumption].
    apply (resting_next l (lscal dt k)); try assumption; noughts.
  - intros (k1 & l2 & k2 & -> & K1 & E2 & K2 & E). pose proof (resting_field l k1 R K1) as N1. pose proof (proj1 K1) as S1.
    assert (L2 : leq l2 l) by (apply (resting_next l (lscal (dt / 2) k1)); try assumption; noughts).
    pose proof (resting_leq _ _ L2 R) as R2. pose proof (resting_field l2 k2 R2 K2) as N2. pose proof (proj1 K2) as S2. rewrite (ShootingPack.leq_shape _ _ L2) in S2.
    split; [|repeat constructor; assumption]. apply (resting_next l (lscal dt k2)); try assumption; noughts.
  - intros (k1 & l2 & k2 & l3 & k3 & l4 & k4 & -> & K1 & E2 & K2 & E3 & K3 & E4 & K4 & E). pose proof (resting_field l k1 R K1) as N1. pose proof (proj1 K1) as S1.
    assert (L2 : leq l2 l) by (apply (resting_next l (lscal (dt / 3) k1)); try assumption; noughts).
    pose proof (resting_leq _ _ L2 R) as R2. pose proof (resting_field l2 k2 R2 K2) as N2. pose proof (proj1 K2) as S2. rewrite (ShootingPack.leq_shape _ _ L2) in S2.
    assert (L3 : leq l3 l) by (eapply resting_next; [exact R| | |exact E3]; noughts).
    pose proof (resting_leq _ _ L3 R) as R3. pose proof (resting_field l3 k3 R3 K3) as N3. pose proof (proj1 K3) as S3. rewrite (ShootingPack.leq_shape _ _ L3) in S3.
    assert (L4 : leq l4 l) by (eapply resting_next; [exact R| | |exact E4]; noughts).
    pose proof (resting_leq _ _ L4 R) as R4. pose proof (resting_field l4 k4 R4 K4) as N4. pose proof (proj1 K4) as S4. rewrite (ShootingPack.leq_shape _ _ L4) in S4.
    split; [eapply resting_next; [exact R| | |exact E]; noughts|repeat constructor; assumption].
Qed.

Lemma trajectory_rests sch dt states stages l0 : trajectory sch (fun _ => hamilton H) dt states stages -> nth_error states 0 = Some l0 -> resting l0 ->
  forall i l, nth_error states i = Some l -> leq l l0 /\ forall ss, nth_error stages i = Some ss -> Forall (fun x => leq x l0) ss.
Proof.
  intros (L & T) E0 R. assert (ST : forall i l, nth_error states i = Some l -> leq l l0).
  { induction i as [|i IH]; intros l El; [rewrite E0 in El; injection El as <-; apply leq_refl'|].
    assert (I : (S i < length states)%nat) by (apply nth_error_Some; congruence).
    destruct (nth_error states i) as [x|] eqn:Ex; [|apply nth_error_None in Ex; lia]. destruct (nth_error stages i) as [ss|] eqn:Es; [|apply nth_error_None in Es; lia].
    pose proof (IH x eq_refl) as LX. apply (leq_trans' _ x); [|exact LX]. exact (proj1 (step_rests sch dt x ss l (resting_leq _ _ LX R) (T i x ss l Ex Es El))). }
  intros i l El. pose proof (ST i l El) as LX. split; [exact LX|]. intros ss Es.
  assert (I : (i < length stages)%nat) by (apply nth_error_Some; congruence). destruct (nth_error states (S i)) as [r|] eqn:Er; [|apply nth_error_None in Er; lia].
  destruct (step_rests sch dt l ss r (resting_leq _ _ LX R) (T i l ss r El Es Er)) as (_ & F). apply (Forall_impl _ (fun x E => leq_trans' _ _ _ E LX) F).
Qed.

Lemma no_moments_rest : no_moments (mod_manifold m) -> resting (phase (mod_manifold m)).
Proof.
  intros NM. split; [reflexivity|]. split; [reflexivity|]. intros i s idx N V. unfold pace. destruct (Nat.ltb_spec i n) as [I|I]; [ring|].
  rewrite nth_error_map in N. unfold entry. destruct (nth_error (phase (mod_manifold m)) i) as [t|] eqn:E; [|discriminate N]. injection N as <-.
  unfold phase in E. rewrite nth_error_app2 in E by (rewrite g_gd_len; exact I). rewrite (NM t idx (nth_error_In _ _ E) V). ring.
Qed.
End Rest.

Lemma phase_values g g' : skel g' = skel g -> leq (phase g') (phase g) -> same_values g' g.
Proof.
  intros K E. unfold phase in E.
  assert (X : forall (a b a' b' : list tensor), length a = length a' -> leq (a ++ b) (a' ++ b') -> leq a a' /\ leq b b').
  { clear. induction a as [|x a IH]; intros b [|y a'] b' L E; try discriminate L; [split; [constructor|exact E]|]. inversion E; subst.
    destruct (IH b a' b') as (A & B); [injection L; auto|assumption|]. split; [constructor; assumption|exact B]. }
  apply X in E; [|rewrite !g_gd_len; apply skel_len; congruence]. split; split; try congruence; apply E.
Qed.

(** With all moments zero, the fixed-step schemes leave everything where it is, and every
    recorded cost is 0. *)
Theorem C118_fixed_step : forall others sv b0 ag sch it t1 keep costs0 d m sh,
  exact_grad ag -> exact_solver sv -> wf_mod d m -> locals_total d m -> twin d delta still m m -> shootable m -> 0 < t1 -> (0 < it)%nat ->
  no_moments (mod_manifold m) ->
  shoot real_clock others sv b0 ag (scheme_name sch) it t1 None keep costs0 m = Ok sh ->
  unmoved (mod_manifold m) sh /\ sh_costs sh = Some (repeat 0 it).
Proof.
  intros others sv b0 ag sch it t1 keep costs0 d m sh EX HS W LT TW (ms & EM & SI & SP) T1 IT NM E. rewrite EM in E, SP.
  pose proof (whole_moments sv b0 ag t1 it keep ms T1 IT SI SP EX others sch costs0 sh E) as X. rewrite <- EM in X. clear E EM SI SP. destruct X as (states & stages & mods & costs & L & LS & LE & T & (g0 & E0 & V0) & E1 & K & AT & CS & CL & CR & KE).
  pose proof (no_moments_rest m NM) as R0. pose proof (values_phase _ _ V0) as P0. pose proof (resting_leq m _ _ P0 R0) as R.
  assert (Q := trajectory_rests sv b0 d m HS W LT TW sch _ _ _ _ T (map_nth_error phase 0 states E0) R).
  assert (ST : forall i g, nth_error states i = Some g -> same_values g (mod_manifold m)).
  { intros i g Eg. rewrite Forall_forall in K. apply phase_values; [exact (K g (nth_error_In _ _ Eg))|]. exact (leq_trans' _ _ _ (proj1 (Q i _ (map_nth_error phase i states Eg))) P0). }
  split; [split; [exact (ST it _ E1)|]|].
  - destruct keep; [|rewrite KE; exact Logic.I]. destruct KE as (ks & _ & ->). cbn [in_states]. apply Forall_forall. intros g I. apply In_nth_error in I. destruct I as (i & Ei). exact (ST i g Ei).
  - rewrite CS. f_equal. apply costs_eq; [rewrite repeat_length; exact CL|]. intros k x y Ex Ey. apply nth_error_In, repeat_spec in Ey. subst y.
    assert (Kt : (k < it)%nat) by (rewrite <- CL; apply nth_error_Some; congruence). destruct (CR k Kt) as (mk & z & Em & Cm & Ez). rewrite Ex in Ez. injection Ez as <-.
    destruct (mapM_back _ _ _ _ _ AT Em) as (l & El & Al).
    assert (RL : resting m l).
    { apply nth_error_In, in_concat in El. destruct El as (ss & Is & Il). apply In_nth_error in Is. destruct Is as (i & Es). assert (I : (i < it)%nat) by (rewrite <- LS; apply nth_error_Some; congruence).
      destruct (nth_error states i) as [g|] eqn:Eg; [|apply nth_error_None in Eg; lia]. pose proof (proj2 (Q i _ (map_nth_error phase i states Eg)) ss Es) as F. rewrite Forall_forall in F.
      exact (resting_leq m _ _ (F l Il) R). }
    exact (resting_cost sv b0 d m HS W LT TW l mk x RL Al Cm).
Qed.
Print Assumptions C118_fixed_step.

(** torch_euler, any clock; the same for the costs of the modules it goes through. *)
Theorem C118_torch_euler : forall ck others sv b0 ag it t1 keep costs0 d m sh,
  exact_grad ag -> exact_solver sv -> wf_mod d m -> locals_total d m -> twin d delta still m m ->
  no_moments (mod_manifold m) ->
  shoot ck others sv b0 ag "torch_euler" it t1 None keep costs0 m = Ok sh ->
  unmoved (mod_manifold m) sh.
Proof.
  intros ck others sv b0 ag it t1 keep costs0 d m sh EX HS W LT TW NM E. destruct (wf_mod_manifold d m W) as (WG & _).
  destruct (C25_torch_euler_steps ck others sv b0 ag it t1 None keep costs0 m sh EX (wf_shapes d _ WG) E) as (IT & states & mods & L & LM & E0 & E1 & T & AT & K & CS & KE).
  assert (Q := trajectory_rests sv b0 d m HS W LT TW SEuler _ _ _ _ T (map_nth_error phase 0 states E0) (no_moments_rest m NM)).
  assert (ST : forall i g, nth_error states i = Some g -> same_values g (mod_manifold m)).
  { intros i g Eg. rewrite Forall_forall in K. apply phase_values; [exact (K g (nth_error_In _ _ Eg))|]. exact (proj1 (Q i _ (map_nth_error phase i states Eg))). }
  split; [exact (ST it _ E1)|]. destruct keep; [|rewrite KE; exact Logic.I]. destruct KE as (ks & _ & ->). cbn [in_states]. apply Forall_forall. intros g I.
  apply In_nth_error in I. destruct I as (i & Ei). exact (ST i g Ei).
Qed.
Print Assumptions C118_torch_euler.

(** The geodesic controls of a module whose moments are zero cost nothing. *)
Theorem C118_controls : forall sv b0 d m m1, exact_solver sv -> wf_mod d m -> locals_total d m -> twin d delta still m m ->
  no_moments (mod_manifold m) -> geodesic_controls sv b0 m = Ok m1 -> cost m1 = Ok 0 /\ hamiltonian m1 = Ok 0.
Proof.
  intros sv b0 d m m1 HS W LT TW NM G. destruct (no_moments_rest m NM) as (SL & WL).
  assert (A : at_state m (geodesic_controls sv b0) (phase (mod_manifold m)) = Ok m1).
  { destruct (write_state m (mod_manifold m) eq_refl) as (x & E & _ & M & F & _). unfold at_state. rewrite E. cbn [bind]. rewrite (geodesic_determined sv b0 x m F M). exact G. }
  destruct (double_mods sv b0 d m HS W LT TW _ _ _ _ SL WL A A) as (x & H1 & H2 & C1 & C2). rewrite H1 in H2. injection H2 as E. assert (x = 0) by lra. subst x. auto.
Qed.
Print Assumptions C118_controls.

(** ** Registration *)

Lemma rest_list : forall defs rest ms xs, same_values (GComp (map mod_manifold ms)) (GComp (map df_man defs ++ rest)) ->
  deformed_list defs (firstn (length defs) ms) = Ok xs ->
  Forall2 (fun o x => exists q0 q, lm_gd (df_man o) = Ok q0 /\ teq q q0 /\ to_deformed o q = Ok x) defs xs.
Proof.
  induction defs as [|o defs IH]; intros rest ms xs V D; [cbn in D; injection D as <-; constructor|].
  destruct V as ((K & G) & (_ & C)). destruct ms as [|m ms]; [discriminate K|]. cbn [map app skel] in K. injection K as K KS.
  cbn [map app g_gd g_cotan flat_map] in G, C. destruct (skel_g_gd_len _ _ K) as (L1 & L2). apply split_teq in G; [|exact L1]. apply split_teq in C; [|exact L2].
  cbn [length firstn deformed_list] in D. bok D q Hq. bok D x Hx. bok D xsr Hxs. injection D as <-. constructor.
  - destruct (mod_manifold m) as [dim nb qm pm| | | | |] eqn:EM; try discriminate Hq. cbn [lm_gd] in Hq. injection Hq as <-.
    destruct (df_man o) as [dim' nb' q0 p0| | | | |]; try discriminate K. cbn [g_gd] in G. destruct G as (G & _). inversion G; subst. exists q0, qm. auto.
  - apply (IH rest ms xsr); [|exact Hxs]. split; split; try (cbn [skel]; congruence); [apply G|apply C].
Qed.

(** Evaluating a registration model whose moments are all zero (as they are when it is
    built on objects and modules without given moments) compares the objects, as they are,
    with the targets; the deformation costs 0. *)
Theorem C118_registration : forall others sv b0 ag h r targets sch it t1 cost r1 d defs mods,
  exact_grad ag -> exact_solver sv -> filled h r = Ok (defs, mods) -> r_fit_controls r = false ->
  r_reduce r = "sum" \/ r_reduce r = "previous" ->
  wf_mod d (start defs mods) -> locals_total d (start defs mods) -> twin d delta still (start defs mods) (start defs mods) ->
  shootable (start defs mods) -> 0 < t1 -> (0 < it)%nat ->
  no_moments (mod_manifold (start defs mods)) ->
  evaluate real_clock others sv b0 ag h r targets (scheme_name sch) it t1 [] = Ok (cost, r1) ->
  exists xs atts, Forall2 (fun o x => exists q0 q, lm_gd (df_man o) = Ok q0 /\ teq q q0 /\ to_deformed o q = Ok x) defs xs /\
    attachment_costs (r_att r) xs targets = Ok atts /\
    cost = [("deformation", 0); ("attach", r_lam r * SpecRegistration.total atts)].
Proof.
  intros others sv b0 ag h r targets sch it t1 co r1 d defs mods EX HS F FC RR W LT TW SH T1 IT NM E.
  destruct (evaluate_inv _ _ _ _ _ _ _ _ _ _ _ _ _ E) as (defs0 & mods0 & o & atts & F0 & D & A & _ & ->). rewrite F in F0. injection F0 as <- <-.
  unfold steps_of, controls_of in D. rewrite FC in D. destruct (compute_inv _ _ _ _ _ _ _ _ _ _ _ _ _ D) as (sh & ms & m' & S & M & _ & RD & DF & _). cbn [given option_map] in S, RD.
  destruct (C118_fixed_step others sv b0 ag sch it t1 true None d _ sh EX HS W LT TW SH T1 IT NM S) as ((V & _) & CS).
  exists (dr_deformed o), atts. split; [|split; [exact A|]].
  - rewrite M, start_man in V. exact (rest_list defs _ ms _ V DF).
  - enough (X : dr_cost o = Some 0) by (rewrite X; reflexivity). unfold reduction in RD. destruct RR as [RR|RR]; rewrite RR in RD; cbn [String.eqb Ascii.eqb Bool.eqb] in RD.
    + rewrite CS in RD. injection RD as <- _. f_equal. rewrite py_sum_total. clear. induction it as [|n IH]; cbn; [reflexivity|]. unfold SpecRegistration.total in *. cbn. rewrite IH. ring.
    + bok RD m1 HG. bok RD x HC. injection RD as <- _. f_equal.
      destruct (final_state others sv b0 ag sch it t1 _ sh EX T1 IT SH S) as (_ & _ & _ & _ & _ & _ & K & SG & SC).
      assert (AS : at_state (start defs mods) (geodesic_controls sv b0) (phase (mod_manifold (sh_mod sh))) = Ok m1).
      { destruct (write_state (start defs mods) _ K) as (n & En & _ & Mn & FN & _). unfold at_state. rewrite En. cbn [bind].
        rewrite (geodesic_determined sv b0 n (sh_mod sh)); [exact HG|rewrite FN; symmetry; exact (shoot_key _ _ _ _ _ _ _ _ _ _ _ _ _ S)|exact Mn]. }
      refine (resting_cost sv b0 d (start defs mods) HS W LT TW (phase (mod_manifold (sh_mod sh))) m1 x _ AS HC). exact (resting_leq (start defs mods) _ _ (values_phase _ _ V) (no_moments_rest _ NM)).
Qed.
Print Assumptions C118_registration.

(** A concrete problem: a point at 1 with a zero moment, a global translation, the target
    at 7; any scheme and number of steps. *)
Definition pt0 : deformable := DPoints (GLm 1 1 one11 (tzeros [1%nat; 1%nat])).
Definition fresh_model : res (heap * reg) := registration (mkHeap [] []) [pt0] [gt1] [PropElsewhere.eu] false false [] 2 [] "sum" None None.
Definition fresh_state : heap * reg := Eval cbv -[IZR one11 tzeros PropElsewhere.eu] in value no_model fresh_model.

Example C118_hypotheses : forall b0 sch it, (0 < it)%nat ->
  fresh_model = Ok fresh_state /\ filled (fst fresh_state) (snd fresh_state) = Ok ([pt0], [gt1]) /\ r_fit_controls (snd fresh_state) = false /\ r_reduce (snd fresh_state) = "sum" /\
  wf_mod 1 (start [pt0] [gt1]) /\ locals_total 1 (start [pt0] [gt1]) /\ twin 1 delta still (start [pt0] [gt1]) (start [pt0] [gt1]) /\ shootable (start [pt0] [gt1]) /\
  no_moments (mod_manifold (start [pt0] [gt1])) /\
  exists a r1, evaluate real_clock no_others exact_sv b0 std_ag (fst fresh_state) (snd fresh_state) [[PropElsewhere.goal0]] (scheme_name sch) it 1 [] = Ok ([("deformation", 0); ("attach", 2 * a)], r1).
Proof.
  intros b0 sch it IT.
  assert (H1 : fresh_model = Ok fresh_state) by (vm_compute; reflexivity).
  assert (F : filled (fst fresh_state) (snd fresh_state) = Ok ([pt0], [gt1])) by reflexivity.
  assert (W : wf_mod 1 (start [pt0] [gt1])) by (cbn; repeat split; try lra; discriminate). assert (LT : locals_total 1 (start [pt0] [gt1])) by (cbn; tauto).
  assert (TW : twin 1 delta still (start [pt0] [gt1]) (start [pt0] [gt1])) by (cbn; repeat split).
  assert (SH : shootable (start [pt0] [gt1])) by (eexists; split; [reflexivity|]; split; [repeat constructor|cbn; auto 10]).
  assert (NM : no_moments (mod_manifold (start [pt0] [gt1]))) by (intros t idx I _; cbn in I; destruct I as [<-|[]]; reflexivity).
  do 9 (split; [first [assumption|reflexivity]|]).
  assert (AO : forall a x y, In a [PropElsewhere.eu] -> is_ok (a x y)).
  { intros a x y [<-|[]]. unfold PropElsewhere.eu, as_attachment, call. cbn [loss bind att_weight]. eexists. reflexivity. }
  assert (OR : Forall ordinary [pt0]) by ((constructor; [|constructor]); (split; [reflexivity|]); (split; [cbn; eauto 10|]); intros q; eexists; reflexivity).
  destruct (C82_fixed_step_schemes no_others exact_sv b0 std_ag sch it 1 true None 1 (start [pt0] [gt1]) std_exact std_differentiates exact_sv_exact W) as (sh & S);
    [cbn; tauto|apply PropFitElsewhere.line_everywhere|cbn; tauto|exact SH|cbn; lia|lra|exact IT|].
  assert (NE : scheme_name sch <> "torch_euler") by (destruct sch; discriminate).
  destruct (C32_solvers_evaluate real_clock no_others exact_sv b0 std_ag (fst fresh_state) (snd fresh_state) [[PropElsewhere.goal0]] (scheme_name sch) it 1 [pt0] [gt1] sh NE eq_refl eq_refl OR S eq_refl AO) as (co & xs & atts & r1 & _ & _ & E).
  destruct (C118_registration no_others exact_sv b0 std_ag _ _ _ sch it 1 _ _ 1%nat [pt0] [gt1] std_exact exact_sv_exact F eq_refl (or_introl eq_refl) W LT TW SH ltac:(lra) IT NM E) as (ys & atts' & _ & _ & EC).
  rewrite EC in E. eexists _, _. exact E.
Qed.
