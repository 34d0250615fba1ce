(** Property theorems about registering objects on themselves with zero moments (C118). *)
From Coq Require Import Reals String List Arith Lia Lra.
From Verif Require Import Py RSum Tensor TensorFacts KernelModel KernelFacts FieldModel Fl MeshModel AttachmentModel
  SpecKernel SpecAttachment
  GeometryModel ModuleModel ShootingModel RegistrationModel SpecField SpecGeometry SpecModule SpecShooting SpecSmooth SpecMotion SpecTransport SpecRegistration SpecRigid SpecElsewhere SpecReduce
  GeometryFacts ModuleHistory ModuleLeaves ModuleMain ShootingPack ShootingDyn ShootingInst ShootingTotal ShootingExample SpecLinAlg LinAlg TransportFacts MotionShoot MotionMomentum RegistrationRun RegistrationShoot ReduceFacts RigidField RigidShoot PropRigid ElsewhereFacts
  SolverExists MotionFacts MotionExample PropShooting PropSmooth PropElsewhere PropFitElsewhere PropRegistration SpecEnergy ReverseShoot SpecScale ScaleFlow ScaleFacts PropScale PropUnitsReg SpecRest PropRest.
Import ListNotations.
Open Scope string_scope.
Open Scope list_scope.
Open Scope R_scope.

(** The attachments vanish between the objects, as they are, and the targets. *)
Definition on_target (att : list attachment) (defs : list deformable) (targets : list geom) : Prop :=
  forall i a o y q0 q x, nth_error att i = Some a -> nth_error defs i = Some o -> nth_error targets i = Some y ->
    lm_gd (df_man o) = Ok q0 -> teq q q0 -> to_deformed o q = Ok x -> a x y = Ok 0.

Lemma on_target_costs : forall att defs targets xs atts, on_target att defs targets ->
  Forall2 (fun o x => exists q0 q, lm_gd (df_man o) = Ok q0 /\ teq q q0 /\ to_deformed o q = Ok x) defs xs ->
  attachment_costs att xs targets = Ok atts -> SpecRegistration.total atts = 0.
Proof.
  induction att as [|a att IH]; intros defs targets xs atts ON F A; [injection A as <-; reflexivity|].
  destruct F as [|o x defs xs (q0 & q & E0 & T & D) F]; [injection A as <-; reflexivity|]. destruct targets as [|y targets]; [injection A as <-; reflexivity|].
  cbn [attachment_costs] in A. rewrite (ON 0%nat a o y q0 q x eq_refl eq_refl eq_refl E0 T D) in A. cbn [bind] in A. bok A l HL. injection A as <-.
  cbn [SpecRegistration.total fold_right]. fold (SpecRegistration.total l). rewrite (IH defs targets xs l); [ring| |exact F|exact HL].
  intros i b p z Q0 Q X N1 N2 N3. exact (ON (S i) b p z Q0 Q X N1 N2 N3).
Qed.

(** Objects already on their targets: with zero moments, every cost is 0. *)
Theorem C118_on_target : forall others sv b0 ag h r targets sch it t1 cost r1 d defs mods,
  exact_grad ag -> exact_solver sv -> filled h r = Ok (defs, mods) -> r_fit_controls r = false ->
  r_reduce r = "sum" \/ r_reduce r = "previous" ->
  wf_mod d (start defs mods) -> locals_total d (start defs mods) -> twin d delta still (start defs mods) (start defs mods) ->
  shootable (start defs mods) -> 0 < t1 -> (0 < it)%nat ->
  no_moments (mod_manifold (start defs mods)) -> on_target (r_att r) defs targets ->
  evaluate real_clock others sv b0 ag h r targets (scheme_name sch) it t1 [] = Ok (cost, r1) ->
  cost = [("deformation", 0); ("attach", 0)].
Proof.
  intros others sv b0 ag h r targets sch it t1 co r1 d defs mods EX HS F FC RR W LT TW SH T1 IT NM ON E.
  destruct (C118_registration others sv b0 ag h r targets sch it t1 co r1 d defs mods EX HS F FC RR W LT TW SH T1 IT NM E) as (xs & atts & FX & A & ->).
  rewrite (on_target_costs _ _ _ _ _ ON FX A), Rmult_0_r. reflexivity.
Qed.
Print Assumptions C118_on_target.

(** In particular points compared one by one with themselves. *)
Theorem C118_points_on_themselves : forall l : list (nat * nat * tensor * tensor * R),
  (forall dim nb q p w, In (dim, nb, q, p, w) l -> shape q = [nb; dim]) ->
  on_target (map (fun '(dim, nb, q, p, w) => as_attachment (AEuclid w)) l) (map (fun '(dim, nb, q, p, w) => DPoints (GLm dim nb q p)) l) (map (fun '(dim, nb, q, p, w) => [q]) l).
Proof.
  intros l SL i a o y q0 q x Na No Ny E0 (ST & T) D. rewrite nth_error_map in Na, No, Ny. destruct (nth_error l i) as [((((dim & nb) & r) & p) & w)|] eqn:E; [|discriminate Na].
  cbn [option_map] in Na, No, Ny. injection Na as <-. injection No as <-. injection Ny as <-. cbn [df_man lm_gd] in E0. injection E0 as <-. cbn in D. injection D as <-.
  pose proof (SL _ _ _ _ _ (nth_error_In _ _ E)) as S. unfold as_attachment, call. cbn [loss geo_of g_points bind att_weight].
  assert (Z : euclid_loss q r = 0).
  { unfold euclid_loss, nrows, ncols. rewrite ST, S. cbn [tnth nth]. apply rsum_zero. intros j J.
    rewrite rsum_zero; [apply sqrt_0|]. intros c Jc. rewrite T; [ring|]. rewrite ST, S. cbn. auto. }
  rewrite Z. cbn. f_equal. ring.
Qed.
Print Assumptions C118_points_on_themselves.

(** torch_euler, any clock, with the reduction "previous" (with "sum" evaluating fails: C32). *)
Theorem C118_registration_torch_euler : forall ck others sv b0 ag h r targets it t1 cost r1 d defs mods,
  exact_grad ag -> exact_solver sv -> filled h r = Ok (defs, mods) -> r_fit_controls r = false -> r_reduce r = "previous" ->
  wf_mod d (start defs mods) -> locals_total d (start defs mods) -> twin d delta still (start defs mods) (start defs mods) ->
  no_moments (mod_manifold (start defs mods)) ->
  evaluate ck others sv b0 ag h r targets "torch_euler" it t1 [] = Ok (cost, r1) ->
  exists xs atts, Forall2 (fun o x => exists q0 q, lm_gd (df_man o) = Ok q0 /\ teq q q0 /\ to_deformed o q = Ok x) defs xs /\
    attachment_costs (r_att r) xs targets = Ok atts /\
    cost = [("deformation", 0); ("attach", r_lam r * SpecRegistration.total atts)].
Proof.
  intros ck others sv b0 ag h r targets it t1 co r1 d defs mods EX HS F FC RR W LT TW NM E.
  destruct (evaluate_inv _ _ _ _ _ _ _ _ _ _ _ _ _ E) as (defs0 & mods0 & o & atts & F0 & D & A & _ & ->). rewrite F in F0. injection F0 as <- <-.
  unfold steps_of, controls_of in D. rewrite FC in D. destruct (compute_inv _ _ _ _ _ _ _ _ _ _ _ _ _ D) as (sh & ms & m' & S & M & _ & RD & DF & _). cbn [given option_map] in S, RD.
  destruct (C118_torch_euler ck others sv b0 ag it t1 true None d _ sh EX HS W LT TW NM S) as (V & _).
  destruct (euler_landed ck others sv b0 ag it t1 d _ sh EX W LT S) as (K & FZ & _).
  exists (dr_deformed o), atts. split; [|split; [exact A|]].
  - rewrite M, start_man in V. exact (rest_list defs _ ms _ V DF).
  - enough (X : dr_cost o = Some 0) by (rewrite X; reflexivity). unfold reduction in RD. rewrite RR in RD; cbn [String.eqb Ascii.eqb Bool.eqb] in RD.
    bok RD m1 HG. bok RD x HC. injection RD as <- _. f_equal.
    assert (AS : at_state (start defs mods) (geodesic_controls sv b0) (phase (mod_manifold (sh_mod sh))) = Ok m1).
    { destruct (write_state (start defs mods) _ K) as (n & En & _ & Mn & FN & _). unfold at_state. rewrite En. cbn [bind]. rewrite (geodesic_determined sv b0 n (sh_mod sh)) by congruence. exact HG. }
    refine (resting_cost sv b0 d (start defs mods) HS W LT TW (phase (mod_manifold (sh_mod sh))) m1 x _ AS HC). exact (resting_leq (start defs mods) _ _ (values_phase _ _ V) (no_moments_rest _ NM)).
Qed.
Print Assumptions C118_registration_torch_euler.

(** In continuous time: whatever solves Hamilton's equations and has zero moments at some
    time has zero velocity (descriptors and moments) at that time. *)
Theorem C118_motion : forall sv b0 d m c a b t, exact_solver sv -> wf_mod d m -> locals_total d m -> twin d delta still m m ->
  solution (ham_of m (geodesic_controls sv b0)) c a b -> a < t < b ->
  (exists g, c t = phase g /\ skel g = skel (mod_manifold m) /\ map shape (phase g) = map shape (phase (mod_manifold m)) /\ no_moments g) ->
  forall i x idx, nth_error (c t) i = Some x -> valid (shape x) idx -> derivable_pt_lim (fun s => entry (c s) i idx) t 0.
Proof.
  intros sv b0 d m c a b t HS W LT TW (_ & SO) I (g & Eg & K & SP & NM) i x idx N V. destruct (SO t I) as (_ & k & HK & D).
  assert (R : resting m (c t)).
  { rewrite Eg. split; [exact SP|]. split; [reflexivity|]. intros j s jdx Nj Vj. unfold ScaleFacts.pace. destruct (Nat.ltb_spec j (g_len (mod_manifold m))) as [J|J]; [ring|].
    rewrite nth_error_map in Nj. unfold entry. destruct (nth_error (phase g) j) as [y|] eqn:Ey; [|discriminate Nj]. injection Nj as <-.
    unfold phase in Ey. rewrite nth_error_app2 in Ey by (rewrite g_gd_len, (skel_len _ _ K); exact J). rewrite (NM y jdx (nth_error_In _ _ Ey) Vj). ring. }
  pose proof (resting_field sv b0 d m HS W LT TW (c t) k R HK) as Z. rewrite <- (Z i (shape x) idx); [exact (D i x idx N V)| |exact V].
  rewrite (proj1 HK), nth_error_map, N. reflexivity.
Qed.
Print Assumptions C118_motion.

(** The problem of C118_hypotheses with the point itself as its target. *)
Example C118_on_target_case : forall b0 sch it, (0 < it)%nat -> on_target (r_att (snd fresh_state)) [pt0] [[one11]] /\
  exists r1, evaluate real_clock no_others exact_sv b0 std_ag (fst fresh_state) (snd fresh_state) [[one11]] (scheme_name sch) it 1 [] = Ok ([("deformation", 0); ("attach", 0)], r1).
Proof.
  intros b0 sch it IT. destruct (C118_hypotheses b0 sch it IT) as (_ & F & _ & _ & W & LT & TW & SH & NM & _).
  assert (ON : on_target (r_att (snd fresh_state)) [pt0] [[one11]]).
  { refine (C118_points_on_themselves [(1%nat, 1%nat, one11, tzeros [1%nat; 1%nat], 3)] _). intros dim nb q p w [E|[]]. injection E as <- <- <- <- <-. reflexivity. }
  split; [exact ON|].
  assert (AO : forall a x y, In a [PropElsewhere.eu] -> is_ok (a x y)).
  { intros a x y [<-|[]]. unfold PropElsewhere.eu, as_attachment, call. cbn [loss bind att_weight]. eexists. reflexivity. }
  assert (OR : Forall ordinary [pt0]) by ((constructor; [|constructor]); (split; [reflexivity|]); (split; [cbn; eauto 10|]); intros q; eexists; reflexivity).
  destruct (C82_fixed_step_schemes no_others exact_sv b0 std_ag sch it 1 true None 1 (start [pt0] [gt1]) std_exact std_differentiates exact_sv_exact W) as (sh & S);
    [cbn; tauto|apply PropFitElsewhere.line_everywhere|cbn; tauto|exact SH|cbn; lia|lra|exact IT|].
  assert (NE : scheme_name sch <> "torch_euler") by (destruct sch; discriminate).
  destruct (C32_solvers_evaluate real_clock no_others exact_sv b0 std_ag (fst fresh_state) (snd fresh_state) [[one11]] (scheme_name sch) it 1 [pt0] [gt1] sh NE eq_refl eq_refl OR S eq_refl AO) as (co & xs & atts & r1 & _ & _ & E).
  assert (EC := C118_on_target no_others exact_sv b0 std_ag _ _ _ sch it 1 _ _ 1%nat [pt0] [gt1] std_exact exact_sv_exact F eq_refl (or_introl eq_refl) W LT TW SH ltac:(lra) IT NM ON E).
  rewrite EC in E. exists r1. exact E.
Qed.

(** A motion to which C118_motion applies: the one which stays where it is. *)
Example C118_motion_hypotheses : forall b0 (m := start [pt0] [gt1]), exists g, 
  solution (ham_of m (geodesic_controls exact_sv b0)) (fun _ => phase g) (-1) 1 /\
  skel g = skel (mod_manifold m) /\ map shape (phase g) = map shape (phase (mod_manifold m)) /\ no_moments g.
Proof.
  intros b0 m. destruct (C118_hypotheses b0 SEuler 1 ltac:(lia)) as (_ & F & _ & _ & W & LT & TW & SH & NM & _). fold m in W, LT, TW, SH, NM.
  destruct (C82_fixed_step_schemes no_others exact_sv b0 std_ag SEuler 1 1 true None 1 m std_exact std_differentiates exact_sv_exact W) as (sh & S);
    [cbn; tauto|apply PropFitElsewhere.line_everywhere|cbn; tauto|exact SH|cbn; lia|lra|lia|].
  destruct (C25_fixed_step_schemes no_others exact_sv b0 std_ag SEuler 1%nat 1 true None m sh std_exact SH Rlt_0_1 ltac:(lia) S) as (states & stages & mods & L & LS & _ & (_ & T) & (g & E0 & V) & E1 & AT & _).
  destruct states as [|g0 [|g1 [|? ?]]]; try discriminate L. destruct stages as [|ss [|? ?]]; try discriminate LS. injection E0 as ->.
  destruct (T 0%nat _ _ _ eq_refl eq_refl eq_refl) as (k & -> & HK & _). cbn [List.concat app mapM] in AT. bok AT mk HM.
  pose proof (values_phase _ _ V) as P. pose proof (resting_leq m _ _ P (no_moments_rest m NM)) as R. exists g. split; [split; [reflexivity|]|].
  - intros t _. split.
    + destruct (double_mods exact_sv b0 1 m exact_sv_exact W LT TW _ _ _ _ (proj1 R) (proj2 R) HM HM) as (x & Hx & _). exists x. apply ham_at. exists mk. auto.
    + exists k. split; [exact HK|]. intros i x idx N Vx. rewrite (resting_field exact_sv b0 1 m exact_sv_exact W LT TW _ k R HK i (shape x) idx); [apply derivable_pt_lim_const| |exact Vx].
      rewrite (proj1 HK), nth_error_map, N. reflexivity.
  - split; [apply V|]. split; [apply R|]. intros t idx I Vt. destruct V as (_ & (_ & C)). cbn in C. inversion C as [|u v us vs (S1 & G1) C2 E3 E4]; subst. rewrite <- E3 in I. inversion C2; subst. destruct I as [<-|[]]. rewrite G1 by exact Vt. reflexivity.
Qed.
