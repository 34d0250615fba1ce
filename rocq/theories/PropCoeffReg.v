(** Property theorems about multiplying all coefficients of a registration problem and lam by
    a number (C116): the same problem. *)
From Coq Require Import Reals String List Arith Lia Lra.
From Verif Require Import Py RSum Tensor TensorFacts KernelModel KernelFacts FieldModel Fl MeshModel AttachmentModel
  SpecKernel SpecAttachment
  GeometryModel ModuleModel ShootingModel RegistrationModel SpecField SpecGeometry SpecModule SpecShooting SpecMotion SpecTransport SpecRegistration SpecRigid SpecElsewhere SpecReduce
  GeometryFacts ModuleHistory ModuleLeaves ModuleMain ShootingPack ShootingDyn ShootingInst ShootingTotal ShootingExample SpecLinAlg LinAlg TransportFacts MotionShoot MotionMomentum RegistrationRun RegistrationShoot ReduceFacts RigidField RigidShoot PropRigid ElsewhereFacts
  SolverExists MotionFacts MotionExample PropShooting PropSmooth PropElsewhere PropFitElsewhere PropRegistration SpecUnits SpecUnitsReg UnitsReg PropUnits PropUnitsReg ReverseShoot SpecScale ScaleFlow ScaleFacts PropScale SpecCoeff CoeffFacts PropCoeff.
Import ListNotations.
Open Scope string_scope.
Open Scope list_scope.
Open Scope R_scope.

(** ** Attachments *)
Lemma attached_same k0 k defs att ts defs' att' ts' : attached_units 1 1 defs att ts defs' att' ts' -> forall ms ms' xs xs',
  Forall2 (fun o m => exists dim nb q0 p0 q p, df_man o = GLm dim nb q0 p0 /\ mod_manifold m = GLm dim nb q p /\ shape q = shape q0) defs ms ->
  Forall2 (fun m m' => same_values (mod_manifold m') (quickened k (mod_manifold m))) ms ms' ->
  deformed_list defs ms = Ok xs -> deformed_list defs' ms' = Ok xs' -> k0 = 1 ->
  attachment_costs att' xs' ts' = match attachment_costs att xs ts with Ok l => Ok (map (Rmult k0) l) | Err e => Err e end.
Proof.
  induction 1 as [|o a y defs att ts o' a' y' defs' att' ts' SK GE IN _ IH]; intros ms ms' xs xs' F P D D' K0.
  - inversion F; subst. inversion P; subst. cbn in D, D'. injection D as <-. injection D' as <-. reflexivity.
  - inversion F as [|? m ? msr Hm Fr]; subst. inversion P as [|? m' ? msr' Hv Pr]; subst. cbn [deformed_list] in D, D'.
    destruct Hm as (dim & nb & q0 & p0 & q & p & Eo & Em & S). rewrite Em in D, Hv. cbn [lm_gd bind] in D. bok D x Hx. bok D xsr Hxs. injection D as <-.
    bok D' q' Hq'. bok D' x' Hx'. bok D' xsr' Hxs'. injection D' as <-.
    assert (T : teq q' (tscal 1 q)).
    { destruct Hv as ((K & V) & _). destruct (mod_manifold m'); try discriminate K. cbn [lm_gd] in Hq'. injection Hq' as <-. cbn in V. inversion V; subst. rewrite tscal_id. assumption. }
    pose proof (IH msr msr' xsr xsr' Fr Pr Hxs Hxs' eq_refl) as C.
    cbn [attachment_costs]. assert (E0 : lm_gd (df_man o) = Ok q0) by (rewrite Eo; reflexivity). rewrite C, (IN q0 q q' x x' E0 S T Hx Hx').
    destruct (a x y) as [r|e]; cbn [bind]; [|reflexivity]. destruct (attachment_costs att xsr ts); reflexivity.
Qed.
Lemma members_dearer k ms : forall ms', same_values (GComp (map mod_manifold ms')) (quickened k (GComp (map mod_manifold ms))) ->
  Forall2 (fun m m' => same_values (mod_manifold m') (quickened k (mod_manifold m))) ms ms'.
Proof.
  induction ms as [|m ms IH]; intros [|m' ms'] ((K & G) & (_ & C)); cbn [quickened skel map] in K; try discriminate K; constructor.
  - injection K as K _. cbn [quickened g_gd g_cotan map flat_map] in G, C. destruct (skel_g_gd_len _ _ K) as (L1 & L2).
    apply split_teq in G; [|exact L1]. apply split_teq in C; [|exact L2]. split; split; try exact K; [apply G|apply C].
  - injection K as K KS. apply IH. cbn [quickened g_gd g_cotan map flat_map] in G, C. destruct (skel_g_gd_len _ _ K) as (L1 & L2).
    apply split_teq in G; [|exact L1]. apply split_teq in C; [|exact L2]. split; split; try (cbn [quickened skel]; congruence); [apply G|apply C].
Qed.

(** ** The cost at the end *)
Lemma arrived sv b0 m sh m1 : landed sh m -> geodesic_controls sv b0 (sh_mod sh) = Ok m1 -> at_state m (geodesic_controls sv b0) (phase (mod_manifold (sh_mod sh))) = Ok m1.
Proof.
  intros (K & F & _) G. destruct (write_state m _ K) as (n & E & _ & M & FN & _). unfold at_state. rewrite E. cbn [bind]. rewrite (geodesic_determined sv b0 n (sh_mod sh)) by congruence. exact G.
Qed.
Lemma previous_dearer d k sv sv' b0 b0' m m' sh sh' m1 m1' x x' : 0 < k -> exact_solver sv -> exact_solver sv' ->
  priced m -> wf_mod d m -> locals_total d m -> twin d delta still m m -> at_price k m m' -> landed sh m -> landed sh' m' ->
  same_values (mod_manifold (sh_mod sh')) (quickened k (mod_manifold (sh_mod sh))) ->
  geodesic_controls sv b0 (sh_mod sh) = Ok m1 -> geodesic_controls sv' b0' (sh_mod sh') = Ok m1' -> cost m1 = Ok x -> cost m1' = Ok x' -> x' = k * x.
Proof.
  intros K0 HS HS' P W LT TW AP LD LD' V G G' C C'. pose proof (arrived _ _ _ _ _ LD G) as A. pose proof (arrived _ _ _ _ _ LD' G') as A'.
  assert (SL : map shape (phase (mod_manifold (sh_mod sh))) = map shape (phase (mod_manifold m))) by (destruct LD as (_ & _ & SG & SC); unfold phase; rewrite !map_app, SG, SC; reflexivity).
  destruct (price_mods k sv sv' b0 b0' d m m' K0 HS HS' P W LT TW AP (phase (mod_manifold (sh_mod sh))) (phase (mod_manifold (sh_mod sh'))) m1 m1' SL) as (z & _ & _ & C1 & C2); [|exact A|exact A'|congruence].
  pose proof (values_phase _ _ V) as E. rewrite quick_phase in E.
  apply (weighed_leq _ (phase (mod_manifold (sh_mod sh))) (quick k (phase (mod_manifold (sh_mod sh))))); [apply leq_refl'|exact E|]. apply quick_weighed. apply (pace_len m). exact SL.
Qed.

Lemma dearer_outcome ck ck' others others' sv sv' b0 b0' ag ag' h h' r r' targets targets' name it t1 t1' cost cost' r1 r1' d k defs mods defs' mods' :
  0 < k -> exact_solver sv -> exact_solver sv' ->
  evaluate ck others sv b0 ag h r targets name it t1 [] = Ok (cost, r1) ->
  evaluate ck' others' sv' b0' ag' h' r' targets' name it t1' [] = Ok (cost', r1') ->
  filled h r = Ok (defs, mods) -> filled h' r' = Ok (defs', mods') ->
  r_fit_controls r = false -> r_fit_controls r' = false -> r_reduce r' = r_reduce r ->
  r_reduce r = "sum" \/ r_reduce r = "previous" \/ ~ known (r_reduce r) ->
  priced (start defs mods) -> wf_mod d (start defs mods) -> locals_total d (start defs mods) -> twin d delta still (start defs mods) (start defs mods) ->
  at_price k (start defs mods) (start defs' mods') ->
  attached_units 1 1 defs (r_att r) targets defs' (r_att r') targets' ->
  (forall sh sh', shoot ck others sv b0 ag name it t1 None true None (start defs mods) = Ok sh ->
     shoot ck' others' sv' b0' ag' name it t1' None true None (start defs' mods') = Ok sh' ->
     shot_dearer k sh sh' /\ landed sh (start defs mods)) ->
  exists dc a, cost = match dc with Some x => [("deformation", x)] | None => [] end ++ [("attach", r_lam r * a)] /\
    cost' = match dc with Some x => [("deformation", k * x)] | None => [] end ++ [("attach", r_lam r' * (1 * a))].
Proof.
  intros K0 HS HS' E E' F F' FC FC' ER RR P W LT TW AP AE RUN.
  destruct (evaluate_inv _ _ _ _ _ _ _ _ _ _ _ _ _ E) as (defs0 & mods0 & o & atts & F0 & D & A & _ & ->). rewrite F in F0. injection F0 as <- <-.
  destruct (evaluate_inv _ _ _ _ _ _ _ _ _ _ _ _ _ E') as (defs0' & mods0' & o' & atts' & F0' & D' & A' & _ & ->). rewrite F' in F0'. injection F0' as <- <-.
  unfold steps_of, controls_of in D, D'. rewrite FC in D. rewrite FC' in D'.
  destruct (compute_inv _ _ _ _ _ _ _ _ _ _ _ _ _ D) as (sh & ms & n & S & M & _ & RD & DF & _). destruct (compute_inv _ _ _ _ _ _ _ _ _ _ _ _ _ D') as (sh' & ms' & n' & S' & M' & _ & RD' & DF' & _).
  cbn [given option_map] in S, S', RD, RD'. destruct (RUN sh sh' S S') as ((V & CS & _) & LD).
  assert (LD' : landed sh' (start defs' mods')).
  { split; [exact (shoot_skel _ _ _ _ _ _ _ _ _ _ _ _ _ S')|]. split; [exact (shoot_key _ _ _ _ _ _ _ _ _ _ _ _ _ S')|].
    destruct LD as (_ & _ & SG & SC). destruct (price_shapes k _ _ AP) as (PG & PC). destruct (values_shapes _ _ V) as (VG & VC). rewrite quick_gd in VG. rewrite quick_cotan, tscal_shapes in VC. split; congruence. }
  assert (EA : attachment_costs (r_att r') (dr_deformed o') targets' = match attachment_costs (r_att r) (dr_deformed o) targets with Ok l => Ok (map (Rmult 1) l) | Err e => Err e end).
  { destruct LD as (K & _ & G & _). rewrite M, start_man in K, G. rewrite M, M' in V. cbn [mod_manifold] in K, G, V. rewrite (attached_units_len _ _ _ _ _ _ _ _ AE) in DF'.
    refine (attached_same 1 k defs _ _ defs' _ _ AE _ _ _ _ (heads defs _ ms K G (ex_intro _ _ DF)) _ DF DF' eq_refl). apply forall2_first, members_dearer. exact V. }
  rewrite A, A' in EA. injection EA as ->.
  exists (dr_cost o), (SpecRegistration.total atts). split; [reflexivity|]. rewrite <- (total_times 1 atts). f_equal.
  enough (X : dr_cost o' = option_map (fun x => k * x) (dr_cost o)) by (rewrite X; destruct (dr_cost o); reflexivity). rewrite ER in RD'. unfold reduction in RD, RD'.
  destruct RR as [RR|[RR|RR]].
  - rewrite RR in RD, RD'. cbn [String.eqb Ascii.eqb Bool.eqb] in RD, RD'. rewrite CS in RD'. destruct (sh_costs sh) as [l|]; [|discriminate RD]. cbn [option_map] in RD'. injection RD as <- _. injection RD' as <- _.
    cbn [option_map]. change (map (Rmult k) l) with (map (fun x => k * x) l). rewrite !py_sum_total, total_times. reflexivity.
  - rewrite RR in RD, RD'. cbn [String.eqb Ascii.eqb Bool.eqb] in RD, RD'. bok RD m1 HG1. bok RD x HC1. injection RD as <- _. bok RD' m1' HG2. bok RD' x' HC2. injection RD' as <- _.
    cbn [option_map]. f_equal. exact (previous_dearer d k sv sv' b0 b0' _ _ sh sh' m1 m1' x x' K0 HS HS' P W LT TW AP LD LD' V HG1 HG2 HC1 HC2).
  - unfold known in RR. cbn [In] in RR.
    destruct (String.eqb_spec (r_reduce r) "sum"); [elim RR; auto|]. destruct (String.eqb_spec (r_reduce r) "previous"); [elim RR; auto|].
    destruct (String.eqb_spec (r_reduce r) "lastcompound"); [elim RR; auto|]. destruct (String.eqb_spec (r_reduce r) "totalcompound"); [elim RR; auto 6|]. injection RD as <- _. injection RD' as <- _. reflexivity.
Qed.

Lemma dearer_times k lam lam' (dc : option R) a : lam' = k * lam ->
  match dc with Some x => [("deformation", k * x)] | None => [] end ++ [("attach", lam' * (1 * a))] =
  times_costs k (match dc with Some x => [("deformation", x)] | None => [] end ++ [("attach", lam * a)]).
Proof. intros ->. assert (X : k * lam * (1 * a) = k * (lam * a)) by ring. rewrite X. destruct dc; reflexivity. Qed.

(** The registration problem whose coefficients, lam and moments are k times as large, with
    the same objects, attachments and targets, has all its costs multiplied by k: only the
    ratios of the coefficients and lam choose among deformations. *)
Theorem C116_registration : forall others others' sv sv' b0 b0' ag ag' h h' r r' targets targets' sch it t1 cost cost' r1 r1' d k defs mods defs' mods',
  0 < k -> exact_grad ag -> exact_grad ag' -> exact_solver sv -> exact_solver sv' ->
  filled h r = Ok (defs, mods) -> filled h' r' = Ok (defs', mods') ->
  r_fit_controls r = false -> r_fit_controls r' = false -> r_lam r' = k * r_lam r -> r_reduce r' = r_reduce r ->
  r_reduce r = "sum" \/ r_reduce r = "previous" \/ ~ known (r_reduce r) ->
  priced (start defs mods) -> wf_mod d (start defs mods) -> locals_total d (start defs mods) -> twin d delta still (start defs mods) (start defs mods) ->
  shootable (start defs mods) -> 0 < t1 -> (0 < it)%nat ->
  at_price k (start defs mods) (start defs' mods') ->
  attached_units 1 1 defs (r_att r) targets defs' (r_att r') targets' ->
  evaluate real_clock others sv b0 ag h r targets (scheme_name sch) it t1 [] = Ok (cost, r1) ->
  evaluate real_clock others' sv' b0' ag' h' r' targets' (scheme_name sch) it t1 [] = Ok (cost', r1') ->
  cost' = times_costs k cost.
Proof.
  intros others others' sv sv' b0 b0' ag ag' h h' r r' targets targets' sch it t1 cost cost' r1 r1' d k defs mods defs' mods'
    K0 EX EX' HS HS' F F' FC FC' EL ER RR P W LT TW SH T1 IT AP AE E E'.
  destruct (dearer_outcome _ _ _ _ _ _ _ _ _ _ _ _ _ _ _ _ _ _ _ _ _ _ _ _ d k defs mods defs' mods' K0 HS HS' E E' F F' FC FC' ER RR P W LT TW AP AE) as (dc & a & -> & ->); [|apply dearer_times; exact EL].
  intros sh sh' S S'. split.
  - exact (C116_fixed_step k others others' sv sv' b0 b0' ag ag' sch it t1 true None None d _ _ sh sh' K0 EX EX' HS HS' P W LT TW SH T1 IT AP S S').
  - destruct (final_state others sv b0 ag sch it t1 _ sh EX T1 IT SH S) as (_ & _ & _ & _ & _ & _ & K & SG & SC). split; [exact K|]. split; [exact (shoot_key _ _ _ _ _ _ _ _ _ _ _ _ _ S)|split; assumption].
Qed.
Print Assumptions C116_registration.

(** torch_euler, any clocks (with "sum" evaluating fails: C32). *)
Theorem C116_registration_torch_euler : forall ck ck' others others' sv sv' b0 b0' ag ag' h h' r r' targets targets' it t1 t1' cost cost' r1 r1' d k defs mods defs' mods',
  0 < k -> exact_grad ag -> exact_grad ag' -> exact_solver sv -> exact_solver sv' ->
  filled h r = Ok (defs, mods) -> filled h' r' = Ok (defs', mods') ->
  r_fit_controls r = false -> r_fit_controls r' = false -> r_lam r' = k * r_lam r -> r_reduce r' = r_reduce r ->
  r_reduce r = "sum" \/ r_reduce r = "previous" \/ ~ known (r_reduce r) ->
  priced (start defs mods) -> wf_mod d (start defs mods) -> locals_total d (start defs mods) -> twin d delta still (start defs mods) (start defs mods) ->
  at_price k (start defs mods) (start defs' mods') ->
  attached_units 1 1 defs (r_att r) targets defs' (r_att r') targets' ->
  evaluate ck others sv b0 ag h r targets "torch_euler" it t1 [] = Ok (cost, r1) ->
  evaluate ck' others' sv' b0' ag' h' r' targets' "torch_euler" it t1' [] = Ok (cost', r1') ->
  cost' = times_costs k cost.
Proof.
  intros ck ck' others others' sv sv' b0 b0' ag ag' h h' r r' targets targets' it t1 t1' cost cost' r1 r1' d k defs mods defs' mods'
    K0 EX EX' HS HS' F F' FC FC' EL ER RR P W LT TW AP AE E E'.
  destruct (dearer_outcome _ _ _ _ _ _ _ _ _ _ _ _ _ _ _ _ _ _ _ _ _ _ _ _ d k defs mods defs' mods' K0 HS HS' E E' F F' FC FC' ER RR P W LT TW AP AE) as (dc & a & -> & ->); [|apply dearer_times; exact EL].
  intros sh sh' S S'. split.
  - exact (C116_torch_euler k ck ck' others others' sv sv' b0 b0' ag ag' it t1 t1' true None d _ _ sh sh' K0 EX EX' HS HS' P W LT TW AP S S').
  - exact (euler_landed ck others sv b0 ag it t1 d _ sh EX W LT S).
Qed.
Print Assumptions C116_registration_torch_euler.

(** A concrete problem: one point and a global translation on the line, points in
    correspondence; coefficient, lam and moments three times as large. *)
Definition pt3 : deformable := DPoints (GLm 1 1 one11 (tscal 3 one11)).
Definition gt3 : dmod := MGlobal 1 (3 * 1) (tzeros [1%nat]).
Definition triple : res (heap * reg) := registration (mkHeap [] []) [pt3] [gt3] [PropElsewhere.eu] false false [] 6 [] "sum" None None.
Definition triple_state : heap * reg := Eval cbv -[IZR Rmult one11 tscal tzeros PropElsewhere.eu] in value no_model triple.

Lemma same_attached g : shape g = [1%nat; 1%nat] -> attached_units 1 1 [pt1] [PropElsewhere.eu] [[g]] [pt3] [PropElsewhere.eu] [[g]].
Proof.
  intros Sg. assert (GU : geom_units 1 [g] [g]) by (split; [rewrite tscal_id; apply teq_refl|reflexivity]).
  apply au_cons; [exact Logic.I|exact GU| |apply au_nil].
  enough (X : measured 1 (1 ^ 1) pt1 pt3 (as_attachment (AEuclid 3)) (as_attachment (att_in_units 1 (AEuclid 3))) [g] [g]) by (rewrite pow_1 in X; exact X).
  apply (C105_attachments_in_models 1); [lra|reflexivity|exact Logic.I|exact GU|].
  intros q0 q x E0 S D. cbn in E0, D. injection E0 as <-. injection D as <-. exists 1%nat. split; [exact S|exact Sg].
Qed.

Example C116_registration_hypotheses : forall b0 sch it, (0 < it)%nat ->
  PropElsewhere.here = Ok PropElsewhere.here_state /\ triple = Ok triple_state /\
  filled (fst PropElsewhere.here_state) (snd PropElsewhere.here_state) = Ok ([pt1], [gt1]) /\ filled (fst triple_state) (snd triple_state) = Ok ([pt3], [gt3]) /\
  r_fit_controls (snd PropElsewhere.here_state) = false /\ r_fit_controls (snd triple_state) = false /\ r_lam (snd triple_state) = 3 * r_lam (snd PropElsewhere.here_state) /\
  r_reduce (snd triple_state) = r_reduce (snd PropElsewhere.here_state) /\ r_reduce (snd PropElsewhere.here_state) = "sum" /\
  priced (start [pt1] [gt1]) /\ wf_mod 1 (start [pt1] [gt1]) /\ locals_total 1 (start [pt1] [gt1]) /\ twin 1 delta still (start [pt1] [gt1]) (start [pt1] [gt1]) /\
  shootable (start [pt1] [gt1]) /\ at_price 3 (start [pt1] [gt1]) (start [pt3] [gt3]) /\
  attached_units 1 1 [pt1] (r_att (snd PropElsewhere.here_state)) [[PropElsewhere.goal0]] [pt3] (r_att (snd triple_state)) [[PropElsewhere.goal0]] /\
  exists cost r1 r1',
    evaluate real_clock no_others exact_sv b0 std_ag (fst PropElsewhere.here_state) (snd PropElsewhere.here_state) [[PropElsewhere.goal0]] (scheme_name sch) it 1 [] = Ok (cost, r1) /\
    evaluate real_clock no_others exact_sv b0 std_ag (fst triple_state) (snd triple_state) [[PropElsewhere.goal0]] (scheme_name sch) it 1 [] = Ok (times_costs 3 cost, r1').
Proof.
  intros b0 sch it IT.
  assert (H1 : PropElsewhere.here = Ok PropElsewhere.here_state) by (vm_compute; reflexivity). assert (H2 : triple = Ok triple_state) by (vm_compute; reflexivity).
  assert (F : filled (fst PropElsewhere.here_state) (snd PropElsewhere.here_state) = Ok ([pt1], [gt1])) by reflexivity.
  assert (F' : filled (fst triple_state) (snd triple_state) = Ok ([pt3], [gt3])) by reflexivity.
  assert (W : wf_mod 1 (start [pt1] [gt1])) by (cbn; repeat split; try lra; discriminate). assert (LT : locals_total 1 (start [pt1] [gt1])) by (cbn; tauto).
  assert (W' : wf_mod 1 (start [pt3] [gt3])) by (cbn; repeat split; try lra; discriminate).
  assert (P : priced (start [pt1] [gt1])) by (cbn; tauto).
  assert (TW : twin 1 delta still (start [pt1] [gt1]) (start [pt1] [gt1])) by (cbn; repeat split).
  assert (SH : shootable (start [pt1] [gt1])) by exact PropShooting.ex_shootable.
  assert (SH' : shootable (start [pt3] [gt3])) by (eexists; split; [reflexivity|]; split; [repeat constructor|cbn; auto 10]).
  assert (AP : at_price 3 (start [pt1] [gt1]) (start [pt3] [gt3])).
  { exists (quickened 3 (mod_manifold (start [pt1] [gt1]))). split; [reflexivity|]. split; split; try reflexivity; apply leq_refl'. }
  assert (EL : r_lam (snd triple_state) = 3 * r_lam (snd PropElsewhere.here_state)) by (cbn; lra).
  assert (AE : attached_units 1 1 [pt1] (r_att (snd PropElsewhere.here_state)) [[PropElsewhere.goal0]] [pt3] (r_att (snd triple_state)) [[PropElsewhere.goal0]]) by (apply same_attached; reflexivity).
  do 16 (split; [first [assumption|reflexivity]|]).
  assert (AO : forall a x y, In a [PropElsewhere.eu] -> is_ok (a x y)).
  { intros a x y [<-|[]]. unfold PropElsewhere.eu, as_attachment, call. cbn [loss bind att_weight]. eexists. reflexivity. }
  assert (OR : Forall ordinary [pt1] /\ Forall ordinary [pt3]).
  { split; (constructor; [|constructor]); (split; [reflexivity|]); (split; [cbn; eauto 10|]); intros q; eexists; reflexivity. }
  destruct (C82_fixed_step_schemes no_others exact_sv b0 std_ag sch it 1 true None 1 (start [pt1] [gt1]) std_exact std_differentiates exact_sv_exact W) as (sh & S);
    [cbn; tauto|apply PropFitElsewhere.line_everywhere|cbn; tauto|exact SH|cbn; lia|lra|exact IT|].
  destruct (C82_fixed_step_schemes no_others exact_sv b0 std_ag sch it 1 true None 1 (start [pt3] [gt3]) std_exact std_differentiates exact_sv_exact W') as (sh' & S');
    [cbn; tauto|exact (dear_everywhere 3 1 _ (PropFitElsewhere.line_everywhere one11 (tscal 3 one11)))|cbn; tauto|exact SH'|cbn; lia|lra|exact IT|].
  assert (NE : scheme_name sch <> "torch_euler") by (destruct sch; discriminate).
  destruct (C32_solvers_evaluate real_clock no_others exact_sv b0 std_ag (fst PropElsewhere.here_state) (snd PropElsewhere.here_state) [[PropElsewhere.goal0]] (scheme_name sch) it 1 [pt1] [gt1] sh NE eq_refl eq_refl (proj1 OR) S eq_refl AO) as (co & xs & atts & r1 & _ & _ & E).
  destruct (C32_solvers_evaluate real_clock no_others exact_sv b0 std_ag (fst triple_state) (snd triple_state) [[PropElsewhere.goal0]] (scheme_name sch) it 1 [pt3] [gt3] sh' NE eq_refl eq_refl (proj2 OR) S' eq_refl AO) as (co' & xs' & atts' & r1' & _ & _ & E').
  assert (EC := C116_registration no_others no_others exact_sv exact_sv b0 b0 std_ag std_ag _ _ _ _ _ _ sch it 1 _ _ _ _ 1%nat 3 [pt1] [gt1] [pt3] [gt3] ltac:(lra) std_exact std_exact exact_sv_exact exact_sv_exact F F'
    eq_refl eq_refl EL eq_refl (or_introl eq_refl) P W LT TW SH ltac:(lra) IT AP AE E E').
  rewrite EC in E'. eauto.
Qed.
