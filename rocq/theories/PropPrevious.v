(** Property theorems about the reduction "previous" (C85): it evaluates with torch_euler,
    with which "sum" cannot (C32); and a problem to which C116 applies with that solver. *)
From Coq Require Import Reals String List Arith Lia Lra.
From Verif Require Import Py RSum Tensor TensorFacts KernelModel KernelFacts FieldModel Fl MeshModel AttachmentModel
  SpecKernel SpecAttachment
  GeometryModel ModuleModel ShootingModel RegistrationModel SpecField SpecGeometry SpecModule SpecShooting SpecSmooth SpecMotion SpecTransport SpecRegistration SpecRigid SpecElsewhere SpecReduce
  GeometryFacts ModuleHistory ModuleLeaves ModuleMain ShootingPack ShootingDyn ShootingInst ShootingTotal ShootingExample SpecLinAlg LinAlg TransportFacts MotionShoot MotionMomentum RegistrationRun RegistrationShoot ReduceFacts RigidField RigidShoot PropRigid ElsewhereFacts
  SolverExists MotionFacts MotionExample ShootingEuler DiffBuild SmoothRun PropShooting PropSmooth PropElsewhere PropFitElsewhere PropRegistration SpecUnits SpecUnitsReg UnitsReg PropUnits PropUnitsReg ReverseShoot SpecScale ScaleFlow ScaleFacts PropScale SpecCoeff CoeffFacts PropCoeff PropCoeffReg.
Import ListNotations.
Open Scope string_scope.
Open Scope list_scope.
Open Scope R_scope.

(** Whatever the solver: if the shoot succeeds and the geodesic controls and their cost are
    defined where it ends, then the model is evaluated and this cost is the deformation cost. *)
Theorem C85_previous_evaluates : forall ck others sv b0 ag h r targets name it t1 defs mods sh m x,
  r_reduce r = "previous" -> filled h r = Ok (defs, mods) -> Forall ordinary defs ->
  shoot ck others sv b0 ag name (steps_of r it) t1 (given defs (controls_of h r)) true None (start defs mods) = Ok sh ->
  geodesic_controls sv b0 (sh_mod sh) = Ok m -> cost m = Ok x ->
  length targets = length (r_defs r) -> (forall a y z, In a (r_att r) -> is_ok (a y z)) ->
  exists a r', evaluate ck others sv b0 ag h r targets name it t1 [] = Ok ([("deformation", x); ("attach", r_lam r * a)], r').
Proof.
  intros ck others sv b0 ag h r targets name it t1 defs mods sh m x RP F OR S G C LT AT. unfold filled in F. bok F mods' HE1. bok F defs' HE2. injection F as -> ->.
  assert (AK : forall att xs ts, (forall a x y, In a att -> is_ok (a x y)) -> is_ok (attachment_costs att xs ts)).
  { clear. induction att as [|a att IH]; intros xs ts A; [eexists; reflexivity|]. destruct xs as [|x xs], ts as [|t ts]; try (eexists; reflexivity). cbn [attachment_costs].
    destruct (A a x t (or_introl eq_refl)) as (c & ->). destruct (IH xs ts (fun a x y I => A a x y (or_intror I))) as (cs & ->). eexists. reflexivity. }
  unfold evaluate. rewrite LT, Nat.eqb_refl. cbn [py_assert bind]. unfold compute_deformed. rewrite HE1. cbn [bind]. rewrite HE2. cbn [bind]. unfold steps_of, controls_of in S. rewrite RP.
  assert (H : exists o, (if r_fit_controls r then deformables_compute_deformed ck others sv b0 ag defs mods name (r_it r) true (Some (learned h r)) t1 "previous"
     else deformables_compute_deformed ck others sv b0 ag defs mods name it true None t1 "previous") = Ok o /\ dr_cost o = Some x).
  { destruct (r_fit_controls r);
      (destruct (compute_ok ck others sv b0 ag defs mods name _ false _ t1 "previous" sh OR S) as (ms & xs & EM & _ & _ & O & _);
       destruct (O eq_refl) as (o & EO & EX & _); unfold deformables_compute_deformed in EO; rewrite map_length in EO; bok EO sh0 HS; 
       match type of HS with ?l = _ => match type of S with ?l' = _ => change l with l' in HS end end; rewrite S in HS; injection HS as <-; rewrite EM in EO; cbn [members bind] in EO;
       rewrite (ordinary_forward _ OR) in EO; cbn [bind] in EO; bok EO df HD; cbn [members bind] in EO; clear EO;
       destruct (compute_intro ck others sv b0 ag defs mods name _ _ t1 "previous" sh ms (Some x) m df (ordinary_forward _ OR) S EM) as (o' & E' & C' & _);
       [unfold reduction; cbn [String.eqb Ascii.eqb Bool.eqb]; rewrite G; cbn [bind]; rewrite C; reflexivity
       |rewrite EM in G; cbn [geodesic_controls] in G; bok G y HG; injection G as <-; eexists; reflexivity|exact HD|exists o'; auto]). }
  destruct H as (o & EO & ED). rewrite EO. cbn [bind]. rewrite ED. destruct (AK (r_att r) (dr_deformed o) targets AT) as (atts & EA).
  exists (SpecRegistration.total atts). eexists. rewrite EA. cbn [bind dict_set]. cbn [String.eqb Ascii.eqb Bool.eqb]. rewrite !py_sum_total. reflexivity.
Qed.
Print Assumptions C85_previous_evaluates.

(** So a model reducing by "previous" is evaluated with torch_euler, whatever the clock and
    the number of steps, when its modules are smooth and their operators invertible. *)
Theorem C85_torch_euler_previous : forall ck others sv b0 ag h r targets it t1 d defs mods,
  exact_grad ag -> differentiates ag -> exact_solver sv ->
  r_reduce r = "previous" -> r_fit_controls r = false -> filled h r = Ok (defs, mods) -> Forall ordinary defs ->
  wf_mod d (start defs mods) -> locals_smooth d (start defs mods) -> everywhere (regular d) (start defs mods) ->
  (first_order (start defs mods) -> ~ has_dir (mod_manifold (start defs mods))) ->
  Forall simple (map mod_manifold (map silent_module defs ++ mods)) -> (0 < it)%nat ->
  length targets = length (r_defs r) -> (forall a y z, In a (r_att r) -> is_ok (a y z)) ->
  exists x a r', evaluate ck others sv b0 ag h r targets "torch_euler" it t1 [] = Ok ([("deformation", x); ("attach", r_lam r * a)], r').
Proof.
  intros ck others sv b0 ag h r targets it t1 d defs mods EX AN HS RP FC F OR W LS RG HF SI IT LE AT.
  assert (CO : forall l c, @None (list ctrl) = Some l -> In c l -> ctrl_ok d (start defs mods) c) by discriminate.
  destruct (C82_torch_euler ck others sv b0 ag it t1 None true None d (start defs mods) EX AN HS W LS RG (fun _ => HF) CO) as (sh & S); [discriminate|exact IT|right; eexists; split; [reflexivity|exact SI]|].
  destruct (euler_landed ck others sv b0 ag it t1 d _ sh EX W (smooth_total d _ LS) S) as (K & FZ & SG & SC).
  assert (HR : reached None (start defs mods) (sh_mod sh)).
  { split; [apply alike_frozen; exact FZ|]. split; [exact K|]. unfold phase. rewrite !map_app, SG, SC. reflexivity. }
  destruct (regular_reached sv b0 d (start defs mods) None HS W LS RG (fun _ => HF) CO 0%nat (sh_mod sh) HR Logic.I) as (m2 & E). cbn [step_controls] in E.
  assert (C : is_ok (cost m2)).
  { destruct (SmoothRun.there d None (start defs mods) W LS (sh_mod sh) HR) as (m1 & _ & M & _ & W1 & _ & _ & A). change (geodesic_controls sv b0 (sh_mod sh)) with (step_controls sv b0 None 0 (sh_mod sh)) in E.
    rewrite <- (ctl_det sv b0 None 0 m1 (sh_mod sh) A M) in E. destruct (hamiltonian_cost sv b0 d HS m1 m2 W1 E) as (x & C & _). eexists. exact C. }
  destruct C as (x & C). exists x.
  apply (C85_previous_evaluates ck others sv b0 ag h r targets "torch_euler" it t1 defs mods sh m2 x RP F OR); try assumption.
  unfold steps_of, controls_of. rewrite FC. exact S.
Qed.
Print Assumptions C85_torch_euler_previous.

(** The problem of C116_registration_hypotheses with the reduction "previous": any clock,
    any number of steps. *)
Definition prev1 : res (heap * reg) := registration (mkHeap [] []) [pt1] [gt1] [PropElsewhere.eu] false false [] 2 [] "previous" None None.
Definition prev3 : res (heap * reg) := registration (mkHeap [] []) [pt3] [gt3] [PropElsewhere.eu] false false [] 6 [] "previous" None None.
Definition prev1_state : heap * reg := Eval cbv -[IZR Rmult one11 tscal tzeros PropElsewhere.eu] in value no_model prev1.
Definition prev3_state : heap * reg := Eval cbv -[IZR Rmult one11 tscal tzeros PropElsewhere.eu] in value no_model prev3.

Example C116_torch_euler_hypotheses : forall ck others b0 it (t1 : time ck), (0 < it)%nat ->
  prev1 = Ok prev1_state /\ prev3 = Ok prev3_state /\
  filled (fst prev1_state) (snd prev1_state) = Ok ([pt1], [gt1]) /\ filled (fst prev3_state) (snd prev3_state) = Ok ([pt3], [gt3]) /\
  r_lam (snd prev3_state) = 3 * r_lam (snd prev1_state) /\ r_reduce (snd prev1_state) = "previous" /\ r_reduce (snd prev3_state) = "previous" /\
  exists x a r1 r1',
    evaluate ck others exact_sv b0 std_ag (fst prev1_state) (snd prev1_state) [[PropElsewhere.goal0]] "torch_euler" it t1 [] = Ok ([("deformation", x); ("attach", 2 * a)], r1) /\
    evaluate ck others exact_sv b0 std_ag (fst prev3_state) (snd prev3_state) [[PropElsewhere.goal0]] "torch_euler" it t1 [] = Ok (times_costs 3 [("deformation", x); ("attach", 2 * a)], r1').
Proof.
  intros ck others b0 it t1 IT.
  assert (H1 : prev1 = Ok prev1_state) by (vm_compute; reflexivity). assert (H2 : prev3 = Ok prev3_state) by (vm_compute; reflexivity).
  assert (F : filled (fst prev1_state) (snd prev1_state) = Ok ([pt1], [gt1])) by reflexivity.
  assert (F' : filled (fst prev3_state) (snd prev3_state) = Ok ([pt3], [gt3])) by reflexivity.
  assert (EL : r_lam (snd prev3_state) = 3 * r_lam (snd prev1_state)) by (cbn; lra).
  do 7 (split; [first [assumption|reflexivity]|]).
  assert (W : wf_mod 1 (start [pt1] [gt1])) by (cbn; repeat split; try lra; discriminate). assert (LT : locals_total 1 (start [pt1] [gt1])) by (cbn; tauto).
  assert (W' : wf_mod 1 (start [pt3] [gt3])) by (cbn; repeat split; try lra; discriminate).
  assert (P : priced (start [pt1] [gt1])) by (cbn; tauto).
  assert (TW : twin 1 delta still (start [pt1] [gt1]) (start [pt1] [gt1])) by (cbn; repeat split).
  assert (AP : at_price 3 (start [pt1] [gt1]) (start [pt3] [gt3])).
  { exists (quickened 3 (mod_manifold (start [pt1] [gt1]))). split; [reflexivity|]. split; split; try reflexivity; apply leq_refl'. }
  assert (AE : attached_units 1 1 [pt1] (r_att (snd prev1_state)) [[PropElsewhere.goal0]] [pt3] (r_att (snd prev3_state)) [[PropElsewhere.goal0]]) by (apply same_attached; reflexivity).
  assert (AO : forall a x y, In a [PropElsewhere.eu] -> is_ok (a x y)).
  { intros a x y [<-|[]]. unfold PropElsewhere.eu, as_attachment, call. cbn [loss bind att_weight]. eexists. reflexivity. }
  assert (OR : Forall ordinary [pt1] /\ Forall ordinary [pt3]).
  { split; (constructor; [|constructor]); (split; [reflexivity|]); (split; [cbn; eauto 10|]); intros q; eexists; reflexivity. }
  destruct (C85_torch_euler_previous ck others exact_sv b0 std_ag (fst prev1_state) (snd prev1_state) [[PropElsewhere.goal0]] it t1 1 [pt1] [gt1] std_exact std_differentiates exact_sv_exact eq_refl eq_refl F (proj1 OR) W)
    as (x & a & r1 & E); [cbn; tauto|apply PropFitElsewhere.line_everywhere|cbn; tauto|repeat constructor|exact IT|reflexivity|exact AO|].
  destruct (C85_torch_euler_previous ck others exact_sv b0 std_ag (fst prev3_state) (snd prev3_state) [[PropElsewhere.goal0]] it t1 1 [pt3] [gt3] std_exact std_differentiates exact_sv_exact eq_refl eq_refl F' (proj2 OR) W')
    as (x' & a' & r1' & E'); [cbn; tauto|exact (dear_everywhere 3 1 _ (PropFitElsewhere.line_everywhere one11 (tscal 3 one11)))|cbn; tauto|repeat constructor|exact IT|reflexivity|exact AO|].
  assert (EC := C116_registration_torch_euler ck ck others others exact_sv exact_sv b0 b0 std_ag std_ag _ _ _ _ _ _ it t1 t1 _ _ _ _ 1%nat 3 [pt1] [gt1] [pt3] [gt3] ltac:(lra) std_exact std_exact exact_sv_exact exact_sv_exact F F'
    eq_refl eq_refl EL eq_refl (or_intror (or_introl eq_refl)) P W LT TW AP AE E E').
  rewrite EC in E'. exists x, a, r1, r1'. split; [exact E|exact E'].
Qed.
