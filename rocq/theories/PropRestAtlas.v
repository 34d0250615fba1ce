(** Atlases whose template is already on every target, with zero moments (C118). *)
From Coq Require Import Reals String List Arith ZArith Lia Lra.
From Verif Require Import Py RSum Tensor TensorFacts KernelModel FieldModel Fl MeshModel AttachmentModel GeometryModel ModuleModel ShootingModel RegistrationModel AtlasModel
  SpecKernel SpecAttachment SpecGeometry SpecModule SpecShooting SpecRegistration SpecTransport SpecRigid SpecSmooth SpecReduce SpecAtlas SpecElsewhere SpecUnits SpecUnitsReg SpecScale SpecCoeff
  SpecLinAlg LinAlg SolverExists MotionExample ModuleMain ModuleLeaves ShootingDyn ShootingInst ShootingExample RegistrationRun RegistrationHeap RegistrationParams RegistrationLife RegistrationAtlas RegistrationShoot PropRegistration AtlasFacts PropAtlas
  ShootingTotal PropAttachment PropShooting PropReduce PropRigid PropSmooth ElsewhereFacts PropElsewhere PropUnits UnitsReg PropUnitsReg PropAtlasElsewhere PropFitElsewhere ReverseShoot CoeffFacts PropCoeff PropCoeffReg PropCoeffAtlas
  SpecRest PropRest PropRestSelf.
Import ListNotations.
Open Scope string_scope.
Open Scope list_scope.
Open Scope R_scope.

(** Evaluating an atlas just built from a template and modules whose moments are zero, on
    targets where the template already is, gives only zeros: fixed step schemes, no
    hypertemplate. *)
Theorem C118_atlas_on_target : forall others sv b0 ag own h0 template mods att population lam fit_gd sigma nu coeff htgd settings other mode h x targets sch it t1 d costs h1 x1,
  exact_grad ag -> exact_solver sv -> 0 < t1 -> (0 < it)%nat -> NoDup (map fst other) ->
  new_atlas h0 template mods att population lam fit_gd false sigma nu coeff htgd settings other mode = Ok (h, x) ->
  wf_mod d (start [template] mods) -> locals_total d (start [template] mods) ->
  twin d delta still (start [template] mods) (start [template] mods) -> shootable (start [template] mods) ->
  no_moments (mod_manifold (start [template] mods)) -> Forall (fun y => on_target [att] [template] [y]) targets ->
  evaluate_atlas real_clock others sv b0 ag own None h x targets (scheme_name sch) it t1 = Ok (costs, h1, x1) ->
  forall name c, In (name, c) costs -> c = 0.
Proof.
  intros others sv b0 ag own h0 template mods att population lam fit_gd sigma nu coeff htgd settings other mode h x targets sch it t1 d costs h1 x1
    EX HS T1 IT ND EN W LT TW SH NM ON E.
  destruct (built_subjects _ _ _ _ _ _ _ _ _ _ _ _ _ _ _ _ ND EN) as (NH & L & F).
  set (Q := fun s s' : reg * geom => 
    (filled h (fst s) = Ok ([template], mods) /\ r_fit_controls (fst s) = false /\ r_reduce (fst s) = "sum" /\ r_att (fst s) = [att] /\ on_target [att] [template] [snd s]) /\
    (filled h (fst s') = Ok ([template], mods) /\ r_fit_controls (fst s') = false /\ r_reduce (fst s') = "sum" /\ r_att (fst s') = [att] /\ on_target [att] [template] [snd s'])).
  assert (X : costs = times_costs 2 costs).
  { refine (atlas_times 2 real_clock real_clock others others sv sv b0 b0 ag ag own own h h x x targets targets _ _ _ _ _ _ Q costs h1 x1 costs h1 x1 _ NH NH _ E E).
    - assert (Z : forall s co r1, filled h (fst s) = Ok ([template], mods) /\ r_fit_controls (fst s) = false /\ r_reduce (fst s) = "sum" /\ r_att (fst s) = [att] /\ on_target [att] [template] [snd s] ->
        evaluate real_clock others sv b0 ag h (fst s) [snd s] (scheme_name sch) it t1 [] = Ok (co, r1) -> co = [("deformation", 0); ("attach", 0)]).
      { intros s co r1 (A1 & A2 & A3 & A4 & A5) A. rewrite <- A4 in A5. exact (C118_on_target others sv b0 ag h _ _ sch it t1 co r1 d [template] mods EX HS A1 A2 (or_introl A3) W LT TW SH T1 IT NM A5 A). }
      intros s s' co co' r1 r1' (A & B) EA EB. rewrite (Z s co r1 A EA), (Z s' co' r1' B EB). unfold times_costs. cbn. rewrite Rmult_0_r. reflexivity.
    - assert (FT : Forall2 (fun y y' => on_target [att] [template] [y] /\ on_target [att] [template] [y']) targets targets) by (clear - ON; induction ON; constructor; auto).
      refine (pair_subjects _ _ _ _ _ _ _ Q _ _ _ _ _ F F eq_refl FT). cbv beta. intros r y r' y' (A1 & A2 & A3 & A4 & A5 & _) (B1 & B2 & B3 & B4 & B5 & _) (O1 & O2). unfold Q. cbn [fst snd]. auto 12. }
  intros name c I. clear - X I. unfold times_costs in X. induction costs as [|(k & v) costs IH]; [destruct I|]. cbn [map fst snd] in X. injection X as X1 X2.
  destruct I as [I|I]; [injection I as _ <-; lra|exact (IH X2 I)].
Qed.
Print Assumptions C118_atlas_on_target.

(** A concrete atlas: two subjects, the template a point of the line with a zero moment,
    both targets at the same place. *)
Example C118_atlas_hypotheses : forall b0 sch it, (0 < it)%nat ->
  exists h x costs h1 x1, priced_atlas pt0 gt1 2 = Ok (h, x) /\ Forall (fun y => on_target [eu] [pt0] [y]) [[one11]; [one11]] /\
    evaluate_atlas real_clock no_others exact_sv b0 std_ag None None h x [[one11]; [one11]] (scheme_name sch) it 1 = Ok (costs, h1, x1) /\
    forall name c, In (name, c) costs -> c = 0.
Proof.
  intros b0 sch it IT. destruct (priced_atlas_built 1 1 one11 (tzeros [1%nat; 1%nat]) 1 2) as ((h & x) & EN). change (priced_atlas pt0 gt1 2 = Ok (h, x)) in EN.
  destruct (C118_hypotheses b0 sch it IT) as (_ & _ & _ & _ & W & LT & TW & SH & NM & _). destruct (C118_on_target_case b0 sch it IT) as (ON & _).
  assert (OR : ordinary pt0) by ((split; [reflexivity|]); (split; [cbn; eauto 10|]); intros q; eexists; reflexivity).
  destruct (priced_evaluates no_others exact_sv b0 std_ag sch it pt0 gt1 2 h x one11 one11 EN OR) as (co & h1 & x1 & E).
  { refine (C82_fixed_step_schemes no_others exact_sv b0 std_ag sch it 1 true None 1 (start [pt0] [gt1]) std_exact std_differentiates exact_sv_exact W _ _ _ SH _ _ IT); [cbn; tauto|apply line_everywhere|cbn; tauto|cbn; lia|lra]. }
  assert (F : Forall (fun y => on_target [eu] [pt0] [y]) [[one11]; [one11]]) by (constructor; [exact ON|constructor; [exact ON|constructor]]).
  exists h, x, co, h1, x1. split; [exact EN|]. split; [exact F|]. split; [exact E|]. unfold priced_atlas in EN.
  exact (C118_atlas_on_target no_others exact_sv b0 std_ag None _ pt0 [gt1] eu 2%nat 2 _ _ _ _ _ _ [] _ h x _ sch it 1 1%nat co h1 x1 std_exact exact_sv_exact Rlt_0_1 IT (NoDup_nil _) EN W LT TW SH NM F E).
Qed.
