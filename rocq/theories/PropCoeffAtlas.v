(** Atlases all of whose coefficients, lam and moments are multiplied by a number (C116). *)
From Coq Require Import Reals String List Arith ZArith Lia Lra.
From Verif Require Import Py RSum Tensor TensorFacts KernelModel FieldModel Fl MeshModel AttachmentModel GeometryModel ModuleModel ShootingModel RegistrationModel AtlasModel
  SpecKernel SpecAttachment SpecGeometry SpecModule SpecShooting SpecRegistration SpecTransport SpecRigid SpecSmooth SpecReduce SpecAtlas SpecElsewhere SpecUnits SpecUnitsReg SpecScale SpecCoeff
  SpecLinAlg LinAlg SolverExists MotionExample ModuleMain ModuleLeaves ShootingDyn ShootingInst ShootingExample RegistrationRun RegistrationHeap RegistrationParams RegistrationLife RegistrationAtlas RegistrationShoot PropRegistration AtlasFacts PropAtlas
  ShootingTotal PropAttachment PropShooting PropReduce PropRigid PropSmooth ElsewhereFacts PropElsewhere PropUnits UnitsReg PropUnitsReg PropAtlasElsewhere PropFitElsewhere ReverseShoot CoeffFacts PropCoeff PropCoeffReg.
Import ListNotations.
Open Scope string_scope.
Open Scope list_scope.
Open Scope R_scope.

(** Building an atlas from the template and the modules with k times the coefficients, k
    times the moments and k times lam, and evaluating it on the same targets, gives costs
    multiplied by k: fixed step schemes, geodesic controls, no hypertemplate. *)
Theorem C116_atlas : forall others others' sv sv' b0 b0' ag ag' own own' h0 h0' template template' mods mods' att att' population lam fit_gd fit_gd'
    sigma sigma' nu nu' coeff coeff' htgd htgd' settings settings' other other' mode mode' h h' x x' targets targets' sch it t1 d k costs h1 x1 costs' h1' x1',
  0 < k -> exact_grad ag -> exact_grad ag' -> exact_solver sv -> exact_solver sv' -> 0 < t1 -> (0 < it)%nat ->
  NoDup (map fst other) -> NoDup (map fst other') ->
  new_atlas h0 template mods att population lam fit_gd false sigma nu coeff htgd settings other mode = Ok (h, x) ->
  new_atlas h0' template' mods' att' population (k * lam) fit_gd' false sigma' nu' coeff' htgd' settings' other' mode' = Ok (h', x') ->
  priced (start [template] mods) -> wf_mod d (start [template] mods) -> locals_total d (start [template] mods) ->
  twin d delta still (start [template] mods) (start [template] mods) -> shootable (start [template] mods) ->
  at_price k (start [template] mods) (start [template'] mods') -> alike_objects template template' ->
  Forall2 (fun y y' => geom_units 1 y y' /\ measured 1 1 template template' att att' y y') targets targets' ->
  evaluate_atlas real_clock others sv b0 ag own None h x targets (scheme_name sch) it t1 = Ok (costs, h1, x1) ->
  evaluate_atlas real_clock others' sv' b0' ag' own' None h' x' targets' (scheme_name sch) it t1 = Ok (costs', h1', x1') ->
  costs' = times_costs k costs.
Proof.
  intros others others' sv sv' b0 b0' ag ag' own own' h0 h0' template template' mods mods' att att' population lam fit_gd fit_gd'
    sigma sigma' nu nu' coeff coeff' htgd htgd' settings settings' other other' mode mode' h h' x x' targets targets' sch it t1 d k costs h1 x1 costs' h1' x1'
    K0 EX EX' HS HS' T1 IT ND ND' EN EN' P W LT TW SH AP AL FT E E'.
  destruct (built_subjects _ _ _ _ _ _ _ _ _ _ _ _ _ _ _ _ ND EN) as (NH & L & F). destruct (built_subjects _ _ _ _ _ _ _ _ _ _ _ _ _ _ _ _ ND' EN') as (NH' & L' & F').
  set (Q := fun s s' : reg * geom => (filled h (fst s) = Ok ([template], mods) /\ r_fit_controls (fst s) = false /\ r_lam (fst s) = lam /\ r_reduce (fst s) = "sum" /\ r_att (fst s) = [att]) /\
    (filled h' (fst s') = Ok ([template'], mods') /\ r_fit_controls (fst s') = false /\ r_lam (fst s') = k * lam /\ r_reduce (fst s') = "sum" /\ r_att (fst s') = [att']) /\
    geom_units 1 (snd s) (snd s') /\ measured 1 1 template template' att att' (snd s) (snd s')).
  refine (atlas_times k real_clock real_clock others others' sv sv' b0 b0' ag ag' own own' h h' x x' targets targets' _ _ _ _ _ _ Q costs h1 x1 costs' h1' x1' _ NH NH' _ E E').
  - intros s s' co co' r1 r1' ((A1 & A2 & A3 & A4 & A5) & (B1 & B2 & B3 & B4 & B5) & GE & IN) A A'.
    refine (C116_registration others others' sv sv' b0 b0' ag ag' h h' _ _ _ _ sch it t1 co co' r1 r1' d k [template] mods [template'] mods' K0 EX EX' HS HS' A1 B1 A2 B2 _ _ (or_introl A4) P W LT TW SH T1 IT AP _ A A'); [congruence|congruence|].
    rewrite A5, B5. apply au_cons; [exact AL|exact GE|exact IN|apply au_nil].
  - refine (pair_subjects _ _ _ _ _ _ _ Q _ _ _ _ _ F F' ltac:(congruence) FT). cbv beta. intros r y r' y' (A1 & A2 & A3 & A4 & A5 & _) (B1 & B2 & B3 & B4 & B5 & _) (GE & IN). unfold Q. cbn [fst snd]. auto 12.
Qed.
Print Assumptions C116_atlas.

(** A concrete atlas: two subjects with different targets, the template a point of the line
    with a moment, the module a global translation; everything three times as dear. *)
Definition priced_atlas (o : deformable) (g : dmod) (lam : R) : res (heap * full_atlas) :=
  new_atlas (mkHeap [] []) o [g] eu 2 lam None false (Some 1) 1 1 true (Some ["sigma"]) [] "sequential".
Lemma priced_atlas_built dim nb q p c lam : is_ok (priced_atlas (DPoints (GLm dim nb q p)) (MGlobal 1 c (tzeros [1%nat])) lam).
Proof. eexists. cbv -[IZR Rmult tzeros eu]. reflexivity. Qed.

Lemma priced_evaluates others sv b0 ag sch it o g lam h x g0 g1 : priced_atlas o g lam = Ok (h, x) -> ordinary o ->
  is_ok (shoot real_clock others sv b0 ag (scheme_name sch) it 1 None true None (start [o] [g])) ->
  exists costs h1 x1, evaluate_atlas real_clock others sv b0 ag None None h x [[g0]; [g1]] (scheme_name sch) it 1 = Ok (costs, h1, x1).
Proof.
  intros EN OR (sh & SH). unfold priced_atlas in EN. destruct (built_subjects _ _ _ _ _ _ _ _ _ _ _ _ [] _ _ _ (NoDup_nil _) EN) as (NH & L & F).
  assert (NE : scheme_name sch <> "torch_euler") by (destruct sch; discriminate).
  assert (B : forall r y, filled h r = Ok ([o], [g]) /\ r_fit_controls r = false /\ r_lam r = lam /\ r_reduce r = "sum" /\ r_att r = [eu] /\ r_defs r = [o] ->
    exists d r1, evaluate_with real_clock others sv b0 ag None h r [[y]] (scheme_name sch) it 1 [] = Ok (d, h, r1)).
  { intros r y (A1 & A2 & A3 & A4 & A5 & A6).
    assert (AO : forall a x y, In a (r_att r) -> is_ok (a x y)) by (rewrite A5; intros a w z [<-|[]]; unfold eu, as_attachment, call; cbn [loss bind att_weight]; eexists; reflexivity).
    destruct (C32_solvers_evaluate real_clock others sv b0 ag h r [[y]] (scheme_name sch) it 1 [o] [g] sh NE A4 A1 (Forall_cons _ OR (Forall_nil _))) as (co & xs & atts & r1 & _ & _ & E); auto.
    { unfold steps_of, controls_of. rewrite A2. exact SH. }
    { rewrite A6. reflexivity. }
    eexists _, r1. rewrite C84_without_callback, E. reflexivity. }
  destruct (a_models (x_atlas x)) as [|ra [|rb [|rc rs]]] eqn:EM; try discriminate L. inversion F as [|? ? Fa F1]; subst. inversion F1 as [|? ? Fb _]; subst.
  destruct (B ra g0 Fa) as (da & ra' & Ea). destruct (B rb g1 Fb) as (db & rb' & Eb).
  assert (IN : in_turn real_clock others sv b0 ag None (scheme_name sch) it 1 h (a_models (x_atlas x)) [[g0]; [g1]] [da; db] h).
  { rewrite EM. eapply turn_next; [exact Ea|]. eapply turn_next; [exact Eb|]. apply turn_end. auto. }
  destruct (C84_atlas_costs real_clock others sv b0 ag None None h x _ (scheme_name sch) it 1 [da; db] h NH ltac:(discriminate) IN) as (costs & x'' & EA & _). eauto.
Qed.

Example C116_atlas_hypotheses : forall b0 sch it, (0 < it)%nat ->
  exists h x h3 x3 costs h1 x1 h1' x1', priced_atlas pt1 gt1 2 = Ok (h, x) /\ priced_atlas pt3 gt3 (3 * 2) = Ok (h3, x3) /\
    alike_objects pt1 pt3 /\ Forall2 (fun y y' => geom_units 1 y y' /\ measured 1 1 pt1 pt3 eu eu y y') [[goal0]; [goal1]] [[goal0]; [goal1]] /\
    evaluate_atlas real_clock no_others exact_sv b0 std_ag None None h x [[goal0]; [goal1]] (scheme_name sch) it 1 = Ok (costs, h1, x1) /\
    evaluate_atlas real_clock no_others exact_sv b0 std_ag None None h3 x3 [[goal0]; [goal1]] (scheme_name sch) it 1 = Ok (times_costs 3 costs, h1', x1').
Proof.
  intros b0 sch it IT. destruct (priced_atlas_built 1 1 one11 one11 1 2) as ((h & x) & EN). destruct (priced_atlas_built 1 1 one11 (tscal 3 one11) (3 * 1) (3 * 2)) as ((h3 & x3) & EN3).
  change (priced_atlas pt1 gt1 2 = Ok (h, x)) in EN. change (priced_atlas pt3 gt3 (3 * 2) = Ok (h3, x3)) in EN3.
  destruct (C116_registration_hypotheses b0 sch it IT) as (_ & _ & _ & _ & _ & _ & _ & _ & _ & P & W & LT & TW & SH & AP & _).
  assert (W' : wf_mod 1 (start [pt3] [gt3])) by (cbn; repeat split; try lra; discriminate).
  assert (SH' : shootable (start [pt3] [gt3])) by (eexists; split; [reflexivity|]; split; [repeat constructor|cbn; auto 10]).
  assert (OR : ordinary pt1 /\ ordinary pt3) by (split; (split; [reflexivity|]); (split; [cbn; eauto 10|]); intros q; eexists; reflexivity).
  assert (AE : Forall2 (fun y y' => geom_units 1 y y' /\ measured 1 1 pt1 pt3 eu eu y y') [[goal0]; [goal1]] [[goal0]; [goal1]]).
  { constructor; [|constructor; [|constructor]].
    - assert (X := same_attached goal0 eq_refl). inversion X; subst. auto.
    - assert (X := same_attached goal1 eq_refl). inversion X; subst. auto. }
  destruct (priced_evaluates no_others exact_sv b0 std_ag sch it pt1 gt1 2 h x goal0 goal1 EN (proj1 OR)) as (co & h1 & x1 & E).
  { refine (C82_fixed_step_schemes no_others exact_sv b0 std_ag sch it 1 true None 1 (start [pt1] [gt1]) std_exact std_differentiates exact_sv_exact W _ _ _ SH _ _ IT); [cbn; tauto|apply line_everywhere|cbn; tauto|cbn; lia|lra]. }
  destruct (priced_evaluates no_others exact_sv b0 std_ag sch it pt3 gt3 (3 * 2) h3 x3 goal0 goal1 EN3 (proj2 OR)) as (co' & h1' & x1' & E').
  { refine (C82_fixed_step_schemes no_others exact_sv b0 std_ag sch it 1 true None 1 (start [pt3] [gt3]) std_exact std_differentiates exact_sv_exact W' _ _ _ SH' _ _ IT); [cbn; tauto|exact (dear_everywhere 3 1 _ (line_everywhere one11 (tscal 3 one11)))|cbn; tauto|cbn; lia|lra]. }
  assert (AL : alike_objects pt1 pt3) by exact Logic.I.
  assert (N1 := EN). assert (N3 := EN3). unfold priced_atlas in N1, N3.
  assert (EC := C116_atlas no_others no_others exact_sv exact_sv b0 b0 std_ag std_ag None None _ _ pt1 pt3 [gt1] [gt3] eu eu 2%nat 2 _ _ _ _ _ _ _ _ _ _ _ _ [] [] _ _ h h3 x x3 _ _ sch it 1 1%nat 3 co h1 x1 co' h1' x1'
    ltac:(lra) std_exact std_exact exact_sv_exact exact_sv_exact ltac:(lra) IT (NoDup_nil _) (NoDup_nil _) N1 N3 P W LT TW SH AP AL AE E E').
  rewrite EC in E'. do 9 eexists. eauto 10.
Qed.
