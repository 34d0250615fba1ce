(** Properties of registrations placed elsewhere by a rigid motion (C102). *)
From Coq Require Import Reals String List Arith ZArith Lia Lra.
From Verif Require Import Py RSum Tensor TensorFacts KernelModel FieldModel Fl MeshModel AttachmentModel GeometryModel ModuleModel ShootingModel RegistrationModel
  SpecKernel SpecGeometry SpecModule SpecShooting SpecRegistration SpecTransport SpecRigid SpecSmooth SpecReduce SpecElsewhere
  ModuleMain ModuleLeaves ShootingDyn ShootingExample DiffBuild PropAttachment RegistrationRun RegistrationShoot PropRegistration ReduceFacts PropReduce PropRigid PropSmooth ElsewhereFacts.
Import ListNotations.
Open Scope string_scope.
Open Scope list_scope.
Open Scope R_scope.

(** Attachments: comparing the placed objects gives what comparing the objects gives. *)
Theorem C102_attachments : forall d Q c a x y x' y', rigid d Q -> comparable d a x y ->
  geo_elsewhere d Q c x x' -> geo_elsewhere d Q c y y' ->
  loss a x' y' = loss a x y /\ call a x' y' = call a x y.
Proof.
  intros d Q c a x y x' y' HQ C Ex Ey. assert (E : loss a x' y' = loss a x y) by exact (loss_placed d Q c a HQ x y x' y' C Ex Ey).
  split; [exact E|]. unfold call. rewrite E. reflexivity.
Qed.
Print Assumptions C102_attachments.

(** Inside a model: such an attachment, given to points, grids or meshes with targets placed
    elsewhere, does not see the motion. *)
Theorem C102_attachments_in_models : forall d Q c o o' a y y', rigid d Q -> alike_objects o o' -> geom_elsewhere d Q c y y' ->
  (forall q0 q x, lm_gd (df_man o) = Ok q0 -> shape q = shape q0 -> to_deformed o q = Ok x -> comparable d a (geo_of x) (geo_of y)) ->
  indifferent d Q c o o' (as_attachment a) (as_attachment a) y y'.
Proof.
  intros d Q c o o' a y y' HQ AO EY H q0 q q' x x' E0 S T D D'. pose proof (deformed_elsewhere d Q c o o' q q' x x' AO T D D') as EX.
  unfold as_attachment. rewrite (proj2 (C102_attachments d Q c a _ _ _ _ HQ (H q0 q x E0 S D) (geo_of_elsewhere _ _ _ _ _ EX) (geo_of_elsewhere _ _ _ _ _ EY))). reflexivity.
Qed.
Print Assumptions C102_attachments_in_models.

(** What two evaluations give when their shots are placed elsewhere. *)
Lemma same_outcome ck ck' others others' sv sv' b0 b0' ag ag' h h' r r' targets targets' name it t1 t1' cost cost' r1 r1' d Q c defs mods defs' mods' :
  rigid d Q -> exact_solver sv -> exact_solver sv' ->
  evaluate ck others sv b0 ag h r targets name it t1 [] = Ok (cost, r1) ->
  evaluate ck' others' sv' b0' ag' h' r' targets' name it t1' [] = Ok (cost', r1') ->
  filled h r = Ok (defs, mods) -> filled h' r' = Ok (defs', mods') ->
  r_fit_controls r = false -> r_fit_controls r' = false -> r_lam r' = r_lam r -> r_reduce r' = r_reduce r ->
  r_reduce r = "sum" \/ r_reduce r = "previous" \/ ~ known (r_reduce r) ->
  wf_mod d (start defs mods) -> wf_mod d (start defs' mods') -> locals_total d (start defs mods) -> locals_total d (start defs' mods') ->
  elsewhere d Q c (start defs mods) (start defs' mods') ->
  attached_elsewhere d Q c defs (r_att r) targets defs' (r_att r') targets' ->
  (forall sh sh', shoot ck others sv b0 ag name it t1 None true None (start defs mods) = Ok sh ->
     shoot ck' others' sv' b0' ag' name it t1' None true None (start defs' mods') = Ok sh' ->
     shot_elsewhere d Q c sh sh' /\ landed sh (start defs mods)) ->
  cost' = cost.
Proof.
  intros HQ HS HS' E E' F F' FC FC' EL ER RR W W' LT LT' EW AE RUN.
  destruct (evaluate_inv _ _ _ _ _ _ _ _ _ _ _ _ _ E) as (defs0 & mods0 & o & atts & F0 & D & A & _ & ->). rewrite F in F0. injection F0 as <- <-.
  destruct (evaluate_inv _ _ _ _ _ _ _ _ _ _ _ _ _ E') as (defs0' & mods0' & o' & atts' & F0' & D' & A' & _ & ->). rewrite F' in F0'. injection F0' as <- <-.
  unfold steps_of, controls_of in D, D'. rewrite FC in D. rewrite FC' in D'.
  destruct (compute_inv _ _ _ _ _ _ _ _ _ _ _ _ _ D) as (sh & ms & n & S & M & _ & RD & DF & _). destruct (compute_inv _ _ _ _ _ _ _ _ _ _ _ _ _ D') as (sh' & ms' & n' & S' & M' & _ & RD' & DF' & _).
  cbn [given option_map] in S, S', RD, RD'. destruct (RUN sh sh' S S') as ((V & CS & _) & LD).
  assert (LD' : landed sh' (start defs' mods')).
  { apply (landed_elsewhere d Q c _ _ sh sh' EW V LD); [exact (shoot_skel _ _ _ _ _ _ _ _ _ _ _ _ _ S')|exact (shoot_key _ _ _ _ _ _ _ _ _ _ _ _ _ S')]. }
  destruct (attachments_elsewhere d Q c defs mods _ _ defs' _ _ sh sh' ms ms' _ _ AE LD V M M' DF DF') as (EA & _). rewrite A, A' in EA. injection EA as ->. rewrite EL.
  f_equal. enough (X : dr_cost o' = dr_cost o) by (rewrite X; reflexivity). rewrite ER in RD'. unfold reduction in RD, RD'.
  destruct RR as [RR|[RR|RR]].
  - rewrite RR in RD, RD'. cbn [String.eqb Ascii.eqb Bool.eqb] in RD, RD'. rewrite CS in RD'. destruct (sh_costs sh); [|discriminate RD]. congruence.
  - rewrite RR in RD, RD'. cbn [String.eqb Ascii.eqb Bool.eqb] in RD, RD'. bok RD m1 HG1. bok RD x HC1. injection RD as <- _. bok RD' m1' HG2. bok RD' x' HC2. injection RD' as <- _.
    f_equal. exact (previous_same d Q c sv sv' b0 b0' _ _ sh sh' m1 m1' x x' HQ HS HS' W W' LT LT' EW LD LD' V HG1 HG2 HC1 HC2).
  - unfold known in RR. cbn [In] in RR.
    destruct (String.eqb_spec (r_reduce r) "sum"); [elim RR; auto|]. destruct (String.eqb_spec (r_reduce r) "previous"); [elim RR; auto|].
    destruct (String.eqb_spec (r_reduce r) "lastcompound"); [elim RR; auto|]. destruct (String.eqb_spec (r_reduce r) "totalcompound"); [elim RR; auto 6|]. congruence.
Qed.

(** A registration problem placed elsewhere (objects and modules placed, moments turned,
    targets placed) has the same costs: fixed step schemes, geodesic controls, the
    deformation cost being the sum of the recorded costs, or the cost computed at the end. *)
Theorem C102_fixed_step : forall others others' sv sv' b0 b0' ag ag' h h' r r' targets targets' sch it t1 cost cost' r1 r1' d Q c defs mods defs' mods',
  rigid d Q -> exact_grad ag -> exact_grad ag' -> exact_solver sv -> exact_solver sv' ->
  filled h r = Ok (defs, mods) -> filled h' r' = Ok (defs', mods') ->
  r_fit_controls r = false -> r_fit_controls r' = false -> r_lam r' = r_lam r -> r_reduce r' = r_reduce r ->
  r_reduce r = "sum" \/ r_reduce r = "previous" \/ ~ known (r_reduce r) ->
  wf_mod d (start defs mods) -> wf_mod d (start defs' mods') -> locals_smooth d (start defs mods) -> locals_total d (start defs' mods') ->
  shootable (start defs mods) -> shootable (start defs' mods') -> 0 < t1 -> (0 < it)%nat ->
  elsewhere d Q c (start defs mods) (start defs' mods') ->
  attached_elsewhere d Q c defs (r_att r) targets defs' (r_att r') targets' ->
  evaluate real_clock others sv b0 ag h r targets (scheme_name sch) it t1 [] = Ok (cost, r1) ->
  evaluate real_clock others' sv' b0' ag' h' r' targets' (scheme_name sch) it t1 [] = Ok (cost', r1') ->
  cost' = cost.
Proof.
  intros others others' sv sv' b0 b0' ag ag' h h' r r' targets targets' sch it t1 cost cost' r1 r1' d Q c defs mods defs' mods'
    HQ EX EX' HS HS' F F' FC FC' EL ER RR W W' LS LT' SH SH' T1 IT EW AE E E'.
  refine (same_outcome _ _ _ _ _ _ _ _ _ _ _ _ _ _ _ _ _ _ _ _ _ _ _ _ d Q c defs mods defs' mods' HQ HS HS' E E' F F' FC FC' EL ER RR W W' (smooth_total d _ LS) LT' EW AE _).
  intros sh sh' S S'. split.
  - exact (C80_modules_fixed_step others others' sv sv' b0 b0' ag ag' sch it t1 true None None d Q c _ _ sh sh' HQ EX EX' HS HS' W W' LS LT' EW SH SH' T1 IT S S').
  - destruct (final_state others sv b0 ag sch it t1 _ sh EX T1 IT SH S) as (_ & _ & _ & _ & _ & _ & K & SG & SC). split; [exact K|]. split; [exact (shoot_key _ _ _ _ _ _ _ _ _ _ _ _ _ S)|split; assumption].
Qed.
Print Assumptions C102_fixed_step.

(** torch_euler, any clocks (it records no costs: with "sum" evaluating fails). *)
Theorem C102_torch_euler : forall ck ck' others others' sv sv' b0 b0' ag ag' h h' r r' targets targets' it t1 t1' cost cost' r1 r1' d Q c defs mods defs' mods',
  rigid d Q -> exact_grad ag -> exact_grad ag' -> exact_solver sv -> exact_solver sv' ->
  filled h r = Ok (defs, mods) -> filled h' r' = Ok (defs', mods') ->
  r_fit_controls r = false -> r_fit_controls r' = false -> r_lam r' = r_lam r -> r_reduce r' = r_reduce r ->
  r_reduce r = "sum" \/ r_reduce r = "previous" \/ ~ known (r_reduce r) ->
  wf_mod d (start defs mods) -> wf_mod d (start defs' mods') -> locals_smooth d (start defs mods) -> locals_total d (start defs' mods') ->
  elsewhere d Q c (start defs mods) (start defs' mods') ->
  attached_elsewhere d Q c defs (r_att r) targets defs' (r_att r') targets' ->
  evaluate ck others sv b0 ag h r targets "torch_euler" it t1 [] = Ok (cost, r1) ->
  evaluate ck' others' sv' b0' ag' h' r' targets' "torch_euler" it t1' [] = Ok (cost', r1') ->
  cost' = cost.
Proof.
  intros ck ck' others others' sv sv' b0 b0' ag ag' h h' r r' targets targets' it t1 t1' cost cost' r1 r1' d Q c defs mods defs' mods'
    HQ EX EX' HS HS' F F' FC FC' EL ER RR W W' LS LT' EW AE E E'.
  refine (same_outcome _ _ _ _ _ _ _ _ _ _ _ _ _ _ _ _ _ _ _ _ _ _ _ _ d Q c defs mods defs' mods' HQ HS HS' E E' F F' FC FC' EL ER RR W W' (smooth_total d _ LS) LT' EW AE _).
  intros sh sh' S S'.
  assert (NC : forall m l x, None = Some l -> In x l -> ctrl_ok d m x) by discriminate.
  destruct (euler_runs ck ck' others others' sv sv' b0 b0' ag ag' it t1 t1' None None true None d Q c _ _ sh sh' HQ EX EX' HS HS' W W' (smooth_total d _ LS) LT' EW Logic.I (NC _) (NC _)
    (fun i => C81_steps sv b0 d _ None i HS W LS (NC _)) S S') as ((V & _) & (WG & _)).
  split; [exact V|]. pose proof (shoot_skel _ _ _ _ _ _ _ _ _ _ _ _ _ S) as K. split; [exact K|]. split; [exact (shoot_key _ _ _ _ _ _ _ _ _ _ _ _ _ S)|].
  exact (wf_shapes_skel d _ _ WG (proj1 (wf_mod_manifold d _ W)) K).
Qed.
Print Assumptions C102_torch_euler.

(** A concrete problem: one point and a global translation, on the line; the point, the
    moment and the target are reflected and moved by 5. *)
Definition q5 : tensor := place_rows 1 mirror to5 one11.
Definition p5 : tensor := turn_rows 1 mirror one11.
Definition pt5 : deformable := DPoints (GLm 1 1 q5 p5).
Definition goal0 : tensor := mk2 1 1 (fun _ _ => 7).
Definition goal5 : tensor := place_rows 1 mirror to5 goal0.
Definition eu : attachment := as_attachment (AEuclid 3).
Definition here : res (heap * reg) := registration (mkHeap [] []) [pt1] [gt1] [eu] false false [] 2 [] "sum" None None.
Definition there : res (heap * reg) := registration (mkHeap [] []) [pt5] [gt1] [eu] false false [] 2 [] "sum" None None.
Definition here_state : heap * reg := Eval cbv -[IZR one11 tzeros eu] in value no_model here.
Definition there_state : heap * reg := Eval cbv -[IZR q5 p5 tzeros eu] in value no_model there.

Example C102_hypotheses : forall sv b0 sch it, exact_solver sv -> (0 < it)%nat ->
  here = Ok here_state /\ there = Ok there_state /\
  rigid 1 mirror /\ exact_grad exact_ag /\
  filled (fst here_state) (snd here_state) = Ok ([pt1], [gt1]) /\ filled (fst there_state) (snd there_state) = Ok ([pt5], [gt1]) /\
  r_fit_controls (snd here_state) = false /\ r_fit_controls (snd there_state) = false /\ r_lam (snd there_state) = r_lam (snd here_state) /\
  r_reduce (snd here_state) = "sum" /\ r_reduce (snd there_state) = "sum" /\
  wf_mod 1 (start [pt1] [gt1]) /\ wf_mod 1 (start [pt5] [gt1]) /\ locals_smooth 1 (start [pt1] [gt1]) /\ locals_total 1 (start [pt5] [gt1]) /\
  shootable (start [pt1] [gt1]) /\ shootable (start [pt5] [gt1]) /\
  elsewhere 1 mirror to5 (start [pt1] [gt1]) (start [pt5] [gt1]) /\
  attached_elsewhere 1 mirror to5 [pt1] (r_att (snd here_state)) [[goal0]] [pt5] (r_att (snd there_state)) [[goal5]] /\
  exists cost r1 r1', evaluate real_clock no_others sv b0 exact_ag (fst here_state) (snd here_state) [[goal0]] (scheme_name sch) it 1 [] = Ok (cost, r1) /\
    evaluate real_clock no_others sv b0 exact_ag (fst there_state) (snd there_state) [[goal5]] (scheme_name sch) it 1 [] = Ok (cost, r1').
Proof.
  intros sv b0 sch it HS IT. pose proof (rigid_half 1) as HQ. fold mirror in HQ. pose proof exact_ag_exact as EX.
  assert (H1 : here = Ok here_state) by (vm_compute; reflexivity). assert (H2 : there = Ok there_state) by (vm_compute; reflexivity).
  assert (F : filled (fst here_state) (snd here_state) = Ok ([pt1], [gt1])) by reflexivity.
  assert (F' : filled (fst there_state) (snd there_state) = Ok ([pt5], [gt1])) by reflexivity.
  destruct (C80_hypotheses real_clock no_others sv b0 it 1 IT HS) as (_ & _ & W & W' & LT & LT' & EW & SH & SH' & _ & _ & RUN).
  change ex0 with (start [pt1] [gt1]) in *. change ex1 with (start [pt5] [gt1]) in *.
  assert (LS : locals_smooth 1 (start [pt1] [gt1])) by (cbn; tauto).
  assert (AE : attached_elsewhere 1 mirror to5 [pt1] (r_att (snd here_state)) [[goal0]] [pt5] (r_att (snd there_state)) [[goal5]]).
  { change (r_att (snd here_state)) with [eu]. change (r_att (snd there_state)) with [eu].
    assert (GE : geom_elsewhere 1 mirror to5 [goal0] [goal5]) by (split; [split; reflexivity|reflexivity]).
    apply ae_cons; [exact Logic.I|exact GE| |apply ae_nil]. apply C102_attachments_in_models; [exact HQ|exact Logic.I|exact GE|].
    intros q0 q x E0 S D. cbn in E0, D. injection E0 as <-. injection D as <-. exists 1%nat. split; [exact S|reflexivity]. }
  assert (AO : forall a x y, In a [eu] -> is_ok (a x y)).
  { intros a x y [<-|[]]. unfold eu, as_attachment, call. cbn [loss bind att_weight]. eexists. reflexivity. }
  assert (OR : Forall ordinary [pt1] /\ Forall ordinary [pt5]).
  { split; (constructor; [|constructor]); (split; [reflexivity|]); (split; [cbn; eauto 10|]); intros q; eexists; reflexivity. }
  do 19 (split; [first [assumption|reflexivity]|]).
  destruct (RUN no_others sch 1 ltac:(lra)) as (sh & sh' & S & S' & _).
  assert (NE : scheme_name sch <> "torch_euler") by (destruct sch; discriminate).
  destruct (C32_solvers_evaluate real_clock no_others sv b0 exact_ag (fst here_state) (snd here_state) [[goal0]] (scheme_name sch) it 1 [pt1] [gt1] sh NE eq_refl F (proj1 OR) S eq_refl AO) as (co & xs & atts & r1 & _ & _ & E).
  destruct (C32_solvers_evaluate real_clock no_others sv b0 exact_ag (fst there_state) (snd there_state) [[goal5]] (scheme_name sch) it 1 [pt5] [gt1] sh' NE eq_refl F' (proj2 OR) S' eq_refl AO) as (co' & xs' & atts' & r1' & _ & _ & E').
  assert (EC := C102_fixed_step no_others no_others sv sv b0 b0 exact_ag exact_ag _ _ _ _ _ _ sch it 1 _ _ _ _ 1%nat mirror to5 [pt1] [gt1] [pt5] [gt1] HQ EX EX HS HS F F'
    eq_refl eq_refl eq_refl eq_refl (or_introl eq_refl) W W' LS LT' SH SH' ltac:(lra) IT EW AE E E').
  rewrite EC in E'. eauto.
Qed.
