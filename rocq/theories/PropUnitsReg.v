(** Properties of registrations measured in another unit of length (C105). *)
From Coq Require Import Reals String List Arith ZArith Lia Lra.
From Verif Require Import Py RSum Tensor TensorFacts KernelModel FieldModel Fl MeshModel AttachmentModel GeometryModel ModuleModel ShootingModel RegistrationModel
  SpecKernel SpecAttachment SpecGeometry SpecModule SpecShooting SpecRegistration SpecTransport SpecRigid SpecSmooth SpecReduce SpecElsewhere SpecUnits SpecUnitsReg
  VarifoldFacts AttachmentFacts ModuleMain ModuleLeaves ShootingDyn ShootingInst ShootingExample ShootingTotal DiffBuild MotionMomentum TransportFacts PropAttachment RegistrationRun RegistrationShoot PropShooting PropRegistration ReduceFacts PropReduce PropRigid PropSmooth ElsewhereFacts PropElsewhere PropUnits UnitsShoot UnitsReg.
Import ListNotations.
Open Scope string_scope.
Open Scope list_scope.
Open Scope R_scope.

(** Attachments: comparing the objects in the other unit, with scales in the other unit,
    multiplies the loss by u for points in correspondence, by u^2 for closed curves, by u^4
    for meshes. *)
Theorem C105_attachments : forall d u n a x y x' y', 0 < u -> degree n a -> comparable d a x y ->
  geo_units u x x' -> geo_units u y y' ->
  loss (att_in_units u a) x' y' = times_loss (u ^ n) (loss a x y) /\
  call (att_in_units u a) x' y' = times_loss (u ^ n) (call a x y).
Proof.
  intros d u n a x y x' y' U DG C Ex Ey. assert (E : loss (att_in_units u a) x' y' = times_loss (u ^ n) (loss a x y)) by exact (loss_units d u n a U DG x y x' y' C Ex Ey).
  split; [exact E|]. unfold call. rewrite E, att_weight_units. destruct (loss a x y) as [l|e]; cbn [times_loss bind]; [|reflexivity].
  rewrite fmul_weight by (apply pow_lt; exact U). reflexivity.
Qed.
Print Assumptions C105_attachments.

(** Inside a model. *)
Theorem C105_attachments_in_models : forall d u n o o' a y y', 0 < u -> degree n a -> alike_objects o o' -> geom_units u y y' ->
  (forall q0 q x, lm_gd (df_man o) = Ok q0 -> shape q = shape q0 -> to_deformed o q = Ok x -> comparable d a (geo_of x) (geo_of y)) ->
  measured u (u ^ n) o o' (as_attachment a) (as_attachment (att_in_units u a)) y y'.
Proof.
  intros d u n o o' a y y' U DG AO EY H q0 q q' x x' E0 S T D D'. pose proof (deformed_units u o o' q q' x x' AO T D D') as EX.
  unfold as_attachment. rewrite (proj2 (C105_attachments d u n a _ _ _ _ U DG (H q0 q x E0 S D) (geo_of_units _ _ _ EX) (geo_of_units _ _ _ EY))).
  assert (K : 0 < u ^ n) by (apply pow_lt; exact U). assert (N : Reqb (u ^ n) 0 = false) by (destruct (Reqb (u ^ n) 0) eqn:Q; [apply Reqb_true in Q; lra|reflexivity]).
  assert (L : Rltb (u ^ n) 0 = false) by (destruct (Rltb (u ^ n) 0) eqn:Q; [apply Rltb_true in Q; lra|reflexivity]).
  destruct (call a (geo_of x) (geo_of y)) as [[| | |]|]; cbn [times_loss fmul]; rewrite ?N, ?L; reflexivity.
Qed.
Print Assumptions C105_attachments_in_models.

Lemma total_times k l : SpecRegistration.total (map (fun x => k * x) l) = k * SpecRegistration.total l.
Proof. unfold SpecRegistration.total. induction l as [|x l IH]; cbn [map fold_right]; [ring|]. rewrite IH. ring. Qed.

Lemma previous_units d u sv sv' b0 b0' m m' sh sh' m1 m1' x x' : 0 < u -> exact_solver sv -> exact_solver sv' ->
  wf_mod d m -> wf_mod d m' -> locals_total d m -> locals_total d m' -> other_unit d u m m' -> landed sh m -> landed sh' m' ->
  same_values (mod_manifold (sh_mod sh')) (in_units u (mod_manifold (sh_mod sh))) ->
  geodesic_controls sv b0 (sh_mod sh) = Ok m1 -> geodesic_controls sv' b0' (sh_mod sh') = Ok m1' -> cost m1 = Ok x -> cost m1' = Ok x' -> x' = u * u * x.
Proof.
  intros U HS HS' W W' LT LT' (TW & _) (K & F & SG & SC) (K' & F' & SG' & SC') V G G' C C'.
  destruct (set_ok m _ K) as (n & E & M & FN & _). destruct (set_ok m' _ K') as (n' & E' & M' & FN' & _).
  pose proof (wf_set d m _ n W LT K SG SC E) as WN. pose proof (wf_set d m' _ n' W' LT' K' SG' SC' E') as WN'.
  rewrite (geodesic_determined sv b0 (sh_mod sh) n) in G by congruence. rewrite (geodesic_determined sv' b0' (sh_mod sh') n') in G' by congruence.
  assert (EW : other_unit d u n n') by (split; [exact (resized_set d u m m' _ _ n n' TW E E')|rewrite M, M'; exact V]).
  destruct (C103_geodesic_controls sv sv' b0 b0' d u n n' m1 m1' U HS HS' WN WN' EW G G') as ((z & _ & _ & C1 & C2) & _). congruence.
Qed.

(** Every cost of the dictionary multiplied by k. *)
Definition times_costs (k : R) (c : list (string * R)) : list (string * R) := map (fun e => (fst e, k * snd e)) c.

(** What two evaluations give when their shots are in other units.  [lam] and [lam'] are free:
    the deformation cost is multiplied by u * u, the attachment cost by lam' k / lam. *)
Lemma units_outcome ck ck' others others' sv sv' b0 b0' ag ag' h h' r r' targets targets' name it t1 t1' cost cost' r1 r1' d u k defs mods defs' mods' :
  0 < u -> exact_solver sv -> exact_solver sv' ->
  evaluate ck others sv b0 ag h r targets name it t1 [] = Ok (cost, r1) ->
  evaluate ck' others' sv' b0' ag' h' r' targets' name it t1' [] = Ok (cost', r1') ->
  filled h r = Ok (defs, mods) -> filled h' r' = Ok (defs', mods') ->
  r_fit_controls r = false -> r_fit_controls r' = false -> r_reduce r' = r_reduce r ->
  r_reduce r = "sum" \/ r_reduce r = "previous" \/ ~ known (r_reduce r) ->
  wf_mod d (start defs mods) -> wf_mod d (start defs' mods') -> locals_total d (start defs mods) -> locals_total d (start defs' mods') ->
  other_unit d u (start defs mods) (start defs' mods') ->
  attached_units u k defs (r_att r) targets defs' (r_att r') targets' ->
  (forall sh sh', shoot ck others sv b0 ag name it t1 None true None (start defs mods) = Ok sh ->
     shoot ck' others' sv' b0' ag' name it t1' None true None (start defs' mods') = Ok sh' ->
     shot_units u sh sh' /\ landed sh (start defs mods)) ->
  exists dc a, cost = match dc with Some x => [("deformation", x)] | None => [] end ++ [("attach", r_lam r * a)] /\
    cost' = match dc with Some x => [("deformation", u * u * x)] | None => [] end ++ [("attach", r_lam r' * (k * a))].
Proof.
  intros U HS HS' E E' F F' FC FC' ER RR W W' LT LT' EW AE RUN.
  destruct (evaluate_inv _ _ _ _ _ _ _ _ _ _ _ _ _ E) as (defs0 & mods0 & o & atts & F0 & D & A & _ & ->). rewrite F in F0. injection F0 as <- <-.
  destruct (evaluate_inv _ _ _ _ _ _ _ _ _ _ _ _ _ E') as (defs0' & mods0' & o' & atts' & F0' & D' & A' & _ & ->). rewrite F' in F0'. injection F0' as <- <-.
  unfold steps_of, controls_of in D, D'. rewrite FC in D. rewrite FC' in D'.
  destruct (compute_inv _ _ _ _ _ _ _ _ _ _ _ _ _ D) as (sh & ms & n & S & M & _ & RD & DF & _). destruct (compute_inv _ _ _ _ _ _ _ _ _ _ _ _ _ D') as (sh' & ms' & n' & S' & M' & _ & RD' & DF' & _).
  cbn [given option_map] in S, S', RD, RD'. destruct (RUN sh sh' S S') as ((V & CS & _) & LD).
  assert (LD' : landed sh' (start defs' mods')).
  { apply (landed_units d u _ _ sh sh' EW V LD); [exact (shoot_skel _ _ _ _ _ _ _ _ _ _ _ _ _ S')|exact (shoot_key _ _ _ _ _ _ _ _ _ _ _ _ _ S')]. }
  destruct (attachments_units u k defs mods _ _ defs' _ _ sh sh' ms ms' _ _ AE LD V M M' DF DF') as (EA & _). rewrite A, A' in EA. injection EA as ->.
  exists (dr_cost o), (SpecRegistration.total atts). split; [reflexivity|]. rewrite <- (total_times k atts). f_equal.
  enough (X : dr_cost o' = option_map (fun x => u * u * x) (dr_cost o)) by (rewrite X; destruct (dr_cost o); reflexivity). rewrite ER in RD'. unfold reduction in RD, RD'.
  destruct RR as [RR|[RR|RR]].
  - rewrite RR in RD, RD'. cbn [String.eqb Ascii.eqb Bool.eqb] in RD, RD'. rewrite CS in RD'. destruct (sh_costs sh) as [l|]; [|discriminate RD]. cbn [option_map] in RD'. injection RD as <- _. injection RD' as <- _.
    cbn [option_map]. rewrite !py_sum_total, total_times. reflexivity.
  - rewrite RR in RD, RD'. cbn [String.eqb Ascii.eqb Bool.eqb] in RD, RD'. bok RD m1 HG1. bok RD x HC1. injection RD as <- _. bok RD' m1' HG2. bok RD' x' HC2. injection RD' as <- _.
    cbn [option_map]. f_equal. exact (previous_units d u sv sv' b0 b0' _ _ sh sh' m1 m1' x x' U HS HS' W W' LT LT' EW LD LD' V HG1 HG2 HC1 HC2).
  - unfold known in RR. cbn [In] in RR.
    destruct (String.eqb_spec (r_reduce r) "sum"); [elim RR; auto|]. destruct (String.eqb_spec (r_reduce r) "previous"); [elim RR; auto|].
    destruct (String.eqb_spec (r_reduce r) "lastcompound"); [elim RR; auto|]. destruct (String.eqb_spec (r_reduce r) "totalcompound"); [elim RR; auto 6|]. injection RD as <- _. injection RD' as <- _. reflexivity.
Qed.
Lemma units_times u k lam lam' (dc : option R) a : lam' * k = u * u * lam ->
  match dc with Some x => [("deformation", u * u * x)] | None => [] end ++ [("attach", lam' * (k * a))] =
  times_costs (u * u) (match dc with Some x => [("deformation", x)] | None => [] end ++ [("attach", lam * a)]).
Proof. intros L. assert (X : lam' * (k * a) = u * u * (lam * a)) by (rewrite <- Rmult_assoc, L; ring). rewrite X. destruct dc; reflexivity. Qed.

(** The same registration problem in another unit of length (points, moments, scales,
    coefficients as in C103, attachments multiplied by k, lam multiplied by u^2 / k) has all
    its costs multiplied by u^2: fixed step schemes, geodesic controls, the deformation cost
    being the sum of the recorded costs, or the cost computed at the end. *)
Theorem C105_fixed_step : forall others others' sv sv' b0 b0' ag ag' h h' r r' targets targets' sch it t1 cost cost' r1 r1' d u k defs mods defs' mods',
  0 < u -> exact_grad ag -> exact_grad ag' -> exact_solver sv -> exact_solver sv' ->
  filled h r = Ok (defs, mods) -> filled h' r' = Ok (defs', mods') ->
  r_fit_controls r = false -> r_fit_controls r' = false -> r_lam r' * k = u * u * r_lam r -> r_reduce r' = r_reduce r ->
  r_reduce r = "sum" \/ r_reduce r = "previous" \/ ~ known (r_reduce r) ->
  wf_mod d (start defs mods) -> wf_mod d (start defs' mods') -> locals_total d (start defs mods) -> locals_total d (start defs' mods') ->
  shootable (start defs mods) -> shootable (start defs' mods') -> 0 < t1 -> (0 < it)%nat ->
  other_unit d u (start defs mods) (start defs' mods') ->
  attached_units u k defs (r_att r) targets defs' (r_att r') targets' ->
  evaluate real_clock others sv b0 ag h r targets (scheme_name sch) it t1 [] = Ok (cost, r1) ->
  evaluate real_clock others' sv' b0' ag' h' r' targets' (scheme_name sch) it t1 [] = Ok (cost', r1') ->
  cost' = times_costs (u * u) cost.
Proof.
  intros others others' sv sv' b0 b0' ag ag' h h' r r' targets targets' sch it t1 cost cost' r1 r1' d u k defs mods defs' mods'
    U EX EX' HS HS' F F' FC FC' EL ER RR W W' LT LT' SH SH' T1 IT EW AE E E'.
  destruct (units_outcome _ _ _ _ _ _ _ _ _ _ _ _ _ _ _ _ _ _ _ _ _ _ _ _ d u k defs mods defs' mods' U HS HS' E E' F F' FC FC' ER RR W W' LT LT' EW AE) as (dc & a & -> & ->); [|apply units_times; exact EL].
  intros sh sh' S S'. split.
  - exact (C103_fixed_step others others' sv sv' b0 b0' ag ag' sch it t1 true None None d u _ _ sh sh' U EX EX' HS HS' W W' LT LT' EW SH SH' T1 IT S S').
  - destruct (final_state others sv b0 ag sch it t1 _ sh EX T1 IT SH S) as (_ & _ & _ & _ & _ & _ & K & SG & SC). split; [exact K|]. split; [exact (shoot_key _ _ _ _ _ _ _ _ _ _ _ _ _ S)|split; assumption].
Qed.
Print Assumptions C105_fixed_step.

Lemma euler_landed ck others sv b0 ag it t1 d m sh : exact_grad ag -> wf_mod d m -> locals_total d m ->
  shoot ck others sv b0 ag "torch_euler" it t1 None true None m = Ok sh -> landed sh m.
Proof.
  intros EX W LT S. pose proof (shoot_skel _ _ _ _ _ _ _ _ _ _ _ _ _ S) as K. split; [exact K|]. split; [exact (shoot_key _ _ _ _ _ _ _ _ _ _ _ _ _ S)|].
  destruct (wf_mod_manifold d m W) as (WG & _).
  destruct (C25_torch_euler_steps ck others sv b0 ag it t1 None true None m sh EX (wf_shapes d _ WG) S) as (IT & states & mods & L & LM & E0 & E1 & T & AT & KS & CS & KE).
  assert (SP : map shape (phase (mod_manifold (sh_mod sh))) = map shape (phase (mod_manifold m))).
  { exact (trajectory_shapes SEuler (ham_of m (geodesic_controls sv b0)) (1 / INR it) _ _ (phase (mod_manifold m)) T (map_nth_error phase 0 states E0) it _ (map_nth_error phase it states E1)). }
  unfold phase in SP. rewrite !map_app in SP. destruct (skel_g_gd_len _ _ K) as (L1 & _). apply TransportFacts.app_inj_len in SP; [exact SP|rewrite !map_length; exact L1].
Qed.

(** torch_euler, any clocks (it records no costs: with "sum" evaluating fails). *)
Theorem C105_torch_euler : forall ck ck' others others' sv sv' b0 b0' ag ag' h h' r r' targets targets' it t1 t1' cost cost' r1 r1' d u k defs mods defs' mods',
  0 < u -> exact_grad ag -> exact_grad ag' -> exact_solver sv -> exact_solver sv' ->
  filled h r = Ok (defs, mods) -> filled h' r' = Ok (defs', mods') ->
  r_fit_controls r = false -> r_fit_controls r' = false -> r_lam r' * k = u * u * r_lam r -> r_reduce r' = r_reduce r ->
  r_reduce r = "sum" \/ r_reduce r = "previous" \/ ~ known (r_reduce r) ->
  wf_mod d (start defs mods) -> wf_mod d (start defs' mods') -> locals_total d (start defs mods) -> locals_total d (start defs' mods') ->
  other_unit d u (start defs mods) (start defs' mods') ->
  attached_units u k defs (r_att r) targets defs' (r_att r') targets' ->
  evaluate ck others sv b0 ag h r targets "torch_euler" it t1 [] = Ok (cost, r1) ->
  evaluate ck' others' sv' b0' ag' h' r' targets' "torch_euler" it t1' [] = Ok (cost', r1') ->
  cost' = times_costs (u * u) cost.
Proof.
  intros ck ck' others others' sv sv' b0 b0' ag ag' h h' r r' targets targets' it t1 t1' cost cost' r1 r1' d u k defs mods defs' mods'
    U EX EX' HS HS' F F' FC FC' EL ER RR W W' LT LT' EW AE E E'.
  destruct (units_outcome _ _ _ _ _ _ _ _ _ _ _ _ _ _ _ _ _ _ _ _ _ _ _ _ d u k defs mods defs' mods' U HS HS' E E' F F' FC FC' ER RR W W' LT LT' EW AE) as (dc & a & -> & ->); [|apply units_times; exact EL].
  intros sh sh' S S'. assert (NC : forall m l x, None = Some l -> In x l -> ctrl_ok d m x) by discriminate. split.
  - exact (proj1 (C103_torch_euler ck ck' others others' sv sv' b0 b0' ag ag' it t1 t1' None None true None d u _ _ sh sh' U EX EX' HS HS' W W' LT LT' EW Logic.I (NC _) (NC _) S S')).
  - exact (euler_landed ck others sv b0 ag it t1 d _ sh EX W LT S).
Qed.
Print Assumptions C105_torch_euler.

(** A concrete problem: one point and a global translation, on the line, points in
    correspondence; in a unit twice as small lam goes from 2 to 4. *)
Definition two11 : tensor := tscal 2 one11.
Definition pt2 : deformable := DPoints (GLm 1 1 two11 two11).
Definition goal2 (g : tensor) : tensor := tscal 2 g.
Definition small (lam : R) : res (heap * reg) := registration (mkHeap [] []) [pt2] [gt1] [eu] false false [] lam [] "sum" None None.
Definition small_state (lam : R) : heap * reg := Eval cbv -[IZR two11 tzeros eu] in value no_model (small lam).
Definition ex2 : dmod := ex_mod two11 two11 (tzeros [1%nat]).
Lemma ex2_shootable : shootable ex2.
Proof. eexists. split; [reflexivity|]. split; [repeat constructor|cbn; auto 10]. Qed.

Lemma small_facts : wf_mod 1 ex0 /\ wf_mod 1 ex2 /\ locals_total 1 ex0 /\ locals_total 1 ex2 /\ shootable ex0 /\ shootable ex2 /\ other_unit 1 2 ex0 ex2.
Proof.
  split; [cbn; repeat split; try lra; discriminate|]. split; [cbn; repeat split; try lra; discriminate|]. split; [cbn; tauto|]. split; [cbn; tauto|].
  split; [exact ex_shootable|]. split; [exact ex2_shootable|]. split; [cbn; repeat split|]. split; (split; [reflexivity|]); repeat constructor.
Qed.
Lemma small_attached g : shape g = [1%nat; 1%nat] -> attached_units 2 2 [pt1] [eu] [[g]] [pt2] [eu] [[goal2 g]].
Proof.
  intros Sg. assert (GU : geom_units 2 [g] [goal2 g]) by (split; [split; reflexivity|reflexivity]).
  apply au_cons; [exact Logic.I|exact GU| |apply au_nil].
  enough (X : measured 2 (2 ^ 1) pt1 pt2 (as_attachment (AEuclid 3)) (as_attachment (att_in_units 2 (AEuclid 3))) [g] [goal2 g]) by (rewrite pow_1 in X; exact X).
  apply (C105_attachments_in_models 1); [lra|reflexivity|exact Logic.I|exact GU|].
  intros q0 q x E0 S D. cbn in E0, D. injection E0 as <-. injection D as <-. exists 1%nat. split; [exact S|exact Sg].
Qed.
Lemma small_evaluates sv b0 sch it lam g : exact_solver sv -> (0 < it)%nat -> exists cost cost' r1 r1',
  evaluate real_clock no_others sv b0 exact_ag (fst here_state) (snd here_state) [[g]] (scheme_name sch) it 1 [] = Ok (cost, r1) /\
  evaluate real_clock no_others sv b0 exact_ag (fst (small_state lam)) (snd (small_state lam)) [[goal2 g]] (scheme_name sch) it 1 [] = Ok (cost', r1') /\
  exists x y, cost = [("deformation", x); ("attach", y)].
Proof.
  intros HS IT. pose proof exact_ag_exact as EX.
  assert (AO : forall a x y, In a [eu] -> is_ok (a x y)).
  { intros a x y [<-|[]]. unfold eu, as_attachment, call. cbn [loss bind att_weight]. eexists. reflexivity. }
  assert (OR : Forall ordinary [pt1] /\ Forall ordinary [pt2]).
  { split; (constructor; [|constructor]); (split; [reflexivity|]); (split; [cbn; eauto 10|]); intros q; eexists; reflexivity. }
  destruct (ex_shoots no_others sv b0 sch it IT) as (sh & S).
  assert (X : is_ok (shoot real_clock no_others sv b0 exact_ag (scheme_name sch) it 1 None true None ex2)).
  { destruct ex2_shootable as (ms & EQ & SI & SP). unfold ex2, ex_mod in EQ. injection EQ as <-.
    apply moments_total; [lra|assumption|exact SI|exact SP|cbn; lia|exact EX|]. intros m. apply ex_total. }
  destruct X as (sh' & S'). assert (NE : scheme_name sch <> "torch_euler") by (destruct sch; discriminate).
  destruct (C32_solvers_evaluate real_clock no_others sv b0 exact_ag (fst here_state) (snd here_state) [[g]] (scheme_name sch) it 1 [pt1] [gt1] sh NE eq_refl eq_refl (proj1 OR) S eq_refl AO) as (co & xs & atts & r1 & _ & _ & E).
  destruct (C32_solvers_evaluate real_clock no_others sv b0 exact_ag (fst (small_state lam)) (snd (small_state lam)) [[goal2 g]] (scheme_name sch) it 1 [pt2] [gt1] sh' NE eq_refl eq_refl (proj2 OR) S' eq_refl AO) as (co' & xs' & atts' & r1' & _ & _ & E').
  do 4 eexists. split; [exact E|]. split; [exact E'|]. do 2 eexists. reflexivity.
Qed.

Example C105_hypotheses : forall sv b0 sch it, exact_solver sv -> (0 < it)%nat ->
  here = Ok here_state /\ small 4 = Ok (small_state 4) /\ exact_grad exact_ag /\
  filled (fst here_state) (snd here_state) = Ok ([pt1], [gt1]) /\ filled (fst (small_state 4)) (snd (small_state 4)) = Ok ([pt2], [gt1]) /\
  r_fit_controls (snd here_state) = false /\ r_fit_controls (snd (small_state 4)) = false /\ r_lam (snd (small_state 4)) * 2 = 2 * 2 * r_lam (snd here_state) /\
  r_reduce (snd here_state) = "sum" /\ r_reduce (snd (small_state 4)) = "sum" /\
  wf_mod 1 (start [pt1] [gt1]) /\ wf_mod 1 (start [pt2] [gt1]) /\ locals_total 1 (start [pt1] [gt1]) /\ locals_total 1 (start [pt2] [gt1]) /\
  shootable (start [pt1] [gt1]) /\ shootable (start [pt2] [gt1]) /\
  other_unit 1 2 (start [pt1] [gt1]) (start [pt2] [gt1]) /\
  attached_units 2 2 [pt1] (r_att (snd here_state)) [[goal0]] [pt2] (r_att (snd (small_state 4))) [[goal2 goal0]] /\
  exists cost r1 r1', evaluate real_clock no_others sv b0 exact_ag (fst here_state) (snd here_state) [[goal0]] (scheme_name sch) it 1 [] = Ok (cost, r1) /\
    evaluate real_clock no_others sv b0 exact_ag (fst (small_state 4)) (snd (small_state 4)) [[goal2 goal0]] (scheme_name sch) it 1 [] = Ok (times_costs (2 * 2) cost, r1').
Proof.
  intros sv b0 sch it HS IT. pose proof exact_ag_exact as EX.
  assert (H1 : here = Ok here_state) by (vm_compute; reflexivity). assert (H2 : small 4 = Ok (small_state 4)) by (vm_compute; reflexivity).
  assert (F : filled (fst here_state) (snd here_state) = Ok ([pt1], [gt1])) by reflexivity.
  assert (F' : filled (fst (small_state 4)) (snd (small_state 4)) = Ok ([pt2], [gt1])) by reflexivity.
  destruct small_facts as (W & W' & LT & LT' & SH & SH' & EW). change ex0 with (start [pt1] [gt1]) in *. change ex2 with (start [pt2] [gt1]) in *.
  assert (EL : r_lam (snd (small_state 4)) * 2 = 2 * 2 * r_lam (snd here_state)) by (cbn; lra).
  assert (AE : attached_units 2 2 [pt1] (r_att (snd here_state)) [[goal0]] [pt2] (r_att (snd (small_state 4))) [[goal2 goal0]]) by (apply small_attached; reflexivity).
  do 18 (split; [first [assumption|reflexivity]|]).
  destruct (small_evaluates sv b0 sch it 4 goal0 HS IT) as (co & co' & r1 & r1' & E & E' & _).
  assert (EC := C105_fixed_step no_others no_others sv sv b0 b0 exact_ag exact_ag _ _ _ _ _ _ sch it 1 _ _ _ _ 1%nat 2 2 [pt1] [gt1] [pt2] [gt1] ltac:(lra) EX EX HS HS F F'
    eq_refl eq_refl EL eq_refl (or_introl eq_refl) W W' LT LT' SH SH' ltac:(lra) IT EW AE E E').
  rewrite EC in E'. eauto.
Qed.

(** Curves and meshes: the hypotheses of C105_attachments. *)
Definition segment : geo := mkGeo (mk2 2 2 (fun i c => match i, c with 1%nat, 0%nat => 1 | _, _ => 0 end)) None.
Definition spot : geo := mkGeo (mk2 2 2 (fun _ _ => 0)) None.
Definition in2 (x : geo) : geo := mkGeo (tscal 2 (g_points x)) (g_faces x).
Definition triangle : geo := mkGeo (mk2 3 3 (fun i c => match i, c with 1%nat, 0%nat => 1 | 2%nat, 1%nat => 1 | _, _ => 0 end)) (Some [(0, 1, 2)%nat]).
Example C105_attachments_hypotheses :
  degree 2 (AVar2 1 Torch [1]) /\ comparable 2 (AVar2 1 Torch [1]) segment spot /\ geo_units 2 segment (in2 segment) /\ geo_units 2 spot (in2 spot) /\
  degree 4 (ACompound 1 [ANull; AVar3 1 Keops [1; 3]]) /\ comparable 3 (ACompound 1 [ANull; AVar3 1 Keops [1; 3]]) triangle triangle /\ geo_units 2 triangle (in2 triangle).
Proof.
  assert (T : forall t, teq t t) by (split; reflexivity). split; [reflexivity|]. split.
  { split; [reflexivity|]. split; [reflexivity|]. split; [constructor; [lra|constructor]|]. split; exists 2%nat; (split; [lia|reflexivity]). }
  split; [split; [apply T|reflexivity]|]. split; [split; [apply T|reflexivity]|]. split; [cbn; auto|]. split; [|split; [apply T|reflexivity]].
  assert (M : is_mesh (g_points triangle, [(0, 1, 2)%nat])).
  { split; [exists 3%nat; reflexivity|]. constructor; [|constructor]. intros k K. destruct k as [|[|[|k]]]; cbn; lia. }
  cbn [comparable fold_right]. split; [exact Logic.I|]. split; [|exact Logic.I]. split; [reflexivity|]. split; [repeat constructor; lra|].
  do 2 exists [(0, 1, 2)%nat]. split; [reflexivity|]. split; [reflexivity|]. split; [exact M|]. split; [exact M|]. split; discriminate.
Qed.

(** A finding: lam has a unit, which depends on the attachment.  With points in
    correspondence, the problem in a unit twice as small with lam kept has its deformation
    cost multiplied by 4 and its attachment cost by 2 only: another problem. *)
Theorem C105_same_lam_refuted : forall sv b0, exact_solver sv -> exists ag h h' r r' u targets targets' defs mods defs' mods',
  exact_grad ag /\ 0 < u /\ filled h r = Ok (defs, mods) /\ filled h' r' = Ok (defs', mods') /\ r_reduce r' = r_reduce r /\ r_lam r' = r_lam r /\
  other_unit 1 u (start defs mods) (start defs' mods') /\
  attached_units u u defs (r_att r) targets defs' (r_att r') targets' /\
  exists cost cost' r1 r1' x a, a <> 0 /\
    evaluate real_clock no_others sv b0 ag h r targets "euler" 1 1 [] = Ok (cost, r1) /\
    evaluate real_clock no_others sv b0 ag h' r' targets' "euler" 1 1 [] = Ok (cost', r1') /\
    cost = [("deformation", x); ("attach", a)] /\ cost' = [("deformation", u * u * x); ("attach", u * a)] /\ cost' <> times_costs (u * u) cost.
Proof.
  intros sv b0 HS. destruct small_facts as (W & W' & LT & LT' & SH & SH' & EW). change ex0 with (start [pt1] [gt1]) in *. change ex2 with (start [pt2] [gt1]) in *.
  pose proof exact_ag_exact as EX.
  assert (F : filled (fst here_state) (snd here_state) = Ok ([pt1], [gt1])) by reflexivity.
  assert (F' : filled (fst (small_state 2)) (snd (small_state 2)) = Ok ([pt2], [gt1])) by reflexivity.
  destruct (small_evaluates sv b0 SEuler 1 2 goal0 HS ltac:(lia)) as (c0 & _ & r0 & _ & E0 & _).
  destruct (evaluate_inv _ _ _ _ _ _ _ _ _ _ _ _ _ E0) as (defs0 & mods0 & o & _ & F0 & D & _ & _ & _). rewrite F in F0. injection F0 as <- <-.
  change (steps_of (snd here_state) 1) with 1%nat in D. change (controls_of (fst here_state) (snd here_state)) with (@None (list (list ctrl))) in D.
  destruct (compute_inv _ _ _ _ _ _ _ _ _ _ _ _ _ D) as (sh & ms & n & S & M & _ & RD & DF & _). cbn [given option_map] in S.
  destruct (final_state no_others sv b0 exact_ag SEuler 1 1 _ sh EX ltac:(lra) ltac:(lia) SH S) as (_ & _ & _ & _ & _ & _ & K & SG & SC).
  rewrite M, start_man in K, SG. cbn [mod_manifold] in K, SG.
  pose proof (heads [pt1] _ ms K SG (ex_intro _ _ DF)) as HD. destruct ms as [|m0 ms]; [discriminate K|]. cbn [length firstn] in HD, DF. inversion HD as [|? ? ? ? (dim & nb & q0 & p0 & q & p & Eo & Em & Sq) _]; subst.
  cbn [deformed_list] in DF. rewrite Em in DF. cbn [lm_gd bind to_deformed pt1] in DF. injection DF as DF. cbn [df_man pt1] in Eo. injection Eo as <- <- <- <-.
  set (g := mk2 1 1 (fun _ _ => q @2 0%nat 0%nat + 1)).
  destruct (small_evaluates sv b0 SEuler 1 2 g HS ltac:(lia)) as (c1 & c1' & r1 & r1' & E1 & E1' & (x & y & EC)).
  pose proof (small_attached g eq_refl) as AE.
  assert (A : y = 6).
  { destruct (evaluate_inv _ _ _ _ _ _ _ _ _ _ _ _ _ E1) as (defs1 & mods1 & o1 & atts & F1 & D1 & A1 & _ & EC1). rewrite F in F1. injection F1 as <- <-.
    change (steps_of (snd here_state) 1) with 1%nat in D1. change (controls_of (fst here_state) (snd here_state)) with (@None (list (list ctrl))) in D1. rewrite D in D1. injection D1 as <-.
    rewrite <- DF in A1. change (r_att (snd here_state)) with [eu] in A1. cbn [attachment_costs] in A1.
    assert (L : eu [q] [g] = Ok 3).
    { unfold eu, as_attachment, call. cbn [loss bind att_weight geo_of g_points fmul]. f_equal. unfold euclid_loss, nrows, ncols. rewrite Sq. cbn. change (get q [0%nat; 0%nat]) with (q @2 0%nat 0%nat).
      match goal with |- context [sqrt ?e] => replace e with 1 by ring end. rewrite sqrt_1. ring. }
    rewrite L in A1. cbn [bind] in A1. injection A1 as <-. rewrite EC in EC1. change (r_lam (snd here_state)) with 2 in EC1. cbn [SpecRegistration.total fold_right] in EC1.
    destruct (dr_cost o); cbn [app] in EC1; [|discriminate EC1]. injection EC1 as _ EC1. rewrite EC1. ring. }
  destruct (units_outcome _ _ _ _ _ _ _ _ _ _ _ _ _ _ _ _ _ _ _ _ _ _ _ _ 1%nat 2 2 [pt1] [gt1] [pt2] [gt1] ltac:(lra) HS HS E1 E1' F F' eq_refl eq_refl eq_refl (or_introl eq_refl) W W' LT LT' EW AE) as (dc & a & Ec & Ec').
  { intros sa sb Sa Sb. split.
    - exact (C103_fixed_step no_others no_others sv sv b0 b0 exact_ag exact_ag SEuler 1 1 true None None 1%nat 2 _ _ sa sb ltac:(lra) EX EX HS HS W W' LT LT' EW SH SH' ltac:(lra) ltac:(lia) Sa Sb).
    - destruct (final_state no_others sv b0 exact_ag SEuler 1 1 _ sa EX ltac:(lra) ltac:(lia) SH Sa) as (_ & _ & _ & _ & _ & _ & K1 & SG1 & SC1). split; [exact K1|]. split; [exact (shoot_key _ _ _ _ _ _ _ _ _ _ _ _ _ Sa)|split; assumption]. }
  rewrite EC in Ec. destruct dc as [z|]; cbn [app] in Ec, Ec'; [|discriminate Ec]. injection Ec as <- Ea. change (r_lam (snd here_state)) with 2 in Ea. change (r_lam (snd (small_state 2))) with 2 in Ec'.
  assert (Ea' : 2 * (2 * a) = 2 * 6) by lra. rewrite Ea' in Ec'. subst y.
  exists exact_ag, (fst here_state), (fst (small_state 2)), (snd here_state), (snd (small_state 2)), 2, [[g]], [[goal2 g]], [pt1], [gt1], [pt2], [gt1].
  split; [exact EX|]. split; [lra|]. split; [exact F|]. split; [exact F'|]. split; [reflexivity|]. split; [reflexivity|]. split; [exact EW|]. split; [exact AE|].
  exists c1, c1', r1, r1', x, 6. split; [lra|]. split; [exact E1|]. split; [exact E1'|]. split; [exact EC|]. split; [exact Ec'|].
  rewrite EC, Ec'. intros Q. injection Q as Q. lra.
Qed.
Print Assumptions C105_same_lam_refuted.

Lemma zero_pair d s p q : dotv d (SpecAttachment.vec p) (SpecAttachment.vec q) = 0 -> pair_dot d s p q = 0.
Proof. intros Z. unfold pair_dot. rewrite Z. unfold Rdiv. ring. Qed.

(** A finding: the losses of a compound are added although they are not measured in the same
    unit.  For a compound of points in correspondence and of a varifold no change of lam makes
    up for a change of unit. *)
Definition mixed : att := ACompound 1 [AEuclid 1; AVar2 1 Torch [1]].
Definition shifted : geo := mkGeo (mk2 2 2 (fun _ _ => 1)) None.
Lemma compound_two w m1 m2 x y a b : loss m1 x y = Ok (Fin a) -> loss m2 x y = Ok (Fin b) -> loss (ACompound w [m1; m2]) x y = Ok (Fin (0 + a + b)).
Proof. intros E1 E2. cbn [loss mapM]. rewrite E1, E2. reflexivity. Qed.
Theorem C105_mixed_refuted : forall k, ~ forall x y, comparable 2 mixed x y -> loss (att_in_units 2 mixed) (in2 x) (in2 y) = times_loss k (loss mixed x y).
Proof.
  intros k H.
  assert (CO : forall a b, shape (g_points a) = [2%nat; 2%nat] -> shape (g_points b) = [2%nat; 2%nat] -> comparable 2 (AEuclid 1) a b /\ comparable 2 (AVar2 1 Torch [1]) a b).
  { intros a b Sa Sb. split; [exists 2%nat; auto|]. split; [reflexivity|]. split; [reflexivity|]. split; [constructor; [lra|constructor]|]. split; exists 2%nat; (split; [lia|assumption]). }
  assert (X : forall a b, shape (g_points a) = [2%nat; 2%nat] -> shape (g_points b) = [2%nat; 2%nat] ->
    2 * euclid_loss (g_points a) (g_points b) + 4 * shape_dist2 2 1 (edges (g_points a)) (edges (g_points b)) = k * (euclid_loss (g_points a) (g_points b) + shape_dist2 2 1 (edges (g_points a)) (edges (g_points b)))).
  { intros a b Sa Sb. destruct (CO a b Sa Sb) as (C1 & C2). assert (T : forall z, geo_units 2 z (in2 z)) by (intros z; split; [split; reflexivity|reflexivity]).
    pose proof (loss_units 2 2 1 (AEuclid 1) ltac:(lra) eq_refl a b _ _ C1 (T a) (T b)) as L1.
    pose proof (loss_units 2 2 2 (AVar2 1 Torch [1]) ltac:(lra) eq_refl a b _ _ C2 (T a) (T b)) as L2.
    assert (V : loss (AVar2 1 Torch [1]) a b = Ok (Fin (shape_dist2 2 1 (edges (g_points a)) (edges (g_points b)) + 0))).
    { destruct a as [a fa], b as [b fb]. rewrite (loss2_ok 1 [1] a b 2 2 fa fb); [reflexivity|constructor; [lra|constructor]|exact Sa|exact Sb|lia|lia]. }
    specialize (H a b (conj C1 (conj C2 Logic.I))). rewrite V in L2. cbn [times_loss fmul] in L2. change (loss (AEuclid 1) a b) with (Ok (Fin (euclid_loss (g_points a) (g_points b)))) in L1. cbn [times_loss fmul] in L1.
    unfold mixed in H. cbn [att_in_units map] in H. cbn [att_in_units map] in L1, L2. rewrite (compound_two 1 _ _ _ _ _ _ L1 L2), (compound_two 1 (AEuclid 1) _ a b (euclid_loss (g_points a) (g_points b)) _ eq_refl V) in H. cbn [times_loss fmul] in H. injection H as H. lra. }
  assert (Z : forall a b, shape_dot 2 1 a (edges (g_points spot)) = 0 /\ shape_dot 2 1 (edges (g_points spot)) b = 0).
  { assert (ZE : forall q, In q (edges (g_points spot)) -> forall c, SpecAttachment.vec q c = 0) by (intros q I c; cbn in I; destruct I as [<-|[<-|[]]]; cbn; ring).
    intros a b. unfold shape_dot. split.
    - rewrite (sumof_ext _ (fun _ => 0)); [apply sumof_zero; reflexivity|]. intros p _. rewrite (sumof_ext _ (fun _ => 0)); [apply sumof_zero; reflexivity|]. intros q I. apply zero_pair. unfold dotv. apply rsum_zero. intros c _. rewrite (ZE q I). ring.
    - rewrite (sumof_ext _ (fun _ => 0)); [apply sumof_zero; reflexivity|]. intros p I. rewrite (sumof_ext _ (fun _ => 0)); [apply sumof_zero; reflexivity|]. intros q _. apply zero_pair. unfold dotv. apply rsum_zero. intros c _. rewrite (ZE p I). ring. }
  assert (Z2 : shape_dot 2 1 (edges (g_points shifted)) (edges (g_points shifted)) = 0).
  { assert (ZE : forall q, In q (edges (g_points shifted)) -> forall c, SpecAttachment.vec q c = 0) by (intros q I c; cbn in I; destruct I as [<-|[<-|[]]]; cbn; ring).
    unfold shape_dot. rewrite (sumof_ext _ (fun _ => 0)); [apply sumof_zero; reflexivity|]. intros p I. rewrite (sumof_ext _ (fun _ => 0)); [apply sumof_zero; reflexivity|]. intros q _. apply zero_pair. unfold dotv. apply rsum_zero. intros c _. rewrite (ZE p I). ring. }
  pose proof (X shifted spot eq_refl eq_refl) as X1. pose proof (X segment spot eq_refl eq_refl) as X2.
  unfold shape_dist2 in X1, X2. rewrite (proj1 (Z (edges (g_points spot)) [])) in X1, X2. rewrite (proj1 (Z (edges (g_points shifted)) [])), Z2 in X1. rewrite (proj1 (Z (edges (g_points segment)) [])) in X2.
  assert (PP : shape_dot 2 1 (edges (g_points segment)) (edges (g_points segment)) = 4).
  { assert (PD : forall p q : piece, (forall c, (c < 2)%nat -> centre p c = centre q c) -> normv 2 (SpecAttachment.vec p) = 1 -> normv 2 (SpecAttachment.vec q) = 1 -> dotv 2 (SpecAttachment.vec p) (SpecAttachment.vec q) ^ 2 = 1 -> pair_dot 2 1 p q = 1).
    { intros p q C N N' D. unfold pair_dot, gaussian. rewrite N, N', D. unfold sqn. rewrite (rsum_ext 2 _ (fun _ => 0)) by (intros c L; unfold vsub; rewrite (C c L); ring). rewrite rsum_zero by reflexivity.
      replace (- 0 / (2 * 1 ^ 2)) with 0 by field. rewrite exp_0. field. }
    unfold shape_dot. cbn [edges segment g_points map seq nrows shape mk2 tnth nth sumof fold_right]. 
    rewrite !PD; [ring|..]; try (intros [|[|c]] L; [cbn; field|cbn; field|lia]); try (unfold dotv; cbn; ring).
    all: unfold normv, sqn; cbn; match goal with |- sqrt ?e = 1 => replace e with 1 by ring end; apply sqrt_1. }
  rewrite PP in X2. unfold euclid_loss in X1, X2. cbn in X1, X2.
  assert (S0 : forall e, e = 0 -> sqrt e = 0) by (intros e ->; apply sqrt_0). assert (S1 : forall e, e = 1 -> sqrt e = 1) by (intros e ->; apply sqrt_1).
  match type of X2 with context [0 + sqrt ?a + sqrt ?b] => rewrite (S0 a), (S1 b) in X2 by ring end.
  match type of X1 with context [0 + sqrt ?a + sqrt ?b] => set (e := sqrt a) in * end.
  assert (P : 0 < e) by (unfold e; apply sqrt_lt_R0; match goal with |- 0 < ?x => replace x with 2 by ring end; lra).
  assert (K : (k - 2) * (2 * e) = 0) by lra. apply Rmult_integral in K. destruct K as [K|K]; [|lra]. assert (K2 : k = 2) by lra. rewrite K2 in X2. lra.
Qed.
Print Assumptions C105_mixed_refuted.
