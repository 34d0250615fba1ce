(** Fitting a registration placed elsewhere (C107). *)
From Coq Require Import Reals String List Arith ZArith Lia Lra.
From Verif Require Import Py RSum Tensor TensorFacts Fl OptimModel FitModel SpecOptim SpecGeometry SpecRigid SpecSimilar SimilarFacts PropSimilar
  KernelModel FieldModel MeshModel AttachmentModel GeometryModel ModuleModel ShootingModel RegistrationModel
  SpecKernel SpecModule SpecShooting SpecRegistration SpecTransport SpecSmooth SpecReduce SpecElsewhere SpecFitElsewhere
  ModuleMain ModuleLeaves ShootingDyn ShootingPack ShootingExample RigidShoot DiffBuild SmoothRun SolverExists MotionExample PropAttachment RegistrationRun RegistrationLife RegistrationParams RegistrationShoot PropRegistration
  ShootingFinal TransportFacts ReduceFacts PropReduce PropRigid PropSmooth PropReverse ElsewhereFacts PropElsewhere FitElsewhere.
Import ListNotations.
Open Scope string_scope.
Open Scope list_scope.
Open Scope R_scope.

(** ** What one model is, once its moments are x *)
Lemma refilled_model d h0 defs mods att ones lam reduce it0 solver h r x : wf_mod d (start defs mods) -> locals_smooth d (start defs mods) -> shootable (start defs mods) ->
  registration h0 defs mods att false ones [] lam [] reduce it0 solver = Ok (h, r) -> same_shape x (moments h r) ->
  exists dx mx, filled (with_moments h r x) r = Ok (dx, mx) /\
    refilled defs mods (map (fun p => of_entries (shape (fst p)) (snd p)) (combine (g_cotan (mod_manifold (start defs mods))) (List.concat x))) dx mx /\
    map (deref h) (init_cotan r) = g_cotan (mod_manifold (start defs mods)) /\
    length (List.concat x) = length (g_cotan (mod_manifold (start defs mods))) /\
    wf_mod d (start dx mx) /\ locals_smooth d (start dx mx) /\ shootable (start dx mx).
Proof.
  intros W LS SH E SX. destruct (with_moments_filled _ _ _ _ _ _ _ _ _ _ _ x E SX) as (dx & mx & F & RF & D). exists dx, mx. split; [exact F|]. split; [exact RF|]. split; [exact D|].
  assert (L : length (List.concat x) = length (g_cotan (mod_manifold (start defs mods)))).
  { unfold same_shape, moments in SX. destruct x as [|a [|b x]]; try discriminate SX. cbn [map] in SX. injection SX as SX. cbn [List.concat]. rewrite app_nil_r, <- (map_length (@length R) a), SX, <- D, !map_length. reflexivity. }
  split; [exact L|]. destruct (refilled_shapes _ _ _ _ _ L RF) as (SG & SC). destruct RF as (ST & (K & G) & C & _).
  split; [exact (wf_set d _ _ _ W (smooth_total d _ LS) K SG SC ST)|]. split; [exact (smooth_set d _ _ _ LS ST)|].
  destruct (set_ok (start defs mods) _ K) as (m1 & S1 & _ & FR & _). rewrite ST in S1. injection S1 as <-.
  apply (shootable_same (start defs mods)); [exact SH|exact FR|exact K|]. unfold phase. rewrite !map_app, SG, SC. reflexivity.
Qed.

Lemma one_group h r x : same_shape x (moments h r) -> exists xs, x = [xs] /\ map (@length R) xs = map (fun k => prod (shape (deref h k))) (init_cotan r).
Proof.
  intros SX. unfold same_shape, moments in SX. destruct x as [|xs [|b x]]; try discriminate SX. exists xs. split; [reflexivity|]. cbn [map] in SX. injection SX as ->. rewrite map_map. apply map_ext. intros k. apply entries_len.
Qed.

(** The moments are turned, tensor by tensor: a similarity. *)
Theorem C107_turned_moments : forall d Q h0 defs mods att ones lam reduce it0 solver h r,
  rigid d Q -> wf_mod d (start defs mods) ->
  registration h0 defs mods att false ones [] lam [] reduce it0 solver = Ok (h, r) ->
  similar (moments h r) (fun _ => 1) (turn_moments d Q h r) (turn_moments d Q h r).
Proof.
  intros d Q h0 defs mods att ones lam reduce it0 solver h r HQ W E.
  destruct (with_moments_filled _ _ _ _ _ _ _ _ _ _ _ (moments h r) E eq_refl) as (_ & _ & _ & _ & D).
  pose proof (proj2 (wf_kinds d _ (proj1 (wf_mod_manifold d _ W)))) as K. pose proof (kinds_no_points (mod_manifold (start defs mods))) as NP.
  intros [|g] i ts t Eg Et; [|destruct g; discriminate Eg]. injection Eg as <-. rewrite nth_error_map in Et. destruct (nth_error (init_cotan r) i) as [k|] eqn:Ek; [|discriminate Et]. injection Et as <-.
  assert (MS : mshape d (shape (deref h k))).
  { rewrite <- D, map_map in K. clear - K NP Ek. revert i Ek. remember (map (fun k => shape (deref h k)) (init_cotan r)) as shs eqn:ES. revert ES. generalize (init_cotan r).
    induction K as [|kd sh ks shs K1 _ IH]; intros l ES i Ek; destruct l as [|k0 l]; try discriminate ES; [destruct i; discriminate Ek|]. cbn [map] in ES. injection ES as -> ES. inversion NP; subst.
    destruct i as [|i]; [injection Ek as <-; exact (proj1 (kind_moment d kd _ H1 K1))|]. exact (IH H2 l eq_refl i Ek). }
  assert (EN : nth i (init_cotan r) 0%nat = k) by exact (nth_error_nth _ _ 0%nat Ek). unfold turn_moments. rewrite EN, entries_len. exact (turn_similarity d Q _ HQ MS).
Qed.
Print Assumptions C107_turned_moments.

(** The model built elsewhere starts from the turned moments. *)
Theorem C107_initial_moments : forall d Q c h0 defs mods att targets ones lam reduce it0 solver h r h0' defs' mods' att' targets' ones' lam' reduce' it0' solver' h' r',
  placed_problem d Q c defs mods att targets defs' mods' att' targets' ->
  registration h0 defs mods att false ones [] lam [] reduce it0 solver = Ok (h, r) ->
  registration h0' defs' mods' att' false ones' [] lam' [] reduce' it0' solver' = Ok (h', r') ->
  moments h' r' = each (turn_moments d Q h r) (moments h r).
Proof.
  intros d Q c h0 defs mods att targets ones lam reduce it0 solver h r h0' defs' mods' att' targets' ones' lam' reduce' it0' solver' h' r' [(W & W') _ _ (_ & SV) _] E E'.
  destruct (with_moments_filled _ _ _ _ _ _ _ _ _ _ _ (moments h r) E eq_refl) as (_ & _ & _ & _ & D).
  destruct (with_moments_filled _ _ _ _ _ _ _ _ _ _ _ (moments h' r') E' eq_refl) as (_ & _ & _ & _ & D').
  set (g := mod_manifold (start defs mods)) in *. set (g' := mod_manifold (start defs' mods')) in *.
  pose proof (proj1 (wf_mod_manifold d _ W)) as WG. fold g in WG. destruct SV as (_ & (_ & B)). rewrite (proj2 (gd_placed d Q c g WG)) in B.
  pose proof (proj2 (wf_kinds d g WG)) as K. pose proof (kinds_no_points g) as NP. unfold moments, each. cbn [mapi]. f_equal.
  rewrite <- (map_map (deref h') entries), <- (map_map (deref h) entries), D, D'.
  assert (P : forall i u, nth_error (g_cotan g) i = Some u -> turn_moments d Q h r 0 (0 + i)%nat = fun x => entries (turn_moment d Q (of_entries (shape u) x))).
  { intros i u Eu. rewrite <- D, nth_error_map in Eu. destruct (nth_error (init_cotan r) i) as [k|] eqn:Ek; [|discriminate Eu]. injection Eu as <-.
    assert (EN : nth i (init_cotan r) 0%nat = k) by exact (nth_error_nth _ _ 0%nat Ek). unfold turn_moments. rewrite Nat.add_0_l, EN. reflexivity. }
  revert P. generalize (turn_moments d Q h r 0). generalize 0%nat. intros j p P. clear - B K NP P. revert j p P B NP. generalize (g_cotan g'). remember (map shape (g_cotan g)) as shs eqn:ES. revert ES. generalize (g_cotan g).
  induction K as [|k sh ks shs K1 _ IH]; intros cs ES cs' j p P B NP; destruct cs as [|u cs]; try discriminate ES; cbn [lplace combine map fst snd] in B; inversion B as [|u' ? cs1 ? T B1]; subst; [reflexivity|].
  cbn [map] in ES. injection ES as -> ES. inversion NP as [|? ? N1 N2]; subst. cbn [map mapi]. f_equal.
  - pose proof (P 0%nat u eq_refl) as P0. rewrite Nat.add_0_r in P0. rewrite P0. apply entries_teq. apply (teq_trans _ _ _ T). destruct (kind_moment d k _ N1 K1) as (_ & MK).
    rewrite turn_moment_kind. cbn [of_entries shape]. rewrite MK. replace (place1 d Q c k u) with (turn1 d Q k u) by (destruct k; [elim N1; reflexivity|reflexivity|reflexivity]).
    apply teq_sym. apply turn1_teq; [exact K1|apply of_entries_teq].
  - apply (IH cs eq_refl); [|exact B1|exact N2]. intros i w Hw. rewrite Nat.add_succ_comm. apply P. exact Hw.
Qed.
Print Assumptions C107_initial_moments.

(** The same costs. *)
Theorem C107_same_costs : forall others others' sv sv' b0 b0' ag ag' d Q c h0 defs mods att targets ones lam reduce it0 solver h r
    h0' defs' mods' att' targets' ones' it0' solver' h' r' sch it t1 x,
  rigid d Q -> exact_grad ag -> exact_grad ag' -> exact_solver sv -> exact_solver sv' ->
  placed_problem d Q c defs mods att targets defs' mods' att' targets' ->
  registration h0 defs mods att false ones [] lam [] reduce it0 solver = Ok (h, r) ->
  registration h0' defs' mods' att' false ones' [] lam [] reduce it0' solver' = Ok (h', r') ->
  reduce = "sum" \/ reduce = "previous" \/ ~ known reduce -> 0 < t1 -> (0 < it)%nat ->
  let x' := each (turn_moments d Q h r) x in
  same_shape x (moments h r) ->
  is_ok (evaluate real_clock others sv b0 ag (with_moments h r x) r targets (scheme_name sch) it t1 []) ->
  is_ok (evaluate real_clock others' sv' b0' ag' (with_moments h' r' x') r' targets' (scheme_name sch) it t1 []) ->
  fit_costs real_clock others' sv' b0' ag' h' r' targets' (scheme_name sch) it t1 x' =
  fit_costs real_clock others sv b0 ag h r targets (scheme_name sch) it t1 x.
Proof.
  intros others others' sv sv' b0 b0' ag ag' d Q c h0 defs mods att targets ones lam reduce it0 solver h r
    h0' defs' mods' att' targets' ones' it0' solver' h' r' sch it t1 x HQ EX EX' HS HS' PP E E' RR T1 IT x' SX ((cost & r1) & V) ((cost' & r1') & V').
  pose proof (C107_initial_moments d Q c _ _ _ _ targets _ _ _ _ _ _ _ _ _ _ _ targets' _ _ _ _ _ _ _ PP E E') as IM.
  pose proof PP as [(W & W') (LS & LS') (SH & SH') EW AE].
  pose proof (C107_turned_moments d Q _ _ _ _ _ _ _ _ _ _ _ HQ W E) as SI.
  assert (SX' : same_shape x' (moments h' r')).
  { rewrite IM. unfold same_shape. transitivity (map (map (@length R)) (moments h r)); [exact (each_shape (fun _ => 1) _ _ _ SI x SX)|symmetry; exact (each_shape (fun _ => 1) _ _ _ SI _ eq_refl)]. }
  destruct (refilled_model d _ _ _ _ _ _ _ _ _ _ _ _ W LS SH E SX) as (dx & mx & F & RF & D & L & WX & LX & SHX).
  destruct (refilled_model d _ _ _ _ _ _ _ _ _ _ _ _ W' LS' SH' E' SX') as (dx' & mx' & F' & RF' & D' & L' & WX' & LX' & SHX').
  destruct (registration_ok h0 defs mods att false ones [] lam [] reduce it0 solver h r (NoDup_nil _) E) as (_ & _ & _ & _ & RA & RLm & RRd & _ & RFC & _).
  destruct (registration_ok h0' defs' mods' att' false ones' [] lam [] reduce it0' solver' h' r' (NoDup_nil _) E') as (_ & _ & _ & _ & RA' & RLm' & RRd' & _ & RFC' & _).
  assert (EWX : elsewhere d Q c (start dx mx) (start dx' mx')).
  { refine (refilled_elsewhere d Q c defs mods defs' mods' _ _ dx mx dx' mx' W EW (proj1 (wf_mod_manifold d _ WX)) RF RF' _).
    destruct (one_group h r x SX) as (xs & Ex & _). unfold x' in *. subst x. unfold each. cbn [mapi List.concat]. rewrite !app_nil_r. cbn [List.concat] in L. rewrite app_nil_r in L.
    apply turned_tensors; [apply wf_kinds; apply wf_mod_manifold; exact W|apply kinds_no_points| |exact L|].
    - destruct EW as (_ & SV). rewrite (proj2 (values_shapes _ _ SV)). apply placed_shapes.
    - intros i u Eu. rewrite <- D, nth_error_map in Eu. destruct (nth_error (init_cotan r) i) as [k|] eqn:Ek; [|discriminate Eu]. injection Eu as <-.
      assert (EN : nth i (init_cotan r) 0%nat = k) by exact (nth_error_nth _ _ 0%nat Ek). unfold turn_moments. rewrite Nat.add_0_l, EN. reflexivity. }
  assert (EC : cost' = cost).
  { refine (C102_fixed_step others others' sv sv' b0 b0' ag ag' (with_moments h r x) (with_moments h' r' x') r r' targets targets' sch it t1 cost cost' r1 r1' d Q c dx mx dx' mx'
      HQ EX EX' HS HS' F F' RFC RFC' _ _ _ WX WX' LX (smooth_total d _ LX') SHX SHX' T1 IT EWX _ V V'); [congruence|congruence|rewrite RRd; exact RR|].
    rewrite RA, RA'. exact (attached_refilled d Q c _ _ _ _ _ _ AE dx dx' (proj2 (proj2 (proj2 RF))) (proj2 (proj2 (proj2 RF')))). }
  unfold fit_costs. rewrite V, V', EC. reflexivity.
Qed.
Print Assumptions C107_same_costs.

(** Evaluating the model succeeds whatever the moments (fixed step schemes, costs summed
    along the shooting), with regular modules, ordinary objects and attachments that answer. *)
Theorem C107_evaluates : forall others sv b0 ag d h0 defs mods att targets ones lam it0 solver h r sch it t1 x,
  exact_grad ag -> differentiates ag -> exact_solver sv ->
  wf_mod d (start defs mods) -> locals_smooth d (start defs mods) -> shootable (start defs mods) ->
  everywhere (regular d) (start defs mods) -> (first_order (start defs mods) -> ~ has_dir (mod_manifold (start defs mods))) ->
  (0 < numel (g_gd (mod_manifold (start defs mods))))%nat ->
  Forall ordinary defs -> (forall a y z, In a att -> is_ok (a y z)) -> length targets = length defs ->
  registration h0 defs mods att false ones [] lam [] "sum" it0 solver = Ok (h, r) -> 0 < t1 -> (0 < it)%nat ->
  same_shape x (moments h r) ->
  is_ok (evaluate real_clock others sv b0 ag (with_moments h r x) r targets (scheme_name sch) it t1 []).
Proof.
  intros others sv b0 ag d h0 defs mods att targets ones lam it0 solver h r sch it t1 x EX AN HS W LS SH RG HF NP OR AK LT E T1 IT SX.
  destruct (refilled_model d _ _ _ _ _ _ _ _ _ _ _ _ W LS SH E SX) as (dx & mx & F & RF & D & L & WX & LX & SHX).
  destruct (registration_ok h0 defs mods att false ones [] lam [] "sum" it0 solver h r (NoDup_nil _) E) as (_ & _ & RD & _ & RA & _ & RRd & _ & RFC & _).
  destruct (refilled_shapes _ _ _ _ _ L RF) as (SG & SC). destruct RF as (ST & (K & G) & C & SO).
  assert (SHOT : is_ok (shoot real_clock others sv b0 ag (scheme_name sch) it t1 None true None (start dx mx))).
  { apply (C82_fixed_step_schemes others sv b0 ag sch it t1 true None d (start dx mx) EX AN HS WX LX); [| |exact SHX| |exact T1|exact IT].
    - intros g m1 K1 S1 E1. apply (RG g m1); [congruence| |rewrite <- (set_set _ _ _ g ST); exact E1]. rewrite S1. unfold phase. rewrite !map_app, SG, SC. reflexivity.
    - intros FO HD. apply HF; [exact (first_set _ _ _ ST FO)|exact (has_dir_same _ _ K HD)].
    - rewrite G. exact NP. }
  destruct SHOT as (sh & S).
  assert (ORX : Forall ordinary dx).
  { clear - OR SO. induction SO as [|o ox l lx (Eo & Ko & Go) _ IH]; [constructor|]. inversion OR as [|? ? (B & (dim & nb & q & p & M) & TD) OR1]; subst. constructor; [|auto]. split; [|split].
    - rewrite Eo. destruct o; exact B.
    - rewrite M in Ko. destruct (df_man ox); try discriminate Ko. eauto.
    - intros q'. destruct (TD q') as (y & Ey). exists y. rewrite <- Ey, Eo. destruct o; reflexivity. }
  assert (NE : scheme_name sch <> "torch_euler") by (destruct sch; discriminate).
  destruct (C32_solvers_evaluate real_clock others sv b0 ag (with_moments h r x) r targets (scheme_name sch) it t1 dx mx sh NE RRd F ORX) as (co & ys & atts & r1 & _ & _ & V).
  - unfold steps_of, controls_of. rewrite RFC. exact S.
  - rewrite RD. exact LT.
  - rewrite RA. exact AK.
  - eexists. exact V.
Qed.
Print Assumptions C107_evaluates.

(** Whole fits: the same result and the same costs; the moments are the turned ones at each
    evaluation and at the end. *)
Lemma same_ctl s : placed_ctl (fun _ => 1 * 1 / 1) s = s.
Proof.
  destruct s as [ss n m]. unfold placed_ctl, rescaled. cbn. f_equal. generalize 0%nat. induction ss as [|a ss IH]; intros k; [reflexivity|]. cbn [mapi]. rewrite IH. f_equal. field.
Qed.

Theorem C107_gd_fit : forall others others' sv sv' b0 b0' ag ag' d Q c h0 defs mods att targets ones lam reduce it0 solver h r
    h0' defs' mods' att' targets' ones' it0' solver' h' r' sch it t1 conf fuel callback max_iter tol miniter s grad grad' o,
  rigid d Q -> exact_grad ag -> exact_grad ag' -> exact_solver sv -> exact_solver sv' ->
  placed_problem d Q c defs mods att targets defs' mods' att' targets' ->
  registration h0 defs mods att false ones [] lam [] reduce it0 solver = Ok (h, r) ->
  registration h0' defs' mods' att' false ones' [] lam [] reduce it0' solver' = Ok (h', r') ->
  reduce = "sum" \/ reduce = "previous" \/ ~ known reduce -> 0 < t1 -> (0 < it)%nat ->
  (forall x, same_shape x (moments h r) -> is_ok (evaluate real_clock others sv b0 ag (with_moments h r x) r targets (scheme_name sch) it t1 [])) ->
  (forall x, same_shape x (moments h' r') -> is_ok (evaluate real_clock others' sv' b0' ag' (with_moments h' r' x) r' targets' (scheme_name sch) it t1 [])) ->
  let f := fit_costs real_clock others sv b0 ag h r targets (scheme_name sch) it t1 in
  let f' := fit_costs real_clock others' sv' b0' ag' h' r' targets' (scheme_name sch) it t1 in
  let turn := turn_moments d Q h r in
  length (groups conf) = 1%nat -> length (c_steps s) = 1%nat ->
  optimize (gd_strat conf fuel) f grad callback max_iter tol miniter (moments h r) s = Some o ->
  (forall y, same_shape y (moments h r) -> In (y, true) (o_evals o) -> exists a, SpecOptim.differentiable_at (fun z => FitModel.total (f z)) y a (grad y)) ->
  (forall y, same_shape y (moments h r) -> In (y, true) (o_evals o) -> exists a, SpecOptim.differentiable_at (fun z => FitModel.total (f' z)) (each turn y) a (grad' (each turn y))) ->
  optimize (gd_strat conf fuel) f' grad' callback max_iter tol miniter (moments h' r') s = Some (placed_outcome turn (fun s => s) o).
Proof.
  intros others others' sv sv' b0 b0' ag ag' d Q c h0 defs mods att targets ones lam reduce it0 solver h r h0' defs' mods' att' targets' ones' it0' solver' h' r' sch it t1
    conf fuel cb max_iter tol mi s grad grad' o HQ EX EX' HS HS' PP E E' RR T1 IT OK OK' f f' turn LG LS H DF DF'.
  pose proof (C107_initial_moments d Q c _ _ _ _ targets _ _ _ _ _ _ _ _ _ _ _ targets' _ _ _ _ _ _ _ PP E E') as IM.
  pose proof (C107_turned_moments d Q _ _ _ _ _ _ _ _ _ _ _ HQ (proj1 (pp_wf _ _ _ _ _ _ _ _ _ _ _ PP)) E) as SI. fold turn in SI, IM.
  assert (SX' : forall y, same_shape y (moments h r) -> same_shape (each turn y) (moments h' r')).
  { intros y SY. rewrite IM. unfold same_shape. transitivity (map (map (@length R)) (moments h r)); [exact (each_shape (fun _ => 1) _ _ _ SI y SY)|symmetry; exact (each_shape (fun _ => 1) _ _ _ SI _ eq_refl)]. }
  pose proof (C104_gd_fit_where_smooth (fun _ => 1) turn turn conf conf (moments h r) f f' grad grad' (fun y => In (y, true) (o_evals o)) fuel cb max_iter tol mi (moments h r) s o
    (fun _ => R1_neq_R0) SI (conj eq_refl (fun _ => conj eq_refl eq_refl)) LG) as RUN.
  cbv zeta in RUN. rewrite same_ctl, <- IM in RUN. rewrite RUN; try assumption; try reflexivity.
  - f_equal. unfold placed_outcome. rewrite same_ctl. reflexivity.
  - intros y SY. apply (C107_same_costs others others' sv sv' b0 b0' ag ag' d Q c h0 defs mods att targets ones lam reduce it0 solver h r h0' defs' mods' att' targets' ones' it0' solver' h' r' sch it t1 y); auto.
  - auto.
Qed.
Print Assumptions C107_gd_fit.

Theorem C107_sgd_fit : forall others others' sv sv' b0 b0' ag ag' d Q c h0 defs mods att targets ones lam reduce it0 solver h r
    h0' defs' mods' att' targets' ones' it0' solver' h' r' sch it t1 lr callback max_iter tol miniter grad grad' o,
  rigid d Q -> exact_grad ag -> exact_grad ag' -> exact_solver sv -> exact_solver sv' ->
  placed_problem d Q c defs mods att targets defs' mods' att' targets' ->
  registration h0 defs mods att false ones [] lam [] reduce it0 solver = Ok (h, r) ->
  registration h0' defs' mods' att' false ones' [] lam [] reduce it0' solver' = Ok (h', r') ->
  reduce = "sum" \/ reduce = "previous" \/ ~ known reduce -> 0 < t1 -> (0 < it)%nat ->
  (forall x, same_shape x (moments h r) -> is_ok (evaluate real_clock others sv b0 ag (with_moments h r x) r targets (scheme_name sch) it t1 [])) ->
  (forall x, same_shape x (moments h' r') -> is_ok (evaluate real_clock others' sv' b0' ag' (with_moments h' r' x) r' targets' (scheme_name sch) it t1 [])) ->
  let f := fit_costs real_clock others sv b0 ag h r targets (scheme_name sch) it t1 in
  let f' := fit_costs real_clock others' sv' b0' ag' h' r' targets' (scheme_name sch) it t1 in
  let turn := turn_moments d Q h r in
  optimize (sgd_strat [lr]) f grad callback max_iter tol miniter (moments h r) tt = Some o ->
  (forall y, same_shape y (moments h r) -> In (y, true) (o_evals o) -> exists a, SpecOptim.differentiable_at (fun z => FitModel.total (f z)) y a (grad y)) ->
  (forall y, same_shape y (moments h r) -> In (y, true) (o_evals o) -> exists a, SpecOptim.differentiable_at (fun z => FitModel.total (f' z)) (each turn y) a (grad' (each turn y))) ->
  optimize (sgd_strat [lr]) f' grad' callback max_iter tol miniter (moments h' r') tt = Some (placed_outcome turn (fun s => s) o).
Proof.
  intros others others' sv sv' b0 b0' ag ag' d Q c h0 defs mods att targets ones lam reduce it0 solver h r h0' defs' mods' att' targets' ones' it0' solver' h' r' sch it t1
    lr cb max_iter tol mi grad grad' o HQ EX EX' HS HS' PP E E' RR T1 IT OK OK' f f' turn H DF DF'.
  pose proof (C107_initial_moments d Q c _ _ _ _ targets _ _ _ _ _ _ _ _ _ _ _ targets' _ _ _ _ _ _ _ PP E E') as IM.
  pose proof (C107_turned_moments d Q _ _ _ _ _ _ _ _ _ _ _ HQ (proj1 (pp_wf _ _ _ _ _ _ _ _ _ _ _ PP)) E) as SI. fold turn in SI, IM.
  assert (SX' : forall y, same_shape y (moments h r) -> same_shape (each turn y) (moments h' r')).
  { intros y SY. rewrite IM. unfold same_shape. transitivity (map (map (@length R)) (moments h r)); [exact (each_shape (fun _ => 1) _ _ _ SI y SY)|symmetry; exact (each_shape (fun _ => 1) _ _ _ SI _ eq_refl)]. }
  pose proof (C104_sgd_fit_where_smooth (fun _ => 1) turn turn (moments h r) f f' grad grad' (fun y => In (y, true) (o_evals o)) [lr] cb max_iter tol mi (moments h r) o
    (fun _ => R1_neq_R0) SI) as RUN.
  assert (ER : rescaled (fun _ => 1 * 1 / 1) [lr] = [lr]) by (unfold rescaled; cbn; f_equal; field). cbv beta in RUN. rewrite ER in RUN. rewrite <- IM in RUN. apply RUN; try assumption; try reflexivity.
  - intros y SY. apply (C107_same_costs others others' sv sv' b0 b0' ag ag' d Q c h0 defs mods att targets ones lam reduce it0 solver h r h0' defs' mods' att' targets' ones' it0' solver' h' r' sch it t1 y); auto.
  - auto.
Qed.
Print Assumptions C107_sgd_fit.

(** ** A case: one point and a global translation, on the line
    The point 1 is sent towards 7; elsewhere (reflected, then moved by 5) the point 4 is
    sent towards -2.  With one step of Euler the moment a moves the point by a. *)
Section Line.
Variables (others : string -> option (list (time real_clock) -> tensor -> ShootingModel.strat (time real_clock))) (sv : solver) (b0 : backend).
Hypothesis HS : exact_solver sv.
Definition line_start (q : tensor) (a : R) : dmod := ex_mod q (of_entries [1%nat; 1%nat] [a]) (tzeros [1%nat]).

Lemma line_everywhere q p : everywhere (regular 1) (ex_mod q p (tzeros [1%nat])).
Proof.
  intros g m1 K SP E. destruct g as [| | | | |gs]; try discriminate K. cbn [ex_mod mod_manifold map skel] in K. injection K as K.
  destruct gs as [|g0 [|g1 [|? ?]]]; try discriminate K. cbn [map] in K. injection K as K0 K1. destruct g0; try discriminate K0. destruct g1; try discriminate K1. cbn in E. injection E as <-. repeat split.
Qed.
Lemma line_shot q a sh : shape q = [1%nat; 1%nat] ->
  shoot real_clock others sv b0 std_ag "euler" 1 1 None true None (line_start q a) = Ok sh ->
  sh_costs sh = Some [a * a / 2] /\ exists q1 p1 g2, mod_manifold (sh_mod sh) = GComp [GLm 1 1 q1 p1; g2] /\ shape q1 = [1%nat; 1%nat] /\ q1 @2 0%nat 0%nat = q @2 0%nat 0%nat + a.
Proof.
  intros Sq E. set (p := of_entries [1%nat; 1%nat] [a]). set (ms := [MSilent (GLm 1 1 q p); MGlobal 1 1 (tzeros [1%nat])]).
  assert (SI : Forall simple (map mod_manifold ms)) by (repeat constructor).
  assert (SP : shaped (GComp (map mod_manifold ms))) by (cbn; rewrite Sq; repeat split).
  destruct (whole_moments sv b0 std_ag 1 1 true ms Rlt_0_1 Nat.lt_0_1 SI SP std_exact others SEuler None sh E)
    as (states & stages & mods & costs & L1 & L2 & L3 & TR & (g0 & G0 & V0) & G1 & KS & MO & CO & LC & RC & _).
  destruct stages as [|ss [|? ?]]; try discriminate L2. destruct states as [|g0' [|g1 [|? ?]]]; try discriminate L1. injection G0 as ->. injection G1 as G1.
  destruct (proj2 TR 0%nat (phase g0) ss (phase g1) eq_refl eq_refl eq_refl) as (k & -> & (SK & n & LN & _ & PD) & LE).
  fold ms in PD. destruct V0 as ((_ & VQ) & (_ & VP)). cbn [ms mod_manifold map g_gd g_cotan flat_map app] in VQ, VP.
  inversion KS as [|? ? K0 KS']; subst. inversion KS' as [|? ? K1 _]; subst. clear KS KS'.
  assert (SH : forall g, skel g = skel (mod_manifold (MComp ms)) -> exists q p g2, g = GComp [GLm 1 1 q p; g2] /\ g_gd g = [q] /\ g_cotan g = [p]).
  { intros g K. destruct g as [| | | | |gs]; try discriminate K. cbn [ms mod_manifold map skel] in K. injection K as K.
    destruct gs as [|u [|w [|? ?]]]; try discriminate K. cbn [map] in K. injection K as Ku Kw. destruct u; try discriminate Ku. destruct w; try discriminate Kw. injection Ku as -> ->. eexists _, _, _. split; [reflexivity|]. split; reflexivity. }
  destruct (SH _ K0) as (q0 & p0 & w0 & -> & Gq0 & Gp0). destruct (SH _ K1) as (q1 & p1 & w1 & M1 & Gq1 & Gp1). rewrite Gq0 in VQ. rewrite Gp0 in VP. inversion VQ as [|? ? ? ? TQ _]; subst. inversion VP as [|? ? ? ? TP _]; subst. clear VQ VP.
  unfold phase in LE, PD, LN, MO, SK. rewrite Gq0, Gp0 in *. rewrite Gq1, Gp1 in LE. cbn [app] in *. assert (n = 1%nat) by (cbn in LN; lia). subst n.
  assert (S0 : shape q0 = [1%nat; 1%nat]) by (rewrite (proj1 TQ); exact Sq). assert (S1 : shape p0 = [1%nat; 1%nat]) by exact (proj1 TP).
  destruct k as [|kq [|kp [|? ?]]]; try discriminate SK. cbn in SK. injection SK as SK1 SK2. inversion LE as [|? ? ? ? LEq _]; subst.
  assert (EP : p0 @2 0%nat 0%nat = a) by (destruct TP as (_ & TP); rewrite (TP [0%nat; 0%nat]); [reflexivity|rewrite S1; cbn; lia]).
  assert (EQ : q0 @2 0%nat 0%nat = q @2 0%nat 0%nat) by (apply (proj2 TQ); rewrite S0; cbn; lia).
  assert (D1 : kq @2 0%nat 0%nat = a).
  { pose proof (proj2 (ex_gradient sv b0 q p (tzeros [1%nat]) q0 p0 S0 S1 eq_refl) 1%nat p0 eq_refl) as (_ & GR). specialize (GR [0%nat; 0%nat] ltac:(rewrite S1; cbn; lia)).
    destruct (PD 0%nat q0 [0%nat; 0%nat] Nat.lt_0_1 eq_refl ltac:(rewrite S0; cbn; lia)) as (P & _). rewrite <- EP. exact (MotionExample.partial_unique _ _ _ _ _ _ P GR). }
  split.
  - rewrite CO. f_equal. destruct costs as [|c0 [|? ?]]; try discriminate LC. destruct (RC 0%nat Nat.lt_0_1) as (mk & c & N1 & N2 & N3). cbn in N1, N3. injection N3 as ->. f_equal.
    cbn [List.concat app mapM] in MO. bok MO m1 HA1. injection MO as <-. injection N1 as ->. unfold at_state in HA1.
    change (write_manifold (MComp ms) [q0; p0]) with (Ok (ex_mod q0 p0 (tzeros [1%nat]))) in HA1. cbn [bind] in HA1.
    destruct (ex_geo_ok sv b0 q0 p0 (tzeros [1%nat]) S0 S1 eq_refl) as (h' & _ & GE & HM & _). rewrite GE in HA1. injection HA1 as <-.
    assert (WM : wf_mod 1 (ex_mod q0 p0 (tzeros [1%nat]))) by (cbn; repeat split; solve [exact S0|exact S1|lra|reflexivity|discriminate]).
    destruct (hamiltonian_cost sv b0 1 HS _ _ WM GE) as (x & C1 & C2 & _). rewrite N2 in C1. rewrite HM in C2. injection C1 as <-. injection C2 as <-. rewrite EP. field.
  - rewrite M1. exists q1, p1, w1. split; [reflexivity|]. destruct LEq as (SE & VE). cbn in SE. split; [congruence|]. 
    rewrite (VE [0%nat; 0%nat]) by (rewrite SE, S0; cbn; lia). cbn. cbn in D1, EQ. rewrite D1, EQ. field.
Qed.

(** The costs of the model with the moment a. *)
Lemma line_costs h r q goal a : shape q = [1%nat; 1%nat] -> filled (with_moments h r [[[a]]]) r = Ok ([DPoints (GLm 1 1 q (of_entries [1%nat; 1%nat] [a]))], [gt1]) ->
  r_fit_controls r = false -> r_reduce r = "sum" -> r_lam r = 2 -> r_att r = [eu] ->
  is_ok (evaluate real_clock others sv b0 std_ag (with_moments h r [[[a]]]) r [[goal]] "euler" 1 1 []) ->
  fit_costs real_clock others sv b0 std_ag h r [[goal]] "euler" 1 1 [[[a]]] = [("deformation", Fin (a * a / 2)); ("attach", Fin (6 * Rabs (q @2 0%nat 0%nat + a - goal @2 0%nat 0%nat)))].
Proof.
  intros Sq F RF RR RL RA ((cost & r1) & V). unfold fit_costs. rewrite V. destruct (evaluate_inv real_clock others sv b0 std_ag _ _ _ _ _ _ _ _ V) as (defs & mods & o & atts & F' & CD & AC & _ & ->).
  rewrite F in F'. injection F' as <- <-. unfold steps_of, controls_of in CD. rewrite RF in CD. destruct (compute_inv real_clock others sv b0 std_ag _ _ _ _ _ _ _ _ CD) as (sh & ms & m' & S & MM & _ & RD & DL & _).
  cbn [given] in S, RD. destruct (line_shot q a sh Sq S) as (CO & q1 & p1 & g2 & M1 & Sq1 & E1). rewrite MM in M1. cbn [mod_manifold] in M1. injection M1 as M1. destruct ms as [|m1 ms]; [discriminate M1|]. cbn [map] in M1. injection M1 as M1 _.
  unfold reduction in RD. rewrite RR, CO in RD. cbn in RD. injection RD as RD _. rewrite <- RD. cbn [length firstn deformed_list] in DL. rewrite M1 in DL. cbn in DL. injection DL as DL. rewrite <- DL, RA in AC.
  cbn in AC. injection AC as <-. rewrite RL. cbn.
  assert (EU : euclid_loss q1 goal = Rabs (q @2 0%nat 0%nat + a - goal @2 0%nat 0%nat)).
  { unfold euclid_loss, nrows, ncols. rewrite Sq1. cbn [nth tnth rsum]. rewrite E1. rewrite !Rplus_0_l, <- Rsqr_pow2, sqrt_Rsqr_abs. reflexivity. }
  rewrite EU. apply f_equal2; [f_equal; f_equal; ring|]. apply f_equal2; [f_equal; f_equal; ring|reflexivity].
Qed.
End Line.

(** a^2 / 2 + 6 |a - K| is differentiable except at K. *)
Definition kink_grad (K : R) (x : params) : params := match x with [[[a]]] => [[[a + 6 * (if Rle_dec K a then 1 else -1)]]] | _ => x end.
Lemma kink_smooth (f : params -> FitModel.costs) K a : (forall b, f [[[b]]] = [("deformation", Fin (b * b / 2)); ("attach", Fin (6 * Rabs (b - K)))]) -> a <> K ->
  exists v, SpecOptim.differentiable_at (fun z => FitModel.total (f z)) [[[a]]] v (kink_grad K [[[a]]]).
Proof.
  intros Hf N. exists (0 + a * a / 2 + 6 * Rabs (a - K)). split; [rewrite Hf; reflexivity|]. split; [reflexivity|]. intros eps PE. exists (Rmin (2 * eps) (Rabs (a - K))).
  split; [apply Rmin_pos; [lra|apply Rabs_pos_lt; lra]|].
  intros y Ey D. destruct (one_shape y Ey) as (b & ->). exists (0 + b * b / 2 + 6 * Rabs (b - K)). split; [rewrite Hf; reflexivity|]. unfold dist1, SpecOptim.pairing, flat_params, kink_grad in *. cbn in *. rewrite Rplus_0_r in *.
  assert (D1 : Rabs (b - a) < 2 * eps) by (eapply Rlt_le_trans; [exact D|apply Rmin_l]). assert (D2 : Rabs (b - a) < Rabs (a - K)) by (eapply Rlt_le_trans; [exact D|apply Rmin_r]).
  assert (EK : Rabs (b - K) - Rabs (a - K) = (if Rle_dec K a then 1 else -1) * (b - a)).
  { destruct (Rle_dec K a) as [P|P].
    - rewrite (Rabs_pos_eq (a - K)) in * by lra. pose proof (Rle_abs (- (b - a))) as Q. rewrite Rabs_Ropp in Q. rewrite (Rabs_pos_eq (b - K)) by lra. ring.
    - rewrite (Rabs_left (a - K)) in * by lra. pose proof (Rle_abs (b - a)) as Q. rewrite (Rabs_left (b - K)) by lra. ring. }
  replace (_ - _) with ((b - a) * (b - a) / 2 + 6 * (Rabs (b - K) - Rabs (a - K) - (if Rle_dec K a then 1 else -1) * (b - a))) by field. rewrite EK.
  replace (_ + _) with (/ 2 * ((b - a) * (b - a))) by field. rewrite !Rabs_mult, (Rabs_pos_eq (/ 2)) by lra. pose proof (Rabs_pos (b - a)). nra.
Qed.

Example C107_hypotheses : forall b0, exists o o',
  let f := fit_costs real_clock no_others exact_sv b0 std_ag (fst here_state) (snd here_state) [[goal0]] "euler" 1 1 in
  let f' := fit_costs real_clock no_others exact_sv b0 std_ag (fst there_state) (snd there_state) [[goal5]] "euler" 1 1 in
  let turn := turn_moments 1 mirror (fst here_state) (snd here_state) in
  here = Ok here_state /\ there = Ok there_state /\ rigid 1 mirror /\ exact_grad std_ag /\ exact_solver exact_sv /\
  placed_problem 1 mirror to5 [pt1] [gt1] [eu] [[goal0]] [pt5] [gt1] [eu] [[goal5]] /\
  (forall x, same_shape x (moments (fst here_state) (snd here_state)) ->
     is_ok (evaluate real_clock no_others exact_sv b0 std_ag (with_moments (fst here_state) (snd here_state) x) (snd here_state) [[goal0]] "euler" 1 1 [])) /\
  (forall x, same_shape x (moments (fst there_state) (snd there_state)) ->
     is_ok (evaluate real_clock no_others exact_sv b0 std_ag (with_moments (fst there_state) (snd there_state) x) (snd there_state) [[goal5]] "euler" 1 1 [])) /\
  optimize (sgd_strat [1 / 4]) f (kink_grad 6) (fun _ => None) 1 None 0 (moments (fst here_state) (snd here_state)) tt = Some o /\
  (forall y, same_shape y (moments (fst here_state) (snd here_state)) -> In (y, true) (o_evals o) ->
     exists a, SpecOptim.differentiable_at (fun z => FitModel.total (f z)) y a (kink_grad 6 y)) /\
  (forall y, same_shape y (moments (fst here_state) (snd here_state)) -> In (y, true) (o_evals o) ->
     exists a, SpecOptim.differentiable_at (fun z => FitModel.total (f' z)) (each turn y) a (kink_grad (-6) (each turn y))) /\
  optimize (sgd_strat [1 / 4]) f' (kink_grad (-6)) (fun _ => None) 1 None 0 (moments (fst there_state) (snd there_state)) tt = Some o' /\
  o_left o = [[[9 / 4]]] /\ o_left o' = [[[- (9 / 4)]]].
Proof.
  intros b0. pose proof exact_sv_exact as HS. pose proof (C102_hypotheses exact_sv b0 SEuler 1 HS Nat.lt_0_1) as (H1 & H2 & HQ & _ & _ & _ & _ & _ & _ & _ & _ & W & W' & LS & _ & SH & SH' & EW & AE & _).
  change (r_att (snd here_state)) with [eu] in AE. change (r_att (snd there_state)) with [eu] in AE.
  assert (LS' : locals_smooth 1 (start [pt5] [gt1])) by (cbn; tauto).
  assert (PP : placed_problem 1 mirror to5 [pt1] [gt1] [eu] [[goal0]] [pt5] [gt1] [eu] [[goal5]]) by (constructor; auto).
  assert (AO : forall a x y, In a [eu] -> is_ok (a x y)).
  { intros a x y [<-|[]]. unfold eu, as_attachment, call. cbn [loss bind att_weight]. eexists. reflexivity. }
  assert (OR : Forall ordinary [pt1] /\ Forall ordinary [pt5]).
  { split; (constructor; [|constructor]); (split; [reflexivity|]); (split; [cbn; eauto 10|]); intros q; eexists; reflexivity. }
  assert (V1 : forall x, same_shape x (moments (fst here_state) (snd here_state)) ->
     is_ok (evaluate real_clock no_others exact_sv b0 std_ag (with_moments (fst here_state) (snd here_state) x) (snd here_state) [[goal0]] "euler" 1 1 [])).
  { intros x SX. apply (C107_evaluates no_others exact_sv b0 std_ag 1 (mkHeap [] []) [pt1] [gt1] [eu] [[goal0]] false 2 None None (fst here_state) (snd here_state) SEuler 1 1 x std_exact std_differentiates HS W LS SH); auto; try lra.
    - apply line_everywhere.
    - cbn. tauto.
    - exact (proj1 OR). }
  assert (V2 : forall x, same_shape x (moments (fst there_state) (snd there_state)) ->
     is_ok (evaluate real_clock no_others exact_sv b0 std_ag (with_moments (fst there_state) (snd there_state) x) (snd there_state) [[goal5]] "euler" 1 1 [])).
  { intros x SX. apply (C107_evaluates no_others exact_sv b0 std_ag 1 (mkHeap [] []) [pt5] [gt1] [eu] [[goal5]] false 2 None None (fst there_state) (snd there_state) SEuler 1 1 x std_exact std_differentiates HS W' LS' SH'); auto; try lra.
    - apply line_everywhere.
    - cbn. tauto.
    - exact (proj2 OR). }
  set (f := fit_costs real_clock no_others exact_sv b0 std_ag (fst here_state) (snd here_state) [[goal0]] "euler" 1 1).
  set (f' := fit_costs real_clock no_others exact_sv b0 std_ag (fst there_state) (snd there_state) [[goal5]] "euler" 1 1).
  assert (C1 : forall a, f [[[a]]] = [("deformation", Fin (a * a / 2)); ("attach", Fin (6 * Rabs (a - 6)))]).
  { intros a. unfold f. rewrite (line_costs no_others exact_sv b0 HS (fst here_state) (snd here_state) one11 goal0 a eq_refl eq_refl eq_refl eq_refl eq_refl eq_refl (V1 [[[a]]] eq_refl)).
    replace (_ - _) with (a - 6); [reflexivity|]. cbn. lra. }
  assert (C2 : forall a, f' [[[a]]] = [("deformation", Fin (a * a / 2)); ("attach", Fin (6 * Rabs (a - -6)))]).
  { intros a. unfold f'. rewrite (line_costs no_others exact_sv b0 HS (fst there_state) (snd there_state) q5 goal5 a eq_refl eq_refl eq_refl eq_refl eq_refl eq_refl (V2 [[[a]]] eq_refl)).
    replace (_ - _) with (a - -6); [reflexivity|]. cbn. unfold placed, turned, mirror, half_turn, delta, to5, vrow. cbn. lra. }
  assert (TU : forall a, each (turn_moments 1 mirror (fst here_state) (snd here_state)) [[[a]]] = [[[- a]]]).
  { intros a. unfold each, turn_moments. cbn. do 3 f_equal. unfold mirror, half_turn. cbn. lra. }
  assert (M1 : moments (fst here_state) (snd here_state) = [[[1]]]) by reflexivity.
  assert (M2 : moments (fst there_state) (snd there_state) = [[[-1]]]).
  { unfold moments. cbn. do 3 f_equal. unfold mirror, half_turn. cbn. lra. }
  clearbody f f'. rewrite M1 in *. rewrite M2 in *. pose proof std_exact as SE.
  assert (RUN : forall (g : params -> FitModel.costs) K a, (forall b, g [[[b]]] = [("deformation", Fin (b * b / 2)); ("attach", Fin (6 * Rabs (b - K)))]) ->
    exists o, optimize (sgd_strat [1 / 4]) g (kink_grad K) (fun _ => None) 1 None 0 [[[a]]] tt = Some o /\ o_left o = move [1 / 4] [[[a]]] (kink_grad K [[[a]]]) /\ (forall y, In (y, true) (o_evals o) -> y = [[[a]]])).
  { intros g K a Hg. unfold optimize. cbn [optimize_loop run sgd_strat last_costs rev app]. rewrite Hg. unfold FitModel.total. cbn [map snd fold_left fadd isnan]. cbv iota.
    cbn [fsub fdiv fmax fle andb option_map before]. eexists. split; [reflexivity|]. split; [reflexivity|]. cbn. intros y [H|[]]. injection H as <-. reflexivity. }
  destruct (RUN f 6 1 C1) as (o & RO & LO & EO). destruct (RUN f' (-6) (-1) C2) as (o' & RO' & LO' & _). exists o, o'. cbv zeta.
  do 8 (split; [assumption|]). split; [exact RO|].
  split; [intros y _ I; rewrite (EO y I); apply kink_smooth; [exact C1|lra]|]. split; [intros y _ I; rewrite (EO y I), TU; apply kink_smooth; [exact C2|lra]|]. split; [exact RO'|].
  rewrite LO, LO'. unfold kink_grad. destruct (Rle_dec 6 1); [lra|]. destruct (Rle_dec (-6) (-1)); [|lra]. split; cbn; do 3 f_equal; lra.
Qed.
