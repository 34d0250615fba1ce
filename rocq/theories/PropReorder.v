(** A fit does not depend on the order in which tensors, objects and modules are listed (C115). *)
From Coq Require Import Reals String List Arith Lia Lra Permutation.
From Verif Require Import Py RSum Tensor TensorFacts Fl OptimModel FitModel SpecOptim SpecSimilar KernelModel FieldModel GeometryModel ModuleModel ShootingModel RegistrationModel
  SpecModule SpecShooting SpecRegistration SpecSmooth SpecOrder SpecShuffle SpecFitElsewhere SpecReorder SpecReorderReg
  ModuleLeaves ModuleMain ShootingPack ShootingDyn OrderFacts SolverExists ShootingTotal ShootingExample MotionExample RegistrationParams RegistrationLife PropRegistration ElsewhereFacts PropElsewhere FitElsewhere PropFitElsewhere PropShuffle ReorderFacts ReorderReg PropSmooth PropAtlas ReorderExample.
Import ListNotations.
Open Scope string_scope.
Open Scope list_scope.
Open Scope R_scope.

(** ** Tensors listed in another order *)

(** Costs that agree through the change of order have gradients that do. *)
Theorem C115_gradients : forall ps f f' x a a' g g', orders ps x -> (forall y, SpecOptim.same_shape y x -> f' (reorder ps y) = f y) ->
  differentiable_at f x a g -> differentiable_at f' (reorder ps x) a' g' -> g' = reorder ps g.
Proof. exact reorder_gradient. Qed.
Print Assumptions C115_gradients.

(** Whole optimisations with gd (line search) or a fixed step: the same result, the same
    number of evaluations, the same callbacks; parameters in the other order.  Gradients are
    needed only where the run asks for them. *)
Theorem C115_gd_fit : forall ps x f f' grad grad' c fuel callback max_iter tol miniter s o, orders ps x ->
  (forall y, SpecOptim.same_shape y x -> f' (reorder ps y) = f y) -> length (groups c) = length x -> length (c_steps s) = length x ->
  optimize (gd_strat c fuel) f grad callback max_iter tol miniter x s = Some o ->
  (forall y, SpecOptim.same_shape y x -> In (y, true) (o_evals o) -> exists a, differentiable_at (fun z => FitModel.total (f z)) y a (grad y)) ->
  (forall y, SpecOptim.same_shape y x -> In (y, true) (o_evals o) -> exists a, differentiable_at (fun z => FitModel.total (f' z)) (reorder ps y) a (grad' (reorder ps y))) ->
  optimize (gd_strat c fuel) f' grad' callback max_iter tol miniter (reorder ps x) s = Some (reordered_outcome ps o).
Proof.
  intros ps x f f' grad grad' c fuel cb max_iter tol mi s o OR FF LG LS E D D'.
  apply (gd_reordered ps x f f' grad grad' FF c fuel cb max_iter tol mi x s o LG eq_refl LS E).
  intros z Z Sz. destruct (D z Sz Z) as (a & A). destruct (D' z Sz Z) as (a' & A'). split; [exact (proj1 (proj2 A))|].
  refine (reorder_gradient ps _ _ z a a' _ _ (orders_shape ps x z OR Sz) _ A A'). intros y Sy. cbv beta. rewrite FF; [reflexivity|]. unfold SpecOptim.same_shape in *. congruence.
Qed.
Print Assumptions C115_gd_fit.
Theorem C115_sgd_fit : forall ps x f f' grad grad' lrs callback max_iter tol miniter o, orders ps x ->
  (forall y, SpecOptim.same_shape y x -> f' (reorder ps y) = f y) -> length lrs = length x ->
  optimize (sgd_strat lrs) f grad callback max_iter tol miniter x tt = Some o ->
  (forall y, SpecOptim.same_shape y x -> In (y, true) (o_evals o) -> exists a, differentiable_at (fun z => FitModel.total (f z)) y a (grad y)) ->
  (forall y, SpecOptim.same_shape y x -> In (y, true) (o_evals o) -> exists a, differentiable_at (fun z => FitModel.total (f' z)) (reorder ps y) a (grad' (reorder ps y))) ->
  optimize (sgd_strat lrs) f' grad' callback max_iter tol miniter (reorder ps x) tt = Some (reordered_outcome ps o).
Proof.
  intros ps x f f' grad grad' lrs cb max_iter tol mi o OR FF LG E D D'.
  apply (sgd_reordered ps x f f' grad grad' FF lrs cb max_iter tol mi x o eq_refl LG E).
  intros z Z Sz. destruct (D z Sz Z) as (a & A). destruct (D' z Sz Z) as (a' & A'). split; [exact (proj1 (proj2 A))|].
  refine (reorder_gradient ps _ _ z a a' _ _ (orders_shape ps x z OR Sz) _ A A'). intros y Sy. cbv beta. rewrite FF; [reflexivity|]. unfold SpecOptim.same_shape in *. congruence.
Qed.
Print Assumptions C115_sgd_fit.

(** ** Registrations whose objects and modules are listed in another order *)

(** They start from the same moments, in the other order. *)
Theorem C115_initial_moments : forall p pm h0 defs mods att ones lam reduce it0 solver h r h0' att' ones' lam' reduce' it0' solver' h' r',
  Permutation p (seq 0 (length defs)) -> Permutation pm (seq 0 (length mods)) ->
  registration h0 defs mods att false ones [] lam [] reduce it0 solver = Ok (h, r) ->
  registration h0' (pick p defs) (pick pm mods) att' false ones' [] lam' [] reduce' it0' solver' = Ok (h', r') ->
  orders [moment_order p pm defs mods] (moments h r) /\ moments h' r' = reorder [moment_order p pm defs mods] (moments h r).
Proof.
  intros p pm h0 defs mods att ones lam reduce it0 solver h r h0' att' ones' lam' reduce' it0' solver' h' r' P PM E E'.
  destruct (with_moments_filled _ _ _ _ _ _ _ _ _ _ _ (moments h r) E eq_refl) as (_ & _ & _ & _ & D).
  destruct (with_moments_filled _ _ _ _ _ _ _ _ _ _ _ (moments h' r') E' eq_refl) as (_ & _ & _ & _ & D').
  unfold moments. split.
  - constructor; [|constructor]. rewrite map_length. apply (f_equal (@length tensor)) in D. rewrite map_length in D. rewrite D, start_manifold, moment_spread.
    change (g_cotan (GComp (map df_man defs ++ map mod_manifold mods))) with (flat_map g_cotan (map df_man defs ++ map mod_manifold mods)). rewrite flat_concat.
    assert (L : length (concat (map g_cotan (map df_man defs ++ map mod_manifold mods))) = list_sum (counts (map df_man defs ++ map mod_manifold mods))).
    { generalize (map df_man defs ++ map mod_manifold mods) as gs. induction gs as [|g gs IH]; [reflexivity|]. unfold counts in *. cbn [map concat]. rewrite app_length, IH. reflexivity. }
    rewrite L. apply spread_perm. unfold counts. rewrite map_length, app_length, !map_length. apply order_perm; assumption.
  - unfold reorder. cbn [combine map fst snd]. f_equal. rewrite <- (map_map (deref h') entries), <- (map_map (deref h) entries), D, D', (order_cotan p pm defs mods P), pick_map. reflexivity.
Qed.
Print Assumptions C115_initial_moments.

(** Whatever the moments: the same costs. *)
Theorem C115_same_costs : forall others others' sv b0 ag ag' d p pm h0 defs mods att targets ones lam it0 solver h r h0' defs' mods' att' targets' ones' it0' solver' h' r' sch it t1 x,
  exact_grad ag -> exact_grad ag' -> exact_solver sv ->
  relisted_problem d p pm defs mods att targets defs' mods' att' targets' ->
  registration h0 defs mods att false ones [] lam [] "sum" it0 solver = Ok (h, r) ->
  registration h0' defs' mods' att' false ones' [] lam [] "sum" it0' solver' = Ok (h', r') ->
  0 < t1 -> (0 < it)%nat -> SpecOptim.same_shape x (moments h r) ->
  let x' := reorder [moment_order p pm defs mods] x in
  is_ok (evaluate real_clock others sv b0 ag (with_moments h r x) r targets (scheme_name sch) it t1 []) ->
  is_ok (evaluate real_clock others' sv b0 ag' (with_moments h' r' x') r' targets' (scheme_name sch) it t1 []) ->
  fit_costs real_clock others' sv b0 ag' h' r' targets' (scheme_name sch) it t1 x' = fit_costs real_clock others sv b0 ag h r targets (scheme_name sch) it t1 x.
Proof.
  intros others others' sv b0 ag ag' d p pm h0 defs mods att targets ones lam it0 solver h r h0' defs' mods' att' targets' ones' it0' solver' h' r' sch it t1 x
    EX EX' HS [(P & PM) (La & Lt) (ED & EM & EA & ET) RV (W & W') (LS & LS') (SH & SH')] E E' T1 IT SX x' ((cost & r1) & V) ((cost' & r1') & V'). subst defs' mods'.
  destruct (C115_initial_moments p pm _ _ _ _ _ _ _ _ _ _ _ _ _ _ _ _ _ _ _ _ P PM E E') as (OR & IM).
  assert (SX' : SpecOptim.same_shape x' (moments h' r')) by (rewrite IM; apply reorder_shape; exact SX).
  destruct (refilled_model d _ _ _ _ _ _ _ _ _ _ _ _ W LS SH E SX) as (dx & mx & F & RF & D & L & WX & LX & SHX).
  destruct (refilled_model d _ _ _ _ _ _ _ _ _ _ _ _ W' LS' SH' E' SX') as (dx' & mx' & F' & RF' & D' & L' & WX' & LX' & SHX').
  destruct (registration_ok h0 defs mods att false ones [] lam [] "sum" it0 solver h r (NoDup_nil _) E) as (_ & _ & _ & _ & RA & RLm & RRd & _ & RFC & _).
  destruct (registration_ok h0' _ _ att' false ones' [] lam [] "sum" it0' solver' h' r' (NoDup_nil _) E') as (_ & _ & _ & _ & RA' & RLm' & RRd' & _ & RFC' & _).
  pose proof (refilled_order p pm _ _ _ _ _ P RF) as RO.
  assert (EV : map (fun p0 => of_entries (shape (fst p0)) (snd p0)) (combine (g_cotan (mod_manifold (start (pick p defs) (pick pm mods)))) (concat x')) =
    pick (moment_order p pm defs mods) (map (fun p0 => of_entries (shape (fst p0)) (snd p0)) (combine (g_cotan (mod_manifold (start defs mods))) (concat x)))).
  { unfold SpecOptim.same_shape, moments in SX. destruct x as [|xs [|? ?]]; try discriminate SX. subst x'. unfold reorder in *. cbn [combine map fst snd concat] in *. rewrite !app_nil_r in *.
    rewrite (order_cotan p pm defs mods P), <- pick_combine by (symmetry; exact L). rewrite pick_map. reflexivity. }
  rewrite EV in RF'. destruct (refilled_unique _ _ _ _ _ _ _ RF' RO) as (-> & ->).
  destruct RF as (_ & (KK & _) & _ & SO). assert (LD : length dx = length defs) by (clear - SO; induction SO; cbn; congruence).
  assert (LM : length mx = length mods). { rewrite !start_manifold in KK. cbn [skel] in KK. injection KK as KK. apply (f_equal (@length gman)) in KK. rewrite !map_length, !app_length, !map_length in KK. lia. }
  assert (EC : cost' = cost).
  { refine (C114_any_order others others' sv b0 ag ag' _ _ r r' targets targets' sch it t1 cost cost' r1 r1' d p dx mx _ _ EX EX' HS T1 IT F F' _ _ RFC RFC' _ RRd RRd' WX WX' LX SHX SHX' V V').
    - rewrite RA, RA'. constructor; try assumption; try reflexivity; [rewrite LD; exact P|rewrite LD; split; assumption|]. apply Permutation_sym, pick_perm. rewrite LM. exact PM.
    - rewrite RA. clear - SO RV. revert att targets RV. induction SO as [|o ox defs dx S _ IH]; intros [|a att] [|y targets] RV; try constructor; cbn [combine] in *; inversion RV as [|? ? R1 R2]; subst; [exact (reads_same _ _ _ _ S R1)|exact (IH _ _ R2)].
    - congruence. }
  unfold fit_costs. rewrite V, V', EC. reflexivity.
Qed.
Print Assumptions C115_same_costs.

(** Whole fits of the two registrations. *)
Theorem C115_registration_gd : forall others others' sv b0 ag ag' d p pm h0 defs mods att targets ones lam it0 solver h r h0' defs' mods' att' targets' ones' it0' solver' h' r' sch it t1 conf fuel callback max_iter tol miniter s grad grad' o,
  exact_grad ag -> exact_grad ag' -> exact_solver sv ->
  relisted_problem d p pm defs mods att targets defs' mods' att' targets' ->
  registration h0 defs mods att false ones [] lam [] "sum" it0 solver = Ok (h, r) ->
  registration h0' defs' mods' att' false ones' [] lam [] "sum" it0' solver' = Ok (h', r') ->
  0 < t1 -> (0 < it)%nat ->
  (forall x, SpecOptim.same_shape x (moments h r) -> is_ok (evaluate real_clock others sv b0 ag (with_moments h r x) r targets (scheme_name sch) it t1 [])) ->
  (forall x, SpecOptim.same_shape x (moments h' r') -> is_ok (evaluate real_clock others' sv b0 ag' (with_moments h' r' x) r' targets' (scheme_name sch) it t1 [])) ->
  let f := fit_costs real_clock others sv b0 ag h r targets (scheme_name sch) it t1 in
  let f' := fit_costs real_clock others' sv b0 ag' h' r' targets' (scheme_name sch) it t1 in
  let ps := [moment_order p pm defs mods] in
  length (groups conf) = 1%nat -> length (c_steps s) = 1%nat ->
  optimize (gd_strat conf fuel) f grad callback max_iter tol miniter (moments h r) s = Some o ->
  (forall y, SpecOptim.same_shape y (moments h r) -> In (y, true) (o_evals o) -> exists a, differentiable_at (fun z => FitModel.total (f z)) y a (grad y)) ->
  (forall y, SpecOptim.same_shape y (moments h r) -> In (y, true) (o_evals o) -> exists a, differentiable_at (fun z => FitModel.total (f' z)) (reorder ps y) a (grad' (reorder ps y))) ->
  optimize (gd_strat conf fuel) f' grad' callback max_iter tol miniter (moments h' r') s = Some (reordered_outcome ps o).
Proof.
  intros others others' sv b0 ag ag' d p pm h0 defs mods att targets ones lam it0 solver h r h0' defs' mods' att' targets' ones' it0' solver' h' r' sch it t1 conf fuel cb max_iter tol mi s grad grad' o
    EX EX' HS RP E E' T1 IT OK OK' f f' ps LG LC H DF DF'. pose proof (rl_places _ _ _ _ _ _ _ _ _ _ _ RP) as (P & PM). pose proof (rl_lists _ _ _ _ _ _ _ _ _ _ _ RP) as (ED & EM & _).
  pose proof E' as E2. rewrite ED, EM in E2. destruct (C115_initial_moments p pm _ _ _ _ _ _ _ _ _ _ _ _ _ _ _ _ _ _ _ _ P PM E E2) as (OR & IM). fold ps in OR, IM. rewrite IM.
  apply (C115_gd_fit ps (moments h r) f f' grad grad' conf fuel cb max_iter tol mi s o); try assumption; try reflexivity.
  intros y SY. apply (C115_same_costs others others' sv b0 ag ag' d p pm h0 defs mods att targets ones lam it0 solver h r h0' defs' mods' att' targets' ones' it0' solver' h' r' sch it t1 y); auto. apply OK'. rewrite IM. apply reorder_shape. exact SY.
Qed.
Print Assumptions C115_registration_gd.
Theorem C115_registration_sgd : forall others others' sv b0 ag ag' d p pm h0 defs mods att targets ones lam it0 solver h r h0' defs' mods' att' targets' ones' it0' solver' h' r' sch it t1 lr callback max_iter tol miniter  grad grad' o,
  exact_grad ag -> exact_grad ag' -> exact_solver sv ->
  relisted_problem d p pm defs mods att targets defs' mods' att' targets' ->
  registration h0 defs mods att false ones [] lam [] "sum" it0 solver = Ok (h, r) ->
  registration h0' defs' mods' att' false ones' [] lam [] "sum" it0' solver' = Ok (h', r') ->
  0 < t1 -> (0 < it)%nat ->
  (forall x, SpecOptim.same_shape x (moments h r) -> is_ok (evaluate real_clock others sv b0 ag (with_moments h r x) r targets (scheme_name sch) it t1 [])) ->
  (forall x, SpecOptim.same_shape x (moments h' r') -> is_ok (evaluate real_clock others' sv b0 ag' (with_moments h' r' x) r' targets' (scheme_name sch) it t1 [])) ->
  let f := fit_costs real_clock others sv b0 ag h r targets (scheme_name sch) it t1 in
  let f' := fit_costs real_clock others' sv b0 ag' h' r' targets' (scheme_name sch) it t1 in
  let ps := [moment_order p pm defs mods] in
  optimize (sgd_strat [lr]) f grad callback max_iter tol miniter (moments h r) tt = Some o ->
  (forall y, SpecOptim.same_shape y (moments h r) -> In (y, true) (o_evals o) -> exists a, differentiable_at (fun z => FitModel.total (f z)) y a (grad y)) ->
  (forall y, SpecOptim.same_shape y (moments h r) -> In (y, true) (o_evals o) -> exists a, differentiable_at (fun z => FitModel.total (f' z)) (reorder ps y) a (grad' (reorder ps y))) ->
  optimize (sgd_strat [lr]) f' grad' callback max_iter tol miniter (moments h' r') tt = Some (reordered_outcome ps o).
Proof.
  intros others others' sv b0 ag ag' d p pm h0 defs mods att targets ones lam it0 solver h r h0' defs' mods' att' targets' ones' it0' solver' h' r' sch it t1 lr cb max_iter tol mi  grad grad' o
    EX EX' HS RP E E' T1 IT OK OK' f f' ps  H DF DF'. pose proof (rl_places _ _ _ _ _ _ _ _ _ _ _ RP) as (P & PM). pose proof (rl_lists _ _ _ _ _ _ _ _ _ _ _ RP) as (ED & EM & _).
  pose proof E' as E2. rewrite ED, EM in E2. destruct (C115_initial_moments p pm _ _ _ _ _ _ _ _ _ _ _ _ _ _ _ _ _ _ _ _ P PM E E2) as (OR & IM). fold ps in OR, IM. rewrite IM.
  apply (C115_sgd_fit ps (moments h r) f f' grad grad' [lr] cb max_iter tol mi o); try assumption; try reflexivity.
  intros y SY. apply (C115_same_costs others others' sv b0 ag ag' d p pm h0 defs mods att targets ones lam it0 solver h r h0' defs' mods' att' targets' ones' it0' solver' h' r' sch it t1 y); auto. apply OK'. rewrite IM. apply reorder_shape. exact SY.
Qed.
Print Assumptions C115_registration_sgd.

(** Two points, two translations: one step of a fixed-step descent. *)
Definition double : res (heap * reg) := registration (mkHeap [] []) [pt1; pt5] [gt1; gt2] [reading 1; reading 3] false false [] 2 [] "sum" None None.
Definition redouble : res (heap * reg) := registration (mkHeap [] []) [pt5; pt1] [gt2; gt1] [reading 3; reading 1] false false [] 2 [] "sum" None None.
Definition double_state : heap * reg := Eval cbv -[IZR one11 q5 p5 tzeros reading] in value no_model double.
Definition redouble_state : heap * reg := Eval cbv -[IZR one11 q5 p5 tzeros reading] in value no_model redouble.
Definition pair_grad (x : params) : params := match x with [[[a]; [b]]] => [[[3 / 2 * (a + b) + 12]; [3 / 2 * (a + b) + 12]]] | _ => x end.

Lemma pair_shape x u v : SpecOptim.same_shape x [[[u]; [v]]] -> exists a b, x = [[[a]; [b]]].
Proof.
  unfold SpecOptim.same_shape. intros E. destruct x as [|l [|? ?]]; try discriminate E. cbn in E. injection E as E. destruct l as [|[|a [|? ?]] [|[|b [|? ?]] [|? ?]]]; try discriminate E. eauto.
Qed.
Lemma pair_smooth (f : params -> FitModel.costs) K a b : (forall a b, f [[[a]; [b]]] = [("deformation", Fin (3 / 4 * (a + b) ^ 2)); ("attach", Fin (12 * (a + b) + K))]) ->
  exists v, SpecOptim.differentiable_at (fun z => FitModel.total (f z)) [[[a]; [b]]] v (pair_grad [[[a]; [b]]]).
Proof.
  intros Hf. eexists. split; [rewrite Hf; reflexivity|]. split; [reflexivity|]. intros eps PE. exists (eps / 2). split; [lra|].
  intros y Ey D. destruct (pair_shape y _ _ Ey) as (u & v & ->). eexists. split; [rewrite Hf; reflexivity|]. unfold SpecOptim.dist1, SpecOptim.pairing, flat_params, pair_grad in *. cbn in *. rewrite Rplus_0_r in *.
  replace (_ - _ - _) with (3 / 4 * (((u - a) + (v - b)) * ((u - a) + (v - b)))) by field. rewrite Rabs_mult, (Rabs_pos_eq (3 / 4)), Rabs_mult by lra.
  pose proof (Rabs_triang (u - a) (v - b)) as T. pose proof (Rabs_pos (u - a + (v - b))) as P. pose proof (Rabs_pos (u - a)) as P1. pose proof (Rabs_pos (v - b)) as P2. nra.
Qed.

Example C115_hypotheses : forall b0, exists o o',
  let f := fit_costs real_clock no_others exact_sv b0 std_ag (fst double_state) (snd double_state) [[goal0]; [one11]] "euler" 1 1 in
  let f' := fit_costs real_clock no_others exact_sv b0 std_ag (fst redouble_state) (snd redouble_state) [[one11]; [goal0]] "euler" 1 1 in
  let ps := [moment_order [1; 0]%nat [1; 0]%nat [pt1; pt5] [gt1; gt2]] in
  double = Ok double_state /\ redouble = Ok redouble_state /\ exact_grad std_ag /\ exact_solver exact_sv /\
  relisted_problem 1 [1; 0]%nat [1; 0]%nat [pt1; pt5] [gt1; gt2] [reading 1; reading 3] [[goal0]; [one11]] [pt5; pt1] [gt2; gt1] [reading 3; reading 1] [[one11]; [goal0]] /\
  (forall x, SpecOptim.same_shape x (moments (fst double_state) (snd double_state)) ->
     is_ok (evaluate real_clock no_others exact_sv b0 std_ag (with_moments (fst double_state) (snd double_state) x) (snd double_state) [[goal0]; [one11]] "euler" 1 1 [])) /\
  (forall x, SpecOptim.same_shape x (moments (fst redouble_state) (snd redouble_state)) ->
     is_ok (evaluate real_clock no_others exact_sv b0 std_ag (with_moments (fst redouble_state) (snd redouble_state) x) (snd redouble_state) [[one11]; [goal0]] "euler" 1 1 [])) /\
  orders ps (moments (fst double_state) (snd double_state)) /\
  optimize (sgd_strat [1 / 4]) f pair_grad (fun _ => None) 1 None 0 (moments (fst double_state) (snd double_state)) tt = Some o /\
  (forall y, SpecOptim.same_shape y (moments (fst double_state) (snd double_state)) -> exists a, SpecOptim.differentiable_at (fun z => FitModel.total (f z)) y a (pair_grad y)) /\
  (forall y, SpecOptim.same_shape y (moments (fst double_state) (snd double_state)) -> exists a, SpecOptim.differentiable_at (fun z => FitModel.total (f' z)) (reorder ps y) a (pair_grad (reorder ps y))) /\
  optimize (sgd_strat [1 / 4]) f' pair_grad (fun _ => None) 1 None 0 (moments (fst redouble_state) (snd redouble_state)) tt = Some o' /\
  o_left o = [[[-2]; [-4]]] /\ o_left o' = [[[-4]; [-2]]].
Proof.
  intros b0. pose proof exact_sv_exact as HS.
  assert (H1 : double = Ok double_state) by (vm_compute; reflexivity). assert (H2 : redouble = Ok redouble_state) by (vm_compute; reflexivity).
  assert (W : wf_mod 1 (start [pt1; pt5] [gt1; gt2])) by (cbn; repeat split; try discriminate; lra).
  assert (W' : wf_mod 1 (start [pt5; pt1] [gt2; gt1])) by (cbn; repeat split; try discriminate; lra).
  assert (LS : locals_smooth 1 (start [pt1; pt5] [gt1; gt2])) by (cbn; tauto). assert (LS' : locals_smooth 1 (start [pt5; pt1] [gt2; gt1])) by (cbn; tauto).
  assert (SH : shootable (start [pt1; pt5] [gt1; gt2])) by (eexists; split; [reflexivity|]; split; [repeat constructor|cbn; repeat split]).
  assert (SH' : shootable (start [pt5; pt1] [gt2; gt1])) by (eexists; split; [reflexivity|]; split; [repeat constructor|cbn; repeat split]).
  assert (RV : forall k q p y, shape q = [1%nat; 1%nat] -> reads_values (DPoints (GLm 1 1 q p)) (reading k) y).
  { intros k q p y Sq q0 u u' x x' E0 Su T D D'. cbn in E0, D, D'. injection E0 as <-. injection D as <-. injection D' as <-. unfold reading. cbn. do 2 f_equal. apply (proj2 T). rewrite (proj1 T), Su, Sq. cbn. lia. }
  assert (PP : relisted_problem 1 [1; 0]%nat [1; 0]%nat [pt1; pt5] [gt1; gt2] [reading 1; reading 3] [[goal0]; [one11]] [pt5; pt1] [gt2; gt1] [reading 3; reading 1] [[one11]; [goal0]]).
  { constructor; try (split; assumption); try (repeat split; reflexivity); [split; apply perm_swap|]. cbn [combine]. constructor; [apply RV; reflexivity|]. constructor; [apply RV; reflexivity|constructor]. }
  assert (AO : forall k x y, is_ok (reading k x y)) by (intros k x y; unfold reading, coordinate; destruct x; eexists; reflexivity).
  assert (OR : Forall ordinary [pt1; pt5] /\ Forall ordinary [pt5; pt1]).
  { split; repeat (constructor; [split; [reflexivity|]; (split; [cbn; eauto 10|]); intros q; eexists; reflexivity|]); constructor. }
  assert (V1 : forall x, SpecOptim.same_shape x (moments (fst double_state) (snd double_state)) ->
     is_ok (evaluate real_clock no_others exact_sv b0 std_ag (with_moments (fst double_state) (snd double_state) x) (snd double_state) [[goal0]; [one11]] "euler" 1 1 [])).
  { intros x SX. apply (C107_evaluates no_others exact_sv b0 std_ag 1 (mkHeap [] []) [pt1; pt5] [gt1; gt2] [reading 1; reading 3] [[goal0]; [one11]] false 2 None None (fst double_state) (snd double_state) SEuler 1 1 x std_exact std_differentiates HS W LS SH); auto; try lra.
    - apply two_everywhere.
    - cbn. tauto.
    - vm_compute. lia.
    - exact (proj1 OR).
    - intros a u v [<-|[<-|[]]]; apply AO. }
  assert (V2 : forall x, SpecOptim.same_shape x (moments (fst redouble_state) (snd redouble_state)) ->
     is_ok (evaluate real_clock no_others exact_sv b0 std_ag (with_moments (fst redouble_state) (snd redouble_state) x) (snd redouble_state) [[one11]; [goal0]] "euler" 1 1 [])).
  { intros x SX. apply (C107_evaluates no_others exact_sv b0 std_ag 1 (mkHeap [] []) [pt5; pt1] [gt2; gt1] [reading 3; reading 1] [[one11]; [goal0]] false 2 None None (fst redouble_state) (snd redouble_state) SEuler 1 1 x std_exact std_differentiates HS W' LS' SH'); auto; try lra.
    - apply two_everywhere.
    - cbn. tauto.
    - vm_compute. lia.
    - exact (proj2 OR).
    - intros a u v [<-|[<-|[]]]; apply AO. }
  set (f := fit_costs real_clock no_others exact_sv b0 std_ag (fst double_state) (snd double_state) [[goal0]; [one11]] "euler" 1 1).
  set (f' := fit_costs real_clock no_others exact_sv b0 std_ag (fst redouble_state) (snd redouble_state) [[one11]; [goal0]] "euler" 1 1).
  set (K := 2 * (1 * (one11 @2 0%nat 0%nat) + 3 * (q5 @2 0%nat 0%nat))).
  assert (K1 : forall a b, f [[[a]; [b]]] = [("deformation", Fin (3 / 4 * (a + b) ^ 2)); ("attach", Fin (12 * (a + b) + K))]).
  { intros a b. refine (eq_trans (two_costs no_others exact_sv b0 HS 1 2 ltac:(lra) ltac:(lra) (fst double_state) (snd double_state) one11 q5 [goal0] [one11] 1 3 a b eq_refl eq_refl eq_refl eq_refl eq_refl eq_refl eq_refl (V1 [[[a]; [b]]] eq_refl)) _).
    unfold gain, K. apply f_equal2; [f_equal; f_equal; field|]. apply f_equal2; [f_equal; f_equal; field|reflexivity]. }
  assert (K2 : forall a b, f' [[[a]; [b]]] = [("deformation", Fin (3 / 4 * (a + b) ^ 2)); ("attach", Fin (12 * (a + b) + K))]).
  { intros a b. refine (eq_trans (two_costs no_others exact_sv b0 HS 2 1 ltac:(lra) ltac:(lra) (fst redouble_state) (snd redouble_state) q5 one11 [one11] [goal0] 3 1 a b eq_refl eq_refl eq_refl eq_refl eq_refl eq_refl eq_refl (V2 [[[a]; [b]]] eq_refl)) _).
    unfold gain, K. apply f_equal2; [f_equal; f_equal; field|]. apply f_equal2; [f_equal; f_equal; field|reflexivity]. }
  assert (PM : [moment_order [1; 0]%nat [1; 0]%nat [pt1; pt5] [gt1; gt2]] = [[1; 0]%nat]) by reflexivity.
  assert (EM : p5 @2 0%nat 0%nat = -1) by (cbn; unfold PropRigid.mirror, PropRigid.half_turn; cbn; lra).
  assert (M1 : moments (fst double_state) (snd double_state) = [[[1]; [-1]]]) by (rewrite <- EM; reflexivity).
  assert (M2 : moments (fst redouble_state) (snd redouble_state) = [[[-1]; [1]]]) by (rewrite <- EM; reflexivity).
  clearbody f f' K. rewrite M1 in *. rewrite M2 in *. pose proof std_exact as SE.
  assert (RUN : forall (g : params -> FitModel.costs) a b, (forall a b, g [[[a]; [b]]] = [("deformation", Fin (3 / 4 * (a + b) ^ 2)); ("attach", Fin (12 * (a + b) + K))]) ->
    exists o, optimize (sgd_strat [1 / 4]) g pair_grad (fun _ => None) 1 None 0 [[[a]; [b]]] tt = Some o /\ o_left o = move [1 / 4] [[[a]; [b]]] (pair_grad [[[a]; [b]]])).
  { intros g a b Hg. unfold optimize. cbn [optimize_loop run sgd_strat last_costs rev app]. rewrite Hg. unfold FitModel.total. cbn [map snd fold_left fadd isnan]. cbv iota.
    cbn [fsub fdiv fmax fle andb option_map before]. eexists. split; reflexivity. }
  destruct (RUN f 1 (-1) K1) as (o & RO & LO). destruct (RUN f' (-1) 1 K2) as (o' & RO' & LO'). exists o, o'. cbv zeta. rewrite PM.
  do 7 (split; [assumption|]). split; [constructor; [apply perm_swap|constructor]|]. split; [exact RO|].
  split; [intros y Sy; destruct (pair_shape y _ _ Sy) as (a & b & ->); apply (pair_smooth f K a b K1)|].
  split; [intros y Sy; destruct (pair_shape y _ _ Sy) as (a & b & ->); apply (pair_smooth f' K b a K2)|]. split; [exact RO'|].
  rewrite LO, LO'. unfold pair_grad. split; cbn; repeat f_equal; lra.
Qed.
