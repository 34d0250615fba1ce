(** Whole fits whose costs are multiplied by a constant (C104), in particular registrations
    measured in another unit of length (C110). *)
From Coq Require Import Reals String List Arith ZArith Lia Lra Bool.
From Verif Require Import Py RSum Tensor TensorFacts Fl OptimModel FitModel SpecOptim SpecGeometry SpecRigid SpecSimilar SimilarFacts PropSimilar SpecRescale RescaleFacts
  KernelModel FieldModel MeshModel AttachmentModel GeometryModel ModuleModel ShootingModel RegistrationModel
  SpecKernel SpecModule SpecShooting SpecRegistration SpecTransport SpecSmooth SpecReduce SpecElsewhere SpecFitElsewhere SpecUnits SpecUnitsReg SpecFitUnits
  ModuleMain ModuleLeaves ShootingDyn ShootingPack ShootingExample RigidShoot DiffBuild SmoothRun SolverExists MotionExample PropAttachment RegistrationRun RegistrationLife RegistrationParams RegistrationShoot PropRegistration
  ShootingFinal TransportFacts ReduceFacts PropReduce PropRigid PropSmooth PropReverse ElsewhereFacts PropElsewhere FitElsewhere PropFitElsewhere UnitsShoot UnitsReg PropUnitsReg FitUnits PropFitUnits.
From Verif Require Import SpecSimilar.
Import ListNotations.
Open Scope string_scope.
Open Scope list_scope.
Open Scope R_scope.

(** Costs multiplied by k, parameters of group g placed by similarities of ratio r g, step
    lengths of group g multiplied by (r g)^2 / k: as long as the costs reported stay at least
    1, the whole run of the optimizer "gd" is the same one, placed: the same numbers of
    iterations and evaluations, the same success. *)
Theorem C104_gd_fit_multiplied : forall k r p l c c' x0 f f' grad grad' callback callback' fuel max_iter tol miniter x s o, 0 < k -> (forall g, r g <> 0) -> similar x0 r p l ->
  same_gammas c c' -> length (groups c) = length x0 ->
  (forall y, same_shape y x0 -> f' (each p y) = multiplied k (f y)) ->
  exact_gradient (fun y => FitModel.total (f y)) grad x0 -> exact_gradient (fun y => FitModel.total (f' y)) grad' x0 ->
  (forall lc, callback' (option_map (multiplied k) lc) = callback lc) ->
  same_shape x x0 -> length (c_steps s) = length x0 ->
  optimize (gd_strat c fuel) f grad callback max_iter tol miniter x s = Some o -> costs_above_one k o ->
  let w g := r g * r g / k in
  optimize (gd_strat c' fuel) f' grad' callback' max_iter tol miniter (each p x) (placed_ctl w s) = Some (multiplied_outcome k p (placed_ctl w) o).
Proof.
  intros k r p l c c' x0 f f' grad grad' cb cb' fuel max_iter tol mi x s o Pk RN SI SG LG FF EG EG' HC E L H HB w.
  exact (gd_multiplied k r p l c c' x0 Pk RN SI SG LG f f' grad grad' FF EG EG' cb cb' HC fuel max_iter tol mi x s o E L H HB).
Qed.
Print Assumptions C104_gd_fit_multiplied.

(** The same for torch.optim.SGD without momentum. *)
Theorem C104_sgd_fit_multiplied : forall k r p l x0 f f' grad grad' callback callback' lrs max_iter tol miniter x o, 0 < k -> (forall g, r g <> 0) -> similar x0 r p l ->
  (forall y, same_shape y x0 -> f' (each p y) = multiplied k (f y)) ->
  exact_gradient (fun y => FitModel.total (f y)) grad x0 -> exact_gradient (fun y => FitModel.total (f' y)) grad' x0 ->
  (forall lc, callback' (option_map (multiplied k) lc) = callback lc) ->
  same_shape x x0 -> length lrs = length x0 ->
  optimize (sgd_strat lrs) f grad callback max_iter tol miniter x tt = Some o -> costs_above_one k o ->
  optimize (sgd_strat (rescaled (fun g => r g * r g / k) lrs)) f' grad' callback' max_iter tol miniter (each p x) tt = Some (multiplied_outcome k p (fun u => u) o).
Proof.
  intros k r p l x0 f f' grad grad' cb cb' lrs max_iter tol mi x o Pk RN SI FF EG EG' HC E L H HB.
  exact (sgd_multiplied k r p l x0 Pk RN SI f f' grad grad' FF EG EG' cb cb' HC lrs max_iter tol mi x o E L H HB).
Qed.
Print Assumptions C104_sgd_fit_multiplied.
Example C104_multiplied_case : exists o,
  optimize (sgd_strat [1 / 4]) (parabola 1) (slope 1) (fun _ => None) 1 None 0 [[[2]]] tt = Some o /\ costs_above_one 4 o /\ o_left o = [[[2 - 1 / 4 * (2 * 1 * 2)]]] /\
  (forall y, same_shape y [[[2]]] -> parabola 4 (each (fun _ _ t => t) y) = multiplied 4 (parabola 1 y)) /\ similar [[[2]]] (fun _ => 1) (fun _ _ t => t) (fun _ _ t => t) /\
  exact_gradient (fun y => FitModel.total (parabola 1 y)) (slope 1) [[[2]]] /\ exact_gradient (fun y => FitModel.total (parabola 4 y)) (slope 4) [[[2]]].
Proof.
  eexists. split; [reflexivity|]. split; [|split; [reflexivity|split; [|split; [|split; intros x Ex; (apply (parabola_exact _ ltac:(lra)) || apply parabola_exact); (lra || exact Ex)]]]].
  - intros cs a [Q|[]] T. injection Q as <-. unfold FitModel.total, parabola, SpecOptim.entry in T. cbn in T. injection T as <-. lra.
  - intros y Sy. destruct (one_shape y Sy) as (b & ->). unfold parabola, multiplied, SpecOptim.entry. cbn. do 3 f_equal. ring.
  - intros g i ts t _ _. split; [auto|reflexivity|intros; rewrite Rmult_1_l, Rmult_1_l; reflexivity|eauto].
Qed.

Lemma points_each u g x : points_only g -> map (@length (list R)) x = [length (factors u g)] -> each (scale_moments u g) x = each (fun _ _ => times u) x.
Proof.
  intros PO LX. destruct x as [|a [|? ?]]; try discriminate LX. injection LX as LX. unfold each. cbn [mapi]. f_equal. unfold scale_moments. pose proof (points_factors u g PO) as F.
  rewrite (mapi_const _ (times u)), (mapi_const _ (times u)); [reflexivity|intros; reflexivity|]. intros i t Et. cbn. assert (I : (i < length (factors u g))%nat) by (rewrite <- LX; apply nth_error_Some; congruence).
  rewrite Forall_forall in F. rewrite <- (F _ (nth_In _ 1 I)). reflexivity.
Qed.
Lemma shape_lengths x y : same_shape x y -> map (@length (list R)) x = map (@length (list R)) y.
Proof.
  unfold same_shape. revert y. induction x as [|a x IH]; intros [|b y] SX; try discriminate SX; [reflexivity|]. cbn [map] in *. injection SX as S1 S2. f_equal; [|apply IH; exact S2]. rewrite <- (map_length (@length R) a), S1, map_length. reflexivity.
Qed.

(** What the fitters see of the two registrations. *)
Lemma unit_costs : forall others others' sv sv' b0 b0' ag ag' d u k h0 defs mods att targets ones lam reduce it0 solver h r
    h0' defs' mods' att' targets' ones' lam' it0' solver' h' r' sch it t1,
  0 < u -> exact_grad ag -> exact_grad ag' -> exact_solver sv -> exact_solver sv' ->
  problem_in_units d u k defs mods att targets defs' mods' att' targets' -> lam' * k = u * u * lam ->
  points_only (mod_manifold (start defs mods)) ->
  registration h0 defs mods att false ones [] lam [] reduce it0 solver = Ok (h, r) ->
  registration h0' defs' mods' att' false ones' [] lam' [] reduce it0' solver' = Ok (h', r') ->
  reduce = "sum" \/ reduce = "previous" \/ ~ known reduce -> 0 < t1 -> (0 < it)%nat ->
  (forall x, same_shape x (moments h r) -> is_ok (evaluate real_clock others sv b0 ag (with_moments h r x) r targets (scheme_name sch) it t1 [])) ->
  (forall x, same_shape x (moments h' r') -> is_ok (evaluate real_clock others' sv' b0' ag' (with_moments h' r' x) r' targets' (scheme_name sch) it t1 [])) ->
  moments h' r' = each (fun _ _ => times u) (moments h r) /\ same_shape (moments h' r') (moments h r) /\
  forall y, same_shape y (moments h r) ->
    fit_costs real_clock others' sv' b0' ag' h' r' targets' (scheme_name sch) it t1 (each (fun _ _ => times u) y) =
    multiplied (u * u) (fit_costs real_clock others sv b0 ag h r targets (scheme_name sch) it t1 y).
Proof.
  intros others others' sv sv' b0 b0' ag ag' d u k h0 defs mods att targets ones lam reduce it0 solver h r
    h0' defs' mods' att' targets' ones' lam' it0' solver' h' r' sch it t1 U EX EX' HS HS' PP EL PO E E' RR T1 IT OK OK'.
  pose proof (C110_initial_moments d u k _ _ _ _ targets _ _ _ _ _ _ _ _ _ _ _ targets' _ _ _ _ _ _ _ PP E E') as IM. set (g := mod_manifold (start defs mods)) in *.
  destruct (with_moments_filled _ _ _ _ _ _ _ _ _ _ _ (moments h r) E eq_refl) as (_ & _ & _ & _ & D). fold g in D.
  assert (LM : map (@length (list R)) (moments h r) = [length (factors u g)]) by (unfold moments; cbn [map]; rewrite map_length, factors_len, <- D, map_length; reflexivity).
  assert (SM : same_shape (moments h' r') (moments h r)) by (rewrite IM; apply scaled_shape).
  assert (PU : forall x, same_shape x (moments h r) -> each (scale_moments u g) x = each (fun _ _ => times u) x).
  { intros x SX. apply points_each; [exact PO|]. rewrite <- LM. apply shape_lengths. exact SX. }
  split; [rewrite IM; apply PU; reflexivity|]. split; [exact SM|]. intros y SY. rewrite <- (PU y SY).
  apply (C110_costs others others' sv sv' b0 b0' ag ag' d u k h0 defs mods att targets ones lam reduce it0 solver h r h0' defs' mods' att' targets' ones' lam' it0' solver' h' r' sch it t1 y); auto.
  apply OK'. unfold same_shape in *. transitivity (map (map (@length R)) y); [apply scaled_shape|]. rewrite SY. symmetry. exact SM.
Qed.

(** A whole fit of the moments of points by the optimizer "gd", in the other unit: as long as
    the costs reported stay at least 1 in both units, the same iterations, evaluations and
    success. *)
Theorem C110_gd_fit : forall others others' sv sv' b0 b0' ag ag' d u k h0 defs mods att targets ones lam reduce it0 solver h r
    h0' defs' mods' att' targets' ones' lam' it0' solver' h' r' sch it t1 conf fuel grad grad' callback callback' max_iter tol miniter s o,
  0 < u -> exact_grad ag -> exact_grad ag' -> exact_solver sv -> exact_solver sv' ->
  problem_in_units d u k defs mods att targets defs' mods' att' targets' -> lam' * k = u * u * lam ->
  points_only (mod_manifold (start defs mods)) ->
  registration h0 defs mods att false ones [] lam [] reduce it0 solver = Ok (h, r) ->
  registration h0' defs' mods' att' false ones' [] lam' [] reduce it0' solver' = Ok (h', r') ->
  reduce = "sum" \/ reduce = "previous" \/ ~ known reduce -> 0 < t1 -> (0 < it)%nat ->
  (forall x, same_shape x (moments h r) -> is_ok (evaluate real_clock others sv b0 ag (with_moments h r x) r targets (scheme_name sch) it t1 [])) ->
  (forall x, same_shape x (moments h' r') -> is_ok (evaluate real_clock others' sv' b0' ag' (with_moments h' r' x) r' targets' (scheme_name sch) it t1 [])) ->
  let f := fit_costs real_clock others sv b0 ag h r targets (scheme_name sch) it t1 in
  let f' := fit_costs real_clock others' sv' b0' ag' h' r' targets' (scheme_name sch) it t1 in
  exact_gradient (fun x => FitModel.total (f x)) grad (moments h r) -> exact_gradient (fun x => FitModel.total (f' x)) grad' (moments h' r') ->
  (forall lc, callback' (option_map (multiplied (u * u)) lc) = callback lc) ->
  length (groups conf) = 1%nat -> length (c_steps s) = 1%nat ->
  optimize (gd_strat conf fuel) f grad callback max_iter tol miniter (moments h r) s = Some o -> costs_above_one (u * u) o ->
  optimize (gd_strat conf fuel) f' grad' callback' max_iter tol miniter (moments h' r') s = Some (multiplied_outcome (u * u) (fun _ _ => times u) (fun s => s) o).
Proof.
  intros others others' sv sv' b0 b0' ag ag' d u k h0 defs mods att targets ones lam reduce it0 solver h r
    h0' defs' mods' att' targets' ones' lam' it0' solver' h' r' sch it t1 conf fuel grad grad' cb cb' max_iter tol mi s o U EX EX' HS HS' PP EL PO E E' RR T1 IT OK OK' f f' DF DF' HC LG LS RUN HB.
  destruct (unit_costs others others' sv sv' b0 b0' ag ag' d u k h0 defs mods att targets ones lam reduce it0 solver h r h0' defs' mods' att' targets' ones' lam' it0' solver' h' r' sch it t1
    U EX EX' HS HS' PP EL PO E E' RR T1 IT OK OK') as (IM & SM & FF). fold f f' in FF.
  assert (U0 : u <> 0) by lra.
  assert (DF2 : exact_gradient (fun x => FitModel.total (f' x)) grad' (moments h r)) by (intros x SX; apply DF'; unfold same_shape in *; congruence).
  pose proof (C104_gd_fit_multiplied (u * u) (fun _ => u) (fun _ _ => times u) (fun _ _ => times u) conf conf (moments h r) f f' grad grad' cb cb' fuel max_iter tol mi (moments h r) s o
    ltac:(nra) (fun _ => U0) (fun g i ts t _ _ => times_similarity (length t) u U0) (conj eq_refl (fun _ => conj eq_refl eq_refl)) LG FF DF DF2 HC eq_refl LS RUN HB) as K. cbv beta zeta in K.
  assert (W1 : forall q : nat, u * u / (u * u) = 1) by (intros _; field; exact U0).
  assert (P1 : forall z, placed_ctl (fun _ => u * u / (u * u)) z = z) by (intros [a b e]; unfold placed_ctl; cbn [c_steps c_count c_min]; rewrite (unit_steps _ a W1); reflexivity).
  rewrite <- IM, P1 in K. rewrite K. f_equal. unfold multiplied_outcome. rewrite P1. reflexivity.
Qed.
Print Assumptions C110_gd_fit.

Lemma valley_total K b : FitModel.total [("deformation", Fin (b * b / 2)); ("attach", Fin (2 * (b - K) ^ 2))] = Fin (b * b / 2 + 2 * (b - K) ^ 2).
Proof. unfold FitModel.total. cbn. f_equal. ring. Qed.

(** One iteration of "gd", with step length 1 / 10, from moments 1: accepted, the costs stay
    above 1. *)
Definition tenth : gd_conf := mkConf (1 / 10) (1 / 2) (3 / 2) [mkGroup None None None].
Example C110_gd_fit_case : forall b0, exists o,
  optimize (gd_strat tenth 1) (fit_costs real_clock no_others exact_sv b0 std_ag (fst base_state) (snd base_state) [[goal0]] "euler" 1 1) (valley_grad 6) (fun _ => None) 1 None 0
    (moments (fst base_state) (snd base_state)) (ctl_reset tenth) = Some o /\ costs_above_one (2 * 2) o /\ length (groups tenth) = 1%nat /\ length (c_steps (ctl_reset tenth)) = 1%nat /\
  (exists r, o_res o = Ok r /\ r_success r = false) /\ length (o_evals o) = 2%nat.
Proof.
  intros b0. destruct (units_case b0 goal0 eq_refl) as (_ & _ & _ & C1 & _ & M1 & _). rewrite M1.
  set (f := fit_costs _ _ _ _ _ _ _ _ _ _ _) in *. clearbody f.
  assert (T : forall b, FitModel.total (f [[[b]]]) = Fin (b * b / 2 + 2 * (b - 6) ^ 2)) by (intros b; rewrite C1, valley_total; do 4 f_equal; cbn; lra).
  unfold optimize, gd_strat. cbn [optimize_loop run gd_tries ctl_reset gd_reset tenth groups map g_step init_step c_count c_min c_steps].
  change (move [1 / 10] [[[1]]] (valley_grad 6 [[[1]]])) with [[[1 - 1 / 10 * (1 + 4 * (1 - 6))]]]. rewrite !T. cbn [flt isfinite]. set (z := 1 - 1 / 10 * (1 + 4 * (1 - 6))).
  assert (Z : z = 29 / 10) by (unfold z; lra). replace (Rltb _ _) with true by (symmetry; apply Rltb_true; rewrite Z; lra). cbn [andb run Nat.eqb]. unfold last_costs. cbn [rev app]. rewrite T. cbn [isnan].
  replace (fle (fdiv (fsub PInf (Fin (z * z / 2 + 2 * (z - 6) ^ 2))) (fmax (fmax (Fin (z * z / 2 + 2 * (z - 6) ^ 2)) PInf) (Fin 1))) (Fin (/ 10 ^ 10))) with false by reflexivity. cbn [andb option_map].
  eexists. split; [reflexivity|]. split; [|split; [reflexivity|split; [reflexivity|split; [eexists; split; reflexivity|reflexivity]]]].
  intros cs a [Q|[]] TC. injection Q as <-. rewrite T in TC. injection TC as <-. rewrite Z. lra.
Qed.

Definition three_steps (f : params -> FitModel.costs) (a : R) := optimize (sgd_strat [1 / 10]) f (valley_grad 0) (fun _ => None) 3 (Some (1 / 2)) 0 [[[a]]] tt.
(** Three iterations of torch.optim.SGD for the costs b^2 / 2 + 2 b^2: the moments are halved
    each time. *)
Lemma three_run f a : (forall b, FitModel.total (f [[[b]]]) = Fin (5 / 2 * (b * b))) ->
  stop (1 / 2) (Fin (5 / 2 * (a * a))) (Fin (5 / 2 * (a / 2 * (a / 2)))) = false ->
  exists o, three_steps f a = Some o /\ o_left o = [[[a / 2 / 2 / 2]]] /\
    o_res o = Ok (mkRes (stop (1 / 2) (Fin (5 / 2 * (a / 2 * (a / 2)))) (Fin (5 / 2 * (a / 2 / 2 * (a / 2 / 2))))) (Fin (5 / 2 * (a / 2 / 2 * (a / 2 / 2)))) (Fin 3)).
Proof.
  intros T ST. assert (M : forall b, move [1 / 10] [[[b]]] (valley_grad 0 [[[b]]]) = [[[b / 2]]]) by (intros b; cbn; do 3 f_equal; field).
  unfold three_steps, optimize. cbn [optimize_loop run sgd_strat]. unfold last_costs. cbn [rev app]. rewrite !M, !T. cbn [isnan].
  replace (fle (fdiv (fsub PInf (Fin (5 / 2 * (a * a)))) (fmax (fmax (Fin (5 / 2 * (a * a))) PInf) (Fin 1))) (Fin (1 / 2))) with false by reflexivity. cbn [andb].
  unfold stop in ST. rewrite ST. cbn [andb]. fold (stop (1 / 2) (Fin (5 / 2 * (a / 2 * (a / 2)))) (Fin (5 / 2 * (a / 2 / 2 * (a / 2 / 2))))).
  destruct (stop (1 / 2) (Fin (5 / 2 * (a / 2 * (a / 2)))) (Fin (5 / 2 * (a / 2 / 2 * (a / 2 / 2))))); cbn [andb Nat.leb option_map]; eexists; (split; [reflexivity|]); cbn [o_left o_res before]; (split; [reflexivity|]); do 3 f_equal; cbn; lra.
Qed.
Lemma stop_at x y m : 0 < m -> fmax (fmax (Fin y) (Fin x)) (Fin 1) = Fin m -> stop (1 / 2) (Fin x) (Fin y) = true <-> x - y <= m / 2.
Proof.
  intros P H. unfold stop. rewrite H. unfold fsub. cbn [fneg fadd fdiv]. rewrite fle_fin. split; intros K.
  - apply (Rmult_le_compat_r m) in K; [|lra]. unfold Rdiv in K at 1. rewrite Rmult_assoc, Rinv_l in K by lra. lra.
  - apply (Rmult_le_reg_r m); [exact P|]. unfold Rdiv at 1. rewrite Rmult_assoc, Rinv_l by lra. lra.
Qed.

(** The stopping test is not the same in all units: the same registration, the same options
    (torch.optim.SGD, learning rate 1 / 10, tolerance 1 / 2, three iterations), the weight
    converted; the moments left correspond, and the fit is a success in the first unit only. *)
Theorem C110_stopping_refuted : forall b0, exists h r h' r' o o' res res',
  let f := fit_costs real_clock no_others exact_sv b0 std_ag h r [[one11]] "euler" 1 1 in
  let f' := fit_costs real_clock no_others exact_sv b0 std_ag h' r' [[goal2 one11]] "euler" 1 1 in
  problem_in_units 1 2 4 [pt1] [gt1] [sq] [[one11]] [pt2] [gt1] [sq] [[goal2 one11]] /\
  registration (mkHeap [] []) [pt1] [gt1] [sq] false false [] 2 [] "sum" None None = Ok (h, r) /\
  registration (mkHeap [] []) [pt2] [gt1] [sq] false false [] 2 [] "sum" None None = Ok (h', r') /\ 2 * 4 = 2 * 2 * 2 /\
  exact_gradient (fun x => FitModel.total (f x)) (valley_grad 0) (moments h r) /\ exact_gradient (fun x => FitModel.total (f' x)) (valley_grad 0) (moments h' r') /\
  optimize (sgd_strat [1 / 10]) f (valley_grad 0) (fun _ => None) 3 (Some (1 / 2)) 0 (moments h r) tt = Some o /\
  optimize (sgd_strat [1 / 10]) f' (valley_grad 0) (fun _ => None) 3 (Some (1 / 2)) 0 (moments h' r') tt = Some o' /\
  o_left o' = each (fun _ _ => times 2) (o_left o) /\ o_res o = Ok res /\ o_res o' = Ok res' /\ r_success res = true /\ r_success res' = false.
Proof.
  intros b0. destruct (units_case b0 one11 eq_refl) as (PP & _ & _ & C1 & C2 & M1 & M2).
  assert (G : one11 @2 0%nat 0%nat = 1) by reflexivity. rewrite G in *.
  assert (C1' : forall a, fit_costs real_clock no_others exact_sv b0 std_ag (fst base_state) (snd base_state) [[one11]] "euler" 1 1 [[[a]]] = [("deformation", Fin (a * a / 2)); ("attach", Fin (2 * (a - 0) ^ 2))]) by (intros a; rewrite C1; do 6 f_equal; lra).
  assert (C2' : forall a, fit_costs real_clock no_others exact_sv b0 std_ag (fst fine_state) (snd fine_state) [[goal2 one11]] "euler" 1 1 [[[a]]] = [("deformation", Fin (a * a / 2)); ("attach", Fin (2 * (a - 0) ^ 2))]) by (intros a; rewrite C2; do 6 f_equal; lra).
  assert (F1 : fmax (fmax (Fin (5 / 2 * (1 / 2 * (1 / 2)))) (Fin (5 / 2 * (1 * 1)))) (Fin 1) = Fin (5 / 2 * (1 * 1))).
  { unfold fmax. cbn. replace (Rltb (5 / 2 * (1 / 2 * (1 / 2))) (5 / 2 * (1 * 1))) with true by (symmetry; apply Rltb_true; lra). cbn. replace (Rltb (5 / 2 * (1 * 1)) 1) with false by (symmetry; apply Rltb_false; lra). reflexivity. }
  assert (F2 : fmax (fmax (Fin (5 / 2 * (1 / 2 / 2 * (1 / 2 / 2)))) (Fin (5 / 2 * (1 / 2 * (1 / 2))))) (Fin 1) = Fin 1).
  { unfold fmax. cbn. replace (Rltb (5 / 2 * (1 / 2 / 2 * (1 / 2 / 2))) (5 / 2 * (1 / 2 * (1 / 2)))) with true by (symmetry; apply Rltb_true; lra). cbn. replace (Rltb (5 / 2 * (1 / 2 * (1 / 2))) 1) with true by (symmetry; apply Rltb_true; lra). reflexivity. }
  assert (F3 : fmax (fmax (Fin (5 / 2 * (2 / 2 * (2 / 2)))) (Fin (5 / 2 * (2 * 2)))) (Fin 1) = Fin (5 / 2 * (2 * 2))).
  { unfold fmax. cbn. replace (Rltb (5 / 2 * (2 / 2 * (2 / 2))) (5 / 2 * (2 * 2))) with true by (symmetry; apply Rltb_true; lra). cbn. replace (Rltb (5 / 2 * (2 * 2)) 1) with false by (symmetry; apply Rltb_false; lra). reflexivity. }
  assert (F4 : fmax (fmax (Fin (5 / 2 * (2 / 2 / 2 * (2 / 2 / 2)))) (Fin (5 / 2 * (2 / 2 * (2 / 2))))) (Fin 1) = Fin (5 / 2 * (2 / 2 * (2 / 2)))).
  { unfold fmax. cbn. replace (Rltb (5 / 2 * (2 / 2 / 2 * (2 / 2 / 2))) (5 / 2 * (2 / 2 * (2 / 2)))) with true by (symmetry; apply Rltb_true; lra). cbn. replace (Rltb (5 / 2 * (2 / 2 * (2 / 2))) 1) with false by (symmetry; apply Rltb_false; lra). reflexivity. }
  assert (T1 : forall b, FitModel.total (fit_costs real_clock no_others exact_sv b0 std_ag (fst base_state) (snd base_state) [[one11]] "euler" 1 1 [[[b]]]) = Fin (5 / 2 * (b * b))) by (intros b; rewrite C1', valley_total; f_equal; field).
  assert (T2 : forall b, FitModel.total (fit_costs real_clock no_others exact_sv b0 std_ag (fst fine_state) (snd fine_state) [[goal2 one11]] "euler" 1 1 [[[b]]]) = Fin (5 / 2 * (b * b))) by (intros b; rewrite C2', valley_total; f_equal; field).
  destruct (three_run _ 1 T1) as (o & R1 & L1 & E1); [apply not_true_is_false; intros X; apply (stop_at _ _ (5 / 2 * (1 * 1)) ltac:(lra) F1) in X; lra|].
  destruct (three_run _ 2 T2) as (o' & R2 & L2 & E2); [apply not_true_is_false; intros X; apply (stop_at _ _ (5 / 2 * (2 * 2)) ltac:(lra) F3) in X; lra|].
  eexists (fst base_state), (snd base_state), (fst fine_state), (snd fine_state), o, o', _, _. cbv zeta. rewrite M1, M2.
  split; [exact PP|]. split; [reflexivity|]. split; [reflexivity|]. split; [lra|]. split; [apply (valley_exact _ 0 1 C1')|]. split; [apply (valley_exact _ 0 2 C2')|]. split; [exact R1|]. split; [exact R2|].
  split; [rewrite L1, L2; cbn; do 3 f_equal; field|]. split; [exact E1|]. split; [exact E2|]. cbn [r_success]. split.
  - apply (stop_at _ _ 1 ltac:(lra) F2). lra.
  - apply not_true_is_false. intros X. apply (stop_at _ _ (5 / 2 * (2 / 2 * (2 / 2))) ltac:(lra) F4) in X. lra.
Qed.
Print Assumptions C110_stopping_refuted.
