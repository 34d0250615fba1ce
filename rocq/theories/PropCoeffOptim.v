(** Whole fits of a registration with all coefficients and lam multiplied by a number (C117). *)
From Coq Require Import Reals String List Arith ZArith Lia Lra.
From Verif Require Import Py RSum Tensor TensorFacts Fl OptimModel FitModel SpecOptim SpecGeometry SpecRigid SpecSimilar SimilarFacts PropSimilar SpecRescale RescaleFacts PropRescale
  KernelModel FieldModel MeshModel AttachmentModel GeometryModel ModuleModel ShootingModel RegistrationModel
  SpecModule SpecShooting SpecRegistration SpecReduce SpecElsewhere SpecFitElsewhere SpecUnitsReg SpecFitUnits ShootingExample SolverExists MotionExample
  PropRegistration PropElsewhere FitElsewhere PropFitElsewhere FitUnits PropFitUnits SpecCoeff PropCoeffReg SpecCoeffFit PropCoeffFit.
From Verif Require Import SpecSimilar.
Import ListNotations.
Open Scope string_scope.
Open Scope list_scope.
Open Scope R_scope.

Definition longer (k : R) (s : gd_ctl) : gd_ctl := mkCtl (map (Rmult k) (c_steps s)) (c_count s) (c_min s).
Lemma longer_placed k s : k <> 0 -> placed_ctl (fun _ => k * k / k) s = longer k s.
Proof. intros K. unfold placed_ctl, longer. f_equal. unfold rescaled. apply mapi_const. intros i a _. f_equal. field. exact K. Qed.

(** Fitting with gd: as long as the total costs reported are at least 1 in both problems (the
    stopping criterion compares with 1), the whole fit is the same: the same success and number
    of evaluations, moments k times as large, costs multiplied by k at each iteration. *)
Theorem C117_gd_fit : forall others others' sv sv' b0 b0' ag ag' d k h0 defs mods att targets ones lam reduce it0 solver h r
    h0' defs' mods' att' targets' ones' it0' solver' h' r' sch it t1 conf fuel grad grad' callback callback' max_iter tol miniter s o,
  0 < k -> exact_grad ag -> exact_grad ag' -> exact_solver sv -> exact_solver sv' ->
  problem_dearer d k defs mods att targets defs' mods' att' targets' ->
  registration h0 defs mods att false ones [] lam [] reduce it0 solver = Ok (h, r) ->
  registration h0' defs' mods' att' false ones' [] (k * lam) [] reduce it0' solver' = Ok (h', r') ->
  reduce = "sum" \/ reduce = "previous" \/ ~ known reduce -> 0 < t1 -> (0 < it)%nat ->
  (forall x, same_shape x (moments h r) -> is_ok (evaluate real_clock others sv b0 ag (with_moments h r x) r targets (scheme_name sch) it t1 [])) ->
  (forall x, same_shape x (moments h' r') -> is_ok (evaluate real_clock others' sv' b0' ag' (with_moments h' r' x) r' targets' (scheme_name sch) it t1 [])) ->
  let f := fit_costs real_clock others sv b0 ag h r targets (scheme_name sch) it t1 in
  let f' := fit_costs real_clock others' sv' b0' ag' h' r' targets' (scheme_name sch) it t1 in
  exact_gradient (fun x => FitModel.total (f x)) grad (moments h r) -> exact_gradient (fun x => FitModel.total (f' x)) grad' (moments h' r') ->
  (forall lc, callback' (option_map (multiplied k) lc) = callback lc) ->
  length (groups conf) = 1%nat -> length (c_steps s) = 1%nat ->
  optimize (gd_strat conf fuel) f grad callback max_iter tol miniter (moments h r) s = Some o -> costs_above_one k o ->
  optimize (gd_strat conf fuel) f' grad' callback' max_iter tol miniter (moments h' r') (longer k s) = Some (multiplied_outcome k (dear_moments k) (longer k) o).
Proof.
  intros others others' sv sv' b0 b0' ag ag' d k h0 defs mods att targets ones lam reduce it0 solver h r
    h0' defs' mods' att' targets' ones' it0' solver' h' r' sch it t1 conf fuel grad grad' cb cb' max_iter tol mi s o K0 EX EX' HS HS' PP E E' RR T1 IT OK OK' f f' DF DF' HC LG LS RUN HB.
  pose proof (dear_same_shape d k h0 h0' defs defs' mods mods' att att' targets targets' ones ones' lam reduce it0 it0' solver solver' h h' r r' PP E E') as SM.
  pose proof (C117_initial_moments d k _ _ _ _ targets _ _ _ _ _ _ _ _ _ _ _ targets' _ _ _ _ _ _ _ PP E E') as IM.
  assert (FF : forall y, same_shape y (moments h r) -> f' (each (dear_moments k) y) = multiplied k (f y)).
  { intros y SY. apply (C117_costs others others' sv sv' b0 b0' ag ag' d k h0 defs mods att targets ones lam reduce it0 solver h r h0' defs' mods' att' targets' ones' it0' solver' h' r' sch it t1 y); auto.
    apply OK'. unfold same_shape in *. transitivity (map (map (@length R)) y); [apply dear_shape|]. congruence. }
  assert (DF2 : exact_gradient (fun x => FitModel.total (f' x)) grad' (moments h r)) by (intros y SY; apply DF'; unfold same_shape in *; congruence).
  assert (KN : k <> 0) by lra.
  pose proof (C104_gd_fit_multiplied k (fun _ => k) (dear_moments k) (dear_moments k) conf conf (moments h r) f f' grad grad' cb cb' fuel max_iter tol mi (moments h r) s o
    K0 (fun _ => KN) (fun _ _ _ _ _ _ => times_similarity _ k KN) (conj eq_refl (fun _ => conj eq_refl eq_refl)) LG FF DF DF2 HC eq_refl LS RUN HB) as Z. cbv beta zeta in Z.
  rewrite <- IM, (longer_placed k s KN) in Z. rewrite Z. unfold multiplied_outcome. rewrite (longer_placed k _ KN). reflexivity.
Qed.
Print Assumptions C117_gd_fit.

(** The same for torch.optim.SGD without momentum, with the learning rate multiplied by k. *)
Theorem C117_sgd_fit : forall others others' sv sv' b0 b0' ag ag' d k h0 defs mods att targets ones lam reduce it0 solver h r
    h0' defs' mods' att' targets' ones' it0' solver' h' r' sch it t1 lr grad grad' callback callback' max_iter tol miniter o,
  0 < k -> exact_grad ag -> exact_grad ag' -> exact_solver sv -> exact_solver sv' ->
  problem_dearer d k defs mods att targets defs' mods' att' targets' ->
  registration h0 defs mods att false ones [] lam [] reduce it0 solver = Ok (h, r) ->
  registration h0' defs' mods' att' false ones' [] (k * lam) [] reduce it0' solver' = Ok (h', r') ->
  reduce = "sum" \/ reduce = "previous" \/ ~ known reduce -> 0 < t1 -> (0 < it)%nat ->
  (forall x, same_shape x (moments h r) -> is_ok (evaluate real_clock others sv b0 ag (with_moments h r x) r targets (scheme_name sch) it t1 [])) ->
  (forall x, same_shape x (moments h' r') -> is_ok (evaluate real_clock others' sv' b0' ag' (with_moments h' r' x) r' targets' (scheme_name sch) it t1 [])) ->
  let f := fit_costs real_clock others sv b0 ag h r targets (scheme_name sch) it t1 in
  let f' := fit_costs real_clock others' sv' b0' ag' h' r' targets' (scheme_name sch) it t1 in
  exact_gradient (fun x => FitModel.total (f x)) grad (moments h r) -> exact_gradient (fun x => FitModel.total (f' x)) grad' (moments h' r') ->
  (forall lc, callback' (option_map (multiplied k) lc) = callback lc) ->
  optimize (sgd_strat [lr]) f grad callback max_iter tol miniter (moments h r) tt = Some o -> costs_above_one k o ->
  optimize (sgd_strat [k * lr]) f' grad' callback' max_iter tol miniter (moments h' r') tt = Some (multiplied_outcome k (dear_moments k) (fun u => u) o).
Proof.
  intros others others' sv sv' b0 b0' ag ag' d k h0 defs mods att targets ones lam reduce it0 solver h r
    h0' defs' mods' att' targets' ones' it0' solver' h' r' sch it t1 lr grad grad' cb cb' max_iter tol mi o K0 EX EX' HS HS' PP E E' RR T1 IT OK OK' f f' DF DF' HC RUN HB.
  pose proof (dear_same_shape d k h0 h0' defs defs' mods mods' att att' targets targets' ones ones' lam reduce it0 it0' solver solver' h h' r r' PP E E') as SM.
  pose proof (C117_initial_moments d k _ _ _ _ targets _ _ _ _ _ _ _ _ _ _ _ targets' _ _ _ _ _ _ _ PP E E') as IM.
  assert (FF : forall y, same_shape y (moments h r) -> f' (each (dear_moments k) y) = multiplied k (f y)).
  { intros y SY. apply (C117_costs others others' sv sv' b0 b0' ag ag' d k h0 defs mods att targets ones lam reduce it0 solver h r h0' defs' mods' att' targets' ones' it0' solver' h' r' sch it t1 y); auto.
    apply OK'. unfold same_shape in *. transitivity (map (map (@length R)) y); [apply dear_shape|]. congruence. }
  assert (DF2 : exact_gradient (fun x => FitModel.total (f' x)) grad' (moments h r)) by (intros y SY; apply DF'; unfold same_shape in *; congruence).
  assert (KN : k <> 0) by lra.
  pose proof (C104_sgd_fit_multiplied k (fun _ => k) (dear_moments k) (dear_moments k) (moments h r) f f' grad grad' cb cb' [lr] max_iter tol mi (moments h r) o
    K0 (fun _ => KN) (fun _ _ _ _ _ _ => times_similarity _ k KN) FF DF DF2 HC eq_refl eq_refl RUN HB) as Z. cbv beta zeta in Z.
  assert (W : rescaled (fun _ => k * k / k) [lr] = [k * lr]) by (unfold rescaled; cbn [mapi]; do 2 f_equal; field; exact KN). rewrite <- IM, W in Z. exact Z.
Qed.
Print Assumptions C117_sgd_fit.

(** The problem of C117_hypotheses, one iteration with learning rate 1/10. *)
Example C117_fit_case : forall b0, exists o,
  optimize (sgd_strat [1 / 10]) (fit_costs real_clock no_others exact_sv b0 std_ag (fst base_state) (snd base_state) [[goal0]] "euler" 1 1) (bowl_grad (1 / 2) 2 6) (fun _ => None) 1 None 0
    (moments (fst base_state) (snd base_state)) tt = Some o /\ costs_above_one 3 o /\ (0 < length (o_calls o))%nat /\
  optimize (sgd_strat [3 * (1 / 10)]) (fit_costs real_clock no_others exact_sv b0 std_ag (fst costly_state) (snd costly_state) [[goal0]] "euler" 1 1) (bowl_grad (1 / 6) (2 / 3) 18) (fun _ => None) 1 None 0
    (moments (fst costly_state) (snd costly_state)) tt = Some (multiplied_outcome 3 (dear_moments 3) (fun u => u) o).
Proof.
  intros b0. destruct (C117_hypotheses b0) as (H1 & H2 & SE & HS & PP & V1 & V2 & G & G' & T & T' & M & M').
  set (f := fit_costs real_clock no_others exact_sv b0 std_ag (fst base_state) (snd base_state) [[goal0]] "euler" 1 1) in *.
  assert (X : exists o, optimize (sgd_strat [1 / 10]) f (bowl_grad (1 / 2) 2 6) (fun _ => None) 1 None 0 [[[1]]] tt = Some o /\ costs_above_one 3 o /\ (0 < length (o_calls o))%nat).
  { clearbody f. assert (MV : move [1 / 10] [[[1]]] (bowl_grad (1 / 2) 2 6 [[[1]]]) = [[[1 - 1 / 10 * (2 * (1 / 2) * 1 + 2 * 2 * (1 - 6))]]]) by reflexivity.
    assert (I0 : forall b tl, fle (fdiv (fsub PInf (Fin b)) (fmax (fmax (Fin b) PInf) (Fin 1))) (Fin tl) = false) by reflexivity.
    eexists. split; [|split].
    - unfold optimize. cbn [optimize_loop run sgd_strat last_costs rev app]. rewrite !MV, !T. cbn [isnan]. rewrite ?I0. cbn [andb option_map]. reflexivity.
    - intros cs a I TT. cbn in I. destruct I as [I|[]]. injection I as <-. rewrite T in TT. injection TT as <-. lra.
    - cbn. lia. }
  destruct X as (o & O & A & L). exists o. rewrite M. split; [exact O|]. split; [exact A|]. split; [exact L|]. rewrite <- M in O.
  assert (N1 : registration (mkHeap [] []) [pt1] [gt1] [sq] false false [] 2 [] "sum" None None = Ok (fst base_state, snd base_state)) by exact H1.
  assert (N2 : registration (mkHeap [] []) [pt3] [gt3] [sq] false false [] (3 * 2) [] "sum" None None = Ok (fst costly_state, snd costly_state)) by exact H2.
  exact (C117_sgd_fit no_others no_others exact_sv exact_sv b0 b0 std_ag std_ag 1 3 _ _ _ _ _ _ _ _ _ _ _ _ _ _ _ _ _ _ _ _ _ _ SEuler 1 1 (1 / 10) _ _ (fun _ => None) (fun _ => None) 1 None 0 o
    ltac:(lra) SE SE HS HS PP N1 N2 (or_introl eq_refl) ltac:(lra) ltac:(lia) V1 V2 G G' (fun _ => eq_refl) O A).
Qed.
