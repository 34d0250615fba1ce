(** Fitting a registration with all coefficients and lam multiplied by a number (C117). *)
From Coq Require Import Reals String List Arith ZArith Lia Lra.
From Verif Require Import Py RSum Tensor TensorFacts Fl OptimModel FitModel SpecOptim SpecGeometry SpecRigid SpecSimilar SimilarFacts PropSimilar
  KernelModel FieldModel MeshModel AttachmentModel GeometryModel ModuleModel ShootingModel RegistrationModel
  SpecKernel SpecModule SpecShooting SpecRegistration SpecTransport SpecSmooth SpecReduce SpecElsewhere SpecFitElsewhere SpecUnits SpecUnitsReg SpecFitUnits
  ModuleMain ModuleLeaves ShootingDyn ShootingPack ShootingExample RigidShoot DiffBuild SmoothRun SolverExists MotionExample PropAttachment RegistrationRun RegistrationLife RegistrationParams RegistrationShoot PropRegistration
  ShootingFinal TransportFacts ReduceFacts PropReduce PropRigid PropSmooth ReverseShoot PropReverse ElsewhereFacts PropElsewhere FitElsewhere PropFitElsewhere UnitsShoot UnitsReg PropUnitsReg FitUnits PropFitUnits
  SpecScale ScaleFacts PropUnits SpecCoeff CoeffFacts PropCoeff PropCoeffReg SpecCoeffFit.
From Verif Require Import SpecSimilar.
Import ListNotations.
Open Scope string_scope.
Open Scope list_scope.
Open Scope R_scope.

Lemma dear_shape k x : same_shape (each (dear_moments k) x) x.
Proof. apply (at_shape (dear_moments k) x 0%nat). intros. unfold dear_moments. apply times_len. Qed.
Lemma dear_group k xs : each (dear_moments k) [xs] = [map (times k) xs].
Proof. unfold each. cbn [mapi]. f_equal. apply mapi_const. reflexivity. Qed.
Lemma times_tensors k cs : forall cs' xs, map shape cs' = map shape cs -> map (@length R) xs = map (fun t => prod (shape t)) cs ->
  leq (map (fun p => of_entries (shape (fst p)) (snd p)) (combine cs' (map (times k) xs))) (map (tscal k) (map (fun p => of_entries (shape (fst p)) (snd p)) (combine cs xs))).
Proof.
  induction cs as [|t cs IH]; intros [|t' cs'] [|x xs] S L; try discriminate S; try discriminate L; [constructor|]. cbn [map] in S, L. injection S as S1 S2. injection L as L1 L2. cbn [combine map fst snd].
  constructor; [rewrite S1; apply of_times; exact L1|apply IH; assumption].
Qed.
Lemma refilled_price k defs mods defs' mods' vs vs' dx mx dx' mx' : at_price k (start defs mods) (start defs' mods') ->
  refilled defs mods vs dx mx -> refilled defs' mods' vs' dx' mx' -> leq vs' (map (tscal k) vs) -> at_price k (start dx mx) (start dx' mx').
Proof.
  intros AP (ST & (K & G) & C & _) (ST' & (K' & G') & C' & _) LE. destruct (price_set k _ _ AP) as (((_ & A) & _) & _ & KM). destruct AP as (g & ES & _).
  exists (mod_manifold (start dx' mx')). split.
  - rewrite (set_set _ _ _ _ ES) in ST'. rewrite dear_set in ST' |- *. rewrite (set_set _ _ _ _ ST). exact ST'.
  - assert (SK : skel (mod_manifold (start dx' mx')) = skel (quickened k (mod_manifold (start dx mx)))) by (rewrite quick_skel; congruence).
    rewrite quick_gd in A. split; split; try exact SK; [rewrite G', quick_gd, G; exact A|rewrite C', quick_cotan, C; exact LE].
Qed.

(** The initial moments of the two models. *)
Theorem C117_initial_moments : forall d k h0 defs mods att targets ones lam reduce it0 solver h r h0' defs' mods' att' targets' ones' lam' reduce' it0' solver' h' r',
  problem_dearer d k defs mods att targets defs' mods' att' targets' ->
  registration h0 defs mods att false ones [] lam [] reduce it0 solver = Ok (h, r) ->
  registration h0' defs' mods' att' false ones' [] lam' [] reduce' it0' solver' = Ok (h', r') ->
  moments h' r' = each (dear_moments k) (moments h r).
Proof.
  intros d k h0 defs mods att targets ones lam reduce it0 solver h r h0' defs' mods' att' targets' ones' lam' reduce' it0' solver' h' r' PP E E'.
  destruct (with_moments_filled _ _ _ _ _ _ _ _ _ _ _ (moments h r) E eq_refl) as (_ & _ & _ & _ & D).
  destruct (with_moments_filled _ _ _ _ _ _ _ _ _ _ _ (moments h' r') E' eq_refl) as (_ & _ & _ & _ & D').
  destruct (price_set k _ _ (pd_price _ _ _ _ _ _ _ _ _ _ PP)) as ((_ & (_ & B)) & _). rewrite quick_cotan in B. rewrite <- D, <- D' in B. clear - B.
  unfold moments. rewrite dear_group. f_equal. rewrite <- (map_map (deref h') entries), <- (map_map (deref h) entries). revert B. generalize (map (deref h') (init_cotan r')), (map (deref h) (init_cotan r)).
  induction l as [|t' l IH]; intros [|t l0] B; inversion B as [|? ? ? ? T B1]; subst; [reflexivity|]. cbn [map]. rewrite <- entries_scal, (entries_teq _ _ T), (IH _ B1). reflexivity.
Qed.
Print Assumptions C117_initial_moments.

(** With lam multiplied too, whatever the moments, the costs seen by the fitter are
    multiplied by k. *)
Theorem C117_costs : forall others others' sv sv' b0 b0' ag ag' d k h0 defs mods att targets ones lam reduce it0 solver h r
    h0' defs' mods' att' targets' ones' it0' solver' h' r' sch it t1 x,
  0 < k -> exact_grad ag -> exact_grad ag' -> exact_solver sv -> exact_solver sv' ->
  problem_dearer d k defs mods att targets defs' mods' att' targets' ->
  registration h0 defs mods att false ones [] lam [] reduce it0 solver = Ok (h, r) ->
  registration h0' defs' mods' att' false ones' [] (k * lam) [] reduce it0' solver' = Ok (h', r') ->
  reduce = "sum" \/ reduce = "previous" \/ ~ known reduce -> 0 < t1 -> (0 < it)%nat ->
  let x' := each (dear_moments k) x in
  same_shape x (moments h r) ->
  is_ok (evaluate real_clock others sv b0 ag (with_moments h r x) r targets (scheme_name sch) it t1 []) ->
  is_ok (evaluate real_clock others' sv' b0' ag' (with_moments h' r' x') r' targets' (scheme_name sch) it t1 []) ->
  fit_costs real_clock others' sv' b0' ag' h' r' targets' (scheme_name sch) it t1 x' =
  scale_costs k (fit_costs real_clock others sv b0 ag h r targets (scheme_name sch) it t1 x).
Proof.
  intros others others' sv sv' b0 b0' ag ag' d k h0 defs mods att targets ones lam reduce it0 solver h r
    h0' defs' mods' att' targets' ones' it0' solver' h' r' sch it t1 x K0 EX EX' HS HS' PP E E' RR T1 IT x' SX ((cost & r1) & V) ((cost' & r1') & V').
  pose proof (C117_initial_moments d k _ _ _ _ targets _ _ _ _ _ _ _ _ _ _ _ targets' _ _ _ _ _ _ _ PP E E') as IM.
  pose proof PP as [(W & W') (LS & LS') (SH & SH') P TW AP AE].
  assert (SX' : same_shape x' (moments h' r')).
  { rewrite IM. unfold same_shape in *. unfold x'. transitivity (map (map (@length R)) x); [apply dear_shape|]. rewrite SX. symmetry. apply dear_shape. }
  destruct (refilled_model d _ _ _ _ _ _ _ _ _ _ _ _ W LS SH E SX) as (dx & mx & F & RF & D & L & WX & LX & SHX).
  destruct (refilled_model d _ _ _ _ _ _ _ _ _ _ _ _ W' LS' SH' E' SX') as (dx' & mx' & F' & RF' & D' & L' & WX' & LX' & SHX').
  destruct (registration_ok h0 defs mods att false ones [] lam [] reduce it0 solver h r (NoDup_nil _) E) as (_ & _ & _ & _ & RA & RLm & RRd & _ & RFC & _).
  destruct (registration_ok h0' defs' mods' att' false ones' [] (k * lam) [] reduce it0' solver' h' r' (NoDup_nil _) E') as (_ & _ & _ & _ & RA' & RLm' & RRd' & _ & RFC' & _).
  assert (APX : at_price k (start dx mx) (start dx' mx')).
  { refine (refilled_price k defs mods defs' mods' _ _ dx mx dx' mx' AP RF RF' _).
    destruct (one_group h r x SX) as (xs & Ex & LXS). unfold x' in *. subst x. rewrite dear_group. cbn [List.concat]. rewrite !app_nil_r.
    apply times_tensors; [exact (proj2 (price_shapes k _ _ AP))|]. rewrite LXS. rewrite <- (map_map (deref h) (fun t => prod (shape t))), D. reflexivity. }
  assert (EC : cost' = times_costs k cost).
  { refine (C116_registration others others' sv sv' b0 b0' ag ag' (with_moments h r x) (with_moments h' r' x') r r' targets targets' sch it t1 cost cost' r1 r1' d k dx mx dx' mx'
      K0 EX EX' HS HS' F F' RFC RFC' _ _ _ _ WX (smooth_total d _ LX) _ SHX T1 IT APX _ V V'); [congruence|congruence|rewrite RRd; exact RR| | |].
    - exact (frozen_priced _ _ (set_frozen _ _ _ (proj1 RF)) P).
    - exact (twin_set d delta still _ _ _ _ _ _ TW (proj1 RF) (proj1 RF)).
    - rewrite RA, RA'. exact (attached_units_refilled 1 1 _ _ _ _ _ _ AE dx dx' (proj2 (proj2 (proj2 RF))) (proj2 (proj2 (proj2 RF')))). }
  unfold fit_costs. rewrite V, V', EC. unfold scale_costs, times_costs. rewrite !map_map. reflexivity.
Qed.
Print Assumptions C117_costs.

Section Fitted.
Variables (others others' : string -> option (list (time real_clock) -> tensor -> strat (time real_clock))) (sv sv' : solver) (b0 b0' : backend) (ag ag' : autograd) (d : nat) (k : R)
  (h0 h0' : heap) (defs defs' : list deformable) (mods mods' : list dmod) (att att' : list attachment) (targets targets' : list geom) (ones ones' : bool) (lam : R) (reduce : string)
  (it0 it0' : option nat) (solver solver' : option string) (h h' : heap) (r r' : reg) (sch : scheme) (it : nat) (t1 : R).
Hypothesis (K0 : 0 < k) (EX : exact_grad ag) (EX' : exact_grad ag') (HS : exact_solver sv) (HS' : exact_solver sv') (PP : problem_dearer d k defs mods att targets defs' mods' att' targets')
  (E : registration h0 defs mods att false ones [] lam [] reduce it0 solver = Ok (h, r)) (E' : registration h0' defs' mods' att' false ones' [] (k * lam) [] reduce it0' solver' = Ok (h', r'))
  (RR : reduce = "sum" \/ reduce = "previous" \/ ~ known reduce) (T1 : 0 < t1) (IT : (0 < it)%nat)
  (OK : forall x, same_shape x (moments h r) -> is_ok (evaluate real_clock others sv b0 ag (with_moments h r x) r targets (scheme_name sch) it t1 []))
  (OK' : forall x, same_shape x (moments h' r') -> is_ok (evaluate real_clock others' sv' b0' ag' (with_moments h' r' x) r' targets' (scheme_name sch) it t1 [])).
Notation f := (fun x => FitModel.total (fit_costs real_clock others sv b0 ag h r targets (scheme_name sch) it t1 x)).
Notation f' := (fun x => FitModel.total (fit_costs real_clock others' sv' b0' ag' h' r' targets' (scheme_name sch) it t1 x)).

Lemma dear_same_shape : same_shape (moments h' r') (moments h r).
Proof. rewrite (C117_initial_moments d k _ _ _ _ targets _ _ _ _ _ _ _ _ _ _ _ targets' _ _ _ _ _ _ _ PP E E'). apply dear_shape. Qed.
Lemma dear_total_costs : forall y, same_shape y (moments h r) -> f' (each (dear_moments k) y) = fscale k (f y).
Proof.
  intros y SY. cbv beta. rewrite <- total_scaled. f_equal. apply (C117_costs others others' sv sv' b0 b0' ag ag' d k h0 defs mods att targets ones lam reduce it0 solver h r h0' defs' mods' att' targets' ones' it0' solver' h' r' sch it t1 y); auto.
  apply OK'. pose proof dear_same_shape as SM. unfold same_shape in *. transitivity (map (map (@length R)) y); [apply dear_shape|]. congruence.
Qed.
End Fitted.

(** The gradients for the moments are the same, although the moments are k times as large. *)
Theorem C117_gradients : forall others others' sv sv' b0 b0' ag ag' d k h0 defs mods att targets ones lam reduce it0 solver h r
    h0' defs' mods' att' targets' ones' it0' solver' h' r' sch it t1 grad grad' x,
  0 < k -> exact_grad ag -> exact_grad ag' -> exact_solver sv -> exact_solver sv' ->
  problem_dearer d k defs mods att targets defs' mods' att' targets' ->
  registration h0 defs mods att false ones [] lam [] reduce it0 solver = Ok (h, r) ->
  registration h0' defs' mods' att' false ones' [] (k * lam) [] reduce it0' solver' = Ok (h', r') ->
  reduce = "sum" \/ reduce = "previous" \/ ~ known reduce -> 0 < t1 -> (0 < it)%nat ->
  (forall x, same_shape x (moments h r) -> is_ok (evaluate real_clock others sv b0 ag (with_moments h r x) r targets (scheme_name sch) it t1 [])) ->
  (forall x, same_shape x (moments h' r') -> is_ok (evaluate real_clock others' sv' b0' ag' (with_moments h' r' x) r' targets' (scheme_name sch) it t1 [])) ->
  let f x := FitModel.total (fit_costs real_clock others sv b0 ag h r targets (scheme_name sch) it t1 x) in
  let f' x := FitModel.total (fit_costs real_clock others' sv' b0' ag' h' r' targets' (scheme_name sch) it t1 x) in
  exact_gradient f grad (moments h r) -> exact_gradient f' grad' (moments h' r') -> same_shape x (moments h r) ->
  grad' (each (dear_moments k) x) = grad x.
Proof.
  intros others others' sv sv' b0 b0' ag ag' d k h0 defs mods att targets ones lam reduce it0 solver h r
    h0' defs' mods' att' targets' ones' it0' solver' h' r' sch it t1 grad grad' x K0 EX EX' HS HS' PP E E' RR T1 IT OK OK' f f' DF DF' SX.
  pose proof (dear_same_shape d k h0 h0' defs defs' mods mods' att att' targets targets' ones ones' lam reduce it0 it0' solver solver' h h' r r' PP E E') as SM.
  pose proof (dear_total_costs others others' sv sv' b0 b0' ag ag' d k h0 h0' defs defs' mods mods' att att' targets targets' ones ones' lam reduce it0 it0' solver solver' h h' r r' sch it t1 K0 EX EX' HS HS' PP E E' RR T1 IT OK OK') as FF.
  assert (DF2 : exact_gradient f' grad' (moments h r)) by (intros y SY; apply DF'; unfold same_shape in *; congruence).
  destruct (one_group h r _ eq_refl) as (ts & TS & _). rewrite TS in *.
  pose proof (tensor_gradients k (fun _ => k) ts f f' grad grad' x (fun _ => Rgt_not_eq k 0 K0) FF DF DF2 SX) as G. refine (eq_trans G _). clear G.
  assert (ONE : k / k = 1) by (field; lra). rewrite ONE. unfold each. generalize (grad x). clear.
  assert (T : forall l : list R, times 1 l = l) by (intros l; unfold times; rewrite <- (map_id l) at 2; apply map_ext; intros; ring).
  intros p. rewrite (mapi_const _ (fun t => t)); [apply map_id|]. intros i l _. rewrite (mapi_const _ (fun t => t)); [apply map_id|]. intros j t _. apply T.
Qed.
Print Assumptions C117_gradients.

(** Gradient descent with steps k times as long: after any number of steps the moments are k
    times those of the first fit, with the same number of evaluations. *)
Theorem C117_gd_steps : forall others others' sv sv' b0 b0' ag ag' d k h0 defs mods att targets ones lam reduce it0 solver h r
    h0' defs' mods' att' targets' ones' it0' solver' h' r' sch it t1 conf fuel n s cnt grad grad',
  0 < k -> exact_grad ag -> exact_grad ag' -> exact_solver sv -> exact_solver sv' ->
  problem_dearer d k defs mods att targets defs' mods' att' targets' ->
  registration h0 defs mods att false ones [] lam [] reduce it0 solver = Ok (h, r) ->
  registration h0' defs' mods' att' false ones' [] (k * lam) [] reduce it0' solver' = Ok (h', r') ->
  reduce = "sum" \/ reduce = "previous" \/ ~ known reduce -> 0 < t1 -> (0 < it)%nat ->
  (forall x, same_shape x (moments h r) -> is_ok (evaluate real_clock others sv b0 ag (with_moments h r x) r targets (scheme_name sch) it t1 [])) ->
  (forall x, same_shape x (moments h' r') -> is_ok (evaluate real_clock others' sv' b0' ag' (with_moments h' r' x) r' targets' (scheme_name sch) it t1 [])) ->
  let f x := FitModel.total (fit_costs real_clock others sv b0 ag h r targets (scheme_name sch) it t1 x) in
  let f' x := FitModel.total (fit_costs real_clock others' sv' b0' ag' h' r' targets' (scheme_name sch) it t1 x) in
  exact_gradient f grad (moments h r) -> exact_gradient f' grad' (moments h' r') -> length (groups conf) = 1%nat ->
  let dear st := mkGd (each (dear_moments k) (OptimModel.gd_params st)) (map (Rmult k) (gd_steps st)) (gd_count st) in
  gd_steps_n conf f' grad' fuel n (mkGd (moments h' r') [k * s] cnt) = option_map dear (gd_steps_n conf f grad fuel n (mkGd (moments h r) [s] cnt)).
Proof.
  intros others others' sv sv' b0 b0' ag ag' d k h0 defs mods att targets ones lam reduce it0 solver h r
    h0' defs' mods' att' targets' ones' it0' solver' h' r' sch it t1 conf fuel n s cnt grad grad' K0 EX EX' HS HS' PP E E' RR T1 IT OK OK' f f' DF DF' LG dear.
  pose proof (dear_same_shape d k h0 h0' defs defs' mods mods' att att' targets targets' ones ones' lam reduce it0 it0' solver solver' h h' r r' PP E E') as SM.
  pose proof (dear_total_costs others others' sv sv' b0 b0' ag ag' d k h0 h0' defs defs' mods mods' att att' targets targets' ones ones' lam reduce it0 it0' solver solver' h h' r r' sch it t1 K0 EX EX' HS HS' PP E E' RR T1 IT OK OK') as FF.
  assert (DF2 : exact_gradient f' grad' (moments h r)) by (intros y SY; apply DF'; unfold same_shape in *; congruence).
  pose proof (C117_initial_moments d k _ _ _ _ targets _ _ _ _ _ _ _ _ _ _ _ targets' _ _ _ _ _ _ _ PP E E') as IM.
  assert (KN : k <> 0) by lra.
  pose proof (proj2 (C104_gd_steps k (fun _ => k) (dear_moments k) (dear_moments k) conf conf (moments h r) f f' grad grad' fuel n (mkGd (moments h r) [s] cnt)
    K0 (fun _ => KN) (fun _ _ _ _ _ _ => times_similarity _ k KN) (conj eq_refl (fun _ => conj eq_refl eq_refl)) LG FF DF DF2 eq_refl eq_refl)) as RUN. cbv beta in RUN.
  assert (W : k * k / k = k) by (field; lra). rewrite W in RUN.
  assert (RS : forall l, rescaled (fun _ => k) l = map (Rmult k) l) by (intros l; unfold rescaled; apply mapi_const; reflexivity).
  unfold placed_state at 1 in RUN. cbn [OptimModel.gd_params gd_steps gd_count] in RUN. rewrite RS, <- IM in RUN. cbn [map] in RUN. rewrite RUN.
  destruct (gd_steps_n conf f grad fuel n (mkGd (moments h r) [s] cnt)) as [st|]; [|reflexivity]. cbn [option_map]. unfold placed_state, dear. rewrite RS. reflexivity.
Qed.
Print Assumptions C117_gd_steps.

(** ** A case: the problem of C110 (one point, a global translation, squared distance), with
    coefficient, lam and moment three times as large *)
Definition costly : res (heap * reg) := registration (mkHeap [] []) [pt3] [gt3] [sq] false false [] (3 * 2) [] "sum" None None.
Definition costly_state : heap * reg := Eval cbv -[IZR Rmult one11 tscal tzeros sq] in value no_model costly.

(** u b^2 + v (b - K)^2 *)
Definition bowl_grad (u v K : R) (x : params) : params := match x with [[[a]]] => [[[2 * u * a + 2 * v * (a - K)]]] | _ => x end.
Lemma bowl_exact (f : params -> FitModel.costs) u v K b0 : 0 < u -> 0 < v -> (forall b, FitModel.total (f [[[b]]]) = Fin (u * (b * b) + v * (b - K) ^ 2)) ->
  exact_gradient (fun y => FitModel.total (f y)) (bowl_grad u v K) [[[b0]]].
Proof.
  intros U V Hf x SX. destruct (one_shape x SX) as (a & ->). exists (u * (a * a) + v * (a - K) ^ 2). split; [apply Hf|]. split; [reflexivity|]. intros eps PE. exists (eps / (u + v)). split; [apply Rdiv_lt_0_compat; lra|].
  intros y Ey D. destruct (one_shape y Ey) as (b & ->). exists (u * (b * b) + v * (b - K) ^ 2). split; [apply Hf|]. unfold dist1, SpecOptim.pairing, flat_params, bowl_grad in *. cbn in *. rewrite Rplus_0_r in *.
  replace (_ - _) with ((u + v) * ((b - a) * (b - a))) by ring. rewrite !Rabs_mult, (Rabs_pos_eq (u + v)) by lra. pose proof (Rabs_pos (b - a)) as P.
  assert (Q : (u + v) * Rabs (b - a) <= eps).
  { replace eps with ((u + v) * (eps / (u + v))) by (field; lra). apply Rmult_le_compat_l; lra. }
  nra.
Qed.

Example C117_hypotheses : forall b0,
  let f x := FitModel.total (fit_costs real_clock no_others exact_sv b0 std_ag (fst base_state) (snd base_state) [[goal0]] "euler" 1 1 x) in
  let f' x := FitModel.total (fit_costs real_clock no_others exact_sv b0 std_ag (fst costly_state) (snd costly_state) [[goal0]] "euler" 1 1 x) in
  base = Ok base_state /\ costly = Ok costly_state /\ exact_grad std_ag /\ exact_solver exact_sv /\
  problem_dearer 1 3 [pt1] [gt1] [sq] [[goal0]] [pt3] [gt3] [sq] [[goal0]] /\
  (forall x, same_shape x (moments (fst base_state) (snd base_state)) ->
     is_ok (evaluate real_clock no_others exact_sv b0 std_ag (with_moments (fst base_state) (snd base_state) x) (snd base_state) [[goal0]] "euler" 1 1 [])) /\
  (forall x, same_shape x (moments (fst costly_state) (snd costly_state)) ->
     is_ok (evaluate real_clock no_others exact_sv b0 std_ag (with_moments (fst costly_state) (snd costly_state) x) (snd costly_state) [[goal0]] "euler" 1 1 [])) /\
  exact_gradient f (bowl_grad (1 / 2) 2 6) (moments (fst base_state) (snd base_state)) /\ exact_gradient f' (bowl_grad (1 / 6) (2 / 3) 18) (moments (fst costly_state) (snd costly_state)) /\
  (forall b, f [[[b]]] = Fin (1 / 2 * (b * b) + 2 * (b - 6) ^ 2)) /\ (forall b, f' [[[b]]] = Fin (1 / 6 * (b * b) + 2 / 3 * (b - 18) ^ 2)) /\
  moments (fst base_state) (snd base_state) = [[[1]]] /\ moments (fst costly_state) (snd costly_state) = [[[3 * 1]]].
Proof.
  intros b0. destruct (units_case b0 goal0 eq_refl) as (_ & V1 & _ & C1 & _ & M1 & _). pose proof exact_sv_exact as HS. pose proof std_exact as SE.
  destruct (C116_registration_hypotheses b0 SEuler 1 ltac:(lia)) as (_ & _ & _ & _ & _ & _ & _ & _ & _ & P & W & LT & TW & SH & AP & _).
  assert (W' : wf_mod 1 (start [pt3] [gt3])) by (cbn; repeat split; try lra; discriminate).
  assert (SH' : shootable (start [pt3] [gt3])) by (eexists; split; [reflexivity|]; split; [repeat constructor|cbn; auto 10]).
  assert (LS : locals_smooth 1 (start [pt1] [gt1]) /\ locals_smooth 1 (start [pt3] [gt3])) by (cbn; tauto).
  assert (AU : attached_units 1 1 [pt1] [sq] [[goal0]] [pt3] [sq] [[goal0]]).
  { apply au_cons; [exact Logic.I|split; [rewrite tscal_id; apply teq_refl|reflexivity]| |apply au_nil]. intros q0 q q' x x' E0 S T D D'. cbn in E0, D, D'. injection E0 as <-. injection D as <-. injection D' as <-. cbn [sq].
    destruct T as (ST & T). rewrite (T [0%nat; 0%nat]) by (rewrite ST; cbn; rewrite S; cbn; lia). cbn. f_equal. ring. }
  assert (PP : problem_dearer 1 3 [pt1] [gt1] [sq] [[goal0]] [pt3] [gt3] [sq] [[goal0]]) by (constructor; auto).
  assert (H1 : base = Ok base_state) by reflexivity. assert (H2 : costly = Ok costly_state) by (vm_compute; reflexivity).
  assert (AO : forall a x y, In a [sq] -> is_ok (a x y)).
  { intros a x y [<-|[]]. unfold sq. destruct x; [|destruct y]; eexists; reflexivity. }
  assert (OR : Forall ordinary [pt3]).
  { constructor; [|constructor]. split; [reflexivity|]. split; [cbn; eauto 10|]. intros q; eexists; reflexivity. }
  assert (V2 : forall x, same_shape x (moments (fst costly_state) (snd costly_state)) ->
     is_ok (evaluate real_clock no_others exact_sv b0 std_ag (with_moments (fst costly_state) (snd costly_state) x) (snd costly_state) [[goal0]] "euler" 1 1 [])).
  { intros x SX. apply (C107_evaluates no_others exact_sv b0 std_ag 1 (mkHeap [] []) [pt3] [gt3] [sq] [[goal0]] false (3 * 2) None None (fst costly_state) (snd costly_state) SEuler 1 1 x std_exact std_differentiates HS W' (proj2 LS) SH'); auto; try lra.
    - exact (dear_everywhere 3 1 _ (line_everywhere one11 (tscal 3 one11))).
    - cbn. tauto. }
  cbv zeta. do 7 (split; [first [assumption|reflexivity]|]).
  assert (N1 : registration (mkHeap [] []) [pt1] [gt1] [sq] false false [] 2 [] "sum" None None = Ok (fst base_state, snd base_state)) by exact H1.
  assert (N2 : registration (mkHeap [] []) [pt3] [gt3] [sq] false false [] (3 * 2) [] "sum" None None = Ok (fst costly_state, snd costly_state)) by exact H2.
  pose proof (C117_initial_moments 1 3 _ _ _ _ _ _ _ _ _ _ _ _ _ _ _ _ _ _ _ _ _ _ _ _ PP N1 N2) as IM. rewrite M1 in IM. unfold each, dear_moments, times in IM. cbn [mapi map] in IM.
  assert (C2 : forall b, fit_costs real_clock no_others exact_sv b0 std_ag (fst costly_state) (snd costly_state) [[goal0]] "euler" 1 1 [[[b]]] =
    scale_costs 3 [("deformation", Fin (b / 3 * (b / 3) / 2)); ("attach", Fin (2 * (b / 3 - (goal0 @2 0%nat 0%nat - 1)) ^ 2))]).
  { intros b. rewrite <- C1. refine (eq_trans _ (C117_costs no_others no_others exact_sv exact_sv b0 b0 std_ag std_ag 1 3 _ _ _ _ _ _ _ _ _ _ _ _ _ _ _ _ _ _ _ _ _ _ SEuler 1 1 [[[b / 3]]] ltac:(lra) SE SE HS HS PP N1 N2 (or_introl eq_refl) ltac:(lra) ltac:(lia) _ _ _)).
    - f_equal. unfold each, dear_moments, times. cbn [mapi map]. do 3 f_equal. lra.
    - rewrite M1. reflexivity.
    - apply V1. rewrite M1. reflexivity.
    - apply V2. rewrite IM. reflexivity. }
  rewrite M1, IM.
  assert (T1 : forall b, FitModel.total (fit_costs real_clock no_others exact_sv b0 std_ag (fst base_state) (snd base_state) [[goal0]] "euler" 1 1 [[[b]]]) = Fin (1 / 2 * (b * b) + 2 * (b - 6) ^ 2)) by (intros b; rewrite C1; unfold FitModel.total; cbn; f_equal; field).
  assert (T2 : forall b, FitModel.total (fit_costs real_clock no_others exact_sv b0 std_ag (fst costly_state) (snd costly_state) [[goal0]] "euler" 1 1 [[[b]]]) = Fin (1 / 6 * (b * b) + 2 / 3 * (b - 18) ^ 2)) by (intros b; rewrite C2; unfold FitModel.total; cbn; f_equal; field).
  split; [apply (bowl_exact (fit_costs real_clock no_others exact_sv b0 std_ag (fst base_state) (snd base_state) [[goal0]] "euler" 1 1)); [lra|lra|exact T1]|].
  split; [apply (bowl_exact (fit_costs real_clock no_others exact_sv b0 std_ag (fst costly_state) (snd costly_state) [[goal0]] "euler" 1 1)); [lra|lra|exact T2]|]. auto.
Qed.

(** Finding: with the same step length the two fits part at the first step. *)
Theorem C117_same_steps_refuted : forall b0 c, length (groups c) = 1%nat ->
  let f x := FitModel.total (fit_costs real_clock no_others exact_sv b0 std_ag (fst base_state) (snd base_state) [[goal0]] "euler" 1 1 x) in
  let f' x := FitModel.total (fit_costs real_clock no_others exact_sv b0 std_ag (fst costly_state) (snd costly_state) [[goal0]] "euler" 1 1 x) in
  exists grad grad' st st',
    problem_dearer 1 3 [pt1] [gt1] [sq] [[goal0]] [pt3] [gt3] [sq] [[goal0]] /\ base = Ok base_state /\ costly = Ok costly_state /\
    exact_gradient f grad (moments (fst base_state) (snd base_state)) /\ exact_gradient f' grad' (moments (fst costly_state) (snd costly_state)) /\
    gd_step c f grad 1 (mkGd (moments (fst base_state) (snd base_state)) [1 / 10] 0) = Some st /\
    gd_step c f' grad' 1 (mkGd (moments (fst costly_state) (snd costly_state)) [1 / 10] 0) = Some st' /\
    OptimModel.gd_params st' <> each (dear_moments 3) (OptimModel.gd_params st).
Proof.
  intros b0 c LG f f'. destruct (C117_hypotheses b0) as (H1 & H2 & _ & _ & PP & _ & _ & G & G' & T & T' & M & M').
  exists (bowl_grad (1 / 2) 2 6), (bowl_grad (1 / 6) (2 / 3) 18), (mkGd [[[1 - 1 / 10 * (2 * (1 / 2) * 1 + 2 * 2 * (1 - 6))]]] (update2 c [1 / 10]) 1),
    (mkGd [[[3 * 1 - 1 / 10 * (2 * (1 / 6) * (3 * 1) + 2 * (2 / 3) * (3 * 1 - 18))]]] (update2 c [1 / 10]) 1).
  split; [exact PP|]. split; [exact H1|]. split; [exact H2|]. split; [exact G|]. split; [exact G'|]. rewrite M, M'. split; [|split].
  - unfold gd_step. cbn [OptimModel.gd_params gd_steps gd_count gd_loop bowl_grad]. cbn [move combine map fst snd move_tensor]. unfold f. rewrite !T. cbn [flt isfinite]. rewrite (proj2 (Rltb_true _ _)) by lra. reflexivity.
  - unfold gd_step. cbn [OptimModel.gd_params gd_steps gd_count gd_loop bowl_grad]. cbn [move combine map fst snd move_tensor]. unfold f'. rewrite !T'. cbn [flt isfinite]. rewrite (proj2 (Rltb_true _ _)) by lra. reflexivity.
  - cbn [OptimModel.gd_params]. rewrite dear_group. unfold times. cbn [map]. intros E. injection E as E. lra.
Qed.
Print Assumptions C117_same_steps_refuted.
