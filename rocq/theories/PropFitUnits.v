(** Fitting a registration measured in another unit of length (C110). *)
From Coq Require Import Reals String List Arith ZArith Lia Lra.
From Verif Require Import Py RSum Tensor TensorFacts Fl OptimModel FitModel SpecOptim SpecGeometry SpecRigid SpecSimilar SimilarFacts PropSimilar
  KernelModel FieldModel MeshModel AttachmentModel GeometryModel ModuleModel ShootingModel RegistrationModel
  SpecKernel SpecModule SpecShooting SpecRegistration SpecTransport SpecSmooth SpecReduce SpecElsewhere SpecFitElsewhere SpecUnits SpecUnitsReg SpecFitUnits
  ModuleMain ModuleLeaves ShootingDyn ShootingPack ShootingExample RigidShoot DiffBuild SmoothRun SolverExists MotionExample PropAttachment RegistrationRun RegistrationLife RegistrationParams RegistrationShoot PropRegistration
  ShootingFinal TransportFacts ReduceFacts PropReduce PropRigid PropSmooth PropReverse ElsewhereFacts PropElsewhere FitElsewhere PropFitElsewhere UnitsShoot UnitsReg PropUnitsReg FitUnits.
From Verif Require Import SpecSimilar.
Import ListNotations.
Open Scope string_scope.
Open Scope list_scope.
Open Scope R_scope.

(** The initial moments of the two models. *)
Theorem C110_initial_moments : forall d u k h0 defs mods att targets ones lam reduce it0 solver h r h0' defs' mods' att' targets' ones' lam' reduce' it0' solver' h' r',
  problem_in_units d u k defs mods att targets defs' mods' att' targets' ->
  registration h0 defs mods att false ones [] lam [] reduce it0 solver = Ok (h, r) ->
  registration h0' defs' mods' att' false ones' [] lam' [] reduce' it0' solver' = Ok (h', r') ->
  moments h' r' = each (scale_moments u (mod_manifold (start defs mods))) (moments h r).
Proof.
  intros d u k h0 defs mods att targets ones lam reduce it0 solver h r h0' defs' mods' att' targets' ones' lam' reduce' it0' solver' h' r' [_ _ _ (_ & SV) _] E E'.
  destruct (with_moments_filled _ _ _ _ _ _ _ _ _ _ _ (moments h r) E eq_refl) as (_ & _ & _ & _ & D).
  destruct (with_moments_filled _ _ _ _ _ _ _ _ _ _ _ (moments h' r') E' eq_refl) as (_ & _ & _ & _ & D').
  set (g := mod_manifold (start defs mods)) in *. set (g' := mod_manifold (start defs' mods')) in *. destruct SV as (_ & (_ & B)). rewrite cotan_units in B.
  unfold moments, each. cbn [mapi]. f_equal. rewrite <- (map_map (deref h') entries), <- (map_map (deref h) entries), D, D'.
  assert (P : forall i, scale_moments u g 0 (0 + i)%nat = times (nth i (factors u g) 1)) by reflexivity. pose proof (factors_len u g) as LF. revert P B LF. generalize (scale_moments u g 0). generalize 0%nat, (factors u g), (g_cotan g'). clear. intros j fs cs' p. revert p j fs cs'.
  induction (g_cotan g) as [|t cs IH]; intros p j fs cs' P B LF; destruct fs as [|f fs]; try discriminate LF; inversion B as [|t' ? cs1 ? T B1]; subst; [reflexivity|]. cbn [fst snd] in T.
  cbn [map mapi]. f_equal.
  - pose proof (P 0%nat) as P0. rewrite Nat.add_0_r in P0. rewrite P0. cbn [nth]. rewrite <- entries_scal. apply entries_teq. exact T.
  - apply (IH p (S j) fs cs1); [|exact B1|cbn in LF; lia]. intros i. rewrite Nat.add_succ_comm. exact (P (S i)).
Qed.
Print Assumptions C110_initial_moments.

Lemma scaled_shape u g x : same_shape (each (scale_moments u g) x) x.
Proof. apply (at_shape (scale_moments u g) x 0%nat). intros. unfold scale_moments. apply times_len. Qed.

(** With lam converted, whatever the moments, the costs seen by the fitter are multiplied by
    u * u. *)
Theorem C110_costs : forall others others' sv sv' b0 b0' ag ag' d u k h0 defs mods att targets ones lam reduce it0 solver h r
    h0' defs' mods' att' targets' ones' lam' it0' solver' h' r' sch it t1 x,
  0 < u -> exact_grad ag -> exact_grad ag' -> exact_solver sv -> exact_solver sv' ->
  problem_in_units d u k defs mods att targets defs' mods' att' targets' -> lam' * k = u * u * lam ->
  registration h0 defs mods att false ones [] lam [] reduce it0 solver = Ok (h, r) ->
  registration h0' defs' mods' att' false ones' [] lam' [] reduce it0' solver' = Ok (h', r') ->
  reduce = "sum" \/ reduce = "previous" \/ ~ known reduce -> 0 < t1 -> (0 < it)%nat ->
  let x' := each (scale_moments u (mod_manifold (start defs mods))) x in
  same_shape x (moments h r) ->
  is_ok (evaluate real_clock others sv b0 ag (with_moments h r x) r targets (scheme_name sch) it t1 []) ->
  is_ok (evaluate real_clock others' sv' b0' ag' (with_moments h' r' x') r' targets' (scheme_name sch) it t1 []) ->
  fit_costs real_clock others' sv' b0' ag' h' r' targets' (scheme_name sch) it t1 x' =
  scale_costs (u * u) (fit_costs real_clock others sv b0 ag h r targets (scheme_name sch) it t1 x).
Proof.
  intros others others' sv sv' b0 b0' ag ag' d u k h0 defs mods att targets ones lam reduce it0 solver h r
    h0' defs' mods' att' targets' ones' lam' it0' solver' h' r' sch it t1 x U EX EX' HS HS' PP EL E E' RR T1 IT x' SX ((cost & r1) & V) ((cost' & r1') & V').
  pose proof (C110_initial_moments d u k _ _ _ _ targets _ _ _ _ _ _ _ _ _ _ _ targets' _ _ _ _ _ _ _ PP E E') as IM.
  pose proof PP as [(W & W') (LS & LS') (SH & SH') EW AE]. set (g := mod_manifold (start defs mods)) in *.
  assert (SX' : same_shape x' (moments h' r')).
  { rewrite IM. unfold same_shape in *. unfold x'. transitivity (map (map (@length R)) x); [apply scaled_shape|]. rewrite SX. symmetry. apply scaled_shape. }
  destruct (refilled_model d _ _ _ _ _ _ _ _ _ _ _ _ W LS SH E SX) as (dx & mx & F & RF & D & L & WX & LX & SHX).
  destruct (refilled_model d _ _ _ _ _ _ _ _ _ _ _ _ W' LS' SH' E' SX') as (dx' & mx' & F' & RF' & D' & L' & WX' & LX' & SHX').
  destruct (registration_ok h0 defs mods att false ones [] lam [] reduce it0 solver h r (NoDup_nil _) E) as (_ & _ & _ & _ & RA & RLm & RRd & _ & RFC & _).
  destruct (registration_ok h0' defs' mods' att' false ones' [] lam' [] reduce it0' solver' h' r' (NoDup_nil _) E') as (_ & _ & _ & _ & RA' & RLm' & RRd' & _ & RFC' & _).
  assert (EWX : other_unit d u (start dx mx) (start dx' mx')).
  { refine (refilled_units d u defs mods defs' mods' _ _ dx mx dx' mx' EW RF RF' _).
    destruct (one_group h r x SX) as (xs & Ex & LXS). unfold x' in *. subst x. unfold each. cbn [mapi List.concat]. rewrite !app_nil_r.
    apply scaled_tensors; [|rewrite LXS; rewrite <- (map_map (deref h) (fun t => prod (shape t))), D; reflexivity|apply factors_len|reflexivity].
    destruct EW as (_ & SV). rewrite (proj2 (values_shapes _ _ SV)), cotan_units. fold g. clear. unfold lscale. pose proof (factors_len u g) as LF. revert LF. generalize (factors u g). induction (g_cotan g) as [|t cs IH]; intros [|f fs] LF; try discriminate LF; [reflexivity|].
    cbn [combine map fst snd]. f_equal. apply IH. cbn in LF. lia. }
  assert (EC : cost' = times_costs (u * u) cost).
  { refine (C105_fixed_step others others' sv sv' b0 b0' ag ag' (with_moments h r x) (with_moments h' r' x') r r' targets targets' sch it t1 cost cost' r1 r1' d u k dx mx dx' mx'
      U EX EX' HS HS' F F' RFC RFC' _ _ _ WX WX' (smooth_total d _ LX) (smooth_total d _ LX') SHX SHX' T1 IT EWX _ V V'); [rewrite RLm, RLm'; exact EL|congruence|rewrite RRd; exact RR|].
    rewrite RA, RA'. exact (attached_units_refilled u k _ _ _ _ _ _ AE dx dx' (proj2 (proj2 (proj2 RF))) (proj2 (proj2 (proj2 RF')))). }
  unfold fit_costs. rewrite V, V', EC. unfold scale_costs, times_costs. rewrite !map_map. reflexivity.
Qed.
Print Assumptions C110_costs.

Lemma total_scaled k c : FitModel.total (scale_costs k c) = fscale k (FitModel.total c).
Proof.
  unfold FitModel.total, scale_costs. rewrite map_map. cbn [snd]. replace (Fin 0) with (fscale k (Fin 0)) at 1 by (cbn; f_equal; ring). generalize (Fin 0). induction c as [|e c IH]; intros a; [reflexivity|]. cbn [map fold_left]. rewrite <- IH. f_equal.
  destruct a, (snd e); cbn; try reflexivity. f_equal. ring.
Qed.

(** The moments of points are all multiplied by u. *)
Lemma scale_similar u g x : u <> 0 -> points_only g -> map (@length (list R)) x = [length (factors u g)] -> similar x (fun _ => u) (scale_moments u g) (scale_moments u g).
Proof.
  intros U PO L k i ts t Ek Et. unfold scale_moments. destruct x as [|a [|? ?]]; try discriminate L. destruct k as [|k]; [|destruct k; discriminate Ek]. injection Ek as <-. injection L as L.
  assert (I : (i < length (factors u g))%nat) by (rewrite <- L; apply nth_error_Some; congruence).
  pose proof (points_factors u g PO) as F. rewrite Forall_forall in F. rewrite <- (F _ (nth_In _ 1 I)). apply times_similarity. exact U.
Qed.
Lemma unit_steps w ss : (forall g, w g = 1) -> rescaled w ss = ss.
Proof. intros H. apply SimilarFacts.nth_eq; [apply rescaled_len|]. intros g. rewrite rescaled_nth, H. ring. Qed.

(** Gradient descent on the moments of points, with the same step lengths: after any number
    of steps the moments are those of the first fit in the other unit, the step lengths and the
    number of evaluations are the same. *)
Theorem C110_gd_steps : forall others others' sv sv' b0 b0' ag ag' d u k h0 defs mods att targets ones lam reduce it0 solver h r
    h0' defs' mods' att' targets' ones' lam' it0' solver' h' r' sch it t1 conf fuel n ss cnt grad grad',
  0 < u -> exact_grad ag -> exact_grad ag' -> exact_solver sv -> exact_solver sv' ->
  problem_in_units d u k defs mods att targets defs' mods' att' targets' -> lam' * k = u * u * lam ->
  points_only (mod_manifold (start defs mods)) ->
  registration h0 defs mods att false ones [] lam [] reduce it0 solver = Ok (h, r) ->
  registration h0' defs' mods' att' false ones' [] lam' [] reduce it0' solver' = Ok (h', r') ->
  reduce = "sum" \/ reduce = "previous" \/ ~ known reduce -> 0 < t1 -> (0 < it)%nat ->
  (forall x, same_shape x (moments h r) -> is_ok (evaluate real_clock others sv b0 ag (with_moments h r x) r targets (scheme_name sch) it t1 [])) ->
  (forall x, same_shape x (moments h' r') -> is_ok (evaluate real_clock others' sv' b0' ag' (with_moments h' r' x) r' targets' (scheme_name sch) it t1 [])) ->
  let f x := FitModel.total (fit_costs real_clock others sv b0 ag h r targets (scheme_name sch) it t1 x) in
  let f' x := FitModel.total (fit_costs real_clock others' sv' b0' ag' h' r' targets' (scheme_name sch) it t1 x) in
  exact_gradient f grad (moments h r) -> exact_gradient f' grad' (moments h' r') ->
  length (groups conf) = 1%nat -> length ss = 1%nat ->
  let in_unit st := mkGd (each (fun _ _ => times u) (OptimModel.gd_params st)) (gd_steps st) (gd_count st) in
  gd_steps_n conf f' grad' fuel n (mkGd (moments h' r') ss cnt) = option_map in_unit (gd_steps_n conf f grad fuel n (mkGd (moments h r) ss cnt)).
Proof.
  intros others others' sv sv' b0 b0' ag ag' d u k h0 defs mods att targets ones lam reduce it0 solver h r
    h0' defs' mods' att' targets' ones' lam' it0' solver' h' r' sch it t1 conf fuel n ss cnt grad grad' U EX EX' HS HS' PP EL PO E E' RR T1 IT OK OK' f f' DF DF' LG LS in_unit.
  pose proof (C110_initial_moments d u k _ _ _ _ targets _ _ _ _ _ _ _ _ _ _ _ targets' _ _ _ _ _ _ _ PP E E') as IM. set (g := mod_manifold (start defs mods)) in *.
  destruct (with_moments_filled _ _ _ _ _ _ _ _ _ _ _ (moments h r) E eq_refl) as (_ & _ & _ & _ & D). fold g in D.
  assert (LM : map (@length (list R)) (moments h r) = [length (factors u g)]) by (unfold moments; cbn [map]; rewrite map_length, factors_len, <- D, map_length; reflexivity).
  assert (SM : same_shape (moments h' r') (moments h r)) by (rewrite IM; apply scaled_shape).
  assert (PU : forall x, same_shape x (moments h r) -> each (scale_moments u g) x = each (fun _ _ => times u) x).
  { clearbody g. intros x SX. assert (LX : map (@length (list R)) x = [length (factors u g)]).
    { rewrite <- LM. unfold same_shape in SX. clear - SX. revert SX. generalize (moments h r). induction x as [|a x IH]; intros [|b y] SX; try discriminate SX; [reflexivity|]. cbn [map] in *. injection SX as S1 S2. f_equal; [|apply IH; exact S2]. rewrite <- (map_length (@length R) a), S1, map_length. reflexivity. }
    destruct x as [|a [|? ?]]; try discriminate LX. injection LX as LX. unfold each. cbn [mapi]. f_equal. unfold scale_moments. pose proof (points_factors u g PO) as F. clear - LX F. 
    rewrite (mapi_const _ (times u)), (mapi_const _ (times u)); [reflexivity|intros; reflexivity|]. intros i t Et. cbn. assert (I : (i < length (factors u g))%nat) by (rewrite <- LX; apply nth_error_Some; congruence).
    rewrite Forall_forall in F. rewrite <- (F _ (nth_In _ 1 I)). reflexivity. }
  assert (LX1 : length (moments h r) = 1%nat) by reflexivity. assert (U0 : u <> 0) by lra.
  assert (FF : forall y, same_shape y (moments h r) -> f' (each (scale_moments u g) y) = fscale (u * u) (f y)).
  { intros y SY. unfold f, f'. rewrite <- total_scaled. f_equal. apply (C110_costs others others' sv sv' b0 b0' ag ag' d u k h0 defs mods att targets ones lam reduce it0 solver h r h0' defs' mods' att' targets' ones' lam' it0' solver' h' r' sch it t1 y); auto.
    apply OK'. unfold same_shape in *. transitivity (map (map (@length R)) y); [apply scaled_shape|]. rewrite SY. symmetry. exact SM. }
  assert (DF2 : exact_gradient f' grad' (moments h r)) by (intros x SX; apply DF'; unfold same_shape in *; congruence).
  pose proof (proj2 (C104_gd_steps (u * u) (fun _ => u) (scale_moments u g) (scale_moments u g) conf conf (moments h r) f f' grad grad' fuel n (mkGd (moments h r) ss cnt)
    ltac:(nra) (fun _ => U0) (scale_similar u g _ U0 PO LM) (conj eq_refl (fun _ => conj eq_refl eq_refl)) LG FF DF DF2 eq_refl LS)) as RUN. cbv beta in RUN.
  assert (W1 : forall q : nat, u * u / (u * u) = 1) by (intros _; field; exact U0).
  unfold placed_state at 1 in RUN. cbn [OptimModel.gd_params gd_steps gd_count] in RUN. rewrite <- IM, (unit_steps _ ss W1) in RUN. rewrite RUN.
  destruct (gd_steps_n conf f grad fuel n (mkGd (moments h r) ss cnt)) as [st|] eqn:ST; [|reflexivity]. cbn [option_map]. f_equal. unfold placed_state, in_unit. rewrite (unit_steps _ _ W1), PU; [reflexivity|].
  assert (K : forall m st0 st1, same_shape (OptimModel.gd_params st0) (moments h r) -> length (gd_steps st0) = length (moments h r) -> gd_steps_n conf f grad fuel m st0 = Some st1 -> same_shape (OptimModel.gd_params st1) (moments h r)).
  { induction m as [|m IH]; intros st0 st1 S0 L0 Em; cbn [gd_steps_n] in Em; [injection Em as <-; exact S0|].
    destruct (gd_step conf f grad fuel st0) as [st2|] eqn:E2; [|discriminate Em].
    destruct (step_kept conf (moments h r) LG f grad DF fuel st0 st2 E2 S0 L0) as (S2 & L2). exact (IH st2 st1 S2 L2 Em). }
  exact (K n (mkGd (moments h r) ss cnt) st eq_refl LS ST).
Qed.
Print Assumptions C110_gd_steps.

(** Each tensor as a group of its own. *)
Definition apart (x : params) : params := map (fun t => [t]) (List.concat x).
Definition together (y : params) : params := [List.concat y].
Lemma apart_flat x : flat_params (apart x) = flat_params x.
Proof. unfold flat_params, apart. f_equal. induction (List.concat x) as [|t l IH]; [reflexivity|]. cbn. f_equal. exact IH. Qed.
Lemma apart_shapes : forall ts y, map (map (@length R)) y = map (fun t : list R => [length t]) ts -> y = apart [List.concat y] /\ map (@length R) (List.concat y) = map (@length R) ts.
Proof.
  intros ts y H. unfold apart. cbn [List.concat]. rewrite app_nil_r. revert y H. induction ts as [|t ts IH]; intros [|g y] H; try discriminate H; [split; reflexivity|].
  cbn [map] in H. injection H as H1 H2. destruct g as [|t' [|? ?]]; try discriminate H1. injection H1 as H1. destruct (IH y H2) as (A & B). cbn [List.concat app map]. split; f_equal; assumption.
Qed.
Lemma apart_shape x : map (map (@length R)) (apart x) = map (fun t : list R => [length t]) (List.concat x).
Proof. unfold apart. rewrite map_map. reflexivity. Qed.
Lemma apart_together y ts : same_shape y (apart [ts]) -> y = apart (together y) /\ same_shape (together y) [ts].
Proof. intros H. unfold same_shape in H. rewrite apart_shape in H. cbn [List.concat] in H. rewrite app_nil_r in H. destruct (apart_shapes ts y H) as (A & B). split; [exact A|]. unfold same_shape, together. cbn [map]. f_equal. exact B. Qed.
Lemma together_apart ts : together (apart [ts]) = [ts].
Proof. unfold together, apart. cbn [List.concat]. rewrite app_nil_r. f_equal. induction ts as [|t ts IH]; [reflexivity|]. cbn. f_equal. exact IH. Qed.
Lemma same_apart x ts : same_shape x [ts] -> same_shape (apart x) (apart [ts]).
Proof.
  intros H. unfold same_shape in *. rewrite !apart_shape. destruct x as [|xs [|? ?]]; try discriminate H. cbn [map] in H. injection H as H. cbn [List.concat]. rewrite !app_nil_r.
  rewrite <- (map_map (@length R) (fun n => [n])), <- (map_map (@length R) (fun n => [n])), H. reflexivity.
Qed.
Lemma apart_gradient f grad ts : exact_gradient f grad [ts] -> exact_gradient (fun y => f (together y)) (fun y => apart (grad (together y))) (apart [ts]).
Proof.
  intros H y SY. destruct (apart_together y ts SY) as (EY & ST). destruct (H _ ST) as (a & F & SG & G). exists a. split; [exact F|]. split.
  - unfold same_shape in *. rewrite SY. apply same_apart. unfold same_shape. rewrite SG. exact ST.
  - intros eps PE. destruct (G eps PE) as (del & PD & Hd). exists del. split; [exact PD|]. intros z SZ DZ. assert (SZ' : same_shape z (apart [ts])) by (unfold same_shape in *; congruence). destruct (apart_together z ts SZ') as (EZ & STZ).
    assert (FY : flat_params y = flat_params (together y)) by (rewrite EY at 1; apply apart_flat). assert (FZ : flat_params z = flat_params (together z)) by (rewrite EZ at 1; apply apart_flat).
    destruct (Hd (together z)) as (b & FB & Q); [unfold same_shape in *; congruence|unfold SpecOptim.dist1 in *; rewrite <- FY, <- FZ; exact DZ|]. exists b. split; [exact FB|].
    unfold SpecOptim.dist1, SpecOptim.pairing in *. rewrite apart_flat, FY, FZ. exact Q.
Qed.
Lemma each_apart (p : nat -> list R -> list R) ts : together (each (fun g _ => p g) (apart [ts])) = each (fun _ i => p i) [ts].
Proof.
  unfold together, apart, each. cbn [List.concat mapi]. rewrite app_nil_r. f_equal.
  assert (K : forall k, List.concat (mapi (fun g => mapi (fun _ => p g) 0) k (map (fun t => [t]) ts)) = mapi p k ts); [|apply K].
  induction ts as [|t ts IH]; intros k; [reflexivity|]. cbn [map mapi List.concat app]. f_equal. apply IH.
Qed.
Lemma times_times a b x : times a (times b x) = times (a * b) x.
Proof. unfold times. rewrite map_map. apply map_ext. intros z. ring. Qed.

(** Costs multiplied by ka when the i-th tensor is multiplied by c i <> 0: the gradient for the
    i-th tensor is multiplied by ka / c i. *)
Lemma tensor_gradients ka (c : nat -> R) ts f f' grad grad' x : (forall i, c i <> 0) ->
  (forall y, same_shape y [ts] -> f' (each (fun _ i => times (c i)) y) = fscale ka (f y)) -> exact_gradient f grad [ts] -> exact_gradient f' grad' [ts] -> same_shape x [ts] ->
  grad' (each (fun _ i => times (c i)) x) = each (fun _ i => times (ka / c i)) (grad x).
Proof.
  intros NZ FF EG EG' SX.
  assert (ONE : forall z, same_shape z [ts] -> exists zs, z = [zs]) by (intros [|zs [|? ?]] Z; try discriminate Z; eauto).
  pose proof (C104_gradients ka c (fun g _ => times (c g)) (fun g _ => times (c g)) (apart [ts]) (fun y => f (together y)) (fun y => f' (together y)) (fun y => apart (grad (together y))) (fun y => apart (grad' (together y))) NZ) as G.
  specialize (G ltac:(intros g i gs t _ _; apply times_similarity; apply NZ)).
  assert (FF' : forall y, same_shape y (apart [ts]) -> f' (together (each (fun g _ => times (c g)) y)) = fscale ka (f (together y))).
  { intros y SY. destruct (apart_together y ts SY) as (EY & ST). destruct (ONE _ ST) as (ys & Ys). rewrite EY at 1. rewrite Ys, (each_apart (fun i => times (c i))). apply FF. rewrite <- Ys. exact ST. }
  specialize (G FF' (apart_gradient f grad ts EG) (apart_gradient f' grad' ts EG') (apart x) (same_apart x ts SX)). cbv beta in G.
  destruct (ONE _ SX) as (xs & ->). rewrite together_apart, (each_apart (fun i => times (c i))) in G.
  set (x' := each (fun _ i => times (c i)) [xs]) in *. assert (SX' : same_shape x' [ts]).
  { unfold same_shape in *. rewrite <- SX. apply (at_shape (fun _ i => times (c i)) [xs] 0%nat). intros. apply times_len. }
  destruct (EG' x' SX') as (_ & _ & SG' & _). destruct (EG [xs] SX) as (_ & _ & SG & _).
  destruct (ONE (grad' x')) as (gs' & Gs'); [unfold same_shape in *; congruence|]. destruct (ONE (grad [xs])) as (gs & Gs); [unfold same_shape in *; congruence|]. rewrite Gs, Gs' in *. apply (f_equal together) in G. rewrite together_apart in G. rewrite G.
  rewrite (each_apart (fun i t => times (c i) (times (ka / (c i * c i)) t))). unfold each. cbn [mapi]. f_equal. generalize 0%nat. clear - NZ. induction gs as [|t gs IH]; intros k; [reflexivity|]. cbn [mapi]. f_equal; [|apply IH].
  rewrite times_times. f_equal. field. apply NZ.
Qed.

(** The gradients, for all manifolds: the moments of points are multiplied by u and so are
    their gradients; the moments of directions and frames are multiplied by u * u, their
    gradients by 1. *)
Theorem C110_gradients : forall others others' sv sv' b0 b0' ag ag' d u k h0 defs mods att targets ones lam reduce it0 solver h r
    h0' defs' mods' att' targets' ones' lam' it0' solver' h' r' sch it t1 grad grad' x,
  0 < u -> exact_grad ag -> exact_grad ag' -> exact_solver sv -> exact_solver sv' ->
  problem_in_units d u k defs mods att targets defs' mods' att' targets' -> lam' * k = u * u * lam ->
  registration h0 defs mods att false ones [] lam [] reduce it0 solver = Ok (h, r) ->
  registration h0' defs' mods' att' false ones' [] lam' [] reduce it0' solver' = Ok (h', r') ->
  reduce = "sum" \/ reduce = "previous" \/ ~ known reduce -> 0 < t1 -> (0 < it)%nat ->
  (forall x, same_shape x (moments h r) -> is_ok (evaluate real_clock others sv b0 ag (with_moments h r x) r targets (scheme_name sch) it t1 [])) ->
  (forall x, same_shape x (moments h' r') -> is_ok (evaluate real_clock others' sv' b0' ag' (with_moments h' r' x) r' targets' (scheme_name sch) it t1 [])) ->
  let f x := FitModel.total (fit_costs real_clock others sv b0 ag h r targets (scheme_name sch) it t1 x) in
  let f' x := FitModel.total (fit_costs real_clock others' sv' b0' ag' h' r' targets' (scheme_name sch) it t1 x) in
  exact_gradient f grad (moments h r) -> exact_gradient f' grad' (moments h' r') -> same_shape x (moments h r) ->
  let g := mod_manifold (start defs mods) in
  grad' (each (scale_moments u g) x) = each (fun _ i => times (u * u / nth i (factors u g) 1)) (grad x).
Proof.
  intros others others' sv sv' b0 b0' ag ag' d u k h0 defs mods att targets ones lam reduce it0 solver h r
    h0' defs' mods' att' targets' ones' lam' it0' solver' h' r' sch it t1 grad grad' x U EX EX' HS HS' PP EL E E' RR T1 IT OK OK' f f' DF DF' SX g.
  pose proof (C110_initial_moments d u k _ _ _ _ targets _ _ _ _ _ _ _ _ _ _ _ targets' _ _ _ _ _ _ _ PP E E') as IM. fold g in IM.
  assert (SM : same_shape (moments h' r') (moments h r)) by (rewrite IM; apply scaled_shape).
  assert (FF : forall y, same_shape y (moments h r) -> f' (each (scale_moments u g) y) = fscale (u * u) (f y)).
  { intros y SY. unfold f, f'. rewrite <- total_scaled. f_equal. apply (C110_costs others others' sv sv' b0 b0' ag ag' d u k h0 defs mods att targets ones lam reduce it0 solver h r h0' defs' mods' att' targets' ones' lam' it0' solver' h' r' sch it t1 y); auto.
    apply OK'. unfold same_shape in *. transitivity (map (map (@length R)) y); [apply scaled_shape|]. rewrite SY. symmetry. exact SM. }
  assert (DF2 : exact_gradient f' grad' (moments h r)) by (intros y SY; apply DF'; unfold same_shape in *; congruence).
  destruct (one_group h r _ eq_refl) as (ts & TS & _). rewrite TS in *.
  assert (NZ : forall i, nth i (factors u g) 1 <> 0).
  { assert (P : Forall (fun a => 0 < a) (factors u g)).
    { clear - U. induction g as [g S|gs IH] using ShootingPack.gman_ind'; [destruct g; try (elim S); repeat constructor; try exact U; apply Rmult_lt_0_compat; exact U|]. cbn [factors]. induction IH as [|g gs A _ B]; [constructor|]. cbn [flat_map]. apply Forall_app. auto. }
    intros i. destruct (Nat.lt_ge_cases i (length (factors u g))) as [I|I]; [|rewrite nth_overflow by exact I; lra]. rewrite Forall_forall in P. specialize (P _ (nth_In _ 1 I)). lra. }
  exact (tensor_gradients (u * u) (fun i => nth i (factors u g) 1) ts f f' grad grad' x NZ FF DF DF2 SX).
Qed.
Print Assumptions C110_gradients.

(** ** A case: one point and a global translation, on the line, in a unit twice as small
    The point 1 is sent towards 7, or the point 2 towards 14; the loss is the squared
    distance.  Its unit is that of the cost: lam is kept. *)
Definition sq : attachment := fun x y => match x, y with p :: _, q :: _ => Ok ((p @2 0%nat 0%nat - q @2 0%nat 0%nat) ^ 2) | _, _ => Ok 0 end.
Definition base : res (heap * reg) := registration (mkHeap [] []) [pt1] [gt1] [sq] false false [] 2 [] "sum" None None.
Definition base_state : heap * reg := Eval cbv -[IZR one11 tzeros sq] in value no_model base.
Definition fine : res (heap * reg) := registration (mkHeap [] []) [pt2] [gt1] [sq] false false [] 2 [] "sum" None None.
Definition fine_state : heap * reg := Eval cbv -[IZR two11 tzeros sq] in value no_model fine.

Lemma sq_costs sv b0 h r q goal a : exact_solver sv -> shape q = [1%nat; 1%nat] -> filled (with_moments h r [[[a]]]) r = Ok ([DPoints (GLm 1 1 q (of_entries [1%nat; 1%nat] [a]))], [gt1]) ->
  r_fit_controls r = false -> r_reduce r = "sum" -> r_lam r = 2 -> r_att r = [sq] ->
  is_ok (evaluate real_clock no_others sv b0 std_ag (with_moments h r [[[a]]]) r [[goal]] "euler" 1 1 []) ->
  fit_costs real_clock no_others sv b0 std_ag h r [[goal]] "euler" 1 1 [[[a]]] = [("deformation", Fin (a * a / 2)); ("attach", Fin (2 * (q @2 0%nat 0%nat + a - goal @2 0%nat 0%nat) ^ 2))].
Proof.
  intros HS Sq F RF RR RL RA ((cost & r1) & V). unfold fit_costs. rewrite V. destruct (evaluate_inv real_clock no_others sv b0 std_ag _ _ _ _ _ _ _ _ V) as (defs & mods & o & atts & F' & CD & AC & _ & ->).
  rewrite F in F'. injection F' as <- <-. unfold steps_of, controls_of in CD. rewrite RF in CD. destruct (compute_inv real_clock no_others sv b0 std_ag _ _ _ _ _ _ _ _ CD) as (sh & ms & m' & S & MM & _ & RD & DL & _).
  cbn [given] in S, RD. destruct (line_shot no_others sv b0 HS q a sh Sq S) as (CO & q1 & p1 & g2 & M1 & Sq1 & E1). rewrite MM in M1. cbn [mod_manifold] in M1. injection M1 as M1. destruct ms as [|m1 ms]; [discriminate M1|]. cbn [map] in M1. injection M1 as M1 _.
  unfold reduction in RD. rewrite RR, CO in RD. cbn in RD. injection RD as RD _. rewrite <- RD. cbn [length firstn deformed_list] in DL. rewrite M1 in DL. cbn in DL. injection DL as DL. rewrite <- DL, RA in AC.
  cbn in AC. injection AC as <-. rewrite RL. cbn. cbn in E1. rewrite E1. apply f_equal2; [f_equal; f_equal; ring|]. apply f_equal2; [f_equal; f_equal; ring|reflexivity].
Qed.

(** a^2 / 2 + 2 (a - K)^2 *)
Definition valley_grad (K : R) (x : params) : params := match x with [[[a]]] => [[[a + 4 * (a - K)]]] | _ => x end.
Lemma valley_exact (f : params -> FitModel.costs) K b0 : (forall b, f [[[b]]] = [("deformation", Fin (b * b / 2)); ("attach", Fin (2 * (b - K) ^ 2))]) ->
  exact_gradient (fun y => FitModel.total (f y)) (valley_grad K) [[[b0]]].
Proof.
  intros Hf x SX. destruct (one_shape x SX) as (a & ->). exists (0 + a * a / 2 + 2 * (a - K) ^ 2). split; [rewrite Hf; reflexivity|]. split; [reflexivity|]. intros eps PE. exists (eps / 3). split; [lra|].
  intros y Ey D. destruct (one_shape y Ey) as (b & ->). exists (0 + b * b / 2 + 2 * (b - K) ^ 2). split; [rewrite Hf; reflexivity|]. unfold dist1, SpecOptim.pairing, flat_params, valley_grad in *. cbn in *. rewrite Rplus_0_r in *.
  replace (_ - _) with (5 / 2 * ((b - a) * (b - a))) by field. rewrite !Rabs_mult, (Rabs_pos_eq (5 / 2)) by lra. pose proof (Rabs_pos (b - a)). nra.
Qed.

(** The two registrations, for every target g. *)
Lemma units_case b0 g : shape g = [1%nat; 1%nat] ->
  problem_in_units 1 2 4 [pt1] [gt1] [sq] [[g]] [pt2] [gt1] [sq] [[goal2 g]] /\
  (forall x, same_shape x (moments (fst base_state) (snd base_state)) ->
     is_ok (evaluate real_clock no_others exact_sv b0 std_ag (with_moments (fst base_state) (snd base_state) x) (snd base_state) [[g]] "euler" 1 1 [])) /\
  (forall x, same_shape x (moments (fst fine_state) (snd fine_state)) ->
     is_ok (evaluate real_clock no_others exact_sv b0 std_ag (with_moments (fst fine_state) (snd fine_state) x) (snd fine_state) [[goal2 g]] "euler" 1 1 [])) /\
  (forall a, fit_costs real_clock no_others exact_sv b0 std_ag (fst base_state) (snd base_state) [[g]] "euler" 1 1 [[[a]]] = [("deformation", Fin (a * a / 2)); ("attach", Fin (2 * (a - (g @2 0%nat 0%nat - 1)) ^ 2))]) /\
  (forall a, fit_costs real_clock no_others exact_sv b0 std_ag (fst fine_state) (snd fine_state) [[goal2 g]] "euler" 1 1 [[[a]]] = [("deformation", Fin (a * a / 2)); ("attach", Fin (2 * (a - 2 * (g @2 0%nat 0%nat - 1)) ^ 2))]) /\
  moments (fst base_state) (snd base_state) = [[[1]]] /\ moments (fst fine_state) (snd fine_state) = [[[2]]].
Proof.
  intros Sg. pose proof exact_sv_exact as HS. destruct small_facts as (W & W' & _ & _ & SH & SH' & EW). change ex0 with (start [pt1] [gt1]) in *. change ex2 with (start [pt2] [gt1]) in *.
  assert (LS : locals_smooth 1 (start [pt1] [gt1])) by (cbn; tauto). assert (LS' : locals_smooth 1 (start [pt2] [gt1])) by (cbn; tauto).
  assert (GU : geom_units 2 [g] [goal2 g]) by (split; [split; reflexivity|reflexivity]).
  assert (AU : attached_units 2 4 [pt1] [sq] [[g]] [pt2] [sq] [[goal2 g]]).
  { apply au_cons; [exact Logic.I|exact GU| |apply au_nil]. intros q0 q q' x x' E0 S T D D'. cbn in E0, D, D'. injection E0 as <-. injection D as <-. injection D' as <-. cbn [sq].
    destruct T as (ST & T). rewrite (T [0%nat; 0%nat]) by (rewrite ST; cbn; rewrite S; cbn; lia). cbn. f_equal. ring. }
  assert (PP : problem_in_units 1 2 4 [pt1] [gt1] [sq] [[g]] [pt2] [gt1] [sq] [[goal2 g]]) by (constructor; auto).
  assert (AO : forall a x y, In a [sq] -> is_ok (a x y)).
  { intros a x y [<-|[]]. unfold sq. destruct x; [|destruct y]; eexists; reflexivity. }
  assert (OR : Forall ordinary [pt1] /\ Forall ordinary [pt2]).
  { split; (constructor; [|constructor]); (split; [reflexivity|]); (split; [cbn; eauto 10|]); intros q; eexists; reflexivity. }
  assert (V1 : forall x, same_shape x (moments (fst base_state) (snd base_state)) ->
     is_ok (evaluate real_clock no_others exact_sv b0 std_ag (with_moments (fst base_state) (snd base_state) x) (snd base_state) [[g]] "euler" 1 1 [])).
  { intros x SX. apply (C107_evaluates no_others exact_sv b0 std_ag 1 (mkHeap [] []) [pt1] [gt1] [sq] [[g]] false 2 None None (fst base_state) (snd base_state) SEuler 1 1 x std_exact std_differentiates HS W LS SH); auto; try lra.
    - apply line_everywhere.
    - cbn. tauto.
    - exact (proj1 OR). }
  assert (V2 : forall x, same_shape x (moments (fst fine_state) (snd fine_state)) ->
     is_ok (evaluate real_clock no_others exact_sv b0 std_ag (with_moments (fst fine_state) (snd fine_state) x) (snd fine_state) [[goal2 g]] "euler" 1 1 [])).
  { intros x SX. apply (C107_evaluates no_others exact_sv b0 std_ag 1 (mkHeap [] []) [pt2] [gt1] [sq] [[goal2 g]] false 2 None None (fst fine_state) (snd fine_state) SEuler 1 1 x std_exact std_differentiates HS W' LS' SH'); auto; try lra.
    - apply line_everywhere.
    - cbn. tauto.
    - exact (proj2 OR). }
  assert (M1 : moments (fst base_state) (snd base_state) = [[[1]]]) by reflexivity.
  assert (M2 : moments (fst fine_state) (snd fine_state) = [[[2]]]) by (unfold moments; cbn; do 3 f_equal; lra).
  split; [exact PP|]. split; [exact V1|]. split; [exact V2|]. rewrite M1, M2 in *. split; [|split; [|auto]].
  - intros a. rewrite (sq_costs exact_sv b0 (fst base_state) (snd base_state) one11 g a HS eq_refl eq_refl eq_refl eq_refl eq_refl eq_refl (V1 [[[a]]] eq_refl)).
    replace (one11 @2 0%nat 0%nat + a - g @2 0%nat 0%nat) with (a - (g @2 0%nat 0%nat - 1)); [reflexivity|]. cbn. lra.
  - intros a. rewrite (sq_costs exact_sv b0 (fst fine_state) (snd fine_state) two11 (goal2 g) a HS eq_refl eq_refl eq_refl eq_refl eq_refl eq_refl (V2 [[[a]]] eq_refl)).
    replace (two11 @2 0%nat 0%nat + a - (goal2 g) @2 0%nat 0%nat) with (a - 2 * (g @2 0%nat 0%nat - 1)); [reflexivity|]. cbn. lra.
Qed.

Example C110_hypotheses : forall b0,
  let f x := FitModel.total (fit_costs real_clock no_others exact_sv b0 std_ag (fst base_state) (snd base_state) [[goal0]] "euler" 1 1 x) in
  let f' x := FitModel.total (fit_costs real_clock no_others exact_sv b0 std_ag (fst fine_state) (snd fine_state) [[goal2 goal0]] "euler" 1 1 x) in
  base = Ok base_state /\ fine = Ok fine_state /\ exact_grad std_ag /\ exact_solver exact_sv /\
  problem_in_units 1 2 4 [pt1] [gt1] [sq] [[goal0]] [pt2] [gt1] [sq] [[goal2 goal0]] /\ 2 * 4 = 2 * 2 * 2 /\ points_only (mod_manifold (start [pt1] [gt1])) /\
  (forall x, same_shape x (moments (fst base_state) (snd base_state)) ->
     is_ok (evaluate real_clock no_others exact_sv b0 std_ag (with_moments (fst base_state) (snd base_state) x) (snd base_state) [[goal0]] "euler" 1 1 [])) /\
  (forall x, same_shape x (moments (fst fine_state) (snd fine_state)) ->
     is_ok (evaluate real_clock no_others exact_sv b0 std_ag (with_moments (fst fine_state) (snd fine_state) x) (snd fine_state) [[goal2 goal0]] "euler" 1 1 [])) /\
  exact_gradient f (valley_grad 6) (moments (fst base_state) (snd base_state)) /\ exact_gradient f' (valley_grad 12) (moments (fst fine_state) (snd fine_state)) /\
  moments (fst base_state) (snd base_state) = [[[1]]] /\ moments (fst fine_state) (snd fine_state) = [[[2]]].
Proof.
  intros b0. destruct (units_case b0 goal0 eq_refl) as (PP & V1 & V2 & C1 & C2 & M1 & M2). pose proof exact_sv_exact as HS. pose proof std_exact as SE.
  cbv zeta. do 5 (split; [first [assumption|reflexivity]|]). split; [lra|]. split; [cbn; tauto|]. split; [exact V1|]. split; [exact V2|]. rewrite M1, M2 in *.
  split; [|split; [|auto]].
  - apply (valley_exact (fit_costs real_clock no_others exact_sv b0 std_ag (fst base_state) (snd base_state) [[goal0]] "euler" 1 1)). intros a. rewrite C1. cbn. do 5 f_equal. lra.
  - apply (valley_exact (fit_costs real_clock no_others exact_sv b0 std_ag (fst fine_state) (snd fine_state) [[goal2 goal0]] "euler" 1 1)). intros a. rewrite C2. cbn. do 5 f_equal. lra.
Qed.
