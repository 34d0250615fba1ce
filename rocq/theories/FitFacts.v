(** Facts on whole optimisations. *)
From Coq Require Import Reals Lra Lia String List Arith Bool.
From Verif Require Import Py Fl OptimModel SpecOptim OptimFacts OptimFacts2 FitModel SpecFit.
Import ListNotations.
Open Scope list_scope.
Open Scope nat_scope.

Lemma last_app_ne {A} (a b : list A) d : b <> [] -> last (a ++ b) d = last b d.
Proof.
  intros B. induction a as [|x a IH]; [reflexivity|]. cbn [app]. destruct (a ++ b) eqn:E.
  - apply app_eq_nil in E. tauto.
  - rewrite <- IH. reflexivity.
Qed.
Lemma rev_last {A} (l : list A) d : l <> [] -> exists r, rev l = last l d :: r.
Proof.
  intros N. destruct (exists_last N) as (a & x & ->). exists (rev a). rewrite rev_app_distr, last_last. reflexivity.
Qed.
Lemma last_concat {A} (ls : list (list A)) d dl : Forall (fun l => l <> []) ls -> ls <> [] -> last (List.concat ls) d = last (last ls dl) d.
Proof.
  intros F N. destruct (exists_last N) as (a & x & ->). rewrite concat_app, last_last. cbn [List.concat]. rewrite app_nil_r.
  apply last_app_ne. apply Forall_app in F. destruct F as (_ & F). inversion F. assumption.
Qed.
Lemma firstn_all_app {A} (a b : list A) : firstn (length a) (a ++ b) = a.
Proof. rewrite firstn_app, Nat.sub_diag, firstn_all, firstn_O, app_nil_r. reflexivity. Qed.

(** ** The optimization loop is the one of OptimModel *)
Section Loop.
  Context {S : Type} (step : S -> params -> strat S) (f : params -> costs) (grad : params -> params) (AS : evaluates step)
    (cb : option costs -> option exn) (CB : forall c, cb (Some c) = None).

  Lemma last_costs_ne tr lc : tr <> [] -> last_costs f tr lc = Some (f (last_point tr)).
  Proof. intros N. unfold last_costs, last_point. destruct (rev_last tr ([], false) N) as (r & ->). destruct (last tr _) as (x, b). reflexivity. Qed.

  Lemma loop_spec tol mi : forall rem lst i x s neval lc bound o pre,
    optimize_loop step f grad cb tol mi lst i rem x s neval lc bound = Some o ->
    length pre = i -> neval = length (List.concat pre) -> (bound <> None -> 0 < i) ->
    exists trs, successive step f grad s x trs (o_state o) (o_left o) /\ o_evals o = List.concat trs /\
      o_calls o = map (fun tr => Some (f (last_point tr))) trs /\ Forall (fun tr => tr <> []) trs /\
      torch_loop (seen f (pre ++ trs)) tol mi lst i rem bound = (o_res o, i + length trs).
  Proof.
    induction rem as [|rem IH]; intros lst i x s neval lc bound o pre E LP NV BD; cbn [optimize_loop] in E.
    - injection E as <-. exists []. cbn [o_state o_left o_evals o_calls o_res]. split; [constructor|]. split; [reflexivity|]. split; [reflexivity|]. split; [constructor|].
      cbn [torch_loop length]. rewrite Nat.add_0_r. f_equal. destruct bound as [t|]; [|reflexivity]. specialize (BD ltac:(discriminate)).
      cbn [seen snd]. rewrite app_nil_r. replace (Datatypes.S (i - 1)) with (length pre) by lia. rewrite firstn_all, <- NV. reflexivity.
    - destruct (run f grad (step s x)) as [((tr, x'), s')|] eqn:ER; [|discriminate]. pose proof (AS f grad s x tr x' s' ER) as NE.
      rewrite (last_costs_ne tr lc NE), CB in E. cbv zeta in E.
      assert (NI : forall trs, nth i (pre ++ tr :: trs) [] = tr).
      { intros trs. rewrite app_nth2 by lia. replace (i - length pre) with 0 by lia. reflexivity. }
      assert (SN : forall trs, seen f (pre ++ tr :: trs) i = (total (f (last_point tr)), neval + length tr)).
      { intros trs. unfold seen. rewrite NI. f_equal. replace (pre ++ tr :: trs) with ((pre ++ [tr]) ++ trs) by (rewrite <- app_assoc; reflexivity).
        replace (Datatypes.S i) with (length (pre ++ [tr])) by (rewrite app_length; cbn; lia). rewrite firstn_all_app, concat_app, app_length. cbn [List.concat]. rewrite app_nil_r, NV. reflexivity. }
      destruct (isnan (total (f (last_point tr)))) eqn:NN; [|destruct (fle _ _ && Nat.leb mi i)%bool eqn:CV].
      + injection E as <-. exists [tr]. cbn [o_state o_left o_evals o_calls o_res]. split; [econstructor; [exact ER|constructor]|]. split; [cbn; rewrite app_nil_r; reflexivity|]. split; [reflexivity|]. split; [constructor; [exact NE|constructor]|].
        cbn [torch_loop]. rewrite SN, NN. cbn [length]. f_equal. lia.
      + injection E as <-. exists [tr]. cbn [o_state o_left o_evals o_calls o_res]. split; [econstructor; [exact ER|constructor]|]. split; [cbn; rewrite app_nil_r; reflexivity|]. split; [reflexivity|]. split; [constructor; [exact NE|constructor]|].
        cbn [torch_loop]. rewrite SN, NN, CV. cbn [length]. f_equal. lia.
      + destruct (optimize_loop _ _ _ _ _ _ _ _ rem _ _ _ _ _) as [o'|] eqn:E'; [|discriminate E]. injection E as <-.
        destruct (IH _ _ _ _ _ _ _ _ (pre ++ [tr]) E') as (trs & SU & EV & CA & NEs & TL).
        { rewrite app_length. cbn. lia. } { rewrite concat_app, app_length. cbn [List.concat]. rewrite app_nil_r, NV. reflexivity. } { intros _. lia. }
        exists (tr :: trs). cbn [before o_state o_left o_evals o_calls o_res]. split; [econstructor; eassumption|]. split; [rewrite EV; reflexivity|]. split; [rewrite CA; reflexivity|]. split; [constructor; assumption|].
        cbn [torch_loop]. rewrite SN, NN, CV. rewrite <- app_assoc in TL. cbn [app] in TL. rewrite TL. cbn [length]. f_equal. lia.
  Qed.

  Lemma optimize_spec max_iter tol mi x s o : optimize step f grad cb max_iter tol mi x s = Some o ->
    exists trs, successive step f grad s x trs (o_state o) (o_left o) /\ o_evals o = List.concat trs /\
      o_calls o = map (fun tr => Some (f (last_point tr))) trs /\ Forall (fun tr => tr <> []) trs /\
      torch_optimize (seen f trs) max_iter tol mi = (o_res o, length trs).
  Proof.
    intros E. destruct (loop_spec _ _ _ _ _ _ _ _ _ _ _ [] E eq_refl eq_refl) as (trs & A); [intros N; congruence|]. exists trs. exact A.
  Qed.

  Lemma successive_last s x trs s' x' : successive step f grad s x trs s' x' -> trs <> [] ->
    exists s0 x0, run f grad (step s0 x0) = Some (last trs [], x', s').
  Proof.
    induction 1 as [|s x tr s1 x1 trs s' x' ER SU IH]; intros N; [congruence|]. destruct trs as [|t trs].
    - inversion SU; subst. exists s, x. exact ER.
    - destruct IH as (s0 & x0 & E); [discriminate|]. exists s0, x0. exact E.
  Qed.
End Loop.

(** ** Gradient descent *)
Section Gd.
  Variable c : gd_conf.
  Variable f : params -> costs.
  Variable grad : params -> params.
  Let F := fun p => total (f p).

  Lemma tries_spec x d cx cnt mf : forall fuel n ss tr y s',
    run f grad (gd_tries c x d cx cnt mf fuel n ss) = Some (tr, y, s') ->
    gd_loop c F x d cx cnt fuel n ss = Some (mkGd y (c_steps s') (c_count s')) /\ c_min s' = mf /\
    tr <> [] /\ last_point tr = y /\ Forall (fun e => snd e = false) tr.
  Proof.
    induction fuel as [|fuel IH]; intros n ss tr y s' E; cbn [gd_tries run] in E; [discriminate|]. cbn [gd_loop]. fold (F (move ss x d)) in E. unfold F in E. fold F. change (total (f (move ss x d))) with (F (move ss x d)) in E.
    destruct (flt (F (move ss x d)) cx && isfinite (F (move ss x d)))%bool.
    - cbn [run] in E. injection E as <- <- <-. repeat split; auto. discriminate.
    - destruct (feq (F (move ss x d)) cx).
      + cbn [run] in E. injection E as <- <- <-. repeat split; auto. discriminate.
      + destruct (run f grad _) as [((tr', y'), s'')|] eqn:E'; [|discriminate]. injection E as <- <- <-. destruct (IH _ _ _ _ _ E') as (A & B & N & L & FF). repeat split; auto; [discriminate|].
        destruct tr' as [|e tr']; [congruence|exact L].
  Qed.
  Lemma tries_run x d cx cnt mf : forall fuel n ss st,
    gd_loop c F x d cx cnt fuel n ss = Some st -> exists tr s', run f grad (gd_tries c x d cx cnt mf fuel n ss) = Some (tr, gd_params st, s').
  Proof.
    induction fuel as [|fuel IH]; intros n ss st E; cbn [gd_loop] in E; [discriminate|]. cbn [gd_tries run]. change (total (f (move ss x d))) with (F (move ss x d)).
    destruct (flt (F (move ss x d)) cx && isfinite (F (move ss x d)))%bool; [injection E as <-; eexists _, _; reflexivity|].
    destruct (feq (F (move ss x d)) cx); [injection E as <-; eexists _, _; reflexivity|]. destruct (IH _ _ _ E) as (tr & s' & ->). eexists _, _. reflexivity.
  Qed.

  Lemma gd_run fuel s x tr y s' : run f grad (gd_strat c fuel s x) = Some (tr, y, s') ->
    gd_step c F grad fuel (mkGd x (c_steps s) (c_count s)) = Some (mkGd y (c_steps s') (c_count s')) /\ c_min s' = c_min s /\
    last_point tr = y /\ exists tries, tr = (x, true) :: tries /\ tries <> [] /\ Forall (fun e => snd e = false) tries.
  Proof.
    intros E. unfold gd_strat in E. cbn [run] in E. destruct (run f grad _) as [((tr', y'), s'')|] eqn:E'; [|discriminate]. injection E as <- <- <-.
    destruct (tries_spec _ _ _ _ _ _ _ _ _ _ _ E') as (A & B & N & L & FF). split; [exact A|]. split; [exact B|]. split; [|exists tr'; auto].
    destruct tr' as [|e tr']; [congruence|exact L].
  Qed.
  Lemma gd_runs fuel s x st : gd_step c F grad fuel (mkGd x (c_steps s) (c_count s)) = Some st ->
    exists tr s', run f grad (gd_strat c fuel s x) = Some (tr, gd_params st, s').
  Proof. intros E. destruct (tries_run _ _ _ _ (c_min s) _ _ _ _ E) as (tr & s' & E'). cbn [gd_params gd_steps gd_count] in E'. unfold F in E'. unfold gd_strat. cbn [run]. rewrite E'. eexists _, _. reflexivity. Qed.
  Lemma gd_successive fuel s x trs s' y : successive (gd_strat c fuel) f grad s x trs s' y ->
    gd_steps_n c F grad fuel (length trs) (mkGd x (c_steps s) (c_count s)) = Some (mkGd y (c_steps s') (c_count s')) /\ c_min s' = c_min s /\
    length trs + length trs <= length (List.concat trs).
  Proof.
    induction 1 as [s x|s x tr s1 x1 trs s' x' ER SU (IH & M & L)]; [cbn; auto|]. destruct (gd_run _ _ _ _ _ _ ER) as (A & B & _ & tries & -> & N & _).
    cbn [length gd_steps_n]. rewrite A. split; [exact IH|]. split; [congruence|]. cbn [List.concat]. rewrite app_length. cbn [length]. destruct tries; [congruence|]. cbn [length]. lia.
  Qed.
End Gd.

Lemma gd_evaluates c fuel : evaluates (gd_strat c fuel).
Proof. intros f grad s x tr x' s' E. destruct (gd_run _ _ _ _ _ _ _ _ _ E) as (_ & _ & _ & tries & -> & _). discriminate. Qed.
Lemma sgd_evaluates lrs : evaluates (sgd_strat lrs).
Proof. intros f grad s x tr x' s' E. cbn in E. injection E as <- <- <-. discriminate. Qed.

(** ** scipy *)
Lemma write_shapes : forall ps x i ps' e j, write_params ps x i = (ps', e, j) -> map p_shape ps' = map p_shape ps.
Proof.
  induction ps as [|p ps IH]; intros x i ps' e j E; cbn [write_params] in E; [injection E as <- <- <-; reflexivity|].
  destruct (Nat.eqb _ _); [|injection E as <- <- <-; reflexivity].
  destruct (write_params ps x _) as ((ps1, e1), j1) eqn:E1. injection E as <- <- <-. cbn. f_equal. exact (IH _ _ _ _ _ E1).
Qed.
Lemma numpy_shapes ps x ps' e : numpy_to_model ps x = (ps', e) -> map p_shape ps' = map p_shape ps.
Proof. unfold numpy_to_model. destruct (write_params ps x 0) as ((ps1, [e1|]), j) eqn:E; intros H; injection H as <- _; exact (write_shapes _ _ _ _ _ _ E). Qed.

Lemma numpy_held ps v ps' : ps <> [] -> numpy_to_model ps v = (ps', None) -> model_to_numpy ps' = Ok v /\ map p_shape ps' = map p_shape ps.
Proof.
  intros N E. split; [|exact (numpy_shapes _ _ _ _ E)].
  assert (L : length v = total_numel ps).
  { destruct (Nat.lt_trichotomy (length v) (total_numel ps)) as [H|[H|H]]; [|exact H|]; exfalso; [pose proof (proj1 (wrong_length ps v) H) as X|pose proof (proj2 (wrong_length ps v) H) as X]; rewrite E in X; discriminate X. }
  destruct (numpy_to_model_spec ps v L) as (ps2 & E2 & _ & M). rewrite E in E2. injection E2 as <-. exact (M N).
Qed.
Lemma minimize_held f dv dnan naninf ng : forall m ps ps' r vs, ps <> [] ->
  minimize f dv dnan naninf ng ps m = (ps', r, vs) ->
  map p_shape ps' = map p_shape ps /\ (vs = [] -> ps' = ps) /\ (forall s, r = Ok s -> vs <> [] -> model_to_numpy ps' = Ok (last vs [])).
Proof.
  induction m as [v k IH|s]; intros ps ps' r vs N E; cbn [minimize] in E.
  - destruct (numpy_to_model ps v) as (ps1, [e|]) eqn:E1.
    + injection E as <- <- <-. split; [exact (numpy_shapes _ _ _ _ E1)|]. split; discriminate.
    + destruct (numpy_held ps v ps1 N E1) as (M1 & S1). assert (N1 : ps1 <> []) by (intros ->; destruct ps; [congruence|discriminate S1]).
      destruct (scipy_cost _ _ _ _) as [c|e].
      * destruct (minimize f dv dnan naninf ng ps1 _) as ((ps2, r2), vs2) eqn:E2. injection E as <- <- <-. destruct (IH _ _ _ _ _ _ N1 E2) as (A & B & C).
        split; [congruence|]. split; [discriminate|]. intros s0 RS _. destruct vs2 as [|v2 vs2]; [rewrite (B eq_refl); exact M1|]. exact (C s0 RS ltac:(discriminate)).
      * injection E as <- <- <-. split; [exact S1|]. split; discriminate.
  - injection E as <- <- <-. split; [reflexivity|]. split; [reflexivity|]. intros ? _ X. congruence.
Qed.
