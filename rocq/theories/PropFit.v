(** Properties C99-C101 (what an optimisation leaves in the model and reports), and more on
    C35 and C41. *)
From Coq Require Import Reals Lra Lia String List Arith Bool.
From Verif Require Import Py Fl OptimModel SpecOptim OptimFacts OptimFacts2 PropOptimAux FitModel SpecFit FitFacts.
Import ListNotations.
Open Scope list_scope.
Open Scope R_scope.

(** C35: after construction, or reset(), the step length of a group is its own one if it has
    one, the optimizer's otherwise. *)
Theorem C35_first_steps : forall c, length (gd_reset c) = length (groups c) /\
  forall g gr, nth_error (groups c) g = Some gr ->
    nth g (gd_reset c) 0 = match g_step gr with Some s => s | None => init_step c end.
Proof.
  intros c. split; [apply map_length|]. intros g gr E. unfold gd_reset. apply nth_error_nth.
  rewrite nth_error_map, E. reflexivity.
Qed.
Print Assumptions C35_first_steps.
Example C35_first_steps_case : gd_reset (mkConf 1 (1/5) (13/10) [mkGroup (Some 2) None None; mkGroup None None None]) = [2; 1].
Proof. reflexivity. Qed.

(** C41: the back ends accepted are those declared valid, "torch" and "keops". *)
Theorem C41_valid_backends : forall b cur,
  (is_valid_backend b = true <-> b = "torch"%string \/ b = "keops"%string) /\
  (is_valid_backend b = true <-> set_compute_backend b cur = (b, None)).
Proof.
  intros b cur. unfold is_valid_backend, set_compute_backend. cbn [existsb]. destruct (String.eqb_spec b "keops"); destruct (String.eqb_spec b "torch"); subst; cbn;
    split; split; intros H; try reflexivity; try discriminate; auto; try (destruct H; congruence).
Qed.
Print Assumptions C41_valid_backends.

(** ** C99 *)

(** With any torch optimizer whose steps evaluate the model: the steps are made one after
    the other from the parameters of the model, the callback is called after each of them with
    the costs evaluated last, and the final cost and the number of evaluations that are
    reported are those of the last evaluation (NaN, and failure, if it is NaN). *)
Theorem C99_reported : forall T (step : T -> params -> strat T) f grad cb max_iter tol mi x s o,
  (forall c, cb (Some c) = None) -> evaluates step -> (0 < max_iter)%nat -> optimize step f grad cb max_iter tol mi x s = Some o ->
  exists trs r, successive step f grad s x trs (o_state o) (o_left o) /\ (1 <= length trs <= max_iter)%nat /\
    o_evals o = List.concat trs /\ o_calls o = map (fun tr => Some (f (last_point tr))) trs /\ o_res o = Ok r /\
    let final := total (f (last_point (o_evals o))) in
    (final = NaN -> r = mkRes false NaN NaN) /\
    (final <> NaN -> r_final r = final /\ r_neval r = Fin (INR (length (o_evals o)))).
Proof.
  intros T step f grad cb max_iter tol mi x s o CB AS MI E. destruct (optimize_spec step f grad AS cb CB _ _ _ _ _ _ E) as (trs & SU & EV & CA & NE & TO).
  destruct (torch_optimize_spec _ _ _ _ _ _ MI TO) as (r & ER & N & _ & CASES). exists trs, r.
  split; [exact SU|]. split; [exact N|]. split; [exact EV|]. split; [exact CA|]. split; [exact ER|].
  assert (NN : trs <> []) by (destruct trs; [cbn in N; lia|discriminate]).
  assert (LP : last_point (o_evals o) = last_point (nth (length trs - 1) trs [])).
  { rewrite EV. unfold last_point. f_equal. rewrite (last_concat trs _ [] NE NN). f_equal. destruct (exists_last NN) as (a & t & ->). rewrite last_last, app_length. cbn [length].
    replace (length a + 1 - 1)%nat with (length a) by lia. rewrite app_nth2, Nat.sub_diag by lia. reflexivity. }
  assert (LE : snd (seen f trs (length trs - 1)) = length (o_evals o)).
  { unfold seen. cbn [snd]. rewrite EV. replace (S (length trs - 1)) with (length trs) by lia. rewrite firstn_all. reflexivity. }
  cbv zeta. rewrite LP. unfold total_after, seen in CASES. cbn [fst] in CASES. unfold seen in LE. cbn [snd] in LE.
  destruct CASES as [(A & B)|[(A & _ & _ & B)|(A & _ & _ & B)]]; rewrite B; cbn [r_final r_neval snd]; rewrite ?LE; split; intros H; try congruence; auto.
Qed.
Print Assumptions C99_reported.

(** With the optimizer "gd" the cost reported is the one of the parameters left in the model,
    and it is not larger than the one before the optimisation. *)
Theorem C99_gd : forall c fuel f grad cb max_iter tol mi x s o,
  (forall c, cb (Some c) = None) -> (forall y, same_shape y x -> same_shape (grad y) y) ->
  gd_consistent c grad (mkGd x (c_steps s) (c_count s)) -> total (f x) <> NaN ->
  (0 < max_iter)%nat -> optimize (gd_strat c fuel) f grad cb max_iter tol mi x s = Some o ->
  exists r, o_res o = Ok r /\ r_final r = total (f (o_left o)) /\ fle (r_final r) (total (f x)) = true /\
    r_neval r = Fin (INR (length (o_evals o))).
Proof.
  intros c fuel f grad cb max_iter tol mi x s o CB SG GC NX MI E.
  destruct (C99_reported _ _ f grad cb max_iter tol mi x s o CB (gd_evaluates c fuel) MI E) as (trs & r & SU & N & EV & _ & ER & _ & FI). exists r. split; [exact ER|].
  destruct (gd_successive _ _ _ _ _ _ _ _ _ SU) as (ST & _ & _).
  destruct (gd_monotone c (fun p => total (f p)) grad fuel _ (mkGd x (c_steps s) (c_count s)) _ SG GC NX ST) as (LE & NL & _). cbn [gd_params] in LE, NL.
  assert (NN : trs <> []) by (destruct trs; [cbn in N; lia|discriminate]).
  assert (LP : last_point (o_evals o) = o_left o).
  { destruct (successive_last _ f grad _ _ _ _ _ SU NN) as (s0 & x0 & R). destruct (gd_run _ _ _ _ _ _ _ _ _ R) as (_ & _ & L & _). rewrite <- L, EV.
    assert (F : Forall (fun tr => tr <> []) trs).
    { clear - SU. induction SU as [|s x tr s1 x1 trs s' x' ER SU IH]; constructor; auto. exact (gd_evaluates _ _ _ _ _ _ _ _ _ ER). }
    unfold last_point. f_equal. apply last_concat; assumption. }
  rewrite LP in FI. destruct (FI NL) as (A & B). rewrite A. auto.
Qed.
Print Assumptions C99_gd.

(** The same with torch.optim.SGD: the cost reported is the one before the last update. *)
Theorem C99_sgd : forall lrs f grad cb max_iter tol mi x o,
  (forall c, cb (Some c) = None) -> (0 < max_iter)%nat -> optimize (sgd_strat lrs) f grad cb max_iter tol mi x tt = Some o ->
  exists y r, o_res o = Ok r /\ o_left o = move lrs y (grad y) /\ (total (f y) <> NaN -> r_final r = total (f y)).
Proof.
  intros lrs f grad cb max_iter tol mi x o CB MI E.
  destruct (C99_reported _ _ f grad cb max_iter tol mi x tt o CB (sgd_evaluates lrs) MI E) as (trs & r & SU & N & EV & _ & ER & _ & FI).
  assert (NN : trs <> []) by (destruct trs; [cbn in N; lia|discriminate]).
  destruct (successive_last _ f grad _ _ _ _ _ SU NN) as (s0 & y & R). cbn in R. injection R as RL RX _.
  exists y, r. split; [exact ER|]. split; [symmetry; exact RX|]. intros Z.
  assert (LP : last_point (o_evals o) = y).
  { rewrite EV. assert (F : Forall (fun tr => tr <> []) trs).
    { clear - SU. induction SU as [|s x tr s1 x1 trs s' x' ER SU IH]; constructor; auto. exact (sgd_evaluates _ _ _ _ _ _ _ _ ER). }
    unfold last_point. rewrite (last_concat trs _ [] F NN), <- RL. reflexivity. }
  rewrite LP in FI. exact (proj1 (FI Z)).
Qed.
Print Assumptions C99_sgd.

(** Hence a finding: the final cost reported with "torch_sgd" need not be the one of the
    parameters left in the model; here 1 is reported and 4 is left. *)
Definition square (p : params) : costs := [("attach"%string, ex_cost p)].
Theorem C99_sgd_refuted : exists o r, 
  optimize (sgd_strat [3 / 2]) square ex_grad (fun _ => None) 1 None 0 [[[1]]] tt = Some o /\ o_res o = Ok r /\
  r_final r = Fin 1 /\ total (square (o_left o)) = Fin 4.
Proof.
  assert (T : forall p, total (square p) = Fin (entry p 0 0 0 ^ 2)) by (intros p; unfold total; cbn; f_equal; ring).
  unfold optimize. cbn [optimize_loop run sgd_strat last_costs rev app]. rewrite !T. cbn [isnan].
  change (fle (fdiv (fsub PInf (Fin (entry [[[1]]] 0 0 0 ^ 2))) (fmax (fmax (Fin (entry [[[1]]] 0 0 0 ^ 2)) PInf) (Fin 1))) (Fin (/ 10 ^ 10))) with false.
  cbn [andb option_map optimize_loop before o_res o_left o_state o_calls o_evals]. eexists _, _. split; [reflexivity|]. split; [reflexivity|]. cbn [r_final o_left]. split.
  - f_equal. unfold entry. cbn. ring.
  - rewrite T. f_equal. unfold entry. cbn. field.
Qed.
Print Assumptions C99_sgd_refuted.

Lemma square_loop : (forall p, total (square p) = ex_cost p) -> forall x d cx cnt fuel n ss,
  gd_loop ex_conf (fun p => total (square p)) x d cx cnt fuel n ss = gd_loop ex_conf ex_cost x d cx cnt fuel n ss.
Proof. intros T x d cx cnt. induction fuel as [|fuel IH]; intros n ss; [reflexivity|]. cbn [gd_loop]. rewrite T, IH. reflexivity. Qed.

(** A case of C99_gd: the square of a number, from 3. *)
Example C99_hypotheses : exists o r, optimize (gd_strat ex_conf 2) square ex_grad (fun _ => None) 1 None 0 [[[3]]] (ctl_reset ex_conf) = Some o /\
  o_res o = Ok r /\ r_final r = Fin ((3 / 5) ^ 2) /\ (forall y, same_shape y [[[3]]] -> same_shape (ex_grad y) y) /\
  gd_consistent ex_conf ex_grad (mkGd [[[3]]] (gd_reset ex_conf) 0).
Proof.
  assert (T : forall p, total (square p) = ex_cost p) by (intros p; unfold total, ex_cost; cbn; f_equal; ring).
  assert (G : exists st, gd_step ex_conf (fun p => total (square p)) ex_grad 2 (mkGd [[[3]]] (c_steps (ctl_reset ex_conf)) 0) = Some st /\ entry (gd_params st) 0 0 0 = 3 / 5).
  { destruct ex_step as (st & E & V & _). exists st. split; [|exact V]. rewrite <- E. unfold gd_step, ex_state. cbn [gd_params gd_steps gd_count ctl_reset c_steps]. rewrite T.
    apply (square_loop T). }
  destruct G as (st & E & V). destruct (gd_runs ex_conf square ex_grad 2 (ctl_reset ex_conf) [[[3]]] st E) as (tr & s' & R).
  assert (S1 : forall y, same_shape y [[[3]]] -> same_shape (ex_grad y) y).
  { intros y _. unfold same_shape, ex_grad. rewrite !map_map. apply map_ext. intros g. rewrite !map_map. apply map_ext. intros t. apply map_length. }
  assert (NX : total (square [[[3]]]) <> NaN) by (rewrite T; discriminate).
  assert (O : exists o, optimize (gd_strat ex_conf 2) square ex_grad (fun _ => None) 1 None 0 [[[3]]] (ctl_reset ex_conf) = Some o /\ o_left o = gd_params st /\ o_evals o = tr).
  { unfold optimize. cbn [optimize_loop]. rewrite R. pose proof (gd_evaluates _ _ _ _ _ _ _ _ _ R) as NE. rewrite (last_costs_ne square tr None NE).
    destruct (isnan _); [eexists; split; [reflexivity|split; reflexivity]|]. destruct (fle _ _ && _)%bool; [eexists; split; [reflexivity|split; reflexivity]|].
    cbn [option_map before o_res o_left o_state o_calls o_evals]. eexists. split; [reflexivity|]. split; [reflexivity|]. cbn. apply app_nil_r. }
  destruct O as (o & EO & OL & OE). destruct (C99_gd ex_conf 2 square ex_grad (fun _ => None) 1 None 0 [[[3]]] (ctl_reset ex_conf) o (fun _ => eq_refl) S1) as (r & ER & RF & _ & RN); [repeat split; reflexivity|exact NX|lia|exact EO|].
  exists o, r. split; [exact EO|]. split; [exact ER|]. split; [rewrite RF, T, OL; unfold ex_cost; rewrite V; reflexivity|]. split; [exact S1|repeat split; reflexivity].
Qed.

(** scipy's minimizers: the model is left with the vector evaluated last, whatever the
    minimizer returns; the cost reported is the one the minimizer returns. *)
Theorem C99_scipy : forall f dv dnan naninf need_grad method ps x0 ps' r vs,
  ps <> [] -> model_to_numpy ps = Ok x0 ->
  scipy_optimize f dv dnan naninf need_grad method ps = (ps', Ok r, vs) ->
  map p_shape ps' = map p_shape ps /\ (vs = [] -> ps' = ps) /\ (vs <> [] -> model_to_numpy ps' = Ok (last vs [])) /\
  exists sr, minimize f dv dnan naninf need_grad ps (method x0) = (ps', Ok sr, vs) /\
    r = mkRes (ssuccess sr) (sfun sr) (Fin (INR (snfev sr))).
Proof.
  intros f dv dnan naninf ng method ps x0 ps' r vs N X0 E. unfold scipy_optimize in E. rewrite X0 in E.
  destruct (minimize f dv dnan naninf ng ps (method x0)) as ((ps1, [sr|e]), vs1) eqn:EM; [|discriminate]. injection E as <- <- <-.
  destruct (minimize_held _ _ _ _ _ _ _ _ _ _ N EM) as (A & B & C). split; [exact A|]. split; [exact B|]. split; [exact (C sr eq_refl)|]. exists sr. auto.
Qed.
Print Assumptions C99_scipy.

(** When the model cannot be evaluated at a vector, the error is the caller's and the model
    keeps that vector. *)
Theorem C99_scipy_errors : forall f dv dnan naninf need_grad v k ps ps' e,
  numpy_to_model ps v = (ps', None) -> scipy_cost (f ps') naninf need_grad (dnan ps') = Err e ->
  minimize f dv dnan naninf need_grad ps (MAsk v k) = (ps', Err e, [v]).
Proof. intros f dv dnan naninf ng v k ps ps' e E1 E2. cbn [minimize]. rewrite E1, E2. reflexivity. Qed.
Print Assumptions C99_scipy_errors.

(** A finding: a minimizer that evaluates 1, then 2, and rightly answers that 1 is better,
    leaves the model at 2: the cost reported is 1, the one left 4. *)
Definition square_at (ps : list ptensor) : costs :=
  [("attach"%string, Fin (nth 0 (List.concat (map p_data ps)) 0 ^ 2))].
Definition two_tries (x0 : list R) : minimizer :=
  MAsk x0 (fun c0 _ => MAsk [2] (fun c1 _ => MDone (if flt c1 c0 then mkSci [2] c1 true 2 else mkSci x0 c0 true 2))).
Theorem C99_scipy_refuted : forall dv, exists ps' r vs,
  scipy_optimize square_at dv (fun _ => false) false true two_tries [mkP [1%nat] [1] true] = (ps', Ok r, vs) /\
  r_success r = true /\ r_final r = Fin 1 /\ total (square_at ps') = Fin 4.
Proof.
  intros dv. unfold scipy_optimize. cbn [model_to_numpy forallb p_contig andb map p_data List.concat app].
  unfold two_tries. cbn [minimize]. change (numpy_to_model [mkP [1%nat] [1] true] [1]) with ([mkP [1%nat] [1] true], @None exn).
  unfold scipy_cost at 1. cbn [square_at existsb snd isnan orb andb negb map fold_left fadd].
  change (numpy_to_model [mkP [1%nat] [1] true] [2]) with ([mkP [1%nat] [2] true], @None exn).
  unfold scipy_cost. cbn [square_at existsb snd isnan orb andb negb map fold_left fadd flt p_data List.concat app nth].
  assert (Rltb (0 + 2 ^ 2) (0 + 1 ^ 2) = false) as -> by (apply Rltb_false; lra). cbn [minimize].
  eexists _, _, _. split; [reflexivity|]. cbn [ssuccess sfun r_success r_final]. split; [reflexivity|]. split; [f_equal; ring|].
  unfold total, square_at. cbn. f_equal. ring.
Qed.
Print Assumptions C99_scipy_refuted.

(** ** C100 *)

(** The torch optimizer used by a call of optimize was built with the options and the
    parameter groups of the first call since the last reset (or the creation). *)
Theorem C100_options_of_the_first_call : forall (O G : Type) (pre mid : list (@use O G)) o g o' g',
  pre = [] \/ (exists p, pre = p ++ [UReset]) -> no_reset mid ->
  last (uses None (pre ++ [UOptimize o g])) None = Some (o, g) /\
  last (uses None (pre ++ UOptimize o g :: mid ++ [UOptimize o' g'])) None = Some (o, g).
Proof.
  intros O G pre mid o g o' g' HP HM.
  assert (A : forall (us : list (@use O G)) cur, exists l c, forall us', uses cur (us ++ us') = l ++ uses c us').
  { induction us as [|[o1 g1|] us IH]; intros cur; [exists [], cur; reflexivity| |].
    - destruct (IH (created cur (UOptimize o1 g1))) as (l & c & E). exists (created cur (UOptimize o1 g1) :: l), c. intros us'. cbn [app uses]. rewrite E. reflexivity.
    - destruct (IH None) as (l & c & E). exists l, c. intros us'. cbn [app uses created]. apply E. }
  assert (B : exists l, forall us', uses None (pre ++ us') = l ++ uses None us').
  { destruct HP as [->|(p & ->)]; [exists []; reflexivity|]. destruct (A p None) as (l & c & E). exists l. intros us'. rewrite <- app_assoc, E. reflexivity. }
  destruct B as (l & E). rewrite !E. split; [apply last_last|]. cbn [uses created].
  assert (C : forall us, no_reset us -> last (uses (Some (o, g)) (us ++ [UOptimize o' g'])) None = Some (o, g) /\ uses (Some (o, g)) (us ++ [UOptimize o' g']) <> []).
  { induction us as [|[o1 g1|] us IH]; intros NR.
    - split; [reflexivity|discriminate].
    - destruct (IH ltac:(inversion NR; assumption)) as (L & N). cbn [app uses created]. split; [|discriminate]. destruct (uses (Some (o, g)) (us ++ _)); [congruence|exact L].
    - inversion NR; congruence. }
  destruct (C mid HM) as (L & N). rewrite last_app_ne; [|discriminate]. destruct (uses (Some (o, g)) (mid ++ _)); [congruence|exact L].
Qed.
Print Assumptions C100_options_of_the_first_call.

(** A finding: options given to a second fit, and parameters the model got in between, are
    ignored without a word. *)
Theorem C100_options_refuted : exists (o o' : dict optv) (g g' : list string), o <> o' /\ g <> g' /\
  uses None [UOptimize o g; UOptimize o' g'] = [Some (o, g); Some (o, g)] /\
  uses None [UOptimize o g; UReset; UOptimize o' g'] = [Some (o, g); Some (o', g')].
Proof.
  exists [("lr", OReal 1)]%string, [("lr", OReal 2)]%string, ["cotan"]%string, ["cotan"; "gd"]%string.
  split; [intros H; injection H as H; lra|]. split; [discriminate|]. split; reflexivity.
Qed.
Print Assumptions C100_options_refuted.
Example C100_hypotheses : no_reset [@UOptimize nat nat 1%nat 2%nat].
Proof. constructor; [discriminate|constructor]. Qed.

(** ** C101 *)

(** The iteration number of a Fitter grows by one per step, through successive fits and until
    reset(); the cost histories get the initial costs and those of each step. *)
Theorem C101_iterations : forall t h cost0 calls t' h',
  fit_callbacks t h cost0 (map Some calls) = (t', h') ->
  f_it t' = (f_it t + length calls)%nat /\ f_it (fitter_reset t') = 0%nat /\
  (forall h0, h = Some h0 -> cost0 <> [] -> h' = Some (fold_left append_in_dict_of_list (cost0 :: calls) h0)) /\
  (h = None -> h' = None).
Proof.
  intros t h cost0 calls t' h' E. unfold fit_callbacks in E.
  assert (X : forall cs t h t' h', fold_left (fun s c => post_iteration (fst s) (snd s) c) (map Some cs) (t, h) = (t', h') ->
    f_it t' = (f_it t + length cs)%nat /\ (forall h0, h = Some h0 -> h0 <> [] -> h' = Some (fold_left append_in_dict_of_list cs h0)) /\ (h = None -> h' = None)).
  { clear. induction cs as [|c cs IH]; intros t h t' h' E; cbn [map fold_left] in E.
    - injection E as <- <-. split; [cbn; lia|]. split; [intros h0 -> _; reflexivity|auto].
    - unfold post_iteration at 2 in E. cbn [fst snd] in E. destruct (IH _ _ _ _ E) as (A & B & C). cbn [f_it] in A. split; [cbn [length]; lia|]. split.
      + intros h0 -> N. destruct h0 as [|p h0]; [congruence|]. cbn [fold_left]. apply (B _ eq_refl). apply append_nonempty. discriminate.
      + intros ->. apply C. reflexivity. }
  destruct (X _ _ _ _ _ E) as (A & B & C). split; [exact A|]. split; [reflexivity|]. split.
  - intros h0 -> N. cbn [fold_left]. apply (B _ eq_refl). destruct h0 as [|p h0]; [|apply append_nonempty; discriminate].
    destruct cost0 as [|(k, v) cost0]; [congruence|]. unfold append_in_dict_of_list. cbn [fold_left dget fst snd dset]. apply (append_nonempty [(k, [v])] cost0). discriminate.
  - intros ->. apply C. reflexivity.
Qed.
Print Assumptions C101_iterations.

(** A finding: the callback given to Fitter is never called. *)
Theorem C101_user_callback_refuted : forall t h cost0 calls, f_user_calls (fst (fit_callbacks t h cost0 calls)) = f_user_calls t.
Proof.
  intros t h cost0 calls. unfold fit_callbacks. generalize (match h with Some h => Some (append_in_dict_of_list h cost0) | None => None end) as h1. revert t.
  induction calls as [|c calls IH]; intros t h1; [reflexivity|]. cbn [fold_left]. unfold post_iteration at 2. cbn [fst snd]. rewrite IH. reflexivity.
Qed.
Print Assumptions C101_user_callback_refuted.

(** A finding: with its display, which is on by default, fit raises after its first step when
    the model is an atlas, or a registration model without deformation modules; the parameters
    have already been changed.  Without display, or with a module, the callback never raises
    (and C99_reported applies). *)
Theorem C101_display_refuted : forall T (step : T -> params -> strat T) f grad m max_iter tol mi x s tr x' s',
  evaluates step -> (0 < max_iter)%nat -> m = FAtlas \/ m = FRegistration 0 ->
  run f grad (step s x) = Some (tr, x', s') ->
  exists o e, optimize step f grad (displays true m) max_iter tol mi x s = Some o /\ o_res o = Err e /\ o_left o = x' /\ length (o_calls o) = 1%nat.
Proof.
  intros T step f grad m max_iter tol mi x s tr x' s' AS MI HM ER. destruct max_iter as [|n]; [lia|]. unfold optimize. cbn [optimize_loop]. rewrite ER.
  rewrite (last_costs_ne f tr None (AS _ _ _ _ _ _ _ ER)). destruct HM as [->| ->]; cbn [displays]; eexists _, _; split; try reflexivity; repeat split; reflexivity.
Qed.
Print Assumptions C101_display_refuted.
Theorem C101_display_harmless : forall c n, displays true (FRegistration (S n)) (Some c) = None /\ forall m c, displays false m c = None.
Proof. split; reflexivity. Qed.
Print Assumptions C101_display_harmless.

(** A finding on the optimizer "gd": its attribute minimum_found stays False, and
    total_evaluation_count counts the steps, each of which makes at least two evaluations. *)
Theorem C101_gd_attributes_refuted : forall c fuel f grad x trs s' y,
  successive (gd_strat c fuel) f grad (ctl_reset c) x trs s' y ->
  gd_consistent c grad (mkGd x (gd_reset c) 0) -> (forall z, same_shape z x -> same_shape (grad z) z) -> total (f x) <> NaN ->
  c_min s' = false /\ c_count s' = length trs /\ (2 * length trs <= length (List.concat trs))%nat.
Proof.
  intros c fuel f grad x trs s' y SU GC SG NX. destruct (gd_successive _ _ _ _ _ _ _ _ _ SU) as (A & B & C). split; [exact B|].
  destruct (gd_monotone c (fun p => total (f p)) grad fuel _ (mkGd x (gd_reset c) 0) _ SG GC NX A) as (_ & _ & N). cbn [gd_count] in N. split; lia.
Qed.
Print Assumptions C101_gd_attributes_refuted.
Example C101_hypotheses : exists trs s' y, length trs = 1%nat /\ successive (gd_strat ex_conf 2) square ex_grad (ctl_reset ex_conf) [[[3]]] trs s' y.
Proof.
  destruct C99_hypotheses as (o & r & E & _). destruct (optimize_spec _ square ex_grad (gd_evaluates ex_conf 2) _ (fun _ => eq_refl) _ _ _ _ _ _ E) as (trs & SU & _ & _ & _ & TO).
  exists trs, (o_state o), (o_left o). split; [|exact SU]. assert (MI : (0 < 1)%nat) by lia. destruct (torch_optimize_spec _ _ _ _ _ _ MI TO) as (_ & _ & N & _). lia.
Qed.
