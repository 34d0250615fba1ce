(** Properties C35-C41, C60, C61 and C64: optimizers, fitter, registries, small helpers. *)
From Coq Require Import Reals String List Arith Bool.
From Verif Require Import Py Fl OptimModel SpecOptim OptimFacts OptimFacts2 PropOptimAux.
From Verif Require ManifoldModel SpecShared SharedFacts.
Import ListNotations.
Open Scope list_scope.
Open Scope R_scope.

(** C35: when step() returns after [k] rejected tries, the parameters are x - s gradient
    with s = gamma1^k times the step length of the group; every earlier try was neither
    lower and finite nor equal; the new cost is lower and finite, or equal; the step
    lengths become gamma2 s after a first-try decrease and gamma1^k s otherwise. *)
Theorem C35_step : forall c f grad fuel st st',
  gd_consistent c grad st -> gd_step c f grad fuel st = Some st' ->
  let x := gd_params st in
  exists k,
    gd_params st' = moved (tried c (gd_steps st) k) x (grad x) /\
    (forall k', (k' < k)%nat -> ~ lower (f (moved (tried c (gd_steps st) k') x (grad x))) (f x) /\
                                ~ unchanged (f (moved (tried c (gd_steps st) k') x (grad x))) (f x)) /\
    (lower (f (gd_params st')) (f x) \/ unchanged (f (gd_params st')) (f x)) /\
    length (gd_steps st') = length (gd_steps st) /\
    (k = 0%nat -> lower (f (gd_params st')) (f x) ->
       forall g, (g < length x)%nat -> nth g (gd_steps st') 0 = gam2 c g * nth g (gd_steps st) 0) /\
    ((0 < k)%nat \/ unchanged (f (gd_params st')) (f x) ->
       forall g, (g < length x)%nat -> nth g (gd_steps st') 0 = gam1 c g ^ k * nth g (gd_steps st) 0) /\
    gd_count st' = S (gd_count st).
Proof. exact gd_step_spec. Qed.
Print Assumptions C35_step.

(** C35, any number of steps: starting from a cost which is not NaN, the cost never
    increases and never becomes NaN. *)
Theorem C35_monotone : forall c f grad fuel n st st',
  (forall x, same_shape x (gd_params st) -> same_shape (grad x) x) ->
  gd_consistent c grad st -> f (gd_params st) <> NaN ->
  gd_steps_n c f grad fuel n st = Some st' ->
  fle (f (gd_params st')) (f (gd_params st)) = true /\ f (gd_params st') <> NaN /\
  gd_count st' = (n + gd_count st)%nat.
Proof. exact gd_monotone. Qed.
Print Assumptions C35_monotone.

Example C35_hypotheses : gd_consistent ex_conf ex_grad ex_state /\
  exists st', gd_step ex_conf ex_cost ex_grad 2 ex_state = Some st' /\
    entry (gd_params st') 0 0 0 = 3 / 5 /\ nth 0 (gd_steps st') 0 = 2 / 5.
Proof. exact (conj ex_consistent ex_step). Qed.

(** C36: step() returns when the cost is differentiable at the current parameters with the
    gradient it is given, the step lengths being positive and gamma1 in (0, 1). *)
Theorem C36_terminates : forall c f grad st a,
  gd_consistent c grad st ->
  (forall g, (g < length (gd_params st))%nat -> 0 < gam1 c g < 1 /\ 0 < nth g (gd_steps st) 0) ->
  differentiable_at f (gd_params st) a (grad (gd_params st)) ->
  exists fuel st', gd_step c f grad fuel st = Some st'.
Proof. exact gd_terminates. Qed.
Print Assumptions C36_terminates.

(** C36, the limit of the claim: if the cost is NaN at the current parameters, step()
    never returns. *)
Theorem C36_nan_diverges : forall c f grad fuel st,
  f (gd_params st) = NaN -> gd_step c f grad fuel st = None.
Proof. exact gd_step_nan. Qed.
Print Assumptions C36_nan_diverges.

Example C36_hypotheses :
  gd_consistent ex_conf ex_grad ex_state /\
  (forall g, (g < length (gd_params ex_state))%nat -> 0 < gam1 ex_conf g < 1 /\ 0 < nth g (gd_steps ex_state) 0) /\
  differentiable_at ex_cost (gd_params ex_state) 9 (ex_grad (gd_params ex_state)).
Proof. exact (conj ex_consistent (conj ex_steps_pos ex_differentiable)). Qed.

(** C37, refuted: an increase of the cost is reported as success; max_iter = 0 gives no
    result; the number of evaluations is lost when the cost is NaN. *)
Theorem C37_success_refuted :
  (exists outs, fst (torch_optimize outs 5 None 0) = Ok (mkRes true (Fin 2) (Fin (INR 2))) /\
     total_after outs 0 = Fin 1 /\ total_after outs 1 = Fin 2) /\
  (forall outs tol mi, torch_optimize outs 0 tol mi = (Err UnboundLocalError, 0%nat)) /\
  (exists outs, torch_optimize outs 5 None 0 = (Ok (mkRes false NaN NaN), 1%nat) /\ snd (outs 0%nat) = 1%nat).
Proof. exact torch_success_refuted. Qed.
Print Assumptions C37_success_refuted.

(** C37, what holds for max_iter > 0: [n] steps are made, at most max_iter; the run stops
    at the first NaN (reported as failure), at the first step i >= miniter passing the
    convergence test (success), or after max_iter steps (failure); the final cost and,
    unless NaN, the number of evaluations reported are those after the last step. *)
Theorem C37_result : forall outs max_iter tol mi r n,
  (0 < max_iter)%nat -> torch_optimize outs max_iter tol mi = (r, n) ->
  exists R, r = Ok R /\ (1 <= n <= max_iter)%nat /\
    (forall j, (S j < n)%nat -> total_after outs j <> NaN /\
       ~ (converged (the_tol tol) (total_before outs j) (total_after outs j) /\ (mi <= j)%nat)) /\
    ((total_after outs (n - 1) = NaN /\ R = mkRes false NaN NaN) \/
     (total_after outs (n - 1) <> NaN /\ (mi <= n - 1)%nat /\
      converged (the_tol tol) (total_before outs (n - 1)) (total_after outs (n - 1)) /\
      R = mkRes true (total_after outs (n - 1)) (Fin (INR (snd (outs (n - 1)%nat))))) \/
     (total_after outs (n - 1) <> NaN /\ n = max_iter /\
      ~ (converged (the_tol tol) (total_before outs (n - 1)) (total_after outs (n - 1)) /\ (mi <= n - 1)%nat) /\
      R = mkRes false (total_after outs (n - 1)) (Fin (INR (snd (outs (n - 1)%nat)))))).
Proof. exact torch_optimize_spec. Qed.
Print Assumptions C37_result.

(** C37: with finite costs that never increase, success means a relative decrease
    between 0 and tol at the last step, made after at least miniter others. *)
Theorem C37_success : forall outs max_iter tol mi r n (cost : nat -> R),
  torch_optimize outs max_iter tol mi = (Ok r, n) -> r_success r = true ->
  (forall i, total_after outs i = Fin (cost i)) -> (forall i, cost (S i) <= cost i) ->
  (2 <= n <= max_iter)%nat /\ (mi < n)%nat /\ r_final r = Fin (cost (n - 1)%nat) /\
  0 <= cost (n - 2)%nat - cost (n - 1)%nat <= the_tol tol * Rmax (cost (n - 2)%nat) 1.
Proof. exact torch_success. Qed.
Print Assumptions C37_success.

Example C37_hypotheses : exists outs r, torch_optimize outs 10 (Some 0) 0 = (Ok r, 2%nat) /\ r_success r = true /\
  (forall i, total_after outs i = Fin ((fun _ => 5) i)).
Proof. exact ex_torch. Qed.

(** C38: packing then unpacking changes nothing. *)
Theorem C38_pack_unpack : forall ps x, Forall well_formed ps -> model_to_numpy ps = Ok x ->
  length x = total_numel ps /\ numpy_to_model ps x = (ps, None).
Proof. exact pack_unpack. Qed.
Print Assumptions C38_pack_unpack.

(** C38: any vector of the right length is written with the shapes kept, and read back. *)
Theorem C38_unpack_pack : forall ps x, length x = total_numel ps ->
  exists ps', numpy_to_model ps x = (ps', None) /\ map p_shape ps' = map p_shape ps /\
    (ps <> [] -> model_to_numpy ps' = Ok x).
Proof. exact numpy_to_model_spec. Qed.
Print Assumptions C38_unpack_pack.

(** C38: vectors of the wrong length are rejected; so are non-contiguous parameters. *)
Theorem C38_wrong_length : forall ps x,
  ((length x < total_numel ps)%nat -> snd (numpy_to_model ps x) = Some RuntimeError) /\
  ((total_numel ps < length x)%nat -> snd (numpy_to_model ps x) = Some AssertionError).
Proof. exact wrong_length. Qed.
Print Assumptions C38_wrong_length.

Theorem C38_not_contiguous : forall ps, Exists (fun p => p_contig p = false) ps ->
  model_to_numpy ps = Err ValueError.
Proof. exact not_contiguous. Qed.
Print Assumptions C38_not_contiguous.

(** C38, refuted part: with naninf set a NaN cost is not turned into infinity, it raises
    AttributeError; without naninf it raises ValueError. *)
Theorem C38_naninf_refuted : forall costs, Exists (fun p => snd p = NaN) costs ->
  (forall grad dnan, scipy_cost costs true grad dnan = Err AttributeError) /\
  (forall grad dnan, scipy_cost costs false grad dnan = Err ValueError).
Proof. exact nan_cost. Qed.
Print Assumptions C38_naninf_refuted.

Theorem C38_costs : forall costs naninf grad dnan, Forall (fun p => snd p <> NaN) costs ->
  (grad && dnan && negb naninf)%bool = false ->
  scipy_cost costs naninf grad dnan = Ok (fold_left fadd (map snd costs) (Fin 0)).
Proof. exact not_nan_cost. Qed.
Print Assumptions C38_costs.

Example C38_hypotheses :
  Forall well_formed [mkP [2%nat; 1%nat] [1; 2] true; mkP [] [7] true] /\
  model_to_numpy [mkP [2%nat; 1%nat] [1; 2] true; mkP [] [7] true] = Ok [1; 2; 7].
Proof. exact ex_pack. Qed.

(** C39, refuted: fit raises TypeError with the default optimizer, and of the registered
    optimizers it runs exactly with torch_sgd, torch_lbfgs and gd. *)
Theorem C39_fitter_refuted :
  get_default_optimizer initial_registry = "scipy_l-bfgs-b"%string /\
  (forall max_iter options mi, snd (fitter_fit initial_registry None max_iter options mi) = Err TypeError) /\
  (forall name, In name (list_optimizers initial_registry) ->
     (forall max_iter options mi, is_ok (snd (fitter_fit initial_registry (Some name) max_iter options mi)))
     <-> In name ["torch_sgd"; "torch_lbfgs"; "gd"]%string).
Proof. exact fitter_refuted. Qed.
Print Assumptions C39_fitter_refuted.

(** C39, the characterisation for any registry: fit runs exactly when the optimizer is
    an OptimizerTorch. *)
Theorem C39_fitter : forall r name k max_iter options mi,
  dget name (reg r) = Some k ->
  (is_ok (snd (fitter_fit r (Some name) max_iter options mi)) <-> k = ITorch) /\
  (k = IScipy -> snd (fitter_fit r (Some name) max_iter options mi) = Err TypeError).
Proof. exact fitter_works. Qed.
Print Assumptions C39_fitter.

Example C39_hypotheses : dget "gd" (reg initial_registry) = Some ITorch /\
  dget "scipy_powell" (reg initial_registry) = Some IScipy.
Proof. split; reflexivity. Qed.

(** C40, refuted: fit removes its settings from the caller's dictionary, so that a second
    identical call silently runs with the default solver and number of steps. *)
Theorem C40_options_refuted :
  let o := [("shoot_solver", OStr "rk4"); ("shoot_it", ONat 20)]%string in
  exists o' u1 u2,
    fit ITorch 100 o 0 = (o', Ok u1) /\ o' = [] /\ snd (fit ITorch 100 o' 0) = Ok u2 /\
    u_solver u1 = OStr "rk4" /\ u_it u1 = ONat 20 /\ u_solver u2 = OStr "euler" /\ u_it u2 = ONat 10.
Proof. exact options_refuted. Qed.
Print Assumptions C40_options_refuted.

(** C40, the exact effect: the entries shoot_solver, shoot_it and tol disappear and all
    others are kept, whatever the optimizer and whether or not the call fails. *)
Theorem C40_options_effect : forall k max_iter options mi key,
  dget key (fst (fit k max_iter options mi)) =
    if existsb (String.eqb key) fit_keys then None else dget key options.
Proof. exact options_effect. Qed.
Print Assumptions C40_options_effect.

Theorem C40_options_kept : forall k max_iter options mi,
  (forall key, In key fit_keys -> dget key options = None) ->
  fst (fit k max_iter options mi) = options.
Proof. exact options_kept. Qed.
Print Assumptions C40_options_kept.

(** C40: the settings used are those asked for. *)
Theorem C40_settings : forall k max_iter options mi,
  snd (fit k max_iter options mi) =
  match k with
  | ITorch => Ok (mkUsage (asked "shoot_solver" (OStr "euler") options) (asked "shoot_it" (ONat 10) options)
                (dget "tol" options) max_iter mi (fst (fit k max_iter options mi)))
  | IScipy => Err TypeError
  end.
Proof. intros. rewrite fit_spec. destruct k; reflexivity. Qed.
Print Assumptions C40_settings.

(** C40: the shared default dictionary stays empty, so calls relying on it do not
    influence each other. *)
Theorem C40_default_options : forall calls, fold_left default_after calls [] = [].
Proof. exact default_options_stay_empty. Qed.
Print Assumptions C40_default_options.

(** C40: OptimizerScipy.optimize called directly: max_iter replaces the maxiter of the
    caller's options, whatever it was; the other options are the caller's. *)
Theorem C40_scipy_maxiter : forall max_iter options, dget "maxiter" (scipy_options max_iter options) = Some (ONat max_iter) /\
  forall key, key <> "maxiter"%string -> dget key (scipy_options max_iter options) = dget key options.
Proof.
  intros max_iter options. split; [apply scipy_direct_mutates|]. intros key N. unfold scipy_options. rewrite dget_dset.
  destruct (String.eqb key "maxiter") eqn:E; [apply String.eqb_eq in E; contradiction|reflexivity].
Qed.
Print Assumptions C40_scipy_maxiter.
Example C40_scipy_maxiter_hypotheses : scipy_options 7 [("maxiter", ONat 100); ("naninf", OStr "yes")]%string = [("maxiter", ONat 7); ("naninf", OStr "yes")]%string.
Proof. reflexivity. Qed.

(** C41: the back end is the last known one which was set; unknown ones are rejected
    without effect. *)
Theorem C41_backend : forall ops, snd (rexec ops) = last_backend ops "torch".
Proof. exact backend_last. Qed.
Print Assumptions C41_backend.

Theorem C41_backend_unknown : forall b cur, b <> "torch"%string -> b <> "keops"%string ->
  set_compute_backend b cur = (cur, Some RuntimeError) /\ is_valid_backend b = false.
Proof. exact backend_unknown. Qed.
Print Assumptions C41_backend_unknown.

(** C41, refuted: set_default_optimizer succeeds but has no effect, in any history. *)
Theorem C41_default_refuted :
  snd (set_default_optimizer "gd" initial_registry) = None /\
  get_default_optimizer (fst (set_default_optimizer "gd" initial_registry)) <> "gd"%string.
Proof. exact default_refuted. Qed.
Print Assumptions C41_default_refuted.

Theorem C41_default_never_changes : forall ops,
  get_default_optimizer (fst (rexec ops)) = "scipy_l-bfgs-b"%string.
Proof. exact default_never_changes. Qed.
Print Assumptions C41_default_never_changes.

Theorem C41_unknown_rejected : forall m r, ~ In m (list_optimizers r) ->
  set_default_optimizer m r = (r, Some AssertionError) /\ create_optimizer m r = Err AssertionError.
Proof. exact unknown_rejected. Qed.
Print Assumptions C41_unknown_rejected.

(** C41: after any history, create_optimizer gives the implementation last registered
    under the name, and AssertionError for names never registered. *)
Theorem C41_registered : forall m ops,
  create_optimizer m (fst (rexec ops)) =
  match last_registered m ops (dget m (reg initial_registry)) with
  | Some o => Ok o
  | None => Err AssertionError
  end.
Proof. exact registered_created. Qed.
Print Assumptions C41_registered.

Example C41_hypotheses :
  snd (rexec [RSetBackend "keops"; RSetDefault "gd"; RSetBackend "numpy"]) = "keops"%string /\
  create_optimizer "mine" (fst (rexec [RRegister "mine" ITorch])) = Ok ITorch.
Proof. split; reflexivity. Qed.

(** C60: after any sequence of appends the list of each key is its former list followed by
    the values of that key, in order. *)
Theorem C60_history : forall A k (ds : list (dict A)) base, Forall unique_keys ds ->
  dget k (fold_left append_in_dict_of_list ds base) = appended (dget k base) (values_of k ds).
Proof. exact @append_history. Qed.
Print Assumptions C60_history.

(** C60: the costs dictionary given to fit receives the initial costs and those of every
    iteration. *)
Theorem C60_fit_costs : forall costs cost0 lasts, cost0 <> [] ->
  fit_history costs cost0 lasts = fold_left append_in_dict_of_list (cost0 :: lasts) costs.
Proof. exact fit_history_spec. Qed.
Print Assumptions C60_fit_costs.

(** C60: the callbacks append only to a dictionary that already has costs: if the initial
    evaluation gave none, the caller's empty dictionary stays empty. *)
Theorem C60_fit_costs_none : forall costs lasts,
  fit_history costs [] lasts = match costs with [] => [] | _ => fold_left append_in_dict_of_list lasts costs end.
Proof.
  intros costs lasts. unfold fit_history. change (append_in_dict_of_list costs []) with costs. destruct costs as [|p costs]; [induction lasts; auto|].
  assert (N : p :: costs <> []) by discriminate. revert N. generalize (p :: costs). induction lasts as [|d lasts IH]; intros b Hb; [reflexivity|].
  cbn [fold_left]. destruct b as [|p0 b]; [congruence|]. apply IH. apply append_nonempty. congruence.
Qed.
Print Assumptions C60_fit_costs_none.

Example C60_hypotheses :
  let d1 := [("deformation", Fin 1); ("attach", Fin 2)]%string in
  let d2 := [("deformation", Fin 3); ("attach", Fin 4)]%string in
  Forall unique_keys [d1; d2] /\
  fit_history [] d1 [d2] = [("deformation", [Fin 1; Fin 3]); ("attach", [Fin 2; Fin 4])]%string.
Proof.
  split; [|reflexivity]. repeat constructor; cbn; intros H; repeat (destruct H as [H|H]; [discriminate|]); exact H.
Qed.

(** C61: on flat lists (None entries allowed) the property returned is the one shared by
    all tensors, and None when there is no tensor or they disagree. *)
Import ManifoldModel SpecShared SharedFacts.
Theorem C61_device : forall l,
  (forall d, tensors_device (VL (map pyv_of l)) = Ok (Some d) <->
     (exists t, In (Some t) l) /\ forall t, In (Some t) l -> tdev t = d) /\
  is_ok (tensors_device (VL (map pyv_of l))).
Proof. exact (fun l => shared_spec String.eqb tdev l String.eqb_eq). Qed.
Print Assumptions C61_device.

Theorem C61_dtype : forall l,
  (forall d, tensors_dtype (VL (map pyv_of l)) = Ok (Some d) <->
     (exists t, In (Some t) l) /\ forall t, In (Some t) l -> tdty t = d) /\
  is_ok (tensors_dtype (VL (map pyv_of l))).
Proof. exact (fun l => shared_spec dtype_eqb tdty l dtype_eqb_eq). Qed.
Print Assumptions C61_dtype.

(** C61, refuted for nested lists: they raise AttributeError. *)
Theorem C61_nested_refuted : forall l1 l2 l3,
  tensors_device (VL (map pyv_of l1 ++ VL l2 :: l3)) = Err AttributeError /\
  tensors_dtype (VL (map pyv_of l1 ++ VL l2 :: l3)) = Err AttributeError.
Proof. exact (fun l1 l2 l3 => conj (nested_refuted _ _ l1 l2 l3) (nested_refuted _ _ l1 l2 l3)). Qed.
Print Assumptions C61_nested_refuted.

(** C61: nested lists of any depth work after flatten_tensor_list. *)
Theorem C61_flattened : forall v,
  let flat := VL (map VT (flatten_tensors v)) in
  (forall d, tensors_device flat = Ok (Some d) <->
     (exists t, tensor_in t v) /\ forall t, tensor_in t v -> tdev t = d) /\
  is_ok (tensors_device flat).
Proof. exact (fun v => shared_flattened String.eqb tdev v String.eqb_eq). Qed.
Print Assumptions C61_flattened.

(** C64: the implementation used is that of the requested back end, or of the last known
    back end set when none is requested; unknown ones are rejected. *)
Theorem C64_backend : forall A B (bt bk : A -> res B) ops requested args,
  create_module bt bk (snd (rexec ops)) requested args =
  match requested with
  | Some b => if String.eqb b "torch" then bt args else if String.eqb b "keops" then bk args else Err NotImplementedError
  | None => if String.eqb (last_backend ops "torch") "torch" then bt args else bk args
  end.
Proof. exact @create_module_spec. Qed.
Print Assumptions C64_backend.

Example C64_hypotheses : create_module (fun _ : unit => Ok 0%nat) (fun _ => Ok 1%nat)
  (snd (rexec [RSetBackend "keops"])) None tt = Ok 1%nat.
Proof. reflexivity. Qed.
