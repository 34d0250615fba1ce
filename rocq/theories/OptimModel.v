(** Model of imodal/Models: optimizer_gd.py, optimizer_torch.py, optimizer_scipy.py,
    optimizer.py, fitter.py and Utilities/compute_backend.py, append_in_dict_of_list. *)
From Coq Require Import Reals String List Arith Bool.
From Verif Require Import Py Fl.
Import ListNotations.
Open Scope list_scope.
Open Scope nat_scope.

(** ** optimizer_gd.py *)

(** The parameters of a model: groups of tensors; a tensor is the list of its entries. *)
Definition params := list (list (list R)).

(** A parameter group as given to the optimizer: its optional settings
    (optimizer_gd.py:34-35, 108-109). *)
Record group := mkGroup { g_step : option R; g_gamma1 : option R; g_gamma2 : option R }.

Record gd_conf := mkConf { init_step : R; gamma1 : R; gamma2 : R; groups : list group }.

(** reset, 28-38 *)
Definition gd_reset (c : gd_conf) : list R :=
  map (fun g => match g_step g with Some s => s | None => init_step c end) (groups c).

(** __update_step_length, 106-111, for 'gamma1' and 'gamma2' *)
Definition update1 (c : gd_conf) (ss : list R) : list R :=
  map (fun p => (match g_gamma1 (fst p) with Some g => g | None => gamma1 c end * snd p)%R)
      (combine (groups c) ss).
Definition update2 (c : gd_conf) (ss : list R) : list R :=
  map (fun p => (match g_gamma2 (fst p) with Some g => g | None => gamma2 c end * snd p)%R)
      (combine (groups c) ss).

(** x - step_length * d, 94-98 *)
Definition move_tensor (s : R) (x d : list R) : list R :=
  map (fun p => (fst p - s * snd p)%R) (combine x d).
Definition move (ss : list R) (x d : params) : params :=
  map (fun p => map (fun q => move_tensor (snd p) (fst q) (snd q)) (combine (fst (fst p)) (snd (fst p))))
      (combine (combine x d) ss).

(** State of the optimizer and of the model it works on. *)
Record gd_state := mkGd { gd_params : params; gd_steps : list R; gd_count : nat }.

(** The while loop of step, 55-78.  [f] is the cost given by the closure, [x] the
    parameters before the call, [d] the gradient, [cx] the cost at [x], [n] the value of
    line_seach_step.  One unit of fuel per trial; [None] = still looping. *)
Fixpoint gd_loop (c : gd_conf) (f : params -> fl) (x d : params) (cx : fl) (cnt : nat)
    (fuel n : nat) (ss : list R) : option gd_state :=
  match fuel with
  | 0 => None
  | S fuel' =>
      let y := move ss x d in
      let cy := f y in
      if (flt cy cx && isfinite cy)%bool then
        Some (mkGd y (if Nat.eqb n 1 then update2 c ss else ss) cnt)
      else if feq cy cx then Some (mkGd y ss cnt)
      else gd_loop c f x d cx cnt fuel' (S n) (update1 c ss)
  end.

(** step, 47-78; [grad] is the gradient left in param.grad by the closure. *)
Definition gd_step (c : gd_conf) (f : params -> fl) (grad : params -> params) (fuel : nat) (st : gd_state)
  : option gd_state :=
  let x := gd_params st in
  gd_loop c f x (grad x) (f x) (S (gd_count st)) fuel 1 (gd_steps st).

(** ** optimizer_torch.py *)

Record opt_result := mkRes { r_success : bool; r_final : fl; r_neval : fl }.

(** optimize, 64-81.  The i-th call of the torch optimizer's step() leaves in
    self.__last_costs costs whose sum is [fst (outs i)] and makes the evaluation
    counter [snd (outs i)].  The second component of the result counts the calls of
    step(), hence also those of post_iteration_callback. *)
Fixpoint torch_loop (outs : nat -> fl * nat) (tol : R) (miniter : nat) (last : fl) (i remaining : nat)
    (bound : option fl) : res opt_result * nat :=
  match remaining with
  | 0 => (match bound with
          | Some total => Ok (mkRes false total (Fin (INR (snd (outs (i - 1))))))
          | None => Err UnboundLocalError          (* total_cost was never assigned *)
          end, i)
  | S rem =>
      let (total, neval) := outs i in
      if isnan total then (Ok (mkRes false NaN total), S i)
      else if (fle (fdiv (fsub last total) (fmax (fmax total last) (Fin 1))) (Fin tol)
               && Nat.leb miniter i)%bool
      then (Ok (mkRes true total (Fin (INR neval))), S i)
      else torch_loop outs tol miniter total (S i) rem (Some total)
  end.
Definition torch_optimize (outs : nat -> fl * nat) (max_iter : nat) (tol : option R) (miniter : nat)
  : res opt_result * nat :=
  torch_loop outs (match tol with Some t => t | None => (/ 10 ^ 10)%R end) miniter PInf 0 max_iter None.

(** ** optimizer_scipy.py *)

(** A tensor parameter: shape, entries in row-major order, contiguity. *)
Record ptensor := mkP { p_shape : list nat; p_data : list R; p_contig : bool }.
Definition p_numel (t : ptensor) : nat := fold_right Nat.mul 1 (p_shape t).

(** __model_to_numpy, 112-123 (grad=False).  np.hstack raises ValueError on an empty
    list.  Conversions to and from float64 are the identity here. *)
Definition model_to_numpy (ps : list ptensor) : res (list R) :=
  if forallb p_contig ps then
    match ps with [] => Err ValueError | _ => Ok (List.concat (map p_data ps)) end
  else Err ValueError.

(** __numpy_to_model, 125-134: the parameters are written one after the other; view()
    raises RuntimeError when the slice is too short. *)
Fixpoint write_params (ps : list ptensor) (x : list R) (i : nat) : list ptensor * option exn * nat :=
  match ps with
  | [] => ([], None, i)
  | p :: ps' =>
      let piece := firstn (p_numel p) (skipn i x) in
      if Nat.eqb (length piece) (p_numel p) then
        match write_params ps' x (i + p_numel p) with
        | (ps'', e, j) => (mkP (p_shape p) piece true :: ps'', e, j)
        end
      else (p :: ps', Some RuntimeError, i)
  end.
Definition numpy_to_model (ps : list ptensor) (x : list R) : list ptensor * option exn :=
  match write_params ps x 0 with
  | (ps', Some e, _) => (ps', Some e)
  | (ps', None, i) => (ps', if Nat.eqb i (length x) then None else Some AssertionError)
  end.

(** The value returned by the closures _evaluate, 54-81 and 85-105, for the costs of
    the model; in the gradient variant [dnan] tells whether the gradient has NaN
    entries.  sum(costs.values()) of the float inf raises AttributeError. *)
Definition scipy_cost (costs : list (string * fl)) (naninf : bool) (grad : bool) (dnan : bool) : res fl :=
  let nan := existsb (fun p => isnan (snd p)) costs in
  if nan then
    if naninf then
      if (grad && dnan && negb naninf)%bool then Err ValueError
      else Err AttributeError                      (* costs is now the float inf *)
    else Err ValueError
  else if (grad && dnan && negb naninf)%bool then Err ValueError
  else Ok (fold_left fadd (map snd costs) (Fin 0)).

(** ** Dictionaries *)
Section Dict.
  Context {V : Type}.
  Definition dict := list (string * V).
  Fixpoint dget (k : string) (d : dict) : option V :=
    match d with
    | [] => None
    | (k', v) :: d' => if String.eqb k k' then Some v else dget k d'
    end.
  Fixpoint dset (k : string) (v : V) (d : dict) : dict :=
    match d with
    | [] => [(k, v)]
    | (k', v') :: d' => if String.eqb k k' then (k, v) :: d' else (k', v') :: dset k v d'
    end.
  Definition ddel (k : string) (d : dict) : dict :=
    filter (fun p => negb (String.eqb k (fst p))) d.
  Definition dmem (k : string) (d : dict) : bool :=
    match dget k d with Some _ => true | None => false end.
  Definition dkeys (d : dict) : list string := map fst d.
End Dict.
Arguments dict V : clear implicits.

(** append_in_dict_of_list, usefulfunctions.py:283-288 *)
Definition append_in_dict_of_list {A} (base : dict (list A)) (d : dict A) : dict (list A) :=
  fold_left (fun b p =>
    match dget (fst p) b with
    | None => dset (fst p) [snd p] b
    | Some l => dset (fst p) (l ++ [snd p]) b
    end) d base.

(** ** optimizer.py *)

(** The two implementations of BaseOptimizer.optimize. *)
Inductive impl := ITorch | IScipy.

(** Their parameter lists after self, with the number of parameters without default:
    optimizer_torch.py:30 and optimizer_scipy.py:29. *)
Definition opt_params (k : impl) : list string * nat :=
  match k with
  | ITorch => (["target"; "max_iter"; "post_iteration_callback"; "costs"; "shoot_solver"; "shoot_it";
                "tol"; "options"; "miniter"]%string, 7)
  | IScipy => (["target"; "max_iter"; "post_iteration_callback"; "costs"; "shoot_solver"; "shoot_it";
                "tol"; "options"]%string, 7)
  end.

(** A Python call with [npos] positional arguments and the keywords [kw]: TypeError on too
    many positional arguments, on an unknown keyword, on a parameter given twice and on a
    missing one. *)
Definition call_ok (sig : list string * nat) (npos : nat) (kw : list string) : bool :=
  let (names, nreq) := sig in
  (Nat.leb npos (length names)
   && forallb (fun k => existsb (String.eqb k) (skipn npos names)) kw
   && forallb (fun n => existsb (String.eqb n) kw) (skipn npos (firstn nreq names)))%bool.

(** The registry: __optimizers and __default_optimizer, filled by the calls of
    register_optimizer (optimizer_scipy.py:151-156, optimizer_torch.py:94-98). *)
Record registry := mkReg { reg : dict impl; default_opt : string }.
Definition register_optimizer (m : string) (o : impl) (r : registry) : registry :=
  mkReg (dset m o (reg r)) (default_opt r).
Definition initial_registry : registry :=
  fold_left (fun r p => register_optimizer (fst p) (snd p) r)
    [("scipy_nelder-mead", IScipy); ("scipy_powell", IScipy); ("scipy_cg", IScipy); ("scipy_bfgs", IScipy);
     ("scipy_newton-cg", IScipy); ("scipy_l-bfgs-b", IScipy);
     ("torch_sgd", ITorch); ("torch_lbfgs", ITorch); ("gd", ITorch)]%string
    (mkReg [] "scipy_l-bfgs-b").
Definition is_valid_optimizer (m : string) (r : registry) : bool := dmem m (reg r).
Definition list_optimizers (r : registry) : list string := dkeys (reg r).
Definition get_default_optimizer (r : registry) : string := default_opt r.
(** create_optimizer, 24-26 *)
Definition create_optimizer (m : string) (r : registry) : res impl :=
  _ <- py_assert (is_valid_optimizer m r) ;;
  match dget m (reg r) with Some o => Ok o | None => Err KeyError end.
(** set_default_optimizer, 29-31: the assignment makes a local variable *)
Definition set_default_optimizer (m : string) (r : registry) : registry * option exn :=
  if is_valid_optimizer m r then
    let local_default_optimizer := m in (r, None)
  else (r, Some AssertionError).

(** compute_backend.py *)
Definition set_compute_backend (b : string) (cur : string) : string * option exn :=
  if (negb (String.eqb b "torch") && negb (String.eqb b "keops"))%bool then (cur, Some RuntimeError)
  else (b, None).
Definition is_valid_backend (b : string) : bool := existsb (String.eqb b) ["keops"; "torch"]%string.
Definition initial_backend : string := "torch".

(** ** fitter.py *)

(** Values of the options dictionary. *)
Inductive optv := OStr (s : string) | ONat (n : nat) | OReal (r : R) | OOther.

(** How the optimizer was used by one call of fit: solver, number of shooting steps,
    tolerance, max_iter, miniter, the options it received. *)
Record usage := mkUsage {
  u_solver : optv; u_it : optv; u_tol : option optv; u_max_iter : nat; u_miniter : nat;
  u_options : dict optv
}.

(** OptimizerScipy.optimize, 29-45: sets options['maxiter'] in the caller's dictionary
    ([None] is replaced by a new one) before handing it to scipy. *)
Definition scipy_options (max_iter : nat) (options : dict optv) : dict optv :=
  dset "maxiter" (ONat max_iter) options.

(** fit, 31-95, without the initial evaluation, the displays and the callbacks: the new
    contents of the options dictionary (it is mutated), and the use made of the
    optimizer or the exception.  The call at line 81 has 7 positional arguments and the
    keywords miniter and options. *)
Definition fit (k : impl) (max_iter : nat) (options : dict optv) (miniter : nat) : dict optv * res usage :=
  let take key (d : dict optv) :=
    match dget key d with Some v => (Some v, ddel key d) | None => (None, d) end in
  let (solver, o1) := take "shoot_solver"%string options in
  let (it, o2) := take "shoot_it"%string o1 in
  let (tol, o3) := take "tol"%string o2 in
  let solver := match solver with Some v => v | None => OStr "euler" end in
  let it := match it with Some v => v | None => ONat 10 end in
  if call_ok (opt_params k) 7 ["miniter"; "options"]%string then
    let o4 := match k with ITorch => o3 | IScipy => scipy_options max_iter o3 end in
    (o4, Ok (mkUsage solver it tol max_iter miniter o4))
  else (o3, Err TypeError).

(** Fitter(model, optimizer=name).fit(...): __init__, 12-25 and fit; [None] = default. *)
Definition fitter_fit (r : registry) (name : option string) (max_iter : nat) (options : dict optv) (miniter : nat)
  : dict optv * res usage :=
  match create_optimizer (match name with Some n => n | None => get_default_optimizer r end) r with
  | Err e => (options, Err e)
  | Ok k => fit k max_iter options miniter
  end.

(** fit, 56-62 and 88-89: the costs dictionary given by the caller after the initial
    evaluation (with costs [cost0]) and the callbacks (with costs [lasts]).  A callback
    appends only if the dictionary is not empty ("if costs:"). *)
Definition fit_history (costs : dict (list fl)) (cost0 : dict fl) (lasts : list (dict fl)) : dict (list fl) :=
  fold_left (fun c d => match c with [] => c | _ => append_in_dict_of_list c d end) lasts
            (append_in_dict_of_list costs cost0).

(** create_deformation_module_with_backends, DeformationModules/Abstract.py:69-81;
    [current] is what get_compute_backend() returns at the time of the call. *)
Definition create_module {A B} (build_torch build_keops : A -> res B) (current : string)
    (backend : option string) (args : A) : res B :=
  let backend := match backend with None => current | Some b => b end in
  if String.eqb backend "torch" then build_torch args
  else if String.eqb backend "keops" then build_keops args
  else Err NotImplementedError.
