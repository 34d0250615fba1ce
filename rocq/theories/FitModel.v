(** Model of a whole optimisation: OptimizerTorch.optimize with the optimizer "gd" of the
    library or one of torch.optim, OptimizerScipy.optimize, and Fitter.fit around them,
    with the parameters written into the model and what is called and reported.
    The model to be fitted is a function giving the costs of its parameters (model.evaluate,
    a dictionary) and one giving the gradient left in param.grad. *)
From Coq Require Import Reals String List Arith Bool.
From Verif Require Import Py Fl OptimModel.
Import ListNotations.
Open Scope list_scope.
Open Scope nat_scope.

Definition costs := dict fl.
(** sum(costs.values()) *)
Definition total (c : costs) : fl := fold_left fadd (map snd c) (Fin 0).

(** ** One call of step(closure)

    A step writes parameters into the model and calls the closure on them, any number of
    times, choosing according to the answers; then it leaves parameters in the model.  The
    flag tells whether gradients are recorded during the evaluation.  [Busy]: the step has
    not returned within the fuel it was given. *)
Inductive strat (S : Type) : Type :=
| Ask (x : params) (rec : bool) (k : fl -> params -> strat S)
| Leave (x : params) (s : S)
| Busy.
Arguments Ask {S}. Arguments Leave {S}. Arguments Busy {S}.

(** The parameters at which the closure was called, those left in the model, the new state
    of the optimizer.  The closure (optimizer_torch.py:47-62) evaluates the model at the
    parameters it holds and returns the sum of the costs. *)
Fixpoint run {S} (f : params -> costs) (grad : params -> params) (t : strat S)
  : option (list (params * bool) * params * S) :=
  match t with
  | Leave x s => Some ([], x, s)
  | Busy => None
  | Ask x b k =>
      match run f grad (k (total (f x)) (grad x)) with
      | Some (tr, y, s) => Some ((x, b) :: tr, y, s)
      | None => None
      end
  end.

(** The attributes of OptimizerGradientDescent: step lengths, total_evaluation_count,
    minimum_found (set by reset, optimizer_gd.py:28-38). *)
Record gd_ctl := mkCtl { c_steps : list R; c_count : nat; c_min : bool }.
Definition ctl_reset (c : gd_conf) : gd_ctl := mkCtl (gd_reset c) 0 false.

(** The while loop of step, optimizer_gd.py:55-78: minimum_found is there a local variable,
    the attribute [mf] stays as it is. *)
Fixpoint gd_tries (c : gd_conf) (x d : params) (cx : fl) (cnt : nat) (mf : bool) (fuel n : nat) (ss : list R)
  : strat gd_ctl :=
  match fuel with
  | 0 => Busy
  | S fuel' =>
      let y := move ss x d in
      Ask y false (fun cy _ =>
        if (flt cy cx && isfinite cy)%bool then
          Leave y (mkCtl (if Nat.eqb n 1 then update2 c ss else ss) cnt mf)
        else if feq cy cx then Leave y (mkCtl ss cnt mf)
        else gd_tries c x d cx cnt mf fuel' (S n) (update1 c ss))
  end.
(** step, optimizer_gd.py:47-78, and __evaluate, 80-92 *)
Definition gd_strat (c : gd_conf) (fuel : nat) (s : gd_ctl) (x : params) : strat gd_ctl :=
  Ask x true (fun cx d => gd_tries c x d cx (S (c_count s)) (c_min s) fuel 1 (c_steps s)).

(** The step of torch.optim.SGD without momentum (an external library): one evaluation,
    then x - lr gradient; [lrs] are the learning rates of the groups. *)
Definition sgd_strat (lrs : list R) (s : unit) (x : params) : strat unit :=
  Ask x true (fun _ d => Leave (move lrs x d) tt).

(** ** OptimizerTorch.optimize, optimizer_torch.py:44-81 *)
Section Torch.
  Context {S : Type} (step : S -> params -> strat S) (f : params -> costs) (grad : params -> params)
    (callback : option costs -> option exn).

  (** What a run does: result, parameters left, state of the torch optimizer, arguments of
      the calls of post_iteration_callback, parameters evaluated. *)
  Record outcome := mkOut {
    o_res : res opt_result; o_left : params; o_state : S; o_calls : list (option costs);
    o_evals : list (params * bool)
  }.
  Definition before (call : option costs) (tr : list (params * bool)) (o : outcome) : outcome :=
    mkOut (o_res o) (o_left o) (o_state o) (call :: o_calls o) (tr ++ o_evals o).

  (** self.__last_costs after a step that evaluated [tr] *)
  Definition last_costs (tr : list (params * bool)) (lc : option costs) : option costs :=
    match rev tr with (x, _) :: _ => Some (f x) | [] => lc end.

  (** The loop 65-81; [callback] tells what post_iteration_callback raises; [neval] is self.__eval_count, [lc] self.__last_costs, [bound] total_cost. *)
  Fixpoint optimize_loop (tol : R) (miniter : nat) (last : fl) (i remaining : nat)
      (x : params) (s : S) (neval : nat) (lc : option costs) (bound : option fl) : option outcome :=
    match remaining with
    | 0 => Some (mkOut (match bound with
                        | Some t => Ok (mkRes false t (Fin (INR neval)))
                        | None => Err UnboundLocalError
                        end) x s [] [])
    | Datatypes.S rem =>
        match run f grad (step s x) with
        | None => None
        | Some (tr, x', s') =>
            let neval' := neval + length tr in
            let lc' := last_costs tr lc in
            match callback lc', lc' with
            | Some e, _ => Some (mkOut (Err e) x' s' [lc'] tr)
            | None, None => Some (mkOut (Err AttributeError) x' s' [None] tr)     (* None.values() *)
            | None, Some cs =>
                let t := total cs in
                if isnan t then Some (mkOut (Ok (mkRes false NaN t)) x' s' [lc'] tr)
                else if (fle (fdiv (fsub last t) (fmax (fmax t last) (Fin 1))) (Fin tol)
                         && Nat.leb miniter i)%bool
                then Some (mkOut (Ok (mkRes true t (Fin (INR neval')))) x' s' [lc'] tr)
                else option_map (before lc' tr)
                       (optimize_loop tol miniter t (Datatypes.S i) rem x' s' neval' lc' (Some t))
            end
        end
    end.
  Definition optimize (max_iter : nat) (tol : option R) (miniter : nat) (x : params) (s : S) : option outcome :=
    optimize_loop (match tol with Some t => t | None => (/ 10 ^ 10)%R end) miniter PInf 0 max_iter x s 0 None None.
End Torch.

(** ** Creation of the torch optimizer, optimizer_torch.py:27-28, 37-42

    [O] are the options, [G] the parameter groups of the model at that moment.  [None]:
    self.__optimizer is None. *)
Section Creation.
  Context {O G : Type}.
  Inductive use := UOptimize (options : O) (groups : G) | UReset.
  (** The options and groups with which the optimizer used by a call of optimize was built. *)
  Definition created (cur : option (O * G)) (u : use) : option (O * G) :=
    match u with
    | UReset => None
    | UOptimize o g => match cur with None => Some (o, g) | Some c => Some c end
    end.
  (** A history of calls: for each call of optimize, what its optimizer was built with. *)
  Fixpoint uses (cur : option (O * G)) (us : list use) : list (option (O * G)) :=
    match us with
    | [] => []
    | UReset :: us' => uses (created cur UReset) us'
    | UOptimize o g :: us' => created cur (UOptimize o g) :: uses (created cur (UOptimize o g)) us'
    end.
End Creation.

(** ** OptimizerScipy.optimize, optimizer_scipy.py:29-52

    scipy.optimize.minimize (external) calls the function it is given on vectors of its
    choice and returns a result: x, fun, success, nfev. *)
Record sci_res := mkSci { sx : list R; sfun : fl; ssuccess : bool; snfev : nat }.
Inductive minimizer :=
| MAsk (v : list R) (k : fl -> list R -> minimizer)
| MDone (r : sci_res).

(** _evaluate, 54-82 and 84-104: writes the vector into the model, then evaluates it.  [dv]
    is the gradient read by __model_to_numpy(model, True), [dnan] tells whether it contains
    NaN (with naninf it is then replaced by zeros). *)
Fixpoint minimize (f : list ptensor -> costs) (dv : list ptensor -> list R) (dnan : list ptensor -> bool)
    (naninf need_grad : bool) (ps : list ptensor) (m : minimizer)
  : list ptensor * res sci_res * list (list R) :=
  match m with
  | MDone r => (ps, Ok r, [])
  | MAsk v k =>
      match numpy_to_model ps v with
      | (ps', Some e) => (ps', Err e, [v])
      | (ps', None) =>
          match scipy_cost (f ps') naninf need_grad (dnan ps') with
          | Err e => (ps', Err e, [v])
          | Ok c =>
              let d := if dnan ps' then map (fun _ => 0%R) (dv ps') else dv ps' in
              match minimize f dv dnan naninf need_grad ps' (k c d) with
              | (ps'', r, vs) => (ps'', r, v :: vs)
              end
          end
      end
  end.

(** optimize, 29-52: the parameters left, the result and the vectors evaluated.  The
    parameters are read before anything else; 'neval_grad' is never stored (line 50 is an
    annotation, not an assignment). *)
Definition scipy_optimize (f : list ptensor -> costs) (dv : list ptensor -> list R) (dnan : list ptensor -> bool)
    (naninf need_grad : bool) (method : list R -> minimizer) (ps : list ptensor)
  : list ptensor * res opt_result * list (list R) :=
  match model_to_numpy ps with
  | Err e => (ps, Err e, [])
  | Ok x0 =>
      match minimize f dv dnan naninf need_grad ps (method x0) with
      | (ps', Ok r, vs) => (ps', Ok (mkRes (ssuccess r) (sfun r) (Fin (INR (snfev r)))), vs)
      | (ps', Err e, vs) => (ps', Err e, vs)
      end
  end.

(** ** Fitter, fitter.py:11-107

    The user's callback given to __init__ is stored (22) and not used; fit's own callback
    (68-89) counts iterations and appends the costs to the dictionary [hist] when it is not
    empty (88).  [cost0] is the initial evaluation, made when a dictionary is given or [disp]
    is on (57-62).  No module has an attribute last_cost (79): the lists of fit's result stay
    empty. *)
Record fitter := mkFitter { f_it : nat; f_user_calls : list (option costs) }.
Definition fitter_reset (t : fitter) : fitter := mkFitter 0 (f_user_calls t).
Definition post_iteration (t : fitter) (hist : option (dict (list fl))) (c : option costs)
  : fitter * option (dict (list fl)) :=
  (mkFitter (S (f_it t)) (f_user_calls t),
   match hist, c with
   | Some (p :: h), Some c => Some (append_in_dict_of_list (p :: h) c)
   | _, _ => hist
   end).
Definition fit_callbacks (t : fitter) (hist : option (dict (list fl))) (cost0 : costs) (calls : list (option costs))
  : fitter * option (dict (list fl)) :=
  fold_left (fun s c => post_iteration (fst s) (snd s) c) calls
    (t, match hist with Some h => Some (append_in_dict_of_list h cost0) | None => None end).

(** What the display of an iteration raises (70-83): it reads model.deformation_modules[0],
    which registration models have (registration_model.py:101-103) and atlases have not. *)
Inductive fitted := FAtlas | FRegistration (modules : nat).
Definition displays (disp : bool) (m : fitted) (c : option costs) : option exn :=
  if disp then
    match c with
    | None => Some AttributeError                     (* __print_costs(None) *)
    | Some _ => match m with
                | FAtlas => Some AttributeError
                | FRegistration 0 => Some IndexError
                | FRegistration _ => None
                end
    end
  else None.
