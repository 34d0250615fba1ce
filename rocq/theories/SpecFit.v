(** Vocabulary for whole optimisations. *)
From Coq Require Import Reals String List Arith Bool.
From Verif Require Import Py Fl OptimModel SpecOptim FitModel.
Import ListNotations.
Open Scope list_scope.
Open Scope nat_scope.

(** The last parameters of a list of evaluations. *)
Definition last_point (tr : list (params * bool)) : params := fst (last tr ([], false)).

(** Successive steps, evaluating the model at the parameters listed in [trs], lead from the
    parameters [x] to [x'] (and the optimizer from state [s] to [s']). *)
Inductive successive {S} (step : S -> params -> strat S) (f : params -> costs) (grad : params -> params)
  : S -> params -> list (list (params * bool)) -> S -> params -> Prop :=
| succ_none : forall s x, successive step f grad s x [] s x
| succ_step : forall s x tr s1 x1 trs s' x',
    run f grad (step s x) = Some (tr, x1, s1) -> successive step f grad s1 x1 trs s' x' ->
    successive step f grad s x (tr :: trs) s' x'.

(** Every step that returns has evaluated the model. *)
Definition evaluates {S} (step : S -> params -> strat S) : Prop :=
  forall f grad s x tr x' s', run f grad (step s x) = Some (tr, x', s') -> tr <> [].

(** Total cost of the last evaluation of step [i], and the number of evaluations so far. *)
Definition seen (f : params -> costs) (trs : list (list (params * bool))) (i : nat) : fl * nat :=
  (total (f (last_point (nth i trs []))), length (List.concat (firstn (S i) trs))).

(** No reset among these calls. *)
Definition no_reset {O G} (us : list (@use O G)) : Prop := Forall (fun u => u <> UReset) us.
