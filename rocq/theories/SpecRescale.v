(** Specification: what a whole optimisation does when its costs are multiplied by a constant. *)
From Coq Require Import Reals List Arith.
From Verif Require Import Py Fl OptimModel FitModel SpecOptim SpecSimilar.
Import ListNotations.
Open Scope list_scope.
Open Scope R_scope.

Definition multiplied (k : R) (c : costs) : costs := map (fun e => (fst e, fscale k (snd e))) c.

(** The same success, message and number of evaluations; the final cost multiplied by k. *)
Definition result_multiplied (k : R) (r : res opt_result) : res opt_result :=
  match r with Ok a => Ok (mkRes (r_success a) (fscale k (r_final a)) (r_neval a)) | Err e => Err e end.
(** Parameters placed by p, states of the optimizer by st; the callback is called as many
    times, with costs multiplied by k. *)
Definition multiplied_outcome {S S'} (k : R) (p : nat -> nat -> list R -> list R) (st : S -> S') (o : outcome (S := S)) : outcome (S := S') :=
  mkOut (result_multiplied k (o_res o)) (each p (o_left o)) (st (o_state o)) (map (option_map (multiplied k)) (o_calls o))
    (map (fun e => (each p (fst e), snd e)) (o_evals o)).

(** Both in the first and in the second unit, the total costs reported after the iterations
    are at least 1. *)
Definition costs_above_one {S} (k : R) (o : outcome (S := S)) : Prop :=
  forall cs a, In (Some cs) (o_calls o) -> total cs = Fin a -> 1 <= a /\ 1 <= k * a.
