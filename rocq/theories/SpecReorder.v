(** Specification for C115: a fit whose tensors are listed in another order. *)
From Coq Require Import Reals List Arith Permutation.
From Verif Require Import Py Fl OptimModel FitModel SpecOptim SpecOrder.
Import ListNotations.
Open Scope list_scope.

(** One order for each group of parameters: the i-th tensor of group g becomes the one at
    place (ps_g)_i. *)
Definition orders (ps : list (list nat)) (x : params) : Prop := Forall2 (fun p ts => Permutation p (seq 0 (length ts))) ps x.
Definition reorder (ps : list (list nat)) (x : params) : params := map (fun q => pick (fst q) (snd q)) (combine ps x).

(** What an optimisation does, with the tensors in the other order. *)
Definition reordered_outcome {S} (ps : list (list nat)) (o : outcome (S := S)) : outcome (S := S) :=
  mkOut (o_res o) (reorder ps (o_left o)) (o_state o) (o_calls o) (map (fun e => (reorder ps (fst e), snd e)) (o_evals o)).
