(** Vocabulary for lists of tensors as Python values. *)
From Coq Require Import List.
From Verif Require Import ManifoldModel.

(** A tensor or None. *)
Definition pyv_of (o : option tob) : pyv := match o with Some t => VT t | None => VNone end.

(** Tensors of a nested list. *)
Inductive tensor_in (t : tob) : pyv -> Prop :=
| ti_here : tensor_in t (VT t)
| ti_list v l : In v l -> tensor_in t v -> tensor_in t (VL l).
