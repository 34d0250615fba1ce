(** Specification: a fit whose parameters are placed elsewhere, tensor by tensor, by
    similarities (rotations, reflections, translations, changes of unit). *)
From Coq Require Import Reals List Arith.
From Verif Require Import Py RSum Fl OptimModel FitModel SpecOptim SpecGeometry SpecRigid.
Import ListNotations.
Open Scope list_scope.
Open Scope R_scope.

(** A tensor is the list of its entries: x - s d, the scalar product, r x. *)
Definition away (s : R) (x d : list R) : list R := map (fun p => fst p - s * snd p) (combine x d).
Definition dotl (x y : list R) : R := sumR (map (fun p => fst p * snd p) (combine x y)).
Definition times (r : R) (x : list R) : list R := map (Rmult r) x.

(** p is a similarity of the tensors with n entries; l is its linear part, which multiplies
    lengths by r. *)
Record similarity (n : nat) (r : R) (p l : list R -> list R) : Prop := {
  sim_len : forall x, length x = n -> length (p x) = n /\ length (l x) = n;
  sim_away : forall s x d, length x = n -> length d = n -> p (away s x d) = away s (p x) (l d);
  sim_dot : forall d e, length d = n -> length e = n -> dotl (l d) (l e) = r * r * dotl d e;
  sim_onto : forall e, length e = n -> exists d, length d = n /\ l d = e
}.

(** The entries of a point set of R^d, row by row: each point x becomes u (Q x) + c, where Q
    is a rotation or a reflection and u changes the unit of length.  (With c = 0: moments.) *)
Definition place_points (d : nat) (u : R) (Q : mat) (c : nat -> R) (x : list R) : list R :=
  map (fun k => u * turned d Q (fun b => nth (k / d * d + b) x 0) (k mod d) + c (k mod d)%nat) (seq 0 (length x)).

(** One map for each tensor i of each group g. *)
Fixpoint mapi {A B} (f : nat -> A -> B) (k : nat) (l : list A) : list B :=
  match l with [] => [] | a :: l' => f k a :: mapi f (S k) l' end.
Definition each (p : nat -> nat -> list R -> list R) (x : params) : params := mapi (fun g => mapi (p g) 0) 0 x.
(** For all tensors of the shapes of x, similarities multiplying the lengths of group g by r g. *)
Definition similar (x : params) (r : nat -> R) (p l : nat -> nat -> list R -> list R) : Prop :=
  forall g i ts t, nth_error x g = Some ts -> nth_error ts i = Some t -> similarity (length t) (r g) (p g i) (l g i).

(** Costs multiplied by k. *)
Definition fscale (k : R) (a : fl) : fl := match a with Fin r => Fin (k * r) | _ => a end.

(** The gradients are those of the cost, everywhere. *)
Definition exact_gradient (f : params -> fl) (grad : params -> params) (x0 : params) : Prop :=
  forall x, same_shape x x0 -> exists a, differentiable_at f x a (grad x).

(** Step lengths of the groups multiplied by w g; the same factors gamma1 and gamma2. *)
Definition rescaled (w : nat -> R) (ss : list R) : list R := mapi (fun g s => w g * s) 0 ss.
Definition same_gammas (c c' : gd_conf) : Prop :=
  length (groups c') = length (groups c) /\ forall g, gam1 c' g = gam1 c g /\ gam2 c' g = gam2 c g.

(** A state of the optimizer and of its model, placed. *)
Definition placed_state (p : nat -> nat -> list R -> list R) (w : nat -> R) (st : gd_state) : gd_state :=
  mkGd (each p (gd_params st)) (rescaled w (gd_steps st)) (gd_count st).
Definition placed_ctl (w : nat -> R) (s : gd_ctl) : gd_ctl := mkCtl (rescaled w (c_steps s)) (c_count s) (c_min s).
(** What a whole optimisation does, placed: the same result, the same costs. *)
Definition placed_outcome {S S'} (p : nat -> nat -> list R -> list R) (st : S -> S') (o : outcome (S := S)) : outcome (S := S') :=
  mkOut (o_res o) (each p (o_left o)) (st (o_state o)) (o_calls o) (map (fun e => (each p (fst e), snd e)) (o_evals o)).
