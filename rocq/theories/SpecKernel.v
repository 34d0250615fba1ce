(** Specification: the Gaussian function of R^d and its first and second partial
    derivatives, in the usual mathematical notation.  Vectors of R^d are functions
    of the coordinate index; only coordinates below [d] matter. *)
From Coq Require Import Reals List.
From Verif Require Import RSum Tensor.
Import ListNotations.
Open Scope R_scope.

(** |z|^2 *)
Definition sqn (d : nat) (z : nat -> R) : R := rsum d (fun c => z c ^ 2).

(** exp (- |z|^2 / (2 sigma^2)) *)
Definition gaussian (d : nat) (sigma : R) (z : nat -> R) : R :=
  exp (- sqn d z / (2 * sigma ^ 2)).

(** Candidate for the l-th partial derivative of the Gaussian. *)
Definition dgauss (d : nat) (sigma : R) (z : nat -> R) (l : nat) : R :=
  - (z l / sigma ^ 2) * gaussian d sigma z.

(** Candidate for the second partial derivative along l then l'. *)
Definition d2gauss (d : nat) (sigma : R) (z : nat -> R) (l l' : nat) : R :=
  (z l * z l' / sigma ^ 4 - delta l l' / sigma ^ 2) * gaussian d sigma z.

(** Replace coordinate [l] of a vector by [t]. *)
Definition upd (z : nat -> R) (l : nat) (t : R) : nat -> R :=
  fun c => if Nat.eqb c l then t else z c.

(** [D] is the partial derivative of [F] at [z] along axis [l]. *)
Definition is_partial (F : (nat -> R) -> R) (z : nat -> R) (l : nat) (D : R) : Prop :=
  derivable_pt_lim (fun t => F (upd z l t)) (z l) D.

(** Row n of a (N, d) tensor, as a vector. *)
Definition vrow (t : tensor) (n : nat) : nat -> R := fun c => get t [n; c].

(** Difference of two vectors. *)
Definition vsub (u v : nat -> R) : nat -> R := fun c => u c - v c.

(** The first N points (rows) are pairwise distinct. *)
Definition distinct (d N : nat) (x : nat -> nat -> R) : Prop :=
  forall i j, (i < N)%nat -> (j < N)%nat -> i <> j -> exists c, (c < d)%nat /\ x i c <> x j c.

(** Entry function of a matrix. *)
Definition entries (t : tensor) (i j : nat) : R := get t [i; j].
