(** Specification vocabulary for the coordinates of symmetric matrices and for the
    strain matrix of the order-1 implicit modules. *)
From Coq Require Import Reals List.
From Verif Require Import RSum Tensor KernelModel SpecKernel FieldModel SpecField.
Import ListNotations.
Open Scope R_scope.

(** Frobenius product sum_ij A_ij B_ij of d x d matrices. *)
Definition frob (d : nat) (A B : nat -> nat -> R) : R :=
  rsum d (fun i => rsum d (fun j => A i j * B i j)).

(** The t-th basis matrix stored in a (d, d, s) tensor. *)
Definition bmat (e : tensor) (t : nat) : nat -> nat -> R := fun i j => e @3 i j t.

(** Coordinates of a matrix, and the matrix with given coordinates. *)
Definition coords (d : nat) (e : tensor) (M : nat -> nat -> R) (t : nat) : R := frob d M (bmat e t).
Definition from_coords (s : nat) (e : tensor) (lam : nat -> R) : nat -> nat -> R :=
  fun i j => rsum s (fun t => lam t * e @3 i j t).

(** M is symmetric; the symmetric part of M. *)
Definition sym_mat (d : nat) (M : nat -> nat -> R) : Prop :=
  forall i j, (i < d)%nat -> (j < d)%nat -> M i j = M j i.
Definition sym_part (M : nat -> nat -> R) : nat -> nat -> R := fun i j => (M i j + M j i) / 2.

(** Strain (symmetric part of the Jacobian) of a field at a point. *)
Definition strain (d : nat) (f : sfield) (p : nat -> R) : nat -> nat -> R := sym_part (fjac d f p).

(** The (N, d, d) tensor of the matrices with coordinates lam_(n s + t). *)
Definition moments_of (N d s : nat) (e : tensor) (lam : nat -> R) : tensor :=
  mk3 N d d (fun n => from_coords s e (fun t => lam (n * s + t)%nat)).
