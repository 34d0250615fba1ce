(** Specification vocabulary: quadratic forms, definiteness and linear systems for
    matrices given as functions of two indices. *)
From Coq Require Import Reals.
From Verif Require Import RSum.
Open Scope R_scope.

(** sum_ij f_i f_j K_ij *)
Definition quad (n : nat) (K : nat -> nat -> R) (f : nat -> R) : R :=
  rsum n (fun i => rsum n (fun j => f i * f j * K i j)).

(** sum_ij f_i g_j K_ij *)
Definition bil (n : nat) (K : nat -> nat -> R) (f g : nat -> R) : R :=
  rsum n (fun i => rsum n (fun j => f i * g j * K i j)).

Definition symmetric (n : nat) (K : nat -> nat -> R) : Prop :=
  forall i j, (i < n)%nat -> (j < n)%nat -> K i j = K j i.
Definition psd (n : nat) (K : nat -> nat -> R) : Prop := forall f, 0 <= quad n K f.
Definition pd (n : nat) (K : nat -> nat -> R) : Prop :=
  forall f, (exists i, (i < n)%nat /\ f i <> 0) -> 0 < quad n K f.

(** K x = b *)
Definition solves (n : nat) (K : nat -> nat -> R) (x b : nat -> R) : Prop :=
  forall i, (i < n)%nat -> rsum n (fun j => K i j * x j) = b i.

