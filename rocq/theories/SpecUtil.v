(** Specification of rotations, rigid motions and point maps. *)
From Coq Require Import Reals List Arith.
From Verif Require Import RSum Tensor.
Import ListNotations.
Open Scope R_scope.

(** M M^T = 1 *)
Definition orthogonal (n : nat) (M : tensor) : Prop :=
  shape M = [n; n] /\ forall i j, (i < n)%nat -> (j < n)%nat -> rsum n (fun k => M @2 i k * M @2 j k) = delta i j.
Definition det2 (M : tensor) : R := M @2 (0%nat) (0%nat) * M @2 (1%nat) (1%nat) - M @2 (0%nat) (1%nat) * M @2 (1%nat) (0%nat).
Definition det3 (M : tensor) : R :=
  M @2 (0%nat) (0%nat) * (M @2 (1%nat) (1%nat) * M @2 (2%nat) (2%nat) - M @2 (1%nat) (2%nat) * M @2 (2%nat) (1%nat))
  - M @2 (0%nat) (1%nat) * (M @2 (1%nat) (0%nat) * M @2 (2%nat) (2%nat) - M @2 (1%nat) (2%nat) * M @2 (2%nat) (0%nat))
  + M @2 (0%nat) (2%nat) * (M @2 (1%nat) (0%nat) * M @2 (2%nat) (1%nat) - M @2 (1%nat) (1%nat) * M @2 (2%nat) (0%nat)).

(** M x *)
Definition apply (n : nat) (M : tensor) (x : nat -> R) (i : nat) : R := rsum n (fun k => M @2 i k * x k).

(** Squared distance of the rows i and j of a point list. *)
Definition dist2 (d : nat) (p : tensor) (i j : nat) : R := rsum d (fun c => (p @2 i c - p @2 j c) ^ 2).
