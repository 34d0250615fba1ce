(** Specification: what a local scaling and a local rotation do around their centre. *)
From Coq Require Import Reals List.
From Verif Require Import Py Tensor SpecKernel.
Import ListNotations.
Open Scope R_scope.

(** A third of a turn of the plane. *)
Definition third_turn (x : nat -> R) (a : nat) : R :=
  match a with
  | O => - (1 / 2) * x 0%nat - sqrt 3 / 2 * x 1%nat
  | _ => sqrt 3 / 2 * x 0%nat - 1 / 2 * x 1%nat
  end.

(** A quarter of a turn, counterclockwise. *)
Definition quarter_turn (x : nat -> R) (a : nat) : R :=
  match a with O => - x 1%nat | _ => x 0%nat end.

(** The cross product. *)
Definition cross (x w : nat -> R) (a : nat) : R :=
  match a with
  | 0%nat => x 1%nat * w 2%nat - x 2%nat * w 1%nat
  | 1%nat => x 2%nat * w 0%nat - x 0%nat * w 2%nat
  | _ => x 0%nat * w 1%nat - x 1%nat * w 0%nat
  end.

(** The control h, a tensor without axis or with one entry, holds the number r. *)
Definition control_value (h : tensor) (r : R) : Prop :=
  shape h = [] /\ get h [] = r \/ shape h = [1%nat] /\ get h [0%nat] = r.

(** Scalar product of two vectors of the plane. *)
Definition dot2 (x y : nat -> R) : R := x 0%nat * y 0%nat + x 1%nat * y 1%nat.
