(** Specification of generated outlines. *)
From Coq Require Import Reals List Arith.
From Verif Require Import Tensor KernelModel AabbModel SpecBox.
Import ListNotations.
Open Scope R_scope.

(** A point of the outline of the rectangle [x0, x1] x [y0, y1]. *)
Definition on_outline (x0 x1 y0 y1 x y : R) : Prop :=
  (x0 <= x <= x1 /\ (y = y0 \/ y = y1)) \/ (y0 <= y <= y1 /\ (x = x0 \/ x = x1)).

(** Squared distance of two rows of an array of points of the plane. *)
Definition gap2 (t : tensor) (i j : nat) : R := (t @2 i (0%nat) - t @2 j (0%nat)) ^ 2 + (t @2 i (1%nat) - t @2 j (1%nat)) ^ 2.

(** The row after r, going round. *)
Definition next (n r : nat) : nat := if Nat.eqb (S r) n then 0%nat else S r.

(** The rows are different points. *)
Definition distinct_rows (t : tensor) : Prop := forall i j, (i < nrows t)%nat -> (j < nrows t)%nat -> i <> j -> gap2 t i j <> 0.

(** A point is one of the rows. *)
Definition has_row (t : tensor) (x y : R) : Prop := exists r, (r < nrows t)%nat /\ t @2 r (0%nat) = x /\ t @2 r (1%nat) = y.
