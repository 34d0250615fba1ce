(** Specification of axis-aligned boxes. *)
From Coq Require Import Reals List Arith ZArith.
From Verif Require Import Py Tensor KernelModel AabbModel.
Import ListNotations.
Open Scope R_scope.

(** Bounds of axis c. *)
Definition lo (b : box) (c : nat) : R := nth c (a_kmin b) 0.
Definition hi (b : box) (c : nat) : R := nth c (a_kmax b) 0.
Definition side (b : box) (c : nat) : R := hi b c - lo b c.
Definition centre (b : box) (c : nat) : R := (lo b c + hi b c) / 2.

(** One lower and one upper bound for each axis, in order. *)
Definition shaped (b : box) : Prop := length (a_kmin b) = a_dim b /\ length (a_kmax b) = a_dim b.
Definition valid_box (b : box) : Prop := shaped b /\ forall c, (c < a_dim b)%nat -> lo b c <= hi b c.

(** A point is in the box. *)
Definition in_box (b : box) (p : nat -> R) : Prop := forall c, (c < a_dim b)%nat -> lo b c <= p c <= hi b c.
Definition rows_in (b : box) (t : tensor) : Prop := forall i, (i < nrows t)%nat -> in_box b (fun c => t @2 i c).

(** One box contains another of the same dimension. *)
Definition contains (b b' : box) : Prop := a_dim b = a_dim b' /\ forall c, (c < a_dim b)%nat -> lo b c <= lo b' c /\ hi b' c <= hi b c.

(** The corner chosen by s: the upper bound on the axes where s is true. *)
Definition corner_of (b : box) (s : nat -> bool) (c : nat) : R := if s c then hi b c else lo b c.

(** The longest side. *)
Definition longest (b : box) (m : R) : Prop := (exists c, (c < a_dim b)%nat /\ m = side b c) /\ forall c, (c < a_dim b)%nat -> side b c <= m.

(** The point of the box at given fractions of its sides, as a tensor of one row. *)
Definition at_fractions (b : box) (r : nat -> R) (p : tensor) : Prop :=
  shape p = [1%nat; a_dim b] /\ forall c, (c < a_dim b)%nat -> p @2 0%nat c = lo b c + side b c * r c.

(** An area answers a list of booleans for the rows of a tensor; it accepts a point when all
    are true, and rejects it when one is false. *)
Definition accepts_point (f : tensor -> res (list bool)) (p : tensor) : Prop := exists m, f p = Ok m /\ Forall (fun x => x = true) m.
Definition rejects_point (f : tensor -> res (list bool)) (p : tensor) : Prop := exists m, f p = Ok m /\ In false m.
