(** Specification: when the states of shoot() approach the exact motion. *)
From Coq Require Import Reals List Arith.
From Verif Require Import Py Tensor SpecShooting.
Import ListNotations.
Open Scope R_scope.

(** The entries of a and b, of the same shapes, differ by e at most. *)
Definition near (e : R) (a b : list tensor) : Prop :=
  map shape a = map shape b /\
  forall i s idx, nth_error (map shape a) i = Some s -> valid s idx -> Rabs (entry a i idx - entry b i idx) <= e.

(** Around the curve c, up to the distance rho, the Hamiltonian vector field of H changes L
    times as fast as the state at most. *)
Definition tame (H : list tensor -> res R) (c : R -> list tensor) (T rho L : R) : Prop :=
  0 < rho /\ 0 <= L /\
  forall t l l' k k' e, 0 <= t <= T -> near rho (c t) l -> near rho (c t) l' ->
    hamilton H l k -> hamilton H l' k' -> near e l l' -> near (L * e) k k'.
