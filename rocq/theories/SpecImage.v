(** Specification of interpolation and of images. *)
From Coq Require Import Reals List Arith.
From Verif Require Import RSum Tensor KernelModel AabbModel SpecBox.
Import ListNotations.
Open Scope R_scope.

(** A bitmap of h rows and w columns. *)
Definition bitmap_of (I : tensor) (h w : nat) : Prop := shape I = [h; w].

(** Interpolation between two values, four pixels, eight voxels. *)
Definition mix (s a b : R) : R := (1 - s) * a + s * b.
Definition mix4 (I : tensor) (a b : nat) (s t : R) : R :=
  mix s (mix t (I @2 a b) (I @2 a (S b))) (mix t (I @2 (S a) b) (I @2 (S a) (S b))).
Definition mix8 (I : tensor) (a b c : nat) (s t r : R) : R :=
  mix s (mix t (mix r (I @3 a b c) (I @3 a b (S c))) (mix r (I @3 a (S b) c) (I @3 a (S b) (S c))))
        (mix t (mix r (I @3 (S a) b c) (I @3 (S a) b (S c))) (mix r (I @3 (S a) (S b) c) (I @3 (S a) (S b) (S c)))).

(** All entries are between m and M. *)
Definition between_values (I : tensor) (m M : R) : Prop := forall idx, valid (shape I) idx -> m <= get I idx <= M.

(** Two-dimensional extents with positive sides. *)
Definition proper_extent (e : box) : Prop := valid_box e /\ a_dim e = 2%nat /\ lo e 0 < hi e 0 /\ lo e 1 < hi e 1.

(** [nearest r] is a row of gd closest to the row r of grid. *)
Definition sqdist (p q : tensor) (i j : nat) : R := (p @2 i (0%nat) - q @2 j (0%nat)) ^ 2 + (p @2 i (1%nat) - q @2 j (1%nat)) ^ 2.
Definition nearest_rows (n : nat) (grid gd : tensor) (nearest : nat -> nat) : Prop :=
  forall r, (r < n)%nat -> (nearest r < n)%nat /\ forall k, (k < n)%nat -> sqdist grid gd r (nearest r) <= sqdist grid gd r k.
