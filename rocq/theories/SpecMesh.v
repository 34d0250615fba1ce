(** Specification of the geometric utilities: points of the plane are pairs. *)
From Coq Require Import Reals List Arith ZArith.
From Verif Require Import RSum Tensor KernelModel FieldModel Fl.
Import ListNotations.
Open Scope R_scope.

Definition pt := (R * R)%type.
(** Vertex i of a tensor of shape (N, 2); a tensor of shape (2). *)
Definition vtx (s : tensor) (i : nat) : pt := (s @2 i (0%nat), s @2 i (1%nat)).
Definition pt_of (p : tensor) : pt := (p @1 (0%nat), p @1 (1%nat)).

(** Positive when q is on the left of the line from a to b, zero when it is on it. *)
Definition orient (a b q : pt) : R := (fst b - fst a) * (snd q - snd a) - (snd b - snd a) * (fst q - fst a).

(** The segment from a to b. *)
Definition along (a b : pt) (t : R) : pt := (fst a + t * (fst b - fst a), snd a + t * (snd b - snd a)).
Definition on_segment (a b q : pt) : Prop := exists t, 0 <= t <= 1 /\ q = along a b t.

(** The i-th edge of the closed polygon whose vertices are the rows of s. *)
Definition edge_from (s : tensor) (i : nat) : pt := vtx s i.
Definition edge_to (s : tensor) (i : nat) : pt := vtx s ((i + 1) mod nrows s)%nat.
Definition outline (s : tensor) (q : pt) : Prop := exists i, (i < nrows s)%nat /\ on_segment (edge_from s i) (edge_to s i) q.

(** q is separated from the vertices by a line through q. *)
Definition separated (s : tensor) (q : pt) : Prop :=
  exists n, forall i, (i < nrows s)%nat ->
    0 < fst n * (fst (vtx s i) - fst q) + snd n * (snd (vtx s i) - snd q).

(** Strictly on the left (k = 1) or on the right (k = -1) of every edge; or on it. *)
Definition inside (k : R) (s : tensor) (q : pt) : Prop := forall i, (i < nrows s)%nat -> 0 < k * orient (edge_from s i) (edge_to s i) q.
Definition inside_or_on (k : R) (s : tensor) (q : pt) : Prop := forall i, (i < nrows s)%nat -> 0 <= k * orient (edge_from s i) (edge_to s i) q.

(** A convex polygon whose interior is on the left (k = 1) or right (k = -1) of its edges. *)
Definition convex_polygon (k : R) (s : tensor) : Prop := forall i, (i < nrows s)%nat -> inside_or_on k s (vtx s i).

(** Convex combination of the vertices. *)
Definition combination (s : tensor) (w : nat -> R) : pt :=
  (rsum (nrows s) (fun i => w i * fst (vtx s i)), rsum (nrows s) (fun i => w i * snd (vtx s i))).
Definition weights (n : nat) (w : nat -> R) : Prop := (forall i, (i < n)%nat -> 0 <= w i) /\ rsum n w = 1.

(** Euclidean distance between vectors of length d. *)
Definition eudist (d : nat) (a b : nat -> R) : R := sqrt (rsum d (fun c => (a c - b c) ^ 2)).
(** Point of parameter t of the segment. *)
Definition between (a b : nat -> R) (t : R) : nat -> R := fun c => a c + t * (b c - a c).
(** [r] is the smallest distance from q to the points of the segment. *)
Definition segment_distance (d : nat) (a b q : nat -> R) (r : R) : Prop :=
  (exists t, 0 <= t <= 1 /\ r = eudist d q (between a b t)) /\
  forall t, 0 <= t <= 1 -> r <= eudist d q (between a b t).

(** [theta] is the angle, strictly between -PI and PI, from the direction of u to the
    direction of v (counted positively counterclockwise). *)
Definition ray (q a : pt) : pt := (fst a - fst q, snd a - snd q).
Definition norm2 (u : pt) : R := sqrt (fst u * fst u + snd u * snd u).
Definition angle (u v : pt) (theta : R) : Prop :=
  - PI < theta < PI /\
  norm2 u * norm2 v * cos theta = fst u * fst v + snd u * snd v /\
  norm2 u * norm2 v * sin theta = fst u * snd v - snd u * fst v.

(** The vertices of s1 followed by those of s2. *)
Definition followed_by (s1 s2 : tensor) : tensor :=
  mk2 (nrows s1 + nrows s2) 2 (fun i c => if Nat.ltb i (nrows s1) then s1 @2 i c else s2 @2 (i - nrows s1)%nat c).

(** All vertices are on the left of q, or on its right, or below, or above. *)
Definition outside_box (s : tensor) (q : pt) : Prop :=
  (forall i, (i < nrows s)%nat -> fst (vtx s i) < fst q) \/ (forall i, (i < nrows s)%nat -> fst q < fst (vtx s i)) \/
  (forall i, (i < nrows s)%nat -> snd (vtx s i) < snd q) \/ (forall i, (i < nrows s)%nat -> snd q < snd (vtx s i)).
