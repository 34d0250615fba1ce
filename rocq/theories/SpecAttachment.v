(** Specification of varifold distances.

    A shape is a list of pieces: the edges of a closed curve, or the faces of a mesh.
    Each piece has a centre and a vector (the edge, or the normal whose norm is the area of
    the face).  Vectors of R^d are functions of the coordinate index. *)
From Coq Require Import Reals List Arith Permutation.
From Verif Require Import RSum Tensor KernelModel SpecKernel Fl MeshModel.
Import ListNotations.
Open Scope R_scope.

Record piece := mkPiece { centre : nat -> R; vec : nat -> R }.

Definition dotv (d : nat) (u v : nat -> R) : R := rsum d (fun c => u c * v c).
Definition normv (d : nat) (u : nat -> R) : R := sqrt (sqn d u).

(** Sum over a list. *)
Definition sumof {A} (f : A -> R) (l : list A) : R := fold_right (fun a acc => f a + acc) 0 l.

(** <p, q> = k_sigma(c_p, c_q) (t_p . t_q)^2 |v_p| |v_q|, with t = v / |v|; pieces whose
    vector is zero do not count. *)
Definition pair_dot (d : nat) (sigma : R) (p q : piece) : R :=
  gaussian d sigma (vsub (centre p) (centre q)) * dotv d (vec p) (vec q) ^ 2 / (normv d (vec p) * normv d (vec q)).
Definition shape_dot (d : nat) (sigma : R) (P Q : list piece) : R := sumof (fun p => sumof (pair_dot d sigma p) Q) P.

(** |P - Q|^2 *)
Definition shape_dist2 (d : nat) (sigma : R) (P Q : list piece) : R :=
  shape_dot d sigma P P + shape_dot d sigma Q Q - 2 * shape_dot d sigma P Q.

(** The sum of v_a v_b / |v| over the pieces centred at z. *)
Definition sameb (d : nat) (x y : nat -> R) : bool := forallb (fun c => Reqb (x c) (y c)) (seq 0 d).
Definition length_tensor (d : nat) (P : list piece) (z : nat -> R) (a b : nat) : R :=
  sumof (fun p => if sameb d (centre p) z then vec p a * vec p b / normv d (vec p) else 0) P.

(** The edges of the closed curve through the n rows of x. *)
Definition edges (x : tensor) : list piece :=
  let n := nrows x in
  map (fun i => mkPiece (fun c => (x @2 i c + x @2 ((i + 1) mod n)%nat c) / 2)
                        (fun c => x @2 ((i + 1) mod n)%nat c - x @2 i c)) (seq 0 n).

(** ** Faces *)

(** The three corners of a face. *)
Definition at_corner (v : tensor) (k : nat) (f : face) (c : nat) : R := v @2 (corner k f) c.

(** a x b in R^3 *)
Definition cross3 (a b : nat -> R) (c : nat) : R :=
  match c with
  | 0%nat => a 1%nat * b 2%nat - a 2%nat * b 1%nat
  | 1%nat => a 2%nat * b 0%nat - a 0%nat * b 2%nat
  | _ => a 0%nat * b 1%nat - a 1%nat * b 0%nat
  end.

(** Half the cross product of two edges: normal to the face, its norm is the area. *)
Definition area_normal (v : tensor) (f : face) : nat -> R :=
  fun c => 1 / 2 * cross3 (vsub (at_corner v 1 f) (at_corner v 0 f)) (vsub (at_corner v 2 f) (at_corner v 0 f)) c.
Definition area (v : tensor) (f : face) : R := normv 3 (area_normal v f).
Definition barycentre (v : tensor) (f : face) (c : nat) : R :=
  (at_corner v 0 f c + at_corner v 1 f c + at_corner v 2 f c) / 3.

(** A face with its barycentre. *)
Definition face_piece (v : tensor) (f : face) : piece := mkPiece (barycentre v f) (area_normal v f).

(** A mesh whose faces are made of vertices. *)
Definition valid_faces (v : tensor) (fs : list face) : Prop :=
  Forall (fun f => forall k, (k < 3)%nat -> (corner k f < nrows v)%nat) fs.

(** ** Reparametrisations *)

(** The same curve from another vertex; traversed backward. *)
Definition from_vertex (k : nat) (x : tensor) : tensor :=
  mk2 (nrows x) (ncols x) (fun i c => x @2 ((i + k) mod nrows x)%nat c).
Definition backward (x : tensor) : tensor :=
  mk2 (nrows x) (ncols x) (fun i c => x @2 (nrows x - 1 - i)%nat c).

(** The same face: its corners in another order. *)
Definition same_face (f g : face) : Prop :=
  let '(a, b, c) := f in
  In g [(a, b, c); (b, c, a); (c, a, b); (b, a, c); (a, c, b); (c, b, a)].

(** The same faces up to the order of the faces and of their corners. *)
Definition same_faces (fs gs : list face) : Prop := exists hs, Permutation fs hs /\ Forall2 same_face hs gs.

(** The vertices of a face renumbered. *)
Definition renumber (r : nat -> nat) (f : face) : face := let '(a, b, c) := f in (r a, r b, r c).

(** The same closed curve up to its first vertex and its direction. *)
Inductive same_curve : tensor -> tensor -> Prop :=
| sc_refl x : same_curve x x
| sc_start k x : same_curve x (from_vertex k x)
| sc_back x : same_curve x (backward x)
| sc_trans x y z : same_curve x y -> same_curve y z -> same_curve x z.

(** The same mesh up to the order of faces, of corners, and the numbers of the vertices. *)
Inductive same_mesh : tensor * list face -> tensor * list face -> Prop :=
| sm_faces v fs gs : same_faces fs gs -> same_mesh (v, fs) (v, gs)
| sm_vertices v w m r fs :
    shape w = [m; 3%nat] ->
    (forall f k, In f fs -> (k < 3)%nat -> (r (corner k f) < m)%nat /\ forall c, (c < 3)%nat -> w @2 (r (corner k f)) c = v @2 (corner k f) c) ->
    same_mesh (v, fs) (w, map (renumber r) fs)
| sm_trans a b c : same_mesh a b -> same_mesh b c -> same_mesh a c.

(** ** Rigid motions *)
Definition orthogonal (d : nat) (Q : nat -> nat -> R) : Prop :=
  forall i j, (i < d)%nat -> (j < d)%nat -> rsum d (fun a => Q a i * Q a j) = delta i j.
Definition moved (d : nat) (Q : nat -> nat -> R) (t : nat -> R) (x : tensor) : tensor :=
  mk2 (nrows x) d (fun i c => rsum d (fun a => Q c a * x @2 i a) + t c).
