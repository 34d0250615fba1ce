(** Properties of the geometric utilities of meshutils.py. *)
From Coq Require Import Reals List Arith ZArith Lia Lra Permutation Bool.
From Verif Require Import Py RSum Tensor TensorFacts KernelModel KernelFacts SpecKernel FieldModel Fl MeshModel SpecMesh SpecAttachment VarifoldFacts AttachmentFacts MeshFacts WindingAngle MeshAreas.
Import ListNotations.
Open Scope R_scope.

(** A polygon of n vertices. *)
Definition polygon (n : nat) (s : tensor) : Prop := shape s = [n; 2%nat] /\ (0 < n)%nat.
Definition points (n : nat) (p : tensor) : Prop := shape p = [n; 2%nat].
Definition point (p : tensor) : Prop := shape p = [2%nat].

(** The counterclockwise unit square, the bow tie, a point. *)
Definition tlist2 (n d : nat) (l : list R) : tensor := mk2 n d (fun i c => nth (i * d + c) l 0).
Definition unit_square : tensor := tlist2 4 2 [0; 0; 1; 0; 1; 1; 0; 1].
Definition bow_tie : tensor := tlist2 4 2 [0; 0; 2; 2; 2; 0; 0; 2].
Definition pt2 (x y : R) : tensor := mk1 2 (fun c => nth c [x; y] 0).
Example square_polygon : polygon 4 unit_square. Proof. split; [reflexivity|lia]. Qed.

(** ** C48 *)

(** The winding order is the number of turns of the outline around the point: the angles
    under which the point sees the edges add up to 2 PI times the order. *)
Theorem C48_winding_number n s closed q theta : polygon n s -> point q -> close_shape s = Ok closed ->
  ~ outline s (pt_of q) ->
  (forall i, (i < n)%nat -> angle (ray (pt_of q) (edge_from s i)) (ray (pt_of q) (edge_to s i)) (theta i)) ->
  exists w, winding_order q closed 1 = Ok w /\ rsum n theta = 2 * PI * IZR w.
Proof.
  intros (Hs & Ln) Hq E NO A. exists (turns 1 (pt_of q) s). split; [apply (winding_closed s n 2 closed q 1 Hs E Hq)|].
  assert (NS : nrows s = n) by (unfold nrows; rewrite Hs; reflexivity). rewrite <- NS in *. apply total_angle; assumption.
Qed.
Print Assumptions C48_winding_number.

(** These angles exist as soon as the point is not on the outline. *)
Theorem C48_angles_exist n s q : polygon n s -> ~ outline s q ->
  exists theta, forall i, (i < n)%nat -> angle (ray q (edge_from s i)) (ray q (edge_to s i)) (theta i).
Proof.
  intros (Hs & Ln) NO. assert (NS : nrows s = n) by (unfold nrows; rewrite Hs; reflexivity).
  assert (G : forall m, (m <= n)%nat -> exists theta, forall i, (i < m)%nat -> angle (ray q (edge_from s i)) (ray q (edge_to s i)) (theta i)).
  { induction m as [|m IH]; intros L; [exists (fun _ => 0); intros; lia|]. destruct (IH ltac:(lia)) as (th & H).
    destruct (angle_exists q (edge_from s m) (edge_to s m)) as (t & T); [intros S; apply NO; exists m; split; [lia|exact S]|].
    exists (fun i => if Nat.eqb i m then t else th i). intros i Li. destruct (Nat.eqb_spec i m) as [->|NE]; [exact T|apply H; lia]. }
  exact (G n (le_n n)).
Qed.
Print Assumptions C48_angles_exist.

(** The other side of the ray gives the opposite order off the outline. *)
Theorem C48_side n s closed q : polygon n s -> point q -> close_shape s = Ok closed -> ~ outline s (pt_of q) ->
  exists w, winding_order q closed 1 = Ok w /\ winding_order q closed (-1) = Ok (- w)%Z.
Proof.
  intros (Hs & Ln) Hq E NO. exists (turns 1 (pt_of q) s). rewrite !(winding_closed s n 2 closed q _ Hs E Hq). split; [reflexivity|]. rewrite turns_sides by exact NO. reflexivity.
Qed.
Print Assumptions C48_side.

(** The full cycle can be entered at any vertex; traversed backward, the order is opposite. *)
Theorem C48_start_vertex n s q side k : polygon n s -> point q ->
  exists c c' w, close_shape s = Ok c /\ close_shape (from_vertex k s) = Ok c' /\ winding_order q c side = Ok w /\ winding_order q c' side = Ok w.
Proof.
  intros (Hs & Ln) Hq. destruct (close_ok s n 2 Hs Ln) as (c & Ec & _).
  assert (Hf : shape (from_vertex k s) = [n; 2%nat]) by (unfold from_vertex; cbn [shape mk2]; unfold nrows, ncols; rewrite Hs; reflexivity).
  destruct (close_ok _ n 2 Hf Ln) as (c' & Ec' & _). exists c, c', (turns side (pt_of q) s). rewrite (winding_closed s n 2 c q side Hs Ec Hq), (winding_closed _ n 2 c' q side Hf Ec' Hq), turns_from. auto.
Qed.
Print Assumptions C48_start_vertex.

Theorem C48_backward n s q side : polygon n s -> point q ->
  exists c c' w, close_shape s = Ok c /\ close_shape (backward s) = Ok c' /\ winding_order q c side = Ok w /\ winding_order q c' side = Ok (- w)%Z.
Proof.
  intros (Hs & Ln) Hq. destruct (close_ok s n 2 Hs Ln) as (c & Ec & _).
  assert (Hf : shape (backward s) = [n; 2%nat]) by (unfold backward; cbn [shape mk2]; unfold nrows, ncols; rewrite Hs; reflexivity).
  destruct (close_ok _ n 2 Hf Ln) as (c' & Ec' & _). exists c, c', (turns side (pt_of q) s). rewrite (winding_closed s n 2 c q side Hs Ec Hq), (winding_closed _ n 2 c' q side Hf Ec' Hq), turns_backward. auto.
Qed.
Print Assumptions C48_backward.

(** Loops with a common vertex add up. *)
Theorem C48_concatenation n1 n2 s1 s2 q side : polygon n1 s1 -> polygon n2 s2 -> point q -> vtx s1 0 = vtx s2 0 ->
  exists c1 c2 c w1 w2, close_shape s1 = Ok c1 /\ close_shape s2 = Ok c2 /\ close_shape (followed_by s1 s2) = Ok c /\
    winding_order q c1 side = Ok w1 /\ winding_order q c2 side = Ok w2 /\ winding_order q c side = Ok (w1 + w2)%Z.
Proof.
  intros (H1 & L1) (H2 & L2) Hq V. destruct (close_ok s1 n1 2 H1 L1) as (c1 & E1 & _). destruct (close_ok s2 n2 2 H2 L2) as (c2 & E2 & _).
  assert (N1 : nrows s1 = n1) by (unfold nrows; rewrite H1; reflexivity). assert (N2 : nrows s2 = n2) by (unfold nrows; rewrite H2; reflexivity).
  assert (Hf : shape (followed_by s1 s2) = [(n1 + n2)%nat; 2%nat]) by (unfold followed_by; cbn [shape mk2]; rewrite N1, N2; reflexivity).
  destruct (close_ok _ (n1 + n2) 2 Hf ltac:(lia)) as (c & Ec & _). exists c1, c2, c, (turns side (pt_of q) s1), (turns side (pt_of q) s2).
  rewrite (winding_closed s1 n1 2 c1 q side H1 E1 Hq), (winding_closed s2 n2 2 c2 q side H2 E2 Hq), (winding_closed _ _ 2 c q side Hf Ec Hq), turns_followed by (rewrite ?N1, ?N2; assumption || exact V). repeat split; assumption.
Qed.
Print Assumptions C48_concatenation.

(** A point that some line separates from all vertices has order 0; in particular a point
    outside the bounding box. *)
Theorem C48_zero_outside n s closed q side : polygon n s -> point q -> close_shape s = Ok closed -> (side = 1 \/ side = -1)%Z ->
  separated s (pt_of q) \/ outside_box s (pt_of q) -> winding_order q closed side = Ok 0%Z.
Proof.
  intros (Hs & Ln) Hq E S H. rewrite (winding_closed s n 2 closed q side Hs E Hq). f_equal. apply separated_turns; [exact S|]. destruct H as [H|H]; [exact H|apply box_separated; exact H].
Qed.
Print Assumptions C48_zero_outside.

(** What area_shape marks. *)
Lemma area_shape_marks n s m p side : polygon n s -> points m p ->
  exists marks, area_shape p (Some s) (Some side) = Ok marks /\ length marks = m /\
    forall i, (i < m)%nat -> (nth i marks false = true <-> turns side (vtx p i) s <> 0%Z).
Proof.
  intros (Hs & Ln) Hp. assert (NP : nrows p = m) by (unfold nrows; rewrite Hp; reflexivity). unfold area_shape. rewrite NP. destruct (close_ok s n 2 Hs Ln) as (c & Ec & _). rewrite Ec. cbn [bind].
  rewrite (mapM_map _ (fun i => negb (Z.eqb (turns side (vtx p i) s) 0))).
  - eexists. split; [reflexivity|]. split; [rewrite map_length, seq_length; reflexivity|]. intros i L. rewrite nth_map_seq by exact L.
    rewrite negb_true_iff. apply Z.eqb_neq.
  - intros i _. assert (Hr : is_point (row p i)) by (unfold is_point, row, ncols; rewrite Hp; reflexivity). rewrite (winding_closed s n 2 c (row p i) side Hs Ec Hr). reflexivity.
Qed.

(** area_shape marks exactly the points around which the outline turns: the total angle is
    not 0 (for points off the outline); the side does not matter. *)
Theorem C48_area_shape n s m p side : polygon n s -> points m p -> (side = 1 \/ side = -1)%Z ->
  exists marks, area_shape p (Some s) (Some side) = Ok marks /\ length marks = m /\
    forall i theta, (i < m)%nat -> ~ outline s (vtx p i) ->
      (forall j, (j < n)%nat -> angle (ray (vtx p i) (edge_from s j)) (ray (vtx p i) (edge_to s j)) (theta j)) ->
      (nth i marks false = true <-> rsum n theta <> 0).
Proof.
  intros Hs Hp S. destruct (area_shape_marks n s m p side Hs Hp) as (marks & E & L & H). exists marks. split; [exact E|]. split; [exact L|].
  intros i theta Li NO A. rewrite (H i Li). destruct Hs as (Hs & Ln). assert (NS : nrows s = n) by (unfold nrows; rewrite Hs; reflexivity).
  rewrite <- NS in A |- *. rewrite (total_angle s (vtx p i) theta NO A). pose proof PI_RGT_0 as PP.
  replace (turns side (vtx p i) s <> 0%Z) with (turns side (vtx p i) s <> 0%Z) by reflexivity.
  assert (T : turns side (vtx p i) s <> 0%Z <-> turns 1 (vtx p i) s <> 0%Z) by (destruct S as [->| ->]; [tauto|]; rewrite turns_sides by exact NO; lia).
  rewrite T. split.
  - intros NZ Z. apply NZ. apply eq_IZR. nra.
  - intros NZ Z. apply NZ. rewrite Z. cbn. lra.
Qed.
Print Assumptions C48_area_shape.

(** The marks do not depend on the first vertex, the direction or (off the outline) the
    side; nothing is marked outside the box. *)
Theorem C48_area_shape_same n s m p side k : polygon n s -> points m p -> (side = 1 \/ side = -1)%Z ->
  area_shape p (Some (from_vertex k s)) (Some side) = area_shape p (Some s) (Some side) /\
  area_shape p (Some (backward s)) (Some side) = area_shape p (Some s) (Some side) /\
  ((forall i, (i < m)%nat -> ~ outline s (vtx p i)) -> area_shape p (Some s) (Some side) = area_shape p (Some s) None) /\
  forall marks, area_shape p (Some s) (Some side) = Ok marks -> forall i, (i < m)%nat -> outside_box s (vtx p i) -> nth i marks false = false.
Proof.
  intros Hs Hp S.
  assert (Hf : polygon n (from_vertex k s)) by (destruct Hs as (Hs & Ln); split; [unfold from_vertex; cbn [shape mk2]; unfold nrows, ncols; rewrite Hs; reflexivity|exact Ln]).
  assert (Hb : polygon n (backward s)) by (destruct Hs as (Hs & Ln); split; [unfold backward; cbn [shape mk2]; unfold nrows, ncols; rewrite Hs; reflexivity|exact Ln]).
  destruct (area_shape_marks n s m p side Hs Hp) as (m1 & E1 & L1 & H1).
  assert (EQ : forall s' side' m2, area_shape p (Some s') (Some side') = Ok m2 -> length m2 = m -> (forall i, (i < m)%nat -> (nth i m2 false = true <-> turns side' (vtx p i) s' <> 0%Z)) ->
             (forall i, (i < m)%nat -> (turns side' (vtx p i) s' <> 0%Z <-> turns side (vtx p i) s <> 0%Z)) -> m2 = m1).
  { intros s' side' m2 _ L2 H2 T. apply (nth_ext _ _ false false); [congruence|]. intros i Li. rewrite L2 in Li. specialize (H1 i Li). specialize (H2 i Li). specialize (T i Li).
    destruct (nth i m1 false), (nth i m2 false); try reflexivity; exfalso.
    - assert (turns side' (vtx p i) s' <> 0%Z) by (apply T, H1; reflexivity). apply H2 in H. discriminate.
    - assert (turns side (vtx p i) s <> 0%Z) by (apply T, H2; reflexivity). apply H1 in H. discriminate. }
  split; [|split; [|split]].
  - destruct (area_shape_marks n _ m p side Hf Hp) as (m2 & E2 & L2 & H2). rewrite E1, E2. f_equal. apply (EQ _ _ m2 E2 L2 H2). intros i _. rewrite turns_from. tauto.
  - destruct (area_shape_marks n _ m p side Hb Hp) as (m2 & E2 & L2 & H2). rewrite E1, E2. f_equal. apply (EQ _ _ m2 E2 L2 H2). intros i _. rewrite turns_backward. lia.
  - intros NO. destruct (area_shape_marks n s m p 1 Hs Hp) as (m2 & E2 & L2 & H2). change (area_shape p (Some s) None) with (area_shape p (Some s) (Some 1%Z)). rewrite E1, E2. f_equal. symmetry. apply (EQ _ _ m2 E2 L2 H2).
    intros i Li. destruct S as [->| ->]; [tauto|]. rewrite turns_sides by (apply NO; exact Li). lia.
  - intros marks E i Li O. rewrite E1 in E. injection E as <-. destruct (nth i m1 false) eqn:N; [|reflexivity]. apply H1 in N; [|exact Li]. exfalso. apply N, separated_turns; [exact S|apply box_separated; exact O].
Qed.
Print Assumptions C48_area_shape_same.

(** Errors: no shape; a shape without vertices. *)
Theorem C48_errors p side s d : shape s = [0%nat; d] ->
  area_shape p None side = Err RuntimeError /\ area_shape p (Some s) side = Err IndexError.
Proof. intros H. split; [reflexivity|]. unfold area_shape, close_shape, nrows. rewrite H. reflexivity. Qed.
Print Assumptions C48_errors.

(** The hypotheses are met; the values around a self-intersecting shape. *)
Ltac decide_reals :=
  repeat match goal with
         | |- context [Rleb ?a ?b] => first [replace (Rleb a b) with true by (symmetry; apply Rleb_true; lra) | replace (Rleb a b) with false by (symmetry; apply Rleb_false; lra)]
         | |- context [Rltb ?a ?b] => first [replace (Rltb a b) with true by (symmetry; apply Rltb_true; lra) | replace (Rltb a b) with false by (symmetry; apply Rltb_false; lra)]
         end.
Ltac compute_order :=
  match goal with |- winding_order ?q ?c ?s = Ok ?w => rewrite (winding_closed bow_tie 4 2 c q s eq_refl eq_refl eq_refl) end;
  apply f_equal; cbv [turns zsum map seq fold_right edge_from edge_to vtx pt_of get bow_tie unit_square tlist2 mk2 pt2 mk1 nth nrows shape tnth Nat.mul Nat.add Nat.modulo Nat.divmod Nat.sub fst snd contrib rsign orient];
  decide_reals; reflexivity.
Example bow_tie_orders :
  exists c, close_shape bow_tie = Ok c /\ winding_order (pt2 (1/2) 1) c 1 = Ok 1%Z /\ winding_order (pt2 (3/2) 1) c 1 = Ok (-1)%Z /\
            winding_order (pt2 (3/2) 1) c (-1) = Ok 1%Z /\ winding_order (pt2 3 1) c 1 = Ok 0%Z.
Proof. eexists. split; [reflexivity|]. split; [compute_order|]. split; [compute_order|]. split; compute_order. Qed.
Example bow_tie_off : ~ outline bow_tie (1/2, 1).
Proof.
  intros (i & L & t & T & E). change (nrows bow_tie) with 4%nat in L.
  destruct i as [|[|[|[|i]]]]; [| | | |lia]; unfold along in E; cbn in E; injection E as E1 E2; lra.
Qed.
(** The hypotheses of the statements above, for this shape and for loops with a common vertex. *)
Example bow_tie_meets : polygon 4 bow_tie /\ point (pt2 (1/2) 1) /\ ~ outline bow_tie (pt_of (pt2 (1/2) 1)) /\
  (exists theta, forall i, (i < 4)%nat -> angle (ray (1/2, 1) (edge_from bow_tie i)) (ray (1/2, 1) (edge_to bow_tie i)) (theta i)) /\
  vtx bow_tie 0 = vtx unit_square 0 /\ outside_box bow_tie (3, 1) /\ separated bow_tie (3/2, 1/2 - 2).
Proof.
  split; [split; [reflexivity|lia]|]. split; [reflexivity|]. split; [apply bow_tie_off|]. split; [apply (C48_angles_exist 4); [split; [reflexivity|lia]|apply bow_tie_off]|].
  split; [reflexivity|]. split.
  - left. intros i L. change (nrows bow_tie) with 4%nat in L. destruct i as [|[|[|[|i]]]]; [| | | |lia]; cbn; lra.
  - exists (0, 1). intros i L. change (nrows bow_tie) with 4%nat in L. destruct i as [|[|[|[|i]]]]; [| | | |lia]; cbn; lra.
Qed.

(** ** C49 *)

(** Which points are marked: with intersect = False those strictly on the inner side of
    every edge (the left for side = -1, the right for side = 1); with intersect = True also
    those on the edges' lines. *)
Theorem C49_marks delaunay n s m p side b : polygon n s -> points m p -> (side = 1 \/ side = -1)%Z ->
  exists marks, area_convex_shape delaunay p (Some s) (Some side) (Some b) = Ok marks /\ length marks = m /\
    forall i, (i < m)%nat ->
      (nth i marks false = true <-> if b then inside_or_on (- IZR side) s (vtx p i) else inside (- IZR side) s (vtx p i)).
Proof. intros (Hs & Ln) Hp S. exact (convex_marks delaunay p m s n side b Hp Hs Ln S). Qed.
Print Assumptions C49_marks.

(** The marked set is convex. *)
Theorem C49_convex delaunay n s m p side b marks : polygon n s -> points m p -> (side = 1 \/ side = -1)%Z ->
  area_convex_shape delaunay p (Some s) (Some side) (Some b) = Ok marks ->
  forall i j k t, (i < m)%nat -> (j < m)%nat -> (k < m)%nat -> 0 <= t <= 1 -> vtx p k = along (vtx p i) (vtx p j) t ->
    nth i marks false = true -> nth j marks false = true -> nth k marks false = true.
Proof.
  intros Hs Hp S E i j k t Li Lj Lk T V Mi Mj. destruct (C49_marks delaunay n s m p side b Hs Hp S) as (marks' & E' & _ & H). rewrite E in E'. injection E' as <-.
  apply (H k Lk). apply (H i Li) in Mi. apply (H j Lj) in Mj. rewrite V. destruct b; [apply inside_or_on_convex|apply inside_convex]; assumption.
Qed.
Print Assumptions C49_convex.

(** For a convex polygon it contains every convex combination of the vertices, or (with
    intersect = False) every combination with positive weights. *)
Theorem C49_contains delaunay n s m p side b marks w i : polygon n s -> points m p -> (side = 1 \/ side = -1)%Z ->
  convex_polygon (- IZR side) s -> weights n w -> (i < m)%nat -> vtx p i = combination s w ->
  (b = false -> (forall j, (j < n)%nat -> 0 < w j) /\
                forall j, (j < n)%nat -> exists k, (k < n)%nat /\ orient (edge_from s j) (edge_to s j) (vtx s k) <> 0) ->
  area_convex_shape delaunay p (Some s) (Some side) (Some b) = Ok marks -> nth i marks false = true.
Proof.
  intros Hs Hp S C W Li V ST E. destruct (C49_marks delaunay n s m p side b Hs Hp S) as (marks' & E' & _ & H). rewrite E in E'. injection E' as <-.
  assert (NS : nrows s = n) by (destruct Hs as (Hs & _); unfold nrows; rewrite Hs; reflexivity). apply (H i Li). rewrite V. destruct b.
  - apply combination_inside; [exact C|rewrite NS; exact W].
  - destruct (ST eq_refl) as (P & ND). destruct (combination_strict (- IZR side) s w C) as [I|Z]; [rewrite NS; exact P|rewrite NS; apply W|rewrite NS; exact ND|exact I|destruct S as [->| ->]; lra].
Qed.
Print Assumptions C49_contains.

(** Agreement with area_shape: around a marked point (intersect = False) the outline turns;
    for a convex polygon area_shape marks no point outside the closed polygon. *)
Theorem C49_agrees_with_area_shape delaunay n s m p marks marks' : polygon n s -> points m p ->
  area_convex_shape delaunay p (Some s) (Some (-1)%Z) (Some false) = Ok marks -> area_shape p (Some s) None = Ok marks' ->
  forall i, (i < m)%nat -> (nth i marks false = true -> nth i marks' false = true) /\
    (convex_polygon 1 s -> nth i marks' false = true -> inside_or_on 1 s (vtx p i)).
Proof.
  intros Hs Hp E E' i Li. destruct (C49_marks delaunay n s m p (-1) false Hs Hp ltac:(auto)) as (m1 & E1 & _ & H1). rewrite E in E1. injection E1 as <-.
  destruct (area_shape_marks n s m p 1 Hs Hp) as (m2 & E2 & _ & H2). change (area_shape p (Some s) (Some 1%Z)) with (area_shape p (Some s) None) in E2. rewrite E' in E2. injection E2 as <-.
  assert (NS : nrows s = n) by (destruct Hs as (Hs & _); unfold nrows; rewrite Hs; reflexivity). split.
  - intros M. apply (H2 i Li). apply (H1 i Li) in M. replace (- IZR (-1)) with 1 in M by lra. pose proof (inside_turns (vtx p i) s ltac:(destruct Hs; lia) M). lia.
  - intros C M. apply (H2 i Li) in M.
    assert (D : inside_or_on 1 s (vtx p i) \/ ~ inside_or_on 1 s (vtx p i)).
    { assert (G : forall k, (k <= nrows s)%nat -> (forall j, (j < k)%nat -> 0 <= 1 * orient (edge_from s j) (edge_to s j) (vtx p i)) \/ ~ (forall j, (j < k)%nat -> 0 <= 1 * orient (edge_from s j) (edge_to s j) (vtx p i))).
      { induction k as [|k IH]; intros L; [left; intros; lia|]. destruct (IH ltac:(lia)) as [A|A]; [|right; intros B; apply A; intros j Lj; apply B; lia].
        destruct (Rle_dec 0 (1 * orient (edge_from s k) (edge_to s k) (vtx p i))) as [O|O]; [left; intros j Lj; destruct (Nat.eq_dec j k) as [->|NE]; [exact O|apply A; lia]|right; intros B; apply O, B; lia]. }
      exact (G (nrows s) (le_n _)). }
    destruct D as [D|D]; [exact D|]. exfalso. apply M, convex_outside_turns; auto.
Qed.
Print Assumptions C49_agrees_with_area_shape.

(** A polygon with two equal consecutive vertices (for instance one that already repeats its
    first vertex at the end) marks nothing at all with intersect = False. *)
Theorem C49_repeated_vertex delaunay n s m p side marks k : polygon n s -> points m p -> (side = 1 \/ side = -1)%Z ->
  (k < n)%nat -> edge_from s k = edge_to s k ->
  area_convex_shape delaunay p (Some s) (Some side) (Some false) = Ok marks -> forall i, (i < m)%nat -> nth i marks false = false.
Proof.
  intros Hs Hp S Lk EV E i Li. destruct (C49_marks delaunay n s m p side false Hs Hp S) as (m1 & E1 & _ & H1). rewrite E in E1. injection E1 as <-.
  destruct (nth i marks false) eqn:M; [|reflexivity]. apply (H1 i Li) in M.
  assert (NS : nrows s = n) by (destruct Hs as (Hs & _); unfold nrows; rewrite Hs; reflexivity). specialize (M k ltac:(lia)). rewrite <- EV in M. unfold orient in M. exfalso. lra.
Qed.
Print Assumptions C49_repeated_vertex.

Theorem C49_errors delaunay n s m p side b : polygon n s -> points m p -> side <> 1%Z -> side <> (-1)%Z ->
  area_convex_shape delaunay p (Some s) (Some side) b = Err RuntimeError /\ area_convex_shape delaunay p None (Some side) b = Err RuntimeError.
Proof.
  intros Hs Hp N1 N2. split; [|reflexivity]. unfold area_convex_shape. rewrite Hp. cbn [Nat.eqb]. replace (Z.eqb side (-1) || Z.eqb side 1)%bool with false; [reflexivity|].
  symmetry. apply orb_false_iff. split; apply Z.eqb_neq; assumption.
Qed.
Print Assumptions C49_errors.

(** area_convex_hull marks the inner side of the hull scipy returns. *)
Theorem C49_hull delaunay hull n s m p scatter b : polygon n s -> points m p -> hull scatter = Ok s ->
  exists marks, area_convex_hull delaunay hull p (Some scatter) (Some b) = Ok marks /\ length marks = m /\
    forall i, (i < m)%nat -> (nth i marks false = true <-> if b then inside_or_on 1 s (vtx p i) else inside 1 s (vtx p i)).
Proof.
  intros Hs Hp E. unfold area_convex_hull. rewrite E. cbn [bind]. destruct (C49_marks delaunay n s m p (-1) b Hs Hp ltac:(auto)) as (marks & E1 & L & H). exists marks. split; [exact E1|]. split; [exact L|].
  intros i Li. rewrite (H i Li). replace (- IZR (-1)) with 1 by lra. tauto.
Qed.
Print Assumptions C49_hull.

Example square_convex : convex_polygon 1 unit_square /\ weights 4 (fun _ => 1/4) /\ combination unit_square (fun _ => 1/4) = (1/2, 1/2) /\
  forall j, (j < 4)%nat -> exists k, (k < 4)%nat /\ orient (edge_from unit_square j) (edge_to unit_square j) (vtx unit_square k) <> 0.
Proof.
  split; [|split; [|split]].
  - intros i Li j Lj. change (nrows unit_square) with 4%nat in *. destruct i as [|[|[|[|i]]]]; [| | | |lia]; (destruct j as [|[|[|[|j]]]]; [| | | |lia]); cbv [orient edge_from edge_to vtx get unit_square tlist2 mk2 nth nrows shape tnth Nat.mul Nat.add Nat.modulo Nat.divmod Nat.sub fst snd]; lra.
  - split; [intros; lra|cbn; lra].
  - unfold combination. cbn. f_equal; lra.
  - intros j Lj. destruct j as [|[|[|[|j]]]]; [exists 2%nat|exists 3%nat|exists 0%nat|exists 1%nat|lia]; (split; [lia|]); cbv [orient edge_from edge_to vtx get unit_square tlist2 mk2 nth nrows shape tnth Nat.mul Nat.add Nat.modulo Nat.divmod Nat.sub fst snd]; lra.
Qed.
Example closed_square_edge : let s := tlist2 5 2 [0; 0; 1; 0; 1; 1; 0; 1; 0; 0] in polygon 5 s /\ edge_from s 4 = edge_to s 4.
Proof. cbn zeta. split; [split; [reflexivity|lia]|reflexivity]. Qed.

(** ** C50 *)

(** distance_segment is the smallest distance to the points of the segment, reached. *)
Theorem C50_distance d q a b : shape q = [d] -> shape a = [d] -> shape b = [d] ->
  segment_distance d (fun c => a @1 c) (fun c => b @1 c) (fun c => q @1 c) (distance_segment q a b).
Proof. exact (distance_spec d q a b). Qed.
Print Assumptions C50_distance.

(** Point i of a tensor (m, d). *)
Definition rowf (t : tensor) (i : nat) : nat -> R := fun c => t @2 i c.
Definition near_segment (d : nat) (w : R) (a b q : nat -> R) : Prop := exists t, 0 <= t <= 1 /\ eudist d q (between a b t) <= w.

(** area_segment marks exactly the points at distance at most width of the segment, given
    by its ends or by its origin and direction. *)
Theorem C50_area_segment d m p p0 p1 w : shape p = [m; d] -> shape p0 = [d] -> shape p1 = [d] ->
  exists marks, area_segment p (through p0 p1) (Some w) = Ok marks /\ length marks = m /\
    forall i, (i < m)%nat -> (nth i marks false = true <-> near_segment d w (fun c => p0 @1 c) (fun c => p1 @1 c) (rowf p i)).
Proof.
  intros Hp H0 H1. unfold area_segment, as_rows. cbn [line_points through ln_origin ln_direction ln_p0 ln_p1 bind]. rewrite Hp. assert (NP : nrows p = m) by (unfold nrows; rewrite Hp; reflexivity). rewrite NP.
  eexists. split; [reflexivity|]. split; [rewrite map_length, seq_length; reflexivity|]. intros i L. rewrite nth_map_seq by exact L. rewrite Rleb_true.
  apply (distance_le d (row p i) p0 p1 w); [|exact H0|exact H1]. unfold row, ncols. rewrite Hp. reflexivity.
Qed.
Print Assumptions C50_area_segment.

Theorem C50_area_segment_direction d m p o dir w : shape p = [m; d] -> shape o = [d] -> shape dir = [d] ->
  exists marks, area_segment p (mkLine (Some o) (Some dir) None None) (Some w) = Ok marks /\ length marks = m /\
    forall i, (i < m)%nat -> (nth i marks false = true <-> near_segment d w (fun c => o @1 c) (fun c => o @1 c + dir @1 c) (rowf p i)).
Proof.
  intros Hp H0 H1. assert (H2 : shape (tadd o dir) = [d]) by exact H0.
  destruct (C50_area_segment d m p o (tadd o dir) w Hp H0 H2) as (marks & E & L & H). exists marks. split; [exact E|]. split; [exact L|]. exact H.
Qed.
Print Assumptions C50_area_segment_direction.

(** area_polyline_outline: some segment of the polyline, closed on request, is within width. *)
Lemma near_edge_ok d c p w : shape p = [d] -> ncols c = d -> forall n j,
  exists b, near_edge c p w j n = Ok b /\ (b = true <-> exists k, (j <= k < j + n)%nat /\ near_segment d w (rowf c k) (rowf c (k + 1)) (fun x => p @1 x)).
Proof.
  intros Hp Hc. induction n as [|n IH]; intros j; cbn [near_edge].
  - exists false. split; [reflexivity|]. split; [discriminate|intros (k & L & _); lia].
  - assert (E : the_bool (area_segment p (through (row c j) (row c (j + 1)%nat)) (Some w)) = Ok (Rleb (distance_segment (row (as_rows p) 0) (row c j) (row c (j + 1)%nat)) w)).
    { unfold area_segment, as_rows. cbn [line_points through ln_origin ln_direction ln_p0 ln_p1 bind]. rewrite Hp. reflexivity. }
    rewrite E. cbn [bind].
    assert (K : Rleb (distance_segment (row (as_rows p) 0) (row c j) (row c (j + 1)%nat)) w = true <-> near_segment d w (rowf c j) (rowf c (j + 1)) (fun x => p @1 x)).
    { rewrite Rleb_true. unfold as_rows. rewrite Hp. apply (distance_le d (row (mk2 1 d (fun _ x => p @1 x)) 0) (row c j) (row c (j + 1)%nat) w); [reflexivity| |]; unfold row; rewrite Hc; reflexivity. }
    destruct (Rleb _ w).
    + exists true. split; [reflexivity|]. split; [|reflexivity]. intros _. exists j. split; [lia|]. apply K. reflexivity.
    + destruct (IH (S j)) as (b & Eb & Hb). exists b. split; [exact Eb|]. rewrite Hb. split; intros (k & L & N).
      * exists k. split; [lia|exact N].
      * exists k. split; [|exact N]. destruct (Nat.eq_dec k j) as [->|NE]; [apply K in N; discriminate|lia].
Qed.

Theorem C50_outline d n pl m p w close : shape pl = [n; d] -> (0 < n)%nat -> shape p = [m; d] ->
  exists marks, area_polyline_outline p (Some pl) (Some w) (Some close) = Ok marks /\ length marks = m /\
    forall i, (i < m)%nat -> (nth i marks false = true <->
      (exists k, (k + 1 < n)%nat /\ near_segment d w (rowf pl k) (rowf pl (k + 1)) (rowf p i)) \/
      (close = true /\ near_segment d w (rowf pl (n - 1)) (rowf pl 0) (rowf p i))).
Proof.
  intros Hl Ln Hp. assert (NP : nrows p = m) by (unfold nrows; rewrite Hp; reflexivity). assert (NL : nrows pl = n) by (unfold nrows; rewrite Hl; reflexivity).
  assert (CL : ncols pl = d) by (unfold ncols; rewrite Hl; reflexivity).
  unfold area_polyline_outline.
  assert (EX : forall c N, ncols c = d -> nrows c = N -> exists marks,
     mapM (fun i => near_edge c (row p i) w 0 (N - 1)) (seq 0 (nrows p)) = Ok marks /\ length marks = m /\
     forall i, (i < m)%nat -> (nth i marks false = true <-> exists k, (k < N - 1)%nat /\ near_segment d w (rowf c k) (rowf c (k + 1)) (rowf p i))).
  { intros c N Hc HN. rewrite NP.
    assert (HR : forall i, shape (row p i) = [d]) by (intros i; unfold row, ncols; rewrite Hp; reflexivity).
    exists (map (fun i => match near_edge c (row p i) w 0 (N - 1) with Ok b => b | Err _ => false end) (seq 0 m)). split; [|split].
    - apply mapM_map. intros i _. destruct (near_edge_ok d c (row p i) w (HR i) Hc (N - 1) 0) as (b & -> & _). reflexivity.
    - rewrite map_length, seq_length. reflexivity.
    - intros i L. rewrite nth_map_seq by exact L. destruct (near_edge_ok d c (row p i) w (HR i) Hc (N - 1) 0) as (b & -> & Hb). rewrite Hb. split; intros (k & Lk & H); exists k; (split; [lia|exact H]). }
  destruct close.
  - destruct (close_ok pl n d Hl Ln) as (c & Ec & Hc & Hv). rewrite Ec. cbn [bind].
    destruct (EX c (n + 1)%nat) as (marks & E & L & H); [unfold ncols; rewrite Hc; reflexivity|unfold nrows; rewrite Hc; reflexivity|].
    exists marks. replace (nrows c) with (n + 1)%nat by (unfold nrows; rewrite Hc; reflexivity). split; [exact E|]. split; [exact L|]. intros i Li. rewrite (H i Li).
    assert (C0 : forall k x, (k < n)%nat -> c @2 k x = pl @2 k x).
    { intros k x Lk. unfold close_shape in Ec. rewrite NL in Ec. destruct (Nat.eqb_spec n 0); [discriminate Ec|]. injection Ec as <-. cbn [get mk2]. rewrite (proj2 (Nat.ltb_lt k n) Lk). reflexivity. }
    assert (NX : forall a b a' b', (forall x, a x = a' x) -> (forall x, b x = b' x) -> near_segment d w a b (rowf p i) <-> near_segment d w a' b' (rowf p i)).
    { intros a b a' b' Ha Hb. unfold near_segment.
      assert (EE : forall t, eudist d (rowf p i) (between a b t) = eudist d (rowf p i) (between a' b' t)).
      { intros t. apply eudist_ext; [reflexivity|]. intros x _. unfold between. rewrite Ha, Hb. reflexivity. }
      split; intros (t & T & N); exists t; (split; [exact T|]); [rewrite <- EE|rewrite EE]; exact N. }
    split.
    + intros (k & Lk & N). destruct (Nat.eq_dec k (n - 1)) as [->|NE].
      * right. split; [reflexivity|]. apply (NX (rowf c (n - 1)) (rowf c (n - 1 + 1))); [intros x; apply C0; lia| |exact N]. intros x. unfold rowf. replace (n - 1 + 1)%nat with (1 + (n - 1))%nat by lia. rewrite Hv by lia. replace (n - 1 + 1)%nat with n by lia. rewrite Nat.mod_same by lia. reflexivity.
      * left. exists k. split; [lia|]. apply (NX (rowf c k) (rowf c (k + 1))); [intros x; apply C0; lia|intros x; apply C0; lia|exact N].
    + intros [(k & Lk & N)|(_ & N)].
      * exists k. split; [lia|]. apply (NX (rowf pl k) (rowf pl (k + 1))); [intros x; symmetry; apply C0; lia|intros x; symmetry; apply C0; lia|exact N].
      * exists (n - 1)%nat. split; [lia|]. apply (NX (rowf pl (n - 1)) (rowf pl 0)); [intros x; symmetry; apply C0; lia| |exact N]. intros x. unfold rowf. replace (n - 1 + 1)%nat with (1 + (n - 1))%nat by lia. rewrite Hv by lia. replace (n - 1 + 1)%nat with n by lia. rewrite Nat.mod_same by lia. reflexivity.
  - cbn [bind]. destruct (EX pl n CL NL) as (marks & E & L & H). rewrite NL. exists marks. split; [exact E|]. split; [exact L|]. intros i Li. rewrite (H i Li). split.
    + intros (k & Lk & N). left. exists k. split; [lia|exact N].
    + intros [(k & Lk & N)|(A & _)]; [exists k; split; [lia|exact N]|discriminate].
Qed.
Print Assumptions C50_outline.
(** Without width, the width is 0; without close, the polyline is not closed. *)
Theorem C50_outline_defaults p pl w close :
  area_polyline_outline p (Some pl) None (Some close) = area_polyline_outline p (Some pl) (Some 0) (Some close) /\
  area_polyline_outline p (Some pl) (Some w) None = area_polyline_outline p (Some pl) (Some w) (Some false) /\
  area_polyline_outline p (Some pl) None None = area_polyline_outline p (Some pl) (Some 0) (Some false).
Proof. repeat split. Qed.
Print Assumptions C50_outline_defaults.

(** area_disc marks the closed disc (the closed ball). *)
Theorem C50_disc d m p c r : shape p = [m; d] ->
  exists marks, area_disc p (Some c) (Some r) = Ok marks /\ length marks = m /\
    forall i, (i < m)%nat -> (nth i marks false = true <-> eudist d (rowf p i) (fun x => c @1 x) <= r).
Proof.
  intros Hp. unfold area_disc. assert (NP : nrows p = m) by (unfold nrows; rewrite Hp; reflexivity). assert (CP : ncols p = d) by (unfold ncols; rewrite Hp; reflexivity). rewrite NP, CP.
  eexists. split; [reflexivity|]. split; [rewrite map_length, seq_length; reflexivity|]. intros i L. rewrite nth_map_seq by exact L. apply Rleb_true.
Qed.
Print Assumptions C50_disc.

(** Missing keywords. *)
Theorem C50_errors p l w close pl c : line_points l = Err RuntimeError \/ w = None ->
  area_segment p l w = Err RuntimeError /\ area_polyline_outline p None w close = Err RuntimeError /\
  area_disc p None w = Err RuntimeError /\ area_disc p (Some c) None = Err RuntimeError /\
  (shape pl = [0%nat; 2%nat] -> area_polyline_outline p (Some pl) w (Some true) = Err IndexError).
Proof.
  intros H. repeat split.
  - unfold area_segment. destruct H as [->| ->]; [reflexivity|]. unfold line_points. destruct (ln_origin l), (ln_direction l), (ln_p0 l), (ln_p1 l); reflexivity.
  - intros S. unfold area_polyline_outline, close_shape, nrows. rewrite S. reflexivity.
Qed.
Print Assumptions C50_errors.

Example degenerate : distance_segment (pt2 3 4) (pt2 0 0) (pt2 0 0) = 5.
Proof.
  destruct (C50_distance 2 (pt2 3 4) (pt2 0 0) (pt2 0 0) eq_refl eq_refl eq_refl) as ((t & T & E) & _). rewrite E. unfold eudist, between. cbn.
  replace (0 + (3 - (0 + t * (0 - 0))) * ((3 - (0 + t * (0 - 0))) * 1) + (4 - (0 + t * (0 - 0))) * ((4 - (0 + t * (0 - 0))) * 1)) with (5 * 5) by ring. apply sqrt_square. lra.
Qed.

(** ** C52 *)

(** For a kernel with positive values every smoothed point is a convex combination of the
    points, with weights that do not depend on the coordinate. *)
Theorem C52_convex_combination n d p kernel : shape p = [n; d] -> (0 < n)%nat -> shape (kernel p p) = [n; n] ->
  (forall i j, (i < n)%nat -> (j < n)%nat -> 0 < (kernel p p) @2 i j) ->
  shape (kernel_smooth p kernel) = [n; d] /\
  forall i, (i < n)%nat -> exists w, weights n w /\ forall c, (c < d)%nat -> (kernel_smooth p kernel) @2 i c = rsum n (fun j => w j * p @2 j c).
Proof.
  intros Hp Ln HK P. split.
  - unfold kernel_smooth, mm. cbn [shape mk2 nrows ncols]. unfold nrows, ncols. cbn [shape mk2 tnth nth]. rewrite HK, Hp. reflexivity.
  - intros i Li. exists (smoothing_weight (kernel p p) i). split; [apply smoothing_weights; auto|]. intros c Lc. apply (smooth_value n d); assumption.
Qed.
Print Assumptions C52_convex_combination.

(** So it stays in every box containing the points and keeps constants. *)
Theorem C52_box n d p kernel lo hi : shape p = [n; d] -> (0 < n)%nat -> shape (kernel p p) = [n; n] ->
  (forall i j, (i < n)%nat -> (j < n)%nat -> 0 < (kernel p p) @2 i j) ->
  (forall i c, (i < n)%nat -> (c < d)%nat -> lo c <= p @2 i c <= hi c) ->
  forall i c, (i < n)%nat -> (c < d)%nat -> lo c <= (kernel_smooth p kernel) @2 i c <= hi c.
Proof.
  intros Hp Ln HK P B i c Li Lc. destruct (C52_convex_combination n d p kernel Hp Ln HK P) as (_ & H). destruct (H i Li) as (w & (W0 & W1) & E). rewrite (E c Lc).
  split.
  - replace (lo c) with (rsum n (fun j => w j * lo c)) by (rewrite rsum_scal_r, W1; ring). apply rsum_le. intros j Lj. apply Rmult_le_compat_l; [apply W0; exact Lj|apply B; assumption].
  - replace (hi c) with (rsum n (fun j => w j * hi c)) by (rewrite rsum_scal_r, W1; ring). apply rsum_le. intros j Lj. apply Rmult_le_compat_l; [apply W0; exact Lj|apply B; assumption].
Qed.
Print Assumptions C52_box.

(** The Gaussian smoothing: the same, and it commutes with translations. *)
Definition translated (v : nat -> R) (p : tensor) : tensor := mk2 (nrows p) (ncols p) (fun i c => p @2 i c + v c).

Theorem C52_gaussian n d p sigma : shape p = [n; d] -> (0 < n)%nat ->
  (forall i, (i < n)%nat -> exists w, weights n w /\ forall c, (c < d)%nat -> (gaussian_kernel_smooth p sigma) @2 i c = rsum n (fun j => w j * p @2 j c)) /\
  forall v i c, (i < n)%nat -> (c < d)%nat -> (gaussian_kernel_smooth (translated v p) sigma) @2 i c = (gaussian_kernel_smooth p sigma) @2 i c + v c.
Proof.
  intros Hp Ln.
  assert (POS : forall q i j, 0 < (K_xy q q sigma) @2 i j) by (intros q i j; unfold K_xy, tmap; cbn [get]; apply exp_pos).
  split.
  - apply (C52_convex_combination n d p _ Hp Ln); [apply (K_xy_shape p p n n d); assumption|auto].
  - intros v i c Li Lc. assert (Ht : shape (translated v p) = [n; d]) by (unfold translated, nrows, ncols; rewrite Hp; reflexivity).
    unfold gaussian_kernel_smooth. rewrite (smooth_value n d (translated v p)), (smooth_value n d p) by (assumption || (apply (K_xy_shape _ _ n n d); assumption)).
    assert (KE : forall a b, (K_xy (translated v p) (translated v p) sigma) @2 a b = (K_xy p p sigma) @2 a b).
    { intros a b. unfold K_xy, tmap. cbn [get].
      assert (SE : (sqdistances (translated v p) (translated v p)) @2 a b = (sqdistances p p) @2 a b); [|rewrite SE; reflexivity].
      unfold sqdistances. cbn [get mk2]. replace (ncols (translated v p)) with (ncols p) by reflexivity. apply rsum_ext. intros x _. unfold unsq_diff, translated. cbn [get mk2 mk3]. f_equal. ring. }
    assert (WE : forall j, smoothing_weight (K_xy (translated v p) (translated v p) sigma) i j = smoothing_weight (K_xy p p sigma) i j).
    { intros j. unfold smoothing_weight. rewrite KE. f_equal. unfold ncols. rewrite (K_xy_shape _ _ n n d), (K_xy_shape p p n n d) by assumption. apply rsum_ext. intros x _. apply KE. }
    destruct (smoothing_weights n (K_xy p p sigma) i (K_xy_shape p p n n d sigma Hp Hp) (fun j _ => POS p i j) Ln) as (_ & W1).
    rewrite (rsum_ext n _ (fun j => smoothing_weight (K_xy p p sigma) i j * p @2 j c + smoothing_weight (K_xy p p sigma) i j * v c)).
    + rewrite rsum_plus, rsum_scal_r, W1. ring.
    + intros j _. rewrite WE. unfold translated. cbn [get mk2]. ring.
Qed.
Print Assumptions C52_gaussian.

(** ** C66 *)

(** The points returned for a curve of two vertices: none, or IndexError. *)
Theorem C66_two_vertices curve d density : shape curve = [2%nat; d] -> 0 < density ->
  1 <= density * eudist d (rowf curve 1) (rowf curve 0) -> resample_curve curve density = Err IndexError.
Proof.
  intros Hc Dp L. unfold resample_curve, nrows. rewrite Hc. cbn [tnth nth Nat.leb Nat.sub].
  destruct (Reqb density 0) eqn:Z; [apply Reqb_true in Z; lra|].
  set (len := rsum 1 (fun i => vdist (row curve (i + 1)) (row curve i))).
  assert (EL : len = eudist d (rowf curve 1) (rowf curve 0)).
  { unfold len. cbn [rsum Nat.add]. rewrite Rplus_0_l. apply vdist_eu. unfold row, ncols. rewrite Hc. reflexivity. }
  assert (CT : (1 <= Int_part (len * density))%Z).
  { destruct (base_Int_part (len * density)) as (B1 & B2). rewrite EL in *. assert (0 < IZR (Int_part (eudist d (rowf curve 1) (rowf curve 0) * density))) by lra. apply lt_IZR in H. lia. }
  destruct (Z.ltb_spec (Int_part (len * density)) 0); [lia|]. destruct (Z.to_nat (Int_part (len * density))) as [|k] eqn:K; [lia|].
  cbn [resample_loop Nat.ltb Nat.leb bind min rsum]. replace (Rleb 0 (0 + 1 / density)) with true.
  - unfold vertex, nrows. rewrite Hc. cbn [tnth nth Nat.add]. reflexivity.
  - symmetry. apply Rleb_true. assert (0 < 1 / density) by (apply Rdiv_lt_0_compat; lra). lra.
Qed.
Print Assumptions C66_two_vertices.

Lemma resample_length curve nl lens step k : forall out p0 p1 li cur, resample_loop curve nl lens step cur li p0 p1 k = Ok out -> length out = k.
Proof.
  induction k as [|k IH]; intros out p0 p1 li cur E; cbn [resample_loop] in E.
  - injection E as <-. reflexivity.
  - destruct (Nat.ltb li nl); [|cbn [bind] in E; discriminate]. cbn [bind] in E. destruct (Rleb _ _).
    + destruct (vertex curve (li + 2)); [|cbn [bind] in E; discriminate]. cbn [bind] in E. destruct (resample_loop _ _ _ _ _ _ _ _ k) eqn:R; [|cbn [bind] in E; discriminate]. cbn [bind] in E. injection E as <-. cbn. f_equal. apply (IH _ _ _ _ _ R).
    + cbn [bind] in E. destruct (resample_loop _ _ _ _ _ _ _ _ k) eqn:R; [|cbn [bind] in E; discriminate]. cbn [bind] in E. injection E as <-. cbn. f_equal. apply (IH _ _ _ _ _ R).
Qed.

(** Whenever points are returned the first one is the opposite of the first vertex. *)
Theorem C66_first_point curve n d density out : shape curve = [n; d] -> (2 <= n)%nat -> resample_curve curve density = Ok out ->
  length out = Z.to_nat (Int_part (rsum (n - 1) (fun i => eudist d (rowf curve (i + 1)) (rowf curve i)) * density)) /\
  forall p rest, out = p :: rest -> forall c, (c < d)%nat -> p @1 c = - curve @2 (0%nat) c.
Proof.
  intros Hc Ln. unfold resample_curve, nrows. rewrite Hc. cbn [tnth nth]. destruct (Nat.leb_spec n 1); [lia|]. destruct (Reqb density 0); [discriminate|].
  assert (EL : rsum (n - 1) (fun i => vdist (row curve (i + 1)) (row curve i)) = rsum (n - 1) (fun i => eudist d (rowf curve (i + 1)) (rowf curve i))).
  { apply rsum_ext. intros i _. apply vdist_eu. unfold row, ncols. rewrite Hc. reflexivity. }
  rewrite EL. set (L := rsum (n - 1) _). destruct (Z.ltb (Int_part (L * density)) 0); [discriminate|].
  set (lens := fun i => vdist (row curve (i + 1)) (row curve i)). intros E. split.
  - apply (resample_length _ _ _ _ _ _ _ _ _ _ E).
  - intros p rest -> c Lc. destruct (Z.to_nat (Int_part (L * density))) as [|k]; [discriminate E|]. cbn [resample_loop] in E.
    destruct (Nat.ltb 0 (n - 1)); [|cbn [bind] in E; discriminate]. cbn [bind] in E.
    assert (P : forall t, p = tsub (tscal ((0 - rsum (min 0 (n - 1)) lens) * t) (row curve 1)) (row curve 0) -> p @1 c = - curve @2 (0%nat) c).
    { intros t ->. unfold tsub, tscal, row. cbn. ring. }
    destruct (Rleb _ _).
    + destruct (vertex curve (0 + 2)); [|cbn [bind] in E; discriminate]. cbn [bind] in E. destruct (resample_loop _ _ _ _ _ _ _ _ k); [|cbn [bind] in E; discriminate]. cbn [bind] in E. injection E as <- _. apply (P (lens 0%nat)). reflexivity.
    + cbn [bind] in E. destruct (resample_loop _ _ _ _ _ _ _ _ k); [|cbn [bind] in E; discriminate]. cbn [bind] in E. injection E as <- _. apply (P (lens 0%nat)). reflexivity.
Qed.
Print Assumptions C66_first_point.

(** So the returned points need not lie on the curve. *)
Definition on_curve (curve : tensor) (n d : nat) (p : nat -> R) : Prop :=
  exists k t, (k + 1 < n)%nat /\ 0 <= t <= 1 /\ forall c, (c < d)%nat -> p c = between (rowf curve k) (rowf curve (k + 1)) t c.
Theorem C66_points_on_curve_refuted : exists curve density p rest,
  shape curve = [3%nat; 2%nat] /\ 0 < density /\ resample_curve curve density = Ok (p :: rest) /\ ~ on_curve curve 3 2 (fun c => p @1 c).
Proof.
  set (curve := tlist2 3 2 [1; 0; 2; 0; 3; 0]).
  assert (EL : rsum 2 (fun i => vdist (row curve (i + 1)) (row curve i)) = 2).
  { cbn [rsum]. unfold vdist. cbn. replace (0 + (2 - 1) * ((2 - 1) * 1) + (0 - 0) * ((0 - 0) * 1)) with 1 by ring. replace (0 + (3 - 2) * ((3 - 2) * 1) + (0 - 0) * ((0 - 0) * 1)) with 1 by ring. rewrite sqrt_1. ring. }
  destruct (resample_curve curve (1/2)) as [out|e] eqn:E.
  - destruct (C66_first_point curve 3 2 (1/2) out eq_refl ltac:(lia) E) as (L & F).
    assert (L1 : length out = 1%nat).
    { rewrite L. replace (rsum (3 - 1) (fun i => eudist 2 (rowf curve (i + 1)) (rowf curve i)) * (1/2)) with 1.
      - assert (I : Int_part 1 = 1%Z) by (unfold Int_part; rewrite <- (tech_up 1 2); [reflexivity|lra|lra]). rewrite I. reflexivity.
      - change (3 - 1)%nat with 2%nat. rewrite <- (rsum_ext 2 (fun i => vdist (row curve (i + 1)) (row curve i))); [rewrite EL; lra|]. intros i _. apply vdist_eu. reflexivity. }
    destruct out as [|p rest]; [discriminate L1|]. exists curve, (1/2), p, rest. split; [reflexivity|]. split; [lra|]. split; [exact E|].
    intros (k & t & Lk & T & H). specialize (H 0%nat ltac:(lia)). rewrite (F p rest eq_refl 0%nat ltac:(lia)) in H. unfold between, rowf in H.
    assert (k = 0 \/ k = 1)%nat as [->| ->] by lia; cbn in H; lra.
  - exfalso. unfold resample_curve in E. change (nrows curve) with 3%nat in E. cbn [Nat.leb Nat.sub] in E. rewrite EL in E.
    replace (Reqb (1/2) 0) with false in E by (symmetry; apply Reqb_false; lra).
    replace (2 * (1/2)) with 1 in E by lra. assert (I : Int_part 1 = 1%Z) by (unfold Int_part; rewrite <- (tech_up 1 2); [reflexivity|lra|lra]). rewrite I in E. change (Z.ltb 1 0) with false in E. change (Z.to_nat 1) with 1%nat in E.
    cbn [resample_loop Nat.ltb Nat.leb bind] in E. destruct (Rleb _ _); cbn [bind] in E; [|discriminate E]. unfold vertex in E. change (Nat.ltb (0 + 2) (nrows curve)) with true in E. discriminate E.
Qed.
Print Assumptions C66_points_on_curve_refuted.
Example two_vertices : shape (tlist2 2 1 [0; 4]) = [2%nat; 1%nat] /\ 1 <= 1 * eudist 1 (rowf (tlist2 2 1 [0; 4]) 1) (rowf (tlist2 2 1 [0; 4]) 0).
Proof. split; [reflexivity|]. unfold eudist, rowf. cbn. replace (0 + (4 - 0) * ((4 - 0) * 1)) with (4 * 4) by ring. rewrite sqrt_square by lra. lra. Qed.
