(** Properties of area_side, point_side and is_shape_closed (C106). *)
From Coq Require Import Reals List Arith ZArith Lia Lra Bool.
From Verif Require Import Py Tensor KernelModel FieldModel Fl MeshModel SpecMesh MeshFacts PropMesh.
Import ListNotations.
Open Scope R_scope.

(** The plane seen from the line that goes from a to b: the point reached from a by going
    t times along b - a and s times along b - a turned by a quarter of a turn to the left
    (the first axis goes to the right, the second one up). *)
Definition seen (a b : pt) (t s : R) : pt :=
  (fst a + t * (fst b - fst a) - s * (snd b - snd a), snd a + t * (snd b - snd a) + s * (fst b - fst a)).
Definition on_left (a b q : pt) : Prop := exists t s, 0 < s /\ q = seen a b t s.
Definition on_right (a b q : pt) : Prop := exists t s, s < 0 /\ q = seen a b t s.
Definition on_line (a b q : pt) : Prop := exists t, q = seen a b t 0.

Lemma orient_seen a b t s : orient a b (seen a b t s) = s * ((fst b - fst a) ^ 2 + (snd b - snd a) ^ 2).
Proof. unfold orient, seen. cbn [fst snd]. ring. Qed.
Lemma gap_positive (a b : pt) : a <> b -> 0 < (fst b - fst a) ^ 2 + (snd b - snd a) ^ 2.
Proof.
  intros N. destruct a as (a1 & a2), b as (b1 & b2). cbn [fst snd]. destruct (Req_dec b1 a1) as [E|E]; [destruct (Req_dec b2 a2) as [E'|E']|].
  - subst. elim N. reflexivity.
  - assert (0 < (b2 - a2) ^ 2) by (rewrite <- Rsqr_pow2; apply Rsqr_pos_lt; lra). pose proof (pow2_ge_0 (b1 - a1)). lra.
  - assert (0 < (b1 - a1) ^ 2) by (rewrite <- Rsqr_pow2; apply Rsqr_pos_lt; lra). pose proof (pow2_ge_0 (b2 - a2)). lra.
Qed.
Lemma seen_all a b q : a <> b -> exists t s, q = seen a b t s.
Proof.
  intros N. pose proof (gap_positive a b N) as G. destruct a as (a1 & a2), b as (b1 & b2), q as (q1 & q2). unfold seen. cbn [fst snd] in *.
  set (D := (b1 - a1) ^ 2 + (b2 - a2) ^ 2) in *.
  exists (((q1 - a1) * (b1 - a1) + (q2 - a2) * (b2 - a2)) / D), (((b1 - a1) * (q2 - a2) - (b2 - a2) * (q1 - a1)) / D).
  f_equal; apply (Rmult_eq_reg_r D); try lra; unfold Rdiv; rewrite ?Rmult_plus_distr_r, ?Rmult_minus_distr_r; field_simplify; try lra; unfold D; field.
Qed.
Lemma sides a b q : a <> b -> (on_left a b q <-> 0 < orient a b q) /\ (on_right a b q <-> orient a b q < 0) /\ (on_line a b q <-> orient a b q = 0).
Proof.
  intros N. pose proof (gap_positive a b N) as G. set (D := (fst b - fst a) ^ 2 + (snd b - snd a) ^ 2) in *.
  destruct (seen_all a b q N) as (t & s & E).
  assert (O : forall t s, orient a b (seen a b t s) = s * D) by (intros; apply orient_seen).
  split; [|split]; split.
  - intros (t0 & s0 & P & ->). rewrite O. apply Rmult_lt_0_compat; assumption.
  - rewrite E, O. intros P. exists t, s. split; [|reflexivity]. apply (Rmult_lt_reg_r D); [exact G|]. lra.
  - intros (t0 & s0 & P & ->). rewrite O. assert (0 < (- s0) * D) by (apply Rmult_lt_0_compat; lra). lra.
  - rewrite E, O. intros P. exists t, s. split; [|reflexivity]. apply (Rmult_lt_reg_r D); [exact G|]. lra.
  - intros (t0 & ->). rewrite O. ring.
  - rewrite E, O. intros P. apply Rmult_integral in P. destruct P as [->|P]; [exists t; reflexivity|lra].
Qed.

(** A line is given by origin and direction, or by p0 and p1. *)
Definition line_of (l : line) (a b : pt) : Prop :=
  (exists o d, ln_origin l = Some o /\ ln_direction l = Some d /\ point o /\ point d /\ a = pt_of o /\ b = (fst a + fst (pt_of d), snd a + snd (pt_of d))) \/
  ((ln_origin l = None \/ ln_direction l = None) /\ exists p0 p1, ln_p0 l = Some p0 /\ ln_p1 l = Some p1 /\ point p0 /\ point p1 /\ a = pt_of p0 /\ b = pt_of p1).

(** What has to hold of the points that are marked. *)
Definition to_mark (side : Z) (intersect : bool) (a b q : pt) : Prop :=
  (side = 1%Z /\ on_left a b q) \/ (side = (-1)%Z /\ on_right a b q) \/ (intersect = true /\ on_line a b q).

Lemma line_given l a b : line_of l a b -> exists p0 p1, line_points l = Ok (p0, p1) /\ pt_of p0 = a /\ pt_of p1 = b.
Proof.
  unfold line_points. intros [(o & d & -> & -> & So & Sd & -> & ->)|(N & p0 & p1 & E0 & E1 & _ & _ & -> & ->)].
  - exists o, (tadd o d). split; [reflexivity|]. split; reflexivity.
  - exists p0, p1. rewrite E0, E1. destruct N as [->| ->]; [split; auto|]. destruct (ln_origin l); auto.
Qed.
Lemma marks_sign side b a c q : side = 1%Z \/ side = (-1)%Z -> a <> c ->
  ((if b : bool then (Z.eqb (rsign (orient a c q)) side || Z.eqb (rsign (orient a c q)) 0)%bool else Z.eqb (rsign (orient a c q)) side) = true <-> to_mark side b a c q).
Proof.
  intros S N. destruct (sides a c q N) as (L & R & O). unfold to_mark. rewrite L, R, O. destruct (Rtotal_order (orient a c q) 0) as [P|[P|P]].
  - rewrite (proj2 (rsign_m1 _) P). destruct S as [->| ->], b; cbn; split; try tauto; try discriminate; intros; intuition (try discriminate; try lra).
  - rewrite (proj2 (rsign_0 _) P). destruct S as [->| ->], b; cbn; split; try tauto; try discriminate; intros; intuition (try discriminate; try lra).
  - rewrite (proj2 (rsign_1 _) P). destruct S as [->| ->], b; cbn; split; try tauto; try discriminate; intros; intuition (try discriminate; try lra).
Qed.

Lemma nth_mark (f : nat -> bool) n i : (i < n)%nat -> nth i (map f (seq 0 n)) false = f i.
Proof. intros L. rewrite (nth_indep _ false (f 0%nat)) by (rewrite map_length, seq_length; exact L). rewrite map_nth, seq_nth by exact L. reflexivity. Qed.

(** area_side marks the points on the left (side = 1, which is the default) or on the right
    (side = -1), and with intersect those on the line. *)
Theorem C106_marks n p l a b side intersect : points n p -> line_of l a b -> a <> b ->
  side = None \/ side = Some 1%Z \/ side = Some (-1)%Z ->
  exists marks, area_side p l side intersect = Ok marks /\ length marks = n /\
    forall i, (i < n)%nat -> (nth i marks false = true <->
      to_mark (match side with Some s => s | None => 1%Z end) (match intersect with Some x => x | None => false end) a b (vtx p i)).
Proof.
  intros Hp Hl N S. destruct (line_given l a b Hl) as (p0 & p1 & E & <- & <-). unfold area_side. rewrite E. cbn [bind].
  unfold points in Hp. unfold as_rows, nrows. rewrite Hp. rewrite Hp. cbn [tnth nth].
  eexists. split; [reflexivity|]. split; [rewrite map_length, seq_length; reflexivity|]. intros i L.
  rewrite nth_mark by exact L. rewrite side_sign_orient. apply marks_sign; [destruct S as [->|[->| ->]]; auto|exact N].
Qed.
Print Assumptions C106_marks.

(** One point (shape (2)) is marked alike. *)
Theorem C106_one_point p l a b side intersect : point p -> line_of l a b -> a <> b ->
  side = None \/ side = Some 1%Z \/ side = Some (-1)%Z ->
  exists x, area_side p l side intersect = Ok [x] /\
    (x = true <-> to_mark (match side with Some s => s | None => 1%Z end) (match intersect with Some x => x | None => false end) a b (pt_of p)).
Proof.
  intros Hp Hl N S. destruct (line_given l a b Hl) as (p0 & p1 & E & <- & <-). unfold area_side. rewrite E. cbn [bind].
  unfold point in Hp. unfold as_rows, nrows. rewrite Hp. cbn [mk2 shape tnth nth seq map].
  eexists. split; [reflexivity|]. cbn [get]. rewrite side_sign_orient. apply marks_sign; [destruct S as [->|[->| ->]]; auto|exact N].
Qed.
Print Assumptions C106_one_point.

(** Every point is on one and only one of the two sides, or on the line. *)
Theorem C106_partition a b q : a <> b ->
  (on_left a b q \/ on_right a b q \/ on_line a b q) /\ ~ (on_left a b q /\ on_right a b q) /\ ~ (on_left a b q /\ on_line a b q) /\ ~ (on_right a b q /\ on_line a b q).
Proof.
  intros N. destruct (sides a b q N) as (-> & -> & ->). destruct (Rtotal_order (orient a b q) 0) as [P|[P|P]]; (split; [tauto|]); repeat split; intros (A & B); lra.
Qed.
Print Assumptions C106_partition.

(** The same line through other points: what is marked depends on the line and on its
    direction only; in the other direction the sides are exchanged. *)
Theorem C106_same_line a b t0 t1 q : a <> b -> t0 <> t1 ->
  let a' := seen a b t0 0 in let b' := seen a b t1 0 in
  (t0 < t1 -> (on_left a' b' q <-> on_left a b q) /\ (on_right a' b' q <-> on_right a b q)) /\
  (t1 < t0 -> (on_left a' b' q <-> on_right a b q) /\ (on_right a' b' q <-> on_left a b q)) /\
  (on_line a' b' q <-> on_line a b q).
Proof.
  intros N NT a' b'. pose proof (gap_positive a b N) as G.
  assert (O : orient a' b' q = (t1 - t0) * orient a b q) by (unfold orient, a', b', seen; cbn [fst snd]; ring).
  assert (N' : a' <> b').
  { intros E. unfold a', b', seen in E. injection E as E1 E2. apply (Rlt_irrefl 0). rewrite <- (Rmult_0_r ((t1 - t0) ^ 2)) at 2.
    replace ((t1 - t0) ^ 2 * 0) with ((t1 - t0) ^ 2 * ((fst b - fst a) ^ 2 + (snd b - snd a) ^ 2)).
    - apply Rmult_lt_0_compat; [rewrite <- Rsqr_pow2; apply Rsqr_pos_lt; lra|exact G].
    - rewrite Rmult_0_r. replace ((t1 - t0) ^ 2 * ((fst b - fst a) ^ 2 + (snd b - snd a) ^ 2)) with (((t1 - t0) * (fst b - fst a)) ^ 2 + ((t1 - t0) * (snd b - snd a)) ^ 2) by ring.
      assert (Z1 : (t1 - t0) * (fst b - fst a) = 0) by lra. assert (Z2 : (t1 - t0) * (snd b - snd a) = 0) by lra. rewrite Z1, Z2. ring. }
  destruct (sides a b q N) as (-> & -> & ->). destruct (sides a' b' q N') as (-> & -> & ->). rewrite O.
  assert (P : forall k x, 0 < k -> (0 < k * x <-> 0 < x) /\ (k * x < 0 <-> x < 0)).
  { intros k x K. split; split; intros H.
    - apply (Rmult_lt_reg_l k); lra.
    - apply Rmult_lt_0_compat; assumption.
    - apply (Rmult_lt_reg_l k); lra.
    - assert (0 < k * - x) by (apply Rmult_lt_0_compat; lra). lra. }
  split; [|split].
  - intros L. apply P. lra.
  - intros L. destruct (P (t0 - t1) (orient a b q) ltac:(lra)) as (P1 & P2). rewrite <- P1, <- P2. split; split; intros; lra.
  - split; intros H; [|rewrite H; ring]. apply Rmult_integral in H. destruct H; lra.
Qed.
Print Assumptions C106_same_line.

(** No line (the two points are equal, the direction is zero): nothing is marked without
    intersect, everything is with it. *)
Theorem C106_no_line n p l a side intersect : points n p -> line_of l a a ->
  side = None \/ side = Some 1%Z \/ side = Some (-1)%Z ->
  area_side p l side intersect = Ok (repeat (match intersect with Some x => x | None => false end) n).
Proof.
  intros Hp Hl S. destruct (line_given l a a Hl) as (p0 & p1 & E & E0 & E1). unfold area_side. rewrite E. cbn [bind].
  unfold points in Hp. unfold as_rows, nrows. rewrite Hp. rewrite Hp. cbn [tnth nth]. f_equal.
  assert (X : forall m k, map (fun i => if match intersect with Some x => x | None => false end
      then (Z.eqb (side_sign p0 p1 (p @2 i (0%nat)) (p @2 i (1%nat))) match side with Some s => s | None => 1%Z end || Z.eqb (side_sign p0 p1 (p @2 i (0%nat)) (p @2 i (1%nat))) 0)%bool
      else Z.eqb (side_sign p0 p1 (p @2 i (0%nat)) (p @2 i (1%nat))) match side with Some s => s | None => 1%Z end) (seq k m) = repeat (match intersect with Some x => x | None => false end) m); [|apply X].
  induction m as [|m IH]; intros k; [reflexivity|]. cbn [seq map repeat]. rewrite IH. f_equal.
  assert (Z : side_sign p0 p1 (p @2 k 0%nat) (p @2 k 1%nat) = 0%Z).
  { rewrite side_sign_orient, E0, E1. apply rsign_0. unfold orient. ring. }
  rewrite Z. destruct intersect as [[|]|], S as [->|[->| ->]]; reflexivity.
Qed.
Print Assumptions C106_no_line.

(** Errors: neither origin and direction nor p0 and p1. *)
Theorem C106_errors p l side intersect :
  area_side p l side intersect = Err RuntimeError <->
  (ln_origin l = None \/ ln_direction l = None) /\ (ln_p0 l = None \/ ln_p1 l = None).
Proof.
  unfold area_side, line_points. destruct (ln_origin l), (ln_direction l), (ln_p0 l), (ln_p1 l); cbn [bind]; split; intros H; try discriminate; try reflexivity; intuition discriminate.
Qed.
Print Assumptions C106_errors.

(** point_side is +1 on the left, -1 on the right and 0 on the line. *)
Theorem C106_point_side q p0 p1 : point q -> point p0 -> point p1 -> pt_of p0 <> pt_of p1 ->
  (point_side q p0 p1 = 1%Z <-> on_left (pt_of p0) (pt_of p1) (pt_of q)) /\
  (point_side q p0 p1 = (-1)%Z <-> on_right (pt_of p0) (pt_of p1) (pt_of q)) /\
  (point_side q p0 p1 = 0%Z <-> on_line (pt_of p0) (pt_of p1) (pt_of q)).
Proof.
  intros Sq S0 S1 N. unfold point_side. rewrite side_sign_orient. destruct (sides _ _ (pt_of q) N) as (-> & -> & ->).
  split; [apply rsign_1|]. split; [apply rsign_m1|apply rsign_0].
Qed.
Print Assumptions C106_point_side.

(** A finding: point_side is documented to be -1 on the left and +1 on the right
    (meshutils.py:429), the opposite of what it returns (and of the documentation of
    area_side). *)
Theorem C106_documented_side_refuted : exists q p0 p1, point q /\ point p0 /\ point p1 /\
  on_left (pt_of p0) (pt_of p1) (pt_of q) /\ point_side q p0 p1 = 1%Z.
Proof.
  exists (pt2 0 1), (pt2 0 0), (pt2 1 0). do 3 (split; [reflexivity|]).
  assert (L : on_left (pt_of (pt2 0 0)) (pt_of (pt2 1 0)) (pt_of (pt2 0 1))) by (exists 0, 1; split; [lra|]; apply injective_projections; cbn; ring).
  split; [exact L|]. apply C106_point_side; [reflexivity..| |exact L]. cbn. intros E. injection E as E. lra.
Qed.
Print Assumptions C106_documented_side_refuted.

(** ** Closed shapes *)

(** is_shape_closed compares the first and the last vertex; what close_shape returns is
    closed, has one more vertex and begins with the given ones. *)
Theorem C106_closed n d s : shape s = [n; d] -> (0 < n)%nat ->
  (exists b, is_shape_closed s = Ok b /\ (b = true <-> forall c, (c < d)%nat -> s @2 0%nat c = s @2 (n - 1)%nat c)) /\
  exists closed, close_shape s = Ok closed /\ is_shape_closed closed = Ok true /\ shape closed = [(n + 1)%nat; d] /\
    forall i c, (i < n)%nat -> (c < d)%nat -> closed @2 i c = s @2 i c.
Proof.
  intros Hs L. assert (X : forall n s, shape s = [n; d] -> (0 < n)%nat ->
    exists b, is_shape_closed s = Ok b /\ (b = true <-> forall c, (c < d)%nat -> s @2 0%nat c = s @2 (n - 1)%nat c)).
  { clear. intros n s Hs L. unfold is_shape_closed, nrows, ncols. rewrite Hs. cbn [tnth nth]. destruct (Nat.eqb_spec n 0); [lia|]. eexists. split; [reflexivity|].
    rewrite forallb_forall. split; intros H c C.
    - apply Reqb_true, H. apply in_seq. lia.
    - apply Reqb_true, H. apply in_seq in C. lia. }
  split; [apply X; assumption|].
  assert (E : exists closed, close_shape s = Ok closed /\ shape closed = [(n + 1)%nat; d] /\ forall i c, closed @2 i c = if Nat.ltb i n then s @2 i c else s @2 0%nat c).
  { unfold close_shape, nrows, ncols. rewrite Hs. cbn [tnth nth]. destruct (Nat.eqb_spec n 0); [lia|]. eexists. split; [reflexivity|]. split; reflexivity. }
  destruct E as (closed & E & Sc & G). exists closed. split; [exact E|]. destruct (X (n + 1)%nat closed Sc ltac:(lia)) as (b & Eb & Hb). split.
  - rewrite Eb. f_equal. apply Hb. intros c C. rewrite !G. replace (n + 1 - 1)%nat with n by lia. rewrite Nat.ltb_irrefl. destruct (Nat.ltb 0 n); reflexivity.
  - split; [exact Sc|]. intros i c Hi Hc. rewrite G. destruct (Nat.ltb_spec i n); [reflexivity|lia].
Qed.
Print Assumptions C106_closed.
Theorem C106_empty_shape s d : shape s = [0%nat; d] -> is_shape_closed s = Err IndexError /\ close_shape s = Err IndexError.
Proof. intros H. unfold is_shape_closed, close_shape, nrows. rewrite H. split; reflexivity. Qed.
Print Assumptions C106_empty_shape.

(** A case: the line from (0, 0) along (2, 0); two points above it, one below, one on it. *)
Definition above : line := mkLine (Some (pt2 0 0)) (Some (pt2 2 0)) None None.
Definition four : tensor := tlist2 4 2 [0; 1; 5; 2; 1; -1; -3; 0].
Example C106_hypotheses : points 4 four /\ line_of above (0, 0) (2, 0) /\ (0, 0) <> (2, 0) /\
  on_left (0, 0) (2, 0) (vtx four 0) /\ on_right (0, 0) (2, 0) (vtx four 2) /\ on_line (0, 0) (2, 0) (vtx four 3) /\
  exists marks, area_side four above None (Some true) = Ok marks /\ nth 0 marks false = true /\ nth 2 marks false = false /\ nth 3 marks false = true.
Proof.
  assert (HP : points 4 four) by reflexivity.
  assert (HL : line_of above (0, 0) (2, 0)).
  { left. exists (pt2 0 0), (pt2 2 0). do 4 (split; [reflexivity|]). split; [reflexivity|]. cbn. f_equal; ring. }
  assert (N : (0, 0) <> (2, 0)) by (intros E; injection E as E; lra).
  assert (A : on_left (0, 0) (2, 0) (vtx four 0)) by (exists 0, (1/2); split; [lra|]; apply injective_projections; cbn; lra).
  assert (B : on_right (0, 0) (2, 0) (vtx four 2)) by (exists (1/2), (-1/2); split; [lra|]; apply injective_projections; cbn; lra).
  assert (C : on_line (0, 0) (2, 0) (vtx four 3)) by (exists (-3/2); apply injective_projections; cbn; lra).
  do 6 (split; [assumption|]). destruct (C106_marks 4 four above (0, 0) (2, 0) None (Some true) HP HL N (or_introl eq_refl)) as (marks & E & _ & M). exists marks. split; [exact E|].
  split; [apply M; [lia|]; left; auto|]. split; [|apply M; [lia|]; right; right; auto].
  destruct (nth 2 marks false) eqn:Q; [|reflexivity]. apply M in Q; [|lia]. destruct (C106_partition (0, 0) (2, 0) (vtx four 2) N) as (_ & P1 & _ & P2).
  destruct Q as [(_ & Q)|[(Q & _)|(_ & Q)]]; [elim P1; auto|discriminate Q|elim P2; auto].
Qed.
