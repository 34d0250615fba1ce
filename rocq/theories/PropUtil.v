(** Properties of the helpers of Utilities/usefulfunctions.py: C53 (rotations), C54 (4x4
    matrices), C55 (pixels and points), C59 (grids and point lists). *)
From Coq Require Import Reals String List Arith ZArith Lia Lra Bool.
From Verif Require Import Py RSum Tensor TensorFacts KernelModel FieldModel Fl UtilModel AabbModel SpecBox SpecUtil AttachmentFacts MeshAreas AabbFacts.
Import ListNotations.
Open Scope R_scope.
Open Scope list_scope.

Ltac cases_upto i := repeat (destruct i as [|i]; [|try lia]).
Lemma cs1 t : cos t * cos t + sin t * sin t = 1.
Proof. pose proof (sin2_cos2 t) as H. unfold Rsqr in H. lra. Qed.

(** ** C53 *)
Theorem C53_rotations : forall t,
  orthogonal 2 (rot2d t) /\ det2 (rot2d t) = 1 /\
  orthogonal 3 (rot3d_x t) /\ det3 (rot3d_x t) = 1 /\
  orthogonal 3 (rot3d_y t) /\ det3 (rot3d_y t) = 1 /\
  orthogonal 3 (rot3d_z t) /\ det3 (rot3d_z t) = 1.
Proof.
  intros t. pose proof (cs1 t) as H.
  assert (O2 : forall i j, (i < 2)%nat -> (j < 2)%nat -> rsum 2 (fun k => (rot2d t) @2 i k * (rot2d t) @2 j k) = delta i j).
  { intros i j Li Lj. destruct i as [|[|i]]; [| |lia]; (destruct j as [|[|j]]; [| |lia]); cbn; lra. }
  assert (O3 : forall M, M = rot3d_x t \/ M = rot3d_y t \/ M = rot3d_z t -> forall i j, (i < 3)%nat -> (j < 3)%nat -> rsum 3 (fun k => M @2 i k * M @2 j k) = delta i j).
  { intros M HM i j Li Lj. destruct HM as [->|[->| ->]]; (destruct i as [|[|[|i]]]; [| | |lia]); (destruct j as [|[|[|j]]]; [| | |lia]); cbn; lra. }
  repeat split; try apply O2; try (apply O3; tauto); unfold det2, det3; cbn; lra.
Qed.
Print Assumptions C53_rotations.

(** Angles add up. *)
Theorem C53_angles_add : forall a b,
  teq (mm (rot2d a) (rot2d b)) (rot2d (a + b)) /\ teq (mm (rot3d_x a) (rot3d_x b)) (rot3d_x (a + b)) /\
  teq (mm (rot3d_y a) (rot3d_y b)) (rot3d_y (a + b)) /\ teq (mm (rot3d_z a) (rot3d_z b)) (rot3d_z (a + b)).
Proof.
  intros a b.
  assert (E : forall n f M, shape M = [n; n] -> (forall i j, (i < n)%nat -> (j < n)%nat -> f i j = M @2 i j) -> teq (mk2 n n f) M).
  { intros n f M S H. split; [symmetry; exact S|]. intros [|i [|j [|? ?]]] V; cbn in V; try tauto. apply H; tauto. }
  split; [|split; [|split]]; (apply E; [reflexivity|]); intros i j Li Lj; cbv in Li, Lj.
  - destruct i as [|[|i]]; [| |lia]; (destruct j as [|[|j]]; [| |lia]); cbn; rewrite cos_plus || rewrite sin_plus; ring.
  - destruct i as [|[|[|i]]]; [| | |lia]; (destruct j as [|[|[|j]]]; [| | |lia]); cbn; rewrite ?cos_plus, ?sin_plus; ring.
  - destruct i as [|[|[|i]]]; [| | |lia]; (destruct j as [|[|[|j]]]; [| | |lia]); cbn; rewrite ?cos_plus, ?sin_plus; ring.
  - destruct i as [|[|[|i]]]; [| | |lia]; (destruct j as [|[|[|j]]]; [| | |lia]); cbn; rewrite ?cos_plus, ?sin_plus; ring.
Qed.
Print Assumptions C53_angles_add.

(** What the vectorised versions return, angle by angle: rot3d_x_vec and rot3d_z_vec the
    matrix of the scalar function; rot2d_vec and rot3d_y_vec that of the opposite angle. *)
Theorem C53_vectorised : forall thetas n, shape thetas = [n] ->
  exists X Y Z, rot3d_x_vec thetas = Ok X /\ rot3d_y_vec thetas = Ok Y /\ rot3d_z_vec thetas = Ok Z /\
  shape X = [n; 3; 3]%nat /\ shape Y = [n; 3; 3]%nat /\ shape Z = [n; 3; 3]%nat /\ shape (rot2d_vec thetas) = [n; 2; 2]%nat /\
  forall i, (i < n)%nat ->
    (forall a b, (a < 3)%nat -> (b < 3)%nat -> X @3 i a b = (rot3d_x (thetas @1 i)) @2 a b /\ Z @3 i a b = (rot3d_z (thetas @1 i)) @2 a b /\ Y @3 i a b = (rot3d_y (- (thetas @1 i))) @2 a b) /\
    (forall a b, (a < 2)%nat -> (b < 2)%nat -> (rot2d_vec thetas) @3 i a b = (rot2d (- (thetas @1 i))) @2 a b).
Proof.
  intros thetas n S. unfold rot3d_x_vec, rot3d_y_vec, rot3d_z_vec, rot3d_vec. rewrite S. cbn [length Nat.eqb py_assert bind]. do 3 eexists. split; [reflexivity|]. split; [reflexivity|]. split; [reflexivity|].
  assert (N : nrows thetas = n) by (unfold nrows; rewrite S; reflexivity). rewrite N.
  split; [reflexivity|]. split; [reflexivity|]. split; [reflexivity|]. split; [unfold rot2d_vec; rewrite N; reflexivity|].
  intros i Li. split; intros a b La Lb.
  - destruct a as [|[|[|a]]]; [| | |lia]; (destruct b as [|[|[|b]]]; [| | |lia]); cbn; rewrite ?cos_neg, ?sin_neg; unfold zeros, ones; repeat split; ring.
  - destruct a as [|[|a]]; [| |lia]; (destruct b as [|[|b]]; [| |lia]); cbn; rewrite ?cos_neg, ?sin_neg; ring.
Qed.
Print Assumptions C53_vectorised.

(** So for the plane and the y axis they agree exactly at multiples of pi. *)
Theorem C53_vectorised_agree_iff : forall thetas n i, shape thetas = [n] -> (i < n)%nat ->
  ((forall a b, (a < 2)%nat -> (b < 2)%nat -> (rot2d_vec thetas) @3 i a b = (rot2d (thetas @1 i)) @2 a b) <-> sin (thetas @1 i) = 0) /\
  forall Y, rot3d_y_vec thetas = Ok Y ->
  ((forall a b, (a < 3)%nat -> (b < 3)%nat -> Y @3 i a b = (rot3d_y (thetas @1 i)) @2 a b) <-> sin (thetas @1 i) = 0).
Proof.
  intros thetas n i S Li. destruct (C53_vectorised thetas n S) as (X & Y & Z & _ & EY & _ & _ & _ & _ & _ & A). destruct (A i Li) as (A3 & A2). split; [|intros Y' EY'; rewrite EY in EY'; injection EY' as <-]; split.
  - intros H. specialize (H 0%nat 1%nat ltac:(lia) ltac:(lia)). rewrite A2 in H by lia. cbn in H. rewrite sin_neg in H. lra.
  - intros H a b La Lb. rewrite A2 by assumption. destruct a as [|[|a]]; [| |lia]; (destruct b as [|[|b]]; [| |lia]); cbn; rewrite ?cos_neg, ?sin_neg, ?H; ring.
  - intros H. specialize (H 0%nat 2%nat ltac:(lia) ltac:(lia)). destruct (A3 0%nat 2%nat ltac:(lia) ltac:(lia)) as (_ & _ & Q). rewrite Q in H. cbn in H. rewrite sin_neg in H. lra.
  - intros H a b La Lb. destruct (A3 a b La Lb) as (_ & _ & ->). destruct a as [|[|[|a]]]; [| | |lia]; (destruct b as [|[|[|b]]]; [| | |lia]); cbn; rewrite ?cos_neg, ?sin_neg, ?H; ring.
Qed.
Print Assumptions C53_vectorised_agree_iff.
Theorem C53_vectorised_refuted : exists thetas Y, rot3d_y_vec thetas = Ok Y /\
  (rot2d_vec thetas) @3 (0%nat) (0%nat) (1%nat) <> (rot2d (thetas @1 (0%nat))) @2 (0%nat) (1%nat) /\ Y @3 (0%nat) (0%nat) (2%nat) <> (rot3d_y (thetas @1 (0%nat))) @2 (0%nat) (2%nat).
Proof.
  exists (mk1 1 (fun _ => PI / 2)). destruct (C53_vectorised (mk1 1 (fun _ => PI / 2)) 1 eq_refl) as (X & Y & Z & _ & EY & _ & _ & _ & _ & _ & A). exists Y. split; [exact EY|]. destruct (A 0%nat ltac:(lia)) as (A3 & A2).
  rewrite A2 by lia. destruct (A3 0%nat 2%nat ltac:(lia) ltac:(lia)) as (_ & _ & ->). cbn. rewrite sin_neg, sin_PI2. split; lra.
Qed.
Print Assumptions C53_vectorised_refuted.
Theorem C53_vectorised_rank : forall thetas, length (shape thetas) <> 1%nat ->
  rot3d_x_vec thetas = Err AssertionError /\ rot3d_y_vec thetas = Err AssertionError /\ rot3d_z_vec thetas = Err AssertionError.
Proof. intros t N. unfold rot3d_x_vec, rot3d_y_vec, rot3d_z_vec, rot3d_vec. destruct (Nat.eqb_spec (length (shape t)) 1); [contradiction|]. repeat split. Qed.
Print Assumptions C53_vectorised_rank.
Example C53_case : shape (mk1 3 (fun i => INR i)) = [3%nat].
Proof. reflexivity. Qed.

(** ** C54 *)
Lemma apply4 p n A i a : shape p = [n; 3%nat] -> (apply_linear_transform_3d p A) @2 i a =
  A @2 a (0%nat) * p @2 i (0%nat) + A @2 a (1%nat) * p @2 i (1%nat) + A @2 a (2%nat) * p @2 i (2%nat) + A @2 a (3%nat).
Proof.
  intros S. unfold apply_linear_transform_3d, first_three, linear_transform, homogeneous. assert (C : ncols p = 3%nat) by (unfold ncols; rewrite S; reflexivity).
  cbn -[ncols rsum]. rewrite C. unfold ncols. cbn. ring.
Qed.
Lemma shape4 p n A : shape p = [n; 3%nat] -> shape (apply_linear_transform_3d p A) = [n; 3%nat].
Proof. intros S. unfold apply_linear_transform_3d, first_three, linear_transform, homogeneous. cbn -[ncols nrows]. unfold nrows. cbn. rewrite S. reflexivity. Qed.

(** Translations and scalings. *)
Theorem C54_translation_scale : forall v p n, length v = 3%nat -> shape p = [n; 3%nat] ->
  exists T S, translation_matrix4d v = Ok T /\ scale_matrix4d v = Ok S /\
  shape (apply_linear_transform_3d p T) = [n; 3%nat] /\ shape (apply_linear_transform_3d p S) = [n; 3%nat] /\
  forall i c, (i < n)%nat -> (c < 3)%nat ->
    (apply_linear_transform_3d p T) @2 i c = p @2 i c + nth c v 0 /\ (apply_linear_transform_3d p S) @2 i c = nth c v 0 * p @2 i c.
Proof.
  intros v p n L Hp. destruct v as [|x [|y [|z [|? ?]]]]; cbn in L; try lia. eexists. eexists. split; [reflexivity|]. split; [reflexivity|]. split; [apply shape4, Hp|]. split; [apply shape4, Hp|].
  intros i c Li Lc. rewrite !(apply4 p n) by exact Hp. destruct c as [|[|[|c]]]; [| | |lia]; cbn; split; ring.
Qed.
Print Assumptions C54_translation_scale.

(** Fewer than three numbers: IndexError. *)
Theorem C54_short_lists : forall v w, (length v < 3)%nat ->
  translation_matrix4d v = Err IndexError /\ scale_matrix4d v = Err IndexError /\ rigid_deformation3d v w = Err IndexError /\
  (length w = 3%nat -> rigid_deformation3d w v = Err IndexError).
Proof.
  intros v w L. destruct v as [|x [|y [|z v]]]; cbn in L; try lia; (repeat split; try reflexivity; intros Lw; destruct w as [|a [|b [|c [|? ?]]]]; cbn in Lw; try lia; reflexivity).
Qed.
Print Assumptions C54_short_lists.

(** Rigid deformations: rotate about z, then y, then x, then translate; distances are
    preserved. *)
Theorem C54_rigid : forall a b c v p n, length v = 3%nat -> shape p = [n; 3%nat] ->
  exists M, rigid_deformation3d [a; b; c] v = Ok M /\
  (forall i k, (i < n)%nat -> (k < 3)%nat ->
     (apply_linear_transform_3d p M) @2 i k = apply 3 (rot3d_x a) (apply 3 (rot3d_y b) (apply 3 (rot3d_z c) (fun l => p @2 i l))) k + nth k v 0) /\
  (forall i j, (i < n)%nat -> (j < n)%nat -> dist2 3 (apply_linear_transform_3d p M) i j = dist2 3 p i j).
Proof.
  intros a b c v p n L Hp. destruct v as [|x [|y [|z [|? ?]]]]; cbn in L; try lia. eexists. split; [reflexivity|].
  match goal with |- context[apply_linear_transform_3d p ?m] => set (M := m) end.
  assert (H : forall i k, (k < 3)%nat -> (apply_linear_transform_3d p M) @2 i k = apply 3 (rot3d_x a) (apply 3 (rot3d_y b) (apply 3 (rot3d_z c) (fun l => p @2 i l))) k + nth k [x; y; z] 0).
  { intros i k Lk. rewrite (apply4 p n) by exact Hp. destruct k as [|[|[|k]]]; [| | |lia]; cbn; ring. }
  split; [intros i k _ Lk; apply H, Lk|]. intros i j Li Lj. unfold dist2. rewrite (rsum_ext 3 _ (fun k => (apply 3 (rot3d_x a) (apply 3 (rot3d_y b) (apply 3 (rot3d_z c) (fun l => p @2 i l - p @2 j l))) k) ^ 2)).
  - set (u := fun l => p @2 i l - p @2 j l).
    assert (N : forall t f, rsum 3 (fun k => (apply 3 (rot3d_x t) f k) ^ 2) = rsum 3 (fun k => f k ^ 2) /\ rsum 3 (fun k => (apply 3 (rot3d_y t) f k) ^ 2) = rsum 3 (fun k => f k ^ 2) /\ rsum 3 (fun k => (apply 3 (rot3d_z t) f k) ^ 2) = rsum 3 (fun k => f k ^ 2)).
    { intros t f. pose proof (cs1 t) as E. unfold apply. cbn. repeat split.
      - transitivity (f 0%nat * f 0%nat + (cos t * cos t + sin t * sin t) * (f 1%nat * f 1%nat + f 2%nat * f 2%nat)); [ring|rewrite E; ring].
      - transitivity (f 1%nat * f 1%nat + (cos t * cos t + sin t * sin t) * (f 0%nat * f 0%nat + f 2%nat * f 2%nat)); [ring|rewrite E; ring].
      - transitivity (f 2%nat * f 2%nat + (cos t * cos t + sin t * sin t) * (f 0%nat * f 0%nat + f 1%nat * f 1%nat)); [ring|rewrite E; ring]. }
    rewrite (proj1 (N a _)), (proj1 (proj2 (N b _))), (proj2 (proj2 (N c _))). reflexivity.
  - intros k Lk. rewrite !H by exact Lk. f_equal. unfold apply. cbn. ring.
Qed.
Print Assumptions C54_rigid.

(** extent_transformation4d: what it does, and when it maps the first extent on the second. *)
Theorem C54_extent : forall e0 e1, shaped e0 -> shaped e1 -> a_dim e0 = 3%nat -> a_dim e1 = 3%nat -> (forall c, (c < 3)%nat -> side e0 c <> 0) ->
  exists M, extent_transformation4d e0 e1 = Ok M /\
  (forall p n i c, shape p = [n; 3%nat] -> (i < n)%nat -> (c < 3)%nat ->
     (apply_linear_transform_3d p M) @2 i c = side e1 c / side e0 c * (p @2 i c - lo e0 c + lo e1 c)) /\
  ((forall p s, shape p = [1%nat; 3%nat] -> (forall c, (c < 3)%nat -> p @2 (0%nat) c = corner_of e0 s c) ->
      forall c, (c < 3)%nat -> (apply_linear_transform_3d p M) @2 (0%nat) c = corner_of e1 s c) <->
   forall c, (c < 3)%nat -> side e1 c = side e0 c \/ lo e1 c = 0).
Proof.
  intros e0 e1 (S1 & S2) (T1 & T2) D0 D1 NZ. unfold extent_transformation4d.
  assert (E : lengths e0 = [side e0 0; side e0 1; side e0 2]) by (unfold lengths; rewrite D0; reflexivity).
  assert (E' : lengths e1 = [side e1 0; side e1 1; side e1 2]) by (unfold lengths; rewrite D1; reflexivity).
  rewrite E, E'. cbn [combine]. rewrite (mapM_map _ (fun x => snd x / fst x)).
  2:{ intros [x y] I. assert (x <> 0). { cbn in I. destruct I as [I|[I|[I|[]]]]; injection I as <- <-; apply NZ; lia. } cbn [fst snd]. unfold pydiv. replace (Reqb x 0) with false by (symmetry; apply Reqb_false; assumption). reflexivity. }
  cbn [bind map fst snd]. assert (K0 : a_kmin e0 = [lo e0 0; lo e0 1; lo e0 2]). { unfold lo. destruct (a_kmin e0) as [|x [|y [|z [|? ?]]]]; cbn in *; try lia. reflexivity. }
  assert (K1 : a_kmin e1 = [lo e1 0; lo e1 1; lo e1 2]). { unfold lo. destruct (a_kmin e1) as [|x [|y [|z [|? ?]]]]; cbn in *; try lia. reflexivity. }
  rewrite K0, K1. cbn [combine map fst snd]. eexists. split; [reflexivity|].
  match goal with |- context[apply_linear_transform_3d _ ?m] => set (M := m) end.
  assert (H : forall p n i c, shape p = [n; 3%nat] -> (i < n)%nat -> (c < 3)%nat -> (apply_linear_transform_3d p M) @2 i c = side e1 c / side e0 c * (p @2 i c - lo e0 c + lo e1 c)).
  { intros p n i c Hp Li Lc. rewrite (apply4 p n) by exact Hp. destruct c as [|[|[|c]]]; [| | |lia]; cbn; ring. }
  split; [exact H|]. split.
  - intros A c Lc. specialize (A (mk2 1 3 (fun _ k => lo e0 k)) (fun _ => false) eq_refl (fun k _ => eq_refl) c Lc). rewrite (H _ 1%nat) in A by (reflexivity || lia). cbn [get mk2] in A. unfold corner_of in A. specialize (NZ c Lc).
    destruct (Req_dec (lo e1 c) 0) as [Z|Z]; [right; exact Z|left]. assert (Q : side e1 c / side e0 c = 1). { apply (Rmult_eq_reg_r (lo e1 c)); [|exact Z]. rewrite Rmult_1_l. rewrite <- A at 2. ring. }
    apply (f_equal (fun x => x * side e0 c)) in Q. unfold Rdiv in Q. rewrite Rmult_assoc, Rinv_l in Q by exact NZ. lra.
  - intros A p s Hp Hc c Lc. rewrite (H p 1%nat) by (assumption || lia). rewrite Hc by exact Lc. specialize (NZ c Lc). unfold corner_of. destruct (A c Lc) as [Q|Q].
    + rewrite Q. unfold Rdiv. rewrite Rinv_r by exact NZ. unfold side in Q. destruct (s c); lra.
    + rewrite Q. destruct (s c); [|unfold Rdiv; ring]. replace (hi e0 c - lo e0 c + 0) with (side e0 c) by (unfold side; ring). unfold Rdiv. rewrite Rmult_assoc, Rinv_l by exact NZ. unfold side. lra.
Qed.
Print Assumptions C54_extent.

(** Finding: the translation comes before the scaling, so the corners are missed. *)
Definition cube (a b : R) : box := mkAABB 3 [a; a; a] [b; b; b].
Lemma cube_bounds a b c : (c < 3)%nat -> lo (cube a b) c = a /\ hi (cube a b) c = b.
Proof. intros L. destruct c as [|[|[|c]]]; [| | |lia]; split; reflexivity. Qed.
Theorem C54_extent_refuted : exists e0 e1 M p, valid_box e0 /\ valid_box e1 /\ (forall c, (c < 3)%nat -> lo e0 c < hi e0 c /\ lo e1 c < hi e1 c) /\
  extent_transformation4d e0 e1 = Ok M /\ shape p = [1%nat; 3%nat] /\ (forall c, (c < 3)%nat -> p @2 (0%nat) c = lo e0 c) /\
  (apply_linear_transform_3d p M) @2 (0%nat) (0%nat) <> lo e1 0.
Proof.
  assert (V : forall a b, a < b -> valid_box (cube a b)). { intros a b L. split; [split; reflexivity|]. intros c Lc. destruct (cube_bounds a b c Lc) as (-> & ->). lra. }
  destruct (C54_extent (cube 0 1) (cube 1 3)) as (M & E & H & _); try reflexivity; try apply V; try lra.
  { intros c L. unfold side. destruct (cube_bounds 0 1 c L) as (-> & ->). lra. }
  exists (cube 0 1), (cube 1 3), M, (mk2 1 3 (fun _ _ => 0)). split; [apply V; lra|]. split; [apply V; lra|]. split.
  { intros c L. destruct (cube_bounds 0 1 c L) as (-> & ->). destruct (cube_bounds 1 3 c L) as (-> & ->). lra. }
  split; [exact E|]. split; [reflexivity|]. split; [intros c L; destruct (cube_bounds 0 1 c L) as (-> & _); reflexivity|].
  rewrite (H _ 1%nat) by (reflexivity || lia). unfold side. destruct (cube_bounds 0 1 0%nat ltac:(lia)) as (-> & ->). destruct (cube_bounds 1 3 0%nat ltac:(lia)) as (-> & ->). cbn. lra.
Qed.
Print Assumptions C54_extent_refuted.

(** Flat extents and extents of dimension below 3 raise. *)
Theorem C54_extent_errors : forall e0 e1, shaped e0 -> shaped e1 -> a_dim e0 = a_dim e1 ->
  ((exists c, (c < a_dim e0)%nat /\ side e0 c = 0) -> extent_transformation4d e0 e1 = Err ZeroDivisionError) /\
  ((forall c, (c < a_dim e0)%nat -> side e0 c <> 0) -> (a_dim e0 < 3)%nat -> extent_transformation4d e0 e1 = Err IndexError).
Proof.
  intros e0 e1 S T D. pose proof (length_lengths e0) as L0. pose proof (length_lengths e1) as L1. unfold extent_transformation4d. split.
  - intros (c & L & Z). rewrite (mapM_fail _ ZeroDivisionError); [reflexivity| |].
    + intros [x y] _. unfold pydiv. destruct (Reqb _ 0); [left; reflexivity|right; eexists; reflexivity].
    + exists (nth c (combine (lengths e0) (lengths e1)) (0, 0)). split; [apply nth_In; rewrite combine_length; lia|]. rewrite combine_nth by congruence. cbn [fst snd]. rewrite (lo_lengths e0) by exact L. unfold pydiv.
      replace (Reqb (side e0 c) 0) with true by (symmetry; apply Reqb_true; exact Z). reflexivity.
  - intros NZ Sm. rewrite (mapM_map _ (fun x => snd x / fst x)).
    + cbn [bind]. match goal with |- context[scale_matrix4d ?l] => assert (Sl : (length l < 3)%nat) by (rewrite map_length, combine_length; lia); rewrite (proj1 (proj2 (C54_short_lists l [] Sl))) end. reflexivity.
    + intros [x y] I. destruct (In_nth _ _ (0, 0) I) as (c & L & E). rewrite combine_length in L. rewrite combine_nth in E by congruence. injection E as <- _. rewrite (lo_lengths e0) by lia. cbn [fst snd]. unfold pydiv.
      replace (Reqb (side e0 c) 0) with false by (symmetry; apply Reqb_false; apply NZ; lia). reflexivity.
Qed.
Print Assumptions C54_extent_errors.
Example C54_case : shaped (cube 0 1) /\ shaped (cube 0 2) /\ a_dim (cube 0 1) = 3%nat /\ (forall c, (c < 3)%nat -> side (cube 0 1) c <> 0) /\ (forall c, (c < 3)%nat -> side (cube 0 2) c = side (cube 0 1) c \/ lo (cube 0 2) c = 0).
Proof.
  split; [split; reflexivity|]. split; [split; reflexivity|]. split; [reflexivity|]. split; intros c L; unfold side; destruct (cube_bounds 0 1 c L) as (-> & ->); [lra|]. right. apply cube_bounds, L.
Qed.

(** ** C55 *)

(** An extent with two axes of positive length. *)
Definition frame_ok (e : box) (rows cols : nat) : Prop :=
  shaped e /\ (2 <= a_dim e)%nat /\ side e 0 <> 0 /\ side e 1 <> 0 /\ (2 <= rows)%nat /\ (2 <= cols)%nat.
Lemma frame_values e rows cols : frame_ok e rows cols ->
  width e = Ok (side e 0) /\ height e = Ok (side e 1) /\ at_index (a_kmin e) 0 = Ok (lo e 0) /\ at_index (a_kmin e) 1 = Ok (lo e 1) /\ 0 < INR cols - 1 /\ 0 < INR rows - 1.
Proof.
  intros ((S1 & S2) & D & _ & _ & R & C). apply le_INR in R, C. cbn in R, C. unfold width, height, at_index, side, lo, hi.
  destruct (a_kmin e) as [|x [|y l]]; cbn in S1; try lia. destruct (a_kmax e) as [|x' [|y' l']]; cbn in S2; try lia. cbn. repeat split; lra.
Qed.
Lemma pydiv_ok a b : b <> 0 -> pydiv a b = Ok (a / b).
Proof. intros N. unfold pydiv. replace (Reqb b 0) with false by (symmetry; apply Reqb_false; exact N). reflexivity. Qed.
Lemma pydiv_zero a : pydiv a 0 = Err ZeroDivisionError.
Proof. unfold pydiv. replace (Reqb 0 0) with true by (symmetry; apply Reqb_true; reflexivity). reflexivity. Qed.
Lemma p2p_ok e rows cols p i : frame_ok e rows cols -> points2pixels p rows cols e i = Ok (mk2 (nrows p) 2 (fun r c =>
    let fl := fun x => if i then IZR (Int_part x) else x in
    match c with 0%nat => fl ((INR rows - 1) / side e 1 * (p @2 r (1%nat) - lo e 1)) | _ => fl ((INR cols - 1) / side e 0 * (p @2 r (0%nat) - lo e 0)) end)).
Proof.
  intros F. destruct (frame_values e rows cols F) as (W & H & X & Y & _). destruct F as (_ & _ & N0 & N1 & _). unfold points2pixels. rewrite W. cbn [bind]. rewrite pydiv_ok by exact N0. cbn [bind]. rewrite H. cbn [bind]. rewrite pydiv_ok by exact N1. cbn [bind]. rewrite X. cbn [bind]. rewrite Y. reflexivity.
Qed.
Lemma x2p_ok e rows cols q : frame_ok e rows cols -> pixels2points q rows cols e = Ok (mk2 (nrows q) 2 (fun r c =>
    match c with 0%nat => side e 0 / (INR cols - 1) * q @2 r (1%nat) + lo e 0 | _ => side e 1 / (INR rows - 1) * q @2 r (0%nat) + lo e 1 end)).
Proof.
  intros F. destruct (frame_values e rows cols F) as (W & H & X & Y & C & R). unfold pixels2points. rewrite W. cbn [bind]. rewrite pydiv_ok by lra. cbn [bind]. rewrite H. cbn [bind]. rewrite pydiv_ok by lra. cbn [bind]. rewrite X. cbn [bind]. rewrite Y. reflexivity.
Qed.

Theorem C55_round_trips : forall e rows cols t n, frame_ok e rows cols -> shape t = [n; 2%nat] ->
  (exists q t', points2pixels t rows cols e false = Ok q /\ pixels2points q rows cols e = Ok t' /\ teq t' t) /\
  (exists p t', pixels2points t rows cols e = Ok p /\ points2pixels p rows cols e false = Ok t' /\ teq t' t).
Proof.
  intros e rows cols t n F S. destruct (frame_values e rows cols F) as (_ & _ & _ & _ & C & R). pose proof F as (_ & _ & N0 & N1 & _). assert (N : nrows t = n) by (unfold nrows; rewrite S; reflexivity). split.
  - rewrite p2p_ok by exact F. eexists. eexists. split; [reflexivity|]. rewrite x2p_ok by exact F. split; [reflexivity|]. cbn [nrows shape mk2 tnth nth]. split; [rewrite S, N; reflexivity|].
    intros [|i [|c [|? ?]]] V; cbn in V; try tauto. destruct V as (_ & V & _). cbn. destruct c as [|[|c]]; [| |lia]; field; repeat split; lra.
  - rewrite x2p_ok by exact F. eexists. eexists. split; [reflexivity|]. rewrite p2p_ok by exact F. split; [reflexivity|]. cbn [nrows shape mk2 tnth nth]. split; [rewrite S, N; reflexivity|].
    intros [|i [|c [|? ?]]] V; cbn in V; try tauto. destruct V as (_ & V & _). cbn. destruct c as [|[|c]]; [| |lia]; field; repeat split; lra.
Qed.
Print Assumptions C55_round_trips.

(** The corners of the image are those of the extent: first pixel coordinate for y, second
    for x. *)
Theorem C55_corners : forall e rows cols p s, frame_ok e rows cols -> shape p = [1%nat; 2%nat] ->
  (forall c, (c < 2)%nat -> p @2 (0%nat) c = corner_of e s c) ->
  exists q, points2pixels p rows cols e false = Ok q /\ q @2 (0%nat) (0%nat) = (if s 1%nat then INR rows - 1 else 0) /\ q @2 (0%nat) (1%nat) = (if s 0%nat then INR cols - 1 else 0).
Proof.
  intros e rows cols p s F S H. pose proof F as (_ & _ & N0 & N1 & _). rewrite p2p_ok by exact F. eexists. split; [reflexivity|]. cbn. rewrite !H by lia. unfold corner_of. fold (side e 0). fold (side e 1).
  split; [destruct (s 1%nat)|destruct (s 0%nat)]; unfold side in *; field; assumption.
Qed.
Print Assumptions C55_corners.

(** With [toindices] the pixel containing the point; points of the extent give pixels of the
    frame. *)
Theorem C55_indices : forall e rows cols p n, frame_ok e rows cols -> shape p = [n; 2%nat] ->
  exists q k, points2pixels p rows cols e false = Ok q /\ points2pixels p rows cols e true = Ok k /\
  forall i c, (i < n)%nat -> (c < 2)%nat -> exists z : Z, k @2 i c = IZR z /\ IZR z <= q @2 i c < IZR z + 1 /\
    (0 < side e 0 -> 0 < side e 1 -> (forall c, (c < 2)%nat -> lo e c <= p @2 i c <= hi e c) -> (0 <= z < Z.of_nat (match c with 0%nat => rows | _ => cols end))%Z).
Proof.
  intros e rows cols p n F S. destruct (frame_values e rows cols F) as (_ & _ & _ & _ & C & R). rewrite !p2p_ok by exact F. eexists. eexists. split; [reflexivity|]. split; [reflexivity|]. intros i c Li Lc.
  assert (G : forall x m, 0 <= x -> x <= INR m - 1 -> (0 <= Int_part x < Z.of_nat m)%Z). { intros x m G1 G2. destruct (base_Int_part x) as (B1 & B2). split; [apply Z.lt_succ_r, lt_IZR; rewrite succ_IZR; lra|apply lt_IZR; rewrite <- INR_IZR_INZ; lra]. }
  assert (Q : forall m s x l h, 0 < m - 1 -> s = h - l -> 0 < s -> l <= x <= h -> 0 <= (m - 1) / s * (x - l) <= m - 1).
  { intros m s x l h M -> P X. replace ((m - 1) / (h - l) * (x - l)) with ((m - 1) * ((x - l) / (h - l))) by (field; lra). assert (0 <= (x - l) / (h - l) <= 1); [|nra].
    split; [apply Rmult_le_pos; [lra|apply Rlt_le, Rinv_0_lt_compat; lra]|]. apply (Rmult_le_reg_r (h - l)); [lra|]. unfold Rdiv. rewrite Rmult_assoc, Rinv_l by lra. lra. }
  destruct c as [|[|c]]; [| |lia]; cbn.
  - exists (Int_part ((INR rows - 1) / side e 1 * (p @2 i (1%nat) - lo e 1))). split; [reflexivity|]. destruct (base_Int_part ((INR rows - 1) / side e 1 * (p @2 i (1%nat) - lo e 1))) as (B1 & B2). split; [lra|].
    intros P0 P1 I. specialize (I 1%nat ltac:(lia)). destruct (Q (INR rows) (side e 1) (p @2 i (1%nat)) (lo e 1) (hi e 1) R eq_refl P1 I) as (Q1 & Q2). apply G; assumption.
  - exists (Int_part ((INR cols - 1) / side e 0 * (p @2 i (0%nat) - lo e 0))). split; [reflexivity|]. destruct (base_Int_part ((INR cols - 1) / side e 0 * (p @2 i (0%nat) - lo e 0))) as (B1 & B2). split; [lra|].
    intros P0 P1 I. specialize (I 0%nat ltac:(lia)). destruct (Q (INR cols) (side e 0) (p @2 i (0%nat)) (lo e 0) (hi e 0) C eq_refl P0 I) as (Q1 & Q2). apply G; assumption.
Qed.
Print Assumptions C55_indices.

(** Degenerate frames raise. *)
Theorem C55_errors : forall e rows cols t i, shaped e ->
  ((2 <= a_dim e)%nat -> side e 0 = 0 \/ side e 1 = 0 -> points2pixels t rows cols e i = Err ZeroDivisionError) /\
  ((2 <= a_dim e)%nat -> cols = 1%nat \/ rows = 1%nat -> pixels2points t rows cols e = Err ZeroDivisionError) /\
  (a_dim e = 0%nat -> points2pixels t rows cols e i = Err IndexError /\ pixels2points t rows cols e = Err IndexError).
Proof.
  intros e rows cols t i (S1 & S2). unfold points2pixels, pixels2points, width, height, at_index, side, lo, hi. repeat split.
  - intros D Z. destruct (a_kmin e) as [|x [|y l]]; cbn in S1; try lia. destruct (a_kmax e) as [|x' [|y' l']]; cbn in S2; try lia. cbn in Z. cbn [nth_error bind].
    unfold pydiv. destruct (Reqb (x' - x) 0) eqn:Q; [reflexivity|]. apply Reqb_false in Q. destruct Z as [Z|Z]; [contradiction|]. cbn [bind]. replace (Reqb (y' - y) 0) with true by (symmetry; apply Reqb_true; exact Z). reflexivity.
  - intros D Z. destruct (a_kmin e) as [|x [|y l]]; cbn in S1; try lia. destruct (a_kmax e) as [|x' [|y' l']]; cbn in S2; try lia. cbn [nth_error bind].
    unfold pydiv. destruct (Reqb (INR cols - 1) 0) eqn:Q; [reflexivity|]. apply Reqb_false in Q. destruct Z as [-> | ->]; [exfalso; apply Q; cbn; lra|]. cbn [bind]. replace (Reqb (INR 1 - 1) 0) with true by (symmetry; apply Reqb_true; cbn; lra). reflexivity.
  - destruct (a_kmax e); [reflexivity|cbn in S2; lia].
  - destruct (a_kmax e); [reflexivity|cbn in S2; lia].
Qed.
Print Assumptions C55_errors.

(** The versions for any dimension. *)
Lemma nel_axes e fs (f : nat * R -> R) (g : R * R * nat -> nat -> R) n : shaped e -> length fs = a_dim e -> (0 < a_dim e)%nat ->
  (forall x, In x (combine fs (lengths e)) -> True) ->
  let l := map g (combine (combine (map f (combine fs (lengths e))) (a_kmin e)) (seq 0 (a_dim e))) in
  length l = a_dim e /\ forall r c, (c < a_dim e)%nat -> (stack_dim1 n l) @2 r c = g (f (nth c fs 0%nat, side e c), lo e c, c) r.
Proof.
  intros (S1 & S2) L P _. pose proof (length_lengths e) as Ll. cbn zeta. assert (Lm : length (map f (combine fs (lengths e))) = a_dim e) by (rewrite map_length, combine_length; lia).
  assert (Lc : length (combine (map f (combine fs (lengths e))) (a_kmin e)) = a_dim e) by (rewrite combine_length; lia).
  split; [rewrite map_length, combine_length, seq_length; lia|]. intros r c H. cbn [stack_dim1 get mk2].
  rewrite (nth_map_combine g _ _ _ (f (0%nat, 0), 0) 0%nat) by (rewrite ?seq_length; lia). rewrite combine_nth by lia. rewrite map_nth, combine_nth by lia. rewrite lo_lengths, seq_nth by exact H. reflexivity.
Qed.
Theorem C55_round_trips_any_dimension : forall e fs t n, shaped e -> (0 < a_dim e)%nat -> length fs = a_dim e -> Forall (fun k => (2 <= k)%nat) fs -> (forall c, (c < a_dim e)%nat -> side e c <> 0) -> shape t = [n; a_dim e] ->
  (exists q t', points2nel t fs e false = Ok q /\ nel2points q fs e = Ok t' /\ teq t' t) /\
  (exists p t', nel2points t fs e = Ok p /\ points2nel p fs e false = Ok t' /\ teq t' t).
Proof.
  intros e fs t n Sh P L F NZ S. assert (N : nrows t = n) by (unfold nrows; rewrite S; reflexivity). pose proof (length_lengths e) as Ll.
  assert (Big : forall c, (c < a_dim e)%nat -> 0 < INR (nth c fs 0%nat) - 1). { intros c Lc. rewrite Forall_forall in F. specialize (F (nth c fs 0%nat) (nth_In fs 0%nat ltac:(rewrite L; exact Lc))). apply le_INR in F. cbn in F. lra. }
  assert (A : forall u, nrows u = n -> exists q, points2nel u fs e false = Ok q /\ shape q = [n; a_dim e] /\ forall r c, (c < a_dim e)%nat -> q @2 r c = (INR (nth c fs 0%nat) - 1) / side e c * (u @2 r c - lo e c)).
  { intros u Nu. unfold points2nel. rewrite (mapM_map _ (fun x => (INR (fst x) - 1) / snd x)). 2:{ intros [k x] I. destruct (In_nth _ _ (0%nat, 0) I) as (c & Lc & E). rewrite combine_length in Lc. rewrite combine_nth in E by congruence. injection E as <- <-. rewrite lo_lengths by lia. cbn [fst snd]. apply pydiv_ok, NZ. lia. }
    cbn [bind]. pose proof (nel_axes e fs (fun x => (INR (fst x) - 1) / snd x) (fun x r => fst (fst x) * (u @2 r (snd x) - snd (fst x))) n Sh L P (fun _ _ => Logic.I)) as G. cbn zeta in G. destruct G as (G1 & G2). rewrite Nu.
    destruct (map _ (combine (combine _ _) _)) as [|f0 l0] eqn:E; [cbn in G1; lia|]. eexists. split; [reflexivity|]. rewrite <- E in *. split; [cbn; rewrite G1; reflexivity|]. intros r c Lc. rewrite G2 by exact Lc. reflexivity. }
  assert (B : forall u, nrows u = n -> exists q, nel2points u fs e = Ok q /\ shape q = [n; a_dim e] /\ forall r c, (c < a_dim e)%nat -> q @2 r c = side e c / (INR (nth c fs 0%nat) - 1) * u @2 r c + lo e c).
  { intros u Nu. unfold nel2points. rewrite (mapM_map _ (fun x => snd x / (INR (fst x) - 1))). 2:{ intros [k x] I. destruct (In_nth _ _ (0%nat, 0) I) as (c & Lc & E). rewrite combine_length in Lc. rewrite combine_nth in E by congruence. injection E as <- <-. rewrite lo_lengths by lia. cbn [fst snd]. specialize (Big c ltac:(lia)). apply pydiv_ok. lra. }
    cbn [bind]. pose proof (nel_axes e fs (fun x => snd x / (INR (fst x) - 1)) (fun x r => fst (fst x) * u @2 r (snd x) + snd (fst x)) n Sh L P (fun _ _ => Logic.I)) as G. cbn zeta in G. destruct G as (G1 & G2). rewrite Nu.
    destruct (map _ (combine (combine _ _) _)) as [|f0 l0] eqn:E; [cbn in G1; lia|]. eexists. split; [reflexivity|]. rewrite <- E in *. split; [cbn; rewrite G1; reflexivity|]. intros r c Lc. rewrite G2 by exact Lc. reflexivity. }
  split.
  - destruct (A t N) as (q & E & Sq & V). destruct (B q) as (t' & E' & St & W); [unfold nrows; rewrite Sq; reflexivity|]. exists q, t'. split; [exact E|]. split; [exact E'|]. split; [congruence|].
    rewrite St. intros [|r [|c [|? ?]]] H; cbn in H; try tauto. rewrite W, V by tauto. specialize (Big c ltac:(tauto)). specialize (NZ c ltac:(tauto)). field. split; lra.
  - destruct (B t N) as (q & E & Sq & V). destruct (A q) as (t' & E' & St & W); [unfold nrows; rewrite Sq; reflexivity|]. exists q, t'. split; [exact E|]. split; [exact E'|]. split; [congruence|].
    rewrite St. intros [|r [|c [|? ?]]] H; cbn in H; try tauto. rewrite W, V by tauto. specialize (Big c ltac:(tauto)). specialize (NZ c ltac:(tauto)). field. split; lra.
Qed.
Print Assumptions C55_round_trips_any_dimension.
Definition frame : box := mkAABB 2 [-1; 0] [1; 3].
Example C55_case : frame_ok frame 2 5 /\ shape (mk2 4 2 (fun i c => INR (i + c))) = [4%nat; 2%nat].
Proof. split; [|reflexivity]. unfold frame_ok, side, lo, hi. cbn. repeat split; try lia; lra. Qed.
Example C55_nel_case : shaped (cube 0 2) /\ (0 < a_dim (cube 0 2))%nat /\ length [2; 3; 4]%nat = a_dim (cube 0 2) /\ Forall (fun k => (2 <= k)%nat) [2; 3; 4]%nat /\ (forall c, (c < a_dim (cube 0 2))%nat -> side (cube 0 2) c <> 0).
Proof. split; [split; reflexivity|]. split; [cbn; lia|]. split; [reflexivity|]. split; [constructor; [lia|constructor; [lia|constructor; [lia|constructor]]]|]. intros c L. unfold side. destruct (cube_bounds 0 2 c L) as (-> & ->). lra. Qed.

(** ** C59 *)
Theorem C59_grids_to_points_and_back : forall sh grids, sh <> [] -> length grids = length sh -> (forall h, In h grids -> shape h = sh) ->
  exists v back, grid2vec grids = Ok v /\ shape v = [prod sh; length sh] /\ vec2grid v sh = Ok back /\ Forall2 teq back grids.
Proof.
  intros sh grids NE L H. destruct (grid2vec_spec sh grids) as (v & E & S & G); [destruct grids; [destruct sh; [congruence|discriminate L]|discriminate]|exact H|].
  assert (Nr : nrows v = prod sh) by (unfold nrows; rewrite S; reflexivity). assert (Nc : ncols v = length sh) by (unfold ncols; rewrite S; cbn; exact L).
  set (col := fun i => reshape sh (mk1 (nrows v) (fun r => v @2 r i))). exists v, (map col (seq 0 (length sh))). split; [exact E|]. split; [rewrite S, L; reflexivity|]. split.
  - apply mapM_map. intros i I. apply in_seq in I. replace (Nat.ltb i (ncols v)) with true by (symmetry; apply Nat.ltb_lt; lia). rewrite Nr, Nat.eqb_refl. unfold col. rewrite Nr. reflexivity.
  - assert (K : forall k gs, (forall j, (j < length gs)%nat -> nth j gs (tzeros []) = nth (k + j) grids (tzeros [])) -> (k + length gs = length grids)%nat -> Forall2 teq (map col (seq k (length gs))) gs).
    { intros k gs. revert k. induction gs as [|g gs IH]; intros k Q Lk; [constructor|]. cbn [length seq map]. constructor.
      - specialize (Q 0%nat ltac:(cbn; lia)). cbn in Q. rewrite Nat.add_0_r in Q. cbn [length] in Lk. assert (Sg : shape g = sh) by (apply H; rewrite Q; apply nth_In; lia).
        split; [cbn; congruence|]. cbn [shape col reshape]. intros idx V. unfold col. rewrite (get_reshape sh (mk1 (nrows v) (fun r => v @2 r k)) idx [ravel sh idx]); [|cbn; lia|cbn; rewrite Nr; split; [apply ravel_lt, V|exact Logic.I]].
        cbn [get mk1]. rewrite (G idx k (tzeros []) V) by lia. rewrite <- Q. reflexivity.
      - apply IH; [|cbn in Lk; lia]. intros j Lj. specialize (Q (Datatypes.S j) ltac:(cbn; lia)). cbn in Q. rewrite Q. f_equal. lia. }
    rewrite <- L. apply (K 0%nat grids); [reflexivity|lia].
Qed.
Print Assumptions C59_grids_to_points_and_back.

Theorem C59_points_to_grids_and_back : forall sh v, sh <> [] -> shape v = [prod sh; length sh] ->
  exists grids back, vec2grid v sh = Ok grids /\ length grids = length sh /\ (forall h, In h grids -> shape h = sh) /\ grid2vec grids = Ok back /\ teq back v.
Proof.
  intros sh v NE S. assert (Nr : nrows v = prod sh) by (unfold nrows; rewrite S; reflexivity). assert (Nc : ncols v = length sh) by (unfold ncols; rewrite S; reflexivity).
  set (col := fun i => reshape sh (mk1 (nrows v) (fun r => v @2 r i))). set (gs := map col (seq 0 (length sh))). assert (Lg : length gs = length sh) by (unfold gs; rewrite map_length, seq_length; reflexivity).
  assert (Hs : forall h, In h gs -> shape h = sh). { intros h I. apply in_map_iff in I. destruct I as (k & <- & _). reflexivity. }
  destruct (grid2vec_spec sh gs) as (back & E & Sb & G); [intros Q; rewrite Q in Lg; cbn in Lg; destruct sh; [congruence|discriminate]|exact Hs|].
  exists gs, back. split; [|split; [exact Lg|split; [exact Hs|split; [exact E|]]]].
  - apply mapM_map. intros i I. apply in_seq in I. replace (Nat.ltb i (ncols v)) with true by (symmetry; apply Nat.ltb_lt; lia). rewrite Nr, Nat.eqb_refl. unfold col. rewrite Nr. reflexivity.
  - split; [rewrite Sb, S, Lg; reflexivity|]. rewrite Sb, Lg. intros [|r [|c [|? ?]]] V; cbn in V; try tauto. destruct V as (Vr & Vc & _).
    pose proof (valid_unravel sh r Vr) as Vi. rewrite <- (ravel_unravel sh r Vr) at 1. rewrite (G _ c (col 0%nat) Vi) by lia. unfold gs. rewrite map_nth, seq_nth by exact Vc. cbn [Nat.add]. unfold col.
    rewrite (get_reshape sh (mk1 (nrows v) (fun r => v @2 r c)) _ [r]); [reflexivity|cbn; rewrite ravel_unravel by exact Vr; lia|cbn; lia].
Qed.
Print Assumptions C59_points_to_grids_and_back.

(** Errors and (finding) coordinates beyond the number of axes are dropped silently. *)
Theorem C59_errors : forall sh v n d, sh <> [] -> shape v = [n; d] ->
  ((d < length sh)%nat -> prod sh = n -> vec2grid v sh = Err IndexError) /\
  ((0 < d)%nat -> prod sh <> n -> vec2grid v sh = Err RuntimeError) /\
  grid2vec [] = Err RuntimeError /\
  (forall g h l, In h l -> prod (shape h) <> prod (shape g) -> grid2vec (g :: l) = Err RuntimeError).
Proof.
  intros sh v n d NE S. assert (Nr : nrows v = n) by (unfold nrows; rewrite S; reflexivity). assert (Nc : ncols v = d) by (unfold ncols; rewrite S; reflexivity). unfold vec2grid. rewrite Nr, Nc. repeat split.
  - intros L E. apply mapM_fail.
    + intros i _. destruct (Nat.ltb i d); [|left; reflexivity]. rewrite E, Nat.eqb_refl. right. eexists. reflexivity.
    + exists d. split; [apply in_seq; lia|]. replace (Nat.ltb d d) with false by (symmetry; apply Nat.ltb_irrefl). reflexivity.
  - intros D E. destruct sh as [|k sh]; [congruence|]. cbn [length seq mapM]. replace (Nat.ltb 0 d) with true by (symmetry; apply Nat.ltb_lt; exact D). replace (Nat.eqb (prod (k :: sh)) n) with false by (symmetry; apply Nat.eqb_neq; exact E). reflexivity.
  - intros g h l I N. unfold grid2vec. replace (forallb _ (g :: l)) with false; [reflexivity|]. symmetry. apply Bool.not_true_is_false. intros A. rewrite forallb_forall in A. specialize (A h (or_intror I)). apply Nat.eqb_eq in A. contradiction.
Qed.
Print Assumptions C59_errors.
Theorem C59_extra_coordinates_dropped : forall sh v d, (length sh <= d)%nat -> shape v = [prod sh; d] -> exists grids, vec2grid v sh = Ok grids /\ length grids = length sh.
Proof.
  intros sh v d L S. exists (map (fun i => reshape sh (mk1 (nrows v) (fun r => v @2 r i))) (seq 0 (length sh))). split; [|rewrite map_length, seq_length; reflexivity].
  apply mapM_map. intros i I. apply in_seq in I. unfold nrows, ncols. rewrite S. cbn [nth]. replace (Nat.ltb i _) with true by (symmetry; apply Nat.ltb_lt; cbn; lia). cbn. rewrite Nat.eqb_refl. reflexivity.
Qed.
Print Assumptions C59_extra_coordinates_dropped.
Theorem C59_other_number_of_grids_refuted : exists sh grids v back, (forall h, In h grids -> shape h = sh) /\ grid2vec grids = Ok v /\ vec2grid v sh = Ok back /\ length back <> length grids.
Proof.
  set (g := mk1 2 (fun _ => 1)). destruct (grid2vec_spec [2%nat] [g; g]) as (v & E & S & _); [discriminate|intros h [<-|[<-|[]]]; reflexivity|].
  destruct (C59_extra_coordinates_dropped [2%nat] v 2 ltac:(cbn; lia) S) as (back & B & L). exists [2%nat], [g; g], v, back. split; [intros h [<-|[<-|[]]]; reflexivity|]. split; [exact E|]. split; [exact B|]. rewrite L. cbn. lia.
Qed.
Print Assumptions C59_other_number_of_grids_refuted.
Example C59_case : [2; 3]%nat <> [] /\ length [tzeros [2; 3]%nat; tzeros [2; 3]%nat] = length [2; 3]%nat /\ shape (tzeros [6; 2]%nat) = [prod [2; 3]%nat; length [2; 3]%nat].
Proof. split; [discriminate|]. split; reflexivity. Qed.
