(** Properties of image sampling and of deformable images: C56 (interpolation), C57 (undeformed
    images), C58 (sampling from a grey-scale image), C67 (loading and masks). *)
From Coq Require Import Reals String List Arith ZArith Lia Lra Bool Sorted.
From Verif Require Import Py RSum Tensor TensorFacts KernelModel FieldModel Fl UtilModel AabbModel ImageModel SpecBox SpecImage AttachmentFacts MeshAreas AabbFacts PropBox PropUtil ImageFacts.
Import ListNotations.
Open Scope R_scope.
Open Scope list_scope.

(** ** C56 *)
Lemma deformed_entry p I e h w uv : shape I = [h; w] -> nrows p = (h * w)%nat -> points2pixels p h w e false = Ok uv ->
  exists out, deformed_intensities p I e = Ok out /\ shape out = [h; w] /\
  forall i j, (i < h)%nat -> (j < w)%nat -> out @2 i j = bilinear I (uv @2 (i * w + j)%nat (0%nat)) (uv @2 (i * w + j)%nat (1%nat)).
Proof.
  intros S N P. unfold deformed_intensities. assert (Nr : nrows I = h) by (unfold nrows; rewrite S; reflexivity). assert (Nc : ncols I = w) by (unfold ncols; rewrite S; reflexivity).
  rewrite Nr, Nc, P. cbn [bind]. rewrite N, Nat.eqb_refl. eexists. split; [reflexivity|]. split; [reflexivity|]. intros i j Li Lj.
  rewrite (get_reshape [h; w] (mk1 (h * w) (fun r => bilinear I (uv @2 r (0%nat)) (uv @2 r (1%nat)))) [i; j] [(i * w + j)%nat]); [reflexivity|cbn; lia|cbn; split; [nia|exact Logic.I]].
Qed.

(** At pixel coordinates u (row) and v (column): pixels at integer positions, interpolation
    inside of cells, values in the range of the image inside of it, constant images
    everywhere, the border value beyond the last row. *)
Theorem C56_bilinear : forall p I e h w uv, bitmap_of I h w -> nrows p = (h * w)%nat -> (0 < h)%nat -> (0 < w)%nat -> points2pixels p h w e false = Ok uv ->
  exists out, deformed_intensities p I e = Ok out /\ shape out = [h; w] /\
  forall i j, (i < h)%nat -> (j < w)%nat -> forall u v, uv @2 (i * w + j)%nat (0%nat) = u -> uv @2 (i * w + j)%nat (1%nat) = v ->
    (forall a b, (a < h)%nat -> (b < w)%nat -> u = INR a -> v = INR b -> out @2 i j = I @2 a b) /\
    (forall a b s t, (a + 1 < h)%nat -> (b + 1 < w)%nat -> 0 <= s <= 1 -> 0 <= t <= 1 -> u = INR a + s -> v = INR b + t -> out @2 i j = mix4 I a b s t) /\
    (forall m M, 0 <= u <= INR h - 1 -> 0 <= v <= INR w - 1 -> between_values I m M -> m <= out @2 i j <= M) /\
    (forall c, between_values I c c -> out @2 i j = c) /\
    (forall b, INR h - 1 <= u -> (b < w)%nat -> v = INR b -> out @2 i j = I @2 (h - 1)%nat b).
Proof.
  intros p I e h w uv S N H W P. destruct (deformed_entry p I e h w uv S N P) as (out & E & So & V). exists out. split; [exact E|]. split; [exact So|]. intros i j Li Lj u v Hu Hv. rewrite V, Hu, Hv by assumption.
  rewrite bilinear_lin. assert (Nr : nrows I = h) by (unfold nrows; rewrite S; reflexivity). assert (Nc : ncols I = w) by (unfold ncols; rewrite S; reflexivity). rewrite Nr, Nc. repeat split.
  - intros a b La Lb -> ->. rewrite lin_int by exact La. apply lin_int, Lb.
  - intros a b s t La Lb Hs Ht -> ->. rewrite lin_cell by assumption. rewrite !lin_cell by assumption. reflexivity.
  - apply (lin_range h _ u m M H H0). intros a La. apply (lin_range w _ v m M W H1). intros b Lb. apply H2. rewrite S. cbn. tauto.
  - apply (lin_range h _ u m M H H0). intros a La. apply (lin_range w _ v m M W H1). intros b Lb. apply H2. rewrite S. cbn. tauto.
  - intros c B. rewrite (lin_ext h _ (fun _ => c)) by (exact H || (intros a La; rewrite (lin_ext w _ (fun _ => c)) by (exact W || (intros b Lb; assert (c <= I @2 a b <= c) by (apply B; rewrite S; cbn; tauto); lra)); apply lin_const)). apply lin_const.
  - intros b Hu' Lb ->. rewrite lin_above by assumption. apply lin_int, Lb.
Qed.
Print Assumptions C56_bilinear.

(** Wrong number of points. *)
Theorem C56_wrong_number_of_points : forall p I e h w uv, bitmap_of I h w -> nrows p <> (h * w)%nat -> points2pixels p h w e false = Ok uv -> deformed_intensities p I e = Err RuntimeError.
Proof.
  intros p I e h w uv S N P. unfold deformed_intensities, nrows at 1, ncols at 1. rewrite S. cbn [tnth nth]. change (tnth [h; w] 0) with h. rewrite P. cbn [bind]. unfold nrows at 2, ncols. rewrite S.
  replace (Nat.eqb (nrows p) _) with false; [reflexivity|]. symmetry. apply Nat.eqb_neq. exact N.
Qed.
Print Assumptions C56_wrong_number_of_points.

(** Finding: before the first row or column the image is extrapolated, and leaves its range. *)
Theorem C56_extrapolation : forall p I e h w uv, bitmap_of I h w -> nrows p = (h * w)%nat -> (1 < h)%nat -> points2pixels p h w e false = Ok uv ->
  exists out, deformed_intensities p I e = Ok out /\
  forall i j b, (i < h)%nat -> (j < w)%nat -> (b < w)%nat -> uv @2 (i * w + j)%nat (0%nat) <= 0 -> uv @2 (i * w + j)%nat (1%nat) = INR b ->
    out @2 i j = I @2 (0%nat) b + uv @2 (i * w + j)%nat (0%nat) * (I @2 (1%nat) b - I @2 (0%nat) b).
Proof.
  intros p I e h w uv S N H P. destruct (deformed_entry p I e h w uv S N P) as (out & E & So & V). exists out. split; [exact E|]. intros i j b Li Lj Lb Hu Hv. rewrite V by assumption. rewrite Hv, bilinear_lin.
  assert (Nr : nrows I = h) by (unfold nrows; rewrite S; reflexivity). assert (Nc : ncols I = w) by (unfold ncols; rewrite S; reflexivity). rewrite Nr, Nc. rewrite lin_below by assumption. rewrite !lin_int by exact Lb. unfold mix. ring.
Qed.
Print Assumptions C56_extrapolation.
Definition unit_extent : box := mkAABB 2 [0; 0] [1; 1].
Lemma unit_frame : frame_ok unit_extent 2 2.
Proof. unfold frame_ok, side, lo, hi. cbn. repeat split; try lia; lra. Qed.
Theorem C56_range_refuted : exists p I e out, bitmap_of I 2 2 /\ between_values I 0 1 /\ proper_extent e /\ deformed_intensities p I e = Ok out /\ out @2 (0%nat) (0%nat) < 0.
Proof.
  exists (mk2 4 2 (fun _ c => match c with 0%nat => 0 | _ => -1 end)), (of_rows 2 2 [[0; 0]; [1; 1]]), unit_extent.
  destruct (C56_extrapolation (mk2 4 2 (fun _ c => match c with 0%nat => 0 | _ => -1 end)) (of_rows 2 2 [[0; 0]; [1; 1]]) unit_extent 2 2 _ eq_refl eq_refl ltac:(lia) (p2p_ok unit_extent 2 2 _ false unit_frame)) as (out & E & V).
  exists out. split; [reflexivity|]. split. { intros [|i [|j [|? ?]]] H; cbn in H; try tauto. destruct i as [|[|i]]; [| |lia]; (destruct j as [|[|j]]; [| |lia]); cbn; lra. }
  split. { split; [split; [split; reflexivity|]|]; [intros [|[|c]] L; cbn in L; try lia; unfold lo, hi; cbn; lra|]. unfold lo, hi. cbn. split; [reflexivity|lra]. }
  split; [exact E|]. rewrite (V 0%nat 0%nat 0%nat) by (try lia; cbn; unfold side, lo, hi; cbn; lra). cbn. unfold side, lo, hi. cbn. lra.
Qed.
Print Assumptions C56_range_refuted.

(** Three dimensions, at the voxel coordinates u, v, w given by the affine matrix. *)
Definition voxel (A p : tensor) (r c : nat) : R := A @2 c (0%nat) * p @2 r (0%nat) + A @2 c (1%nat) * p @2 r (1%nat) + A @2 c (2%nat) * p @2 r (2%nat) + A @2 c (3%nat).
Theorem C56_trilinear : forall p I A n0 n1 n2, shape I = [n0; n1; n2] -> shape p = [(n0 * n1 * n2)%nat; 3%nat] -> (0 < n0)%nat -> (0 < n1)%nat -> (0 < n2)%nat ->
  exists out, deformed_intensities3d p I A = Ok out /\ shape out = [n0; n1; n2] /\
  forall i j k, (i < n0)%nat -> (j < n1)%nat -> (k < n2)%nat ->
    let r := ((i * n1 + j) * n2 + k)%nat in
    forall u v w, voxel A p r 0 = u -> voxel A p r 1 = v -> voxel A p r 2 = w ->
    (forall a b c, (a < n0)%nat -> (b < n1)%nat -> (c < n2)%nat -> u = INR a -> v = INR b -> w = INR c -> out @3 i j k = I @3 a b c) /\
    (forall a b c s t q, (a + 1 < n0)%nat -> (b + 1 < n1)%nat -> (c + 1 < n2)%nat -> 0 <= s <= 1 -> 0 <= t <= 1 -> 0 <= q <= 1 -> u = INR a + s -> v = INR b + t -> w = INR c + q -> out @3 i j k = mix8 I a b c s t q) /\
    (forall m M, 0 <= u <= INR n0 - 1 -> 0 <= v <= INR n1 - 1 -> 0 <= w <= INR n2 - 1 -> between_values I m M -> m <= out @3 i j k <= M) /\
    (forall c, between_values I c c -> out @3 i j k = c).
Proof.
  intros p I A n0 n1 n2 S Sp H0 H1 H2. assert (N : nrows p = (n0 * n1 * n2)%nat) by (unfold nrows; rewrite Sp; reflexivity).
  assert (VX : forall r c, (points2voxels_affine p A) @2 r c = voxel A p r c).
  { intros r c. unfold points2voxels_affine, apply_linear_transform_3d, first_three, linear_transform, homogeneous, voxel, ncols. cbn [get mk2 shape]. rewrite Sp. cbn. ring. }
  unfold deformed_intensities3d. rewrite S. cbn [prod fold_right]. rewrite N. replace (Nat.eqb (n0 * n1 * n2) (n0 * (n1 * (n2 * 1)))) with true by (symmetry; apply Nat.eqb_eq; lia).
  eexists. split; [reflexivity|]. split; [reflexivity|]. intros i j k Li Lj Lk. cbv zeta. intros u v w Hu Hv Hw.
  match goal with |- context[reshape ?sh ?t] => assert (E : (reshape sh t) @3 i j k = trilinear I u v w) end.
  { rewrite (get_reshape [n0; n1; n2] _ [i; j; k] [((i * n1 + j) * n2 + k)%nat]).
    - cbn [get mk1]. rewrite !VX, Hu, Hv, Hw. reflexivity.
    - cbn. lia.
    - cbn. split; [|exact Logic.I]. assert ((i * n1 + j < n0 * n1)%nat) by nia. nia. }
  rewrite E, trilinear_lin, S. cbn [tnth nth]. clear E. change (tnth [n0; n1; n2] 0) with n0. change (tnth [n0; n1; n2] 1) with n1. change (tnth [n0; n1; n2] 2) with n2. split; [|split; [|split]].
  - intros a b c La Lb Lc -> -> ->. rewrite lin_int by exact La. rewrite lin_int by exact Lb. apply lin_int, Lc.
  - intros a b c s t q La Lb Lc Hs Ht Hq -> -> ->. rewrite !lin_cell by assumption. reflexivity.
  - intros m M Ru Rv Rw B. apply (lin_range n0 _ u m M H0 Ru). intros a La. apply (lin_range n1 _ v m M H1 Rv). intros b Lb. apply (lin_range n2 _ w m M H2 Rw). intros c Lc. apply B. rewrite S. cbn. tauto.
  - intros c B. rewrite (lin_ext n0 _ (fun _ => c)); [apply lin_const|exact H0|]. intros a La. rewrite (lin_ext n1 _ (fun _ => c)); [apply lin_const|exact H1|]. intros b Lb. rewrite (lin_ext n2 _ (fun _ => c)); [apply lin_const|exact H2|].
    intros d Ld. assert (c <= I @3 a b d <= c) by (apply B; rewrite S; cbn; tauto). lra.
Qed.
Print Assumptions C56_trilinear.
(** A cube of two voxels a side, read half way between them along each axis. *)
Example C56_trilinear_case : let A := mk2 4 4 (fun a b => if Nat.eqb b 3 then 1 / 2 else 0) in let p := mk2 8 3 (fun _ _ => 7) in let I := mk3 2 2 2 (fun a b c => INR (4 * a + 2 * b + c)) in
  shape I = [2%nat; 2%nat; 2%nat] /\ shape p = [(2 * 2 * 2)%nat; 3%nat] /\ voxel A p 5 0 = INR 0 + 1 / 2 /\ voxel A p 5 1 = INR 0 + 1 / 2 /\ voxel A p 5 2 = INR 0 + 1 / 2 /\
  exists out, deformed_intensities3d p I A = Ok out /\ out @3 (1%nat) (0%nat) (1%nat) = 7 / 2.
Proof.
  intros A p I. assert (V : forall c, voxel A p 5 c = INR 0 + 1 / 2) by (intros c; unfold voxel, A, p; cbn; lra).
  split; [reflexivity|]. split; [reflexivity|]. do 3 (split; [apply V|]).
  destruct (C56_trilinear p I A 2 2 2 eq_refl eq_refl ltac:(lia) ltac:(lia) ltac:(lia)) as (out & E & _ & H). exists out. split; [exact E|].
  destruct (H 1%nat 0%nat 1%nat ltac:(lia) ltac:(lia) ltac:(lia) _ _ _ (V 0%nat) (V 1%nat) (V 2%nat)) as (_ & M & _).
  rewrite (M 0%nat 0%nat 0%nat (1 / 2) (1 / 2) (1 / 2)) by (try lia; lra). unfold mix8, mix, I. cbn. lra.
Qed.
Example C56_case : bitmap_of (of_rows 2 2 [[0; 0]; [1; 1]]) 2 2 /\ exists uv, points2pixels (mk2 4 2 (fun i c => INR i / 4)) 2 2 unit_extent false = Ok uv /\ 0 <= uv @2 (1%nat) (0%nat) <= INR 2 - 1.
Proof. split; [reflexivity|]. eexists. split; [apply (p2p_ok unit_extent 2 2 _ false unit_frame)|]. cbn. unfold side, lo, hi. cbn. lra. Qed.

(** ** C57 *)

(** The images that can be built. *)
Lemma init_box a b c d : a <= b -> c <= d -> init rgt [Num a; Num b; Num c; Num d] [] = Ok (mkAABB 2 [a; c] [b; d]).
Proof. intros H1 H2. apply rgt_false in H1, H2. unfold init, from_iterable. cbn. rewrite H1, H2. reflexivity. Qed.
Definition pixel_box (h w : nat) : box := mkAABB 2 [0; 0] [INR w - 1; INR h - 1].
Definition extent_of (e : extent_arg) (h w : nat) : box := match e with ENone => unit_extent | EString _ => pixel_box h w | EBox b => b end.
Definition extent_arg_ok (e : extent_arg) : Prop := match e with ENone => True | EString s => s = "match"%string | EBox b => proper_extent b end.
Lemma pixel_box_proper h w : (2 <= h)%nat -> (2 <= w)%nat -> proper_extent (pixel_box h w).
Proof.
  intros H W. apply le_INR in H, W. cbn in H, W. split; [split; [split; reflexivity|]|]; [intros [|[|c]] L; cbn in L; try lia; unfold lo, hi; cbn; lra|]. unfold lo, hi. cbn. split; [reflexivity|lra].
Qed.
Lemma extent_proper e h w : (2 <= h)%nat -> (2 <= w)%nat -> extent_arg_ok e -> proper_extent (extent_of e h w).
Proof.
  intros H W O. destruct e as [|s|b]; cbn in *; [|apply pixel_box_proper; assumption|exact O].
  split; [split; [split; reflexivity|]|]; [intros [|[|c]] L; cbn in L; try lia; unfold lo, hi; cbn; lra|]. unfold lo, hi. cbn. split; [reflexivity|lra].
Qed.
Lemma proper_frame e h w : proper_extent e -> (2 <= h)%nat -> (2 <= w)%nat -> frame_ok e h w.
Proof. intros ((S & _) & D & P0 & P1) H W. unfold frame_ok, side. repeat split; try assumption; try lia; try apply S; lra. Qed.

Theorem C57_construction : forall bitmap h w output backward e, bitmap_of bitmap h w -> (2 <= h)%nat -> (2 <= w)%nat -> extent_arg_ok e -> output = "bitmap"%string \/ output = "points"%string ->
  exists im, image_init bitmap output backward e = Ok im /\ im_bitmap im = bitmap /\ im_backward im = backward /\ im_output im = output /\ im_extent im = extent_of e h w /\ im_pixel_extent im = pixel_box h w /\
  shape (im_points im) = [(h * w)%nat; 2%nat] /\
  forall i j, (i < h)%nat -> (j < w)%nat ->
    (im_points im) @2 (i * w + j)%nat (0%nat) = side (im_extent im) 0 / (INR w - 1) * (lo (im_extent im) 1 + INR j * (side (im_extent im) 1 / (INR w - 1))) + lo (im_extent im) 0 /\
    (im_points im) @2 (i * w + j)%nat (1%nat) = side (im_extent im) 1 / (INR h - 1) * (lo (im_extent im) 0 + INR i * (side (im_extent im) 0 / (INR h - 1))) + lo (im_extent im) 1.
Proof.
  intros bitmap h w output backward e S H W O U. pose proof (extent_proper e h w H W O) as P. unfold image_init.
  assert (Nr : nrows bitmap = h) by (unfold nrows; rewrite S; reflexivity). assert (Nc : ncols bitmap = w) by (unfold ncols; rewrite S; reflexivity).
  replace (String.eqb output "bitmap" || String.eqb output "points")%bool with true by (destruct U as [-> | ->]; reflexivity). cbn [py_assert bind].
  replace (match e with EBox b => if Nat.eqb (a_dim b) 2 then Ok tt else Err RuntimeError | _ => Ok tt end) with (Ok tt). 2:{ destruct e as [|s|b]; try reflexivity. cbn in O. destruct O as (_ & -> & _). reflexivity. }
  cbn [bind]. rewrite Nr, Nc. assert (1 <= INR h - 1 /\ 1 <= INR w - 1) as (Hh & Hw) by (apply le_INR in H, W; cbn in H, W; lra). rewrite init_box by lra. cbn [bind].
  replace (match e with ENone => _ | EString s => _ | EBox b => Ok b end) with (Ok (extent_of e h w)). 2:{ destruct e as [|s|b]; cbn [extent_of]; [rewrite init_box by lra; reflexivity|cbn in O; rewrite O; reflexivity|reflexivity]. }
  cbn [bind]. destruct P as (V & D & P0 & P1). destruct (grid2 (extent_of e h w) h w V D H W) as (v & E & Sv & G). unfold fill_shape. rewrite Nr, Nc, E. cbn [bind].
  rewrite x2p_ok by (apply proper_frame; [repeat split; try assumption; apply V|assumption|assumption]). cbn [bind]. eexists. split; [reflexivity|]. cbn [im_bitmap im_backward im_output im_extent im_pixel_extent im_points]. repeat (split; [reflexivity|]).
  split; [cbn; unfold nrows; rewrite Sv; reflexivity|]. intros i j Li Lj. cbn [get mk2]. destruct (G i j Li Lj) as (-> & ->). split; reflexivity.
Qed.
Print Assumptions C57_construction.

(** Pixel grid of an image. *)
Lemma pixel_grid_ok im h w : bitmap_of (im_bitmap im) h w -> (2 <= h)%nat -> (2 <= w)%nat -> im_pixel_extent im = pixel_box h w -> proper_extent (im_extent im) ->
  exists g, pixel_grid im = Ok g /\ shape g = [(h * w)%nat; 2%nat] /\ forall i j, (i < h)%nat -> (j < w)%nat ->
    g @2 (i * w + j)%nat (0%nat) = side (im_extent im) 0 / (INR w - 1) * (INR j * ((INR h - 1) / (INR w - 1))) + lo (im_extent im) 0 /\
    g @2 (i * w + j)%nat (1%nat) = side (im_extent im) 1 / (INR h - 1) * (INR i * ((INR w - 1) / (INR h - 1))) + lo (im_extent im) 1.
Proof.
  intros S H W Ep P. assert (Nr : nrows (im_bitmap im) = h) by (unfold nrows; rewrite S; reflexivity). assert (Nc : ncols (im_bitmap im) = w) by (unfold ncols; rewrite S; reflexivity).
  unfold pixel_grid, fill_shape, im_rows, im_cols. rewrite Nr, Nc, Ep. pose proof (pixel_box_proper h w H W) as (V & D & _). destruct (grid2 (pixel_box h w) h w V D H W) as (v & E & Sv & G). rewrite E. cbn [bind].
  rewrite x2p_ok by (apply proper_frame; assumption). eexists. split; [reflexivity|]. split; [cbn; unfold nrows; rewrite Sv; reflexivity|]. intros i j Li Lj. cbn [get mk2]. destruct (G i j Li Lj) as (-> & ->).
  replace (side (pixel_box h w) 0) with (INR w - 1) by (unfold side, lo, hi; cbn; ring). replace (side (pixel_box h w) 1) with (INR h - 1) by (unfold side, lo, hi; cbn; ring).
  replace (lo (pixel_box h w) 0) with 0 by reflexivity. replace (lo (pixel_box h w) 1) with 0 by reflexivity. rewrite !Rplus_0_l. split; reflexivity.
Qed.
(** Sampling at the pixel grid. *)
Lemma sample_at_grid im h w gd : bitmap_of (im_bitmap im) h w -> (2 <= h)%nat -> (2 <= w)%nat -> proper_extent (im_extent im) -> shape gd = [(h * w)%nat; 2%nat] ->
  (forall i j, (i < h)%nat -> (j < w)%nat ->
    gd @2 (i * w + j)%nat (0%nat) = side (im_extent im) 0 / (INR w - 1) * (INR j * ((INR h - 1) / (INR w - 1))) + lo (im_extent im) 0 /\
    gd @2 (i * w + j)%nat (1%nat) = side (im_extent im) 1 / (INR h - 1) * (INR i * ((INR w - 1) / (INR h - 1))) + lo (im_extent im) 1) ->
  exists b, deformed_intensities gd (im_bitmap im) (im_extent im) = Ok b /\ shape b = [h; w] /\
  forall i j, (i < h)%nat -> (j < w)%nat -> b @2 i j = bilinear (im_bitmap im) (INR i * ((INR w - 1) / (INR h - 1))) (INR j * ((INR h - 1) / (INR w - 1))).
Proof.
  intros S H W P Sg G. pose proof (proper_frame _ h w P H W) as F. destruct (deformed_entry gd (im_bitmap im) (im_extent im) h w _ S ltac:(unfold nrows; rewrite Sg; reflexivity) (p2p_ok _ h w gd false F)) as (b & E & Sb & V).
  exists b. split; [exact E|]. split; [exact Sb|]. intros i j Li Lj. rewrite V by assumption. cbn [get mk2]. destruct (G i j Li Lj) as (-> & ->).
  destruct F as (_ & _ & N0 & N1 & _). apply le_INR in H, W. cbn in H, W. f_equal; field; repeat split; lra.
Qed.

(** Backward images: the identity gives the bitmap read at row i (w-1)/(h-1) and column
    j (h-1)/(w-1). *)
Theorem C57_backward_identity : forall bitmap h w e im nearest, bitmap_of bitmap h w -> (2 <= h)%nat -> (2 <= w)%nat -> extent_arg_ok e -> image_init bitmap "bitmap" true e = Ok im ->
  exists g b, pixel_grid im = Ok g /\ to_deformed im g nearest = Ok [b] /\ shape b = [h; w] /\
  forall i j, (i < h)%nat -> (j < w)%nat -> b @2 i j = bilinear bitmap (INR i * ((INR w - 1) / (INR h - 1))) (INR j * ((INR h - 1) / (INR w - 1))).
Proof.
  intros bitmap h w e im nearest S H W O E. destruct (C57_construction bitmap h w "bitmap" true e S H W O (or_introl eq_refl)) as (im' & E' & B & Bw & Ou & Ex & Px & _). rewrite E in E'. injection E' as <-.
  assert (P : proper_extent (im_extent im)) by (rewrite Ex; apply extent_proper; assumption). rewrite <- B in S. destruct (pixel_grid_ok im h w S H W Px P) as (g & Eg & Sg & G).
  destruct (sample_at_grid im h w g S H W P Sg G) as (b & Eb & Sb & V). exists g, b. split; [exact Eg|]. split; [unfold to_deformed; rewrite Bw, Ou; cbn; rewrite Eb; reflexivity|]. split; [exact Sb|]. rewrite <- B. exact V.
Qed.
Print Assumptions C57_backward_identity.

(** Square images are reproduced, whatever the extent, also in the 'points' output. *)
Theorem C57_square_images : forall bitmap n e nearest, bitmap_of bitmap n n -> (2 <= n)%nat -> extent_arg_ok e ->
  exists im g b, image_init bitmap "bitmap" true e = Ok im /\ pixel_grid im = Ok g /\ to_deformed im g nearest = Ok [b] /\ teq b bitmap.
Proof.
  intros bitmap n e nearest S H O. destruct (C57_construction bitmap n n "bitmap" true e S H H O (or_introl eq_refl)) as (im & E & _). destruct (C57_backward_identity bitmap n n e im nearest S H H O E) as (g & b & Eg & Eb & Sb & V).
  exists im, g, b. repeat (split; [assumption|]). split; [rewrite Sb, S; reflexivity|]. rewrite Sb. intros [|i [|j [|? ?]]] I; cbn in I; try tauto. rewrite V by tauto. apply le_INR in H. cbn in H. replace ((INR n - 1) / (INR n - 1)) with 1 by (field; lra). rewrite !Rmult_1_r.
  rewrite bilinear_lin. unfold nrows, ncols. rewrite S. change (tnth [n; n] 0) with n. change (tnth [n; n] 1) with n. rewrite lin_int by tauto. apply lin_int. tauto.
Qed.
Print Assumptions C57_square_images.
Theorem C57_square_images_as_points : forall bitmap n e nearest, bitmap_of bitmap n n -> (2 <= n)%nat -> extent_arg_ok e ->
  exists im g p a, image_init bitmap "points" true e = Ok im /\ pixel_grid im = Ok g /\ to_deformed im g nearest = Ok [p; a] /\ p = g /\ teq a (weights_of bitmap).
Proof.
  intros bitmap n e nearest S H O. destruct (C57_construction bitmap n n "points" true e S H H O (or_intror eq_refl)) as (im & E & B & Bw & Ou & Ex & Px & _).
  assert (P : proper_extent (im_extent im)) by (rewrite Ex; apply extent_proper; assumption). pose proof S as S'. rewrite <- B in S'. destruct (pixel_grid_ok im n n S' H H Px P) as (g & Eg & Sg & G).
  destruct (sample_at_grid im n n g S' H H P Sg G) as (b & Eb & Sb & V).
  exists im, g, g, (weights_of b). split; [exact E|]. split; [exact Eg|]. split; [unfold to_deformed; rewrite Bw, Ou; cbn; rewrite Eb; reflexivity|]. split; [reflexivity|].
  assert (T : forall idx, valid [n; n] idx -> get b idx = get bitmap idx).
  { intros [|i [|j [|? ?]]] I; cbn in I; try tauto. rewrite V, B by tauto. apply le_INR in H. cbn in H. replace ((INR n - 1) / (INR n - 1)) with 1 by (field; lra). rewrite !Rmult_1_r.
    rewrite bilinear_lin. unfold nrows, ncols. rewrite S. change (tnth [n; n] 0) with n. change (tnth [n; n] 1) with n. rewrite lin_int by tauto. apply lin_int. tauto. }
  unfold weights_of, total. rewrite Sb, S. split; [reflexivity|]. intros [|r [|? ?]] I; cbn [valid shape mk1] in I; try tauto. cbn [get mk1].
  rewrite T by (apply valid_unravel; tauto). f_equal. apply rsum_ext. intros k Lk. apply T, valid_unravel, Lk.
Qed.
Print Assumptions C57_square_images_as_points.

(** Finding: every other rectangular size has images that are not. *)
Theorem C57_rectangles_refuted : forall h w e nearest, (2 <= h)%nat -> (2 <= w)%nat -> h <> w -> extent_arg_ok e ->
  exists bitmap im g b i j, bitmap_of bitmap h w /\ image_init bitmap "bitmap" true e = Ok im /\ pixel_grid im = Ok g /\ to_deformed im g nearest = Ok [b] /\ (i < h)%nat /\ (j < w)%nat /\ b @2 i j <> bitmap @2 i j.
Proof.
  intros h w e nearest H W N O. set (bitmap := mk2 h w (fun i j => match i, j with 0%nat, 0%nat => 1 | _, _ => 0 end)). assert (S : bitmap_of bitmap h w) by reflexivity.
  destruct (C57_construction bitmap h w "bitmap" true e S H W O (or_introl eq_refl)) as (im & E & _). destruct (C57_backward_identity bitmap h w e im nearest S H W O E) as (g & b & Eg & Eb & Sb & V).
  assert (Q : forall a c, (2 <= a)%nat -> (a < c)%nat -> 0 < (INR a - 1) / (INR c - 1) < 1).
  { intros a c A C. apply le_INR in A. apply lt_INR in C. cbn in A. split; [apply Rdiv_lt_0_compat; lra|]. apply (Rmult_lt_reg_r (INR c - 1)); [lra|]. unfold Rdiv. rewrite Rmult_assoc, Rinv_l by lra. lra. }
  destruct (Nat.lt_total h w) as [C|[C|C]]; [|contradiction|].
  - exists bitmap, im, g, b, 0%nat, 1%nat. repeat (split; [assumption || lia|]). rewrite V by lia. rewrite bilinear_lin. cbn [nrows ncols]. change (nrows bitmap) with h. change (ncols bitmap) with w. replace (INR 0 * _) with (INR 0) by (cbn; ring). rewrite lin_int by lia.
    replace (INR 1 * ((INR h - 1) / (INR w - 1))) with (INR 0 + (INR h - 1) / (INR w - 1)) by (cbn; ring). specialize (Q h w H C). rewrite lin_cell by (lia || lra). unfold mix. cbn. lra.
  - exists bitmap, im, g, b, 1%nat, 0%nat. repeat (split; [assumption || lia|]). rewrite V by lia. rewrite bilinear_lin. change (nrows bitmap) with h. change (ncols bitmap) with w. replace (INR 1 * ((INR w - 1) / (INR h - 1))) with (INR 0 + (INR w - 1) / (INR h - 1)) by (cbn; ring). specialize (Q w h W C).
    replace (INR 0 * ((INR h - 1) / (INR w - 1))) with (INR 0) by (cbn; ring). rewrite lin_cell by (lia || lra). rewrite !lin_int by lia. unfold mix. cbn. lra.
Qed.
Print Assumptions C57_rectangles_refuted.

(** Finding: images of one row or one column cannot be built. *)
Theorem C57_single_row_refuted : forall bitmap h w e backward, bitmap_of bitmap h w -> (0 < h)%nat -> (0 < w)%nat -> h = 1%nat \/ w = 1%nat -> extent_arg_ok e -> image_init bitmap "bitmap" backward e = Err ZeroDivisionError.
Proof.
  intros bitmap h w e backward S H W D O. unfold image_init. cbn [String.eqb Ascii.eqb Bool.eqb orb py_assert bind].
  replace (match e with EBox b => if Nat.eqb (a_dim b) 2 then Ok tt else Err RuntimeError | _ => Ok tt end) with (Ok tt). 2:{ destruct e as [|s|b]; try reflexivity. cbn in O. destruct O as (_ & -> & _). reflexivity. }
  assert (Nr : nrows bitmap = h) by (unfold nrows; rewrite S; reflexivity). assert (Nc : ncols bitmap = w) by (unfold ncols; rewrite S; reflexivity).
  cbn [bind]. rewrite Nr, Nc. assert (0 <= INR h - 1 /\ 0 <= INR w - 1) as (Hh & Hw) by (apply le_INR in H, W; cbn in H, W; lra). rewrite init_box by lra. cbn [bind].
  replace (match e with ENone => _ | EString s => _ | EBox b => Ok b end) with (Ok (extent_of e h w)). 2:{ destruct e as [|s|b]; cbn [extent_of]; [rewrite init_box by lra; reflexivity|cbn in O; rewrite O; reflexivity|reflexivity]. }
  cbn [bind]. assert (V : valid_box (extent_of e h w) /\ a_dim (extent_of e h w) = 2%nat).
  { destruct e as [|s|b]; cbn [extent_of]; [|split; [|reflexivity]|cbn in O; split; apply O]; [|split; [split; reflexivity|]; intros [|[|c]] L; cbn in L; try lia; unfold lo, hi; cbn; lra].
    split; [|reflexivity]. split; [split; reflexivity|]. intros [|[|c]] L; cbn in L; try lia; unfold lo, hi; cbn; lra. }
  destruct V as (V & Dm). unfold fill_shape. rewrite Nr, Nc. destruct (C46_count_grid (extent_of e h w) [Z.of_nat h; Z.of_nat w] V ltac:(lia) ltac:(cbn; lia)) as (v & E & _); [constructor; [lia|constructor; [lia|constructor]]|].
  rewrite E. cbn [bind]. rewrite (proj1 (proj2 (C55_errors (extent_of e h w) h w v false (proj1 V)))); [reflexivity|lia|tauto].
Qed.
Print Assumptions C57_single_row_refuted.

Lemma two_squares a b : a ^ 2 + b ^ 2 <= 0 -> a = 0 /\ b = 0.
Proof. intros H. pose proof (pow2_ge_0 a). pose proof (pow2_ge_0 b). split; apply Rsqr_0_uniq; unfold Rsqr; lra. Qed.

(** Images deformed forward: if the deformed points are the pixel grid, the result is the same
    as for backward images. *)
Theorem C57_forward_identity : forall bitmap h w e im gd nearest, bitmap_of bitmap h w -> (2 <= h)%nat -> (2 <= w)%nat -> extent_arg_ok e -> image_init bitmap "bitmap" false e = Ok im ->
  forall g, pixel_grid im = Ok g -> shape gd = [(h * w)%nat; 2%nat] -> (forall r c, (r < h * w)%nat -> (c < 2)%nat -> gd @2 r c = g @2 r c) -> nearest_rows (h * w) g gd nearest ->
  exists b, to_deformed im gd nearest = Ok [b] /\ shape b = [h; w] /\
  forall i j, (i < h)%nat -> (j < w)%nat -> b @2 i j = bilinear bitmap (INR i * ((INR w - 1) / (INR h - 1))) (INR j * ((INR h - 1) / (INR w - 1))).
Proof.
  intros bitmap h w e im gd nearest S H W O E g Eg' Sgd Same Nea. destruct (C57_construction bitmap h w "bitmap" false e S H W O (or_introl eq_refl)) as (im' & E' & B & Bw & Ou & Ex & Px & _). rewrite E in E'. injection E' as <-.
  assert (P : proper_extent (im_extent im)) by (rewrite Ex; apply extent_proper; assumption). pose proof S as S'. rewrite <- B in S'. destruct (pixel_grid_ok im h w S' H W Px P) as (g' & Eg & Sg & G). rewrite Eg in Eg'. injection Eg' as ->.
  pose proof P as (_ & _ & P0 & P1). assert (Hh : 1 <= INR h - 1) by (apply le_INR in H; cbn in H; lra). assert (Hw : 1 <= INR w - 1) by (apply le_INR in W; cbn in W; lra).
  set (dx := side (im_extent im) 0 / (INR w - 1) * ((INR h - 1) / (INR w - 1))). set (dy := side (im_extent im) 1 / (INR h - 1) * ((INR w - 1) / (INR h - 1))).
  assert (Dx : 0 < dx) by (unfold dx, side; apply Rmult_lt_0_compat; apply Rdiv_lt_0_compat; lra). assert (Dy : 0 < dy) by (unfold dy, side; apply Rmult_lt_0_compat; apply Rdiv_lt_0_compat; lra).
  assert (G' : forall i j, (i < h)%nat -> (j < w)%nat -> g @2 (i * w + j)%nat (0%nat) = INR j * dx + lo (im_extent im) 0 /\ g @2 (i * w + j)%nat (1%nat) = INR i * dy + lo (im_extent im) 1).
  { intros i j Li Lj. destruct (G i j Li Lj) as (-> & ->). unfold dx, dy. split; ring. }
  assert (Id : forall r, (r < h * w)%nat -> nearest r = r).
  { intros r Lr. destruct (Nea r Lr) as (Ln & M). specialize (M r Lr). assert (Z : sqdist g gd r r = 0) by (unfold sqdist; rewrite !Same by lia; ring). rewrite Z in M. unfold sqdist in M. rewrite !Same in M by lia.
    destruct (cell_rows h w r Lr) as (A1 & A2 & A3). destruct (cell_rows h w (nearest r) Ln) as (C1 & C2 & C3). destruct (G' (r / w) (r mod w) A1 A2)%nat as (Q1 & Q2). destruct (G' (nearest r / w) (nearest r mod w) C1 C2)%nat as (Q3 & Q4). rewrite <- A3 in Q1, Q2. rewrite <- C3 in Q3, Q4. rewrite Q1, Q2, Q3, Q4 in M.
    destruct (two_squares ((INR (r mod w) - INR (nearest r mod w)) * dx) ((INR (r / w) - INR (nearest r / w)) * dy)) as (M0 & M1). { eapply Rle_trans; [|exact M]. apply Req_le. ring. }
    apply Rmult_integral in M0, M1. destruct M0 as [M0|M0]; [|lra]. destruct M1 as [M1|M1]; [|lra]. assert (r mod w = nearest r mod w)%nat by (apply INR_eq; lra). assert (r / w = nearest r / w)%nat by (apply INR_eq; lra). congruence. }
  assert (Step : sqrt (rsum 2 (fun a => (g @2 (0%nat) a - g @2 (1%nat) a) ^ 2)) = dx).
  { cbn [rsum]. destruct (G' 0%nat 0%nat ltac:(lia) ltac:(lia)) as (Q1 & Q2). destruct (G' 0%nat 1%nat ltac:(lia) ltac:(lia)) as (Q3 & Q4). cbn [Nat.mul Nat.add] in *. rewrite Q1, Q2, Q3, Q4. replace (_ + _ + _) with (dx * dx) by (cbn; ring). apply sqrt_square. lra. }
  unfold to_deformed. rewrite Bw. rewrite Eg. cbn [bind]. assert (Nr : im_rows im = h) by (unfold im_rows, nrows; rewrite S'; reflexivity). assert (Nc : im_cols im = w) by (unfold im_cols, ncols; rewrite S'; reflexivity). rewrite Nr, Nc.
  unfold invert_grid. rewrite Step. replace (existsb _ _) with false.
  2:{ symmetry. apply Bool.not_true_is_false. intros Ex'. apply existsb_exists in Ex'. destruct Ex' as (r & I & A). apply in_seq in I. apply andb_prop in A. destruct A as (A & Dt). apply Reqb_true in Dt. unfold interior in A. repeat (apply andb_prop in A; destruct A as (A & ?)). rewrite Nat.leb_le, ?Nat.ltb_lt in *.
    destruct (cell_rows h w r ltac:(lia)) as (A1 & A2 & A3). unfold det22, jacobian in Dt. replace (Nat.ltb (r mod w) (w - 1)) with true in Dt by (symmetry; apply Nat.ltb_lt; lia). replace (Nat.ltb (r / w) (h - 1)) with true in Dt by (symmetry; apply Nat.ltb_lt; lia).
    rewrite !Same in Dt by nia. destruct (G' (r / w)%nat (r mod w + 1)%nat ltac:(lia) ltac:(lia)) as (Q1 & Q2). destruct (G' (r / w + 1)%nat (r mod w)%nat ltac:(lia) ltac:(lia)) as (Q3 & Q4). destruct (G' (r / w)%nat (r mod w)%nat ltac:(lia) ltac:(lia)) as (Q5 & Q6). rewrite Q1, Q2, Q3, Q4, Q5, Q6, !plus_INR in Dt.
    cbn in Dt. assert (F : dy / dx = 0). { rewrite <- Dt. field. lra. } assert (0 < dy / dx) by (apply Rdiv_lt_0_compat; lra). lra. }
  cbn [bind]. rewrite Ou. cbn [String.eqb Ascii.eqb Bool.eqb]. match goal with |- context[deformed_intensities ?q _ _] => destruct (sample_at_grid im h w q S' H W P eq_refl) as (b & Eb & Sb & V) end.
  - intros i j Li Lj. cbn [get mk2]. assert (Lr : (i * w + j < h * w)%nat) by nia. rewrite !Id by exact Lr. destruct (G i j Li Lj) as (<- & <-). cbn [rsum]. rewrite !Same by lia. destruct (interior h w _ _); split; ring.
  - exists b. rewrite Eb. split; [reflexivity|]. split; [exact Sb|]. rewrite <- B. exact V.
Qed.
Print Assumptions C57_forward_identity.

(** What an image gives to the attachments: its bitmap, or its points followed by the
    weights of its pixels in row-major order, which sum to one. *)
Theorem C57_geometry : forall bitmap h w output backward e im, bitmap_of bitmap h w -> (2 <= h)%nat -> (2 <= w)%nat -> extent_arg_ok e -> output = "bitmap"%string \/ output = "points"%string ->
  image_init bitmap output backward e = Ok im ->
  (output = "bitmap"%string -> geometry im = Ok [bitmap]) /\
  (output = "points"%string -> exists a, geometry im = Ok [im_points im; a] /\ shape a = [(h * w)%nat] /\
     (forall i j, (i < h)%nat -> (j < w)%nat -> a @1 (i * w + j)%nat = bitmap @2 i j / total bitmap) /\ (total bitmap <> 0 -> rsum (h * w) (fun r => a @1 r) = 1)).
Proof.
  intros bitmap h w output backward e im S H W O U E. destruct (C57_construction bitmap h w output backward e S H W O U) as (im' & E' & B & _ & Ou & _). rewrite E in E'. injection E' as <-. split; intros ->; unfold geometry; rewrite Ou, B; cbn [String.eqb Ascii.eqb Bool.eqb].
  - reflexivity.
  - exists (weights_of bitmap). split; [reflexivity|]. unfold weights_of. rewrite S. cbn [prod fold_right]. rewrite Nat.mul_1_r. split; [reflexivity|]. split.
    + intros i j Li Lj. cbn [get mk1]. f_equal. replace (i * w + j)%nat with (ravel [h; w] [i; j]) by (cbn; lia). rewrite unravel_ravel by (cbn; tauto). reflexivity.
    + intros N. cbn [get mk1]. unfold Rdiv. rewrite rsum_scal_r. replace (rsum _ _) with (total bitmap) by (unfold total; rewrite S; cbn [prod fold_right]; rewrite Nat.mul_1_r; reflexivity). apply Rinv_r. exact N.
Qed.
Print Assumptions C57_geometry.

(** Images deformed forward by an affine map x |-> A x + t: the pixel of row r, when it and
    the nearest deformed point are not on the border, is read at p; its first coordinate is
    that of the preimage q of the pixel, and so is the second one if the spacing of the grid
    is the same along both axes. *)
Theorem C57_forward_affine : forall bitmap h w e im g gd nearest (A : nat -> nat -> R) (t : nat -> R), bitmap_of bitmap h w -> (2 <= h)%nat -> (2 <= w)%nat -> extent_arg_ok e ->
  image_init bitmap "points" false e = Ok im -> pixel_grid im = Ok g -> shape gd = [(h * w)%nat; 2%nat] ->
  (forall r c, (r < h * w)%nat -> (c < 2)%nat -> gd @2 r c = A c 0%nat * g @2 r (0%nat) + A c 1%nat * g @2 r (1%nat) + t c) ->
  A 0%nat 0%nat * A 1%nat 1%nat - A 0%nat 1%nat * A 1%nat 0%nat <> 0 -> (forall r, (r < h * w)%nat -> (nearest r < h * w)%nat) ->
  exists p a, to_deformed im gd nearest = Ok [p; a] /\ shape p = [(h * w)%nat; 2%nat] /\
  forall r q0 q1, (r < h * w)%nat -> interior h w (r / w) (r mod w) = true -> interior h w (nearest r / w) (nearest r mod w) = true ->
    (forall c, (c < 2)%nat -> A c 0%nat * q0 + A c 1%nat * q1 + t c = g @2 r c) ->
    let sx := g @2 (1%nat) (0%nat) - g @2 (0%nat) (0%nat) in let sy := g @2 w (1%nat) - g @2 (0%nat) (1%nat) in
    p @2 r (0%nat) = q0 /\ p @2 r (1%nat) = g @2 (nearest r) (1%nat) + sx / sy * (q1 - g @2 (nearest r) (1%nat)) /\ (sx = sy -> p @2 r (1%nat) = q1).
Proof.
  intros bitmap h w e im g gd nearest A t S H W O E Eg' Sgd Aff DA Nea. destruct (C57_construction bitmap h w "points" false e S H W O (or_intror eq_refl)) as (im' & E' & B & Bw & Ou & Ex & Px & _). rewrite E in E'. injection E' as <-.
  assert (P : proper_extent (im_extent im)) by (rewrite Ex; apply extent_proper; assumption). pose proof S as S'. rewrite <- B in S'. destruct (pixel_grid_ok im h w S' H W Px P) as (g' & Eg & Sg & G). rewrite Eg in Eg'. injection Eg' as ->.
  pose proof P as (_ & _ & P0 & P1). assert (Hh : 1 <= INR h - 1) by (apply le_INR in H; cbn in H; lra). assert (Hw : 1 <= INR w - 1) by (apply le_INR in W; cbn in W; lra).
  set (dx := side (im_extent im) 0 / (INR w - 1) * ((INR h - 1) / (INR w - 1))). set (dy := side (im_extent im) 1 / (INR h - 1) * ((INR w - 1) / (INR h - 1))).
  assert (Dx : 0 < dx) by (unfold dx, side; apply Rmult_lt_0_compat; apply Rdiv_lt_0_compat; lra). assert (Dy : 0 < dy) by (unfold dy, side; apply Rmult_lt_0_compat; apply Rdiv_lt_0_compat; lra).
  assert (G' : forall i j, (i < h)%nat -> (j < w)%nat -> g @2 (i * w + j)%nat (0%nat) = INR j * dx + lo (im_extent im) 0 /\ g @2 (i * w + j)%nat (1%nat) = INR i * dy + lo (im_extent im) 1).
  { intros i j Li Lj. destruct (G i j Li Lj) as (-> & ->). unfold dx, dy. split; ring. }
  assert (Step : sqrt (rsum 2 (fun a => (g @2 (0%nat) a - g @2 (1%nat) a) ^ 2)) = dx).
  { cbn [rsum]. destruct (G' 0%nat 0%nat ltac:(lia) ltac:(lia)) as (Q1 & Q2). destruct (G' 0%nat 1%nat ltac:(lia) ltac:(lia)) as (Q3 & Q4). cbn [Nat.mul Nat.add] in *. rewrite Q1, Q2, Q3, Q4. replace (_ + _ + _) with (dx * dx) by (cbn; ring). apply sqrt_square. lra. }
  assert (Jac : forall r, (r < h * w)%nat -> interior h w (r / w) (r mod w) = true -> forall c, (c < 2)%nat ->
    jacobian h w dx gd (r / w) (r mod w) c 0 = A c 0%nat /\ jacobian h w dx gd (r / w) (r mod w) c 1 = A c 1%nat * (dy / dx)).
  { intros r Lr I c Lc. unfold interior in I. repeat (apply andb_prop in I; destruct I as (I & ?)). rewrite Nat.leb_le, ?Nat.ltb_lt in *. unfold jacobian.
    replace (Nat.ltb (r mod w) (w - 1)) with true by (symmetry; apply Nat.ltb_lt; lia). replace (Nat.ltb (r / w) (h - 1)) with true by (symmetry; apply Nat.ltb_lt; lia).
    rewrite !Aff by nia. destruct (G' (r / w)%nat (r mod w + 1)%nat ltac:(lia) ltac:(lia)) as (Q1 & Q2). destruct (G' (r / w + 1)%nat (r mod w)%nat ltac:(lia) ltac:(lia)) as (Q3 & Q4). destruct (G' (r / w)%nat (r mod w)%nat ltac:(lia) ltac:(lia)) as (Q5 & Q6).
    rewrite Q1, Q2, Q3, Q4, Q5, Q6, !plus_INR. cbn [INR]. split; field; lra. }
  assert (K : 0 < dy / dx) by (apply Rdiv_lt_0_compat; lra).
  assert (Det : forall r, (r < h * w)%nat -> interior h w (r / w) (r mod w) = true -> det22 (jacobian h w dx gd (r / w) (r mod w)) = (A 0%nat 0%nat * A 1%nat 1%nat - A 0%nat 1%nat * A 1%nat 0%nat) * (dy / dx)).
  { intros r Lr I. unfold det22. destruct (Jac r Lr I 0%nat ltac:(lia)) as (-> & ->). destruct (Jac r Lr I 1%nat ltac:(lia)) as (-> & ->). ring. }
  unfold to_deformed. rewrite Bw. rewrite Eg. cbn [bind]. assert (Nr : im_rows im = h) by (unfold im_rows, nrows; rewrite S'; reflexivity). assert (Nc : im_cols im = w) by (unfold im_cols, ncols; rewrite S'; reflexivity). rewrite Nr, Nc.
  unfold invert_grid. rewrite Step. replace (existsb _ _) with false.
  2:{ symmetry. apply Bool.not_true_is_false. intros Ex'. apply existsb_exists in Ex'. destruct Ex' as (r & I & A'). apply in_seq in I. apply andb_prop in A'. destruct A' as (A' & Dt). apply Reqb_true in Dt. rewrite Det in Dt by (assumption || lia).
    apply Rmult_integral in Dt. destruct Dt as [Dt|Dt]; [exact (DA Dt)|lra]. }
  cbn [bind]. rewrite Ou. cbn [String.eqb Ascii.eqb Bool.eqb]. match goal with |- context[deformed_intensities ?q _ _] => set (p := q); 
    destruct (deformed_entry q (im_bitmap im) (im_extent im) h w _ S' eq_refl (p2p_ok _ h w q false (proper_frame _ h w P H W))) as (b & Eb & Sb & V) end.
  exists p, (weights_of b). unfold p at 1. rewrite Eb. split; [reflexivity|]. split; [reflexivity|]. intros r q0 q1 Lr I In Q. cbv zeta.
  assert (Sx : g @2 (1%nat) (0%nat) - g @2 (0%nat) (0%nat) = dx) by (pose proof (proj1 (G' 0%nat 0%nat ltac:(lia) ltac:(lia))) as Q1; pose proof (proj1 (G' 0%nat 1%nat ltac:(lia) ltac:(lia))) as Q2; cbn in Q1, Q2; rewrite Q1, Q2; ring).
  assert (Sy : g @2 w (1%nat) - g @2 (0%nat) (1%nat) = dy) by (pose proof (proj2 (G' 0%nat 0%nat ltac:(lia) ltac:(lia))) as Q1; pose proof (proj2 (G' 1%nat 0%nat ltac:(lia) ltac:(lia))) as Q2; cbn in Q1; rewrite Nat.mul_1_l, Nat.add_0_r in Q2; cbn in Q2; rewrite Q1, Q2; ring).
  rewrite Sx, Sy. set (n := nearest r) in *. assert (Ln : (n < h * w)%nat) by (apply Nea; exact Lr).
  assert (X : p @2 r (0%nat) = q0 /\ p @2 r (1%nat) = g @2 n (1%nat) + dx / dy * (q1 - g @2 n (1%nat))).
  { unfold p. cbn [get mk2 rsum]. rewrite I. fold n. rewrite In. cbn [inv22]. rewrite (Det n Ln In), !(Aff n) by lia. destruct (Jac n Ln In 0%nat ltac:(lia)) as (J00 & J01). destruct (Jac n Ln In 1%nat ltac:(lia)) as (J10 & J11). rewrite J00, J01, J10, J11.
    rewrite <- (Q 0%nat), <- (Q 1%nat) by lia. split; field; repeat split; lra. }
  destruct X as (X0 & X1). split; [exact X0|]. split; [exact X1|]. intros ->. rewrite X1. field. lra.
Qed.
Print Assumptions C57_forward_affine.

(** 3 x 3 square pixels, rotated by a quarter turn about the centre: the centre is read at
    the centre. *)
Example C57_forward_case : exists bitmap im g gd p a, bitmap_of bitmap 3 3 /\ image_init bitmap "points" false (EString "match") = Ok im /\ pixel_grid im = Ok g /\
  shape gd = [9; 2]%nat /\ (forall r, (r < 9)%nat -> gd @2 r (0%nat) = 2 - g @2 r (1%nat) /\ gd @2 r (1%nat) = g @2 r (0%nat)) /\
  to_deformed im gd (fun r => r) = Ok [p; a] /\ p @2 (4%nat) (0%nat) = 1 /\ p @2 (4%nat) (1%nat) = 1.
Proof.
  set (bitmap := of_rows 3 3 [[0; 0; 1]; [0; 0; 0]; [0; 0; 0]]). assert (S : bitmap_of bitmap 3 3) by reflexivity.
  destruct (C57_construction bitmap 3 3 "points" false (EString "match") S ltac:(lia) ltac:(lia) eq_refl (or_intror eq_refl)) as (im & E & B & Bw & Ou & Ex & Px & _). cbn [extent_of] in Ex.
  assert (P : proper_extent (im_extent im)) by (rewrite Ex; apply pixel_box_proper; lia). pose proof S as S'. rewrite <- B in S'. destruct (pixel_grid_ok im 3 3 S' ltac:(lia) ltac:(lia) Px P) as (g & Eg & Sg & G).
  rewrite Ex in G. unfold side, lo, hi in G. cbn [pixel_box a_kmin a_kmax nth] in G.
  assert (G' : forall r, (r < 9)%nat -> g @2 r (0%nat) = INR (r mod 3) /\ g @2 r (1%nat) = INR (r / 3)).
  { intros r Lr. destruct (cell_rows 3 3 r Lr) as (A1 & A2 & A3). destruct (G _ _ A1 A2) as (T1 & T2). rewrite <- A3 in T1, T2. rewrite T1, T2. replace (INR 3) with 3 by (cbn; lra). split; field. }
  set (gd := mk2 9 2 (fun r c => match c with 0%nat => 2 - g @2 r (1%nat) | _ => g @2 r (0%nat) end)).
  destruct (C57_forward_affine bitmap 3 3 (EString "match") im g gd (fun r => r) (fun i j => match i, j with 0%nat, 1%nat => -1 | 1%nat, 0%nat => 1 | _, _ => 0 end) (fun c => match c with 0%nat => 2 | _ => 0 end) S ltac:(lia) ltac:(lia) eq_refl E Eg) as (p & a & T & _ & V).
  - reflexivity.
  - intros r [|[|c]] _ Lc; cbn; lra || lia.
  - cbn. lra.
  - auto.
  - exists bitmap, im, g, gd, p, a. split; [exact S|]. split; [exact E|]. split; [exact Eg|]. split; [reflexivity|]. split; [intros r _; split; reflexivity|]. split; [exact T|].
    destruct (V 4%nat 1 1 ltac:(lia) eq_refl eq_refl) as (A & _ & C).
    + intros [|[|c]] Lc; try lia; destruct (G' 4%nat ltac:(lia)) as (Q1 & Q2); cbn in Q1, Q2; [rewrite Q1|rewrite Q2]; lra.
    + split; [exact A|]. apply C. destruct (G' 0%nat ltac:(lia)) as (-> & ->). destruct (G' 1%nat ltac:(lia)) as (-> & _). destruct (G' 3%nat ltac:(lia)) as (_ & ->). cbn. lra.
Qed.

(** Finding: with pixels that are not square the second coordinate is wrong even for a
    translation.  3 x 3 pixels over [0, 2] x [0, 4], moved by (0, 1/2). *)
Definition tall : box := mkAABB 2 [0; 0] [2; 4].
Definition raise_half (g : tensor) : tensor := mk2 9 2 (fun r c => match c with 0%nat => g @2 r (0%nat) | _ => g @2 r (1%nat) + 1 / 2 end).
Theorem C57_forward_spacing_refuted : exists bitmap im g p a, bitmap_of bitmap 3 3 /\ proper_extent tall /\ image_init bitmap "points" false (EBox tall) = Ok im /\ pixel_grid im = Ok g /\
  nearest_rows 9 g (raise_half g) (fun r => r) /\ to_deformed im (raise_half g) (fun r => r) = Ok [p; a] /\ interior 3 3 1 1 = true /\
  p @2 (4%nat) (1%nat) <> g @2 (4%nat) (1%nat) - 1 / 2.
Proof.
  set (bitmap := of_rows 3 3 [[0; 0; 1]; [0; 0; 0]; [0; 0; 0]]). assert (S : bitmap_of bitmap 3 3) by reflexivity.
  assert (PE : proper_extent tall). { split; [split; [split; reflexivity|]|]; [intros [|[|c]] L; cbn in L; try lia; unfold lo, hi; cbn; lra|]. unfold lo, hi. cbn. split; [reflexivity|lra]. }
  destruct (C57_construction bitmap 3 3 "points" false (EBox tall) S ltac:(lia) ltac:(lia) PE (or_intror eq_refl)) as (im & E & B & Bw & Ou & Ex & Px & _). cbn [extent_of] in Ex.
  assert (P : proper_extent (im_extent im)) by (rewrite Ex; exact PE). pose proof S as S'. rewrite <- B in S'. destruct (pixel_grid_ok im 3 3 S' ltac:(lia) ltac:(lia) Px P) as (g & Eg & Sg & G).
  rewrite Ex in G. unfold side, lo, hi in G. cbn [tall a_kmin a_kmax nth] in G.
  assert (G' : forall r, (r < 9)%nat -> g @2 r (0%nat) = INR (r mod 3) /\ g @2 r (1%nat) = 2 * INR (r / 3)).
  { intros r Lr. destruct (cell_rows 3 3 r Lr) as (A1 & A2 & A3). destruct (G _ _ A1 A2) as (T1 & T2). rewrite <- A3 in T1, T2. rewrite T1, T2. replace (INR 3) with 3 by (cbn; lra). split; field. }
  destruct (C57_forward_affine bitmap 3 3 (EBox tall) im g (raise_half g) (fun r => r) (fun i j => if Nat.eqb i j then 1 else 0) (fun c => match c with 0%nat => 0 | _ => 1 / 2 end) S ltac:(lia) ltac:(lia) PE E Eg) as (p & a & T & _ & V).
  - reflexivity.
  - intros r [|[|c]] _ Lc; cbn; lra || lia.
  - cbn. lra.
  - auto.
  - exists bitmap, im, g, p, a. split; [exact S|]. split; [exact PE|]. split; [exact E|]. split; [exact Eg|]. split; [|split; [exact T|split; [reflexivity|]]].
    + intros r Lr. split; [exact Lr|]. intros k Lk. unfold sqdist, raise_half. cbn [get mk2]. destruct (G' r Lr) as (-> & ->). destruct (G' k Lk) as (-> & ->).
      assert (X : forall x y z t : nat, (INR x - INR x) ^ 2 + (2 * INR y - (2 * INR y + 1 / 2)) ^ 2 <= (INR x - INR z) ^ 2 + (2 * INR y - (2 * INR t + 1 / 2)) ^ 2).
      { clear. intros x y z t. assert (0 <= (INR x - INR z) ^ 2) by apply pow2_ge_0. destruct (Nat.le_gt_cases y t) as [L|L].
        - apply le_INR in L. nra.
        - apply le_INR in L. rewrite S_INR in L. nra. }
      apply X.
    + destruct (V 4%nat (g @2 (4%nat) (0%nat)) (g @2 (4%nat) (1%nat) - 1 / 2) ltac:(lia) eq_refl eq_refl) as (_ & -> & _).
      * intros [|[|c]] Lc; cbn; lra || lia.
      * destruct (G' 0%nat ltac:(lia)) as (-> & ->). destruct (G' 1%nat ltac:(lia)) as (-> & _). destruct (G' 3%nat ltac:(lia)) as (_ & ->). destruct (G' 4%nat ltac:(lia)) as (_ & ->). cbn. lra.
Qed.
Print Assumptions C57_forward_spacing_refuted.

(** Finding: the points of an image are its pixel grid only if the extent is the pixel extent
    ('match'); otherwise undeformed forward images are not reproduced. *)
Theorem C57_initial_points : forall bitmap h w output backward e im g, bitmap_of bitmap h w -> (2 <= h)%nat -> (2 <= w)%nat -> extent_arg_ok e -> output = "bitmap"%string \/ output = "points"%string ->
  image_init bitmap output backward e = Ok im -> pixel_grid im = Ok g ->
  ((forall r c, (r < h * w)%nat -> (c < 2)%nat -> (im_points im) @2 r c = g @2 r c) <->
   lo (im_extent im) 0 = 0 /\ lo (im_extent im) 1 = 0 /\ hi (im_extent im) 0 = INR w - 1 /\ hi (im_extent im) 1 = INR h - 1).
Proof.
  intros bitmap h w output backward e im g S H W O U E Eg'. destruct (C57_construction bitmap h w output backward e S H W O U) as (im' & E' & B & Bw & Ou & Ex & Px & Sp & Pt). rewrite E in E'. injection E' as <-.
  assert (P : proper_extent (im_extent im)) by (rewrite Ex; apply extent_proper; assumption). rewrite <- B in S. destruct (pixel_grid_ok im h w S H W Px P) as (g' & Eg & Sg & G). rewrite Eg in Eg'. injection Eg' as ->.
  destruct P as (_ & _ & P0 & P1). assert (Hh : 1 <= INR h - 1) by (apply le_INR in H; cbn in H; lra). assert (Hw : 1 <= INR w - 1) by (apply le_INR in W; cbn in W; lra). set (x := im_extent im) in *.
  assert (N0 : side x 0 / (INR w - 1) <> 0) by (apply Rgt_not_eq, Rdiv_lt_0_compat; unfold side; lra). assert (N1 : side x 1 / (INR h - 1) <> 0) by (apply Rgt_not_eq, Rdiv_lt_0_compat; unfold side; lra). split.
  - intros A. pose proof (A (0 * w + 0)%nat 0%nat ltac:(nia) ltac:(lia)) as A00. pose proof (A (0 * w + 0)%nat 1%nat ltac:(nia) ltac:(lia)) as A01. pose proof (A (0 * w + 1)%nat 0%nat ltac:(nia) ltac:(lia)) as A10. pose proof (A (1 * w + 0)%nat 1%nat ltac:(nia) ltac:(lia)) as A11.
    rewrite (proj1 (Pt 0 0 ltac:(lia) ltac:(lia)))%nat, (proj1 (G 0 0 ltac:(lia) ltac:(lia)))%nat in A00. rewrite (proj2 (Pt 0 0 ltac:(lia) ltac:(lia)))%nat, (proj2 (G 0 0 ltac:(lia) ltac:(lia)))%nat in A01.
    rewrite (proj1 (Pt 0 1 ltac:(lia) ltac:(lia)))%nat, (proj1 (G 0 1 ltac:(lia) ltac:(lia)))%nat in A10. rewrite (proj2 (Pt 1 0 ltac:(lia) ltac:(lia)))%nat, (proj2 (G 1 0 ltac:(lia) ltac:(lia)))%nat in A11. cbn [INR] in *.
    apply Rplus_eq_reg_r in A00, A01, A10, A11. apply Rmult_eq_reg_l in A00; [|exact N0]. apply Rmult_eq_reg_l in A01; [|exact N1]. apply Rmult_eq_reg_l in A10; [|exact N0]. apply Rmult_eq_reg_l in A11; [|exact N1].
    rewrite !Rmult_0_l, Rplus_0_r in A00, A01. rewrite A00 in A10. rewrite A01 in A11. rewrite Rplus_0_l, !Rmult_1_l in A10, A11. split; [exact A01|]. split; [exact A00|].
    assert (Q : forall a b c, 0 < c -> a / c = b / c -> a = b). { intros a b c Hc Hq. unfold Rdiv in Hq. apply Rmult_eq_reg_r in Hq; [exact Hq|]. apply Rinv_neq_0_compat. lra. }
    apply Q in A10; [|lra]. apply Q in A11; [|lra]. unfold side in A10, A11. lra.
  - intros (L0 & L1 & U0 & U1) r c Lr Lc. destruct (cell_rows h w r Lr) as (A1 & A2 & A3). rewrite A3. destruct (Pt (r / w)%nat (r mod w)%nat A1 A2) as (T1 & T2). destruct (G (r / w)%nat (r mod w)%nat A1 A2) as (T3 & T4).
    destruct c as [|[|c]]; [| |lia]; [rewrite T1, T3|rewrite T2, T4]; unfold side; rewrite L0, L1, U0, U1, !Rminus_0_r, !Rplus_0_l; reflexivity.
Qed.
Print Assumptions C57_initial_points.
Theorem C57_forward_default_refuted : exists bitmap im g nearest b, bitmap_of bitmap 3 3 /\ image_init bitmap "bitmap" false ENone = Ok im /\ pixel_grid im = Ok g /\ nearest_rows 9 g (im_points im) nearest /\
  to_deformed im (im_points im) nearest = Ok [b] /\ b @2 (0%nat) (1%nat) <> bitmap @2 (0%nat) (1%nat).
Proof.
  set (bitmap := of_rows 3 3 [[0; 0; 1]; [0; 0; 0]; [0; 0; 0]]). assert (S : bitmap_of bitmap 3 3) by reflexivity.
  destruct (C57_construction bitmap 3 3 "bitmap" false ENone S ltac:(lia) ltac:(lia) Logic.I (or_introl eq_refl)) as (im & E & B & Bw & Ou & Ex & Px & Sp & Pt). cbn [extent_of] in Ex.
  assert (P : proper_extent (im_extent im)) by (rewrite Ex; apply (extent_proper ENone 3 3); try lia; exact Logic.I). pose proof S as S'. rewrite <- B in S'. destruct (pixel_grid_ok im 3 3 S' ltac:(lia) ltac:(lia) Px P) as (g & Eg & Sg & G).
  rewrite Ex in Pt, G. unfold side, lo, hi in Pt, G. cbn [unit_extent a_kmin a_kmax nth] in Pt, G.
  assert (Pt' : forall r, (r < 9)%nat -> (im_points im) @2 r (0%nat) = INR (r mod 3) / 4 /\ (im_points im) @2 r (1%nat) = INR (r / 3) / 4).
  { intros r Lr. destruct (cell_rows 3 3 r Lr) as (A1 & A2 & A3). destruct (Pt _ _ A1 A2) as (T1 & T2). rewrite <- A3 in T1, T2. rewrite T1, T2. replace (INR 3) with 3 by (cbn; lra). split; field. }
  assert (G' : forall r, (r < 9)%nat -> g @2 r (0%nat) = INR (r mod 3) / 2 /\ g @2 r (1%nat) = INR (r / 3) / 2).
  { intros r Lr. destruct (cell_rows 3 3 r Lr) as (A1 & A2 & A3). destruct (G _ _ A1 A2) as (T1 & T2). rewrite <- A3 in T1, T2. rewrite T1, T2. replace (INR 3) with 3 by (cbn; lra). split; field. }
  set (near := fun i => match i with 0%nat => 0%nat | _ => 2%nat end). set (nearest := fun r => (near (r / 3) * 3 + near (r mod 3))%nat).
  assert (Nb : forall k, (near k <= 2)%nat) by (intros [|k]; cbn; lia).
  assert (Nr1 : nearest_rows 9 g (im_points im) nearest).
  { intros r Lr. destruct (cell_rows 3 3 r Lr) as (A1 & A2 & A3). pose proof (Nb (r / 3)%nat). pose proof (Nb (r mod 3)%nat). assert (Ln : (nearest r < 9)%nat) by (unfold nearest; lia). split; [exact Ln|]. intros k Lk. unfold sqdist.
    destruct (G' r Lr) as (-> & ->). destruct (Pt' (nearest r) Ln) as (-> & ->). destruct (Pt' k Lk) as (-> & ->). destruct (cell_divmod 3 (near (r / 3)%nat) (near (r mod 3)%nat) ltac:(lia)) as (D1 & D2). fold (nearest r) in D1, D2. rewrite D1, D2.
    destruct (cell_rows 3 3 k Lk) as (K1 & K2 & _).
    assert (One : forall a b, (a < 3)%nat -> (b < 3)%nat -> (INR a / 2 - INR (near a) / 4) ^ 2 <= (INR a / 2 - INR b / 4) ^ 2). { intros a b La Lb. destruct a as [|[|[|a]]]; [| | |lia]; (destruct b as [|[|[|b]]]; [| | |lia]); cbn; lra. }
    apply Rplus_le_compat; apply One; assumption. }
  assert (Dg : exists q, to_deformed im (im_points im) nearest = bind (deformed_intensities q (im_bitmap im) (im_extent im)) (fun b => Ok [b]) /\ nrows q = 9%nat /\ forall c, q @2 (1%nat) c = g @2 (2%nat) c).
  { unfold to_deformed. rewrite Bw, Eg. cbn [bind]. change (im_rows im) with (nrows (im_bitmap im)). change (im_cols im) with (ncols (im_bitmap im)). rewrite B. change (nrows bitmap) with 3%nat. change (ncols bitmap) with 3%nat. unfold invert_grid.
    set (step := sqrt _). assert (Hs : step = 1/2). { unfold step. cbn [rsum]. destruct (G' 0%nat ltac:(lia)) as (-> & ->). destruct (G' 1%nat ltac:(lia)) as (-> & ->). replace (_ + _ + _) with ((1/2) * (1/2)) by (cbn; field). apply sqrt_square. lra. }
    replace (existsb _ _) with false.
    2:{ symmetry. apply Bool.not_true_is_false. intros Q. apply existsb_exists in Q. destruct Q as (r & I & A). apply in_seq in I. apply andb_prop in A. destruct A as (A & Dt). apply Reqb_true in Dt.
      assert (r = 4)%nat. { do 9 (destruct r as [|r]; [try discriminate A; try reflexivity|]). lia. } subst r. cbn [Nat.div Nat.modulo Nat.divmod fst snd] in Dt. unfold det22, jacobian in Dt. cbn [Nat.ltb Nat.leb Nat.sub Nat.mul Nat.add] in Dt.
      destruct (Pt' 5%nat ltac:(lia)) as (Q1 & Q2). destruct (Pt' 4%nat ltac:(lia)) as (Q3 & Q4). destruct (Pt' 7%nat ltac:(lia)) as (Q5 & Q6). cbn in Dt. rewrite Q1, Q2, Q3, Q4, Q5, Q6, Hs in Dt. cbn in Dt. lra. }
    cbn [bind]. rewrite Ou. cbn [String.eqb Ascii.eqb Bool.eqb]. eexists. split; [reflexivity|]. split; [reflexivity|]. intros c. cbn [get mk2]. change (interior 3 3 (1 / 3)%nat (1 mod 3)%nat) with false. change (nearest 1%nat) with 2%nat. cbn. ring. }
  destruct Dg as (q & Dg & Nq & Q). destruct (deformed_entry q (im_bitmap im) (im_extent im) 3 3 _ S' Nq (p2p_ok _ 3 3 _ false (proper_frame _ 3 3 P ltac:(lia) ltac:(lia)))) as (b & Eb & Sb & V).
  exists bitmap, im, g, nearest, b. split; [exact S|]. split; [exact E|]. split; [exact Eg|]. split; [exact Nr1|]. split; [rewrite Dg, Eb; reflexivity|].
  rewrite V by lia. cbn [get mk2 Nat.mul Nat.add]. rewrite !Q. destruct (G' 2%nat ltac:(lia)) as (-> & ->). rewrite Ex. unfold side, lo, hi. cbn [unit_extent a_kmin a_kmax nth].
  replace (_ / _ * (_ - 0)) with (INR 0) by (cbn; field). replace (_ / _ * (_ - 0)) with (INR 2) by (cbn; field). rewrite bilinear_lin, B. change (nrows bitmap) with 3%nat. change (ncols bitmap) with 3%nat. rewrite lin_int by lia. rewrite lin_int by lia. cbn. lra.
Qed.
Print Assumptions C57_forward_default_refuted.
Example C57_case : bitmap_of (of_rows 2 2 [[0; 1]; [1; 1]]) 2 2 /\ extent_arg_ok ENone /\ extent_arg_ok (EString "match") /\ extent_arg_ok (EBox unit_extent).
Proof. split; [reflexivity|]. split; [exact Logic.I|]. split; [reflexivity|]. apply (extent_proper ENone 2 2); try lia. exact Logic.I. Qed.

(** ** C58 *)

(** Finding: every image of more than one pixel raises, whatever the threshold: the last
    point of the box is one pixel past the image. *)
Lemma loop_index image threshold size pixels : forall acc, (exists x y, In (x, y) pixels /\ pixel_value image x y = Err IndexError) -> sample_loop image threshold size pixels acc = Err IndexError.
Proof.
  induction pixels as [|(a, b) l IH]; intros acc (x & y & I & E); [destruct I|]. cbn [sample_loop]. destruct (pixel_value image a b) as [v|e] eqn:Pv.
  - cbn [bind]. destruct I as [I|I]; [injection I as -> ->; congruence|]. destruct (Rltb v threshold); [apply IH; exists x, y; auto|]. destruct (Nat.ltb (length acc) size); [apply IH; exists x, y; auto|reflexivity].
  - cbn [bind]. unfold pixel_value in Pv. destruct (_ || _ || _ || _)%bool in Pv; congruence.
Qed.
Lemma image_box image h w : bitmap_of image h w -> init rgt [Num 0; Num (INR h); Num 0; Num (INR w)] [] = Ok (mkAABB 2 [0; 0] [INR h; INR w]) /\ valid_box (mkAABB 2 [0; 0] [INR h; INR w]).
Proof.
  intros _. pose proof (pos_INR h). pose proof (pos_INR w). split; [apply init_box; assumption|]. split; [split; reflexivity|]. intros [|[|c]] L; cbn in L; try lia; unfold lo, hi; cbn; assumption.
Qed.
Theorem C58_sampling_refuted : forall image h w threshold centered normalise, bitmap_of image h w -> (0 < h)%nat -> (0 < w)%nat -> (1 < h)%nat \/ (1 < w)%nat ->
  sample_from_greyscale image threshold centered normalise = Err IndexError.
Proof.
  intros image h w threshold centered normalise S H W D. assert (Nr : nrows image = h) by (unfold nrows; rewrite S; reflexivity). assert (Nc : ncols image = w) by (unfold ncols; rewrite S; reflexivity).
  unfold sample_from_greyscale. rewrite Nr, Nc. destruct (image_box image h w S) as (-> & V). cbn [bind].
  destruct (C46_count_grid _ [Z.of_nat h; Z.of_nat w] V ltac:(cbn; lia) eq_refl) as (v & E & Sv & _ & G & _); [constructor; [lia|constructor; [lia|constructor]]|]. rewrite E. cbn [bind]. cbn [map] in G, Sv. rewrite !Nat2Z.id in G, Sv.
  assert (Nv : nrows v = (h * w)%nat) by (unfold nrows; rewrite Sv; unfold tnth; cbn; lia). rewrite Nv. rewrite loop_index; [reflexivity|].
  assert (Last : forall i j, (i < h)%nat -> (j < w)%nat -> (i = h - 1 /\ 1 < h)%nat \/ (j = w - 1 /\ 1 < w)%nat -> pixel_value image (v @2 (ravel [h; w] [i; j]) (0%nat)) (v @2 (ravel [h; w] [i; j]) (1%nat)) = Err IndexError).
  { intros i j Li Lj C. rewrite !G by (cbn; lia). unfold pixel_value. rewrite Nr, Nc. destruct C as [(-> & C)|(-> & C)].
    - replace (grid_value _ _ 0 _) with (INR h). 2:{ unfold grid_value. cbn [nth tnth]. replace (Z.of_nat h =? 1)%Z with false by (symmetry; apply Z.eqb_neq; lia). unfold side, lo, hi. cbn [a_kmin a_kmax nth]. change (tnth [(h - 1)%nat; j] 0) with (h - 1)%nat. rewrite minus_IZR, <- INR_IZR_INZ, minus_INR by lia. apply lt_INR in C. cbn in *. field. lra. }
      rewrite Int_part_INR, Z.leb_refl, !Bool.orb_true_r. reflexivity.
    - replace (grid_value _ _ 1 _) with (INR w). 2:{ unfold grid_value. cbn [nth tnth]. replace (Z.of_nat w =? 1)%Z with false by (symmetry; apply Z.eqb_neq; lia). unfold side, lo, hi. cbn [a_kmin a_kmax nth]. change (tnth [i; (w - 1)%nat] 1) with (w - 1)%nat. rewrite minus_IZR, <- INR_IZR_INZ, minus_INR by lia. apply lt_INR in C. cbn in *. field. lra. }
      rewrite Int_part_INR, Z.leb_refl, !Bool.orb_true_r. reflexivity. }
  assert (Inn : forall i j, (i < h)%nat -> (j < w)%nat -> In (v @2 (ravel [h; w] [i; j]) (0%nat), v @2 (ravel [h; w] [i; j]) (1%nat)) (map (fun r => (v @2 r (0%nat), v @2 r (1%nat))) (seq 0 (h * w)))).
  { intros i j Li Lj. apply in_map_iff. exists (ravel [h; w] [i; j]). split; [reflexivity|]. apply in_seq. pose proof (ravel_lt [h; w] [i; j] ltac:(cbn; tauto)) as R. cbn in R |- *. nia. }
  destruct D as [D|D].
  - do 2 eexists. split; [apply (Inn (h - 1)%nat 0%nat); lia|]. apply Last; lia.
  - do 2 eexists. split; [apply (Inn 0%nat (w - 1)%nat); lia|]. apply Last; lia.
Qed.
Print Assumptions C58_sampling_refuted.
(** Images of one pixel give that pixel if it reaches the threshold, nothing otherwise. *)
Theorem C58_single_pixel : forall image threshold, bitmap_of image 1 1 ->
  exists pos alpha, sample_from_greyscale image threshold false false = Ok (pos, alpha) /\
  (image @2 (0%nat) (0%nat) < threshold -> shape pos = [0; 2]%nat /\ shape alpha = [0%nat]) /\
  (threshold <= image @2 (0%nat) (0%nat) -> shape pos = [1; 2]%nat /\ shape alpha = [1%nat] /\ pos @2 (0%nat) (0%nat) = 0 /\ pos @2 (0%nat) (1%nat) = 0 /\ alpha @1 (0%nat) = image @2 (0%nat) (0%nat)).
Proof.
  intros image threshold S. assert (Nr : nrows image = 1%nat) by (unfold nrows; rewrite S; reflexivity). assert (Nc : ncols image = 1%nat) by (unfold ncols; rewrite S; reflexivity).
  unfold sample_from_greyscale. rewrite Nr, Nc. destruct (image_box image 1 1 S) as (-> & V). cbn [bind].
  destruct (C46_count_grid _ [Z.of_nat 1; Z.of_nat 1] V ltac:(cbn; lia) eq_refl) as (v & E & Sv & _ & G & _); [constructor; [lia|constructor; [lia|constructor]]|]. rewrite E. cbn [bind]. cbn [map] in G, Sv. rewrite !Nat2Z.id in G, Sv.
  assert (Nv : nrows v = 1%nat) by (unfold nrows; rewrite Sv; reflexivity). rewrite Nv. cbn [seq map]. pose proof (G [0; 0]%nat 0%nat ltac:(cbn; lia) ltac:(cbn; lia)) as G0. pose proof (G [0; 0]%nat 1%nat ltac:(cbn; lia) ltac:(cbn; lia)) as G1. cbn in G0, G1. rewrite G0, G1. unfold lo. cbn [a_kmin nth].
  assert (Pv : pixel_value image 0 0 = Ok (image @2 (0%nat) (0%nat))). { unfold pixel_value. pose proof (Int_part_INR 0) as I0. cbn [INR] in I0. rewrite I0, Nr, Nc. reflexivity. }
  cbn [sample_loop]. rewrite Pv. cbn [bind]. unfold above. rewrite Nr, Nc. cbn [Nat.mul Nat.add seq filter]. change (0 / 1)%nat with 0%nat. change (0 mod 1)%nat with 0%nat. destruct (Rltb (image @2 (0%nat) (0%nat)) threshold) eqn:T.
  - apply Rltb_true in T. replace (Rleb threshold _) with false by (symmetry; apply Rleb_false; exact T). cbn. do 2 eexists. split; [reflexivity|]. split; [intros _; split; reflexivity|intros; lra].
  - apply Rltb_false in T. replace (Rleb threshold _) with true by (symmetry; apply Rleb_true; exact T). cbn. do 2 eexists. split; [reflexivity|]. split; [intros; lra|]. intros _. repeat split; reflexivity.
Qed.
Print Assumptions C58_single_pixel.
(** Centred positions and normalised weights, whenever there is a result. *)
Theorem C58_centred_and_normalised : forall image threshold pos alpha n, sample_from_greyscale image threshold false false = Ok (pos, alpha) -> shape alpha = [n] ->
  forall centered normalise, exists pos' alpha', sample_from_greyscale image threshold centered normalise = Ok (pos', alpha') /\ shape pos' = shape pos /\ shape alpha' = shape alpha /\
  (centered = true -> (0 < n)%nat -> forall c, (c < 2)%nat -> rsum n (fun r => pos' @2 r c) = 0 /\ forall r s, (r < n)%nat -> (s < n)%nat -> pos' @2 r c - pos' @2 s c = pos @2 r c - pos @2 s c) /\
  (centered = false -> pos' = pos) /\
  (normalise = true -> rsum n (fun r => alpha @1 r) <> 0 -> rsum n (fun r => alpha' @1 r) = 1 /\ forall r, (r < n)%nat -> alpha' @1 r * rsum n (fun k => alpha @1 k) = alpha @1 r) /\
  (normalise = false -> alpha' = alpha).
Proof.
  intros image threshold pos alpha n E Sa centered normalise. unfold sample_from_greyscale in *. destruct (init _ _ _) as [b|] eqn:E1; [|discriminate E]. cbn [bind] in *. destruct (fill_count _ _) as [px|]; [|discriminate E]. cbn [bind] in *. destruct (sample_loop _ _ _ _ _) as [found|]; [|discriminate E]. cbn [bind] in *.
  injection E as <- <-. cbn [shape mk1] in Sa. injection Sa as <-. set (size := above image threshold). do 2 eexists. split; [reflexivity|]. split; [destruct centered; reflexivity|]. split; [destruct normalise; reflexivity|]. split; [|split; [intros ->; reflexivity|split; [|intros ->; reflexivity]]].
  - intros -> Hn c Lc. cbn [get mk2]. split; [|intros; ring]. set (f := fun r => match c with 0%nat => fst (fst (nth r found (0, 0, 0))) | _ => snd (fst (nth r found (0, 0, 0))) end).
    change (rsum size (fun r => f r - rsum size f / INR size) = 0). unfold Rminus. rewrite rsum_plus, rsum_const. apply lt_INR in Hn. cbn in Hn. field. lra.
  - intros -> Hs. cbn [get mk1] in *. split; [|intros; field; exact Hs]. unfold Rdiv. rewrite rsum_scal_r. apply Rinv_r. exact Hs.
Qed.
Print Assumptions C58_centred_and_normalised.
Example C58_case : bitmap_of (of_rows 2 2 [[0; 1]; [1; 1]]) 2 2 /\ bitmap_of (of_rows 1 1 [[1]]) 1 1.
Proof. split; reflexivity. Qed.

(** ** C67 *)

(** The true entries of a mask, each once, in row-major order. *)
Theorem C67_mask_indices : forall sh mask,
  (forall idx, In idx (mask_to_indices sh mask) <-> valid sh idx /\ mask idx = true) /\ NoDup (mask_to_indices sh mask) /\
  StronglySorted (fun a b => (ravel sh a < ravel sh b)%nat) (mask_to_indices sh mask).
Proof.
  intros sh mask. unfold mask_to_indices.
  assert (So : StronglySorted (fun a b => (ravel sh a < ravel sh b)%nat) (filter mask (map (unravel sh) (seq 0 (prod sh))))).
  { assert (G : forall n s, (s + n <= prod sh)%nat -> StronglySorted (fun a b => (ravel sh a < ravel sh b)%nat) (filter mask (map (unravel sh) (seq s n)))).
    { induction n as [|n IH]; intros s L; [constructor|]. cbn [seq map filter]. specialize (IH (Datatypes.S s) ltac:(lia)). destruct (mask (unravel sh s)); [|exact IH]. constructor; [exact IH|]. apply Forall_forall. intros x I. apply filter_In in I. destruct I as (I & _). apply in_map_iff in I. destruct I as (k & <- & I). apply in_seq in I. rewrite !ravel_unravel by lia. lia. }
    apply G. lia. }
  split; [|split; [|exact So]].
  - intros idx. rewrite filter_In, in_map_iff. split.
    + intros ((r & <- & I) & M). apply in_seq in I. split; [apply valid_unravel; lia|exact M].
    + intros (V & M). split; [|exact M]. exists (ravel sh idx). split; [apply unravel_ravel; exact V|]. apply in_seq. pose proof (ravel_lt sh idx V). lia.
  - revert So. generalize (filter mask (map (unravel sh) (seq 0 (prod sh)))). induction l as [|a l IH]; intros So; [constructor|]. apply StronglySorted_inv in So. destruct So as (So & F). constructor; [|apply IH, So]. intros I. rewrite Forall_forall in F. specialize (F a I). lia.
Qed.
Print Assumptions C67_mask_indices.
(** Loaded images are inverted; the first row of the result is the last of the file unless the
    origin is 'upper'; colour images give their first channel. *)
Theorem C67_greyscale : forall image h w, shape image = [h; w] \/ (exists n, shape image = [h; w; n]) ->
  let value := fun i j => match shape image with [_; _] => image @2 i j | _ => image @3 i j (0%nat) end in
  (exists u, load_greyscale_image image "upper" = Ok u /\ shape u = [h; w] /\ forall i j, (i < h)%nat -> (j < w)%nat -> u @2 i j = 1 - value i j) /\
  (exists l, load_greyscale_image image "lower" = Ok l /\ shape l = [h; w] /\ forall i j, (i < h)%nat -> (j < w)%nat -> l @2 i j = 1 - value (h - 1 - i)%nat j) /\
  (forall o, o <> "upper"%string -> o <> "lower"%string -> load_greyscale_image image o = Err RuntimeError).
Proof.
  intros image h w S. assert (Eo : forall o, o <> "upper"%string -> o <> "lower"%string -> load_greyscale_image image o = Err RuntimeError).
  { intros o O1 O2. unfold load_greyscale_image. apply String.eqb_neq in O1, O2. rewrite O1, O2. reflexivity. }
  destruct S as [S|(n & S)]; cbv zeta; unfold load_greyscale_image at 1 2; rewrite S; cbn; (split; [eexists; split; [reflexivity|]; split; [reflexivity|]; reflexivity|]); (split; [eexists; split; [reflexivity|]; split; [reflexivity|]; reflexivity|]); exact Eo.
Qed.
Print Assumptions C67_greyscale.
Theorem C67_other_images : forall image origin, origin = "upper"%string \/ origin = "lower"%string -> length (shape image) <> 2%nat -> length (shape image) <> 3%nat -> load_greyscale_image image origin = Err NotImplementedError.
Proof.
  intros image origin O N2 N3. unfold load_greyscale_image. replace (negb _) with false by (destruct O as [-> | ->]; reflexivity). destruct (shape image) as [|a [|b [|c [|d l]]]]; cbn in *; try reflexivity; lia.
Qed.
Print Assumptions C67_other_images.
Example C67_case : mask_to_indices [2; 2]%nat (fun idx => Nat.eqb (tnth idx 1) 1) = [[0; 1]; [1; 1]]%nat.
Proof. reflexivity. Qed.
