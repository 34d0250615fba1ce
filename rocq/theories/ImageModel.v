(** Model of imodal/Utilities/sampling.py and imodal/Models/deformable_image2d.py. *)
From Coq Require Import Reals String List Arith ZArith.
From Verif Require Import Py Tensor KernelModel FieldModel Fl UtilModel AabbModel.
Import ListNotations.
Open Scope R_scope.
Open Scope list_scope.

(** ** sampling.py *)

(** load_greyscale_image, 11-43: [image] is the array read by matplotlib, of 2 or 3 axes. *)
Definition flip0 (t : tensor) : tensor := mk2 (nrows t) (ncols t) (fun i j => t @2 (nrows t - 1 - i)%nat j).
Definition load_greyscale_image (image : tensor) (origin : string) : res tensor :=
  if negb (String.eqb origin "upper" || String.eqb origin "lower")%bool then Err RuntimeError
  else let set_origin := fun b => if String.eqb origin "upper" then b else flip0 b in
       match shape image with
       | [h; w] => Ok (set_origin (mk2 h w (fun i j => 1 - image @2 i j)))
       | [h; w; _] => Ok (set_origin (mk2 h w (fun i j => 1 - image @3 i j (0%nat))))
       | _ => Err NotImplementedError
       end.

(** sample_from_greyscale, 46-102.  [pos] and [alpha] have as many rows as there are pixels
    above the threshold; assigning beyond them raises, like indexing outside of the image.
    A negative index counts from the end (none occurs: coordinates are at least 0). *)
Definition above (image : tensor) (threshold : R) : nat :=
  length (filter (fun r => Rleb threshold (image @2 (r / ncols image)%nat (r mod ncols image)%nat)) (seq 0 (nrows image * ncols image))).
Definition pixel_value (image : tensor) (x y : R) : res R :=
  let i := Int_part x in let j := Int_part y in
  if (Z.ltb i 0 || Z.ltb j 0 || Z.leb (Z.of_nat (nrows image)) i || Z.leb (Z.of_nat (ncols image)) j)%bool then Err IndexError
  else Ok (image @2 (Z.to_nat i) (Z.to_nat j)).
Fixpoint sample_loop (image : tensor) (threshold : R) (size : nat) (pixels : list (R * R)) (acc : list (R * R * R)) : res (list (R * R * R)) :=
  match pixels with
  | [] => Ok acc
  | (x, y) :: pixels' =>
      value <- pixel_value image x y ;;
      if Rltb value threshold then sample_loop image threshold size pixels' acc
      else if Nat.ltb (length acc) size then sample_loop image threshold size pixels' (acc ++ [(x, y, value)])
      else Err IndexError
  end.
Definition sample_from_greyscale (image : tensor) (threshold : R) (centered normalise_weights : bool) : res (tensor * tensor) :=
  let size := above image threshold in
  b <- init rgt [Num 0; Num (INR (nrows image)); Num 0; Num (INR (ncols image))] [] ;;
  pixels <- fill_count b (CList [Z.of_nat (nrows image); Z.of_nat (ncols image)]) ;;
  found <- sample_loop image threshold size (map (fun r => (pixels @2 r (0%nat), pixels @2 r (1%nat))) (seq 0 (nrows pixels))) [] ;;
  let pos := mk2 size 2 (fun r c => let x := nth r found (0, 0, 0) in match c with 0%nat => fst (fst x) | _ => snd (fst x) end) in
  let alpha := mk1 size (fun r => snd (nth r found (0, 0, 0))) in
  let pos := if centered then mk2 size 2 (fun r c => pos @2 r c - rsum size (fun k => pos @2 k c) / INR size) else pos in
  let alpha := if normalise_weights then mk1 size (fun r => alpha @1 r / rsum size (fun k => alpha @1 k)) else alpha in
  Ok (pos, alpha).

(** mask_to_indices, 112-114: the index tuples of the true entries. *)
Definition mask_to_indices (sh : list nat) (mask : list nat -> bool) : list (list nat) :=
  filter mask (map (unravel sh) (seq 0 (prod sh))).

(** [torch.clamp] of an integer *)
Definition clamp (x lo hi : Z) : Z := Z.min (Z.max x lo) hi.

(** deformed_intensities, 117-140, at pixel coordinates u (row), v (column). *)
Definition bilinear (I : tensor) (u v : R) : R :=
  let px := fun a b => I @2 (Z.to_nat a) (Z.to_nat b) in
  let u1 := clamp (Int_part u) 0 (Z.of_nat (nrows I) - 1) in
  let v1 := clamp (Int_part v) 0 (Z.of_nat (ncols I) - 1) in
  let u2 := clamp (u1 + 1) 0 (Z.of_nat (nrows I) - 1) in
  let v2 := clamp (v1 + 1) 0 (Z.of_nat (ncols I) - 1) in
  let fu := u - IZR u1 in let fv := v - IZR v1 in
  let gu := IZR (u1 + 1) - u in let gv := IZR (v1 + 1) - v in
  px u1 v1 * gu * gv + px u1 v2 * gu * fv + px u2 v1 * fu * gv + px u2 v2 * fu * fv.
Definition deformed_intensities (points I : tensor) (e : box) : res tensor :=
  uv <- points2pixels points (nrows I) (ncols I) e false ;;
  if Nat.eqb (nrows points) (nrows I * ncols I)
  then Ok (reshape [nrows I; ncols I] (mk1 (nrows points) (fun r => bilinear I (uv @2 r (0%nat)) (uv @2 r (1%nat)))))
  else Err RuntimeError.

(** points2voxels_affine, usefulfunctions.py 186-192, without [toindices]. *)
Definition points2voxels_affine (points affine : tensor) : tensor := apply_linear_transform_3d points affine.

(** deformed_intensities3d, 143-177 *)
Definition trilinear (I : tensor) (u v w : R) : R :=
  let px := fun a b c => I @3 (Z.to_nat a) (Z.to_nat b) (Z.to_nat c) in
  let n0 := Z.of_nat (tnth (shape I) 0) in let n1 := Z.of_nat (tnth (shape I) 1) in let n2 := Z.of_nat (tnth (shape I) 2) in
  let u1 := clamp (Int_part u) 0 (n0 - 1) in let v1 := clamp (Int_part v) 0 (n1 - 1) in let w1 := clamp (Int_part w) 0 (n2 - 1) in
  let u2 := clamp (u1 + 1) 0 (n0 - 1) in let v2 := clamp (v1 + 1) 0 (n1 - 1) in let w2 := clamp (w1 + 1) 0 (n2 - 1) in
  let fu := u - IZR u1 in let fv := v - IZR v1 in let fw := w - IZR w1 in
  let gu := IZR (u1 + 1) - u in let gv := IZR (v1 + 1) - v in let gw := IZR (w1 + 1) - w in
  px u1 v1 w1 * gu * gv * gw + px u1 v1 w2 * gu * gv * fw + px u1 v2 w1 * gu * fv * gw + px u1 v2 w2 * gu * fv * fw +
  px u2 v1 w1 * fu * gv * gw + px u2 v1 w2 * fu * gv * fw + px u2 v2 w1 * fu * fv * gw + px u2 v2 w2 * fu * fv * fw.
Definition deformed_intensities3d (points I affine : tensor) : res tensor :=
  let uvw := points2voxels_affine points affine in
  if Nat.eqb (nrows points) (prod (shape I))
  then Ok (reshape (shape I) (mk1 (nrows points) (fun r => trilinear I (uvw @2 r (0%nat)) (uvw @2 r (1%nat)) (uvw @2 r (2%nat)))))
  else Err RuntimeError.

(** ** deformable_image2d.py, for bitmaps with two axes *)

Inductive extent_arg := ENone | EString (s : string) | EBox (b : box).
Record image := mkImage { im_bitmap : tensor; im_backward : bool; im_output : string; im_pixel_extent : box; im_extent : box; im_points : tensor }.
Definition im_rows (im : image) : nat := nrows (im_bitmap im).
Definition im_cols (im : image) : nat := ncols (im_bitmap im).

(** [extent.fill_count(shape)] *)
Definition fill_shape (b : box) (bitmap : tensor) : res tensor := fill_count b (CList [Z.of_nat (nrows bitmap); Z.of_nat (ncols bitmap)]).

(** __init__, 12-50.  A string other than 'match' is kept as the extent and has no
    fill_count. *)
Definition image_init (bitmap : tensor) (output : string) (backward : bool) (e : extent_arg) : res image :=
  _ <- py_assert (String.eqb output "bitmap" || String.eqb output "points") ;;
  _ <- match e with EBox b => if Nat.eqb (a_dim b) 2 then Ok tt else Err RuntimeError | _ => Ok tt end ;;
  pixel_extent <- init rgt [Num 0; Num (INR (ncols bitmap) - 1); Num 0; Num (INR (nrows bitmap) - 1)] [] ;;
  extent <- match e with
            | ENone => init rgt [Num 0; Num 1; Num 0; Num 1] []
            | EString s => if String.eqb s "match" then Ok pixel_extent else Err AttributeError
            | EBox b => Ok b
            end ;;
  pts <- fill_shape extent bitmap ;;
  pixel_points <- pixels2points pts (nrows bitmap) (ncols bitmap) extent ;;
  Ok (mkImage bitmap backward output pixel_extent extent pixel_points).

(** [self.__bitmap.flatten()/torch.sum(self.__bitmap)] *)
Definition total (t : tensor) : R := rsum (prod (shape t)) (fun r => get t (unravel (shape t) r)).
Definition weights_of (t : tensor) : tensor := mk1 (prod (shape t)) (fun r => get t (unravel (shape t) r) / total t).

(** geometry, 61-68 *)
Definition geometry (im : image) : res (list tensor) :=
  if String.eqb (im_output im) "bitmap" then Ok [im_bitmap im]
  else if String.eqb (im_output im) "points" then Ok [im_points im; weights_of (im_bitmap im)]
  else Err ValueError.

(** _backward_module, 101-103: the points of the pixels. *)
Definition pixel_grid (im : image) : res tensor :=
  pts <- fill_shape (im_pixel_extent im) (im_bitmap im) ;;
  pixels2points pts (im_rows im) (im_cols im) (im_extent im).

(** _to_deformed, 105-159.  [nearest] is the index returned by topk for each pixel.  The grids
    of vec2grid are written with row-major positions; a zero step (division by zero) is not
    modelled; torch.inverse raises on a singular matrix. *)
Definition interior (h w i j : nat) : bool := (Nat.leb 1 i && Nat.ltb i (h - 1) && Nat.leb 1 j && Nat.ltb j (w - 1))%bool.
Definition jacobian (h w : nat) (step : R) (gd : tensor) (i j a b : nat) : R :=
  match b with
  | 0%nat => if Nat.ltb j (w - 1) then (gd @2 (i * w + (j + 1))%nat a - gd @2 (i * w + j)%nat a) / step else 0
  | _ => if Nat.ltb i (h - 1) then (gd @2 ((i + 1) * w + j)%nat a - gd @2 (i * w + j)%nat a) / step else 0
  end.
Definition det22 (m : nat -> nat -> R) : R := m 0%nat 0%nat * m 1%nat 1%nat - m 0%nat 1%nat * m 1%nat 0%nat.
Definition inv22 (m : nat -> nat -> R) (a b : nat) : R :=
  match a, b with
  | 0%nat, 0%nat => m 1%nat 1%nat / det22 m
  | 0%nat, _ => - m 0%nat 1%nat / det22 m
  | _, 0%nat => - m 1%nat 0%nat / det22 m
  | _, _ => m 0%nat 0%nat / det22 m
  end.
Definition invert_grid (h w : nat) (grid gd : tensor) (nearest : nat -> nat) : res tensor :=
  let step := sqrt (rsum 2 (fun a => (grid @2 (0%nat) a - grid @2 (1%nat) a) ^ 2)) in
  let singular := existsb (fun r => interior h w (r / w) (r mod w) && Reqb (det22 (jacobian h w step gd (r / w) (r mod w))) 0)%bool (seq 0 (h * w)) in
  if singular then Err RuntimeError else
  let diff_inv := fun r a b => if interior h w (r / w) (r mod w) then inv22 (jacobian h w step gd (r / w) (r mod w)) a b else 0 in
  let correction := fun r k => rsum 2 (fun l => diff_inv (nearest r) k l * (grid @2 r l - gd @2 (nearest r) l)) in
  Ok (mk2 (h * w) 2 (fun r k => grid @2 (nearest r) k + (if interior h w (r / w) (r mod w) then correction r k else 0))).
Definition to_deformed (im : image) (gd : tensor) (nearest : nat -> nat) : res (list tensor) :=
  gd <- (if im_backward im then Ok gd
         else grid <- pixel_grid im ;; invert_grid (im_rows im) (im_cols im) grid gd nearest) ;;
  if String.eqb (im_output im) "bitmap" then
    b <- deformed_intensities gd (im_bitmap im) (im_extent im) ;; Ok [b]
  else if String.eqb (im_output im) "points" then
    b <- deformed_intensities gd (im_bitmap im) (im_extent im) ;; Ok [gd; weights_of b]
  else Err ValueError.
