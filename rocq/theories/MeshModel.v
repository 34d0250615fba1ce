(** Model of imodal/Utilities/meshutils.py.

    Points are tensors of shape (N, 2) (or (N, 3)), vectors tensors of shape (d).
    Boolean tensors are lists of booleans; index tensors are lists.  Keyword arguments are
    options: None when the keyword is absent.  Left out: extract_convex_hull and the
    branch of area_convex_shape for points of dimension 3, which call scipy ([delaunay]
    and [hull] below stand for them). *)
From Coq Require Import Reals List Arith ZArith.
From Verif Require Import Py Tensor KernelModel FieldModel Fl.
Import ListNotations.
Open Scope R_scope.

(** torch.sign *)
Definition rsign (x : R) : Z := if Rltb 0 x then 1%Z else if Rltb x 0 then (-1)%Z else 0%Z.

(** torch.dist(a, b) of two vectors. *)
Definition vdist (a b : tensor) : R := sqrt (rsum (tnth (shape a) 0) (fun c => (a @1 c - b @1 c) ^ 2)).

(** [points.unsqueeze(0)] when points.dim() == 1 *)
Definition as_rows (points : tensor) : tensor :=
  match shape points with
  | [d] => mk2 1 d (fun _ c => points @1 c)
  | _ => points
  end.

(** ** The separation line, area_side, 10-66 *)

(** The keywords origin, direction, p0, p1 (37-46, 324-333). *)
Record line := mkLine { ln_origin : option tensor; ln_direction : option tensor; ln_p0 : option tensor; ln_p1 : option tensor }.
Definition line_points (l : line) : res (tensor * tensor) :=
  match ln_origin l, ln_direction l with
  | Some o, Some d => Ok (o, tadd o d)
  | _, _ => match ln_p0 l, ln_p1 l with
            | Some p0, Some p1 => Ok (p0, p1)
            | _, _ => Err RuntimeError
            end
  end.
Definition through (p0 p1 : tensor) : line := mkLine None None (Some p0) (Some p1).

(** 59: the sign of the cross product. *)
Definition side_sign (p0 p1 : tensor) (x y : R) : Z :=
  rsign ((p1 @1 (0%nat) - p0 @1 (0%nat)) * (y - p0 @1 (1%nat)) - (p1 @1 (1%nat) - p0 @1 (1%nat)) * (x - p0 @1 (0%nat))).

Definition area_side (points : tensor) (l : line) (side : option Z) (intersect : option bool) : res (list bool) :=
  ' (p0, p1) <- line_points l ;;
  let side := match side with Some s => s | None => 1%Z end in
  let intersect := match intersect with Some b => b | None => false end in
  let pts := as_rows points in
  Ok (map (fun i => let result := side_sign p0 p1 (pts @2 i (0%nat)) (pts @2 i (1%nat)) in
                    if intersect then (Z.eqb result side || Z.eqb result 0)%bool else Z.eqb result side)
          (seq 0 (nrows pts))).

(** [if area_side(point, ...)] for one point. *)
Definition the_bool (r : res (list bool)) : res bool :=
  l <- r ;; match l with [b] => Ok b | _ => Err RuntimeError end.

(** close_shape, 355-368: [shape[0, :]] raises when there is no vertex. *)
Definition close_shape (s : tensor) : res tensor :=
  if Nat.eqb (nrows s) 0 then Err IndexError
  else Ok (mk2 (nrows s + 1) (ncols s) (fun i c => if Nat.ltb i (nrows s) then s @2 i c else s @2 (0%nat) c)).

(** is_shape_closed, 371-385 *)
Definition is_shape_closed (s : tensor) : res bool :=
  if Nat.eqb (nrows s) 0 then Err IndexError
  else Ok (forallb (fun c => Reqb (s @2 (0%nat) c) (s @2 (nrows s - 1)%nat c)) (seq 0 (ncols s))).

(** point_side, 414-431 *)
Definition point_side (point p0 p1 : tensor) : Z := side_sign p0 p1 (point @1 (0%nat)) (point @1 (1%nat)).

(** ** area_convex_shape, 105-157 *)

Section Scipy.
Variable delaunay : tensor -> tensor -> res (list bool).   (* 139-141 *)
Variable hull : tensor -> res tensor.                      (* extract_convex_hull, 2D *)

(** 150-156: is the point on the wrong side of some edge j, j+1, ...? *)
Fixpoint some_edge (closed point : tensor) (side : Z) (intersect : bool) (j n : nat) : res bool :=
  match n with
  | O => Ok false
  | S n' =>
      b <- the_bool (area_side point (through (row closed j) (row closed (j + 1))) (Some side) (Some (negb intersect))) ;;
      if b then Ok true else some_edge closed point side intersect (S j) n'
  end.

Definition area_convex_shape (points : tensor) (shape : option tensor) (side : option Z) (intersect : option bool)
  : res (list bool) :=
  match shape with
  | None => Err RuntimeError
  | Some s =>
      let intersect := match intersect with Some b => b | None => false end in
      match Tensor.shape points with
      | [n; d] =>
          if Nat.eqb d 3 then delaunay s points
          else
            _ <- match side with
                 | Some sd => if (Z.eqb sd (-1) || Z.eqb sd 1)%bool then Ok tt else Err RuntimeError
                 | None => Ok tt
                 end ;;
            let side := match side with Some sd => sd | None => 1%Z end in
            closed <- close_shape s ;;
            mapM (fun i => b <- some_edge closed (row points i) side intersect 0 (nrows s) ;; Ok (negb b)) (seq 0 n)
      | _ => Err IndexError
      end
  end.

(** area_convex_hull, 69-102, for a scatter of dimension 2. *)
Definition area_convex_hull (points : tensor) (scatter : option tensor) (intersect : option bool) : res (list bool) :=
  match scatter with
  | None => Err RuntimeError
  | Some s => h <- hull s ;;
              area_convex_shape points (Some h) (Some (-1)%Z) (Some (match intersect with Some b => b | None => false end))
  end.
End Scipy.

(** ** Winding order, 434-466, area_shape, 160-197 *)

Definition wn_edge (point shape : tensor) (side : Z) (i : nat) (wn : Z) : res Z :=
  let p := row shape i in
  let q := row shape (i + 1) in
  if Rleb (p @1 (1%nat)) (point @1 (1%nat)) then
    if Rltb (point @1 (1%nat)) (q @1 (1%nat)) then
      (b <- the_bool (area_side point (through p q) (Some side) None) ;; Ok (if b then (wn + 1)%Z else wn))
    else Ok wn
  else
    if Rleb (q @1 (1%nat)) (point @1 (1%nat)) then
      (b <- the_bool (area_side point (through p q) (Some (- side)%Z) None) ;; Ok (if b then (wn - 1)%Z else wn))
    else Ok wn.

Fixpoint wn_loop (point shape : tensor) (side : Z) (i n : nat) (wn : Z) : res Z :=
  match n with
  | O => Ok wn
  | S n' => wn1 <- wn_edge point shape side i wn ;; wn_loop point shape side (S i) n' wn1
  end.

Definition winding_order (point shape : tensor) (side : Z) : res Z :=
  wn_loop point shape side 0 (nrows shape - 1) 0.

Definition area_shape (points : tensor) (shape : option tensor) (side : option Z) : res (list bool) :=
  match shape with
  | None => Err RuntimeError
  | Some s =>
      closed <- close_shape s ;;
      let side := match side with Some sd => sd | None => 1%Z end in
      mapM (fun i => w <- winding_order (row points i) closed side ;; Ok (negb (Z.eqb w 0))) (seq 0 (nrows points))
  end.

(** ** Segments: distance_segment, 388-411, area_segment, 303-352 *)

Definition distance_segment (point p0 p1 : tensor) : R :=
  let dist := vdist p0 p1 ^ 2 in
  if Reqb dist 0 then vdist p0 point
  else
    let t := Rmax 0 (Rmin 1 (rsum (tnth (shape point) 0) (fun c => (point @1 c - p0 @1 c) * (p1 @1 c - p0 @1 c)) / dist)) in
    vdist point (tadd p0 (tscal t (tsub p1 p0))).

Definition area_segment (points : tensor) (l : line) (width : option R) : res (list bool) :=
  ' (p0, p1) <- line_points l ;;
  match width with
  | None => Err RuntimeError
  | Some w => let pts := as_rows points in
              Ok (map (fun i => Rleb (distance_segment (row pts i) p0 p1) w) (seq 0 (nrows pts)))
  end.

(** area_polyline_outline, 200-244 *)
Fixpoint near_edge (polyline point : tensor) (width : R) (j n : nat) : res bool :=
  match n with
  | O => Ok false
  | S n' =>
      b <- the_bool (area_segment point (through (row polyline j) (row polyline (j + 1))) (Some width)) ;;
      if b then Ok true else near_edge polyline point width (S j) n'
  end.

Definition area_polyline_outline (points : tensor) (polyline : option tensor) (width : option R) (close : option bool)
  : res (list bool) :=
  match polyline with
  | None => Err RuntimeError
  | Some p =>
      let width := match width with Some w => w | None => 0 end in
      p <- (if match close with Some b => b | None => false end then close_shape p else Ok p) ;;
      mapM (fun i => near_edge p (row points i) width 0 (nrows p - 1)) (seq 0 (nrows points))
  end.

(** area_disc, 247-277 *)
Definition area_disc (points : tensor) (center : option tensor) (radius : option R) : res (list bool) :=
  match center with
  | None => Err RuntimeError
  | Some c =>
      match radius with
      | None => Err RuntimeError
      | Some r => Ok (map (fun i => Rleb (sqrt (rsum (ncols points) (fun a => (points @2 i a - c @1 a) ^ 2))) r)
                          (seq 0 (nrows points)))
      end
  end.

(** ** Meshes and smoothing *)

(** [torch.cross(a, b)] of two tensors of shape (N, 3) without the argument dim: along
    the first axis of length 3, which is axis 0 when N = 3. *)
Definition nx3 (i : nat) : nat := ((i + 1) mod 3)%nat.
Definition cross (a b : tensor) : tensor :=
  if Nat.eqb (nrows a) 3
  then mk2 3 (ncols a) (fun i c => a @2 (nx3 i) c * b @2 (nx3 (nx3 i)) c - a @2 (nx3 (nx3 i)) c * b @2 (nx3 i) c)
  else mk2 (nrows a) 3 (fun i c => a @2 i (nx3 c) * b @2 i (nx3 (nx3 c)) - a @2 i (nx3 (nx3 c)) * b @2 i (nx3 c)).

Definition face := (nat * nat * nat)%type.
Definition corner (k : nat) (f : face) : nat :=
  let '(a, b, c) := f in match k with 0%nat => a | 1%nat => b | _ => c end.

(** [vertices.index_select(0, faces[:, k])] *)
Definition select_corner (vertices : tensor) (faces : list face) (k : nat) : res tensor :=
  if forallb (fun f => Nat.ltb (corner k f) (nrows vertices)) faces
  then Ok (mk2 (length faces) (ncols vertices) (fun i c => vertices @2 (corner k (nth i faces (0, 0, 0)%nat)) c))
  else Err IndexError.

(** compute_centers_normals_lengths, 610-618 *)
Definition compute_centers_normals_lengths (vertices : tensor) (faces : list face) : res (tensor * tensor * tensor) :=
  v0 <- select_corner vertices faces 0 ;;
  v1 <- select_corner vertices faces 1 ;;
  v2 <- select_corner vertices faces 2 ;;
  let centers := tscal (1/2) (tadd (tadd v0 v1) v2) in
  let normals := tscal (1/2) (cross (tsub v1 v0) (tsub v2 v0)) in
  let lengths := mk2 (nrows normals) 1 (fun i _ => sqrt (rsum (ncols normals) (fun c => normals @2 i c ^ 2))) in
  Ok (centers, normals, lengths).

(** kernel_smooth, 621-626, gaussian_kernel_smooth, 629-633 (row sums that are zero are
    left out). *)
Definition kernel_smooth (points : tensor) (kernel : tensor -> tensor -> tensor) : tensor :=
  let K := kernel points points in
  let p := mm K points in
  mk2 (nrows p) (ncols p) (fun i c => p @2 i c / rsum (ncols K) (fun j => K @2 i j)).
Definition gaussian_kernel_smooth (points : tensor) (sigma : R) : tensor :=
  kernel_smooth points (fun x y => K_xy x y sigma).

(** ** resample_curve, 636-661 *)

(** [curve[k]] *)
Definition vertex (curve : tensor) (k : nat) : res tensor :=
  if Nat.ltb k (nrows curve) then Ok (row curve k) else Err IndexError.

(** 650-659; [lengths] has one entry per edge. *)
Fixpoint resample_loop (curve : tensor) (nl : nat) (lengths : nat -> R) (interval cur : R) (li : nat) (p0 p1 : tensor) (n : nat)
  : res (list tensor) :=
  match n with
  | O => Ok []
  | S n' =>
      len <- (if Nat.ltb li nl then Ok (lengths li) else Err IndexError) ;;
      let t := (cur - rsum (min li nl) lengths) * len in
      let out := tsub (tscal t p1) p0 in
      let cur1 := cur + interval in
      ' (li1, p01, p11) <-
        (if Rleb (rsum (min li nl) lengths) cur1
         then (q <- vertex curve (li + 2) ;; Ok (S li, p1, q))
         else Ok (li, p0, p1)) ;;
      rest <- resample_loop curve nl lengths interval cur1 li1 p01 p11 n' ;;
      Ok (out :: rest)
  end.

(** The result is the list of its rows ([close_shape(curve)[:-2]] is the curve without its
    last vertex). *)
Definition resample_curve (curve : tensor) (density : R) : res (list tensor) :=
  let n := nrows curve in
  if Nat.leb n 1 then Ok (map (row curve) (seq 0 n))
  else
    let nl := (n - 1)%nat in
    let lengths := fun i => vdist (row curve (i + 1)) (row curve i) in
    let length := rsum nl lengths in
    if Reqb density 0 then Err ZeroDivisionError
    else
      let count := Int_part (length * density) in
      if Z.ltb count 0 then Err RuntimeError
      else resample_loop curve nl lengths (1 / density) 0 0 (row curve 0) (row curve 1) (Z.to_nat count).
