(** Model of imodal/Utilities/meshgen.py. *)
From Coq Require Import Reals List Arith ZArith Bool.
From Verif Require Import Py RSum Tensor KernelModel FieldModel Fl UtilModel AabbModel.
Import ListNotations.
Open Scope R_scope.
Open Scope list_scope.

(** Python's slice bounds on an axis of n entries: negative bounds count from the end, bounds
    outside of the axis are clipped. *)
Definition slice_bound (n : nat) (a : Z) : nat :=
  Z.to_nat (if Z.ltb a 0 then Z.max 0 (a + Z.of_nat n) else Z.min a (Z.of_nat n)).
(** [t[a:b, c] = v]: v has the length of the slice, or one entry (then repeated). *)
Definition set_slice (t : tensor) (a b : Z) (c : nat) (v : tensor) : res tensor :=
  let s := slice_bound (nrows t) a in let e := slice_bound (nrows t) b in
  if (Nat.eqb (nrows v) (e - s) || Nat.eqb (nrows v) 1)%bool
  then Ok (mk2 (nrows t) (ncols t) (fun r k => if (Nat.eqb k c && Nat.leb s r && Nat.ltb r e)%bool then v @1 (if Nat.eqb (nrows v) 1 then 0%nat else (r - s)%nat) else t @2 r k))
  else Err RuntimeError.
(** [v[1:]], [v[:-1]], [torch.zeros(n, 2)], [x*torch.ones(n)] *)
Definition tail1 (v : tensor) : tensor := mk1 (nrows v - 1) (fun i => v @1 (Datatypes.S i)).
Definition init1 (v : tensor) : tensor := mk1 (nrows v - 1) (fun i => v @1 i).
Definition zeros2 (n : Z) : res tensor := if Z.ltb n 0 then Err RuntimeError else Ok (mk2 (Z.to_nat n) 2 (fun _ _ => 0)).
Definition consts (n : Z) (x : R) : res tensor := if Z.ltb n 0 then Err RuntimeError else Ok (mk1 (Z.to_nat n) (fun _ => x)).
Definition scalar (x : R) : tensor := mk1 1 (fun _ => x).

(** generate_unit_square, 7-30 *)
Definition generate_unit_square (n : Z) : res tensor :=
  points <- zeros2 (4 * n) ;;
  l <- linspace 0 1 (n + 1) ;; points <- set_slice points 0 n 0 (tail1 l) ;;
  l <- linspace 0 1 (n + 1) ;; points <- set_slice points n (2 * n) 1 (tail1 l) ;;
  points <- set_slice points (n - 1) (2 * n) 0 (scalar 1) ;;
  l <- linspace 1 0 (n + 1) ;; points <- set_slice points (2 * n) (3 * n) 0 (tail1 l) ;;
  points <- set_slice points (2 * n) (3 * n) 1 (scalar 1) ;;
  l <- linspace 1 0 (n + 1) ;; points <- set_slice points (3 * n) (4 * n) 1 (tail1 l) ;;
  Ok (mk2 (nrows points) 2 (fun r c => points @2 r c - 1/2)).

(** generate_unit_circle, 33-51 *)
Definition generate_unit_circle (n : Z) : res tensor :=
  l <- linspace 0 (2 * PI) (n + 1) ;;
  let a := init1 l in
  Ok (mk2 (nrows a) 2 (fun r c => match c with 0%nat => cos (a @1 r) | _ => sin (a @1 r) end)).

(** generate_rectangle, 54-94 *)
Definition generate_rectangle (b : box) (density : R) : res tensor :=
  if negb (Nat.eqb (a_dim b) 2) then Err NotImplementedError
  else
    let xmin := nth 0 (a_kmin b) 0 in let xmax := nth 0 (a_kmax b) 0 in let ymin := nth 1 (a_kmin b) 0 in let ymax := nth 1 (a_kmax b) 0 in
    let px := ceil (nth 0 (lengths b) 0 * density) in
    let py := ceil (nth 1 (lengths b) 0 * density) in
    points <- zeros2 (2 * (px + py)) ;;
    l <- linspace xmin xmax (px + 1) ;; points <- set_slice points 0 px 0 (tail1 l) ;;
    l <- consts px ymin ;; points <- set_slice points 0 px 1 l ;;
    l <- consts py xmax ;; points <- set_slice points px (px + py) 0 l ;;
    l <- linspace ymin ymax (py + 1) ;; points <- set_slice points px (px + py) 1 (tail1 l) ;;
    l <- linspace xmax xmin (px + 1) ;; points <- set_slice points (px + py) (2 * px + py) 0 (tail1 l) ;;
    l <- consts px ymax ;; points <- set_slice points (px + py) (2 * px + py) 1 l ;;
    l <- consts py xmin ;; points <- set_slice points (2 * px + py) (Z.of_nat (nrows points)) 0 l ;;
    l <- linspace ymax ymin (py + 1) ;; points <- set_slice points (2 * px + py) (Z.of_nat (nrows points)) 1 (tail1 l) ;;
    Ok points.

(** generate_mesh_grid, 97-114 *)
Definition generate_mesh_grid (b : box) (resolution : list Z) : res (list tensor) :=
  axes <- mapM (fun x => linspace (fst (fst x)) (snd (fst x)) (snd x)) (combine (combine (a_kmin b) (a_kmax b)) resolution) ;;
  meshgrid axes.

(** generate_disc_density, 117-144: [torch.cat] of no tensor raises.  The rings are lists of
    points, concatenated. *)
Definition entries (t : tensor) : list R := map (fun i => t @1 i) (seq 0 (nrows t)).
Definition ring (density r : R) : res (list (R * R)) :=
  a <- linspace 0 (2 * PI) (ceil (2 * PI * r * density)) ;;
  Ok (map (fun t => (r * cos t, r * sin t)) (entries a)).
Definition of_points (l : list (R * R)) : tensor :=
  mk2 (length l) 2 (fun r c => match c with 0%nat => fst (nth r l (0, 0)) | _ => snd (nth r l (0, 0)) end).
Definition generate_disc_density (density outer inner : R) : res tensor :=
  _ <- py_assert (Rltb inner outer) ;;
  radials <- linspace inner outer (ceil ((outer - inner) * density)) ;;
  rings <- mapM (ring density) (entries radials) ;;
  match rings with
  | [] => Err RuntimeError
  | _ => Ok (of_points (List.concat rings))
  end.
