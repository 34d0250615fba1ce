(** Model of imodal/Utilities/usefulfunctions.py: grids, linear maps, rotations, 4x4
    matrices.  Angles and entries are real numbers. *)
From Coq Require Import Reals List Arith ZArith.
From Verif Require Import Py Tensor KernelModel FieldModel Fl.
Import ListNotations.
Open Scope R_scope.

(** grid2vec, 10-12: the flattened grids are the columns.  [torch.cat] raises on an empty
    list and on rows of different lengths. *)
Definition grid2vec (grids : list tensor) : res tensor :=
  match grids with
  | [] => Err RuntimeError
  | g :: _ =>
      if forallb (fun h => Nat.eqb (prod (shape h)) (prod (shape g))) grids
      then Ok (mk2 (prod (shape g)) (length grids)
                   (fun r k => let h := nth k grids g in get (reshape [1; prod (shape h)]%nat h) [0; r]%nat))
      else Err RuntimeError
  end.

(** vec2grid, 15-17: [vec.t()[i].view(args)] for as many i as there are sizes in args. *)
Definition vec2grid (vec : tensor) (args : list nat) : res (list tensor) :=
  mapM (fun i => if Nat.ltb i (ncols vec)
                 then if Nat.eqb (prod args) (nrows vec)
                      then Ok (reshape args (mk1 (nrows vec) (fun r => vec @2 r i)))
                      else Err RuntimeError
                 else Err IndexError) (seq 0 (length args)).

(** linear_transform, 20-35, for a matrix as large as the points. *)
Definition linear_transform (points A : tensor) : tensor :=
  mk2 (nrows points) (ncols points) (fun i a => rsum (ncols points) (fun k => A @2 a k * points @2 i k)).

(** apply_linear_transform_3d, 38-40: homogeneous coordinates, then the first three. *)
Definition homogeneous (points : tensor) : tensor :=
  mk2 (nrows points) (ncols points + 1) (fun i a => if Nat.ltb a (ncols points) then points @2 i a else 1).
Definition first_three (points : tensor) : tensor := mk2 (nrows points) 3 (fun i a => points @2 i a).
Definition apply_linear_transform_3d (points A : tensor) : tensor := first_three (linear_transform (homogeneous points) A).

(** [torch.tensor([[...], ...])] from its rows. *)
Definition of_rows (n m : nat) (rows : list (list R)) : tensor := mk2 n m (fun i j => nth j (nth i rows []) 0).

(** rot2d, 43-45; rot3d_x, rot3d_y, rot3d_z, 56-71 *)
Definition rot2d (t : R) : tensor := of_rows 2 2 [[cos t; - sin t]; [sin t; cos t]].
Definition rot3d_x (t : R) : tensor := of_rows 3 3 [[1; 0; 0]; [0; cos t; - sin t]; [0; sin t; cos t]].
Definition rot3d_y (t : R) : tensor := of_rows 3 3 [[cos t; 0; - sin t]; [0; 1; 0]; [sin t; 0; cos t]].
Definition rot3d_z (t : R) : tensor := of_rows 3 3 [[cos t; - sin t; 0]; [sin t; cos t; 0]; [0; 0; 1]].

(** [torch.stack(list of vectors, dim=1)], [torch.stack(list of matrices, dim=2)] *)
Definition stack_dim1 (n : nat) (l : list (nat -> R)) : tensor := mk2 n (length l) (fun i j => nth j l (fun _ => 0) i).
Definition stack_dim2 (n m : nat) (l : list tensor) : tensor := mk3 n m (length l) (fun i a b => (nth b l (tzeros [])) @2 i a).

(** rot2d_vec, 48-53 *)
Definition rot2d_vec (thetas : tensor) : tensor :=
  let n := nrows thetas in
  let c := fun i => cos (thetas @1 i) in
  let s := fun i => sin (thetas @1 i) in
  let ms := fun i => - s i in
  stack_dim2 n 2 [stack_dim1 n [c; ms]; stack_dim1 n [s; c]].

(** rot3d_x_vec, 74-84, rot3d_y_vec, 87-97, rot3d_z_vec, 100-110 *)
Definition rot3d_vec (rows : (nat -> R) -> (nat -> R) -> (nat -> R) -> list (list (nat -> R))) (thetas : tensor) : res tensor :=
  _ <- py_assert (Nat.eqb (length (shape thetas)) 1) ;;
  let n := nrows thetas in
  Ok (transpose 1 2 (stack_dim2 n 3 (map (stack_dim1 n)
        (rows (fun i => cos (thetas @1 i)) (fun i => sin (thetas @1 i)) (fun i => - sin (thetas @1 i)))))).
Definition zeros : nat -> R := fun _ => 0.
Definition ones : nat -> R := fun _ => 1.
Definition rot3d_x_vec := rot3d_vec (fun c s ms => [[ones; zeros; zeros]; [zeros; c; ms]; [zeros; s; c]]).
Definition rot3d_y_vec := rot3d_vec (fun c s ms => [[c; zeros; s]; [zeros; ones; zeros]; [ms; zeros; c]]).
Definition rot3d_z_vec := rot3d_vec (fun c s ms => [[c; ms; zeros]; [s; c; zeros]; [zeros; zeros; ones]]).

(** [l[i]] of a Python list *)
Definition at_index {A} (l : list A) (i : nat) : res A := match nth_error l i with Some a => Ok a | None => Err IndexError end.

(** translation_matrix4d, 113-117, scale_matrix4d, 120-124 *)
Definition translation_matrix4d (t : list R) : res tensor :=
  x <- at_index t 0 ;; y <- at_index t 1 ;; z <- at_index t 2 ;;
  Ok (of_rows 4 4 [[1; 0; 0; x]; [0; 1; 0; y]; [0; 0; 1; z]; [0; 0; 0; 1]]).
Definition scale_matrix4d (s : list R) : res tensor :=
  x <- at_index s 0 ;; y <- at_index s 1 ;; z <- at_index s 2 ;;
  Ok (of_rows 4 4 [[x; 0; 0; 0]; [0; y; 0; 0]; [0; 0; z; 0]; [0; 0; 0; 1]]).

(** rigid_deformation3d, 127-130 *)
Definition rigid_deformation3d (angles translation : list R) : res tensor :=
  a <- at_index angles 0 ;; b <- at_index angles 1 ;; c <- at_index angles 2 ;;
  let r := mm (mm (rot3d_x a) (rot3d_y b)) (rot3d_z c) in
  let rot := mk2 4 4 (fun i j => if (Nat.ltb i 3 && Nat.ltb j 3)%bool then r @2 i j else delta i j) in
  t <- translation_matrix4d translation ;;
  Ok (mm t rot).

(** append_in_dict_of_list, 283-288: keys are numbers here. *)
Fixpoint dict_get {K V} (eqb : K -> K -> bool) (k : K) (d : list (K * V)) : option V :=
  match d with
  | [] => None
  | (k', v) :: d' => if eqb k k' then Some v else dict_get eqb k d'
  end.
Fixpoint dict_set {K V} (eqb : K -> K -> bool) (k : K) (v : V) (d : list (K * V)) : list (K * V) :=
  match d with
  | [] => [(k, v)]
  | (k', v') :: d' => if eqb k k' then (k', v) :: d' else (k', v') :: dict_set eqb k v d'
  end.
Definition append_in_dict_of_list {K V} (eqb : K -> K -> bool) (base : list (K * list V)) (d : list (K * V)) : list (K * list V) :=
  fold_left (fun b kv => match dict_get eqb (fst kv) b with
                         | None => dict_set eqb (fst kv) [snd kv] b
                         | Some l => dict_set eqb (fst kv) (l ++ [snd kv]) b
                         end) d base.
