(** Model of imodal/Utilities/factory.py, of the deformation grids
    (imodal/DeformationModules/SilentLandmark.py, DeformationGrid.py, DeformableGrid of
    imodal/Models/deformable.py) and of the remaining functions of
    imodal/Utilities/usefulfunctions.py. *)
From Coq Require Import Reals String List Arith ZArith Bool.
From Verif Require Import Py RSum Tensor KernelModel FieldModel Fl UtilModel AabbModel MeshgenModel GeometryModel ModuleModel.
Import ListNotations.
Open Scope R_scope.
Open Scope list_scope.

(** ** factory.py *)
Section Factory.
Variables (kwargs object : Type).
(** A builder: a callable, and its truth value (functions and classes are true; an object
    with an empty [__len__] is not). *)
Record builder := mkB { b_true : bool; b_call : kwargs -> res object }.
Definition factory := list (string * builder).

(** [d[key] = x] and [d.get(key)] on a dictionary kept as an association list. *)
Fixpoint dset {A} (d : list (string * A)) (k : string) (x : A) : list (string * A) :=
  match d with
  | [] => [(k, x)]
  | (k', y) :: d' => if String.eqb k' k then (k', x) :: d' else (k', y) :: dset d' k x
  end.
Fixpoint dget {A} (d : list (string * A)) (k : string) : option A :=
  match d with
  | [] => None
  | (k', y) :: d' => if String.eqb k' k then Some y else dget d' k
  end.

(** __init__, 2-5: [update] sets the keys of builders, in order. *)
Definition new_factory (builders : option factory) : factory :=
  match builders with
  | None => []
  | Some l => fold_left (fun f kb => dset f (fst kb) (snd kb)) l []
  end.
(** register_builder, 10-11 *)
Definition register_builder (f : factory) (k : string) (b : builder) : factory := dset f k b.
(** spawn, 13-19 *)
Definition spawn (f : factory) (k : string) (args : kwargs) : res object :=
  match dget f k with
  | None => Err KeyError
  | Some b => if b_true b then b_call b args else Err KeyError
  end.
(** __call__, 7-8: the global name spawn does not exist. *)
Definition call_factory (f : factory) (k : string) (args : kwargs) : res object := Err NameError.
End Factory.
Arguments mkB {kwargs object}. Arguments b_true {kwargs object}. Arguments b_call {kwargs object}.
Arguments new_factory {kwargs object}. Arguments register_builder {kwargs object}. Arguments spawn {kwargs object}.
Arguments call_factory {kwargs object}.

(** ** Deformation grids *)

(** A module of class DeformationGrid: the resolution and the silent module
    (SilentLandmark.py:82-108).  The box is kept for the property [aabb] only. *)
Record dgrid := mkGrid { dg_aabb : box; dg_resolution : list Z; dg_module : dmod }.

(** __init__, 88-97; [Landmarks(dim, n, gd=points)] starts with moments equal to zero. *)
Definition deformation_grid (b : box) (resolution : list Z) : res dgrid :=
  grid <- generate_mesh_grid b resolution ;;
  points <- grid2vec grid ;;
  Ok (mkGrid b resolution (MSilent (GLm (a_dim b) (nrows points) points (tzeros (shape points))))).

(** togrid, 107-108: the descriptors of the landmarks, seen as grids.  [view] raises on
    negative sizes (other than -1, which a grid never holds: generate_mesh_grid refuses it). *)
Definition togrid (g : dgrid) : res (list tensor) :=
  match mod_manifold (dg_module g) with
  | GLm _ _ gd _ => if forallb (fun n => Z.leb 0 n) (dg_resolution g) then vec2grid gd (map Z.to_nat (dg_resolution g)) else Err RuntimeError
  | _ => Err AttributeError
  end.

(** The class of the same name in DeformationModules/DeformationGrid.py:7-34 (not exported by
    the package): [grid2vec(grid)] gives the tuple of grids as one argument, and a tuple has
    no attribute [contiguous]. *)
Definition deformation_grid_other (b : box) (resolution : list Z) : res dgrid :=
  _ <- generate_mesh_grid b resolution ;; Err AttributeError.

(** DeformableGrid, deformable.py:53-78: what [geometry] and [_to_deformed] hold. *)
Inductive component := Grids (gs : list tensor) | Points (t : tensor).
Definition grid_geometry (g : dgrid) : res (list component) := gs <- togrid g ;; Ok [Grids gs].
Definition grid_to_deformed (gd : tensor) : list component := [Points gd].

(** ** usefulfunctions.py *)

(** voxels2points_affine, 180-183 and points2voxels_affine, 186-192 (without toindices): the
    two bodies are the same.  [bmm] raises when the matrix does not have four columns (three
    coordinates and the one added). *)
Definition affine_map (points A : tensor) : res tensor :=
  if (Nat.eqb (ncols A) (ncols points + 1) && Nat.eqb (nrows A) (ncols A))%bool
  then Ok (mk2 (nrows points) (Nat.min 3 (nrows A)) (fun i a => rsum (ncols A) (fun k => A @2 a k * (homogeneous points) @2 i k)))
  else Err RuntimeError.
Definition voxels2points_affine (voxels : tensor) (cube_shape : list nat) (affine : tensor) : res tensor := affine_map voxels affine.
Definition points2voxels_affine (points : tensor) (cube_shape : list nat) (affine : tensor) : res tensor := affine_map points affine.
(** With [toindices=True]: integers. *)
Definition points2voxels_indices (points : tensor) (cube_shape : list nat) (affine : tensor) : res (nat -> nat -> Z) :=
  p <- points2voxels_affine points cube_shape affine ;; Ok (fun i a => Int_part (p @2 i a)).

(** *** Files of points with fields

    meshio is modelled by what it stores: the points and the fields (arrays with one row
    per point, otherwise meshio raises ValueError).  Reading gives back what was written. *)
Record mesh_file := mkFile { mf_points : tensor; mf_data : list (string * tensor) }.
Definition write_points (points : tensor) (data : list (string * tensor)) : res mesh_file :=
  if forallb (fun kt : string * tensor => Nat.eqb (nrows (snd kt)) (nrows points)) data then Ok (mkFile points data) else Err ValueError.

(** [a.reshape(-1, m)] of numpy *)
Definition reshape_rows (t : tensor) (m : nat) : res tensor :=
  if Nat.eqb m 0 then Err ValueError
  else if Nat.eqb (Nat.modulo (prod (shape t)) m) 0 then Ok (reshape [Nat.div (prod (shape t)) m; m] t) else Err ValueError.

(** export_implicit1_growth, 302-305 *)
Definition export_implicit1_growth (points growth : tensor) : res mesh_file :=
  _ <- py_assert (Nat.eqb (nth 2 (shape growth) 0%nat) 1) ;;
  g <- reshape_rows growth (ncols points) ;;
  write_points points [("growth"%string, g)].
(** import_implicit1_growth, 312-317: [reshape(n, -1, 1)] raises when n = 0. *)
Definition import_implicit1_growth (f : mesh_file) (fieldname : string) : res (tensor * tensor) :=
  match dget (mf_data f) fieldname with
  | None => Err RuntimeError
  | Some g =>
      let n := nrows (mf_points f) in
      if Nat.eqb n 0 then Err RuntimeError
      else if Nat.eqb (Nat.modulo (prod (shape g)) n) 0 then Ok (mf_points f, reshape [n; Nat.div (prod (shape g)) n; 1%nat] g) else Err RuntimeError
  end.

(** export_point_basis, 308-309 *)
Definition basis_column (basis : tensor) (k : nat) : tensor := mk2 (nrows basis) (ncols basis) (fun i a => basis @3 i a k).
Definition export_point_basis (points basis : tensor) : res mesh_file :=
  if Nat.leb 3 (nth 2 (shape basis) 0%nat)
  then write_points points [("basis_x"%string, basis_column basis 0); ("basis_y"%string, basis_column basis 1); ("basis_z"%string, basis_column basis 2)]
  else Err IndexError.
(** import_point_basis, 320-335: the last line gives the unknown keyword dype to
    torch.tensor. *)
Definition import_point_basis (f : mesh_file) (fieldname : string) : res (tensor * tensor) :=
  let field s := match dget (mf_data f) (fieldname ++ s)%string with None => Err RuntimeError | Some t => Ok t end in
  _ <- field "_x"%string ;; _ <- field "_y"%string ;; _ <- field "_z"%string ;; Err TypeError.
