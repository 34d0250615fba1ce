(** Model of the file functions of imodal/Models/deformable.py (DeformablePoints, 95-191,
    DeformableMesh, 194-244).  The file system maps names to contents; numpy, pickle and
    meshio are replaced by their contents (exact numbers, no text format). *)
From Coq Require Import Reals String Ascii List Arith Bool.
From Verif Require Import Py RSum Tensor KernelModel UtilModel.
Import ListNotations.
Open Scope R_scope.
Open Scope list_scope.

(** Exceptions: those of Py.v, and the ones of opening, unpickling and parsing files. *)
Inductive file_exn := Raise (e : exn) | FileNotFoundError | EOFError | BadFormat.
Inductive fres (A : Type) := FOk (a : A) | FErr (e : file_exn).
Arguments FOk {A}. Arguments FErr {A}.
Definition of_res {A} (x : res A) : fres A := match x with Ok a => FOk a | Err e => FErr (Raise e) end.

(** [os.path.split(p)[1]]: what follows the last slash. *)
Fixpoint after_last (s cur : string) : string :=
  match s with
  | EmptyString => cur
  | String c s' => after_last s' (if Ascii.eqb c "/"%char then s' else cur)
  end.
Definition path_tail (s : string) : string := after_last s s.

(** Contents of files. *)
Inductive pickled := PRows (rows : list (list R)) | PDict (entries : list (string * list (list R))) | POther.
Inductive content := CText (rows : list (list R)) | CPickle (d : pickled) | CMesh (points : list (list R)) (triangles : list (list nat)) | CEmpty.
Definition files := string -> option content.
Definition write (fs : files) (name : string) (c : content) : files := fun n => if String.eqb n name then Some c else fs n.

(** [torch.tensor(rows)] of nested lists, [numpy.loadtxt] (axes of length one are dropped). *)
Definition uniform (rows : list (list R)) : bool := match rows with [] => true | r :: rows' => forallb (fun x => Nat.eqb (length x) (length r)) rows' end.
Definition width_of (rows : list (list R)) : nat := match rows with [] => 0%nat | r :: _ => length r end.
Definition tensor_of (rows : list (list R)) : res tensor :=
  match rows with
  | [] => Ok (mk1 0 (fun _ => 0))
  | _ => if uniform rows then Ok (of_rows (length rows) (width_of rows) rows) else Err ValueError
  end.
Definition squeezed (sh : list nat) : list nat := filter (fun n => negb (Nat.eqb n 1)) sh.
Definition loadtxt (rows : list (list R)) : res tensor :=
  t <- tensor_of rows ;; Ok (reshape (squeezed (shape t)) t).
(** [tensor.tolist()] of an array of points. *)
Definition rows_of (t : tensor) : list (list R) := map (fun i => map (fun c => t @2 i c) (seq 0 (ncols t))) (seq 0 (nrows t)).

(** The constructor, 84-87: reads the two sizes. *)
Definition deformable_points (points : tensor) : res tensor :=
  match shape points with _ :: _ :: _ => Ok points | _ => Err IndexError end.
(** What the loaders return: a deformable, or the array of points itself. *)
Inductive loaded := Deformable (points : tensor) | Array (points : tensor).

(** load_from_csv, 122-128 *)
Definition load_from_csv (fs : files) (name : string) : fres loaded :=
  match fs name with
  | None => FErr FileNotFoundError
  | Some (CText rows) => of_res (t <- loadtxt rows ;; p <- deformable_points t ;; Ok (Deformable p))
  | Some CEmpty => of_res (t <- loadtxt [] ;; p <- deformable_points t ;; Ok (Deformable p))
  | Some _ => FErr BadFormat
  end.
(** load_from_pickle, 130-140 *)
Definition load_from_pickle (fs : files) (name : string) : fres loaded :=
  match fs name with
  | None => FErr FileNotFoundError
  | Some (CPickle (PDict entries)) =>
      match dict_get String.eqb "points"%string entries with
      | None => FErr (Raise KeyError)
      | Some rows => of_res (t <- tensor_of rows ;; p <- deformable_points t ;; Ok (Deformable p))
      end
  | Some (CPickle (PRows rows)) => of_res (t <- tensor_of rows ;; p <- deformable_points t ;; Ok (Deformable p))
  | Some (CPickle POther) => FErr (Raise RuntimeError)
  | Some CEmpty => FErr EOFError
  | Some _ => FErr BadFormat
  end.
(** load_from_mesh, 142-145: returns the array. *)
Definition load_from_mesh (fs : files) (name : string) : fres loaded :=
  match fs name with
  | None => FErr FileNotFoundError
  | Some (CMesh points _) => of_res (t <- tensor_of points ;; Ok (Array t))
  | Some _ => FErr BadFormat
  end.
(** load_from_file, 95-120; [mesh_extensions] are the keys of meshio.extension_to_filetype. *)
Definition load_from_file (mesh_extensions : list string) (fs : files) (name : string) : fres loaded :=
  let file_extension := path_tail name in
  if String.eqb file_extension ".csv" then load_from_csv fs name
  else if (String.eqb file_extension ".pickle" || String.eqb file_extension ".pkl")%bool then load_from_pickle fs name
  else if existsb (String.eqb file_extension) mesh_extensions then load_from_mesh fs name
  else FErr (Raise RuntimeError).

(** save_to_csv, 171-172, save_to_pickle, 174-184 (the file is emptied when it is opened),
    save_to_mesh, 186-189 (one polygon through all points, left out) *)
Definition save_to_csv (fs : files) (name : string) (points : tensor) : files * fres unit :=
  (write fs name (CText (rows_of points)), FOk tt).
Definition save_to_pickle (fs : files) (name : string) (points : tensor) (container : string) : files * fres unit :=
  let fs := write fs name CEmpty in
  if String.eqb container "array" then (write fs name (CPickle (PRows (rows_of points))), FOk tt)
  else if String.eqb container "dict" then (write fs name (CPickle (PDict [("points"%string, rows_of points)])), FOk tt)
  else (fs, FErr (Raise RuntimeError)).
Definition save_to_mesh (fs : files) (name : string) (points : tensor) : files * fres unit :=
  (write fs name (CMesh (rows_of points) []), FOk tt).
(** save_to_file, 159-169 *)
Definition save_to_file (mesh_extensions : list string) (fs : files) (name : string) (points : tensor) (container : string) : files * fres unit :=
  let file_extension := path_tail name in
  if String.eqb file_extension ".csv" then save_to_csv fs name points
  else if (String.eqb file_extension ".pickle" || String.eqb file_extension ".pkl")%bool then save_to_pickle fs name points container
  else if existsb (String.eqb file_extension) mesh_extensions then save_to_mesh fs name points
  else (fs, FErr (Raise RuntimeError)).

(** DeformableMesh.load_from_file, 208-223: [cell_dict] tells whether the mesh objects of
    meshio have an attribute of that name (they do not: it is [cells_dict]); then
    [torch.tensor(x, torch.int)] has one positional argument too many.  The loaders that are
    inherited call the constructor without triangles. *)
Definition mesh_load_from_file (cell_dict : bool) (fs : files) (name : string) : fres (tensor * list (list nat)) :=
  match fs name with
  | None => FErr FileNotFoundError
  | Some (CMesh points triangles) =>
      of_res (p <- tensor_of points ;; t <- (if cell_dict then Err TypeError else Err AttributeError) ;; Ok (p, t))
  | Some _ => FErr BadFormat
  end.
Definition mesh_save_to_file (fs : files) (name : string) (points : tensor) (triangles : list (list nat)) : files * fres unit :=
  (write fs name (CMesh (rows_of points) triangles), FOk tt).
