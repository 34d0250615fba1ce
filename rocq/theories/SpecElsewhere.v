(** Specification: a registration problem placed elsewhere by a rigid motion x |-> Q x + c. *)
From Coq Require Import Reals List Arith ZArith.
From Verif Require Import Py Tensor KernelModel FieldModel GeometryModel ModuleModel ShootingModel RegistrationModel Fl MeshModel AttachmentModel
  SpecKernel SpecGeometry SpecRigid PropAttachment.
Import ListNotations.
Open Scope R_scope.

(** Geometries: the points are placed, what follows them (triangles) is the same. *)
Definition geom_elsewhere (d : nat) (Q : mat) (c : nat -> R) (x x' : geom) : Prop :=
  match x, x' with
  | p :: l, p' :: l' => teq p' (place_rows d Q c p) /\ l' = l
  | _, _ => False
  end.

(** Objects of the same kind, with the same triangles; where their points are is not looked
    at.  (Images are not considered.) *)
Definition alike_objects (o o' : deformable) : Prop :=
  match o, o' with
  | DPoints _, DPoints _ | DGrid _, DGrid _ => True
  | DMesh _ t, DMesh _ t' => t' = t
  | _, _ => False
  end.

(** The attachment a' compares the placed objects as a compares the objects. *)
Definition indifferent (d : nat) (Q : mat) (c : nat -> R) (o o' : deformable) (a a' : attachment) (y y' : geom) : Prop :=
  forall q0 q q' x x', lm_gd (df_man o) = Ok q0 -> shape q = shape q0 -> teq q' (place_rows d Q c q) ->
    to_deformed o q = Ok x -> to_deformed o' q' = Ok x' -> a' x' y' = a x y.

(** Objects, attachments and targets, one by one. *)
Inductive attached_elsewhere (d : nat) (Q : mat) (c : nat -> R) :
  list deformable -> list attachment -> list geom -> list deformable -> list attachment -> list geom -> Prop :=
| ae_nil : attached_elsewhere d Q c [] [] [] [] [] []
| ae_cons o a y defs att ts o' a' y' defs' att' ts' :
    alike_objects o o' -> geom_elsewhere d Q c y y' -> indifferent d Q c o o' a a' y y' ->
    attached_elsewhere d Q c defs att ts defs' att' ts' ->
    attached_elsewhere d Q c (o :: defs) (a :: att) (y :: ts) (o' :: defs') (a' :: att') (y' :: ts').

(** ** The attachments of the library *)

Definition geo_elsewhere (d : nat) (Q : mat) (c : nat -> R) (x x' : geo) : Prop :=
  teq (g_points x') (place_rows d Q c (g_points x)) /\ g_faces x' = g_faces x.

(** Objects that the attachment can compare: points in correspondence, closed curves,
    meshes (not of three faces, see C43).  Images (L2) and unknown subclasses are left out. *)
Fixpoint comparable (d : nat) (a : att) (x y : geo) : Prop :=
  match a with
  | ANull => True
  | AEuclid _ => exists N, shape (g_points x) = [N; d] /\ shape (g_points y) = [N; d]
  | AVar2 _ b sigmas => b = Torch /\ d = 2%nat /\ scales sigmas /\ is_curve (g_points x) /\ is_curve (g_points y)
  | AVar3 _ _ sigmas => d = 3%nat /\ scales sigmas /\
      exists fs gs, g_faces x = Some fs /\ g_faces y = Some gs /\ is_mesh (g_points x, fs) /\ is_mesh (g_points y, gs) /\ length fs <> 3%nat /\ length gs <> 3%nat
  | ACompound _ ms => fold_right (fun m P => comparable d m x y /\ P) True ms
  | ACustom _ _ | AL2 _ _ _ => False
  end.

(** An attachment of AttachmentModel as one of RegistrationModel, where losses are real
    numbers (losses that are not finite are outside of that model: ValueError). *)
Definition triangles_of (t : tensor) : list face :=
  map (fun i => let k j := Z.to_nat (Int_part (t @2 i j)) in (k 0%nat, k 1%nat, k 2%nat)) (seq 0 (nrows t)).
Definition geo_of (x : geom) : geo :=
  match x with
  | [p] => mkGeo p None
  | p :: t :: _ => mkGeo p (Some (triangles_of t))
  | [] => mkGeo (mk0 0) None
  end.
Definition as_attachment (a : att) : attachment := fun x y =>
  match call a (geo_of x) (geo_of y) with
  | Ok (Fin r) => Ok r
  | Ok _ => Err ValueError
  | Err e => Err e
  end.
