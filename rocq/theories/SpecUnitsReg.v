(** Specification: a registration problem measured in another unit of length; every length
    is multiplied by u. *)
From Coq Require Import Reals List Arith.
From Verif Require Import Py Tensor KernelModel FieldModel GeometryModel ModuleModel ShootingModel RegistrationModel Fl MeshModel AttachmentModel SpecElsewhere.
Import ListNotations.
Open Scope R_scope.

(** Geometries: the points are multiplied, what follows them (triangles) is the same. *)
Definition geom_units (u : R) (x x' : geom) : Prop :=
  match x, x' with
  | p :: l, p' :: l' => teq p' (tscal u p) /\ l' = l
  | _, _ => False
  end.
Definition geo_units (u : R) (x x' : geo) : Prop :=
  teq (g_points x') (tscal u (g_points x)) /\ g_faces x' = g_faces x.

(** The attachment a', given the objects in the other unit, finds k times what a finds. *)
Definition measured (u k : R) (o o' : deformable) (a a' : attachment) (y y' : geom) : Prop :=
  forall q0 q q' x x', lm_gd (df_man o) = Ok q0 -> shape q = shape q0 -> teq q' (tscal u q) ->
    to_deformed o q = Ok x -> to_deformed o' q' = Ok x' ->
    a' x' y' = match a x y with Ok r => Ok (k * r) | Err e => Err e end.

(** Objects, attachments and targets, one by one. *)
Inductive attached_units (u k : R) :
  list deformable -> list attachment -> list geom -> list deformable -> list attachment -> list geom -> Prop :=
| au_nil : attached_units u k [] [] [] [] [] []
| au_cons o a y defs att ts o' a' y' defs' att' ts' :
    alike_objects o o' -> geom_units u y y' -> measured u k o o' a a' y y' ->
    attached_units u k defs att ts defs' att' ts' ->
    attached_units u k (o :: defs) (a :: att) (y :: ts) (o' :: defs') (a' :: att') (y' :: ts').

(** ** The attachments of the library *)

(** The same attachment in the other unit: scales sigma are lengths, weights are kept. *)
Fixpoint att_in_units (u : R) (a : att) : att :=
  match a with
  | AVar2 w b sigmas => AVar2 w b (map (Rmult u) sigmas)
  | AVar3 w b sigmas => AVar3 w b (map (Rmult u) sigmas)
  | ACompound w ms => ACompound w (map (att_in_units u) ms)
  | _ => a
  end.

(** The power of the unit in which a loss is measured: a sum of lengths for points in
    correspondence, squared lengths for varifolds of curves, squared areas for varifolds of
    meshes.  The members of a compound are added: they must agree. *)
Fixpoint degree (n : nat) (a : att) : Prop :=
  match a with
  | ANull => True
  | AEuclid _ => n = 1%nat
  | AVar2 _ _ _ => n = 2%nat
  | AVar3 _ _ _ => n = 4%nat
  | ACompound _ ms => fold_right (fun m P => degree n m /\ P) True ms
  | ACustom _ _ | AL2 _ _ _ => False
  end.

(** Values (losses may be infinite or NaN) multiplied by k. *)
Definition times_loss (k : R) (l : res fl) : res fl :=
  match l with Ok l => Ok (fmul (Fin k) l) | Err e => Err e end.
