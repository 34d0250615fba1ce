(** Specification: descriptors carried by the field that a module generates. *)
From Coq Require Import Reals List Arith.
From Verif Require Import Py RSum Tensor KernelModel FieldModel GeometryModel ModuleModel ShootingModel SpecModule SpecShooting.
Import ListNotations.
Open Scope R_scope.

(** [k] holds the velocities of the descriptors q in the field generated by the module m2
    (whose descriptors are q): the same numbers, in the same order, cut as q is. *)
Definition carried (m2 : dmod) (q k : list tensor) : Prop :=
  exists f tan, field_generator m2 = Ok f /\ infinitesimal_action (mod_manifold m2) (feval f) = Ok tan /\
    g_gd (mod_manifold m2) = q /\ map shape k = map shape q /\ numel (g_tan tan) = numel q /\
    forall j, (j < numel q)%nat -> cat_get k j = cat_get (g_tan tan) j.

(** Halves of a list: descriptors, moments. *)
Definition half (l : list tensor) : list tensor := firstn (Nat.div (length l) 2) l.

(** The functions given to local constrained translations answer wherever the points are. *)
Fixpoint locals_total (d : nat) (m : dmod) : Prop :=
  match m with
  | MLocal _ _ fs fv _ nb _ _ _ => forall gd, shape gd = [nb; d] ->
      exists M s v, fs gd = Ok s /\ fv gd = Ok v /\ shape s = [M; d] /\ shape v = [M; d]
  | MComp ms => fold_right (fun m acc => locals_total d m /\ acc) True ms
  | _ => True
  end.

(** Distance of two points of R^d: sum of the absolute values of the differences. *)
Definition dist1 (d : nat) (x y : nat -> R) : R := rsum d (fun a => Rabs (x a - y a)).

(** How fast a field can bring two points together or pull them apart, read from its
    moments and its scale. *)
Fixpoint rate (d : nat) (f : sfield) : R :=
  match f with
  | SF_0 _ s m sg => rsum (nrows s) (fun j => rsum d (fun a => Rabs (m @2 j a))) / Rabs sg
  | SF_0_u _ s m u sg =>
      rsum (nrows s) (fun j => rsum d (fun c => Rabs (u @2 j c)) * rsum d (fun a => Rabs (m @2 j a))) / sg ^ 2
  | SF_1 _ s m sg => INR d * rsum (nrows s) (fun j => Rabs (m @1 j)) / sg ^ 2
  | SF_p _ s m sg | SF_m _ s m sg =>
      rsum (nrows s) (fun j => rsum d (fun a => rsum d (fun c => Rabs (m @3 j a c)))) / sg ^ 2
  | SF_affine A _ _ => rsum d (fun a => rsum d (fun c => Rabs (A @2 a c)))
  | SF_const _ | SF_null _ => 0
  | SF_sum fs => fold_right (fun g acc => rate d g + acc) 0 fs
  end.

(** u is the i-th point of the j-th member of the compound manifold g, a member made of
    landmarks. *)
Definition point_at (g : gman) (j i : nat) (u : nat -> R) : Prop :=
  exists gs dim nb x c, g = GComp gs /\ nth_error gs j = Some (GLm dim nb x c) /\ (i < nb)%nat /\ u = (fun a => x @2 i a).

(** A bound on [rate] read from given controls, for translations, implicit modules of
    order 0, linear deformations, global translations, silent modules and compounds of these. *)
Fixpoint drive (d : nat) (m : dmod) (c : ctrl) : option R :=
  match m, c with
  | MGlobal _ _ _, CLeaf _ => Some 0
  | MTrans _ sg _ nb _ _ _, CLeaf h | MImp0 _ sg _ _ _ nb _ _ _, CLeaf h =>
      Some (rsum nb (fun j => rsum d (fun a => Rabs (h @2 j a))) / Rabs sg)
  | MLinear A _ _ _ _, CLeaf h => Some (Rabs (item h) * rsum d (fun a => rsum d (fun c => Rabs (A @2 a c))))
  | MSilent _, _ => Some 0
  | MComp ms, CList cs =>
      (fix go (ms : list dmod) (cs : list ctrl) : option R :=
         match ms, cs with
         | [], [] => Some 0
         | m :: ms', c :: cs' =>
             match drive d m c, go ms' cs' with Some r, Some r' => Some (r + r') | _, _ => None end
         | _, _ => None
         end) ms cs
  | _, _ => None
  end.
