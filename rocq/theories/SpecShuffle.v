(** Specification for C114: a registration problem whose objects and modules are listed in
    another order. *)
From Coq Require Import Reals List Arith Permutation.
From Verif Require Import Py Tensor GeometryModel ModuleModel RegistrationModel SpecOrder.
Import ListNotations.
Open Scope list_scope.

(** The i-th object, attachment and target of the second problem are the p_i-th ones of the
    first; the modules are the same, in any order. *)
Record shuffled (p : list nat) (defs : list deformable) (att : list attachment) (targets : list geom) (mods : list dmod)
    (defs' : list deformable) (att' : list attachment) (targets' : list geom) (mods' : list dmod) : Prop := {
  sf_places : Permutation p (seq 0 (length defs));
  sf_lengths : length att = length defs /\ length targets = length defs;
  sf_objects : defs' = pick p defs;
  sf_attachments : att' = pick p att;
  sf_targets : targets' = pick p targets;
  sf_modules : Permutation mods mods'
}.

(** The attachment a of the object o looks only at the values of the deformed points (as many
    points as o has). *)
Definition reads_values (o : deformable) (a : attachment) (y : geom) : Prop :=
  forall q0 q q' x x', lm_gd (df_man o) = Ok q0 -> shape q = shape q0 -> teq q' q -> to_deformed o q = Ok x -> to_deformed o q' = Ok x' -> a x' y = a x y.
