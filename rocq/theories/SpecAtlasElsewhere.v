(** Specification: an atlas placed elsewhere, or measured in another unit of length: what
    its subjects hold, one by one. *)
From Coq Require Import Reals String List Arith.
From Verif Require Import Py Tensor KernelModel FieldModel GeometryModel ModuleModel ShootingModel RegistrationModel
  SpecKernel SpecGeometry SpecModule SpecShooting SpecRegistration SpecTransport SpecRigid SpecSmooth SpecReduce SpecElsewhere SpecUnits SpecUnitsReg.
Import ListNotations.
Open Scope string_scope.
Open Scope R_scope.

(** One subject: its model, and its target.  In the two atlases the template and the modules,
    with the moments they have in the heaps, and the targets correspond. *)
Definition subject_elsewhere (d : nat) (Q : mat) (c : nat -> R) (h h' : heap) (s s' : reg * geom) : Prop :=
  exists defs mods defs' mods',
    filled h (fst s) = Ok (defs, mods) /\ filled h' (fst s') = Ok (defs', mods') /\
    (r_fit_controls (fst s) = false /\ r_fit_controls (fst s') = false /\ r_lam (fst s') = r_lam (fst s) /\ r_reduce (fst s) = "sum" /\ r_reduce (fst s') = "sum") /\
    (wf_mod d (start defs mods) /\ wf_mod d (start defs' mods') /\ locals_smooth d (start defs mods) /\ locals_total d (start defs' mods') /\
     shootable (start defs mods) /\ shootable (start defs' mods')) /\
    elsewhere d Q c (start defs mods) (start defs' mods') /\
    attached_elsewhere d Q c defs (r_att (fst s)) [snd s] defs' (r_att (fst s')) [snd s'].

(** The same with lengths multiplied by u, attachments by k, and lam by u^2 / k. *)
Definition subject_in_units (d : nat) (u k : R) (h h' : heap) (s s' : reg * geom) : Prop :=
  exists defs mods defs' mods',
    filled h (fst s) = Ok (defs, mods) /\ filled h' (fst s') = Ok (defs', mods') /\
    (r_fit_controls (fst s) = false /\ r_fit_controls (fst s') = false /\ r_lam (fst s') * k = u * u * r_lam (fst s) /\ r_reduce (fst s) = "sum" /\ r_reduce (fst s') = "sum") /\
    (wf_mod d (start defs mods) /\ wf_mod d (start defs' mods') /\ locals_total d (start defs mods) /\ locals_total d (start defs' mods') /\
     shootable (start defs mods) /\ shootable (start defs' mods')) /\
    other_unit d u (start defs mods) (start defs' mods') /\
    attached_units u k defs (r_att (fst s)) [snd s] defs' (r_att (fst s')) [snd s'].
