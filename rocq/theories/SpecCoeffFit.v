(** Specification: a registration problem and the same problem with k times the coefficients
    and the moments, as problems to be fitted. *)
From Coq Require Import Reals List Arith.
From Verif Require Import Py Tensor GeometryModel ModuleModel AttachmentModel ShootingModel RegistrationModel
  SpecModule SpecGeometry SpecShooting SpecRegistration SpecRigid SpecSmooth SpecUnitsReg SpecCoeff SpecSimilar RSum PropRigid.
Import ListNotations.
Open Scope R_scope.

Record problem_dearer (d : nat) (k : R) (defs : list deformable) (mods : list dmod) (att : list attachment) (targets : list geom)
    (defs' : list deformable) (mods' : list dmod) (att' : list attachment) (targets' : list geom) : Prop := {
  pd_wf : wf_mod d (start defs mods) /\ wf_mod d (start defs' mods');
  pd_smooth : locals_smooth d (start defs mods) /\ locals_smooth d (start defs' mods');
  pd_shootable : shootable (start defs mods) /\ shootable (start defs' mods');
  pd_priced : priced (start defs mods);
  pd_isotropic : twin d delta still (start defs mods) (start defs mods);
  pd_price : at_price k (start defs mods) (start defs' mods');
  pd_attached : attached_units 1 1 defs att targets defs' att' targets'
}.

(** Every tensor of moments multiplied by k. *)
Definition dear_moments (k : R) (g i : nat) (x : list R) : list R := times k x.
