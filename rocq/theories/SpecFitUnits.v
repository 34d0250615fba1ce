(** Specification: the moments of a registration measured in another unit of length, as the
    parameters of a fit. *)
From Coq Require Import Reals List Arith.
From Verif Require Import Py Tensor Fl OptimModel FitModel SpecOptim SpecSimilar KernelModel FieldModel GeometryModel ModuleModel ShootingModel RegistrationModel
  SpecModule SpecRegistration SpecShooting SpecSmooth SpecElsewhere SpecUnits SpecUnitsReg.
Import ListNotations.
Open Scope list_scope.
Open Scope R_scope.

(** By how much the moments of a manifold are multiplied, tensor by tensor: u for points,
    u * u for directions and frames. *)
Fixpoint factors (u : R) (g : gman) : list R :=
  match g with
  | GLm _ _ _ _ => [u]
  | GDir _ _ _ _ _ _ _ | GFrame _ _ _ _ _ _ => [u; u * u]
  | GCLm _ _ _ _ _ _ _ _ _ => [u; u]
  | GEmpty _ => []
  | GComp gs => flat_map (factors u) gs
  end.

(** The entries of the i-th tensor of moments, in the other unit. *)
Definition scale_moments (u : R) (g : gman) (k i : nat) (x : list R) : list R := times (nth i (factors u g) 1) x.

(** Only points: neither directions nor frames. *)
Fixpoint points_only (g : gman) : Prop :=
  match g with
  | GDir _ _ _ _ _ _ _ | GFrame _ _ _ _ _ _ => False
  | GComp gs => fold_right (fun g P => points_only g /\ P) True gs
  | _ => True
  end.

(** A registration problem and the same problem in the other unit. *)
Record problem_in_units (d : nat) (u k : R) (defs : list deformable) (mods : list dmod) (att : list attachment) (targets : list geom)
    (defs' : list deformable) (mods' : list dmod) (att' : list attachment) (targets' : list geom) : Prop := {
  pu_wf : wf_mod d (start defs mods) /\ wf_mod d (start defs' mods');
  pu_smooth : locals_smooth d (start defs mods) /\ locals_smooth d (start defs' mods');
  pu_shootable : shootable (start defs mods) /\ shootable (start defs' mods');
  pu_units : other_unit d u (start defs mods) (start defs' mods');
  pu_attached : attached_units u k defs att targets defs' att' targets'
}.

(** Costs multiplied by k. *)
Definition scale_costs (k : R) (c : costs) : costs := map (fun e => (fst e, fscale k (snd e))) c.
