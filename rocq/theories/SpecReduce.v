(** Vocabulary for the choice of the deformation cost of a registration model. *)
From Coq Require Import Reals String List.
From Verif Require Import Py RSum Tensor KernelModel FieldModel GeometryModel ModuleModel ShootingModel RegistrationModel SpecShooting SpecRegistration.
Import ListNotations.
Open Scope R_scope.

(** The same model built with another value of the argument [reduce]. *)
Definition reducing (r : reg) (s : string) : reg :=
  mkReg (r_defs r) (r_mods r) (r_att r) (r_lam r) s (r_fit_gd r) (r_fit_controls r) (r_it r) (r_init r) (r_ctrls r)
        (r_other r) (r_params r).

(** The four values of [reduce] that the code knows. *)
Definition known (s : string) : Prop := In s ["sum"; "previous"; "lastcompound"; "totalcompound"]%string.

(** [x] is the cost of the compound m with the descriptors of g and the controls c. *)
Definition costs_at (sv : solver) (m : dmod) (g : gman) (c : ctrl) (x : R) : Prop :=
  exists mk, at_state m (fun m => fill_controls sv m c) (g_gd g ++ g_cotan (mod_manifold m)) = Ok mk /\ cost mk = Ok x.
