(** Specification: shooting with all moments equal to zero. *)
From Coq Require Import Reals List Arith.
From Verif Require Import Py Tensor GeometryModel ModuleModel ShootingModel SpecShooting.
Import ListNotations.
Open Scope R_scope.

(** All moments are zero. *)
Definition no_moments (g : gman) : Prop :=
  forall t idx, In t (g_cotan g) -> valid (shape t) idx -> get t idx = 0.

(** Every descriptor and moment at the end, and in every state kept, is what it was in [g]. *)
Definition unmoved (g : gman) (sh : shot) : Prop :=
  same_values (mod_manifold (sh_mod sh)) g /\
  match sh_inter sh with Some i => Forall (fun g' => same_values g' g) (in_states i) | None => True end.
