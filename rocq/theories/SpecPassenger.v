(** Specification: silent modules whose moments are zero ("passengers": deformation grids,
    points to follow). *)
From Coq Require Import Reals List.
From Verif Require Import Py Tensor GeometryModel ModuleModel ShootingModel SpecGeometry SpecModule SpecShooting.
Import ListNotations.
Open Scope R_scope.

(** All entries are zero. *)
Definition null (t : tensor) : Prop := forall idx, valid (shape t) idx -> get t idx = 0.
Definition no_moments (g : gman) : Prop := Forall null (g_cotan g).

Definition passenger (d : nat) (m : dmod) : Prop :=
  exists g, m = MSilent g /\ wf_gman d g /\ no_empty_comp g /\ no_moments g.

(** The manifold g' of modules and passengers holds what the manifold g of the modules alone
    holds, then what it holds for the passengers es: moments still zero. *)
Definition aboard (es : list dmod) (g g' : gman) : Prop :=
  exists gs gs' ps, g = GComp gs /\ g' = GComp (gs' ++ ps) /\ Forall2 same_values gs' gs /\
    map skel ps = map (fun e => skel (mod_manifold e)) es /\ Forall no_moments ps.

(** The same controls for the modules; whatever (empty) controls for the passengers. *)
Definition cboarded (c c' : ctrl) : Prop := exists k e, c = CList k /\ c' = CList (k ++ e).

(** What two shootings leave. *)
Definition same_ride (es : list dmod) (a b : shot) : Prop :=
  aboard es (mod_manifold (sh_mod a)) (mod_manifold (sh_mod b)) /\
  sh_costs b = sh_costs a /\
  match sh_inter a, sh_inter b with
  | Some i, Some j => Forall2 (aboard es) (in_states i) (in_states j)
  | None, None => True
  | _, _ => False
  end.
