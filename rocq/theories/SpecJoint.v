(** Specification for C113: several subjects fitted together. *)
From Coq Require Import Reals String List Arith.
From Verif Require Import Py RSum Tensor Fl OptimModel FitModel SpecOptim KernelModel FieldModel GeometryModel ModuleModel ShootingModel RegistrationModel AtlasModel
  SpecRegistration SpecFitElsewhere.
Import ListNotations.
Open Scope list_scope.
Open Scope R_scope.

(** Tensors with la, lb and lc entries. *)
Definition sizes (x : list (list R)) : list nat := map (@length R) x.

(** The cost F of one group of tensors a ++ b ++ c depends on b as the cost f of b alone
    does: changing b changes both by the same amount, whatever a and c. *)
Definition alone (la lb lc : list nat) (F f : params -> fl) : Prop :=
  forall a b b' c, sizes a = la -> sizes b = lb -> sizes b' = lb -> sizes c = lc ->
  exists u u' v v', F [a ++ b ++ c] = Fin u /\ F [a ++ b' ++ c] = Fin u' /\ f [b] = Fin v /\ f [b'] = Fin v' /\ u' - u = v' - v.

(** The initial moments of all the subjects of an atlas, one group of parameters, and the
    heap once an optimizer has written the entries x there. *)
Definition entries_of (h : heap) (ks : list ref) : list (list R) := map (fun k => entries (deref h k)) ks.
Definition all_moments (x : full_atlas) : list ref := flat_map init_cotan (a_models (x_atlas x)).
Definition with_all_moments (h : heap) (x : full_atlas) (p : params) : heap :=
  write_all h (map (fun q => (fst q, of_entries (shape (deref h (fst q))) (snd q))) (combine (all_moments x) (List.concat p))).

(** The costs of the atlas seen by the fitter, as a function of the moments. *)
Definition atlas_fit_costs ck others sv b0 ag (h : heap) (x : full_atlas) (targets : list geom) (name : string) (it : nat) (t1 : time ck) (p : params) : costs :=
  match evaluate_atlas ck others sv b0 ag None None (with_all_moments h x p) x targets name it t1 with
  | Ok (cost, _, _) => map (fun kv => (fst kv, Fin (snd kv))) cost
  | Err _ => []
  end.
