(** Specification: modules whose coefficients are all multiplied by one number. *)
From Coq Require Import Reals List.
From Verif Require Import Py Tensor GeometryModel ModuleModel ShootingModel SpecShooting SpecScale.
Import ListNotations.
Open Scope R_scope.

(** The module with k times the coefficients: every argument [coeff] of its constructors is
    multiplied by k, all the rest is the same. *)
Fixpoint dearer (k : R) (m : dmod) : dmod :=
  match m with
  | MGlobal dim co h => MGlobal dim (k * co) h
  | MTrans b sg dim nb gd ct h => MTrans b sg dim nb gd ct h
  | MImp0 b sg nu co dim nb gd ct h => MImp0 b sg nu (k * co) dim nb gd ct h
  | MOriented sg co tr dim nb gd0 gd1 c0 c1 h => MOriented sg (k * co) tr dim nb gd0 gd1 c0 c1 h
  | MLocal sg co fs fv dim nb gd ct h => MLocal sg (k * co) fs fv dim nb gd ct h
  | MLinear A co gd ct h => MLinear A (k * co) gd ct h
  | MSilent man => MSilent man
  | MImp1 b sg nu co C dim nb gd0 gd1 c0 c1 h ca => MImp1 b sg nu (k * co) C dim nb gd0 gd1 c0 c1 h ca
  | MDivFree sg cd nu co dim n0 n1 gd ct h l => MDivFree sg cd nu (k * co) dim n0 n1 gd ct h l
  | MArap sg ca nu co dim n0 n1 gd ct h l => MArap sg ca nu (k * co) dim n0 n1 gd ct h l
  | MComp ms => MComp (map (dearer k) ms)
  end.

(** Every module that moves something has a coefficient: Translations has none. *)
Fixpoint priced (m : dmod) : Prop :=
  match m with
  | MTrans _ _ _ _ _ _ _ => False
  | MComp ms => fold_right (fun m acc => priced m /\ acc) True ms
  | _ => True
  end.

(** m' is m made with k times the coefficients and holding k times the moments. *)
Definition at_price (k : R) (m m' : dmod) : Prop :=
  exists g, set_manifold (dearer k m) g = Ok m' /\ same_values g (quickened k (mod_manifold m)).

(** The second shot goes through the states of the first with moments k times as large, at
    costs k times as large; it keeps as many intermediate states. *)
Definition shot_dearer (k : R) (sh sh' : shot) : Prop :=
  same_values (mod_manifold (sh_mod sh')) (quickened k (mod_manifold (sh_mod sh))) /\
  sh_costs sh' = option_map (map (Rmult k)) (sh_costs sh) /\
  match sh_inter sh, sh_inter sh' with
  | Some i, Some i' => Forall2 (fun g g' => same_values g' (quickened k g)) (in_states i) (in_states i')
  | None, None => True
  | _, _ => False
  end.
