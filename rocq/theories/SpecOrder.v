(** Specification: the same modules listed in another order or nested otherwise. *)
From Coq Require Import Reals List Permutation.
From Verif Require Import Py Tensor GeometryModel ModuleModel ShootingModel SpecModule SpecShooting.
Import ListNotations.
Open Scope R_scope.

(** The modules that are not compounds, in the order in which they are met. *)
Fixpoint leaves (m : dmod) : list dmod :=
  match m with MComp ms => flat_map leaves ms | _ => [m] end.

(** The elements of l at the places p. *)
Definition pick {A} (p : list nat) (l : list A) : list A :=
  flat_map (fun i => match nth_error l i with Some x => [x] | None => [] end) p.

(** m' consists of the modules of m, the i-th one being the p_i-th one of m. *)
Definition rearranged (p : list nat) (m m' : dmod) : Prop :=
  Permutation p (seq 0 (length (leaves m))) /\ leaves m' = pick p (leaves m).

(** What the manifold g of a module m, or its controls c, holds for each of them. *)
Fixpoint pieces (m : dmod) (g : gman) {struct m} : list gman :=
  match m, g with
  | MComp ms, GComp gs =>
      (fix go (ms : list dmod) (gs : list gman) : list gman :=
         match ms, gs with m :: ms', g :: gs' => pieces m g ++ go ms' gs' | _, _ => [] end) ms gs
  | _, _ => [g]
  end.
Fixpoint cpieces (m : dmod) (c : ctrl) {struct m} : list ctrl :=
  match m, c with
  | MComp ms, CList cs =>
      (fix go (ms : list dmod) (cs : list ctrl) : list ctrl :=
         match ms, cs with m :: ms', c :: cs' => cpieces m c ++ go ms' cs' | _, _ => [] end) ms cs
  | _, _ => [c]
  end.

(** The manifold g' of m' holds what g of m holds for the same modules. *)
Definition moved_alike (p : list nat) (m m' : dmod) (g g' : gman) : Prop :=
  Forall2 same_values (pieces m' g') (pick p (pieces m g)).

(** The same controls for the same modules. *)
Definition driven_alike (p : list nat) (m m' : dmod) (c c' : ctrl) : Prop :=
  cpieces m' c' = pick p (cpieces m c).

(** What two shootings leave. *)
Definition shot_alike (p : list nat) (m m' : dmod) (a b : shot) : Prop :=
  moved_alike p m m' (mod_manifold (sh_mod a)) (mod_manifold (sh_mod b)) /\
  sh_costs b = sh_costs a /\
  match sh_inter a, sh_inter b with
  | Some i, Some j => Forall2 (moved_alike p m m') (in_states i) (in_states j)
  | None, None => True
  | _, _ => False
  end.
