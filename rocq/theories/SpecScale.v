(** Specification: motions at another pace, moments multiplied by a number. *)
From Coq Require Import Reals List Arith.
From Verif Require Import Py Tensor GeometryModel ModuleModel ShootingModel SpecShooting.
Import ListNotations.
Open Scope R_scope.

(** The manifold with the same descriptors and with moments s times as large: what
    fill_cotan() leaves when it is given s times the moments. *)
Fixpoint quickened (s : R) (g : gman) : gman :=
  match g with
  | GLm dim nb gd c => GLm dim nb gd (tscal s c)
  | GDir tr dim nb gd0 gd1 c0 c1 => GDir tr dim nb gd0 gd1 (tscal s c0) (tscal s c1)
  | GFrame dim nb gd0 gd1 c0 c1 => GFrame dim nb gd0 gd1 (tscal s c0) (tscal s c1)
  | GCLm dim n0 n1 gd0 gd1 c0 c1 i0 i1 => GCLm dim n0 n1 gd0 gd1 (tscal s c0) (tscal s c1) i0 i1
  | GEmpty dim => GEmpty dim
  | GComp gs => GComp (map (quickened s) gs)
  end.

(** The same on a list of descriptors followed by as many moments. *)
Definition quick (s : R) (l : list tensor) : list tensor :=
  let n := Nat.div2 (length l) in firstn n l ++ map (tscal s) (skipn n l).

(** The second shot goes through the states of the first with moments s times as large, at
    costs s * s times as large; it keeps as many intermediate states. *)
Definition shot_quickened (s : R) (sh sh' : shot) : Prop :=
  same_values (mod_manifold (sh_mod sh')) (quickened s (mod_manifold (sh_mod sh))) /\
  sh_costs sh' = option_map (map (fun x => s * s * x)) (sh_costs sh) /\
  match sh_inter sh, sh_inter sh' with
  | Some i, Some i' => Forall2 (fun g g' => same_values g' (quickened s g)) (in_states i) (in_states i')
  | None, None => True
  | _, _ => False
  end.
