(** Specification: the same scene measured in another unit of length; every length is
    multiplied by u. *)
From Coq Require Import Reals List Arith.
From Verif Require Import Py Tensor KernelModel FieldModel GeometryModel ModuleModel ShootingModel SpecModule SpecShooting SpecMotion.
Import ListNotations.
Open Scope R_scope.

(** Positions and the moments of points are multiplied by u.  Directions and frames have no
    unit; their moments are multiplied by u * u, as is every product of a moment and a
    velocity. *)
Fixpoint in_units (u : R) (g : gman) : gman :=
  match g with
  | GLm dim nb gd ct => GLm dim nb (tscal u gd) (tscal u ct)
  | GDir tr dim nb gd0 gd1 c0 c1 => GDir tr dim nb (tscal u gd0) gd1 (tscal u c0) (tscal (u * u) c1)
  | GFrame dim nb gd0 gd1 c0 c1 => GFrame dim nb (tscal u gd0) gd1 (tscal u c0) (tscal (u * u) c1)
  | GCLm dim n0 n1 gd0 gd1 c0 c1 i0 i1 => GCLm dim n0 n1 (tscal u gd0) (tscal u gd1) (tscal u c0) (tscal u c1) i0 i1
  | GEmpty _ => g
  | GComp gs => GComp (map (in_units u) gs)
  end.

(** The vectors of the second closure are om times those of the first. *)
Definition vectors_by (u om : R) (fv fv' : tensor -> res tensor) : Prop :=
  om <> 0 /\ forall gd gd' v v', teq gd' (tscal u gd) -> fv gd = Ok v -> fv' gd' = Ok v' -> teq v' (tscal om v).

(** The same module in the other unit: values of descriptors, moments and controls are not
    looked at.  Scales sigma are lengths.  The regularisation nu is a number for
    ImplicitModule0 and for the two constrained modules, whose weights of the constraints are
    lengths; for ImplicitModule1 nu is an inverse squared length.  The coefficient of the
    linear module, whose control has no unit, is a squared length. *)
Fixpoint resized (d : nat) (u : R) (m m' : dmod) {struct m} : Prop :=
  match m, m' with
  | MGlobal dim co _, MGlobal dim' co' _ => dim' = dim /\ co' = co
  | MTrans _ sg dim nb _ _ _, MTrans _ sg' dim' nb' _ _ _ => sg' = u * sg /\ dim' = dim /\ nb' = nb
  | MImp0 _ sg nu co dim nb _ _ _, MImp0 _ sg' nu' co' dim' nb' _ _ _ =>
      sg' = u * sg /\ nu' = nu /\ co' = co /\ dim' = dim /\ nb' = nb
  | MOriented sg co tr dim nb _ _ _ _ _, MOriented sg' co' tr' dim' nb' _ _ _ _ _ =>
      sg' = u * sg /\ co' = co /\ tr' = tr /\ dim' = dim /\ nb' = nb
  | MLocal sg co fs fv dim nb _ _ _, MLocal sg' co' fs' fv' dim' nb' _ _ _ =>
      sg' = u * sg /\ co' = co /\ dim' = dim /\ nb' = nb /\
      (forall gd gd' s s', teq gd' (tscal u gd) -> fs gd = Ok s -> fs' gd' = Ok s' -> teq s' (tscal u s)) /\
      exists om, vectors_by u om fv fv'
  | MLinear A co _ _ _, MLinear A' co' _ _ _ => co' = u * u * co /\ teq A' A
  | MSilent _, MSilent _ => True
  | MImp1 _ sg nu co C dim nb _ _ _ _ _ _, MImp1 _ sg' nu' co' C' dim' nb' _ _ _ _ _ _ =>
      sg' = u * sg /\ nu' = nu / (u * u) /\ co' = co /\ teq C' C /\ dim' = dim /\ nb' = nb
  | MDivFree sg cd nu co dim n0 n1 _ _ _ _, MDivFree sg' cd' nu' co' dim' n0' n1' _ _ _ _ =>
      sg' = u * sg /\ cd' = u * cd /\ nu' = nu /\ co' = co /\ dim' = dim /\ n0' = n0 /\ n1' = n1
  | MArap sg ca nu co dim n0 n1 _ _ _ _, MArap sg' ca' nu' co' dim' n0' n1' _ _ _ _ =>
      sg' = u * sg /\ ca' = u * ca /\ nu' = nu /\ co' = co /\ dim' = dim /\ n0' = n0 /\ n1' = n1
  | MComp ms, MComp ms' =>
      (fix go (ms ms' : list dmod) : Prop :=
         match ms, ms' with
         | [], [] => True
         | m :: r, m' :: r' => resized d u m m' /\ go r r'
         | _, _ => False
         end) ms ms'
  | _, _ => False
  end.

(** m' is m in the other unit, with the values of descriptors and moments. *)
Definition other_unit (d : nat) (u : R) (m m' : dmod) : Prop :=
  resized d u m m' /\ same_values (mod_manifold m') (in_units u (mod_manifold m)).

(** Controls that stand for velocities are multiplied by u, those of the linear module and
    of ImplicitModule1 (rates of growth) stay.  The control of a local module makes up for
    what happens to its vectors. *)
Fixpoint ctrl_units (u : R) (m m' : dmod) (c c' : ctrl) {struct m} : Prop :=
  match m, m', c, c' with
  | MGlobal _ _ _, MGlobal _ _ _, CLeaf t, CLeaf t'
  | MTrans _ _ _ _ _ _ _, MTrans _ _ _ _ _ _ _, CLeaf t, CLeaf t'
  | MImp0 _ _ _ _ _ _ _ _ _, MImp0 _ _ _ _ _ _ _ _ _, CLeaf t, CLeaf t'
  | MOriented _ _ _ _ _ _ _ _ _ _, MOriented _ _ _ _ _ _ _ _ _ _, CLeaf t, CLeaf t'
  | MDivFree _ _ _ _ _ _ _ _ _ _ _, MDivFree _ _ _ _ _ _ _ _ _ _ _, CLeaf t, CLeaf t'
  | MArap _ _ _ _ _ _ _ _ _ _ _, MArap _ _ _ _ _ _ _ _ _ _ _, CLeaf t, CLeaf t' => ceq (CLeaf t') (CLeaf (tscal u t))
  | MLocal _ _ _ fv _ _ _ _ _, MLocal _ _ _ fv' _ _ _ _ _, CLeaf t, CLeaf t' =>
      exists om, vectors_by u om fv fv' /\ om * item t' = u * item t
  | MLinear _ _ _ _ _, MLinear _ _ _ _ _, CLeaf t, CLeaf t'
  | MImp1 _ _ _ _ _ _ _ _ _ _ _ _ _, MImp1 _ _ _ _ _ _ _ _ _ _ _ _ _, CLeaf t, CLeaf t' => ceq (CLeaf t') (CLeaf t)
  | MSilent _, MSilent _, CLeaf _, CLeaf _ => True
  | MComp ms, MComp ms', CList cs, CList cs' =>
      (fix go (ms ms' : list dmod) (cs cs' : list ctrl) : Prop :=
         match ms, ms', cs, cs' with
         | [], [], [], [] => True
         | m :: r, m' :: r', x :: xs, x' :: xs' => ctrl_units u m m' x x' /\ go r r' xs xs'
         | _, _, _, _ => False
         end) ms ms' cs cs'
  | _, _, _, _ => False
  end.

Definition ctrls_units (u : R) (m m' : dmod) (cs cs' : option (list ctrl)) : Prop :=
  match cs, cs' with
  | None, None => True
  | Some l, Some l' => Forall2 (ctrl_units u m m') l l'
  | _, _ => False
  end.

(** The module b does in the other unit what the module a does: costs and Hamiltonian are
    multiplied by u * u; at the same points, expressed in the other unit, its velocities are
    multiplied by u and their derivatives are the same. *)
Definition same_in_units (d : nat) (u : R) (a b : dmod) : Prop :=
  (exists x, cost a = Ok x /\ cost b = Ok (u * u * x)) /\
  (exists x, hamiltonian a = Ok x /\ hamiltonian b = Ok (u * u * x)) /\
  forall p N, shape p = [N; d] ->
    (exists v v', velocity a p 0 = Ok v /\ velocity b (tscal u p) 0 = Ok v' /\ teq v' (tscal u v)) /\
    (exists j j', velocity a p 1 = Ok j /\ velocity b (tscal u p) 1 = Ok j' /\ teq j' j).

(** What shoot() leaves in the other unit. *)
Definition shot_units (u : R) (sh sh' : shot) : Prop :=
  same_values (mod_manifold (sh_mod sh')) (in_units u (mod_manifold (sh_mod sh))) /\
  sh_costs sh' = option_map (map (fun x => u * u * x)) (sh_costs sh) /\
  match sh_inter sh, sh_inter sh' with
  | Some i, Some i' => Forall2 (fun g g' => same_values g' (in_units u g)) (in_states i) (in_states i')
  | None, None => True
  | _, _ => False
  end.

(** The controls kept by torch_euler at the states kept there, where they are determined. *)
Definition kept_units (d : nat) (u : R) (m m' : dmod) (given : Prop) (sh sh' : shot) : Prop :=
  forall i i' n g mg k k', sh_inter sh = Some i -> sh_inter sh' = Some i' ->
    nth_error (in_states i) n = Some g -> set_manifold m g = Ok mg -> given \/ regular d mg ->
    nth_error (in_controls i) n = Some k -> nth_error (in_controls i') n = Some k' ->
    ctrl_units u m m' (CList k) (CList k').
