(** Specification: which tensors share memory. *)
From Coq Require Import Reals String List Arith Bool.
From Verif Require Import Py Tensor ManifoldModel HeapModel.
Import ListNotations.
Open Scope list_scope.
Open Scope nat_scope.

(** The storages of a value, of a container, of a manifold. *)
Fixpoint locs (v : hv) : list nat :=
  match v with HNone => [] | HT r => [rloc r] | HL l => flat_map locs l end.
Definition cont_locs (c : hcont) : list nat := flat_map locs (hc_tensors c).
Definition leaf_locs (l : hleaf) : list nat := cont_locs (hl_gd l) ++ cont_locs (hl_tan l) ++ cont_locs (hl_cotan l).
Fixpoint storages (m : hman) : list nat :=
  match m with HMLeaf l => leaf_locs l | HMEmpty _ _ _ => [] | HMComp _ _ ms => flat_map storages ms end.

(** All of them exist. *)
Definition live (h : heap) (m : hman) : Prop := Forall (fun l => l < length h) (storages m).

(** Two manifolds without a common storage. *)
Definition apart (a b : hman) : Prop := forall l, In l (storages a) -> In l (storages b) -> False.

(** Two manifolds a and b in one heap, and what may happen to them: a call on one of them, a
    fill of one with copies of the tensors of the other, a write in place in a tensor held by
    one of them. *)
Inductive event :=
| InA (o : op) | InB (o : op)
| AfromB (rg : option bool) | BfromA (rg : option bool)
| WriteA (l : nat) (t : tensor) | WriteB (l : nat) (t : tensor).
Definition world : Type := heap * hman * hman.
Definition happens (w : world) (e : event) (w' : world) : Prop :=
  let '(h, a, b) := w in
  match e with
  | InA o => let (h', r) := h_step a o h in w' = (h', fst r, b)
  | InB o => let (h', r) := h_step b o h in w' = (h', a, fst r)
  | AfromB rg => let (h', r) := h_fill_from a b true rg h in w' = (h', fst r, b)
  | BfromA rg => let (h', r) := h_fill_from b a true rg h in w' = (h', a, fst r)
  | WriteA l t => In l (storages a) /\ w' = (write l t h, a, b)
  | WriteB l t => In l (storages b) /\ w' = (write l t h, a, b)
  end.
Inductive history : world -> list event -> world -> Prop :=
| his_nil w : history w [] w
| his_cons w e w1 es w' : happens w e w1 -> history w1 es w' -> history w (e :: es) w'.

(** The same events for two separate values: what happens to one does not concern the other,
    except that a fill reads it. *)
Definition separate (s : man * man) (e : event) (s' : man * man) : Prop :=
  let (a, b) := s in
  match e with
  | InA o => s' = (fst (step a o), b)
  | InB o => s' = (a, fst (step b o))
  | AfromB rg => s' = (fst (fill_from a b true rg), b)
  | BfromA rg => s' = (a, fst (fill_from b a true rg))
  | WriteA _ _ => exists a', s' = (a', b)
  | WriteB _ _ => exists b', s' = (a, b')
  end.
Inductive separately : man * man -> list event -> man * man -> Prop :=
| sep_nil s : separately s [] s
| sep_cons s e s1 es s' : separate s e s1 -> separately s1 es s' -> separately s (e :: es) s'.

Definition values (w : world) : man * man := let '(h, a, b) := w in (look_man h a, look_man h b).

(** The tensors of one part of a manifold, in order. *)
Fixpoint held (p : part) (m : hman) : list hv :=
  match m with HMLeaf l => hc_tensors (h_part p l) | HMEmpty _ _ _ => [] | HMComp _ _ ms => flat_map (held p) ms end.

(** An argument of fill_gd, fill_tan, fill_cotan in the form the manifold expects, with the
    tensors in it: a tensor or a list of tensors for a manifold, a list with one argument for
    each member of a compound. *)
Inductive fits (p : part) : hman -> hv -> list hv -> Prop :=
| fit_one l r : length (hc_shapes (h_part p l)) = 1 -> fits p (HMLeaf l) (HT r) [HT r]
| fit_many l vs : fits p (HMLeaf l) (HL vs) vs
| fit_empty n dv dt x : fits p (HMEmpty n dv dt) x []
| fit_comp dv dt ms xs vs : fits_all p ms xs vs -> fits p (HMComp dv dt ms) (HL xs) vs
with fits_all (p : part) : list hman -> list hv -> list hv -> Prop :=
| fits_nil : fits_all p [] [] []
| fits_cons m ms x xs v vs : fits p m x v -> fits_all p ms xs vs -> fits_all p (m :: ms) (x :: xs) (v ++ vs).

(** The tensor is already where to_ is asked to put it. *)
Definition already (a : to_arg) (r : ref) : Prop := match a with ToStr d => rdev r = d | ToNone => rdev r = "cpu"%string | ToDtype t => rdty r = t | ToOther => True end.

(** The manifolds are trees of the same shape, with as many descriptors. *)
Inductive matching : hman -> hman -> Prop :=
| match_leaf l l' : (forall p, length (hc_shapes (h_part p l)) = length (hl_shapes l')) -> (forall p, length (hc_tensors (h_part p l')) = length (hl_shapes l')) -> matching (HMLeaf l) (HMLeaf l')
| match_empty n dv dt n' dv' dt' : matching (HMEmpty n dv dt) (HMEmpty n' dv' dt')
| match_comp dv dt ms dv' dt' ms' : Forall2 matching ms ms' -> matching (HMComp dv dt ms) (HMComp dv' dt' ms').

(** Every part holds tensors. *)
Definition tensors_held (m : hman) : Prop := forall p v, In v (held p m) -> exists r, v = HT r.
