(** Specification vocabulary for the deformation modules. *)
From Coq Require Import Reals List.
From Verif Require Import Py RSum Tensor KernelModel FieldModel GeometryModel ModuleModel
  SpecLinAlg SpecKernel SpecField SpecGeometry.
Import ListNotations.
Open Scope R_scope.

(** The square matrix A (n x n) has no kernel. *)
Definition nonsingular (n : nat) (A : nat -> nat -> R) : Prop :=
  forall y, solves n A y (fun _ => 0) -> forall j, (j < n)%nat -> y j = 0.

(** A linear solver working in exact arithmetic: it answers exactly for the
    nonsingular matrices (with a vector or several columns on the right), and its
    answer solves the system. *)
Definition exact_solver (sv : solver) : Prop :=
  forall n A B, shape A = [n; n] -> (shape B = [n] \/ exists m, shape B = [n; m]) ->
    (nonsingular n (entries A) -> is_ok (sv A B)) /\
    (forall X, sv A B = Ok X ->
       nonsingular n (entries A) /\ shape X = shape B /\
       (shape B = [n] -> solves n (entries A) (fun k => X @1 k) (fun k => B @1 k)) /\
       (forall m, shape B = [n; m] -> forall j, (j < m)%nat ->
          solves n (entries A) (fun k => X @2 k j) (fun k => B @2 k j))).

(** Module of the ambient space R^d holding tensors of the right shapes, with
    non-zero kernel scales, positive coefficients and non-negative nu. *)
Fixpoint wf_mod (d : nat) (m : dmod) : Prop :=
  match m with
  | MGlobal dim co h => dim = d /\ 0 < co /\ shape h = [d]
  | MTrans _ sg dim nb gd ct _ => dim = d /\ sg <> 0 /\ shape gd = [nb; d] /\ shape ct = [nb; d]
  | MImp0 _ sg nu co dim nb gd ct _ =>
      dim = d /\ sg <> 0 /\ 0 <= nu /\ 0 < co /\ shape gd = [nb; d] /\ shape ct = [nb; d]
  | MOriented sg co _ dim nb gd0 gd1 c0 c1 _ =>
      dim = d /\ sg <> 0 /\ 0 < co /\ shape gd0 = [nb; d] /\ shape gd1 = [nb; d] /\
      shape c0 = [nb; d] /\ shape c1 = [nb; d]
  | MLocal sg co fs fv dim nb gd ct _ =>
      dim = d /\ sg <> 0 /\ 0 < co /\ shape gd = [nb; d] /\ shape ct = [nb; d] /\
      exists M s v, fs gd = Ok s /\ fv gd = Ok v /\ shape s = [M; d] /\ shape v = [M; d]
  | MLinear A co gd ct h =>
      shape A = [d; d] /\ 0 < co /\ shape gd = [1%nat; d] /\ shape ct = [1%nat; d] /\ shape h = []
  | MSilent man => wf_gman d man /\ no_empty_comp man
  | MImp1 _ sg nu co C dim nb gd0 gd1 c0 c1 _ _ =>
      dim = d /\ is_ok (eta d) /\ sg <> 0 /\ 0 <= nu /\ 0 < co /\ (exists r, shape C = [nb; d; r]) /\
      shape gd0 = [nb; d] /\ shape gd1 = [nb; d; d] /\ shape c0 = [nb; d] /\ shape c1 = [nb; d; d]
  | MDivFree sg _ nu co dim n0 n1 gd ct _ _ =>
      dim = d /\ sg <> 0 /\ 0 <= nu /\ 0 < co /\
      shape gd = [(n0 + n1)%nat; d] /\ shape ct = [(n0 + n1)%nat; d]
  | MArap sg _ nu co dim n0 n1 gd ct _ _ =>
      dim = d /\ is_ok (eta d) /\ sg <> 0 /\ 0 <= nu /\ 0 < co /\
      shape gd = [(n0 + n1)%nat; d] /\ shape ct = [(n0 + n1)%nat; d]
  | MComp ms => ms <> [] /\ fold_right (fun m acc => wf_mod d m /\ acc) True ms
  end.

(** Controls of the shape the module expects. *)
Fixpoint ctrl_ok (d : nat) (m : dmod) (c : ctrl) {struct m} : Prop :=
  match m, c with
  | MGlobal _ _ _, CLeaf t => shape t = [d]
  | MTrans _ _ _ nb _ _ _, CLeaf t => shape t = [nb; d]
  | MImp0 _ _ _ _ _ nb _ _ _, CLeaf t => shape t = [nb; d]
  | MOriented _ _ _ _ nb _ _ _ _ _, CLeaf t => shape t = [nb]
  | MLocal _ _ _ _ _ _ _ _ _, CLeaf t => shape t = [] \/ shape t = [1%nat]
  | MLinear _ _ _ _ _, CLeaf t => shape t = []
  | MSilent _, CLeaf t => shape t = [0%nat]
  | MImp1 _ _ _ _ C _ _ _ _ _ _ _ _, CLeaf t => shape t = [tnth (shape C) 2]
  | MDivFree _ _ _ _ _ _ n1 _ _ _ _, CLeaf t => shape t = [n1; d] \/ shape t = [(n1 * d)%nat]
  | MArap _ _ _ _ _ _ n1 _ _ _ _, CLeaf t => shape t = [n1; d] \/ shape t = [(n1 * d)%nat]
  | MComp ms, CList cs =>
      (fix go (ms : list dmod) (cs : list ctrl) : Prop :=
         match ms, cs with
         | [], [] => True
         | m :: ms', c :: cs' => ctrl_ok d m c /\ go ms' cs'
         | _, _ => False
         end) ms cs
  | _, _ => False
  end.

(** Controls as vectors: multiples, differences, and zero controls.  The second
    operand of a difference is read in row-major order in the shape of the first
    (the same controls may come with shape (n, d) or flattened). *)
Fixpoint cscal (s : R) (c : ctrl) : ctrl :=
  match c with
  | CLeaf t => CLeaf (tscal s t)
  | CList l => CList (map (cscal s) l)
  end.

Fixpoint csub (c c' : ctrl) {struct c} : ctrl :=
  match c, c' with
  | CLeaf t, CLeaf t' => CLeaf (tsub t (reshape (shape t) t'))
  | CList l, CList l' =>
      CList ((fix go (l l' : list ctrl) : list ctrl :=
                match l, l' with
                | a :: r, a' :: r' => csub a a' :: go r r'
                | _, _ => []
                end) l l')
  | _, _ => c
  end.

Fixpoint cnull (c : ctrl) : Prop :=
  match c with
  | CLeaf t => forall idx, valid (shape t) idx -> get t idx = 0
  | CList l => fold_right (fun c acc => cnull c /\ acc) True l
  end.

(** The same control values, up to the layout of tensors. *)
Fixpoint ceq (c c' : ctrl) {struct c} : Prop :=
  match c, c' with
  | CLeaf t, CLeaf t' =>
      prod (shape t) = prod (shape t') /\
      forall k, (k < prod (shape t))%nat -> (tflatten t) @1 k = (tflatten t') @1 k
  | CList l, CList l' =>
      (fix go (l l' : list ctrl) : Prop :=
         match l, l' with
         | [], [] => True
         | a :: r, a' :: r' => ceq a a' /\ go r r'
         | _, _ => False
         end) l l'
  | _, _ => False
  end.

(** <p, v> - cost: pairing of the field of the module with the cotangents of [man],
    minus the cost. *)
Definition gain (m : dmod) (man : gman) : res R :=
  f <- field_generator m ;;
  a <- inner_prod_field man (feval f) ;;
  c <- cost m ;;
  Ok (a - c).

(** The field of the module at a point and its Jacobian. *)
Definition mod_field (m : dmod) (P : sfield -> Prop) : Prop :=
  exists f, field_generator m = Ok f /\ P f.

(** The matrix R diag(C h) R^T prescribed at the n-th point of an order-1 module. *)
Definition growth (d r : nat) (C gd1 h : tensor) (n a b : nat) : R :=
  rsum d (fun i => gd1 @3 n a i * rsum r (fun k => C @3 n i k * h @1 k) * gd1 @3 n b i).

(** Divergence of a field at a point. *)
Definition divergence (d : nat) (f : sfield) (p : nat -> R) : R := rsum d (fun a => fjac d f p a a).

(** Sufficient conditions for the linear systems of the module to be solvable and
    for its cost to be definite: distinct points (or a positive nu), non-zero
    directions, and for the order-1 module controls that can be read from the
    prescribed matrices. *)
Fixpoint regular (d : nat) (m : dmod) : Prop :=
  match m with
  | MGlobal _ _ _ | MLinear _ _ _ _ _ | MSilent _ => True
  | MTrans _ _ _ nb gd _ _ => distinct d nb (vrow gd)
  | MImp0 _ _ nu _ _ nb gd _ _ => 0 < nu \/ distinct d nb (vrow gd)
  | MOriented _ _ _ _ nb gd0 gd1 _ _ _ =>
      distinct d nb (vrow gd0) /\
      forall i, (i < nb)%nat -> exists a, (a < d)%nat /\ gd1 @2 i a <> 0
  | MLocal _ _ fs fv _ _ gd _ _ =>
      forall s v, fs gd = Ok s -> fv gd = Ok v ->
        distinct d (nrows s) (vrow s) /\
        exists i a, (i < nrows s)%nat /\ (a < d)%nat /\ v @2 i a <> 0
  | MImp1 _ _ nu _ C _ nb gd0 gd1 _ _ _ _ =>
      let r := tnth (shape C) 2 in
      (0 < nu \/ distinct d nb (vrow gd0)) /\
      forall h, shape h = [r] ->
        (forall n a b, (n < nb)%nat -> (a < d)%nat -> (b < d)%nat -> growth d r C gd1 h n a b = 0) ->
        forall k, (k < r)%nat -> h @1 k = 0
  | MDivFree _ cd nu _ _ n0 n1 gd _ _ _ =>
      0 < nu \/ (cd <> 0 /\ (0 < d)%nat /\ distinct d (n0 + n1) (vrow gd))
  | MArap _ ca nu _ _ n0 n1 gd _ _ _ =>
      0 < nu \/ (ca <> 0 /\ distinct d (n0 + n1) (vrow gd))
  | MComp ms => fold_right (fun m acc => regular d m /\ acc) True ms
  end.

(** The module contains an implicit module of order 1, whose geodesic controls use
    the Jacobian of the field of the cotangents. *)
Fixpoint first_order (m : dmod) : Prop :=
  match m with
  | MImp1 _ _ _ _ _ _ _ _ _ _ _ _ _ | MDivFree _ _ _ _ _ _ _ _ _ _ _
  | MArap _ _ _ _ _ _ _ _ _ _ _ => True
  | MComp ms => fold_right (fun m acc => first_order m \/ acc) False ms
  | _ => False
  end.
