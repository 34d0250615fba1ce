(** Property theorems about manifold storage (C01 to C07). *)
From Coq Require Import Reals String List Arith Lia Lra.
From Verif Require Import Py Tensor ManifoldModel SpecManifold ManifoldFacts ManifoldState PropManifoldAux.
Import ListNotations.
Open Scope string_scope.
Open Scope list_scope.
Open Scope nat_scope.

(** C01: rolling a flat list consumes exactly len_gd tensors from its front, leaves the
    rest, and what it gives fills the manifold so that it unrolls to those tensors; the
    two other parts are untouched.  [splits m l]: one tensor per descriptor, those of one
    leaf agreeing on device and dtype. *)
Theorem C01_roll_fill_unroll : forall p m l rest,
  p <> Tan -> all_leaves leaf_made m -> splits m l ->
  exists v m', roll p m (map VT l ++ rest) = Ok (v, rest) /\
    fill p m v false None = (m', None) /\ unroll p m' = map VT l /\
    forall q, q <> p -> unroll q m' = unroll q m.
Proof. exact roll_fill_unroll. Qed.
Print Assumptions C01_roll_fill_unroll.

Example C01_hypotheses :
  all_leaves leaf_made ex_man /\ splits ex_man ex_flat /\ len_gd ex_man = 4.
Proof. exact ex_man_ok. Qed.

(** C01: rolling what was unrolled and filling it back changes nothing: neither the
    unrolled lists nor what the getters return. *)
Theorem C01_fill_roll_unroll_identity : forall p m,
  p <> Tan -> all_leaves leaf_made m -> all_leaves (leaf_full p) m ->
  exists v m', roll p m (unroll p m) = Ok (v, []) /\ fill p m v false None = (m', None) /\
    forall q, unroll q m' = unroll q m /\ getter q m' = getter q m.
Proof. exact roll_unroll_identity. Qed.
Print Assumptions C01_fill_roll_unroll_identity.

Example C01_identity_hypotheses :
  all_leaves leaf_made ex_man /\ all_leaves (leaf_full Gd) ex_man /\ length (unroll Gd ex_man) = 4.
Proof. exact ex_man_full. Qed.

(** C01: exactly len_gd entries are consumed whatever the list contains; a shorter list
    raises IndexError. *)
Theorem C01_consumption : forall p m l, p <> Tan -> all_leaves leaf_made m ->
  (len_gd m <= length l -> exists v, roll p m l = Ok (v, skipn (len_gd m) l)) /\
  (length l < len_gd m -> roll p m l = Err IndexError).
Proof. exact roll_consumes. Qed.
Print Assumptions C01_consumption.

Theorem C01_unroll_length : forall m p, all_leaves (leaf_full p) m -> length (unroll p m) = len_gd m.
Proof. exact unroll_length. Qed.
Print Assumptions C01_unroll_length.

(** C01: any list of len_gd tensors of one device and dtype is suitable. *)
Theorem C01_uniform_lists : forall m l, all_leaves (fun lf => 1 <= length (l_shapes lf)) m ->
  length l = len_gd m -> uniform l -> splits m l.
Proof. exact uniform_splits. Qed.
Print Assumptions C01_uniform_lists.

(** C02: a fill by reference makes the getter return exactly the argument; a fill by
    copy stores the same values (with the requested recording flag); in all cases the
    unrolled list is the flat list of the argument and the two other parts are
    unchanged. *)
Theorem C02_fill_sets_part : forall p m v l copy rg,
  all_leaves leaf_made m -> arg m v l ->
  exists m', fill p m v copy rg = (m', None) /\
    unroll p m' = map (fun t => VT (if copy then match rg with Some b => set_rg b t | None => t end else t)) l /\
    (copy = false -> no_empty m -> getter p m' = Ok v) /\
    forall q, q <> p -> unroll q m' = unroll q m /\ getter q m' = getter q m.
Proof. exact fill_sets_part. Qed.
Print Assumptions C02_fill_sets_part.

Example C02_hypotheses : all_leaves leaf_made ex_man /\ arg ex_man ex_arg ex_flat.
Proof. exact ex_arg_ok. Qed.

(** C02: no history of fills, additions, negations, ... of other parts, whether they
    succeed or raise half-way, changes a part. *)
Theorem C02_frame : forall q ops m, Forall (fun o => ~ touches o q) ops ->
  unroll q (exec ops m) = unroll q m /\ getter q (exec ops m) = getter q m.
Proof. exact exec_frame. Qed.
Print Assumptions C02_frame.

Example C02_frame_hypotheses : Forall (fun o => ~ touches o Cotan)
  [OFill Gd ex_arg true None; OAdd Gd VNone; ONegate Tan; ORequires Gd true 0; OFill Tan VNone false None].
Proof. repeat constructor; discriminate. Qed.

(** C03: adding twice is adding the sum. *)
Theorem C03_add_add : forall p m va vb vab a b xs,
  all_leaves leaf_made m -> all_leaves (leaf_filled p) m -> unroll p m = map VT xs ->
  arg m va a -> arg m vb b -> arg m vab (add_all a b) -> same_devices xs a -> same_devices xs b ->
  exists m1 m2 m3, add p m va = (m1, None) /\ add p m1 vb = (m2, None) /\ add p m vab = (m3, None) /\
    unroll p m2 = unroll p m3 /\ unroll p m3 = map VT (add_all xs (add_all a b)).
Proof. exact add_add. Qed.
Print Assumptions C03_add_add.

(** C03: negation is an involution and negates every tensor. *)
Theorem C03_negate_involution : forall p m xs, all_leaves (leaf_filled p) m -> unroll p m = map VT xs ->
  exists m1 m2, negate p m = (m1, None) /\ unroll p m1 = map VT (neg_all xs) /\
    negate p m1 = (m2, None) /\ unroll p m2 = unroll p m.
Proof. exact negate_negate. Qed.
Print Assumptions C03_negate_involution.

(** C03: negation distributes over addition. *)
Theorem C03_negate_add : forall p m v v' l xs,
  all_leaves leaf_made m -> all_leaves (leaf_filled p) m -> unroll p m = map VT xs ->
  arg m v l -> arg m v' (neg_all l) -> same_devices xs l ->
  exists m1 m2 m3 m4, add p m v = (m1, None) /\ negate p m1 = (m2, None) /\
    negate p m = (m3, None) /\ add p m3 v' = (m4, None) /\ unroll p m2 = unroll p m4.
Proof. exact negate_add. Qed.
Print Assumptions C03_negate_add.

(** C03: adding zeros changes nothing. *)
Theorem C03_add_zeros : forall p m v zs xs,
  all_leaves leaf_made m -> all_leaves (leaf_filled p) m -> unroll p m = map VT xs -> arg m v zs ->
  Forall2 (fun x z => tdev x = tdev z /\ tdty z = tdty x /\ trg z = false /\ forall i, get (tval z) i = 0%R) xs zs ->
  exists m', add p m v = (m', None) /\ unroll p m' = unroll p m.
Proof. exact add_zeros. Qed.
Print Assumptions C03_add_zeros.

(** C03: additions and negations keep the shapes. *)
Theorem C03_shapes : forall xs l, length xs = length l ->
  map (fun t => shape (tval t)) (add_all xs l) = map (fun t => shape (tval t)) xs /\
  map (fun t => shape (tval t)) (neg_all xs) = map (fun t => shape (tval t)) xs.
Proof. exact add_neg_shapes. Qed.
Print Assumptions C03_shapes.

Example C03_hypotheses : exists xs,
  all_leaves leaf_made ex_man /\ all_leaves (leaf_filled Gd) ex_man /\ unroll Gd ex_man = map VT xs /\
  arg ex_man ex_arg ex_flat /\ same_devices xs ex_flat.
Proof. exact ex_add_ok. Qed.

(** C04, refuted: filling a freshly built manifold with tensors of another dtype or on
    another device leaves the reported dtype and device unchanged; and converting a
    compound leaves its reported dtype unchanged. *)
Theorem C04_truthful_refuted :
  (exists lf t lf', leaf_init F32 [[2]] 1 VNone VNone VNone None None = Ok lf /\
     step (MLeaf lf) (OFill Gd (VT t) false None) = (MLeaf lf', None) /\
     c_tensors (l_gd lf') = [VT t] /\
     man_dtype (MLeaf lf') = Some F32 /\ tdty t = F64 /\
     man_device (MLeaf lf') = Ok (Some "cpu"%string) /\ tdev t = "cuda:0"%string) /\
  (exists lf c c', leaf_init F32 [[2]] 1 VNone VNone VNone None None = Ok lf /\
     comp_init [MLeaf lf] = Ok c /\ step c (OTo (ToDtype F64)) = (c', None) /\
     man_dtype c' = Some F32 /\ Forall (fun x => exists t, x = VT t /\ tdty t = F64) (unroll Gd c')).
Proof. exact truthful_refuted. Qed.
Print Assumptions C04_truthful_refuted.

(** C04, what holds: a manifold built without tensors stays truthful along every history
    of operations (conversions included) whose filled and added tensors have, at the
    time they are given, the reported device and dtype. *)
Theorem C04_truthful_on_matching_histories : forall ddt shapes nb dv dt lf ops,
  leaf_init ddt shapes nb VNone VNone VNone dv dt = Ok lf -> matching_history ops lf ->
  exists lf', exec ops (MLeaf lf) = MLeaf lf' /\ leaf_truthful lf'.
Proof. exact truthful_history. Qed.
Print Assumptions C04_truthful_on_matching_histories.

Example C04_hypotheses : exists lf,
  leaf_init F32 [[2]; [2; 2]] 3 VNone VNone VNone None None = Ok lf /\
  matching_history [OZeros Gd true; OTo (ToDtype F64);
                    OFill Gd (VL [VT (zeros_tob [3; 2] "cpu" F64 false); VT (zeros_tob [3; 2; 2] "cpu" F64 false)]) true (Some true);
                    ONegate Gd; ORequires Gd false (-1)] lf.
Proof. exact ex_matching. Qed.

(** C05, refuted: on a fresh manifold with two descriptors, and after any successful
    fill, selecting one tensor raises TypeError. *)
Theorem C05_select_one_refuted :
  (exists lf, leaf_init F32 [[2]; [2; 2]] 3 VNone VNone VNone None None = Ok lf /\
     requires_grad_ Gd (MLeaf lf) true 0 = (MLeaf lf, Some TypeError)) /\
  (forall p lf v copy rg lf' (i : nat) t flag,
     fill p (MLeaf lf) v copy rg = (MLeaf lf', None) ->
     nth_error (c_tensors (get_part p lf')) i = Some (VT t) ->
     requires_grad_ p (MLeaf lf') flag (Z.of_nat i) = (MLeaf lf', Some TypeError)).
Proof. exact select_one_refuted. Qed.
Print Assumptions C05_select_one_refuted.

(** C05, what holds: right after a conversion, or after setting the flag of all tensors,
    selecting tensor i succeeds and changes the flag of tensor i and nothing else. *)
Theorem C05_select_one_partial : forall p lf o lf' (i : nat) t flag,
  (o = ORequires p flag (-1) \/ (exists d, o = OTo (ToStr d)) \/ (exists d, o = OTo (ToDtype d))) ->
  step (MLeaf lf) o = (MLeaf lf', None) ->
  nth_error (c_tensors (get_part p lf')) i = Some (VT t) ->
  exists lf'', requires_grad_ p (MLeaf lf') flag (Z.of_nat i) = (MLeaf lf'', None) /\
    nth_error (c_tensors (get_part p lf'')) i = Some (VT (set_rg flag t)) /\
    (forall j, j <> i -> nth_error (c_tensors (get_part p lf'')) j = nth_error (c_tensors (get_part p lf')) j) /\
    (forall q, q <> p -> get_part q lf'' = get_part q lf').
Proof. exact select_one_ok. Qed.
Print Assumptions C05_select_one_partial.

Example C05_hypotheses : exists lf lf' t,
  leaf_init F32 [[2]; [2; 2]] 3 VNone VNone VNone None None = Ok lf /\
  step (MLeaf lf) (ORequires Gd false (-1)) = (MLeaf lf', None) /\
  nth_error (c_tensors (get_part Gd lf')) 1 = Some (VT t).
Proof. cbn. do 3 eexists. repeat split. Qed.

(** C06, refuted: a fill that raises because of mixed dtypes has changed the device of
    the container, hence where later fill_gd_zeros() puts its tensors; and a fill of a
    compound with a list that is too short has filled the first members. *)
Theorem C06_atomic_fill_refuted :
  (exists lf v m' m'', leaf_init F32 [[2]; [2]] 1 VNone VNone VNone None None = Ok lf /\
     step (MLeaf lf) (OFill Gd v false None) = (m', Some RuntimeError) /\
     step m' (OZeros Gd false) = (m'', None) /\
     Forall (fun x => exists t, x = VT t /\ tdev t = "cpu"%string) (unroll Gd (MLeaf lf)) /\
     Forall (fun x => exists t, x = VT t /\ tdev t = "cuda:0"%string) (unroll Gd m'')) /\
  (exists lf c v c', leaf_init F32 [[2]] 1 VNone VNone VNone None None = Ok lf /\
     comp_init [MLeaf lf; MLeaf lf] = Ok c /\
     step c (OFill Gd v false None) = (c', Some IndexError) /\
     (exists t, nth_error (unroll Gd c) 0 = Some (VT t) /\ get (tval t) [0; 0] = 0%R) /\
     (exists t, nth_error (unroll Gd c') 0 = Some (VT t) /\ get (tval t) [0; 0] = 1%R)).
Proof. exact atomic_refuted. Qed.
Print Assumptions C06_atomic_fill_refuted.

(** C06, what holds for a manifold which is not a compound: a fill that raises leaves all
    the tensors, the getters and the reported device and dtype unchanged (only the
    device and dtype used by later fill_*_zeros/randn may change), and leaves everything
    unchanged when it raises because the devices differ. *)
Theorem C06_atomic_fill_partial : forall p lf v copy rg m' e,
  step (MLeaf lf) (OFill p v copy rg) = (m', Some e) ->
  (forall q, unroll q m' = unroll q (MLeaf lf) /\ getter q m' = getter q (MLeaf lf)) /\
  man_device m' = man_device (MLeaf lf) /\ man_dtype m' = man_dtype (MLeaf lf) /\
  ((forall d, tensors_device v <> Ok (Some d)) -> m' = MLeaf lf).
Proof. exact failing_fill. Qed.
Print Assumptions C06_atomic_fill_partial.

Example C06_hypotheses : exists lf m', leaf_init F32 [[2]; [2]] 1 VNone VNone VNone None None = Ok lf /\
  step (MLeaf lf) (OFill Gd (VL [VT (zeros_tob [1; 2] "cpu" F64 false); VT (zeros_tob [1; 2] "cuda:0" F64 false)])
                     false None) = (m', Some RuntimeError).
Proof. cbn. do 2 eexists. split; reflexivity. Qed.

(** C07, refuted: a manifold without points has no descriptor but one size, also inside a
    compound; and since fill_gd does not look at shapes, the sizes may be wrong. *)
Theorem C07_sizes_refuted :
  (forall n dv dt, len_gd (MEmpty n dv dt) = 0 /\ length (unroll Gd (MEmpty n dv dt)) = 0 /\
     length (numel_gd (MEmpty n dv dt)) = 1) /\
  (exists lf c, leaf_init F32 [[2]] 3 VNone VNone VNone None None = Ok lf /\
     comp_init [MEmpty 2 (Some "cpu"%string) F32; MLeaf lf] = Ok c /\
     len_gd c = 1 /\ numel_gd c = [0; 6]) /\
  (exists lf m' t, leaf_init F32 [[2]] 3 VNone VNone VNone None None = Ok lf /\
     step (MLeaf lf) (OFill Gd (VT t) false None) = (m', None) /\
     unroll Gd m' = [VT t] /\ numel_gd m' = [6] /\ prod (shape (tval t)) = 4).
Proof. exact sizes_refuted. Qed.
Print Assumptions C07_sizes_refuted.

(** C07, what holds: for trees without point-less manifolds whose tensors have the
    declared shapes, numel_gd has one entry per descriptor, its number of elements, and
    cutting the concatenation of the flattened descriptors along numel_gd recovers
    each of them. *)
Theorem C07_sizes : forall m, all_leaves (leaf_shaped Gd) m -> no_empty m ->
  exists l, unroll Gd m = map VT l /\ length l = len_gd m /\ length (numel_gd m) = len_gd m /\
    numel_gd m = map (fun t => prod (shape (tval t))) l /\
    slices (numel_gd m) (List.concat (map (fun t => flat (tval t)) l)) = map (fun t => flat (tval t)) l.
Proof. exact numel_slices. Qed.
Print Assumptions C07_sizes.

(** C07: with point-less manifolds the total size is still right. *)
Theorem C07_total_size : forall m, all_leaves (leaf_shaped Gd) m ->
  exists l, unroll Gd m = map VT l /\ list_sum (numel_gd m) = list_sum (map (fun t => prod (shape (tval t))) l).
Proof. exact numel_sum. Qed.
Print Assumptions C07_total_size.

Example C07_hypotheses : exists lf, leaf_init F32 [[2]; [2; 2]] 3 VNone VNone VNone None None = Ok lf /\
  let m := MComp None None [MLeaf lf; MComp None None [MLeaf lf]] in
  all_leaves (leaf_shaped Gd) m /\ no_empty m /\ len_gd m = 4.
Proof. exact ex_shaped. Qed.
