(** Model of imodal/Manifolds: TensorContainer, Manifold, EmptyManifold and
    CompoundManifold, as far as storage is concerned (the geometry of the concrete
    manifolds is in [GeometryModel]).

    Objects are values: a method that mutates [self] returns the new state
    together with the exception it raised, if any ([None] = no exception), so
    that partial mutations are visible.  Sharing of one manifold object by several
    compounds is not modelled (manifold trees). *)
From Coq Require Import Reals String List Arith Bool.
From Verif Require Import Py Tensor.
Import ListNotations.
Open Scope list_scope.
Open Scope nat_scope.

Inductive dtype := F32 | F64 | I64.
Definition device := string.   (* str(tensor.device) *)

(** A torch.Tensor: values, device, dtype and requires_grad flag.  (Whether it is a
    leaf of the autograd graph is not modelled here.) *)
Record tob := mkTob { tval : tensor; tdev : device; tdty : dtype; trg : bool }.

(** Python values that can be given to the fill methods. *)
Inductive pyv := VNone | VT (t : tob) | VL (l : list pyv).

(** The i-th slice of a tensor along its first axis. *)
Definition trow (t : tob) (i : nat) : tob :=
  mkTob (mkT (tl (shape (tval t))) (fun idx => get (tval t) (i :: idx))) (tdev t) (tdty t) (trg t).

(** [iter(v)] *)
Definition py_iter (v : pyv) : res (list pyv) :=
  match v with
  | VNone => Err TypeError
  | VL l => Ok l
  | VT t => match shape (tval t) with
            | [] => Err TypeError
            | n :: _ => Ok (map (fun i => VT (trow t i)) (seq 0 n))
            end
  end.

(** [v[i]] for a natural number i *)
Definition py_index (v : pyv) (i : nat) : res pyv :=
  match v with
  | VNone => Err TypeError
  | VL l => match nth_error l i with Some x => Ok x | None => Err IndexError end
  | VT t => match shape (tval t) with
            | [] => Err IndexError
            | n :: _ => if Nat.ltb i n then Ok (VT (trow t i)) else Err IndexError
            end
  end.

(** ** Utilities/usefulfunctions.py *)

(** flatten_tensor_list, 195-208 *)
Fixpoint flatten_tensors (v : pyv) : list tob :=
  match v with
  | VNone => []
  | VT t => [t]
  | VL l => flat_map flatten_tensors l
  end.

(** shared_tensors_property, 212-248, for properties of tensors that are never
    None.  [eqb] is Python's ==.  An element which is neither None nor a tensor has
    no such attribute. *)
Definition shared_property {P} (eqb : P -> P -> bool) (prop : tob -> P) (v : pyv) : res (option P) :=
  match v with
  | VNone => Err AssertionError              (* assert isinstance(tensors, Iterable) *)
  | VT t => Ok (Some (prop t))
  | VL l =>
      ps <- mapM (fun x => match x with
                        | VNone => Ok []
                        | VT t => Ok [prop t]
                        | VL _ => Err AttributeError
                        end) l ;;
      match List.concat ps with
      | [] => Ok None
      | p :: ps' => if forallb (fun q => eqb q p) ps' then Ok (Some p) else Ok None
      end
  end.

Definition dtype_eqb (a b : dtype) : bool :=
  match a, b with F32, F32 | F64, F64 | I64, I64 => true | _, _ => false end.

(** tensors_device, 251-264; tensors_dtype, 267-280 *)
Definition tensors_device (v : pyv) : res (option device) := shared_property String.eqb tdev v.
Definition tensors_dtype (v : pyv) : res (option dtype) := shared_property dtype_eqb tdty v.

(** ** tensor_container.py *)

Inductive skind := KTuple | KList.

(** The attributes __shapes, __tensors (a tuple or a list), __device, __dtype. *)
Record cont := mkCont {
  c_shapes : list (list nat);
  c_kind : skind;
  c_tensors : list pyv;
  c_dev : device;
  c_dty : dtype
}.

Definition zeros_tob (sh : list nat) (dv : device) (dt : dtype) (rg : bool) : tob :=
  mkTob (tzeros sh) dv dt rg.

(** __init__, 10-17 *)
Definition cont_init (shapes : list (list nat)) (dv : device) (dt : dtype) : cont :=
  mkCont shapes KTuple (map (fun sh => VT (zeros_tob sh dv dt false)) shapes) dv dt.

(** tensor operations raise AttributeError on None and on lists *)
Definition on_tensor (f : tob -> tob) (v : pyv) : res pyv :=
  match v with VT t => Ok (VT (f t)) | _ => Err AttributeError end.

Definition set_rg (b : bool) (t : tob) : tob := mkTob (tval t) (tdev t) (tdty t) b.
Definition set_dev (d : device) (t : tob) : tob := mkTob (tval t) d (tdty t) (trg t).
Definition set_dty (d : dtype) (t : tob) : tob := mkTob (tval t) (tdev t) d (trg t).

(** [self.__tensors = kind(f(t) for t in self.__tensors)]: no assignment if a
    tensor operation raises. *)
Definition cont_map (k : skind) (f : tob -> tob) (c : cont) : cont * option exn :=
  match mapM (on_tensor f) (c_tensors c) with
  | Ok ts => (mkCont (c_shapes c) k ts (c_dev c) (c_dty c), None)
  | Err e => (c, Some e)
  end.

(** to_device, 45-48 (the device attribute is assigned first); a dtype conversion
    keeps the values (rounding is not modelled). *)
Definition cont_to_device (d : device) (c : cont) : cont * option exn :=
  cont_map KList (set_dev d) (mkCont (c_shapes c) (c_kind c) (c_tensors c) d (c_dty c)).
(** to_dtype, 50-53 *)
Definition cont_to_dtype (d : dtype) (c : cont) : cont * option exn :=
  cont_map KList (set_dty d) (mkCont (c_shapes c) (c_kind c) (c_tensors c) (c_dev c) d).

(** unroll, 55-62 *)
Definition cont_unroll (c : cont) : list pyv := c_tensors c.

(** [l.pop(0)] *)
Definition pop (l : list pyv) : res (pyv * list pyv) :=
  match l with [] => Err IndexError | x :: l' => Ok (x, l') end.
Fixpoint pops (n : nat) (l : list pyv) : res (list pyv * list pyv) :=
  match n with
  | 0 => Ok ([], l)
  | S n' =>
      ' (x, l') <- pop l ;;
      ' (xs, l'') <- pops n' l' ;;
      Ok (x :: xs, l'')
  end.

(** roll, 64-71 *)
Definition cont_roll (c : cont) (l : list pyv) : res (pyv * list pyv) :=
  match length (c_shapes c) with
  | 0 => Ok (VNone, l)
  | 1 => pop l
  | n => ' (xs, l') <- pops n l ;; Ok (VL xs, l')
  end.

(** fill, 76-112 *)
Definition cont_fill (c : cont) (v : pyv) (clone : bool) (rg : option bool) : cont * option exn :=
  match tensors_device v with
  | Err e => (c, Some e)
  | Ok None => (c, Some RuntimeError)
  | Ok (Some dv) =>
      let c1 := mkCont (c_shapes c) (c_kind c) (c_tensors c) dv (c_dty c) in
      match tensors_dtype v with
      | Err e => (c1, Some e)
      | Ok None => (c1, Some RuntimeError)
      | Ok (Some dt) =>
          let c2 := mkCont (c_shapes c) (c_kind c) (c_tensors c) dv dt in
          let v' := match v with
                    | VT t => if Nat.eqb (length (c_shapes c)) 1 then VL [VT t] else v
                    | _ => v
                    end in
          match py_iter v' with
          | Err e => (c2, Some e)
          | Ok l =>
              let elems :=
                if clone then
                  match rg with
                  | Some b => mapM (on_tensor (set_rg b)) l     (* detach().clone().requires_grad_(b) *)
                  | None => mapM (on_tensor (fun t => t)) l     (* clone() *)
                  end
                else Ok l in
              match elems with
              | Err e => (c2, Some e)
              | Ok ts => (mkCont (c_shapes c) KTuple ts dv dt, None)
              end
          end
      end
  end.

(** fill_zeros, 116-124 *)
Definition cont_fill_zeros (rg : bool) (c : cont) : cont :=
  mkCont (c_shapes c) KTuple
    (map (fun sh => VT (zeros_tob sh (c_dev c) (c_dty c) rg)) (c_shapes c)) (c_dev c) (c_dty c).

(** fill_randn, 126-134; [rnd i] are the random values of the i-th tensor. *)
Fixpoint randn_tensors (rnd : nat -> list nat -> R) (i : nat) (shapes : list (list nat))
    (dv : device) (dt : dtype) (rg : bool) : list pyv :=
  match shapes with
  | [] => []
  | sh :: shapes' => VT (mkTob (mkT sh (rnd i)) dv dt rg) :: randn_tensors rnd (S i) shapes' dv dt rg
  end.
Definition cont_fill_randn (rnd : nat -> list nat -> R) (rg : bool) (c : cont) : cont :=
  mkCont (c_shapes c) KTuple (randn_tensors rnd 0 (c_shapes c) (c_dev c) (c_dty c) rg) (c_dev c) (c_dty c).

(** requires_grad_, 136-150.  [index] is a Python integer. *)
Definition cont_requires_grad (rg : bool) (index : Z) (c : cont) : cont * option exn :=
  if Z.eqb index (-1) then cont_map KList (set_rg rg) c
  else
    let n := Z.of_nat (length (c_tensors c)) in
    let i := if Z.ltb index 0 then Z.add n index else index in
    if (Z.ltb i 0 || Z.leb n i)%bool then (c, Some IndexError)
    else
      match nth_error (c_tensors c) (Z.to_nat i) with
      | Some (VT t) =>
          match c_kind c with
          | KTuple => (c, Some TypeError)     (* 'tuple' object does not support item assignment *)
          | KList =>
              (mkCont (c_shapes c) KList
                 (firstn (Z.to_nat i) (c_tensors c) ++ VT (set_rg rg t) :: skipn (S (Z.to_nat i)) (c_tensors c))
                 (c_dev c) (c_dty c), None)
          end
      | _ => (c, Some AttributeError)
      end.

(** clone / __deepcopy__, 27-43 *)
Definition cont_clone (c : cont) : res cont :=
  match cont_fill (cont_init (c_shapes c) (c_dev c) (c_dty c)) (VL (c_tensors c)) true None with
  | (c', None) => Ok c'
  | (_, Some e) => Err e
  end.

(** t0 + t: devices must agree, the dtype is promoted, same shapes assumed. *)
Definition promote (a b : dtype) : dtype :=
  match a, b with
  | F64, _ | _, F64 => F64
  | F32, _ | _, F32 => F32
  | I64, I64 => I64
  end.
Definition tob_add (a b : tob) : tob :=
  mkTob (tadd (tval a) (tval b)) (tdev a) (promote (tdty a) (tdty b)) (trg a || trg b).
Definition py_add (a b : pyv) : res pyv :=
  match a, b with
  | VT s, VT t => if String.eqb (tdev s) (tdev t) then Ok (VT (tob_add s t)) else Err RuntimeError
  | _, _ => Err TypeError
  end.

(** add, 152-156 *)
Definition cont_add (c : cont) (v : pyv) : cont * option exn :=
  let v' := if Nat.eqb (length (c_shapes c)) 1 then VL [v] else v in
  match py_iter v' with
  | Err e => (c, Some e)
  | Ok l =>
      match mapM (fun p => py_add (fst p) (snd p)) (combine (c_tensors c) l) with
      | Err e => (c, Some e)
      | Ok ts => (mkCont (c_shapes c) KTuple ts (c_dev c) (c_dty c), None)
      end
  end.

(** negate, 158-160 *)
Definition cont_negate (c : cont) : cont * option exn :=
  match mapM (fun v => match v with
                       | VT t => Ok (VT (mkTob (topp (tval t)) (tdev t) (tdty t) (trg t)))
                       | _ => Err TypeError
                       end) (c_tensors c) with
  | Ok ts => (mkCont (c_shapes c) KTuple ts (c_dev c) (c_dty c), None)
  | Err e => (c, Some e)
  end.

(** ** Abstract.py, Empty.py, Compound.py *)

(** A [Manifold].  [l_dev]/[l_dty] are the attributes of BaseManifold returned by
    the properties device and dtype; [l_mdev] is the attribute _Manifold__device
    assigned by fill_gd/fill_tan/fill_cotan (Abstract.py:339, 343, 347) because of
    name mangling, and read by nothing. *)
Record leaf := mkLeaf {
  l_shapes : list (list nat);
  l_nb : nat;
  l_dev : device;
  l_dty : dtype;
  l_mdev : option device;
  l_gd : cont;
  l_tan : cont;
  l_cotan : cont
}.

Inductive man :=
| MLeaf (l : leaf)
| MEmpty (dim : nat) (dv : option device) (dt : dtype)
| MComp (dv : option device) (dt : option dtype) (ms : list man).

(** Which of the three tensors of the manifold a method works on. *)
Inductive part := Gd | Tan | Cotan.

Definition get_part (p : part) (l : leaf) : cont :=
  match p with Gd => l_gd l | Tan => l_tan l | Cotan => l_cotan l end.
Definition set_part (p : part) (c : cont) (l : leaf) : leaf :=
  match p with
  | Gd => mkLeaf (l_shapes l) (l_nb l) (l_dev l) (l_dty l) (l_mdev l) c (l_tan l) (l_cotan l)
  | Tan => mkLeaf (l_shapes l) (l_nb l) (l_dev l) (l_dty l) (l_mdev l) (l_gd l) c (l_cotan l)
  | Cotan => mkLeaf (l_shapes l) (l_nb l) (l_dev l) (l_dty l) (l_mdev l) (l_gd l) (l_tan l) c
  end.
Definition set_mdev (d : device) (l : leaf) : leaf :=
  mkLeaf (l_shapes l) (l_nb l) (l_dev l) (l_dty l) (Some d) (l_gd l) (l_tan l) (l_cotan l).

(** shape_gd, Abstract.py:287-289 *)
Definition leaf_shape_gd (shapes : list (list nat)) (nb : nat) : list (list nat) :=
  map (fun sh => nb :: sh) shapes.

(** Manifold.__init__, Abstract.py:195-243.  [default_dtype] is
    torch.get_default_dtype(). *)
Definition leaf_init (default_dtype : dtype) (shapes : list (list nat)) (nb : nat)
    (gd tan cotan : pyv) (dv : option device) (dt : option dtype) : res leaf :=
  let isnone v := match v with VNone => true | _ => false end in
  ' (dv, dt) <-
    (if (isnone gd && isnone tan && isnone cotan)%bool then
       Ok (match dv with Some d => d | None => "cpu"%string end,
           match dt with Some d => d | None => default_dtype end)
     else
       let all := VL (map VT (flatten_tensors (VL [gd; tan; cotan]))) in
       d <- match dv with
            | Some d => Ok d
            | None => o <- tensors_device all ;;
                      match o with Some d => Ok d | None => Err RuntimeError end
            end ;;
       t <- match dt with
            | Some t => Ok t
            | None => o <- tensors_dtype all ;;
                      match o with Some t => Ok t | None => Err RuntimeError end
            end ;;
       Ok (d, t)) ;;
  let c := cont_init (leaf_shape_gd shapes nb) dv dt in
  let fill v := match v with
                | VNone => Ok c
                | _ => match cont_fill c v false (Some false) with
                       | (c', None) => Ok c'
                       | (_, Some e) => Err e
                       end
                end in
  g <- fill gd ;;
  t <- fill tan ;;
  ct <- fill cotan ;;
  Ok (mkLeaf shapes nb dv dt None g t ct).

(** ** Properties *)

(** nb_pts *)
Fixpoint nb_pts (m : man) : nat :=
  match m with
  | MLeaf l => l_nb l
  | MEmpty _ _ _ => 0
  | MComp _ _ ms => list_sum (map nb_pts ms)
  end.

(** len_gd: Abstract.py:292-294, Empty.py:41-42, Compound.py:47-48 *)
Fixpoint len_gd (m : man) : nat :=
  match m with
  | MLeaf l => length (l_shapes l)
  | MEmpty _ _ _ => 0
  | MComp _ _ ms => list_sum (map len_gd ms)
  end.

(** numel_gd: Abstract.py:297-299, Empty.py:33-34, Compound.py:51-52 *)
Fixpoint numel_gd (m : man) : list nat :=
  match m with
  | MLeaf l => map prod (leaf_shape_gd (l_shapes l) (l_nb l))
  | MEmpty _ _ _ => [0]
  | MComp _ _ ms => flat_map numel_gd ms
  end.

(** shape_gd: Abstract.py:287-289, Empty.py:37-38; CompoundManifold has none. *)
Definition shape_gd (m : man) : res (list (list nat)) :=
  match m with
  | MLeaf l => Ok (leaf_shape_gd (l_shapes l) (l_nb l))
  | MEmpty _ _ _ => Ok [[]]
  | MComp _ _ _ => Err AttributeError
  end.

(** device: Abstract.py:21-22, Compound.py:25-26 (manifolds[0].device; IndexError on an
    empty compound) *)
Fixpoint man_device (m : man) : res (option device) :=
  match m with
  | MLeaf l => Ok (Some (l_dev l))
  | MEmpty _ d _ => Ok d
  | MComp _ _ [] => Err IndexError
  | MComp _ _ (m0 :: _) => man_device m0
  end.
(** dtype: Abstract.py:28-29; for compounds the value stored at construction *)
Definition man_dtype (m : man) : option dtype :=
  match m with
  | MLeaf l => Some (l_dty l)
  | MEmpty _ _ t => Some t
  | MComp _ t _ => t
  end.

(** CompoundManifold.__init__, Compound.py:7-11: tensors_device compares str(device),
    so None becomes the string 'None'. *)
Definition comp_init (ms : list man) : res man :=
  dvs <- mapM man_device ms ;;
  let sdv := map (fun d => match d with Some s => s | None => "None"%string end) dvs in
  let dts := flat_map (fun m => match man_dtype m with Some t => [t] | None => [] end) ms in
  let shared {P} (eqb : P -> P -> bool) (l : list P) :=
    match l with
    | [] => None
    | x :: l' => if forallb (fun y => eqb y x) l' then Some x else None
    end in
  Ok (MComp (shared String.eqb sdv) (shared dtype_eqb dts) ms).

(** unroll_gd, unroll_tan, unroll_cotan: Abstract.py:301-308, Empty.py:57-64,
    Compound.py:54-71 *)
Fixpoint unroll (p : part) (m : man) : list pyv :=
  match m with
  | MLeaf l => cont_unroll (get_part p l)
  | MEmpty _ _ _ => []
  | MComp _ _ ms => flat_map (unroll p) ms
  end.

(** roll_gd, roll_cotan (and roll_tan for leaves): Abstract.py:310-317,
    Empty.py:66-73, Compound.py:73-84.  CompoundManifold has no roll_tan. *)
Fixpoint roll (p : part) (m : man) (l : list pyv) {struct m} : res (pyv * list pyv) :=
  match m with
  | MLeaf lf => cont_roll (get_part p lf) l
  | MEmpty _ _ _ => Ok (VNone, l)
  | MComp _ _ ms =>
      match p with
      | Tan => Err AttributeError
      | _ =>
          ' (xs, l') <-
            (fix go (ms : list man) (l : list pyv) : res (list pyv * list pyv) :=
               match ms with
               | [] => Ok ([], l)
               | m :: ms' =>
                   ' (x, l') <- roll p m l ;;
                   ' (xs, l'') <- go ms' l' ;;
                   Ok (x :: xs, l'')
               end) ms l ;;
          Ok (VL xs, l')
      end
  end.

(** The getters gd, tan, cotan: Abstract.py:319-335, Empty.py:75-82,
    Compound.py:86-93. *)
Definition empty_tob (dv : option device) (dt : dtype) : tob :=
  mkTob (mkT [0] (fun _ => 0%R)) (match dv with Some d => d | None => "cpu"%string end) dt false.

Fixpoint getter (p : part) (m : man) : res pyv :=
  match m with
  | MLeaf l =>
      if Nat.eqb (length (l_shapes l)) 1 then
        match c_tensors (get_part p l) with [] => Err IndexError | x :: _ => Ok x end
      else Ok (VL (c_tensors (get_part p l)))
  | MEmpty _ dv dt => Ok (VT (empty_tob dv dt))
  | MComp _ _ ms => xs <- mapM (getter p) ms ;; Ok (VL xs)
  end.

(** Manifold.fill_gd / fill_tan / fill_cotan, Abstract.py:337-347 *)
Definition leaf_fill (p : part) (l : leaf) (v : pyv) (copy : bool) (rg : option bool) : leaf * option exn :=
  match cont_fill (get_part p l) v copy rg with
  | (c, Some e) => (set_part p c l, Some e)
  | (c, None) => (set_mdev (c_dev c) (set_part p c l), None)
  end.

(** Run [f] on the manifolds and the values of a zip, in order, stopping at the first
    exception. *)
Fixpoint zip_loop (fs : list (man -> pyv -> man * option exn)) (ms : list man) (vs : list pyv)
  : list man * option exn :=
  match fs, ms, vs with
  | f :: fs', m :: ms', v :: vs' =>
      match f m v with
      | (m', Some e) => (m' :: ms', Some e)
      | (m', None) => let (ms'', e) := zip_loop fs' ms' vs' in (m' :: ms'', e)
      end
  | _, _, _ => (ms, None)
  end.

(** The same for [for i in range(len(manifolds)): manifolds[i].f(v[i])]. *)
Fixpoint index_loop (fs : list (man -> pyv -> man * option exn)) (ms : list man) (v : pyv) (i : nat)
  : list man * option exn :=
  match fs, ms with
  | f :: fs', m :: ms' =>
      match py_index v i with
      | Err e => (ms, Some e)
      | Ok x =>
          match f m x with
          | (m', Some e) => (m' :: ms', Some e)
          | (m', None) => let (ms'', e) := index_loop fs' ms' v (S i) in (m' :: ms'', e)
          end
      end
  | _, _ => (ms, None)
  end.

(** fill_gd, fill_tan, fill_cotan.  CompoundManifold.fill_gd (Compound.py:100-105)
    fills twice: over the zip, then over the indices; fill_tan and fill_cotan
    (107-113) only over the zip.  [sk] is the manifold before the call and only
    serves as recursion measure; use [fill]. *)
Fixpoint fill_sk (p : part) (copy : bool) (rg : option bool) (sk m : man) (v : pyv) {struct sk}
  : man * option exn :=
  match sk, m with
  | MLeaf _, MLeaf l => let (l', e) := leaf_fill p l v copy rg in (MLeaf l', e)
  | MComp _ _ sks, MComp dv dt ms =>
      let fs := map (fill_sk p copy rg) sks in
      match py_iter v with
      | Err e => (m, Some e)
      | Ok vs =>
          match zip_loop fs ms vs with
          | (ms1, Some e) => (MComp dv dt ms1, Some e)
          | (ms1, None) =>
              match p with
              | Gd => let (ms2, e) := index_loop fs ms1 v 0 in (MComp dv dt ms2, e)
              | _ => (MComp dv dt ms1, None)
              end
          end
      end
  | _, _ => (m, None)
  end.
Definition fill (p : part) (m : man) (v : pyv) (copy : bool) (rg : option bool) : man * option exn :=
  fill_sk p copy rg m m v.

(** add_gd, add_tan, add_cotan: Abstract.py:371-378, Compound.py:128-138 *)
Fixpoint add (p : part) (m : man) (v : pyv) {struct m} : man * option exn :=
  match m with
  | MLeaf l => let (c, e) := cont_add (get_part p l) v in (MLeaf (set_part p c l), e)
  | MEmpty _ _ _ => (m, None)
  | MComp dv dt ms =>
      let (ms', e) := index_loop (map (fun m' => fun _ => add p m') ms) ms v 0 in (MComp dv dt ms', e)
  end.

(** Apply [f] to the members in order, stopping at the first exception. *)
Definition each (f : man -> man * option exn) : list man -> list man * option exn :=
  fix each ms :=
    match ms with
    | [] => ([], None)
    | m :: ms' =>
        match f m with
        | (m', Some e) => (m' :: ms', Some e)
        | (m', None) => let (ms'', e) := each ms' in (m' :: ms'', e)
        end
    end.

(** negate_gd, negate_tan, negate_cotan: Abstract.py:380-387, Compound.py:140-150 *)
Fixpoint negate (p : part) (m : man) : man * option exn :=
  match m with
  | MLeaf l => let (c, e) := cont_negate (get_part p l) in (MLeaf (set_part p c l), e)
  | MEmpty _ _ _ => (m, None)
  | MComp dv dt ms => let (ms', e) := each (negate p) ms in (MComp dv dt ms', e)
  end.

(** gd_requires_grad_ ...: Abstract.py:245-252, Empty.py:48-55; a CompoundManifold
    inherits BaseManifold's, which raises NotImplementedError (87-94). *)
Definition requires_grad_ (p : part) (m : man) (rg : bool) (index : Z) : man * option exn :=
  match m with
  | MLeaf l => let (c, e) := cont_requires_grad rg index (get_part p l) in (MLeaf (set_part p c l), e)
  | MEmpty _ _ _ => (m, if Z.eqb index (-1) then None else Some TypeError)
  | MComp _ _ _ => (m, Some NotImplementedError)
  end.

(** Conversions: _to_device / _to_dtype, Abstract.py:271-279, Compound.py:18-22 *)
Definition leaf_all (f : cont -> cont * option exn) (l : leaf) : leaf * option exn :=
  match f (l_gd l) with
  | (g, Some e) => (set_part Gd g l, Some e)
  | (g, None) =>
      match f (l_tan l) with
      | (t, Some e) => (set_part Tan t (set_part Gd g l), Some e)
      | (t, None) =>
          let (c, e) := f (l_cotan l) in (set_part Cotan c (set_part Tan t (set_part Gd g l)), e)
      end
  end.
Definition leaf_set_device (d : device) (l : leaf) : leaf * option exn :=
  leaf_all (cont_to_device d)
    (mkLeaf (l_shapes l) (l_nb l) d (l_dty l) (l_mdev l) (l_gd l) (l_tan l) (l_cotan l)).
Definition leaf_set_dtype (d : dtype) (l : leaf) : leaf * option exn :=
  leaf_all (cont_to_dtype d)
    (mkLeaf (l_shapes l) (l_nb l) (l_dev l) d (l_mdev l) (l_gd l) (l_tan l) (l_cotan l)).

(** One positional argument of to_(), Abstract.py:38-57 (keyword arguments set the
    device or the dtype in the same way). *)
Inductive to_arg := ToStr (d : device) | ToDtype (t : dtype) | ToNone | ToOther.

Fixpoint to_ (a : to_arg) (m : man) : man * option exn :=
  match m with
  | MLeaf l =>
      match a with
      | ToStr d => let (l', e) := leaf_set_device d l in (MLeaf l', e)
      | ToNone => let (l', e) := leaf_set_device "cpu"%string l in (MLeaf l', e)
      | ToDtype t => let (l', e) := leaf_set_dtype t l in (MLeaf l', e)
      | ToOther => (m, Some ValueError)
      end
  | MEmpty n dv dt =>
      match a with
      | ToStr d => (MEmpty n (Some d) dt, None)
      | ToNone => (MEmpty n (Some "cpu"%string) dt, None)
      | ToDtype t => (MEmpty n dv t, None)
      | ToOther => (m, Some ValueError)
      end
  | MComp dv dt ms =>
      (* Compound.py:13-16: the compound's own device and dtype are not updated *)
      let (ms', e) := each (to_ a) ms in (MComp dv dt ms', e)
  end.

(** fill_gd_zeros ...: Abstract.py:349-356, Empty.py:93-100; a CompoundManifold inherits
    BaseManifold's, which raises NotImplementedError (125-141). *)
Definition fill_zeros (p : part) (rg : bool) (m : man) : man * option exn :=
  match m with
  | MLeaf l => (MLeaf (set_part p (cont_fill_zeros rg (get_part p l)) l), None)
  | MEmpty _ _ _ => (m, None)
  | MComp _ _ _ => (m, Some NotImplementedError)
  end.

(** fill_gd_randn ...: Abstract.py:358-365, Empty.py:102-109, Compound.py:115-122.  The
    random values are drawn from [rnd]; the same source is given to every member
    (no property depends on the values). *)
Fixpoint fill_randn (p : part) (rnd : nat -> list nat -> R) (rg : bool) (m : man) : man * option exn :=
  match m with
  | MLeaf l => (MLeaf (set_part p (cont_fill_randn rnd rg (get_part p l)) l), None)
  | MEmpty _ _ _ => (m, None)
  | MComp dv dt ms => let (ms', e) := each (fill_randn p rnd rg) ms in (MComp dv dt ms', e)
  end.

(** clone(requires_grad=rg) for a boolean rg: Abstract.py:254-269, Empty.py:15-16,
    Compound.py:28-29.  (Manifold.clone() with its default argument hands None to
    torch's requires_grad_; what torch does then is not modelled.) *)
Definition leaf_clone (rg : bool) (l : leaf) : res leaf :=
  g <- cont_clone (l_gd l) ;;
  t <- cont_clone (l_tan l) ;;
  c <- cont_clone (l_cotan l) ;;
  let rq c := match cont_requires_grad rg (-1)%Z c with (c', None) => Ok c' | (_, Some e) => Err e end in
  g <- rq g ;; t <- rq t ;; c <- rq c ;;
  Ok (mkLeaf (l_shapes l) (l_nb l) (l_dev l) (l_dty l) (l_mdev l) g t c).

Fixpoint clone (rg : bool) (m : man) : res man :=
  match m with
  | MLeaf l => l' <- leaf_clone rg l ;; Ok (MLeaf l')
  | MEmpty n dv dt => Ok (MEmpty n dv dt)
  | MComp _ _ ms => ms' <- mapM (clone rg) ms ;; comp_init ms'
  end.

(** fill(manifold), Abstract.py:96-102, Compound.py:95-98 *)
Definition fill_from (m other : man) (copy : bool) (rg : option bool) : man * option exn :=
  let go p m k :=
    match getter p other with
    | Err e => (m, Some e)
    | Ok v => match fill p m v copy rg with
              | (m', Some e) => (m', Some e)
              | (m', None) => k m'
              end
    end in
  go Gd m (fun m => go Tan m (fun m => go Cotan m (fun m => (m, None)))).

(** ** Histories *)
Inductive op :=
| OFill (p : part) (v : pyv) (copy : bool) (rg : option bool)
| OAdd (p : part) (v : pyv)
| ONegate (p : part)
| ORequires (p : part) (rg : bool) (index : Z)
| OZeros (p : part) (rg : bool)
| ORandn (p : part) (rnd : nat -> list nat -> R) (rg : bool)
| OTo (a : to_arg).

Definition step (m : man) (o : op) : man * option exn :=
  match o with
  | OFill p v copy rg => fill p m v copy rg
  | OAdd p v => add p m v
  | ONegate p => negate p m
  | ORequires p rg i => requires_grad_ p m rg i
  | OZeros p rg => fill_zeros p rg m
  | ORandn p rnd rg => fill_randn p rnd rg m
  | OTo a => to_ a m
  end.

(** The state after a history of calls, each of whose exceptions the user caught. *)
Definition exec (ops : list op) (m : man) : man := fold_left (fun m o => fst (step m o)) ops m.
