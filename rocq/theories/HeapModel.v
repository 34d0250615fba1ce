(** Model of imodal/Manifolds with the memory of the tensors.

    In ManifoldModel tensors are values.  Here a torch.Tensor is a reference: a storage, a
    view of it, a device, a dtype and a flag; storages live in a heap, and a write in place
    (by torch optimizers, or by the user) changes what every reference to the storage sees.
    torch: detach() and indexing give a reference to the same storage, to() gives the tensor
    itself if nothing is to be changed and a new storage otherwise, clone(), sums, negations
    and constructors give new storages.  requires_grad_() is only called by the code on the
    new tensor object made by detach(), clone() or to().detach(), so the flag is a field of the
    reference. *)
From Coq Require Import Reals String List Arith Bool ZArith.
From Verif Require Import Py Tensor ManifoldModel.
Import ListNotations.
Open Scope list_scope.
Open Scope nat_scope.

Definition heap := list tensor.
Record ref := mkRef { rloc : nat; rview : list nat; rdev : device; rdty : dtype; rrg : bool }.

(** What a reference shows: the storage, sliced along its first axes. *)
Definition slice (t : tensor) (i : nat) : tensor := mkT (tl (shape t)) (fun idx => get t (i :: idx)).
Definition load (h : heap) (r : ref) : tob :=
  mkTob (fold_left slice (rview r) (nth (rloc r) h (tzeros []))) (rdev r) (rdty r) (rrg r).

(** Python values made of references, and the values they show. *)
Inductive hv := HNone | HT (r : ref) | HL (l : list hv).
Fixpoint look (h : heap) (v : hv) : pyv :=
  match v with HNone => VNone | HT r => VT (load h r) | HL l => VL (map (look h) l) end.

(** A computation on the heap. *)
Definition M (A : Type) := heap -> heap * A.
Definition ret {A} (x : A) : M A := fun h => (h, x).
Definition seqM {A B} (c : M A) (k : A -> M B) : M B := fun h => let (h1, x) := c h in k x h1.
Notation "x <~ c ;; k" := (seqM c (fun x => k)) (at level 100, c at next level, right associativity).
Definition reading {A} (f : heap -> A) : M A := fun h => (h, f h).

(** A tensor with a storage of its own. *)
Definition new (u : tob) : M ref := fun h => (h ++ [tval u], mkRef (length h) [] (tdev u) (tdty u) (trg u)).
(** A write in place. *)
Fixpoint write (l : nat) (t : tensor) (h : heap) : heap :=
  match l, h with 0, _ :: h' => t :: h' | S l', x :: h' => x :: write l' t h' | _, [] => [] end.

(** Iteration and indexing give views (ManifoldModel.py_iter, py_index). *)
Definition row (r : ref) (i : nat) : ref := mkRef (rloc r) (rview r ++ [i]) (rdev r) (rdty r) (rrg r).
Definition h_iter (v : hv) : M (res (list hv)) :=
  match v with
  | HNone => ret (Err TypeError)
  | HL l => ret (Ok l)
  | HT r => reading (fun h => match shape (tval (load h r)) with
                              | [] => Err TypeError
                              | n :: _ => Ok (map (fun i => HT (row r i)) (seq 0 n))
                              end)
  end.
Definition h_index (v : hv) (i : nat) : M (res hv) :=
  match v with
  | HNone => ret (Err TypeError)
  | HL l => ret (match nth_error l i with Some x => Ok x | None => Err IndexError end)
  | HT r => reading (fun h => match shape (tval (load h r)) with
                              | [] => Err IndexError
                              | n :: _ => if Nat.ltb i n then Ok (HT (row r i)) else Err IndexError
                              end)
  end.

(** Operations on one tensor. *)
Definition t_clone (r : ref) : M ref := fun h => new (load h r) h.
Definition t_detach_clone (b : bool) (r : ref) : M ref := fun h => new (set_rg b (load h r)) h.
Definition t_detach (b : bool) (r : ref) : M ref := ret (mkRef (rloc r) (rview r) (rdev r) (rdty r) b).
Definition t_to_device (d : device) (r : ref) : M ref := fun h =>
  if String.eqb d (rdev r) then (h, r) else new (set_dev d (load h r)) h.
Definition t_to_dtype (d : dtype) (r : ref) : M ref := fun h =>
  if dtype_eqb d (rdty r) then (h, r) else new (set_dty d (load h r)) h.

(** [f(t) for t in l]; an element that is not a tensor raises [e]. *)
Fixpoint h_map (f : ref -> M ref) (l : list hv) : M (res (list hv)) :=
  match l with
  | [] => ret (Ok [])
  | HT r :: l' =>
      r' <~ f r ;; rest <~ h_map f l' ;; ret (match rest with Ok l'' => Ok (HT r' :: l'') | Err e => Err e end)
  | _ :: _ => ret (Err AttributeError)
  end.
Fixpoint h_negs (l : list hv) : M (res (list hv)) :=
  match l with
  | [] => ret (Ok [])
  | HT r :: l' =>
      r' <~ (fun h => let t := load h r in new (mkTob (topp (tval t)) (tdev t) (tdty t) (trg t)) h) ;;
      rest <~ h_negs l' ;; ret (match rest with Ok l'' => Ok (HT r' :: l'') | Err e => Err e end)
  | _ :: _ => ret (Err TypeError)
  end.
Fixpoint h_adds (l : list (hv * hv)) : M (res (list hv)) :=
  match l with
  | [] => ret (Ok [])
  | (HT r, HT s) :: l' =>
      if String.eqb (rdev r) (rdev s) then
        r' <~ (fun h => new (tob_add (load h r) (load h s)) h) ;;
        rest <~ h_adds l' ;; ret (match rest with Ok l'' => Ok (HT r' :: l'') | Err e => Err e end)
      else ret (Err RuntimeError)
  | _ :: _ => ret (Err TypeError)
  end.
Fixpoint h_news (l : list tob) : M (list hv) :=
  match l with [] => ret [] | t :: l' => r <~ new t ;; rest <~ h_news l' ;; ret (HT r :: rest) end.

(** ** tensor_container.py *)
Record hcont := mkHC { hc_shapes : list (list nat); hc_kind : skind; hc_tensors : list hv; hc_dev : device; hc_dty : dtype }.

(** __init__, 10-17 *)
Definition hc_init (shapes : list (list nat)) (dv : device) (dt : dtype) : M hcont :=
  ts <~ h_news (map (fun sh => zeros_tob sh dv dt false) shapes) ;; ret (mkHC shapes KTuple ts dv dt).

Definition hc_map (k : skind) (f : ref -> M ref) (c : hcont) : M (hcont * option exn) :=
  r <~ h_map f (hc_tensors c) ;;
  ret (match r with
       | Ok ts => (mkHC (hc_shapes c) k ts (hc_dev c) (hc_dty c), None)
       | Err e => (c, Some e)
       end).
(** to_device, 45-48: tensor.to(device=device).detach().requires_grad_(tensor.requires_grad) *)
Definition hc_to_device (d : device) (c : hcont) : M (hcont * option exn) :=
  hc_map KList (fun r => r' <~ t_to_device d r ;; t_detach (rrg r) r') (mkHC (hc_shapes c) (hc_kind c) (hc_tensors c) d (hc_dty c)).
(** to_dtype, 50-53 *)
Definition hc_to_dtype (d : dtype) (c : hcont) : M (hcont * option exn) :=
  hc_map KList (fun r => r' <~ t_to_dtype d r ;; t_detach (rrg r) r') (mkHC (hc_shapes c) (hc_kind c) (hc_tensors c) (hc_dev c) d).

(** fill, 76-112.  Devices and dtypes are read, nothing is copied unless asked for. *)
Definition hc_fill (c : hcont) (v : hv) (clone : bool) (rg : option bool) : M (hcont * option exn) := fun h =>
  match tensors_device (look h v) with
  | Err e => (h, (c, Some e))
  | Ok None => (h, (c, Some RuntimeError))
  | Ok (Some dv) =>
      let c1 := mkHC (hc_shapes c) (hc_kind c) (hc_tensors c) dv (hc_dty c) in
      match tensors_dtype (look h v) with
      | Err e => (h, (c1, Some e))
      | Ok None => (h, (c1, Some RuntimeError))
      | Ok (Some dt) =>
          let c2 := mkHC (hc_shapes c) (hc_kind c) (hc_tensors c) dv dt in
          let v' := match v with
                    | HT t => if Nat.eqb (length (hc_shapes c)) 1 then HL [HT t] else v
                    | _ => v
                    end in
          (l <~ h_iter v' ;;
           match l with
           | Err e => ret (c2, Some e)
           | Ok l =>
               elems <~ (if clone then
                           match rg with
                           | Some b => h_map (t_detach_clone b) l
                           | None => h_map t_clone l
                           end
                         else ret (Ok l)) ;;
               match elems with
               | Err e => ret (c2, Some e)
               | Ok ts => ret (mkHC (hc_shapes c) KTuple ts dv dt, None)
               end
           end) h
      end
  end.

(** fill_zeros, 116-124; fill_randn, 126-134 *)
Definition hc_fill_zeros (rg : bool) (c : hcont) : M hcont :=
  ts <~ h_news (map (fun sh => zeros_tob sh (hc_dev c) (hc_dty c) rg) (hc_shapes c)) ;;
  ret (mkHC (hc_shapes c) KTuple ts (hc_dev c) (hc_dty c)).
Fixpoint draws (rnd : nat -> list nat -> R) (i : nat) (shapes : list (list nat)) (dv : device) (dt : dtype) (rg : bool) : list tob :=
  match shapes with [] => [] | sh :: shapes' => mkTob (mkT sh (rnd i)) dv dt rg :: draws rnd (S i) shapes' dv dt rg end.
Definition hc_fill_randn (rnd : nat -> list nat -> R) (rg : bool) (c : hcont) : M hcont :=
  ts <~ h_news (draws rnd 0 (hc_shapes c) (hc_dev c) (hc_dty c) rg) ;;
  ret (mkHC (hc_shapes c) KTuple ts (hc_dev c) (hc_dty c)).

(** requires_grad_, 136-150: tensor.detach().requires_grad_(requires_grad) *)
Definition hc_requires_grad (rg : bool) (index : Z) (c : hcont) : M (hcont * option exn) :=
  if Z.eqb index (-1) then hc_map KList (t_detach rg) c
  else
    let n := Z.of_nat (length (hc_tensors c)) in
    let i := if Z.ltb index 0 then Z.add n index else index in
    if (Z.ltb i 0 || Z.leb n i)%bool then ret (c, Some IndexError)
    else
      match nth_error (hc_tensors c) (Z.to_nat i) with
      | Some (HT t) =>
          match hc_kind c with
          | KTuple => ret (c, Some TypeError)
          | KList =>
              t' <~ t_detach rg t ;;
              ret (mkHC (hc_shapes c) KList
                     (firstn (Z.to_nat i) (hc_tensors c) ++ HT t' :: skipn (S (Z.to_nat i)) (hc_tensors c))
                     (hc_dev c) (hc_dty c), None)
          end
      | _ => ret (c, Some AttributeError)
      end.

(** clone / __deepcopy__, 27-43 *)
Definition hc_clone (c : hcont) : M (res hcont) :=
  c0 <~ hc_init (hc_shapes c) (hc_dev c) (hc_dty c) ;;
  r <~ hc_fill c0 (HL (hc_tensors c)) true None ;;
  ret (match r with (c', None) => Ok c' | (_, Some e) => Err e end).

(** add, 152-156; negate, 158-160 *)
Definition hc_add (c : hcont) (v : hv) : M (hcont * option exn) :=
  let v' := if Nat.eqb (length (hc_shapes c)) 1 then HL [v] else v in
  l <~ h_iter v' ;;
  match l with
  | Err e => ret (c, Some e)
  | Ok l =>
      r <~ h_adds (combine (hc_tensors c) l) ;;
      ret (match r with
           | Err e => (c, Some e)
           | Ok ts => (mkHC (hc_shapes c) KTuple ts (hc_dev c) (hc_dty c), None)
           end)
  end.
Definition hc_negate (c : hcont) : M (hcont * option exn) :=
  r <~ h_negs (hc_tensors c) ;;
  ret (match r with
       | Ok ts => (mkHC (hc_shapes c) KTuple ts (hc_dev c) (hc_dty c), None)
       | Err e => (c, Some e)
       end).

(** ** Abstract.py, Empty.py, Compound.py *)
Record hleaf := mkHLeaf {
  hl_shapes : list (list nat); hl_nb : nat; hl_dev : device; hl_dty : dtype; hl_mdev : option device;
  hl_gd : hcont; hl_tan : hcont; hl_cotan : hcont }.
Inductive hman :=
| HMLeaf (l : hleaf)
| HMEmpty (dim : nat) (dv : option device) (dt : dtype)
| HMComp (dv : option device) (dt : option dtype) (ms : list hman).

Definition h_part (p : part) (l : hleaf) : hcont := match p with Gd => hl_gd l | Tan => hl_tan l | Cotan => hl_cotan l end.
Definition h_set_part (p : part) (c : hcont) (l : hleaf) : hleaf :=
  match p with
  | Gd => mkHLeaf (hl_shapes l) (hl_nb l) (hl_dev l) (hl_dty l) (hl_mdev l) c (hl_tan l) (hl_cotan l)
  | Tan => mkHLeaf (hl_shapes l) (hl_nb l) (hl_dev l) (hl_dty l) (hl_mdev l) (hl_gd l) c (hl_cotan l)
  | Cotan => mkHLeaf (hl_shapes l) (hl_nb l) (hl_dev l) (hl_dty l) (hl_mdev l) (hl_gd l) (hl_tan l) c
  end.
Definition h_set_mdev (d : device) (l : hleaf) : hleaf :=
  mkHLeaf (hl_shapes l) (hl_nb l) (hl_dev l) (hl_dty l) (Some d) (hl_gd l) (hl_tan l) (hl_cotan l).

(** What the manifold shows: the manifold of ManifoldModel. *)
Definition look_cont (h : heap) (c : hcont) : cont :=
  mkCont (hc_shapes c) (hc_kind c) (map (look h) (hc_tensors c)) (hc_dev c) (hc_dty c).
Definition look_leaf (h : heap) (l : hleaf) : leaf :=
  mkLeaf (hl_shapes l) (hl_nb l) (hl_dev l) (hl_dty l) (hl_mdev l) (look_cont h (hl_gd l)) (look_cont h (hl_tan l)) (look_cont h (hl_cotan l)).
Fixpoint look_man (h : heap) (m : hman) : man :=
  match m with
  | HMLeaf l => MLeaf (look_leaf h l)
  | HMEmpty n dv dt => MEmpty n dv dt
  | HMComp dv dt ms => MComp dv dt (map (look_man h) ms)
  end.

(** The getters give the references themselves: Abstract.py:319-335, Empty.py:75-82 (a new
    tensor each time), Compound.py:86-93. *)
Fixpoint h_getter (p : part) (m : hman) : M (res hv) :=
  match m with
  | HMLeaf l =>
      ret (if Nat.eqb (length (hl_shapes l)) 1 then
             match hc_tensors (h_part p l) with [] => Err IndexError | x :: _ => Ok x end
           else Ok (HL (hc_tensors (h_part p l))))
  | HMEmpty _ dv dt => r <~ new (empty_tob dv dt) ;; ret (Ok (HT r))
  | HMComp _ _ ms =>
      xs <~ (fix go (ms : list hman) : M (res (list hv)) :=
               match ms with
               | [] => ret (Ok [])
               | m :: ms' =>
                   x <~ h_getter p m ;;
                   match x with
                   | Err e => ret (Err e)
                   | Ok x => xs <~ go ms' ;; ret (match xs with Ok xs => Ok (x :: xs) | Err e => Err e end)
                   end
               end) ms ;;
      ret (match xs with Ok xs => Ok (HL xs) | Err e => Err e end)
  end.

(** fill_gd / fill_tan / fill_cotan: Abstract.py:337-347, Compound.py:100-113 *)
Definition h_leaf_fill (p : part) (l : hleaf) (v : hv) (copy : bool) (rg : option bool) : M (hleaf * option exn) :=
  r <~ hc_fill (h_part p l) v copy rg ;;
  ret (match r with
       | (c, Some e) => (h_set_part p c l, Some e)
       | (c, None) => (h_set_mdev (hc_dev c) (h_set_part p c l), None)
       end).
Fixpoint h_zip_loop (fs : list (hman -> hv -> M (hman * option exn))) (ms : list hman) (vs : list hv) : M (list hman * option exn) :=
  match fs, ms, vs with
  | f :: fs', m :: ms', v :: vs' =>
      r <~ f m v ;;
      match r with
      | (m', Some e) => ret (m' :: ms', Some e)
      | (m', None) => q <~ h_zip_loop fs' ms' vs' ;; ret (m' :: fst q, snd q)
      end
  | _, _, _ => ret (ms, None)
  end.
Fixpoint h_index_loop (fs : list (hman -> hv -> M (hman * option exn))) (ms : list hman) (v : hv) (i : nat) : M (list hman * option exn) :=
  match fs, ms with
  | f :: fs', m :: ms' =>
      x <~ h_index v i ;;
      match x with
      | Err e => ret (ms, Some e)
      | Ok x =>
          r <~ f m x ;;
          match r with
          | (m', Some e) => ret (m' :: ms', Some e)
          | (m', None) => q <~ h_index_loop fs' ms' v (S i) ;; ret (m' :: fst q, snd q)
          end
      end
  | _, _ => ret (ms, None)
  end.
Fixpoint h_fill_sk (p : part) (copy : bool) (rg : option bool) (sk m : hman) (v : hv) {struct sk} : M (hman * option exn) :=
  match sk, m with
  | HMLeaf _, HMLeaf l => r <~ h_leaf_fill p l v copy rg ;; ret (HMLeaf (fst r), snd r)
  | HMComp _ _ sks, HMComp dv dt ms =>
      let fs := map (h_fill_sk p copy rg) sks in
      vs <~ h_iter v ;;
      match vs with
      | Err e => ret (m, Some e)
      | Ok vs =>
          q <~ h_zip_loop fs ms vs ;;
          match q with
          | (ms1, Some e) => ret (HMComp dv dt ms1, Some e)
          | (ms1, None) =>
              match p with
              | Gd => q <~ h_index_loop fs ms1 v 0 ;; ret (HMComp dv dt (fst q), snd q)
              | _ => ret (HMComp dv dt ms1, None)
              end
          end
      end
  | _, _ => ret (m, None)
  end.
Definition h_fill (p : part) (m : hman) (v : hv) (copy : bool) (rg : option bool) : M (hman * option exn) := h_fill_sk p copy rg m m v.

(** add_*: Abstract.py:371-378, Compound.py:128-138 *)
Fixpoint h_add (p : part) (m : hman) (v : hv) {struct m} : M (hman * option exn) :=
  match m with
  | HMLeaf l => r <~ hc_add (h_part p l) v ;; ret (HMLeaf (h_set_part p (fst r) l), snd r)
  | HMEmpty _ _ _ => ret (m, None)
  | HMComp dv dt ms => q <~ h_index_loop (map (fun m' => fun _ => h_add p m') ms) ms v 0 ;; ret (HMComp dv dt (fst q), snd q)
  end.

Definition h_each (f : hman -> M (hman * option exn)) : list hman -> M (list hman * option exn) :=
  fix each ms :=
    match ms with
    | [] => ret ([], None)
    | m :: ms' =>
        r <~ f m ;;
        match r with
        | (m', Some e) => ret (m' :: ms', Some e)
        | (m', None) => q <~ each ms' ;; ret (m' :: fst q, snd q)
        end
    end.

(** negate_*: Abstract.py:380-387, Compound.py:140-150 *)
Fixpoint h_negate (p : part) (m : hman) : M (hman * option exn) :=
  match m with
  | HMLeaf l => r <~ hc_negate (h_part p l) ;; ret (HMLeaf (h_set_part p (fst r) l), snd r)
  | HMEmpty _ _ _ => ret (m, None)
  | HMComp dv dt ms => q <~ h_each (h_negate p) ms ;; ret (HMComp dv dt (fst q), snd q)
  end.

(** *_requires_grad_: Abstract.py:245-252, Empty.py:48-55, Abstract.py:87-94 *)
Definition h_requires_grad_ (p : part) (m : hman) (rg : bool) (index : Z) : M (hman * option exn) :=
  match m with
  | HMLeaf l => r <~ hc_requires_grad rg index (h_part p l) ;; ret (HMLeaf (h_set_part p (fst r) l), snd r)
  | HMEmpty _ _ _ => ret (m, if Z.eqb index (-1) then None else Some TypeError)
  | HMComp _ _ _ => ret (m, Some NotImplementedError)
  end.

(** to_: Abstract.py:38-57, 271-279, Compound.py:13-22 *)
Definition h_leaf_all (f : hcont -> M (hcont * option exn)) (l : hleaf) : M (hleaf * option exn) :=
  g <~ f (hl_gd l) ;;
  match g with
  | (g, Some e) => ret (h_set_part Gd g l, Some e)
  | (g, None) =>
      t <~ f (hl_tan l) ;;
      match t with
      | (t, Some e) => ret (h_set_part Tan t (h_set_part Gd g l), Some e)
      | (t, None) =>
          c <~ f (hl_cotan l) ;; ret (h_set_part Cotan (fst c) (h_set_part Tan t (h_set_part Gd g l)), snd c)
      end
  end.
Definition h_leaf_device (d : device) (l : hleaf) : M (hleaf * option exn) :=
  h_leaf_all (hc_to_device d) (mkHLeaf (hl_shapes l) (hl_nb l) d (hl_dty l) (hl_mdev l) (hl_gd l) (hl_tan l) (hl_cotan l)).
Definition h_leaf_dtype (d : dtype) (l : hleaf) : M (hleaf * option exn) :=
  h_leaf_all (hc_to_dtype d) (mkHLeaf (hl_shapes l) (hl_nb l) (hl_dev l) d (hl_mdev l) (hl_gd l) (hl_tan l) (hl_cotan l)).
Fixpoint h_to_ (a : to_arg) (m : hman) : M (hman * option exn) :=
  match m with
  | HMLeaf l =>
      match a with
      | ToStr d => r <~ h_leaf_device d l ;; ret (HMLeaf (fst r), snd r)
      | ToNone => r <~ h_leaf_device "cpu"%string l ;; ret (HMLeaf (fst r), snd r)
      | ToDtype t => r <~ h_leaf_dtype t l ;; ret (HMLeaf (fst r), snd r)
      | ToOther => ret (m, Some ValueError)
      end
  | HMEmpty n dv dt =>
      ret (match a with
           | ToStr d => (HMEmpty n (Some d) dt, None)
           | ToNone => (HMEmpty n (Some "cpu"%string) dt, None)
           | ToDtype t => (HMEmpty n dv t, None)
           | ToOther => (m, Some ValueError)
           end)
  | HMComp dv dt ms => q <~ h_each (h_to_ a) ms ;; ret (HMComp dv dt (fst q), snd q)
  end.

(** fill_*_zeros, fill_*_randn: Abstract.py:349-365, Empty.py:93-109, Compound.py:115-122 *)
Definition h_fill_zeros (p : part) (rg : bool) (m : hman) : M (hman * option exn) :=
  match m with
  | HMLeaf l => c <~ hc_fill_zeros rg (h_part p l) ;; ret (HMLeaf (h_set_part p c l), None)
  | HMEmpty _ _ _ => ret (m, None)
  | HMComp _ _ _ => ret (m, Some NotImplementedError)
  end.
Fixpoint h_fill_randn (p : part) (rnd : nat -> list nat -> R) (rg : bool) (m : hman) : M (hman * option exn) :=
  match m with
  | HMLeaf l => c <~ hc_fill_randn rnd rg (h_part p l) ;; ret (HMLeaf (h_set_part p c l), None)
  | HMEmpty _ _ _ => ret (m, None)
  | HMComp dv dt ms => q <~ h_each (h_fill_randn p rnd rg) ms ;; ret (HMComp dv dt (fst q), snd q)
  end.

(** clone(requires_grad=rg): Abstract.py:254-269 (copy.deepcopy copies the attributes, the
    containers through TensorContainer.__deepcopy__), Empty.py:15-16, Compound.py:28-29 *)
Definition h_leaf_clone (rg : bool) (l : hleaf) : M (res hleaf) :=
  g <~ hc_clone (hl_gd l) ;;
  match g with Err e => ret (Err e) | Ok g =>
  t <~ hc_clone (hl_tan l) ;;
  match t with Err e => ret (Err e) | Ok t =>
  c <~ hc_clone (hl_cotan l) ;;
  match c with Err e => ret (Err e) | Ok c =>
  g <~ hc_requires_grad rg (-1)%Z g ;;
  match g with (_, Some e) => ret (Err e) | (g, None) =>
  t <~ hc_requires_grad rg (-1)%Z t ;;
  match t with (_, Some e) => ret (Err e) | (t, None) =>
  c <~ hc_requires_grad rg (-1)%Z c ;;
  match c with (_, Some e) => ret (Err e) | (c, None) =>
  ret (Ok (mkHLeaf (hl_shapes l) (hl_nb l) (hl_dev l) (hl_dty l) (hl_mdev l) g t c))
  end end end end end end.
(** The attributes of a new compound depend on those of its members only. *)
Definition h_comp_init (ms : list hman) : M (res hman) := reading (fun h =>
  match comp_init (map (look_man h) ms) with
  | Ok (MComp dv dt _) => Ok (HMComp dv dt ms)
  | Ok _ => Err RuntimeError   (* does not happen *)
  | Err e => Err e
  end).
Fixpoint h_clone (rg : bool) (m : hman) : M (res hman) :=
  match m with
  | HMLeaf l => r <~ h_leaf_clone rg l ;; ret (match r with Ok l' => Ok (HMLeaf l') | Err e => Err e end)
  | HMEmpty n dv dt => ret (Ok (HMEmpty n dv dt))
  | HMComp _ _ ms =>
      ms' <~ (fix go (ms : list hman) : M (res (list hman)) :=
                match ms with
                | [] => ret (Ok [])
                | m :: ms' =>
                    x <~ h_clone rg m ;;
                    match x with
                    | Err e => ret (Err e)
                    | Ok x => xs <~ go ms' ;; ret (match xs with Ok xs => Ok (x :: xs) | Err e => Err e end)
                    end
                end) ms ;;
      match ms' with Err e => ret (Err e) | Ok ms' => h_comp_init ms' end
  end.

(** __init__, Abstract.py:195-243.  The device and the dtype are found from the attributes of
    the tensors given (ManifoldModel.leaf_init); the containers are filled without copying. *)
Definition h_attributes (default_dtype : dtype) (gd tan cotan : pyv) (dv : option device) (dt : option dtype) : res (device * dtype) :=
  let isnone v := match v with VNone => true | _ => false end in
  if (isnone gd && isnone tan && isnone cotan)%bool then
    Ok (match dv with Some d => d | None => "cpu"%string end, match dt with Some d => d | None => default_dtype end)
  else
    let all := VL (map VT (flatten_tensors (VL [gd; tan; cotan]))) in
    d <- match dv with
         | Some d => Ok d
         | None => o <- tensors_device all ;; match o with Some d => Ok d | None => Err RuntimeError end
         end ;;
    t <- match dt with
         | Some t => Ok t
         | None => o <- tensors_dtype all ;; match o with Some t => Ok t | None => Err RuntimeError end
         end ;;
    Ok (d, t).
Definition h_init_fill (v : hv) (c : hcont) : M (res hcont) :=
  match v with
  | HNone => ret (Ok c)
  | _ => r <~ hc_fill c v false (Some false) ;; ret (match r with (c', None) => Ok c' | (_, Some e) => Err e end)
  end.
Definition h_leaf_init (default_dtype : dtype) (shapes : list (list nat)) (nb : nat)
    (gd tan cotan : hv) (dv : option device) (dt : option dtype) : M (res hleaf) :=
  a <~ reading (fun h => h_attributes default_dtype (look h gd) (look h tan) (look h cotan) dv dt) ;;
  match a with Err e => ret (Err e) | Ok (dv, dt) =>
  g <~ hc_init (leaf_shape_gd shapes nb) dv dt ;;
  t <~ hc_init (leaf_shape_gd shapes nb) dv dt ;;
  c <~ hc_init (leaf_shape_gd shapes nb) dv dt ;;
  g <~ h_init_fill gd g ;;
  match g with Err e => ret (Err e) | Ok g =>
  t <~ h_init_fill tan t ;;
  match t with Err e => ret (Err e) | Ok t =>
  c <~ h_init_fill cotan c ;;
  ret (match c with Err e => Err e | Ok c => Ok (mkHLeaf shapes nb dv dt None g t c) end)
  end end end.

(** fill(manifold), Abstract.py:96-102, Compound.py:95-98 *)
Definition h_fill_from (m other : hman) (copy : bool) (rg : option bool) : M (hman * option exn) :=
  let go p m (k : hman -> M (hman * option exn)) :=
    v <~ h_getter p other ;;
    match v with
    | Err e => ret (m, Some e)
    | Ok v =>
        r <~ h_fill p m v copy rg ;;
        match r with (m', Some e) => ret (m', Some e) | (m', None) => k m' end
    end in
  go Gd m (fun m => go Tan m (fun m => go Cotan m (fun m => ret (m, None)))).

(** ** Histories: the arguments are tensors the caller makes for the call. *)
Fixpoint place (v : pyv) : M hv :=
  match v with
  | VNone => ret HNone
  | VT t => r <~ new t ;; ret (HT r)
  | VL l =>
      xs <~ (fix go (l : list pyv) : M (list hv) :=
               match l with [] => ret [] | v :: l' => x <~ place v ;; xs <~ go l' ;; ret (x :: xs) end) l ;;
      ret (HL xs)
  end.
Definition h_step (m : hman) (o : op) : M (hman * option exn) :=
  match o with
  | OFill p v copy rg => x <~ place v ;; h_fill p m x copy rg
  | OAdd p v => x <~ place v ;; h_add p m x
  | ONegate p => h_negate p m
  | ORequires p rg i => h_requires_grad_ p m rg i
  | OZeros p rg => h_fill_zeros p rg m
  | ORandn p rnd rg => h_fill_randn p rnd rg m
  | OTo a => h_to_ a m
  end.
