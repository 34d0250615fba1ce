(** Tensors of real numbers as a shape with an index function, and the torch
    primitives used by imodal, written as index manipulations.

    The primitives are total: what torch does on tensors of incompatible shape
    (raise) is not modelled here; theorems assume well-shaped arguments. *)
From Coq Require Import Reals String Ascii List Arith Lia Bool.
From Verif Require Export RSum.
Import ListNotations.
Open Scope nat_scope.

Record tensor := mkT { shape : list nat; get : list nat -> R }.

Definition prod (sh : list nat) : nat := fold_right Nat.mul 1 sh.

(** An index tuple is valid for a shape. *)
Fixpoint valid (sh idx : list nat) : Prop :=
  match sh, idx with
  | [], [] => True
  | n :: sh', i :: idx' => i < n /\ valid sh' idx'
  | _, _ => False
  end.

(** Equality of tensors: same shape and same entries. *)
Definition teq (a b : tensor) : Prop :=
  shape a = shape b /\ forall idx, valid (shape a) idx -> get a idx = get b idx.

(** ** Constructors by entries *)
Definition mk0 (f : R) : tensor := mkT [] (fun _ => f).
Definition mk1 (n : nat) (f : nat -> R) : tensor :=
  mkT [n] (fun idx => match idx with [i] => f i | _ => 0%R end).
Definition mk2 (n m : nat) (f : nat -> nat -> R) : tensor :=
  mkT [n; m] (fun idx => match idx with [i; j] => f i j | _ => 0%R end).
Definition mk3 (n m p : nat) (f : nat -> nat -> nat -> R) : tensor :=
  mkT [n; m; p] (fun idx => match idx with [i; j; k] => f i j k | _ => 0%R end).
Definition mk4 (n m p q : nat) (f : nat -> nat -> nat -> nat -> R) : tensor :=
  mkT [n; m; p; q] (fun idx => match idx with [i; j; k; l] => f i j k l | _ => 0%R end).

Notation "t @1 i" := (get t [i]) (at level 9, i at level 8).
Notation "t @2 i j" := (get t [i; j]) (at level 9, i at level 8, j at level 8).
Notation "t @3 i j k" := (get t [i; j; k]) (at level 9, i at level 8, j at level 8, k at level 8).
Notation "t @4 i j k l" := (get t [i; j; k; l])
  (at level 9, i at level 8, j at level 8, k at level 8, l at level 8).

(** [torch.zeros(shape)] *)
Definition tzeros (sh : list nat) : tensor := mkT sh (fun _ => 0%R).
(** [torch.eye(d)] *)
Definition eye (d : nat) : tensor := mk2 d d delta.

(** ** Element-wise operations on tensors of the same shape *)
Definition tmap (f : R -> R) (a : tensor) : tensor := mkT (shape a) (fun idx => f (get a idx)).
Definition tmap2 (f : R -> R -> R) (a b : tensor) : tensor :=
  mkT (shape a) (fun idx => f (get a idx) (get b idx)).
Definition tadd := tmap2 Rplus.
Definition tsub := tmap2 Rminus.
Definition tmul := tmap2 Rmult.
Definition topp := tmap Ropp.
Definition tscal (c : R) := tmap (fun x => c * x)%R.

(** Python's [sum(list of tensors)]; the initial integer 0 is neutral.  The
    empty sum (the Python integer 0) is represented by a rank-0 zero. *)
Definition tsum (l : list tensor) : tensor :=
  match l with
  | [] => mk0 0%R
  | a :: l' => fold_left tadd l' a
  end.

(** ** Re-indexing *)

(** Row-major position of an index tuple. *)
Fixpoint ravel (sh idx : list nat) : nat :=
  match sh, idx with
  | _ :: sh', i :: idx' => i * prod sh' + ravel sh' idx'
  | _, _ => 0
  end.

(** Index tuple of a row-major position. *)
Fixpoint unravel (sh : list nat) (k : nat) : list nat :=
  match sh with
  | [] => []
  | _ :: sh' => (k / prod sh') :: unravel sh' (k mod prod sh')
  end.

(** [t.reshape(sh)] / [t.view(sh)] *)
Definition reshape (sh : list nat) (t : tensor) : tensor :=
  mkT sh (fun idx => get t (unravel (shape t) (ravel sh idx))).

Definition tnth (l : list nat) (i : nat) : nat := nth i l 0.

(** [swap a b l]: exchange positions [a] and [b] of a list. *)
Definition swap (a b : nat) (l : list nat) : list nat :=
  map (fun i => tnth l (if Nat.eqb i a then b else if Nat.eqb i b then a else i))
      (seq 0 (List.length l)).

(** [torch.transpose(t, a, b)] *)
Definition transpose (a b : nat) (t : tensor) : tensor :=
  mkT (swap a b (shape t)) (fun idx => get t (swap a b idx)).

(** [t.permute(perm)]: output axis [i] is input axis [perm[i]]. *)
Fixpoint index_of (x : nat) (l : list nat) : nat :=
  match l with
  | [] => 0
  | y :: l' => if Nat.eqb x y then 0 else S (index_of x l')
  end.

Definition permute (perm : list nat) (t : tensor) : tensor :=
  mkT (map (tnth (shape t)) perm)
      (fun idx => get t (map (fun ax => tnth idx (index_of ax perm)) (seq 0 (List.length perm)))).

(** ** Contractions *)

(** [torch.tensordot(a, b, dims=0)]: outer product. *)
Definition outer (a b : tensor) : tensor :=
  mkT (shape a ++ shape b)
      (fun idx => (get a (firstn (List.length (shape a)) idx)
                   * get b (skipn (List.length (shape a)) idx))%R).

(** Sum over all index tuples of a shape. *)
Fixpoint sum_idx (sh : list nat) (f : list nat -> R) : R :=
  match sh with
  | [] => f []
  | n :: sh' => rsum n (fun i => sum_idx sh' (fun idx => f (i :: idx)))
  end.

Definition memb (x : nat) (l : list nat) : bool := existsb (Nat.eqb x) l.

(** Free axes of a tensor of rank [r] when the axes [ax] are contracted. *)
Definition free_axes (r : nat) (ax : list nat) : list nat :=
  filter (fun i => negb (memb i ax)) (seq 0 r).

(** Rebuild a full index tuple from the contracted values [c] (for axes [ax])
    and the values [f] of the free axes. *)
Definition build_idx (r : nat) (ax c f : list nat) : list nat :=
  map (fun i => if memb i ax then tnth c (index_of i ax)
                else tnth f (index_of i (free_axes r ax))) (seq 0 r).

(** [torch.tensordot(a, b, dims=(axa, axb))] *)
Definition tensordot (a b : tensor) (axa axb : list nat) : tensor :=
  let ra := List.length (shape a) in
  let rb := List.length (shape b) in
  let fa := free_axes ra axa in
  let fb := free_axes rb axb in
  mkT (map (tnth (shape a)) fa ++ map (tnth (shape b)) fb)
      (fun idx =>
         sum_idx (map (tnth (shape a)) axa)
           (fun c => (get a (build_idx ra axa c (firstn (List.length fa) idx))
                      * get b (build_idx rb axb c (skipn (List.length fa) idx)))%R)).

(** [torch.mm(a, b)] *)
Definition mm (a b : tensor) : tensor :=
  mk2 (tnth (shape a) 0) (tnth (shape b) 1)
      (fun i j => rsum (tnth (shape a) 1) (fun k => (a @2 i k * b @2 k j)%R)).

(** [torch.mv(a, b)] *)
Definition mv (a b : tensor) : tensor :=
  mk1 (tnth (shape a) 0) (fun i => rsum (tnth (shape a) 1) (fun k => (a @2 i k * b @1 k)%R)).

(** [torch.bmm(a, b)] *)
Definition bmm (a b : tensor) : tensor :=
  mk3 (tnth (shape a) 0) (tnth (shape a) 1) (tnth (shape b) 2)
      (fun n i j => rsum (tnth (shape a) 2) (fun k => (a @3 n i k * b @3 n k j)%R)).

(** [t.flatten()] / [t.view(-1)] *)
Definition tflatten (t : tensor) : tensor := reshape [prod (shape t)] t.

(** [torch.dot(a.view(-1), b.view(-1))] for tensors of the same number of elements. *)
Definition tdot (a b : tensor) : R :=
  rsum (prod (shape a)) (fun k => (get (tflatten a) [k] * get (tflatten b) [k])%R).

(** ** einsum

    The specification string is parsed as by torch: spaces are ignored,
    operands are separated by commas, the output follows "->".  Sizes come
    from the operands; labels missing from the output are summed.  (The
    ellipsis is not supported.) *)
Definition einsum_parse :=
  fix parse (s : string) (cur : list ascii) (acc : list (list ascii)) (out : bool)
    : list (list ascii) * list ascii :=
    match s with
    | EmptyString => if out then (acc, cur) else (acc ++ [cur], [])
    | String c s' =>
        if Ascii.eqb c " " then parse s' cur acc out
        else if Ascii.eqb c "," then parse s' [] (acc ++ [cur]) out
        else if Ascii.eqb c "-" then parse s' [] (acc ++ [cur]) true
        else if Ascii.eqb c ">" then parse s' cur acc out
        else parse s' (cur ++ [c]) acc out
    end.

Fixpoint elookup (env : list (ascii * nat)) (l : ascii) : nat :=
  match env with
  | [] => 0
  | (k, v) :: env' => if Ascii.eqb k l then v else elookup env' l
  end.

Definition amemb (x : ascii) (l : list ascii) : bool := existsb (Ascii.eqb x) l.

Fixpoint adedup (l : list ascii) : list ascii :=
  match l with
  | [] => []
  | x :: l' => if amemb x l' then adedup l' else x :: adedup l'
  end.

(** Sum over all values of the given labels. *)
Fixpoint esum (vars : list (ascii * nat)) (env : list (ascii * nat))
  (body : list (ascii * nat) -> R) : R :=
  match vars with
  | [] => body env
  | (l, n) :: vs => rsum n (fun i => esum vs ((l, i) :: env) body)
  end.

Fixpoint eprod (ins : list (list ascii)) (ts : list tensor) (env : list (ascii * nat)) : R :=
  match ins, ts with
  | ls :: ins', t :: ts' => (get t (map (elookup env) ls) * eprod ins' ts' env)%R
  | _, _ => 1%R
  end.

Definition einsum_core (ins : list (list ascii)) (out : list ascii) (ts : list tensor) : tensor :=
  let sizes := List.concat (map (fun p => combine (fst p) (shape (snd p))) (combine ins ts)) in
  let vars := filter (fun l => negb (amemb l out)) (adedup (List.concat ins)) in
  mkT (map (elookup sizes) out)
      (fun idx => esum (map (fun l => (l, elookup sizes l)) vars) (combine out idx)
                       (eprod ins ts)).

Definition einsum (spec : string) (ts : list tensor) : tensor :=
  let '(ins, out) := einsum_parse spec [] [] false in einsum_core ins out ts.
