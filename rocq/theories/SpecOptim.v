(** Vocabulary for the properties of optimizers, of the fitter and of the registries. *)
From Coq Require Import Reals String List Arith Bool.
From Verif Require Import Py Fl OptimModel.
Import ListNotations.
Open Scope list_scope.
Open Scope R_scope.

(** ** Parameters: groups of tensors *)

(** Entry [j] of tensor [i] of group [g]. *)
Definition entry (x : params) (g i j : nat) : R := nth j (nth i (nth g x []) []) 0.

Definition same_shape (x y : params) : Prop :=
  map (map (@length R)) x = map (map (@length R)) y.

(** The parameters with entries x - s_g d, [s g] being the step length of group [g]. *)
Definition moved (s : nat -> R) (x d : params) : params :=
  map (fun g => map (fun i => map (fun j => entry x g i j - s g * entry d g i j)
                                  (seq 0 (length (nth i (nth g x []) []))))
                    (seq 0 (length (nth g x []))))
      (seq 0 (length x)).

(** gamma1 and gamma2 of group [g]: its own if it has one, the optimizer's otherwise. *)
Definition gam1 (c : gd_conf) (g : nat) : R :=
  match nth_error (groups c) g with
  | Some gr => match g_gamma1 gr with Some a => a | None => gamma1 c end
  | None => gamma1 c
  end.
Definition gam2 (c : gd_conf) (g : nat) : R :=
  match nth_error (groups c) g with
  | Some gr => match g_gamma2 gr with Some a => a | None => gamma2 c end
  | None => gamma2 c
  end.

(** The step lengths of the k-th retry. *)
Definition tried (c : gd_conf) (ss : list R) (k g : nat) : R := gam1 c g ^ k * nth g ss 0.

(** A new cost which is lower and finite, or an unchanged one. *)
Definition lower (new old : fl) : Prop := flt new old = true /\ exists r, new = Fin r.
Definition unchanged (new old : fl) : Prop := new = old /\ old <> NaN.

(** The state is consistent with the groups, and the gradient has the parameters' shape. *)
Definition gd_consistent (c : gd_conf) (grad : params -> params) (st : gd_state) : Prop :=
  length (groups c) = length (gd_params st) /\ length (gd_steps st) = length (gd_params st) /\
  same_shape (grad (gd_params st)) (gd_params st).

(** ** Differentiability, in the norm sum |x_i| *)
Definition flat_params (x : params) : list R := List.concat (List.concat x).
Fixpoint sumR (l : list R) : R := match l with [] => 0 | a :: l' => a + sumR l' end.
Definition dist1 (x y : params) : R :=
  sumR (map (fun p => Rabs (snd p - fst p)) (combine (flat_params x) (flat_params y))).
(** <g, y - x> *)
Definition pairing (g x y : params) : R :=
  sumR (map (fun p => fst p * (snd (snd p) - fst (snd p)))
            (combine (flat_params g) (combine (flat_params x) (flat_params y)))).

(** [f] takes the finite value [a] at [x] and is differentiable there with gradient [g]. *)
Definition differentiable_at (f : params -> fl) (x : params) (a : R) (g : params) : Prop :=
  f x = Fin a /\ same_shape g x /\
  forall eps, 0 < eps -> exists del, 0 < del /\
    forall y, same_shape y x -> dist1 x y < del ->
      exists b, f y = Fin b /\ Rabs (b - a - pairing g x y) <= eps * dist1 x y.

(** ** OptimizerTorch *)

(** The test of line 76 for two successive total costs. *)
Definition converged (tol : R) (last total : fl) : Prop :=
  fle (fdiv (fsub last total) (fmax (fmax total last) (Fin 1))) (Fin tol) = true.
(** Total cost after step [i], and before it (infinity before the first one). *)
Definition total_after (outs : nat -> fl * nat) (i : nat) : fl := fst (outs i).
Definition total_before (outs : nat -> fl * nat) (i : nat) : fl :=
  match i with O => PInf | S j => fst (outs j) end.

(** ** Packing *)
Definition numbers_in (sh : list nat) : nat := fold_right Nat.mul 1%nat sh.
Definition well_formed (t : ptensor) : Prop := length (p_data t) = numbers_in (p_shape t).
Definition total_numel (ps : list ptensor) : nat := list_sum (map (fun t => numbers_in (p_shape t)) ps).

(** ** Histories of registry calls *)
Inductive rop :=
| RRegister (m : string) (o : impl)
| RSetDefault (m : string)
| RSetBackend (b : string).
Definition rstep (s : registry * string) (o : rop) : registry * string :=
  match o with
  | RRegister m i => (register_optimizer m i (fst s), snd s)
  | RSetDefault m => (fst (set_default_optimizer m (fst s)), snd s)
  | RSetBackend b => (fst s, fst (set_compute_backend b (snd s)))
  end.
Definition rexec (ops : list rop) : registry * string :=
  fold_left rstep ops (initial_registry, initial_backend).

(** The last known back end given to set_compute_backend, "torch" if there is none. *)
Fixpoint last_backend (ops : list rop) (cur : string) : string :=
  match ops with
  | [] => cur
  | RSetBackend b :: ops' =>
      last_backend ops' (if (String.eqb b "torch" || String.eqb b "keops")%bool then b else cur)
  | _ :: ops' => last_backend ops' cur
  end.
(** The last implementation registered under the name [m]. *)
Fixpoint last_registered (m : string) (ops : list rop) (cur : option impl) : option impl :=
  match ops with
  | [] => cur
  | RRegister m' o :: ops' => last_registered m ops' (if String.eqb m m' then Some o else cur)
  | _ :: ops' => last_registered m ops' cur
  end.

(** ** Dictionaries *)

(** Equality of dictionaries as finite maps. *)
Definition deq {V} (a b : dict V) : Prop := forall k, dget k a = dget k b.
Definition unique_keys {V} (d : dict V) : Prop := NoDup (dkeys d).

(** The values of a key in a sequence of dictionaries, in order. *)
Definition values_of {V} (k : string) (ds : list (dict V)) : list V :=
  flat_map (fun d => match dget k d with Some v => [v] | None => [] end) ds.

(** The settings of a fit which the caller asked for. *)
Definition asked (key : string) (default : optv) (options : dict optv) : optv :=
  match dget key options with Some v => v | None => default end.

(** tol = None means 1e-10. *)
Definition the_tol (tol : option R) : R := match tol with Some t => t | None => / 10 ^ 10 end.

(** A list with values appended, absent lists starting empty. *)
Definition appended {A} (old : option (list A)) (vs : list A) : option (list A) :=
  match old, vs with
  | None, [] => None
  | None, _ => Some vs
  | Some l, _ => Some (l ++ vs)
  end.

(** The options which fit uses itself. *)
Definition fit_keys : list string := ["shoot_solver"; "shoot_it"; "tol"]%string.
(** Successive calls of fit: [None] for calls relying on the shared default dictionary. *)
Definition default_after (d : dict optv) (call : impl * nat * nat * option (dict optv)) : dict optv :=
  match call with
  | (k, max_iter, mi, None) => fst (fit k max_iter d mi)
  | (_, _, _, Some _) => d
  end.
(** Repeated steps. *)
Fixpoint gd_steps_n (c : gd_conf) (f : params -> fl) (grad : params -> params) (fuel n : nat) (st : gd_state)
  : option gd_state :=
  match n with
  | O => Some st
  | S n' => match gd_step c f grad fuel st with
            | Some st' => gd_steps_n c f grad fuel n' st'
            | None => None
            end
  end.
