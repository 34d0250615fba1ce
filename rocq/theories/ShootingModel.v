(** Model of imodal/HamiltonianDynamic/shooting.py.

    [h.module] is a [dmod] (a compound); the manifolds are those of
    [GeometryModel], whose values are written by fill(roll(list)) ([put_gd],
    [put_cotan]; the storage itself is modelled in [ManifoldModel]).

    Two external components are arguments:
    - [ag], torch.autograd.grad(F(l), l, allow_unused=True): given the function F of
      the tensors l that the recorded graph computes, one optional tensor per
      tensor of l, or an exception (any value; [exact_grad] in [SpecShooting] says
      when it is right);
    - the solvers of torchdiffeq, seen as strategies ([strat]): they ask for values
      of the right-hand side at times and states of their choice, then answer the
      states at the requested times.  The three fixed step solvers euler, midpoint
      and rk4 of torchdiffeq 0.2 are written out below; [others] are the remaining
      entries of torchdiffeq's table SOLVERS (adaptive ones, ...).

    Values are real numbers.  Times are of any type with the operations of
    [clock], so that the schedule of evaluations can be studied with exact times
    as well as with floating-point ones. *)
From Coq Require Import Reals String List Arith ZArith Lia.
From Verif Require Import Py Tensor KernelModel FieldModel GeometryModel ModuleModel.
Import ListNotations.
Open Scope string_scope.
Open Scope list_scope.
Open Scope R_scope.

(** ** Descriptors as flat lists *)

(** unroll_gd: Abstract.py:301-302, Empty.py:57-58, Compound.py:54-59. *)
Fixpoint g_gd (m : gman) : list tensor :=
  match m with
  | GLm _ _ gd _ => [gd]
  | GDir _ _ _ gd0 gd1 _ _ | GFrame _ _ gd0 gd1 _ _ | GCLm _ _ _ gd0 gd1 _ _ _ _ => [gd0; gd1]
  | GEmpty _ => []
  | GComp ms => flat_map g_gd ms
  end.

(** unroll_cotan: Abstract.py:307-308, Empty.py:63-64, Compound.py:61-65. *)
Fixpoint g_cotan (m : gman) : list tensor :=
  match m with
  | GLm _ _ _ c => [c]
  | GDir _ _ _ _ _ c0 c1 | GFrame _ _ _ _ c0 c1 | GCLm _ _ _ _ _ c0 c1 _ _ => [c0; c1]
  | GEmpty _ => []
  | GComp ms => flat_map g_cotan ms
  end.

(** unroll_tan of the manifold returned by infinitesimal_action, Compound.py:67-71. *)
Fixpoint g_tan (t : gtan) : list tensor :=
  match t with
  | TLm a => [a]
  | TPair a b => [a; b]
  | TEmpty => []
  | TComp ts => flat_map g_tan ts
  end.

(** [l.pop(0)] *)
Definition popt (l : list tensor) : res (tensor * list tensor) :=
  match l with [] => Err IndexError | x :: l' => Ok (x, l') end.

(** [m.fill_gd(m.roll_gd(l))]: the manifold afterwards and the tensors left in the
    list (Abstract.py:310-311, 337-339, Compound.py:73-78, 100-105). *)
Fixpoint put_gd (m : gman) (l : list tensor) {struct m} : res (gman * list tensor) :=
  match m with
  | GLm dim nb _ c => ' (x, l) <- popt l ;; Ok (GLm dim nb x c, l)
  | GDir tr dim nb _ _ c0 c1 =>
      ' (x, l) <- popt l ;; ' (y, l) <- popt l ;; Ok (GDir tr dim nb x y c0 c1, l)
  | GFrame dim nb _ _ c0 c1 =>
      ' (x, l) <- popt l ;; ' (y, l) <- popt l ;; Ok (GFrame dim nb x y c0 c1, l)
  | GCLm dim nb0 nb1 _ _ c0 c1 i0 i1 =>
      ' (x, l) <- popt l ;; ' (y, l) <- popt l ;; Ok (GCLm dim nb0 nb1 x y c0 c1 i0 i1, l)
  | GEmpty dim => Ok (GEmpty dim, l)
  | GComp ms =>
      ' (ms', l') <-
        (fix go (ms : list gman) (l : list tensor) : res (list gman * list tensor) :=
           match ms with
           | [] => Ok ([], l)
           | m :: ms' =>
               ' (x, l') <- put_gd m l ;; ' (xs, l'') <- go ms' l' ;; Ok (x :: xs, l'')
           end) ms l ;;
      Ok (GComp ms', l')
  end.

(** [m.fill_cotan(m.roll_cotan(l))] (Abstract.py:316-317, 345-347, Compound.py:80-84,
    111-113). *)
Fixpoint put_cotan (m : gman) (l : list tensor) {struct m} : res (gman * list tensor) :=
  match m with
  | GLm dim nb g _ => ' (x, l) <- popt l ;; Ok (GLm dim nb g x, l)
  | GDir tr dim nb g0 g1 _ _ =>
      ' (x, l) <- popt l ;; ' (y, l) <- popt l ;; Ok (GDir tr dim nb g0 g1 x y, l)
  | GFrame dim nb g0 g1 _ _ =>
      ' (x, l) <- popt l ;; ' (y, l) <- popt l ;; Ok (GFrame dim nb g0 g1 x y, l)
  | GCLm dim nb0 nb1 g0 g1 _ _ i0 i1 =>
      ' (x, l) <- popt l ;; ' (y, l) <- popt l ;; Ok (GCLm dim nb0 nb1 g0 g1 x y i0 i1, l)
  | GEmpty dim => Ok (GEmpty dim, l)
  | GComp ms =>
      ' (ms', l') <-
        (fix go (ms : list gman) (l : list tensor) : res (list gman * list tensor) :=
           match ms with
           | [] => Ok ([], l)
           | m :: ms' =>
               ' (x, l') <- put_cotan m l ;; ' (xs, l'') <- go ms' l' ;; Ok (x :: xs, l'')
           end) ms l ;;
      Ok (GComp ms', l')
  end.

(** len_gd: Abstract.py:292-294, Empty.py:41-42, Compound.py:47-48. *)
Fixpoint g_len (m : gman) : nat :=
  match m with
  | GLm _ _ _ _ => 1
  | GDir _ _ _ _ _ _ _ | GFrame _ _ _ _ _ _ | GCLm _ _ _ _ _ _ _ _ _ => 2
  | GEmpty _ => 0
  | GComp ms => list_sum (map g_len ms)
  end%nat.

(** shape_gd: Abstract.py:287-289 with the shapes of each class; CompoundManifold has no
    such attribute.  (EmptyManifold has one shape, which is never read.) *)
Definition g_shapes (m : gman) : res (list (list nat)) :=
  match m with
  | GLm dim nb _ _ => Ok [[nb; dim]]
  | GDir _ dim nb _ _ _ _ => Ok [[nb; dim]; [nb; dim]]
  | GFrame dim nb _ _ _ _ => Ok [[nb; dim]; [nb; dim; dim]]
  | GCLm dim nb0 _ _ _ _ _ _ _ => Ok [[nb0; dim]; [nb0; dim]]
  | GEmpty _ => Ok [[]]
  | GComp _ => Err AttributeError
  end.

(** ** The state vector *)

(** Number of elements of a list of tensors; concatenation of their flattenings
    ([torch.cat(list(map(lambda x: x.flatten(), l)), dim=0)], which raises on an
    empty list). *)
Definition numel (l : list tensor) : nat := list_sum (map (fun t => prod (shape t)) l).

Fixpoint cat_get (l : list tensor) (k : nat) : R :=
  match l with
  | [] => 0
  | t :: l' => let n := prod (shape t) in
               if Nat.ltb k n then (tflatten t) @1 k else cat_get l' (k - n)
  end.

Definition cat_flat (l : list tensor) : res tensor :=
  match l with [] => Err RuntimeError | _ => Ok (mk1 (numel l) (cat_get l)) end.

(** [v.view(r, -1)] of a vector: the number of columns is inferred; torch raises when
    the vector is empty or not a multiple of r. *)
Definition view_rows (r : nat) (v : tensor) : res tensor :=
  let n := tnth (shape v) 0 in
  if (Nat.eqb n 0 || negb (Nat.eqb (n mod r) 0))%bool then Err RuntimeError
  else Ok (reshape [r; (n / r)%nat] v).

(** [x[r]] and [x[r][index:index+n].view(sh)]: a slice that is too short cannot be
    viewed. *)
Definition row (r : nat) (x : tensor) : tensor := mk1 (ncols x) (fun j => x @2 r j).
Definition slice_view (x : tensor) (index : nat) (sh : list nat) : res tensor :=
  if Nat.leb (index + prod sh) (tnth (shape x) 0)
  then Ok (mkT sh (fun idx => x @1 (index + ravel sh idx)%nat))
  else Err RuntimeError.

(** shooting.py:133-146, 195-204, 273-282, 292-301: the loop over the modules.  Each
    member's len_gd slices are cut one after the other. *)
Fixpoint cut (shapes : list (list nat)) (x : tensor) (index : nat) : res (list tensor * nat) :=
  match shapes with
  | [] => Ok ([], index)
  | sh :: shapes' =>
      t <- slice_view x index sh ;;
      ' (ts, index) <- cut shapes' x (index + prod sh) ;;
      Ok (t :: ts, index)
  end.

Fixpoint unpack (ms : list gman) (x : tensor) (index : nat) : res (list tensor) :=
  match ms with
  | [] => Ok []
  | m :: ms' =>
      ' (ts, index) <- (if Nat.eqb (g_len m) 0 then Ok ([], index)
                        else (shapes <- g_shapes m ;; cut shapes x index)) ;;
      rest <- unpack ms' x index ;;
      Ok (ts ++ rest)
  end.

(** [for m in h.module]: only compounds are iterable. *)
Definition members (m : dmod) : res (list dmod) :=
  match m with MComp ms => Ok ms | _ => Err TypeError end.

Definition member_manifolds (m : dmod) : res (list gman) :=
  ms <- members m ;; Ok (map mod_manifold ms).

(** Writing a state vector in a manifold whose members are [gs]: descriptors from row
    0, and moments from row 1 when they are part of the state. *)
Definition unpack_into (gs : list gman) (g : gman) (x : tensor) (with_mom : bool) : res gman :=
  gd <- unpack gs (row 0 x) 0 ;;
  mom <- (if with_mom then unpack gs (row 1 x) 0 else Ok []) ;;
  ' (g1, _) <- put_gd g gd ;;
  if with_mom then ' (g2, _) <- put_cotan g1 mom ;; Ok g2 else Ok g1.

(** x_0, shooting.py:261-266. *)
Definition initial_state (g : gman) (with_mom : bool) : res tensor :=
  v <- cat_flat (g_gd g ++ g_cotan g) ;;
  x <- view_rows 2 v ;;
  if with_mom then Ok x else Ok (reshape [1%nat; ncols x] (row 0 x)).

(** ** Autograd *)

(** The function of the tensors l = unroll_gd() ++ unroll_cotan() whose graph is
    recorded when [ctl] then [h()] are executed: the descriptors and moments are l,
    the controls are given by [ctl]. *)
Definition write_manifold (m : dmod) (l : list tensor) : res dmod :=
  let g := mod_manifold m in
  ' (g1, l1) <- put_gd g l ;;
  ' (g2, _) <- put_cotan g1 l1 ;;
  set_manifold m g2.

Definition ham_of (m : dmod) (ctl : dmod -> res dmod) (l : list tensor) : res R :=
  m1 <- write_manifold m l ;; m2 <- ctl m1 ;; hamiltonian m2.

Definition autograd := (list tensor -> res R) -> list tensor -> res (list (option tensor)).

(** shooting.py:71-74, 164-167: [delta[i]] None is replaced by zeros of the shape of
    l[i] (IndexError if there are fewer l than delta). *)
Fixpoint no_none (delta : list (option tensor)) (l : list tensor) : res (list tensor) :=
  match delta, l with
  | [], _ => Ok []
  | Some t :: delta', l => r <- no_none delta' (tl l) ;; Ok (t :: r)
  | None :: delta', x :: l' => r <- no_none delta' l' ;; Ok (tzeros (shape x) :: r)
  | None :: _, [] => Err IndexError
  end.

(** The copy of the controls kept in intermediates: [x.clone()] or
    [x.detach().clone()] for each member's controls (a list has no such method). *)
Definition clone_controls (c : ctrl) : res (list ctrl) :=
  match c with
  | CLeaf _ => Err TypeError
  | CList l => mapM (fun c => match c with CLeaf t => Ok (CLeaf t) | CList _ => Err AttributeError end) l
  end.

Section Dynamics.
Variables (sv : solver) (b0 : backend) (ag : autograd).

(** dH/d(descriptors), dH/d(moments) as two lists of tensors (shooting.py:67-78,
    154-170); [m] has its controls already. *)
Definition gradients (m : dmod) (ctl : dmod -> res dmod) : res (list tensor * list tensor) :=
  let g := mod_manifold m in
  let l := g_gd g ++ g_cotan g in
  d <- ag (ham_of m ctl) l ;;
  delta <- no_none d l ;;
  let n := Nat.div (length delta) 2 in
  Ok (firstn n delta, skipn n delta).

(** ** torch_euler, shooting.py:53-92 *)

(** [m.add_gd(m.roll_gd(l))] and [m.add_cotan(m.roll_cotan(l))] (Abstract.py:371-378,
    Compound.py:128-138): the sums of the tensors, member by member. *)
Definition add_lists (a b : list tensor) : list tensor := map (fun p => tadd (fst p) (snd p)) (combine a b).

(** What one shoot leaves behind: states and controls of the intermediates. *)
Record inter := mkInter { in_states : list gman; in_controls : list (list ctrl) }.

(** Controls chosen for a step: given ones, or geodesic ones. *)
Definition step_controls (controls : option (list ctrl)) (i : nat) (m : dmod) : res dmod :=
  match controls with
  | Some cs => match nth_error cs i with
               | None => Err IndexError
               | Some c => fill_controls sv m c
               end
  | None => geodesic_controls sv b0 m
  end.

Definition euler_step (dt : R) (controls : option (list ctrl)) (i : nat) (m : dmod) : res dmod :=
  m1 <- step_controls controls i m ;;
  ' (dq, dp) <- gradients m1 (step_controls controls i) ;;
  let d_gd := map (tscal (- dt)) dq in
  let d_mom := map (tscal dt) dp in
  let g := mod_manifold m1 in
  _ <- put_gd g d_gd ;;                    (* roll_gd: IndexError when too short *)
  _ <- put_cotan g d_mom ;;
  ' (g1, _) <- put_gd g (add_lists (g_gd g) d_mom) ;;
  ' (g2, _) <- put_cotan g1 (add_lists (g_cotan g1) d_gd) ;;
  set_manifold m1 g2.

Fixpoint euler_loop (dt : R) (controls : option (list ctrl)) (keep : bool) (n i : nat) (m : dmod) (acc : inter)
  : res (dmod * inter) :=
  match n with
  | O => Ok (m, acc)
  | S n' =>
      m1 <- euler_step dt controls i m ;;
      acc1 <- (if keep
               then (c <- clone_controls (ModuleModel.controls m1) ;;
                     Ok (mkInter (in_states acc ++ [mod_manifold m1]) (in_controls acc ++ [c])))
               else Ok acc) ;;
      euler_loop dt controls keep n' (S i) m1 acc1
  end.

Definition shoot_euler (it : nat) (controls : option (list ctrl)) (keep : bool) (m : dmod) : res (dmod * inter) :=
  if Nat.eqb it 0 then Err ZeroDivisionError
  else euler_loop (1 / INR it) controls keep it 0 m (mkInter [mod_manifold m] []).
End Dynamics.

(** ** Times *)

(** What the code does with times.  [index t t1 it] is math.floor(t / (t1 / it)). *)
Record clock := mkClock {
  time : Type;
  toR : time -> R;
  is_zero : time -> bool;
  t_add : time -> time -> time;
  t_sub : time -> time -> time;
  t_half : time -> time;
  t_third : time -> time;
  t_two_thirds : time -> time;
  index : time -> time -> nat -> res Z;
  linspace : time -> nat -> list time
}.

(** Exact times. *)
Definition real_clock : clock := mkClock R (fun t => t)
  (fun t => if Req_EM_T t 0 then true else false) Rplus Rminus
  (fun t => 1 / 2 * t) (fun t => t * (1 / 3)) (fun t => t * (2 / 3))
  (fun t t1 it => Ok (Int_part (t / (t1 / INR it))))
  (fun t1 steps => map (fun i => t1 * (INR i / INR (steps - 1))) (seq 0 steps)).

(** ** torchdiffeq *)

Inductive strat (T : Type) : Type :=
| Ask (t : T) (x : tensor) (k : tensor -> strat T)
| Answer (xs : list tensor).
Arguments Ask {T} t x k.
Arguments Answer {T} xs.

Section Solvers.
Variable ck : clock.
Notation T := (time ck).

(** torchdiffeq/_impl/fixed_grid.py and rk_common.py: one step from (t0, y0) to t1,
    handing the increment to [k]. *)
Definition euler_inc (t0 t1 : T) (y0 : tensor) (k : tensor -> strat T) : strat T :=
  let dt := t_sub ck t1 t0 in
  Ask t0 y0 (fun f0 => k (tscal (toR ck dt) f0)).

Definition midpoint_inc (t0 t1 : T) (y0 : tensor) (k : tensor -> strat T) : strat T :=
  let dt := t_sub ck t1 t0 in
  let half := t_half ck dt in
  Ask t0 y0 (fun f0 =>
  Ask (t_add ck t0 half) (tadd y0 (tscal (toR ck half) f0)) (fun f1 =>
  k (tscal (toR ck dt) f1))).

(** rk4_alt_step_func: the 3/8 rule. *)
Definition rk4_inc (t0 t1 : T) (y0 : tensor) (k : tensor -> strat T) : strat T :=
  let dt := t_sub ck t1 t0 in
  let h := toR ck dt in
  Ask t0 y0 (fun k1 =>
  Ask (t_add ck t0 (t_third ck dt)) (tadd y0 (tscal (h * (1 / 3)) k1)) (fun k2 =>
  Ask (t_add ck t0 (t_two_thirds ck dt)) (tadd y0 (tscal h (tsub k2 (tscal (1 / 3) k1)))) (fun k3 =>
  Ask t1 (tadd y0 (tscal h (tadd (tsub k1 k2) k3))) (fun k4 =>
  k (tscal (h / 8) (tadd (tadd k1 (tscal 3 (tadd k2 k3))) k4)))))).

(** FixedGridODESolver.integrate, solvers.py: the grid is the list of requested times. *)
Fixpoint fixed_grid (inc : T -> T -> tensor -> (tensor -> strat T) -> strat T)
    (t0 : T) (grid : list T) (y0 : tensor) (acc : list tensor) : strat T :=
  match grid with
  | [] => Answer acc
  | t1 :: grid' => inc t0 t1 y0 (fun dy => let y1 := tadd y0 dy in fixed_grid inc t1 grid' y1 (acc ++ [y1]))
  end.

Definition fixed_solver inc (grid : list T) (x0 : tensor) : strat T :=
  match grid with
  | [] => Answer []
  | t0 :: grid' => fixed_grid inc t0 grid' x0 [x0]
  end.

Variable others : string -> option (list T -> tensor -> strat T).

(** torchdiffeq's SOLVERS *)
Definition find_solver (name : string) : option (list T -> tensor -> strat T) :=
  if String.eqb name "euler" then Some (fixed_solver euler_inc)
  else if String.eqb name "midpoint" then Some (fixed_solver midpoint_inc)
  else if String.eqb name "rk4" then Some (fixed_solver rk4_inc)
  else others name.

Section Shoot.
Variables (sv : solver) (b0 : backend) (ag : autograd).
Variables (t1 : T) (it : nat) (controls : option (list ctrl)) (keep : bool).

(** The attributes of TorchDiffEqHamiltonianGrad that change (shooting.py:99-111), with
    h.module, costs['deformation'] and intermediates['controls']. *)
Record fstate := mkF {
  f_mod : dmod;
  f_it : nat;
  f_true : Z;
  f_costs : list R;
  f_controls : list (list ctrl)
}.

(** t_to_it, shooting.py:113-114. *)
Definition t_to_it (t : T) : res Z :=
  i <- index ck t t1 it ;; Ok (Z.min i (Z.of_nat it - 1)).

(** Python's [l[i]] with an integer. *)
Definition py_nth {A} (l : list A) (i : Z) : res A :=
  let i := if Z.ltb i 0 then Z.add (Z.of_nat (length l)) i else i in
  if Z.ltb i 0 then Err IndexError
  else match nth_error l (Z.to_nat i) with Some x => Ok x | None => Err IndexError end.

(** Which control set is used, shooting.py:206-214. *)
Definition choose_control (cs : list ctrl) (true_it : Z) (n : nat) : res ctrl :=
  if Nat.eqb (length cs) it then py_nth cs true_it
  else if Nat.ltb it (length cs) then py_nth cs (Z.of_nat n)
  else py_nth cs 0.

Definition kept (m : dmod) (acc : list (list ctrl)) : res (list (list ctrl)) :=
  if keep then (c <- clone_controls (ModuleModel.controls m) ;; Ok (acc ++ [c])) else Ok acc.

(** forward_moments, 116-176, and forward_control, 178-250. *)
Definition forward (t : T) (x : tensor) (s : fstate) : res (tensor * fstate) :=
  true_it <- t_to_it t ;;
  let add := (negb (Z.eqb (f_true s) true_it) || is_zero ck t)%bool in
  gs <- member_manifolds (f_mod s) ;;
  match controls with
  | None =>
      g <- unpack_into gs (mod_manifold (f_mod s)) x true ;;
      m1 <- set_manifold (f_mod s) g ;;
      m2 <- geodesic_controls sv b0 m1 ;;
      ks <- kept m2 (f_controls s) ;;
      ' (dq, dp) <- gradients ag m2 (geodesic_controls sv b0) ;;
      costs <- (if add then (c <- cost m2 ;; Ok (f_costs s ++ [c])) else Ok (f_costs s)) ;;
      v <- cat_flat (dp ++ map topp dq) ;;
      y <- view_rows 2 v ;;
      Ok (y, mkF m2 (S (f_it s)) true_it costs ks)
  | Some cs =>
      g <- unpack_into gs (mod_manifold (f_mod s)) x false ;;
      m1 <- set_manifold (f_mod s) g ;;
      c <- choose_control cs true_it (f_it s) ;;
      m2 <- fill_controls sv m1 c ;;
      ks <- kept m2 (f_controls s) ;;
      costs <- (if add then (c <- cost m2 ;; Ok (f_costs s ++ [c])) else Ok (f_costs s)) ;;
      f <- field_generator m2 ;;
      tan <- infinitesimal_action (mod_manifold m2) (feval f) ;;
      v <- cat_flat (g_tan tan) ;;
      y <- view_rows 1 v ;;
      Ok (y, mkF m2 (S (f_it s)) true_it costs ks)
  end.

(** Running a solver against the right-hand side. *)
Fixpoint run_strat (p : strat T) (s : fstate) : res (list tensor * fstate) :=
  match p with
  | Answer xs => Ok (xs, s)
  | Ask t x k => ' (y, s') <- forward t x s ;; run_strat (k y) s'
  end.

(** _shoot_torchdiffeq, 95-307.  [x_1[-1]] raises IndexError on an empty answer. *)
Definition with_mom : bool := match controls with None => true | Some _ => false end.

Definition shoot_torchdiffeq (solve : list T -> tensor -> strat T) (m : dmod)
  : res (dmod * list R * inter) :=
  let init := mod_manifold m in
  x0 <- initial_state init with_mom ;;
  ' (xs, s) <- run_strat (solve (linspace ck t1 (it + 1)) x0) (mkF m 0 0 [] []) ;;
  gs <- member_manifolds (f_mod s) ;;
  xlast <- match rev xs with [] => Err IndexError | x :: _ => Ok x end ;;
  g <- unpack_into gs (mod_manifold (f_mod s)) xlast with_mom ;;
  m1 <- set_manifold (f_mod s) g ;;
  states <- (if keep
             then mapM (fun i => match nth_error xs i with
                                 | None => Err IndexError
                                 | Some x => unpack_into gs init x with_mom
                                 end) (seq 0 (it + 1))
             else Ok []) ;;
  Ok (m1, f_costs s, mkInter states (f_controls s)).
End Shoot.

(** What shoot() leaves: the module, the entry 'deformation' of the dictionary costs if
    there is one, and the intermediates if asked for. *)
Record shot := mkShot { sh_mod : dmod; sh_costs : option (list R); sh_inter : option inter }.

(** shoot, 8-50.  [costs0] is the entry 'deformation' of [costs] before the call. *)
Definition shoot (sv : solver) (b0 : backend) (ag : autograd) (name : string) (it : nat) (t1 : T)
    (controls : option (list ctrl)) (keep : bool) (costs0 : option (list R)) (m : dmod) : res shot :=
  if String.eqb name "torch_euler" then
    ' (m1, i) <- shoot_euler sv b0 ag it controls keep m ;;
    Ok (mkShot m1 costs0 (if keep then Some i else None))
  else match find_solver name with
       | Some solve =>
           ' (p, i) <- shoot_torchdiffeq sv b0 ag t1 it controls keep solve m ;;
           Ok (mkShot (fst p) (Some (snd p)) (if keep then Some i else None))
       | None => Err NotImplementedError
       end.
End Solvers.
