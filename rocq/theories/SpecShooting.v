(** Specification vocabulary for shooting. *)
From Coq Require Import Reals String List Arith ZArith.
From Verif Require Import Py RSum Tensor KernelModel FieldModel GeometryModel ModuleModel SpecModule ShootingModel.
Import ListNotations.
Open Scope R_scope.

(** ** Manifolds *)

(** A manifold that is not a compound. *)
Definition simple (g : gman) : Prop := match g with GComp _ => False | _ => True end.

(** The tensors held by a manifold have the shapes its class announces. *)
Fixpoint shaped (g : gman) : Prop :=
  match g with
  | GComp gs => fold_right (fun g acc => shaped g /\ acc) True gs
  | GEmpty _ => True
  | _ => g_shapes g = Ok (map shape (g_gd g)) /\ map shape (g_cotan g) = map shape (g_gd g)
  end.

(** What remains of a manifold when the values of gd and cotan are forgotten. *)
Fixpoint skel (g : gman) : gman :=
  let o := mk0 0 in
  match g with
  | GLm dim nb _ _ => GLm dim nb o o
  | GDir tr dim nb _ _ _ _ => GDir tr dim nb o o o o
  | GFrame dim nb _ _ _ _ => GFrame dim nb o o o o
  | GCLm dim nb0 nb1 _ _ _ _ i0 i1 => GCLm dim nb0 nb1 o o o o i0 i1
  | GEmpty dim => GEmpty dim
  | GComp gs => GComp (map skel gs)
  end.

(** Two manifolds of the same structure hold the same descriptors; the same moments. *)
Definition same_gd (g g' : gman) : Prop := skel g = skel g' /\ Forall2 teq (g_gd g) (g_gd g').
Definition same_cotan (g g' : gman) : Prop := skel g = skel g' /\ Forall2 teq (g_cotan g) (g_cotan g').
Definition same_values (g g' : gman) : Prop := same_gd g g' /\ same_cotan g g'.

(** Descriptors followed by moments. *)
Definition phase (g : gman) : list tensor := g_gd g ++ g_cotan g.

(** ** Derivatives *)

(** [upd l i idx s]: entry idx of the i-th tensor replaced by s. *)
Definition idx_eqb (a b : list nat) : bool := if list_eq_dec Nat.eq_dec a b then true else false.
Definition tset (t : tensor) (idx : list nat) (s : R) : tensor :=
  mkT (shape t) (fun j => if idx_eqb j idx then s else get t j).
Fixpoint upd (l : list tensor) (i : nat) (idx : list nat) (s : R) : list tensor :=
  match l, i with
  | [], _ => []
  | t :: l', O => tset t idx s :: l'
  | t :: l', S i' => t :: upd l' i' idx s
  end.
Definition entry (l : list tensor) (i : nat) (idx : list nat) : R :=
  match nth_error l i with Some t => get t idx | None => 0 end.

(** [g] is the partial derivative of F at l with respect to entry idx of tensor i: F is
    defined around l in this direction. *)
Definition partial_derivative (F : list tensor -> res R) (l : list tensor) (i : nat) (idx : list nat) (g : R) : Prop :=
  exists eps f, 0 < eps /\
    (forall s, Rabs (s - entry l i idx) < eps -> F (upd l i idx s) = Ok (f s)) /\
    derivable_pt_lim f (entry l i idx) g.

(** An autograd that computes exact derivatives: one answer per tensor, of the same
    shape, [None] standing for zeros. *)
Definition exact_grad (ag : autograd) : Prop :=
  forall F l G, ag F l = Ok G ->
    length G = length l /\
    forall i t, nth_error l i = Some t ->
      match nth_error G i with
      | Some (Some g) => shape g = shape t /\
          forall idx, valid (shape t) idx -> partial_derivative F l i idx (get g idx)
      | _ => forall idx, valid (shape t) idx -> partial_derivative F l i idx 0
      end.

(** ** Numerical schemes *)

(** Lists of tensors as vectors. *)
Definition ladd (a b : list tensor) : list tensor := map (fun p => tadd (fst p) (snd p)) (combine a b).
Definition lscal (c : R) (a : list tensor) : list tensor := map (tscal c) a.
Definition leq (a b : list tensor) : Prop := Forall2 teq a b.

(** [k] is the Hamiltonian vector field of H at l = (q, p): its first half is dH/dp, its
    second half is - dH/dq. *)
Definition hamilton (H : list tensor -> res R) (l k : list tensor) : Prop :=
  map shape k = map shape l /\ exists n, length l = (n + n)%nat /\
  map shape (firstn n l) = map shape (skipn n l) /\
  forall i t idx, (i < n)%nat -> nth_error l i = Some t -> valid (shape t) idx ->
    partial_derivative H l (n + i) idx (entry k i idx) /\
    partial_derivative H l i idx (- entry k (n + i) idx).

(** One step of length dt of the explicit Runge-Kutta schemes from l to l'; the vector
    field used at stage j is given by the relation F j, and [stages] are the points where
    it is evaluated. *)
Definition vfields := nat -> list tensor -> list tensor -> Prop.

Definition euler_scheme (F : vfields) (dt : R) (l : list tensor) (stages : list (list tensor)) (l' : list tensor) : Prop :=
  exists k, stages = [l] /\ F 0%nat l k /\ leq l' (ladd l (lscal dt k)).

Definition midpoint_scheme (F : vfields) (dt : R) (l : list tensor) (stages : list (list tensor)) (l' : list tensor) : Prop :=
  exists k1 l2 k2, stages = [l; l2] /\
    F 0%nat l k1 /\ leq l2 (ladd l (lscal (dt / 2) k1)) /\ F 1%nat l2 k2 /\
    leq l' (ladd l (lscal dt k2)).

(** The 3/8 rule of order 4. *)
Definition rk4_scheme (F : vfields) (dt : R) (l : list tensor) (stages : list (list tensor)) (l' : list tensor) : Prop :=
  exists k1 l2 k2 l3 k3 l4 k4, stages = [l; l2; l3; l4] /\
    F 0%nat l k1 /\
    leq l2 (ladd l (lscal (dt / 3) k1)) /\ F 1%nat l2 k2 /\
    leq l3 (ladd l (lscal dt (ladd k2 (lscal (- (1 / 3)) k1)))) /\ F 2%nat l3 k3 /\
    leq l4 (ladd l (lscal dt (ladd (ladd k1 (lscal (-1) k2)) k3))) /\ F 3%nat l4 k4 /\
    leq l' (ladd l (lscal (dt / 8) (ladd (ladd k1 (lscal 3 (ladd k2 k3))) k4))).

Inductive scheme := SEuler | SMidpoint | SRk4.
Definition scheme_name (s : scheme) : string :=
  match s with SEuler => "euler" | SMidpoint => "midpoint" | SRk4 => "rk4" end%string.
Definition scheme_step (s : scheme) :=
  match s with SEuler => euler_scheme | SMidpoint => midpoint_scheme | SRk4 => rk4_scheme end.
(** Number of evaluations of the dynamics per step. *)
Definition evaluations (s : scheme) : nat := match s with SEuler => 1 | SMidpoint => 2 | SRk4 => 4 end.

(** Successive states of a scheme; F n is the vector field used at the evaluation number n. *)
Definition trajectory (s : scheme) (F : vfields) (dt : R) (states : list (list tensor)) (stages : list (list (list tensor))) : Prop :=
  length states = S (length stages) /\
  forall k l ss l', nth_error states k = Some l -> nth_error stages k = Some ss -> nth_error states (S k) = Some l' ->
    scheme_step s (fun j => F (k * evaluations s + j)%nat) dt l ss l'.

(** ** The dynamics *)

(** The module with descriptors and moments l, after [ctl] gave it its controls. *)
Definition at_state (m : dmod) (ctl : dmod -> res dmod) (l : list tensor) : res dmod :=
  m1 <- write_manifold m l ;; ctl m1.

(** [k] holds the velocities, in the field generated by m with the controls c, of the
    descriptors q: the same numbers in the same order, cut as q is. *)
Definition driven (sv : solver) (m : dmod) (c : ctrl) (q k : list tensor) : Prop :=
  exists m2 f tan,
    at_state m (fun m => fill_controls sv m c) (q ++ g_cotan (mod_manifold m)) = Ok m2 /\
    field_generator m2 = Ok f /\ infinitesimal_action (mod_manifold m2) (feval f) = Ok tan /\
    map shape k = map shape q /\ numel (g_tan tan) = numel q /\
    forall j, (j < numel q)%nat -> cat_get k j = cat_get (g_tan tan) j.

(** The control sets cs suit the compound m wherever its descriptors (of the same shapes)
    may go. *)
Definition accepts (d : nat) (m : dmod) (cs : list ctrl) : Prop :=
  forall q m1 c, map shape q = map shape (g_gd (mod_manifold m)) ->
    write_manifold m (q ++ g_cotan (mod_manifold m)) = Ok m1 -> In c cs -> wf_mod d m1 /\ ctrl_ok d m1 c.

(** A compound of modules whose manifolds are not compounds, holding tensors of the shapes
    they announce. *)
Definition shootable (m : dmod) : Prop :=
  exists ms, m = MComp ms /\ Forall simple (map mod_manifold ms) /\ shaped (mod_manifold m).

(** ** Schedules *)

(** The times at which a solver evaluates the right-hand side, for some answers. *)
Inductive asks {T : Type} : strat T -> list T -> Prop :=
| asks_end xs : asks (Answer xs) []
| asks_time t x k y ts : asks (k y) ts -> asks (Ask t x k) (t :: ts).

(** Of a list of evaluations (number of the time cell, is the time 0?, anything), those
    at time 0 or in another cell than the previous evaluation ([prev] at first). *)
Fixpoint entering {A} (prev : Z) (l : list (Z * bool * A)) : list A :=
  match l with
  | [] => []
  | (i, z, a) :: l' => (if (negb (Z.eqb prev i) || z)%bool then [a] else []) ++ entering i l'
  end.

(** The time cell of evaluation number n: step n / evaluations; the last stage of rk4 is
    taken at the end of the step, which belongs to the next cell if there is one. *)
Definition cell (s : scheme) (it n : nat) : nat :=
  let k := Nat.div n (evaluations s) in
  match s with
  | SRk4 => if Nat.eqb (Nat.modulo n 4) 3 then Nat.min (k + 1) (it - 1) else k
  | _ => k
  end.

(** Which of the given control sets (there are [len] of them) is used at evaluation number
    n, in the time cell i: one per step, one per evaluation, or always the first. *)
Definition control_index (it len : nat) (i : Z) (n : nat) : Z :=
  if Nat.eqb len it then i else if Nat.ltb it len then Z.of_nat n else 0%Z.

(** The evaluation whose cost is recorded for step k. *)
Definition recorded_at (s : scheme) (k : nat) : nat :=
  match s with
  | SEuler => k
  | SMidpoint => 2 * k
  | SRk4 => match k with O => 0 | S k' => 4 * k' + 3 end
  end.
