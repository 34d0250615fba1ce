(** Specification vocabulary for registration models and atlases. *)
From Coq Require Import Reals String List Arith.
From Verif Require Import Py Tensor KernelModel FieldModel GeometryModel ModuleModel ShootingModel RegistrationModel SpecModule ModuleHistory ShootingDyn.
Import ListNotations.
Open Scope R_scope.

Section Uses.
Variable ck : clock.
Variable others : string -> option (list (time ck) -> tensor -> strat (time ck)).
Variables (sv : solver) (b0 : backend) (ag : autograd).

(** Integrating evaluates the dynamics at least once. *)
Definition evaluates (name : string) (t1 : time ck) (it : nat) : Prop :=
  name <> "torch_euler"%string -> forall solve, find_solver ck others name = Some solve ->
  forall x0, exists t x k, solve (linspace ck t1 (it + 1)) x0 = Ask t x k.

(** What no evaluation modifies in a module: the arguments of its constructor ([params]);
    for a model that does not learn its controls, also the number of controls of the global
    translations ([frozen]).  Everything else (controls, manifold, intermediate results)
    may be left in any state by an evaluation that is interrupted by an exception. *)
Definition settings (learns : bool) (m : dmod) : dmod := if learns then params m else frozen m.

(** [used h r r']: the model r becomes r' after some evaluations with any targets, solvers
    and numbers of steps, some of which may have been interrupted by an exception. *)
Inductive used (h : heap) : reg -> reg -> Prop :=
| used_not r : used h r r
| used_evaluate r r1 r2 targets name it t1 cost0 c :
    evaluate ck others sv b0 ag h r targets name it t1 cost0 = Ok (c, r1) -> used h r1 r2 -> used h r r2
| used_deformed r r1 r2 name it t1 costs x :
    compute_deformed ck others sv b0 ag h r name it t1 costs = Ok (x, r1) -> used h r1 r2 -> used h r r2
| used_interrupted r r2 defs mods :
    Forall2 (fun d d' => exists g, d' = df_set d g) (r_defs r) defs ->
    Forall2 (fun m m' => settings (r_fit_controls r) m' = settings (r_fit_controls r) m) (r_mods r) mods ->
    used h (set_run r defs mods) r2 -> used h r r2.
End Uses.

(** ** One evaluation *)

(** Sum of a list of numbers. *)
Definition total (l : list R) : R := fold_right Rplus 0 l.

(** The deformables and modules when shooting starts: filled with the initial manifold. *)
Definition filled (h : heap) (r : reg) : res (list deformable * list dmod) :=
  mods <- fill_mods h (r_mods r) (skipn (length (r_defs r)) (r_init r)) ;;
  defs <- fill_defs h (r_defs r) (r_init r) ;;
  Ok (defs, mods).

(** The compound that is shot, its controls and its number of steps. *)
Definition start (defs : list deformable) (mods : list dmod) : dmod := MComp (map silent_module defs ++ mods).
Definition given (defs : list deformable) (cs : option (list (list ctrl))) : option (list ctrl) :=
  option_map (map (in_controls_of (length defs))) cs.
Definition controls_of (h : heap) (r : reg) : option (list (list ctrl)) :=
  if r_fit_controls r then Some (learned h r) else None.
Definition steps_of (r : reg) (it : nat) : nat := if r_fit_controls r then r_it r else it.

(** Objects that are carried by landmarks, forward, and can be built from any points. *)
Definition ordinary (d : deformable) : Prop :=
  has_backward d = false /\ (exists dim nb q p, df_man d = GLm dim nb q p) /\ forall q, is_ok (to_deformed d q).

(** The object d moved to the points of the silent module m. *)
Definition deformed_by (m : dmod) (d : deformable) (x : geom) : Prop :=
  exists dim nb q p, mod_manifold m = GLm dim nb q p /\ to_deformed d q = Ok x.

(** ** Parameters *)

(** The tensors of the descriptors that fit_gd selects. *)
Fixpoint selected (fits : list fit) (ms : list oman) : list ref :=
  match fits, ms with
  | FBool true :: fits', m :: ms' => om_gd m ++ selected fits' ms'
  | FBool false :: fits', _ :: ms' => selected fits' ms'
  | FEach bs :: fits', m :: ms' => select bs (om_gd m) ++ selected fits' ms'
  | _, _ => []
  end.

(** Those selected with a single boolean; those selected one by one. *)
Fixpoint selected_whole (fits : list fit) (ms : list oman) : list ref :=
  match fits, ms with
  | FBool true :: fits', m :: ms' => om_gd m ++ selected_whole fits' ms'
  | _ :: fits', _ :: ms' => selected_whole fits' ms'
  | _, _ => []
  end.
Fixpoint selected_each (fits : list fit) (ms : list oman) : list ref :=
  match fits, ms with
  | FEach bs :: fits', m :: ms' => select bs (om_gd m) ++ selected_each fits' ms'
  | _ :: fits', _ :: ms' => selected_each fits' ms'
  | _, _ => []
  end.

(** The initial moments; the initial manifolds of the deformation modules. *)
Definition init_cotan (r : reg) : list ref := flat_map om_cotan (r_init r).
Definition modules_init (r : reg) : list oman := skipn (length (r_defs r)) (r_init r).

(** Every tensor of the model that optimizers may handle. *)
Definition man_refs (m : oman) : list ref := om_gd m ++ om_cotan m.
Definition tensors_of (r : reg) : list ref := flat_map man_refs (r_init r) ++ List.concat (r_ctrls r).

(** The reference denotes an object of the heap; distinct storages. *)
Definition exists_in (h : heap) (k : ref) : Prop :=
  (k < length (h_objs h))%nat /\ (o_store (the_obj h k) < length (h_vals h))%nat.
Definition store (h : heap) (k : ref) : nat := o_store (the_obj h k).
Definition records (h : heap) (k : ref) : Prop := o_rg (the_obj h k) = true.

(** The entries of [parameters] a user expects: the tensors of the model itself, unless
    other_parameters has the same key. *)
Definition expected (r : reg) (k : string) : option (list ref) :=
  match dict_get (r_other r) k with
  | Some v => Some v
  | None =>
      if String.eqb k "cotan" then Some (init_cotan r)
      else if String.eqb k "gd" then
        match r_fit_gd r with [] => None | fits => Some (selected fits (modules_init r)) end
      else if String.eqb k "controls" then
        (if r_fit_controls r then Some (List.concat (r_ctrls r)) else None)
      else None
  end.

(** What may happen to a model between two evaluations: an optimizer writes in one of its
    tensors, it is sent to a device, it is evaluated. *)
Inductive lived ck others sv b0 ag : heap -> reg -> heap -> reg -> Prop :=
| lived_not h r : lived ck others sv b0 ag h r h r
| lived_write h r h2 r2 k v : In k (tensors_of r) ->
    lived ck others sv b0 ag (write h k v) r h2 r2 -> lived ck others sv b0 ag h r h2 r2
| lived_device h r moved h1 r1 h2 r2 : reg_to_device moved h r = Ok (h1, r1) ->
    lived ck others sv b0 ag h1 r1 h2 r2 -> lived ck others sv b0 ag h r h2 r2
| lived_used h r r1 h2 r2 : used ck others sv b0 ag h r r1 ->
    lived ck others sv b0 ag h r1 h2 r2 -> lived ck others sv b0 ag h r h2 r2.

(** ** Atlases *)

(** The descriptors of the modules that fit_gd selects: those of the modules for which it
    is True, or any list with at least one element (whatever its booleans are). *)
Definition picks (f : fit) : bool :=
  match f with FBool true => true | FBool false => false | FEach booleans => Nat.ltb 0 (length booleans) end.
Fixpoint selected_modules (fits : list fit) (ms : list oman) : list ref :=
  match fits, ms with
  | f :: fits', m :: ms' => (if picks f then om_gd m else []) ++ selected_modules fits' ms'
  | _, _ => []
  end.

(** Successive writes of an optimizer. *)
Definition write_all (h : heap) (ws : list (ref * tensor)) : heap :=
  fold_left (fun h w => write h (fst w) (snd w)) ws h.

(** The costs of one subject. *)
Definition subject_costs (deformation attach : R) : list (string * R) :=
  [("deformation"%string, deformation); ("attach"%string, attach)].

(** Evaluating the model of a subject alone gives these costs. *)
Definition costs_of ck others sv b0 ag (h : heap) (name : string) (it : nat) (t1 : time ck) (p : reg * geom) (d : R * R) : Prop :=
  exists r', evaluate ck others sv b0 ag h (fst p) [snd p] name it t1 [] = Ok (subject_costs (fst d) (snd d), r').
