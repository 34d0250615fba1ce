(** Specification: the moments of a registration model as the parameters of a fit. *)
From Coq Require Import Reals String List Arith.
From Verif Require Import Py Tensor Fl OptimModel FitModel KernelModel FieldModel GeometryModel ModuleModel ShootingModel RegistrationModel
  SpecRegistration SpecGeometry SpecRigid SpecModule SpecShooting SpecSmooth SpecElsewhere.
Import ListNotations.
Open Scope list_scope.
Open Scope R_scope.

(** The entries of a tensor, row by row, and the tensor of a shape with given entries. *)
Definition entries (t : tensor) : list R := map (fun k => get t (unravel (shape t) k)) (seq 0 (prod (shape t))).
Definition of_entries (sh : list nat) (x : list R) : tensor := mkT sh (fun idx => nth (ravel sh idx) x 0).

(** The initial moments of the model: one group of parameters ("cotan", see C30). *)
Definition moments (h : heap) (r : reg) : params := [map (fun k => entries (deref h k)) (init_cotan r)].

(** The heap once an optimizer has written the entries x in the tensors of the moments. *)
Definition with_moments (h : heap) (r : reg) (x : params) : heap :=
  write_all h (map (fun p => (fst p, of_entries (shape (deref h (fst p))) (snd p))) (combine (init_cotan r) (List.concat x))).

(** The costs seen by the fitter, as a function of the moments. *)
Definition fit_costs ck others sv b0 ag (h : heap) (r : reg) (targets : list geom) (name : string) (it : nat) (t1 : time ck) (x : params) : costs :=
  match evaluate ck others sv b0 ag (with_moments h r x) r targets name it t1 [] with
  | Ok (cost, _) => map (fun kv => (fst kv, Fin (snd kv))) cost
  | Err _ => []
  end.

(** Moments are turned by Q: row by row, or frame by frame. *)
Definition turn_moment (d : nat) (Q : mat) (t : tensor) : tensor :=
  match shape t with [_; _; _] => turn_frames d Q t | _ => turn_rows d Q t end.
Definition turn_moments (d : nat) (Q : mat) (h : heap) (r : reg) (g i : nat) (x : list R) : list R :=
  entries (turn_moment d Q (of_entries (shape (deref h (nth i (init_cotan r) 0%nat))) x)).

(** A registration problem and the same problem placed elsewhere by x |-> Q x + c: objects,
    modules and targets are placed, moments are turned. *)
Record placed_problem (d : nat) (Q : mat) (c : nat -> R) (defs : list deformable) (mods : list dmod) (att : list attachment) (targets : list geom)
    (defs' : list deformable) (mods' : list dmod) (att' : list attachment) (targets' : list geom) : Prop := {
  pp_wf : wf_mod d (start defs mods) /\ wf_mod d (start defs' mods');
  pp_smooth : locals_smooth d (start defs mods) /\ locals_smooth d (start defs' mods');
  pp_shootable : shootable (start defs mods) /\ shootable (start defs' mods');
  pp_elsewhere : elsewhere d Q c (start defs mods) (start defs' mods');
  pp_attached : attached_elsewhere d Q c defs att targets defs' att' targets'
}.
