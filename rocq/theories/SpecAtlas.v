(** Specification vocabulary for the deformed templates of an atlas and for callbacks. *)
From Coq Require Import Reals String List Arith.
From Verif Require Import Py Tensor ModuleModel ShootingModel RegistrationModel AtlasModel SpecRegistration.
Import ListNotations.
Open Scope R_scope.

(** The model of a subject, on its own, deforms its template into [fst p], with the
    intermediates [snd p]. *)
Definition deforms ck others sv b0 ag (h : heap) (name : string) (it : nat) (t1 : time ck) (r : reg) (p : geom * inter) : Prop :=
  exists rest c r', compute_deformed ck others sv b0 ag h r name it t1 false = Ok (fst p :: rest, c, snd p, r').

(** The list that a dictionary holds under a key. *)
Definition held (d : idict) (k : string) : list item :=
  match dict_get d k with Some (AList l) => l | _ => [] end.

(** d' is d with, in addition, the states and the controls of some runs, in order. *)
Definition with_runs (d d' : idict) (runs : list (geom * inter)) : Prop :=
  dict_get d' "states" = Some (AList (held d "states" ++ map (fun p => States (in_states (snd p))) runs)) /\
  dict_get d' "controls" = Some (AList (held d "controls" ++ map (fun p => Controls (in_controls (snd p))) runs)) /\
  forall k, k <> "states"%string -> k <> "controls"%string -> dict_get d' k = dict_get d k.

(** The two dictionaries are absent, or the second one is as above. *)
Definition recorded (d d' : option idict) (runs : list (geom * inter)) : Prop :=
  match d, d' with
  | None, None => True
  | Some d, Some d' => with_runs d d' runs
  | _, _ => False
  end.

(** The atlas x with other models. *)
Definition with_models (x : full_atlas) (rs : list reg) : full_atlas :=
  let a := x_atlas x in
  mkFull (mkAtlas rs (a_fit_gd a) (a_nmod a) (a_optimise a) (a_other a) (a_params a)) (x_parallel x) (x_template x) (x_ht x).

(** x' is the atlas x after evaluations and deformations; calls that raise leave some of
    the subjects evaluated, or interrupted in an evaluation. *)
Inductive atlas_history ck others sv b0 ag (h : heap) : full_atlas -> full_atlas -> Prop :=
| history_none x : atlas_history ck others sv b0 ag h x x
| history_evaluated x x1 x2 own targets name it t1 c h1 :
    evaluate_atlas ck others sv b0 ag own None h x targets name it t1 = Ok (c, h1, x1) ->
    atlas_history ck others sv b0 ag h x1 x2 -> atlas_history ck others sv b0 ag h x x2
| history_deformed x x1 x2 name it t1 d y d1 :
    atlas_deformed ck others sv b0 ag h x name it t1 d = Ok (y, d1, x1) ->
    atlas_history ck others sv b0 ag h x1 x2 -> atlas_history ck others sv b0 ag h x x2
| history_interrupted x rs x2 : Forall2 (used ck others sv b0 ag h) (a_models (x_atlas x)) rs ->
    atlas_history ck others sv b0 ag h (with_models x rs) x2 -> atlas_history ck others sv b0 ag h x x2.

(** What a call returns, without the state it leaves. *)
Definition answer {A B C} (x : res (A * B * C)) : res (A * B) := ' (a, b, _) <- x ;; Ok (a, b).

(** The costs of one evaluation: that of the callback comes first, if there is one. *)
Definition with_precompute (c : option R) (d : list (string * R)) : list (string * R) :=
  match c with Some c => ("precompute"%string, c) :: d | None => d end.
Definition cost_or_zero (c : option R) : R := match c with Some c => c | None => 0 end.

(** The subjects that have a target are evaluated in turn, each one with the tensors that
    the callbacks of the previous ones left; [ds]: the costs of each. *)
Inductive in_turn ck others sv b0 ag (cb : option callback) (name : string) (it : nat) (t1 : time ck)
  : heap -> list reg -> list geom -> list (list (string * R)) -> heap -> Prop :=
| turn_end h rs targets : rs = [] \/ targets = [] -> in_turn ck others sv b0 ag cb name it t1 h rs targets [] h
| turn_next h r rs t targets d h1 r1 ds h2 :
    evaluate_with ck others sv b0 ag cb h r [t] name it t1 [] = Ok (d, h1, r1) ->
    in_turn ck others sv b0 ag cb name it t1 h1 rs targets ds h2 ->
    in_turn ck others sv b0 ag cb name it t1 h (r :: rs) (t :: targets) (d :: ds) h2.

(** The costs of the subjects under one key. *)
Definition under (k : string) (ds : list (list (string * R))) : list R :=
  flat_map (fun d => match dict_get d k with Some v => [v] | None => [] end) ds.
