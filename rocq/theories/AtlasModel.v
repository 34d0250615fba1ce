(** Model of the parts of imodal/Models/atlas.py and imodal/Models/registration_model.py
    that [RegistrationModel] leaves out: the evaluation modes and the hypertemplate of an
    atlas, the deformed templates, and the precompute callbacks.

    Not modelled: the properties [attachement] and [compute_mode] (atlas.py:87-89, 99-101:
    attributes that are never assigned), [template] and [compute_htgd] (103-105, 155-156:
    [pass]). *)
From Coq Require Import Reals String List Arith.
From Verif Require Import Py Tensor KernelModel FieldModel GeometryModel ModuleModel ShootingModel RegistrationModel.
Import ListNotations.
Open Scope string_scope.
Open Scope list_scope.
Open Scope R_scope.

(** ** The hypertemplate: atlas.py:42-49 and 77-79 *)
Record hyper := mkHyper { ht_sigma : R; ht_nu : R; ht_coeff : R; ht_ref : ref }.

(** An atlas: [x_atlas] holds the models and the parameters; [x_ht] is there when
    optimise_template is true; [x_parallel]: which function __compute_deformed_func is. *)
Record full_atlas := mkFull { x_atlas : atlas; x_parallel : bool; x_template : deformable; x_ht : option hyper }.

(** 18-26 *)
Definition read_mode (mode : string) : res bool :=
  if mode =? "sequential" then Ok false
  else if mode =? "parallel" then Ok true
  else Err RuntimeError.

(** 28-32; [settings]: the keys of htgd_settings, when it is not None ('in' raises
    TypeError on None). *)
Definition check_settings (optimise : bool) (sigma : option R) (htgd : bool) (settings : option (list string)) : res unit :=
  if (optimise && match sigma with None => true | Some _ => false end)%bool then Err RuntimeError
  else if htgd then
    match settings with
    | None => Err TypeError
    | Some keys => if existsb (fun k => k =? "sigma") keys then Ok tt else Err RuntimeError
    end
  else Ok tt.

(** __init__, 14-81; _compute_parameters, 115-139.  When the template is optimised the
    moments of the hypertemplate are a new tensor of zeros, under the key 'ht', set after
    the other parameters. *)
Definition new_atlas (h : heap) (template : deformable) (mods : list dmod) (att : attachment) (population : nat)
    (lam : R) (fit_gd : option (list fit)) (optimise : bool) (sigma : option R) (nu coeff : R) (htgd : bool)
    (settings : option (list string)) (other : list (string * list ref)) (mode : string) : res (heap * full_atlas) :=
  par <- read_mode mode ;;
  _ <- check_settings optimise sigma htgd settings ;;
  ' (h1, rs) <- subjects population h template mods att lam other ;;
  ' (h2, rs2) <- match fit_gd with
                | None => Ok (h1, rs)
                | Some fits => fit_loop fits (length mods) 0 h1 rs
                end ;;
  ' (h3, ht) <- match sigma with
               | Some s =>
                   if optimise then
                     gd <- lm_gd (df_man template) ;;
                     let (h3, k) := alloc h2 (tzeros (shape gd)) true in Ok (h3, Some (mkHyper s nu coeff k))
                   else Ok (h2, None)
               | None => Ok (h2, None)
               end ;;
  ' (h4, a) <- atlas_parameters h3 (mkAtlas rs2 fit_gd (length mods) optimise other []) ;;
  let params := match ht with Some t => dict_set (a_params a) "ht" [ht_ref t] | None => a_params a end in
  Ok (h4, mkFull (mkAtlas (a_models a) (a_fit_gd a) (a_nmod a) (a_optimise a) (a_other a) params) par template ht).

(** attachments, 83-85: the first attachments of the models. *)
Definition attachments (x : full_atlas) : res (list attachment) :=
  match a_models (x_atlas x) with
  | [] => Err IndexError
  | rs => mapM (fun r => match r_att r with a :: _ => Ok a | [] => Err IndexError end) rs
  end.

(** The values of a dictionary of intermediates: a list, or something else. *)
Inductive item := States (l : list gman) | Controls (l : list (list ctrl)) | Anything.
Inductive entry := AList (l : list item) | NotAList.
Definition idict := list (string * entry).

(** 187-191 *)
Definition ensure_list (d : idict) (k : string) : idict :=
  match dict_get d k with Some (AList _) => d | _ => dict_set d k (AList []) end.

(** append_in_dict_of_list, usefulfunctions.py:283-288, for one key. *)
Definition append_item (d : idict) (k : string) (v : item) : res idict :=
  match dict_get d k with
  | None => Ok (dict_set d k (AList [v]))
  | Some (AList l) => Ok (dict_set d k (AList (l ++ [v])))
  | Some NotAList => Err AttributeError
  end.

Section Atlas.
Variable ck : clock.
Variable others : string -> option (list (time ck) -> tensor -> strat (time ck)).
Variables (sv : solver) (b0 : backend) (ag : autograd).

(** compute_template, 141-153, when the template is optimised; [costs]: is a dictionary
    given?  shoot is called without its argument [costs] (151): a TypeError. *)
Definition hyper_template (h : heap) (template : deformable) (t : hyper) (costs : bool) : res tensor :=
  gd <- lm_gd (df_man template) ;;
  let m := MImp0 b0 (ht_sigma t) (ht_nu t) (ht_coeff t) (tnth (shape gd) 1) (tnth (shape gd) 0) gd (deref h (ht_ref t)) (tzeros (shape gd)) in
  _ <- (if costs then (m1 <- geodesic_controls sv b0 m ;; c <- cost m1 ;; Ok tt) else Ok tt) ;;
  Err TypeError.

(** __compute_deformed_sequential, 193-207: the models after the call are returned too. *)
Fixpoint deform_subjects (h : heap) (template : deformable) (ht : option hyper) (rs : list reg) (name : string) (it : nat)
    (t1 : time ck) (d : option idict) : res (list geom * option idict * list reg) :=
  match rs with
  | [] => Ok ([], d, [])
  | r :: rs' =>
      _ <- match ht with Some t => (_ <- hyper_template h template t false ;; Ok tt) | None => Ok tt end ;;
      ' (xs, _, i, r1) <- compute_deformed ck others sv b0 ag h r name it t1 false ;;
      y <- match xs with y :: _ => Ok y | [] => Err IndexError end ;;
      d1 <- match d with
            | None => Ok None
            | Some d => d1 <- append_item d "states" (States (in_states i)) ;;
                        d2 <- append_item d1 "controls" (Controls (in_controls i)) ;; Ok (Some d2)
            end ;;
      ' (ys, d2, rs1) <- deform_subjects h template ht rs' name it t1 d1 ;;
      Ok (y :: ys, d2, r1 :: rs1)
  end.

(** compute_deformed, 177-180, and 187-191.  In mode 'parallel' the function called takes one more
    argument than it is given (180, 209): a TypeError, not NotImplementedError. *)
Definition atlas_deformed (h : heap) (x : full_atlas) (name : string) (it : nat) (t1 : time ck) (d : option idict)
  : res (list geom * option idict * full_atlas) :=
  if x_parallel x then Err TypeError
  else
    let d0 := option_map (fun d => ensure_list (ensure_list d "states") "controls") d in
    ' (ys, d1, rs) <- deform_subjects h (x_template x) (x_ht x) (a_models (x_atlas x)) name it t1 d0 ;;
    let a := x_atlas x in
    Ok (ys, d1, mkFull (mkAtlas rs (a_fit_gd a) (a_nmod a) (a_optimise a) (a_other a) (a_params a)) (x_parallel x) (x_template x) (x_ht x)).

(** ** Precompute callbacks *)

(** A callback receives the initial manifold, the modules, the parameters and the
    deformables (registration_model.py:240-241); it may write in their tensors and assign
    their attributes: any function of the heap and of the model.  It returns a cost or None. *)
Definition callback := heap -> reg -> res (heap * reg * option R).

(** RegistrationModel.evaluate, 212-261, with its callback. *)
Definition evaluate_with (cb : option callback) (h : heap) (r : reg) (targets : list geom) (name : string) (it : nat)
    (t1 : time ck) (cost0 : list (string * R)) : res (list (string * R) * heap * reg) :=
  _ <- py_assert (Nat.eqb (length targets) (length (r_defs r))) ;;
  ' (h1, r1, cost1) <-
    match cb with
    | None => Ok (h, r, cost0)
    | Some f =>
        ' (h1, r1, c) <- f h r ;;
        Ok (h1, r1, match c with Some c => dict_set cost0 "precompute" c | None => cost0 end)
    end ;;
  ' (deformed, c, _, r2) <- compute_deformed ck others sv b0 ag h1 r1 name it t1 true ;;
  let cost2 := match c with Some c => dict_set cost1 "deformation" c | None => cost1 end in
  cs <- attachment_costs (r_att r1) deformed targets ;;
  Ok (dict_set cost2 "attach" (r_lam r1 * py_sum cs), h1, r2).

(** AtlasModel.evaluate, 158-175; [cb] is model_precompute_callback, given to every model
    (53).  The callback of the atlas itself, [own], is stored and never called. *)
Fixpoint evaluate_subjects (cb : option callback) (h : heap) (template : deformable) (ht : option hyper) (rs : list reg) (targets : list geom)
    (name : string) (it : nat) (t1 : time ck) (costs : list (string * list R)) : res (list (string * list R) * heap * list reg) :=
  match rs, targets with
  | r :: rs', t :: targets' =>
      _ <- match ht with Some u => (_ <- hyper_template h template u true ;; Ok tt) | None => Ok tt end ;;
      ' (c, h1, r1) <- evaluate_with cb h r [t] name it t1 [] ;;
      ' (costs1, h2, rs1) <- evaluate_subjects cb h1 template ht rs' targets' name it t1 (append_in_dict costs c) ;;
      Ok (costs1, h2, r1 :: rs1)
  | _, _ => Ok (costs, h, rs)
  end.

Definition evaluate_atlas (own cb : option callback) (h : heap) (x : full_atlas) (targets : list geom) (name : string) (it : nat)
    (t1 : time ck) : res (list (string * R) * heap * full_atlas) :=
  let a := x_atlas x in
  ' (costs, h1, rs) <- evaluate_subjects cb h (x_template x) (x_ht x) (a_models a) targets name it t1 [] ;;
  match costs with
  | [] => Err AttributeError
  | _ => Ok (map (fun kv => (fst kv, py_sum (snd kv))) costs, h1,
             mkFull (mkAtlas rs (a_fit_gd a) (a_nmod a) (a_optimise a) (a_other a) (a_params a)) (x_parallel x) (x_template x) (x_ht x))
  end.
End Atlas.
