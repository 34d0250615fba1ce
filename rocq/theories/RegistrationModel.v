(** Model of imodal/Models/deformable.py (classes and deformables_compute_deformed),
    imodal/Models/registration_model.py and imodal/Models/atlas.py.

    Tensor objects are references: several objects may share one storage (the result of
    [detach()] shares the storage of its argument), and optimizers write in storages.
    Only the tensors that are handed to optimizers are objects here: those of the initial
    manifold (gd and cotan; its tangents are left out) and the learnable controls.  The
    modules and the silent modules of the deformables are values, as in [ModuleModel]: no
    operation of these files writes in a tensor.

    Left out: labels, devices other than "has the tensor moved", printing, the
    precompute callback (None), and gradients (recording is the flag [o_rg]).
    Dictionaries are lists of pairs, in the order of insertion. *)
From Coq Require Import Reals String List Arith.
From Verif Require Import Py Tensor KernelModel FieldModel GeometryModel ModuleModel ShootingModel.
Import ListNotations.
Open Scope string_scope.
Open Scope list_scope.
Open Scope R_scope.

(** ** Tensor objects *)

Record obj := mkObj { o_store : nat; o_rg : bool }.
Record heap := mkHeap { h_objs : list obj; h_vals : list tensor }.
Definition ref := nat.

Definition no_obj : obj := mkObj 0 false.
Definition the_obj (h : heap) (r : ref) : obj := nth r (h_objs h) no_obj.
Definition deref (h : heap) (r : ref) : tensor := nth (o_store (the_obj h r)) (h_vals h) (mk0 0).

(** A new tensor. *)
Definition alloc (h : heap) (v : tensor) (rg : bool) : heap * ref :=
  (mkHeap (h_objs h ++ [mkObj (length (h_vals h)) rg]) (h_vals h ++ [v]), length (h_objs h)).

(** [t.detach().requires_grad_(rg)] *)
Definition detach (h : heap) (r : ref) (rg : bool) : heap * ref :=
  (mkHeap (h_objs h ++ [mkObj (o_store (the_obj h r)) rg]) (h_vals h), length (h_objs h)).

(** In-place modification of the values of a tensor. *)
Fixpoint set_nth {A} (l : list A) (n : nat) (x : A) : list A :=
  match l, n with
  | [], _ => []
  | _ :: l', O => x :: l'
  | a :: l', S n' => a :: set_nth l' n' x
  end.
Definition write (h : heap) (r : ref) (v : tensor) : heap :=
  mkHeap (h_objs h) (set_nth (h_vals h) (o_store (the_obj h r)) v).

(** A list comprehension over references that makes new objects. *)
Fixpoint each_ref {A} (f : heap -> A -> heap * ref) (h : heap) (l : list A) : heap * list ref :=
  match l with
  | [] => (h, [])
  | a :: l' => let (h1, r) := f h a in let (h2, rs) := each_ref f h1 l' in (h2, r :: rs)
  end.

(** ** Manifolds made of tensor objects *)

Record oman := mkOman { om_kind : gman; om_gd : list ref; om_cotan : list ref }.

(** The manifold with the values of its tensors. *)
Definition man_value (h : heap) (m : oman) : res gman :=
  ' (g1, _) <- put_gd (om_kind m) (map (deref h) (om_gd m)) ;;
  ' (g2, _) <- put_cotan g1 (map (deref h) (om_cotan m)) ;;
  Ok g2.

(** [manifold.clone(False)]: new tensors that do not record (Manifolds/Abstract.py:254-269,
    Compound.py:28-29, Empty.py:15-16). *)
Definition clone_man (h : heap) (g : gman) : heap * oman :=
  let (h1, gd) := each_ref (fun h v => alloc h v false) h (g_gd g) in
  let (h2, cotan) := each_ref (fun h v => alloc h v false) h1 (g_cotan g) in
  (h2, mkOman g gd cotan).

Fixpoint clone_mans (h : heap) (gs : list gman) : heap * list oman :=
  match gs with
  | [] => (h, [])
  | g :: gs' => let (h1, m) := clone_man h g in let (h2, ms) := clone_mans h1 gs' in (h2, m :: ms)
  end.

(** [cotan_requires_grad_()], [gd_requires_grad_()]: Manifolds/Abstract.py:245-252,
    tensor_container.py:136-150; not implemented by CompoundManifold (Abstract.py:87-94),
    without effect on EmptyManifold (Empty.py:48-55). *)
Definition is_comp (m : oman) : bool := match om_kind m with GComp _ => true | _ => false end.

Definition cotan_records (h : heap) (m : oman) : res (heap * oman) :=
  if is_comp m then Err NotImplementedError
  else let (h1, c) := each_ref (fun h r => detach h r true) h (om_cotan m) in
       Ok (h1, mkOman (om_kind m) (om_gd m) c).

Definition gd_records (h : heap) (m : oman) : res (heap * oman) :=
  if is_comp m then Err NotImplementedError
  else let (h1, g) := each_ref (fun h r => detach h r true) h (om_gd m) in
       Ok (h1, mkOman (om_kind m) g (om_cotan m)).

Fixpoint each_man (f : heap -> oman -> res (heap * oman)) (h : heap) (l : list oman) : res (heap * list oman) :=
  match l with
  | [] => Ok (h, [])
  | m :: l' => ' (h1, m1) <- f h m ;; ' (h2, ms) <- each_man f h1 l' ;; Ok (h2, m1 :: ms)
  end.

(** [manifold.to_(device=device)], tensor_container.py:45-48: the values are copied when
    the device changes ([moved]), the recording flag is kept. *)
Definition to_dev (moved : bool) (h : heap) (r : ref) : heap * ref :=
  if moved then alloc h (deref h r) (o_rg (the_obj h r)) else detach h r (o_rg (the_obj h r)).
Definition man_to_device (moved : bool) (h : heap) (m : oman) : res (heap * oman) :=
  let (h1, g) := each_ref (to_dev moved) h (om_gd m) in
  let (h2, c) := each_ref (to_dev moved) h1 (om_cotan m) in
  Ok (h2, mkOman (om_kind m) g c).

(** ** Deformables, deformable.py:15-241, deformable_image2d.py *)

(** What [geometry] and [_to_deformed] return: a tuple of tensors. *)
Definition geom := list tensor.

(** DeformablePoints (a SilentBase holding Landmarks), DeformableMesh, DeformableGrid,
    DeformableImage.  For images, [back] is the result of _backward_module()
    (deformable_image2d.py:100-102) and [f] is _to_deformed (104-158). *)
Inductive deformable :=
| DPoints (man : gman)
| DMesh (man : gman) (triangles : tensor)
| DGrid (man : gman)
| DImage (man : gman) (backward : bool) (back : res gman) (f : tensor -> res geom).

Definition df_man (d : deformable) : gman :=
  match d with DPoints g | DMesh g _ | DGrid g | DImage g _ _ _ => g end.
Definition df_set (d : deformable) (g : gman) : deformable :=
  match d with
  | DPoints _ => DPoints g
  | DMesh _ t => DMesh g t
  | DGrid _ => DGrid g
  | DImage _ b k f => DImage g b k f
  end.
Definition silent_module (d : deformable) : dmod := MSilent (df_man d).
Definition has_backward (d : deformable) : bool := match d with DImage _ b _ _ => b | _ => false end.
Definition backward_module (d : deformable) : res dmod :=
  match d with DImage _ _ back _ => g <- back ;; Ok (MSilent g) | _ => Err NotImplementedError end.
Definition to_deformed (d : deformable) (gd : tensor) : res geom :=
  match d with
  | DPoints _ | DGrid _ => Ok [gd]
  | DMesh _ t => Ok [gd; t]
  | DImage _ _ _ f => f gd
  end.

(** [manifold.gd] of landmarks. *)
Definition lm_gd (g : gman) : res tensor :=
  match g with GLm _ _ gd _ => Ok gd | _ => Err AttributeError end.

(** Python's [sum] of real numbers. *)
Definition py_sum (l : list R) : R := fold_left Rplus l 0.

Section Deformed.
Variable ck : clock.
Variable others : string -> option (list (time ck) -> tensor -> strat (time ck)).
Variables (sv : solver) (b0 : backend) (ag : autograd).

(** Lines 281-290: the controls given to the compound: empty ones for the silent modules. *)
Definition no_control : ctrl := CLeaf (tzeros [0%nat]).
Definition in_controls_of (nsil : nat) (control : list ctrl) : ctrl := CList (repeat no_control nsil ++ control).

(** 347-353, reduce = 'totalcompound'. *)
Fixpoint total_compound (incontrols : option (list ctrl)) (states : list gman) (n i : nat) (m : dmod)
  : res (list R * dmod) :=
  match n with
  | O => Ok ([], m)
  | S n' =>
      match nth_error states i with
      | None => Err IndexError
      | Some st =>
          ' (g, _) <- put_gd (mod_manifold m) (g_gd st) ;;
          m1 <- set_manifold m g ;;
          cs <- match incontrols with Some cs => Ok cs | None => Err TypeError end ;;
          c <- match nth_error cs i with Some c => Ok c | None => Err IndexError end ;;
          m2 <- fill_controls sv m1 c ;;
          x <- cost m2 ;;
          ' (xs, m3) <- total_compound incontrols states n' (S i) m2 ;;
          Ok (x :: xs, m3)
      end
  end.

(** 338-353: costs['deformation'], if the dictionary receives this key, and the compound
    afterwards.  [rec] is costs__['deformation'], when it is there. *)
Definition reduction (reduce : string) (it : nat) (incontrols : option (list ctrl)) (states : list gman)
    (rec : option (list R)) (m : dmod) : res (option R * dmod) :=
  if reduce =? "sum" then
    match rec with Some l => Ok (Some (py_sum l), m) | None => Err KeyError end
  else if reduce =? "previous" then
    (m1 <- geodesic_controls sv b0 m ;; c <- cost m1 ;; Ok (Some c, m1))
  else if reduce =? "lastcompound" then (c <- cost m ;; Ok (Some c, m))
  else if reduce =? "totalcompound" then
    (' (l, m1) <- total_compound incontrols states it 0 m ;; Ok (Some (py_sum l), m1))
  else Ok (None, m).

(** What deformables_compute_deformed leaves: the deformed objects, costs['deformation']
    if set, the intermediates, and the deformables and modules afterwards. *)
Record defres := mkDef {
  dr_deformed : list geom;
  dr_cost : option R;
  dr_inter : inter;
  dr_defs : list deformable;
  dr_mods : list dmod
}.

(** 355-363: the deformed objects, when no deformable shoots backward. *)
Fixpoint deformed_list (defs : list deformable) (silent : list dmod) : res (list geom) :=
  match defs, silent with
  | d :: defs', m :: silent' =>
      gd <- lm_gd (mod_manifold m) ;;
      x <- to_deformed d gd ;;
      xs <- deformed_list defs' silent' ;;
      Ok (x :: xs)
  | _, _ => Ok []
  end.

Fixpoint set_silent (defs : list deformable) (silent : list dmod) : list deformable :=
  match defs, silent with
  | d :: defs', m :: silent' => df_set d (mod_manifold m) :: set_silent defs' silent'
  | _, _ => defs
  end.

(** deformables_compute_deformed, 245-365.  [costs]: is a dictionary given?  The
    intermediates are always recorded (294-295).  When a deformable shoots backward, the
    backward modules are built and shoot is called without its required argument [costs]
    (334-335), a TypeError. *)
Definition deformables_compute_deformed (defs : list deformable) (mods : list dmod) (name : string) (it : nat)
    (costs : bool) (controls : option (list (list ctrl))) (t1 : time ck) (reduce : string) : res defres :=
  let silent := map silent_module defs in
  let nsil := length silent in
  let incontrols := option_map (map (in_controls_of nsil)) controls in
  sh <- shoot ck others sv b0 ag name it t1 incontrols true None (MComp (silent ++ mods)) ;;
  ms <- members (sh_mod sh) ;;
  let inter := match sh_inter sh with Some i => i | None => mkInter [] [] end in
  if existsb has_backward defs then
    (_ <- mapM backward_module (filter has_backward defs) ;; Err TypeError)
  else
    ' (c, m') <- (if costs then reduction reduce it incontrols (in_states inter) (sh_costs sh) (sh_mod sh)
                  else Ok (None, sh_mod sh)) ;;
    deformed <- deformed_list defs (firstn nsil ms) ;;
    ms' <- members m' ;;
    Ok (mkDef deformed c inter (set_silent defs (firstn nsil ms')) (skipn nsil ms')).

(** ** RegistrationModel *)

Definition attachment := geom -> geom -> res R.

(** The elements of fit_gd: a boolean, or one boolean per tensor of the descriptor. *)
Inductive fit := FBool (b : bool) | FEach (l : list bool).

(** The attributes of a RegistrationModel.  [r_fit_gd]: None is [].  Every list of
    parameters is a list of references. *)
Record reg := mkReg {
  r_defs : list deformable;
  r_mods : list dmod;
  r_att : list attachment;
  r_lam : R;
  r_reduce : string;
  r_fit_gd : list fit;
  r_fit_controls : bool;
  r_it : nat;
  r_init : list oman;
  r_ctrls : list (list ref);
  r_other : list (string * list ref);
  r_params : list (string * list ref)
}.

Definition set_run (r : reg) (defs : list deformable) (mods : list dmod) : reg :=
  mkReg defs mods (r_att r) (r_lam r) (r_reduce r) (r_fit_gd r) (r_fit_controls r) (r_it r) (r_init r) (r_ctrls r)
        (r_other r) (r_params r).
Definition set_init (r : reg) (init : list oman) : reg :=
  mkReg (r_defs r) (r_mods r) (r_att r) (r_lam r) (r_reduce r) (r_fit_gd r) (r_fit_controls r) (r_it r) init
        (r_ctrls r) (r_other r) (r_params r).
Definition set_parameters (r : reg) (init : list oman) (ps : list (string * list ref)) : reg :=
  mkReg (r_defs r) (r_mods r) (r_att r) (r_lam r) (r_reduce r) (r_fit_gd r) (r_fit_controls r) (r_it r) init
        (r_ctrls r) (r_other r) ps.

(** Dictionaries: assignment and update. *)
Fixpoint dict_set {A} (d : list (string * A)) (k : string) (v : A) : list (string * A) :=
  match d with
  | [] => [(k, v)]
  | (k', v') :: d' => if k' =? k then (k', v) :: d' else (k', v') :: dict_set d' k v
  end.
Fixpoint dict_get {A} (d : list (string * A)) (k : string) : option A :=
  match d with
  | [] => None
  | (k', v) :: d' => if k' =? k then Some v else dict_get d' k
  end.
Definition dict_update {A} (d d' : list (string * A)) : list (string * A) :=
  fold_left (fun d kv => dict_set d (fst kv) (snd kv)) d' d.

(** Lines 185-198: the descriptors that are optimised; the booleans replace the tensors
    of the manifold by recording ones. *)
Fixpoint select (bs : list bool) (l : list ref) : list ref :=
  match bs, l with
  | b :: bs', r :: l' => (if b then [r] else []) ++ select bs' l'
  | _, _ => []
  end.

Fixpoint gd_params (fits : list fit) (h : heap) (ms : list oman) : res (heap * list oman * list ref) :=
  match fits, ms with
  | f :: fits', m :: ms' =>
      ' (h1, m1, ps) <- match f with
                       | FBool true => ' (h1, m1) <- gd_records h m ;; Ok (h1, m1, om_gd m1)
                       | FBool false => Ok (h, m, [])
                       | FEach bs => Ok (h, m, select bs (om_gd m))
                       end ;;
      ' (h2, ms2, qs) <- gd_params fits' h1 ms' ;;
      Ok (h2, m1 :: ms2, ps ++ qs)
  | _, _ => Ok (h, ms, [])
  end.

(** _compute_parameters, 172-210. *)
Definition compute_parameters (h : heap) (r : reg) : res (heap * reg) :=
  let d0 := [("cotan", flat_map om_cotan (r_init r))] in
  let n := length (r_defs r) in
  ' (h1, init1, d1) <-
    match r_fit_gd r with
    | [] => Ok (h, r_init r, d0)
    | fits => ' (h1, ms1, ps) <- gd_params fits h (skipn n (r_init r)) ;;
              Ok (h1, firstn n (r_init r) ++ ms1, d0 ++ [("gd", ps)])
    end ;;
  let d2 := if r_fit_controls r then d1 ++ [("controls", List.concat (r_ctrls r))] else d1 in
  Ok (h1, set_parameters r init1 (dict_update d2 (r_other r))).

(** Lines 41-63: number of control sets per step. *)
Definition cont_per_it (solver : string) : res nat :=
  if solver =? "euler" then Ok 1%nat
  else if solver =? "midpoint" then Ok 2%nat
  else if solver =? "rk4" then Ok 4%nat
  else Err KeyError.

(** One set: [initializer(m.controls, requires_grad=True) for m in deformation_modules];
    the controls of a compound are a list, which torch refuses. *)
Fixpoint control_set (ones : bool) (h : heap) (mods : list dmod) : res (heap * list ref) :=
  match mods with
  | [] => Ok (h, [])
  | m :: mods' =>
      match controls m with
      | CList _ => Err TypeError
      | CLeaf t =>
          let (h1, r) := alloc h (mkT (shape t) (fun _ => if ones then 1 else 0)) true in
          ' (h2, rs) <- control_set ones h1 mods' ;; Ok (h2, r :: rs)
      end
  end.
Fixpoint control_sets (n : nat) (ones : bool) (h : heap) (mods : list dmod) : res (heap * list (list ref)) :=
  match n with
  | O => Ok (h, [])
  | S n' => ' (h1, s) <- control_set ones h mods ;; ' (h2, ss) <- control_sets n' ones h1 mods ;; Ok (h2, s :: ss)
  end.

(** __init__, 12-95, with lists of deformables, modules and attachments (a single one is
    put in a list, 14-21); [it] and [solver] may be None. *)
Definition registration (h : heap) (defs : list deformable) (mods : list dmod) (att : list attachment)
    (fit_controls ones : bool) (fit_gd : list fit) (lam : R) (other : list (string * list ref)) (reduce : string)
    (it : option nat) (solver : option string) : res (heap * reg) :=
  _ <- py_assert (Nat.eqb (length defs) (length att)) ;;
  ' (h1, ctrls) <-
    (if fit_controls then
       (n <- cont_per_it (match solver with None => "euler" | Some s => s end) ;;
        match it with
        | None => Err TypeError
        | Some it => control_sets (it * n) ones h mods
        end)
     else Ok (h, [])) ;;
  let (h2, init) := clone_mans h1 (map df_man defs ++ map mod_manifold mods) in
  ' (h3, init1) <- each_man cotan_records h2 init ;;
  compute_parameters h3
    (mkReg defs mods att lam reduce fit_gd fit_controls (match it with Some n => n | None => 0%nat end) init1 ctrls other []).

(** to_device, 149-155 (the second definition replaces the first). *)
Definition reg_to_device (moved : bool) (h : heap) (r : reg) : res (heap * reg) :=
  ' (h1, init) <- each_man (man_to_device moved) h (r_init r) ;;
  compute_parameters h1 (set_init r init).

(** fill_init_manifold, 120-122. *)
Definition fill_init_manifold (h : heap) (r : reg) (init : list oman) : res (heap * reg) :=
  compute_parameters h (set_init r init).

(** compute_deformed, 266-299.  The modules and the silent modules are filled with the
    values of the initial manifold (fill_gd raises IndexError when it has fewer members
    than there are modules, Compound.py:104-105; further members are ignored). *)
Fixpoint fill_mods (h : heap) (mods : list dmod) (init : list oman) : res (list dmod) :=
  match mods, init with
  | [], _ => Ok []
  | m :: mods', o :: init' =>
      g <- man_value h o ;; m1 <- set_manifold m g ;; ms <- fill_mods h mods' init' ;; Ok (m1 :: ms)
  | _ :: _, [] => Err IndexError
  end.
Fixpoint fill_defs (h : heap) (defs : list deformable) (init : list oman) : res (list deformable) :=
  match defs, init with
  | d :: defs', o :: init' => g <- man_value h o ;; ds <- fill_defs h defs' init' ;; Ok (df_set d g :: ds)
  | _, _ => Ok defs
  end.

Definition learned (h : heap) (r : reg) : list (list ctrl) :=
  map (map (fun k => CLeaf (deref h k))) (r_ctrls r).

Definition compute_deformed (h : heap) (r : reg) (name : string) (it : nat) (t1 : time ck) (costs : bool)
  : res (list geom * option R * inter * reg) :=
  mods <- fill_mods h (r_mods r) (skipn (length (r_defs r)) (r_init r)) ;;
  defs <- fill_defs h (r_defs r) (r_init r) ;;
  o <- (if r_fit_controls r
        then deformables_compute_deformed defs mods name (r_it r) costs (Some (learned h r)) t1 (r_reduce r)
        else deformables_compute_deformed defs mods name it costs None t1 (r_reduce r)) ;;
  Ok (dr_deformed o, dr_cost o, dr_inter o, set_run r (dr_defs o) (dr_mods o)).

(** _compute_attachment_cost, 263-264. *)
Fixpoint attachment_costs (att : list attachment) (deformed targets : list geom) : res (list R) :=
  match att, deformed, targets with
  | a :: att', x :: deformed', y :: targets' =>
      c <- a x y ;; cs <- attachment_costs att' deformed' targets' ;; Ok (c :: cs)
  | _, _, _ => Ok []
  end.

(** evaluate, 212-261, without precompute callback: the dictionary of costs (as numbers;
    the total is their sum); [cost0] is the dictionary given.  [target.geometry] is taken as a value. *)
Definition evaluate (h : heap) (r : reg) (targets : list geom) (name : string) (it : nat) (t1 : time ck)
    (cost0 : list (string * R)) : res (list (string * R) * reg) :=
  _ <- py_assert (Nat.eqb (length targets) (length (r_defs r))) ;;
  ' (deformed, c, _, r') <- compute_deformed h r name it t1 true ;;
  let cost1 := match c with Some c => dict_set cost0 "deformation" c | None => cost0 end in
  cs <- attachment_costs (r_att r) deformed targets ;;
  Ok (dict_set cost1 "attach" (r_lam r * py_sum cs), r').

(** ** AtlasModel *)

Record atlas := mkAtlas {
  a_models : list reg;
  a_fit_gd : option (list fit);
  a_nmod : nat;
  a_optimise : bool;
  a_other : list (string * list ref);
  a_params : list (string * list ref)
}.

(** atlas.py:51-52: one registration model per subject; the template (one deformable) and
    the modules are copied, the attachment is shared. *)
Fixpoint subjects (n : nat) (h : heap) (template : deformable) (mods : list dmod) (att : attachment) (lam : R)
    (other : list (string * list ref)) : res (heap * list reg) :=
  match n with
  | O => Ok (h, [])
  | S n' =>
      ' (h1, r) <- registration h [template] mods [att] false false [] lam other "sum" None None ;;
      ' (h2, rs) <- subjects n' h1 template mods att lam other ;;
      Ok (h2, r :: rs)
  end.

(** init_manifold[i+1].gd_requires_grad_() *)
Definition subject_records (h : heap) (r : reg) (i : nat) : res (heap * reg) :=
  match nth_error (r_init r) (S i) with
  | None => Err IndexError
  | Some m => ' (h1, m1) <- gd_records h m ;; Ok (h1, set_init r (set_nth (r_init r) (S i) m1))
  end.
Fixpoint subjects_record (h : heap) (rs : list reg) (i : nat) : res (heap * list reg) :=
  match rs with
  | [] => Ok (h, [])
  | r :: rs' => ' (h1, r1) <- subject_records h r i ;; ' (h2, rs2) <- subjects_record h1 rs' i ;; Ok (h2, r1 :: rs2)
  end.

(** 67-72, for the modules i, i+1, ... (n of them). *)
Fixpoint fit_loop (fits : list fit) (n i : nat) (h : heap) (rs : list reg) : res (heap * list reg) :=
  match n with
  | O => Ok (h, rs)
  | S n' =>
      match nth_error fits i with
      | None => Err IndexError
      | Some (FBool true) => ' (h1, rs1) <- subjects_record h rs i ;; fit_loop fits n' (S i) h1 rs1
      | Some _ => fit_loop fits n' (S i) h rs
      end
  end.

Fixpoint all_parameters (h : heap) (rs : list reg) : res (heap * list reg) :=
  match rs with
  | [] => Ok (h, [])
  | r :: rs' => ' (h1, r1) <- compute_parameters h r ;; ' (h2, rs2) <- all_parameters h1 rs' ;; Ok (h2, r1 :: rs2)
  end.

Definition truthy (f : fit) : bool := match f with FBool b => b | FEach [] => false | FEach _ => true end.

Fixpoint atlas_gd (fits : list fit) (n i : nat) (rs : list reg) : res (list ref) :=
  match n with
  | O => Ok []
  | S n' =>
      match nth_error fits i with
      | None => Err IndexError
      | Some f =>
          ps <- (if truthy f
                 then match rs with
                      | [] => Err IndexError
                      | r :: _ => match nth_error (r_init r) (S i) with
                                  | None => Err IndexError
                                  | Some m => Ok (om_gd m)
                                  end
                      end
                 else Ok []) ;;
          qs <- atlas_gd fits n' (S i) rs ;;
          Ok (ps ++ qs)
      end
  end.

(** _compute_parameters, 115-139 (without the hypertemplate's moments, 137-139). *)
Definition atlas_parameters (h : heap) (a : atlas) : res (heap * atlas) :=
  ' (h1, rs) <- all_parameters h (a_models a) ;;
  let d0 := [("cotan", flat_map (fun r => flat_map om_cotan (r_init r)) rs)] in
  d1 <- match a_fit_gd a with
        | None => Ok d0
        | Some fits => ps <- atlas_gd fits (a_nmod a) 0 rs ;; Ok (d0 ++ [("gd", ps)])
        end ;;
  Ok (h1, mkAtlas rs (a_fit_gd a) (a_nmod a) (a_optimise a) (a_other a) (dict_update d1 (a_other a))).

(** __init__, 14-79, with evaluate_mode 'sequential' and htgd unused. *)
Definition atlas_init (h : heap) (template : deformable) (mods : list dmod) (att : attachment) (population : nat)
    (lam : R) (fit_gd : option (list fit)) (optimise : bool) (ht_sigma : option R) (other : list (string * list ref))
  : res (heap * atlas) :=
  if (optimise && match ht_sigma with None => true | Some _ => false end)%bool then Err RuntimeError
  else
    ' (h1, rs) <- subjects population h template mods att lam other ;;
    ' (h2, rs2) <- match fit_gd with
                  | None => Ok (h1, rs)
                  | Some fits => fit_loop fits (length mods) 0 h1 rs
                  end ;;
    atlas_parameters h2 (mkAtlas rs2 fit_gd (length mods) optimise other []).

(** compute_template, 141-153, when the template is optimised: whatever the cost of the
    hypertemplate, shoot is called without its argument [costs] (152), a TypeError.  (The
    errors that may be raised before by the implicit module are not told apart.) *)
Definition compute_template : res tensor := Err TypeError.

(** append_in_dict_of_list, usefulfunctions.py:283-288. *)
Definition append_in_dict {A} (base : list (string * list A)) (d : list (string * A)) : list (string * list A) :=
  fold_left (fun base kv => dict_set base (fst kv)
    (match dict_get base (fst kv) with Some l => l ++ [snd kv] | None => [snd kv] end)) d base.

(** evaluate, 158-175.  The sum of an empty dictionary is the int 0, which has no
    attribute requires_grad. *)
Fixpoint atlas_loop (h : heap) (optimise : bool) (rs : list reg) (targets : list geom) (name : string) (it : nat)
    (t1 : time ck) (costs : list (string * list R)) : res (list (string * list R) * list reg) :=
  match rs, targets with
  | r :: rs', t :: targets' =>
      _ <- (if optimise then (_ <- compute_template ;; Ok tt) else Ok tt) ;;
      ' (c, r1) <- evaluate h r [t] name it t1 [] ;;
      ' (costs1, rs1) <- atlas_loop h optimise rs' targets' name it t1 (append_in_dict costs c) ;;
      Ok (costs1, r1 :: rs1)
  | _, _ => Ok (costs, rs)
  end.

Definition atlas_evaluate (h : heap) (a : atlas) (targets : list geom) (name : string) (it : nat) (t1 : time ck)
  : res (list (string * R) * atlas) :=
  ' (costs, rs) <- atlas_loop h (a_optimise a) (a_models a) targets name it t1 [] ;;
  match costs with
  | [] => Err AttributeError
  | _ => Ok (map (fun kv => (fst kv, py_sum (snd kv))) costs,
             mkAtlas rs (a_fit_gd a) (a_nmod a) (a_optimise a) (a_other a) (a_params a))
  end.
End Deformed.
