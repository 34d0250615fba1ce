(** Properties of registration models and atlases (C29-C34, and the control sets of C28). *)
From Coq Require Import Reals String List Arith ZArith Lia Lra.
From Verif Require Import Py RSum Tensor KernelModel FieldModel GeometryModel ModuleModel ShootingModel
  RegistrationModel SpecModule SpecHistory SpecShooting SpecRegistration ModuleMain ModuleLeaves ModuleHistory ShootingDyn ShootingTotal ShootingExample PropShooting
  RegistrationRun RegistrationHeap RegistrationParams RegistrationLife RegistrationAtlas RegistrationShoot.
Import ListNotations.
Open Scope string_scope.
Open Scope list_scope.
Open Scope R_scope.

Lemma py_sum_total l : py_sum l = total l.
Proof.
  unfold py_sum, total. assert (H : forall a, fold_left Rplus l a = a + fold_right Rplus 0 l).
  { induction l as [|x l IH]; intros a; cbn [fold_left fold_right]; [ring|]. rewrite IH. ring. }
  rewrite H. ring.
Qed.

Notation no_others := (fun _ : string => @None (list R -> tensor -> strat R)).

(** *** C29 *)

(** After any evaluations (interrupted ones included), evaluating gives the same costs,
    the same deformed objects, or the same exception, as on the model that was never
    used; the initial manifold, the learned controls and the parameters are the same. *)
Theorem C29_evaluations_are_repeatable : forall ck others sv b0 ag h r r' name it t1,
  used ck others sv b0 ag h r r' ->
  (length (r_defs r) <= length (r_init r))%nat -> evaluates ck others name t1 (steps_of r it) ->
  (forall targets cost0,
     evaluate ck others sv b0 ag h r' targets name it t1 cost0 = evaluate ck others sv b0 ag h r targets name it t1 cost0) /\
  (forall costs,
     compute_deformed ck others sv b0 ag h r' name it t1 costs = compute_deformed ck others sv b0 ag h r name it t1 costs) /\
  r_init r' = r_init r /\ r_ctrls r' = r_ctrls r /\ r_params r' = r_params r.
Proof.
  intros ck others sv b0 ag h r r' name it t1 U L EV. pose proof (used_alike _ _ _ _ _ _ _ _ U) as A. split; [|split].
  - intros targets cost0. apply same_evaluate; assumption.
  - intros costs. apply same_deformed; assumption.
  - destruct A as (defs & mods & -> & _). auto.
Qed.
Print Assumptions C29_evaluations_are_repeatable.

(** The hypothesis on solvers holds of the fixed step ones and of torch_euler; that on
    the lengths of every model that is built (C30). *)
Theorem C29_solvers_evaluate : forall others sch t1 it, (0 < it)%nat ->
  evaluates real_clock others (scheme_name sch) t1 it /\ evaluates real_clock others "torch_euler" t1 it.
Proof. intros. split; [apply schemes_evaluate; assumption|apply torch_euler_evaluates]. Qed.
Print Assumptions C29_solvers_evaluate.

(** *** C30 *)

(** From its construction on, whatever optimizers write in its tensors, devices it is sent
    to and evaluations it goes through: the lists in [parameters] are those of the model's
    own tensors; each tensor has its own storage; moments, controls and descriptors
    selected by a boolean record gradients. *)
Theorem C30_parameters_are_the_models_tensors : forall ck others sv b0 ag h0 defs mods att fit_controls ones fit_gd lam other reduce it solver h r h' r',
  NoDup (map fst other) ->
  registration h0 defs mods att fit_controls ones fit_gd lam other reduce it solver = Ok (h, r) ->
  lived ck others sv b0 ag h r h' r' ->
  (forall k, dict_get (r_params r') k = expected r' k) /\
  Forall (exists_in h') (tensors_of r') /\ NoDup (map (store h') (tensors_of r')) /\
  Forall (records h') (init_cotan r') /\ Forall (records h') (List.concat (r_ctrls r')) /\
  Forall (records h') (selected_whole (r_fit_gd r') (modules_init r')) /\
  r_fit_gd r' = fit_gd /\ r_fit_controls r' = fit_controls /\ r_other r' = other /\
  length (r_init r') = (length (r_defs r') + length (r_mods r'))%nat.
Proof.
  intros ck others sv b0 ag h0 defs mods att fit_controls ones fit_gd lam other reduce it solver h r h' r' ND E L.
  destruct (registration_ok _ _ _ _ _ _ _ _ _ _ _ _ _ _ ND E) as (C & _ & K1 & K2 & K3 & K4 & K5 & K6 & K7 & K8 & _).
  rewrite <- K8 in ND. destruct (lived_complete _ _ _ _ _ _ _ _ _ L ND C) as ([[EX DI CR KR ER LE] W P] & A1 & A2 & A3).
  split; [exact P|]. split; [exact EX|]. split; [exact DI|]. split; [exact CR|]. split; [exact KR|]. split; [exact W|]. repeat split; congruence.
Qed.
Print Assumptions C30_parameters_are_the_models_tensors.

(** An update of one of them is seen, and changes no other one; evaluations depend on
    these tensors only. *)
Theorem C30_updates_are_seen : forall h r k v, Forall (exists_in h) (tensors_of r) -> NoDup (map (store h) (tensors_of r)) -> In k (tensors_of r) ->
  deref (write h k v) k = v /\ forall j, In j (tensors_of r) -> j <> k -> deref (write h k v) j = deref h j.
Proof.
  intros h r k v EX DI I. rewrite Forall_forall in EX. split; [apply write_seen; auto|].
  intros j J N. apply write_unseen. exact (NoDup_store _ _ _ _ DI I J N).
Qed.
Print Assumptions C30_updates_are_seen.

Theorem C30_evaluations_read_the_tensors : forall ck others sv b0 ag h h' r, (forall k, In k (tensors_of r) -> deref h' k = deref h k) ->
  (forall targets name it t1 cost0, evaluate ck others sv b0 ag h' r targets name it t1 cost0 = evaluate ck others sv b0 ag h r targets name it t1 cost0) /\
  (forall name it t1 costs, compute_deformed ck others sv b0 ag h' r name it t1 costs = compute_deformed ck others sv b0 ag h r name it t1 costs).
Proof. intros ck others sv b0 ag h h' r S. split; intros; [apply evaluation_reads|apply deformed_reads]; exact S. Qed.
Print Assumptions C30_evaluations_read_the_tensors.

(** When built, the initial manifold holds the values of the deformables and modules;
    moving to a device changes neither these values nor the results. *)
Theorem C30_initial_values : forall h0 defs mods att fit_controls ones fit_gd lam other reduce it solver h r,
  NoDup (map fst other) ->
  registration h0 defs mods att fit_controls ones fit_gd lam other reduce it solver = Ok (h, r) ->
  map (man_value h) (r_init r) = map (@Ok _) (map df_man defs ++ map mod_manifold mods) /\
  forall moved h1 r1, reg_to_device moved h r = Ok (h1, r1) ->
    map (man_value h1) (r_init r1) = map (man_value h) (r_init r) /\ learned h1 r1 = learned h r /\
    forall ck others sv b0 ag targets name it t1 cost0,
    match evaluate ck others sv b0 ag h r targets name it t1 cost0, evaluate ck others sv b0 ag h1 r1 targets name it t1 cost0 with
    | Ok (c, _), Ok (c', _) => c' = c
    | Err e, Err e' => e' = e
    | _, _ => False
    end.
Proof.
  intros h0 defs mods att fit_controls ones fit_gd lam other reduce it solver h r ND E.
  destruct (registration_ok _ _ _ _ _ _ _ _ _ _ _ _ _ _ ND E) as (C & _ & K1 & K2 & K3 & K4 & K5 & K6 & K7 & K8 & _ & V & _).
  split; [exact V|]. intros moved h1 r1 D. rewrite <- K8 in ND. destruct (to_device_ok _ _ _ _ _ ND C D) as (_ & K & V1 & L1).
  split; [exact V1|]. split; [exact L1|]. intros. apply evaluate_reads; assumption.
Qed.
Print Assumptions C30_initial_values.

(** Finding: the descriptors selected tensor by tensor (fit_gd holding a list of booleans)
    are among the parameters but never record gradients: optimizers cannot move them. *)
Theorem C30_selected_one_by_one_refuted : forall ck others sv b0 ag h0 defs mods att fit_controls ones fit_gd lam other reduce it solver h r h' r',
  NoDup (map fst other) -> dict_get other "gd" = None ->
  registration h0 defs mods att fit_controls ones fit_gd lam other reduce it solver = Ok (h, r) ->
  lived ck others sv b0 ag h r h' r' ->
  forall k, In k (selected_each fit_gd (modules_init r')) ->
  (exists ps, dict_get (r_params r') "gd" = Some ps /\ In k ps) /\ ~ records h' k.
Proof.
  intros ck others sv b0 ag h0 defs mods att fit_controls ones fit_gd lam other reduce it solver h r h' r' ND NG E L k I.
  destruct (registration_ok _ _ _ _ _ _ _ _ _ _ _ _ _ _ ND E) as (C & _ & K1 & K2 & K3 & K4 & K5 & K6 & K7 & K8 & _).
  rewrite <- K8 in ND. destruct (lived_complete _ _ _ _ _ _ _ _ _ L ND C) as ([[EX DI CR KR ER LE] W P] & A1 & A2 & A3).
  rewrite <- K6, <- A2 in I. split.
  - rewrite (P "gd"). unfold expected. rewrite A1, K8, NG. cbn [String.eqb Ascii.eqb Bool.eqb].
    destruct (r_fit_gd r') as [|f fits] eqn:EF; [contradiction I|]. rewrite <- EF in *. eexists. split; [reflexivity|]. clear - I.
    revert I. generalize (modules_init r'). induction (r_fit_gd r') as [|[[]|bs] fs IH]; intros [|m ms] I; cbn [selected_each selected] in *; try contradiction; auto.
    + apply in_app_iff. auto.
    + apply in_app_iff in I. apply in_app_iff. destruct I; auto.
  - rewrite Forall_forall in ER. specialize (ER k I). unfold records, flag in *. congruence.
Qed.
Print Assumptions C30_selected_one_by_one_refuted.

(** A model with one point and two local translations, one point each; the descriptor of
    the first one is selected by True, that of the second one by [True]. *)
Definition lt1 : dmod := MTrans Torch 1 1 1 one11 one11 (tzeros [1%nat]).
Definition pt1 : deformable := DPoints (GLm 1 1 one11 one11).
Definition null_att : attachment := fun _ _ => Ok 0.
Definition ex_model (fc : bool) : res (heap * reg) :=
  registration (mkHeap [] []) [pt1] [lt1; lt1] [null_att] fc false [FBool true; FEach [true]] 1 [] "sum" (Some 2%nat) (Some "midpoint").

Definition no_model : heap * reg := (mkHeap [] [], mkReg [] [] [] 0 "" [] false 0 [] [] [] []).
Definition value {A} (d : A) (o : res A) : A := match o with Ok p => p | Err _ => d end.

(** This model, and the same one moved to another device, computed. *)
Definition ex_state : heap * reg := Eval cbv -[IZR one11 tzeros null_att] in value no_model (ex_model true).
Definition ex_moved : heap * reg :=
  Eval cbv -[IZR one11 tzeros null_att] in value no_model (reg_to_device true (fst ex_state) (snd ex_state)).
Lemma ex_state_ok : ex_model true = Ok ex_state.
Proof. vm_compute. reflexivity. Qed.
Lemma ex_moved_ok : reg_to_device true (fst ex_state) (snd ex_state) = Ok ex_moved.
Proof. vm_compute. reflexivity. Qed.

Example C30_hypotheses : forall ck others sv b0 ag, exists h r h1 r1,
  ex_model true = Ok (h, r) /\ reg_to_device true h r = Ok (h1, r1) /\ lived ck others sv b0 ag h r h1 r1 /\
  length (tensors_of r1) = 14%nat /\ length (init_cotan r1) = 3%nat /\
  exists k k', selected_whole (r_fit_gd r1) (modules_init r1) = [k] /\ selected_each (r_fit_gd r1) (modules_init r1) = [k'] /\
    deref h1 k = one11 /\ k <> k'.
Proof.
  intros ck others sv b0 ag. exists (fst ex_state), (snd ex_state), (fst ex_moved), (snd ex_moved). split; [exact ex_state_ok|]. split; [exact ex_moved_ok|].
  split; [eapply lived_device; [exact ex_moved_ok|apply lived_not]|]. split; [reflexivity|]. split; [reflexivity|].
  eexists _, _. split; [reflexivity|]. split; [reflexivity|]. split; [reflexivity|discriminate].
Qed.

(** *** Control sets of a registration model (C28) *)

(** A model that learns its controls holds one set per evaluation of the solver it was
    built for: each set has one tensor per deformation module, of the shape of its
    controls, filled with the initial value. *)
Theorem C28_registration_control_sets : forall h0 defs mods att ones fit_gd lam other reduce it solver h r,
  NoDup (map fst other) ->
  registration h0 defs mods att true ones fit_gd lam other reduce it solver = Ok (h, r) ->
  exists sch n, match solver with Some s => s | None => "euler" end = scheme_name sch /\
  it = Some n /\ r_it r = n /\ length (r_ctrls r) = (n * evaluations sch)%nat /\
  Forall (Forall2 (fun m c => exists t, controls m = CLeaf t /\ deref h c = mkT (shape t) (fun _ => if ones then 1 else 0)) mods) (r_ctrls r).
Proof.
  intros h0 defs mods att ones fit_gd lam other reduce it solver h r ND E.
  destruct (registration_ok _ _ _ _ _ _ _ _ _ _ _ _ _ _ ND E) as (_ & _ & _ & _ & _ & _ & _ & _ & _ & _ & _ & _ & _ & _ & C).
  destruct (C eq_refl) as (n & k & EI & EV & RI & L & V). unfold evaluations_of, cont_per_it in EV.
  destruct (match solver with Some s => s | None => "euler" end =? "euler") eqn:E1; [apply String.eqb_eq in E1; injection EV as <-; exists SEuler, n; auto|].
  destruct (match solver with Some s => s | None => "euler" end =? "midpoint") eqn:E2; [apply String.eqb_eq in E2; injection EV as <-; exists SMidpoint, n; auto|].
  destruct (match solver with Some s => s | None => "euler" end =? "rk4") eqn:E3; [apply String.eqb_eq in E3; injection EV as <-; exists SRk4, n; auto|]. discriminate EV.
Qed.
Print Assumptions C28_registration_control_sets.

(** Other solvers are refused (a KeyError), and so is a missing number of steps. *)
Theorem C28_registration_other_solvers : forall h0 defs mods att ones fit_gd lam other reduce it solver,
  length defs = length att ->
  ((forall sch, match solver with Some s => s | None => "euler" end <> scheme_name sch) ->
   registration h0 defs mods att true ones fit_gd lam other reduce it solver = Err KeyError) /\
  (forall sch, match solver with Some s => s | None => "euler" end = scheme_name sch ->
   registration h0 defs mods att true ones fit_gd lam other reduce None solver = Err TypeError).
Proof.
  intros h0 defs mods att ones fit_gd lam other reduce it solver L. unfold registration. rewrite L, Nat.eqb_refl. cbn [py_assert bind]. split.
  - intros N. unfold cont_per_it.
    destruct (String.eqb_spec (match solver with Some s => s | None => "euler" end) "euler") as [E|_]; [elim (N SEuler E)|].
    destruct (String.eqb_spec (match solver with Some s => s | None => "euler" end) "midpoint") as [E|_]; [elim (N SMidpoint E)|].
    destruct (String.eqb_spec (match solver with Some s => s | None => "euler" end) "rk4") as [E|_]; [elim (N SRk4 E)|]. reflexivity.
  - intros sch E. rewrite E. destruct sch; reflexivity.
Qed.
Print Assumptions C28_registration_other_solvers.

Example C28_registration_hypotheses : exists h r, ex_model true = Ok (h, r) /\ length (r_ctrls r) = 4%nat /\ "dopri5" <> scheme_name SEuler.
Proof.
  exists (fst ex_state), (snd ex_state). split; [exact ex_state_ok|]. split; [reflexivity|discriminate].
Qed.

(** *** C31 *)

(** Finding: a model holding an object that is transported backward (images, by default)
    cannot be evaluated. *)
Theorem C31_backward_refuted : forall ck others sv b0 ag h r name it t1,
  existsb has_backward (r_defs r) = true ->
  (forall costs x, compute_deformed ck others sv b0 ag h r name it t1 costs <> Ok x) /\
  (forall targets cost0 x, evaluate ck others sv b0 ag h r targets name it t1 cost0 <> Ok x).
Proof.
  intros ck others sv b0 ag h r name it t1 B.
  assert (H : forall costs x, compute_deformed ck others sv b0 ag h r name it t1 costs <> Ok x).
  { intros costs x E. unfold compute_deformed in E. bok E mods HE1. bok E defs HE2. bok E o HE3. rewrite <- (fill_defs_backward _ _ _ _ HE2) in B.
    destruct (r_fit_controls r); exact (backward_never _ _ _ _ _ _ _ _ _ _ _ _ _ _ B HE3). }
  split; [exact H|]. intros targets cost0 x E. unfold evaluate in E. bok E u HE1. bok E y HE2. exact (H _ _ HE2).
Qed.
Print Assumptions C31_backward_refuted.

(** The exception, when the forward shooting and the construction of the backward modules
    succeed: shoot is called without its argument [costs]. *)
Theorem C31_backward_raises : forall ck others sv b0 ag h r name it t1 costs defs mods sh,
  existsb has_backward (r_defs r) = true -> filled h r = Ok (defs, mods) ->
  shoot ck others sv b0 ag name (steps_of r it) t1 (given defs (controls_of h r)) true None (start defs mods) = Ok sh ->
  Forall (fun d => has_backward d = true -> is_ok (backward_module d)) defs ->
  compute_deformed ck others sv b0 ag h r name it t1 costs = Err TypeError.
Proof.
  intros ck others sv b0 ag h r name it t1 costs defs mods sh B F S W. unfold filled in F. bok F mods' HE1. bok F defs' HE2. injection F as -> ->.
  pose proof (shoot_key ck others sv b0 ag t1 _ _ _ name None _ _ S) as KE. apply key_params in KE.
  destruct (sh_mod sh) as [| | | | | | | | | |ms] eqn:EM; try discriminate KE.
  assert (MB : is_ok (mapM backward_module (filter has_backward defs))).
  { clear - W. induction W as [|d ds Hd _ IH]; [eexists; reflexivity|]. cbn [filter]. destruct (has_backward d); [|exact IH]. destruct (Hd eq_refl) as (x & Ex). destruct IH as (xs & Exs).
    cbn [mapM]. rewrite Ex. cbn [bind]. rewrite Exs. eexists. reflexivity. }
  destruct MB as (x & EX). rewrite <- (fill_defs_backward _ _ _ _ HE2) in B.
  assert (G : forall cs n c, shoot ck others sv b0 ag name n t1 (given defs cs) true None (start defs mods) = Ok sh ->
    deformables_compute_deformed ck others sv b0 ag defs mods name n c cs t1 (r_reduce r) = Err TypeError).
  { intros cs n c E. unfold deformables_compute_deformed. rewrite map_length. change (option_map (map (in_controls_of (length defs))) cs) with (given defs cs).
    change (MComp (map silent_module defs ++ mods)) with (start defs mods). rewrite E. cbn [bind]. rewrite EM. cbn [members bind]. rewrite B, EX. reflexivity. }
  unfold compute_deformed. rewrite HE1. cbn [bind]. rewrite HE2. cbn [bind]. unfold steps_of, controls_of in S. destruct (r_fit_controls r); rewrite (G _ _ _ S); reflexivity.
Qed.
Print Assumptions C31_backward_raises.

(** The other ones: each deformed object is the object built from the points of its own
    silent module when shooting stops. *)
Theorem C31_forward_objects : forall ck others sv b0 ag h r name it t1 defs mods sh,
  filled h r = Ok (defs, mods) -> Forall ordinary defs ->
  shoot ck others sv b0 ag name (steps_of r it) t1 (given defs (controls_of h r)) true None (start defs mods) = Ok sh ->
  exists ms xs c i r', sh_mod sh = MComp ms /\ compute_deformed ck others sv b0 ag h r name it t1 false = Ok (xs, c, i, r') /\
    length xs = length defs /\
    forall i d, nth_error defs i = Some d -> exists m x, nth_error ms i = Some m /\ nth_error xs i = Some x /\ deformed_by m d x.
Proof.
  intros ck others sv b0 ag h r name it t1 defs mods sh F OR S. unfold filled in F. bok F mods' HE1. bok F defs' HE2. injection F as -> ->.
  unfold compute_deformed. rewrite HE1. cbn [bind]. rewrite HE2. cbn [bind]. unfold steps_of, controls_of in S.
  destruct (r_fit_controls r); destruct (compute_ok ck others sv b0 ag defs mods name _ false _ t1 (r_reduce r) sh OR S) as (ms & xs & EM & L & N & O & _);
    destruct (O eq_refl) as (o & EO & EX & EC); exists ms, xs; rewrite EO; cbn [bind]; rewrite EX; eexists _, _, _; split; try exact EM; split; try reflexivity; split; assumption.
Qed.
Print Assumptions C31_forward_objects.

(** An image of one pixel. *)
Definition img (b : bool) : deformable := DImage (GLm 1 1 one11 one11) b (Ok (GLm 1 1 one11 one11)) (fun x => Ok [x]).
Definition gt1 : dmod := MGlobal 1 1 (tzeros [1%nat]).
Definition img_model (b : bool) : res (heap * reg) :=
  registration (mkHeap [] []) [img b] [gt1] [null_att] false false [] 1 [] "sum" None None.

Definition img_state (b : bool) : heap * reg := Eval cbv -[IZR one11 tzeros null_att] in value no_model (img_model b).
Lemma img_state_ok b : img_model b = Ok (img_state b).
Proof. vm_compute. reflexivity. Qed.

Lemma ex_shoots others sv b0 sch it : (0 < it)%nat -> is_ok (shoot real_clock others sv b0 exact_ag (scheme_name sch) it 1 None true None ex0).
Proof. intros IT. destruct (C25_hypotheses real_clock others sv b0 it 1 IT) as (_ & _ & _ & _ & H). apply H. lra. Qed.

Example C31_hypotheses : forall sv b0 b, exists h r defs mods sh,
  img_model b = Ok (h, r) /\ existsb has_backward (r_defs r) = b /\ filled h r = Ok (defs, mods) /\ (b = false -> Forall ordinary defs) /\
  Forall (fun d => has_backward d = true -> is_ok (backward_module d)) defs /\
  shoot real_clock no_others sv b0 exact_ag "rk4" (steps_of r 3) 1 (given defs (controls_of h r)) true None (start defs mods) = Ok sh.
Proof.
  intros sv b0 b. destruct (ex_shoots no_others sv b0 SRk4 3 ltac:(lia)) as (sh & ES).
  exists (fst (img_state b)), (snd (img_state b)). eexists _, _, sh. split; [exact (img_state_ok b)|]. split; [destruct b; reflexivity|]. split; [reflexivity|]. split; [|split].
  - intros ->. constructor; [|constructor]. split; [reflexivity|]. split; [cbn; eauto 10|]. intros q. eexists. reflexivity.
  - constructor; [|constructor]. intros _. eexists. reflexivity.
  - exact ES.
Qed.

(** *** C32 *)

(** Every solver but torch_euler, with the default reduction: the costs are the sum of the
    costs recorded while shooting, and lam times the sum of the attachments. *)
Theorem C32_solvers_evaluate : forall ck others sv b0 ag h r targets name it t1 defs mods sh,
  name <> "torch_euler" -> r_reduce r = "sum" -> filled h r = Ok (defs, mods) -> Forall ordinary defs ->
  shoot ck others sv b0 ag name (steps_of r it) t1 (given defs (controls_of h r)) true None (start defs mods) = Ok sh ->
  length targets = length (r_defs r) -> (forall a x y, In a (r_att r) -> is_ok (a x y)) ->
  exists costs xs atts r', sh_costs sh = Some costs /\ attachment_costs (r_att r) xs targets = Ok atts /\
    evaluate ck others sv b0 ag h r targets name it t1 [] = Ok ([("deformation", total costs); ("attach", r_lam r * total atts)], r').
Proof.
  intros ck others sv b0 ag h r targets name it t1 defs mods sh NE RS F OR S LT AT. unfold filled in F. bok F mods' HE1. bok F defs' HE2. injection F as -> ->.
  assert (AK : forall att xs ts, (forall a x y, In a att -> is_ok (a x y)) -> is_ok (attachment_costs att xs ts)).
  { clear. induction att as [|a att IH]; intros xs ts A; [eexists; reflexivity|]. destruct xs as [|x xs], ts as [|t ts]; try (eexists; reflexivity). cbn [attachment_costs].
    destruct (A a x t (or_introl eq_refl)) as (c & ->). destruct (IH xs ts (fun a x y I => A a x y (or_intror I))) as (cs & ->). eexists. reflexivity. }
  unfold evaluate. rewrite LT, Nat.eqb_refl. cbn [py_assert bind]. unfold compute_deformed. rewrite HE1. cbn [bind]. rewrite HE2. cbn [bind]. unfold steps_of, controls_of in S. rewrite RS.
  assert (H : exists costs o, sh_costs sh = Some costs /\ (if r_fit_controls r then deformables_compute_deformed ck others sv b0 ag defs mods name (r_it r) true (Some (learned h r)) t1 "sum"
     else deformables_compute_deformed ck others sv b0 ag defs mods name it true None t1 "sum") = Ok o /\ dr_cost o = Some (py_sum costs)).
  { destruct (r_fit_controls r); destruct (compute_ok ck others sv b0 ag defs mods name _ true _ t1 "sum" sh OR S) as (ms & xs & EM & L & N & _ & O); specialize (O eq_refl eq_refl);
      rewrite (proj2 (String.eqb_neq _ _) NE) in O; destruct O as (o & l & EO & EX & EC & ED); exists l, o; auto. }
  destruct H as (costs & o & EC & EO & ED). rewrite EO. cbn [bind]. rewrite ED. destruct (AK (r_att r) (dr_deformed o) targets AT) as (atts & EA).
  exists costs, (dr_deformed o), atts. eexists. split; [exact EC|]. split; [exact EA|]. rewrite EA. cbn [bind dict_set]. cbn [String.eqb Ascii.eqb Bool.eqb]. rewrite !py_sum_total. reflexivity.
Qed.
Print Assumptions C32_solvers_evaluate.

(** With exact times and a fixed step scheme, there are [it] recorded costs, one per step
    (see C27 for which). *)
Theorem C32_fixed_step_costs : forall others sv b0 ag h r sch it t1 defs mods sh costs,
  exact_grad ag -> 0 < t1 -> (0 < it)%nat -> r_fit_controls r = false -> filled h r = Ok (defs, mods) -> shootable (start defs mods) ->
  shoot real_clock others sv b0 ag (scheme_name sch) (steps_of r it) t1 (given defs (controls_of h r)) true None (start defs mods) = Ok sh ->
  sh_costs sh = Some costs -> length costs = it.
Proof.
  intros others sv b0 ag h r sch it t1 defs mods sh costs EX T1 IT FC F SH S C. unfold steps_of, controls_of in S. rewrite FC in S. cbn [given option_map] in S.
  destruct (C27_once_per_step_moments _ _ _ _ _ _ _ _ _ _ _ EX SH T1 IT S) as (_ & _ & _ & l & _ & _ & _ & _ & _ & E & L & _). congruence.
Qed.
Print Assumptions C32_fixed_step_costs.

(** Finding: torch_euler, which shoot accepts, cannot evaluate a registration model with
    the default reduction; it raises KeyError after shooting. *)
Theorem C32_torch_euler_refuted : forall ck others sv b0 ag h r targets it t1 cost0,
  r_reduce r = "sum" ->
  (forall x, evaluate ck others sv b0 ag h r targets "torch_euler" it t1 cost0 <> Ok x) /\
  (forall defs mods sh, filled h r = Ok (defs, mods) -> Forall ordinary defs -> length targets = length (r_defs r) ->
     shoot ck others sv b0 ag "torch_euler" (steps_of r it) t1 (given defs (controls_of h r)) true None (start defs mods) = Ok sh ->
     evaluate ck others sv b0 ag h r targets "torch_euler" it t1 cost0 = Err KeyError).
Proof.
  intros ck others sv b0 ag h r targets it t1 cost0 RS. split.
  - intros x E. unfold evaluate, compute_deformed in E. bok E u HE1. rewrite RS in E. bok E y HE2. bok HE2 mods HE3. bok HE2 defs HE4. bok HE2 o HE5.
    destruct (r_fit_controls r); exact (euler_sum_never _ _ _ _ _ _ _ _ _ _ _ HE5).
  - intros defs mods sh F OR LT S. unfold filled in F. bok F mods' HE1. bok F defs' HE2. injection F as -> ->.
    unfold evaluate. rewrite LT, Nat.eqb_refl. cbn [py_assert bind]. unfold compute_deformed. rewrite HE1. cbn [bind]. rewrite HE2. cbn [bind]. unfold steps_of, controls_of in S. rewrite RS.
    destruct (r_fit_controls r); destruct (compute_ok ck others sv b0 ag defs mods "torch_euler" _ true _ t1 "sum" sh OR S) as (ms & xs & EM & L & N & _ & O); specialize (O eq_refl eq_refl);
      change ("torch_euler" =? "torch_euler") with true in O; cbn iota in O; rewrite O; reflexivity.
Qed.
Print Assumptions C32_torch_euler_refuted.

(** Names that are neither torch_euler nor a solver of torchdiffeq are refused. *)
Theorem C32_unknown_solver : forall ck others sv b0 ag h r targets name it t1 cost0 defs mods,
  name <> "torch_euler" -> find_solver ck others name = None -> filled h r = Ok (defs, mods) -> length targets = length (r_defs r) ->
  evaluate ck others sv b0 ag h r targets name it t1 cost0 = Err NotImplementedError.
Proof.
  intros ck others sv b0 ag h r targets name it t1 cost0 defs mods NE FS F LT. unfold filled in F. bok F mods' HE1. bok F defs' HE2. injection F as -> ->.
  unfold evaluate. rewrite LT, Nat.eqb_refl. cbn [py_assert bind]. unfold compute_deformed. rewrite HE1. cbn [bind]. rewrite HE2. cbn [bind].
  unfold deformables_compute_deformed, shoot. rewrite (proj2 (String.eqb_neq _ _) NE), FS. destruct (r_fit_controls r); reflexivity.
Qed.
Print Assumptions C32_unknown_solver.

Definition pt_model : res (heap * reg) :=
  registration (mkHeap [] []) [pt1] [gt1] [null_att] false false [] 1 [] "sum" None None.

Definition pt_state : heap * reg := Eval cbv -[IZR one11 tzeros null_att] in value no_model pt_model.
Lemma pt_state_ok : pt_model = Ok pt_state.
Proof. vm_compute. reflexivity. Qed.

Lemma pt_model_ok : exists h r, pt_model = Ok (h, r) /\ r_reduce r = "sum" /\ filled h r = Ok ([pt1], [gt1]) /\ Forall ordinary [pt1] /\
  length [[one11]] = length (r_defs r) /\ (forall a x y, In a (r_att r) -> is_ok (a x y)) /\ r_fit_controls r = false /\ start [pt1] [gt1] = ex0.
Proof.
  exists (fst pt_state), (snd pt_state). split; [exact pt_state_ok|]. split; [reflexivity|]. split; [reflexivity|]. split; [|split; [reflexivity|split; [|split; reflexivity]]].
  - constructor; [|constructor]. split; [reflexivity|]. split; [cbn; eauto 10|]. intros q. eexists. reflexivity.
  - intros a x y [<-|[]]. eexists. reflexivity.
Qed.

Example C32_hypotheses : forall sv b0 sch it, (0 < it)%nat -> exists h r sh, pt_model = Ok (h, r) /\ r_reduce r = "sum" /\ filled h r = Ok ([pt1], [gt1]) /\ Forall ordinary [pt1] /\
  shoot real_clock no_others sv b0 exact_ag (scheme_name sch) (steps_of r it) 1 (given [pt1] (controls_of h r)) true None (start [pt1] [gt1]) = Ok sh /\
  length [[one11]] = length (r_defs r) /\ (forall a x y, In a (r_att r) -> is_ok (a x y)) /\
  exact_grad exact_ag /\ r_fit_controls r = false /\ shootable (start [pt1] [gt1]) /\ scheme_name sch <> "torch_euler" /\ find_solver real_clock no_others "bdf" = None.
Proof.
  intros sv b0 sch it IT. destruct pt_model_ok as (h & r & A1 & A2 & A3 & A4 & A5 & A6 & A7 & A8). destruct (ex_shoots no_others sv b0 sch it IT) as (sh & ES).
  exists h, r, sh. do 4 (split; [assumption|]). split; [unfold steps_of, controls_of; rewrite A7, A8; exact ES|]. do 2 (split; [assumption|]). split; [exact exact_ag_exact|].
  split; [assumption|]. split; [rewrite A8; exact ex_shootable|]. split; [destruct sch; discriminate|reflexivity].
Qed.

(** The hypotheses of C29: this model after two evaluations. *)
Example C29_hypotheses : forall sv b0 sch it, (0 < it)%nat -> exists h r r1 r2 c1 c2,
  pt_model = Ok (h, r) /\ (length (r_defs r) <= length (r_init r))%nat /\
  evaluate real_clock no_others sv b0 exact_ag h r [[one11]] "rk4" 5 1 [] = Ok (c1, r1) /\
  evaluate real_clock no_others sv b0 exact_ag h r1 [[one11]] (scheme_name sch) it 1 [] = Ok (c2, r2) /\
  used real_clock no_others sv b0 exact_ag h r r2.
Proof.
  intros sv b0 sch it IT. destruct (C32_hypotheses sv b0 SRk4 5 ltac:(lia)) as (h & r & sh & A1 & A2 & A3 & A4 & A5 & A6 & A7 & _ & A8 & _ & A9 & _).
  destruct (C32_hypotheses sv b0 sch it IT) as (h' & r' & sh' & B1 & _ & _ & _ & B5 & _ & _ & _ & _ & _ & B9 & _).
  rewrite A1 in B1. injection B1 as <- <-.
  assert (LI : (length (r_defs r) <= length (r_init r))%nat).
  { pose proof A1 as EP. rewrite pt_state_ok in EP. destruct (pt_state) as (h' & r') eqn:ES. injection EP as <- <-. unfold pt_state in ES. injection ES as <- <-. cbn. lia. }
  destruct (C32_solvers_evaluate _ _ _ _ _ _ _ _ _ _ _ _ _ _ A9 A2 A3 A4 A5 A6 A7) as (cs & xs & ats & r1 & _ & _ & E1).
  destruct (C32_solvers_evaluate _ _ _ _ _ _ _ _ _ _ _ _ _ _ B9 A2 A3 A4 B5 A6 A7) as (cs2 & xs2 & ats2 & r2 & _ & _ & E2).
  destruct (C29_evaluations_are_repeatable real_clock no_others sv b0 exact_ag h r r1 (scheme_name sch) it 1) as (R & _).
  - eapply used_evaluate; [exact E1|apply used_not].
  - exact LI.
  - unfold steps_of. rewrite A8. apply schemes_evaluate. exact IT.
  - rewrite <- (R [[one11]] []) in E2. eexists h, r, r1, r2, _, _. split; [exact A1|]. split; [exact LI|]. split; [exact E1|]. split; [exact E2|].
    eapply used_evaluate; [exact E1|]. eapply used_evaluate; [exact E2|apply used_not].
Qed.

(** *** C33 *)

(** Finding: the descriptors that an atlas hands to optimizers are those of the first
    subject only.  Whatever values are written in them, the other subjects are evaluated
    as before. *)
Theorem C33_other_subjects_refuted : forall h0 template mods att population lam fits optimise ht_sigma other h a,
  NoDup (map fst other) -> dict_get other "gd" = None -> (1 <= population)%nat ->
  atlas_init h0 template mods att population lam (Some fits) optimise ht_sigma other = Ok (h, a) ->
  exists r0 rs ps, a_models a = r0 :: rs /\ length rs = (population - 1)%nat /\ dict_get (a_params a) "gd" = Some ps /\
    ps = selected_modules fits (modules_init r0) /\
    forall ws, Forall (fun w => In (fst w) ps) ws -> forall r, In r rs ->
      map (man_value (write_all h ws)) (r_init r) = map (@Ok _) (df_man template :: map mod_manifold mods) /\
      forall ck others sv b0 ag targets name it t1 cost0,
        evaluate ck others sv b0 ag (write_all h ws) r targets name it t1 cost0 = evaluate ck others sv b0 ag h r targets name it t1 cost0.
Proof.
  intros h0 template mods att population lam fits optimise ht_sigma other h a ND NG POP E.
  destruct (atlas_init_ok _ _ _ _ _ _ _ _ _ _ _ _ ND E) as ([L DI EX GO CR PC PG VA MK] & FG & _).
  destruct (a_models a) as [|r0 rs] eqn:EM; [cbn in L; lia|]. exists r0, rs, (selected_modules fits (modules_init r0)). split; [reflexivity|]. split; [cbn in L; lia|].
  split; [exact (PG fits FG NG r0 rs eq_refl)|]. split; [reflexivity|]. intros ws W r I.
  assert (ST : forall k j, In k (selected_modules fits (modules_init r0)) -> In j (tensors_of r) -> store h j <> store h k).
  { intros k j K J SE. apply selected_modules_incl in K. apply flat_skipn in K. apply tensors_init in K. unfold rs_tensors in DI. cbn [flat_map] in DI. rewrite map_app in DI.
    assert (J' : In (store h j) (map (store h) (flat_map tensors_of rs))) by (apply in_map; apply in_flat_map; eauto).
    assert (K' : In (store h j) (map (store h) (tensors_of r0))) by (rewrite SE; apply in_map; exact K).
    clear - DI J' K'. induction (map (store h) (tensors_of r0)) as [|x l IH]; [destruct K'|]. cbn [app] in DI. inversion DI as [|? ? NI D']; subst.
    destruct K' as [->|K']; [apply NI; apply in_app_iff; auto|auto]. }
  assert (SV : forall j, In j (tensors_of r) -> deref (write_all h ws) j = deref h j).
  { intros j J. unfold write_all. clear - W ST J. assert (G : forall h1, (forall k, store h1 k = store h k) -> deref (fold_left (fun h w => write h (fst w) (snd w)) ws h1) j = deref h1 j).
    { induction W as [|w ws Hw _ IH]; intros h1 S1; [reflexivity|]. cbn [fold_left]. rewrite IH by (intros k; rewrite write_store; apply S1). apply write_unseen. rewrite !S1. apply ST; assumption. }
    apply G. reflexivity. }
  split.
  - rewrite (proj1 (same_values_reads h (write_all h ws) r SV)). rewrite Forall_forall in VA. apply VA. right. exact I.
  - intros. apply evaluation_reads. exact SV.
Qed.
Print Assumptions C33_other_subjects_refuted.

(** What does hold: the moments of every subject are parameters, each with its own
    storage, and record gradients; the descriptors of the first subject are its own
    tensors, and record gradients when selected by True. *)
Theorem C33_parameters : forall h0 template mods att population lam fit_gd optimise ht_sigma other h a,
  NoDup (map fst other) -> atlas_init h0 template mods att population lam fit_gd optimise ht_sigma other = Ok (h, a) ->
  length (a_models a) = population /\
  NoDup (map (store h) (flat_map tensors_of (a_models a))) /\
  Forall (records h) (flat_map init_cotan (a_models a)) /\
  (dict_get other "cotan" = None -> dict_get (a_params a) "cotan" = Some (flat_map init_cotan (a_models a))) /\
  (forall fits r0 rs, fit_gd = Some fits -> dict_get other "gd" = None -> a_models a = r0 :: rs ->
     dict_get (a_params a) "gd" = Some (selected_modules fits (modules_init r0)) /\
     Forall (fun k => In k (tensors_of r0)) (selected_modules fits (modules_init r0))) /\
  (forall fits j, fit_gd = Some fits -> (j < length mods)%nat -> nth_error fits j = Some (FBool true) ->
     Forall (fun r => exists m, nth_error (r_init r) (S j) = Some m /\ Forall (records h) (om_gd m)) (a_models a)).
Proof.
  intros h0 template mods att population lam fit_gd optimise ht_sigma other h a ND E.
  destruct (atlas_init_ok _ _ _ _ _ _ _ _ _ _ _ _ ND E) as ([L DI EX GO CR PC PG VA MK] & FG & _).
  split; [exact L|]. split; [exact DI|]. split; [exact CR|]. split; [exact PC|]. split.
  - intros fits r0 rs -> NG EM. split; [exact (PG fits FG NG r0 rs EM)|]. apply Forall_forall. intros k K. apply selected_modules_incl in K. apply flat_skipn in K. apply tensors_init. exact K.
  - intros fits j -> LJ EJ. exact (MK fits j FG LJ EJ).
Qed.
Print Assumptions C33_parameters.

Definition ex_atlas (n : nat) : res (heap * atlas) :=
  atlas_init (mkHeap [] []) pt1 [lt1] null_att n 1 (Some [FBool true]) false None [].

Definition no_atlas : heap * atlas := (mkHeap [] [], mkAtlas [] None 0 false [] []).
Definition atlas_state : heap * atlas := Eval cbv -[IZR one11 tzeros null_att] in value no_atlas (ex_atlas 3).
Lemma atlas_state_ok : ex_atlas 3 = Ok atlas_state.
Proof. vm_compute. reflexivity. Qed.

(** Three subjects: the descriptor written for the first one, and read by it, is not read
    by the second one. *)
Example C33_hypotheses : exists h a r0 r1 r2 k m1, ex_atlas 3 = Ok (h, a) /\ a_models a = [r0; r1; r2] /\
  dict_get (a_params a) "gd" = Some [k] /\ nth_error (r_init r1) 1 = Some m1 /\
  man_value (write h k (tscal 2 one11)) m1 = Ok (GLm 1 1 one11 one11) /\ deref (write h k (tscal 2 one11)) k = tscal 2 one11.
Proof.
  exists (fst atlas_state), (snd atlas_state). eexists _, _, _, _, _. split; [exact atlas_state_ok|]. split; [reflexivity|]. split; [reflexivity|]. split; [reflexivity|]. split; reflexivity.
Qed.

(** *** C34 *)

(** The costs are the sums over the pairs of a subject and a target.  With as many targets
    as subjects, these are all the subjects. *)
Theorem C34_cost_is_the_sum : forall ck others sv b0 ag h a targets name it t1 out,
  a_optimise a = false -> length targets = length (a_models a) -> (0 < length targets)%nat ->
  Forall2 (costs_of ck others sv b0 ag h name it t1) (combine (a_models a) targets) out ->
  length out = length (a_models a) /\
  exists a', atlas_evaluate ck others sv b0 ag h a targets name it t1 = Ok (subject_costs (total (map fst out)) (total (map snd out)), a').
Proof.
  intros ck others sv b0 ag h a targets name it t1 out NO LT PO F.
  assert (LO : length out = length (a_models a)) by (rewrite <- (Forall2_len _ _ _ F), combine_length; lia). split; [exact LO|].
  destruct out as [|d0 out]; [cbn in LO; lia|]. destruct (atlas_costs ck others sv b0 ag h a targets name it t1 d0 out NO F) as (a' & E). exists a'. rewrite E, !py_sum_total. reflexivity.
Qed.
Print Assumptions C34_cost_is_the_sum.

(** Finding: lists of targets of another length are accepted.  Targets in excess are
    ignored, and so are the subjects without target. *)
Theorem C34_wrong_length_refuted : forall ck others sv b0 ag h a targets extra name it t1,
  length targets = length (a_models a) ->
  atlas_evaluate ck others sv b0 ag h a (targets ++ extra) name it t1 = atlas_evaluate ck others sv b0 ag h a targets name it t1.
Proof. intros ck others sv b0 ag h a targets extra name it t1 L. unfold atlas_evaluate. rewrite loop_extra by exact L. reflexivity. Qed.
Print Assumptions C34_wrong_length_refuted.

Theorem C34_missing_targets_refuted : forall ck others sv b0 ag h a rs1 rs2 targets name it t1 out,
  a_optimise a = false -> a_models a = rs1 ++ rs2 -> length targets = length rs1 -> (0 < length targets)%nat ->
  Forall2 (costs_of ck others sv b0 ag h name it t1) (combine rs1 targets) out ->
  exists a', atlas_evaluate ck others sv b0 ag h a targets name it t1 = Ok (subject_costs (total (map fst out)) (total (map snd out)), a').
Proof.
  intros ck others sv b0 ag h a rs1 rs2 targets name it t1 out NO EM L PO F.
  assert (LO : length out = length targets) by (rewrite <- (Forall2_len _ _ _ F), combine_length; lia).
  destruct out as [|d0 out]; [cbn in LO; lia|]. destruct (atlas_costs ck others sv b0 ag h a targets name it t1 d0 out NO) as (a' & E).
  - rewrite EM. replace (combine (rs1 ++ rs2) targets) with (combine rs1 targets); [exact F|]. clear - L. revert targets L. induction rs1 as [|r rs1 IH]; intros [|t targets] L; try discriminate L; cbn; [destruct rs2; reflexivity|].
    f_equal. apply IH. cbn in L. lia.
  - exists a'. rewrite E, !py_sum_total. reflexivity.
Qed.
Print Assumptions C34_missing_targets_refuted.

(** Without targets or subjects: AttributeError; when the template is optimised:
    TypeError. *)
Theorem C34_errors : forall ck others sv b0 ag h a name it t1,
  atlas_evaluate ck others sv b0 ag h a [] name it t1 = Err AttributeError /\
  (forall t targets r rs, a_optimise a = true -> a_models a = r :: rs ->
     atlas_evaluate ck others sv b0 ag h a (t :: targets) name it t1 = Err TypeError).
Proof.
  intros ck others sv b0 ag h a name it t1. split.
  - unfold atlas_evaluate. destruct (a_models a); reflexivity.
  - intros t targets r rs O M. unfold atlas_evaluate. rewrite O, M. reflexivity.
Qed.
Print Assumptions C34_errors.

Definition atlas2 : heap * atlas :=
  Eval cbv -[IZR one11 tzeros null_att] in value no_atlas (atlas_init (mkHeap [] []) pt1 [gt1] null_att 2 1 None false None []).
Lemma atlas2_ok : atlas_init (mkHeap [] []) pt1 [gt1] null_att 2 1 None false None [] = Ok atlas2.
Proof. vm_compute. reflexivity. Qed.

(** Two subjects moved by a global translation. *)
Example C34_hypotheses : forall sv b0 sch it, (0 < it)%nat -> exists h a out,
  atlas_init (mkHeap [] []) pt1 [gt1] null_att 2 1 None false None [] = Ok (h, a) /\ a_optimise a = false /\
  length [[one11]; [one11]] = length (a_models a) /\
  Forall2 (costs_of real_clock no_others sv b0 exact_ag h (scheme_name sch) it 1) (combine (a_models a) [[one11]; [one11]]) out.
Proof.
  intros sv b0 sch it IT. destruct atlas2 as (h & a) eqn:E.
  assert (H : a_optimise a = false /\ exists r0 r1, a_models a = [r0; r1] /\ forall r, In r [r0; r1] ->
    r_reduce r = "sum" /\ filled h r = Ok ([pt1], [gt1]) /\ r_fit_controls r = false /\ length [[one11]] = length (r_defs r) /\ (forall a x y, In a (r_att r) -> is_ok (a x y))).
  { unfold atlas2 in E. injection E as <- <-. split; [reflexivity|]. eexists _, _. split; [reflexivity|].
    intros r [<-|[<-|[]]]; (split; [reflexivity|]; split; [reflexivity|]; split; [reflexivity|]; split; [reflexivity|]; intros a x y [<-|[]]; eexists; reflexivity). }
  destruct H as (NO & r0 & r1 & EM & HR). destruct pt_model_ok as (_ & _ & _ & _ & _ & A4 & _ & _ & _ & A8). destruct (ex_shoots no_others sv b0 sch it IT) as (sh & ES).
  assert (NE : scheme_name sch <> "torch_euler") by (destruct sch; discriminate).
  assert (C : forall r, In r [r0; r1] -> exists d, costs_of real_clock no_others sv b0 exact_ag h (scheme_name sch) it 1 (r, [one11]) d).
  { intros r I. destruct (HR r I) as (B1 & B2 & B3 & B4 & B5).
    destruct (C32_solvers_evaluate real_clock no_others sv b0 exact_ag h r [[one11]] (scheme_name sch) it 1 _ _ sh NE B1 B2 A4) as (cs & xs & ats & r' & _ & _ & EV).
    - unfold steps_of, controls_of. rewrite B3, A8. exact ES.
    - exact B4.
    - exact B5.
    - exists (total cs, r_lam r * total ats), r'. exact EV. }
  destruct (C r0 (or_introl eq_refl)) as (d0 & C0). destruct (C r1 (or_intror (or_introl eq_refl))) as (d1 & C1).
  exists h, a, [d0; d1]. rewrite EM. split; [rewrite <- E; exact atlas2_ok|]. split; [exact NO|]. split; [reflexivity|]. cbn [combine]. constructor; [exact C0|]. constructor; [exact C1|constructor].
Qed.
