(** Properties of atlases (C83) and of precompute callbacks (C84). *)
From Coq Require Import Reals String List Arith Lia Lra.
From Verif Require Import Py RSum Tensor KernelModel FieldModel GeometryModel ModuleModel ShootingModel SpecKernel SpecField
  RegistrationModel AtlasModel SpecModule SpecShooting SpecMotion SpecRigid SpecTransport SpecSmooth SpecRegistration SpecAtlas ModuleMain ModuleLeaves ModuleHistory ShootingDyn ShootingExample
  RegistrationRun RegistrationHeap RegistrationParams RegistrationLife RegistrationAtlas RegistrationShoot PropRegistration AtlasFacts ShootingDyn PropRigid DiffBuild PropSmooth.
Import ListNotations.
Open Scope string_scope.
Open Scope list_scope.
Open Scope R_scope.

(** *** C83 *)

(** compute_deformed of an atlas in mode 'sequential' whose template is fixed: the
    deformed templates of the subjects, in order, each one as the model of the subject
    computes it alone; the dictionary given, if any, receives one list of states and one
    list of controls per subject, after those it had, and keeps its other entries.  It
    returns as soon as each subject can be deformed. *)
Theorem C83_deformed_templates : forall ck others sv b0 ag h x name it t1 d,
  x_parallel x = false -> x_ht x = None ->
  (forall ys d' x', atlas_deformed ck others sv b0 ag h x name it t1 d = Ok (ys, d', x') ->
     exists runs, Forall2 (deforms ck others sv b0 ag h name it t1) (a_models (x_atlas x)) runs /\
       ys = map fst runs /\ recorded d d' runs) /\
  (forall runs, Forall2 (deforms ck others sv b0 ag h name it t1) (a_models (x_atlas x)) runs ->
     exists ys d' x', atlas_deformed ck others sv b0 ag h x name it t1 d = Ok (ys, d', x')).
Proof.
  intros ck others sv b0 ag h x name it t1 d NP NH. set (d0 := option_map (fun d => ensure_list (ensure_list d "states") "controls") d).
  assert (GE : forall e k, dict_get (ensure_list (ensure_list e "states") "controls") k =
    if "controls" =? k then Some (AList (held e "controls")) else if "states" =? k then Some (AList (held e "states")) else dict_get e k).
  { intros e k. rewrite ensure_get. destruct ("controls" =? k); [|apply ensure_get]. do 2 f_equal. apply held_get. rewrite ensure_get. reflexivity. }
  assert (LI : forall e, d0 = Some e -> listed e).
  { intros e E. unfold d0 in E. destruct d as [d|]; [|discriminate E]. injection E as <-. split; rewrite GE; cbn; eauto. }
  split.
  - intros ys d' x' E. unfold atlas_deformed in E. rewrite NP, NH in E. fold d0 in E. bok E z HE1. destruct z as ((ys0 & d1) & rs). injection E as <- <- <-.
    destruct (deform_split ck others sv b0 ag h (x_template x) _ name it t1 d0 _ _ _ LI HE1) as (runs & F & -> & G). exists runs. split; [exact F|]. split; [reflexivity|].
    unfold d0 in G. destruct d as [d|]; cbn [option_map] in G; destruct d1 as [d1|]; try exact G. destruct G as (_ & G1 & G2). cbn [recorded].
    assert (B : with_runs d (ensure_list (ensure_list d "states") "controls") []).
    { split; [|split]; try (rewrite GE; cbn; rewrite app_nil_r; reflexivity). intros k K1 K2. rewrite GE. destruct (String.eqb_spec "controls" k); [congruence|]. destruct (String.eqb_spec "states" k); [congruence|reflexivity]. }
    destruct runs as [|p runs]; [rewrite (G2 eq_refl); exact B|]. exact (with_runs_app _ _ _ [] (p :: runs) B (G1 ltac:(discriminate))).
  - intros runs F. unfold atlas_deformed. rewrite NP, NH. fold d0. destruct (deform_all ck others sv b0 ag h (x_template x) _ name it t1 runs F d0 LI) as (ys & d' & rs & ->). cbn [bind]. eauto.
Qed.
Print Assumptions C83_deformed_templates.

(** What building an atlas with all its options does, in terms of [atlas_init]. *)
Lemma new_atlas_ok h0 template mods att population lam fit_gd optimise sigma nu coeff htgd settings other mode h x :
  NoDup (map fst other) ->
  new_atlas h0 template mods att population lam fit_gd optimise sigma nu coeff htgd settings other mode = Ok (h, x) ->
  exists h1 a, atlas_init h0 template mods att population lam fit_gd optimise sigma other = Ok (h1, a) /\
    a_models (x_atlas x) = a_models a /\ a_optimise (x_atlas x) = optimise /\ x_template x = template /\
    x_parallel x = (mode =? "parallel") /\ (mode = "sequential" \/ mode = "parallel") /\
    (if optimise then exists s gd k, sigma = Some s /\ lm_gd (df_man template) = Ok gd /\ (h, k) = alloc h1 (tzeros (shape gd)) true /\
        x_ht x = Some (mkHyper s nu coeff k) /\ a_params (x_atlas x) = dict_set (a_params a) "ht" [k]
     else h = h1 /\ x_ht x = None /\ a_params (x_atlas x) = a_params a).
Proof.
  intros ND E. unfold new_atlas in E. bok E par HE0. bok E u HE1. bok E y HE2. destruct y as (h1 & rs). bok E z HE3. destruct z as (h2 & rs2). bok E w HE4. destruct w as (h3 & ht). bok E v HE5. destruct v as (h4 & a). injection E as <- <-.
  cbn [x_atlas x_parallel x_template x_ht a_models a_optimise a_params].
  destruct (subjects_ok _ _ _ _ _ _ ND _ _ _ HE2) as (RN & G1 & L1 & V1).
  assert (P1 : Forall plain rs) by (eapply Forall_impl; [|exact V1]; intros r (A & B & _); split; assumption).
  assert (P2 : Forall plain rs2).
  { destruct fit_gd as [fits|]; [|injection HE3 as <- <-; exact P1]. destruct (fit_loop_ok _ _ _ _ _ _ _ G1 P1 HE3) as (_ & _ & AG & _). clear - AG. induction AG as [|? ? ? ? (Q & _)]; constructor; assumption. }
  unfold atlas_parameters in HE5. cbn [a_models a_fit_gd a_nmod a_optimise a_other] in HE5. rewrite (all_parameters_ok _ P2) in HE5. cbn [bind] in HE5. bok HE5 dd HE6. injection HE5 as <- <-. cbn [a_models a_optimise a_params].
  unfold check_settings in HE1. destruct (optimise && _)%bool eqn:EO; [discriminate HE1|]. exists h2. eexists. split.
  { unfold atlas_init. rewrite EO, HE2. cbn [bind]. rewrite HE3. cbn [bind]. unfold atlas_parameters. cbn [a_models a_fit_gd a_nmod a_optimise a_other]. rewrite (all_parameters_ok _ P2). cbn [bind]. rewrite HE6. cbn [bind]. reflexivity. }
  cbn [a_models a_params]. do 3 (split; [reflexivity|]). split; [|split].
  - unfold read_mode in HE0. destruct (String.eqb_spec mode "sequential") as [->|]; [injection HE0 as <-; reflexivity|]. destruct (mode =? "parallel"); [injection HE0 as <-; reflexivity|discriminate HE0].
  - unfold read_mode in HE0. destruct (String.eqb_spec mode "sequential") as [->|]; [auto|]. destruct (String.eqb_spec mode "parallel") as [->|]; [auto|discriminate HE0].
  - destruct optimise.
    + destruct sigma as [s|]; [|discriminate EO]. bok HE4 gd HE7. cbn [alloc] in HE4. injection HE4 as <- <-. exists s, gd. eexists. split; [reflexivity|]. split; [exact HE7|]. split; [reflexivity|]. split; reflexivity.
    + destruct sigma; injection HE4 as <- <-; auto.
Qed.

(** The costs of an atlas are those of the templates that compute_deformed returns: the
    entry 'attach' is lam times the sum of the attachments between the deformed templates
    and the targets, for the same solver and number of steps. *)
Theorem C83_costs_of_the_deformed_templates : forall ck others sv b0 ag h0 template mods att population lam fit_gd sigma nu coeff htgd settings other mode own h x targets name it t1 d ys d' x' costs h' x'',
  NoDup (map fst other) -> length targets = population ->
  new_atlas h0 template mods att population lam fit_gd false sigma nu coeff htgd settings other mode = Ok (h, x) ->
  atlas_deformed ck others sv b0 ag h x name it t1 d = Ok (ys, d', x') ->
  evaluate_atlas ck others sv b0 ag own None h x targets name it t1 = Ok (costs, h', x'') ->
  exists atts, Forall2 (fun p c => att (fst p) (snd p) = Ok c) (combine ys targets) atts /\ length atts = population /\
    dict_get costs "attach" = Some (lam * total atts) /\ h' = h.
Proof.
  intros ck others sv b0 ag h0 template mods att population lam fit_gd sigma nu coeff htgd settings other mode own h x targets name it t1 d ys d' x' costs h' x'' ND LT EN ED EE.
  destruct (new_atlas_ok _ _ _ _ _ _ _ _ _ _ _ _ _ _ _ _ _ ND EN) as (h1 & a & EI & EM & _ & _ & _ & _ & (-> & NH & _)).
  destruct (atlas_init_ok _ _ _ _ _ _ _ _ _ _ _ _ ND EI) as (AB & _ & _ & KA). rewrite <- EM in KA. pose proof (ab_length _ _ _ _ _ _ AB) as LP. rewrite <- EM in LP.
  assert (NP : x_parallel x = false) by (unfold atlas_deformed in ED; destruct (x_parallel x); [discriminate ED|reflexivity]).
  destruct (proj1 (C83_deformed_templates ck others sv b0 ag h1 x name it t1 d NP NH) _ _ _ ED) as (runs & FR & -> & _).
  unfold evaluate_atlas in EE. rewrite NH in EE. bok EE z HE1. destruct z as ((cc & h2) & rs').
  destruct cc as [|kv cc']; [discriminate EE|]. injection EE as E1 E2 E3. remember (kv :: cc') as cc eqn:ECC.
  assert (H : forall rs runs targets, Forall2 (deforms ck others sv b0 ag h1 name it t1) rs runs -> Forall (fun r => r_fit_gd r = [] /\ r_fit_controls r = false /\ r_defs r = [template] /\ r_mods r = mods /\ r_reduce r = "sum" /\ r_att r = [att] /\ r_lam r = lam) rs ->
    length targets = length rs -> forall base cc h2 rs', evaluate_subjects ck others sv b0 ag None h1 (x_template x) None rs targets name it t1 base = Ok (cc, h2, rs') ->
    exists atts, Forall2 (fun p c => att (fst p) (snd p) = Ok c) (combine (map fst runs) targets) atts /\ length atts = length rs /\ h2 = h1 /\
      opt_list (dict_get cc "attach") = opt_list (dict_get base "attach") ++ map (fun c => lam * c) atts /\ (rs <> [] -> exists l, dict_get cc "attach" = Some l)).
  { clear - ck. intros rs runs targets F. revert targets. induction F as [|r p rs runs (rest & c & r' & ED) F IH]; intros targets K L base cc h2 rs' EE.
    - destruct targets; [|discriminate L]. cbn [evaluate_subjects] in EE. injection EE as <- <- <-. exists []. split; [constructor|]. split; [reflexivity|]. split; [reflexivity|]. split; [rewrite app_nil_r; reflexivity|congruence].
    - destruct targets as [|t targets]; [discriminate L|]. cbn [evaluate_subjects bind] in EE. bok EE y HE1. destruct y as ((cd & h3) & r1). bok EE z HE2. destruct z as ((cc' & h4) & rs1). injection EE as <- <- <-.
      pose proof (eval_with_nodup _ _ _ _ _ _ _ _ _ _ _ _ _ _ _ HE1) as (N & _). rewrite without_callback in HE1. bok HE1 w HE3. destruct w as (cd' & r2). injection HE1 as <- <- <-.
      destruct (evaluate_measures _ _ _ _ _ _ _ _ _ _ _ _ _ _ HE3) as (xs & i & r3 & atts0 & EC & EA & EG). rewrite ED in EC. injection EC as <- -> <- <-.
      inversion K as [|? ? (_ & _ & _ & _ & _ & KA & KL) K']; subst. rewrite KA in EA. cbn [attachment_costs] in EA. bok EA c0 HE4. bok EA cs HE5. injection EA as <-.
      assert (cs = []) as -> by (destruct rest; cbn in HE5; congruence).
      destruct (IH targets K' ltac:(cbn in L; lia) _ _ _ _ HE2) as (atts & FA & LA & EH & GA & _). exists (c0 :: atts). split; [cbn [map combine]; constructor; assumption|]. split; [cbn; lia|]. split; [exact EH|].
      split.
      + rewrite GA, (append_get _ N), EG. cbn [opt_list map]. rewrite <- app_assoc. cbn [app total fold_right]. do 2 f_equal. rewrite ?KL. ring.
      + intros _. destruct (dict_get cc' "attach") as [l|] eqn:EL; [eauto|]. exfalso. rewrite (append_get _ N), EG in GA. cbn [opt_list] in GA. symmetry in GA. destruct (opt_list (dict_get base "attach")); discriminate GA. }
  destruct (H _ _ targets FR KA ltac:(lia) _ _ _ _ HE1) as (atts & FA & LA & EH & GA & HS). exists atts. split; [exact FA|]. split; [lia|]. split; [|congruence].
  rewrite <- E1. change ((fst kv, py_sum (snd kv)) :: map (fun kv0 => (fst kv0, py_sum (snd kv0))) cc') with (map (fun kv0 => (fst kv0, py_sum (snd kv0))) (kv :: cc')). rewrite <- ECC, sums_get.
  assert (NE : a_models (x_atlas x) <> []).
  { intros Z. rewrite Z in HE1. cbn [evaluate_subjects] in HE1. congruence. }
  destruct (HS NE) as (l & EL). rewrite EL in *. cbn [opt_list dict_get app] in GA. subst l. cbn [option_map]. rewrite py_sum_total. f_equal. clear. induction atts as [|c atts IH]; cbn [map total fold_right] in *; [ring|]. unfold total in IH. rewrite IH. ring.
Qed.
Print Assumptions C83_costs_of_the_deformed_templates.

(** After any evaluations and deformations of the atlas, completed or interrupted, the
    deformed templates, the dictionaries of intermediates and the costs (or the
    exceptions) are those of the atlas that was never used. *)
Theorem C83_calls_are_repeatable : forall ck others sv b0 ag h x x' name it t1,
  atlas_history ck others sv b0 ag h x x' ->
  Forall (fun r => (length (r_defs r) <= length (r_init r))%nat /\ evaluates ck others name t1 (steps_of r it)) (a_models (x_atlas x)) ->
  (forall d, atlas_deformed ck others sv b0 ag h x' name it t1 d = atlas_deformed ck others sv b0 ag h x name it t1 d) /\
  (forall own own' targets, answer (evaluate_atlas ck others sv b0 ag own' None h x' targets name it t1) = answer (evaluate_atlas ck others sv b0 ag own None h x targets name it t1)).
Proof.
  intros ck others sv b0 ag h x x' name it t1 HI ST. destruct (history_alike ck others sv b0 ag h x x' HI) as (rs & F & ->). split.
  - intros d. unfold atlas_deformed, with_models. cbn [x_parallel x_atlas x_template x_ht a_models a_fit_gd a_nmod a_optimise a_other a_params].
    destruct (x_parallel x); [reflexivity|]. rewrite (deform_same ck others sv b0 ag h (x_template x) (x_ht x) _ _ F name it t1 _ ST). reflexivity.
  - intros own own' targets. unfold evaluate_atlas, with_models. cbn [x_parallel x_atlas x_template x_ht a_models a_fit_gd a_nmod a_optimise a_other a_params].
    pose proof (evaluate_same ck others sv b0 ag h (x_template x) (x_ht x) _ _ F targets name it t1 [] ST) as EQ.
    destruct (evaluate_subjects ck others sv b0 ag None h (x_template x) (x_ht x) rs targets name it t1 []) as [((c1 & h1) & q1)|],
      (evaluate_subjects ck others sv b0 ag None h (x_template x) (x_ht x) (a_models (x_atlas x)) targets name it t1 []) as [((c2 & h2) & q2)|]; cbn in *; try congruence.
    injection EQ as -> ->. destruct c2; reflexivity.
Qed.
Print Assumptions C83_calls_are_repeatable.

(** Finding: of the three documented evaluation modes, 'heterogeneous' is refused by the
    constructor; 'parallel' is accepted, evaluates as 'sequential' does, and cannot compute
    the deformed templates (TypeError). *)
Theorem C83_modes_refuted : forall h0 template mods att population lam fit_gd optimise sigma nu coeff htgd settings other,
  let build := new_atlas h0 template mods att population lam fit_gd optimise sigma nu coeff htgd settings other in
  (forall mode, mode <> "sequential" -> mode <> "parallel" -> build mode = Err RuntimeError) /\
  (forall h x, build "parallel" = Ok (h, x) ->
     (forall ck others sv b0 ag h' name it t1 d, atlas_deformed ck others sv b0 ag h' x name it t1 d = Err TypeError) /\
     exists x0, build "sequential" = Ok (h, x0) /\
       forall ck others sv b0 ag own cb h' targets name it t1,
         answer (evaluate_atlas ck others sv b0 ag own cb h' x targets name it t1) = answer (evaluate_atlas ck others sv b0 ag own cb h' x0 targets name it t1)).
Proof.
  intros h0 template mods att population lam fit_gd optimise sigma nu coeff htgd settings other build. subst build. split.
  - intros mode N1 N2. unfold new_atlas, read_mode. rewrite (proj2 (String.eqb_neq _ _) N1), (proj2 (String.eqb_neq _ _) N2). reflexivity.
  - intros h x E. unfold new_atlas in *. change (read_mode "parallel") with (Ok true) in E. change (read_mode "sequential") with (Ok false). cbn [bind] in *.
    bok E u HE1. rewrite HE1. cbn [bind]. bok E y HE2. destruct y as (h1 & rs). rewrite HE2. cbn [bind]. bok E z HE3. destruct z as (h2 & rs2). rewrite HE3. cbn [bind]. bok E w HE4. destruct w as (h3 & ht). rewrite HE4. cbn [bind]. bok E v HE5. destruct v as (h4 & a). rewrite HE5. cbn [bind]. injection E as <- <-.
    split; [reflexivity|]. eexists. split; [reflexivity|]. intros. unfold evaluate_atlas. cbn [x_atlas x_parallel x_template x_ht a_models a_fit_gd a_nmod a_optimise a_other a_params].
    destruct (evaluate_subjects _ _ _ _ _ _ _ _ _ _ _ _ _ _) as [((cc & h5) & rs5)|]; [|reflexivity]. destruct cc; reflexivity.
Qed.
Print Assumptions C83_modes_refuted.

(** optimise_template needs ht_sigma, htgd needs the key 'sigma' in htgd_settings. *)
Theorem C83_settings : forall h0 template mods att population lam fit_gd nu coeff settings other mode,
  (mode = "sequential" \/ mode = "parallel") ->
  (forall htgd, new_atlas h0 template mods att population lam fit_gd true None nu coeff htgd settings other mode = Err RuntimeError) /\
  (forall optimise sigma, (optimise = true -> sigma <> None) -> ~ (exists ks, settings = Some ks /\ In "sigma" ks) ->
     new_atlas h0 template mods att population lam fit_gd optimise sigma nu coeff true settings other mode = Err (match settings with None => TypeError | Some _ => RuntimeError end)).
Proof.
  intros h0 template mods att population lam fit_gd nu coeff settings other mode M. unfold new_atlas. assert (R : exists p, read_mode mode = Ok p) by (destruct M as [->| ->]; eexists; reflexivity). destruct R as (p & ->). cbn [bind]. split; [reflexivity|].
  intros optimise sigma O S. unfold check_settings. assert (Z : (optimise && match sigma with None => true | Some _ => false end)%bool = false).
  { destruct optimise; [|reflexivity]. destruct sigma; [reflexivity|]. elim (O eq_refl). reflexivity. }
  rewrite Z. destruct settings as [ks|]; [|reflexivity]. destruct (existsb (fun k => k =? "sigma") ks) eqn:E; [|reflexivity].
  apply existsb_exists in E. destruct E as (k & I & E). apply String.eqb_eq in E. subst k. elim S. eauto.
Qed.
Print Assumptions C83_settings.

(** The moments of the hypertemplate: a new tensor of zeros with the shape of the points
    of the template, that records gradients, has its own storage, and is the parameter
    'ht' (whatever the other parameters are). *)
Theorem C83_hypertemplate_parameter : forall h0 template mods att population lam fit_gd sigma nu coeff htgd settings other mode h x,
  NoDup (map fst other) ->
  new_atlas h0 template mods att population lam fit_gd true sigma nu coeff htgd settings other mode = Ok (h, x) ->
  exists k gd, dict_get (a_params (x_atlas x)) "ht" = Some [k] /\ lm_gd (df_man template) = Ok gd /\
    deref h k = tzeros (shape gd) /\ records h k /\ exists_in h k /\
    (forall r j, In r (a_models (x_atlas x)) -> In j (tensors_of r) -> store h j <> store h k) /\
    (dict_get other "cotan" = None -> dict_get (a_params (x_atlas x)) "cotan" = Some (flat_map init_cotan (a_models (x_atlas x)))).
Proof.
  intros h0 template mods att population lam fit_gd sigma nu coeff htgd settings other mode h x ND EN.
  destruct (new_atlas_ok _ _ _ _ _ _ _ _ _ _ _ _ _ _ _ _ _ ND EN) as (h1 & a & EI & EM & _ & _ & _ & _ & (s & gd & k & -> & EG & EA & EH & EP)).
  destruct (atlas_init_ok _ _ _ _ _ _ _ _ _ _ _ _ ND EI) as (AB & _ & _ & _). exists k, gd. rewrite EP. unfold alloc in EA. injection EA as -> ->.
  split; [rewrite dict_get_set; reflexivity|]. split; [exact EG|].
  assert (OB : the_obj (mkHeap (h_objs h1 ++ [mkObj (length (h_vals h1)) true]) (h_vals h1 ++ [tzeros (shape gd)])) (length (h_objs h1)) = mkObj (length (h_vals h1)) true).
  { unfold the_obj. cbn [h_objs]. rewrite app_nth2 by lia. rewrite Nat.sub_diag. reflexivity. }
  split; [unfold deref; rewrite OB; cbn [o_store h_vals]; rewrite app_nth2 by lia; rewrite Nat.sub_diag; reflexivity|].
  split; [unfold records; rewrite OB; reflexivity|]. split; [split; [cbn [h_objs]; rewrite app_length; cbn; lia|rewrite OB; cbn [o_store h_vals]; rewrite app_length; cbn; lia]|].
  split; [|intros NC; rewrite dict_get_set, EM; exact (ab_pcotan _ _ _ _ _ _ AB NC)].
  intros r j I J. pose proof (ab_exist _ _ _ _ _ _ AB) as EX. rewrite Forall_forall in EX. destruct (EX j) as (E1 & E2); [unfold rs_tensors; apply in_flat_map; exists r; rewrite <- EM; auto|].
  unfold store at 2. rewrite OB. cbn [o_store]. unfold store, the_obj in *. cbn [h_objs]. rewrite app_nth1 by exact E1. lia.
Qed.
Print Assumptions C83_hypertemplate_parameter.

(** Finding: an atlas whose template is optimised can be built, but neither evaluated (for
    at least one subject and one target) nor used to deform its template. *)
Theorem C83_hypertemplate_refuted : forall h0 template mods att population lam fit_gd sigma nu coeff htgd settings other mode h x,
  NoDup (map fst other) -> (1 <= population)%nat ->
  new_atlas h0 template mods att population lam fit_gd true sigma nu coeff htgd settings other mode = Ok (h, x) ->
  forall ck others sv b0 ag h' name it t1,
    (forall d, atlas_deformed ck others sv b0 ag h' x name it t1 d = Err TypeError) /\
    (forall own cb targets v, evaluate_atlas ck others sv b0 ag own cb h' x targets name it t1 <> Ok v).
Proof.
  intros h0 template mods att population lam fit_gd sigma nu coeff htgd settings other mode h x ND PO EN ck others sv b0 ag h' name it t1.
  destruct (new_atlas_ok _ _ _ _ _ _ _ _ _ _ _ _ _ _ _ _ _ ND EN) as (h1 & a & EI & EM & _ & ET & _ & _ & (s & gd & k & -> & EG & EA & EH & EP)).
  destruct (atlas_init_ok _ _ _ _ _ _ _ _ _ _ _ _ ND EI) as (AB & _ & _ & _). pose proof (ab_length _ _ _ _ _ _ AB) as L. rewrite <- EM in L.
  destruct (a_models (x_atlas x)) as [|r rs] eqn:ER; [cbn in L; lia|]. split.
  - intros d. unfold atlas_deformed. destruct (x_parallel x); [reflexivity|]. rewrite ER, EH. cbn [deform_subjects]. unfold hyper_template. rewrite ET, EG. reflexivity.
  - intros own cb targets v. unfold evaluate_atlas. rewrite ER, EH. destruct targets as [|t targets]; [discriminate|]. cbn [evaluate_subjects]. unfold hyper_template. rewrite ET, EG. cbn [bind].
    destruct (_ <- geodesic_controls sv b0 _ ;; _); discriminate.
Qed.
Print Assumptions C83_hypertemplate_refuted.

Lemma mapM_const {A B} (f : A -> res B) b l : Forall (fun a => f a = Ok b) l -> mapM f l = Ok (repeat b (length l)).
Proof. induction 1 as [|a l E _ IH]; [reflexivity|]. cbn [mapM length repeat]. rewrite E. cbn [bind]. unfold mapM in *. rewrite IH. reflexivity. Qed.

(** attachments: one per subject, the one given; without subject, IndexError. *)
Theorem C83_attachments : forall h0 template mods att population lam fit_gd optimise sigma nu coeff htgd settings other mode h x,
  NoDup (map fst other) ->
  new_atlas h0 template mods att population lam fit_gd optimise sigma nu coeff htgd settings other mode = Ok (h, x) ->
  attachments x = if (population =? 0)%nat then Err IndexError else Ok (repeat att population).
Proof.
  intros h0 template mods att population lam fit_gd optimise sigma nu coeff htgd settings other mode h x ND EN.
  destruct (new_atlas_ok _ _ _ _ _ _ _ _ _ _ _ _ _ _ _ _ _ ND EN) as (h1 & a & EI & EM & _).
  destruct (atlas_init_ok _ _ _ _ _ _ _ _ _ _ _ _ ND EI) as (AB & _ & _ & KA). pose proof (ab_length _ _ _ _ _ _ AB) as L. unfold attachments. rewrite EM. clear - KA L. subst population.
  assert (H : mapM (fun r => match r_att r with a :: _ => Ok a | [] => Err IndexError end) (a_models a) = Ok (repeat att (length (a_models a)))).
  { apply mapM_const. eapply Forall_impl; [|exact KA]. cbn beta. intros r (_ & _ & _ & _ & _ & -> & _). reflexivity. }
  destruct (a_models a) as [|r rs]; [reflexivity|]. exact H.
Qed.
Print Assumptions C83_attachments.

(** *** C84 *)

(** Without a callback, evaluating is what C29-C32 are about. *)
Theorem C84_without_callback : forall ck others sv b0 ag h r targets name it t1 cost0,
  evaluate_with ck others sv b0 ag None h r targets name it t1 cost0 =
  (' (d, r') <- evaluate ck others sv b0 ag h r targets name it t1 cost0 ;; Ok (d, h, r')).
Proof. intros. apply without_callback. Qed.
Print Assumptions C84_without_callback.

(** The callback runs first; the model it leaves is what is evaluated; its cost, if it
    returns one, is the entry 'precompute', and is added to the other costs. *)
Theorem C84_callback_cost : forall ck others sv b0 ag f h r h1 r1 c targets name it t1,
  f h r = Ok (h1, r1, c) -> length (r_defs r1) = length (r_defs r) ->
  (forall d r2, evaluate ck others sv b0 ag h1 r1 targets name it t1 [] = Ok (d, r2) ->
     evaluate_with ck others sv b0 ag (Some f) h r targets name it t1 [] = Ok (with_precompute c d, h1, r2) /\
     total (map snd (with_precompute c d)) = cost_or_zero c + total (map snd d)) /\
  (forall e, evaluate ck others sv b0 ag h1 r1 targets name it t1 [] = Err e ->
     evaluate_with ck others sv b0 ag (Some f) h r targets name it t1 [] = Err e).
Proof.
  intros ck others sv b0 ag f h r h1 r1 c targets name it t1 F L.
  assert (W : (match c with Some c => dict_set [] "precompute" c | None => [] end) = with_precompute c []) by (destruct c; reflexivity). split.
  - intros d r2 E. split.
    + rewrite (with_callback ck others sv b0 ag f h r h1 r1 c targets name it t1 [] F L), W, (evaluate_costs ck others sv b0 ag h1 r1 targets name it t1 d r2 c E). reflexivity.
    + destruct c; unfold total; cbn [with_precompute map snd fold_right cost_or_zero]; ring.
  - intros e E. rewrite (with_callback ck others sv b0 ag f h r h1 r1 c targets name it t1 [] F L), W, (evaluate_costs_err ck others sv b0 ag h1 r1 targets name it t1 e c E). reflexivity.
Qed.
Print Assumptions C84_callback_cost.

(** With a wrong number of targets the callback is not run: whatever it is, AssertionError.
    Otherwise its exceptions go through. *)
Theorem C84_callback_errors : forall ck others sv b0 ag cb f e h r targets name it t1 cost0,
  (length targets <> length (r_defs r) -> evaluate_with ck others sv b0 ag cb h r targets name it t1 cost0 = Err AssertionError) /\
  (length targets = length (r_defs r) -> f h r = Err e -> evaluate_with ck others sv b0 ag (Some f) h r targets name it t1 cost0 = Err e).
Proof.
  intros ck others sv b0 ag cb f e h r targets name it t1 cost0. unfold evaluate_with. split.
  - intros N. rewrite (proj2 (Nat.eqb_neq _ _) N). reflexivity.
  - intros -> F. rewrite Nat.eqb_refl, F. reflexivity.
Qed.
Print Assumptions C84_callback_errors.

(** A callback that sets the model to the same state whenever it is called after
    evaluations of the model it left: evaluating again gives the same costs. *)
Theorem C84_repeatable : forall ck others sv b0 ag f h r h1 r1 c targets name it t1 d r2,
  f h r = Ok (h1, r1, c) -> length (r_defs r1) = length (r_defs r) ->
  (length (r_defs r1) <= length (r_init r1))%nat -> evaluates ck others name t1 (steps_of r1 it) ->
  evaluate_with ck others sv b0 ag (Some f) h r targets name it t1 [] = Ok (d, h1, r2) ->
  (forall r', used ck others sv b0 ag h1 r1 r' -> exists r'', f h1 r' = Ok (h1, r'', c) /\ used ck others sv b0 ag h1 r1 r'') ->
  exists r3, evaluate_with ck others sv b0 ag (Some f) h1 r2 targets name it t1 [] = Ok (d, h1, r3).
Proof.
  intros ck others sv b0 ag f h r h1 r1 c targets name it t1 d r2 F L LI EV E ST.
  rewrite (with_callback ck others sv b0 ag f h r h1 r1 c targets name it t1 [] F L) in E. bok E y HE1. destruct y as (d' & r2'). injection E as -> ->.
  assert (U : used ck others sv b0 ag h1 r1 r2) by (eapply used_evaluate; [exact HE1|apply used_not]).
  destruct (ST r2 U) as (r3 & F' & U').
  assert (DL : forall q, used ck others sv b0 ag h1 r1 q -> length (r_defs q) = length (r_defs r1)).
  { intros q Uq. destruct (used_alike _ _ _ _ _ _ _ _ Uq) as (defs & mods & -> & D & _). cbn. symmetry. exact (Forall2_len _ _ _ D). }
  rewrite (with_callback ck others sv b0 ag f h1 r2 h1 r3 c targets name it t1 [] F' ltac:(rewrite (DL r3 U'), (DL r2 U); reflexivity)).
  destruct (C29_evaluations_are_repeatable ck others sv b0 ag h1 r1 r3 name it t1 U' LI EV) as (R & _). rewrite R, HE1. cbn [bind]. eauto.
Qed.
Print Assumptions C84_repeatable.

(** In an atlas, model_precompute_callback is run for each subject that has a target: each
    entry of the costs is the sum of the entries of the subjects that have it. *)
Theorem C84_atlas_costs : forall ck others sv b0 ag own cb h x targets name it t1 ds h',
  x_ht x = None -> ds <> [] -> in_turn ck others sv b0 ag cb name it t1 h (a_models (x_atlas x)) targets ds h' ->
  exists costs x', evaluate_atlas ck others sv b0 ag own cb h x targets name it t1 = Ok (costs, h', x') /\
    forall k, dict_get costs k = match under k ds with [] => None | l => Some (total l) end.
Proof.
  intros ck others sv b0 ag own cb h x targets name it t1 ds h' NH NE T. unfold evaluate_atlas. rewrite NH.
  assert (H : forall h rs targets ds h', in_turn ck others sv b0 ag cb name it t1 h rs targets ds h' -> forall base,
    exists cc rs', evaluate_subjects ck others sv b0 ag cb h (x_template x) None rs targets name it t1 base = Ok (cc, h', rs') /\
      (forall k, dict_get cc k = match under k ds with [] => dict_get base k | l => Some (opt_list (dict_get base k) ++ l) end) /\ (ds <> [] -> exists v, dict_get cc "attach" = Some v)).
  { clear - ck. induction 1 as [h rs targets EN|h r rs t targets d h1 r1 ds h2 E _ IH]; intros base.
    - exists base, rs. split; [destruct EN as [-> | ->]; [destruct targets; reflexivity|destruct rs; reflexivity]|]. split; [reflexivity|congruence].
    - cbn [evaluate_subjects bind]. rewrite E. cbn [bind]. destruct (IH (append_in_dict base d)) as (cc & rs' & -> & G & _). cbn [bind]. exists cc, (r1 :: rs'). split; [reflexivity|].
      destruct (eval_with_nodup _ _ _ _ _ _ _ _ _ _ _ _ _ _ _ E) as (N & (v & EV)).
      assert (GG : forall k, dict_get cc k = match under k (d :: ds) with [] => dict_get base k | l => Some (opt_list (dict_get base k) ++ l) end).
      { intros k. rewrite G, (append_get _ N). unfold under. cbn [flat_map]. fold (under k ds). destruct (dict_get d k) as [w|]; cbn [app]; [|reflexivity].
        destruct (under k ds) as [|u l]; [reflexivity|]. cbn [opt_list]. rewrite <- app_assoc. reflexivity. }
      split; [exact GG|]. intros _. rewrite GG. unfold under. cbn [flat_map]. rewrite EV. cbn [app]. eauto. }
  destruct (H _ _ _ _ _ T []) as (cc & rs' & -> & G & HS). cbn [bind]. destruct (HS NE) as (v & EV). destruct cc as [|kv cc]; [discriminate EV|]. eexists _, _. split; [reflexivity|].
  intros k. rewrite sums_get, G. cbn [dict_get opt_list app]. destruct (under k ds); [reflexivity|]. cbn [option_map]. rewrite py_sum_total. reflexivity.
Qed.
Print Assumptions C84_atlas_costs.

(** Finding: the argument precompute_callback of an atlas has no effect. *)
Theorem C84_own_callback_refuted : forall ck others sv b0 ag own cb h x targets name it t1,
  evaluate_atlas ck others sv b0 ag own cb h x targets name it t1 = evaluate_atlas ck others sv b0 ag None cb h x targets name it t1.
Proof. reflexivity. Qed.
Print Assumptions C84_own_callback_refuted.

(** Finding: compute_deformed does not run the callback, so that it does not return what
    evaluate measures.  A point at 1 of the line and a global translation; the attachment
    reads the coordinate of the deformed point; the callback puts the point at 2. *)
Definition coordinate : attachment := fun x _ => match x with t :: _ => Ok (t @2 0%nat 0%nat) | [] => Ok 0 end.
Definition two11 : tensor := tscal 2 one11.
Definition puts2 : callback := fun h r =>
  match r_init r with m :: _ => (match om_gd m with k :: _ => Ok (write h k two11, r, None) | [] => Err IndexError end) | [] => Err IndexError end.
Definition line_model : res (heap * reg) :=
  registration (mkHeap [] []) [pt1] [gt1] [coordinate] false false [] 1 [] "sum" None None.
Definition line_state : heap * reg := Eval cbv -[IZR one11 tzeros coordinate] in value no_model line_model.
Lemma line_state_ok : line_model = Ok line_state.
Proof. vm_compute. reflexivity. Qed.

Lemma line_shoots others sv b0 ag sch it q : exact_solver sv -> exact_grad ag -> differentiates ag -> (0 < it)%nat -> shape q = [1%nat; 1%nat] ->
  is_ok (shoot real_clock others sv b0 ag (scheme_name sch) it 1 None true None (start [DPoints (GLm 1 1 q one11)] [gt1])).
Proof.
  intros HS EX DF IT Sq. apply (C82_fixed_step_schemes others sv b0 ag sch it 1 true None 1); auto.
  - cbn. repeat split; auto; (lra || discriminate).
  - cbn. tauto.
  - intros g m1 K _ E. destruct g as [| | | | |gs]; try discriminate K. cbn in K. injection K as K.
    destruct gs as [|g0 [|g1 [|]]]; try discriminate K. cbn [map] in K. injection K as K0 K1. destruct g0; try discriminate K0. destruct g1; try discriminate K1.
    cbn in E. injection E as <-. cbn. tauto.
  - cbn. tauto.
  - eexists. split; [reflexivity|]. split; [repeat constructor|]. cbn. rewrite Sq. auto.
  - change (0 < prod (shape q) + 0)%nat. rewrite Sq. cbn. lia.
  - lra.
Qed.

Theorem C84_deformed_refuted : forall others sv b0 ag sch it, exact_solver sv -> exact_grad ag -> differentiates ag -> (0 < it)%nat ->
  exists h r xs c i r1 a d h2 r2, line_model = Ok (h, r) /\
    compute_deformed real_clock others sv b0 ag h r (scheme_name sch) it 1 false = Ok (xs, c, i, r1) /\
    attachment_costs (r_att r) xs [[one11]] = Ok [a] /\
    evaluate_with real_clock others sv b0 ag (Some puts2) h r [[one11]] (scheme_name sch) it 1 [] = Ok (d, h2, r2) /\
    dict_get d "attach" = Some (a + 1).
Proof.
  intros others sv b0 ag sch it HS EX DF IT. set (h := fst line_state). set (r := snd line_state). set (h1 := write h 0%nat two11).
  set (defs := [pt1]). set (defs' := [DPoints (GLm 1 1 two11 one11)]).
  assert (OR : Forall ordinary defs) by (constructor; [|constructor]; split; [reflexivity|]; split; [cbn; eauto 10|]; intros q; eexists; reflexivity).
  assert (OR' : Forall ordinary defs') by (constructor; [|constructor]; split; [reflexivity|]; split; [cbn; eauto 10|]; intros q; eexists; reflexivity).
  destruct (line_shoots others sv b0 ag sch it one11 HS EX DF IT eq_refl) as (sh & ES). destruct (line_shoots others sv b0 ag sch it two11 HS EX DF IT eq_refl) as (sh' & ES').
  change [DPoints (GLm 1 1 one11 one11)] with defs in ES. change [DPoints (GLm 1 1 two11 one11)] with defs' in ES'.
  assert (W : wf_mod 1 (start defs [gt1])) by (cbn; repeat split; (lra || discriminate)). assert (LS : locals_smooth 1 (start defs [gt1])) by (cbn; tauto).
  assert (SE : shot_elsewhere 1 delta (fun _ => 1) sh sh' /\ wf_shot 1 sh).
  { refine (scheme_runs others others sv sv b0 b0 ag ag sch it 1 true None None 1 delta (fun _ => 1) _ _ sh sh' (rigid_delta 1) EX EX HS HS W _ (smooth_total 1 _ LS) _ _ _ _ Rlt_0_1 IT (C81_geodesic sv b0 1 _ HS W LS) ES ES').
    - cbn. repeat split; (lra || discriminate).
    - cbn. tauto.
    - split; [cbn; repeat split|]. split; (split; [reflexivity|]); [change (Forall2 teq [two11] [place_rows 1 delta (fun _ => 1) one11])|change (Forall2 teq [one11] [turn_rows 1 delta one11])];
        (apply Forall2_cons; [|apply Forall2_nil]); (split; [reflexivity|]); intros idx V; destruct idx as [|k [|l [|? ?]]]; try (cbn in V; tauto); cbn in V;
        replace k with 0%nat by lia; replace l with 0%nat by lia; cbn; unfold placed, turned, vrow, delta; cbn; lra.
    - eexists. split; [reflexivity|]. split; [repeat constructor|cbn; auto 10].
    - eexists. split; [reflexivity|]. split; [repeat constructor|cbn; auto 10]. }
  destruct SE as (SE & (WS & _)). pose proof (shoot_skel _ _ _ _ _ _ _ _ _ _ _ _ _ ES) as SK.
  destruct (compute_ok real_clock others sv b0 ag defs [gt1] (scheme_name sch) it false None 1 "sum" sh OR ES) as (ms & xs & EM & L & N & O & _). destruct (O eq_refl) as (o & EO & EX1 & EC1).
  destruct (compute_ok real_clock others sv b0 ag defs' [gt1] (scheme_name sch) it true None 1 "sum" sh' OR' ES') as (ms' & xs' & EM' & L' & N' & _ & O').
  assert (NE : scheme_name sch <> "torch_euler") by (destruct sch; discriminate). specialize (O' eq_refl eq_refl). rewrite (proj2 (String.eqb_neq _ _) NE) in O'. destruct O' as (o' & cs & EO' & EX' & _ & EC').
  destruct (N 0%nat pt1 eq_refl) as (m & x & Em & Ex & (dim & nb & q & p & Mm & Tq)). destruct (N' 0%nat _ eq_refl) as (m' & x' & Em' & Ex' & (dim' & nb' & q' & p' & Mm' & Tq')).
  destruct xs as [|x0 [|? ?]]; try discriminate L. destruct xs' as [|x0' [|? ?]]; try discriminate L'. injection Ex as ->. injection Ex' as ->. injection Tq as <-. injection Tq' as <-.
  assert (QQ : q' @2 0%nat 0%nat = q @2 0%nat 0%nat + 1).
  { destruct SE as (((_ & G) & _) & _). rewrite EM, EM' in G. destruct ms as [|? ms]; [discriminate Em|]. destruct ms' as [|? ms']; [discriminate Em'|]. injection Em as ->. injection Em' as ->.
    rewrite EM in WS, SK. cbn [mod_manifold map placed_man g_gd flat_map] in G. cbn in SK. cbn in WS. rewrite Mm in SK, WS. rewrite Mm, Mm' in G. cbn [placed_man g_gd app] in G. inversion G as [|? ? ? ? T _]; subst.
    injection SK as -> -> _. destruct WS as ((_ & WS & _) & _). destruct T as (S' & T).
    rewrite (T [0%nat; 0%nat] ltac:(rewrite S'; cbn [place_rows shape]; rewrite ?WS; cbn; lia)). cbn. unfold placed, turned, vrow, delta. cbn. ring. }
  exists h, r, [[q]], None, (dr_inter o), (set_run r (dr_defs o) (dr_mods o)), (q @2 0%nat 0%nat). do 3 eexists.
  split; [exact line_state_ok|]. split; [|split; [|split]].
  - change (compute_deformed real_clock others sv b0 ag h r (scheme_name sch) it 1 false) with
      (o <- deformables_compute_deformed real_clock others sv b0 ag defs [gt1] (scheme_name sch) it false None 1 "sum" ;; Ok (dr_deformed o, dr_cost o, dr_inter o, set_run r (dr_defs o) (dr_mods o))).
    rewrite EO. cbn [bind]. rewrite EX1, EC1. reflexivity.
  - reflexivity.
  - apply (proj1 (C84_callback_cost real_clock others sv b0 ag puts2 h r h1 r None [[one11]] (scheme_name sch) it 1 eq_refl eq_refl)).
    change (evaluate real_clock others sv b0 ag h1 r [[one11]] (scheme_name sch) it 1 []) with
      (' (deformed, c, _, r') <- (o <- deformables_compute_deformed real_clock others sv b0 ag defs' [gt1] (scheme_name sch) it true None 1 "sum" ;; Ok (dr_deformed o, dr_cost o, dr_inter o, set_run r (dr_defs o) (dr_mods o))) ;;
       let cost1 := match c with Some c => dict_set [] "deformation" c | None => [] end in
       cs <- attachment_costs [coordinate] deformed [[one11]] ;; Ok (dict_set cost1 "attach" (1 * py_sum cs), r')).
    rewrite EO'. cbn [bind]. rewrite EX', EC'. cbn [attachment_costs coordinate bind dict_set]. reflexivity.
  - cbn. f_equal. rewrite QQ. ring.
Qed.
Print Assumptions C84_deformed_refuted.

(** ** Examples: an atlas of two subjects, whose template is a point of the line *)
Definition line_atlas (optimise : bool) (mode : string) : res (heap * full_atlas) :=
  new_atlas (mkHeap [] []) pt1 [gt1] coordinate 2 1 None optimise (Some 1) 1 1 true (Some ["sigma"]) [] mode.
Definition no_full : heap * full_atlas := (mkHeap [] [], mkFull (mkAtlas [] None 0 false [] []) false pt1 None).
Definition two_subjects : heap * full_atlas := Eval cbv -[IZR one11 tzeros coordinate] in value no_full (line_atlas false "sequential").
Lemma two_subjects_ok : line_atlas false "sequential" = Ok two_subjects.
Proof. vm_compute. reflexivity. Qed.

Lemma line_evaluates others sv b0 ag sch it h r q : exact_solver sv -> exact_grad ag -> differentiates ag -> (0 < it)%nat -> shape q = [1%nat; 1%nat] ->
  r_reduce r = "sum" -> filled h r = Ok ([DPoints (GLm 1 1 q one11)], [gt1]) -> r_fit_controls r = false -> length (r_defs r) = 1%nat -> r_att r = [coordinate] ->
  exists d r', evaluate real_clock others sv b0 ag h r [[one11]] (scheme_name sch) it 1 [] = Ok (d, r') /\
    exists p, deforms real_clock others sv b0 ag h (scheme_name sch) it 1 r p.
Proof.
  intros HS EX DF IT Sq RR FI FC LD RA. destruct (line_shoots others sv b0 ag sch it q HS EX DF IT Sq) as (sh & ES).
  assert (OR : Forall ordinary [DPoints (GLm 1 1 q one11)]) by (constructor; [|constructor]; split; [reflexivity|]; split; [cbn; eauto 10|]; intros z; eexists; reflexivity).
  assert (NE : scheme_name sch <> "torch_euler") by (destruct sch; discriminate).
  assert (AO : forall a x y, In a (r_att r) -> is_ok (a x y)) by (rewrite RA; intros a x y [<-|[]]; destruct x; eexists; reflexivity).
  destruct (C32_solvers_evaluate real_clock others sv b0 ag h r [[one11]] (scheme_name sch) it 1 _ _ sh NE RR FI OR) as (cs & xs & ats & r' & _ & _ & EV); auto.
  { unfold steps_of, controls_of. rewrite FC. exact ES. }
  eexists _, r'. split; [exact EV|].
  destruct (evaluate_measures _ _ _ _ _ _ _ _ _ _ _ _ _ _ EV) as (ys & i & r1 & ats' & CD & _).
  destruct (compute_ok real_clock others sv b0 ag _ [gt1] (scheme_name sch) it false None 1 "sum" sh OR ES) as (ms & zs & EM & L & N & O & _). destruct (O eq_refl) as (o & EO & EX1 & EC1).
  unfold filled in FI. bok FI mods HE1. bok FI defs HE2. injection FI as -> ->. 
  unfold compute_deformed in CD. rewrite HE1 in CD. cbn [bind] in CD. rewrite HE2 in CD. cbn [bind] in CD. rewrite FC, RR, EO in CD. cbn [bind] in CD. injection CD as DD _ II RR1.
  destruct zs as [|z zs]; [discriminate L|]. exists (z, dr_inter o). exists zs, None, (set_run r (dr_defs o) (dr_mods o)). cbn [fst snd].
  unfold compute_deformed. rewrite HE1. cbn [bind]. rewrite HE2. cbn [bind]. rewrite FC, RR, EO. cbn [bind]. rewrite EX1, EC1. reflexivity.
Qed.

Example C83_hypotheses : forall others sv b0 ag sch it, exact_solver sv -> exact_grad ag -> differentiates ag -> (0 < it)%nat ->
  exists h x runs ys d' x' costs h' x'', line_atlas false "sequential" = Ok (h, x) /\ x_parallel x = false /\ x_ht x = None /\
    Forall2 (deforms real_clock others sv b0 ag h (scheme_name sch) it 1) (a_models (x_atlas x)) runs /\ length runs = 2%nat /\
    atlas_deformed real_clock others sv b0 ag h x (scheme_name sch) it 1 (Some [("states", NotAList)]) = Ok (ys, d', x') /\
    evaluate_atlas real_clock others sv b0 ag None None h x [[one11]; [one11]] (scheme_name sch) it 1 = Ok (costs, h', x'') /\
    atlas_history real_clock others sv b0 ag h x x' /\
    Forall (fun r => (length (r_defs r) <= length (r_init r))%nat /\ evaluates real_clock others (scheme_name sch) 1 (steps_of r it)) (a_models (x_atlas x)).
Proof.
  intros others sv b0 ag sch it HS EX DF IT. set (h := fst two_subjects). set (x := snd two_subjects).
  assert (A : exists ra rb, a_models (x_atlas x) = [ra; rb] /\ forall r, In r [ra; rb] ->
    r_reduce r = "sum" /\ filled h r = Ok ([pt1], [gt1]) /\ r_fit_controls r = false /\ length (r_defs r) = 1%nat /\ r_att r = [coordinate] /\ length (r_init r) = 2%nat).
  { eexists _, _. split; [reflexivity|]. intros r [<-|[<-|[]]]; repeat split. }
  destruct A as (ra & rb & EM & A).
  assert (B : forall r, In r [ra; rb] -> exists d r', evaluate real_clock others sv b0 ag h r [[one11]] (scheme_name sch) it 1 [] = Ok (d, r') /\
    exists p, deforms real_clock others sv b0 ag h (scheme_name sch) it 1 r p).
  { intros r I. destruct (A r I) as (A1 & A2 & A3 & A4 & A5 & _). exact (line_evaluates others sv b0 ag sch it h r one11 HS EX DF IT eq_refl A1 A2 A3 A4 A5). }
  destruct (B ra (or_introl eq_refl)) as (da & ra' & Ea & pa & Pa). destruct (B rb (or_intror (or_introl eq_refl))) as (db & rb' & Eb & pb & Pb).
  assert (RN : Forall2 (deforms real_clock others sv b0 ag h (scheme_name sch) it 1) (a_models (x_atlas x)) [pa; pb]) by (rewrite EM; repeat constructor; assumption).
  destruct (proj2 (C83_deformed_templates real_clock others sv b0 ag h x (scheme_name sch) it 1 (Some [("states", NotAList)]) eq_refl eq_refl) _ RN) as (ys & d' & x' & AD).
  assert (IN : in_turn real_clock others sv b0 ag None (scheme_name sch) it 1 h (a_models (x_atlas x)) [[one11]; [one11]] [da; db] h).
  { assert (K : forall r d r', evaluate real_clock others sv b0 ag h r [[one11]] (scheme_name sch) it 1 [] = Ok (d, r') ->
      evaluate_with real_clock others sv b0 ag None h r [[one11]] (scheme_name sch) it 1 [] = Ok (d, h, r')) by (intros r d r' E; etransitivity; [apply C84_without_callback|]; rewrite E; reflexivity).
    rewrite EM. eapply turn_next; [exact (K _ _ _ Ea)|]. eapply turn_next; [exact (K _ _ _ Eb)|]. apply turn_end. auto. }
  destruct (C84_atlas_costs real_clock others sv b0 ag None None h x _ (scheme_name sch) it 1 [da; db] h eq_refl ltac:(discriminate) IN) as (costs & x'' & EA & _).
  exists h, x, [pa; pb], ys, d', x', costs, h, x''. split; [exact two_subjects_ok|]. split; [reflexivity|]. split; [reflexivity|]. split; [exact RN|]. split; [reflexivity|]. split; [exact AD|]. split; [exact EA|].
  split; [eapply history_deformed; [exact AD|apply history_none]|]. rewrite EM.
  assert (C : forall r, In r [ra; rb] -> (length (r_defs r) <= length (r_init r))%nat /\ evaluates real_clock others (scheme_name sch) 1 (steps_of r it)).
  { intros r I. destruct (A r I) as (A1 & A2 & A3 & A4 & A5 & A6). split; [lia|]. unfold steps_of. rewrite A3. apply schemes_evaluate. exact IT. }
  repeat constructor; apply C; cbn; auto.
Qed.

Definition hyper_subjects : heap * full_atlas := Eval cbv -[IZR one11 tzeros coordinate] in value no_full (line_atlas true "sequential").
Definition parallel_subjects : heap * full_atlas := Eval cbv -[IZR one11 tzeros coordinate] in value no_full (line_atlas false "parallel").
Example C83_hypotheses_hypertemplate : exists h x h' x', line_atlas true "sequential" = Ok (h, x) /\ line_atlas false "parallel" = Ok (h', x') /\ NoDup (map fst (@nil (string * list ref))).
Proof.
  exists (fst hyper_subjects), (snd hyper_subjects), (fst parallel_subjects), (snd parallel_subjects). split; [vm_compute; reflexivity|]. split; [vm_compute; reflexivity|constructor].
Qed.

(** The callback that puts the point at 2: its model is evaluated again and again. *)
Example C84_hypotheses : forall others sv b0 ag sch it, exact_solver sv -> exact_grad ag -> differentiates ag -> (0 < it)%nat ->
  exists h r h1 d r2, line_model = Ok (h, r) /\ puts2 h r = Ok (h1, r, None) /\ h1 <> h /\ (length (r_defs r) <= length (r_init r))%nat /\
    evaluates real_clock others (scheme_name sch) 1 (steps_of r it) /\
    evaluate real_clock others sv b0 ag h1 r [[one11]] (scheme_name sch) it 1 [] = Ok (d, r2) /\
    evaluate_with real_clock others sv b0 ag (Some puts2) h r [[one11]] (scheme_name sch) it 1 [] = Ok (d, h1, r2) /\
    (forall r', used real_clock others sv b0 ag h1 r r' -> exists r'', puts2 h1 r' = Ok (h1, r'', None) /\ used real_clock others sv b0 ag h1 r r'').
Proof.
  intros others sv b0 ag sch it HS EX DF IT. set (h := fst line_state). set (r := snd line_state). set (h1 := write h 0%nat two11).
  destruct (line_evaluates others sv b0 ag sch it h1 r two11 HS EX DF IT eq_refl eq_refl eq_refl eq_refl eq_refl eq_refl) as (d & r2 & E & _).
  exists h, r, h1, d, r2. split; [exact line_state_ok|]. split; [reflexivity|]. split.
  { intros Q. apply (f_equal (fun k => (deref k 0%nat) @2 0%nat 0%nat)) in Q. cbn in Q. lra. }
  split; [cbn; lia|]. split; [apply schemes_evaluate; exact IT|]. split; [exact E|]. split.
  - exact (proj1 (proj1 (C84_callback_cost real_clock others sv b0 ag puts2 h r h1 r None [[one11]] (scheme_name sch) it 1 eq_refl eq_refl) d r2 E)).
  - intros r' U. exists r'. split; [|exact U]. destruct (used_alike _ _ _ _ _ _ _ _ U) as (defs & mods & -> & _). reflexivity.
Qed.

(** The subjects of the atlas with this callback. *)
Example C84_hypotheses_atlas : forall others sv b0 ag sch it, exact_solver sv -> exact_grad ag -> differentiates ag -> (0 < it)%nat ->
  exists h x ds h', line_atlas false "sequential" = Ok (h, x) /\ x_ht x = None /\ length ds = 2%nat /\ h' <> h /\
    in_turn real_clock others sv b0 ag (Some puts2) (scheme_name sch) it 1 h (a_models (x_atlas x)) [[one11]; [one11]] ds h'.
Proof.
  intros others sv b0 ag sch it HS EX DF IT. set (h := fst two_subjects). set (x := snd two_subjects).
  assert (A : exists ra rb ka kb, a_models (x_atlas x) = [ra; rb] /\ puts2 h ra = Ok (write h ka two11, ra, None) /\ puts2 (write h ka two11) rb = Ok (write (write h ka two11) kb two11, rb, None) /\
    filled (write h ka two11) ra = Ok ([DPoints (GLm 1 1 two11 one11)], [gt1]) /\ filled (write (write h ka two11) kb two11) rb = Ok ([DPoints (GLm 1 1 two11 one11)], [gt1]) /\
    (deref (write (write h ka two11) kb two11) ka <> deref h ka) /\
    forall r, In r [ra; rb] -> r_reduce r = "sum" /\ r_fit_controls r = false /\ length (r_defs r) = 1%nat /\ r_att r = [coordinate]).
  { eexists _, _, _, _. split; [reflexivity|]. split; [reflexivity|]. split; [reflexivity|]. split; [reflexivity|]. split; [reflexivity|]. split.
    - intros Q. apply (f_equal (fun k => k @2 0%nat 0%nat)) in Q. cbn in Q. lra.
    - intros r [<-|[<-|[]]]; repeat split. }
  destruct A as (ra & rb & ka & kb & EM & Pa & Pb & Fa & Fb & NQ & A). destruct (A ra (or_introl eq_refl)) as (A1 & A3 & A4 & A5). destruct (A rb (or_intror (or_introl eq_refl))) as (B1 & B3 & B4 & B5).
  destruct (line_evaluates others sv b0 ag sch it _ ra two11 HS EX DF IT eq_refl A1 Fa A3 A4 A5) as (da & ra' & Ea & _).
  destruct (line_evaluates others sv b0 ag sch it _ rb two11 HS EX DF IT eq_refl B1 Fb B3 B4 B5) as (db & rb' & Eb & _).
  exists h, x, [da; db], (write (write h ka two11) kb two11). split; [exact two_subjects_ok|]. split; [reflexivity|]. split; [reflexivity|]. split.
  - intros Q. apply NQ. rewrite Q. reflexivity.
  - rewrite EM. eapply turn_next.
    + exact (proj1 (proj1 (C84_callback_cost real_clock others sv b0 ag puts2 h ra _ ra None [[one11]] (scheme_name sch) it 1 Pa eq_refl) da ra' Ea)).
    + eapply turn_next; [|apply turn_end; auto].
      exact (proj1 (proj1 (C84_callback_cost real_clock others sv b0 ag puts2 _ rb _ rb None [[one11]] (scheme_name sch) it 1 Pb eq_refl) db rb' Eb)).
Qed.

(** C32: the term 'attach' of the costs of a registration measures what compute_deformed
    returns, against the targets, in order. *)
Theorem C32_costs_of_the_deformed : forall ck others sv b0 ag h r targets name it t1 cost0 d r',
  evaluate ck others sv b0 ag h r targets name it t1 cost0 = Ok (d, r') ->
  exists xs i r1 atts, compute_deformed ck others sv b0 ag h r name it t1 false = Ok (xs, None, i, r1) /\
    attachment_costs (r_att r) xs targets = Ok atts /\ dict_get d "attach" = Some (r_lam r * total atts).
Proof. intros. eapply evaluate_measures. eassumption. Qed.
Print Assumptions C32_costs_of_the_deformed.
