(** Atlases: deformed templates, histories, callbacks. *)
From Coq Require Import Reals String List Arith Lia Lra.
From Verif Require Import Py RSum Tensor KernelModel FieldModel GeometryModel ModuleModel ShootingModel
  RegistrationModel AtlasModel SpecModule SpecRegistration SpecAtlas ModuleMain ModuleLeaves ModuleHistory ShootingDyn
  RegistrationRun RegistrationHeap RegistrationParams RegistrationLife RegistrationAtlas RegistrationShoot PropRegistration.
Import ListNotations.
Open Scope string_scope.
Open Scope list_scope.
Open Scope R_scope.

Lemma append_runs d d1 k v : append_item d k v = Ok d1 -> forall k', dict_get d1 k' = if k =? k' then Some (AList (held d k ++ [v])) else dict_get d k'.
Proof.
  unfold append_item, held. destruct (dict_get d k) as [[l|]|] eqn:E; [|discriminate|]; intros [= <-] k'; rewrite dict_get_set; reflexivity.
Qed.
Lemma append_ok d k v : (exists l, dict_get d k = Some (AList l)) -> exists d1, append_item d k v = Ok d1.
Proof. intros (l & E). unfold append_item. rewrite E. eauto. Qed.

Definition listed (d : idict) : Prop := (exists l, dict_get d "states" = Some (AList l)) /\ exists l, dict_get d "controls" = Some (AList l).
Lemma held_get d d' k : dict_get d' k = dict_get d k -> held d' k = held d k.
Proof. unfold held. intros ->. reflexivity. Qed.
Lemma held_list d k l : dict_get d k = Some (AList l) -> held d k = l.
Proof. unfold held. intros ->. reflexivity. Qed.

Lemma ensure_get d k k' : dict_get (ensure_list d k) k' = if k =? k' then Some (AList (held d k)) else dict_get d k'.
Proof.
  unfold ensure_list, held. destruct (dict_get d k) as [[l|]|] eqn:E; [|rewrite dict_get_set; reflexivity|rewrite dict_get_set; reflexivity].
  destruct (String.eqb_spec k k') as [<-|]; [exact E|reflexivity].
Qed.

(** One step of the dictionary. *)
Lemma one_run d i : listed d -> exists d1 d2, append_item d "states" (States (in_states i)) = Ok d1 /\ append_item d1 "controls" (Controls (in_controls i)) = Ok d2 /\
  listed d2 /\ forall y, with_runs d d2 [(y, i)].
Proof.
  intros ((l1 & L1) & (l2 & L2)). destruct (append_ok d "states" (States (in_states i)) (ex_intro _ _ L1)) as (d1 & E1).
  pose proof (append_runs d d1 "states" (States (in_states i)) E1) as G1.
  assert (C1 : dict_get d1 "controls" = Some (AList l2)) by (rewrite G1; exact L2).
  destruct (append_ok d1 "controls" (Controls (in_controls i)) (ex_intro _ _ C1)) as (d2 & E2).
  pose proof (append_runs d1 d2 "controls" (Controls (in_controls i)) E2) as G2. exists d1, d2. split; [exact E1|]. split; [exact E2|].
  assert (S2 : dict_get d2 "states" = Some (AList (held d "states" ++ [States (in_states i)]))) by (rewrite G2; cbn; rewrite G1; reflexivity).
  assert (C2 : dict_get d2 "controls" = Some (AList (held d "controls" ++ [Controls (in_controls i)]))).
  { rewrite G2. cbn. rewrite (held_get d d1 "controls") by (rewrite G1; reflexivity). reflexivity. }
  split; [split; eauto|]. intros y. split; [exact S2|]. split; [exact C2|]. intros k K1 K2. rewrite G2, G1.
  destruct (String.eqb_spec "controls" k); [congruence|]. destruct (String.eqb_spec "states" k); [congruence|reflexivity].
Qed.

Lemma with_runs_app d d1 d2 a b : with_runs d d1 a -> with_runs d1 d2 b -> with_runs d d2 (a ++ b).
Proof.
  intros (A1 & A2 & A3) (B1 & B2 & B3). split; [|split].
  - rewrite B1, (held_list _ _ _ A1), map_app, app_assoc. reflexivity.
  - rewrite B2, (held_list _ _ _ A2), map_app, app_assoc. reflexivity.
  - intros k K1 K2. rewrite B3, A3; auto.
Qed.

Section Deform.
  Variable ck : clock.
  Variable others : string -> option (list (time ck) -> tensor -> strat (time ck)).
  Variables (sv : solver) (b0 : backend) (ag : autograd).
  Notation deform := (deform_subjects ck others sv b0 ag).
  Notation one := (deforms ck others sv b0 ag).

  Lemma deform_split h template rs name it t1 : forall d ys d' rs', (forall d0, d = Some d0 -> listed d0) ->
    deform h template None rs name it t1 d = Ok (ys, d', rs') ->
    exists runs, Forall2 (one h name it t1) rs runs /\ ys = map fst runs /\
      match d, d' with None, None => True | Some d, Some d' => listed d' /\ (runs <> [] -> with_runs d d' runs) /\ (runs = [] -> d' = d) | _, _ => False end.
  Proof.
    induction rs as [|r rs IH]; intros d ys d' rs' LI E; cbn [deform_subjects] in E.
    - injection E as <- <- <-. exists []. split; [constructor|]. split; [reflexivity|]. destruct d as [d|]; [|exact Logic.I]. split; [apply LI; reflexivity|]. split; [congruence|reflexivity].
    - cbn [bind] in E. bok E y HE1. destruct y as (((xs & c) & i) & r1). destruct xs as [|y xs]; [discriminate E|]. cbn [bind] in E.
      assert (DY : one h name it t1 r (y, i)) by (exists xs, c, r1; exact HE1).
      destruct d as [d|].
      + destruct (one_run d i (LI d eq_refl)) as (d1 & d2 & E1 & E2 & L2 & W). rewrite E1 in E. cbn [bind] in E. rewrite E2 in E. cbn [bind] in E.
        bok E z HE2. destruct z as ((ys' & d3) & rs1). injection E as <- <- <-.
        destruct (IH (Some d2) ys' d3 rs1 ltac:(intros ? [= <-]; exact L2) HE2) as (runs & F & -> & G). destruct d3 as [d3|]; [|destruct G]. destruct G as (L3 & G1 & G2).
        exists ((y, i) :: runs). split; [constructor; assumption|]. split; [reflexivity|]. split; [exact L3|]. split; [|congruence]. intros _.
        destruct runs as [|p runs]; [rewrite (G2 eq_refl); apply W|]. apply (with_runs_app _ _ _ [(y, i)] (p :: runs) (W y)). apply G1. discriminate.
      + cbn [bind] in E. bok E z HE2. destruct z as ((ys' & d3) & rs1). injection E as <- <- <-.
        destruct (IH None ys' d3 rs1 ltac:(discriminate) HE2) as (runs & F & -> & G). destruct d3; [destruct G|].
        exists ((y, i) :: runs). split; [constructor; assumption|]. split; [reflexivity|exact Logic.I].
  Qed.

  Lemma deform_all h template rs name it t1 runs : Forall2 (one h name it t1) rs runs -> forall d, (forall d0, d = Some d0 -> listed d0) ->
    exists ys d' rs', deform h template None rs name it t1 d = Ok (ys, d', rs').
  Proof.
    induction 1 as [|r p rs runs (rest & c & r' & E) _ IH]; intros d LI; cbn [deform_subjects bind]; [eauto|]. rewrite E. cbn [bind]. destruct d as [d|].
    - destruct (one_run d (snd p) (LI d eq_refl)) as (d1 & d2 & E1 & E2 & L2 & W). rewrite E1. cbn [bind]. rewrite E2. cbn [bind].
      destruct (IH (Some d2) ltac:(intros ? [= <-]; exact L2)) as (ys & d' & rs' & ->). cbn [bind]. eauto.
    - cbn [bind]. destruct (IH None ltac:(discriminate)) as (ys & d' & rs' & ->). cbn [bind]. eauto.
  Qed.

  (** What evaluate measures is what compute_deformed returns. *)
  Lemma evaluate_measures h r targets name it t1 cost0 d r' : evaluate ck others sv b0 ag h r targets name it t1 cost0 = Ok (d, r') ->
    exists xs i r1 atts, compute_deformed ck others sv b0 ag h r name it t1 false = Ok (xs, None, i, r1) /\
      attachment_costs (r_att r) xs targets = Ok atts /\ dict_get d "attach" = Some (r_lam r * total atts).
  Proof.
    intros E. unfold evaluate in E. bok E u HE0. bok E y HE1. destruct y as (((xs & c) & i) & r1). bok E atts HE2. injection E as <- _.
    unfold compute_deformed in *. bok HE1 mods HE3. bok HE1 defs HE4. bok HE1 o HE5. injection HE1 as <- <- <- <-. rewrite HE3. cbn [bind]. rewrite HE4. cbn [bind].
    assert (H : exists o', (if r_fit_controls r then deformables_compute_deformed ck others sv b0 ag defs mods name (r_it r) false (Some (learned h r)) t1 (r_reduce r)
       else deformables_compute_deformed ck others sv b0 ag defs mods name it false None t1 (r_reduce r)) = Ok o' /\ dr_deformed o' = dr_deformed o /\ dr_cost o' = None).
    { clear - HE5. destruct (r_fit_controls r); unfold deformables_compute_deformed in *; bok HE5 sh SHE; bok HE5 ms MME; rewrite SHE; cbn [bind]; rewrite MME; cbn [bind];
        (destruct (existsb has_backward defs); [bok HE5 q QQE; discriminate HE5|]); bok HE5 y RRE; destruct y as (c & m'); bok HE5 dd DDE; bok HE5 ms2 MME2; injection HE5 as <-; cbn [bind]; rewrite DDE; cbn [bind]; rewrite ?MME; cbn [bind];
        eexists; (split; [reflexivity|]); split; reflexivity. }
    destruct H as (o' & -> & ED & EC). cbn [bind]. rewrite ED, EC. do 3 eexists. exists atts. split; [reflexivity|]. split; [exact HE2|]. rewrite dict_get_set. cbn. rewrite py_sum_total. reflexivity.
  Qed.
End Deform.

(** ** Dictionaries of costs *)
Lemma dict_set_keys {A} (d : list (string * A)) k v : forall x, In x (map fst (dict_set d k v)) <-> x = k \/ In x (map fst d).
Proof.
  induction d as [|(k', v') d IH]; intros x; cbn [dict_set map fst]; [cbn; intuition|]. destruct (String.eqb_spec k' k) as [->|N]; cbn [map fst In]; [intuition|]. rewrite IH. intuition.
Qed.
Lemma dict_set_nodup {A} (d : list (string * A)) k v : NoDup (map fst d) -> NoDup (map fst (dict_set d k v)).
Proof.
  induction d as [|(k', v') d IH]; cbn [dict_set map fst]; intros N; [repeat constructor; intros []|]. inversion N as [|? ? NI N']; subst.
  destruct (String.eqb_spec k' k) as [->|NE]; cbn [map fst]; [constructor; assumption|]. constructor; [|apply IH; exact N'].
  rewrite dict_set_keys. intros [->|I]; [apply NE; reflexivity|exact (NI I)].
Qed.

Definition opt_list {A} (o : option (list A)) : list A := match o with Some l => l | None => [] end.
Lemma append_get {A} (d : list (string * A)) : NoDup (map fst d) -> forall base k,
  dict_get (append_in_dict base d) k = match dict_get d k with Some v => Some (opt_list (dict_get base k) ++ [v]) | None => dict_get base k end.
Proof.
  induction d as [|(k0, v0) d IH]; intros N base k; [reflexivity|]. cbn [map fst] in N. inversion N as [|? ? NI N']; subst.
  unfold append_in_dict. cbn [fold_left fst snd]. fold (@append_in_dict A). change (fold_left (fun base kv => dict_set base (fst kv)
    (match dict_get base (fst kv) with Some l => l ++ [snd kv] | None => [snd kv] end)) d) with (fun b => @append_in_dict A b d). cbn beta.
  rewrite (IH N'), dict_get_set. cbn [dict_get]. destruct (String.eqb_spec k0 k) as [->|NE].
  - rewrite (dict_get_none d k NI). destruct (dict_get base k); reflexivity.
  - reflexivity.
Qed.
Lemma sums_get (d : list (string * list R)) k : dict_get (map (fun kv => (fst kv, py_sum (snd kv))) d) k = option_map py_sum (dict_get d k).
Proof. induction d as [|(k0, v0) d IH]; [reflexivity|]. cbn [map fst snd dict_get]. destruct (k0 =? k); [reflexivity|exact IH]. Qed.

Section Callbacks.
  Variable ck : clock.
  Variable others : string -> option (list (time ck) -> tensor -> strat (time ck)).
  Variables (sv : solver) (b0 : backend) (ag : autograd).
  Notation eval := (evaluate ck others sv b0 ag).
  Notation eval_with := (evaluate_with ck others sv b0 ag).

  Lemma without_callback h r targets name it t1 cost0 :
    eval_with None h r targets name it t1 cost0 = (' (d, r') <- eval h r targets name it t1 cost0 ;; Ok (d, h, r')).
  Proof.
    unfold evaluate_with, evaluate. destruct (py_assert _); [|reflexivity]. cbn [bind]. destruct (compute_deformed ck others sv b0 ag h r name it t1 true) as [(((xs & c) & i) & r1)|]; [|reflexivity].
    cbn [bind]. destruct (attachment_costs (r_att r) xs targets); reflexivity.
  Qed.

  Lemma with_callback f h r h1 r1 c targets name it t1 cost0 : f h r = Ok (h1, r1, c) -> length (r_defs r1) = length (r_defs r) ->
    eval_with (Some f) h r targets name it t1 cost0 =
    (' (d, r2) <- eval h1 r1 targets name it t1 (match c with Some c => dict_set cost0 "precompute" c | None => cost0 end) ;; Ok (d, h1, r2)).
  Proof.
    intros F L. unfold evaluate_with, evaluate. rewrite L, F. destruct (py_assert _); [|reflexivity]. cbn [bind]. destruct (compute_deformed ck others sv b0 ag h1 r1 name it t1 true) as [(((xs & c') & i) & r2)|]; [|reflexivity].
    cbn [bind]. destruct (attachment_costs (r_att r1) xs targets); reflexivity.
  Qed.

  Lemma eval_with_nodup cb h r targets name it t1 d h' r' : eval_with cb h r targets name it t1 [] = Ok (d, h', r') -> NoDup (map fst d) /\ exists v, dict_get d "attach" = Some v.
  Proof.
    intros E. unfold evaluate_with in E. bok E u HE0. bok E y HE1. destruct y as ((h1 & r1) & cost1). bok E z HE2. destruct z as (((xs & c) & i) & r2). bok E atts HE3. injection E as <- _ _.
    assert (N : NoDup (map fst cost1)).
    { destruct cb as [f|]; [|injection HE1 as <- <- <-; constructor]. bok HE1 w HE4. destruct w as ((h2 & r3) & c'). injection HE1 as <- <- <-. destruct c'; repeat constructor; intros []. }
    split; [|rewrite dict_get_set; cbn; eauto]. apply dict_set_nodup. destruct c; [apply dict_set_nodup|]; exact N.
  Qed.

  (** The costs before the callback's cost is put in front. *)
  Lemma evaluate_costs h r targets name it t1 d r' c : eval h r targets name it t1 [] = Ok (d, r') ->
    eval h r targets name it t1 (with_precompute c []) = Ok (with_precompute c d, r').
  Proof.
    unfold evaluate. intros E. destruct (py_assert _); [|discriminate E]. cbn [bind] in *. destruct (compute_deformed ck others sv b0 ag h r name it t1 true) as [(((xs & c') & i) & r1)|]; [|discriminate E].
    cbn [bind] in *. destruct (attachment_costs (r_att r) xs targets) as [atts|]; [|discriminate E]. cbn [bind] in *. injection E as <- <-.
    destruct c as [c|]; [|reflexivity]. destruct c'; reflexivity.
  Qed.
  Lemma evaluate_costs_err h r targets name it t1 e c : eval h r targets name it t1 [] = Err e ->
    eval h r targets name it t1 (with_precompute c []) = Err e.
  Proof.
    unfold evaluate. intros E. destruct (py_assert _); [|exact E]. cbn [bind] in *. destruct (compute_deformed ck others sv b0 ag h r name it t1 true) as [(((xs & c') & i) & r1)|]; [|exact E].
    cbn [bind] in *. destruct (attachment_costs (r_att r) xs targets) as [atts|]; [discriminate E|exact E].
  Qed.
End Callbacks.

(** ** Histories *)
Section Histories.
  Variable ck : clock.
  Variable others : string -> option (list (time ck) -> tensor -> strat (time ck)).
  Variables (sv : solver) (b0 : backend) (ag : autograd).

  Lemma alikes_refl rs : Forall2 alike rs rs.
  Proof. induction rs; constructor; [apply alike_refl|assumption]. Qed.
  Lemma alikes_trans a b c : Forall2 alike a b -> Forall2 alike b c -> Forall2 alike a c.
  Proof. intros F. revert c. induction F as [|x y a b H _ IH]; intros c G; inversion G; subst; constructor; [eapply alike_trans; eassumption|auto]. Qed.

  Lemma subjects_evaluated h template rs : forall targets name it t1 base cc h1 rs',
    evaluate_subjects ck others sv b0 ag None h template None rs targets name it t1 base = Ok (cc, h1, rs') -> h1 = h /\ Forall2 alike rs rs'.
  Proof.
    induction rs as [|r rs IH]; intros targets name it t1 base cc h1 rs' E; cbn [evaluate_subjects] in E; [injection E as <- <- <-; split; constructor|].
    destruct targets as [|t targets]; [injection E as <- <- <-; split; [reflexivity|apply alikes_refl]|]. cbn [bind] in E. rewrite without_callback in E. bok E y HE1. bok HE1 z HE3. destruct z as (d & r1). injection HE1 as <-. 
    bok E w HE2. destruct w as ((cc' & h2) & rs1). injection E as <- <- <-. destruct (IH _ _ _ _ _ _ _ _ HE2) as (-> & F). split; [reflexivity|]. constructor; [|exact F]. exact (evaluate_alike _ _ _ _ _ _ _ _ _ _ _ _ _ _ HE3).
  Qed.
  Lemma subjects_deformed h template ht rs : forall name it t1 d ys d1 rs',
    deform_subjects ck others sv b0 ag h template ht rs name it t1 d = Ok (ys, d1, rs') -> Forall2 alike rs rs'.
  Proof.
    induction rs as [|r rs IH]; intros name it t1 d ys d1 rs' E; cbn [deform_subjects] in E; [injection E as <- <- <-; constructor|].
    bok E u HE0. bok E y HE1. destruct y as (((xs & c) & i) & r1). bok E q HE3. bok E dk HE4. bok E w HE2. destruct w as ((ys1 & d3) & rs1). injection E as <- <- <-.
    constructor; [|exact (IH _ _ _ _ _ _ _ HE2)]. exact (deformed_alike _ _ _ _ _ _ _ _ _ _ _ _ _ HE1).
  Qed.

  Definition steady name t1 it (r : reg) : Prop := (length (r_defs r) <= length (r_init r))%nat /\ evaluates ck others name t1 (steps_of r it).

  Lemma deform_same h template ht rs rs' : Forall2 alike rs rs' -> forall name it t1 d, Forall (steady name t1 it) rs ->
    deform_subjects ck others sv b0 ag h template ht rs' name it t1 d = deform_subjects ck others sv b0 ag h template ht rs name it t1 d.
  Proof.
    induction 1 as [|r r' rs rs' A _ IH]; intros name it t1 d S; [reflexivity|]. inversion S as [|? ? (L & EV) S']; subst. cbn [deform_subjects].
    destruct (match ht with Some t => _ | None => _ end); [|reflexivity]. cbn [bind]. rewrite (same_deformed ck others sv b0 ag h r r' name it t1 false A L EV).
    destruct (compute_deformed ck others sv b0 ag h r name it t1 false) as [(((xs & c) & i) & r1)|]; [|reflexivity]. cbn [bind]. destruct xs; [reflexivity|]. cbn [bind].
    destruct (match d with None => _ | Some _ => _ end) as [d1|]; [|reflexivity]. cbn [bind]. rewrite IH by exact S'. reflexivity.
  Qed.
  Lemma evaluate_same h template ht rs rs' : Forall2 alike rs rs' -> forall targets name it t1 base, Forall (steady name t1 it) rs ->
    answer (evaluate_subjects ck others sv b0 ag None h template ht rs' targets name it t1 base) = answer (evaluate_subjects ck others sv b0 ag None h template ht rs targets name it t1 base).
  Proof.
    induction 1 as [|r r' rs rs' A _ IH]; intros targets name it t1 base S; [reflexivity|]. inversion S as [|? ? (L & EV) S']; subst. destruct targets as [|t targets]; [reflexivity|]. cbn [evaluate_subjects].
    destruct (match ht with Some t => _ | None => _ end); [|reflexivity]. cbn [bind]. rewrite !without_callback. rewrite (same_evaluate ck others sv b0 ag h r r' [t] name it t1 [] A L EV).
    destruct (evaluate ck others sv b0 ag h r [t] name it t1 []) as [(d & r1)|]; [|reflexivity]. cbn [bind]. specialize (IH targets name it t1 (append_in_dict base d) S').
    destruct (evaluate_subjects ck others sv b0 ag None h template ht rs' targets name it t1 (append_in_dict base d)) as [((c1 & h1) & q1)|], (evaluate_subjects ck others sv b0 ag None h template ht rs targets name it t1 (append_in_dict base d)) as [((c2 & h2) & q2)|]; cbn in *; congruence.
  Qed.

  Lemma history_alike h x x' : atlas_history ck others sv b0 ag h x x' -> exists rs, Forall2 alike (a_models (x_atlas x)) rs /\ x' = with_models x rs.
  Proof.
    induction 1 as [x|x x1 x2 own targets name it t1 c h1 E _ IH|x x1 x2 name it t1 d y d1 E _ IH|x rs x2 U _ IH].
    - exists (a_models (x_atlas x)). split; [apply alikes_refl|]. destruct x as [[] ? ? ?]. reflexivity.
    - unfold evaluate_atlas in E. bok E z HE1. destruct z as ((cc & h2) & rs1). destruct cc as [|kv cc]; [discriminate E|]. injection E as _ _ <-. destruct IH as (rs & F & ->). cbn [x_atlas a_models] in F.
      exists rs. split; [|reflexivity]. refine (alikes_trans _ _ _ _ F). destruct (x_ht x) as [u|] eqn:EH.
      + destruct (a_models (x_atlas x)) as [|r rs0]; [cbn in HE1; discriminate HE1|]. destruct targets; [discriminate HE1|]. cbn [evaluate_subjects] in HE1. unfold hyper_template in HE1. exfalso. clear - HE1.
        bok HE1 qa Q1. bok Q1 qb Q2. bok Q2 qc Q3. bok Q2 qd Q4. discriminate Q2.
      + exact (proj2 (subjects_evaluated _ _ _ _ _ _ _ _ _ _ _ HE1)).
    - unfold atlas_deformed in E. destruct (x_parallel x) eqn:EP; [discriminate E|]. bok E z HE1. destruct z as ((ys & d2) & rs1). injection E as _ _ <-. destruct IH as (rs & F & ->). cbn [x_atlas a_models] in F.
      exists rs. split; [|unfold with_models; rewrite EP; reflexivity]. refine (alikes_trans _ _ _ _ F). exact (subjects_deformed _ _ _ _ _ _ _ _ _ _ _ HE1).
    - destruct IH as (rs' & F & ->). exists rs'. split; [|reflexivity]. refine (alikes_trans _ _ _ _ F). clear - U. induction U as [|? ? ? ? H _ IH]; constructor; [exact (used_alike _ _ _ _ _ _ _ _ H)|exact IH].
  Qed.
End Histories.
