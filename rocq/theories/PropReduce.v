(** Properties of the deformation cost of registration models (C85). *)
From Coq Require Import Reals String List Arith ZArith Lia Lra.
From Verif Require Import Py RSum Tensor TensorFacts KernelModel FieldModel GeometryModel ModuleModel ShootingModel
  RegistrationModel SpecModule SpecHistory SpecShooting SpecRegistration SpecTransport SpecReduce ModuleMain ModuleLeaves ModuleHistory ShootingPack ShootingDyn ShootingExample PropModule PropShooting
  RegistrationRun RegistrationShoot PropRegistration ReduceFacts.
Import ListNotations.
Open Scope string_scope.
Open Scope list_scope.
Open Scope R_scope.

(** Any clock and solver.  Evaluating gives the deformation cost chosen by [reduce] and
    lam times the sum of the attachments:
    - sum: the sum of the costs recorded while shooting;
    - previous: the cost of geodesic controls computed again where shooting ended;
    - lastcompound: the cost of the compound as shooting left it;
    - anything unknown: no deformation cost at all. *)
Theorem C85_choices : forall ck others sv b0 ag h r targets name it t1 c r',
  evaluate ck others sv b0 ag h r targets name it t1 [] = Ok (c, r') ->
  exists defs mods sh def atts, filled h r = Ok (defs, mods) /\
    shoot ck others sv b0 ag name (steps_of r it) t1 (given defs (controls_of h r)) true None (start defs mods) = Ok sh /\
    c = match def with Some x => [("deformation", x)] | None => [] end ++ [("attach", r_lam r * total atts)] /\
    (r_reduce r = "sum" -> exists costs, sh_costs sh = Some costs /\ def = Some (total costs)) /\
    (r_reduce r = "previous" -> exists m x, geodesic_controls sv b0 (sh_mod sh) = Ok m /\ cost m = Ok x /\ def = Some x) /\
    (r_reduce r = "lastcompound" -> exists x, cost (sh_mod sh) = Ok x /\ def = Some x) /\
    (r_reduce r = "totalcompound" -> def <> None) /\
    (~ known (r_reduce r) -> def = None).
Proof.
  intros ck others sv b0 ag h r targets name it t1 c r' E. destruct (evaluate_inv _ _ _ _ _ _ _ _ _ _ _ _ _ E) as (defs & mods & o & atts & F & D & A & L & ->).
  destruct (compute_inv _ _ _ _ _ _ _ _ _ _ _ _ _ D) as (sh & ms & m' & S & M & IN & RD & DF & _). exists defs, mods, sh, (dr_cost o), atts.
  split; [exact F|]. split; [exact S|]. split; [reflexivity|]. split; [|split; [|split; [|split]]].
  - intros ER. rewrite ER in RD. unfold reduction in RD. cbn [String.eqb Ascii.eqb Bool.eqb] in RD. destruct (sh_costs sh) as [l|]; [|discriminate]. injection RD as RD _. exists l.
    split; [reflexivity|]. rewrite <- RD, py_sum_total. reflexivity.
  - intros ER. rewrite ER in RD. unfold reduction in RD. cbn [String.eqb Ascii.eqb Bool.eqb] in RD. bok RD m1 HE1. bok RD x HE2. injection RD as RD _. exists m1, x. auto.
  - intros ER. rewrite ER in RD. unfold reduction in RD. cbn [String.eqb Ascii.eqb Bool.eqb] in RD. bok RD x HE2. injection RD as RD _. exists x. auto.
  - intros ER. rewrite ER in RD. unfold reduction in RD. cbn [String.eqb Ascii.eqb Bool.eqb] in RD. bok RD lm HE2. destruct lm as (l & m2). injection RD as RD _. rewrite <- RD. discriminate.
  - intros NK. unfold reduction in RD. unfold known in NK. cbn [In] in NK. destruct (String.eqb_spec (r_reduce r) "sum"); [elim NK; auto|].
    destruct (String.eqb_spec (r_reduce r) "previous"); [elim NK; auto|]. destruct (String.eqb_spec (r_reduce r) "lastcompound"); [elim NK; auto|].
    destruct (String.eqb_spec (r_reduce r) "totalcompound"); [elim NK; auto|]. injection RD as RD _. symmetry. exact RD.
Qed.
Print Assumptions C85_choices.

(** previous, for models driven by their moments, with exact times and a fixed step scheme:
    this is the energy (the Hamiltonian) of the last state of the trajectory, and it is not
    negative. *)
Theorem C85_previous_is_energy : forall others sv b0 ag h r targets sch it t1 c r' d defs mods,
  evaluate real_clock others sv b0 ag h r targets (scheme_name sch) it t1 [] = Ok (c, r') ->
  r_reduce r = "previous" -> r_fit_controls r = false -> exact_solver sv -> exact_grad ag -> 0 < t1 -> (0 < it)%nat ->
  filled h r = Ok (defs, mods) -> shootable (start defs mods) -> wf_mod d (start defs mods) -> locals_total d (start defs mods) ->
  exists states stages g x a,
    trajectory sch (fun _ => hamilton (ham_of (start defs mods) (geodesic_controls sv b0))) (t1 / INR it) (map phase states) stages /\ length stages = it /\
    (exists g0, nth_error states 0 = Some g0 /\ same_values g0 (mod_manifold (start defs mods))) /\
    nth_error states it = Some g /\ ham_of (start defs mods) (geodesic_controls sv b0) (phase g) = Ok x /\ 0 <= x /\
    c = [("deformation", x); ("attach", a)].
Proof.
  intros others sv b0 ag h r targets sch it t1 c r' d defs mods E RR FC HS EX T1 IT F SHT W LT.
  destruct (C85_choices _ _ _ _ _ _ _ _ _ _ _ _ _ E) as (defs' & mods' & sh & def & atts & F' & S & -> & _ & P & _). rewrite F in F'. injection F' as <- <-.
  destruct (P RR) as (m & x & G & C & ->). unfold steps_of, controls_of in S. rewrite FC in S. cbn [given option_map] in S.
  destruct (final_energy others sv b0 ag sch it t1 d _ sh m x HS EX T1 IT SHT W LT S G C) as (states & stages & g & B1 & B2 & B3 & B4 & B5 & B6).
  exists states, stages, g, x, (r_lam r * total atts). auto 10.
Qed.
Print Assumptions C85_previous_is_energy.

(** The choice has no influence on the attachment cost. *)
Theorem C85_attachments_same : forall ck others sv b0 ag h r targets name it t1 s1 s2 c1 c2 r1 r2,
  evaluate ck others sv b0 ag h (reducing r s1) targets name it t1 [] = Ok (c1, r1) ->
  evaluate ck others sv b0 ag h (reducing r s2) targets name it t1 [] = Ok (c2, r2) ->
  exists a, dict_get c1 "attach" = Some a /\ dict_get c2 "attach" = Some a.
Proof.
  intros ck others sv b0 ag h r targets name it t1 s1 s2 c1 c2 r1 r2 E1 E2.
  destruct (evaluate_inv _ _ _ _ _ _ _ _ _ _ _ _ _ E1) as (defs & mods & o & atts & F & D & A & L & ->). destruct (evaluate_inv _ _ _ _ _ _ _ _ _ _ _ _ _ E2) as (defs' & mods' & o' & atts' & F' & D' & A' & _ & ->).
  change (filled h (reducing r s2)) with (filled h r) in F'. change (filled h (reducing r s1)) with (filled h r) in F. rewrite F in F'. injection F' as <- <-.
  change (steps_of (reducing r s1) it) with (steps_of r it) in D. change (steps_of (reducing r s2) it) with (steps_of r it) in D'.
  change (controls_of h (reducing r s1)) with (controls_of h r) in D. change (controls_of h (reducing r s2)) with (controls_of h r) in D'.
  destruct (compute_inv _ _ _ _ _ _ _ _ _ _ _ _ _ D) as (sh & ms & m' & S & M & _ & _ & DF & _). destruct (compute_inv _ _ _ _ _ _ _ _ _ _ _ _ _ D') as (sh' & ms' & m'' & S' & M' & _ & _ & DF' & _).
  rewrite S in S'. injection S' as <-. rewrite M in M'. injection M' as <-. rewrite DF in DF'. injection DF' as DF'. cbn [reducing r_att] in A, A'. rewrite <- DF', A in A'. injection A' as <-.
  exists (r_lam r * total atts). split; [destruct (dr_cost o)|destruct (dr_cost o')]; reflexivity.
Qed.
Print Assumptions C85_attachments_same.

(** Finding: a value of [reduce] that the code does not know is accepted, and the
    deformation is then not penalised at all. *)
Theorem C85_unknown_refuted :
  (forall h0 defs mods att fc ones fit_gd lam other s s' it solver h r,
     registration h0 defs mods att fc ones fit_gd lam other s it solver = Ok (h, r) ->
     exists h' r', registration h0 defs mods att fc ones fit_gd lam other s' it solver = Ok (h', r') /\ r_reduce r' = s') /\
  (forall ck others sv b0 ag h r targets name it t1 s c r1, ~ known s ->
     evaluate ck others sv b0 ag h (reducing r "sum") targets name it t1 [] = Ok (c, r1) ->
     exists a r2, dict_get c "attach" = Some a /\ evaluate ck others sv b0 ag h (reducing r s) targets name it t1 [] = Ok ([("attach", a)], r2)).
Proof.
  split.
  - intros h0 defs mods att fc ones fit_gd lam other s s' it solver h r E. unfold registration in *. bok E u HE1. rewrite HE1. cbn [bind]. bok E hc HE2. rewrite HE2. cbn [bind]. destruct hc as (h1 & ctrls).
    destruct (clone_mans h1 (map df_man defs ++ map mod_manifold mods)) as (h2 & init). bok E hi HE3. rewrite HE3. cbn [bind]. destruct hi as (h3 & init1).
    unfold compute_parameters in *. cbn [r_init r_defs r_fit_gd r_fit_controls r_ctrls r_other] in *. bok E y HE4. rewrite HE4. cbn [bind]. destruct y as ((h4 & init2) & d1).
    eexists _, _. split; [reflexivity|reflexivity].
  - intros ck others sv b0 ag h r targets name it t1 s c r1 NK E.
    destruct (evaluate_inv _ _ _ _ _ _ _ _ _ _ _ _ _ E) as (defs & mods & o & atts & F & D & A & L & ->). destruct (compute_inv _ _ _ _ _ _ _ _ _ _ _ _ _ D) as (sh & ms & m' & S & M & _ & _ & DF & B).
    assert (RD : forall inc st rec m, reduction sv b0 s (steps_of r it) inc st rec m = Ok (None, m)).
    { intros inc st rec m. unfold reduction. unfold known in NK. cbn [In] in NK. destruct (String.eqb_spec s "sum"); [elim NK; auto|].
      destruct (String.eqb_spec s "previous"); [elim NK; auto|]. destruct (String.eqb_spec s "lastcompound"); [elim NK; auto|].
      destruct (String.eqb_spec s "totalcompound"); [elim NK; auto|]. reflexivity. }
    destruct (compute_intro ck others sv b0 ag defs mods name (steps_of r it) (controls_of h r) t1 s sh ms None (sh_mod sh) _ B S M (RD _ _ _ _) ltac:(rewrite M; eexists; reflexivity) DF) as (o2 & D2 & C2 & X2).
    rewrite <- X2 in A. destruct (evaluate_intro ck others sv b0 ag h (reducing r s) targets name it t1 defs mods o2 atts F D2 A L) as (r2 & E2).
    exists (r_lam r * total atts), r2. split; [destruct (dr_cost o); reflexivity|]. rewrite E2, C2. reflexivity.
Qed.
Print Assumptions C85_unknown_refuted.

(** totalcompound needs learned controls. *)
Theorem C85_total_needs_controls : forall ck others sv b0 ag h r targets name it t1 cost0 x,
  r_reduce r = "totalcompound" -> r_fit_controls r = false -> (0 < it)%nat ->
  evaluate ck others sv b0 ag h r targets name it t1 cost0 <> Ok x.
Proof.
  intros ck others sv b0 ag h r targets name it t1 cost0 x RR FC IT E. unfold evaluate in E. bok E u HE1. bok E y HE2. unfold compute_deformed in HE2. bok HE2 mods HE4. bok HE2 defs HE5. bok HE2 o HE6.
  rewrite FC in HE6. destruct (compute_inv _ _ _ _ _ _ _ _ _ _ _ _ _ HE6) as (sh & ms & m' & S & M & IN & RD & _). rewrite RR in RD. unfold reduction in RD. cbn [String.eqb Ascii.eqb Bool.eqb] in RD.
  bok RD lm HE7. destruct it as [|it]; [lia|]. cbn [total_compound given option_map] in HE7. destruct (nth_error _ 0); [|discriminate]. bok HE7 gg HE8. destruct gg. bok HE7 m2 HE9. discriminate HE7.
Qed.
Print Assumptions C85_total_needs_controls.

(** totalcompound with learned controls, exact times and a fixed step scheme: the sum, over
    the steps k, of the cost of the k-th set of controls at the state where step k starts. *)
Theorem C85_total : forall others sv b0 ag h r targets sch it t1 c r' d defs mods cs,
  evaluate real_clock others sv b0 ag h r targets (scheme_name sch) it t1 [] = Ok (c, r') ->
  r_reduce r = "totalcompound" -> r_fit_controls r = true -> (0 < r_it r)%nat -> 0 < t1 -> exact_solver sv ->
  filled h r = Ok (defs, mods) -> given defs (controls_of h r) = Some cs -> shootable (start defs mods) -> accepts d (start defs mods) cs ->
  exists states stages xs a, c = [("deformation", total xs); ("attach", a)] /\
    length states = S (r_it r) /\ length stages = r_it r /\ Forall (fun ss => length ss = evaluations sch) stages /\
    trajectory sch (fun n q k => exists c, py_nth cs (control_index (r_it r) (length cs) (Z.of_nat (cell sch (r_it r) n)) n) = Ok c /\ driven sv (start defs mods) c q k)
      (t1 / INR (r_it r)) (map g_gd states) stages /\
    (exists g, nth_error states 0 = Some g /\ same_gd g (mod_manifold (start defs mods))) /\
    length xs = r_it r /\
    forall k, (k < r_it r)%nat -> exists g c x, nth_error states k = Some g /\ nth_error cs k = Some c /\ nth_error xs k = Some x /\ costs_at sv (start defs mods) g c x.
Proof.
  intros others sv b0 ag h r targets sch it t1 c r' d defs mods cs E RR FC IT T1 HS F G SHT ACC.
  destruct (evaluate_inv _ _ _ _ _ _ _ _ _ _ _ _ _ E) as (defs' & mods' & o & atts & F' & D & A & L & ->). rewrite F in F'. injection F' as <- <-.
  destruct (compute_inv _ _ _ _ _ _ _ _ _ _ _ _ _ D) as (sh & ms & m' & S & M & IN & RD & DF & B). unfold steps_of in S, RD. rewrite FC in S, RD. rewrite G in S, RD. rewrite RR in RD.
  destruct (total_run others sv b0 ag sch (r_it r) t1 (start defs mods) d cs sh HS SHT ACC T1 IT S) as (states & ks & costs & I & LS & _ & _ & (stages & T1' & T2 & T3) & S0 & _ & TO & _).
  rewrite I in IN. rewrite IN in RD. cbn [in_states] in RD. destruct (TO _ _ RD) as (xs & EX & LX & N). exists states, stages, xs, (r_lam r * total atts). rewrite EX, py_sum_total. auto 10.
Qed.
Print Assumptions C85_total.

(** With Euler's method and one set per step, sum and totalcompound give the same costs. *)
Theorem C85_total_is_sum : forall others sv b0 ag h r targets it t1 d defs mods cs c,
  r_fit_controls r = true -> (0 < r_it r)%nat -> 0 < t1 -> exact_solver sv ->
  filled h r = Ok (defs, mods) -> given defs (controls_of h r) = Some cs -> shootable (start defs mods) -> accepts d (start defs mods) cs -> length cs = r_it r ->
  ((exists r1, evaluate real_clock others sv b0 ag h (reducing r "sum") targets "euler" it t1 [] = Ok (c, r1)) <->
   (exists r2, evaluate real_clock others sv b0 ag h (reducing r "totalcompound") targets "euler" it t1 [] = Ok (c, r2))).
Proof.
  intros others sv b0 ag h r targets it t1 d defs mods cs c FC IT T1 HS F G SHT ACC LC.
  assert (SAME : forall (l costs : list R), length l = r_it r -> length costs = r_it r -> (forall k, (k < r_it r)%nat -> nth_error l k = nth_error costs k) -> l = costs).
  { intros l. generalize (r_it r). induction l as [|y l IH]; intros n costs L1 L2 H; destruct costs as [|z costs]; cbn in *; try lia; [reflexivity|]. destruct n as [|n]; [lia|].
    pose proof (H 0%nat ltac:(lia)) as H0. injection H0 as ->. f_equal. apply (IH n); [lia|lia|]. intros k Hk. exact (H (S k) ltac:(lia)). }
  assert (K : forall s1 s2, (s1 = "sum" /\ s2 = "totalcompound") \/ (s1 = "totalcompound" /\ s2 = "sum") ->
    (exists r1, evaluate real_clock others sv b0 ag h (reducing r s1) targets "euler" it t1 [] = Ok (c, r1)) ->
    (exists r2, evaluate real_clock others sv b0 ag h (reducing r s2) targets "euler" it t1 [] = Ok (c, r2))).
  { intros s1 s2 SS (r1 & E). destruct (evaluate_inv _ _ _ _ _ _ _ _ _ _ _ _ _ E) as (defs' & mods' & o & atts & F' & D & A & L & ->).
    change (filled h (reducing r s1)) with (filled h r) in F'. rewrite F in F'. injection F' as <- <-.
    destruct (compute_inv _ _ _ _ _ _ _ _ _ _ _ _ _ D) as (sh & ms & m' & S & M & IN & RD & DF & B). pose proof S as S0. pose proof RD as RD0.
    unfold steps_of in S, RD. cbn [reducing r_fit_controls r_it r_reduce] in S, RD. rewrite FC in S, RD.
    change (controls_of h (reducing r s1)) with (controls_of h r) in S, RD. rewrite G in S, RD.
    destruct (total_run others sv b0 ag SEuler (r_it r) t1 (start defs mods) d cs sh HS SHT ACC T1 IT S) as (states & ks & costs & I & LS & CO & LCO & _ & _ & _ & TO & UP & EU).
    specialize (EU eq_refl LC). rewrite I in IN. rewrite IN in RD. cbn [in_states] in RD.
    destruct UP as (c2 & m2 & RT & MT). { intros k Hk. destruct (EU k Hk) as (g & cc & x & H1 & H2 & _ & H3). exists g, cc, x. auto. }
    destruct (TO _ _ RT) as (l & EL & LL & N). assert (LE : l = costs).
    { apply SAME; [exact LL|exact LCO|]. intros k Hk. destruct (N k Hk) as (g & cc & x & H1 & H2 & H3 & H4). destruct (EU k Hk) as (g' & cc' & x' & H1' & H2' & H3' & H4').
      rewrite H1 in H1'. injection H1' as <-. rewrite H2 in H2'. injection H2' as <-. rewrite H3, H3'. f_equal. exact (costs_at_unique _ _ _ _ _ _ H4 H4'). }
    assert (RS : reduction sv b0 "sum" (r_it r) (Some cs) states (sh_costs sh) (sh_mod sh) = Ok (Some (py_sum costs), sh_mod sh)) by (unfold reduction; cbn [String.eqb Ascii.eqb Bool.eqb]; rewrite CO; reflexivity).
    assert (G2 : exists m3, reduction sv b0 s2 (r_it r) (Some cs) states (sh_costs sh) (sh_mod sh) = Ok (Some (py_sum costs), m3) /\ is_ok (members m3) /\ dr_cost o = Some (py_sum costs)).
    { destruct SS as [(-> & ->)|(-> & ->)].
      - rewrite RS in RD. injection RD as RD _. exists m2. rewrite RT, EL, LE. auto.
      - rewrite RT in RD. injection RD as RD _. exists (sh_mod sh). rewrite RS. split; [reflexivity|]. split; [rewrite M; eexists; reflexivity|]. rewrite <- RD, EL, LE. reflexivity. }
    destruct G2 as (m3 & R3 & M3 & C3).
    destruct (compute_intro real_clock others sv b0 ag defs mods "euler" (r_it r) (controls_of h r) t1 s2 sh ms (Some (py_sum costs)) m3 (dr_deformed o) B) as (o2 & D2 & C2 & X2);
      [rewrite G; exact S|exact M|rewrite G, I; exact R3|exact M3|exact DF|].
    rewrite <- X2 in A. destruct (evaluate_intro real_clock others sv b0 ag h (reducing r s2) targets "euler" it t1 defs mods o2 atts F) as (r2 & E2);
      [unfold steps_of; cbn [reducing r_fit_controls r_it r_reduce]; rewrite FC; exact D2|exact A|exact L|].
    exists r2. rewrite E2, C2, C3. reflexivity. }
  split; [apply (K "sum" "totalcompound"); auto|apply (K "totalcompound" "sum"); auto].
Qed.
Print Assumptions C85_total_is_sum.

(** A model of one point moved by a translation, with 2 steps of the midpoint method: 4 sets
    of controls, all equal to 1 at first. *)
Definition mid_model : res (heap * reg) :=
  registration (mkHeap [] []) [pt1] [gt1] [null_att] true true [] 1 [] "sum" (Some 2%nat) (Some "midpoint").
Definition mid_state : heap * reg := Eval cbv -[IZR one11 tzeros null_att] in value no_model mid_model.
Lemma mid_state_ok : mid_model = Ok mid_state.
Proof. vm_compute. reflexivity. Qed.

(** The third set is then changed to 2. *)
Definition third (r : reg) : ref := match r_ctrls r with _ :: _ :: [k] :: _ => k | _ => 0%nat end.
Definition mid_heap : heap := write (fst mid_state) (third (snd mid_state)) (mkT [1%nat] (fun _ => 2)).
Definition push (x : R) : ctrl := CList [no_control; CLeaf (mkT [1%nat] (fun _ => x))].

Lemma mid_filled : filled mid_heap (snd mid_state) = Ok ([pt1], [gt1]).
Proof. reflexivity. Qed.
Lemma mid_given : given [pt1] (controls_of mid_heap (snd mid_state)) = Some [push 1; push 1; push 2; push 1].
Proof. reflexivity. Qed.

Lemma push_cost sv l m1 x : write_manifold ex0 l = Ok m1 -> exists mk, fill_controls sv m1 (push x) = Ok mk /\ cost mk = Ok (x * x / 2).
Proof.
  intros W. assert (M : exists a b, m1 = ex_mod a b (tzeros [1%nat])).
  { destruct l as [|a [|b l]]; cbn in W; try discriminate W. injection W as <-. exists a, b. reflexivity. }
  destruct M as (a & b & ->). eexists. split; [reflexivity|]. cbn. f_equal. field.
Qed.

Lemma mid_accepts : accepts 1 ex0 [push 1; push 1; push 2; push 1].
Proof.
  intros q m1 c S W INC. destruct (ex_written q m1 S W) as (a & Sa & ->).
  assert (X : exists x, c = push x) by (cbn [In] in INC; destruct INC as [<-|[<-|[<-|[<-|[]]]]]; eexists; reflexivity).
  destruct X as (x & ->). split; [|cbn; repeat split]. cbn. repeat split; try assumption; try lra; discriminate.
Qed.

(** Finding: with the midpoint method (two sets per step), totalcompound pairs step k with
    set k, and not with the set 2 k that drives its start: here the third set, which drives
    the second step, is not paid for, and sum gives something else. *)
Theorem C85_total_refuted : forall sv b0 ag, exact_solver sv ->
  mid_model = Ok mid_state /\ In (third (snd mid_state)) (tensors_of (snd mid_state)) /\
  exists c1 r1 c2 r2,
    evaluate real_clock no_others sv b0 ag mid_heap (reducing (snd mid_state) "sum") [[one11]] "midpoint" 2 1 [] = Ok (c1, r1) /\
    evaluate real_clock no_others sv b0 ag mid_heap (reducing (snd mid_state) "totalcompound") [[one11]] "midpoint" 2 1 [] = Ok (c2, r2) /\
    dict_get c1 "deformation" = Some (5 / 2) /\ dict_get c2 "deformation" = Some 1.
Proof.
  intros sv b0 ag HS. split; [exact mid_state_ok|]. split; [vm_compute; tauto|].
  set (cs := [push 1; push 1; push 2; push 1]).
  assert (FILL : forall q m1 c, map shape q = map shape (g_gd (mod_manifold ex0)) -> write_manifold ex0 (q ++ g_cotan (mod_manifold ex0)) = Ok m1 -> In c cs -> is_ok (fill_controls sv m1 c)).
  { intros q m1 c S W INC. assert (X : exists x, c = push x) by (cbn [In cs] in INC; destruct INC as [<-|[<-|[<-|[<-|[]]]]]; eexists; reflexivity). destruct X as (x & ->).
    destruct (push_cost sv _ m1 x W) as (mk & E & _). eexists. exact E. }
  destruct (C28_never_out_of_range no_others sv b0 ag SMidpoint 2 1 true None ex0 1 cs HS ex_shootable ltac:(cbn; lia) ltac:(lra) ltac:(lia) mid_accepts FILL ltac:(discriminate) ltac:(cbn; lia)) as (sh & RUN).
  destruct (C27_once_per_step_controls no_others sv b0 ag SMidpoint 2 1 true None ex0 sh 1 cs HS ex_shootable mid_accepts ltac:(lra) ltac:(lia) RUN) as (stages & mods & costs & L1 & L2 & L3 & AT & CO & LC & REC).
  destruct (total_run no_others sv b0 ag SMidpoint 2 1 ex0 1 cs sh HS ex_shootable mid_accepts ltac:(lra) ltac:(lia) RUN) as (states & ks & costs' & I & LS & CO' & _ & _ & _ & SK & TO & UP & _).
  rewrite CO in CO'. injection CO' as <-.
  assert (DEFS : exists ms xs, sh_mod sh = MComp ms /\ deformed_list [pt1] (firstn 1 ms) = Ok xs).
  { destruct (compute_ok real_clock no_others sv b0 ag [pt1] [gt1] "midpoint" 2 false (controls_of mid_heap (snd mid_state)) 1 "sum" sh) as (ms & xs & EM & _ & _ & Z & _).
    - constructor; [|constructor]. split; [reflexivity|]. split; [cbn; eauto 10|]. intros q. eexists. reflexivity.
    - rewrite mid_given. exact RUN.
    - destruct (Z eq_refl) as (o & E & EX & _). exists ms, xs. split; [exact EM|]. unfold deformables_compute_deformed in E. bok E sh' HE1.
      change (shoot real_clock no_others sv b0 ag "midpoint" 2 1 (given [pt1] (controls_of mid_heap (snd mid_state))) true None ex0 = Ok sh') in HE1. rewrite mid_given in HE1.
      change (shoot real_clock no_others sv b0 ag (scheme_name SMidpoint) 2 1 (Some cs) true None ex0 = Ok sh') in HE1. rewrite RUN in HE1. injection HE1 as <-. rewrite EM in E. cbn [members bind existsb has_backward pt1 orb] in E.
      bok E dl HE2. cbn [bind] in E. injection E as <-. rewrite <- EX. exact HE2. }
  destruct DEFS as (ms & xs & EM & DL).
  (* recorded costs *)
  assert (STG : exists q0 q1 q2 q3, List.concat stages = [q0; q1; q2; q3]).
  { destruct stages as [|s1 [|s2 [|]]]; try discriminate L1. inversion L2 as [|? ? A1 B1]; subst. inversion B1 as [|? ? A2 B2]; subst. cbn [evaluations] in A1, A2.
    destruct s1 as [|a [|b [|]]]; try discriminate A1. destruct s2 as [|a' [|b' [|]]]; try discriminate A2. cbn. eauto. }
  destruct STG as (q0 & q1 & q2 & q3 & EC). rewrite EC in AT.
  assert (PAY : forall l x mk, at_state ex0 (fun m => fill_controls sv m (push x)) l = Ok mk -> cost mk = Ok (x * x / 2)).
  { intros l x mk E. unfold at_state in E. bok E m1 HE. destruct (push_cost sv l m1 x HE) as (mk' & E' & C). rewrite E in E'. injection E' as <-. exact C. }
  assert (COSTS : costs = [1 * 1 / 2; 2 * 2 / 2]).
  { destruct (REC 0%nat ltac:(lia)) as (m0 & x0 & B1 & B2 & B3). destruct (REC 1%nat ltac:(lia)) as (m2 & x2 & D1 & D2 & D3). cbn [recorded_at Nat.mul Nat.add] in B1, D1.
    destruct (AT 0%nat m0 q0 B1 eq_refl) as (c0 & P0 & A0). destruct (AT 2%nat m2 q2 D1 eq_refl) as (c2 & P2 & A2).
    assert (X0 : c0 = push 1) by (vm_compute in P0; injection P0 as <-; reflexivity). assert (X2 : c2 = push 2) by (vm_compute in P2; injection P2 as <-; reflexivity).
    subst c0 c2. rewrite (PAY _ _ _ A0) in B2. rewrite (PAY _ _ _ A2) in D2. injection B2 as <-. injection D2 as <-.
    destruct costs as [|y [|z [|]]]; try discriminate LC. cbn in B3, D3. congruence. }
  assert (PART : forall k, (k < 2)%nat -> exists g c x, nth_error states k = Some g /\ nth_error cs k = Some c /\ costs_at sv ex0 g c x).
  { intros k Hk. destruct (nth_error states k) as [g|] eqn:EG; [|apply nth_error_None in EG; lia]. exists g, (push 1), (1 * 1 / 2). split; [reflexivity|].
    split; [destruct k as [|[|]]; [reflexivity|reflexivity|lia]|].
    assert (LG : length (g_gd g) = 1%nat).
    { rewrite g_gd_len. rewrite Forall_forall in SK. rewrite (skel_len _ _ (SK g (nth_error_In _ _ EG))). reflexivity. }
    destruct (g_gd g) as [|a [|]] eqn:Eg; try discriminate LG. destruct (push_cost sv [a; one11] _ 1 eq_refl) as (mk & F & C). exists mk. rewrite Eg. split; [exact F|exact C]. }
  destruct (UP PART) as (c2 & m2 & RT & MT). destruct (TO _ _ RT) as (l & EL & LL & N).
  assert (TOT : l = [1 * 1 / 2; 1 * 1 / 2]).
  { assert (V : forall k, (k < 2)%nat -> nth_error l k = Some (1 * 1 / 2)).
    { intros k Hk. destruct (N k Hk) as (g & c & x & H1 & H2 & H3 & mk & H4 & H5). rewrite H3. f_equal. assert (c = push 1) as -> by (destruct k as [|[|]]; cbn in H2; [congruence|congruence|lia]).
      rewrite (PAY _ _ _ H4) in H5. congruence. }
    pose proof (V 0%nat ltac:(lia)) as V0. pose proof (V 1%nat ltac:(lia)) as V1. destruct l as [|y [|z [|]]]; try discriminate LL. cbn in V0, V1. congruence. }
  assert (EV : forall s x m3, reduction sv b0 s 2 (Some cs) states (sh_costs sh) (sh_mod sh) = Ok (Some x, m3) -> is_ok (members m3) ->
    exists c r2, evaluate real_clock no_others sv b0 ag mid_heap (reducing (snd mid_state) s) [[one11]] "midpoint" 2 1 [] = Ok (c, r2) /\ dict_get c "deformation" = Some x).
  { intros s x m3 RD M3. destruct (compute_intro real_clock no_others sv b0 ag [pt1] [gt1] "midpoint" 2 (controls_of mid_heap (snd mid_state)) 1 s sh ms (Some x) m3 xs eq_refl) as (o & D & C & X);
      [rewrite mid_given; exact RUN|exact EM|rewrite mid_given, I; exact RD|exact M3|exact DL|].
    destruct (evaluate_intro real_clock no_others sv b0 ag mid_heap (reducing (snd mid_state) s) [[one11]] "midpoint" 2 1 [pt1] [gt1] o
      (match attachment_costs [null_att] (dr_deformed o) [[one11]] with Ok l => l | Err _ => [] end) mid_filled D) as (r2 & E); [|reflexivity|].
    - change (r_att (reducing (snd mid_state) s)) with [null_att]. destruct (dr_deformed o); reflexivity.
    - eexists _, r2. split; [exact E|]. rewrite C. reflexivity. }
  destruct (EV "sum" (py_sum costs) (sh_mod sh)) as (c1 & r1 & E1 & G1); [unfold reduction; cbn [String.eqb Ascii.eqb Bool.eqb]; rewrite CO; reflexivity|rewrite EM; eexists; reflexivity|].
  rewrite EL in RT. destruct (EV "totalcompound" (py_sum l) m2 RT MT) as (c3 & r3 & E3 & G3).
  exists c1, r1, c3, r3. split; [exact E1|]. split; [exact E3|]. rewrite G1, G3, COSTS, TOT. unfold py_sum. cbn [fold_left]. split; f_equal; field.
Qed.
Print Assumptions C85_total_refuted.

(** The hypotheses of the theorems about totalcompound: two steps of Euler's method. *)
Definition eul_model : res (heap * reg) :=
  registration (mkHeap [] []) [pt1] [gt1] [null_att] true true [] 1 [] "totalcompound" (Some 2%nat) (Some "euler").
Definition eul_state : heap * reg := Eval cbv -[IZR one11 tzeros null_att] in value no_model eul_model.
Lemma eul_state_ok : eul_model = Ok eul_state.
Proof. vm_compute. reflexivity. Qed.

Lemma eul_accepts : accepts 1 ex0 [push 1; push 1].
Proof.
  intros q m1 c S W INC. destruct (ex_written q m1 S W) as (a & Sa & ->).
  assert (X : c = push 1) by (cbn [In] in INC; destruct INC as [<-|[<-|[]]]; reflexivity). subst c.
  split; [|cbn; repeat split]. cbn. repeat split; try assumption; try lra; discriminate.
Qed.
Lemma pt1_ordinary : Forall ordinary [pt1].
Proof. constructor; [|constructor]. split; [reflexivity|]. split; [cbn; eauto 10|]. intros q. eexists. reflexivity. Qed.

Example C85_hypotheses_total : forall sv b0 ag, exact_solver sv -> exists h r cs c r1 r2,
  eul_model = Ok (h, r) /\ r_reduce r = "totalcompound" /\ r_fit_controls r = true /\ (0 < r_it r)%nat /\
  filled h r = Ok ([pt1], [gt1]) /\ given [pt1] (controls_of h r) = Some cs /\ shootable (start [pt1] [gt1]) /\ accepts 1 (start [pt1] [gt1]) cs /\ length cs = r_it r /\
  evaluate real_clock no_others sv b0 ag h (reducing r "sum") [[one11]] "euler" 5 1 [] = Ok (c, r1) /\
  evaluate real_clock no_others sv b0 ag h r [[one11]] "euler" 5 1 [] = Ok (c, r2).
Proof.
  intros sv b0 ag HS. set (h := fst eul_state). set (r := snd eul_state). set (cs := [push 1; push 1]).
  assert (G : given [pt1] (controls_of h r) = Some cs) by reflexivity.
  assert (F : filled h r = Ok ([pt1], [gt1])) by reflexivity.
  destruct (C28_never_out_of_range no_others sv b0 ag SEuler 2 1 true None ex0 1 cs HS ex_shootable ltac:(cbn; lia) ltac:(lra) ltac:(lia) eul_accepts) as (sh & RUN);
    [|discriminate|cbn; lia|].
  { intros q m1 c S W INC. assert (X : c = push 1) by (cbn [In cs] in INC; destruct INC as [<-|[<-|[]]]; reflexivity). subst c.
    destruct (push_cost sv _ m1 1 W) as (mk & E & _). eexists. exact E. }
  destruct (C32_solvers_evaluate real_clock no_others sv b0 ag h (reducing r "sum") [[one11]] "euler" 5 1 [pt1] [gt1] sh ltac:(discriminate) eq_refl F pt1_ordinary) as (costs & xs & atts & r1 & _ & _ & E1);
    [change (given [pt1] (controls_of h (reducing r "sum"))) with (given [pt1] (controls_of h r)); rewrite G; exact RUN|reflexivity| |].
  { intros a x y [<-|[]]. eexists. reflexivity. }
  destruct (proj1 (C85_total_is_sum no_others sv b0 ag h r [[one11]] 5 1 1 [pt1] [gt1] cs [("deformation", total costs); ("attach", r_lam (reducing r "sum") * total atts)]
    eq_refl ltac:(cbn; lia) ltac:(lra) HS F G ex_shootable eul_accepts eq_refl) (ex_intro _ r1 E1)) as (r2 & E2). exists h, r, cs. eexists. exists r1, r2.
  split; [exact eul_state_ok|]. split; [reflexivity|]. split; [reflexivity|]. split; [cbn; lia|]. split; [exact F|]. split; [exact G|]. split; [exact ex_shootable|]. split; [exact eul_accepts|].
  split; [reflexivity|]. split; [exact E1|exact E2].
Qed.

(** Those of the theorem about the energy. *)
Example C85_hypotheses_previous : forall sv b0 sch it, (0 < it)%nat -> exists h r c r',
  pt_model = Ok (h, r) /\ r_reduce (reducing r "previous") = "previous" /\ r_fit_controls (reducing r "previous") = false /\ exact_grad exact_ag /\
  filled h (reducing r "previous") = Ok ([pt1], [gt1]) /\ shootable (start [pt1] [gt1]) /\ wf_mod 1 (start [pt1] [gt1]) /\ locals_total 1 (start [pt1] [gt1]) /\
  evaluate real_clock no_others sv b0 exact_ag h (reducing r "previous") [[one11]] (scheme_name sch) it 1 [] = Ok (c, r').
Proof.
  intros sv b0 sch it IT. destruct (C32_hypotheses sv b0 sch it IT) as (h & r & sh & A1 & A2 & A3 & A4 & A5 & A6 & A7 & A8 & A9 & A10 & A11 & _).
  assert (W : wf_mod 1 (start [pt1] [gt1])) by (cbn; repeat split; try lra; discriminate).
  assert (LT : locals_total 1 (start [pt1] [gt1])) by (cbn; repeat split).
  pose proof A5 as S. unfold steps_of, controls_of in S. rewrite A9 in S. cbn [given option_map] in S.
  destruct (final_state no_others sv b0 exact_ag sch it 1 _ sh exact_ag_exact ltac:(lra) IT ex_shootable S) as (_ & _ & _ & _ & _ & _ & K & SG & SC).
  pose proof (shoot_key real_clock no_others sv b0 exact_ag 1 it None true (scheme_name sch) None _ _ S) as KE.
  destruct (ex_frozen (sh_mod sh) KE SG SC K) as (q & p & hh & EM & Sq & Sp & Sh). destruct (ex_geo_ok sv b0 q p hh Sq Sp Sh) as (h' & _ & GE & _ & (x & CE)).
  rewrite <- EM in GE.
  assert (CI : exists o, deformables_compute_deformed real_clock no_others sv b0 exact_ag [pt1] [gt1] (scheme_name sch) it true None 1 "previous" = Ok o /\ dr_cost o = Some x /\ dr_deformed o = [[q]]).
  { eapply compute_intro; [reflexivity|exact S|exact EM| | |reflexivity].
    - unfold reduction. cbn [String.eqb Ascii.eqb Bool.eqb]. rewrite GE. cbn [bind]. rewrite CE. reflexivity.
    - eexists. reflexivity. }
  destruct CI as (o & EO & _ & ED).
  assert (AT : exists atts, attachment_costs (r_att r) (dr_deformed o) [[one11]] = Ok atts).
  { rewrite ED. destruct (r_att r) as [|a l] eqn:EA; [eexists; reflexivity|]. destruct (A7 a [q] [one11] (or_introl eq_refl)) as (y & EY). cbn [attachment_costs]. rewrite EY. destruct l; eexists; reflexivity. }
  destruct AT as (atts & AT).
  destruct (evaluate_intro real_clock no_others sv b0 exact_ag h (reducing r "previous") [[one11]] (scheme_name sch) it 1 [pt1] [gt1] o atts A3) as (r' & EV).
  - unfold steps_of, controls_of. cbn [r_fit_controls reducing]. rewrite A9. exact EO.
  - exact AT.
  - exact A6.
  - exists h, r. eexists. exists r'. split; [exact A1|]. split; [reflexivity|]. split; [exact A9|]. split; [exact exact_ag_exact|]. split; [exact A3|]. split; [exact ex_shootable|].
    split; [exact W|]. split; [exact LT|]. exact EV.
Qed.
