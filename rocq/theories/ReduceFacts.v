(** The deformation cost of registration models: what each value of [reduce] computes. *)
From Coq Require Import Reals String List Arith ZArith Lia Lra.
From Verif Require Import Py RSum Tensor TensorFacts KernelModel FieldModel GeometryModel ModuleModel ShootingModel
  RegistrationModel SpecModule SpecHistory SpecShooting SpecRegistration SpecReduce ModuleMain ModuleLeaves ModuleHistory GeometryFacts ShootingPack ShootingDyn
  ShootingSchedule ShootingMain ShootingFinal MotionShoot TransportFacts SpecTransport RegistrationRun RegistrationShoot PropRegistration.
Import ListNotations.
Open Scope R_scope.

Section Reduce.
  Variable ck : clock.
  Variable others : string -> option (list (time ck) -> tensor -> strat (time ck)).
  Variables (sv : solver) (b0 : backend) (ag : autograd).

  Lemma compute_inv defs mods name it cs t1 reduce o :
    deformables_compute_deformed ck others sv b0 ag defs mods name it true cs t1 reduce = Ok o ->
    exists sh ms m', shoot ck others sv b0 ag name it t1 (given defs cs) true None (start defs mods) = Ok sh /\ sh_mod sh = MComp ms /\
      dr_inter o = match sh_inter sh with Some i => i | None => mkInter [] [] end /\
      reduction sv b0 reduce it (given defs cs) (in_states (dr_inter o)) (sh_costs sh) (sh_mod sh) = Ok (dr_cost o, m') /\
      deformed_list defs (firstn (length defs) ms) = Ok (dr_deformed o) /\ existsb has_backward defs = false.
  Proof.
    intros E. unfold deformables_compute_deformed in E. rewrite map_length in E. bok E sh HE1. bok E ms HE2. destruct (existsb has_backward defs) eqn:HB; [bok E y HE3; discriminate|].
    bok E cm HE3. destruct cm as (c & m'). bok E df HE4. bok E ms' HE5. injection E as <-. cbn [dr_inter dr_cost dr_deformed].
    exists sh, ms, m'. split; [exact HE1|]. split; [destruct (sh_mod sh); try discriminate HE2; injection HE2 as <-; reflexivity|]. split; [reflexivity|]. split; [assumption|]. split; [assumption|reflexivity].
  Qed.

  (** Conversely. *)
  Lemma compute_intro defs mods name it cs t1 reduce sh ms c m' xs : existsb has_backward defs = false ->
    shoot ck others sv b0 ag name it t1 (given defs cs) true None (start defs mods) = Ok sh -> sh_mod sh = MComp ms ->
    reduction sv b0 reduce it (given defs cs) (in_states (match sh_inter sh with Some i => i | None => mkInter [] [] end)) (sh_costs sh) (sh_mod sh) = Ok (c, m') ->
    is_ok (members m') -> deformed_list defs (firstn (length defs) ms) = Ok xs ->
    exists o, deformables_compute_deformed ck others sv b0 ag defs mods name it true cs t1 reduce = Ok o /\ dr_cost o = c /\ dr_deformed o = xs.
  Proof.
    intros B S M RD (ms' & EM) DF. unfold deformables_compute_deformed. rewrite map_length. change (option_map (map (in_controls_of (length defs))) cs) with (given defs cs).
    change (MComp (map silent_module defs ++ mods)) with (start defs mods). rewrite S. cbn [bind]. rewrite M. cbn [members bind]. rewrite B. rewrite M in RD. rewrite RD. cbn [bind].
    rewrite DF. cbn [bind]. rewrite EM. cbn [bind]. eexists. split; [reflexivity|]. split; reflexivity.
  Qed.

  Lemma evaluate_inv h r targets name it t1 c r' : evaluate ck others sv b0 ag h r targets name it t1 [] = Ok (c, r') ->
    exists defs mods o atts, filled h r = Ok (defs, mods) /\
      deformables_compute_deformed ck others sv b0 ag defs mods name (steps_of r it) true (controls_of h r) t1 (r_reduce r) = Ok o /\
      attachment_costs (r_att r) (dr_deformed o) targets = Ok atts /\ length targets = length (r_defs r) /\
      c = match dr_cost o with Some x => [("deformation"%string, x)] | None => [] end ++ [("attach"%string, r_lam r * total atts)].
  Proof.
    intros E. unfold evaluate in E. bok E u HE1. bok E y HE2. destruct y as (((df & co) & i) & r1). bok E atts HE3. injection E as <- _.
    unfold compute_deformed in HE2. bok HE2 mods HE4. bok HE2 defs HE5. bok HE2 o HE6. injection HE2 as <- <- <- _.
    exists defs, mods, o, atts. unfold filled. rewrite HE4. cbn [bind]. rewrite HE5. split; [reflexivity|].
    split; [unfold steps_of, controls_of; destruct (r_fit_controls r); exact HE6|]. split; [exact HE3|].
    split; [destruct (Nat.eqb_spec (length targets) (length (r_defs r))); [assumption|discriminate HE1]|].
    rewrite <- py_sum_total. destruct (dr_cost o); reflexivity.
  Qed.

  Lemma evaluate_intro h r targets name it t1 defs mods o atts : filled h r = Ok (defs, mods) ->
    deformables_compute_deformed ck others sv b0 ag defs mods name (steps_of r it) true (controls_of h r) t1 (r_reduce r) = Ok o ->
    attachment_costs (r_att r) (dr_deformed o) targets = Ok atts -> length targets = length (r_defs r) ->
    exists r', evaluate ck others sv b0 ag h r targets name it t1 [] =
      Ok (match dr_cost o with Some x => [("deformation"%string, x)] | None => [] end ++ [("attach"%string, r_lam r * total atts)], r').
  Proof.
    intros F D A L. unfold filled in F. bok F mods' HE1. bok F defs' HE2. injection F as -> ->. unfold evaluate. rewrite L, Nat.eqb_refl. cbn [py_assert bind].
    unfold compute_deformed. rewrite HE1. cbn [bind]. rewrite HE2. cbn [bind]. unfold steps_of, controls_of in D.
    assert (D' : (if r_fit_controls r then deformables_compute_deformed ck others sv b0 ag defs mods name (r_it r) true (Some (learned h r)) t1 (r_reduce r)
        else deformables_compute_deformed ck others sv b0 ag defs mods name it true None t1 (r_reduce r)) = Ok o) by (destruct (r_fit_controls r); exact D).
    rewrite D'. cbn [bind]. rewrite A. cbn [bind]. eexists. rewrite <- py_sum_total. destruct (dr_cost o); reflexivity.
  Qed.

  (** 'totalcompound'. *)
  Lemma written m0 m g c : params m = params m0 -> skel (mod_manifold m) = skel (mod_manifold m0) -> g_cotan (mod_manifold m) = g_cotan (mod_manifold m0) ->
    skel g = skel (mod_manifold m0) ->
    exists g1 l1 m1, put_gd (mod_manifold m) (g_gd g) = Ok (g1, l1) /\ set_manifold m g1 = Ok m1 /\ params m1 = params m0 /\ skel (mod_manifold m1) = skel (mod_manifold m0) /\
      g_cotan (mod_manifold m1) = g_cotan (mod_manifold m0) /\
      fill_controls sv m1 c = at_state m0 (fun m => fill_controls sv m c) (g_gd g ++ g_cotan (mod_manifold m0)).
  Proof.
    intros P K C S. pose proof (skel_len _ _ S) as LS. pose proof (skel_len _ _ K) as LK.
    destruct (put_gd_ok (mod_manifold m) (g_gd g) []) as (g1 & P1 & G1 & C1 & K1); [rewrite g_gd_len; lia|]. rewrite app_nil_r in P1.
    destruct (set_ok m g1) as (m1 & E & M & F & _); [exact K1|]. exists g1, [], m1. split; [exact P1|]. split; [exact E|].
    assert (P' : params m1 = params m0) by (rewrite <- P; exact (set_params _ _ _ E)). split; [exact P'|]. rewrite M. split; [congruence|]. split; [congruence|].
    unfold at_state. destruct (write_ok m0 (g_gd g) (g_cotan (mod_manifold m0))) as (m2 & W & G2 & C2 & K2 & F2); [rewrite g_gd_len; lia|apply g_cotan_len|].
    rewrite W. cbn [bind]. apply fill_determined; [rewrite P'; symmetry; exact (frozen_params _ _ F2)|]. rewrite M. apply g_ext; congruence.
  Qed.

  Lemma total_each m0 cs states : Forall (fun g => skel g = skel (mod_manifold m0)) states ->
    forall n i m, params m = params m0 -> skel (mod_manifold m) = skel (mod_manifold m0) -> g_cotan (mod_manifold m) = g_cotan (mod_manifold m0) ->
    (forall l m', total_compound sv (Some cs) states n i m = Ok (l, m') ->
       length l = n /\ forall k, (k < n)%nat -> exists g c x, nth_error states (i + k) = Some g /\ nth_error cs (i + k) = Some c /\ nth_error l k = Some x /\ costs_at sv m0 g c x) /\
    ((forall k, (k < n)%nat -> exists g c x, nth_error states (i + k) = Some g /\ nth_error cs (i + k) = Some c /\ costs_at sv m0 g c x) ->
       exists l m', total_compound sv (Some cs) states n i m = Ok (l, m') /\ params m' = params m0).
  Proof.
    intros FS. induction n as [|n IH]; intros i m P K C.
    { split; [intros l m' E; injection E as <- _; split; [reflexivity|intros k Hk; lia]|intros _; exists [], m; auto]. }
    cbn [total_compound]. split.
    - intros l m' E. destruct (nth_error states i) as [st|] eqn:ES; [|discriminate].
      assert (SK : skel st = skel (mod_manifold m0)) by (rewrite Forall_forall in FS; apply FS; eapply nth_error_In; exact ES).
      cbn [bind] in E. destruct (nth_error cs i) as [c|] eqn:EC; [|bok E gg HE1; destruct gg; bok E m1 HE2; discriminate E].
      destruct (written m0 m st c P K C SK) as (g1 & l1 & m1 & P1 & S1 & P' & K' & C' & FE). rewrite P1 in E. cbn [bind] in E. rewrite S1 in E. cbn [bind] in E. rewrite FE in E.
      bok E m2 HE1. bok E x HE2. bok E lm HE3. destruct lm as (xs & m3). injection E as <- <-. rewrite <- FE in HE1.
      assert (M2 : mod_manifold m2 = mod_manifold m1) by exact (fill_manifold' _ _ _ _ HE1).
      destruct (IH (S i) m2) as (IH1 & _); [rewrite (fill_params _ _ _ _ HE1); exact P'|congruence|congruence|]. destruct (IH1 _ _ HE3) as (L & N). split; [cbn; lia|].
      intros [|k] Hk.
      + rewrite Nat.add_0_r. exists st, c, x. repeat (split; [assumption || reflexivity|]). exists m2. rewrite <- FE. auto.
      + replace (i + S k)%nat with (S i + k)%nat by lia. apply N. lia.
    - intros H. destruct (H 0%nat ltac:(lia)) as (st & c & x & ES & EC & mk & AT & CO). rewrite Nat.add_0_r in ES, EC. rewrite ES.
      assert (SK : skel st = skel (mod_manifold m0)) by (rewrite Forall_forall in FS; apply FS; eapply nth_error_In; exact ES).
      destruct (written m0 m st c P K C SK) as (g1 & l1 & m1 & P1 & S1 & P' & K' & C' & FE). rewrite P1. cbn [bind]. rewrite S1. cbn [bind]. rewrite EC. cbn [bind]. rewrite FE, AT. cbn [bind]. rewrite CO. cbn [bind].
      rewrite AT in FE. assert (M2 : mod_manifold mk = mod_manifold m1) by exact (fill_manifold' _ _ _ _ FE).
      destruct (IH (S i) mk) as (_ & IH2); [rewrite (fill_params _ _ _ _ FE); exact P'|congruence|congruence|].
      destruct IH2 as (l & m' & E & Pm). { intros k Hk. destruct (H (S k) ltac:(lia)) as (g & c' & x' & A & B & D). replace (S i + k)%nat with (i + S k)%nat by lia. exists g, c', x'. auto. }
      rewrite E. cbn [bind]. eexists _, _. split; [reflexivity|exact Pm].
  Qed.
End Reduce.

(** Costs are determined. *)
Lemma costs_at_unique sv m g c x y : costs_at sv m g c x -> costs_at sv m g c y -> x = y.
Proof. intros (mk & A & C) (mk' & A' & C'). rewrite A in A'. injection A' as <-. congruence. Qed.

Lemma concat_ones {A} (ss : list (list A)) : Forall (fun s => length s = 1%nat) ss ->
  forall k s x, nth_error ss k = Some s -> s = [x] -> nth_error (List.concat ss) k = Some x.
Proof.
  induction 1 as [|s0 ss L _ IH]; intros k s x E X; [destruct k; discriminate|]. destruct s0 as [|y [|]]; try discriminate L. cbn [List.concat app].
  destruct k as [|k]; cbn [nth_error] in *; [congruence|]. exact (IH k s x E X).
Qed.

Section Scheme.
  Variable others : string -> option (list R -> tensor -> strat R).
  Variables (sv : solver) (b0 : backend) (ag : autograd).
  Variables (sch : scheme) (it : nat) (t1 : R) (m : dmod) (d : nat) (cs : list ctrl) (sh : shot).
  Hypothesis HS : exact_solver sv.
  Hypothesis SHT : shootable m.
  Hypothesis ACC : accepts d m cs.
  Hypothesis T1 : 0 < t1.
  Hypothesis IT : (0 < it)%nat.
  Hypothesis RUN : shoot real_clock others sv b0 ag (scheme_name sch) it t1 (Some cs) true None m = Ok sh.

  Lemma total_run : exists states ks costs,
    sh_inter sh = Some (mkInter states ks) /\ length states = S it /\ sh_costs sh = Some costs /\ length costs = it /\
    (exists stages, length stages = it /\ Forall (fun ss => length ss = evaluations sch) stages /\
       trajectory sch (fun n q k => exists c, py_nth cs (control_index it (length cs) (Z.of_nat (cell sch it n)) n) = Ok c /\ driven sv m c q k)
         (t1 / INR it) (map g_gd states) stages) /\
    (exists g, nth_error states 0 = Some g /\ same_gd g (mod_manifold m)) /\ Forall (fun g => skel g = skel (mod_manifold m)) states /\
    (forall c m', reduction sv b0 "totalcompound" it (Some cs) states (sh_costs sh) (sh_mod sh) = Ok (c, m') ->
       exists l, c = Some (py_sum l) /\ length l = it /\
         forall k, (k < it)%nat -> exists g c x, nth_error states k = Some g /\ nth_error cs k = Some c /\ nth_error l k = Some x /\ costs_at sv m g c x) /\
    ((forall k, (k < it)%nat -> exists g c x, nth_error states k = Some g /\ nth_error cs k = Some c /\ costs_at sv m g c x) ->
       exists c m', reduction sv b0 "totalcompound" it (Some cs) states (sh_costs sh) (sh_mod sh) = Ok (c, m') /\ is_ok (members m')) /\
    (sch = SEuler -> length cs = it ->
       forall k, (k < it)%nat -> exists g c x, nth_error states k = Some g /\ nth_error cs k = Some c /\ nth_error costs k = Some x /\ costs_at sv m g c x).
  Proof.
    destruct SHT as (ms & EM & SI & SP). subst m.
    destruct (whole_controls sv b0 ag t1 it true ms T1 IT SI SP d cs HS ACC others sch None sh RUN) as (states & stages & mods & costs & A1 & A2 & A3 & A4 & A5 & A6 & A7 & A8 & A9 & A10 & A11 & A12 & ks & _ & A13).
    exists states, ks, costs. split; [exact A13|]. split; [exact A1|]. split; [exact A10|]. split; [exact A11|]. split; [exists stages; auto|]. split; [exact A5|].
    split; [eapply Forall_impl; [|exact A7]; intros g (X & _); exact X|].
    assert (P : params (sh_mod sh) = params (MComp ms)).
    { pose proof (shoot_key real_clock others sv b0 ag t1 it (Some cs) true (scheme_name sch) None _ _ RUN) as K. exact (key_params _ _ _ K). }
    assert (FS : Forall (fun g => skel g = skel (mod_manifold (MComp ms))) states) by (eapply Forall_impl; [|exact A7]; intros g (X & _); exact X).
    assert (KC : skel (mod_manifold (sh_mod sh)) = skel (mod_manifold (MComp ms)) /\ g_cotan (mod_manifold (sh_mod sh)) = g_cotan (mod_manifold (MComp ms))).
    { rewrite Forall_forall in A7. apply A7. eapply nth_error_In. exact A6. }
    destruct KC as (K & C). destruct (total_each sv (MComp ms) cs states FS it 0 (sh_mod sh) P K C) as (T & U).
    split; [|split].
    - intros c m' E. unfold reduction in E. cbn [String.eqb Ascii.eqb Bool.eqb] in E. bok E lm HE. destruct lm as (l & m2). injection E as <- <-. destruct (T _ _ HE) as (L & N).
      exists l. split; [reflexivity|]. split; [exact L|exact N].
    - intros H. destruct (U H) as (l & m' & E & P'). exists (Some (py_sum l)), m'. unfold reduction. cbn [String.eqb Ascii.eqb Bool.eqb]. rewrite E. split; [reflexivity|].
      destruct m'; try discriminate P'. eexists. reflexivity.
    - intros SE LC k Hk. destruct (nth_error states k) as [g|] eqn:EG; [|apply nth_error_None in EG; lia]. destruct (nth_error states (S k)) as [g'|] eqn:EG'; [|apply nth_error_None in EG'; lia].
      destruct (nth_error stages k) as [ss|] eqn:ES; [|apply nth_error_None in ES; lia]. destruct A4 as (_ & TR).
      specialize (TR k (g_gd g) ss (g_gd g') (map_nth_error g_gd _ _ EG) ES (map_nth_error g_gd _ _ EG')). rewrite SE in TR, A3. cbn [scheme_step] in TR. destruct TR as (v & Ess & _).
      pose proof (concat_ones _ A3 k ss (g_gd g) ES Ess) as EC. destruct (A12 k Hk) as (mk & x & B1 & B2 & B3). rewrite SE in B1. cbn [recorded_at] in B1.
      destruct (A9 k mk _ B1 EC) as (c & D1 & D2). unfold control_index in D1. rewrite LC, Nat.eqb_refl, SE, cell_e, py_nth_nat in D1. destruct (nth_error cs k) as [c'|]; [|discriminate]. injection D1 as ->.
      exists g, c, x. split; [reflexivity|]. split; [reflexivity|]. split; [exact B3|]. exists mk. auto.
  Qed.
End Scheme.

(** ** Shapes along a trajectory *)
Lemma trajectory_shapes sch H dt states stages l0 : trajectory sch (fun _ => hamilton H) dt states stages -> nth_error states 0 = Some l0 ->
  forall i l, nth_error states i = Some l -> map shape l = map shape l0.
Proof.
  intros (L & T) E0. induction i as [|i IH]; intros l E; [rewrite E0 in E; injection E as <-; reflexivity|].
  assert (I : (S i < length states)%nat) by (apply nth_error_Some; congruence).
  destruct (nth_error states i) as [x|] eqn:Ex; [|apply nth_error_None in Ex; lia]. specialize (IH x eq_refl).
  destruct (nth_error stages i) as [ss|] eqn:Es; [|apply nth_error_None in Es; lia]. specialize (T i x ss l Ex Es E).
  assert (A : forall l k dt l', map shape k = map shape l -> leq l' (ladd l (lscal dt k)) -> map shape l' = map shape l).
  { clear. intros l k dt l' S Q. rewrite (leq_shape _ _ Q). apply (TransportFacts.ladd_shapes l (lscal dt k)). rewrite ShootingPack.lscal_shape. exact S. }
  assert (B : forall l k c, map shape k = map shape l -> map shape (ladd l (lscal c k)) = map shape l).
  { clear. intros l k c S. apply TransportFacts.ladd_shapes. rewrite ShootingPack.lscal_shape. exact S. }
  destruct sch; cbn [scheme_step] in T.
  - destruct T as (k & _ & (SK & _) & Q). rewrite (A _ _ _ _ SK Q). exact IH.
  - destruct T as (k1 & l2 & k2 & _ & (S1 & _) & Q2 & (S2 & _) & Q). pose proof (A _ _ _ _ S1 Q2) as X2. rewrite (A x k2 dt l); [exact IH|congruence|exact Q].
  - destruct T as (k1 & l2 & k2 & l3 & k3 & l4 & k4 & _ & (S1 & _) & Q2 & (S2 & _) & Q3 & (S3 & _) & Q4 & (S4 & _) & Q).
    pose proof (A _ _ _ _ S1 Q2) as X2.
    assert (Y3 : map shape (ladd k2 (lscal (- (1 / 3)) k1)) = map shape x) by (rewrite B; congruence). pose proof (A x _ _ _ Y3 Q3) as X3.
    assert (Y4 : map shape (ladd (ladd k1 (lscal (-1) k2)) k3) = map shape x).
    { rewrite TransportFacts.ladd_shapes; rewrite B; congruence. }
    pose proof (A x _ _ _ Y4 Q4) as X4.
    assert (Y23 : map shape (ladd k2 k3) = map shape k1) by (rewrite TransportFacts.ladd_shapes; congruence).
    assert (Y5 : map shape (ladd (ladd k1 (lscal 3 (ladd k2 k3))) k4) = map shape x) by (rewrite TransportFacts.ladd_shapes; rewrite (B _ _ _ Y23); congruence).
    rewrite (A x _ _ l Y5 Q). exact IH.
Qed.

(** Where a shooting with moments ended. *)
Lemma final_state others sv b0 ag sch it t1 m sh : exact_grad ag -> 0 < t1 -> (0 < it)%nat -> shootable m ->
  shoot real_clock others sv b0 ag (scheme_name sch) it t1 None true None m = Ok sh ->
  exists states stages, trajectory sch (fun _ => hamilton (ham_of m (geodesic_controls sv b0))) (t1 / INR it) (map phase states) stages /\ length stages = it /\
    (exists g0, nth_error states 0 = Some g0 /\ same_values g0 (mod_manifold m)) /\
    nth_error states it = Some (mod_manifold (sh_mod sh)) /\ skel (mod_manifold (sh_mod sh)) = skel (mod_manifold m) /\
    map shape (g_gd (mod_manifold (sh_mod sh))) = map shape (g_gd (mod_manifold m)) /\ map shape (g_cotan (mod_manifold (sh_mod sh))) = map shape (g_cotan (mod_manifold m)).
Proof.
  intros EX T1 IT (ms & EM & SI & SP) E. subst m.
  destruct (whole_moments sv b0 ag t1 it true ms T1 IT SI SP EX others sch None sh E) as (states & stages & mods & costs & A1 & A2 & A3 & A4 & (g0 & A5 & A5') & A6 & A7 & _).
  set (g := mod_manifold (sh_mod sh)) in *. exists states, stages. split; [exact A4|]. split; [exact A2|]. split; [exists g0; auto|]. split; [exact A6|].
  assert (K : skel g = skel (mod_manifold (MComp ms))) by (rewrite Forall_forall in A7; apply A7; eapply nth_error_In; exact A6).
  pose proof (trajectory_shapes _ _ _ _ _ _ A4 (map_nth_error phase _ _ A5) it (phase g) (map_nth_error phase _ _ A6)) as SH.
  assert (S0 : map shape (phase g0) = map shape (phase (mod_manifold (MComp ms)))).
  { destruct A5' as ((_ & V1) & (_ & V2)). apply leq_shape in V1. apply leq_shape in V2. unfold phase. rewrite !map_app, V1, V2. reflexivity. }
  rewrite S0 in SH. split; [exact K|]. apply app_shapes; [rewrite !g_gd_len; apply skel_len; exact K|unfold phase in SH; rewrite !map_app in SH; rewrite !map_app; exact SH].
Qed.

(** The Hamiltonian there. *)
Lemma final_energy others sv b0 ag sch it t1 d m sh m' x : exact_solver sv -> exact_grad ag -> 0 < t1 -> (0 < it)%nat -> shootable m -> wf_mod d m -> locals_total d m ->
  shoot real_clock others sv b0 ag (scheme_name sch) it t1 None true None m = Ok sh -> geodesic_controls sv b0 (sh_mod sh) = Ok m' -> cost m' = Ok x ->
  exists states stages g, trajectory sch (fun _ => hamilton (ham_of m (geodesic_controls sv b0))) (t1 / INR it) (map phase states) stages /\ length stages = it /\
    (exists g0, nth_error states 0 = Some g0 /\ same_values g0 (mod_manifold m)) /\
    nth_error states it = Some g /\ ham_of m (geodesic_controls sv b0) (phase g) = Ok x /\ 0 <= x.
Proof.
  intros HS EX T1 IT SHT W LT E G C. destruct (final_state others sv b0 ag sch it t1 m sh EX T1 IT SHT E) as (states & stages & A4 & A2 & A5 & A6 & K & SG & SC).
  set (g := mod_manifold (sh_mod sh)) in *. exists states, stages, g. split; [exact A4|]. split; [exact A2|]. split; [exact A5|]. split; [exact A6|].
  destruct (set_ok m g K) as (m1 & E1 & M1 & F1 & _). pose proof (wf_set d _ g m1 W LT K SG SC E1) as W1.
  assert (GE : geodesic_controls sv b0 m1 = Ok m').
  { rewrite <- G. apply geodesic_determined; [|exact M1]. rewrite F1. pose proof (shoot_key real_clock others sv b0 ag t1 it None true (scheme_name sch) None _ _ E) as KE. symmetry. exact KE. }
  destruct (hamiltonian_cost sv b0 d HS m1 m' W1 GE) as (y & Cy & Hy & Py). rewrite C in Cy. injection Cy as <-. split; [|exact Py].
  unfold ham_of. rewrite (write_phase _ _ K), E1. cbn [bind]. rewrite GE. exact Hy.
Qed.
