(** Evaluations do not depend on what earlier evaluations left in the modules. *)
From Coq Require Import Reals String List Arith ZArith Lia Lra.
From Verif Require Import Py RSum Tensor TensorFacts KernelModel FieldModel GeometryModel ModuleModel ShootingModel
  RegistrationModel SpecModule SpecHistory SpecShooting SpecRegistration ModuleMain ModuleLeaves ModuleHistory GeometryFacts ShootingPack ShootingDyn.
Import ListNotations.
Open Scope R_scope.

Section Cong.
  Variable ck : clock.
  Variable others : string -> option (list (time ck) -> tensor -> strat (time ck)).
  Variables (sv : solver) (b0 : backend) (ag : autograd).

  Notation key := settings.

  Lemma key_params fc m m' : key fc m = key fc m' -> params m = params m'.
  Proof. destruct fc; cbn; [auto|apply frozen_params]. Qed.

  Lemma set_frozen m : forall g m1, set_manifold m g = Ok m1 -> frozen m1 = frozen m.
  Proof.
    induction m as [m NC|ms IH] using dmod_ind'; intros g m1 F.
    - destruct m; destruct g; try discriminate; cbn [set_manifold] in F; try (injection F as <-; reflexivity).
      elim (NC ms eq_refl).
    - destruct g as [| | | | |gs]; try discriminate. rewrite set_comp in F. bok F ms1 F1. injection F as <-. cbn [frozen]. f_equal.
      revert gs ms1 F1. induction IH as [|m ms Hm _ IHs]; intros gs ms1 F1.
      + destruct gs; [|discriminate]. injection F1 as <-. reflexivity.
      + destruct gs as [|g gs]; [discriminate|]. cbn [sets] in F1. fold sets in F1. bok F1 m1 Em. bok F1 r Er. injection F1 as <-.
        cbn [map]. f_equal; [eauto|]. apply (IHs gs). assumption.
  Qed.

  Lemma set_key fc m g m1 : set_manifold m g = Ok m1 -> key fc m1 = key fc m.
  Proof. destruct fc; [apply set_params|apply set_frozen]. Qed.

  Definition alike_res (fc : bool) (a b : res dmod) : Prop :=
    match a, b with
    | Err e, Err e' => e = e'
    | Ok m, Ok m' => mod_manifold m = mod_manifold m' /\ key fc m = key fc m'
    | _, _ => False
    end.

  Lemma set_same m : forall m' g, params m = params m' ->
    match set_manifold m g, set_manifold m' g with
    | Err e, Err e' => e = e'
    | Ok m1, Ok m1' => mod_manifold m1 = mod_manifold m1'
    | _, _ => False
    end.
  Proof.
    induction m as [m NC|ms IH] using dmod_ind'; intros m' g EP.
    - destruct m; try (elim (NC ms eq_refl)); destruct m'; try discriminate EP; cbn [params] in EP; destruct g; cbn [set_manifold]; try reflexivity;
        cbn [mod_manifold]; try (injection EP); intros; subst; reflexivity.
    - destruct m' as [| | | | | | | | | |ms']; try discriminate EP. cbn [params] in EP. injection EP as EP.
      destruct g as [| | | | |gs]; try reflexivity. rewrite !set_comp.
      assert (H : match sets ms gs, sets ms' gs with
                  | Err e, Err e' => e = e' | Ok l, Ok l' => map mod_manifold l = map mod_manifold l' | _, _ => False end).
      { revert ms' gs EP. induction IH as [|m ms Hm _ IHs]; intros ms' gs EP; destruct ms' as [|m' ms']; try discriminate EP.
        - destruct gs; reflexivity.
        - cbn [map] in EP. injection EP as E1 E2. destruct gs as [|g gs]; [reflexivity|]. cbn [sets]. fold sets.
          specialize (Hm m' g E1). specialize (IHs ms' gs E2).
          destruct (set_manifold m g), (set_manifold m' g); try contradiction; cbn [bind]; [|assumption].
          destruct (sets ms gs), (sets ms' gs); try contradiction; cbn [bind map]; [|assumption]. congruence. }
      destruct (sets ms gs), (sets ms' gs); try contradiction; cbn [bind mod_manifold]; [|assumption]. congruence.
  Qed.

  Lemma set_cong fc m m' g : key fc m = key fc m' -> alike_res fc (set_manifold m g) (set_manifold m' g).
  Proof.
    intros K. pose proof (set_same m m' g (key_params _ _ _ K)) as H. unfold alike_res.
    destruct (set_manifold m g) as [m1|] eqn:E, (set_manifold m' g) as [m1'|] eqn:E'; try assumption. split; [assumption|].
    rewrite (set_key fc _ _ _ E), (set_key fc _ _ _ E'). assumption.
  Qed.

  Lemma comp_of fc ms m' : key fc (MComp ms) = key fc m' -> exists ms', m' = MComp ms'.
  Proof. intros K. apply key_params in K. destruct m'; try discriminate K. eauto. Qed.

  Section Fwd.
    Variables (t1 : time ck) (it : nat) (cs : option (list ctrl)) (keep : bool).
    Let fc := match cs with Some _ => true | None => false end.

    Lemma forward_cong t x m m' n i l k : key fc m = key fc m' -> mod_manifold m = mod_manifold m' ->
      forward ck sv b0 ag t1 it cs keep t x (mkF m n i l k) = forward ck sv b0 ag t1 it cs keep t x (mkF m' n i l k).
    Proof.
      intros K M. unfold forward. cbn [f_mod f_it f_true f_costs f_controls]. destruct (t_to_it ck t1 it t) as [ti|]; [|reflexivity]. cbn [bind].
      assert (G : member_manifolds m = member_manifolds m').
      { pose proof (key_params _ _ _ K) as P. unfold member_manifolds. destruct m; destruct m'; try discriminate P; try reflexivity. cbn [members bind].
        cbn [mod_manifold] in M. injection M as M. rewrite M. reflexivity. }
      rewrite <- G, <- M. destruct (member_manifolds m) as [gs|]; [|reflexivity]. cbn [bind]. unfold fc in K. destruct cs as [c0|].
      - destruct (unpack_into gs (mod_manifold m) x false) as [g|]; [|reflexivity]. cbn [bind].
        pose proof (set_cong _ _ _ g K) as A. unfold alike_res in A.
        destruct (set_manifold m g) as [m1|], (set_manifold m' g) as [m1'|]; try contradiction; [|subst; reflexivity]. destruct A as (A & B). cbn [bind].
        destruct (choose_control it c0 ti n) as [c|]; [|reflexivity]. cbn [bind]. rewrite (fill_determined sv m1 m1' c B A). reflexivity.
      - destruct (unpack_into gs (mod_manifold m) x true) as [g|]; [|reflexivity]. cbn [bind].
        pose proof (set_cong _ _ _ g K) as A. unfold alike_res in A.
        destruct (set_manifold m g) as [m1|], (set_manifold m' g) as [m1'|]; try contradiction; [|subst; reflexivity]. destruct A as (A & B). cbn [bind].
        rewrite (geodesic_determined sv b0 m1 m1' B A). reflexivity.
    Qed.

    (** The step of torch_euler. *)
    Lemma step_cong m m' j : key fc m = key fc m' -> mod_manifold m = mod_manifold m' ->
      step_controls sv b0 cs j m = step_controls sv b0 cs j m'.
    Proof.
      intros K M. unfold step_controls, fc in *. destruct cs as [c0|].
      - destruct (nth_error c0 j); [|reflexivity]. apply fill_determined; assumption.
      - apply geodesic_determined; assumption.
    Qed.

    Lemma shoot_cong name costs0 m m' : key fc m = key fc m' -> mod_manifold m = mod_manifold m' -> evaluates ck others name t1 it ->
      shoot ck others sv b0 ag name it t1 cs keep costs0 m = shoot ck others sv b0 ag name it t1 cs keep costs0 m'.
    Proof.
      intros K M EV. unfold shoot. destruct (String.eqb_spec name "torch_euler") as [|NE].
      - unfold shoot_euler. destruct (Nat.eqb_spec it 0); [reflexivity|]. rewrite <- M. destruct it as [|it']; [congruence|]. cbn [euler_loop].
        unfold euler_step. rewrite (step_cong m m' 0 K M). reflexivity.
      - destruct (find_solver ck others name) as [solve|] eqn:Es; [|reflexivity].
        assert (H : shoot_torchdiffeq ck sv b0 ag t1 it cs keep solve m = shoot_torchdiffeq ck sv b0 ag t1 it cs keep solve m').
        { unfold shoot_torchdiffeq. rewrite <- M. destruct (initial_state (mod_manifold m) (with_mom cs)) as [x0|]; [|reflexivity]. cbn [bind].
          destruct (EV NE solve Es x0) as (t & x & k & ->). cbn [run_strat]. rewrite (forward_cong t x m m' 0 0%Z [] [] K M). reflexivity. }
        rewrite H. reflexivity.
    Qed.

    (** What shooting leaves in the modules: the constructor's arguments. *)
    Lemma forward_key t x s y s' : forward ck sv b0 ag t1 it cs keep t x s = Ok (y, s') -> key fc (f_mod s') = key fc (f_mod s).
    Proof.
      unfold forward, fc. destruct cs as [c0|]; intros F.
      - bok F ti HE1. bok F gs HE2. bok F g HE3. bok F m1 HE4. bok F c HE5. bok F m2 HE6. bok F ks HE7. bok F l HE8. bok F ff HE9. bok F tn HE10. bok F v HE11.
        bok F yy HE12. injection F as _ <-. cbn [f_mod key]. rewrite (fill_params _ _ _ _ HE6). exact (set_params _ _ _ HE4).
      - bok F ti HE1. bok F gs HE2. bok F g HE3. bok F m1 HE4. bok F m2 HE5. bok F ks HE6. bok F dd HE7. destruct dd as (dq, dp). bok F l HE8. bok F v HE9.
        bok F yy HE10. injection F as _ <-. cbn [f_mod key]. destruct (geo_frozen sv b0 _ _ _ HE5) as (-> & _). exact (set_frozen _ _ _ HE4).
    Qed.

    Lemma run_key p : forall s xs s', run_strat ck sv b0 ag t1 it cs keep p s = Ok (xs, s') -> key fc (f_mod s') = key fc (f_mod s).
    Proof.
      induction p as [t x k IH|ys]; intros s xs s' E; cbn [run_strat] in E.
      - bok E ys HE1. destruct ys as (y & s1). rewrite (IH _ _ _ _ E). exact (forward_key _ _ _ _ _ HE1).
      - injection E as _ <-. reflexivity.
    Qed.

    Lemma step_key dt j m m1 : euler_step sv b0 ag dt cs j m = Ok m1 -> key fc m1 = key fc m.
    Proof.
      unfold euler_step. intros E. bok E m2 HE1. bok E dd HE2. destruct dd as (dq, dp). bok E a HE3. bok E b HE4. bok E gg HE5. destruct gg as (g1, r1).
      bok E gg HE6. destruct gg as (g2, r2). rewrite (set_key _ _ _ _ E). unfold step_controls, fc in *. destruct cs as [c0|]; cbn [key].
      - destruct (nth_error c0 j); [|discriminate]. exact (fill_params _ _ _ _ HE1).
      - exact (proj1 (geo_frozen sv b0 _ _ _ HE1)).
    Qed.

    Lemma loop_key dt n : forall j m acc m1 acc1, euler_loop sv b0 ag dt cs keep n j m acc = Ok (m1, acc1) -> key fc m1 = key fc m.
    Proof.
      induction n as [|n IH]; intros j m acc m1 acc1 E; cbn [euler_loop] in E.
      - injection E as <- _. reflexivity.
      - bok E m2 HE1. bok E ac HE2. rewrite (IH _ _ _ _ _ E). exact (step_key _ _ _ _ HE1).
    Qed.

    Lemma shoot_key name costs0 m sh : shoot ck others sv b0 ag name it t1 cs keep costs0 m = Ok sh -> key fc (sh_mod sh) = key fc m.
    Proof.
      unfold shoot. destruct (String.eqb name "torch_euler").
      - intros E. bok E mi HE1. destruct mi as (m1 & i). injection E as <-. cbn [sh_mod]. unfold shoot_euler in HE1.
        destruct (Nat.eqb it 0); [discriminate|]. exact (loop_key _ _ _ _ _ _ _ HE1).
      - destruct (find_solver ck others name) as [solve|]; [|discriminate]. intros E. bok E mi HE1. destruct mi as ((m1 & l) & i). injection E as <-. cbn [sh_mod fst].
        unfold shoot_torchdiffeq in HE1. bok HE1 x0 HE2. bok HE1 xss HE3. destruct xss as (xs & s). bok HE1 gs HE4. bok HE1 xl HE5. bok HE1 g HE6. bok HE1 m2 HE7.
        bok HE1 st HE8. injection HE1 as <- _ _. rewrite (set_key _ _ _ _ HE7). rewrite (run_key _ _ _ _ HE3). reflexivity.
    Qed.
  End Fwd.

  (** ** Models *)

  Definition same_kind (d d' : deformable) : Prop := exists g, d' = df_set d g.

  Lemma df_set_set d g g' : df_set (df_set d g) g' = df_set d g'.
  Proof. destruct d; reflexivity. Qed.
  Lemma df_set_same d : df_set d (df_man d) = d.
  Proof. destruct d; reflexivity. Qed.
  Lemma same_kind_refl d : same_kind d d.
  Proof. exists (df_man d). symmetry. apply df_set_same. Qed.
  Lemma same_kind_trans a b c : same_kind a b -> same_kind b c -> same_kind a c.
  Proof. intros (g & ->) (g' & ->). exists g'. apply df_set_set. Qed.

  Definition alike (r r' : reg) : Prop :=
    exists defs mods, r' = set_run r defs mods /\ Forall2 same_kind (r_defs r) defs /\
      Forall2 (fun m m' => key (r_fit_controls r) m' = key (r_fit_controls r) m) (r_mods r) mods.

  Lemma alike_refl r : alike r r.
  Proof.
    exists (r_defs r), (r_mods r). split; [destruct r; reflexivity|]. split.
    - induction (r_defs r); constructor; [apply same_kind_refl|assumption].
    - induction (r_mods r); constructor; [reflexivity|assumption].
  Qed.

  Lemma Forall2_trans {A} (P : A -> A -> Prop) a b c : (forall x y z, P x y -> P y z -> P x z) ->
    Forall2 P a b -> Forall2 P b c -> Forall2 P a c.
  Proof. intros T H. revert c. induction H; intros c H'; inversion H'; subst; constructor; eauto. Qed.

  Lemma alike_trans r r1 r2 : alike r r1 -> alike r1 r2 -> alike r r2.
  Proof.
    intros (d1 & m1 & -> & D1 & M1) (d2 & m2 & -> & D2 & M2). cbn in *. exists d2, m2. split; [reflexivity|]. split.
    - exact (Forall2_trans _ _ _ _ same_kind_trans D1 D2).
    - refine (Forall2_trans _ _ _ _ _ M1 M2). cbn. intros. congruence.
  Qed.

  Lemma Forall2_len {A B} (P : A -> B -> Prop) a b : Forall2 P a b -> length a = length b.
  Proof. induction 1; cbn; congruence. Qed.

  Lemma fill_defs_same h defs defs' : Forall2 same_kind defs defs' -> forall init, (length defs <= length init)%nat ->
    fill_defs h defs' init = fill_defs h defs init.
  Proof.
    induction 1 as [|d d' ds ds' (g & ->) _ IH]; intros init L; [reflexivity|]. destruct init as [|o init]; [cbn in L; lia|]. cbn [fill_defs].
    destruct (man_value h o); [|reflexivity]. cbn [bind]. rewrite IH by (cbn in L; lia). rewrite df_set_set. reflexivity.
  Qed.

  Lemma fill_mods_same fc h mods mods' : Forall2 (fun m m' => key fc m' = key fc m) mods mods' -> forall init,
    match fill_mods h mods init, fill_mods h mods' init with
    | Err e, Err e' => e = e'
    | Ok l, Ok l' => map mod_manifold l = map mod_manifold l' /\ map (key fc) l = map (key fc) l'
    | _, _ => False
    end.
  Proof.
    induction 1 as [|m m' ms ms' K _ IH]; intros init; [split; reflexivity|]. destruct init as [|o init]; [reflexivity|]. cbn [fill_mods].
    destruct (man_value h o) as [g|]; [|reflexivity]. cbn [bind]. pose proof (set_cong fc m m' g (eq_sym K)) as A. unfold alike_res in A.
    destruct (set_manifold m g), (set_manifold m' g); try contradiction; [|assumption]. cbn [bind]. specialize (IH init).
    destruct (fill_mods h ms init), (fill_mods h ms' init); try contradiction; [|assumption]. cbn [bind map]. destruct A, IH. split; congruence.
  Qed.

  Lemma key_comp fc l l' : map (key fc) l = map (key fc) l' -> key fc (MComp l) = key fc (MComp l').
  Proof. destruct fc; cbn [key params frozen]; intros E; [rewrite (E : map params l = map params l')|rewrite (E : map frozen l = map frozen l')]; reflexivity. Qed.

  Lemma fill_mods_key fc h mods : forall init l, fill_mods h mods init = Ok l -> map (key fc) l = map (key fc) mods.
  Proof.
    induction mods as [|m ms IH]; intros init l E; cbn [fill_mods] in E; [destruct init; injection E as <-; reflexivity|].
    destruct init as [|o init]; [discriminate|]. bok E g HE1. bok E m1 HE2. bok E l1 HE3. injection E as <-. cbn [map].
    rewrite (set_key _ _ _ _ HE2), (IH _ _ HE3). reflexivity.
  Qed.

  Lemma fill_defs_kind h defs : forall init l, fill_defs h defs init = Ok l -> Forall2 same_kind defs l.
  Proof.
    induction defs as [|d ds IH]; intros init l E; cbn [fill_defs] in E; [destruct init; injection E as <-; constructor|].
    destruct init as [|o init].
    - injection E as <-. clear. generalize (d :: ds). intros l0. induction l0; constructor; [apply same_kind_refl|assumption].
    - bok E g HE1. bok E l1 HE3. injection E as <-. constructor; [eexists; reflexivity|eauto].
  Qed.

  Definition mode (cs : option (list (list ctrl))) : bool := match cs with Some _ => true | None => false end.

  Lemma compute_cong defs mods mods' name it costs cs t1 reduce :
    map mod_manifold mods = map mod_manifold mods' -> map (key (mode cs)) mods = map (key (mode cs)) mods' -> evaluates ck others name t1 it ->
    deformables_compute_deformed ck others sv b0 ag defs mods name it costs cs t1 reduce =
    deformables_compute_deformed ck others sv b0 ag defs mods' name it costs cs t1 reduce.
  Proof.
    intros M K EV. unfold deformables_compute_deformed.
    set (inc := option_map (map (in_controls_of (length (map silent_module defs)))) cs).
    assert (Em : mode cs = match inc with Some _ => true | None => false end) by (subst inc; destruct cs; reflexivity).
    rewrite (shoot_cong t1 it inc true name None (MComp (map silent_module defs ++ mods)) (MComp (map silent_module defs ++ mods'))).
    - reflexivity.
    - rewrite <- Em. apply key_comp. rewrite !map_app, K. reflexivity.
    - cbn [mod_manifold]. rewrite !map_app, M. reflexivity.
    - exact EV.
  Qed.

  (** What it leaves. *)
  Lemma total_params inc states n : forall i m l m1, total_compound sv inc states n i m = Ok (l, m1) -> params m1 = params m.
  Proof.
    induction n as [|n IH]; intros i m l m1 E; cbn [total_compound] in E; [injection E as _ <-; reflexivity|].
    destruct (nth_error states i) as [st|]; [|discriminate]. bok E gg HE1. destruct gg as (g & r). bok E m2 HE2. bok E cs HE3. bok E c HE4. bok E m3 HE5. bok E x HE6.
    bok E lm HE7. destruct lm as (xs & m4). injection E as _ <-. rewrite (IH _ _ _ _ HE7), (fill_params _ _ _ _ HE5). exact (set_params _ _ _ HE2).
  Qed.

  Lemma reduction_key reduce it (inc : option (list ctrl)) states rec m c m1 : reduction sv b0 reduce it inc states rec m = Ok (c, m1) ->
    let fc := match inc with Some _ => true | None => false end in key fc m1 = key fc m.
  Proof.
    unfold reduction. intros E. destruct (String.eqb reduce "sum").
    { destruct rec; [|discriminate]. injection E as _ <-. reflexivity. }
    destruct (String.eqb reduce "previous").
    { bok E m2 HE1. bok E x HE2. injection E as _ <-. destruct inc; cbn [key].
      - exact (geo_params sv b0 _ _ _ HE1).
      - exact (proj1 (geo_frozen sv b0 _ _ _ HE1)). }
    destruct (String.eqb reduce "lastcompound").
    { bok E x HE2. injection E as _ <-. reflexivity. }
    destruct (String.eqb reduce "totalcompound").
    { bok E lm HE1. destruct lm as (l & m2). injection E as _ <-. destruct inc as [cs|].
      - cbn [key]. exact (total_params _ _ _ _ _ _ _ HE1).
      - cbn [key]. destruct it as [|it]; cbn [total_compound] in HE1.
        + injection HE1 as _ <-. reflexivity.
        + destruct (nth_error states 0); [|discriminate]. bok HE1 gg HE2. destruct gg as (g0 & r0). bok HE1 m3 HE3. discriminate. }
    injection E as _ <-. reflexivity.
  Qed.

  Lemma set_silent_kind defs : forall l, Forall2 same_kind defs (set_silent defs l).
  Proof.
    induction defs as [|d ds IH]; intros l; cbn [set_silent]; [destruct l; constructor|]. destruct l as [|m l].
    - generalize (d :: ds). intros l0. induction l0; constructor; [apply same_kind_refl|assumption].
    - constructor; [eexists; reflexivity|apply IH].
  Qed.

  Lemma compute_key defs mods name it costs cs t1 reduce o :
    deformables_compute_deformed ck others sv b0 ag defs mods name it costs cs t1 reduce = Ok o ->
    Forall2 same_kind defs (dr_defs o) /\ map (key (mode cs)) (dr_mods o) = map (key (mode cs)) mods.
  Proof.
    unfold deformables_compute_deformed. set (inc := option_map (map (in_controls_of (length (map silent_module defs)))) cs).
    assert (Em : mode cs = match inc with Some _ => true | None => false end) by (subst inc; destruct cs; reflexivity).
    intros E. bok E sh HE1. bok E ms HE2. destruct (existsb has_backward defs); [bok E x HE; discriminate|]. bok E cm HE3. destruct cm as (c & m'). bok E df HE4.
    bok E ms' HE5. injection E as <-. cbn [dr_defs dr_mods]. split; [apply set_silent_kind|].
    assert (K : key (mode cs) m' = key (mode cs) (MComp (map silent_module defs ++ mods))).
    { rewrite Em. rewrite <- (shoot_key t1 it inc true name None _ _ HE1). destruct costs.
      - exact (reduction_key _ _ _ _ _ _ _ _ HE3).
      - injection HE3 as _ <-. reflexivity. }
    destruct m'; try discriminate HE5. injection HE5 as <-.
    assert (K' : map (key (mode cs)) ms0 = map (key (mode cs)) (map silent_module defs ++ mods)).
    { destruct (mode cs); cbn [key params frozen] in K; injection K as K; exact K. }
    rewrite <- skipn_map, K', map_app, skipn_app, skipn_all2 by (rewrite map_length; lia).
    rewrite !map_length, Nat.sub_diag. reflexivity.
  Qed.

  Lemma Forall2_key fc l l' : map (key fc) l' = map (key fc) l -> Forall2 (fun m m' => key fc m' = key fc m) l l'.
  Proof.
    revert l'. induction l as [|a l IH]; intros l' E; destruct l' as [|b l']; try discriminate E; constructor; cbn [map] in E; injection E; auto.
  Qed.

  Lemma deformed_alike h r name it t1 costs x r1 : compute_deformed ck others sv b0 ag h r name it t1 costs = Ok (x, r1) -> alike r r1.
  Proof.
    unfold compute_deformed. intros E. bok E mods HE1. bok E defs HE2. bok E o HE3. injection E as _ <-.
    exists (dr_defs o), (dr_mods o). split; [reflexivity|].
    assert (H : Forall2 same_kind defs (dr_defs o) /\ map (key (r_fit_controls r)) (dr_mods o) = map (key (r_fit_controls r)) mods).
    { destruct (r_fit_controls r); exact (compute_key _ _ _ _ _ _ _ _ _ HE3). }
    destruct H as (HD & HM). split.
    - exact (Forall2_trans _ _ _ _ same_kind_trans (fill_defs_kind _ _ _ _ HE2) HD).
    - apply Forall2_key. rewrite HM. exact (fill_mods_key _ _ _ _ _ HE1).
  Qed.

  Lemma evaluate_alike h r targets name it t1 cost0 c r1 :
    evaluate ck others sv b0 ag h r targets name it t1 cost0 = Ok (c, r1) -> alike r r1.
  Proof.
    unfold evaluate. intros E. bok E u HE1. bok E y HE2. destruct y as (((df & c1) & i1) & r2). bok E cs HE3. injection E as _ <-.
    exact (deformed_alike _ _ _ _ _ _ _ _ HE2).
  Qed.

  Lemma used_alike h r r1 : used ck others sv b0 ag h r r1 -> alike r r1.
  Proof.
    induction 1 as [r|r r1 r2 targets name it t1 cost0 c E _ IH|r r1 r2 name it t1 costs x E _ IH|r r2 defs mods D M _ IH].
    - apply alike_refl.
    - exact (alike_trans _ _ _ (evaluate_alike _ _ _ _ _ _ _ _ _ E) IH).
    - exact (alike_trans _ _ _ (deformed_alike _ _ _ _ _ _ _ _ E) IH).
    - refine (alike_trans _ _ _ _ IH). exists defs, mods. auto.
  Qed.

  Lemma same_deformed h r r' name it t1 costs : alike r r' -> (length (r_defs r) <= length (r_init r))%nat ->
    evaluates ck others name t1 (if r_fit_controls r then r_it r else it) ->
    compute_deformed ck others sv b0 ag h r' name it t1 costs = compute_deformed ck others sv b0 ag h r name it t1 costs.
  Proof.
    intros (defs & mods & -> & D & M) L EV. unfold compute_deformed.
    change (r_mods (set_run r defs mods)) with mods. change (r_defs (set_run r defs mods)) with defs.
    change (r_init (set_run r defs mods)) with (r_init r). change (r_fit_controls (set_run r defs mods)) with (r_fit_controls r).
    change (r_it (set_run r defs mods)) with (r_it r). change (r_reduce (set_run r defs mods)) with (r_reduce r).
    change (learned h (set_run r defs mods)) with (learned h r).
    assert (EL : length defs = length (r_defs r)) by (symmetry; exact (Forall2_len _ _ _ D)). rewrite EL.
    rewrite (fill_defs_same h _ _ D) by exact L.
    pose proof (fill_mods_same (r_fit_controls r) h _ _ M (skipn (length (r_defs r)) (r_init r))) as F.
    destruct (fill_mods h (r_mods r) (skipn (length (r_defs r)) (r_init r))) as [l|e],
      (fill_mods h mods (skipn (length (r_defs r)) (r_init r))) as [l'|e']; try contradiction; [|subst; reflexivity]. destruct F as (FM & FK). cbn [bind].
    destruct (fill_defs h (r_defs r) (r_init r)) as [ds|]; [|reflexivity]. cbn [bind].
    destruct (r_fit_controls r).
    - rewrite (compute_cong ds l l' name (r_it r) costs (Some (learned h r)) t1 (r_reduce r) FM FK EV). reflexivity.
    - rewrite (compute_cong ds l l' name it costs None t1 (r_reduce r) FM FK EV). reflexivity.
  Qed.

  Lemma same_evaluate h r r' targets name it t1 cost0 : alike r r' -> (length (r_defs r) <= length (r_init r))%nat ->
    evaluates ck others name t1 (if r_fit_controls r then r_it r else it) ->
    evaluate ck others sv b0 ag h r' targets name it t1 cost0 = evaluate ck others sv b0 ag h r targets name it t1 cost0.
  Proof.
    intros A L EV. unfold evaluate. rewrite (same_deformed h r r' name it t1 true A L EV).
    destruct A as (defs & mods & -> & D & M). change (r_defs (set_run r defs mods)) with defs.
    rewrite <- (Forall2_len _ _ _ D). reflexivity.
  Qed.
End Cong.

(** The fixed step solvers evaluate the dynamics. *)
Lemma schemes_evaluate others s t1 it : (0 < it)%nat -> evaluates real_clock others (scheme_name s) t1 it.
Proof.
  intros P _ solve F x0. unfold linspace. cbn -[find_solver]. replace (it + 1)%nat with (S (S (it - 1))) by lia.
  assert (G : forall inc, (forall a b y k, exists t x k', inc a b y k = Ask (T := R) t x k') ->
    exists t x k, fixed_solver real_clock inc (map (fun i => t1 * (INR i / INR (S (S (it - 1)) - 1))) (seq 0 (S (S (it - 1))))) x0 = Ask t x k).
  { intros inc H. cbn [seq map fixed_solver fixed_grid]. apply H. }
  destruct s; cbv in F; injection F as <-; apply G; intros; repeat eexists.
Qed.

Lemma torch_euler_evaluates ck others t1 it : evaluates ck others "torch_euler" t1 it.
Proof. intros H. congruence. Qed.
