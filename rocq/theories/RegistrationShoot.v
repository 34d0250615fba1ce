(** What shooting leaves of the structure; the deformed objects. *)
From Coq Require Import Reals String List Arith ZArith Lia Lra.
From Verif Require Import Py RSum Tensor TensorFacts KernelModel FieldModel GeometryModel ModuleModel ShootingModel
  RegistrationModel SpecModule SpecHistory SpecShooting SpecRegistration ModuleMain ModuleLeaves ModuleHistory GeometryFacts ShootingPack ShootingDyn RegistrationRun.
Import ListNotations.
Open Scope R_scope.

Lemma put_gd_skel g : forall l g' r, put_gd g l = Ok (g', r) -> skel g' = skel g
with put_cotan_skel g : forall l g' r, put_cotan g l = Ok (g', r) -> skel g' = skel g.
Proof.
  - destruct g; intros l g' r E; cbn [put_gd] in E.
    1-4: repeat (let y := fresh "y" in let HE := fresh "HE" in bok E y HE; destruct y as (? & ?)); injection E as <- _; reflexivity.
    + injection E as <- _. reflexivity.
    + bok E y HE. destruct y as (ms' & l'). injection E as <- _. cbn [skel]. f_equal. revert l ms' l' HE. induction ms as [|g gs IH]; intros l ms' l' HE.
      * injection HE as <- _. reflexivity.
      * bok HE y HE1. destruct y as (x & l1). bok HE y HE2. destruct y as (xs & l2). injection HE as <- _. cbn [map]. rewrite (put_gd_skel _ _ _ _ HE1), (IH _ _ _ HE2). reflexivity.
  - destruct g; intros l g' r E; cbn [put_cotan] in E.
    1-4: repeat (let y := fresh "y" in let HE := fresh "HE" in bok E y HE; destruct y as (? & ?)); injection E as <- _; reflexivity.
    + injection E as <- _. reflexivity.
    + bok E y HE. destruct y as (ms' & l'). injection E as <- _. cbn [skel]. f_equal. revert l ms' l' HE. induction ms as [|g gs IH]; intros l ms' l' HE.
      * injection HE as <- _. reflexivity.
      * bok HE y HE1. destruct y as (x & l1). bok HE y HE2. destruct y as (xs & l2). injection HE as <- _. cbn [map]. rewrite (put_cotan_skel _ _ _ _ HE1), (IH _ _ _ HE2). reflexivity.
Qed.

Lemma set_skel m g m1 : skel g = skel (mod_manifold m) -> set_manifold m g = Ok m1 -> skel (mod_manifold m1) = skel (mod_manifold m).
Proof. intros K E. destruct (set_ok m g K) as (m2 & E2 & M2 & _). rewrite E in E2. injection E2 as <-. congruence. Qed.

Lemma unpack_skel gs g x w g' : unpack_into gs g x w = Ok g' -> skel g' = skel g.
Proof.
  unfold unpack_into. intros E. bok E gd HE1. bok E mom HE2. bok E y HE3. destruct y as (g1 & r1). destruct w.
  - bok E y HE4. destruct y as (g2 & r2). injection E as <-. rewrite (put_cotan_skel _ _ _ _ HE4). exact (put_gd_skel _ _ _ _ HE3).
  - injection E as <-. exact (put_gd_skel _ _ _ _ HE3).
Qed.

Section Skel.
  Variable ck : clock.
  Variable others : string -> option (list (time ck) -> tensor -> strat (time ck)).
  Variables (sv : solver) (b0 : backend) (ag : autograd).
  Variables (t1 : time ck) (it : nat) (cs : option (list ctrl)) (keep : bool).

  Lemma forward_skel t x s y s' : forward ck sv b0 ag t1 it cs keep t x s = Ok (y, s') -> skel (mod_manifold (f_mod s')) = skel (mod_manifold (f_mod s)).
  Proof.
    unfold forward. destruct cs as [c0|]; intros F.
    - bok F ti HE1. bok F gs HE2. bok F g HE3. bok F m1 HE4. bok F c HE5. bok F m2 HE6. bok F ks HE7. bok F l HE8. bok F ff HE9. bok F tn HE10. bok F v HE11.
      bok F yy HE12. injection F as _ <-. cbn [f_mod]. rewrite (fill_manifold' _ _ _ _ HE6). exact (set_skel _ _ _ (unpack_skel _ _ _ _ _ HE3) HE4).
    - bok F ti HE1. bok F gs HE2. bok F g HE3. bok F m1 HE4. bok F m2 HE5. bok F ks HE6. bok F dd HE7. destruct dd as (dq, dp). bok F l HE8. bok F v HE9.
      bok F yy HE10. injection F as _ <-. cbn [f_mod]. rewrite (proj2 (geo_frozen sv b0 _ _ _ HE5)). exact (set_skel _ _ _ (unpack_skel _ _ _ _ _ HE3) HE4).
  Qed.

  Lemma run_skel p : forall s xs s', run_strat ck sv b0 ag t1 it cs keep p s = Ok (xs, s') -> skel (mod_manifold (f_mod s')) = skel (mod_manifold (f_mod s)).
  Proof.
    induction p as [t x k IH|ys]; intros s xs s' E; cbn [run_strat] in E.
    - bok E ys HE1. destruct ys as (y & s1). rewrite (IH _ _ _ _ E). exact (forward_skel _ _ _ _ _ HE1).
    - injection E as _ <-. reflexivity.
  Qed.

  Lemma step_skel dt j m m1 : euler_step sv b0 ag dt cs j m = Ok m1 -> skel (mod_manifold m1) = skel (mod_manifold m).
  Proof.
    unfold euler_step. intros E. bok E m2 HE1. bok E dd HE2. destruct dd as (dq, dp). bok E a HE3. bok E b HE4. bok E gg HE5. destruct gg as (g1, r1).
    bok E gg HE6. destruct gg as (g2, r2).
    assert (M2 : mod_manifold m2 = mod_manifold m).
    { unfold step_controls in HE1. destruct cs as [c0|].
      - destruct (nth_error c0 j); [|discriminate]. exact (fill_manifold' _ _ _ _ HE1).
      - exact (proj2 (geo_frozen sv b0 _ _ _ HE1)). }
    rewrite <- M2. apply (set_skel _ g2); [|exact E]. rewrite (put_cotan_skel _ _ _ _ HE6). exact (put_gd_skel _ _ _ _ HE5).
  Qed.

  Lemma loop_skel dt n : forall j m acc m1 acc1, euler_loop sv b0 ag dt cs keep n j m acc = Ok (m1, acc1) -> skel (mod_manifold m1) = skel (mod_manifold m).
  Proof.
    induction n as [|n IH]; intros j m acc m1 acc1 E; cbn [euler_loop] in E.
    - injection E as <- _. reflexivity.
    - bok E m2 HE1. bok E ac HE2. rewrite (IH _ _ _ _ _ E). exact (step_skel _ _ _ _ HE1).
  Qed.

  Lemma shoot_skel name costs0 m sh : shoot ck others sv b0 ag name it t1 cs keep costs0 m = Ok sh -> skel (mod_manifold (sh_mod sh)) = skel (mod_manifold m).
  Proof.
    unfold shoot. destruct (String.eqb name "torch_euler").
    - intros E. bok E mi HE1. destruct mi as (m1 & i). injection E as <-. cbn [sh_mod]. unfold shoot_euler in HE1.
      destruct (Nat.eqb it 0); [discriminate|]. exact (loop_skel _ _ _ _ _ _ _ HE1).
    - destruct (find_solver ck others name) as [solve|]; [|discriminate]. intros E. bok E mi HE1. destruct mi as ((m1 & l) & i). injection E as <-. cbn [sh_mod fst].
      unfold shoot_torchdiffeq in HE1. bok HE1 x0 HE2. bok HE1 xss HE3. destruct xss as (xs & s). bok HE1 gs HE4. bok HE1 xl HE5. bok HE1 g HE6. bok HE1 m2 HE7.
      bok HE1 st HE8. injection HE1 as <- _ _. rewrite (set_skel _ _ _ (unpack_skel _ _ _ _ _ HE6) HE7). exact (run_skel _ _ _ _ HE3).
  Qed.

  Lemma shoot_costs name costs0 m sh : shoot ck others sv b0 ag name it t1 cs keep costs0 m = Ok sh ->
    if String.eqb name "torch_euler" then sh_costs sh = costs0 else exists l, sh_costs sh = Some l.
  Proof.
    unfold shoot. destruct (String.eqb name "torch_euler").
    - intros E. bok E mi HE1. destruct mi as (m1 & i). injection E as <-. reflexivity.
    - destruct (find_solver ck others name) as [solve|]; [|discriminate]. intros E. bok E mi HE1. destruct mi as ((m1 & l) & i). injection E as <-. cbn. eauto.
  Qed.
End Skel.

(** The members of a compound after shooting. *)
Lemma skel_lm g g0 : skel g = skel g0 -> (exists dim nb q p, g0 = GLm dim nb q p) -> exists dim nb q p, g = GLm dim nb q p.
Proof. intros K (dim & nb & q & p & ->). destruct g; try discriminate K. eauto. Qed.

Lemma deformed_list_ok defs : forall ms, (length defs <= length ms)%nat ->
  Forall2 (fun d m => exists dim nb q p, mod_manifold m = GLm dim nb q p /\ is_ok (to_deformed d q)) defs (firstn (length defs) ms) ->
  exists xs, deformed_list defs (firstn (length defs) ms) = Ok xs /\ length xs = length defs /\
    forall i d, nth_error defs i = Some d -> exists m x, nth_error ms i = Some m /\ nth_error xs i = Some x /\ deformed_by m d x.
Proof.
  induction defs as [|d defs IH]; intros ms L F.
  - exists []. split; [reflexivity|]. split; [reflexivity|]. intros [|i] d E; discriminate E.
  - destruct ms as [|m ms]; [cbn in L; lia|]. cbn [length firstn] in *. inversion F as [|? ? ? ? (dim & nb & q & p & EM & (x & EX)) F']; subst.
    destruct (IH ms ltac:(lia) F') as (xs & E & LX & N). exists (x :: xs). cbn [deformed_list]. rewrite EM. cbn [lm_gd bind]. rewrite EX. cbn [bind]. rewrite E. cbn [bind].
    split; [reflexivity|]. split; [cbn; congruence|]. intros [|i] d' Ed; cbn [nth_error] in *; [|eauto]. injection Ed as <-. exists m, x. split; [reflexivity|]. split; [reflexivity|].
    exists dim, nb, q, p. auto.
Qed.

Section Compute.
  Variable ck : clock.
  Variable others : string -> option (list (time ck) -> tensor -> strat (time ck)).
  Variables (sv : solver) (b0 : backend) (ag : autograd).

  Lemma backward_never defs mods name it costs cs t1 reduce o : existsb has_backward defs = true ->
    deformables_compute_deformed ck others sv b0 ag defs mods name it costs cs t1 reduce <> Ok o.
  Proof.
    intros B E. unfold deformables_compute_deformed in E. bok E sh HE1. bok E ms HE2. rewrite B in E. bok E x HE3. discriminate.
  Qed.

  Lemma fill_defs_backward h defs : forall init l, fill_defs h defs init = Ok l -> existsb has_backward l = existsb has_backward defs.
  Proof.
    induction defs as [|d ds IH]; intros init l E; cbn [fill_defs] in E; [destruct init; injection E as <-; reflexivity|].
    destruct init as [|o init]; [injection E as <-; reflexivity|]. bok E g HE1. bok E l1 HE3. injection E as <-. cbn [existsb]. rewrite (IH _ _ HE3).
    destruct d; reflexivity.
  Qed.

  Lemma ordinary_forward defs : Forall ordinary defs -> existsb has_backward defs = false.
  Proof. induction 1 as [|d ds (B & _) _ IH]; [reflexivity|]. cbn [existsb]. rewrite B. exact IH. Qed.

  Lemma compute_ok defs mods name it costs cs t1 reduce sh : Forall ordinary defs ->
    shoot ck others sv b0 ag name it t1 (given defs cs) true None (start defs mods) = Ok sh ->
    exists ms xs, sh_mod sh = MComp ms /\ length xs = length defs /\
      (forall i d, nth_error defs i = Some d -> exists m x, nth_error ms i = Some m /\ nth_error xs i = Some x /\ deformed_by m d x) /\
      (costs = false -> exists o, deformables_compute_deformed ck others sv b0 ag defs mods name it costs cs t1 reduce = Ok o /\ dr_deformed o = xs /\ dr_cost o = None) /\
      (reduce = "sum"%string -> costs = true ->
         if String.eqb name "torch_euler" then deformables_compute_deformed ck others sv b0 ag defs mods name it costs cs t1 reduce = Err KeyError
         else exists o l, deformables_compute_deformed ck others sv b0 ag defs mods name it costs cs t1 reduce = Ok o /\
                dr_deformed o = xs /\ sh_costs sh = Some l /\ dr_cost o = Some (py_sum l)).
  Proof.
    intros OR ES. pose proof (shoot_skel ck others sv b0 ag t1 it (given defs cs) true name None _ _ ES) as SK.
    pose proof (shoot_key ck others sv b0 ag t1 it (given defs cs) true name None _ _ ES) as KE. apply key_params in KE.
    destruct (sh_mod sh) as [| | | | | | | | | |ms] eqn:EM; try discriminate KE.
    cbn [start mod_manifold skel] in SK. injection SK as SK. rewrite !map_map, map_app in SK.
    assert (LM : (length defs <= length ms)%nat).
    { apply (f_equal (@length _)) in SK. rewrite app_length, !map_length in SK. lia. }
    assert (F : Forall2 (fun d m => exists dim nb q p, mod_manifold m = GLm dim nb q p /\ is_ok (to_deformed d q)) defs (firstn (length defs) ms)).
    { clear - OR SK LM. revert ms SK LM. induction OR as [|d ds (_ & LMK & TD) _ IH]; intros ms SK LM; [constructor|]. destruct ms as [|m ms]; [cbn in LM; lia|].
      cbn [map app] in SK. injection SK as S1 S2. cbn [length firstn]. constructor; [|apply IH; [exact S2|cbn in LM; lia]].
      destruct (skel_lm _ _ S1 LMK) as (dim & nb & q & p & E). exists dim, nb, q, p. auto. }
    destruct (deformed_list_ok defs ms LM F) as (xs & ED & LX & N). exists ms, xs. split; [reflexivity|]. split; [exact LX|]. split; [exact N|].
    assert (LS : length (map silent_module defs) = length defs) by apply map_length.
    unfold deformables_compute_deformed. rewrite LS. change (option_map (map (in_controls_of (length defs))) cs) with (given defs cs).
    change (MComp (map silent_module defs ++ mods)) with (start defs mods). rewrite ES. cbn [bind]. rewrite EM. cbn [members bind]. rewrite (ordinary_forward _ OR).
    split.
    - intros ->. cbn [bind]. rewrite ED. cbn [bind members]. eexists. split; [reflexivity|]. split; reflexivity.
    - intros -> ->. unfold reduction. change ("sum" =? "sum")%string with true. cbn iota.
      pose proof (shoot_costs ck others sv b0 ag t1 it (given defs cs) true name None _ _ ES) as SC. destruct (String.eqb name "torch_euler").
      + rewrite SC. reflexivity.
      + destruct SC as (l & SC). rewrite SC. cbn [bind]. rewrite ED. cbn [bind members]. eexists. exists l. split; [reflexivity|]. repeat split.
  Qed.

  Lemma euler_sum_never defs mods it cs t1 o :
    deformables_compute_deformed ck others sv b0 ag defs mods "torch_euler" it true cs t1 "sum" <> Ok o.
  Proof.
    intros E. unfold deformables_compute_deformed in E. bok E sh HE1. bok E ms HE2. destruct (existsb has_backward defs); [bok E x HE3; discriminate|].
    pose proof (shoot_costs ck others sv b0 ag _ _ _ _ _ _ _ _ HE1) as SC. cbn in SC. unfold reduction in E. change ("sum" =? "sum")%string with true in E. cbn iota in E.
    rewrite SC in E. discriminate.
  Qed.
End Compute.
