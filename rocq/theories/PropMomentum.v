(** Property theorems about the conservation of momentum (C72). *)
From Coq Require Import Reals String List Arith Lia Lra Classical_Prop ClassicalEpsilon.
From Coquelicot Require Import Coquelicot.
From Verif Require Import Py RSum Tensor TensorFacts KernelModel FieldModel GeometryModel ModuleModel ShootingModel
  SpecGeometry SpecModule SpecShooting SpecMotion ModuleMain ShootingPack ShootingDyn ShootingScheme ShootingFinal ShootingTotal ShootingExample PropShooting
  MotionFacts MotionShoot MotionMomentum MotionExample.
Import ListNotations.
Open Scope R_scope.

Lemma same_phase_shapes g g' : same_values g g' -> map shape (phase g) = map shape (phase g').
Proof.
  intros ((_ & A) & (_ & B)). unfold phase. rewrite !map_app. f_equal; apply leq_shape; assumption.
Qed.
Lemma momentum_values d a g g' : (a < d)%nat -> wf_gman d g' -> same_values g g' -> linear_momentum g a = linear_momentum g' a.
Proof.
  intros A W ((K & _) & (_ & B)). rewrite !momentum_marked, (marks_same g g' K). apply (marked_sum_teq d a _ A); [|exact B].
  exact (proj2 (wf_pts d g' W)).
Qed.

(** ** C72 *)

(** torch_euler, with geodesic or with given controls. *)
Theorem C72_torch_euler : forall ck others sv b0 ag it t1 cs keep costs0 d m sh,
  exact_grad ag -> wf_gman d (mod_manifold m) -> (forall v, follows d (vec d v) m) ->
  (forall i, smooth_on (map shape (phase (mod_manifold m))) (ham_of m (step_controls sv b0 cs i))) ->
  shoot ck others sv b0 ag "torch_euler" it t1 cs keep costs0 m = Ok sh ->
  forall a, (a < d)%nat ->
    linear_momentum (mod_manifold (sh_mod sh)) a = linear_momentum (mod_manifold m) a /\
    forall i g, sh_inter sh = Some i -> In g (in_states i) -> linear_momentum g a = linear_momentum (mod_manifold m) a.
Proof.
  intros ck others sv b0 ag it t1 cs keep costs0 d m sh EX W F SM E a A.
  destruct (C25_torch_euler_steps ck others sv b0 ag it t1 cs keep costs0 m sh EX (wf_shapes d _ W) E)
    as (_ & states & mods & L & _ & E0 & E1 & T & _ & K & _ & KE).
  assert (Q : forall i g, nth_error states i = Some g -> linear_momentum g a = linear_momentum (mod_manifold m) a).
  { intros i g Eg. rewrite Forall_forall in K.
    exact (momentum_trajectory d a sv b0 cs m SEuler _ states _ A W F SM T _ E0 eq_refl eq_refl i g Eg (K g (nth_error_In _ _ Eg))). }
  split; [exact (Q _ _ E1)|]. intros i g Ei Ig. destruct keep; [|congruence]. destruct KE as (ks & _ & KE). rewrite KE in Ei. injection Ei as <-.
  cbn [in_states] in Ig. apply In_nth_error in Ig. destruct Ig as (j & Ej). exact (Q j g Ej).
Qed.
Print Assumptions C72_torch_euler.

(** euler, midpoint and rk4 of torchdiffeq, with geodesic controls. *)
Theorem C72_fixed_step_schemes : forall others sv b0 ag sch it t1 keep costs0 d m sh,
  exact_grad ag -> shootable m -> 0 < t1 -> (0 < it)%nat -> wf_gman d (mod_manifold m) -> (forall v, follows d (vec d v) m) ->
  smooth_on (map shape (phase (mod_manifold m))) (ham_of m (geodesic_controls sv b0)) ->
  shoot real_clock others sv b0 ag (scheme_name sch) it t1 None keep costs0 m = Ok sh ->
  forall a, (a < d)%nat ->
    linear_momentum (mod_manifold (sh_mod sh)) a = linear_momentum (mod_manifold m) a /\
    forall i g, sh_inter sh = Some i -> In g (in_states i) -> linear_momentum g a = linear_momentum (mod_manifold m) a.
Proof.
  intros others sv b0 ag sch it t1 keep costs0 d m sh EX (ms & -> & SI & SP) T1 IT W F SM E a A.
  destruct (whole_moments sv b0 ag t1 it keep ms T1 IT SI SP EX others sch costs0 sh E)
    as (states & stages & mods & costs & L & _ & _ & T & (g0 & E0 & V0) & E1 & K & _ & _ & _ & _ & KE).
  assert (Q : forall i g, nth_error states i = Some g -> linear_momentum g a = linear_momentum (mod_manifold (MComp ms)) a).
  { intros i g Eg. rewrite Forall_forall in K. rewrite <- (momentum_values d a g0 _ A W V0).
    exact (momentum_trajectory d a sv b0 None (MComp ms) sch _ states stages A W F (fun _ => SM) T g0 E0 (proj1 (proj1 V0)) (same_phase_shapes _ _ V0) i g Eg (K g (nth_error_In _ _ Eg))). }
  split; [exact (Q _ _ E1)|]. intros i g Ei Ig. destruct keep; [|congruence]. destruct KE as (ks & _ & KE). rewrite KE in Ei. injection Ei as <-.
  cbn [in_states] in Ig. apply In_nth_error in Ig. destruct Ig as (j & Ej). exact (Q j g Ej).
Qed.
Print Assumptions C72_fixed_step_schemes.

(** ** An example: two points carried by the field that they generate *)

Definition two (x y : R) : tensor := mkT [2%nat; 1%nat] (fun idx => match idx with [O; O] => x | [S O; O] => y | _ => 0 end).
Definition pair_mod (q p h : tensor) : dmod := MComp [MTrans Torch 1 1 2 q p h].
Definition pair0 : dmod := pair_mod (two 0 1) (two 1 2) (two 0 0).
Definition pair_ctrl : ctrl := CList [CLeaf (two 1 1)].

Definition pair_ham (q p : tensor) : R :=
  (p @2 0%nat 0%nat + p @2 1%nat 0%nat - 1) * (1 + exp (- (1 / 2) * (q @2 0%nat 0%nat - q @2 1%nat 0%nat) ^ 2)).

Lemma pair_hamiltonian sv b0 n i q0 p0 h q p : (i < n)%nat -> shape q = [2%nat; 1%nat] -> shape p = [2%nat; 1%nat] ->
  ham_of (pair_mod q0 p0 h) (step_controls sv b0 (Some (repeat pair_ctrl n)) i) [q; p] = Ok (pair_ham q p).
Proof.
  intros I. destruct q as [sq q]. destruct p as [sp p]. cbn [shape]. intros -> ->. unfold ham_of, step_controls.
  replace (nth_error (repeat pair_ctrl n) i) with (Some pair_ctrl) by (symmetry; apply nth_error_repeat; exact I).
  cbn. f_equal. unfold pair_ham. cbn.
  set (x := q [0%nat; 0%nat]). set (y := q [1%nat; 0%nat]).
  repeat match goal with |- context [exp ?e] =>
    match e with 0 => fail 1 | - (1 / 2) * ((x - y) * ((x - y) * 1)) => fail 1 | _ =>
      first [replace e with 0 by field | replace e with (- (1 / 2) * ((x - y) * ((x - y) * 1))) by field] end end.
  rewrite exp_0. field.
Qed.
Lemma pair_out sv b0 n i q0 p0 h l x : (n <= i)%nat -> ham_of (pair_mod q0 p0 h) (step_controls sv b0 (Some (repeat pair_ctrl n)) i) l = Ok x -> False.
Proof.
  intros I. unfold ham_of, step_controls. replace (nth_error (repeat pair_ctrl n) i) with (@None ctrl) by (symmetry; apply nth_error_None; rewrite repeat_length; exact I).
  destruct (write_manifold (pair_mod q0 p0 h) l); discriminate.
Qed.

Lemma pair_smooth sv b0 n i q0 p0 h : smooth_on [[2%nat; 1%nat]; [2%nat; 1%nat]] (ham_of (pair_mod q0 p0 h) (step_controls sv b0 (Some (repeat pair_ctrl n)) i)).
Proof.
  intros l x S Hl. destruct (Nat.lt_ge_cases i n) as [I|I]; [|elim (pair_out _ _ _ _ _ _ _ _ _ I Hl)].
  destruct l as [|q [|p [|]]]; try discriminate S. cbn [map] in S. injection S as Sq Sp.
  set (D := q @2 0%nat 0%nat - q @2 1%nat 0%nat). set (P := p @2 0%nat 0%nat + p @2 1%nat 0%nat - 1). set (e := exp (- (1 / 2) * D ^ 2)).
  exists [two (- P * e * D) (P * e * D); two (1 + e) (1 + e)]. split; [cbn; congruence|]. intros u Su.
  destruct u as [|u [|v [|]]]; try discriminate Su. cbn [map] in Su. injection Su as Su Sv.
  exists 1, (fun s => (P + s * (v @2 0%nat 0%nat + v @2 1%nat 0%nat)) * (1 + exp (- (1 / 2) * (D + s * (u @2 0%nat 0%nat - u @2 1%nat 0%nat)) ^ 2))).
  split; [lra|]. split.
  - intros s _. unfold ladd, lscal. cbn [map combine fst snd]. rewrite (pair_hamiltonian sv b0 n i); [|exact I|exact Sq|exact Sp]. f_equal. unfold pair_ham. cbn [tadd tmap2 tscal tmap get].
    unfold D, P. f_equal; [ring|]. do 3 f_equal. ring.
  - apply is_derive_Reals. auto_derive; [trivial|]. unfold ldot. cbn [map combine fold_right fst snd].
    rewrite !tdot_sum by (cbn; congruence). cbn.
    match goal with |- context [exp ?z] => replace z with (- (1 / 2) * D ^ 2) by (cbn; ring) end. fold e. field.
Qed.

Lemma differentiable_gradient F l : differentiable F l -> exists G, is_gradient F l G.
Proof.
  intros (G & S & H). exists (map Some G). split; [rewrite map_length, <- (map_length shape G), S, map_length; reflexivity|].
  intros i t E. pose proof (map_nth_error shape _ _ E) as M. rewrite <- S in M. rewrite nth_error_map in M.
  destruct (nth_error G i) as [g|] eqn:Eg; [|discriminate M]. cbn in M. injection M as M. rewrite (map_nth_error Some _ _ Eg). split; [exact M|].
  intros idx V. destruct (H (unit_at l i idx) (unit_shape l i idx)) as (eps & f & P & Q & D).
  rewrite (ldot_unit G l i idx t S E V) in D. exists eps, (fun s => f (s - entry l i idx)). split; [exact P|]. split.
  - intros s B. rewrite <- (Q _ B), (ladd_unit l i idx _ t E). do 2 f_equal. ring.
  - apply (lim_translate f 0 _ (entry l i idx)) in D. rewrite Rplus_0_l in D. unfold entry in D at 3. rewrite Eg in D. exact D.
Qed.

Lemma pair_step sv b0 dt n i q p h : (i < n)%nat -> shape q = [2%nat; 1%nat] -> shape p = [2%nat; 1%nat] ->
  exists q' p', euler_step sv b0 std_ag dt (Some (repeat pair_ctrl n)) i (pair_mod q p h) = Ok (pair_mod q' p' (two 1 1)) /\
    shape q' = [2%nat; 1%nat] /\ shape p' = [2%nat; 1%nat].
Proof.
  intros I Sq Sp.
  assert (G : is_ok (std_ag (ham_of (pair_mod q p (two 1 1)) (step_controls sv b0 (Some (repeat pair_ctrl n)) i)) [q; p])).
  { apply std_ok, differentiable_gradient. eapply pair_smooth; [cbn; congruence|apply pair_hamiltonian; assumption]. }
  assert (C : step_controls sv b0 (Some (repeat pair_ctrl n)) i (pair_mod q p h) = Ok (pair_mod q p (two 1 1))).
  { unfold step_controls. replace (nth_error (repeat pair_ctrl n) i) with (Some pair_ctrl) by (symmetry; apply nth_error_repeat; exact I). reflexivity. }
  unfold euler_step. rewrite C. cbn [bind]. unfold gradients. change (g_gd (mod_manifold (pair_mod q p (two 1 1))) ++ g_cotan (mod_manifold (pair_mod q p (two 1 1)))) with [q; p].
  unfold std_ag in *. destruct (classic (exists G, is_gradient (ham_of (pair_mod q p (two 1 1)) (step_controls sv b0 (Some (repeat pair_ctrl n)) i)) [q; p] G)) as [Y|N].
  - destruct (excluded_middle_informative _) as [Y'|N']; [|elim (N' Y)]. cbn.
    do 2 eexists. split; [reflexivity|]. cbn. split; assumption.
  - destruct (excluded_middle_informative _) as [Y'|N']; [elim (N Y')|]. destruct G as (y & G). discriminate G.
Qed.

Example C72_hypotheses : forall ck others sv b0 it t1, (0 < it)%nat ->
  exact_grad std_ag /\ wf_gman 1 (mod_manifold pair0) /\ (forall v, follows 1 (vec 1 v) pair0) /\
  (forall i, smooth_on (map shape (phase (mod_manifold pair0))) (ham_of pair0 (step_controls sv b0 (Some (repeat pair_ctrl it)) i))) /\
  (exists sh, shoot ck others sv b0 std_ag "torch_euler" it t1 (Some (repeat pair_ctrl it)) false None pair0 = Ok sh) /\
  linear_momentum (mod_manifold pair0) 0 = 3 /\
  shootable ex0 /\ wf_gman 1 (mod_manifold ex0) /\ (forall v, follows 1 (vec 1 v) ex0) /\
  smooth_on (map shape (phase (mod_manifold ex0))) (ham_of ex0 (geodesic_controls sv b0)).
Proof.
  intros ck others sv b0 it t1 IT. split; [exact std_exact|]. split; [cbn; tauto|]. split; [cbn; tauto|].
  split; [intros i; apply pair_smooth|]. split; [|split; [cbn; ring|split; [exact ex_shootable|split; [cbn; tauto|split; [cbn; tauto|]]]]].
  - unfold shoot. change (String.eqb "torch_euler" "torch_euler") with true. cbn iota. unfold shoot_euler. destruct (Nat.eqb_spec it 0); [lia|].
    assert (Lp : forall n i q p h acc, (i + n = it)%nat -> shape q = [2%nat; 1%nat] -> shape p = [2%nat; 1%nat] ->
      is_ok (euler_loop sv b0 std_ag (1 / INR it) (Some (repeat pair_ctrl it)) false n i (pair_mod q p h) acc)).
    { induction n0 as [|n0 IH]; intros i q p h acc L Sq Sp; cbn [euler_loop]; [eexists; reflexivity|].
      destruct (pair_step sv b0 (1 / INR it) it i q p h ltac:(lia) Sq Sp) as (q' & p' & E & Sq' & Sp'). rewrite E. cbn [bind]. apply IH; [lia|assumption|assumption]. }
    destruct (Lp it 0%nat (two 0 1) (two 1 2) (two 0 0) (mkInter [mod_manifold pair0] []) eq_refl eq_refl eq_refl) as ((m1 & i1) & E).
    fold pair0 in E. rewrite E. eexists; reflexivity.
  - intros l x S Hl. destruct l as [|q [|p [|]]]; try discriminate S. cbn [map] in S. injection S as Sq Sp.
    exists [tzeros [1%nat; 1%nat]; p]. split; [cbn; congruence|]. intros u Su. destruct u as [|u [|v [|]]]; try discriminate Su. cbn [map] in Su. injection Su as Su Sv.
    exists 1, (fun s => 1 / 2 * (p @2 0%nat 0%nat + s * v @2 0%nat 0%nat) ^ 2). split; [lra|]. split.
    + intros s _. unfold ladd, lscal. cbn [map combine fst snd]. unfold ex0. rewrite ex_ham; [|assumption|assumption|reflexivity]. reflexivity.
    + apply is_derive_Reals. auto_derive; [trivial|]. unfold ldot. cbn [map combine fold_right fst snd].
      rewrite !tdot_sum by (cbn; congruence). rewrite Sp. cbn. field.
Qed.
