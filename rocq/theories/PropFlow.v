(** Property theorems about pairs of points during shooting (C78). *)
From Coq Require Import Reals String List Arith Lia Lra Psatz Classical_Prop ClassicalEpsilon.
From Coquelicot Require Import Coquelicot.
From Verif Require Import Py RSum Tensor TensorFacts KernelModel FieldModel GeometryModel ModuleModel ShootingModel
  SpecField SpecGeometry SpecModule SpecShooting SpecMotion SpecTransport FieldFacts FieldLinear GeometryFacts ModuleMain ModuleHistory ShootingPack ShootingDyn ShootingFinal ShootingInst ShootingExample PropShooting
  MotionFacts MotionShoot MotionMomentum MotionExample PropMomentum SolverExists TransportFacts LipschitzFacts FlowFacts PropTransport.
Import ListNotations.
Open Scope R_scope.

(** ** C78 *)

(** torch_euler, geodesic or given controls: when the fields of the steps bring points
    together at rate at most L, the distance of two points (of the same member or not) stays
    between (1 - L/it)^n and (1 + L/it)^n times the initial one after n steps. *)
Theorem C78_distances : forall ck others sv b0 ag it t1 cs keep costs0 d m sh,
  exact_grad ag -> exact_solver sv -> wf_mod d m -> locals_total d m ->
  (forall l c, cs = Some l -> In c l -> ctrl_ok d m c) ->
  shoot ck others sv b0 ag "torch_euler" it t1 cs keep costs0 m = Ok sh ->
  exists states mods,
    length states = S it /\ length mods = it /\
    nth_error states 0 = Some (mod_manifold m) /\ nth_error states it = Some (mod_manifold (sh_mod sh)) /\
    (forall n g mn, nth_error states n = Some g -> nth_error mods n = Some mn ->
       at_state m (step_controls sv b0 cs n) (phase g) = Ok mn) /\
    Forall (fun g => skel g = skel (mod_manifold m) /\ map shape (phase g) = map shape (phase (mod_manifold m))) states /\
    forall L, (forall mn f, In mn mods -> field_generator mn = Ok f -> rate d f <= L) -> L <= INR it ->
    forall n g j i j' i' u0 v0 u v, nth_error states n = Some g ->
      point_at (mod_manifold m) j i u0 -> point_at (mod_manifold m) j' i' v0 -> point_at g j i u -> point_at g j' i' v ->
      (1 - L / INR it) ^ n * dist1 d u0 v0 <= dist1 d u v <= (1 + L / INR it) ^ n * dist1 d u0 v0.
Proof.
  intros ck others sv b0 ag it t1 cs keep costs0 d m sh EX HS W LT CO E.
  destruct (C77_points ck others sv b0 ag it t1 cs keep costs0 d m sh EX HS W LT CO E) as (states & mods & LS & LM & E0 & E1 & AT & SK & P).
  exists states, mods. repeat (split; [assumption|]). intros L HL HI. rewrite Forall_forall in SK.
  assert (IT : (0 < it)%nat \/ it = 0%nat) by lia. destruct IT as [IT|IT].
  2: { intros n g j i j' i' u0 v0 u v Eg (a1 & a2 & a3 & a4 & a5 & A1 & A2 & _ & ->) (b1 & b2 & b3 & b4 & b5 & B1 & B2 & _ & ->) (c1 & c2 & c3 & c4 & c5 & C1 & C2 & _ & ->) (d1 & d2 & d3 & d4 & d5 & D1 & D2 & _ & ->).
       assert (n = 0%nat) as -> by (apply (fun H => proj1 (nth_error_Some states n) H) || idtac; assert (n < length states)%nat by (apply nth_error_Some; congruence); lia).
       rewrite E0 in Eg. injection Eg as <-. rewrite A1 in B1, C1, D1. injection B1 as <-. injection C1 as <-. injection D1 as <-.
       rewrite A2 in C2. rewrite B2 in D2. injection C2 as <- <- <- <-. injection D2 as <- <- <- <-. cbn. lra. }
  assert (IP : 0 < INR it) by (apply lt_0_INR; exact IT).
  assert (HD : 0 <= 1 - L / INR it). { assert (L / INR it <= 1); [|lra]. apply Rmult_le_reg_r with (INR it); [exact IP|]. unfold Rdiv. rewrite Rmult_assoc, Rinv_l by lra. lra. }
  induction n as [|n IH]; intros g j i j' i' u0 v0 u v Eg P1 P2 Q1 Q2.
  - rewrite E0 in Eg. injection Eg as <-.
    destruct P1 as (a1 & a2 & a3 & a4 & a5 & A1 & A2 & _ & ->), P2 as (b1 & b2 & b3 & b4 & b5 & B1 & B2 & _ & ->), Q1 as (c1 & c2 & c3 & c4 & c5 & C1 & C2 & _ & ->), Q2 as (d1 & d2 & d3 & d4 & d5 & D1 & D2 & _ & ->).
    rewrite A1 in B1, C1, D1. injection B1 as <-. injection C1 as <-. injection D1 as <-.
    rewrite A2 in C2. rewrite B2 in D2. injection C2 as <- <- <- <-. injection D2 as <- <- <- <-. cbn. lra.
  - destruct (nth_error states n) as [g1|] eqn:Eg1; [|apply nth_error_None in Eg1; assert (S n < length states)%nat by (apply nth_error_Some; congruence); lia].
    assert (In1 : (n < it)%nat) by (assert (S n < length states)%nat by (apply nth_error_Some; congruence); lia).
    destruct (nth_error mods n) as [mn|] eqn:Em; [|apply nth_error_None in Em; lia].
    destruct (SK _ (nth_error_In _ _ Eg1)) as (K1 & S1). destruct (SK _ (nth_error_In _ _ Eg)) as (K2 & S2).
    destruct (point_skel _ g1 j i u0 (eq_sym K1) P1) as (u1 & U1). destruct (point_skel _ g1 j' i' v0 (eq_sym K1) P2) as (v1 & V1).
    destruct (IH g1 j i j' i' u0 v0 u1 v1 eq_refl P1 P2 U1 V1) as (I1 & I2). clear IH.
    destruct (state_field sv b0 d cs n m g1 mn HS W LT CO K1 S1 (AT n g1 mn Eg1 Em)) as (M & WG & f & FG & Wf & H1).
    assert (ST : forall j i w1 w, point_at g1 j i w1 -> point_at g j i w -> forall a, (a < d)%nat -> w a = w1 a + 1 / INR it * fval d f w1 a).
    { clear j i j' i' P1 P2 Q1 Q2 U1 V1. intros j i w1 w (gs & dim & nb & x & c & -> & Ej & Ii & ->) (gs' & dim' & nb' & x' & c' & -> & Ej' & Ii' & ->) a Ha.
      destruct (P n mn gs gs' j dim nb x c dim' nb' x' c' Em Eg1 Eg Ej Ej') as (f' & y & FG' & FE & SY & T). rewrite FG in FG'. injection FG' as <-.
      pose proof (wf_members d gs j _ WG Ej) as WL. cbn in WL. destruct WL as (-> & SX & _).
      destruct (feval_0 d f x nb Wf (has1_has0 f H1) SX) as (y' & FE' & _ & V). rewrite FE in FE'. injection FE' as <-. destruct T as (T1 & T2).
      rewrite T2; [|rewrite T1; cbn; rewrite SX; cbn; auto]. cbn [tadd tmap2 tscal tmap get]. rewrite V by (cbn; auto). reflexivity. }
    destruct (step_dist d f (1 / INR it) L u1 v1 u v Wf) as (A & B).
    + apply Rlt_le, Rdiv_lt_0_compat; lra.
    + exact (HL mn f (nth_error_In _ _ Em) FG).
    + exact (ST j i u1 u U1 Q1).
    + exact (ST j' i' v1 v V1 Q2).
    + replace (1 / INR it * L) with (L / INR it) in A, B by (field; lra).
      pose proof (dist1_nneg d u1 v1) as N1.
      assert (N2 : 0 <= L / INR it). { apply sum_over_nneg; [|exact IP]. eapply Rle_trans; [exact (rate_nneg d f Wf)|]. exact (HL mn f (nth_error_In _ _ Em) FG). }
      cbn [pow]. split.
      * eapply Rle_trans; [|exact A]. rewrite Rmult_assoc. apply Rmult_le_compat_l; [exact HD|exact I1].
      * eapply Rle_trans; [exact B|]. rewrite Rmult_assoc. apply Rmult_le_compat_l; [lra|exact I2].
Qed.
Print Assumptions C78_distances.

(** Given controls: with more steps than the strength L of the controls, distinct points
    never meet, and their distance is controlled by L alone. *)
Theorem C78_given_controls : forall ck others sv b0 ag it t1 cs keep costs0 d m sh L,
  exact_grad ag -> exact_solver sv -> wf_mod d m -> locals_total d m ->
  (forall c, In c cs -> ctrl_ok d m c) ->
  (forall c, In c cs -> exists r, drive d m c = Some r /\ r <= L) -> L < INR it ->
  shoot ck others sv b0 ag "torch_euler" it t1 (Some cs) keep costs0 m = Ok sh ->
  forall j i j' i' u0 v0 u v,
    point_at (mod_manifold m) j i u0 -> point_at (mod_manifold m) j' i' v0 ->
    point_at (mod_manifold (sh_mod sh)) j i u -> point_at (mod_manifold (sh_mod sh)) j' i' v ->
    (1 - L / INR it) ^ it * dist1 d u0 v0 <= dist1 d u v <= (1 + L / INR it) ^ it * dist1 d u0 v0 /\
    ((exists a, (a < d)%nat /\ u0 a <> v0 a) -> exists a, (a < d)%nat /\ u a <> v a).
Proof.
  intros ck others sv b0 ag it t1 cs keep costs0 d m sh L EX HS W LT CO DR HI E j i j' i' u0 v0 u v P1 P2 Q1 Q2.
  destruct (C78_distances ck others sv b0 ag it t1 (Some cs) keep costs0 d m sh EX HS W LT) as (states & mods & LS & LM & E0 & E1 & AT & SK & P).
  { intros l c El I. injection El as <-. exact (CO c I). }
  { exact E. }
  assert (X : (1 - L / INR it) ^ it * dist1 d u0 v0 <= dist1 d u v <= (1 + L / INR it) ^ it * dist1 d u0 v0).
  { apply (P L) with (g := mod_manifold (sh_mod sh)) (j := j) (i := i) (j' := j') (i' := i'); try assumption; [|lra].
    intros mn f I G. apply In_nth_error in I. destruct I as (n & En). assert (n < it)%nat by (rewrite <- LM; apply nth_error_Some; congruence).
    destruct (nth_error states n) as [g|] eqn:Eg; [|apply nth_error_None in Eg; lia]. rewrite Forall_forall in SK. destruct (SK _ (nth_error_In _ _ Eg)) as (K & S).
    pose proof (AT n g mn Eg En) as A. assert (C : exists c, nth_error cs n = Some c).
    { unfold at_state, step_controls in A. destruct (write_manifold m (phase g)); [|discriminate A]. cbn [bind] in A. destruct (nth_error cs n) as [c|]; [exists c; reflexivity|discriminate A]. }
    destruct C as (c & Ec). destruct (DR c (nth_error_In _ _ Ec)) as (r & D & Lr). rewrite (state_rate sv b0 d cs n m g mn c r f W LT K S A Ec D G). exact Lr. }
  split; [exact X|]. intros (a & Ha & Na). pose proof (dist1_pos d u0 v0 a Ha Na) as D0.
  assert (IP : 0 < INR it).
  { destruct it as [|it']; [|apply lt_0_INR; lia]. exfalso. unfold shoot in E. change (String.eqb "torch_euler" "torch_euler") with true in E. cbn iota in E. unfold shoot_euler in E. cbn in E. discriminate E. }
  assert (HD : 0 < 1 - L / INR it). { assert (L / INR it < 1); [|lra]. apply Rmult_lt_reg_r with (INR it); [exact IP|]. unfold Rdiv. rewrite Rmult_assoc, Rinv_l by lra. lra. }
  assert (D1 : 0 < dist1 d u v). { eapply Rlt_le_trans; [|apply X]. apply Rmult_lt_0_compat; [apply pow_lt; exact HD|exact D0]. }
  destruct (classic (exists a, (a < d)%nat /\ u a <> v a)) as [Y|N]; [exact Y|]. exfalso.
  assert (Z : dist1 d u v = 0); [|lra]. apply rsum_zero. intros b Hb. destruct (Req_dec (u b) (v b)) as [->|Q]; [|elim N; eauto]. rewrite Rminus_diag_eq, Rabs_R0; reflexivity.
Qed.
Print Assumptions C78_given_controls.

(** Without such a bound points do meet: two points at distance 1, one step. *)
Definition pull (a : R) : ctrl := CList [CLeaf (two a 0)].
Definition pull_ham (a : R) (q p : tensor) : R :=
  (p @2 0%nat 0%nat * a + p @2 1%nat 0%nat * a * exp (- (1 / 2) * (q @2 0%nat 0%nat - q @2 1%nat 0%nat) ^ 2)) - 1 / 2 * a ^ 2.

Lemma pull_hamiltonian sv b0 a q0 p0 h q p : shape q = [2%nat; 1%nat] -> shape p = [2%nat; 1%nat] ->
  ham_of (pair_mod q0 p0 h) (step_controls sv b0 (Some [pull a]) 0) [q; p] = Ok (pull_ham a q p).
Proof.
  destruct q as [sq q]. destruct p as [sp p]. cbn [shape]. intros -> ->. unfold ham_of, step_controls, pull.
  cbn. f_equal. unfold pull_ham. cbn.
  set (x := q [0%nat; 0%nat]). set (y := q [1%nat; 0%nat]).
  repeat match goal with |- context [exp ?e] =>
    match e with 0 => fail 1 | - (1 / 2) * ((x - y) * ((x - y) * 1)) => fail 1 | _ =>
      first [replace e with 0 by field | replace e with (- (1 / 2) * ((x - y) * ((x - y) * 1))) by field] end end.
  rewrite exp_0. field.
Qed.

Lemma pull_step sv b0 a q p h : shape q = [2%nat; 1%nat] -> shape p = [2%nat; 1%nat] ->
  is_ok (euler_step sv b0 std_ag (1 / INR 1) (Some [pull a]) 0 (pair_mod q p h)).
Proof.
  intros Sq Sp.
  assert (G : exists G, is_gradient (ham_of (pair_mod q p (two a 0)) (step_controls sv b0 (Some [pull a]) 0)) [q; p] G).
  { apply differentiable_gradient.
    set (D := q @2 0%nat 0%nat - q @2 1%nat 0%nat). set (e := exp (- (1 / 2) * D ^ 2)). set (p1 := p @2 1%nat 0%nat).
    exists [two (- (p1 * a * e * D)) (p1 * a * e * D); two a (a * e)]. split; [cbn; congruence|]. intros u Su.
    destruct u as [|u [|v [|]]]; try discriminate Su. cbn [map] in Su. injection Su as Su Sv.
    exists 1, (fun s => ((p @2 0%nat 0%nat + s * v @2 0%nat 0%nat) * a + (p1 + s * v @2 1%nat 0%nat) * a * exp (- (1 / 2) * (D + s * (u @2 0%nat 0%nat - u @2 1%nat 0%nat)) ^ 2)) - 1 / 2 * a ^ 2).
    split; [lra|]. split.
    - intros s _. unfold ladd, lscal. cbn [map combine fst snd]. rewrite (pull_hamiltonian sv b0 a); [|exact Sq|exact Sp]. f_equal. unfold pull_ham. cbn [tadd tmap2 tscal tmap get].
      unfold D, p1. do 4 f_equal; ring.
    - apply is_derive_Reals. auto_derive; [trivial|]. unfold ldot. cbn [map combine fold_right fst snd].
      rewrite !tdot_sum by (cbn; congruence). cbn.
      match goal with |- context [exp ?z] => replace z with (- (1 / 2) * D ^ 2) by (cbn; ring) end. fold e. unfold p1, D. field. }
  apply std_ok in G. destruct G as (y & G). unfold euler_step. change (step_controls sv b0 (Some [pull a]) 0 (pair_mod q p h)) with (Ok (pair_mod q p (two a 0))). cbn [bind].
  unfold gradients. change (g_gd (mod_manifold (pair_mod q p (two a 0))) ++ g_cotan (mod_manifold (pair_mod q p (two a 0)))) with [q; p]. rewrite G.
  unfold std_ag in G. destruct (excluded_middle_informative _) as [Y'|N']; [|discriminate G]. injection G as <-. cbn. eexists. reflexivity.
Qed.

Theorem C78_unbounded_refuted : forall ck others b0 t1,
  exists ag sv m c sh, exact_grad ag /\ exact_solver sv /\ wf_mod 1 m /\ locals_total 1 m /\ ctrl_ok 1 m c /\
    shoot ck others sv b0 ag "torch_euler" 1 t1 (Some [c]) false None m = Ok sh /\
    exists u0 v0 u v,
      point_at (mod_manifold m) 0 0 u0 /\ point_at (mod_manifold m) 0 1 v0 /\ dist1 1 u0 v0 = 1 /\
      point_at (mod_manifold (sh_mod sh)) 0 0 u /\ point_at (mod_manifold (sh_mod sh)) 0 1 v /\ u 0%nat = v 0%nat.
Proof.
  intros ck others b0 t1. set (a := / (1 - exp (- (1 / 2)))). exists std_ag, exact_sv, pair0, (pull a).
  assert (S : exists sh, shoot ck others exact_sv b0 std_ag "torch_euler" 1 t1 (Some [pull a]) false None pair0 = Ok sh).
  { unfold shoot. change (String.eqb "torch_euler" "torch_euler") with true. cbn iota. unfold shoot_euler. change (Nat.eqb 1 0) with false. cbn iota. cbn [euler_loop].
    destruct (pull_step exact_sv b0 a (two 0 1) (two 1 2) (two 0 0) eq_refl eq_refl) as (m1 & E1). fold pair0 in E1. rewrite E1. cbn [bind]. eexists; reflexivity. }
  destruct S as (sh & E). exists sh. split; [exact std_exact|]. split; [exact exact_sv_exact|].
  assert (W : wf_mod 1 pair0) by (cbn; repeat split; (lra || discriminate)). assert (LT : locals_total 1 pair0) by (cbn; tauto).
  assert (CO : ctrl_ok 1 pair0 (pull a)) by (cbn; auto).
  repeat (split; [assumption|]).
  destruct (C77_points ck others exact_sv b0 std_ag 1 t1 (Some [pull a]) false None 1 pair0 sh std_exact exact_sv_exact W LT) as (states & mods & LS & LM & E0 & E1 & AT & SK & P).
  { intros l c El I. injection El as <-. destruct I as [<-|[]]. exact CO. }
  { exact E. }
  rewrite Forall_forall in SK. destruct (SK _ (nth_error_In _ _ E1)) as (K & _).
  assert (P0 : point_at (mod_manifold pair0) 0 0 (fun k => (two 0 1) @2 0%nat k)) by (exists [GLm 1 2 (two 0 1) (two 1 2)], 1%nat, 2%nat, (two 0 1), (two 1 2); repeat (split; [reflexivity || (cbn; lia)|]); reflexivity).
  assert (P1 : point_at (mod_manifold pair0) 0 1 (fun k => (two 0 1) @2 1%nat k)) by (exists [GLm 1 2 (two 0 1) (two 1 2)], 1%nat, 2%nat, (two 0 1), (two 1 2); repeat (split; [reflexivity || (cbn; lia)|]); reflexivity).
  exists (fun k => (two 0 1) @2 0%nat k), (fun k => (two 0 1) @2 1%nat k).
  destruct (point_skel _ _ 0 0 _ (eq_sym K) P0) as (u & U). destruct (point_skel _ _ 0 1 _ (eq_sym K) P1) as (v & V). exists u, v.
  split; [exact P0|]. split; [exact P1|]. split. { unfold dist1. cbn. rewrite Rabs_left; lra. } split; [exact U|]. split; [exact V|].
  destruct mods as [|mn [|]]; try discriminate LM.
  destruct U as (gs & dim & nb & x & c & EM & Ej & _ & ->), V as (gs' & dim' & nb' & x' & c' & EM' & Ej' & _ & ->). rewrite EM in EM'. injection EM' as <-. rewrite Ej in Ej'. injection Ej' as <- <- <- <-.
  rewrite EM in E1. destruct (P 0%nat mn _ gs 0%nat 1%nat 2%nat (two 0 1) (two 1 2) dim nb x c eq_refl E0 E1 eq_refl Ej) as (f & y & FG & FE & SY & (T1 & T2)).
  pose proof (AT 0%nat _ mn E0 eq_refl) as A. change (at_state pair0 _ _) with (Ok (pair_mod (two 0 1) (two 1 2) (two a 0))) in A. injection A as <-.
  change (field_generator _) with (Ok (SF_sum [SF_0 Torch (two 0 1) (two a 0) 1])) in FG. injection FG as <-.
  destruct (feval_0 1 (SF_sum [SF_0 Torch (two 0 1) (two a 0) 1]) (two 0 1) 2) as (y' & FE' & _ & V); [| |reflexivity|].
  { cbn. repeat split; try discriminate; try lra. exists 2%nat. auto. } { cbn. auto. }
  rewrite FE in FE'. injection FE' as <-. cbn beta. rewrite !T2 by (rewrite T1; cbn; auto). cbn [tadd tmap2 tscal tmap get]. rewrite !V by (cbn; auto).
  cbn. unfold SpecKernel.vsub, SpecKernel.vrow, SpecKernel.gaussian, SpecKernel.sqn. cbn.
  assert (NZ : 1 - exp (- (1 / 2)) <> 0). { pose proof (exp_increasing (- (1 / 2)) 0 ltac:(lra)) as X. rewrite exp_0 in X. lra. }
  repeat match goal with |- context [exp ?e] =>
    match e with 0 => fail 1 | - (1 / 2) => fail 1 | _ => first [replace e with 0 by field | replace e with (- (1 / 2)) by field] end end.
  rewrite exp_0. unfold a. field. exact NZ.
Qed.
Print Assumptions C78_unbounded_refuted.

Example C78_hypotheses : forall ck others b0 it t1, (2 < it)%nat ->
  exact_grad std_ag /\ exact_solver exact_sv /\ wf_mod 1 pair0 /\ locals_total 1 pair0 /\
  (forall c, In c (repeat pair_ctrl it) -> ctrl_ok 1 pair0 c) /\
  (forall c, In c (repeat pair_ctrl it) -> exists r, drive 1 pair0 c = Some r /\ r <= 2) /\ 2 < INR it /\
  (exists sh, shoot ck others exact_sv b0 std_ag "torch_euler" it t1 (Some (repeat pair_ctrl it)) false None pair0 = Ok sh) /\
  exists u v, point_at (mod_manifold pair0) 0 0 u /\ point_at (mod_manifold pair0) 0 1 v /\ u 0%nat <> v 0%nat.
Proof.
  intros ck others b0 it t1 IT. destruct (C77_hypotheses ck others b0 it t1 ltac:(lia)) as (A & _ & B & C & D & CO & S & _).
  repeat (split; [assumption|]). split; [intros c I; apply (CO _ c eq_refl I)|]. split; [|split; [|split; [exact S|]]].
  - intros c I. apply repeat_spec in I. subst c. eexists. split; [reflexivity|]. cbn. rewrite Rabs_R1. lra.
  - change 2 with (INR 2). apply lt_INR. exact IT.
  - exists (fun k => (two 0 1) @2 0%nat k), (fun k => (two 0 1) @2 1%nat k). split; [exists [GLm 1 2 (two 0 1) (two 1 2)], 1%nat, 2%nat, (two 0 1), (two 1 2); repeat (split; [reflexivity || (cbn; lia)|]); reflexivity|]. split; [exists [GLm 1 2 (two 0 1) (two 1 2)], 1%nat, 2%nat, (two 0 1), (two 1 2); repeat (split; [reflexivity || (cbn; lia)|]); reflexivity|]. cbn. lra.
Qed.
