(** The three fixed step schemes, with exact times. *)
From Coq Require Import Reals String List Arith ZArith Lia Lra.
From Verif Require Import Py RSum Tensor TensorFacts KernelModel FieldModel GeometryModel ModuleModel ShootingModel
  SpecModule SpecShooting ModuleMain ModuleLeaves ModuleHistory GeometryFacts ShootingPack ShootingDyn ShootingRun.
Import ListNotations.
Open Scope R_scope.

Lemma Int_part_unique r (z : Z) : IZR z <= r -> r < IZR z + 1 -> Int_part r = z.
Proof.
  intros A B. destruct (base_Int_part r) as (C & D).
  assert (IZR (Int_part r) < IZR (z + 1)) by (rewrite plus_IZR; lra). apply lt_IZR in H.
  assert (IZR z < IZR (Int_part r + 1)) by (rewrite plus_IZR; lra). apply lt_IZR in H0. lia.
Qed.

Definition inc_of (s : scheme) : R -> R -> tensor -> (tensor -> strat R) -> strat R :=
  match s with SEuler => euler_inc real_clock | SMidpoint => midpoint_inc real_clock | SRk4 => rk4_inc real_clock end.

Lemma find_scheme others s : find_solver real_clock others (scheme_name s) = Some (fixed_solver real_clock (inc_of s)).
Proof. destruct s; reflexivity. Qed.

Lemma cell_euler it k : cell SEuler it (k * 1 + 0) = k.
  Proof. unfold cell, evaluations. rewrite Nat.add_0_r, Nat.mul_1_r. apply Nat.div_1_r. Qed.
  Lemma cell_mid it k j : (j < 2)%nat -> cell SMidpoint it (k * 2 + j) = k.
  Proof. intros H. unfold cell, evaluations. rewrite Nat.div_add_l by lia. rewrite Nat.div_small by assumption. lia. Qed.
  Lemma mod4 k j : (j < 4)%nat -> ((k * 4 + j) mod 4 = j)%nat.
  Proof. intros H. rewrite Nat.add_comm, Nat.mod_add by lia. apply Nat.mod_small. assumption. Qed.
  Lemma cell_rk it k j : (j < 3)%nat -> cell SRk4 it (k * 4 + j) = k.
  Proof. intros H. unfold cell, evaluations. rewrite mod4 by lia. destruct (Nat.eqb_spec j 3); [lia|]. rewrite Nat.div_add_l by lia. rewrite Nat.div_small by lia. lia. Qed.
  Lemma cell_rk3 it k : cell SRk4 it (k * 4 + 3) = Nat.min (k + 1) (it - 1).
  Proof. unfold cell, evaluations. rewrite mod4 by lia. cbn [Nat.eqb]. rewrite Nat.div_add_l by lia. change (3 / 4)%nat with 0%nat. rewrite Nat.add_0_r. reflexivity. Qed.

  Lemma eqb_mul k e j : (0 < e)%nat -> Nat.eqb (k * e + j) 0 = (Nat.eqb k 0 && Nat.eqb j 0)%bool.
  Proof. intros H. destruct (Nat.eqb_spec k 0) as [->|]; destruct (Nat.eqb_spec j 0) as [->|]; cbn [andb Nat.mul Nat.add]; try reflexivity; apply Nat.eqb_neq; nia. Qed.


Section Scheme.
  Variables (sv : solver) (b0 : backend) (ag : autograd) (t1 : R) (it : nat) (controls : option (list ctrl)) (keep : bool).
  Hypotheses (T1 : 0 < t1) (IT : (0 < it)%nat).
  Notation forward := (forward real_clock sv b0 ag t1 it controls keep).
  Notation steps := (steps real_clock sv b0 ag t1 it controls keep).

  Variables (Inv : fstate -> Prop) (sx : list nat) (L : tensor -> list tensor) (SH : list (list nat)) (vi : nat -> list nat)
            (D : nat -> Z -> list tensor -> list tensor -> Prop) (P : nat -> Z -> list tensor -> dmod -> Prop).
  Hypothesis L_shape : forall x, shape x = sx -> map shape (L x) = SH.
  Hypothesis L_val : forall x j, shape x = sx -> (j < shapes_numel SH)%nat -> cat_get (L x) j = get x (vi j).
  Hypothesis fwd : forall t x s y s', Inv s -> shape x = sx -> forward t x s = Ok (y, s') ->
    Inv s' /\ shape y = sx /\ D (f_it s) (f_true s') (L x) (L y) /\ P (f_it s) (f_true s') (L x) (f_mod s').

  Definition g (k : nat) : R := t1 * (INR k / INR it).
  Definition dt : R := t1 / INR it.

  Lemma it_pos : 0 < INR it.
  Proof. apply lt_0_INR. assumption. Qed.

  Lemma cell_time k c : 0 <= c -> c < 1 -> (k < it)%nat ->
    t_to_it real_clock t1 it (g k + c * dt) = Ok (Z.of_nat k).
  Proof.
    intros C1 C2 K. unfold t_to_it. cbn [index real_clock bind]. f_equal. pose proof it_pos. unfold g, dt.
    replace ((t1 * (INR k / INR it) + c * (t1 / INR it)) / (t1 / INR it)) with (INR k + c) by (field; split; lra).
    rewrite (Int_part_unique _ (Z.of_nat k)); [apply Z.min_l; lia|rewrite <- INR_IZR_INZ; lra|rewrite <- INR_IZR_INZ; lra].
  Qed.
  Lemma cell_next k : (k < it)%nat -> t_to_it real_clock t1 it (g (S k)) = Ok (Z.of_nat (Nat.min (k + 1) (it - 1))).
  Proof.
    intros K. unfold t_to_it. cbn [index real_clock bind]. f_equal. pose proof it_pos. unfold g.
    replace (t1 * (INR (S k) / INR it) / (t1 / INR it)) with (INR (S k)) by (field; split; lra).
    rewrite (Int_part_unique _ (Z.of_nat (S k))); [lia|rewrite <- INR_IZR_INZ; lra|rewrite <- INR_IZR_INZ; lra].
  Qed.
  Lemma g_step k : g (S k) - g k = dt.
  Proof. unfold g, dt. rewrite S_INR. pose proof it_pos. field. lra. Qed.
  Lemma dt_pos : 0 < dt.
  Proof. unfold dt. apply Rdiv_lt_0_compat; [assumption|apply it_pos]. Qed.
  Lemma g_nonneg k : 0 <= g k.
  Proof. unfold g. pose proof it_pos. apply Rmult_le_pos; [lra|]. apply Rmult_le_pos; [apply pos_INR|]. left. apply Rinv_0_lt_compat. assumption. Qed.
  Lemma g_zero k : g k = 0 -> k = 0%nat.
  Proof.
    unfold g. intros E. pose proof it_pos. apply Rmult_integral in E. destruct E as [E|E]; [lra|]. apply Rmult_integral in E. destruct E as [E|E].
    - apply INR_eq. exact E.
    - pose proof (Rinv_0_lt_compat _ H). lra.
  Qed.
  Lemma g_0 : g 0 = 0.
  Proof. unfold g. cbn. unfold Rdiv. ring. Qed.
  Lemma zero_time k c : 0 <= c -> is_zero real_clock (g k + c * dt) = (Nat.eqb k 0 && (if Req_EM_T c 0 then true else false))%bool.
  Proof.
    intros C. cbn [is_zero real_clock]. pose proof dt_pos. pose proof (g_nonneg k).
    destruct (Req_EM_T c 0) as [->|NC].
    - replace (g k + 0 * dt) with (g k) by ring. rewrite Bool.andb_true_r. destruct (Nat.eqb_spec k 0) as [->|NK].
      + rewrite g_0. destruct (Req_EM_T 0 0); [reflexivity|lra].
      + destruct (Req_EM_T (g k) 0) as [E|]; [elim NK; exact (g_zero k E)|reflexivity].
    - rewrite Bool.andb_false_r. destruct (Req_EM_T (g k + c * dt) 0) as [E|]; [|reflexivity].
      assert (0 < c) by lra. pose proof (Rmult_lt_0_compat _ _ H1 H). lra.
  Qed.

  Lemma numel_L x : shape x = sx -> numel (L x) = shapes_numel SH.
  Proof. intros S. apply numel_shapes_of. apply L_shape. assumption. Qed.

  Lemma L_len x y : shape x = sx -> shape y = sx -> length (L x) = length (L y).
  Proof. intros A B. rewrite <- (map_length shape (L x)), <- (map_length shape (L y)), !L_shape by assumption. reflexivity. Qed.

  (** Linear combinations. *)
  Inductive expr := EX (x : tensor) (S : shape x = sx) | EAdd (a b : expr) | EScal (c : R) (a : expr).
  Fixpoint evt (e : expr) : tensor := match e with EX x _ => x | EAdd a b => tadd (evt a) (evt b) | EScal c a => tscal c (evt a) end.
  Fixpoint evl (e : expr) : list tensor := match e with EX x _ => L x | EAdd a b => ladd (evl a) (evl b) | EScal c a => lscal c (evl a) end.
  Lemma evt_shape e : shape (evt e) = sx.
  Proof. induction e; cbn; assumption. Qed.
  Lemma evl_shape e : map shape (evl e) = SH.
  Proof.
    induction e as [x S|a IHa b IHb|c a IHa]; cbn [evl]; [apply L_shape; assumption| |rewrite lscal_shape; assumption].
    rewrite ladd_shape; [assumption|]. rewrite <- (map_length shape (evl a)), <- (map_length shape (evl b)), IHa, IHb. reflexivity.
  Qed.
  Lemma evl_val e : forall j, (j < shapes_numel SH)%nat -> cat_get (evl e) j = get (evt e) (vi j).
  Proof.
    induction e as [x S|a IHa b IHb|c a IHa]; intros j Hj; cbn [evl evt].
    - apply L_val; assumption.
    - rewrite cat_ladd; [rewrite IHa, IHb by assumption; reflexivity|rewrite !evl_shape; reflexivity|rewrite (numel_shapes_of _ _ (evl_shape a)); assumption].
    - rewrite cat_lscal; [rewrite IHa by assumption; reflexivity|rewrite (numel_shapes_of _ _ (evl_shape a)); assumption].
  Qed.
  Lemma combine_ok x e : shape x = sx -> (forall idx, get x idx = get (evt e) idx) -> leq (L x) (evl e).
  Proof.
    intros S E. apply cat_get_inj; [rewrite evl_shape; apply L_shape; assumption|]. intros k Hk. rewrite numel_L in Hk by assumption.
    rewrite L_val, evl_val by assumption. apply E.
  Qed.

  Definition F (sch : scheme) (n : nat) : list tensor -> list tensor -> Prop := D n (Z.of_nat (cell sch it n)).
  Definition ev_state (e : R * tensor * tensor * fstate) : tensor := snd (fst (fst e)).

  (** What is known of evaluation number n. *)
  Definition ev_ok (sch : scheme) (n : nat) (e : R * tensor * tensor * fstate) : Prop :=
    ev_cell real_clock e = Z.of_nat (cell sch it n) /\
    is_zero real_clock (ev_time real_clock e) = Nat.eqb n 0 /\
    P n (Z.of_nat (cell sch it n)) (L (ev_state e)) (ev_mod real_clock e).

  Lemma one_eval sch n t x s y s1 : Inv s -> shape x = sx -> forward t x s = Ok (y, s1) -> f_it s = n ->
    t_to_it real_clock t1 it t = Ok (Z.of_nat (cell sch it n)) -> is_zero real_clock t = Nat.eqb n 0 ->
    Inv s1 /\ shape y = sx /\ f_it s1 = S n /\ F sch n (L x) (L y) /\ ev_ok sch n (t, x, y, s1).
  Proof.
    intros I S E N C Z. destruct (fwd t x s y s1 I S E) as (I1 & S1 & D1 & P1). destruct (forward_book _ _ _ _ _ _ _ _ _ _ _ _ _ E) as (i & Ei & Ti & Ni & _).
    cbn [time real_clock] in *. rewrite C in Ei. injection Ei as Ei. rewrite Ti, N, <- Ei in D1, P1.
    split; [assumption|]. split; [assumption|]. split; [lia|]. split; [exact D1|]. unfold ev_ok, ev_cell, ev_time, ev_mod, ev_state. cbn [fst snd].
    split; [congruence|]. split; assumption.
  Qed.

  Ltac req := match goal with |- context [Req_EM_T ?a ?b] => destruct (Req_EM_T a b) end.
  Lemma steps_inv t x k s evs xs s' : steps (Ask t x k) s evs xs s' ->
    exists y s1 evs', evs = (t, x, y, s1) :: evs' /\ forward t x s = Ok (y, s1) /\ steps (k y) s1 evs' xs s'.
  Proof. intros H. inversion H. subst. do 3 eexists. split; [reflexivity|]. split; eassumption. Qed.
  Lemma steps_inv_end xs0 s evs xs s' : steps (Answer xs0) s evs xs s' -> evs = [] /\ xs = xs0 /\ s' = s.
  Proof. intros H. inversion H. subst. auto. Qed.

  (** One step. *)
  Lemma one_step sch k rest y0 s evs xs s' : (k < it)%nat -> Inv s -> shape y0 = sx -> f_it s = (k * evaluations sch)%nat ->
    steps (inc_of sch (g k) (g (S k)) y0 rest) s evs xs s' ->
    exists evs1 evs2 dy s1, evs = evs1 ++ evs2 /\ length evs1 = evaluations sch /\ steps (rest dy) s1 evs2 xs s' /\
      Inv s1 /\ shape dy = sx /\ f_it s1 = (S k * evaluations sch)%nat /\
      scheme_step sch (fun j => F sch (k * evaluations sch + j)) dt (L y0) (map (fun e => L (ev_state e)) evs1) (L (tadd y0 dy)) /\
      forall j e, nth_error evs1 j = Some e -> ev_ok sch (k * evaluations sch + j) e.
  Proof.
    intros K I S0 N R.
    assert (TA : forall c, 0 <= c -> c < 1 -> t_to_it real_clock t1 it (g k + c * dt) = Ok (Z.of_nat k)) by (intros; apply cell_time; assumption).
    assert (T0 : t_to_it real_clock t1 it (g k) = Ok (Z.of_nat k)) by (replace (g k) with (g k + 0 * dt) by ring; apply TA; lra).
    assert (Z0 : is_zero real_clock (g k) = Nat.eqb k 0).
    { replace (g k) with (g k + 0 * dt) by ring. rewrite zero_time by lra. req; [apply Bool.andb_true_r|lra]. }
    assert (ZA : forall c, 0 < c -> is_zero real_clock (g k + c * dt) = false).
    { intros c Hc. rewrite zero_time by lra. req; [lra|apply Bool.andb_false_r]. }
    destruct sch; cbn [inc_of evaluations] in *.
    - unfold euler_inc in R. apply steps_inv in R. destruct R as (y & s1 & evs' & -> & E & R1).
      destruct (one_eval SEuler (k * 1 + 0) _ _ _ _ _ I S0 E) as (I1 & S1 & N1 & F1 & O1).
      { lia. } { rewrite cell_euler. exact T0. } { rewrite eqb_mul by lia. rewrite Bool.andb_true_r. exact Z0. }
      exists [(g k, y0, y, s1)], evs', (tscal (toR real_clock (t_sub real_clock (g (S k)) (g k))) y), s1.
      split; [reflexivity|]. split; [reflexivity|]. split; [exact R1|]. split; [assumption|]. split; [assumption|]. split; [lia|]. split.
      + exists (L y). split; [reflexivity|]. split; [exact F1|]. cbn [toR t_sub real_clock].
        apply (combine_ok _ (EAdd (EX y0 S0) (EScal dt (EX y S1)))); [assumption|]. intros idx. cbn. rewrite g_step. reflexivity.
      + intros [|[|]] e He; cbn in He; try discriminate. injection He as <-. exact O1.
    - unfold midpoint_inc in R. apply steps_inv in R. destruct R as (y & s1 & evs' & -> & E & R1).
      apply steps_inv in R1. destruct R1 as (y2 & s2 & evs'' & -> & E2 & R2). cbn [toR t_sub t_half t_add real_clock] in *. rewrite g_step in *.
      destruct (one_eval SMidpoint (k * 2 + 0) _ _ _ _ _ I S0 E) as (I1 & S1 & N1 & F1 & O1).
      { lia. } { rewrite cell_mid by lia. exact T0. } { rewrite eqb_mul by lia. rewrite Bool.andb_true_r. exact Z0. }
      assert (Sm : shape (tadd y0 (tscal (1 / 2 * dt) y)) = sx) by exact S0.
      destruct (one_eval SMidpoint (k * 2 + 1) _ _ _ _ _ I1 Sm E2) as (I2 & S2 & N2 & F2 & O2).
      { lia. } { rewrite cell_mid by lia. apply TA; lra. } { rewrite eqb_mul by lia. rewrite Bool.andb_false_r. apply ZA; lra. }
      exists [(g k, y0, y, s1); (g k + 1 / 2 * dt, tadd y0 (tscal (1 / 2 * dt) y), y2, s2)], evs'', (tscal dt y2), s2.
      split; [reflexivity|]. split; [reflexivity|]. split; [exact R2|]. split; [assumption|]. split; [assumption|]. split; [lia|]. split.
      + exists (L y), (L (tadd y0 (tscal (1 / 2 * dt) y))), (L y2). split; [reflexivity|]. split; [exact F1|]. split; [|split; [exact F2|]].
        * apply (combine_ok _ (EAdd (EX y0 S0) (EScal (dt / 2) (EX y S1)))); [assumption|]. intros idx. cbn. lra.
        * apply (combine_ok _ (EAdd (EX y0 S0) (EScal dt (EX y2 S2)))); [assumption|]. intros idx. reflexivity.
      + intros [|[|[|]]] e He; cbn in He; try discriminate; injection He as <-; assumption.
    - unfold rk4_inc in R. apply steps_inv in R. destruct R as (y & s1 & evs' & -> & E & R1).
      apply steps_inv in R1. destruct R1 as (y2 & s2 & evs2 & -> & E2 & R2).
      apply steps_inv in R2. destruct R2 as (y3 & s3 & evs3 & -> & E3 & R3).
      apply steps_inv in R3. destruct R3 as (y4 & s4 & evs4 & -> & E4 & R4).
      cbn [toR t_sub t_third t_two_thirds t_add real_clock] in *. rewrite g_step in *.
      destruct (one_eval SRk4 (k * 4 + 0) _ _ _ _ _ I S0 E) as (I1 & S1 & N1 & F1 & O1).
      { lia. } { rewrite cell_rk by lia. exact T0. } { rewrite eqb_mul by lia. rewrite Bool.andb_true_r. exact Z0. }
      match type of E2 with ShootingModel.forward _ _ _ _ _ _ _ _ ?t ?x _ = _ => set (t2 := t) in *; set (x2 := x) in * end.
      assert (Sx2 : shape x2 = sx) by exact S0.
      destruct (one_eval SRk4 (k * 4 + 1) _ _ _ _ _ I1 Sx2 E2) as (I2 & S2 & N2 & F2 & O2).
      { lia. } { rewrite cell_rk by lia. unfold t2. rewrite (Rmult_comm dt). apply TA; lra. } { rewrite eqb_mul by lia. rewrite Bool.andb_false_r. unfold t2. rewrite (Rmult_comm dt). apply ZA; lra. }
      match type of E3 with ShootingModel.forward _ _ _ _ _ _ _ _ ?t ?x _ = _ => set (t3 := t) in *; set (x3 := x) in * end.
      assert (Sx3 : shape x3 = sx) by exact S0.
      destruct (one_eval SRk4 (k * 4 + 2) _ _ _ _ _ I2 Sx3 E3) as (I3 & S3 & N3 & F3 & O3).
      { lia. } { rewrite cell_rk by lia. unfold t3. rewrite (Rmult_comm dt). apply TA; lra. } { rewrite eqb_mul by lia. rewrite Bool.andb_false_r. unfold t3. rewrite (Rmult_comm dt). apply ZA; lra. }
      match type of E4 with ShootingModel.forward _ _ _ _ _ _ _ _ ?t ?x _ = _ => set (x4 := x) in * end.
      assert (Sx4 : shape x4 = sx) by exact S0.
      destruct (one_eval SRk4 (k * 4 + 3) _ _ _ _ _ I3 Sx4 E4) as (I4 & S4 & N4 & F4 & O4).
      { lia. } { rewrite cell_rk3. apply cell_next. assumption. }
      { rewrite eqb_mul by lia. rewrite Bool.andb_false_r. replace (g (S k)) with (g k + 1 * dt) by (rewrite <- (g_step k); ring). apply ZA; lra. }
      exists [(g k, y0, y, s1); (t2, x2, y2, s2); (t3, x3, y3, s3); (g (S k), x4, y4, s4)], evs4,
        (tscal (dt / 8) (tadd (tadd y (tscal 3 (tadd y2 y3))) y4)), s4.
      split; [reflexivity|]. split; [reflexivity|]. split; [exact R4|]. split; [assumption|]. split; [assumption|]. split; [lia|]. split.
      + exists (L y), (L x2), (L y2), (L x3), (L y3), (L x4), (L y4). split; [reflexivity|]. split; [exact F1|].
        split; [|split; [exact F2|split; [|split; [exact F3|split; [|split; [exact F4|]]]]]].
        * apply (combine_ok _ (EAdd (EX y0 S0) (EScal (dt / 3) (EX y S1)))); [assumption|]. intros idx. cbn. lra.
        * apply (combine_ok _ (EAdd (EX y0 S0) (EScal dt (EAdd (EX y2 S2) (EScal (- (1 / 3)) (EX y S1)))))); [assumption|]. intros idx. cbn. lra.
        * apply (combine_ok _ (EAdd (EX y0 S0) (EScal dt (EAdd (EAdd (EX y S1) (EScal (-1) (EX y2 S2))) (EX y3 S3))))); [assumption|]. intros idx. cbn. lra.
        * apply (combine_ok _ (EAdd (EX y0 S0) (EScal (dt / 8) (EAdd (EAdd (EX y S1) (EScal 3 (EAdd (EX y2 S2) (EX y3 S3)))) (EX y4 S4))))); [assumption|]. intros idx. reflexivity.
      + intros [|[|[|[|[|]]]]] e He; cbn in He; try discriminate; injection He as <-; assumption.
  Qed.

  (** All the steps. *)
  Lemma all_steps sch n : forall k y0 acc s evs xs s', (k + n = it)%nat -> Inv s -> shape y0 = sx -> f_it s = (k * evaluations sch)%nat ->
    steps (fixed_grid real_clock (inc_of sch) (g k) (map g (seq (S k) n)) y0 acc) s evs xs s' ->
    exists ys stages, xs = acc ++ ys /\ length ys = n /\ length stages = n /\ Forall (fun y => shape y = sx) ys /\ Inv s' /\
      length evs = (n * evaluations sch)%nat /\
      (forall j l ss l', nth_error (map L (y0 :: ys)) j = Some l -> nth_error stages j = Some ss -> nth_error (map L (y0 :: ys)) (S j) = Some l' ->
         scheme_step sch (fun i => F sch ((k + j) * evaluations sch + i)) dt l ss l') /\
      map (fun e => L (ev_state e)) evs = List.concat stages /\ Forall (fun ss => length ss = evaluations sch) stages /\
      forall j e, nth_error evs j = Some e -> ev_ok sch (k * evaluations sch + j) e.
  Proof.
    induction n as [|n IH]; intros k y0 acc s evs xs s' K I S0 N R; cbn [seq map fixed_grid] in R.
    - apply steps_inv_end in R. destruct R as (-> & -> & ->). exists [], []. rewrite app_nil_r. repeat (split; [reflexivity|]). split; [constructor|]. split; [assumption|]. split; [reflexivity|].
      split; [intros [|j] l ss l' _ H; discriminate|]. split; [reflexivity|]. split; [constructor|]. intros [|j] e H; discriminate.
    - destruct (one_step sch k _ y0 s evs xs s' ltac:(lia) I S0 N R) as (evs1 & evs2 & dy & s1 & -> & L1 & R1 & I1 & Sd & N1 & ST & EV).
      cbn zeta in R1. destruct (IH (S k) (tadd y0 dy) _ s1 evs2 xs s' ltac:(lia) I1 S0 N1 R1) as (ys & stages & X & Ly & Ls & G & I2 & Le & TR & CC & SS & EV2).
      exists (tadd y0 dy :: ys), (map (fun e => L (ev_state e)) evs1 :: stages).
      split; [rewrite X, <- app_assoc; reflexivity|]. split; [cbn; lia|]. split; [cbn; lia|]. split; [constructor; [exact S0|assumption]|]. split; [assumption|].
      split; [rewrite app_length, L1, Le; reflexivity|]. split; [|split; [|split]].
      + intros [|j] l ss l' A B C.
        * cbn in A, B, C. injection A as <-. injection B as <-. injection C as <-. rewrite Nat.add_0_r. exact ST.
        * replace (k + S j)%nat with (S k + j)%nat by lia. apply TR; assumption.
      + rewrite map_app. cbn [List.concat]. rewrite <- CC. reflexivity.
      + constructor; [rewrite map_length; assumption|assumption].
      + intros j e H. destruct (le_lt_dec (length evs1) j) as [J|J].
        * rewrite nth_error_app2 in H by assumption. specialize (EV2 _ _ H). replace (k * evaluations sch + j)%nat with (S k * evaluations sch + (j - length evs1))%nat by lia. exact EV2.
        * rewrite nth_error_app1 in H by assumption. apply EV. assumption.
  Qed.
End Scheme.
