(** Solvers with an arbitrary schedule of evaluations; the choice of the controls. *)
From Coq Require Import Reals String List Arith ZArith Lia Lra.
From Verif Require Import Py RSum Tensor TensorFacts KernelModel FieldModel GeometryModel ModuleModel ShootingModel
  SpecModule SpecShooting ModuleLeaves ShootingPack ShootingDyn ShootingRun ShootingScheme ShootingMain ShootingInst ShootingFinal.
Import ListNotations.
Open Scope R_scope.

(** ** Any solver *)
Section Any.
  Variables (ck : clock) (others : string -> option (list (time ck) -> tensor -> strat (time ck))) (sv : solver) (b0 : backend) (ag : autograd).

  Lemma any_solver name it t1 controls keep costs0 m sh : name <> "torch_euler"%string ->
    shoot ck others sv b0 ag name it t1 controls keep costs0 m = Ok sh ->
    exists solve x0 (evs : list (time ck * Z * dmod)) costs,
      find_solver ck others name = Some solve /\
      initial_state (mod_manifold m) (with_mom controls) = Ok x0 /\
      asks (solve (linspace ck t1 (it + 1)) x0) (map (fun e => fst (fst e)) evs) /\
      Forall (fun e => t_to_it ck t1 it (fst (fst e)) = Ok (snd (fst e))) evs /\
      sh_costs sh = Some costs /\
      mapM cost (entering 0 (map (fun e => (snd (fst e), is_zero ck (fst (fst e)), snd e)) evs)) = Ok costs /\
      (if keep then exists i, sh_inter sh = Some i /\ mapM (fun e => clone_controls (ModuleModel.controls (snd e))) evs = Ok (in_controls i)
       else sh_inter sh = None).
  Proof.
    intros NT E. unfold shoot in E. destruct (String.eqb_spec name "torch_euler"); [congruence|]. destruct (find_solver ck others name) as [solve|] eqn:FS; [|discriminate].
    bok E r Er. destruct r as ((m1 & csts) & i). cbn [fst snd] in E. injection E as <-. cbn [sh_costs sh_inter].
    unfold shoot_torchdiffeq in Er. bok Er x0 Ex0. bok Er xss Exss. destruct xss as (xs & s). bok Er gs Egs. bok Er xl Exl. bok Er gl Egl. bok Er m1' Em1. bok Er sts Ests. injection Er as <- <- <-.
    destruct (run_steps _ _ _ _ _ _ _ _ _ _ _ _ Exss) as (evs & ST). pose proof (steps_asks _ _ _ _ _ _ _ _ _ _ _ _ _ ST) as AS.
    pose proof (steps_book _ _ _ _ _ _ _ _ _ _ _ _ _ ST) as (TI & _ & (cs & CM & CE) & KE). cbn [f_it f_costs f_controls f_true app] in *.
    exists solve, x0, (map (fun e => (ev_time ck e, ev_cell ck e, ev_mod ck e)) evs), (f_costs s).
    split; [reflexivity|]. split; [exact Ex0|]. rewrite !map_map. cbn [fst snd]. split; [exact AS|]. split.
    { rewrite Forall_map. exact TI. }
    split; [reflexivity|]. split; [rewrite CE; exact CM|].
    destruct keep; [|reflexivity]. destruct KE as (ks & KM & KE). eexists. split; [reflexivity|]. cbn [in_controls]. rewrite KE, mapM_map. exact KM.
  Qed.
End Any.

Lemma nodup_head x l : length (nodup Z.eq_dec (x :: l)) = S (length (nodup Z.eq_dec (filter (fun i => negb (Z.eqb x i)) l))).
Proof.
  assert (P : forall l, NoDup l -> length (nodup Z.eq_dec l) = length l) by (intros; rewrite nodup_fixed_point; auto).
  assert (A : NoDup (x :: nodup Z.eq_dec (filter (fun i => negb (Z.eqb x i)) l))).
  { constructor; [|apply NoDup_nodup]. rewrite nodup_In, filter_In. rewrite Z.eqb_refl. cbn. intros (_ & H). discriminate. }
  change (S (length (nodup Z.eq_dec (filter (fun i => negb (Z.eqb x i)) l)))) with (length (x :: nodup Z.eq_dec (filter (fun i => negb (Z.eqb x i)) l))).
  apply Nat.le_antisymm; apply NoDup_incl_length; try apply NoDup_nodup; try assumption.
  - intros y. rewrite nodup_In. intros [->|H]; [left; reflexivity|]. destruct (Z.eq_dec x y) as [->|N]; [left; reflexivity|]. right. rewrite nodup_In, filter_In.
    split; [assumption|]. apply Bool.negb_true_iff. apply Z.eqb_neq. assumption.
  - intros y [->|H]; [rewrite nodup_In; left; reflexivity|]. rewrite nodup_In in *. apply filter_In in H. right. tauto.
Qed.

(** When only the first evaluation is at time 0, in the cell 0, and the cells never
    decrease, as many costs are recorded as there are cells visited. *)
Lemma monotone_count {A} (a : A) (l : list (Z * bool * A)) :
  (forall e, In e l -> snd (fst e) = false) ->
  (forall i j e e', (i <= j)%nat -> nth_error ((0%Z, true, a) :: l) i = Some e -> nth_error ((0%Z, true, a) :: l) j = Some e' -> (fst (fst e) <= fst (fst e'))%Z) ->
  length (entering 0 ((0%Z, true, a) :: l)) = length (nodup Z.eq_dec (map (fun e => fst (fst e)) ((0%Z, true, a) :: l))).
Proof.
  intros NZ MO. cbn [entering map fst]. cbn [Z.eqb negb orb app length]. rewrite (nodup_head 0%Z). f_equal. apply entering_length.
  - assumption.
  - intros i e H. apply (MO 0%nat (S i) (0%Z, true, a) e); [lia|reflexivity|exact H].
  - intros i j e e' L H H'. apply (MO (S i) (S j)); [lia|exact H|exact H'].
Qed.

Lemma Int_part_le a b : a <= b -> (Int_part a <= Int_part b)%Z.
Proof.
  intros H. destruct (base_Int_part a) as (A & _). destruct (base_Int_part b) as (_ & B).
  assert (IZR (Int_part a) < IZR (Int_part b + 1)) by (rewrite plus_IZR; lra). apply lt_IZR in H0. lia.
Qed.

(** Exact times: the cells of nondecreasing times. *)
Lemma cell_monotone t1 it t t' i i' : 0 < t1 -> (0 < it)%nat -> t <= t' -> t_to_it real_clock t1 it t = Ok i -> t_to_it real_clock t1 it t' = Ok i' -> (i <= i')%Z.
Proof.
  intros T1 IT L E E'. unfold t_to_it in *. cbn [index real_clock bind] in *. injection E as <-. injection E' as <-.
  apply Z.min_le_compat_r. apply Int_part_le. unfold Rdiv at 1 3. apply Rmult_le_compat_r; [|assumption].
  left. apply Rinv_0_lt_compat. apply Rdiv_lt_0_compat; [assumption|]. apply lt_0_INR. assumption.
Qed.

Lemma cell_zero t1 it : 0 < t1 -> (0 < it)%nat -> t_to_it real_clock t1 it 0 = Ok 0%Z.
Proof.
  intros T1 IT. unfold t_to_it. cbn [index real_clock bind]. f_equal. unfold Rdiv at 1. rewrite Rmult_0_l. rewrite (Int_part_unique 0 0) by lra. lia.
Qed.

(** Nondecreasing times, the first only being 0: the number of costs is the number of
    cells visited. *)
Theorem exact_schedule others sv b0 ag name it t1 controls keep costs0 m sh : name <> "torch_euler"%string -> 0 < t1 -> (0 < it)%nat ->
  shoot real_clock others sv b0 ag name it t1 controls keep costs0 m = Ok sh ->
  exists solve x0 times cells costs,
    find_solver real_clock others name = Some solve /\
    initial_state (mod_manifold m) (with_mom controls) = Ok x0 /\
    asks (solve (linspace real_clock t1 (it + 1)) x0) times /\
    mapM (t_to_it real_clock t1 it) times = Ok cells /\
    sh_costs sh = Some costs /\
    ((exists ts, times = 0 :: ts /\ Forall (fun t => 0 < t) ts) ->
     (forall i j t t', (i <= j)%nat -> nth_error times i = Some t -> nth_error times j = Some t' -> t <= t') ->
     length costs = length (nodup Z.eq_dec cells)).
Proof.
  intros NT T1 IT E. destruct (any_solver real_clock others sv b0 ag name it t1 controls keep costs0 m sh NT E) as (solve & x0 & evs & costs & A & B & C & D & F & G & _).
  exists solve, x0, (map (fun e => fst (fst e)) evs), (map (fun e => snd (fst e)) evs), costs. split; [assumption|]. split; [assumption|]. split; [assumption|].
  assert (TC : mapM (t_to_it real_clock t1 it) (map (fun e => fst (fst e)) evs) = Ok (map (fun e => snd (fst e)) evs)) by (rewrite mapM_map; apply mapM_pure; exact D).
  split; [assumption|]. split; [assumption|]. intros (ts & TS & PS) MO. rewrite (mapM_len _ _ _ G).
  destruct evs as [|((t0 & c0) & m0) evs]; [discriminate|]. cbn [map fst snd] in TS, MO |- *. injection TS as -> TS.
  inversion D as [|? ? D0 D1]; subst. cbn [fst snd] in D0. cbn [time real_clock] in *. rewrite (cell_zero t1 it T1 IT) in D0. injection D0 as <-.
  replace (is_zero real_clock 0) with true by (cbn; destruct (Req_EM_T 0 0); [reflexivity|lra]).
  rewrite monotone_count.
  - cbn [map fst]. rewrite map_map. reflexivity.
  - intros e He. apply in_map_iff in He. destruct He as (((t & c) & mm) & <- & He). cbn [fst snd]. rewrite Forall_map, Forall_forall in PS. specialize (PS _ He). cbn [fst] in PS.
    cbn. destruct (Req_EM_T t 0); [lra|reflexivity].
  - intros i j e e' L H H'.
    assert (X : forall i e, nth_error ((0%Z, true, m0) :: map (fun e => (snd (fst e), is_zero real_clock (fst (fst e)), snd e)) evs) i = Some e ->
       exists t, nth_error (0 :: map (fun e => fst (fst e)) evs) i = Some t /\ t_to_it real_clock t1 it t = Ok (fst (fst e))).
    { clear i j e e' L H H'. intros [|i] e He; cbn in He.
      - injection He as <-. exists 0. split; [reflexivity|]. apply cell_zero; assumption.
      - rewrite nth_error_map in He. match type of He with option_map _ ?o = _ => destruct o as [x|] eqn:Ex end; [|discriminate]. injection He as <-. exists (fst (fst x)).
        split; [cbn [nth_error]; exact (map_nth_error (fun e => fst (fst e)) _ _ Ex)|]. cbn [fst]. rewrite Forall_forall in D1. apply D1. eapply nth_error_In. eassumption. }
    destruct (X i e H) as (t & Nt & Et). destruct (X j e' H') as (t' & Nt' & Et'). eapply cell_monotone; [eassumption|eassumption| |eassumption|eassumption]. exact (MO i j t t' L Nt Nt').
Qed.

(** ** The choice of the controls *)
Lemma py_nth_nat {A} (l : list A) n : py_nth l (Z.of_nat n) = match nth_error l n with Some c => Ok c | None => Err IndexError end.
Proof.
  unfold py_nth. cbv zeta. destruct (Z.ltb_spec (Z.of_nat n) 0); [lia|]. destruct (Z.ltb_spec (Z.of_nat n) 0); [lia|]. rewrite Nat2Z.id. reflexivity.
Qed.

Lemma own_set sch it n : (0 < it)%nat -> (n < evaluations sch * it)%nat ->
  control_index it (evaluations sch * it) (Z.of_nat (cell sch it n)) n = Z.of_nat n.
Proof.
  intros IT B. unfold control_index. destruct sch; cbn [evaluations] in *.
  - rewrite Nat.mul_1_l, Nat.eqb_refl, cell_e. reflexivity.
  - destruct (Nat.eqb_spec (2 * it) it); [lia|]. destruct (Nat.ltb_spec it (2 * it)); [reflexivity|lia].
  - destruct (Nat.eqb_spec (4 * it) it); [lia|]. destruct (Nat.ltb_spec it (4 * it)); [reflexivity|lia].
Qed.

Lemma per_step sch it k j : (k < it)%nat -> (j < evaluations sch)%nat -> (sch = SRk4 -> j <> 3%nat) ->
  control_index it it (Z.of_nat (cell sch it (k * evaluations sch + j))) (k * evaluations sch + j) = Z.of_nat k.
Proof.
  intros K J NR. unfold control_index. rewrite Nat.eqb_refl. f_equal. destruct sch; cbn [evaluations] in *.
  - replace j with 0%nat by lia. apply cell_euler.
  - apply cell_mid. assumption.
  - apply cell_rk. specialize (NR eq_refl). lia.
Qed.

Lemma per_step_rk4 it k : (k < it)%nat ->
  control_index it it (Z.of_nat (cell SRk4 it (k * 4 + 3))) (k * 4 + 3) = Z.of_nat (Nat.min (k + 1) (it - 1)).
Proof. intros K. unfold control_index. rewrite Nat.eqb_refl, cell_rk3. reflexivity. Qed.

Lemma cell_lt sch it n : (n < it * evaluations sch)%nat -> (cell sch it n < it)%nat.
Proof.
  intros B. assert (Q : (n / evaluations sch < it)%nat) by (apply Nat.div_lt_upper_bound; [destruct sch; cbn; lia|rewrite Nat.mul_comm; assumption]).
  destruct sch; cbn [cell evaluations] in *; try exact Q. destruct (Nat.eqb (n mod 4) 3); lia.
Qed.

Lemma in_range sch it len n : (0 < len)%nat -> (n < it * evaluations sch)%nat -> (len <= it \/ it * evaluations sch <= len)%nat ->
  exists k, control_index it len (Z.of_nat (cell sch it n)) n = Z.of_nat k /\ (k < len)%nat.
Proof.
  intros L B R. pose proof (cell_lt sch it n B) as C. unfold control_index. destruct (Nat.eqb_spec len it) as [->|NE].
  - exists (cell sch it n). auto.
  - destruct (Nat.ltb_spec it len).
    + exists n. split; [reflexivity|]. lia.
    + exists 0%nat. split; [reflexivity|lia].
Qed.
