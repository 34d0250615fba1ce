(** Properties C25-C28: shooting. *)
From Coq Require Import Reals String List Arith ZArith Lia Lra Floats.SpecFloat.
From Verif Require Import Py RSum Tensor TensorFacts KernelModel FieldModel GeometryModel ModuleModel ShootingModel FloatClock
  SpecGeometry SpecModule SpecShooting FieldFacts ModuleMain ModuleLeaves ShootingPack ShootingDyn ShootingRun ShootingScheme ShootingMain ShootingInst ShootingFinal ShootingEuler ShootingSchedule
  ShootingTotal SolverExists ShootingExample.
Import ListNotations.
Open Scope R_scope.

(** *** C25 *)

(** torch_euler: the successive states (it + 1 of them, from the initial state to the one
    left in the module) follow explicit Euler steps of length 1 / it of Hamilton's
    equations, both gradients being taken at the old state with the controls of that
    step; the controls kept in the intermediates (it of them) are those of the old
    states.  The final time t1 and the dictionary of costs are not used. *)
Theorem C25_torch_euler_steps : forall ck others sv b0 ag it t1 cs keep costs0 m sh,
  exact_grad ag -> map shape (g_cotan (mod_manifold m)) = map shape (g_gd (mod_manifold m)) ->
  shoot ck others sv b0 ag "torch_euler" it t1 cs keep costs0 m = Ok sh ->
  (0 < it)%nat /\ exists states mods,
    length states = S it /\ length mods = it /\
    nth_error states 0 = Some (mod_manifold m) /\ nth_error states it = Some (mod_manifold (sh_mod sh)) /\
    trajectory SEuler (fun n => hamilton (ham_of m (step_controls sv b0 cs n))) (1 / INR it)
      (map phase states) (map (fun g => [phase g]) (firstn it states)) /\
    (forall n g mn, nth_error states n = Some g -> nth_error mods n = Some mn ->
       at_state m (step_controls sv b0 cs n) (phase g) = Ok mn) /\
    Forall (fun g => skel g = skel (mod_manifold m)) states /\
    sh_costs sh = costs0 /\
    (if keep then exists ks, mapM (fun m => clone_controls (controls m)) mods = Ok ks /\ sh_inter sh = Some (mkInter states ks)
     else sh_inter sh = None).
Proof. intros ck others sv b0 ag it t1 cs keep costs0 m sh EX B E. exact (whole_euler sv b0 ag cs m EX ck others it t1 keep costs0 sh B E). Qed.
Print Assumptions C25_torch_euler_steps.

(** One step, entry by entry. *)
Theorem C25_euler_step_entries : forall H dt l l' n i t idx,
  euler_scheme (fun _ => hamilton H) dt l [l] l' -> length l = (n + n)%nat -> (i < n)%nat ->
  nth_error l i = Some t -> valid (shape t) idx ->
  exists dq dp, partial_derivative H l i idx dq /\ partial_derivative H l (n + i) idx dp /\
    entry l' i idx = entry l i idx + dt * dp /\ entry l' (n + i) idx = entry l (n + i) idx - dt * dq.
Proof.
  intros H dt l l' n i t idx (k & _ & (SK & n' & L' & SS & HK) & Q) L Hi Et V. assert (n' = n) by lia. subst n'.
  destruct (HK i t idx Hi Et V) as (A & B). exists (- entry k (n + i) idx), (entry k i idx). split; [assumption|]. split; [assumption|].
  assert (EN : forall j u, nth_error l j = Some u -> valid (shape u) idx -> entry l' j idx = entry l j idx + dt * entry k j idx).
  { clear - SK Q. revert k l' SK Q. induction l as [|a l IH]; intros k l' SK Q j u Eu Vu; [destruct j; discriminate|].
    destruct k as [|b k]; [discriminate|]. cbn in SK. injection SK as S1 S2. inversion Q as [|x y xs ys Q1 Q2]; subst. destruct j as [|j].
    - injection Eu as ->. unfold entry. cbn [nth_error]. destruct Q1 as (S3 & Q1). rewrite Q1; [reflexivity|]. cbn in S3. rewrite S3. assumption.
    - exact (IH k xs S2 Q2 j u Eu Vu). }
  split; [apply (EN i t); assumption|].
  destruct (nth_error l (n + i)) as [u|] eqn:Eu; [|apply nth_error_None in Eu; lia]. rewrite (EN (n + i)%nat u Eu); [ring|].
  rewrite <- (nth_firstn l n i Hi) in Et. rewrite <- nth_skipn in Eu. pose proof (map_nth_error shape _ _ Et) as M1. pose proof (map_nth_error shape _ _ Eu) as M2.
  rewrite SS, M2 in M1. injection M1 as ->. assumption.
Qed.
Print Assumptions C25_euler_step_entries.

(** torchdiffeq's euler, midpoint and rk4, with moments: the same, with steps of length
    t1 / it and the stages of the scheme, the geodesic controls being computed at each
    stage. *)
Theorem C25_fixed_step_schemes : forall others sv b0 ag sch it t1 keep costs0 m sh,
  exact_grad ag -> shootable m -> 0 < t1 -> (0 < it)%nat ->
  shoot real_clock others sv b0 ag (scheme_name sch) it t1 None keep costs0 m = Ok sh ->
  exists states stages mods,
    length states = S it /\ length stages = it /\ Forall (fun ss => length ss = evaluations sch) stages /\
    trajectory sch (fun _ => hamilton (ham_of m (geodesic_controls sv b0))) (t1 / INR it) (map phase states) stages /\
    (exists g, nth_error states 0 = Some g /\ same_values g (mod_manifold m)) /\
    nth_error states it = Some (mod_manifold (sh_mod sh)) /\
    mapM (at_state m (geodesic_controls sv b0)) (List.concat stages) = Ok mods /\
    (if keep then exists cs, mapM (fun m => clone_controls (controls m)) mods = Ok cs /\ sh_inter sh = Some (mkInter states cs)
     else sh_inter sh = None).
Proof.
  intros others sv b0 ag sch it t1 keep costs0 m sh EX (ms & -> & SI & SP) T1 IT E.
  destruct (whole_moments sv b0 ag t1 it keep ms T1 IT SI SP EX others sch costs0 sh E) as (states & stages & mods & costs & A1 & A2 & A3 & A4 & A5 & A6 & _ & A7 & _ & _ & _ & A8).
  exists states, stages, mods. repeat (split; [assumption|]). assumption.
Qed.
Print Assumptions C25_fixed_step_schemes.

Lemma ex_shootable : shootable ex0.
Proof. eexists. split; [reflexivity|]. split; [repeat constructor|]. cbn. repeat split. Qed.

Example C25_hypotheses : forall ck others sv b0 it t1, (0 < it)%nat ->
  exact_grad exact_ag /\ map shape (g_cotan (mod_manifold ex0)) = map shape (g_gd (mod_manifold ex0)) /\
  (exists sh, shoot ck others sv b0 exact_ag "torch_euler" it t1 None false None ex0 = Ok sh) /\
  shootable ex0 /\
  forall others' sch t, 0 < t -> exists sh, shoot real_clock others' sv b0 exact_ag (scheme_name sch) it t None true None ex0 = Ok sh.
Proof.
  intros ck others sv b0 it t1 IT. split; [exact exact_ag_exact|]. split; [reflexivity|]. split; [|split; [exact ex_shootable|]].
  - apply euler_total; [exact exact_ag_exact| |assumption|reflexivity]. intros m F K A B. destruct (ex_total sv b0 m F K A B) as (m2 & E & _ & G). eauto.
  - intros others' sch t T. destruct ex_shootable as (ms & EQ & SI & SP). unfold ex0, ex_mod in EQ. injection EQ as <-.
    apply moments_total; [assumption|assumption|assumption|exact SP|cbn; lia|exact exact_ag_exact|]. intros m. apply ex_total.
Qed.

(** *** C26 *)

(** Packing a compound of (possibly empty) simple manifolds and unpacking the rows into
    any manifold of the same structure gives back the descriptors and moments; with the
    row of descriptors only, the descriptors (and leaves the moments alone). *)
Theorem C26_pack_unpack : forall gs g', Forall simple gs -> shaped (GComp gs) -> (0 < numel (g_gd (GComp gs)))%nat ->
  skel g' = skel (GComp gs) ->
  (exists x g2, initial_state (GComp gs) true = Ok x /\ unpack_into gs g' x true = Ok g2 /\ same_values g2 (GComp gs)) /\
  (exists x g2, initial_state (GComp gs) false = Ok x /\ unpack_into gs g' x false = Ok g2 /\
     same_gd g2 (GComp gs) /\ g_cotan g2 = g_cotan g').
Proof.
  intros gs g' SI SP NP K. destruct (shaped_comp gs SI SP) as (A & B). pose proof (numel_shapes_of _ _ A) as NA. pose proof (numel_shapes_of _ _ B) as NB. split.
  - destruct (initial_state_ok (GComp gs) (numel (g_gd (GComp gs))) eq_refl ltac:(congruence) NP) as (x & E & S & R0 & R1).
    destruct (unpack_into_ok gs g' x (numel (g_gd (GComp gs))) SI K) as (q & p & g2 & U & _ & _ & G & C & K2 & Sq & Sp & Rq & Rp);
      [unfold ncols, tnth; rewrite S; reflexivity|congruence|].
    exists x, g2. split; [assumption|]. split; [assumption|]. split; (split; [congruence|]); rewrite ?G, ?C; eapply row_is_inj; try eassumption; congruence.
  - destruct (initial_state1_ok (GComp gs) (numel (g_gd (GComp gs))) eq_refl ltac:(congruence) NP) as (x & E & S & R0).
    destruct (unpack_into1_ok gs g' x (numel (g_gd (GComp gs))) SI K) as (q & g2 & U & _ & G & C & K2 & Sq & Rq);
      [unfold ncols, tnth; rewrite S; reflexivity|congruence|].
    exists x, g2. split; [assumption|]. split; [assumption|]. split; [|assumption]. split; [congruence|]. rewrite G. eapply row_is_inj; try eassumption; congruence.
Qed.
Print Assumptions C26_pack_unpack.

(** Conversely, unpacking a state of the right size and packing again gives the state. *)
Theorem C26_unpack_pack : forall gs x, Forall simple gs -> shaped (GComp gs) -> (0 < numel (g_gd (GComp gs)))%nat ->
  shape x = [2%nat; numel (g_gd (GComp gs))] ->
  exists g x', unpack_into gs (GComp gs) x true = Ok g /\ initial_state g true = Ok x' /\ teq x x'.
Proof.
  intros gs x SI SP NP S. destruct (shaped_comp gs SI SP) as (A & B). pose proof (numel_shapes_of _ _ A) as NA.
  destruct (unpack_into_ok gs (GComp gs) x (numel (g_gd (GComp gs))) SI eq_refl) as (q & p & g2 & U & _ & _ & G & C & K2 & Sq & Sp & Rq & Rp);
    [unfold ncols, tnth; rewrite S; reflexivity|congruence|].
  pose proof (numel_shapes_of _ _ Sq) as Nq. pose proof (numel_shapes_of _ _ Sp) as Np.
  destruct (initial_state_ok g2 (numel (g_gd (GComp gs)))) as (x' & E & S' & R0 & R1); [congruence|congruence|assumption|].
  exists g2, x'. split; [assumption|]. split; [assumption|]. split; [congruence|]. rewrite S. intros idx V.
  assert (Nq' : numel q = numel (g_gd (GComp gs))) by congruence. assert (Np' : numel p = numel (g_gd (GComp gs))) by congruence.
  remember (numel (g_gd (GComp gs))) as N eqn:HN. destruct idx as [|r [|j [|]]]; cbn in V; try tauto. destruct V as (V1 & V2 & _). rewrite G in R0. rewrite C in R1.
  destruct Rq as (_ & Rq). destruct Rp as (_ & Rp). destruct R0 as (_ & R0). destruct R1 as (_ & R1).
  destruct r as [|[|r]]; [| |lia].
  - rewrite (Rq j), (R0 j) by lia. reflexivity.
  - rewrite (Rp j), (R1 j) by lia. reflexivity.
Qed.
Print Assumptions C26_unpack_pack.

(** A compound member holding descriptors is refused at the first evaluation. *)
Theorem C26_nested_refused : forall sv b0 ag others sch it t1 controls keep costs0 ms1 m ms2, (0 < it)%nat -> 0 < t1 ->
  Forall simple (map mod_manifold ms1) -> ~ simple (mod_manifold m) -> (0 < numel (g_gd (mod_manifold m)))%nat ->
  shaped (mod_manifold (MComp (ms1 ++ m :: ms2))) ->
  shoot real_clock others sv b0 ag (scheme_name sch) it t1 controls keep costs0 (MComp (ms1 ++ m :: ms2)) = Err AttributeError.
Proof. exact nested_refused. Qed.
Print Assumptions C26_nested_refused.

Example C26_hypotheses :
  let gs := [GLm 1 1 one11 one11; GEmpty 1; GDir Vector 1 1 one11 one11 one11 one11] in
  Forall simple gs /\ shaped (GComp gs) /\ (0 < numel (g_gd (GComp gs)))%nat /\
  (exists x : tensor, shape x = [2%nat; numel (g_gd (GComp gs))]) /\
  ~ simple (mod_manifold ex0) /\ (0 < numel (g_gd (mod_manifold ex0)))%nat /\ shaped (mod_manifold (MComp ([MSilent (GEmpty 1)] ++ ex0 :: []))).
Proof. cbn. repeat split; try (repeat constructor); try lia; auto. eexists (mkT _ (fun _ => 0)). reflexivity. Qed.

(** The shapes a manifold announces are those of its tensors, for all points, directions,
    frames and compounds of them; so every compound of modules whose manifolds are not
    compounds can be shot. *)
Theorem C26_manifolds_shaped : forall d g, wf_gman d g -> shaped g.
Proof.
  intros d. apply (GeometryFacts.gman_ind' (fun g => wf_gman d g -> shaped g)).
  1-3: intros; cbn in *; repeat match goal with H : _ /\ _ |- _ => destruct H end; subst; split; congruence.
  1-2: cbn; tauto.
  - intros gs IH W. cbn [wf_gman shaped] in *. induction IH as [|g gs Hg _ IHs]; [exact Logic.I|]. cbn [fold_right] in *. split; [apply Hg, W|apply IHs, W].
Qed.
Print Assumptions C26_manifolds_shaped.
Theorem C26_modules_shootable : forall d ms, wf_mod d (MComp ms) -> Forall simple (map mod_manifold ms) -> shootable (MComp ms).
Proof.
  intros d ms W SI. exists ms. split; [reflexivity|]. split; [exact SI|]. apply (C26_manifolds_shaped d). exact (proj1 (ModuleMain.wf_mod_manifold d _ W)).
Qed.
Print Assumptions C26_modules_shootable.

(** A pair of point sets announces the size of the first for both: its tensors are of the
    announced shapes only when the two sets are of the same size. *)
Theorem C26_two_point_sets_refuted : forall dim nb0 nb1 g0 g1 c0 c1 i0 i1,
  shape g0 = [nb0; dim] -> shape g1 = [nb1; dim] -> shape c0 = [nb0; dim] -> shape c1 = [nb1; dim] ->
  (shaped (GCLm dim nb0 nb1 g0 g1 c0 c1 i0 i1) <-> nb1 = nb0).
Proof.
  intros dim nb0 nb1 g0 g1 c0 c1 i0 i1 E0 E1 E2 E3. cbn. rewrite E0, E1, E2, E3. split; [intros (E & _); congruence|intros ->; split; reflexivity].
Qed.
Print Assumptions C26_two_point_sets_refuted.

Example C26_modules_hypotheses : wf_mod 1 ex0 /\ exists ms, ex0 = MComp ms /\ Forall simple (map mod_manifold ms).
Proof.
  split; [cbn; repeat split; try discriminate; try lra; auto|]. eexists. split; [reflexivity|]. repeat constructor.
Qed.

(** *** C27 *)

(** With exact times and the fixed step schemes: exactly [it] costs, one per step; the
    cost of step k is that of the module at evaluation [recorded_at sch k] of the
    trajectory: the first of step k for euler and midpoint.  With moments: *)
Theorem C27_once_per_step_moments : forall others sv b0 ag sch it t1 keep costs0 m sh,
  exact_grad ag -> shootable m -> 0 < t1 -> (0 < it)%nat ->
  shoot real_clock others sv b0 ag (scheme_name sch) it t1 None keep costs0 m = Ok sh ->
  exists states stages mods costs,
    trajectory sch (fun _ => hamilton (ham_of m (geodesic_controls sv b0))) (t1 / INR it) (map phase states) stages /\
    nth_error states it = Some (mod_manifold (sh_mod sh)) /\
    length stages = it /\ Forall (fun ss => length ss = evaluations sch) stages /\
    mapM (at_state m (geodesic_controls sv b0)) (List.concat stages) = Ok mods /\
    sh_costs sh = Some costs /\ length costs = it /\
    (forall k, (k < it)%nat -> exists mk c, nth_error mods (recorded_at sch k) = Some mk /\ cost mk = Ok c /\ nth_error costs k = Some c).
Proof.
  intros others sv b0 ag sch it t1 keep costs0 m sh EX (ms & -> & SI & SP) T1 IT E.
  destruct (whole_moments sv b0 ag t1 it keep ms T1 IT SI SP EX others sch costs0 sh E) as (states & stages & mods & costs & A1 & A2 & A3 & A4 & A5 & A6 & _ & A7 & A8 & A9 & A10 & _).
  exists states, stages, mods, costs. repeat (split; [assumption|]). assumption.
Qed.
Print Assumptions C27_once_per_step_moments.

(** With given controls: *)
Theorem C27_once_per_step_controls : forall others sv b0 ag sch it t1 keep costs0 m sh d cs,
  exact_solver sv -> shootable m -> accepts d m cs -> 0 < t1 -> (0 < it)%nat ->
  shoot real_clock others sv b0 ag (scheme_name sch) it t1 (Some cs) keep costs0 m = Ok sh ->
  exists stages mods costs,
    length stages = it /\ Forall (fun ss => length ss = evaluations sch) stages /\
    length mods = (it * evaluations sch)%nat /\
    (forall n mn q, nth_error mods n = Some mn -> nth_error (List.concat stages) n = Some q ->
       exists c, py_nth cs (control_index it (length cs) (Z.of_nat (cell sch it n)) n) = Ok c /\
         at_state m (fun m => fill_controls sv m c) (q ++ g_cotan (mod_manifold m)) = Ok mn) /\
    sh_costs sh = Some costs /\ length costs = it /\
    (forall k, (k < it)%nat -> exists mk c, nth_error mods (recorded_at sch k) = Some mk /\ cost mk = Ok c /\ nth_error costs k = Some c).
Proof.
  intros others sv b0 ag sch it t1 keep costs0 m sh d cs HS (ms & -> & SI & SP) RD T1 IT E.
  destruct (whole_controls sv b0 ag t1 it keep ms T1 IT SI SP d cs HS RD others sch costs0 sh E) as (states & stages & mods & costs & A1 & A2 & A3 & A4 & A5 & A6 & _ & A7 & A8 & A9 & A10 & A11 & _).
  exists stages, mods, costs. repeat (split; [assumption|]). assumption.
Qed.
Print Assumptions C27_once_per_step_controls.

(** The evaluation recorded for a step: the first of the step for euler and midpoint; for
    rk4 the last of the previous step, which is at the time where the step begins. *)
Theorem C27_recorded_evaluation : forall sch it k, (k < it)%nat ->
  (recorded_at sch k < it * evaluations sch)%nat /\ cell sch it (recorded_at sch k) = k /\
  (sch <> SRk4 \/ k = 0%nat -> recorded_at sch k = (k * evaluations sch)%nat) /\
  (sch = SRk4 -> k <> 0%nat -> recorded_at sch k = (k * evaluations sch - 1)%nat).
Proof.
  intros sch it k K. destruct sch; cbn [recorded_at evaluations].
  - split; [lia|]. split; [apply cell_e|]. split; [lia|discriminate].
  - split; [lia|]. split; [rewrite Nat.mul_comm; apply off2|]. split; [lia|discriminate].
  - destruct k as [|k]; cbn [recorded_at].
    + split; [lia|]. split; [apply (off4 it 0)|]. split; [lia|lia].
    + split; [lia|]. split; [rewrite (Nat.mul_comm 4 k), cell_rk3; lia|]. split; [intros [H|H]; [elim H; reflexivity|discriminate]|lia].
Qed.
Print Assumptions C27_recorded_evaluation.

(** Any solver and any arithmetic on times: the recorded costs are those of the
    evaluations at time 0 and of those in another time cell than the evaluation before. *)
Theorem C27_any_solver : forall ck others sv b0 ag name it t1 controls keep costs0 m sh, name <> "torch_euler"%string ->
  shoot ck others sv b0 ag name it t1 controls keep costs0 m = Ok sh ->
  exists solve x0 (evs : list (time ck * Z * dmod)) costs,
    find_solver ck others name = Some solve /\
    initial_state (mod_manifold m) (with_mom controls) = Ok x0 /\
    asks (solve (linspace ck t1 (it + 1)) x0) (map (fun e => fst (fst e)) evs) /\
    Forall (fun e => t_to_it ck t1 it (fst (fst e)) = Ok (snd (fst e))) evs /\
    sh_costs sh = Some costs /\
    mapM cost (entering 0 (map (fun e => (snd (fst e), is_zero ck (fst (fst e)), snd e)) evs)) = Ok costs /\
    (if keep then exists i, sh_inter sh = Some i /\ mapM (fun e => clone_controls (ModuleModel.controls (snd e))) evs = Ok (in_controls i)
     else sh_inter sh = None).
Proof. exact any_solver. Qed.
Print Assumptions C27_any_solver.

(** Exact times, any solver that starts at time 0 and then evaluates at nondecreasing
    positive times: as many costs as time cells visited. *)
Theorem C27_monotone_schedule : forall others sv b0 ag name it t1 controls keep costs0 m sh,
  name <> "torch_euler"%string -> 0 < t1 -> (0 < it)%nat ->
  shoot real_clock others sv b0 ag name it t1 controls keep costs0 m = Ok sh ->
  exists solve x0 times cells costs,
    find_solver real_clock others name = Some solve /\
    initial_state (mod_manifold m) (with_mom controls) = Ok x0 /\
    asks (solve (linspace real_clock t1 (it + 1)) x0) times /\
    mapM (t_to_it real_clock t1 it) times = Ok cells /\
    sh_costs sh = Some costs /\
    ((exists ts, times = 0 :: ts /\ Forall (fun t => 0 < t) ts) ->
     (forall i j t t', (i <= j)%nat -> nth_error times i = Some t -> nth_error times j = Some t' -> t <= t') ->
     length costs = length (nodup Z.eq_dec cells)).
Proof. exact exact_schedule. Qed.
Print Assumptions C27_monotone_schedule.

(** Finding: with the float32 times the code uses, shooting 3 euler steps up to time 1
    records 2 costs, not 3: the third time, 1 - fl(1/3), divided by fl(1/3), is below 2. *)
Definition no_gradient : autograd := fun _ l => Ok (map (fun _ => None) l).
Definition one_point : dmod := MComp [MSilent (GLm 1 1 one11 one11)].

Theorem C27_float32_refuted :
  (forall others sv b0 ag controls keep costs0 m sh,
     shoot float32_clock others sv b0 ag "euler" 3 one32 controls keep costs0 m = Ok sh ->
     exists costs, sh_costs sh = Some costs /\ length costs = 2%nat) /\
  (forall others sv b0, is_ok (shoot float32_clock others sv b0 no_gradient "euler" 3 one32 None false None one_point)).
Proof.
  split; [|intros others sv b0; vm_compute; eexists; reflexivity].
  intros others sv b0 ag controls keep costs0 m sh E.
  destruct (any_solver float32_clock others sv b0 ag "euler" 3 one32 controls keep costs0 m sh ltac:(discriminate) E) as (solve & x0 & evs & costs & A & B & C & D & F & G & _).
  exists costs. split; [assumption|]. rewrite (mapM_len _ _ _ G). cbn in A. injection A as <-.
  assert (L : exists t1 t2 t3 t4, linspace float32_clock one32 (3 + 1) = [t1; t2; t3; t4] /\
            t_to_it float32_clock one32 3 t1 = Ok 0%Z /\ is_zero float32_clock t1 = true /\
            t_to_it float32_clock one32 3 t2 = Ok 1%Z /\ t_to_it float32_clock one32 3 t3 = Ok 1%Z /\ is_zero float32_clock t3 = false).
  { do 4 eexists. split; [reflexivity|]. split; [vm_compute; reflexivity|]. split; [vm_compute; reflexivity|]. split; [vm_compute; reflexivity|]. split; vm_compute; reflexivity. }
  destruct L as (t1 & t2 & t3 & t4 & L & I1 & Z1 & I2 & I3 & Z3). rewrite L in C. cbn [fixed_solver fixed_grid] in C. unfold euler_inc in C.
  assert (AI : forall T (t : T) x k l, asks (Ask t x k) l -> exists y l', l = t :: l' /\ asks (k y) l') by (intros T t x k l H; inversion H; subst; eauto).
  apply AI in C. destruct C as (y1 & l1 & E1 & C). apply AI in C. destruct C as (y2 & l2 & -> & C). apply AI in C. destruct C as (y3 & l3 & -> & C).
  assert (l3 = []) by (inversion C; reflexivity). subst l3.
  destruct evs as [|((a1 & b1) & c1) [|((a2 & b2) & c2) [|((a3 & b3) & c3) [|]]]]; try discriminate E1. cbn [map fst snd] in E1. injection E1 as -> -> ->.
  inversion D as [|? ? D1 D']; subst. inversion D' as [|? ? D2 D'']; subst. inversion D'' as [|? ? D3 _]; subst. cbn [fst snd] in D1, D2, D3.
  rewrite I1 in D1. injection D1 as <-. rewrite I2 in D2. injection D2 as <-. rewrite I3 in D3. injection D3 as <-.
  cbn [map fst snd]. rewrite Z1, Z3. cbn. destruct (SFeqb t2 (S754_zero false)); reflexivity.
Qed.
Print Assumptions C27_float32_refuted.

(** *** C28 *)

(** Shooting with given controls: evaluation number n is driven by the control set number
    [control_index]: the descriptors move with the velocity of the field generated with
    this set, the moments stay. *)
Theorem C28_evaluation_control : forall others sv b0 ag sch it t1 keep costs0 m sh d cs,
  exact_solver sv -> shootable m -> accepts d m cs -> 0 < t1 -> (0 < it)%nat ->
  shoot real_clock others sv b0 ag (scheme_name sch) it t1 (Some cs) keep costs0 m = Ok sh ->
  exists states stages,
    length states = S it /\ length stages = it /\ Forall (fun ss => length ss = evaluations sch) stages /\
    trajectory sch (fun n q k => exists c, py_nth cs (control_index it (length cs) (Z.of_nat (cell sch it n)) n) = Ok c /\ driven sv m c q k)
      (t1 / INR it) (map g_gd states) stages /\
    (exists g, nth_error states 0 = Some g /\ same_gd g (mod_manifold m)) /\
    nth_error states it = Some (mod_manifold (sh_mod sh)) /\
    Forall (fun g => skel g = skel (mod_manifold m) /\ g_cotan g = g_cotan (mod_manifold m)) states /\
    (if keep then exists ks, sh_inter sh = Some (mkInter states ks) /\ length ks = (it * evaluations sch)%nat else sh_inter sh = None).
Proof.
  intros others sv b0 ag sch it t1 keep costs0 m sh d cs HS (ms & -> & SI & SP) RD T1 IT E.
  destruct (whole_controls sv b0 ag t1 it keep ms T1 IT SI SP d cs HS RD others sch costs0 sh E) as (states & stages & mods & costs & A1 & A2 & A3 & A4 & A5 & A6 & A7 & A8 & _ & _ & _ & _ & A9).
  exists states, stages. repeat (split; [assumption|]). destruct keep; [|assumption]. destruct A9 as (ks & A & B). exists ks. split; [assumption|].
  rewrite (mapM_len _ _ _ A). assumption.
Qed.
Print Assumptions C28_evaluation_control.

(** One set per evaluation: evaluation n uses set n. *)
Theorem C28_own_control : forall sch it cs n, (0 < it)%nat -> length cs = (evaluations sch * it)%nat -> (n < evaluations sch * it)%nat ->
  exists c : ctrl, nth_error cs n = Some c /\ py_nth cs (control_index it (length cs) (Z.of_nat (cell sch it n)) n) = Ok c.
Proof.
  intros sch it cs n IT L B. destruct (nth_error cs n) as [c|] eqn:E; [|apply nth_error_None in E; lia]. exists c. split; [reflexivity|].
  rewrite L, own_set, py_nth_nat, E by assumption. reflexivity.
Qed.
Print Assumptions C28_own_control.

(** One set per step: every evaluation of step k uses set k, except the last of rk4. *)
Theorem C28_one_set_per_step : forall sch it cs k j, length cs = it -> (k < it)%nat -> (j < evaluations sch)%nat -> (sch = SRk4 -> j <> 3%nat) ->
  exists c : ctrl, nth_error cs k = Some c /\
    py_nth cs (control_index it (length cs) (Z.of_nat (cell sch it (k * evaluations sch + j))) (k * evaluations sch + j)) = Ok c.
Proof.
  intros sch it cs k j L K J NR. destruct (nth_error cs k) as [c|] eqn:E; [|apply nth_error_None in E; lia]. exists c. split; [reflexivity|].
  rewrite L, per_step, py_nth_nat, E by assumption. reflexivity.
Qed.
Print Assumptions C28_one_set_per_step.

(** Finding: the last evaluation of each rk4 step but the last uses the set of the next
    step. *)
Theorem C28_rk4_last_stage_refuted : forall it cs k, length cs = it -> (S k < it)%nat ->
  exists c : ctrl, nth_error cs (S k) = Some c /\
    py_nth cs (control_index it (length cs) (Z.of_nat (cell SRk4 it (k * 4 + 3))) (k * 4 + 3)) = Ok c.
Proof.
  intros it cs k L K. destruct (nth_error cs (S k)) as [c|] eqn:E; [|apply nth_error_None in E; lia]. exists c. split; [reflexivity|].
  rewrite L, per_step_rk4 by lia. replace (Nat.min (k + 1) (it - 1)) with (S k) by lia. rewrite py_nth_nat, E. reflexivity.
Qed.
Print Assumptions C28_rk4_last_stage_refuted.

(** No index is out of range when there is one set per step, at least one per evaluation,
    or fewer sets than steps (then the first is used): shooting succeeds with controls
    that the compound accepts wherever its descriptors go. *)
Theorem C28_never_out_of_range : forall others sv b0 ag sch it t1 keep costs0 m d cs,
  exact_solver sv -> shootable m -> (0 < numel (g_gd (mod_manifold m)))%nat -> 0 < t1 -> (0 < it)%nat ->
  accepts d m cs ->
  (forall q m1 c, map shape q = map shape (g_gd (mod_manifold m)) -> write_manifold m (q ++ g_cotan (mod_manifold m)) = Ok m1 -> In c cs ->
     is_ok (fill_controls sv m1 c)) ->
  cs <> [] -> (length cs <= it \/ it * evaluations sch <= length cs)%nat ->
  is_ok (shoot real_clock others sv b0 ag (scheme_name sch) it t1 (Some cs) keep costs0 m).
Proof.
  intros others sv b0 ag sch it t1 keep costs0 m d cs HS (ms & -> & SI & SP) NP T1 IT RD FL NE LN.
  apply (controls_total sv b0 ag t1 it keep ms T1 IT SI SP NP others sch costs0 d cs HS).
  - intros q m1 c Sq W INC. destruct (RD q m1 c Sq W INC) as (A & B). split; [assumption|]. split; [assumption|]. exact (FL q m1 c Sq W INC).
  - intros n Hn. destruct (in_range sch it (length cs) n) as (k & -> & K); [destruct cs; [congruence|cbn; lia]|assumption|assumption|].
    rewrite py_nth_nat. destruct (nth_error cs k) eqn:E; [eexists; reflexivity|apply nth_error_None in E; lia].
Qed.
Print Assumptions C28_never_out_of_range.

(** Otherwise the shooting fails: more sets than steps but fewer than evaluations, or none. *)
Theorem C28_too_few_sets : forall others sv b0 ag sch it t1 keep costs0 m d cs,
  exact_solver sv -> shootable m -> accepts d m cs -> 0 < t1 -> (0 < it)%nat ->
  cs = [] \/ (it < length cs < it * evaluations sch)%nat ->
  ~ is_ok (shoot real_clock others sv b0 ag (scheme_name sch) it t1 (Some cs) keep costs0 m).
Proof.
  intros others sv b0 ag sch it t1 keep costs0 m d cs HS (ms & -> & SI & SP) RD T1 IT H (sh & E).
  destruct (whole_controls sv b0 ag t1 it keep ms T1 IT SI SP d cs HS RD others sch costs0 sh E) as (states & stages & mods & costs & A1 & A2 & A3 & A4 & A5 & A6 & A7 & A8 & A9 & _).
  set (n := length cs) in *. assert (B : (n < it * evaluations sch)%nat) by (destruct H as [->|H]; [cbn in n; unfold n; destruct sch; cbn; lia|lia]).
  destruct (nth_error mods n) as [mn|] eqn:En; [|apply nth_error_None in En; lia].
  assert (CL : length (List.concat stages) = (length stages * evaluations sch)%nat).
  { clear -A3. induction A3 as [|ss l Hs _ IH]; [reflexivity|]. cbn [List.concat length]. rewrite app_length, Hs, IH. reflexivity. }
  destruct (nth_error (List.concat stages) n) as [q|] eqn:Eq; [|apply nth_error_None in Eq; rewrite CL, A2 in Eq; lia].
  destruct (A9 n mn q En Eq) as (c & Ec & _). fold n in Ec. unfold control_index in Ec. destruct H as [->|H].
  - unfold py_nth in Ec. cbv zeta in Ec. destruct (Nat.eqb n it); [|destruct (Nat.ltb it n)];
      repeat (match type of Ec with context [if ?b then _ else _] => destruct b end); try discriminate; destruct (Z.to_nat _); discriminate.
  - destruct (Nat.eqb_spec n it); [lia|]. destruct (Nat.ltb_spec it n); [|lia]. rewrite py_nth_nat in Ec.
    destruct (nth_error cs n) eqn:N; [|discriminate]. assert (n < length cs)%nat by (apply nth_error_Some; congruence). unfold n in *. lia.
Qed.
Print Assumptions C28_too_few_sets.

Definition ex_ctrl : ctrl := CList [CLeaf (tzeros [0%nat]); CLeaf (mk1 1 (fun _ => 1))].

Lemma ex_written q m1 : map shape q = map shape (g_gd (mod_manifold ex0)) -> write_manifold ex0 (q ++ g_cotan (mod_manifold ex0)) = Ok m1 ->
  exists a, shape a = [1%nat; 1%nat] /\ m1 = ex_mod a one11 (tzeros [1%nat]).
Proof.
  intros S W. destruct q as [|a [|]]; try discriminate S. injection S as S. exists a. split; [assumption|]. cbn in W. injection W as <-. reflexivity.
Qed.

Example C28_hypotheses : exists sv, exact_solver sv /\ shootable ex0 /\ (0 < numel (g_gd (mod_manifold ex0)))%nat /\
  forall n, let cs := repeat ex_ctrl (S n) in
  accepts 1 ex0 cs /\
  (forall q m1 c, map shape q = map shape (g_gd (mod_manifold ex0)) -> write_manifold ex0 (q ++ g_cotan (mod_manifold ex0)) = Ok m1 -> In c cs ->
     is_ok (fill_controls sv m1 c)).
Proof.
  exists exact_sv. split; [exact exact_sv_exact|]. split; [exact ex_shootable|]. split; [cbn; lia|]. intros n cs. split.
  - intros q m1 c S W INC. apply repeat_spec in INC. subst c. destruct (ex_written q m1 S W) as (a & Sa & ->). split; [|cbn; repeat split].
    cbn. repeat split; try assumption; try lra; discriminate.
  - intros q m1 c S W INC. apply repeat_spec in INC. subst c. destruct (ex_written q m1 S W) as (a & Sa & ->). eexists. reflexivity.
Qed.
