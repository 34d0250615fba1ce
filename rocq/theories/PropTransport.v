(** Property theorems about the transport of descriptors by the generated fields (C77). *)
From Coq Require Import Reals String List Arith Lia Lra.
From Verif Require Import Py RSum Tensor TensorFacts KernelModel FieldModel GeometryModel ModuleModel ShootingModel
  SpecField SpecGeometry SpecModule SpecShooting SpecTransport GeometryFacts ModuleMain ModuleHistory ShootingPack ShootingDyn ShootingScheme ShootingFinal ShootingInst ShootingTotal ShootingExample PropShooting
  MotionFacts MotionShoot MotionMomentum MotionExample PropMomentum SolverExists TransportFacts.
Import ListNotations.
Open Scope R_scope.

Lemma first_phase m g : skel g = skel (mod_manifold m) -> firstn (g_len (mod_manifold m)) (phase g) = g_gd g.
Proof. intros K. unfold phase. rewrite <- (skel_len g _ K), <- g_gd_len, firstn_app, Nat.sub_diag, firstn_all. apply app_nil_r. Qed.
Lemma first_half g l : map shape l = map shape (phase g) -> firstn (g_len g) l = half l.
Proof.
  intros S. unfold half. f_equal. rewrite <- (map_length shape l), S, map_length, phase_len.
  replace (g_len g + g_len g)%nat with (g_len g * 2)%nat by lia. symmetry. apply Nat.div_mul. lia.
Qed.

Lemma leq_nth a b : forall i x, leq a b -> nth_error a i = Some x -> exists y, nth_error b i = Some y /\ teq x y.
Proof.
  intros i x Q. revert i. induction Q as [|y z a b T Q IH]; intros [|i] E; try discriminate E; [injection E as <-; exists z; auto|exact (IH i E)].
Qed.
Lemma ladd_nth : forall a b i x y, nth_error a i = Some x -> nth_error b i = Some y -> nth_error (ladd a b) i = Some (tadd x y).
Proof.
  induction a as [|z a IH]; intros [|w b] [|i] x y A B; try discriminate A; try discriminate B.
  - injection A as <-. injection B as <-. reflexivity.
  - exact (IH b i x y A B).
Qed.

(** ** C77 *)

(** torch_euler, with geodesic or with given controls: the descriptors follow the explicit
    Euler scheme of the flow of the fields generated by the successive modules. *)
Theorem C77_torch_euler : forall ck others sv b0 ag it t1 cs keep costs0 d m sh,
  exact_grad ag -> exact_solver sv -> wf_mod d m -> locals_total d m ->
  (forall l c, cs = Some l -> In c l -> ctrl_ok d m c) ->
  shoot ck others sv b0 ag "torch_euler" it t1 cs keep costs0 m = Ok sh ->
  exists states mods,
    length states = S it /\ length mods = it /\
    nth_error states 0 = Some (mod_manifold m) /\ nth_error states it = Some (mod_manifold (sh_mod sh)) /\
    (forall n g mn, nth_error states n = Some g -> nth_error mods n = Some mn ->
       at_state m (step_controls sv b0 cs n) (phase g) = Ok mn) /\
    Forall (fun g => skel g = skel (mod_manifold m) /\ map shape (phase g) = map shape (phase (mod_manifold m))) states /\
    trajectory SEuler (fun n q v => exists mn, nth_error mods n = Some mn /\ carried mn q v) (1 / INR it)
      (map g_gd states) (map (fun g => [g_gd g]) (firstn it states)) /\
    (forall i, sh_inter sh = Some i -> in_states i = states).
Proof.
  intros ck others sv b0 ag it t1 cs keep costs0 d m sh EX HS W LT CO E. destruct (wf_mod_manifold d m W) as (WG & _).
  destruct (C25_torch_euler_steps ck others sv b0 ag it t1 cs keep costs0 m sh EX (wf_shapes d _ WG) E)
    as (IT & states & mods & L & LM & E0 & E1 & T & AT & K & _ & KE).
  exists states, mods. repeat (split; [assumption|]). rewrite Forall_forall in K.
  assert (FP : map (firstn (g_len (mod_manifold m))) (map phase states) = map g_gd states).
  { rewrite map_map. apply map_ext_in. intros g Ig. apply first_phase. exact (K g Ig). }
  apply and_assoc. split.
  - apply (halve_trajectory (g_len (mod_manifold m)) SEuler _ (fun n q v => exists mn, nth_error mods n = Some mn /\ carried mn q v) _ _ _ (map shape (phase (mod_manifold m)))) in T.
    + destruct T as (SS & T). split; [apply Forall_forall; intros g Ig; split; [exact (K g Ig)|]; apply In_nth_error in Ig; destruct Ig as (i & Ei); apply (SS i); rewrite nth_error_map, Ei; reflexivity|].
      rewrite FP in T. rewrite map_map in T. rewrite (map_ext_in _ (fun g => [g_gd g])) in T; [exact T|].
      intros g Ig. cbn [map]. rewrite first_phase; [reflexivity|]. apply K. rewrite <- (firstn_skipn it states). apply in_or_app. left. exact Ig.
    + intros l El. rewrite nth_error_map, E0 in El. cbn in El. injection El as <-. reflexivity.
    + intros k ss j l v Es El Sl H. split; [destruct H as (H & _); congruence|]. rewrite nth_error_map in Es.
      destruct (nth_error (firstn it states) k) as [g|] eqn:Eg; [|discriminate Es]. injection Es as <-. destruct j as [|j]; [|destruct j; discriminate El]. injection El as <-.
      cbn [evaluations] in *. replace (k * 1 + 0)%nat with k in * by lia.
      assert (Ik : (k < it)%nat). { assert (k < length (firstn it states))%nat by (apply nth_error_Some; congruence). rewrite firstn_length in *. lia. }
      rewrite nth_firstn in Eg by exact Ik. destruct (nth_error mods k) as [mn|] eqn:Em; [|apply nth_error_None in Em; lia].
      exists mn. split; [reflexivity|]. exact (state_carried sv b0 d cs k m (phase g) v mn HS W LT CO Sl (AT k g mn Eg Em) H).
  - intros i Ei. destruct keep; [|congruence]. destruct KE as (ks & _ & KE). rewrite KE in Ei. injection Ei as <-. reflexivity.
Qed.
Print Assumptions C77_torch_euler.

(** euler, midpoint and rk4 with geodesic controls: at each stage of each step the
    velocities of the descriptors are those of the field generated there.  (With given
    controls see C28_evaluation_control.) *)
Theorem C77_fixed_step_schemes : forall others sv b0 ag sch it t1 keep costs0 d m sh,
  exact_grad ag -> exact_solver sv -> shootable m -> wf_mod d m -> locals_total d m -> 0 < t1 -> (0 < it)%nat ->
  shoot real_clock others sv b0 ag (scheme_name sch) it t1 None keep costs0 m = Ok sh ->
  exists states stages mods,
    length states = S it /\ length stages = it /\ Forall (fun ss => length ss = evaluations sch) stages /\
    (exists g, nth_error states 0 = Some g /\ same_values g (mod_manifold m)) /\
    nth_error states it = Some (mod_manifold (sh_mod sh)) /\
    mapM (at_state m (geodesic_controls sv b0)) (List.concat stages) = Ok mods /\
    trajectory sch (fun n q v => exists mn, nth_error mods n = Some mn /\ carried mn q v) (t1 / INR it)
      (map g_gd states) (map (map half) stages) /\
    (forall i, sh_inter sh = Some i -> in_states i = states).
Proof.
  intros others sv b0 ag sch it t1 keep costs0 d m sh EX HS (ms & -> & SI & SP) W LT T1 IT E.
  destruct (whole_moments sv b0 ag t1 it keep ms T1 IT SI SP EX others sch costs0 sh E)
    as (states & stages & mods & costs & L & LS & LE & T & (g0 & E0 & V0) & E1 & K & AT & _ & _ & _ & KE).
  exists states, stages, mods. repeat (split; [assumption|]). split; [exists g0; split; assumption|]. repeat (split; [assumption|]). rewrite Forall_forall in K.
  set (m := MComp ms) in *. split.
  - assert (FP : map (firstn (g_len (mod_manifold m))) (map phase states) = map g_gd states).
    { rewrite map_map. apply map_ext_in. intros g Ig. apply first_phase. exact (K g Ig). }
    assert (S0 : forall l, nth_error (map phase states) 0 = Some l -> map shape l = map shape (phase (mod_manifold m))).
    { intros l El. rewrite nth_error_map, E0 in El. injection El as <-. exact (same_phase_shapes _ _ V0). }
    pose proof (stages_shapes sch _ _ _ _ (map shape (phase (mod_manifold m))) S0 (fun n l v (S : map shape l = _) (H : hamilton _ l v) => eq_trans (proj1 H) S) T) as SS.
    apply (halve_trajectory (g_len (mod_manifold m)) sch _ (fun n q v => exists mn, nth_error mods n = Some mn /\ carried mn q v) _ _ _ (map shape (phase (mod_manifold m)))) in T.
    + destruct T as (_ & T). rewrite FP in T. rewrite (map_ext_in _ (map half)) in T; [exact T|]. intros ss Is. apply map_ext_in. intros l Il. apply first_half. exact (SS ss l Is Il).
    + exact S0.
    + intros k ss j l v Es El Sl H. split; [destruct H as (H & _); congruence|].
      pose proof (nth_concat (evaluations sch) stages k ss j l LE Es El) as Ec. destruct (mapM_nth _ _ _ _ _ AT Ec) as (mn & Em & Am).
      exists mn. split; [exact Em|]. apply (state_carried sv b0 d None 0 m l v mn HS W LT); try assumption. intros x c Q. discriminate Q.
  - intros i Ei. destruct keep; [|congruence]. destruct KE as (ks & _ & KE). rewrite KE in Ei. injection Ei as <-. reflexivity.
Qed.
Print Assumptions C77_fixed_step_schemes.

(** Points: one step of torch_euler moves the points x of a member (landmarks, silent or
    not) to x + dt v(x), where v is the field generated by the whole compound at this step. *)
Theorem C77_points : forall ck others sv b0 ag it t1 cs keep costs0 d m sh,
  exact_grad ag -> exact_solver sv -> wf_mod d m -> locals_total d m ->
  (forall l c, cs = Some l -> In c l -> ctrl_ok d m c) ->
  shoot ck others sv b0 ag "torch_euler" it t1 cs keep costs0 m = Ok sh ->
  exists states mods,
    length states = S it /\ length mods = it /\
    nth_error states 0 = Some (mod_manifold m) /\ nth_error states it = Some (mod_manifold (sh_mod sh)) /\
    (forall n g mn, nth_error states n = Some g -> nth_error mods n = Some mn ->
       at_state m (step_controls sv b0 cs n) (phase g) = Ok mn) /\
    Forall (fun g => skel g = skel (mod_manifold m) /\ map shape (phase g) = map shape (phase (mod_manifold m))) states /\
    (forall n mn gs gs' j dim nb x c dim' nb' x' c',
       nth_error mods n = Some mn -> nth_error states n = Some (GComp gs) -> nth_error states (S n) = Some (GComp gs') ->
       nth_error gs j = Some (GLm dim nb x c) -> nth_error gs' j = Some (GLm dim' nb' x' c') ->
       exists f v, field_generator mn = Ok f /\ feval f x 0 = Ok v /\ shape v = shape x /\
         teq x' (tadd x (tscal (1 / INR it) v))).
Proof.
  intros ck others sv b0 ag it t1 cs keep costs0 d m sh EX HS W LT CO E.
  destruct (C77_torch_euler ck others sv b0 ag it t1 cs keep costs0 d m sh EX HS W LT CO E) as (states & mods & L & LM & E0 & E1 & AT & SK & (_ & T) & _).
  exists states, mods. repeat (split; [assumption|]). intros n mn gs gs' j dim nb x c dim' nb' x' c' Em Eg Eg' Ej Ej'.
  rewrite Forall_forall in SK. destruct (SK _ (nth_error_In _ _ Eg)) as (K & S). destruct (SK _ (nth_error_In _ _ Eg')) as (K' & _).
  destruct (state_answers sv b0 d cs n m _ mn HS W LT CO K S (AT n _ mn Eg Em)) as (M & WG & f & FG & A).
  assert (In' : (n < it)%nat) by (rewrite <- LM; apply nth_error_Some; congruence).
  destruct (T n (g_gd (GComp gs)) [g_gd (GComp gs)] (g_gd (GComp gs'))) as (k & _ & (mn' & Em' & CA) & Q);
    [rewrite nth_error_map, Eg; reflexivity|rewrite nth_error_map, nth_firstn, Eg by exact In'; reflexivity|rewrite nth_error_map, Eg'; reflexivity|].
  cbn [evaluations] in Em'. replace (n * 1 + 0)%nat with n in Em' by lia. rewrite Em in Em'. injection Em' as <-.
  destruct (nth_error_split gs j Ej) as (l1 & l2 & -> & Lj). destruct (nth_error_split gs' j Ej') as (l1' & l2' & -> & Lj').
  rewrite <- M in CA. destruct (carried_point d mn f l1 dim nb x c l2 k M WG FG A CA) as (y & v & Ey & Ev & Sy & V).
  exists f, y. split; [exact FG|]. split; [exact Ey|]. split; [exact Sy|].
  assert (KL : map skel l1' = map skel l1).
  { rewrite <- K in K'. cbn [skel] in K'. injection K' as K'. rewrite !map_app in K'. apply app_inj_len in K'; [exact (proj1 K')|rewrite !map_length; congruence]. }
  assert (N1 : nth_error (g_gd (GComp (l1 ++ GLm dim nb x c :: l2))) (length (flat_map g_gd l1)) = Some x).
  { cbn [g_gd]. rewrite flat_map_app, nth_error_app2, Nat.sub_diag by lia. reflexivity. }
  assert (N2 : nth_error (g_gd (GComp (l1' ++ GLm dim' nb' x' c' :: l2'))) (length (flat_map g_gd l1)) = Some x').
  { cbn [g_gd]. rewrite <- (skel_lens l1 l1' KL), flat_map_app, nth_error_app2, Nat.sub_diag by lia. reflexivity. }
  destruct (leq_nth _ _ _ _ Q N2) as (z & Nz & Z). rewrite (ladd_nth _ _ _ x (tscal (1 / INR it) v)) in Nz; [|exact N1|unfold lscal; rewrite nth_error_map, Ev; reflexivity].
  injection Nz as <-. destruct Z as (Z1 & Z2). split; [exact Z1|]. intros idx I. rewrite (Z2 idx I). destruct V as (V1 & V2). cbn [tadd tmap2 tscal tmap get].
  rewrite V2; [reflexivity|]. rewrite Z1 in I. cbn in I. rewrite V1, Sy. exact I.
Qed.
Print Assumptions C77_points.

Example C77_hypotheses : forall ck others b0 it t1, (0 < it)%nat ->
  exact_grad std_ag /\ exact_grad exact_ag /\ exact_solver exact_sv /\
  wf_mod 1 pair0 /\ locals_total 1 pair0 /\ (forall l c, Some (repeat pair_ctrl it) = Some l -> In c l -> ctrl_ok 1 pair0 c) /\
  (exists sh, shoot ck others exact_sv b0 std_ag "torch_euler" it t1 (Some (repeat pair_ctrl it)) false None pair0 = Ok sh) /\
  wf_mod 1 ex0 /\ locals_total 1 ex0 /\ shootable ex0 /\
  (exists sh, shoot ck others exact_sv b0 exact_ag "torch_euler" it t1 None false None ex0 = Ok sh) /\
  (forall others' sch t, 0 < t -> exists sh, shoot real_clock others' exact_sv b0 exact_ag (scheme_name sch) it t None true None ex0 = Ok sh).
Proof.
  intros ck others b0 it t1 IT. destruct (C72_hypotheses ck others exact_sv b0 it t1 IT) as (A & _ & _ & _ & B & _).
  destruct (C25_hypotheses ck others exact_sv b0 it t1 IT) as (C & _ & D & F & G).
  split; [exact A|]. split; [exact C|]. split; [exact exact_sv_exact|].
  split; [cbn; repeat split; (lra || discriminate)|]. split; [cbn; tauto|].
  split; [intros l c E I; injection E as <-; apply repeat_spec in I; subst c; cbn; auto|]. split; [exact B|].
  split; [cbn; repeat split; try lra; discriminate|]. split; [cbn; tauto|]. split; [exact F|]. split; [exact D|exact G].
Qed.
