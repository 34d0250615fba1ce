(** Property theorems: silent modules without moments (grids, points to follow) do not
    change the motion of the others (C108). *)
From Coq Require Import Reals String List Arith Lia Lra Permutation.
From Verif Require Import Py RSum Tensor TensorFacts KernelModel FieldModel GeometryModel ModuleModel ShootingModel
  SpecLinAlg SpecKernel SpecField FieldFacts SpecGeometry SpecModule SpecShooting SpecMotion SpecTransport SpecSmooth SpecOrder SpecPassenger ModuleAlg ModuleLeaves ModuleMain
  ShootingPack ShootingDyn ShootingScheme ShootingFinal ShootingInst ShootingTotal ShootingExample PropModule PropShooting MotionFacts MotionShoot MotionMomentum
  MotionExample TransportFacts RigidControl RigidShoot PropRigid DiffBuild SmoothRun SolverExists PropSmooth EnergyFacts OrderFacts OrderShoot PropOrder PropSuperpose PassengerFacts.
Import ListNotations.
Open Scope R_scope.

(** Given the same controls, the modules with passengers generate the same vector field,
    with the same derivative, at the same cost and with the same Hamiltonian. *)
Theorem C108_given_controls : forall sv d ms es k e m1,
  exact_solver sv -> wf_mod d (MComp ms) -> Forall (passenger d) es ->
  ctrl_ok d (MComp ms) (CList k) -> ctrl_ok d (MComp (ms ++ es)) (CList (k ++ e)) ->
  fill_controls sv (MComp ms) (CList k) = Ok m1 ->
  exists m1' f f', fill_controls sv (MComp (ms ++ es)) (CList (k ++ e)) = Ok m1' /\
    cost m1' = cost m1 /\ hamiltonian m1' = hamiltonian m1 /\
    field_generator m1 = Ok f /\ field_generator m1' = Ok f' /\
    (forall x a, fval d f' x a = fval d f x a) /\ forall x a b, fjac d f' x a b = fjac d f x a b.
Proof.
  intros sv d ms es k e m1 HS W PE O O' F. pose proof (board_wf d ms es W PE) as W'.
  assert (LK : length k = length ms) by exact (ctrls_ok_length d ms k O).
  assert (LV : leaves (MComp (ms ++ es)) = leaves (MComp ms) ++ es).
  { cbn [leaves]. rewrite flat_map_app. f_equal. apply flat_silent. revert PE. apply Forall_impl. intros x (g & -> & _). eauto. }
  pose proof (fill_leaves sv d _ _ m1 O F) as FL. pose proof (F2len (ctrl_leaves d _ _ O)) as L1. pose proof (F2len (ctrl_leaves d _ _ O')) as L2.
  rewrite LV, (cpieces_app ms es k e LK), !app_length in L2.
  assert (X : mapM (fun x => fill_controls sv (fst x) (snd x)) (combine (leaves (MComp (ms ++ es))) (cpieces (MComp (ms ++ es)) (CList (k ++ e)))) = Ok (leaves m1 ++ es)).
  { rewrite LV, (cpieces_app ms es k e LK), combine_app2 by exact L1. rewrite mapM_app, FL. cbn [bind]. rewrite (passenger_fills sv d es PE) by lia. reflexivity. }
  destruct (fill_back sv d _ _ _ O' X) as (m1' & F'). rewrite (fill_leaves sv d _ _ m1' O' F') in X. injection X as X.
  assert (DF : differ d m1 m1') by (exists (leaves m1), [], es; rewrite app_nil_r; auto).
  destruct (filled sv d HS _ _ m1 W O F) as (f & x & FG & _ & C). destruct (filled sv d HS _ _ m1' W' O' F') as (f' & x' & FG' & _ & C').
  destruct (differ_alike d m1 m1' DF) as (PC & PF & _). exists m1', f, f'. split; [exact F'|]. split; [rewrite C, C', (PC x x' C C'); reflexivity|].
  split; [|split; [exact FG|split; [exact FG'|exact (PF f f' FG FG')]]].
  pose proof (gain_differ sv d HS _ _ _ _ m1 m1' W W' O O' F F' DF) as G. rewrite !ham_gain_own, (fill_manifold sv _ _ m1 F), (fill_manifold sv _ _ m1' F'). exact G.
Qed.
Print Assumptions C108_given_controls.

(** The geodesic controls of the modules are those computed without the passengers; the
    same cost, the same Hamiltonian. *)
Theorem C108_geodesic_controls : forall sv b0 d ms es m1 m1',
  exact_solver sv -> wf_mod d (MComp ms) -> Forall (passenger d) es ->
  geodesic_controls sv b0 (MComp ms) = Ok m1 -> geodesic_controls sv b0 (MComp (ms ++ es)) = Ok m1' ->
  (exists k k' e, controls m1 = CList k /\ controls m1' = CList (k' ++ e) /\ Forall2 ceq k k') /\
  cost m1' = cost m1 /\ hamiltonian m1' = hamiltonian m1.
Proof.
  intros sv b0 d ms es m1 m1' HS W PE E E'. pose proof (board_wf d ms es W PE) as W'.
  assert (LV : leaves (MComp (ms ++ es)) = leaves (MComp ms) ++ es).
  { cbn [leaves]. rewrite flat_map_app. f_equal. apply flat_silent. revert PE. apply Forall_impl. intros x (g & -> & _). eauto. }
  destruct (geodesic_differ sv d HS b0 (MComp ms) (MComp (ms ++ es)) m1 m1' W W') as (x & H & H' & C & C' & G); [exists (leaves (MComp ms)), [], es; rewrite app_nil_r; auto|exact E|exact E'|].
  split; [|split; congruence].
  unfold geodesic_controls in E, E'. destruct (wf_mod_manifold d _ W) as (WG & NE). destruct (wf_mod_manifold d _ W') as (WG' & NE').
  destruct (geodesic_max sv b0 d HS _ _ m1 W WG NE E) as (O & F & g & GA & _).
  destruct (controls m1) as [t|k] eqn:EK; [destruct O|]. assert (LK : length k = length ms) by exact (ctrls_ok_length d ms k O).
  destruct (passenger_controls d es PE) as (z & CZ).
  assert (OC : ctrl_ok d (MComp (ms ++ es)) (CList (k ++ z))).
  { change (ctrls_ok d (ms ++ es) (k ++ z)). change (ctrls_ok d ms k) in O. clear - O CZ. revert k O. induction ms as [|m l IH]; intros [|c k] O; try contradiction O.
    - cbn [app]. clear - CZ. induction CZ; [exact Logic.I|split; assumption].
    - cbn [app ctrls_ok] in *. split; [apply O|apply IH, O]. }
  destruct (C108_given_controls sv d ms es k z m1 HS W PE O OC F) as (n1 & f & f' & FN & _ & HN & _).
  assert (X : ceq (CList (k ++ z)) (controls m1')).
  { apply (C19_only_maximiser sv b0 d _ _ m1' _ n1 g HS W' WG' NE' E' OC FN); [|congruence].
    rewrite <- GA, <- (fill_manifold sv _ _ n1 FN), <- (fill_manifold sv _ _ m1 F), <- !ham_gain_own. exact HN. }
  destruct (controls m1') as [t|k'']; [contradiction X|]. cbn [ceq] in X.
  assert (Y : forall (k k'' : list ctrl), (fix go (l l' : list ctrl) : Prop := match l, l' with [], [] => True | c :: r, c' :: r' => ceq c c' /\ go r r' | _, _ => False end) (k ++ z) k'' -> exists k' e, k'' = k' ++ e /\ Forall2 ceq k k').
  { clear. induction k as [|c k IH]; intros k'' Z; [exists [], k''; split; [reflexivity|constructor]|]. destruct k'' as [|c'' k'']; [contradiction Z|]. destruct Z as (Z1 & Z2). destruct (IH k'' Z2) as (k' & e & -> & A). exists (c'' :: k'), e. split; [reflexivity|constructor; assumption]. }
  destruct (Y k k'' X) as (k' & e & -> & A). exists k, k', e. auto.
Qed.
Print Assumptions C108_geodesic_controls.

(** The velocity of every point under the geodesic controls is the same (modules away from
    the degenerate positions): with passengers or without, points move alike. *)
Section CtrlInd.
  Variable P : ctrl -> Prop.
  Hypothesis HLeaf : forall t, P (CLeaf t).
  Hypothesis HList : forall l, Forall P l -> P (CList l).
  Fixpoint ctrl_ind' (c : ctrl) : P c.
  Proof.
    destruct c as [t|l]; [apply HLeaf|]. apply HList. induction l as [|c l IH]; constructor; [apply ctrl_ind'|exact IH].
  Qed.
End CtrlInd.
Lemma ceq_null c : forall c', ceq c c' -> cnull (csub c (cscal 1 c')).
Proof.
  induction c as [t|l IH] using ctrl_ind'; intros [t'|l'] E; try contradiction E.
  - destruct E as (A & B). cbn [cscal csub cnull]. intros idx V. change (valid (shape t) idx) in V.
    specialize (B (ravel (shape t) idx) (ravel_lt _ _ V)). unfold tflatten in B. cbn [reshape get shape] in B.
    assert (RV : forall n k, ravel [n] [k] = k) by (intros; cbn; lia). rewrite !RV, (unravel_ravel _ _ V) in B.
    change (get t idx - 1 * get t' (unravel (shape t') (ravel (shape t) idx)) = 0). lra.
  - cbn [cscal csub cnull ceq] in *. revert l' E. induction IH as [|a l Ha _ IHl]; intros [|a' l'] E; try contradiction E; [exact Logic.I|]. cbn [map fold_right] in *. destruct E as (E1 & E2).
    split; [apply Ha; exact E1|apply IHl; exact E2].
Qed.
Theorem C108_same_velocities : forall sv b0 d ms es m1 m1' f f',
  exact_solver sv -> wf_mod d (MComp ms) -> regular d (MComp ms) -> Forall (passenger d) es ->
  geodesic_controls sv b0 (MComp ms) = Ok m1 -> geodesic_controls sv b0 (MComp (ms ++ es)) = Ok m1' ->
  field_generator m1 = Ok f -> field_generator m1' = Ok f' ->
  forall points N, shape points = [N; d] -> exists v v', feval f points 0 = Ok v /\ feval f' points 0 = Ok v' /\ teq v' v.
Proof.
  intros sv b0 d ms es m1 m1' f f' HS W RG PE E E' FG FG' points N SP. pose proof (board_wf d ms es W PE) as W'.
  destruct (C108_geodesic_controls sv b0 d ms es m1 m1' HS W PE E E') as ((k & k' & e & EK & EK' & CK) & _).
  assert (RG' : regular d (MComp (ms ++ es))).
  { cbn [regular] in *. apply fold_and. apply fold_and in RG. apply Forall_app. split; [exact RG|]. revert PE. apply Forall_impl. intros x (g & -> & _). exact Logic.I. }
  unfold geodesic_controls in E, E'. destruct (wf_mod_manifold d _ W) as (WG & NE). destruct (wf_mod_manifold d _ W') as (WG' & NE').
  destruct (geodesic_max sv b0 d HS _ _ m1 W WG NE E) as (O & F & _). destruct (geodesic_max sv b0 d HS _ _ m1' W' WG' NE' E') as (O' & F' & _).
  rewrite EK in O, F. rewrite EK' in O', F'.
  assert (OC : ctrl_ok d (MComp (ms ++ es)) (CList (k ++ e))).
  { change (ctrls_ok d (ms ++ es) (k ++ e)). change (ctrls_ok d ms k) in O. change (ctrls_ok d (ms ++ es) (k' ++ e)) in O'. pose proof (F2len CK) as LKK.
    clear - O O' LKK. revert k k' LKK O O'. induction ms as [|m l IH]; intros [|c k] [|c' k'] LK O O'; try contradiction O; try discriminate LK; [exact O'|].
    cbn [app ctrls_ok] in *. split; [apply O|]. apply (IH k k'); [injection LK; auto|apply O|apply O']. }
  destruct (C108_given_controls sv d ms es k e m1 HS W PE O OC F) as (n1 & f0 & f'' & FN & _ & _ & FG0 & FGN & EV & _). rewrite FG in FG0. injection FG0 as <-.
  destruct (C97_superposition sv d _ _ _ 1 n1 m1' f'' f' HS W' RG' OC O' FN F' FGN FG') as (m3 & g & F3 & FG3 & SU).
  destruct (SU points N 0%nat SP ltac:(lia)) as (v'' & v' & w & E2 & E1' & E3 & TW).
  assert (CE : ceq (CList (k ++ e)) (CList (k' ++ e))).
  { cbn [ceq]. clear - CK. induction CK as [|c c' k k' A _ IH]; [|split; assumption]. cbn [app]. induction e as [|x l IH]; [exact Logic.I|]. split; [|exact IH].
    clear. induction x as [t|l IH] using ctrl_ind'; [split; reflexivity|]. cbn [ceq]. induction IH; [exact Logic.I|split; assumption]. }
  assert (O3 : ctrl_ok d (MComp (ms ++ es)) (csub (CList (k ++ e)) (cscal 1 (CList (k' ++ e))))).
  { destruct (module_leaf sv Torch d _ HS W' (ex_intro _ _ (ex_intro _ n1 (conj OC FN)))) as (Q & [P _ _]). apply (pk_sub _ _ _ _ P); [exact OC|]. apply (pk_scal _ _ _ _ P). exact O'. }
  destruct (filled sv d HS _ _ m1 W O F) as (fx & x & FX & (WF & ZF & _) & _). rewrite FG in FX. injection FX as <-.
  destruct (filled sv d HS _ _ n1 W' OC FN) as (fy & y & FY & (WY & ZY & _) & _). rewrite FGN in FY. injection FY as <-.
  destruct (feval_0 d f points N WF ZF SP) as (v & Ev & Sv & Gv). destruct (feval_0 d f'' points N WY ZY SP) as (vy & Evy & Svy & Gvy). rewrite E2 in Evy. injection Evy as <-.
  exists v, v'. split; [exact Ev|]. split; [exact E1'|]. destruct TW as (TW1 & TW2).
  destruct (filled sv d HS _ _ m1' W' O' F') as (fz & z & FZ & (WZ & ZZ & _) & _). rewrite FG' in FZ. injection FZ as <-.
  destruct (feval_0 d f' points N WZ ZZ SP) as (vz & Evz & Svz & Gvz). rewrite E1' in Evz. injection Evz as <-.
  split; [congruence|]. intros idx V. rewrite Svz in V.
  assert (SW : shape w = [N; d]) by (cbn in TW1; congruence).
  assert (W0 : get w idx = 0).
  { destruct idx as [|n [|a [|]]]; cbn in V; try tauto. exact (C97_zero_controls_move_nothing sv d _ _ m3 g HS W' RG' O3 F3 (or_introl (ceq_null _ _ CE)) FG3 points N w SP E3 n a (proj1 V) (proj1 (proj2 V))). }
  pose proof (TW2 idx ltac:(rewrite SW; exact V)) as TW. rewrite W0 in TW. cbn [tsub tscal get] in TW.
  change (0 = get v'' idx - 1 * get v' idx) in TW. rewrite (Gvy idx V) in TW. rewrite (Gv idx V).
  destruct idx as [|n [|a [|]]]; cbn in V; try tauto. cbn [V0] in *. rewrite EV in TW. lra.
Qed.
Print Assumptions C108_same_velocities.

(** Shooting with torch_euler, with geodesic or with given controls: at every step the
    descriptors and the moments of the modules are those of the shooting without
    passengers, and the moments of the passengers are still zero. *)
Theorem C108_torch_euler : forall ck ck' others others' sv b0 ag ag' it t1 t1' cs cs' keep costs0 d ms es sh sh',
  exact_grad ag -> exact_grad ag' -> exact_solver sv -> wf_mod d (MComp ms) -> locals_smooth d (MComp ms) -> Forall (passenger d) es ->
  match cs, cs' with None, None => True | Some l, Some l' => Forall2 cboarded l l' | _, _ => False end ->
  (forall l x, cs = Some l -> In x l -> ctrl_ok d (MComp ms) x) -> (forall l x, cs' = Some l -> In x l -> ctrl_ok d (MComp (ms ++ es)) x) ->
  shoot ck others sv b0 ag "torch_euler" it t1 cs keep costs0 (MComp ms) = Ok sh ->
  shoot ck' others' sv b0 ag' "torch_euler" it t1' cs' keep costs0 (MComp (ms ++ es)) = Ok sh' ->
  same_ride es sh sh'.
Proof.
  intros ck ck' others others' sv b0 ag ag' it t1 t1' cs cs' keep costs0 d ms es sh sh' EX EX' HS W LS PE CS CO CO' E E'. pose proof (board_wf d ms es W PE) as W'.
  destruct (wf_mod_manifold d _ W) as (WG & _). destruct (wf_mod_manifold d _ W') as (WG' & _).
  destruct (C25_torch_euler_steps ck others sv b0 ag it t1 cs keep costs0 _ sh EX (wf_shapes d _ WG) E)
    as (IT & states & mods & L & LM & E0 & E1 & T & AT & K & CC & KE).
  destruct (C25_torch_euler_steps ck' others' sv b0 ag' it t1' cs' keep costs0 _ sh' EX' (wf_shapes d _ WG') E')
    as (_ & states' & mods' & L' & LM' & E0' & E1' & T' & AT' & K' & CC' & KE').
  rewrite Forall_forall in K, K'.
  assert (P : forall i g g', nth_error states i = Some g -> nth_error states' i = Some g' -> aboard es g g').
  { intros i g g' Eg Eg'. apply (rides_aboard ms es); [exact (K g (nth_error_In _ _ Eg))|exact (K' g' (nth_error_In _ _ Eg'))|].
    eapply (run_rides d ms es sv b0 cs cs' HS W PE LS CS CO CO' SEuler (1 / INR it) _ _ _ _ _ _ T T');
      [rewrite !map_length, !firstn_length; lia|rewrite nth_error_map, E0; reflexivity|rewrite nth_error_map, E0'; reflexivity|eapply start_rides; eassumption|rewrite nth_error_map, Eg; reflexivity|rewrite nth_error_map, Eg'; reflexivity]. }
  split; [exact (P it _ _ E1 E1')|]. split; [congruence|].
  destruct keep; [|rewrite KE, KE'; exact Logic.I]. destruct KE as (ks & _ & ->). destruct KE' as (ks' & _ & ->). cbn [in_states]. apply PropRigid.forall2_nth; [congruence|exact P].
Qed.
Print Assumptions C108_torch_euler.

(** euler, midpoint and rk4 of torchdiffeq, with geodesic controls. *)
Theorem C108_fixed_step_schemes : forall others others' sv b0 ag ag' sch it t1 keep costs0 costs0' d ms es sh sh',
  exact_grad ag -> exact_grad ag' -> exact_solver sv -> wf_mod d (MComp ms) -> locals_smooth d (MComp ms) -> Forall (passenger d) es ->
  shootable (MComp ms) -> shootable (MComp (ms ++ es)) -> 0 < t1 -> (0 < it)%nat ->
  shoot real_clock others sv b0 ag (scheme_name sch) it t1 None keep costs0 (MComp ms) = Ok sh ->
  shoot real_clock others' sv b0 ag' (scheme_name sch) it t1 None keep costs0' (MComp (ms ++ es)) = Ok sh' ->
  same_ride es sh sh'.
Proof.
  intros others others' sv b0 ag ag' sch it t1 keep costs0 costs0' d ms es sh sh' EX EX' HS W LS PE SH SH' T1 IT E E'. pose proof (board_wf d ms es W PE) as W'.
  destruct SH as (l & EQm & SI & SP). injection EQm as <-. destruct SH' as (l' & EQm' & SI' & SP'). injection EQm' as <-.
  destruct (whole_moments sv b0 ag t1 it keep ms T1 IT SI SP EX others sch costs0 sh E) as (states & stages & mods & costs & L & LS0 & LE & T & (g0 & E0 & V0) & E1 & K & AT & CC & CL & CR & KE).
  destruct (whole_moments sv b0 ag' t1 it keep (ms ++ es) T1 IT SI' SP' EX' others' sch costs0' sh' E') as (states' & stages' & mods' & costs' & L' & LS0' & LE' & T' & (g0' & E0' & V0') & E1' & K' & AT' & CC' & CL' & CR' & KE').
  clear E E'. rewrite Forall_forall in K, K'.
  assert (CO : forall m l x, @None (list ctrl) = Some l -> In x l -> ctrl_ok d m x) by discriminate.
  set (RR := rides (g_len (mod_manifold (MComp ms))) (g_len (GComp (map mod_manifold es))) (map shape (phase (mod_manifold (MComp (ms ++ es)))))).
  assert (R0 : RR (phase g0) (phase g0')).
  { eapply rides_leq; [exact (values_phase _ _ V0)|exact (values_phase _ _ V0')|eapply start_rides; eassumption]. }
  assert (R : forall i g g', nth_error states i = Some g -> nth_error states' i = Some g' -> RR (phase g) (phase g') /\
    forall ss ss', nth_error stages i = Some ss -> nth_error stages' i = Some ss' -> Forall2 RR ss ss').
  { intros i g g' Eg Eg'.
    eapply (run_rides d ms es sv b0 None None HS W PE LS Logic.I (CO _) (CO _) sch (t1 / INR it) _ _ _ _ _ _ T T');
      [congruence|rewrite nth_error_map, E0; reflexivity|rewrite nth_error_map, E0'; reflexivity|exact R0|rewrite nth_error_map, Eg; reflexivity|rewrite nth_error_map, Eg'; reflexivity]. }
  assert (P : forall i g g', nth_error states i = Some g -> nth_error states' i = Some g' -> aboard es g g').
  { intros i g g' Eg Eg'. apply (rides_aboard ms es); [exact (K g (nth_error_In _ _ Eg))|exact (K' g' (nth_error_In _ _ Eg'))|exact (proj1 (R i g g' Eg Eg'))]. }
  split; [exact (P it _ _ E1 E1')|]. split.
  - rewrite CC, CC'. f_equal. apply costs_eq; [congruence|]. intros k x' x Ex' Ex.
    assert (Kt : (k < it)%nat) by (rewrite <- CL; apply nth_error_Some; congruence).
    destruct (CR k Kt) as (mk & y & Em & Cm & Ey). destruct (CR' k Kt) as (mk' & y' & Em' & Cm' & Ey'). rewrite Ex in Ey. injection Ey as <-. rewrite Ex' in Ey'. injection Ey' as <-.
    destruct (mapM_back _ _ _ _ _ AT Em) as (u & El & Al). destruct (mapM_back _ _ _ _ _ AT' Em') as (u' & El' & Al').
    assert (RS : Forall2 (Forall2 RR) stages stages').
    { apply PropRigid.forall2_nth; [congruence|]. intros i ss ss' Es Es'. assert (Ii : (i < it)%nat) by (rewrite <- LS0; apply nth_error_Some; congruence).
      destruct (nth_error states i) as [g|] eqn:Eg; [|apply nth_error_None in Eg; lia]. destruct (nth_error states' i) as [g'|] eqn:Eg'; [|apply nth_error_None in Eg'; lia].
      exact (proj2 (R i g g' Eg Eg') ss ss' Es Es'). }
    pose proof (forall2_at _ _ _ (forall2_concat _ _ _ RS) _ _ _ El El') as RU.
    exact (cost_rides d ms es sv b0 None None HS W PE LS Logic.I (CO _) (CO _) u u' mk mk' x x' eq_refl eq_refl RU Al Al' Cm Cm').
  - destruct keep; [|rewrite KE, KE'; exact Logic.I]. destruct KE as (ks & _ & ->). destruct KE' as (ks' & _ & ->). cbn [in_states]. apply PropRigid.forall2_nth; [congruence|exact P].
Qed.
Print Assumptions C108_fixed_step_schemes.

(** The compound of C82 with a grid of four points and two frames to follow. *)
Definition sturdy_list : list dmod := match sturdy with MComp l => l | _ => [] end.
Definition grid4 : tensor := mk2 4 2 (fun i a => INR (i * (2 - a))).
Definition followers : list dmod :=
  [MSilent (GLm 2 4 grid4 (tzeros [4%nat; 2%nat])); MSilent (GFrame 2 2 ex_pts (mk3 2 2 2 (fun i a b => INR (i + a * b))) (tzeros [2%nat; 2%nat]) (tzeros [2%nat; 2%nat; 2%nat]))].
Lemma followers_ride : Forall (passenger 2) followers.
Proof.
  unfold followers. constructor; [|constructor; [|constructor]]; eexists; (split; [reflexivity|]); repeat split; repeat constructor; intros idx V; reflexivity.
Qed.
Lemma boarded_everywhere : everywhere (regular 2) (MComp (sturdy_list ++ followers)).
Proof.
  intros g m1 K SP E. destruct g as [| | | | |gs]; try discriminate K. cbn [sturdy_list sturdy followers app mod_manifold map skel] in K. injection K as K.
  destruct gs as [|g0 [|g1 [|g2 [|g3 [|g4 [|g5 [|g6 [|]]]]]]]]; try discriminate K. cbn [map] in K. injection K as K0 K1 K2 K3 K4 K5 K6.
  destruct g0; try discriminate K0. destruct g1; try discriminate K1. destruct g2; try discriminate K2. destruct g3; try discriminate K3. destruct g4; try discriminate K4. destruct g5; try discriminate K5. destruct g6; try discriminate K6.
  cbn in E. injection E as <-. cbn in SP. injection SP as P1 P2 P3 P4.
  split; [exact Logic.I|]. split; [left; lra|]. split; [left; lra|]. split; [left; lra|]. split; [|repeat split]. apply scaling_regular. assumption.
Qed.
Example C108_hypotheses : forall ck others b0 it t1 t1' costs0, (0 < it)%nat -> 0 < t1' ->
  exact_grad std_ag /\ exact_solver exact_sv /\ wf_mod 2 (MComp sturdy_list) /\ locals_smooth 2 (MComp sturdy_list) /\ Forall (passenger 2) followers /\
  shootable (MComp sturdy_list) /\ shootable (MComp (sturdy_list ++ followers)) /\
  (exists m1, geodesic_controls exact_sv b0 (MComp sturdy_list) = Ok m1) /\ (exists m1, geodesic_controls exact_sv b0 (MComp (sturdy_list ++ followers)) = Ok m1) /\
  is_ok (shoot ck others exact_sv b0 std_ag "torch_euler" it t1 None false costs0 (MComp sturdy_list)) /\
  is_ok (shoot ck others exact_sv b0 std_ag "torch_euler" it t1 None false costs0 (MComp (sturdy_list ++ followers))) /\
  is_ok (shoot real_clock (fun _ => None) exact_sv b0 std_ag "rk4" it t1' None true None (MComp sturdy_list)) /\
  is_ok (shoot real_clock (fun _ => None) exact_sv b0 std_ag "rk4" it t1' None true None (MComp (sturdy_list ++ followers))).
Proof.
  intros ck others b0 it t1 t1' costs0 IT T1. change (MComp sturdy_list) with sturdy.
  destruct (C82_hypotheses ck others b0 it t1 t1' false costs0 IT T1) as (_ & _ & _ & _ & _ & _ & _ & _ & SH & TE & _).
  destruct (C82_hypotheses ck others b0 it t1 t1' true costs0 IT T1) as (_ & _ & _ & _ & _ & _ & _ & _ & _ & _ & RK).
  pose proof (board_wf 2 sturdy_list followers sturdy_wf followers_ride) as W2. pose proof (board_smooth 2 sturdy_list followers followers_ride sturdy_smooth) as L2.
  assert (SH2 : shootable (MComp (sturdy_list ++ followers))) by (eexists; split; [reflexivity|]; split; [repeat constructor|cbn; tauto]).
  assert (CO : forall m l c, @None (list ctrl) = Some l -> In c l -> ctrl_ok 2 m c) by discriminate.
  split; [exact std_exact|]. split; [exact exact_sv_exact|]. split; [exact sturdy_wf|]. split; [exact sturdy_smooth|]. split; [exact followers_ride|].
  split; [exact SH|]. split; [exact SH2|]. split; [|split; [|split; [exact TE|split; [|split; [exact RK|]]]]].
  - exact (regular_reached exact_sv b0 2 sturdy None exact_sv_exact sturdy_wf sturdy_smooth sturdy_everywhere ltac:(intros _ _; cbn; tauto) (CO sturdy) 0%nat sturdy (reached0 None sturdy) Logic.I).
  - exact (regular_reached exact_sv b0 2 _ None exact_sv_exact W2 L2 boarded_everywhere ltac:(intros _ _; cbn; tauto) (CO _) 0%nat _ (reached0 None _) Logic.I).
  - apply (C82_torch_euler ck others exact_sv b0 std_ag it t1 None false costs0 2 _ std_exact std_differentiates exact_sv_exact W2 L2 boarded_everywhere);
      [intros _ _; cbn; tauto|discriminate|discriminate|exact IT|left; reflexivity].
  - apply (C82_fixed_step_schemes (fun _ => None) exact_sv b0 std_ag SRk4 it t1' true None 2 _ std_exact std_differentiates exact_sv_exact W2 L2 boarded_everywhere);
      [intros _; cbn; tauto|exact SH2|cbn; lia|exact T1|exact IT].
Qed.
Example C108_controls_exist : forall b0 : backend, exists m1 k e,
  ctrl_ok 2 (MComp sturdy_list) (CList k) /\ ctrl_ok 2 (MComp (sturdy_list ++ followers)) (CList (k ++ e)) /\ fill_controls exact_sv (MComp sturdy_list) (CList k) = Ok m1 /\
  regular 2 (MComp sturdy_list).
Proof.
  intros b0. destruct (C88_controls_exist b0) as (m1 & O & F). change sturdy with (MComp sturdy_list) in *.
  destruct (controls m1) as [t|k]; [destruct O|]. exists m1, k, [CLeaf (tzeros [0%nat]); CLeaf (tzeros [0%nat])]. split; [exact O|]. split; [|split; [exact F|]].
  - destruct k as [|k1 [|k2 [|k3 [|k4 [|k5 [|]]]]]]; cbn in O; try tauto. cbn. tauto.
  - apply (sturdy_everywhere (mod_manifold sturdy) sturdy); reflexivity.
Qed.
