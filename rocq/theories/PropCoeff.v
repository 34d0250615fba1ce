(** Property theorems about multiplying all coefficients by a number: the same motion with
    moments multiplied likewise, at costs multiplied likewise (C116). *)
From Coq Require Import Reals String List Arith Lia Lra Psatz.
From Coquelicot Require Import Coquelicot.
From Verif Require PropPassenger.
From Verif Require Import Py RSum Tensor TensorFacts LinAlg SpecLinAlg KernelModel FieldModel GeometryModel ModuleModel ShootingModel
  SpecField SpecGeometry SpecModule SpecShooting SpecMotion SpecTransport SpecSmooth ModuleHistory ModuleLeaves ModuleMain GeometryFacts ShootingPack ShootingDyn ShootingInst ShootingFinal ShootingTotal ShootingEuler PropShooting MotionFacts MotionShoot MotionMomentum
  TransportFacts RegistrationShoot RegistrationRun SpecRigid RigidShoot SolverExists MotionExample SmoothRun PropRigid PropSmooth SpecEnergy EnergyFacts PropEnergy SpecConverge ConvergeFacts ReduceFacts PropConverge SpecReverse ReverseFacts ReverseShoot PropReverse
  SpecScale ScaleFlow ScaleFacts PropScale SpecCoeff CoeffFacts.
Import ListNotations.
Open Scope R_scope.

(** Modules with coefficients k times as large and the same moments: controls divided by k,
    cost and Hamiltonian divided by k. *)
Theorem C116_controls : forall k sv b0 d m m1, 0 < k -> exact_solver sv -> priced m -> wf_mod d m -> geodesic_controls sv b0 m = Ok m1 ->
  exists m2 x, geodesic_controls sv b0 (dearer k m) = Ok m2 /\ ceq (controls m2) (cscal (/ k) (controls m1)) /\
    cost m1 = Ok x /\ cost m2 = Ok (x / k) /\ hamiltonian m1 = Ok x /\ hamiltonian m2 = Ok (x / k).
Proof. intros k sv b0 d m m1 K HS. exact (dear_geodesic k sv b0 d K HS m m1). Qed.
Print Assumptions C116_controls.

(** Given controls cost k times as much and move the points in the same way. *)
Theorem C116_given_controls : forall k sv m c m1 m2, priced m ->
  fill_controls sv m c = Ok m1 -> fill_controls sv (dearer k m) c = Ok m2 ->
  controls m2 = controls m1 /\ field_generator m2 = field_generator m1 /\ cost m2 = (x <- cost m1 ;; Ok (k * x)).
Proof.
  intros k sv m c m1 m2 P F F'. rewrite dear_fill, F in F'. injection F' as <-. split; [apply dear_controls|]. split; [apply dear_field|]. apply dear_cost.
  apply priced_params. rewrite (fill_params sv m c m1 F). apply priced_params. exact P.
Qed.
Print Assumptions C116_given_controls.

Lemma ceq_scaled s : s <> 0 -> forall c1 c2 c3, ceq c2 (cscal s c1) -> ceq c3 (cscal (/ s) c2) -> ceq c3 c1.
Proof.
  intros S0. induction c1 as [t|l IH] using PropPassenger.ctrl_ind'; intros [t2|l2] [t3|l3] A B; try contradiction A; try contradiction B.
  - destruct A as (P2 & A). destruct B as (P3 & B). change (prod (shape t2) = prod (shape t)) in P2. change (prod (shape t3) = prod (shape t2)) in P3.
    split; [congruence|]. intros j J. rewrite (B j J). change (/ s * ((tflatten t2) @1 j) = (tflatten t) @1 j). rewrite (A j) by (rewrite <- P3; exact J).
    change (/ s * (s * ((tflatten t) @1 j)) = (tflatten t) @1 j). field. exact S0.
  - cbn [ceq cscal] in *. revert l2 l3 A B. induction IH as [|c l Hc _ IHs]; intros [|c2 l2] [|c3 l3] A B; try contradiction A; try contradiction B; [exact Logic.I|].
    destruct A as (A1 & A2). destruct B as (B1 & B2). split; [exact (Hc c2 c3 A1 B1)|exact (IHs l2 l3 A2 B2)].
Qed.

(** Coefficients and moments k times as large: the same controls, k times the cost. *)
Theorem C116_same_controls : forall k sv b0 d m m' m1, 0 < k -> exact_solver sv -> priced m -> wf_mod d m -> locals_total d m ->
  set_manifold (dearer k m) (quickened k (mod_manifold m)) = Ok m' -> geodesic_controls sv b0 m = Ok m1 ->
  exists m2 x, geodesic_controls sv b0 m' = Ok m2 /\ ceq (controls m2) (controls m1) /\
    cost m1 = Ok x /\ cost m2 = Ok (k * x) /\ hamiltonian m1 = Ok x /\ hamiltonian m2 = Ok (k * x).
Proof.
  intros k sv b0 d m m' m1 K0 HS P W LT E G. rewrite dear_set in E.
  destruct (set_ok m (quickened k (mod_manifold m)) (quick_skel k _)) as (mr & ER & MR & FR & _). rewrite ER in E. injection E as <-.
  assert (WR : wf_mod d mr) by (apply (wf_set d m (quickened k (mod_manifold m)) mr); try assumption; [apply quick_skel|rewrite quick_gd; reflexivity|rewrite quick_cotan; apply tscal_shapes]).
  destruct (C98_controls k sv b0 d m mr m1 HS W ER G) as (mr1 & x & GR & CE & C1 & C2 & H1 & H2).
  destruct (dear_geodesic k sv b0 d K0 HS mr mr1 (frozen_priced m mr FR P) WR GR) as (m2 & y & G2 & CE2 & C3 & C4 & H3 & H4). rewrite C2 in C3. injection C3 as <-.
  exists m2, x. split; [exact G2|]. split; [apply (ceq_scaled k ltac:(lra) _ _ _ CE CE2)|].
  assert (X : k * k * x / k = k * x) by (field; lra). rewrite X in *. auto.
Qed.
Print Assumptions C116_same_controls.

Section Price.
Variables (k : R) (sv sv' : solver) (b0 b0' : backend) (d : nat) (m m' : dmod).
Hypothesis K0 : 0 < k.
Hypothesis HS : exact_solver sv.
Hypothesis HS' : exact_solver sv'.
Hypothesis P : priced m.
Hypothesis W : wf_mod d m.
Hypothesis LT : locals_total d m.
Hypothesis TW : twin d delta still m m.
Hypothesis AP : at_price k m m'.
Notation shs := (map shape (phase (mod_manifold m))).
Notation n := (g_len (mod_manifold m)).

Lemma price_set : same_values (mod_manifold m') (quickened k (mod_manifold m)) /\ frozen m' = frozen (dearer k m) /\ skel (mod_manifold m') = skel (mod_manifold m).
Proof.
  destruct AP as (g & ES & V). assert (KG : skel g = skel (mod_manifold (dearer k m))) by (rewrite dear_man; destruct V as ((E & _) & _); rewrite E; apply quick_skel).
  destruct (set_ok (dearer k m) g KG) as (x & Ex & MM & FM & _). rewrite ES in Ex. injection Ex as <-. rewrite MM. rewrite dear_man in KG. auto.
Qed.

Lemma price_shapes : map shape (g_gd (mod_manifold m')) = map shape (g_gd (mod_manifold m)) /\ map shape (g_cotan (mod_manifold m')) = map shape (g_cotan (mod_manifold m)).
Proof. destruct price_set as (((_ & G) & (_ & C)) & _). rewrite (leq_shape _ _ G), (leq_shape _ _ C), quick_gd, quick_cotan, tscal_shapes. auto. Qed.
Lemma price_wf : wf_mod d m'.
Proof.
  destruct AP as (g & ES & V). destruct price_shapes as (SG & SC). destruct price_set as (_ & _ & KM).
  assert (KG : skel g = skel (mod_manifold (dearer k m))) by (rewrite dear_man; destruct V as ((E & _) & _); rewrite E; apply quick_skel).
  destruct (set_ok (dearer k m) g KG) as (x & Ex & MM & _). rewrite ES in Ex. injection Ex as <-. subst g.
  apply (wf_set d (dearer k m) (mod_manifold m') m'); [apply dear_wf; assumption|apply dear_total; exact LT|exact KG|rewrite dear_man; exact SG|rewrite dear_man; exact SC|exact ES].
Qed.
Lemma price_shootable : shootable m -> shootable m'.
Proof.
  intros (ms & E & A & B). assert (X : map mod_manifold (map (dearer k) ms) = map mod_manifold ms) by (rewrite map_map; apply map_ext; apply dear_man).
  destruct price_shapes as (SG & SC). destruct price_set as (_ & FM & KM).
  apply (shootable_same (dearer k m)); [|exact FM|rewrite dear_man; exact KM|rewrite dear_man; unfold phase; rewrite !map_app, SG, SC; reflexivity].
  exists (map (dearer k) ms). split; [rewrite E; reflexivity|]. split; [rewrite X; exact A|rewrite dear_man; exact B].
Qed.

Lemma price_mods l l' a b : map shape l = shs -> weighed (pace k n) l l' ->
  at_state m (geodesic_controls sv b0) l = Ok a -> at_state m' (geodesic_controls sv' b0') l' = Ok b ->
  exists x, hamiltonian a = Ok x /\ hamiltonian b = Ok (k * x) /\ cost a = Ok x /\ cost b = Ok (k * x).
Proof.
  intros SL WL A B. destruct (quick_state k sv b0 d m l a HS W LT SL A) as (a1 & x & A1 & _ & C1 & C2 & H1 & H2). destruct price_set as (MM & FM & KM).
  assert (SQ : map shape (quick k l) = shs) by (rewrite quick_shape; exact SL).
  destruct (dear_state k sv b0 d K0 HS m (quick k l) a1 P W LT SQ A1) as (a2 & y & A2 & _ & C3 & C4 & H3 & H4). rewrite C2 in C3. injection C3 as <-.
  assert (B' : at_state (dearer k m) (geodesic_controls sv' b0') l' = Ok b) by (apply (at_any sv' b0' m'); [congruence|rewrite dear_man; congruence|exact B]).
  destruct (same_state sv sv' b0 b0' d (dearer k m) (quick k l) l' a2 b HS HS' (dear_wf k d m K0 W)) as (HE & CE);
    [apply dear_total; exact LT|apply dear_twin; exact TW|rewrite dear_man; exact SQ|apply (weighed_quick k l l' n (pace_len m l SL) WL)|exact A2|exact B'|].
  exists x. rewrite HE, CE, H4, C4. replace (k * k * x / k) with (k * x) by (field; lra). auto.
Qed.

Lemma price_fields l l' v v' : map shape l = shs -> weighed (pace k n) l l' ->
  hamilton (ham_of m (geodesic_controls sv b0)) l v -> hamilton (ham_of m' (geodesic_controls sv' b0')) l' v' ->
  map shape v = shs /\ weighed (fun i => 1 * pace k n i) v v'.
Proof.
  intros SL WL HK HK'. split; [rewrite (proj1 HK); exact SL|]. assert (KO : k / k = 1) by (field; lra).
  enough (X : weighed (fun i => k / k * pace k n i) v v') by (rewrite KO in X; exact X).
  apply (hamilton_weighed (ham_of m (geodesic_controls sv b0)) (ham_of m' (geodesic_controls sv' b0')) shs (pace k n) k k) with (l := l) (l' := l'); try assumption; try lra.
  - intros y y' w w' SY WY V V'. apply ham_at in V. apply ham_at in V'. destruct V as (a & A & HA). destruct V' as (b & B & HB).
    destruct (price_mods y y' a b SY WY A B) as (x & H1 & H2 & _). congruence.
  - intros i _. apply pace_nonzero. lra.
  - intros n' i E I. rewrite map_length, phase_len in E. assert (n' = n) by lia. subst n'. apply pace_product. exact I.
Qed.

Lemma price_start : rel_by shs (pace k n) (phase (mod_manifold m)) (phase (mod_manifold m')).
Proof.
  destruct price_set as (MM & _). split; [reflexivity|]. pose proof (values_phase _ _ MM) as E. rewrite quick_phase in E.
  apply (weighed_leq _ (phase (mod_manifold m)) (quick k (phase (mod_manifold m)))); [apply leq_refl'|exact E|]. apply quick_weighed. apply phase_len.
Qed.
Lemma price_values g g' : skel g = skel (mod_manifold m) -> skel g' = skel (mod_manifold m') -> rel_by shs (pace k n) (phase g) (phase g') -> same_values g' (quickened k g).
Proof.
  intros K K' (SG & WG). destruct price_set as (_ & _ & KM). apply quickened_values; [congruence|]. apply (weighed_quick k _ _ n); [apply pace_len; exact SG|exact WG].
Qed.
End Price.

(** An exact motion stays one, with moments k times as large, when all coefficients are
    multiplied by k. *)
Theorem C116_motion : forall k sv b0 d m c a b, 0 < k -> exact_solver sv -> priced m -> wf_mod d m -> locals_total d m ->
  (forall t, map shape (c t) = map shape (phase (mod_manifold m))) ->
  solution (ham_of m (geodesic_controls sv b0)) c a b ->
  solution (ham_of (dearer k m) (geodesic_controls sv b0)) (fun t => quick k (c t)) a b.
Proof.
  intros k sv b0 d m c a b K0 HS P W LT SC SO. set (n := g_len (mod_manifold m)).
  assert (LN : length (phase (mod_manifold m)) = (n + n)%nat) by apply phase_len. assert (LL : forall l, map shape l = map shape (phase (mod_manifold m)) -> length l = (n + n)%nat) by (intros l E; rewrite <- LN; apply shapes_len; exact E).
  assert (KO : k / k = 1) by (field; lra). assert (N0 : k <> 0) by lra.
  enough (X : solution (ham_of (dearer k m) (geodesic_controls sv b0)) (fun t => quick k (c (k / k * t))) a b).
  { rewrite KO in X. replace (fun t => quick k (c t)) with (fun t => quick k (c (1 * t))); [exact X|]. apply FunctionalExtensionality.functional_extensionality. intros t. rewrite Rmult_1_l. reflexivity. }
  apply (solution_image (ham_of m (geodesic_controls sv b0)) (ham_of (dearer k m) (geodesic_controls sv b0)) (map shape (phase (mod_manifold m))) (pace k n) k k (quick k)) with (a := a) (b := b); try assumption.
  - intros l E. rewrite quick_shape. exact E.
  - intros l i idx E _. apply entry_quick. apply LL. exact E.
  - intros l i idx x E _. apply quick_upd. apply LL. exact E.
  - intros l v SL V. pose proof (quick_hamiltonian k sv b0 d m HS W LT l v SL V) as Q. apply ham_at in Q. destruct Q as (a1 & A1 & H1). assert (SQ : map shape (quick k l) = map shape (phase (mod_manifold m))) by (rewrite quick_shape; exact SL).
    destruct (dear_state k sv b0 d K0 HS m (quick k l) a1 P W LT SQ A1) as (a2 & y & A2 & _ & _ & _ & H3 & H4). rewrite H1 in H3. injection H3 as <-. apply ham_at. exists a2. split; [exact A2|].
    rewrite H4. f_equal. field. lra.
  - intros i _. apply pace_nonzero. exact N0.
  - intros n' i E I. rewrite map_length, LN in E. assert (n' = n) by lia. subst n'. apply pace_product. exact I.
  - intros t Ht. rewrite KO, Rmult_1_l. exact Ht.
Qed.
Print Assumptions C116_motion.

(** ** Shooting *)

(** euler, midpoint and rk4: the same states with k times the moments, k times the costs. *)
Theorem C116_fixed_step : forall k others others' sv sv' b0 b0' ag ag' sch it t1 keep costs0 costs0' d m m' sh sh',
  0 < k -> exact_grad ag -> exact_grad ag' -> exact_solver sv -> exact_solver sv' ->
  priced m -> wf_mod d m -> locals_total d m -> twin d delta still m m -> shootable m -> 0 < t1 -> (0 < it)%nat ->
  at_price k m m' ->
  shoot real_clock others sv b0 ag (scheme_name sch) it t1 None keep costs0 m = Ok sh ->
  shoot real_clock others' sv' b0' ag' (scheme_name sch) it t1 None keep costs0' m' = Ok sh' ->
  shot_dearer k sh sh'.
Proof.
  intros k others others' sv sv' b0 b0' ag ag' sch it t1 keep costs0 costs0' d m m' sh sh' KP EX EX' HS HS' PR W LT TW SH T1 IT AP E E'. pose proof (price_shootable k m m' AP SH) as SH'.
  assert (X : forall sv b0 ag others costs0 m sh, shootable m -> exact_grad ag ->
    shoot real_clock others sv b0 ag (scheme_name sch) it t1 None keep costs0 m = Ok sh ->
    exists states stages mods costs,
      length states = S it /\ length stages = it /\ Forall (fun ss => length ss = evaluations sch) stages /\
      trajectory sch (fun n => hamilton (ham_of m (step_controls sv b0 None n))) (t1 / INR it) (map phase states) stages /\
      (exists g, nth_error states 0 = Some g /\ same_values g (mod_manifold m)) /\
      nth_error states it = Some (mod_manifold (sh_mod sh)) /\
      Forall (fun g => skel g = skel (mod_manifold m)) states /\
      mapM (at_state m (geodesic_controls sv b0)) (List.concat stages) = Ok mods /\
      sh_costs sh = Some costs /\ length costs = it /\
      (forall k, (k < it)%nat -> exists mk c, nth_error mods (recorded_at sch k) = Some mk /\ cost mk = Ok c /\ nth_error costs k = Some c) /\
      (if keep then exists cs, mapM (fun m => clone_controls (controls m)) mods = Ok cs /\ sh_inter sh = Some (mkInter states cs)
       else sh_inter sh = None)).
  { intros sv1 b1 ag1 oth1 co1 m1 sh1 (ms & -> & SI1 & SP1) EX1 E1. exact (whole_moments sv1 b1 ag1 t1 it keep ms T1 IT SI1 SP1 EX1 oth1 sch co1 sh1 E1). }
  destruct (X sv b0 ag others costs0 m sh SH EX E) as (states & stages & mods & costs & L & LS & LE & T & (g0 & E0 & V0) & E1 & K & AT & CS & CL & CR & KE).
  destruct (X sv' b0' ag' others' costs0' m' sh' SH' EX' E') as (states' & stages' & mods' & costs' & L' & LS' & LE' & T' & (g0' & E0' & V0') & E1' & K' & AT' & CS' & CL' & CR' & KE').
  clear X E E' SH SH'. rewrite Forall_forall in K, K'. set (n := g_len (mod_manifold m)). set (shs := map shape (phase (mod_manifold m))).
  assert (R0 : rel_by shs (pace k n) (phase g0) (phase g0')).
  { pose proof (values_phase _ _ V0) as P0. pose proof (values_phase _ _ V0') as P0'. split; [exact (leq_shape _ _ P0)|].
    apply (weighed_leq _ _ _ _ _ P0 P0'). exact (proj2 (price_start k m m' AP)). }
  assert (R : forall i g g', nth_error states i = Some g -> nth_error states' i = Some g' -> rel_by shs (pace k n) (phase g) (phase g') /\
    forall ss ss', nth_error stages i = Some ss -> nth_error stages' i = Some ss' -> Forall2 (rel_by shs (pace k n)) ss ss').
  { intros i g g' Eg Eg'.
    refine (trajectory_weighed shs (pace k n) 1 _ _ _ sch (t1 / INR it) (t1 / INR it) (map phase states) stages (map phase states') stages' (phase g0) (phase g0') _ T T' _ _ _ R0 i (phase g) (phase g') _ _).
    - intros j l l' v v' SL WL HK HK'. exact (price_fields k sv sv' b0 b0' d m m' KP HS HS' PR W LT TW AP l l' v v' SL WL HK HK').
    - ring.
    - congruence.
    - exact (map_nth_error phase 0 states E0).
    - exact (map_nth_error phase 0 states' E0').
    - exact (map_nth_error phase i states Eg).
    - exact (map_nth_error phase i states' Eg'). }
  assert (P : forall i g g', nth_error states i = Some g -> nth_error states' i = Some g' -> same_values g' (quickened k g)).
  { intros i g g' Eg Eg'. apply (price_values k m m' AP); [exact (K g (nth_error_In _ _ Eg))|exact (K' g' (nth_error_In _ _ Eg'))|exact (proj1 (R i g g' Eg Eg'))]. }
  split; [exact (P it _ _ E1 E1')|]. split.
  - rewrite CS, CS'. cbn [option_map]. f_equal. apply costs_eq; [rewrite map_length; congruence|]. intros j x' x Ex' Ex. rewrite nth_error_map in Ex. destruct (nth_error costs j) as [y|] eqn:Ey; [|discriminate Ex]. cbn [option_map] in Ex. injection Ex as <-.
    assert (Kt : (j < it)%nat) by (rewrite <- CL; apply nth_error_Some; congruence).
    destruct (CR j Kt) as (mk & z & Em & Cm & Ez). destruct (CR' j Kt) as (mk' & z' & Em' & Cm' & Ez'). rewrite Ey in Ez. injection Ez as <-. rewrite Ex' in Ez'. injection Ez' as <-.
    destruct (mapM_back _ _ _ _ _ AT Em) as (l & El & Al). destruct (mapM_back _ _ _ _ _ AT' Em') as (l' & El' & Al').
    assert (RS : Forall2 (Forall2 (rel_by shs (pace k n))) stages stages').
    { apply PropRigid.forall2_nth; [congruence|]. intros i ss ss' Es Es'. assert (Ii : (i < it)%nat) by (rewrite <- LS; apply nth_error_Some; congruence).
      destruct (nth_error states i) as [g|] eqn:Eg; [|apply nth_error_None in Eg; lia]. destruct (nth_error states' i) as [g'|] eqn:Eg'; [|apply nth_error_None in Eg'; lia].
      exact (proj2 (R i g g' Eg Eg') ss ss' Es Es'). }
    destruct (forall2_at _ _ _ (forall2_concat _ _ _ RS) _ _ _ El El') as (SL & WL).
    destruct (price_mods k sv sv' b0 b0' d m m' KP HS HS' PR W LT TW AP l l' mk mk' SL WL Al Al') as (v & _ & _ & C1 & C2). congruence.
  - destruct keep; [|rewrite KE, KE'; exact Logic.I]. destruct KE as (ks & _ & ->). destruct KE' as (ks' & _ & ->). cbn [in_states]. apply PropRigid.forall2_nth; [congruence|exact P].
Qed.
Print Assumptions C116_fixed_step.

(** torch_euler (it hands the list of costs back as it came). *)
Theorem C116_torch_euler : forall k ck ck' others others' sv sv' b0 b0' ag ag' it t1 t1' keep costs0 d m m' sh sh',
  0 < k -> exact_grad ag -> exact_grad ag' -> exact_solver sv -> exact_solver sv' ->
  priced m -> wf_mod d m -> locals_total d m -> twin d delta still m m -> at_price k m m' ->
  shoot ck others sv b0 ag "torch_euler" it t1 None keep costs0 m = Ok sh ->
  shoot ck' others' sv' b0' ag' "torch_euler" it t1' None keep (option_map (map (Rmult k)) costs0) m' = Ok sh' ->
  shot_dearer k sh sh'.
Proof.
  intros k ck ck' others others' sv sv' b0 b0' ag ag' it t1 t1' keep costs0 d m m' sh sh' KP EX EX' HS HS' PR W LT TW AP E E'. pose proof (price_wf k d m m' KP W LT AP) as W'.
  destruct (wf_mod_manifold d m W) as (WG & _). destruct (wf_mod_manifold d m' W') as (WG' & _).
  destruct (C25_torch_euler_steps ck others sv b0 ag it t1 None keep costs0 m sh EX (wf_shapes d _ WG) E)
    as (IT & states & mods & L & LM & E0 & E1 & T & AT & K & CS & KE).
  destruct (C25_torch_euler_steps ck' others' sv' b0' ag' it t1' None keep _ m' sh' EX' (wf_shapes d _ WG') E')
    as (_ & states' & mods' & L' & LM' & E0' & E1' & T' & AT' & K' & CS' & KE').
  rewrite Forall_forall in K, K'. set (shs := map shape (phase (mod_manifold m))). set (n := g_len (mod_manifold m)).
  assert (R : forall i g g', nth_error states i = Some g -> nth_error states' i = Some g' -> rel_by shs (pace k n) (phase g) (phase g')).
  { intros i g g' Eg Eg'.
    refine (proj1 (trajectory_weighed shs (pace k n) 1 _ _ _ SEuler (1 / INR it) (1 / INR it) (map phase states) _ (map phase states') _ (phase (mod_manifold m)) (phase (mod_manifold m')) _ T T' _ _ _ (price_start k m m' AP) i (phase g) (phase g') _ _)).
    - intros j l l' v v' SL WL HK HK'. exact (price_fields k sv sv' b0 b0' d m m' KP HS HS' PR W LT TW AP l l' v v' SL WL HK HK').
    - ring.
    - rewrite !map_length, !firstn_length. lia.
    - exact (map_nth_error phase 0 states E0).
    - exact (map_nth_error phase 0 states' E0').
    - exact (map_nth_error phase i states Eg).
    - exact (map_nth_error phase i states' Eg'). }
  assert (P : forall i g g', nth_error states i = Some g -> nth_error states' i = Some g' -> same_values g' (quickened k g)).
  { intros i g g' Eg Eg'. apply (price_values k m m' AP); [exact (K g (nth_error_In _ _ Eg))|exact (K' g' (nth_error_In _ _ Eg'))|exact (R i g g' Eg Eg')]. }
  split; [exact (P it _ _ E1 E1')|]. split; [rewrite CS, CS'; reflexivity|].
  destruct keep; [|rewrite KE, KE'; exact Logic.I]. destruct KE as (ks & _ & ->). destruct KE' as (ks' & _ & ->). cbn [in_states]. apply PropRigid.forall2_nth; [congruence|exact P].
Qed.
Print Assumptions C116_torch_euler.

Lemma dear_smooth k d m : locals_smooth d (dearer k m) <-> locals_smooth d m.
Proof.
  induction m as [m NC|ms IH] using dmod_ind'; [destruct m; try (elim (NC ms eq_refl)); reflexivity|]. cbn [dearer locals_smooth].
  induction IH as [|m ms Hm _ IHs]; [reflexivity|]. cbn [map fold_right]. rewrite Hm, IHs. reflexivity.
Qed.
Lemma dear_everywhere k d m : everywhere (regular d) m -> everywhere (regular d) (dearer k m).
Proof.
  intros R g m1 K S E. rewrite dear_man in K, S. rewrite dear_set in E. destruct (set_manifold m g) as [m0|] eqn:E0; [|discriminate E]. injection E as <-. apply dear_regular. exact (R g m0 K S E0).
Qed.

(** Whenever C82 says that the module can be shot, it can be with the other coefficients and
    moments. *)
Theorem C116_can_be_shot : forall k others sv b0 ag sch it t1 keep costs0 d m, 0 < k ->
  exact_grad ag -> differentiates ag -> exact_solver sv -> wf_mod d m -> locals_smooth d m ->
  everywhere (regular d) m -> (first_order m -> ~ has_dir (mod_manifold m)) ->
  shootable m -> (0 < numel (g_gd (mod_manifold m)))%nat -> 0 < t1 -> (0 < it)%nat ->
  exists m', at_price k m m' /\ is_ok (shoot real_clock others sv b0 ag (scheme_name sch) it t1 None keep costs0 m').
Proof.
  intros k others sv b0 ag sch it t1 keep costs0 d m K0 EX DF HS W LS RG HF SH NP T1 IT.
  destruct (C98_can_be_shot k others sv b0 ag sch it t1 keep costs0 d (dearer k m) EX DF HS (dear_wf k d m K0 W)) as (m' & ES & OK);
    [apply dear_smooth; exact LS|apply dear_everywhere; exact RG|rewrite dear_first, dear_man; exact HF| |rewrite dear_man; exact NP|exact T1|exact IT|].
  - destruct SH as (ms & E & A & B). exists (map (dearer k) ms). split; [rewrite E; reflexivity|]. split; [|rewrite dear_man; exact B].
    replace (map mod_manifold (map (dearer k) ms)) with (map mod_manifold ms); [exact A|]. rewrite map_map. apply map_ext. intros x. symmetry. apply dear_man.
  - exists m'. split; [|exact OK]. rewrite dear_man in ES. exists (quickened k (mod_manifold m)). split; [exact ES|]. split; split; try reflexivity; apply leq_refl'.
Qed.
Print Assumptions C116_can_be_shot.

(** The example of C90 meets the hypotheses: coefficients and moments three times as large. *)
Example C116_hypotheses : forall b0,
  priced spin0 /\ wf_mod 2 spin0 /\ locals_total 2 spin0 /\ twin 2 delta still spin0 spin0 /\ shootable spin0 /\
  solution (ham_of spin0 (geodesic_controls exact_sv b0)) (fun t => phase (spin_path t)) (-1) 2 /\
  forall sch it, (0 < it)%nat -> exists sh m' sh', at_price 3 spin0 m' /\
    shoot real_clock (fun _ => None) exact_sv b0 std_ag (scheme_name sch) it 1 None true None spin0 = Ok sh /\
    shoot real_clock (fun _ => None) exact_sv b0 std_ag (scheme_name sch) it 1 None true None m' = Ok sh'.
Proof.
  intros b0. destruct (C96_hypotheses b0) as (W & LT & L & SH & RG & _). split; [cbn; tauto|]. split; [exact W|]. split; [exact LT|].
  split; [apply (spin_isotropic _ _ _ _ _ delta (rigid_delta 2))|]. split; [exact SH|]. split; [apply spin_solution|]. intros sch it IT.
  destruct (C82_fixed_step_schemes (fun _ => None) exact_sv b0 std_ag sch it 1 true None 2 spin0 std_exact std_differentiates exact_sv_exact W L RG) as (sh & E);
    [intros _; cbn; tauto|exact SH|cbn; lia|lra|exact IT|].
  destruct (C116_can_be_shot 3 (fun _ => None) exact_sv b0 std_ag sch it 1 true None 2 spin0 ltac:(lra) std_exact std_differentiates exact_sv_exact W L RG) as (m' & Em & sh' & E');
    [intros _; cbn; tauto|exact SH|cbn; lia|lra|exact IT|]. exists sh, m', sh'. auto.
Qed.

(** A finding: Translations takes no coefficient (Translation.py 13-18, 28-30): its share of
    the cost cannot be changed, and the moments must stay as they are. *)
Theorem C116_translations_refuted : exists sv b0 d m m' m1 m1' x, exact_solver sv /\ wf_mod d m /\ at_price 2 m m' /\
  geodesic_controls sv b0 m = Ok m1 /\ geodesic_controls sv b0 m' = Ok m1' /\
  cost m1 = Ok x /\ cost m1' = Ok (4 * x) /\ 0 < x /\ ceq (controls m1') (cscal 2 (controls m1)).
Proof.
  set (one := mkT [1%nat; 1%nat] (fun _ => 1)). set (m := MTrans Torch 1 1 1 one one one).
  assert (W : wf_mod 1 m) by (cbn; repeat split; lra). destruct (wf_mod_manifold 1 m W) as (WG & NE).
  assert (RG : regular 1 m) by (intros i j Hi Hj Hn; elim Hn; lia).
  destruct (PropModule.C19_geodesic_controls_computable exact_sv Torch 1 m (mod_manifold m) exact_sv_exact W RG WG NE) as (m1 & E1); [intros []|].
  set (m' := MTrans Torch 1 1 1 one (tscal 2 one) one).
  destruct (C98_controls 2 exact_sv Torch 1 m m' m1 exact_sv_exact W eq_refl E1) as (m1' & x & E1' & CE & C & C' & H & _).
  exists exact_sv, Torch, 1%nat, m, m', m1, m1', x. split; [exact exact_sv_exact|]. split; [exact W|].
  split; [exists (quickened 2 (mod_manifold m)); split; [reflexivity|split; split; try reflexivity; apply leq_refl']|].
  split; [exact E1|]. split; [exact E1'|]. split; [exact C|]. split; [rewrite C'; f_equal; ring|]. split; [|exact CE].
  destruct (geodesic_max exact_sv Torch 1 exact_sv_exact m _ m1 W WG NE E1) as (O & F & g & G & MX).
  destruct (MX (CLeaf one) eq_refl) as (m2 & g2 & _ & e & F2 & G2 & _ & _ & _ & P & Q). cbn in F2. injection F2 as <-.
  assert (V : g2 = 1 / 2).
  { cbn in G2. injection G2 as <-. repeat match goal with |- context [exp ?z] => match z with 0 => fail 1 | _ => replace z with 0 by field end end. rewrite exp_0. field. }
  rewrite ham_gain, (fill_manifold exact_sv m _ m1 F), G in H. injection H as <-. lra.
Qed.
Print Assumptions C116_translations_refuted.
