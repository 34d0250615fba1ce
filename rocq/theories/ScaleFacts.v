(** Geodesic controls and Hamiltonian when the moments are multiplied by a number. *)
From Coq Require Import Reals String List Arith Lia Lra Psatz FunctionalExtensionality.
From Verif Require Import Py RSum Tensor TensorFacts KernelModel FieldModel GeometryModel ModuleModel ShootingModel
  SpecKernel SpecField SpecGeometry SpecModule SpecShooting SpecMotion SpecTransport ModuleDual ModuleAlg ModuleLeaves ModuleMain ModuleHistory ModuleRegular ModulePosed
  GeometryFacts ShootingPack ShootingDyn ShootingInst MotionMomentum TransportFacts SpecEnergy EnergyFacts SpecConverge ConvergeFacts SpecReverse ReverseFacts ReverseShoot
  SpecScale ScaleFlow.
Import ListNotations.
Open Scope R_scope.

(** ** Manifolds *)

Lemma quick_skel s g : skel (quickened s g) = skel g.
Proof.
  induction g as [g S|gs IH] using gman_ind'; [destruct g; try (elim S); reflexivity|]. cbn [quickened skel]. f_equal.
  induction IH as [|g gs Hg _ IHs]; [reflexivity|]. cbn [map]. rewrite Hg, IHs. reflexivity.
Qed.
Lemma quick_gd s g : g_gd (quickened s g) = g_gd g.
Proof.
  induction g as [g S|gs IH] using gman_ind'; [destruct g; try (elim S); reflexivity|]. cbn [quickened g_gd].
  induction IH as [|g gs Hg _ IHs]; [reflexivity|]. cbn [map flat_map]. rewrite Hg, IHs. reflexivity.
Qed.
Lemma quick_cotan s g : g_cotan (quickened s g) = map (tscal s) (g_cotan g).
Proof.
  induction g as [g S|gs IH] using gman_ind'; [destruct g; try (elim S); reflexivity|]. cbn [quickened g_cotan].
  induction IH as [|g gs Hg _ IHs]; [reflexivity|]. cbn [map flat_map]. rewrite Hg, IHs, map_app. reflexivity.
Qed.
Lemma tscal_shapes s l : map shape (map (tscal s) l) = map shape l.
Proof. rewrite map_map. reflexivity. Qed.
Lemma quick_wf s d g : wf_gman d g -> wf_gman d (quickened s g).
Proof. intros W. apply (wf_gman_same d g); [exact W|apply quick_skel|rewrite quick_gd; reflexivity|rewrite quick_cotan; apply tscal_shapes]. Qed.
Lemma quick_nonempty s g : no_empty_comp g -> no_empty_comp (quickened s g).
Proof. apply nonempty_same. apply quick_skel. Qed.
Lemma quick_pairing s d g v D : pairing d (quickened s g) v D = s * pairing d g v D.
Proof.
  assert (P : forall nb gd c, rsum nb (fun n => rsum d (fun a => (tscal s c) @2 n a * v (vrow gd n) a)) = s * rsum nb (fun n => rsum d (fun a => c @2 n a * v (vrow gd n) a))).
  { intros. rewrite <- rsum_scal. apply rsum_ext; intros n _. rewrite <- rsum_scal. apply rsum_ext; intros a _. change ((tscal s c) @2 n a) with (s * c @2 n a). ring. }
  induction g as [g S|gs IH] using gman_ind'.
  - destruct g as [dim nb gd c|tr dim nb gd0 gd1 c0 c1|dim nb gd0 gd1 c0 c1|dim n0 n1 gd0 gd1 c0 c1 i0 i1|dim|]; try (elim S); cbn [quickened pairing].
    + apply P.
    + destruct tr; rewrite P, Rmult_plus_distr_l; f_equal; rewrite <- rsum_scal; apply rsum_ext; intros n _; rewrite <- rsum_scal; apply rsum_ext; intros a _; change ((tscal s c1) @2 n a) with (s * c1 @2 n a); ring.
    + rewrite P, Rmult_plus_distr_l; f_equal; rewrite <- rsum_scal; apply rsum_ext; intros n _; rewrite <- rsum_scal; apply rsum_ext; intros a _; rewrite <- rsum_scal; apply rsum_ext; intros j _.
      change ((tscal s c1) @3 n a j) with (s * c1 @3 n a j). ring.
    + ring.
    + ring.
  - cbn [quickened pairing]. induction IH as [|g gs Hg _ IHs]; cbn [map fold_right]; [ring|]. rewrite Hg, IHs. ring.
Qed.

(** ** Controls *)

Section Linear.
Variables (s : R) (sv : solver) (b0 : backend) (d : nat).
Hypothesis HS : exact_solver sv.

Lemma multiple_controls m man m1 : wf_mod d m -> wf_gman d man -> no_empty_comp man -> compute_geodesic_control sv b0 m man = Ok m1 ->
  exists m2 x, compute_geodesic_control sv b0 m (quickened s man) = Ok m2 /\ ceq (controls m2) (cscal s (controls m1)) /\ cost m1 = Ok x /\ cost m2 = Ok (s * s * x).
Proof.
  intros W WG NE E. pose proof (geo_posed_conv sv b0 d HS m man WG NE m1 W E) as PO.
  destruct (geo_posed sv b0 d HS m (quickened s man) W PO (quick_wf s d man WG) (quick_nonempty s man NE)) as (m2 & E2).
  { intros FO DR. apply (geo_no_dir sv b0 d m man W WG NE FO); [apply (skel_dir man (quickened s man) (quick_skel s man) DR)|exists m1; exact E]. }
  destruct (module_leaf sv b0 d m HS W (geo_fillable sv b0 d HS m man m1 W WG NE E)) as (Q & [P D G]).
  destruct (G man m1 WG NE E) as (O1 & F1). destruct (G (quickened s man) m2 (quick_wf s d man WG) (quick_nonempty s man NE) E2) as (O2 & F2).
  assert (X : forall c, ctrl_ok d m c -> Q c (controls m2) = s * Q c (controls m1)).
  { intros c Hc. destruct (pk_fill _ _ _ _ P c Hc) as (mc & f & Fc & _ & FG & _).
    rewrite <- (D man m1 WG NE E c mc f Hc Fc FG), <- (D (quickened s man) m2 (quick_wf s d man WG) (quick_nonempty s man NE) E2 c mc f Hc Fc FG). apply quick_pairing. }
  set (h1 := controls m1) in *. set (h2 := controls m2) in *.
  assert (S12 : Q h1 h2 = Q h2 h1) by (apply (pk_sym _ _ _ _ P); assumption). pose proof (X h1 O1) as X1. pose proof (X h2 O2) as X2.
  assert (Q22 : Q h2 h2 = s * s * Q h1 h1) by (rewrite X2, <- S12, X1; ring).
  exists m2, (1 / 2 * Q h1 h1). split; [exact E2|]. split; [|split].
  - destruct (pk_scal _ _ _ _ P s h1 O1) as (OS & ES). pose proof (pk_lin _ _ _ _ P s h1 h2 O1 O2) as EL. pose proof (pk_sym _ _ _ _ P h2 (cscal s h1) O2 OS) as SY.
    destruct (pk_sub _ _ _ _ P h2 (cscal s h1) O2 OS) as (OD & ED). apply (csub_null_ceq d m h2 (cscal s h1) O2 OS).
    destruct (pk_fill _ _ _ _ P _ OD) as (m3 & f3 & F3 & C3 & _). apply (definite_posed sv b0 d HS m _ m3 W PO OD F3).
    rewrite C3. f_equal. rewrite ED, ES, SY, EL, Q22, X1. ring.
  - destruct (pk_fill _ _ _ _ P h1 O1) as (m1' & f & F' & C & _). rewrite F1 in F'. injection F' as <-. exact C.
  - destruct (pk_fill _ _ _ _ P h2 O2) as (m2' & f & F' & C & _). rewrite F2 in F'. injection F' as <-. rewrite C. f_equal. rewrite Q22. ring.
Qed.

Lemma quickened_controls m mr m1 : wf_mod d m -> set_manifold m (quickened s (mod_manifold m)) = Ok mr -> geodesic_controls sv b0 m = Ok m1 ->
  exists mr1 x, geodesic_controls sv b0 mr = Ok mr1 /\ ceq (controls mr1) (cscal s (controls m1)) /\
    cost m1 = Ok x /\ cost mr1 = Ok (s * s * x) /\ hamiltonian m1 = Ok x /\ hamiltonian mr1 = Ok (s * s * x).
Proof.
  intros W E G. set (g := mod_manifold m) in *. destruct (wf_mod_manifold d m W) as (WG & NE). fold g in WG, NE.
  destruct (set_ok m (quickened s g) (quick_skel s g)) as (mr' & E' & MM & _). rewrite E in E'. injection E' as <-.
  assert (UG : uncot_g (quickened s g) = mod_manifold (uncot m)).
  { rewrite uncot_man. apply uncot_eq; [apply quick_skel|apply quick_gd|rewrite quick_cotan; apply tscal_shapes]. }
  pose proof (uncot_set m (quickened s g)) as US. rewrite E, UG in US. cbn [bind] in US.
  destruct (set_ok (uncot m) (mod_manifold (uncot m)) eq_refl) as (u & EU & MU & FU & CU). rewrite US in EU. injection EU as <-.
  assert (WU : wf_mod d (uncot m)) by (apply uncot_wf; exact W).
  assert (WR : wf_mod d mr) by (apply (uncot_wf d mr); apply (wf_same d (uncot m)); assumption).
  assert (G1 : compute_geodesic_control sv b0 (uncot m) g = Ok (uncot m1)). { rewrite uncot_geo. unfold geodesic_controls in G. fold g in G. rewrite G. reflexivity. }
  destruct (multiple_controls (uncot m) g (uncot m1) WU WG NE G1) as (m2 & x & G2 & CE & C1 & C2).
  rewrite <- (geo_determined sv b0 (quickened s g) (uncot mr) (uncot m) FU MU), uncot_geo in G2.
  destruct (compute_geodesic_control sv b0 mr (quickened s g)) as [mr1|] eqn:ER; [|discriminate G2]. cbn [bind] in G2. injection G2 as <-.
  assert (GR : geodesic_controls sv b0 mr = Ok mr1) by (unfold geodesic_controls; rewrite MM; exact ER).
  rewrite !uncot_controls in CE. rewrite uncot_cost in C1, C2. exists mr1, x. split; [exact GR|]. split; [exact CE|]. split; [exact C1|]. split; [exact C2|].
  destruct (hamiltonian_cost sv b0 d HS m m1 W G) as (y & Cy & Hy & _). rewrite C1 in Cy. injection Cy as <-. split; [exact Hy|].
  destruct (hamiltonian_cost sv b0 d HS mr mr1 WR GR) as (y & Cy & Hy' & _). rewrite C2 in Cy. injection Cy as <-. exact Hy'.
Qed.
End Linear.

(** ** Lists of descriptors and moments *)

Lemma quick_app s q p : length q = length p -> quick s (q ++ p) = q ++ map (tscal s) p.
Proof.
  intros E. unfold quick. rewrite app_length, <- E. replace (length q + length q)%nat with (2 * length q)%nat by lia. rewrite Nat.div2_double.
  rewrite firstn_app, skipn_app, Nat.sub_diag, firstn_all, skipn_all. cbn. rewrite app_nil_r. reflexivity.
Qed.
Lemma quick_phase s g : phase (quickened s g) = quick s (phase g).
Proof. unfold phase. rewrite quick_gd, quick_cotan, quick_app; [reflexivity|]. rewrite g_gd_len, g_cotan_len. reflexivity. Qed.
Lemma quick_shape s l : map shape (quick s l) = map shape l.
Proof. unfold quick. rewrite map_app, tscal_shapes, <- map_app, firstn_skipn. reflexivity. Qed.

(** The weights: 1 for the n descriptors, s for the moments. *)
Definition pace (s : R) (n i : nat) : R := if Nat.ltb i n then 1 else s.
Lemma entry_tscal s l : forall i idx, entry (map (tscal s) l) i idx = s * entry l i idx.
Proof. intros i idx. unfold entry. rewrite nth_error_map. destruct (nth_error l i); cbn; [reflexivity|ring]. Qed.
Lemma entry_quick s l n i idx : length l = (n + n)%nat -> entry (quick s l) i idx = pace s n i * entry l i idx.
Proof.
  intros E. destruct (halves l n E) as (q & p & -> & Lq & Lp). rewrite quick_app by lia. unfold pace. destruct (Nat.ltb_spec i n) as [I|I].
  - rewrite !entry_app1 by lia. ring.
  - replace i with (length q + (i - n))%nat by lia. rewrite !entry_app_r. apply entry_tscal.
Qed.
Lemma upd_tscal s a : forall i idx x, upd (map (tscal s) a) i idx (s * x) = map (tscal s) (upd a i idx x).
Proof.
  induction a as [|t a IH]; intros i idx x; [reflexivity|]. destruct i as [|i]; cbn [map upd]; [|rewrite IH; reflexivity].
  f_equal. unfold tset, tscal, tmap. cbn. f_equal. apply functional_extensionality. intros j. destruct (idx_eqb j idx); reflexivity.
Qed.
Lemma quick_upd s l n i idx x : length l = (n + n)%nat -> upd (quick s l) i idx (pace s n i * x) = quick s (upd l i idx x).
Proof.
  intros E. destruct (halves l n E) as (q & p & -> & Lq & Lp). rewrite quick_app by lia. unfold pace. destruct (Nat.ltb_spec i n) as [I|I].
  - rewrite !upd_app_l by lia. rewrite quick_app by (rewrite upd_len; lia). rewrite Rmult_1_l. reflexivity.
  - replace i with (length q + (i - n))%nat by lia. rewrite !upd_app_r. rewrite quick_app by (rewrite upd_len; lia). rewrite upd_tscal. reflexivity.
Qed.
Lemma quick_weighed s l n : length l = (n + n)%nat -> weighed (pace s n) l (quick s l).
Proof. intros E. split; [apply quick_shape|]. intros i x idx _ _. apply entry_quick. exact E. Qed.
Lemma pace_product s n i : (i < n)%nat -> pace s n i * pace s n (n + i) = s.
Proof. intros I. unfold pace. destruct (Nat.ltb_spec i n); [|lia]. destruct (Nat.ltb_spec (n + i) n); [lia|]. ring. Qed.
Lemma pace_nonzero s n i : s <> 0 -> pace s n i <> 0.
Proof. intros N. unfold pace. destruct (Nat.ltb i n); [lra|exact N]. Qed.
Lemma weighed_quick s l l' n : length l = (n + n)%nat -> weighed (pace s n) l l' -> leq l' (quick s l).
Proof.
  intros E (S & W). apply RigidShoot.leq_entries; [rewrite quick_shape; exact S|]. intros i t idx N V. rewrite (entry_quick s l n) by exact E. 
  apply (W i (shape t)); [|exact V]. rewrite <- (quick_shape s), nth_error_map, N. reflexivity.
Qed.

(** ** The reduced Hamiltonian *)

Lemma quick_state s sv b0 d m l m2 : exact_solver sv -> wf_mod d m -> locals_total d m -> map shape l = map shape (phase (mod_manifold m)) ->
  at_state m (geodesic_controls sv b0) l = Ok m2 ->
  exists m2' x, at_state m (geodesic_controls sv b0) (quick s l) = Ok m2' /\ ceq (controls m2') (cscal s (controls m2)) /\
    cost m2 = Ok x /\ cost m2' = Ok (s * s * x) /\ hamiltonian m2 = Ok x /\ hamiltonian m2' = Ok (s * s * x).
Proof.
  intros HS W LT SL E. destruct (state_of m l SL) as (g & <- & K & SG & SC). rewrite <- quick_phase.
  destruct (write_state m g K) as (m1 & E1 & S1 & M1 & F1 & _). assert (KR : skel (quickened s g) = skel (mod_manifold m)) by (rewrite quick_skel; exact K).
  destruct (write_state m (quickened s g) KR) as (m3 & E2 & S2 & M2 & F2 & _).
  assert (W1 : wf_mod d m1) by (apply (wf_set d m g m1); assumption).
  unfold at_state in *. rewrite E1 in E. rewrite E2. cbn [bind] in *.
  destruct (set_ok m1 (quickened s g)) as (mr & ER & MR & FR & _); [rewrite M1; apply quick_skel|].
  destruct (quickened_controls s sv b0 d HS m1 mr m2 W1) as (mr1 & y & GR & REST); [rewrite M1; exact ER|exact E|].
  exists mr1, y. split; [|exact REST]. rewrite (geodesic_determined sv b0 m3 mr) by congruence. exact GR.
Qed.
Lemma quick_hamiltonian s sv b0 d m : exact_solver sv -> wf_mod d m -> locals_total d m -> forall l v, map shape l = map shape (phase (mod_manifold m)) ->
  ham_of m (geodesic_controls sv b0) l = Ok v -> ham_of m (geodesic_controls sv b0) (quick s l) = Ok (s * s * v).
Proof.
  intros HS W LT l v SL E. unfold ham_of in E. destruct (write_manifold m l) as [m1|] eqn:E1; [|discriminate E]. cbn [bind] in E. destruct (geodesic_controls sv b0 m1) as [m2|] eqn:E2; [|discriminate E]. cbn [bind] in E.
  assert (A : at_state m (geodesic_controls sv b0) l = Ok m2) by (unfold at_state; rewrite E1; exact E2).
  destruct (quick_state s sv b0 d m l m2 HS W LT SL A) as (m2' & x & A' & _ & _ & _ & H1 & H2). rewrite H1 in E. injection E as <-.
  unfold at_state in A'. unfold ham_of. destruct (write_manifold m (quick s l)) as [m1'|]; [|discriminate A']. cbn [bind] in *. rewrite A'. cbn [bind]. exact H2.
Qed.
