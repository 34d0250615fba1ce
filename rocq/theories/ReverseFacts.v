(** Motions run backwards. *)
From Coq Require Import Reals String List Arith Lia Lra FunctionalExtensionality.
From Verif Require Import Py RSum Tensor TensorFacts KernelModel FieldModel GeometryModel ModuleModel ShootingModel
  SpecKernel SpecField SpecGeometry SpecModule SpecShooting SpecMotion SpecTransport ModuleDual ModuleAlg ModuleLeaves ModuleMain ModuleHistory ModuleRegular ModulePosed
  GeometryFacts ShootingPack ShootingDyn ShootingInst MotionMomentum TransportFacts SpecEnergy SpecReverse.
Import ListNotations.
Open Scope R_scope.

(** ** Manifolds *)

Lemma rev_skel g : skel (reversed g) = skel g.
Proof.
  induction g as [g S|gs IH] using gman_ind'; [destruct g; try (elim S); reflexivity|]. cbn [reversed skel]. f_equal.
  induction IH as [|g gs Hg _ IHs]; [reflexivity|]. cbn [map]. rewrite Hg, IHs. reflexivity.
Qed.
Lemma rev_gd g : g_gd (reversed g) = g_gd g.
Proof.
  induction g as [g S|gs IH] using gman_ind'; [destruct g; try (elim S); reflexivity|]. cbn [reversed g_gd].
  induction IH as [|g gs Hg _ IHs]; [reflexivity|]. cbn [map flat_map]. rewrite Hg, IHs. reflexivity.
Qed.
Lemma rev_cotan g : g_cotan (reversed g) = map topp (g_cotan g).
Proof.
  induction g as [g S|gs IH] using gman_ind'; [destruct g; try (elim S); reflexivity|]. cbn [reversed g_cotan].
  induction IH as [|g gs Hg _ IHs]; [reflexivity|]. cbn [map flat_map]. rewrite Hg, IHs, map_app. reflexivity.
Qed.
Lemma topp_shapes l : map shape (map topp l) = map shape l.
Proof. rewrite map_map. reflexivity. Qed.
Lemma rev_wf d g : wf_gman d g -> wf_gman d (reversed g).
Proof. intros W. apply (wf_gman_same d g); [exact W|apply rev_skel|rewrite rev_gd; reflexivity|rewrite rev_cotan; apply topp_shapes]. Qed.
Lemma rev_nonempty g : no_empty_comp g -> no_empty_comp (reversed g).
Proof. apply nonempty_same. apply rev_skel. Qed.
Lemma skel_dir g : forall g', skel g' = skel g -> has_dir g' -> has_dir g.
Proof.
  induction g as [g S|gs IH] using gman_ind'; intros g' K N.
  - destruct g; try (elim S); destruct g'; try discriminate K; exact N.
  - destruct g' as [| | | | |gs']; try discriminate K. cbn [skel has_dir] in *. injection K as K.
    revert gs' K N. induction IH as [|g gs Hg _ IHs]; intros gs' K N; destruct gs' as [|g' gs']; try discriminate K; [destruct N|].
    cbn [map fold_right] in *. injection K as K1 K2. destruct N as [N|N]; [left; apply (Hg g' K1 N)|right; apply (IHs gs' K2 N)].
Qed.
Lemma topp_2 t i j : (topp t) @2 i j = - (t @2 i j).
Proof. reflexivity. Qed.
Lemma rsum_neg n f : rsum n (fun i => - f i) = - rsum n f.
Proof. rewrite (rsum_ext n _ (fun i => -1 * f i)) by (intros; ring). rewrite rsum_scal. ring. Qed.
Lemma rev_pairing d g v D : pairing d (reversed g) v D = - pairing d g v D.
Proof.
  assert (P : forall nb gd c, rsum nb (fun n => rsum d (fun a => (topp c) @2 n a * v (vrow gd n) a)) = - rsum nb (fun n => rsum d (fun a => c @2 n a * v (vrow gd n) a))).
  { intros. rewrite <- rsum_neg. apply rsum_ext; intros n _. rewrite <- rsum_neg. apply rsum_ext; intros a _. rewrite topp_2. ring. }
  induction g as [g S|gs IH] using gman_ind'.
  - destruct g as [dim nb gd c|tr dim nb gd0 gd1 c0 c1|dim nb gd0 gd1 c0 c1|dim n0 n1 gd0 gd1 c0 c1 i0 i1|dim|]; try (elim S); cbn [reversed pairing].
    + apply P.
    + destruct tr; rewrite P, Ropp_plus_distr; f_equal; rewrite <- rsum_neg; apply rsum_ext; intros n _; rewrite <- rsum_neg; apply rsum_ext; intros a _; rewrite topp_2; ring.
    + rewrite P, Ropp_plus_distr; f_equal; rewrite <- rsum_neg; apply rsum_ext; intros n _; rewrite <- rsum_neg; apply rsum_ext; intros a _; rewrite <- rsum_neg; apply rsum_ext; intros j _.
      change ((topp c1) @3 n a j) with (- (c1 @3 n a j)). ring.
    + ring.
    + ring.
  - cbn [reversed pairing]. induction IH as [|g gs Hg _ IHs]; cbn [map fold_right]; [ring|]. rewrite Hg, IHs. ring.
Qed.

(** ** What the controls depend on *)

Lemma uncot_controls m : controls (uncot m) = controls m.
Proof.
  induction m as [m NC|ms IH] using dmod_ind'; [destruct m; try (elim (NC ms eq_refl)); reflexivity|]. cbn [uncot controls]. f_equal.
  induction IH as [|m ms Hm _ IHs]; [reflexivity|]. cbn [map]. rewrite Hm, IHs. reflexivity.
Qed.
Lemma uncot_geo sv b0 man m : compute_geodesic_control sv b0 (uncot m) man = (m' <- compute_geodesic_control sv b0 m man ;; Ok (uncot m')).
Proof.
  induction m as [m NC|ms IH] using dmod_ind'.
  - destruct m; try (elim (NC ms eq_refl)); cbn [uncot compute_geodesic_control];
      try reflexivity; repeat match goal with |- context [bind ?x _] => is_var x || (destruct x eqn:?; cbn [bind]; [|reflexivity]) end; try reflexivity.
    + exact (uncot_fill sv (MImp1 _ _ _ _ _ _ _ _ _ _ _ _ _) (CLeaf _)).
    + exact (uncot_fill sv (MDivFree _ _ _ _ _ _ _ _ _ _ _) (CLeaf _)).
    + exact (uncot_fill sv (MArap _ _ _ _ _ _ _ _ _ _ _) (CLeaf _)).
  - cbn [uncot]. change (compute_geodesic_control sv b0 (MComp (map uncot ms)) man) with (ms' <- geos sv b0 man (map uncot ms) ;; Ok (MComp ms')).
    change (compute_geodesic_control sv b0 (MComp ms) man) with (ms' <- geos sv b0 man ms ;; Ok (MComp ms')).
    assert (E : geos sv b0 man (map uncot ms) = (r <- geos sv b0 man ms ;; Ok (map uncot r))).
    { induction IH as [|m ms Hm _ IHs]; [reflexivity|]. cbn [map geos]. fold (geos sv b0 man). rewrite Hm, IHs.
      destruct (compute_geodesic_control sv b0 m man); [cbn [bind]|reflexivity]. destruct (geos sv b0 man ms); reflexivity. }
    rewrite E. destruct (geos sv b0 man ms); reflexivity.
Qed.
Lemma wf_same d m : forall m', frozen m' = frozen m -> mod_manifold m' = mod_manifold m -> controls m' = controls m -> wf_mod d m -> wf_mod d m'.
Proof.
  induction m as [m NC|ms IH] using dmod_ind'; intros m' F M C W.
  - destruct m; try (elim (NC ms eq_refl)); destruct m'; try discriminate F; cbn [frozen params mod_manifold controls] in F, M, C;
      try (injection F); try (injection M); try (injection C); intros; subst; exact W.
  - destruct m' as [| | | | | | | | | |ms']; try discriminate F. cbn [frozen mod_manifold controls wf_mod] in *. injection F as F. injection M as M. injection C as C.
    destruct W as (N & W). split; [destruct ms; [elim (N eq_refl)|destruct ms'; [discriminate F|discriminate]]|]. clear N.
    revert ms' F M C W. induction IH as [|m ms Hm _ IHs]; intros ms' F M C W; destruct ms' as [|m' ms']; try discriminate F; [exact Logic.I|].
    cbn [map fold_right] in *. injection F as F1 F2. injection M as M1 M2. injection C as C1 C2. destruct W as (W1 & W2). split; [apply Hm; assumption|apply IHs; assumption].
Qed.

(** ** Controls of the reversed module *)

Section Even.
Variables (sv : solver) (b0 : backend) (d : nat).
Hypothesis HS : exact_solver sv.

Lemma opposite_controls m man m1 : wf_mod d m -> wf_gman d man -> no_empty_comp man -> compute_geodesic_control sv b0 m man = Ok m1 ->
  exists m2 x, compute_geodesic_control sv b0 m (reversed man) = Ok m2 /\ ceq (controls m2) (cscal (-1) (controls m1)) /\ cost m1 = Ok x /\ cost m2 = Ok x.
Proof.
  intros W WG NE E. pose proof (geo_posed_conv sv b0 d HS m man WG NE m1 W E) as PO.
  destruct (geo_posed sv b0 d HS m (reversed man) W PO (rev_wf d man WG) (rev_nonempty man NE)) as (m2 & E2).
  { intros FO DR. apply (geo_no_dir sv b0 d m man W WG NE FO); [apply (skel_dir man (reversed man) (rev_skel man) DR)|exists m1; exact E]. }
  destruct (module_leaf sv b0 d m HS W (geo_fillable sv b0 d HS m man m1 W WG NE E)) as (Q & [P D G]).
  destruct (G man m1 WG NE E) as (O1 & F1). destruct (G (reversed man) m2 (rev_wf d man WG) (rev_nonempty man NE) E2) as (O2 & F2).
  assert (X : forall c, ctrl_ok d m c -> Q c (controls m2) = - Q c (controls m1)).
  { intros c Hc. destruct (pk_fill _ _ _ _ P c Hc) as (mc & f & Fc & _ & FG & _).
    rewrite <- (D man m1 WG NE E c mc f Hc Fc FG), <- (D (reversed man) m2 (rev_wf d man WG) (rev_nonempty man NE) E2 c mc f Hc Fc FG). apply rev_pairing. }
  set (h1 := controls m1) in *. set (h2 := controls m2) in *.
  assert (S12 : Q h1 h2 = Q h2 h1) by (apply (pk_sym _ _ _ _ P); assumption). pose proof (X h1 O1) as X1. pose proof (X h2 O2) as X2.
  exists m2, (1 / 2 * Q h1 h1). split; [exact E2|]. split; [|split].
  - destruct (pk_scal _ _ _ _ P (-1) h1 O1) as (OS & ES). pose proof (pk_lin _ _ _ _ P (-1) h1 h2 O1 O2) as EL. pose proof (pk_sym _ _ _ _ P h2 (cscal (-1) h1) O2 OS) as SY.
    destruct (pk_sub _ _ _ _ P h2 (cscal (-1) h1) O2 OS) as (OD & ED). apply (csub_null_ceq d m h2 (cscal (-1) h1) O2 OS).
    destruct (pk_fill _ _ _ _ P _ OD) as (m3 & f3 & F3 & C3 & _). apply (definite_posed sv b0 d HS m _ m3 W PO OD F3).
    rewrite C3. f_equal. rewrite ED. nra.
  - destruct (pk_fill _ _ _ _ P h1 O1) as (m1' & f & F' & C & _). rewrite F1 in F'. injection F' as <-. exact C.
  - destruct (pk_fill _ _ _ _ P h2 O2) as (m2' & f & F' & C & _). rewrite F2 in F'. injection F' as <-. rewrite C. f_equal. lra.
Qed.

Lemma reversed_controls m mr m1 : wf_mod d m -> set_manifold m (reversed (mod_manifold m)) = Ok mr -> geodesic_controls sv b0 m = Ok m1 ->
  exists mr1 x, geodesic_controls sv b0 mr = Ok mr1 /\ ceq (controls mr1) (cscal (-1) (controls m1)) /\
    cost m1 = Ok x /\ cost mr1 = Ok x /\ hamiltonian m1 = Ok x /\ hamiltonian mr1 = Ok x.
Proof.
  intros W E G. set (g := mod_manifold m) in *. destruct (wf_mod_manifold d m W) as (WG & NE). fold g in WG, NE.
  destruct (set_ok m (reversed g) (rev_skel g)) as (mr' & E' & MM & _). rewrite E in E'. injection E' as <-.
  assert (UG : uncot_g (reversed g) = mod_manifold (uncot m)).
  { rewrite uncot_man. apply uncot_eq; [apply rev_skel|apply rev_gd|rewrite rev_cotan; apply topp_shapes]. }
  pose proof (uncot_set m (reversed g)) as US. rewrite E, UG in US. cbn [bind] in US.
  destruct (set_ok (uncot m) (mod_manifold (uncot m)) eq_refl) as (u & EU & MU & FU & CU). rewrite US in EU. injection EU as <-.
  assert (WU : wf_mod d (uncot m)) by (apply uncot_wf; exact W).
  assert (WR : wf_mod d mr) by (apply (uncot_wf d mr); apply (wf_same d (uncot m)); assumption).
  assert (G1 : compute_geodesic_control sv b0 (uncot m) g = Ok (uncot m1)). { rewrite uncot_geo. unfold geodesic_controls in G. fold g in G. rewrite G. reflexivity. }
  destruct (opposite_controls (uncot m) g (uncot m1) WU WG NE G1) as (m2 & x & G2 & CE & C1 & C2).
  rewrite <- (geo_determined sv b0 (reversed g) (uncot mr) (uncot m) FU MU), uncot_geo in G2.
  destruct (compute_geodesic_control sv b0 mr (reversed g)) as [mr1|] eqn:ER; [|discriminate G2]. cbn [bind] in G2. injection G2 as <-.
  assert (GR : geodesic_controls sv b0 mr = Ok mr1) by (unfold geodesic_controls; rewrite MM; exact ER).
  rewrite !uncot_controls in CE. rewrite uncot_cost in C1, C2. exists mr1, x. split; [exact GR|]. split; [exact CE|]. split; [exact C1|]. split; [exact C2|].
  destruct (hamiltonian_cost sv b0 d HS m m1 W G) as (y & Cy & Hy & _). rewrite C1 in Cy. injection Cy as <-. split; [exact Hy|].
  destruct (hamiltonian_cost sv b0 d HS mr mr1 WR GR) as (y & Cy & Hy' & _). rewrite C2 in Cy. injection Cy as <-. exact Hy'.
Qed.
End Even.
