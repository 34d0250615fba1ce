(** The controls of a module in another unit of length correspond to those of the module:
    the Hamiltonians are multiplied by the square of the factor, with given and with geodesic
    controls.  Regular configurations stay regular. *)
From Coq Require Import Reals String List Arith Lia Lra.
From Verif Require Import Py RSum Tensor TensorFacts KernelModel FieldModel GeometryModel ModuleModel
  SpecLinAlg SpecKernel SpecField SpecGeometry SpecSKS SpecModule SpecShooting SpecHistory LinAlg KernelFacts FieldFacts GeometryFacts SKSFacts
  GaussPSD ModuleDual ModuleAlg ModuleLeaves ModuleImplicit ModuleMain ModuleRegular ModuleStrain ModuleBackend SolverExists
  ShootingModel SpecMotion TransportFacts RigidField RigidControl SpecUnits UnitsField UnitsModule.
Import ListNotations.
Open Scope R_scope.

Lemma item_tscal r t : item (tscal r t) = r * item t.
Proof. reflexivity. Qed.
Lemma ceq_refl_leaf t : ceq (CLeaf t) (CLeaf t).
Proof. split; auto. Qed.
Lemma ceq_scal_inv r r' t : r * r' = 1 -> ceq (CLeaf t) (CLeaf (tscal r (tscal r' t))).
Proof. intros E. split; [reflexivity|]. intros k K. change ((tflatten t) @1 k = r * (r' * (tflatten t) @1 k)). rewrite <- Rmult_assoc, E. ring. Qed.
Lemma ceq_left t1 t2 t : ceq (CLeaf t1) (CLeaf t) -> ceq (CLeaf t1) (CLeaf t2) -> ceq (CLeaf t2) (CLeaf t).
Proof. intros (A & B) (C & D). split; [congruence|]. intros k K. rewrite <- C in K. rewrite <- (D k K). exact (B k K). Qed.

Section There.
Variables (d : nat) (u : R).
Hypothesis U0 : u <> 0.

Lemma units_exists m : forall m' k, wf_mod d m' -> resized d u m m' -> ctrl_ok d m k -> exists k', ctrl_ok d m' k' /\ ctrl_units u m m' k k'.
Proof.
  induction m as [m NC|ms IH] using dmod_ind'; intros m' k W' T H.
  - destruct m; try (elim (NC ms eq_refl)); destruct m'; try contradiction T; destruct k as [t|l]; try contradiction H; cbn [resized ctrl_ok wf_mod] in T, H, W'.
    + exists (CLeaf (tscal u t)). split; [exact H|apply ceq_refl_leaf].
    + destruct T as (-> & -> & ->). exists (CLeaf (tscal u t)). split; [exact H|apply ceq_refl_leaf].
    + destruct T as (-> & -> & -> & -> & ->). exists (CLeaf (tscal u t)). split; [exact H|apply ceq_refl_leaf].
    + destruct T as (-> & -> & -> & -> & ->). exists (CLeaf (tscal u t)). split; [exact H|apply ceq_refl_leaf].
    + destruct T as (_ & _ & _ & _ & _ & om & V). exists (CLeaf (tscal (u / om) t)). split; [exact H|]. exists om. split; [exact V|]. rewrite item_tscal. field. exact (proj1 V).
    + exists (CLeaf t). split; [exact H|apply ceq_refl_leaf].
    + exists (CLeaf t). split; [exact H|exact Logic.I].
    + destruct T as (-> & -> & -> & TC & -> & ->). exists (CLeaf t). split; [|apply ceq_refl_leaf]. cbn [ctrl_ok]. rewrite (proj1 TC). exact H.
    + destruct T as (-> & -> & -> & -> & -> & -> & ->). exists (CLeaf (tscal u t)). split; [exact H|apply ceq_refl_leaf].
    + destruct T as (-> & -> & -> & -> & -> & -> & ->). exists (CLeaf (tscal u t)). split; [exact H|apply ceq_refl_leaf].
  - destruct m' as [| | | | | | | | | |ms']; try contradiction T. destruct k as [t|cs]; [contradiction H|]. destruct W' as (_ & W').
    cbn [resized ctrl_ok] in T, H.
    assert (X : exists cs', ctrl_ok d (MComp ms') (CList cs') /\ ctrl_units u (MComp ms) (MComp ms') (CList cs) (CList cs')).
    { cbn [ctrl_ok ctrl_units]. revert ms' cs W' T H. induction IH as [|m ms Hm _ IHs]; intros [|m' ms'] [|k cs] W' T H; try contradiction T; try contradiction H.
      - exists []. auto.
      - destruct W' as (W' & Ws). destruct T as (T & Ts). destruct H as (H & Hs). destruct (Hm m' k W' T H) as (k' & O & E). destruct (IHs ms' cs Ws Ts Hs) as (ks & Os & Es).
        exists (k' :: ks). auto. }
    destruct X as (cs' & O & E). exists (CList cs'). split; [exact O|exact E].
Qed.

Lemma units_back m : forall m' k', wf_mod d m' -> resized d u m m' -> ctrl_ok d m' k' -> exists k, ctrl_ok d m k /\ ctrl_units u m m' k k'.
Proof.
  assert (I : u * / u = 1) by (field; exact U0).
  induction m as [m NC|ms IH] using dmod_ind'; intros m' k W' T H.
  - destruct m; try (elim (NC ms eq_refl)); destruct m'; try contradiction T; destruct k as [t|l]; try contradiction H; cbn [resized ctrl_ok wf_mod] in T, H, W'.
    + exists (CLeaf (tscal (/ u) t)). split; [exact H|apply ceq_scal_inv; exact I].
    + destruct T as (-> & -> & ->). exists (CLeaf (tscal (/ u) t)). split; [exact H|apply ceq_scal_inv; exact I].
    + destruct T as (-> & -> & -> & -> & ->). exists (CLeaf (tscal (/ u) t)). split; [exact H|apply ceq_scal_inv; exact I].
    + destruct T as (-> & -> & -> & -> & ->). exists (CLeaf (tscal (/ u) t)). split; [exact H|apply ceq_scal_inv; exact I].
    + destruct T as (_ & _ & _ & _ & _ & om & V). exists (CLeaf (tscal (om / u) t)). split; [exact H|]. exists om. split; [exact V|]. rewrite item_tscal. field. exact U0.
    + exists (CLeaf t). split; [exact H|apply ceq_refl_leaf].
    + exists (CLeaf t). split; [exact H|exact Logic.I].
    + destruct T as (-> & -> & -> & TC & -> & ->). exists (CLeaf t). split; [|apply ceq_refl_leaf]. cbn [ctrl_ok]. rewrite <- (proj1 TC). exact H.
    + destruct T as (-> & -> & -> & -> & -> & -> & ->). exists (CLeaf (tscal (/ u) t)). split; [exact H|apply ceq_scal_inv; exact I].
    + destruct T as (-> & -> & -> & -> & -> & -> & ->). exists (CLeaf (tscal (/ u) t)). split; [exact H|apply ceq_scal_inv; exact I].
  - destruct m' as [| | | | | | | | | |ms']; try contradiction T. destruct k as [t|cs]; [contradiction H|]. destruct W' as (_ & W').
    cbn [resized ctrl_ok] in T, H.
    assert (X : exists cs0, ctrl_ok d (MComp ms) (CList cs0) /\ ctrl_units u (MComp ms) (MComp ms') (CList cs0) (CList cs)).
    { cbn [ctrl_ok ctrl_units]. revert ms' cs W' T H. induction IH as [|m ms Hm _ IHs]; intros [|m' ms'] [|k cs] W' T H; try contradiction T; try contradiction H.
      - exists []. auto.
      - destruct W' as (W' & Ws). destruct T as (T & Ts). destruct H as (H & Hs). destruct (Hm m' k W' T H) as (k' & O & E). destruct (IHs ms' cs Ws Ts Hs) as (ks & Os & Es).
        exists (k' :: ks). auto. }
    destruct X as (cs' & O & E). exists (CList cs'). split; [exact O|exact E].
Qed.

Lemma units_ceq m : forall m' k k1 k2, resized d u m m' -> ctrl_units u m m' k k1 -> ctrl_ok d m' k1 -> ctrl_ok d m' k2 -> ceq k1 k2 -> ctrl_units u m m' k k2.
Proof.
  induction m as [m NC|ms IH] using dmod_ind'; intros m' k k1 k2 T E O1 O2 EQ.
  - destruct m; try (elim (NC ms eq_refl)); destruct m'; try contradiction T; destruct k as [t|l]; try contradiction E; destruct k1 as [t1|l1]; try contradiction O1;
      destruct k2 as [t2|l2]; try contradiction O2; cbn [ctrl_units] in E |- *; try (eapply ceq_left; [exact E|exact EQ]); [|exact Logic.I].
    destruct E as (om & V & E). exists om. split; [exact V|]. rewrite <- E. f_equal. rewrite <- (fvec_item t1 O1), <- (fvec_item t2 O2). symmetry. apply EQ. destruct O1 as [-> | ->]; cbn; lia.
  - destruct m' as [| | | | | | | | | |ms']; try contradiction T. destruct k as [t|cs]; [contradiction E|]. destruct k1 as [t|cs1]; [contradiction O1|]. destruct k2 as [t|cs2]; [contradiction O2|].
    cbn [resized ctrl_ok ctrl_units ceq] in *. revert ms' cs cs1 cs2 T E O1 O2 EQ.
    induction IH as [|m ms Hm _ IHs]; intros [|m' ms'] [|k cs] [|k1 cs1] [|k2 cs2] T E O1 O2 EQ; try contradiction; [exact Logic.I|].
    destruct T, E, O1, O2, EQ. split; [eapply Hm; eassumption|eapply IHs; eassumption].
Qed.

(** Regular configurations. *)
Lemma distinct_units N s s' : srows d u N s s' -> distinct d N (vrow s) -> distinct d N (vrow s').
Proof.
  intros P D i j I J NE. destruct (D i j I J NE) as (k & K & N0). exists k. split; [exact K|]. unfold vrow in *. rewrite (P i k I K), (P j k J K). intros E. apply N0.
  exact (Rmult_eq_reg_l u _ _ E U0).
Qed.

Lemma regular_units m : forall m', wf_mod d m -> wf_mod d m' -> other_unit d u m m' -> regular d m -> regular d m'.
Proof.
  induction m as [m NC|ms IH] using dmod_ind'.
  - intros m' W W' (TW & ((_ & G) & _)) RG. destruct m; destruct m'; try contradiction TW; try elim (NC ms eq_refl);
      cbn [mod_manifold in_units g_gd] in G; cbn [resized] in TW; cbn [regular] in *; cbn [wf_mod] in W, W'; try exact Logic.I.
    + destruct TW as (-> & -> & ->). destruct W as (-> & _ & Sg & _). inversion G; subst. eapply distinct_units; [|exact RG]. eapply srows_teq; eassumption.
    + destruct TW as (-> & -> & -> & -> & ->). destruct W as (-> & _ & _ & _ & Sg & _). inversion G; subst. destruct RG as [RG|RG]; [left; exact RG|right]. eapply distinct_units; [|exact RG]. eapply srows_teq; eassumption.
    + destruct TW as (-> & -> & -> & -> & ->). destruct W as (-> & _ & _ & Sg0 & Sg1 & _). inversion G as [|? ? ? ? G0 GR]; subst. inversion GR as [|? ? ? ? G1 _]; subst.
      destruct RG as (RG & NZ). split; [eapply distinct_units; [|exact RG]; eapply srows_teq; eassumption|].
      intros i I. destruct (NZ i I) as (a & A & N0). exists a. split; [exact A|]. rewrite (proj2 G1 [i; a]) by (rewrite (proj1 G1), Sg1; cbn; auto). exact N0.
    + destruct TW as (-> & -> & -> & -> & TS & om & O0 & TV). destruct W as (-> & _ & _ & Sg & _ & M & s & v & Es & Ev & Ss & Sv). inversion G; subst. intros s' v' Es' Ev'.
      specialize (TS gd gd0 s s' H2 Es Es'). specialize (TV gd gd0 v v' H2 Ev Ev'). destruct (RG s v Es Ev) as (DS & i & a & I & A & N0).
      assert (N : nrows s' = nrows s) by (unfold nrows; rewrite (proj1 TS); reflexivity). assert (NM : nrows s = M) by (unfold nrows; rewrite Ss; reflexivity). rewrite N.
      rewrite NM in *. split; [eapply distinct_units; [|exact DS]; eapply srows_teq; eassumption|]. exists i, a. split; [exact I|]. split; [exact A|].
      rewrite (srows_teq d om M _ _ Sv TV i a I A). apply Rmult_integral_contrapositive_currified; assumption.
    + destruct TW as (-> & -> & -> & TWC & -> & ->). destruct W as (-> & _ & _ & _ & _ & (r & SC) & Sg0 & Sg1 & _).
      inversion G as [|? ? ? ? G0 GR]; subst. inversion GR as [|? ? ? ? G1 _]; subst. destruct RG as (RG & NZ).
      assert (U2 : 0 < u * u) by (apply Rsqr_pos_lt; exact U0).
      split; [destruct RG as [RG|RG]; [left; apply Rdiv_lt_0_compat; assumption|right]; eapply distinct_units; [|exact RG]; eapply srows_teq; eassumption|].
      rewrite (proj1 TWC), SC. rewrite SC in NZ. cbn [tnth nth] in *. intros h' Sh H0. apply (NZ h' Sh). intros n a1 b1 Hn A B. rewrite <- (H0 n a1 b1 Hn A B).
      unfold growth. apply rsum_ext. intros j J. assert (VG : forall x, (x < d)%nat -> gd3 @3 n x j = gd1 @3 n x j).
      { intros x X. apply (proj2 G1 [n; x; j]). rewrite (proj1 G1), Sg1. cbn. auto. }
      rewrite !VG by assumption. f_equal. f_equal. apply rsum_ext. intros v V. rewrite (proj2 TWC [n; j; v]) by (rewrite (proj1 TWC), SC; cbn; auto). reflexivity.
    + destruct TW as (-> & -> & -> & -> & -> & -> & ->). destruct W as (-> & _ & _ & _ & Sg & _). inversion G; subst. destruct RG as [RG|(N & D0 & RG)]; [left; exact RG|right]. split; [apply Rmult_integral_contrapositive_currified; assumption|]. split; [exact D0|]. eapply distinct_units; [|exact RG]. eapply srows_teq; eassumption.
    + destruct TW as (-> & -> & -> & -> & -> & -> & ->). destruct W as (-> & _ & _ & _ & _ & Sg & _). inversion G; subst. destruct RG as [RG|(N & RG)]; [left; exact RG|right]. split; [apply Rmult_integral_contrapositive_currified; assumption|]. eapply distinct_units; [|exact RG]. eapply srows_teq; eassumption.
  - intros m' W W' EW RG. destruct m' as [| | | | | | | | | |ms']; try (destruct EW as (T & _); contradiction T).
    apply unit_comp in EW. destruct W as (_ & W). destruct W' as (_ & W'). cbn [regular] in *. revert IH W W' RG. induction EW as [|m m' ms ms' E EW IHe]; intros IH W W' RG; [exact Logic.I|].
    inversion IH as [|? ? Hm IHs]; subst. destruct W, W', RG. split; [apply Hm; assumption|apply IHe; assumption].
Qed.
End There.

(** ** Hamiltonians *)
Section Ham.
Variables (d : nat) (u : R).
Hypothesis U0 : u <> 0.
Variables (sv sv' : solver) (b0 b0' : backend).
Hypothesis HSV : exact_solver sv.
Hypothesis HSV' : exact_solver sv'.

Lemma gain_units m1 m1' man man' : wf_gman d man -> wf_gman d man' -> same_values man' (in_units u man) -> scaled_to d u m1 m1' ->
  exists x, gain m1 man = Ok x /\ gain m1' man' = Ok (u * u * x).
Proof.
  intros W W' V (x & f & f' & C & C' & FG & FG' & (Wf & H0 & H1 & _) & (Wf' & H0' & H1' & _) & S). unfold gain. rewrite FG, FG'. cbn [bind].
  rewrite (inner_pairing_field d man f W Wf H0 (fun _ => H1)), (inner_pairing_field d man' f' W' Wf' H0' (fun _ => H1')). cbn [bind].
  rewrite C, C'. cbn [bind]. rewrite (pairing_units d u man man' (fval d f) (fval d f') (fjac d f) (fjac d f')); [|exact W|exact V|exact S].
  eexists. split; [reflexivity|]. f_equal. ring.
Qed.

(** With given controls. *)
Lemma given_units m m' k k' m1 m1' : wf_mod d m -> wf_mod d m' -> other_unit d u m m' -> ctrl_ok d m k -> ctrl_ok d m' k' -> ctrl_units u m m' k k' ->
  fill_controls sv m k = Ok m1 -> fill_controls sv' m' k' = Ok m1' -> exists x, hamiltonian m1 = Ok x /\ hamiltonian m1' = Ok (u * u * x).
Proof.
  intros W W' EW O O' T F F'. rewrite !ham_gain. rewrite (fill_manifold sv m k m1 F), (fill_manifold sv' m' k' m1' F').
  apply gain_units; [apply wf_mod_manifold; exact W|apply wf_mod_manifold; exact W'|exact (proj2 EW)|].
  exact (module_grows d u U0 sv sv' HSV HSV' m m' k k' m1 m1' W W' EW O O' T F F').
Qed.

(** With geodesic controls. *)
Lemma units_best m m' man man' m1 m1' : wf_mod d m -> wf_mod d m' -> other_unit d u m m' ->
  wf_gman d man -> wf_gman d man' -> no_empty_comp man -> no_empty_comp man' -> same_values man' (in_units u man) ->
  compute_geodesic_control sv b0 m man = Ok m1 -> compute_geodesic_control sv' b0' m' man' = Ok m1' ->
  (exists x, gain m1 man = Ok x /\ gain m1' man' = Ok (u * u * x)) /\ (regular d m' -> ctrl_units u m m' (controls m1) (controls m1')).
Proof.
  intros W W' EW WM WM' NE NE' V E1 E2.
  destruct (geodesic_max sv b0 d HSV m man m1 W WM NE E1) as (O1 & F1 & g1 & GA1 & H1).
  destruct (geodesic_max sv' b0' d HSV' m' man' m1' W' WM' NE' E2) as (O2 & F2 & g2 & GA2 & H2).
  destruct (units_exists d u m m' (controls m1) W' (proj1 EW) O1) as (k' & Ok' & Tk').
  destruct (units_back d u U0 m m' (controls m1') W' (proj1 EW) O2) as (k & Okk & Tk).
  destruct (H1 k Okk) as (n1 & x1 & _ & e1 & N1 & X1 & _ & _ & _ & P1 & Q1).
  destruct (H2 k' Ok') as (n2 & x2 & _ & e2 & N2 & X2 & _ & _ & _ & P2 & Q2).
  destruct (gain_units _ _ man man' WM WM' V (module_grows d u U0 sv sv' HSV HSV' m m' _ _ _ _ W W' EW Okk O2 Tk N1 F2)) as (y2 & A2 & B2).
  rewrite X1 in A2. injection A2 as <-. rewrite GA2 in B2. injection B2 as B2.
  destruct (gain_units _ _ man man' WM WM' V (module_grows d u U0 sv sv' HSV HSV' m m' _ _ _ _ W W' EW O1 Ok' Tk' F1 N2)) as (y1 & A1 & B1).
  rewrite GA1 in A1. injection A1 as <-. rewrite X2 in B1. injection B1 as B1.
  assert (U2 : 0 < u * u) by (apply Rsqr_pos_lt; exact U0).
  assert (L1 : u * u * x1 <= u * u * g1) by (apply Rmult_le_compat_l; lra).
  split; [exists g1; rewrite GA1, GA2; split; [reflexivity|f_equal; lra]|]. intros G.
  apply (units_ceq d u m m' _ k'); try assumption; [exact (proj1 EW)|].
  apply (geodesic_unique sv' b0' d HSV' m' man' m1' k' n2 g2 W' WM' NE' E2); try assumption.
  - intros x n Hc Fc Cc. exact (definite_regular sv' b0' d HSV' m' x n W' G Hc Fc Cc).
  - rewrite X2. f_equal. lra.
Qed.

Lemma geodesic_units m m' m1 m1' : wf_mod d m -> wf_mod d m' -> other_unit d u m m' ->
  geodesic_controls sv b0 m = Ok m1 -> geodesic_controls sv' b0' m' = Ok m1' ->
  (exists x, hamiltonian m1 = Ok x /\ hamiltonian m1' = Ok (u * u * x)) /\ (regular d m' -> ctrl_units u m m' (controls m1) (controls m1')).
Proof.
  intros W W' EW E E'. unfold geodesic_controls in E, E'. destruct (wf_mod_manifold d m W) as (WM & NE). destruct (wf_mod_manifold d m' W') as (WM' & NE').
  destruct (units_best m m' _ _ m1 m1' W W' EW WM WM' NE NE' (proj2 EW) E E') as (G & T). split; [|exact T].
  destruct (geodesic_max sv b0 d HSV m _ m1 W WM NE E) as (_ & F & _). destruct (geodesic_max sv' b0' d HSV' m' _ m1' W' WM' NE' E') as (_ & F' & _).
  rewrite !ham_gain, (fill_manifold sv m _ m1 F), (fill_manifold sv' m' _ m1' F'). exact G.
Qed.
End Ham.
