(** Modules whose coefficients are all multiplied by one number: geodesic controls, costs and
    Hamiltonian. *)
From Coq Require Import Reals String List Arith Lia Lra Psatz.
From Verif Require Import Py RSum Tensor TensorFacts KernelModel FieldModel GeometryModel ModuleModel ShootingModel
  SpecKernel SpecField SpecGeometry SpecModule SpecShooting SpecMotion SpecTransport ModuleDual ModuleAlg ModuleLeaves ModuleMain ModuleHistory ModuleRegular ModulePosed
  GeometryFacts ShootingPack ShootingDyn ShootingInst MotionMomentum TransportFacts SpecRigid SpecEnergy EnergyFacts SpecConverge ConvergeFacts SpecReverse ReverseFacts ReverseShoot
  SpecScale ScaleFlow ScaleFacts SpecCoeff.
Import ListNotations.
Open Scope R_scope.

(** ** What does not change *)
Section Same.
Variable k : R.

Lemma dear_man m : mod_manifold (dearer k m) = mod_manifold m.
Proof.
  induction m as [m NC|ms IH] using dmod_ind'; [destruct m; try (elim (NC ms eq_refl)); reflexivity|]. cbn [dearer mod_manifold]. f_equal.
  induction IH as [|m ms Hm _ IHs]; [reflexivity|]. cbn [map]. rewrite Hm, IHs. reflexivity.
Qed.
Lemma dear_controls m : controls (dearer k m) = controls m.
Proof.
  induction m as [m NC|ms IH] using dmod_ind'; [destruct m; try (elim (NC ms eq_refl)); reflexivity|]. cbn [dearer controls]. f_equal.
  induction IH as [|m ms Hm _ IHs]; [reflexivity|]. cbn [map]. rewrite Hm, IHs. reflexivity.
Qed.
Lemma dear_field m : field_generator (dearer k m) = field_generator m.
Proof.
  induction m as [m NC|ms IH] using dmod_ind'; [destruct m; try (elim (NC ms eq_refl)); reflexivity|]. cbn [dearer field_generator]. fold fields.
  assert (X : fields (map (dearer k) ms) = fields ms); [|rewrite X; reflexivity].
  induction IH as [|m ms Hm _ IHs]; [reflexivity|]. cbn [map fields]. fold fields. rewrite Hm, IHs. reflexivity.
Qed.
Lemma dear_ctrl d m : forall c, ctrl_ok d (dearer k m) c <-> ctrl_ok d m c.
Proof.
  induction m as [m NC|ms IH] using dmod_ind'; intros c; [destruct m; try (elim (NC ms eq_refl)); destruct c; reflexivity|].
  destruct c as [t|cs]; [reflexivity|]. cbn [dearer ctrl_ok]. revert cs. induction IH as [|m ms Hm _ IHs]; intros [|c cs]; cbn [map]; try reflexivity. rewrite (Hm c), (IHs cs). reflexivity.
Qed.
Lemma dear_fill sv m : forall c, fill_controls sv (dearer k m) c = (m1 <- fill_controls sv m c ;; Ok (dearer k m1)).
Proof.
  induction m as [m NC|ms IH] using dmod_ind'; intros c.
  - destruct m; try (elim (NC ms eq_refl)); destruct c; cbn [dearer fill_controls]; try reflexivity;
      try (match goal with |- context [bind ?x _] => destruct x; reflexivity end). destruct (shape t); reflexivity.
  - destruct c as [t|cs]; [reflexivity|]. cbn [dearer]. rewrite !fill_comp, map_length. destruct (Nat.eqb (length cs) (length ms)); [|reflexivity].
    assert (X : fills sv (map (dearer k) ms) cs = (ms' <- fills sv ms cs ;; Ok (map (dearer k) ms'))).
    { revert cs. induction IH as [|m ms Hm _ IHs]; intros [|c cs]; cbn [map fills]; try reflexivity. fold (fills sv). rewrite (Hm c).
      destruct (fill_controls sv m c); [|reflexivity]. cbn [bind]. rewrite (IHs cs). destruct (fills sv ms cs); reflexivity. }
    rewrite X. destruct (fills sv ms cs); reflexivity.
Qed.
Lemma dear_set m : forall g, set_manifold (dearer k m) g = (m1 <- set_manifold m g ;; Ok (dearer k m1)).
Proof.
  induction m as [m NC|ms IH] using dmod_ind'; intros g; [destruct m; try (elim (NC ms eq_refl)); destruct g; reflexivity|].
  destruct g as [| | | | |gs]; try reflexivity. cbn [dearer]. rewrite !set_comp.
  assert (X : sets (map (dearer k) ms) gs = (ms' <- sets ms gs ;; Ok (map (dearer k) ms'))).
  { revert gs. induction IH as [|m ms Hm _ IHs]; intros [|g gs]; cbn [map sets]; try reflexivity. fold sets. rewrite (Hm g).
    destruct (set_manifold m g); [|reflexivity]. cbn [bind]. rewrite (IHs gs). destruct (sets ms gs); reflexivity. }
  rewrite X. destruct (sets ms gs); reflexivity.
Qed.
Lemma dear_write m l : write_manifold (dearer k m) l = (m1 <- write_manifold m l ;; Ok (dearer k m1)).
Proof.
  unfold write_manifold. rewrite dear_man. destruct (put_gd (mod_manifold m) l) as [(g1 & l1)|]; [|reflexivity]. cbn [bind]. destruct (put_cotan g1 l1) as [(g2 & l2)|]; [|reflexivity]. cbn [bind]. apply dear_set.
Qed.
Lemma dear_posed d m : posed d (dearer k m) <-> posed d m.
Proof.
  induction m as [m NC|ms IH] using dmod_ind'; [destruct m; try (elim (NC ms eq_refl)); reflexivity|]. cbn [dearer posed].
  induction IH as [|m ms Hm _ IHs]; [reflexivity|]. cbn [map fold_right]. rewrite Hm, IHs. reflexivity.
Qed.
Lemma dear_regular d m : regular d (dearer k m) <-> regular d m.
Proof.
  induction m as [m NC|ms IH] using dmod_ind'; [destruct m; try (elim (NC ms eq_refl)); reflexivity|]. cbn [dearer regular].
  induction IH as [|m ms Hm _ IHs]; [reflexivity|]. cbn [map fold_right]. rewrite Hm, IHs. reflexivity.
Qed.
Lemma dear_first m : first_order (dearer k m) <-> first_order m.
Proof.
  induction m as [m NC|ms IH] using dmod_ind'; [destruct m; try (elim (NC ms eq_refl)); reflexivity|]. cbn [dearer first_order].
  induction IH as [|m ms Hm _ IHs]; [reflexivity|]. cbn [map fold_right]. rewrite Hm, IHs. reflexivity.
Qed.
Lemma dear_total d m : locals_total d (dearer k m) <-> locals_total d m.
Proof.
  induction m as [m NC|ms IH] using dmod_ind'; [destruct m; try (elim (NC ms eq_refl)); reflexivity|]. cbn [dearer locals_total].
  induction IH as [|m ms Hm _ IHs]; [reflexivity|]. cbn [map fold_right]. rewrite Hm, IHs. reflexivity.
Qed.
Lemma dear_wf d m : 0 < k -> wf_mod d m -> wf_mod d (dearer k m).
Proof.
  intros K. assert (P : forall x, 0 < x -> 0 < k * x) by (intros; apply Rmult_lt_0_compat; assumption).
  induction m as [m NC|ms IH] using dmod_ind'; intros W.
  - destruct m; try (elim (NC ms eq_refl)); cbn [dearer wf_mod] in *; try (destruct trans); intuition auto.
  - destruct W as (N & W). split; [destruct ms; [elim (N eq_refl)|discriminate]|]. clear N. revert W. induction IH as [|m ms Hm _ IHs]; intros W; [exact I|]. destruct W. split; auto.
Qed.
Lemma dear_twin d Q c m : forall m', twin d Q c m m' -> twin d Q c (dearer k m) (dearer k m').
Proof.
  induction m as [m NC|ms IH] using dmod_ind'; intros m' T.
  - destruct m; try (elim (NC ms eq_refl)); destruct m'; try contradiction T; cbn [dearer twin] in *; intuition (subst; auto).
  - destruct m' as [| | | | | | | | | |ms']; try contradiction T. cbn [dearer twin] in *. revert ms' T. induction IH as [|m ms Hm _ IHs]; intros [|m' ms'] T; try contradiction T; [exact I|]. destruct T as (T1 & T2). split; [apply Hm; exact T1|apply IHs; exact T2].
Qed.
Lemma dear_priced m : priced (dearer k m) <-> priced m.
Proof.
  induction m as [m NC|ms IH] using dmod_ind'; [destruct m; try (elim (NC ms eq_refl)); reflexivity|]. cbn [dearer priced].
  induction IH as [|m ms Hm _ IHs]; [reflexivity|]. cbn [map fold_right]. rewrite Hm, IHs. reflexivity.
Qed.

(** ** The cost *)
Lemma priced_params m : priced (params m) <-> priced m.
Proof.
  induction m as [m NC|ms IH] using dmod_ind'; [destruct m; try (elim (NC ms eq_refl)); reflexivity|]. cbn [params priced].
  induction IH as [|m ms Hm _ IHs]; [reflexivity|]. cbn [map fold_right]. rewrite Hm, IHs. reflexivity.
Qed.
Lemma dear_cost m : priced m -> cost (dearer k m) = (x <- cost m ;; Ok (k * x)).
Proof.
  induction m as [m NC|ms IH] using dmod_ind'; intros P.
  - destruct m; try (elim (NC ms eq_refl)); try (elim P); cbn [dearer cost bind].
    + f_equal. ring.
    + f_equal. unfold imp0_cost. destruct b; ring.
    + f_equal. unfold oriented_cost. ring.
    + destruct (f_support gd); [|reflexivity]. cbn [bind]. destruct (f_vectors gd); [|reflexivity]. cbn [bind]. f_equal. ring.
    + f_equal. ring.
    + f_equal. ring.
    + destruct cache; [|reflexivity]. cbn [bind]. f_equal. ring.
    + destruct lam; [|reflexivity]. cbn [bind]. f_equal. ring.
    + destruct lam; [|reflexivity]. cbn [bind]. f_equal. ring.
  - cbn [dearer cost]. fold costs. cbn [priced] in P. revert P. induction IH as [|m ms Hm _ IHs]; intros P; cbn [map costs].
    + cbn [bind]. f_equal. ring.
    + fold costs. destruct P as (P1 & P2). rewrite (Hm P1). destruct (cost m) as [x|]; [|reflexivity]. cbn [bind]. rewrite (IHs P2). destruct (costs ms) as [y|]; [|reflexivity]. cbn [bind]. f_equal. ring.
Qed.
End Same.

(** ** Geodesic controls *)
Section Geo.
Variables (k : R) (sv : solver) (b0 : backend) (d : nat).
Hypothesis K0 : 0 < k.
Hypothesis HS : exact_solver sv.

Lemma dear_geo m man m1 : priced m -> wf_mod d m -> wf_gman d man -> no_empty_comp man -> compute_geodesic_control sv b0 m man = Ok m1 ->
  exists m2 x, compute_geodesic_control sv b0 (dearer k m) man = Ok m2 /\ ceq (controls m2) (cscal (/ k) (controls m1)) /\ cost m1 = Ok x /\ cost m2 = Ok (x / k).
Proof.
  intros PR W WG NE E. pose proof (geo_posed_conv sv b0 d HS m man WG NE m1 W E) as PO. assert (PO' : posed d (dearer k m)) by (apply dear_posed; exact PO).
  assert (W' : wf_mod d (dearer k m)) by (apply dear_wf; assumption).
  destruct (geo_posed sv b0 d HS (dearer k m) man W' PO' WG NE) as (m2 & E2).
  { intros FO DR. apply dear_first in FO. apply (geo_no_dir sv b0 d m man W WG NE FO DR). exists m1. exact E. }
  destruct (module_leaf sv b0 d m HS W (geo_fillable sv b0 d HS m man m1 W WG NE E)) as (Q & [P D G]).
  destruct (module_leaf sv b0 d (dearer k m) HS W' (geo_fillable sv b0 d HS (dearer k m) man m2 W' WG NE E2)) as (Q' & [P' D' G']).
  destruct (G man m1 WG NE E) as (O1 & F1). destruct (G' man m2 WG NE E2) as (O2' & F2). assert (O2 : ctrl_ok d m (controls m2)) by (apply (dear_ctrl k); exact O2').
  assert (O1' : ctrl_ok d (dearer k m) (controls m1)) by (apply (dear_ctrl k); exact O1).
  assert (CQ : forall c, ctrl_ok d m c -> Q' c c = k * Q c c).
  { intros c Hc. destruct (pk_fill _ _ _ _ P c Hc) as (mc & f & Fc & Cc & _). destruct (pk_fill _ _ _ _ P' c) as (mc' & f' & Fc' & Cc' & _); [apply (dear_ctrl k); exact Hc|].
    rewrite dear_fill, Fc in Fc'. cbn [bind] in Fc'. injection Fc' as <-. rewrite dear_cost, Cc in Cc'.
    - cbn [bind] in Cc'. injection Cc' as Cc'. lra.
    - apply priced_params. rewrite (fill_params sv m c mc Fc). apply priced_params. exact PR. }
  set (h1 := controls m1) in *. set (h2 := controls m2) in *.
  assert (X : forall c, ctrl_ok d m c -> Q c h1 = Q' c h2).
  { intros c Hc. destruct (pk_fill _ _ _ _ P c Hc) as (mc & f & Fc & _ & FG & _). unfold h1, h2. rewrite <- (D man m1 WG NE E c mc f Hc Fc FG).
    apply (D' man m2 WG NE E2 c (dearer k mc) f); [apply (dear_ctrl k); exact Hc|rewrite dear_fill, Fc; reflexivity|rewrite dear_field; exact FG]. }
  destruct (pk_sub _ _ _ _ P h1 h2 O1 O2) as (OD & ED). destruct (pk_sub _ _ _ _ P' h1 h2 O1' O2') as (_ & ED').
  pose proof (CQ _ OD) as C0. rewrite ED, ED' in C0. pose proof (CQ h1 O1) as C1. pose proof (CQ h2 O2) as C2. pose proof (X h1 O1) as X1. pose proof (X h2 O2) as X2.
  pose proof (pk_sym _ _ _ _ P h1 h2 O1 O2) as SY.
  assert (Q12 : Q' h1 h2 = k * Q h1 h2) by lra. assert (Q21 : k * Q h2 h2 = Q h1 h2) by lra. assert (Q11 : Q h1 h1 = k * k * Q h2 h2) by (rewrite X1, Q12, <- Q21; ring).
  exists m2, (1 / 2 * Q h1 h1). split; [exact E2|]. split; [|split].
  - destruct (pk_scal _ _ _ _ P (/ k) h1 O1) as (OS & ES). pose proof (pk_lin _ _ _ _ P (/ k) h1 h2 O1 O2) as EL. pose proof (pk_sym _ _ _ _ P h2 (cscal (/ k) h1) O2 OS) as SS.
    destruct (pk_sub _ _ _ _ P h2 (cscal (/ k) h1) O2 OS) as (OE & EE). apply (csub_null_ceq d m h2 (cscal (/ k) h1) O2 OS).
    destruct (pk_fill _ _ _ _ P _ OE) as (m3 & f3 & F3 & C3 & _). apply (definite_posed sv b0 d HS m _ m3 W PO OE F3).
    rewrite C3. f_equal. rewrite EE, ES, SS, EL, Q11, <- Q21. field. lra.
  - destruct (pk_fill _ _ _ _ P h1 O1) as (m1' & f & F' & C & _). rewrite F1 in F'. injection F' as <-. exact C.
  - destruct (pk_fill _ _ _ _ P' h2 O2') as (m2' & f & F' & C & _). rewrite F2 in F'. injection F' as <-. rewrite C. f_equal. rewrite C2, Q11. field. lra.
Qed.

Lemma dear_geodesic m m1 : priced m -> wf_mod d m -> geodesic_controls sv b0 m = Ok m1 ->
  exists m2 x, geodesic_controls sv b0 (dearer k m) = Ok m2 /\ ceq (controls m2) (cscal (/ k) (controls m1)) /\
    cost m1 = Ok x /\ cost m2 = Ok (x / k) /\ hamiltonian m1 = Ok x /\ hamiltonian m2 = Ok (x / k).
Proof.
  intros P W E. destruct (wf_mod_manifold d m W) as (WG & NE). destruct (dear_geo m _ m1 P W WG NE E) as (m2 & x & E2 & CE & C1 & C2).
  assert (G2 : geodesic_controls sv b0 (dearer k m) = Ok m2) by (unfold geodesic_controls; rewrite dear_man; exact E2).
  exists m2, x. split; [exact G2|]. split; [exact CE|]. split; [exact C1|]. split; [exact C2|].
  destruct (hamiltonian_cost sv b0 d HS m m1 W E) as (y & Cy & Hy & _). rewrite C1 in Cy. injection Cy as <-. split; [exact Hy|].
  destruct (hamiltonian_cost sv b0 d HS (dearer k m) m2 (dear_wf k d m K0 W) G2) as (y & Cy & Hy' & _). rewrite C2 in Cy. injection Cy as <-. exact Hy'.
Qed.

Lemma frozen_priced m m' : frozen m' = frozen m -> priced m -> priced m'.
Proof. intros F P. apply priced_params. rewrite (frozen_params m' m F). apply priced_params. exact P. Qed.

(** At any state. *)
Lemma dear_state m l a : priced m -> wf_mod d m -> locals_total d m -> map shape l = map shape (phase (mod_manifold m)) ->
  at_state m (geodesic_controls sv b0) l = Ok a ->
  exists b x, at_state (dearer k m) (geodesic_controls sv b0) l = Ok b /\ ceq (controls b) (cscal (/ k) (controls a)) /\
    cost a = Ok x /\ cost b = Ok (x / k) /\ hamiltonian a = Ok x /\ hamiltonian b = Ok (x / k).
Proof.
  intros P W LT SL E. destruct (state_of m l SL) as (g & <- & K & SG & SC). destruct (write_state m g K) as (m1 & E1 & S1 & M1 & F1 & _).
  assert (W1 : wf_mod d m1) by (apply (wf_set d m g m1); assumption). unfold at_state in *. rewrite dear_write. rewrite E1 in *. cbn [bind] in *.
  apply dear_geodesic; [apply (frozen_priced m); assumption|exact W1|exact E].
Qed.
End Geo.
