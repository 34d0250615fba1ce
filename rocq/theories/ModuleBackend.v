(** The back end of a module changes neither its cost nor its field. *)
From Coq Require Import Reals String List Arith Lia Lra.
From Verif Require Import Py RSum Tensor TensorFacts KernelModel FieldModel GeometryModel ModuleModel
  SpecLinAlg SpecKernel SpecField SpecGeometry SpecSKS SpecModule SpecHistory LinAlg KernelFacts FieldFacts GeometryFacts SKSFacts
  GaussPSD ModuleDual ModuleAlg ModuleLeaves ModuleImplicit ModuleMain ModuleRegular ModuleStrain.
Import ListNotations.
Open Scope R_scope.

Definition same_field (d : nat) (f f' : sfield) : Prop :=
  forall p a, (a < d)%nat -> fval d f p a = fval d f' p a /\
    forall l, (l < d)%nat -> fjac d f p a l = fjac d f' p a l.

Lemma same_field_refl d f : same_field d f f.
Proof. intros p a Ha. split; [reflexivity|]. intros; reflexivity. Qed.

Lemma wf_mod_backend d b m : wf_mod d (mod_backend b m) <-> wf_mod d m.
Proof.
  induction m as [m NC|ms IH] using dmod_ind'.
  - destruct m; try reflexivity. elim (NC ms eq_refl).
  - cbn [mod_backend wf_mod]. assert (E : map (mod_backend b) ms <> [] <-> ms <> []) by (destruct ms; cbn; split; congruence).
    rewrite E. assert (E' : fold_right (fun m acc => wf_mod d m /\ acc) True (map (mod_backend b) ms) <-> fold_right (fun m acc => wf_mod d m /\ acc) True ms).
    { induction IH as [|m ms Hm _ IHs]; [reflexivity|]. cbn [map fold_right]. rewrite Hm. rewrite IHs; [reflexivity|].
      destruct ms; cbn; split; congruence. }
    rewrite E'. reflexivity.
Qed.

Lemma ctrl_ok_backend d b m : forall c, ctrl_ok d (mod_backend b m) c <-> ctrl_ok d m c.
Proof.
  induction m as [m NC|ms IH] using dmod_ind'; intros c.
  - destruct m; try reflexivity. elim (NC ms eq_refl).
  - destruct c as [t|cs]; [reflexivity|]. cbn [mod_backend ctrl_ok]. revert cs. induction IH as [|m ms Hm _ IHs]; intros cs.
    + destruct cs; reflexivity.
    + destruct cs as [|c cs]; [reflexivity|]. cbn [map]. rewrite Hm, IHs. reflexivity.
Qed.

Section Backend.
  Variables (sv : solver) (d : nat).
  Hypothesis HSV : exact_solver sv.

  Definition agree (m1 m2 : dmod) : Prop :=
    exists x f f', cost m1 = Ok x /\ cost m2 = Ok x /\ field_generator m1 = Ok f /\ field_generator m2 = Ok f' /\
      good d f /\ good d f' /\ same_field d f f'.

  Lemma imp1_lam b sg nu C nb gd0 gd1 r e h ca : sg <> 0 -> eta d = Ok e -> shape gd0 = [nb; d] -> shape gd1 = [nb; d; d] ->
    shape C = [nb; d; r] -> shape h = [r] -> imp1_moments sv b sg nu C d nb gd0 gd1 h = Ok ca ->
    c_aqh ca = imp1_aqh d nb e C gd1 h /\ shape (c_aqh ca) = [nb; sym_dim d] /\ prod (shape (c_lam ca)) = (nb * sym_dim d)%nat /\
    c_mom ca = lam_moments nb (sym_dim d) e (c_lam ca) /\
    nonsingular (nb * sym_dim d) (fun q q' => bmatrix d (sym_dim d) nb e 1 sg (vrow gd0) q q' + nu * delta q q') /\
    solves (nb * sym_dim d) (fun q q' => bmatrix d (sym_dim d) nb e 1 sg (vrow gd0) q q' + nu * delta q q')
      (fvec (c_lam ca)) (fvec (imp1_aqh d nb e C gd1 h)).
  Proof.
    intros Hs He Sg0 Sg1 SC Sh E. pose proof (eta_basis d e He) as (Se & HE & _).
    destruct (imp1_sks_ok b sg nu d e nb gd0 Hs He Sg0) as (S & ES & SS & GS).
    destruct (aqh_get d nb r (sym_dim d) e C gd1 h 0 0 Sg1 SC Sh Se) as (SA & _).
    unfold imp1_moments in E. rewrite He in E. cbn [bind] in E. rewrite ES in E. cbn [bind] in E. bok E l El. injection E as <-.
    cbn [c_aqh c_lam c_mom]. split; [reflexivity|]. split; [assumption|].
    destruct b.
    - assert (SF : shape (tflatten (imp1_aqh d nb e C gd1 h)) = [(nb * sym_dim d)%nat]).
      { cbn [tflatten reshape shape]. rewrite SA. cbn [prod fold_right]. f_equal. lia. }
      destruct (solver_any sv _ S _ l _ HSV SS (or_introl SF) El GS) as (HN & Sl & H).
      split; [rewrite Sl, SF; cbn [prod fold_right]; lia|]. split; [reflexivity|]. split; [assumption|].
      revert H. apply solves_ext; auto. intros q Hq. unfold tflatten. apply fvec_reshape_lt. rewrite SA. cbn [prod fold_right]. lia.
    - destruct (fun SB => solver_any sv _ S _ l _ HSV SS SB El GS) as (HN & Sl & H); [right; reflexivity|].
      split; [rewrite Sl; cbn [reshape shape prod fold_right]; lia|]. split; [reflexivity|]. split; [assumption|].
      revert H. apply solves_ext; auto. intros q Hq. apply fvec_reshape_lt. cbn [prod fold_right]. lia.
  Qed.

  Lemma imp1_same b b' sg nb gd0 s e l l' : shape e = [d; d; s] -> sym_tensor d s e -> shape gd0 = [nb; d] ->
    prod (shape l) = (nb * s)%nat -> prod (shape l') = (nb * s)%nat ->
    (forall q, (q < nb * s)%nat -> fvec l q = fvec l' q) ->
    same_field d (SF_p b gd0 (lam_moments nb s e l) sg) (SF_p b' gd0 (lam_moments nb s e l') sg).
  Proof.
    intros Se HE Sg0 Pl Pl' H.
    assert (GM : forall i a c, (i < nb)%nat -> (a < d)%nat -> (c < d)%nat -> (lam_moments nb s e l) @3 i a c = (lam_moments nb s e l') @3 i a c).
    { intros i a c Hi Ha Hc. rewrite !(lam_moments_get nb s e _ d) by assumption. unfold from_coords. apply rsum_ext. intros t Ht.
      rewrite H by (apply pair_lt; assumption). reflexivity. }
    assert (NR : nrows gd0 = nb) by (unfold nrows; rewrite Sg0; reflexivity).
    intros p a Ha. cbn [fval fjac]. rewrite NR. split; [|intros c Hc]; apply rsum_ext; intros i Hi; apply rsum_ext; intros c' Hc';
      unfold symP; rewrite !GM by assumption; reflexivity.
  Qed.

  Lemma sums_same ms1 ms2 : Forall2 agree ms1 ms2 -> exists xs fs fs', mapM cost ms1 = Ok xs /\ mapM cost ms2 = Ok xs /\
    fields ms1 = Ok fs /\ fields ms2 = Ok fs' /\ Forall (good d) fs /\ Forall (good d) fs' /\ Forall2 (same_field d) fs fs'.
  Proof.
    induction 1 as [|m1 m2 ms1 ms2 (x & f & f' & C & C' & F & F' & G & G' & SF) _ (xs & fs & fs' & Cs & Cs' & Fs & Fs' & Gs & Gs' & SFs)].
    - exists [], [], []. repeat split; constructor.
    - exists (x :: xs), (f :: fs), (f' :: fs'). cbn [mapM fields]. fold fields. rewrite C, C', F, F', Cs, Cs', Fs, Fs'. cbn [bind].
      repeat split; try constructor; auto.
  Qed.

  Lemma same_sum fs fs' : Forall2 (same_field d) fs fs' -> same_field d (SF_sum fs) (SF_sum fs').
  Proof.
    intros H p a Ha. cbn [fval fjac]. split; [|intros l Hl]; induction H as [|f f' fs fs' S _ IH]; try reflexivity; cbn [fold_right].
    - rewrite IH. f_equal. apply (S p a Ha).
    - rewrite IH. f_equal. apply (S p a Ha). assumption.
  Qed.

  Theorem backend_agree b m : forall c m1 m2, wf_mod d m -> ctrl_ok d m c ->
    fill_controls sv m c = Ok m1 -> fill_controls sv (mod_backend b m) c = Ok m2 -> agree m1 m2.
  Proof.
    induction m as [m NC|ms IH] using dmod_ind'; intros c m1 m2 W Hc F F'.
    - assert (SAME : mod_backend b m = m -> agree m1 m2).
      { intros E. rewrite E in F'. assert (m1 = m2) by congruence. subst m2.
        destruct (module_leaf sv Torch d m HSV W (ex_intro _ c (ex_intro _ m1 (conj Hc F)))) as (Q & [P _ _]).
        destruct (pk_fill _ _ _ _ P c Hc) as (m1' & f & F1 & C & FG & G). assert (m1' = m1) by congruence. subst m1'.
        exists (1 / 2 * Q c c), f, f. repeat split; auto; apply G. }
      destruct m; try (apply SAME; reflexivity).
      + destruct c as [t|l]; [|destruct Hc]. cbn in Hc. destruct W as (-> & Hs & Sg & Sct). cbn in F, F'. injection F as <-. injection F' as <-.
        eexists. exists (SF_0 b0 gd t sigma), (SF_0 b gd t sigma). cbn [cost field_generator].
        rewrite (trans_cost_form b0 sigma gd t nb d), (trans_cost_form b sigma gd t nb d) by assumption.
        do 4 (split; [reflexivity|]). split; [apply (good_SF0 d b0 gd t sigma nb); assumption|].
        split; [apply (good_SF0 d b gd t sigma nb); assumption|]. intros p a Ha; split; [reflexivity|intros; reflexivity].
      + destruct c as [t|l]; [|destruct Hc]. cbn in Hc. destruct W as (-> & Hs & Hnu & Hco & Sg & Sct). cbn in F, F'. injection F as <-. injection F' as <-.
        eexists. exists (SF_0 b0 gd t sigma), (SF_0 b gd t sigma). cbn [cost field_generator].
        rewrite (imp0_cost_form b0 sigma nu coeff gd t nb d), (imp0_cost_form b sigma nu coeff gd t nb d) by assumption.
        do 4 (split; [reflexivity|]). split; [apply (good_SF0 d b0 gd t sigma nb); assumption|].
        split; [apply (good_SF0 d b gd t sigma nb); assumption|]. intros p a Ha; split; [reflexivity|intros; reflexivity].
      + destruct c as [t|l]; [|destruct Hc]. cbn in Hc. destruct W as (-> & (e & He) & Hs & Hnu & Hco & (r & SC) & Sg0 & Sg1 & Sc0 & Sc1).
        rewrite SC in Hc. cbn in Hc. pose proof (eta_basis d e He) as (Se & HE & _).
        cbn [fill_controls mod_backend] in F, F'. bok F k1 Ek1. bok F' k2 Ek2. injection F as <-. injection F' as <-.
        destruct (imp1_lam _ _ _ _ _ _ _ r e _ _ Hs He Sg0 Sg1 SC Hc Ek1) as (A1 & SA1 & P1 & M1 & HN & S1).
        destruct (imp1_lam _ _ _ _ _ _ _ r e _ _ Hs He Sg0 Sg1 SC Hc Ek2) as (A2 & SA2 & P2 & M2 & _ & S2).
        pose proof (solves_unique _ _ _ _ _ HN S1 S2) as LU.
        destruct (imp1_field_b d b0 sigma e nb gd0 (c_lam k1) Hs He Sg0 P1) as (G1 & _).
        destruct (imp1_field_b d b sigma e nb gd0 (c_lam k2) Hs He Sg0 P2) as (G2 & _).
        eexists. exists (SF_p b0 gd0 (c_mom k1) sigma), (SF_p b gd0 (c_mom k2) sigma). cbn [cost field_generator].
        split; [reflexivity|]. split.
        { f_equal. f_equal. rewrite A1, A2. rewrite A1 in SA1. unfold tdot. rewrite SA1.
          apply rsum_ext. intros q Hq. f_equal. symmetry. apply (LU q). cbn [prod fold_right] in Hq. lia. }
        split; [reflexivity|]. split; [reflexivity|]. rewrite M1, M2. split; [assumption|]. split; [assumption|].
        apply imp1_same; try assumption.
      + elim (NC ms eq_refl).
    - destruct c as [t|cs]; [destruct Hc|]. destruct W as (NE & W). cbn [mod_backend] in F'. rewrite fill_comp in F, F'. rewrite map_length in F'.
      destruct (Nat.eqb (length cs) (length ms)); [|discriminate]. bok F ms1 F1. bok F' ms2 F2. injection F as <-. injection F' as <-.
      assert (HA : Forall2 agree ms1 ms2 /\ length ms1 = length ms).
      { clear NE. cbn [ctrl_ok] in Hc. revert cs ms1 ms2 Hc F1 F2. induction IH as [|m ms Hm _ IHs]; intros cs ms1 ms2 Hc F1 F2.
        - destruct cs; [|destruct Hc]. injection F1 as <-. injection F2 as <-. split; [constructor|reflexivity].
        - destruct cs as [|c cs]; [destruct Hc|]. destruct Hc as (Hc & Hcs). destruct W as (W & Ws). cbn [map] in F2.
          cbn [fills] in F1, F2. fold (fills sv) in F1, F2. bok F1 m1 Em. bok F1 r1 Er. injection F1 as <-.
          bok F2 m2 Em'. bok F2 r2 Er'. injection F2 as <-. destruct (IHs Ws cs r1 r2 Hcs Er Er') as (H & L).
          split; [constructor; [eapply Hm; eassumption|assumption]|cbn; lia]. }
      destruct HA as (HA & L). destruct (sums_same ms1 ms2 HA) as (xs & fs & fs' & Cs & Cs' & Fs & Fs' & Gs & Gs' & SFs).
      assert (NF : fs <> [] /\ fs' <> []).
      { destruct ms as [|m ms]; [congruence|]. destruct ms1 as [|m1 ms1]; [discriminate|].
        inversion HA; subst. cbn [fields] in Fs, Fs'. bok Fs g1 Eg1. bok Fs r1 Er1. bok Fs' g2 Eg2. bok Fs' r2 Er2.
        injection Fs as <-. injection Fs' as <-. split; discriminate. }
      destruct (good_sum d fs (proj1 NF) Gs) as (SC & GS). destruct (good_sum d fs' (proj2 NF) Gs') as (SC' & GS').
      exists (fold_right Rplus 0 xs), (SF_sum fs), (SF_sum fs').
      rewrite !cost_comp, Cs, Cs'. split; [reflexivity|]. split; [reflexivity|].
      change (field_generator (MComp ms1)) with (fs <- fields ms1 ;; sum_ctor fs).
      change (field_generator (MComp ms2)) with (fs <- fields ms2 ;; sum_ctor fs).
      rewrite Fs, Fs'. split; [exact SC|]. split; [exact SC'|]. split; [assumption|]. split; [assumption|]. apply same_sum; assumption.
  Qed.

  (** The same fact about what the methods return. *)
  Lemma backend_values b m c m1 m2 : wf_mod d m -> ctrl_ok d m c ->
    fill_controls sv m c = Ok m1 -> fill_controls sv (mod_backend b m) c = Ok m2 ->
    (exists x, cost m1 = Ok x /\ cost m2 = Ok x) /\
    exists f f', field_generator m1 = Ok f /\ field_generator m2 = Ok f' /\
      forall p N k, shape p = [N; d] -> (k < 2)%nat ->
        exists V V', feval f p k = Ok V /\ feval f' p k = Ok V' /\ teq V V'.
  Proof.
    intros W Hc F F'. destruct (backend_agree b m c m1 m2 W Hc F F') as (x & f & f' & C & C' & FG & FG' & G & G' & S).
    split; [exists x; auto|]. exists f, f'. split; [assumption|]. split; [assumption|]. intros p N k Sp Hk.
    destruct G as (Wf & H0 & H1 & _). destruct G' as (Wf' & H0' & H1' & _).
    destruct k as [|[|k]]; [| |lia].
    - destruct (feval_0 d f p N Wf H0 Sp) as (V & E & SV & GV). destruct (feval_0 d f' p N Wf' H0' Sp) as (V' & E' & SV' & GV').
      exists V, V'. split; [assumption|]. split; [assumption|]. split; [congruence|]. intros idx Hv. rewrite SV in Hv. rewrite GV, GV' by assumption.
      destruct idx as [|i [|a [|? ?]]]; try (cbn in Hv; tauto). cbn. apply S. cbn in Hv. tauto.
    - destruct (feval_1 d f p N Wf H1 Sp) as (V & E & SV & GV). destruct (feval_1 d f' p N Wf' H1' Sp) as (V' & E' & SV' & GV').
      exists V, V'. split; [assumption|]. split; [assumption|]. split; [congruence|]. intros idx Hv. rewrite SV in Hv. rewrite GV, GV' by assumption.
      destruct idx as [|i [|a [|l [|? ?]]]]; try (cbn in Hv; tauto). cbn. cbn in Hv. apply S; tauto.
  Qed.

  Lemma pairing_same man f f' : same_field d f f' -> pairing d man (fval d f) (fjac d f) = pairing d man (fval d f') (fjac d f').
  Proof.
    intros S.
    assert (SP : forall nb gd cot, rsum nb (fun n => rsum d (fun a => cot @2 n a * fval d f (vrow gd n) a)) =
                                   rsum nb (fun n => rsum d (fun a => cot @2 n a * fval d f' (vrow gd n) a))).
    { intros. apply rsum_ext. intros n _. apply rsum_ext. intros a Ha. rewrite (proj1 (S _ a Ha)). reflexivity. }
    assert (SJ : forall p a l, (a < d)%nat -> (l < d)%nat -> fjac d f p a l = fjac d f' p a l) by (intros p a l Ha Hl; apply (S p a Ha); assumption).
    induction man as [dim nb gd c|tr dim nb gd0 gd1 c0 c1|dim nb gd0 gd1 c0 c1|dim n0 n1 gd0 gd1 c0 c1 i0 i1|dim|ms IH] using gman_ind';
      cbn [pairing]; try reflexivity.
    - apply SP.
    - destruct tr; rewrite SP; apply Rplus_eq_compat_l; apply rsum_ext; intros n _; apply rsum_ext; intros a Ha;
        apply Rmult_eq_compat_l; try apply Ropp_eq_compat; apply rsum_ext; intros l Hl; rewrite SJ by assumption; reflexivity.
    - rewrite SP. f_equal. apply rsum_ext; intros n _; apply rsum_ext; intros a Ha. apply rsum_ext. intros i Hi. f_equal.
      apply rsum_ext; intros l Hl. rewrite !SJ by assumption. reflexivity.
    - induction IH as [|m ms Hm _ IHs]; [reflexivity|]. cbn [fold_right]. rewrite Hm, IHs. reflexivity.
  Qed.

  Lemma agree_gain m1 m2 man : wf_gman d man -> agree m1 m2 -> gain m1 man = gain m2 man.
  Proof.
    intros W (x & f & f' & C & C' & FG & FG' & (Wf & H0 & H1 & _) & (Wf' & H0' & H1' & _) & S). unfold gain. rewrite FG, FG'. cbn [bind].
    rewrite (inner_pairing_field d man f W Wf H0 (fun _ => H1)), (inner_pairing_field d man f' W Wf' H0' (fun _ => H1')). cbn [bind].
    rewrite C, C', (pairing_same man f f' S). reflexivity.
  Qed.

  (** The geodesic controls are the same too (when they are determined). *)
  Lemma backend_geodesic b0 b0' b m man m1 m2 : wf_mod d m -> regular d m -> wf_gman d man -> no_empty_comp man ->
    compute_geodesic_control sv b0 m man = Ok m1 -> compute_geodesic_control sv b0' (mod_backend b m) man = Ok m2 ->
    ceq (controls m2) (controls m1).
  Proof.
    intros W G WG NE E1 E2.
    destruct (geodesic_max sv b0 d HSV m man m1 W WG NE E1) as (O1 & F1 & g1 & GA1 & H1).
    destruct (geodesic_max sv b0' d HSV _ man m2 (proj2 (wf_mod_backend d b m) W) WG NE E2) as (O2 & F2 & g2 & GA2 & H2).
    apply (proj1 (ctrl_ok_backend d b m _)) in O2.
    destruct (H1 _ O2) as (n1 & x1 & _ & e1 & N1 & X1 & _ & _ & _ & P1 & Q1).
    destruct (H2 _ (proj2 (ctrl_ok_backend d b m _) O1)) as (n2 & x2 & _ & e2 & N2 & X2 & _ & _ & _ & P2 & Q2).
    pose proof (agree_gain _ _ man WG (backend_agree b m _ _ _ W O2 N1 F2)) as A2. rewrite X1, GA2 in A2. injection A2 as A2.
    pose proof (agree_gain _ _ man WG (backend_agree b m _ _ _ W O1 F1 N2)) as A1. rewrite GA1, X2 in A1. injection A1 as A1.
    apply (geodesic_unique sv b0 d HSV m man m1 (controls m2) n1 g1 W WG NE E1); try assumption.
    - intros c n Hc Fc Cc. exact (definite_regular sv b0 d HSV m c n W G Hc Fc Cc).
    - rewrite X1. f_equal. lra.
  Qed.
End Backend.
