(** All the deformation modules: compounds, and the consequences for cost, geodesic
    controls and Hamiltonian. *)
From Coq Require Import Reals List Arith Bool Lia Lra.
From Verif Require Import Py RSum Tensor TensorFacts KernelModel FieldModel SpecKernel SpecField
  FieldFacts GeometryModel SpecGeometry GeometryFacts SpecLinAlg LinAlg
  ModuleModel SpecModule ModuleDual ModuleAlg ModuleLeaves ModuleImplicit.
Import ListNotations.
Open Scope R_scope.

(** ** Induction *)
Section Ind.
  Variable P : dmod -> Prop.
  Hypothesis HLeaf : forall m, (forall ms, m <> MComp ms) -> P m.
  Hypothesis HComp : forall ms, Forall P ms -> P (MComp ms).
  Fixpoint dmod_ind' (m : dmod) : P m.
  Proof.
    destruct m; try (apply HLeaf; discriminate).
    apply HComp. induction ms as [|m ms IH]; constructor; [apply dmod_ind'|exact IH].
  Qed.
End Ind.

(** ** The list traversals, named *)
Definition fills (sv : solver) : list dmod -> list ctrl -> res (list dmod) :=
  fix go (ms : list dmod) (cs : list ctrl) : res (list dmod) :=
    match ms, cs with
    | m :: ms', c :: cs' => m' <- fill_controls sv m c ;; r <- go ms' cs' ;; Ok (m' :: r)
    | _, _ => Ok []
    end.
Definition costs : list dmod -> res R :=
  fix go (ms : list dmod) : res R :=
    match ms with
    | [] => Ok 0
    | m :: ms' => a <- cost m ;; b <- go ms' ;; Ok (a + b)
    end.
Definition fields : list dmod -> res (list sfield) :=
  fix go (ms : list dmod) : res (list sfield) :=
    match ms with
    | [] => Ok []
    | m :: ms' => f <- field_generator m ;; fs <- go ms' ;; Ok (f :: fs)
    end.
Definition geos (sv : solver) (b0 : backend) (man : gman) : list dmod -> res (list dmod) :=
  fix go (ms : list dmod) : res (list dmod) :=
    match ms with
    | [] => Ok []
    | m :: ms' => m' <- compute_geodesic_control sv b0 m man ;; r <- go ms' ;; Ok (m' :: r)
    end.
Definition ctrls_ok (d : nat) : list dmod -> list ctrl -> Prop :=
  fix go (ms : list dmod) (cs : list ctrl) : Prop :=
    match ms, cs with
    | [], [] => True
    | m :: ms', c :: cs' => ctrl_ok d m c /\ go ms' cs'
    | _, _ => False
    end.
Definition csubs : list ctrl -> list ctrl -> list ctrl :=
  fix go (l l' : list ctrl) : list ctrl :=
    match l, l' with
    | a :: r, a' :: r' => csub a a' :: go r r'
    | _, _ => []
    end.
Definition qsum : list (ctrl -> ctrl -> R) -> list ctrl -> list ctrl -> R :=
  fix go Qs l l' :=
    match Qs, l, l' with
    | Q :: Qs', a :: r, a' :: r' => Q a a' + go Qs' r r'
    | _, _, _ => 0
    end.
Definition Qcomp (Qs : list (ctrl -> ctrl -> R)) (c c' : ctrl) : R :=
  match c, c' with CList l, CList l' => qsum Qs l l' | _, _ => 0 end.

Lemma ctrls_ok_length d ms cs : ctrls_ok d ms cs -> length cs = length ms.
Proof.
  revert cs. induction ms as [|m ms IH]; intros [|c cs] H; try destruct H; [reflexivity|]. cbn. f_equal. auto.
Qed.

Lemma fill_comp sv ms cs : fill_controls sv (MComp ms) (CList cs) =
  (if Nat.eqb (length cs) (length ms) then ms' <- fills sv ms cs ;; Ok (MComp ms') else Err AssertionError).
Proof. cbn [fill_controls]. unfold py_assert. destruct (Nat.eqb (length cs) (length ms)); reflexivity. Qed.

Section Comp.
  Variables (sv : solver) (b0 : backend) (d : nat).

  Lemma fills_ok ms Qs : Forall2 (leaf sv b0 d) ms Qs -> forall cs, ctrls_ok d ms cs ->
    exists ms1 fs, fills sv ms cs = Ok ms1 /\ length ms1 = length ms /\ costs ms1 = Ok (1 / 2 * qsum Qs cs cs) /\
      fields ms1 = Ok fs /\ length fs = length ms /\ Forall (good d) fs.
  Proof.
    induction 1 as [|m Q ms Qs L _ IH]; intros cs Hc.
    - destruct cs; [|destruct Hc]. exists [], []. cbn. repeat (split; [reflexivity|]).
      split; [f_equal; lra|]. split; [reflexivity|]. split; [reflexivity|constructor].
    - destruct cs as [|c cs]; [destruct Hc|]. destruct Hc as (Hc & Hcs).
      destruct (pk_fill _ _ _ _ (lf_pack _ _ _ _ _ L) c Hc) as (m1 & f & F & C & FG & G).
      destruct (IH cs Hcs) as (ms1 & fs & Fs & Ls & Cs & FGs & Lf & Gs).
      exists (m1 :: ms1), (f :: fs). cbn [fills costs fields qsum].
      rewrite F. cbn [bind]. fold (fills sv). rewrite Fs. cbn [bind]. split; [reflexivity|]. split; [cbn; congruence|].
      rewrite C. cbn [bind]. fold costs. rewrite Cs. cbn [bind]. split; [f_equal; fold qsum; lra|].
      rewrite FG. cbn [bind]. fold fields. rewrite FGs. cbn [bind]. split; [reflexivity|]. split; [cbn; congruence|].
      constructor; assumption.
  Qed.

  Lemma good_sum fs : fs <> [] -> Forall (good d) fs -> sum_ctor fs = Ok (SF_sum fs) /\ good d (SF_sum fs).
  Proof.
    intros NE G. destruct fs as [|f fs]; [congruence|]. pose proof (Forall_inv G) as (W & H0 & H1 & D).
    pose proof (Forall_inv_tail G) as Gs.
    assert (FB : forallb (fun g => Nat.eqb (fdim g) (fdim f)) fs = true).
    { apply forallb_forall. intros g Hg. rewrite Forall_forall in Gs. destruct (Gs g Hg) as (_ & _ & _ & Dg).
      rewrite Dg, D. apply Nat.eqb_refl. }
    split; [unfold sum_ctor; rewrite FB; reflexivity|].
    assert (A : forall (P : sfield -> Prop) l, Forall P l -> fold_right (fun g acc => P g /\ acc) True l).
    { intros P l HP. induction HP; cbn; auto. }
    split; [|split; [|split]].
    - cbn [wf_field]. split; [discriminate|]. apply (A (wf_field d) (f :: fs)). eapply Forall_impl; [|exact G]. intros g (H & _); exact H.
    - cbn [has0]. apply (A has0 (f :: fs)). eapply Forall_impl; [|exact G]. intros g (_ & H & _); exact H.
    - cbn [has1]. apply (A has1 (f :: fs)). eapply Forall_impl; [|exact G]. intros g (_ & _ & H & _); exact H.
    - exact D.
  Qed.

  Lemma subs_ok ms Qs : Forall2 (leaf sv b0 d) ms Qs -> forall cs cs', ctrls_ok d ms cs -> ctrls_ok d ms cs' ->
    ctrls_ok d ms (csubs cs cs') /\
    qsum Qs (csubs cs cs') (csubs cs cs') = qsum Qs cs cs - 2 * qsum Qs cs cs' + qsum Qs cs' cs'.
  Proof.
    induction 1 as [|m Q ms Qs L _ IH]; intros cs cs' Hc Hc'.
    - destruct cs; [|destruct Hc]. destruct cs'; [|destruct Hc']. cbn. split; [exact I|lra].
    - destruct cs as [|c cs]; [destruct Hc|]. destruct cs' as [|c' cs']; [destruct Hc'|].
      destruct Hc as (Hc & Hcs). destruct Hc' as (Hc' & Hcs').
      destruct (pk_sub _ _ _ _ (lf_pack _ _ _ _ _ L) c c' Hc Hc') as (O & E). destruct (IH cs cs' Hcs Hcs') as (Os & Es).
      split; [split; assumption|]. cbn [csubs qsum]. fold csubs qsum. rewrite E, Es. lra.
  Qed.

  Lemma scals_ok ms Qs : Forall2 (leaf sv b0 d) ms Qs -> forall s cs, ctrls_ok d ms cs ->
    ctrls_ok d ms (map (cscal s) cs) /\ qsum Qs (map (cscal s) cs) (map (cscal s) cs) = s ^ 2 * qsum Qs cs cs.
  Proof.
    induction 1 as [|m Q ms Qs L _ IH]; intros s cs Hc.
    - destruct cs; [|destruct Hc]. cbn. split; [exact I|lra].
    - destruct cs as [|c cs]; [destruct Hc|]. destruct Hc as (Hc & Hcs).
      destruct (pk_scal _ _ _ _ (lf_pack _ _ _ _ _ L) s c Hc) as (O & E). destruct (IH s cs Hcs) as (Os & Es).
      split; [split; assumption|]. cbn [map qsum]. fold qsum. rewrite E, Es. ring.
  Qed.

  Lemma psds_ok ms Qs : Forall2 (leaf sv b0 d) ms Qs -> forall cs, ctrls_ok d ms cs -> 0 <= qsum Qs cs cs.
  Proof.
    induction 1 as [|m Q ms Qs L _ IH]; intros cs Hc.
    - destruct cs; [|destruct Hc]. cbn. lra.
    - destruct cs as [|c cs]; [destruct Hc|]. destruct Hc as (Hc & Hcs).
      pose proof (pk_psd _ _ _ _ (lf_pack _ _ _ _ _ L) c Hc). specialize (IH cs Hcs). cbn [qsum]. fold qsum. lra.
  Qed.

  Lemma nulls_ok ms Qs : Forall2 (leaf sv b0 d) ms Qs -> forall cs, ctrls_ok d ms cs -> cnull (CList cs) -> qsum Qs cs cs = 0.
  Proof.
    induction 1 as [|m Q ms Qs L _ IH]; intros cs Hc HN.
    - destruct cs; [|destruct Hc]. reflexivity.
    - destruct cs as [|c cs]; [destruct Hc|]. destruct Hc as (Hc & Hcs). destruct HN as (Hn & Hns).
      cbn [qsum]. fold qsum. rewrite (pk_null _ _ _ _ (lf_pack _ _ _ _ _ L) c Hc Hn), (IH cs Hcs Hns). ring.
  Qed.

  Lemma syms_ok ms Qs : Forall2 (leaf sv b0 d) ms Qs -> forall cs cs', ctrls_ok d ms cs -> ctrls_ok d ms cs' -> qsum Qs cs cs' = qsum Qs cs' cs.
  Proof.
    induction 1 as [|m Q ms Qs L _ IH]; intros cs cs' Hc Hc'.
    - reflexivity.
    - destruct cs as [|c cs]; [destruct Hc|]. destruct cs' as [|c' cs']; [destruct Hc'|]. destruct Hc as (Hc & Hcs). destruct Hc' as (Hc' & Hcs').
      cbn [qsum]. fold qsum. rewrite (pk_sym _ _ _ _ (lf_pack _ _ _ _ _ L) c c' Hc Hc'), (IH cs cs' Hcs Hcs'). reflexivity.
  Qed.

  Lemma lins_ok ms Qs : Forall2 (leaf sv b0 d) ms Qs -> forall s cs cs', ctrls_ok d ms cs -> ctrls_ok d ms cs' -> qsum Qs (map (cscal s) cs) cs' = s * qsum Qs cs cs'.
  Proof.
    induction 1 as [|m Q ms Qs L _ IH]; intros s cs cs' Hc Hc'.
    - cbn. ring.
    - destruct cs as [|c cs]; [destruct Hc|]. destruct cs' as [|c' cs']; [destruct Hc'|]. destruct Hc as (Hc & Hcs). destruct Hc' as (Hc' & Hcs').
      cbn [map qsum]. fold qsum. rewrite (pk_lin _ _ _ _ (lf_pack _ _ _ _ _ L) s c c' Hc Hc'), (IH s cs cs' Hcs Hcs'). ring.
  Qed.

  Lemma diffs_ok ms Qs : Forall2 (leaf sv b0 d) ms Qs -> forall cs cs' xs, ctrls_ok d ms cs -> ctrls_ok d ms cs' -> ctrls_ok d ms xs ->
    qsum Qs (csubs cs cs') xs = qsum Qs cs xs - qsum Qs cs' xs.
  Proof.
    induction 1 as [|m Q ms Qs L _ IH]; intros cs cs' xs Hc Hc' Hx.
    - cbn. ring.
    - destruct cs as [|c cs]; [destruct Hc|]. destruct cs' as [|c' cs']; [destruct Hc'|]. destruct xs as [|x xs]; [destruct Hx|].
      destruct Hc as (Hc & Hcs). destruct Hc' as (Hc' & Hcs'). destruct Hx as (Hx & Hxs).
      cbn [csubs qsum]. fold csubs qsum. rewrite (pk_diff _ _ _ _ (lf_pack _ _ _ _ _ L) c c' x Hc Hc' Hx), (IH cs cs' xs Hcs Hcs' Hxs). ring.
  Qed.

  Lemma fills_inv ms cs ms1 m c m1 : fills sv (m :: ms) (c :: cs) = Ok (m1 :: ms1) ->
    fill_controls sv m c = Ok m1 /\ fills sv ms cs = Ok ms1.
  Proof. intros H. cbn [fills] in H. bok H x Ex. fold (fills sv) in H. bok H r Er. injection H as -> ->. auto. Qed.

  Lemma duals_ok ms Qs : Forall2 (leaf sv b0 d) ms Qs -> forall man ms', wf_gman d man -> no_empty_comp man ->
    geos sv b0 man ms = Ok ms' ->
    ctrls_ok d ms (map controls ms') /\ fills sv ms (map controls ms') = Ok ms' /\ length ms' = length ms /\
    forall cs ms1 fs, ctrls_ok d ms cs -> fills sv ms cs = Ok ms1 -> fields ms1 = Ok fs ->
      pairing d man (fun p a => fold_right (fun g acc => fval d g p a + acc) 0 fs)
                    (fun p a l => fold_right (fun g acc => fjac d g p a l + acc) 0 fs) = qsum Qs cs (map controls ms').
  Proof.
    induction 1 as [|m Q ms Qs L _ IH]; intros man ms' W NE E.
    - injection E as <-. cbn. split; [exact I|]. split; [reflexivity|]. split; [reflexivity|].
      intros cs ms1 fs Hc F FG. destruct cs; [|destruct Hc]. injection F as <-. injection FG as <-. cbn.
      apply pairing_zero; reflexivity.
    - cbn [geos] in E. bok E m' Em. fold (geos sv b0 man) in E. bok E r Er. injection E as <-.
      destruct (IH man r W NE Er) as (O & F & LN & D).
      destruct (lf_geo _ _ _ _ _ L man m' W NE Em) as (O1 & F1).
      split; [split; assumption|]. split; [|split; [cbn; congruence|]].
      + cbn [map fills]. fold (fills sv). rewrite F1. cbn [bind]. rewrite F. reflexivity.
      + intros cs ms1 fs Hc Fc FG. destruct cs as [|c cs]; [destruct Hc|]. destruct Hc as (Hc & Hcs).
        cbn [fills] in Fc. fold (fills sv) in Fc. bok Fc m1 Em1. bok Fc r1 Er1. injection Fc as <-.
        cbn [fields] in FG. fold fields in FG. bok FG g1 Ef. bok FG fr Efr. injection FG as <-.
        cbn [map qsum]. fold qsum. rewrite <- (D cs r1 fr Hcs Er1 Efr).
        rewrite <- (lf_dual _ _ _ _ _ L man m' W NE Em c m1 g1 Hc Em1 Ef).
        rewrite <- pairing_plus. apply pairing_ext; intros; reflexivity.
  Qed.

  Lemma leaf_comp ms Qs : ms <> [] -> Forall2 (leaf sv b0 d) ms Qs -> leaf sv b0 d (MComp ms) (Qcomp Qs).
  Proof.
    intros NEM HL.
    assert (FILL : forall cs, ctrls_ok d ms cs -> fill_controls sv (MComp ms) (CList cs) = (ms' <- fills sv ms cs ;; Ok (MComp ms'))).
    { intros cs Hc. rewrite fill_comp, (ctrls_ok_length d ms cs Hc), Nat.eqb_refl. reflexivity. }
    split.
    - split.
      + intros [t|cs] Hc; [destruct Hc|]. change (ctrls_ok d ms cs) in Hc.
        destruct (fills_ok ms Qs HL cs Hc) as (ms1 & fs & F & LN & C & FG & LF & G).
        assert (NF : fs <> []) by (destruct fs; [destruct ms; [congruence|discriminate]|discriminate]).
        destruct (good_sum fs NF G) as (SC & GS).
        exists (MComp ms1), (SF_sum fs). rewrite FILL, F by assumption. split; [reflexivity|].
        split; [exact C|]. split; [|exact GS].
        change (field_generator (MComp ms1)) with (fs <- fields ms1 ;; sum_ctor fs). rewrite FG. exact SC.
      + intros [t|cs] Hc; [destruct Hc|]. apply (psds_ok ms Qs HL). exact Hc.
      + intros [t|cs] [t'|cs'] Hc Hc'; try destruct Hc; try destruct Hc'. exact (subs_ok ms Qs HL cs cs' Hc Hc').
      + intros s [t|cs] Hc; [destruct Hc|]. exact (scals_ok ms Qs HL s cs Hc).
      + intros [t|cs] Hc HN; [destruct Hc|]. exact (nulls_ok ms Qs HL cs Hc HN).
      + intros [t|cs] [t'|cs'] Hc Hc'; try destruct Hc; try destruct Hc'. exact (syms_ok ms Qs HL cs cs' Hc Hc').
      + intros s [t|cs] [t'|cs'] Hc Hc'; try destruct Hc; try destruct Hc'. exact (lins_ok ms Qs HL s cs cs' Hc Hc').
      + intros [t|cs] [t'|cs'] [y|xs] Hc Hc' Hx; try destruct Hc; try destruct Hc'; try destruct Hx. exact (diffs_ok ms Qs HL cs cs' xs Hc Hc' Hx).
    - intros man m' W NE E c m1 f Hc F FG. destruct c as [t|cs]; [destruct Hc|]. change (ctrls_ok d ms cs) in Hc.
      change (compute_geodesic_control sv b0 (MComp ms) man) with (ms' <- geos sv b0 man ms ;; Ok (MComp ms')) in E.
      bok E ms' Es. injection E as <-. destruct (duals_ok ms Qs HL man ms' W NE Es) as (O & FF & LN & D).
      rewrite FILL in F by assumption. bok F ms1 F1. injection F as <-.
      change (field_generator (MComp ms1)) with (fs <- fields ms1 ;; sum_ctor fs) in FG. bok FG fs Efs.
      destruct (fills_ok ms Qs HL cs Hc) as (ms1' & fs' & F' & _ & _ & FG' & LF & G).
      rewrite F1 in F'. injection F' as <-. rewrite Efs in FG'. injection FG' as <-.
      assert (NF : fs <> []) by (destruct fs; [destruct ms; [congruence|discriminate]|discriminate]).
      rewrite (proj1 (good_sum fs NF G)) in FG. injection FG as <-.
      exact (D cs ms1 fs Hc F1 Efs).
    - intros man m' W NE E.
      change (compute_geodesic_control sv b0 (MComp ms) man) with (ms' <- geos sv b0 man ms ;; Ok (MComp ms')) in E.
      bok E ms' Es. injection E as <-. destruct (duals_ok ms Qs HL man ms' W NE Es) as (O & FF & LN & D).
      change (controls (MComp ms')) with (CList (map controls ms')). split; [exact O|].
      rewrite FILL, FF by exact O. reflexivity.
  Qed.
End Comp.

(** ** Every module *)
Theorem module_leaf sv b0 d m : exact_solver sv -> wf_mod d m ->
  (exists c m1, ctrl_ok d m c /\ fill_controls sv m c = Ok m1) -> exists Q, leaf sv b0 d m Q.
Proof.
  intros HS. induction m as [m NC|ms IH] using dmod_ind'; intros W HX.
  - destruct m as [dim co h|b sg dim nb gd ct h|b sg nu co dim nb gd ct h|sg co tr dim nb gd0 gd1 c0 c1 h|
       sg co fs fv dim nb gd ct h|A co gd ct h|man|b sg nu co C dim nb gd0 gd1 c0 c1 h ca|
       sg cd nu co dim n0 n1 gd ct h l|sg ca nu co dim n0 n1 gd ct h l|ms].
    + eexists. apply leaf_global. exact W.
    + eexists. apply leaf_trans; assumption.
    + eexists. apply leaf_imp0; assumption.
    + eexists. apply leaf_oriented; assumption.
    + destruct (leaf_local sv b0 d sg co fs fv dim nb gd ct h W) as (Q & _ & L). exists (Qc Q). exact L.
    + eexists. apply leaf_linear. exact W.
    + eexists. apply leaf_silent. exact W.
    + destruct (imp1_leaf sv b0 d b sg nu co C dim nb gd0 gd1 c0 c1 h ca HS W HX) as (Q & _ & L). exists (Qc Q). exact L.
    + destruct (div_leaf sv b0 d sg cd nu co dim n0 n1 gd ct h l HS W HX) as (Q & _ & L). exists (Qc Q). exact L.
    + destruct (arap_leaf sv b0 d sg ca nu co dim n0 n1 gd ct h l HS W HX) as (Q & _ & L). exists (Qc Q). exact L.
    + elim (NC ms eq_refl).
  - destruct W as (NE & W). destruct HX as (c & m1 & Hc & F). destruct c as [t|cs]; [destruct Hc|].
    change (ctrls_ok d ms cs) in Hc. rewrite fill_comp in F.
    destruct (Nat.eqb (length cs) (length ms)); [|discriminate]. bok F ms1 F1. clear F m1.
    assert (HQ : exists Qs, Forall2 (leaf sv b0 d) ms Qs).
    { clear NE. revert cs ms1 Hc F1 W. induction IH as [|m ms Hm _ IHs]; intros cs ms1 Hc F1 W; [exists []; constructor|].
      destruct cs as [|c cs]; [destruct Hc|]. destruct Hc as (Hc & Hcs). destruct W as (Wm & Wms).
      cbn [fills] in F1. fold (fills sv) in F1. bok F1 m1 Em1. bok F1 r Er.
      destruct (Hm Wm (ex_intro _ c (ex_intro _ m1 (conj Hc Em1)))) as (Q & LQ).
      destruct (IHs cs r Hcs Er Wms) as (Qs & LQs). exists (Q :: Qs). constructor; assumption. }
    destruct HQ as (Qs & HQ). exists (Qcomp Qs). apply leaf_comp; assumption.
Qed.

(** ** Consequences *)
Lemma ctrl_ok_size d m t t' : ctrl_ok d m (CLeaf t) -> ctrl_ok d m (CLeaf t') -> prod (shape t) = prod (shape t').
Proof.
  destruct m; cbn [ctrl_ok]; intros H H'; try congruence; try tauto;
    destruct H as [H|H]; destruct H' as [H'|H']; rewrite H, H'; cbn; lia.
Qed.

Lemma csub_null_ceq d m c c' : ctrl_ok d m c -> ctrl_ok d m c' -> cnull (csub c c') -> ceq c c'.
Proof.
  revert c c'. induction m as [m NC|ms IH] using dmod_ind'; intros c c' Hc Hc' HN.
  - destruct c as [t|l]; [|destruct m; try destruct Hc; elim (NC ms eq_refl)].
    destruct c' as [t'|l']; [|destruct m; try destruct Hc'; elim (NC ms eq_refl)].
    pose proof (ctrl_ok_size d m t t' Hc Hc') as HP. cbn [csub cnull ceq] in *. split; [assumption|].
    intros k Hk. pose proof (fvec_null _ HN k Hk) as E. rewrite fvec_sub in E by (congruence || assumption).
    unfold fvec in E. lra.
  - destruct c as [t|cs]; [destruct Hc|]. destruct c' as [t'|cs']; [destruct Hc'|].
    change (ctrls_ok d ms cs) in Hc. change (ctrls_ok d ms cs') in Hc'.
    change (cnull (CList (csubs cs cs'))) in HN. cbn [ceq].
    revert cs cs' Hc Hc' HN. induction IH as [|m ms Hm _ IHs]; intros cs cs' Hc Hc' HN.
    + destruct cs; [|destruct Hc]. destruct cs'; [|destruct Hc']. exact I.
    + destruct cs as [|c cs]; [destruct Hc|]. destruct cs' as [|c' cs']; [destruct Hc'|].
      destruct Hc as (Hc & Hcs). destruct Hc' as (Hc' & Hcs'). destruct HN as (HN & HNs). split; [auto|].
      apply IHs; assumption.
Qed.

(** The manifold is not modified by fill_controls. *)
Lemma fill_manifold sv m : forall c m1, fill_controls sv m c = Ok m1 -> mod_manifold m1 = mod_manifold m.
Proof.
  induction m as [m NC|ms IH] using dmod_ind'; intros c m1 F.
  - destruct m; destruct c; try discriminate; cbn [fill_controls] in F;
      try (injection F as <-; reflexivity).
    + destruct (shape t); [|discriminate]. injection F as <-. reflexivity.
    + bok F x E. injection F as <-. reflexivity.
    + bok F x E. injection F as <-. reflexivity.
    + bok F x E. injection F as <-. reflexivity.
    + elim (NC ms eq_refl).
  - destruct c as [t|cs]; [discriminate|]. rewrite fill_comp in F. destruct (Nat.eqb (length cs) (length ms)) eqn:EL; [|discriminate].
    apply Nat.eqb_eq in EL. bok F ms1 F1. injection F as <-. cbn [mod_manifold]. f_equal.
    revert cs ms1 EL F1. induction IH as [|m ms Hm _ IHs]; intros cs ms1 EL F1.
    + destruct cs; injection F1 as <-; reflexivity.
    + destruct cs as [|c cs]; [discriminate|]. cbn [fills] in F1. fold (fills sv) in F1. bok F1 m1 Em. bok F1 r Er. injection F1 as <-.
      cbn [map]. f_equal; [eauto|]. apply (IHs cs); [cbn in EL; lia|assumption].
Qed.

Lemma wf_mod_manifold d m : wf_mod d m -> wf_gman d (mod_manifold m) /\ no_empty_comp (mod_manifold m).
Proof.
  induction m as [m NC|ms IH] using dmod_ind'; intros W.
  - destruct m; cbn [wf_mod mod_manifold wf_gman no_empty_comp] in *; try tauto.
    + unfold nrows. destruct W as (SA & Hco & Sg & Sc & Sh). rewrite SA. cbn. tauto.
    + elim (NC ms eq_refl).
  - destruct W as (NE & W). cbn [mod_manifold wf_gman no_empty_comp].
    assert (H : fold_right (fun m acc => wf_gman d m /\ acc) True (map mod_manifold ms) /\
                fold_right (fun m acc => no_empty_comp m /\ acc) True (map mod_manifold ms)).
    { clear NE. induction IH as [|m ms Hm _ IHs]; [cbn; auto|]. destruct W as (Wm & Wms).
      destruct (Hm Wm). destruct (IHs Wms). cbn. tauto. }
    destruct H as (H1 & H2). split; [assumption|]. split; [|assumption]. destruct ms; [congruence|discriminate].
Qed.

(** Zero controls. *)
Lemma tzeros_null sh idx : get (tzeros sh) idx = 0.
Proof. reflexivity. Qed.

Lemma zero_ctrl_ok d m : wf_mod d m -> ctrl_ok d m (zero_ctrl m) /\ cnull (zero_ctrl m).
Proof.
  induction m as [m NC|ms IH] using dmod_ind'; intros W.
  - destruct m; cbn [wf_mod zero_ctrl ctrl_ok] in *; try (split; [cbn [tzeros shape]; tauto|intros idx _; reflexivity]).
    + split; [|intros idx _; reflexivity]. left. cbn [tzeros shape]. destruct W as (-> & _ & _ & _ & Sg & _).
      apply (last_shape gd n0 n1 d Sg).
    + split; [|intros idx _; reflexivity]. left. cbn [tzeros shape]. destruct W as (-> & _ & _ & _ & _ & Sg & _).
      apply (last_shape gd n0 n1 d Sg).
    + elim (NC ms eq_refl).
  - destruct W as (_ & W). cbn [zero_ctrl]. change (ctrls_ok d ms (map zero_ctrl ms) /\ cnull (CList (map zero_ctrl ms))).
    induction IH as [|m ms Hm _ IHs]; [cbn; auto|]. destruct W as (Wm & Wms).
    destruct (Hm Wm). destruct (IHs Wms). cbn. tauto.
Qed.

Section Main.
  Variables (sv : solver) (b0 : backend) (d : nat).
  Hypothesis HSV : exact_solver sv.

  Lemma cost_form m c m1 : wf_mod d m -> ctrl_ok d m c -> fill_controls sv m c = Ok m1 ->
    exists x, cost m1 = Ok x /\ 0 <= x /\ (cnull c -> x = 0) /\
      forall s, exists m2, fill_controls sv m (cscal s c) = Ok m2 /\ cost m2 = Ok (s ^ 2 * x).
  Proof.
    intros W Hc F. destruct (module_leaf sv b0 d m HSV W (ex_intro _ c (ex_intro _ m1 (conj Hc F)))) as (Q & [P _ _]).
    destruct (pk_fill _ _ _ _ P c Hc) as (m1' & f & F' & C & _). rewrite F in F'. injection F' as <-.
    exists (1 / 2 * Q c c). split; [assumption|]. pose proof (pk_psd _ _ _ _ P c Hc). split; [lra|]. split.
    - intros HN. rewrite (pk_null _ _ _ _ P c Hc HN). lra.
    - intros s. destruct (pk_scal _ _ _ _ P s c Hc) as (O & E). destruct (pk_fill _ _ _ _ P _ O) as (m2 & f2 & F2 & C2 & _).
      exists m2. split; [assumption|]. rewrite C2, E. f_equal. ring.
  Qed.

  Lemma cost_zero m m1 : wf_mod d m -> fill_controls_zero sv m = Ok m1 -> cost m1 = Ok 0.
  Proof.
    intros W F. destruct (zero_ctrl_ok d m W) as (O & N). destruct (cost_form m _ m1 W O F) as (x & C & _ & Z & _).
    rewrite C, (Z N). reflexivity.
  Qed.

  Lemma cost_comp ms : cost (MComp ms) =
    match mapM cost ms with Ok xs => Ok (fold_right Rplus 0 xs) | Err e => Err e end.
  Proof.
    change (cost (MComp ms)) with (costs ms). induction ms as [|m ms IH]; [reflexivity|]. cbn [costs mapM]. fold costs. rewrite IH.
    destruct (cost m); [|reflexivity]. cbn [bind]. destruct (mapM cost ms); reflexivity.
  Qed.

  Lemma fill_all m c c' : wf_mod d m -> ctrl_ok d m c -> ctrl_ok d m c' -> is_ok (fill_controls sv m c) -> is_ok (fill_controls sv m c').
  Proof.
    intros W Hc Hc' (m1 & F). destruct (module_leaf sv b0 d m HSV W (ex_intro _ c (ex_intro _ m1 (conj Hc F)))) as (Q & [P _ _]).
    destruct (pk_fill _ _ _ _ P c' Hc') as (m2 & f & F' & _). exists m2. assumption.
  Qed.

  (** A module whose geodesic controls can be computed accepts controls. *)
  Lemma geo_fillable m man m' : wf_mod d m -> wf_gman d man -> no_empty_comp man ->
    compute_geodesic_control sv b0 m man = Ok m' -> exists c m1, ctrl_ok d m c /\ fill_controls sv m c = Ok m1.
  Proof.
    intros W WG NE. revert m'. induction m as [m NC|ms IH] using dmod_ind'; intros m' E.
    - destruct m as [dim co h|b sg dim nb gd ct h|b sg nu co dim nb gd ct h|sg co tr dim nb gd0 gd1 c0 c1 h|
       sg co fs fv dim nb gd ct h|A co gd ct h|man0|b sg nu co C dim nb gd0 gd1 c0 c1 h ca|
       sg cd nu co dim n0 n1 gd ct h l|sg ca nu co dim n0 n1 gd ct h l|ms];
      try (destruct (zero_ctrl_ok d _ W) as (O & _); eexists; eexists; split; [exact O|]; reflexivity).
      + destruct (zero_ctrl_ok d _ W) as (O & _). exists (zero_ctrl (MLinear A co gd ct h)). eexists. split; [exact O|].
        cbn [fill_controls zero_ctrl]. destruct W as (_ & _ & _ & _ & Sh). cbn [tzeros shape]. rewrite Sh. reflexivity.
      + cbn [compute_geodesic_control] in E. bok E vs Evs. bok E h' Eh. exists (CLeaf h'), m'. split; [|exact E].
        destruct W as (-> & (e & He) & Hs & Hnu & Hco & (r & SC) & Sg0 & Sg1 & Sc0 & Sc1).
        unfold imp1_geodesic in Eh. rewrite He in Eh. cbn [bind] in Eh. bok Eh dv Edv. bok Eh sks Esks. bok Eh tl0 Etl. bok Eh p Ep. bok Eh c Ec.
        injection Eh as <-. cbn [ctrl_ok]. rewrite SC in *. cbn [tnth nth] in *.
        unfold imp1_aqkiaq in Ep. bok Ep ls Els. injection Ep as <-. cbn [fst snd] in Ec.
        destruct (fun SX SY => solver_any sv r _ _ c (entries (mm (mk2 r (sym_dim d * nb) (fun i k => (tflatten (nth i ls (tzeros []))) @1 k))
            (mk2 (sym_dim d * nb) r (fun k i => (tflatten (imp1_aqh d nb e C gd1 (basis_vec r i))) @1 k)))) HSV SX SY Ec (fun _ _ _ _ => eq_refl)) as (_ & Sc & _).
        * reflexivity.
        * right. reflexivity.
        * cbn [tflatten reshape shape]. rewrite Sc. cbn. f_equal. lia.
      + cbn [compute_geodesic_control] in E. bok E vs Evs. bok E h' Eh. exists (CLeaf h'), m'. split; [|exact E].
        destruct W as (-> & Hs & Hnu & Hco & Sgd & Sct). cbn [ctrl_ok]. right.
        destruct (div_sks_ok sg cd nu d n0 n1 gd Hs Sgd) as (S & ES & SS & _).
        unfold div_geodesic in Eh. rewrite ES in Eh. cbn [bind] in Eh. bok Eh dv Edv. bok Eh v0 Ev0. bok Eh xx Exx. injection Eh as <-.
        cbn [tscal tmap tadd tmap2 topp mv mk1 shape block21 mk2]. unfold nrows. cbn [shape tnth nth block21 mk2]. rewrite SS. cbn [nth]. f_equal. unfold tnth. cbn [nth]. lia.
      + cbn [compute_geodesic_control] in E. bok E vs Evs. bok E h' Eh. exists (CLeaf h'), m'. split; [|exact E].
        destruct W as (-> & (e & He) & Hs & Hnu & Hco & Sgd & Sct). cbn [ctrl_ok]. right.
        destruct (arap_sks_ok sg ca nu d e n0 n1 gd Hs He Sgd) as (S & ES & SS & _).
        unfold arap_geodesic in Eh. rewrite ES in Eh. cbn [bind] in Eh. rewrite He in Eh. cbn [bind] in Eh. bok Eh dv Edv. bok Eh v0 Ev0. bok Eh xx Exx. injection Eh as <-.
        cbn [tscal tmap tadd tmap2 topp mv mk1 shape block21 mk2]. unfold nrows. cbn [shape tnth nth block21 mk2]. rewrite SS. cbn [nth]. f_equal. unfold tnth. cbn [nth]. lia.
      + elim (NC ms eq_refl).
    - change (compute_geodesic_control sv b0 (MComp ms) man) with (ms' <- geos sv b0 man ms ;; Ok (MComp ms')) in E.
      bok E ms' Es. clear E m'. destruct W as (_ & W).
      assert (H : exists cs ms1, ctrls_ok d ms cs /\ fills sv ms cs = Ok ms1).
      { revert ms' Es W. induction IH as [|m ms Hm _ IHs]; intros ms' Es W; [exists [], []; cbn; auto|].
        cbn [geos] in Es. fold (geos sv b0 man) in Es. bok Es m' Em. bok Es r Er. destruct W as (Wm & Wms).
        destruct (Hm Wm m' Em) as (c & m1 & Hc & F). destruct (IHs r Er Wms) as (cs & ms1 & Hcs & Fs).
        exists (c :: cs), (m1 :: ms1). split; [split; assumption|]. cbn [fills]. fold (fills sv). rewrite F. cbn [bind]. rewrite Fs. reflexivity. }
      destruct H as (cs & ms1 & Hc & F). exists (CList cs), (MComp ms1). split; [exact Hc|].
      rewrite fill_comp, (ctrls_ok_length d ms cs Hc), Nat.eqb_refl, F. reflexivity.
  Qed.

  Lemma gain_form m Q man m' c : leaf sv b0 d m Q -> wf_gman d man -> no_empty_comp man ->
    compute_geodesic_control sv b0 m man = Ok m' -> ctrl_ok d m c ->
    exists m1, fill_controls sv m c = Ok m1 /\ gain m1 man = Ok (Q c (controls m') - 1 / 2 * Q c c).
  Proof.
    intros [P D G] W NE E Hc. destruct (pk_fill _ _ _ _ P c Hc) as (m1 & f & F & C & FG & (Wf & H0 & H1 & _)).
    exists m1. split; [assumption|]. unfold gain. rewrite FG. cbn [bind].
    rewrite (inner_pairing_field d man f W Wf H0 (fun _ => H1)). cbn [bind]. rewrite C. cbn [bind].
    rewrite (D man m' W NE E c m1 f Hc F FG). reflexivity.
  Qed.

  Lemma geodesic_max m man m' : wf_mod d m -> wf_gman d man -> no_empty_comp man ->
    compute_geodesic_control sv b0 m man = Ok m' ->
    ctrl_ok d m (controls m') /\ fill_controls sv m (controls m') = Ok m' /\
    exists g', gain m' man = Ok g' /\
      forall c, ctrl_ok d m c -> exists m1 g m2 e, fill_controls sv m c = Ok m1 /\ gain m1 man = Ok g /\ 
        ctrl_ok d m (csub c (controls m')) /\ fill_controls sv m (csub c (controls m')) = Ok m2 /\ cost m2 = Ok e /\ 0 <= e /\ g = g' - e.
  Proof.
    intros W WG NE E. destruct (module_leaf sv b0 d m HSV W (geo_fillable m man m' W WG NE E)) as (Q & L).
    pose proof L as [P D G]. destruct (G man m' WG NE E) as (O & F). split; [assumption|]. split; [assumption|].
    destruct (gain_form m Q man m' (controls m') L WG NE E O) as (m1' & F' & GA). rewrite F in F'. injection F' as <-.
    eexists. split; [exact GA|]. intros c Hc. destruct (gain_form m Q man m' c L WG NE E Hc) as (m1 & F1 & G1).
    destruct (pk_sub _ _ _ _ P c (controls m') Hc O) as (OS & ES).
    destruct (pk_fill _ _ _ _ P _ OS) as (m2 & f2 & F2 & C2 & _).
    exists m1, (Q c (controls m') - 1 / 2 * Q c c), m2, (1 / 2 * Q (csub c (controls m')) (csub c (controls m'))).
    pose proof (pk_psd _ _ _ _ P _ OS).
    split; [assumption|]. split; [assumption|]. split; [assumption|]. split; [assumption|]. split; [assumption|]. split; [lra|].
    rewrite ES. lra.
  Qed.

  Lemma geodesic_unique m man m' c m1 g : wf_mod d m -> wf_gman d man -> no_empty_comp man ->
    compute_geodesic_control sv b0 m man = Ok m' ->
    (forall c m1, ctrl_ok d m c -> fill_controls sv m c = Ok m1 -> cost m1 = Ok 0 -> cnull c) ->
    ctrl_ok d m c -> fill_controls sv m c = Ok m1 -> gain m1 man = Ok g -> gain m' man = Ok g -> ceq c (controls m').
  Proof.
    intros W WG NE E DEF Hc F G G'. destruct (geodesic_max m man m' W WG NE E) as (O & F' & g' & GA & H).
    rewrite G' in GA. injection GA as <-. destruct (H c Hc) as (m1' & g1 & m2 & e & F1 & G1 & O2 & F2 & C2 & _ & EQ).
    rewrite F in F1. injection F1 as <-. rewrite G in G1. injection G1 as <-.
    apply (csub_null_ceq d m); [assumption|assumption|]. apply (DEF _ m2 O2 F2). rewrite C2. f_equal. lra.
  Qed.

  Lemma hamiltonian_cost m m' : wf_mod d m -> geodesic_controls sv b0 m = Ok m' ->
    exists x, cost m' = Ok x /\ hamiltonian m' = Ok x /\ 0 <= x.
  Proof.
    intros W E. unfold geodesic_controls in E. destruct (wf_mod_manifold d m W) as (WG & NE).
    destruct (module_leaf sv b0 d m HSV W (geo_fillable m _ m' W WG NE E)) as (Q & L).
    pose proof L as [P D G]. destruct (G _ m' WG NE E) as (O & F).
    destruct (pk_fill _ _ _ _ P _ O) as (m1 & f & F' & C & FG & (Wf & H0 & H1 & _)). rewrite F in F'. injection F' as <-.
    exists (1 / 2 * Q (controls m') (controls m')). split; [assumption|]. split.
    - unfold hamiltonian, apply_mom. rewrite FG. cbn [bind]. rewrite (fill_manifold sv m _ m' F).
      rewrite (inner_pairing_field d _ f WG Wf H0 (fun _ => H1)). cbn [bind]. rewrite C. cbn [bind].
      rewrite (D _ m' WG NE E _ m' f O F FG). f_equal. lra.
    - pose proof (pk_psd _ _ _ _ P _ O). lra.
  Qed.
End Main.
