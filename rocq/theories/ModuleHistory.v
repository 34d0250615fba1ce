(** Histories of a module: what its field and cost depend on. *)
From Coq Require Import Reals String List Arith Lia Lra.
From Verif Require Import Py RSum Tensor TensorFacts KernelModel FieldModel GeometryModel ModuleModel
  SpecLinAlg SpecKernel SpecField SpecGeometry SpecSKS SpecModule SpecHistory LinAlg KernelFacts FieldFacts GeometryFacts SKSFacts
  GaussPSD ModuleDual ModuleAlg ModuleLeaves ModuleImplicit ModuleMain ModuleRegular.
Import ListNotations.
Open Scope R_scope.

(** The arguments of the constructor: what no operation modifies. *)
Fixpoint params (m : dmod) : dmod :=
  let o := mk0 0 in
  match m with
  | MGlobal dim co _ => MGlobal dim co o
  | MTrans b sg dim nb _ _ _ => MTrans b sg dim nb o o o
  | MImp0 b sg nu co dim nb _ _ _ => MImp0 b sg nu co dim nb o o o
  | MOriented sg co tr dim nb _ _ _ _ _ => MOriented sg co tr dim nb o o o o o
  | MLocal sg co fs fv dim nb _ _ _ => MLocal sg co fs fv dim nb o o o
  | MLinear A co _ _ _ => MLinear A co o o o
  | MSilent _ => MSilent (GEmpty 0)
  | MImp1 b sg nu co C dim nb _ _ _ _ _ _ => MImp1 b sg nu co C dim nb o o o o o None
  | MDivFree sg cd nu co dim n0 n1 _ _ _ _ => MDivFree sg cd nu co dim n0 n1 o o o None
  | MArap sg ca nu co dim n0 n1 _ _ _ _ => MArap sg ca nu co dim n0 n1 o o o None
  | MComp ms => MComp (map params ms)
  end.

Section Hist.
  Variables (sv : solver) (b0 : backend).

  Lemma fill_params m : forall c m1, fill_controls sv m c = Ok m1 -> params m1 = params m.
  Proof.
    induction m as [m NC|ms IH] using dmod_ind'; intros c m1 F.
    - destruct m; destruct c; try discriminate; cbn [fill_controls] in F;
        try (injection F as <-; reflexivity).
      + destruct (shape t); [|discriminate]. injection F as <-. reflexivity.
      + bok F x E. injection F as <-. reflexivity.
      + bok F x E. injection F as <-. reflexivity.
      + bok F x E. injection F as <-. reflexivity.
      + elim (NC ms eq_refl).
    - destruct c as [t|cs]; [discriminate|]. rewrite fill_comp in F. destruct (Nat.eqb (length cs) (length ms)) eqn:EL; [|discriminate].
      apply Nat.eqb_eq in EL. bok F ms1 F1. injection F as <-. cbn [params]. f_equal.
      revert cs ms1 EL F1. induction IH as [|m ms Hm _ IHs]; intros cs ms1 EL F1.
      + destruct cs; injection F1 as <-; reflexivity.
      + destruct cs as [|c cs]; [discriminate|]. cbn [fills] in F1. fold (fills sv) in F1. bok F1 m1 Em. bok F1 r Er. injection F1 as <-.
        cbn [map]. f_equal; [eauto|]. apply (IHs cs); [cbn in EL; lia|assumption].
  Qed.

  Lemma set_params m : forall g m1, set_manifold m g = Ok m1 -> params m1 = params m.
  Proof.
    induction m as [m NC|ms IH] using dmod_ind'; intros g m1 F.
    - destruct m; destruct g; try discriminate; cbn [set_manifold] in F; try (injection F as <-; reflexivity).
      elim (NC ms eq_refl).
    - destruct g as [| | | | |gs]; try discriminate. cbn [set_manifold] in F. bok F ms1 F1. injection F as <-. cbn [params]. f_equal.
      revert gs ms1 F1. induction IH as [|m ms Hm _ IHs]; intros gs ms1 F1.
      + destruct gs; [|discriminate]. injection F1 as <-. reflexivity.
      + destruct gs as [|g gs]; [discriminate|]. bok F1 m1 Em. bok F1 r Er. injection F1 as <-.
        cbn [map]. f_equal; [eauto|]. apply (IHs gs). assumption.
  Qed.

  Lemma geo_params m man : forall m1, compute_geodesic_control sv b0 m man = Ok m1 -> params m1 = params m.
  Proof.
    induction m as [m NC|ms IH] using dmod_ind'; intros m1 F.
    - destruct m; cbn [compute_geodesic_control] in F;
        try (repeat (match type of F with bind _ _ = _ => let x := fresh "x" in let E := fresh "E" in bok F x E end); injection F as <-; reflexivity).
      + bok F x E. bok F y E'. exact (fill_params (MImp1 _ _ _ _ _ _ _ _ _ _ _ _ _) _ _ F).
      + bok F x E. bok F y E'. exact (fill_params (MDivFree _ _ _ _ _ _ _ _ _ _ _) _ _ F).
      + bok F x E. bok F y E'. exact (fill_params (MArap _ _ _ _ _ _ _ _ _ _ _) _ _ F).
      + elim (NC ms eq_refl).
    - change (compute_geodesic_control sv b0 (MComp ms) man) with (ms' <- geos sv b0 man ms ;; Ok (MComp ms')) in F.
      bok F ms1 F1. injection F as <-. cbn [params]. f_equal.
      revert ms1 F1. induction IH as [|m ms Hm _ IHs]; intros ms1 F1.
      + injection F1 as <-. reflexivity.
      + cbn [geos] in F1. fold (geos sv b0 man) in F1. bok F1 m1 Em. bok F1 r Er. injection F1 as <-. cbn [map]. f_equal; auto.
  Qed.

  Lemma run_params ops : forall m m1, run_ops sv b0 m ops = Ok m1 -> params m1 = params m.
  Proof.
    unfold run_ops. induction ops as [|o ops IH] using rev_ind; intros m m1 H.
    - injection H as <-. reflexivity.
    - rewrite fold_left_app in H. cbn [fold_left] in H. bok H m' E. rewrite <- (IH m m' E).
      destruct o; [exact (fill_params _ _ _ H)|exact (set_params _ _ _ H)|exact (geo_params _ _ _ H)].
  Qed.

  (** Without caches, the parameters, the manifold and the controls determine the module. *)
  Lemma determined m : forall m', params m = params m' -> mod_manifold m = mod_manifold m' -> controls m = controls m' ->
    ~ first_order m -> m = m'.
  Proof.
    induction m as [m NC|ms IH] using dmod_ind'; intros m' EP EM EC NF.
    - destruct m; destruct m'; try discriminate EP; cbn [params mod_manifold controls] in EP, EM, EC;
        try (elim NF; exact I); try (elim (NC ms eq_refl)); try congruence.
    - destruct m' as [| | | | | | | | | |ms']; try discriminate EP. cbn [params mod_manifold controls first_order] in EP, EM, EC, NF.
      injection EP as EP. injection EM as EM. injection EC as EC. f_equal.
      revert ms' EP EM EC NF. induction IH as [|m ms Hm _ IHs]; intros ms' EP EM EC NF.
      + destruct ms'; [reflexivity|discriminate].
      + destruct ms' as [|m' ms']; [discriminate|]. cbn [map] in *. injection EP as EP1 EP2. injection EM as EM1 EM2. injection EC as EC1 EC2.
        cbn [fold_right] in NF. f_equal; [apply Hm; tauto|]. apply IHs; tauto.
  Qed.

  (** The result of fill_controls depends on the parameters, the manifold and the
      given controls only. *)
  Lemma fill_determined m : forall m' c, params m = params m' -> mod_manifold m = mod_manifold m' ->
    fill_controls sv m c = fill_controls sv m' c.
  Proof.
    induction m as [m NC|ms IH] using dmod_ind'; intros m' c EP EM.
    - destruct m; destruct m'; try discriminate EP; cbn [params mod_manifold] in EP, EM;
        try (elim (NC ms eq_refl)); destruct c; try reflexivity; try (injection EP); try (injection EM); intros; subst; reflexivity.
    - destruct m' as [| | | | | | | | | |ms']; try discriminate EP. cbn [params mod_manifold] in EP, EM.
      injection EP as EP. injection EM as EM. destruct c as [t|cs]; [reflexivity|]. rewrite !fill_comp.
      assert (EL : length ms = length ms') by (rewrite <- (map_length params ms), EP; apply map_length). rewrite EL.
      destruct (Nat.eqb (length cs) (length ms')); [|reflexivity]. f_equal. clear EL.
      revert ms' cs EP EM. induction IH as [|m ms Hm _ IHs]; intros ms' cs EP EM.
      + destruct ms'; [reflexivity|discriminate].
      + destruct ms' as [|m' ms']; [discriminate|]. cbn [map] in *. injection EP as EP1 EP2. injection EM as EM1 EM2.
        destruct cs as [|c cs]; [reflexivity|]. cbn [fills]. fold (fills sv). rewrite (Hm m' c EP1 EM1), (IHs ms' cs EP2 EM2). reflexivity.
  Qed.

  Lemma fill_manifold' m c m1 : fill_controls sv m c = Ok m1 -> mod_manifold m1 = mod_manifold m.
  Proof. apply fill_manifold. Qed.

  (** Controls read back after a fill. *)
  Lemma fill_idem m : forall c m1, fill_controls sv m c = Ok m1 -> fill_controls sv m1 (controls m1) = Ok m1.
  Proof.
    induction m as [m NC|ms IH] using dmod_ind'; intros c m1 F.
    - destruct m; destruct c; try discriminate; cbn [fill_controls] in F;
        try (injection F as <-; reflexivity).
      + destruct (shape t) eqn:E; [|discriminate]. injection F as <-. cbn [fill_controls controls]. rewrite E. reflexivity.
      + bok F x E. injection F as <-. cbn [fill_controls controls]. rewrite E. reflexivity.
      + bok F x E. injection F as <-. cbn [fill_controls controls]. rewrite E. reflexivity.
      + bok F x E. injection F as <-. cbn [fill_controls controls]. rewrite E. reflexivity.
      + elim (NC ms eq_refl).
    - destruct c as [t|cs]; [discriminate|]. rewrite fill_comp in F. destruct (Nat.eqb (length cs) (length ms)) eqn:EL; [|discriminate].
      apply Nat.eqb_eq in EL. bok F ms1 F1. injection F as <-. cbn [controls]. rewrite fill_comp, map_length, Nat.eqb_refl.
      assert (H : fills sv ms1 (map controls ms1) = Ok ms1); [|rewrite H; reflexivity].
      revert cs ms1 EL F1. induction IH as [|m ms Hm _ IHs]; intros cs ms1 EL F1.
      + destruct cs; injection F1 as <-; reflexivity.
      + destruct cs as [|c cs]; [discriminate|]. cbn [fills] in F1. fold (fills sv) in F1. bok F1 m1 Em. bok F1 r Er. injection F1 as <-.
        cbn [map fills]. fold (fills sv). rewrite (Hm c m1 Em). cbn [bind]. rewrite (IHs cs r); [reflexivity|cbn in EL; lia|assumption].
  Qed.

  (** Geodesic controls are filled. *)
  Lemma geo_idem m man : forall m1, compute_geodesic_control sv b0 m man = Ok m1 ->
    fill_controls sv m1 (controls m1) = Ok m1.
  Proof.
    induction m as [m NC|ms IH] using dmod_ind'; intros m1 F.
    - destruct m; cbn [compute_geodesic_control] in F;
        try (repeat (match type of F with bind _ _ = _ => let x := fresh "x" in let E := fresh "E" in bok F x E end); injection F as <-; reflexivity).
      + bok F x E. bok F y E'. exact (fill_idem (MImp1 _ _ _ _ _ _ _ _ _ _ _ _ _) _ _ F).
      + bok F x E. bok F y E'. exact (fill_idem (MDivFree _ _ _ _ _ _ _ _ _ _ _) _ _ F).
      + bok F x E. bok F y E'. exact (fill_idem (MArap _ _ _ _ _ _ _ _ _ _ _) _ _ F).
      + elim (NC ms eq_refl).
    - change (compute_geodesic_control sv b0 (MComp ms) man) with (ms' <- geos sv b0 man ms ;; Ok (MComp ms')) in F.
      bok F ms1 F1. injection F as <-. cbn [controls]. rewrite fill_comp, map_length, Nat.eqb_refl.
      assert (H : fills sv ms1 (map controls ms1) = Ok ms1); [|rewrite H; reflexivity].
      revert ms1 F1. induction IH as [|m ms Hm _ IHs]; intros ms1 F1.
      + injection F1 as <-. reflexivity.
      + cbn [geos] in F1. fold (geos sv b0 man) in F1. bok F1 m1 Em. bok F1 r Er. injection F1 as <-.
        cbn [map fills]. fold (fills sv). rewrite (Hm m1 Em). cbn [bind]. rewrite (IHs r Er). reflexivity.
  Qed.
End Hist.

(** Modules without caches answer at any time. *)
Lemma explicit_ok d m : wf_mod d m -> ~ first_order m ->
  is_ok (cost m) /\ exists f, field_generator m = Ok f /\ fdim f = d.
Proof.
  induction m as [m NC|ms IH] using dmod_ind'; intros W NF.
  - destruct m; cbn [first_order] in NF; try (elim NF; exact I); cbn [wf_mod cost field_generator] in *.
    + split; [eexists; reflexivity|]. eexists. split; [reflexivity|]. cbn [fdim]. unfold tnth. destruct W as (_ & _ & ->). reflexivity.
    + split; [eexists; reflexivity|]. eexists. split; [reflexivity|]. cbn [fdim]. unfold ncols. destruct W as (_ & _ & -> & _). reflexivity.
    + split; [eexists; reflexivity|]. eexists. split; [reflexivity|]. cbn [fdim]. unfold ncols. destruct W as (_ & _ & _ & _ & -> & _). reflexivity.
    + split; [eexists; reflexivity|]. eexists. split; [reflexivity|]. cbn [fdim]. unfold ncols. destruct W as (_ & _ & _ & -> & _). reflexivity.
    + destruct W as (_ & _ & _ & _ & _ & M & s & v & Es & Ev & Ss & Sv). rewrite Es, Ev. cbn [bind]. split; [eexists; reflexivity|].
      eexists. split; [reflexivity|]. cbn [fdim]. unfold ncols. rewrite Ss. reflexivity.
    + split; [eexists; reflexivity|]. eexists. split; [reflexivity|]. cbn [fdim]. destruct W as (SA & _). unfold ncols, nrows, tscal, tmap. cbn [shape]. rewrite SA. reflexivity.
    + split; [eexists; reflexivity|]. eexists. split; [reflexivity|]. cbn [fdim]. destruct W as (W & NE). apply (gdim_wf d man); assumption.
    + elim (NC ms eq_refl).
  - destruct W as (NE & W). cbn [first_order] in NF.
    assert (H : is_ok (costs ms) /\ exists fs, fields ms = Ok fs /\ length fs = length ms /\ Forall (fun f => fdim f = d) fs).
    { clear NE. induction IH as [|m ms Hm _ IHs].
      - split; [eexists; reflexivity|]. exists []. split; [reflexivity|]. split; [reflexivity|constructor].
      - destruct W as (W & Ws). cbn [fold_right] in NF. destruct (Hm W ltac:(tauto)) as ((x & C) & f & F & D).
        destruct (IHs Ws ltac:(tauto)) as ((y & Cs) & fs & Fs & L & Ds). cbn [costs fields]. fold costs. fold fields.
        rewrite C, Cs, F, Fs. cbn [bind]. split; [eexists; reflexivity|]. exists (f :: fs). split; [reflexivity|].
        split; [cbn; congruence|constructor; assumption]. }
    destruct H as (C & fs & Fs & L & Ds). split; [exact C|].
    change (field_generator (MComp ms)) with (fs <- fields ms ;; sum_ctor fs). rewrite Fs. cbn [bind].
    destruct fs as [|f fs]; [destruct ms; [congruence|discriminate]|]. exists (SF_sum (f :: fs)).
    pose proof (Forall_inv Ds) as D. pose proof (Forall_inv_tail Ds) as Ds'. split; [|exact D]. unfold sum_ctor.
    replace (forallb (fun g => Nat.eqb (fdim g) (fdim f)) fs) with true; [reflexivity|].
    symmetry. apply forallb_forall. intros g Hg. rewrite Forall_forall in Ds'. rewrite (Ds' g Hg), D. apply Nat.eqb_refl.
Qed.

(** A freshly built module of order 1 does not answer. *)
Lemma fresh_raises m : fresh m -> first_order m -> ~ is_ok (cost m) /\ ~ is_ok (field_generator m).
Proof.
  induction m as [m NC|ms IH] using dmod_ind'; intros FR FO.
  - destruct m; cbn [first_order fresh] in *; try (destruct FO); subst;
      try (split; intros (x & E); discriminate E). elim (NC ms eq_refl).
  - cbn [first_order fresh] in *.
    assert (H : ~ is_ok (costs ms) /\ ~ is_ok (fields ms)).
    { induction IH as [|m ms Hm _ IHs]; [destruct FO|]. destruct FR as (FR & FRs). cbn [fold_right] in FO.
      cbn [costs fields]. fold costs. fold fields. destruct FO as [FO|FO].
      - destruct (Hm FR FO) as (H & H'). split; intros (x & E).
        + bok E y Ey. apply H. exists y; assumption.
        + bok E y Ey. apply H'. exists y; assumption.
      - destruct (IHs FRs FO) as (H & H'). split; intros (x & E).
        + bok E y Ey. bok E z Ez. apply H. exists z; assumption.
        + bok E y Ey. bok E z Ez. apply H'. exists z; assumption. }
    destruct H as (H & H'). split; [exact H|].
    change (field_generator (MComp ms)) with (fs <- fields ms ;; sum_ctor fs). intros (x & E). bok E y Ey. apply H'. exists y; assumption.
Qed.

(** History versions. *)
Section Hist2.
  Variables (sv : solver) (b0 : backend).

  Lemma run_snoc m ops o : run_ops sv b0 m (ops ++ [o]) = bind (run_ops sv b0 m ops) (fun m' => run_op sv b0 m' o).
  Proof. unfold run_ops. rewrite fold_left_app. reflexivity. Qed.

  Lemma history_explicit m ops1 ops2 m1 m2 : ~ first_order m ->
    run_ops sv b0 m ops1 = Ok m1 -> run_ops sv b0 m ops2 = Ok m2 ->
    mod_manifold m1 = mod_manifold m2 -> controls m1 = controls m2 ->
    cost m1 = cost m2 /\ field_generator m1 = field_generator m2.
  Proof.
    intros NF R1 R2 EM EC.
    pose proof (run_params sv b0 ops1 m m1 R1) as P1. pose proof (run_params sv b0 ops2 m m2 R2) as P2.
    assert (FO : forall a b, params a = params b -> first_order a -> first_order b).
    { clear. induction a as [a NC|ms IH] using dmod_ind'; intros b E F.
      - destruct a; destruct b; try discriminate E; try exact F; try exact I; try (elim (NC ms eq_refl)).
      - destruct b as [| | | | | | | | | |ms']; try discriminate E. cbn [params] in E. injection E as E. cbn [first_order] in *.
        revert ms' E F. induction IH as [|m ms Hm _ IHs]; intros ms' E F; [destruct F|]. destruct ms' as [|m' ms']; [discriminate|].
        cbn [map] in E. injection E as E1 E2. cbn [fold_right] in *. destruct F as [F|F]; [left|right]; eauto. }
    assert (m1 = m2); [|subst; split; reflexivity].
    apply determined; try assumption; [congruence|]. intros H. apply NF. exact (FO m1 m P1 H).
  Qed.

  (** The last thing done is to give controls or to compute geodesic ones. *)
  Lemma history_current m ops o m1 : (forall g, o <> OpManifold g) ->
    run_ops sv b0 m (ops ++ [o]) = Ok m1 -> fill_controls sv m1 (controls m1) = Ok m1.
  Proof.
    rewrite run_snoc. intros NO R1. bok R1 n1 N1. destruct o as [c|g|man]; cbn [run_op] in R1.
    - exact (fill_idem sv n1 c m1 R1).
    - elim (NO g eq_refl).
    - exact (geo_idem sv b0 n1 man m1 R1).
  Qed.
  Lemma history_filled m ops1 ops2 o1 o2 m1 m2 :
    (forall g, o1 <> OpManifold g) -> (forall g, o2 <> OpManifold g) ->
    run_ops sv b0 m (ops1 ++ [o1]) = Ok m1 -> run_ops sv b0 m (ops2 ++ [o2]) = Ok m2 ->
    mod_manifold m1 = mod_manifold m2 -> controls m1 = controls m2 -> m1 = m2.
  Proof.
    intros N1 N2 R1 R2 EM EC.
    pose proof (history_current m ops1 o1 m1 N1 R1) as C1. pose proof (history_current m ops2 o2 m2 N2 R2) as C2.
    pose proof (run_params sv b0 _ _ _ R1) as P1. pose proof (run_params sv b0 _ _ _ R2) as P2.
    rewrite (fill_determined sv m1 m2 (controls m1)), EC in C1 by congruence. congruence.
  Qed.
End Hist2.
