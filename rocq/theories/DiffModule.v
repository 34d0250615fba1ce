(** Differentiable families of deformation modules: geodesic controls, and compounds. *)
From Coq Require Import Reals String List Arith Lia Lra.
From Verif Require Import Py RSum Tensor TensorFacts KernelModel FieldModel GeometryModel ModuleModel
  SpecLinAlg SpecKernel SpecField SpecGeometry SpecSKS SpecModule SpecSmooth LinAlg KernelFacts FieldFacts GeometryFacts SKSFacts
  GaussPSD ModuleDual ModuleAlg ModuleLeaves ModuleImplicit ModuleMain ModuleRegular ModulePosed DiffFacts DiffField DiffLeaf.
Import ListNotations.
Open Scope R_scope.

Lemma finite_choice {A} (x0 : A) n (P : nat -> A -> Prop) : (forall i, (i < n)%nat -> exists x, P i x) ->
  exists f, forall i, (i < n)%nat -> P i (f i).
Proof.
  induction n as [|n IH]; intros H; [exists (fun _ => x0); intros; lia|].
  destruct IH as (f & Hf); [intros; apply H; lia|]. destruct (H n ltac:(lia)) as (x & Hx).
  exists (fun i => if Nat.eqb i n then x else f i). intros i Hi. destruct (Nat.eqb_spec i n) as [->|NE]; [assumption|]. apply Hf. lia.
Qed.

(** A bilinear form is given by its values on the basis. *)
Lemma vb_zero_l n Q g : vb n Q -> Q (fun _ => 0) g = 0.
Proof.
  intros V. pose proof (vb_lin _ _ V 0 0 (fun _ => 0) (fun _ => 0) g) as E.
  rewrite (vb_ext _ _ V (fun _ => 0) (fun k => 0 * 0 + 0 * 0) g g) by (intros; cbn beta; ring || reflexivity). cbn beta in E. lra.
Qed.

Lemma vb_expand_l n Q f g : vb n Q -> Q f g = rsum n (fun i => f i * Q (delta i) g).
Proof.
  intros V.
  assert (H : forall m, (m <= n)%nat -> Q (fun k => if Nat.ltb k m then f k else 0) g = rsum m (fun i => f i * Q (delta i) g)).
  { induction m as [|m IH]; intros Hm.
    - rewrite rsum_0. rewrite (vb_ext _ _ V _ (fun _ => 0) g g) by (intros; reflexivity). apply (vb_zero_l n); assumption.
    - rewrite rsum_S, <- IH by lia.
      rewrite (vb_ext _ _ V _ (fun k => 1 * (if Nat.ltb k m then f k else 0) + f m * delta m k) g g).
      + rewrite (vb_lin _ _ V 1 (f m) (fun k => if Nat.ltb k m then f k else 0) (delta m)). ring.
      + intros k Hk. unfold delta. destruct (Nat.ltb_spec k (S m)), (Nat.ltb_spec k m), (Nat.eqb_spec m k); try lia; subst; ring.
      + reflexivity. }
  rewrite <- H by lia. apply (vb_ext _ _ V); [|reflexivity]. intros k Hk. destruct (Nat.ltb_spec k n); [reflexivity|lia].
Qed.

Lemma vb_expand n Q f : vb n Q -> Q f f = quad n (fun i j => Q (delta i) (delta j)) f.
Proof.
  intros V. rewrite (vb_expand_l n Q f f V). unfold quad. apply rsum_ext. intros i _. rewrite (vb_sym _ _ V (delta i) f), (vb_expand_l n Q f (delta i) V).
  rewrite <- rsum_scal. apply rsum_ext. intros j _. rewrite (vb_sym _ _ V (delta j) (delta i)). ring.
Qed.

Lemma vb_polar n Q f g : vb n Q -> Q f g = 1 / 2 * Q (fun k => f k + g k) (fun k => f k + g k) - 1 / 2 * Q f f - 1 / 2 * Q g g.
Proof.
  intros V.
  assert (E : forall h, Q (fun k => f k + g k) h = Q f h + Q g h).
  { intros h. rewrite (vb_ext _ _ V _ (fun k => 1 * f k + 1 * g k) h h) by (intros; ring || reflexivity). rewrite (vb_lin _ _ V). ring. }
  rewrite E. rewrite (vb_sym _ _ V f (fun k => f k + g k)), (vb_sym _ _ V g (fun k => f k + g k)), !E.
  pose proof (vb_sym _ _ V g f) as S. rewrite S. lra.
Qed.

Section DMo.
  Variables (U : Type) (Lin : (U -> R) -> Prop) (u0 : U).
  Hypothesis lin_zero : Lin (fun _ => 0).
  Hypothesis lin_comb : forall a b L L', Lin L -> Lin L' -> Lin (fun u => a * L u + b * L' u).
  Variables (sv : solver) (b0 : backend) (d : nat).
  Hypothesis HSV : exact_solver sv.
  Notation DD := (D U Lin).
  Notation DTT := (DT U Lin).
  Notation NN := (Near U).
  Notation DLf := (DLeaf U Lin d).

  Ltac dstep :=
    match goal with
    | H : DD ?f |- DD ?f => exact H
    | |- DD (fun u s => ?c) => exact (D_const U Lin lin_zero c)
    | |- DD (fun u s => @?f u s + @?g u s) => apply (D_plus U Lin lin_comb f g)
    | |- DD (fun u s => @?f u s - @?g u s) => apply (D_minus U Lin lin_zero lin_comb f g)
    | |- DD (fun u s => @?f u s * @?g u s) => apply (D_mult U Lin lin_comb f g)
    | |- DD (fun u s => rsum ?n (fun i => @?f u s i)) =>
        apply (D_rsum U Lin lin_zero lin_comb n (fun i u s => f u s i)); cbv beta; intros ? ?
    end.

  (** The shape of the controls. *)
  Lemma leaf_shape M : DLf M -> exists sh, forall u s t, shape t = sh -> ctrl_ok d (M u s) (CLeaf t).
  Proof.
    intros H. destruct H; cbn [ctrl_ok]; try (eexists; intros ? ? ? E; exact E); try (eexists; intros ? ? ? E; left; exact E).
  Qed.

  Lemma leaf_comp_not M u s ms : DLf M -> M u s <> MComp ms.
  Proof. intros H. destruct H; discriminate. Qed.

  Lemma leaf_vb m : (forall ms, m <> MComp ms) -> wf_mod d m -> (exists c m1, ctrl_ok d m c /\ fill_controls sv m c = Ok m1) ->
    exists n Q, vb n Q /\ (forall t, ctrl_ok d m (CLeaf t) -> prod (shape t) = n) /\ leaf sv b0 d m (Qc Q).
  Proof.
    intros NC W HX. destruct m as [dim co h|b sg dim nb gd ct h|b sg nu co dim nb gd ct h|sg co tr dim nb gd0 gd1 c0 c1 h|
       sg co fs fv dim nb gd ct h|A co gd ct h|man|b sg nu co C dim nb gd0 gd1 c0 c1 h ca|
       sg cd nu co dim n0 n1 gd ct h l|sg ca nu co dim n0 n1 gd ct h l|ms].
    - pose proof W as (E & Hco & _). exists d, (Q_global d co). split; [apply vb_mul; [lra|apply vb_dot]|]. split.
      + intros t Hc. cbn in Hc. rewrite Hc. cbn. lia.
      + apply leaf_global. assumption.
    - pose proof W as (-> & Hs & Sg & Sc). exists (nb * d)%nat, (Q_cols nb d (kmat d sg gd)).
      split; [apply vb_cols; [apply kmat_sym|apply kmat_psd; assumption]|]. split.
      + intros t Hc. cbn in Hc. rewrite Hc. cbn. lia.
      + apply leaf_trans; assumption.
    - pose proof W as (-> & Hs & Hn & Hco & Sg & Sc). exists (nb * d)%nat. eexists. split; [|split; [|apply leaf_imp0; assumption]].
      + apply vb_mul; [lra|]. apply vb_cols; [apply symmetric_diag; apply kmat_sym|apply psd_diag; [assumption|apply kmat_psd; assumption]].
      + intros t Hc. cbn in Hc. rewrite Hc. cbn. lia.
    - pose proof W as (-> & Hs & Hco & Sg & Sc). exists nb. eexists. split; [|split; [|apply leaf_oriented; assumption]].
      + apply vb_mul; [lra|]. apply vb_bil; [apply omat_sym|apply omat_psd; assumption].
      + intros t Hc. cbn in Hc. rewrite Hc. cbn. lia.
    - destruct (leaf_local sv b0 d sg co fs fv dim nb gd ct h W) as (Q & V & L). exists 1%nat, Q. split; [assumption|]. split; [|assumption].
      intros t Hc. cbn in Hc. destruct Hc as [Hc|Hc]; rewrite Hc; reflexivity.
    - pose proof W as (_ & Hco & _). exists 1%nat. eexists. split; [|split; [|apply leaf_linear; assumption]].
      + apply vb_scalar; [lia|lra].
      + intros t Hc. cbn in Hc. rewrite Hc. reflexivity.
    - exists 0%nat. eexists. split; [|split; [|apply leaf_silent; assumption]].
      + apply vb_zero.
      + intros t Hc. cbn in Hc. rewrite Hc. reflexivity.
    - destruct (imp1_leaf sv b0 d b sg nu co C dim nb gd0 gd1 c0 c1 h ca HSV W HX) as (Q & V & L). do 2 eexists. split; [exact V|]. split; [|exact L].
      intros t Hc. cbn [ctrl_ok] in Hc. rewrite Hc. cbn. lia.
    - destruct (div_leaf sv b0 d sg cd nu co dim n0 n1 gd ct h l HSV W HX) as (Q & V & L). do 2 eexists. split; [exact V|]. split; [|exact L].
      intros t Hc. cbn [ctrl_ok] in Hc. destruct Hc as [Hc|Hc]; rewrite Hc; cbn; lia.
    - destruct (arap_leaf sv b0 d sg ca nu co dim n0 n1 gd ct h l HSV W HX) as (Q & V & L). do 2 eexists. split; [exact V|]. split; [|exact L].
      intros t Hc. cbn [ctrl_ok] in Hc. destruct Hc as [Hc|Hc]; rewrite Hc; cbn; lia.
    - elim (NC ms eq_refl).
  Qed.

  Lemma leaf_first M u s u' s' : DLf M -> first_order (M u s) -> first_order (M u' s').
  Proof. intros H. destruct H; exact (fun x => x). Qed.

  Lemma dir_same G u s u' s' : DM U Lin d G -> has_dir (G u s) -> has_dir (G u' s').
  Proof.
    intros HG. revert G HG. apply (DM_rec' U Lin d (fun G _ => has_dir (G u s) -> has_dir (G u' s'))
      (fun Gs _ => fold_right (fun m acc => has_dir m \/ acc) False (Gs u s) -> fold_right (fun m acc => has_dir m \/ acc) False (Gs u' s')));
      intros; cbn [has_dir fold_right] in *; tauto.
  Qed.

  Definition DB (M : U -> R -> dmod) : Prop :=
    forall G, DM U Lin d G -> (forall u s, no_empty_comp (G u s)) -> (forall u s, first_order (M u s) -> ~ has_dir (G u s)) ->
      exists cf, DD cf /\ NN (fun u s => exists m', compute_geodesic_control sv b0 (M u s) (G u s) = Ok m' /\ cost m' = Ok (cf u s)).

  Lemma leaf_DB M : DLf M -> (forall u, wf_mod d (M u 0)) -> (forall u, posed d (M u 0)) -> DB M.
  Proof.
    intros HM HW HR G HG NE HF.
    pose proof (near_wf_leaf U Lin d M HM HW) as NW.
    pose proof (near_posed_leaf U Lin u0 lin_zero lin_comb d M HM HW HR) as NR.
    pose proof (leaf_DA U Lin u0 lin_zero lin_comb sv d HSV M HM HW (fun u => posed_solvable d _ (HR u))) as HA.
    destruct (leaf_shape M HM) as (sh & Hsh). set (n := prod sh).
    set (tf := fun f : nat -> R => reshape sh (mk1 n f)).
    assert (Ftf : forall f k, (k < n)%nat -> fvec (tf f) k = f k).
    { intros f k Hk. unfold tf. rewrite fvec_reshape_lt by assumption. apply (fvec_1 (mk1 n f) n); [reflexivity|assumption]. }
    assert (Ctf : forall u s f, ctrl_ok d (M u s) (CLeaf (tf f))) by (intros; apply Hsh; reflexivity).
    set (T := ((U -> R -> R) * (U -> R -> R))%type).
    set (PA := fun (f : nat -> R) (cp : T) => DD (fst cp) /\ DD (snd cp) /\
        NN (fun u s => exists m1 F, fill_controls sv (M u s) (CLeaf (tf f)) = Ok m1 /\ cost m1 = Ok (fst cp u s) /\ field_generator m1 = Ok F /\
          pairing d (G u s) (fval d F) (fjac d F) = snd cp u s)).
    assert (HAf : forall f, exists cp, PA f cp).
    { intros f. destruct (HA G (CLeaf (tf f)) HG (fun u s => Ctf u s f)) as (cf & pf & H1 & H2 & H3). exists (cf, pf).
      split; [assumption|]. split; [assumption|]. eapply near_imp; [|exact H3]. cbn beta. intros u s (m1 & F & A1 & A2 & A3 & _ & A5). exists m1, F. auto. }
    set (z := ((fun _ _ => 0), (fun _ _ => 0)) : T).
    destruct (finite_choice z n (fun i cp => PA (delta i) cp) (fun i _ => HAf (delta i))) as (cp & Hcp).
    destruct (finite_choice (fun _ => z) n (fun i (g : nat -> T) => forall j, (j < n)%nat -> PA (fun k => delta i k + delta j k) (g j))
      (fun i _ => finite_choice z n (fun j cp => PA (fun k => delta i k + delta j k) cp) (fun j _ => HAf (fun k => delta i k + delta j k)))) as (cq & Hcq).
    cbn beta in Hcp, Hcq.
    set (Mm := fun i j u s => fst (cq i j) u s - fst (cp i) u s - fst (cp j) u s).
    set (x := fun j u s => match compute_geodesic_control sv b0 (M u s) (G u s) with
                | Ok m' => match controls m' with CLeaf t => fvec t j | _ => 0 end | Err _ => 0 end).
    (* What holds nearby *)
    assert (N : NN (fun u s => exists m' Q, compute_geodesic_control sv b0 (M u s) (G u s) = Ok m' /\ vb n Q /\
       cost m' = Ok (1 / 2 * Q (fun j => x j u s) (fun j => x j u s)) /\
       (forall i j, (i < n)%nat -> (j < n)%nat -> Mm i j u s = Q (delta i) (delta j)) /\
       (forall i, (i < n)%nat -> snd (cp i) u s = Q (delta i) (fun j => x j u s)) /\
       forall f, Q f f = 0 -> forall k, (k < n)%nat -> f k = 0)).
    { assert (N1 : NN (fun u s => forall i, (i < n)%nat -> exists m1 F, fill_controls sv (M u s) (CLeaf (tf (delta i))) = Ok m1 /\ cost m1 = Ok (fst (cp i) u s) /\
         field_generator m1 = Ok F /\ pairing d (G u s) (fval d F) (fjac d F) = snd (cp i) u s)) by (apply near_lt; intros i Hi; apply (Hcp i Hi)).
      assert (N2 : NN (fun u s => forall i, (i < n)%nat -> forall j, (j < n)%nat -> exists m1, fill_controls sv (M u s) (CLeaf (tf (fun k => delta i k + delta j k))) = Ok m1 /\
         cost m1 = Ok (fst (cq i j) u s))).
      { apply (near_lt U n (fun i u s => forall j, (j < n)%nat -> exists m1, fill_controls sv (M u s) (CLeaf (tf (fun k => delta i k + delta j k))) = Ok m1 /\ cost m1 = Ok (fst (cq i j) u s))).
        intros i Hi. apply near_lt. intros j Hj. destruct (Hcq i Hi j Hj) as (_ & _ & X). eapply near_imp; [|exact X]. cbn beta.
        intros u s (m1 & F & A1 & A2 & _). exists m1. auto. }
      eapply near_imp; [|exact (near_and U _ _ NW (near_and U _ _ NR (near_and U _ _ N1 N2)))]. cbn beta. intros u s (W & Rg & H1 & H2).
      pose proof (DM_wf U Lin d G HG u s) as WG.
      destruct (geo_posed sv b0 d HSV (M u s) (G u s) W Rg WG (NE u s) (HF u s)) as (m' & Em).
      destruct (fill_posed sv d HSV (M u s) (CLeaf (tf (delta 0))) W (posed_solvable d _ Rg) (Ctf u s _)) as (m0 & E0).
      destruct (leaf_vb (M u s) (fun ms => leaf_comp_not M u s ms HM) W (ex_intro _ _ (ex_intro _ m0 (conj (Ctf u s _) E0)))) as (n' & Q & V & Hn & L).
      assert (n' = n) as -> by (rewrite <- (Hn (tf (delta 0)) (Ctf u s _)); reflexivity).
      destruct L as [P DU GE]. destruct (GE (G u s) m' WG (NE u s) Em) as (OK & FI).
      destruct (controls m') as [t|l] eqn:Ec; [|elim (leaf_no_list U Lin d M u s l HM OK)].
      assert (Ex : forall j, x j u s = fvec t j) by (intros; unfold x; rewrite Em, Ec; reflexivity).
      assert (QT : forall f g, Q (fvec (tf f)) (fvec (tf g)) = Q f g) by (intros; apply (vb_ext _ _ V); intros; apply Ftf; assumption).
      exists m', Q. split; [assumption|]. split; [assumption|]. split; [|split; [|split]].
      - destruct (pk_fill _ _ _ _ P (CLeaf t) OK) as (m1 & F & E1 & C1 & _). rewrite FI in E1. injection E1 as <-. rewrite C1. do 2 f_equal.
        cbn [Qc]. apply (vb_ext _ _ V); intros; rewrite Ex; reflexivity.
      - intros i j Hi Hj. unfold Mm.
        destruct (H2 i Hi j Hj) as (m1 & E1 & C1). destruct (pk_fill _ _ _ _ P _ (Ctf u s (fun k => delta i k + delta j k))) as (m1' & F & E1' & C1' & _).
        rewrite E1 in E1'. injection E1' as <-. rewrite C1 in C1'. injection C1' as ->. cbn [Qc]. rewrite QT.
        destruct (H1 i Hi) as (m2 & F2 & E2 & C2 & _). destruct (pk_fill _ _ _ _ P _ (Ctf u s (delta i))) as (m2' & F2' & E2' & C2' & _).
        rewrite E2 in E2'. injection E2' as <-. rewrite C2 in C2'. injection C2' as ->. cbn [Qc]. rewrite QT.
        destruct (H1 j Hj) as (m3 & F3 & E3 & C3 & _). destruct (pk_fill _ _ _ _ P _ (Ctf u s (delta j))) as (m3' & F3' & E3' & C3' & _).
        rewrite E3 in E3'. injection E3' as <-. rewrite C3 in C3'. injection C3' as ->. cbn [Qc]. rewrite QT.
        rewrite (vb_polar n Q (delta i) (delta j) V). lra.
      - intros i Hi. destruct (H1 i Hi) as (m2 & F2 & E2 & C2 & FG & PF). rewrite <- PF.
        rewrite (DU (G u s) m' WG (NE u s) Em _ m2 F2 (Ctf u s (delta i)) E2 FG). rewrite Ec. cbn [Qc].
        apply (vb_ext _ _ V); intros; [apply Ftf; assumption|rewrite Ex; reflexivity].
      - intros f Z k Hk. destruct (pk_fill _ _ _ _ P _ (Ctf u s f)) as (m1 & F & E1 & C1 & _). cbn [Qc] in C1. rewrite QT, Z in C1.
        rewrite Rmult_0_r in C1. pose proof (definite_posed sv b0 d HSV (M u s) _ m1 W Rg (Ctf u s f) E1 C1) as CN. cbn [cnull] in CN.
        rewrite <- (Ftf f k Hk). apply fvec_null; [exact CN|]. exact Hk. }
    assert (DM1 : forall i j, (i < n)%nat -> (j < n)%nat -> DD (Mm i j)).
    { intros i j Hi Hj. unfold Mm. destruct (Hcq i Hi j Hj) as (X & _). destruct (Hcp i Hi) as (Y & _). destruct (Hcp j Hj) as (Z & _). repeat dstep; assumption. }
    assert (DPf : forall i, (i < n)%nat -> DD (snd (cp i))) by (intros i Hi; apply (Hcp i Hi)).
    assert (PD0 : forall u, pd n (fun i j => Mm i j u 0)).
    { intros u f (k & Hk & Hf). destruct (near_0 U _ u N) as (m' & Q & _ & V & _ & HMm & _ & DEF).
      rewrite (quad_ext n _ (fun i j => Q (delta i) (delta j)) f f) by auto. rewrite <- (vb_expand n Q f V).
      destruct (vb_psd _ _ V f) as [Pz|Z]; [assumption|]. elim Hf. apply (DEF f); auto. }
    assert (DX : forall j, (j < n)%nat -> DD (x j)).
    { apply (D_solve U Lin lin_zero lin_comb n Mm (fun i => snd (cp i)) x DM1 DPf PD0).
      eapply near_imp; [|exact N]. cbn beta. intros u s (m' & Q & _ & V & _ & HMm & HP & _) i Hi. rewrite HP by assumption.
      rewrite (vb_sym _ _ V), (vb_expand_l n Q _ _ V). apply rsum_ext. intros j Hj. rewrite HMm, (vb_sym _ _ V (delta j)) by assumption. ring. }
    exists (fun u s => 1 / 2 * rsum n (fun i => x i u s * snd (cp i) u s)). split.
    - repeat dstep; [apply DX|apply DPf]; assumption.
    - eapply near_imp; [|exact N]. cbn beta. intros u s (m' & Q & Em & V & Cm & _ & HP & _). exists m'. split; [assumption|]. rewrite Cm. do 2 f_equal.
      rewrite (vb_expand_l n Q _ _ V). apply rsum_ext. intros i Hi. rewrite HP by assumption. reflexivity.
  Qed.

  (** ** Compounds *)
  Inductive DMod : (U -> R -> dmod) -> Prop :=
  | DMod_leaf M : DLf M -> DMod M
  | DMod_comp Ms : DMods Ms -> DMod (fun u s => MComp (Ms u s))
  with DMods : (U -> R -> list dmod) -> Prop :=
  | DMods_nil : DMods (fun _ _ => [])
  | DMods_cons M Ms : DMod M -> DMods Ms -> DMods (fun u s => M u s :: Ms u s).
  Scheme DMod_rec' := Induction for DMod Sort Prop with DMods_rec' := Induction for DMods Sort Prop.

  Definition all (P : dmod -> Prop) (ms : list dmod) : Prop := fold_right (fun m acc => P m /\ acc) True ms.

  Lemma near_wf M : DMod M -> (forall u, wf_mod d (M u 0)) -> NN (fun u s => wf_mod d (M u s)).
  Proof.
    intros HM. revert M HM. apply (DMod_rec' (fun M _ => (forall u, wf_mod d (M u 0)) -> NN (fun u s => wf_mod d (M u s)))
      (fun Ms _ => (forall u s, Ms u 0 <> [] -> Ms u s <> []) /\ ((forall u, all (wf_mod d) (Ms u 0)) -> NN (fun u s => all (wf_mod d) (Ms u s))))).
    - intros M HM. apply (near_wf_leaf U Lin). assumption.
    - intros Ms HMs (I1 & I2) H. cbn [wf_mod] in *. eapply near_imp; [|exact (I2 (fun u => proj2 (H u)))]. cbn beta. intros u s X. split; [|exact X].
      apply I1. apply H.
    - split; [intros u s X; exact X|]. intros _. apply near_all. intros. exact I.
    - intros M Ms HM I HMs (_ & Is). split; [intros; discriminate|]. intros H. cbn [all fold_right] in *.
      apply near_and; [apply I; intros u; apply H|apply Is; intros u; apply H].
  Qed.

  Definition DAs (Ms : U -> R -> list dmod) : Prop :=
    forall G cs, DM U Lin d G -> (forall u s, ctrls_ok d (Ms u s) cs) ->
      exists cf pf, DD cf /\ DD pf /\
        NN (fun u s => exists ms1 fs, fills sv (Ms u s) cs = Ok ms1 /\ costs ms1 = Ok (cf u s) /\ fields ms1 = Ok fs /\
          length fs = length (Ms u s) /\ Forall (good d) fs /\
          pairing d (G u s) (fun p a => fold_right (fun g acc => fval d g p a + acc) 0 fs)
                    (fun p a l => fold_right (fun g acc => fjac d g p a l + acc) 0 fs) = pf u s).

  Lemma mod_DA M : DMod M -> (forall u, wf_mod d (M u 0)) -> (forall u, solvable d (M u 0)) -> DA U Lin sv d M.
  Proof.
    intros HM. revert M HM. apply (DMod_rec' (fun M _ => (forall u, wf_mod d (M u 0)) -> (forall u, solvable d (M u 0)) -> DA U Lin sv d M)
      (fun Ms _ => (forall u s, Ms u 0 <> [] -> Ms u s <> []) /\ ((forall u, all (wf_mod d) (Ms u 0)) -> (forall u, all (solvable d) (Ms u 0)) -> DAs Ms))).
    - intros M HM HW HR. apply (leaf_DA U Lin u0 lin_zero lin_comb sv d HSV); assumption.
    - intros Ms HMs (I1 & I2) HW HR G c HG Hc. cbn [wf_mod solvable] in *.
      destruct c as [t|cs]; [elim (Hc u0 0)|]. assert (Hcs : forall u s, ctrls_ok d (Ms u s) cs) by exact Hc.
      destruct (I2 (fun u => proj2 (HW u)) HR G cs HG Hcs) as (cf & pf & D1 & D2 & N). exists cf, pf. split; [assumption|]. split; [assumption|].
      eapply near_imp; [|exact N]. cbn beta. intros u s (ms1 & fs & F & C & FG & LF & GD & PF).
      assert (NF : fs <> []).
      { pose proof (I1 u s (proj1 (HW u))) as X. intros E. rewrite E in LF. destruct (Ms u s); [apply X; reflexivity|discriminate]. }
      destruct (good_sum d fs NF GD) as (SC & GS). exists (MComp ms1), (SF_sum fs).
      rewrite fill_comp, (ctrls_ok_length d _ cs (Hcs u s)), Nat.eqb_refl, F. split; [reflexivity|]. split; [exact C|]. split.
      { change (field_generator (MComp ms1)) with (fs <- fields ms1 ;; sum_ctor fs). rewrite FG. exact SC. }
      split; [assumption|]. exact PF.
    - split; [intros u s X; exact X|]. intros _ _ G cs HG Hc. specialize (Hc u0 0). destruct cs; [|destruct Hc].
      exists (fun _ _ => 0), (fun _ _ => 0). split; [dstep|]. split; [dstep|]. apply near_all. intros u s. exists [], [].
      repeat (split; [reflexivity|]). split; [constructor|]. cbn [fold_right]. apply pairing_zero; reflexivity.
    - intros M Ms HM I HMs (_ & Is). split; [intros; discriminate|]. intros HW HR G cs HG Hc. cbn [all fold_right] in *.
      destruct cs as [|c cs]; [elim (Hc u0 0)|].
      destruct (I (fun u => proj1 (HW u)) (fun u => proj1 (HR u)) G c HG (fun u s => proj1 (Hc u s))) as (cf & pf & D1 & D2 & N1).
      destruct (Is (fun u => proj2 (HW u)) (fun u => proj2 (HR u)) G cs HG (fun u s => proj2 (Hc u s))) as (cf' & pf' & D1' & D2' & N2).
      exists (fun u s => cf u s + cf' u s), (fun u s => pf u s + pf' u s). split; [repeat dstep|]. split; [repeat dstep|].
      eapply near_imp; [|exact (near_and U _ _ N1 N2)]. cbn beta. intros u s ((m1 & f & F & C & FG & GD & PF) & ms1 & fs & F' & C' & FG' & LF & GD' & PF').
      exists (m1 :: ms1), (f :: fs). cbn [fills costs fields]. fold (fills sv) costs fields. rewrite F. cbn [bind]. rewrite F'. cbn [bind].
      split; [reflexivity|]. rewrite C. cbn [bind]. rewrite C'. split; [reflexivity|]. rewrite FG. cbn [bind]. rewrite FG'. split; [reflexivity|].
      split; [cbn; congruence|]. split; [constructor; assumption|]. rewrite <- PF, <- PF', <- pairing_plus. apply pairing_ext; intros; reflexivity.
  Qed.

  Lemma mod_DB M : DMod M -> (forall u, wf_mod d (M u 0)) -> (forall u, posed d (M u 0)) -> DB M.
  Proof.
    intros HM. revert M HM. apply (DMod_rec' (fun M _ => (forall u, wf_mod d (M u 0)) -> (forall u, posed d (M u 0)) -> DB M)
      (fun Ms _ => (forall u, all (wf_mod d) (Ms u 0)) -> (forall u, all (posed d) (Ms u 0)) ->
         forall G, DM U Lin d G -> (forall u s, no_empty_comp (G u s)) ->
           (forall u s, fold_right (fun m acc => first_order m \/ acc) False (Ms u s) -> ~ has_dir (G u s)) ->
           exists cf, DD cf /\ NN (fun u s => exists ms', geos sv b0 (G u s) (Ms u s) = Ok ms' /\ costs ms' = Ok (cf u s)))).
    - intros M HM HW HR. apply leaf_DB; assumption.
    - intros Ms HMs I HW HR G HG NE HF. cbn [wf_mod posed first_order] in *.
      destruct (I (fun u => proj2 (HW u)) HR G HG NE HF) as (cf & D1 & N). exists cf. split; [assumption|].
      eapply near_imp; [|exact N]. cbn beta. intros u s (ms' & F & C). exists (MComp ms').
      change (compute_geodesic_control sv b0 (MComp (Ms u s)) (G u s)) with (ms' <- geos sv b0 (G u s) (Ms u s) ;; Ok (MComp ms')). rewrite F. split; [reflexivity|exact C].
    - intros _ _ G HG NE HF. exists (fun _ _ => 0). split; [dstep|]. apply near_all. intros. exists []. split; reflexivity.
    - intros M Ms HM I HMs Is HW HR G HG NE HF. cbn [all fold_right] in *.
      destruct (I (fun u => proj1 (HW u)) (fun u => proj1 (HR u)) G HG NE (fun u s H => HF u s (or_introl H))) as (cf & D1 & N1).
      destruct (Is (fun u => proj2 (HW u)) (fun u => proj2 (HR u)) G HG NE (fun u s H => HF u s (or_intror H))) as (cf' & D1' & N2).
      exists (fun u s => cf u s + cf' u s). split; [repeat dstep|].
      eapply near_imp; [|exact (near_and U _ _ N1 N2)]. cbn beta. intros u s ((m1 & F & C) & ms1 & F' & C').
      exists (m1 :: ms1). cbn [geos costs]. fold (geos sv b0 (G u s)) costs. rewrite F. cbn [bind]. rewrite F'. split; [reflexivity|].
      rewrite C. cbn [bind]. rewrite C'. reflexivity.
  Qed.
End DMo.
