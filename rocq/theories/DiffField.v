(** Differentiable families of points, tensors, vector fields and manifolds. *)
From Coq Require Import Reals String List Arith Lia Lra.
From Verif Require Import Py RSum Tensor TensorFacts KernelModel FieldModel GeometryModel ModuleModel
  SpecLinAlg SpecKernel SpecField SpecGeometry SpecSKS SpecModule LinAlg KernelFacts FieldFacts GeometryFacts SKSFacts
  GaussPSD ModuleDual ModuleAlg ModuleLeaves ModuleImplicit ModuleMain ModuleRegular DiffFacts.
Import ListNotations.
Open Scope R_scope.

Section DF.
  Variables (U : Type) (Lin : (U -> R) -> Prop).
  Hypothesis lin_zero : Lin (fun _ => 0).
  Hypothesis lin_comb : forall a b L L', Lin L -> Lin L' -> Lin (fun u => a * L u + b * L' u).
  Notation DD := (D U Lin).

  Ltac dstep :=
    match goal with
    | H : DD ?f |- DD ?f => exact H
    | |- DD (fun u s => ?c) => exact (D_const U Lin lin_zero c)
    | |- DD (fun u s => @?f u s + @?g u s) => apply (D_plus U Lin lin_comb f g)
    | |- DD (fun u s => @?f u s - @?g u s) => apply (D_minus U Lin lin_zero lin_comb f g)
    | |- DD (fun u s => @?f u s * @?g u s) => apply (D_mult U Lin lin_comb f g)
    | |- DD (fun u s => - @?f u s) => apply (D_opp U Lin lin_zero lin_comb f)
    | |- DD (fun u s => @?f u s / ?c) => apply (D_divc U Lin lin_zero lin_comb f c)
    | |- DD (fun u s => @?f u s ^ ?n) => apply (D_pow U Lin lin_zero lin_comb f n)
    | |- DD (fun u s => exp (@?f u s)) => apply (D_exp U Lin lin_zero lin_comb f)
    | |- DD (fun u s => rsum ?n (fun i => @?f u s i)) =>
        apply (D_rsum U Lin lin_zero lin_comb n (fun i u s => f u s i)); cbv beta; intros ? ?
    end.

  Definition DV (d : nat) (x : U -> R -> nat -> R) : Prop := forall c, (c < d)%nat -> DD (fun u s => x u s c).
  Definition DT (sh : list nat) (T : U -> R -> tensor) : Prop :=
    (forall u s, shape (T u s) = sh) /\ forall idx, valid sh idx -> DD (fun u s => get (T u s) idx).

  Lemma DT_const t : DT (shape t) (fun _ _ => t).
  Proof. split; [reflexivity|]. intros. exact (D_const U Lin lin_zero (get t idx)). Qed.
  Lemma DT1 n T i : DT [n] T -> (i < n)%nat -> DD (fun u s => (T u s) @1 i).
  Proof. intros (_ & H) Hi. apply (H [i]). cbn. auto. Qed.
  Lemma DT2 n m T i j : DT [n; m] T -> (i < n)%nat -> (j < m)%nat -> DD (fun u s => (T u s) @2 i j).
  Proof. intros (_ & H) Hi Hj. apply (H [i; j]). cbn. auto. Qed.
  Lemma DT3 n m p T i j k : DT [n; m; p] T -> (i < n)%nat -> (j < m)%nat -> (k < p)%nat -> DD (fun u s => (T u s) @3 i j k).
  Proof. intros (_ & H) Hi Hj Hk. apply (H [i; j; k]). cbn. auto. Qed.
  Lemma DT_row n d T i : DT [n; d] T -> (i < n)%nat -> DV d (fun u s => vrow (T u s) i).
  Proof. intros H Hi c Hc. exact (DT2 n d T i c H Hi Hc). Qed.
  Lemma DT_nrows n r T u s : DT (n :: r) T -> nrows (T u s) = n.
  Proof. intros (H & _). unfold nrows. rewrite H. reflexivity. Qed.

  Lemma DV_sub d x y : DV d x -> DV d y -> DV d (fun u s => vsub (x u s) (y u s)).
  Proof. intros Hx Hy c Hc. unfold vsub. apply (D_minus U Lin lin_zero lin_comb (fun u s => x u s c) (fun u s => y u s c)); auto. Qed.

  Lemma D_gaussian d sg z : DV d z -> DD (fun u s => gaussian d sg (z u s)).
  Proof. intros H. unfold gaussian, sqn. repeat dstep. apply H. assumption. Qed.
  Lemma D_dgauss d sg z l : DV d z -> (l < d)%nat -> DD (fun u s => dgauss d sg (z u s) l).
  Proof. intros H Hl. unfold dgauss. repeat dstep; [apply H; assumption|apply D_gaussian; assumption]. Qed.
  Lemma D_d2gauss d sg z l l' : DV d z -> (l < d)%nat -> (l' < d)%nat -> DD (fun u s => d2gauss d sg (z u s) l l').
  Proof. intros H Hl Hl'. unfold d2gauss. repeat dstep; try (apply H; assumption). apply D_gaussian; assumption. Qed.

  (** ** Fields *)
  Definition DFld (d : nat) (F : U -> R -> sfield) : Prop :=
    forall x, DV d x ->
      (forall a, (a < d)%nat -> DD (fun u s => fval d (F u s) (x u s) a)) /\
      (forall a l, (a < d)%nat -> (l < d)%nat -> DD (fun u s => fjac d (F u s) (x u s) a l)).

  Lemma rsum_nrows n r T (f : U -> R -> nat -> R) : DT (n :: r) T ->
    DD (fun u s => rsum n (f u s)) -> DD (fun u s => rsum (nrows (T u s)) (f u s)).
  Proof. intros H HD. apply (D_ext U Lin (fun u s => rsum n (f u s))); [|assumption]. intros u s. rewrite (DT_nrows n r T u s H). reflexivity. Qed.

  Lemma DFld_0 d b M T m sg : DT [M; d] T -> DT [M; d] m -> DFld d (fun u s => SF_0 b (T u s) (m u s) sg).
  Proof.
    intros HT Hm x Hx. split.
    - intros a Ha. cbn [fval].
      apply (rsum_nrows M [d] T (fun u s j => gaussian d sg (vsub (x u s) (vrow (T u s) j)) * (m u s) @2 j a) HT). repeat dstep.
      + apply D_gaussian. apply DV_sub; [assumption|]. apply (DT_row M d T i HT). assumption.
      + apply (DT2 M d m i a Hm); assumption.
    - intros a l Ha Hl. cbn [fjac].
      apply (rsum_nrows M [d] T (fun u s j => dgauss d sg (vsub (x u s) (vrow (T u s) j)) l * (m u s) @2 j a) HT). repeat dstep.
      + apply D_dgauss; [|assumption]. apply DV_sub; [assumption|]. apply (DT_row M d T i HT). assumption.
      + apply (DT2 M d m i a Hm); assumption.
  Qed.

  Lemma DFld_p d b M T m sg : DT [M; d] T -> DT [M; d; d] m -> DFld d (fun u s => SF_p b (T u s) (m u s) sg).
  Proof.
    intros HT Hm x Hx. split.
    - intros a Ha. cbn [fval]. unfold symP.
      apply (rsum_nrows M [d] T (fun u s j => rsum d (fun c => ((m u s) @3 j a c + (m u s) @3 j c a) / 2 * - dgauss d sg (vsub (x u s) (vrow (T u s) j)) c)) HT).
      repeat dstep; try (apply (DT3 M d d m); assumption).
      apply D_dgauss; [|assumption]. apply DV_sub; [assumption|]. apply (DT_row M d T i HT). assumption.
    - intros a l Ha Hl. cbn [fjac]. unfold symP.
      apply (rsum_nrows M [d] T (fun u s j => rsum d (fun c => ((m u s) @3 j a c + (m u s) @3 j c a) / 2 * - d2gauss d sg (vsub (x u s) (vrow (T u s) j)) c l)) HT).
      repeat dstep; try (apply (DT3 M d d m); assumption).
      apply D_d2gauss; [|assumption|assumption]. apply DV_sub; [assumption|]. apply (DT_row M d T i HT). assumption.
  Qed.

  Lemma DFld_affine d A x0 v : DT [d; d] A -> DT [d] x0 -> DT [d] v -> DFld d (fun u s => SF_affine (A u s) (x0 u s) (v u s)).
  Proof.
    intros HA H0 Hv x Hx. split.
    - intros a Ha. cbn [fval]. repeat dstep; [apply (DT2 d d A); assumption|apply Hx; assumption|apply (DT1 d x0); assumption|apply (DT1 d v); assumption].
    - intros a l Ha Hl. cbn [fjac]. apply (DT2 d d A); assumption.
  Qed.

  Lemma DFld_const d m : DT [d] m -> DFld d (fun u s => SF_const (m u s)).
  Proof. intros Hm x Hx. split; intros; cbn [fval fjac]; [apply (DT1 d m); assumption|dstep]. Qed.

  Lemma DFld_null d n : DFld d (fun u s => SF_null n).
  Proof. intros x Hx. split; intros; cbn [fval fjac]; dstep. Qed.

  Lemma DFld_sum2 d F G : DFld d F -> DFld d G -> DFld d (fun u s => SF_sum [F u s; G u s]).
  Proof.
    intros HF HG x Hx. destruct (HF x Hx) as (F0 & F1). destruct (HG x Hx) as (G0 & G1).
    split; intros; cbn [fval fjac fold_right]; repeat dstep; auto.
  Qed.

  (** ** Manifolds *)
  Inductive DM (d : nat) : (U -> R -> gman) -> Prop :=
  | DM_lm nb gd ct : DT [nb; d] gd -> DT [nb; d] ct -> DM d (fun u s => GLm d nb (gd u s) (ct u s))
  | DM_dir tr nb gd0 gd1 c0 c1 : DT [nb; d] gd0 -> DT [nb; d] gd1 -> DT [nb; d] c0 -> DT [nb; d] c1 ->
      DM d (fun u s => GDir tr d nb (gd0 u s) (gd1 u s) (c0 u s) (c1 u s))
  | DM_frame nb gd0 gd1 c0 c1 : DT [nb; d] gd0 -> DT [nb; d; d] gd1 -> DT [nb; d] c0 -> DT [nb; d; d] c1 ->
      DM d (fun u s => GFrame d nb (gd0 u s) (gd1 u s) (c0 u s) (c1 u s))
  | DM_empty : DM d (fun _ _ => GEmpty d)
  | DM_comp Gs : DMs d Gs -> DM d (fun u s => GComp (Gs u s))
  with DMs (d : nat) : (U -> R -> list gman) -> Prop :=
  | DMs_nil : DMs d (fun _ _ => [])
  | DMs_cons G Gs : DM d G -> DMs d Gs -> DMs d (fun u s => G u s :: Gs u s).
  Scheme DM_rec' := Induction for DM Sort Prop with DMs_rec' := Induction for DMs Sort Prop.

  Lemma D_pairing d F G : DFld d F -> DM d G -> DD (fun u s => pairing d (G u s) (fval d (F u s)) (fjac d (F u s))).
  Proof.
    intros HF HG.
    assert (HP : forall nb gd c, DT [nb; d] gd -> DT [nb; d] c ->
      DD (fun u s => rsum nb (fun n => rsum d (fun a => (c u s) @2 n a * fval d (F u s) (vrow (gd u s) n) a)))).
    { intros nb gd c Hg Hc. repeat dstep; [apply (DT2 nb d c); assumption|].
      apply (HF _ (DT_row nb d gd i Hg H)). assumption. }
    revert G HG. apply (DM_rec' d (fun G _ => DD (fun u s => pairing d (G u s) (fval d (F u s)) (fjac d (F u s))))
      (fun Gs _ => DD (fun u s => fold_right (fun m acc => pairing d m (fval d (F u s)) (fjac d (F u s)) + acc) 0 (Gs u s)))).
    - intros. cbn [pairing]. apply HP; assumption.
    - intros. cbn [pairing]. destruct tr.
      + apply (D_plus U Lin lin_comb (fun u s => rsum nb (fun n => rsum d (fun a => (c0 u s) @2 n a * fval d (F u s) (vrow (gd0 u s) n) a))));
          [apply HP; assumption|]. repeat dstep; [apply (DT2 nb d c1); assumption| |apply (DT2 nb d gd1); assumption].
        apply (HF _ (DT_row nb d gd0 _ d0 H)); assumption.
      + apply (D_plus U Lin lin_comb (fun u s => rsum nb (fun n => rsum d (fun a => (c0 u s) @2 n a * fval d (F u s) (vrow (gd0 u s) n) a))));
          [apply HP; assumption|]. repeat dstep; [apply (DT2 nb d c1); assumption| |apply (DT2 nb d gd1); assumption].
        apply (HF _ (DT_row nb d gd0 _ d0 H)); assumption.
    - intros. cbn [pairing].
      apply (D_plus U Lin lin_comb (fun u s => rsum nb (fun n => rsum d (fun a => (c0 u s) @2 n a * fval d (F u s) (vrow (gd0 u s) n) a))));
          [apply HP; assumption|]. repeat dstep; [apply (DT3 nb d d c1); assumption| | |apply (DT3 nb d d gd1); assumption];
        apply (HF _ (DT_row nb d gd0 _ d0 H)); assumption.
    - cbn [pairing]. dstep.
    - intros Gs _ H. cbn [pairing]. exact H.
    - cbn [fold_right]. dstep.
    - intros G Gs _ H _ Hs. cbn [fold_right]. apply (D_plus U Lin lin_comb _ _ H Hs).
  Qed.

  Lemma DM_wf d G : DM d G -> forall u s, wf_gman d (G u s).
  Proof.
    revert G. apply (DM_rec' d (fun G _ => forall u s, wf_gman d (G u s))
      (fun Gs _ => forall u s, fold_right (fun m acc => wf_gman d m /\ acc) True (Gs u s))); intros; cbn [wf_gman fold_right];
      repeat match goal with H : DT _ _ |- _ => destruct H as (H & _) end; auto 12.
  Qed.

  (** ** The field of an implicit module of order 1 *)
  Lemma DT_last d n0 n1 gd : DT [(n0 + n1)%nat; d] gd -> DT [n1; d] (fun u s => last_rows n0 (gd u s)).
  Proof.
    intros H. split; [intros; apply (last_shape _ n0 n1); apply H|]. intros idx Hv.
    destruct idx as [|i [|a [|? ?]]]; cbn in Hv; try tauto. apply (DT2 (n0 + n1) d gd (n0 + i) a H); lia.
  Qed.
  Lemma DT_first d n0 n1 gd : DT [(n0 + n1)%nat; d] gd -> DT [n0; d] (fun u s => first_rows n0 (gd u s)).
  Proof.
    intros H. split; [intros; apply (first_shape _ n0 n1); apply H|]. intros idx Hv.
    destruct idx as [|i [|a [|? ?]]]; cbn in Hv; try tauto. apply (DT2 (n0 + n1) d gd i a H); lia.
  Qed.

  Lemma DFld_block d t n0 n1 e ka sg gd (lam : nat -> U -> R -> R) : DT [(n0 + n1)%nat; d] gd ->
    (forall q, (q < n0 * t + n1 * d)%nat -> DD (lam q)) ->
    DFld d (fun u s => b_field d t n0 n1 e ka sg (gd u s) (fun q => lam q u s)).
  Proof.
    intros Hg Hl. unfold b_field. apply DFld_sum2.
    - apply (DFld_0 d Torch n1); [apply DT_last; assumption|]. split; [reflexivity|]. intros idx Hv.
      destruct idx as [|j [|r [|? ?]]]; cbn in Hv; try tauto. unfold mk2. cbn [get]. apply (Hl (n0 * t + (j * d + r))%nat).
      pose proof (pair_lt n1 d j r). lia.
    - apply (DFld_p d Torch n0); [apply (DT_first d n0 n1); assumption|]. split; [reflexivity|]. intros idx Hv.
      destruct idx as [|i [|a [|c [|? ?]]]]; cbn in Hv; try tauto. unfold moments_of, mk3. cbn [get]. unfold from_coords. repeat dstep.
      apply (Hl (i * t + i0)%nat). pose proof (pair_lt n0 t i i0). lia.
  Qed.

  Lemma D_bmatrix d t n0 n1 e ka sg gd q q' : DT [(n0 + n1)%nat; d] gd ->
    (q < n0 * t + n1 * d)%nat -> (q' < n0 * t + n1 * d)%nat ->
    DD (fun u s => bmatrix d t n0 e ka sg (vrow (gd u s)) q q').
  Proof.
    intros Hg Hq Hq'.
    assert (HR : forall i j, (i < n0 + n1)%nat -> (j < n0 + n1)%nat -> DV d (fun u s => vsub (vrow (gd u s) i) (vrow (gd u s) j))).
    { intros i j Hi Hj. apply DV_sub; apply (DT_row (n0 + n1) d gd); assumption. }
    assert (HB : forall i w j r, (i < n0)%nat -> (j < n1)%nat -> DD (fun u s => bT d n0 e ka sg (vrow (gd u s)) i w j r)).
    { intros i w j r Hi Hj. unfold bT. repeat dstep. apply D_dgauss; [apply HR; lia|assumption]. }
    destruct (split_row d t n0 n1 q Hq) as [(i & w & Hi & Hw & ->)|(i & w & Hi & Hw & ->)];
    destruct (split_row d t n0 n1 q' Hq') as [(j & r & Hj & Hr & ->)|(j & r & Hj & Hr & ->)].
    - eapply D_ext; [intros u s; apply bm_11; assumption|]. unfold sks_entry. repeat dstep.
      apply D_d2gauss; [apply HR; lia|assumption|assumption].
    - eapply D_ext; [intros u s; apply bm_12; assumption|]. apply HB; assumption.
    - eapply D_ext; [intros u s; apply bm_21; assumption|]. apply HB; assumption.
    - eapply D_ext; [intros u s; apply bm_22; assumption|]. repeat dstep. apply D_gaussian. apply HR; lia.
  Qed.

  Lemma D_kmat d n sg gd i j : DT [n; d] gd -> (i < n)%nat -> (j < n)%nat -> DD (fun u s => kmat d sg (gd u s) i j).
  Proof. intros Hg Hi Hj. unfold kmat. apply D_gaussian. apply DV_sub; apply (DT_row n d gd); assumption. Qed.

  Lemma D_bil n (M : U -> R -> nat -> nat -> R) (f g : U -> R -> nat -> R) :
    (forall i j, (i < n)%nat -> (j < n)%nat -> DD (fun u s => M u s i j)) -> DV n f -> DV n g ->
    DD (fun u s => bil n (M u s) (f u s) (g u s)).
  Proof. intros HM Hf Hg. unfold bil. repeat dstep; auto. Qed.
End DF.
