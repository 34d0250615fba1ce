(** Differentiable families of deformation modules: with given controls, the cost and the
    pairing of the field with the cotangents of a manifold are differentiable. *)
From Coq Require Import Reals String List Arith Lia Lra.
From Verif Require Import Py RSum Tensor TensorFacts KernelModel FieldModel GeometryModel ModuleModel
  SpecLinAlg SpecKernel SpecField SpecGeometry SpecSKS SpecModule SpecSmooth LinAlg KernelFacts FieldFacts GeometryFacts SKSFacts
  GaussPSD ModuleDual ModuleAlg ModuleLeaves ModuleImplicit ModuleMain ModuleRegular ModulePosed DiffFacts DiffField.
Import ListNotations.
Open Scope R_scope.

Lemma rsum_nz n f : rsum n f <> 0 -> exists i, (i < n)%nat /\ f i <> 0.
Proof.
  induction n as [|n IH]; intros H; [rewrite rsum_0 in H; congruence|].
  destruct (Req_dec (f n) 0) as [E|E]; [|exists n; split; [lia|assumption]].
  destruct IH as (i & Hi & Hf); [|exists i; split; [lia|assumption]]. rewrite rsum_S in H. rewrite E in H. intros Z. apply H. rewrite Z. ring.
Qed.
Lemma sqn_nz d z : sqn d z <> 0 -> exists c, (c < d)%nat /\ z c <> 0.
Proof.
  intros H. destruct (rsum_nz d _ H) as (i & Hi & Hz). exists i. split; [assumption|]. intros E. apply Hz. rewrite E. ring.
Qed.
Lemma nz_sqn d z c : (c < d)%nat -> z c <> 0 -> sqn d z <> 0.
Proof.
  intros Hc Hz E. apply Hz. pose proof (rsum_nonneg_zero d (fun c => z c ^ 2) (fun _ _ => pow2_ge_0 _) E c Hc) as Z.
  cbn beta in Z. destruct (Req_dec (z c) 0) as [?|N]; [assumption|]. pose proof (pow_nonzero (z c) 2 N). contradiction.
Qed.

Section DL.
  Variables (U : Type) (Lin : (U -> R) -> Prop) (u0 : U).
  Hypothesis lin_zero : Lin (fun _ => 0).
  Hypothesis lin_comb : forall a b L L', Lin L -> Lin L' -> Lin (fun u => a * L u + b * L' u).
  Variables (sv : solver) (b0 : backend) (d : nat).
  Hypothesis HSV : exact_solver sv.
  Notation DD := (D U Lin).
  Notation DTT := (DT U Lin).
  Notation NN := (Near U).

  Ltac dstep :=
    match goal with
    | H : DD ?f |- DD ?f => exact H
    | |- DD (fun u s => ?c) => exact (D_const U Lin lin_zero c)
    | |- DD (fun u s => @?f u s + @?g u s) => apply (D_plus U Lin lin_comb f g)
    | |- DD (fun u s => @?f u s - @?g u s) => apply (D_minus U Lin lin_zero lin_comb f g)
    | |- DD (fun u s => @?f u s * @?g u s) => apply (D_mult U Lin lin_comb f g)
    | |- DD (fun u s => - @?f u s) => apply (D_opp U Lin lin_zero lin_comb f)
    | |- DD (fun u s => @?f u s / ?c) => apply (D_divc U Lin lin_zero lin_comb f c)
    | |- DD (fun u s => @?f u s ^ ?n) => apply (D_pow U Lin lin_zero lin_comb f n)
    | |- DD (fun u s => exp (@?f u s)) => apply (D_exp U Lin lin_zero lin_comb f)
    | |- DD (fun u s => rsum ?n (fun i => @?f u s i)) =>
        apply (D_rsum U Lin lin_zero lin_comb n (fun i u s => f u s i)); cbv beta; intros ? ?
    end.

  Inductive DLeaf : (U -> R -> dmod) -> Prop :=
  | DL_global co h : DLeaf (fun _ _ => MGlobal d co h)
  | DL_trans b sg nb gd ct h : DTT [nb; d] gd -> DTT [nb; d] ct -> DLeaf (fun u s => MTrans b sg d nb (gd u s) (ct u s) h)
  | DL_imp0 b sg nu co nb gd ct h : DTT [nb; d] gd -> DTT [nb; d] ct ->
      DLeaf (fun u s => MImp0 b sg nu co d nb (gd u s) (ct u s) h)
  | DL_oriented sg co tr nb gd0 gd1 c0 c1 h : DTT [nb; d] gd0 -> DTT [nb; d] gd1 -> DTT [nb; d] c0 -> DTT [nb; d] c1 ->
      DLeaf (fun u s => MOriented sg co tr d nb (gd0 u s) (gd1 u s) (c0 u s) (c1 u s) h)
  | DL_local sg co fs fv nb gd ct h M S V : DTT [nb; d] gd -> DTT [nb; d] ct -> DTT [M; d] S -> DTT [M; d] V ->
      NN (fun u s => fs (gd u s) = Ok (S u s) /\ fv (gd u s) = Ok (V u s)) ->
      DLeaf (fun u s => MLocal sg co fs fv d nb (gd u s) (ct u s) h)
  | DL_linear A co gd ct h : DTT [1%nat; d] gd -> DTT [1%nat; d] ct -> DLeaf (fun u s => MLinear A co (gd u s) (ct u s) h)
  | DL_silent G : DM U Lin d G -> DLeaf (fun u s => MSilent (G u s))
  | DL_imp1 b sg nu co C nb gd0 gd1 c0 c1 h ca : DTT [nb; d] gd0 -> DTT [nb; d; d] gd1 -> DTT [nb; d] c0 -> DTT [nb; d; d] c1 ->
      DLeaf (fun u s => MImp1 b sg nu co C d nb (gd0 u s) (gd1 u s) (c0 u s) (c1 u s) h ca)
  | DL_div sg cd nu co n0 n1 gd ct h l : DTT [(n0 + n1)%nat; d] gd -> DTT [(n0 + n1)%nat; d] ct ->
      DLeaf (fun u s => MDivFree sg cd nu co d n0 n1 (gd u s) (ct u s) h l)
  | DL_arap sg ca nu co n0 n1 gd ct h l : DTT [(n0 + n1)%nat; d] gd -> DTT [(n0 + n1)%nat; d] ct ->
      DLeaf (fun u s => MArap sg ca nu co d n0 n1 (gd u s) (ct u s) h l).

  Lemma leaf_ctrl M c u s u' s' : DLeaf M -> ctrl_ok d (M u s) c -> ctrl_ok d (M u' s') c.
  Proof. intros H. destruct H; exact (fun x => x). Qed.

  Lemma nec_same G u s u' s' : DM U Lin d G -> no_empty_comp (G u s) -> no_empty_comp (G u' s').
  Proof.
    intros HG. revert G HG. apply (DM_rec' U Lin d (fun G _ => no_empty_comp (G u s) -> no_empty_comp (G u' s'))
      (fun Gs _ => ((Gs u s <> [] -> Gs u' s' <> []) /\
         (fold_right (fun m acc => no_empty_comp m /\ acc) True (Gs u s) -> fold_right (fun m acc => no_empty_comp m /\ acc) True (Gs u' s')))));
      intros; cbn [no_empty_comp fold_right] in *; try tauto.
    split; [discriminate|tauto].
  Qed.

  Lemma near_wf_leaf M : DLeaf M -> (forall u, wf_mod d (M u 0)) -> NN (fun u s => wf_mod d (M u s)).
  Proof.
    intros HM HW. destruct HM.
    all: try (apply near_all; intros u s; specialize (HW u); cbn [wf_mod] in *;
      repeat match goal with H : DT _ _ _ _ |- _ => destruct H as (H & _) end; rewrite ?H, ?H0, ?H1, ?H2 in *; tauto).
    - eapply near_imp; [|exact H3]. intros u s (E1 & E2). specialize (HW u). cbn [wf_mod] in *.
      destruct HW as (_ & Hs & Hc & _). split; [reflexivity|]. split; [assumption|]. split; [assumption|]. split; [apply H|]. split; [apply H0|].
      exists M, (S u s), (V u s). split; [assumption|]. split; [assumption|]. split; [apply H1|apply H2].
    - apply near_all. intros u s. cbn [wf_mod]. split; [exact (DM_wf U Lin d G H u s)|].
      exact (nec_same G u 0 u s H (proj2 (HW u))).
  Qed.

  (** ** Definite systems stay definite nearby *)

  (** The Gram matrix of the prescribed strains. *)
  Definition gram (nb : nat) (C gd1 : tensor) (k k' : nat) : R :=
    rsum nb (fun n => rsum d (fun a => rsum d (fun b => growth_of d C gd1 n k a b * growth_of d C gd1 n k' a b))).

  Lemma growth_sum r C gd1 h n a b : growth d r C gd1 h n a b = rsum r (fun k => h @1 k * growth_of d C gd1 n k a b).
  Proof.
    unfold growth, growth_of. rewrite (rsum_ext r _ (fun k => rsum d (fun i => h @1 k * (gd1 @3 n a i * C @3 n i k * gd1 @3 n b i)))) by (intros; rewrite rsum_scal; reflexivity).
    rewrite rsum_swap. apply rsum_ext. intros i Hi. rewrite <- rsum_scal, <- rsum_scal_r. apply rsum_ext. intros; ring.
  Qed.

  Lemma gram_quad nb r C gd1 h : quad r (gram nb C gd1) (fun k => h @1 k) =
    rsum nb (fun n => rsum d (fun a => rsum d (fun b => growth d r C gd1 h n a b ^ 2))).
  Proof.
    unfold quad, gram.
    transitivity (rsum r (fun i => rsum r (fun j => rsum nb (fun n => rsum d (fun a => rsum d (fun b =>
      h @1 i * growth_of d C gd1 n i a b * (h @1 j * growth_of d C gd1 n j a b))))))).
    - apply rsum_ext. intros i _. apply rsum_ext. intros j _. rewrite <- rsum_scal. apply rsum_ext. intros n _. rewrite <- rsum_scal. apply rsum_ext. intros a _.
      rewrite <- rsum_scal. apply rsum_ext. intros; ring.
    - rewrite (rsum_ext r _ (fun i => rsum nb (fun n => rsum r (fun j => rsum d (fun a => rsum d (fun b =>
        h @1 i * growth_of d C gd1 n i a b * (h @1 j * growth_of d C gd1 n j a b))))))) by (intros; apply rsum_swap).
      etransitivity; [apply rsum_swap|]. apply rsum_ext. intros n _.
      rewrite (rsum_ext r _ (fun i => rsum d (fun a => rsum r (fun j => rsum d (fun b =>
        h @1 i * growth_of d C gd1 n i a b * (h @1 j * growth_of d C gd1 n j a b)))))) by (intros; apply rsum_swap).
      etransitivity; [apply rsum_swap|]. apply rsum_ext. intros a _.
      rewrite (rsum_ext r _ (fun i => rsum d (fun b => rsum r (fun j =>
        h @1 i * growth_of d C gd1 n i a b * (h @1 j * growth_of d C gd1 n j a b))))) by (intros; apply rsum_swap).
      etransitivity; [apply rsum_swap|]. apply rsum_ext. intros b _.
      rewrite (growth_sum r C gd1 h n a b). cbn [pow]. rewrite Rmult_1_r, <- rsum_scal_r. apply rsum_ext. intros i _. rewrite <- rsum_scal. reflexivity.
  Qed.

  Lemma gram_inj nb r C gd1 : (forall h, shape h = [r] ->
        (forall n a b, (n < nb)%nat -> (a < d)%nat -> (b < d)%nat -> growth d r C gd1 h n a b = 0) ->
        forall k, (k < r)%nat -> h @1 k = 0) <-> pd r (gram nb C gd1).
  Proof.
    split.
    - intros H f (k & Hk & Hf). set (h := mk1 r f). change (quad r (gram nb C gd1) f) with (quad r (gram nb C gd1) (fun k => h @1 k)).
      rewrite gram_quad.
      assert (NB : forall n, (n < nb)%nat -> 0 <= rsum d (fun a => rsum d (fun b => growth d r C gd1 h n a b ^ 2))).
      { intros n _. apply rsum_nonneg. intros a _. apply rsum_nonneg. intros. apply pow2_ge_0. }
      destruct (rsum_nonneg nb _ NB) as [P|Z]; [exact P|exfalso]. apply Hf. change (h @1 k = 0). apply H; [reflexivity| |assumption].
      intros n a b Hn Ha Hb. pose proof (rsum_nonneg_zero nb _ NB (eq_sym Z) n Hn) as Z1. cbn beta in Z1.
      assert (NA : forall a, (a < d)%nat -> 0 <= rsum d (fun b => growth d r C gd1 h n a b ^ 2)) by (intros; apply rsum_nonneg; intros; apply pow2_ge_0).
      pose proof (rsum_nonneg_zero d _ NA Z1 a Ha) as Z2. cbn beta in Z2.
      pose proof (rsum_nonneg_zero d (fun b => growth d r C gd1 h n a b ^ 2) (fun _ _ => pow2_ge_0 _) Z2 b Hb) as Z3. cbn beta in Z3.
      destruct (Req_dec (growth d r C gd1 h n a b) 0) as [?|N]; [assumption|]. pose proof (pow_nonzero _ 2 N). contradiction.
    - intros P h Sh Z k Hk. destruct (Req_dec (h @1 k) 0) as [?|N]; [assumption|exfalso].
      assert (Q : 0 < quad r (gram nb C gd1) (fun k => h @1 k)) by (apply P; exists k; auto).
      rewrite gram_quad in Q. rewrite rsum_zero in Q; [lra|]. intros n Hn. apply rsum_zero. intros a Ha. apply rsum_zero. intros b Hb.
      rewrite Z by assumption. ring.
  Qed.

  Lemma near_bM w n0 n1 e ka sg nu gd : DTT [(n0 + n1)%nat; d] gd -> (forall u, pd (n0 * w + n1 * d) (bM d sg nu w n0 e ka (gd u 0))) ->
    NN (fun u s => pd (n0 * w + n1 * d) (bM d sg nu w n0 e ka (gd u s))).
  Proof.
    intros Hg HP. apply (D_pd U Lin lin_zero lin_comb (n0 * w + n1 * d) (fun q q' u s => bM d sg nu w n0 e ka (gd u s) q q')); [|intros; apply bM_sym|exact HP].
    intros q q' Hq Hq'. unfold bM. repeat dstep. apply (D_bmatrix U Lin lin_zero lin_comb d w n0 n1); assumption.
  Qed.

  Lemma near_posed_leaf M : DLeaf M -> (forall u, wf_mod d (M u 0)) -> (forall u, posed d (M u 0)) -> NN (fun u s => posed d (M u s)).
  Proof.
    intros HM HW HR. pose proof (HW u0) as W0. destruct HM; cbn [posed] in *; try (apply near_all; intros; exact I).
    - apply (D_pd U Lin lin_zero lin_comb nb (fun i j u s => kmat d sg (gd u s) i j)); [|intros; apply kmat_sym|exact HR].
      intros. apply (D_kmat U Lin lin_zero lin_comb d nb); assumption.
    - apply (D_pd U Lin lin_zero lin_comb nb (fun i j u s => kmat d sg (gd u s) i j + nu * delta i j)); [|intros; apply symmetric_diag; apply kmat_sym|exact HR].
      intros. repeat dstep. apply (D_kmat U Lin lin_zero lin_comb d nb); assumption.
    - apply (D_pd U Lin lin_zero lin_comb nb (fun i j u s => omat d sg (gd0 u s) (gd1 u s) i j)); [|intros; apply omat_sym|exact HR].
      intros i j Hi Hj. unfold omat. repeat dstep; [apply (D_kmat U Lin lin_zero lin_comb d nb); assumption|apply (DT2 U Lin nb d gd1); assumption|apply (DT2 U Lin nb d gd1); assumption].
    - destruct W0 as (_ & Hs & _).
      set (N := fun u s => rsum d (fun a => bil M (kmat d sg (S u s)) (fun i => (V u s) @2 i a) (fun i => (V u s) @2 i a))).
      assert (EN : forall u s, local_norm sg (S u s) (V u s) = N u s).
      { intros u s. unfold local_norm. exact (mm_form (K_xx (S u s) sg) _ _ M d (kmat d sg (S u s)) (K_xx_sh (S u s) M d sg (proj1 H1 u s)) (proj1 H2 u s) (proj1 H2 u s)
          (fun i j _ _ => K_xx_kmat (S u s) M d sg i j Hs (proj1 H1 u s))). }
      assert (DN : DD N).
      { unfold N. repeat dstep. apply (D_bil U Lin lin_zero lin_comb M (fun u s => kmat d sg (S u s)) (fun u s i0 => (V u s) @2 i0 i) (fun u s i0 => (V u s) @2 i0 i)).
        - intros. apply (D_kmat U Lin lin_zero lin_comb d M); assumption.
        - intros k Hk. apply (DT2 U Lin M d V); assumption.
        - intros k Hk. apply (DT2 U Lin M d V); assumption. }
      assert (NZ : NN (fun u s => N u s <> 0)).
      { apply (D_nz U Lin lin_comb N DN). intros u. destruct (near_0 U _ u H3) as (E1 & E2). specialize (HR u _ _ E1 E2). rewrite EN in HR. lra. }
      eapply near_imp; [|exact (near_and U _ _ H3 NZ)]. cbn beta. intros u s ((E1 & E2) & Z) x v Ex Ev.
      rewrite E1 in Ex. injection Ex as <-. rewrite E2 in Ev. injection Ev as <-. rewrite EN.
      assert (P : 0 <= N u s); [|lra]. unfold N. apply rsum_nonneg. intros. rewrite <- quad_bil. apply kmat_psd; [assumption|apply H1].
    - destruct W0 as (_ & (e & He) & _). cbn [solvable] in *. apply near_and.
      + eapply near_imp; [intros u s P e' He'; rewrite He in He'; injection He' as <-; exact P|].
        assert (X : NN (fun u s => pd (nb * sym_dim d + 0 * d) (bM d sg nu (sym_dim d) nb e 1 (gd0 u s)))).
        { apply near_bM; [rewrite Nat.add_0_r; assumption|]. intros u. rewrite Nat.mul_0_l, Nat.add_0_r. apply HR. assumption. }
        rewrite Nat.mul_0_l, Nat.add_0_r in X. exact X.
      + eapply near_imp; [intros u s P; apply (proj2 (gram_inj nb _ C (gd1 u s))); exact P|].
        apply (D_pd U Lin lin_zero lin_comb (tnth (shape C) 2) (fun k k' u s => gram nb C (gd1 u s) k k')).
        * intros k k' Hk Hk'. unfold gram, growth_of. repeat dstep; apply (DT3 U Lin nb d d gd1); assumption.
        * intros u s k k' _ _. unfold gram. apply rsum_ext. intros. apply rsum_ext. intros. apply rsum_ext. intros. ring.
        * intros u. apply gram_inj. apply HR.
    - apply near_bM; [assumption|exact HR].
    - destruct W0 as (_ & (e & He) & _). eapply near_imp; [intros u s P e' He'; rewrite He in He'; injection He' as <-; exact P|].
      apply near_bM; [assumption|]. intros u. apply HR. assumption.
  Qed.

  (** ** Linear systems *)
  Lemma D_system n (M : nat -> nat -> U -> R -> R) (rhs : nat -> U -> R -> R) (fr : U -> R -> res tensor) (sh : list nat) :
    sh = [n] \/ sh = [n; 1%nat] ->
    (forall q q', (q < n)%nat -> (q' < n)%nat -> DD (M q q')) -> (forall q, (q < n)%nat -> DD (rhs q)) ->
    (forall u s, symmetric n (fun i j => M i j u s)) -> (forall u, pd n (fun i j => M i j u 0)) ->
    (forall u s, exists S B, fr u s = sv S B /\ shape S = [n; n] /\
       (forall q q', (q < n)%nat -> (q' < n)%nat -> entries S q q' = M q q' u s) /\ shape B = sh /\
       forall q, (q < n)%nat -> fvec B q = rhs q u s) ->
    exists lam, (forall q, (q < n)%nat -> DD (lam q)) /\
      NN (fun u s => exists l, fr u s = Ok l /\ shape l = sh /\ forall q, lam q u s = fvec l q).
  Proof.
    intros Hsh HM Hr HS HP HF.
    set (lam := fun q u s => match fr u s with Ok l => fvec l q | Err _ => 0 end).
    assert (N : NN (fun u s => (exists l, fr u s = Ok l /\ shape l = sh /\ forall q, lam q u s = fvec l q) /\
       solves n (fun i j => M i j u s) (fun q => lam q u s) (fun q => rhs q u s))).
    { eapply near_imp; [|exact (D_pd U Lin lin_zero lin_comb n M HM HS HP)]. cbn beta. intros u s P.
      destruct (HF u s) as (S & B & E & SS & GS & SB & GB).
      assert (SB' : shape B = [n] \/ shape B = [n; 1%nat]) by (rewrite SB; assumption).
      destruct (solver_total sv n S B (fun i j => M i j u s) HSV SS) as (l & El); [|exact GS|exact (pd_nonsingular _ _ P)|].
      { destruct SB' as [X|X]; [left|right; exists 1%nat]; assumption. }
      destruct (solver_any sv n S B l (fun i j => M i j u s) HSV SS SB' El GS) as (_ & Sl & Hl).
      rewrite E, El. split.
      - exists l. split; [reflexivity|]. split; [congruence|]. intros q. unfold lam. rewrite E, El. reflexivity.
      - revert Hl. apply solves_ext; auto. intros q Hq. unfold lam. rewrite E, El. reflexivity. }
    exists lam. split.
    - apply (D_solve U Lin lin_zero lin_comb n M rhs lam HM Hr HP). eapply near_imp; [|exact N]. cbn beta. intros u s (_ & X). exact X.
    - eapply near_imp; [|exact N]. cbn beta. intros u s (X & _). exact X.
  Qed.

  (** ** Cost and pairing for given controls *)
  Definition DA (M : U -> R -> dmod) : Prop :=
    forall G c, DM U Lin d G -> (forall u s, ctrl_ok d (M u s) c) ->
      exists cf pf, DD cf /\ DD pf /\
        NN (fun u s => exists m1 f, fill_controls sv (M u s) c = Ok m1 /\ cost m1 = Ok (cf u s) /\
          field_generator m1 = Ok f /\ good d f /\ pairing d (G u s) (fval d f) (fjac d f) = pf u s).

  Lemma DA_explicit M : (forall G c, DM U Lin d G -> (forall u s, ctrl_ok d (M u s) c) ->
      exists cf (F : U -> R -> sfield), DD cf /\ DFld U Lin d F /\
        NN (fun u s => exists m1 f, fill_controls sv (M u s) c = Ok m1 /\ cost m1 = Ok (cf u s) /\ field_generator m1 = Ok f /\ good d f /\
          (forall p a, (a < d)%nat -> fval d f p a = fval d (F u s) p a) /\
          (forall p a l, (a < d)%nat -> (l < d)%nat -> fjac d f p a l = fjac d (F u s) p a l))) -> DA M.
  Proof.
    intros H G c HG Hc. destruct (H G c HG Hc) as (cf & F & HC & HF & N).
    exists cf, (fun u s => pairing d (G u s) (fval d (F u s)) (fjac d (F u s))). split; [assumption|]. split.
    - apply (D_pairing U Lin lin_zero lin_comb); assumption.
    - eapply near_imp; [|exact N]. cbn beta. intros u s (m1 & f & A1 & A2 & A3 & A4 & A5 & A6). exists m1, f.
      split; [assumption|]. split; [assumption|]. split; [assumption|]. split; [assumption|]. apply pairing_ext; assumption.
  Qed.

  Lemma D_cols n M (f : nat -> R) : (forall i j, (i < n)%nat -> (j < n)%nat -> DD (fun u s => M u s i j)) -> DD (fun u s => bil n (M u s) f f).
  Proof. intros HM. unfold bil. repeat dstep. apply HM; assumption. Qed.

  Lemma leaf_no_list M u s l : DLeaf M -> ~ ctrl_ok d (M u s) (CList l).
  Proof. intros H. destruct H; exact (fun x => x). Qed.

  (** Block modules. *)
  Lemma DA_block M w n0 n1 e ka sg nu co gd (mk : U -> R -> tensor -> tensor -> dmod) (fr : U -> R -> tensor -> res tensor) :
    sg <> 0 -> 0 <= nu -> sym_tensor d w e -> DTT [(n0 + n1)%nat; d] gd ->
    (forall u s c, ctrl_ok d (M u s) c -> exists t, c = CLeaf t /\ pad_shape d n1 t) ->
    (forall u, pd (n0 * w + n1 * d) (bM d sg nu w n0 e ka (gd u 0))) ->
    (forall u s t, fill_controls sv (M u s) (CLeaf t) = (l <- fr u s t ;; Ok (mk u s t l))) ->
    (forall u s t, exists S, fr u s t = sv S (pad_controls (n0 * w) t) /\ shape S = [(n0 * w + n1 * d)%nat; (n0 * w + n1 * d)%nat] /\
       forall q q', (q < n0 * w + n1 * d)%nat -> (q' < n0 * w + n1 * d)%nat -> entries S q q' = bM d sg nu w n0 e ka (gd u s) q q') ->
    (forall u s t l, cost (mk u s t l) = Ok (1 / 2 * co * tdot (pad_controls (n0 * w) t) l)) ->
    (forall u s t l, pad_shape d n1 t -> shape l = [(n0 * w + n1 * d)%nat] -> exists f, field_generator (mk u s t l) = Ok f /\ good d f /\
       (forall p a, (a < d)%nat -> fval d f p a = fval d (b_field d w n0 n1 e ka sg (gd u s) (fun q => l @1 q)) p a) /\
       (forall p a c, (a < d)%nat -> (c < d)%nat -> fjac d f p a c = fjac d (b_field d w n0 n1 e ka sg (gd u s) (fun q => l @1 q)) p a c)) ->
    DA M.
  Proof.
    intros Hs Hnu HE Hg HC HP HF HR HK HFG. apply DA_explicit. intros G c HG Hc.
    destruct (HC u0 0 c (Hc u0 0)) as (t & -> & Ht).
    set (n := (n0 * w + n1 * d)%nat) in *.
    assert (SP : shape (pad_controls (n0 * w) t) = [n]).
    { rewrite pad_controls_shape. unfold n. f_equal. f_equal. destruct Ht as [E|E]; rewrite E; cbn [prod fold_right]; lia. }
    destruct (D_system n (fun q q' u s => bM d sg nu w n0 e ka (gd u s) q q') (fun q _ _ => pad (n0 * w) (fvec t) q)
      (fun u s => fr u s t) [n]) as (lam & HL & NL).
    - left; reflexivity.
    - intros q q' Hq Hq'. unfold bM. repeat dstep. apply (D_bmatrix U Lin lin_zero lin_comb d w n0 n1); assumption.
    - intros q Hq. dstep.
    - intros u s. apply (symmetric_diag n). apply bm_sym.
    - exact HP.
    - intros u s. destruct (HR u s t) as (S & E & SS & GS). exists S, (pad_controls (n0 * w) t). split; [assumption|]. split; [assumption|].
      split; [assumption|]. split; [assumption|]. intros q Hq. rewrite (fvec_1 _ n) by assumption. apply pad_controls_get.
    - exists (fun u s => 1 / 2 * co * rsum n (fun q => pad (n0 * w) (fvec t) q * lam q u s)),
             (fun u s => b_field d w n0 n1 e ka sg (gd u s) (fun q => lam q u s)).
      split; [repeat dstep; apply HL; assumption|]. split; [apply DFld_block; assumption|].
      eapply near_imp; [|exact NL]. cbn beta. intros u s (l & El & Sl & Gl).
      assert (GL : forall q, (q < n)%nat -> lam q u s = l @1 q) by (intros q Hq; rewrite Gl; apply (fvec_1 l n); assumption).
      destruct (HFG u s t l Ht Sl) as (f & Ef & GD & FV & FJ).
      exists (mk u s t l), f. rewrite HF, El. split; [reflexivity|]. split; [|split; [assumption|split; [assumption|]]].
      + rewrite HK, (tdot_1 _ _ n) by assumption. do 2 f_equal. apply rsum_ext. intros q Hq. rewrite GL by assumption. reflexivity.
      + assert (EB : forall p a, (a < d)%nat -> fval d (b_field d w n0 n1 e ka sg (gd u s) (fun q => l @1 q)) p a =
           fval d (b_field d w n0 n1 e ka sg (gd u s) (fun q => lam q u s)) p a /\
           forall c, (c < d)%nat -> fjac d (b_field d w n0 n1 e ka sg (gd u s) (fun q => l @1 q)) p a c =
           fjac d (b_field d w n0 n1 e ka sg (gd u s) (fun q => lam q u s)) p a c).
        { intros p a Ha. pose proof (first_shape (gd u s) n0 n1 d (proj1 Hg u s)) as SX. pose proof (last_shape (gd u s) n0 n1 d (proj1 Hg u s)) as SY.
          assert (G0 : forall j r, (j < n1)%nat -> (r < d)%nat -> lam (n0 * w + (j * d + r))%nat u s = l @1 (n0 * w + (j * d + r))%nat).
          { intros j r Hj Hr. apply GL. pose proof (pair_lt n1 d j r Hj Hr). unfold n. lia. }
          assert (G1 : forall i, (i < n0)%nat -> forall a c, symP (moments_of n0 d w e (fun q => ka * l @1 q)) i a c =
              symP (moments_of n0 d w e (fun q => ka * lam q u s)) i a c).
          { intros i Hi x y. unfold symP, moments_of, mk3, from_coords. cbn [get].
            assert (GQ : forall k, (k < w)%nat -> lam (i * w + k)%nat u s = l @1 (i * w + k)%nat).
            { intros k Hk. apply GL. pose proof (pair_lt n0 w i k Hi Hk). unfold n. lia. }
            f_equal. f_equal; apply rsum_ext; intros k Hk; rewrite GQ by assumption; reflexivity. }
          unfold b_field. cbn [fval fjac fold_right]. unfold nrows. rewrite SX, SY. cbn [tnth nth]. split.
          - f_equal; [|f_equal].
            + apply rsum_ext. intros j Hj. unfold mk2. cbn [get]. rewrite G0 by assumption. reflexivity.
            + apply rsum_ext. intros i Hi. apply rsum_ext. intros c Hc'. rewrite G1 by assumption. reflexivity.
          - intros c Hc'. f_equal; [|f_equal].
            + apply rsum_ext. intros j Hj. unfold mk2. cbn [get]. rewrite G0 by assumption. reflexivity.
            + apply rsum_ext. intros i Hi. apply rsum_ext. intros c' Hc''. rewrite G1 by assumption. reflexivity. }
        split.
        * intros p a Ha. rewrite FV by assumption. apply EB. assumption.
        * intros p a c Ha Hc'. rewrite FJ by assumption. apply EB; assumption.
  Qed.

  Lemma DT_flat1 gd : DTT [1%nat; d] gd -> DTT [d] (fun u s => tflatten (gd u s)).
  Proof.
    intros H. split.
    - intros u s. cbn [tflatten reshape shape]. rewrite (proj1 H). cbn. f_equal. lia.
    - intros idx Hv. destruct idx as [|a [|? ?]]; cbn in Hv; try tauto. destruct Hv as (Ha & _).
      apply (D_ext U Lin (fun u s => (gd u s) @2 0%nat a)).
      + intros u s. exact (fvec_2 (gd u s) 1 d 0 a (proj1 H u s) ltac:(lia) Ha).
      + apply (DT2 U Lin 1 d gd); [assumption|lia|assumption].
  Qed.

  Lemma leaf_DA M : DLeaf M -> (forall u, wf_mod d (M u 0)) -> (forall u, solvable d (M u 0)) -> DA M.
  Proof.
    intros HM HW HR. pose proof (HW u0) as W0. pose proof (near_wf_leaf M HM HW) as NW.
    destruct HM.
    - apply DA_explicit. intros G c HG Hc. specialize (Hc u0 0). destruct c as [t|l]; [|destruct Hc]. cbn [ctrl_ok] in Hc.
      exists (fun _ _ => 1 / 2 * co * tdot t t), (fun _ _ => SF_const t). split; [dstep|]. split; [apply DFld_const; [assumption|]; rewrite <- Hc; apply DT_const; assumption|].
      apply near_all. intros u s. exists (MGlobal d co t), (SF_const t). repeat split; auto. cbn [fdim]. rewrite Hc. reflexivity.
    - apply DA_explicit. intros G c HG Hc. specialize (Hc u0 0). destruct c as [t|l]; [|destruct Hc]. cbn [ctrl_ok] in Hc.
      destruct W0 as (_ & Hs & _).
      exists (fun u s => 1 / 2 * rsum d (fun a => bil nb (kmat d sg (gd u s)) (fun i => t @2 i a) (fun i => t @2 i a))), (fun u s => SF_0 b (gd u s) t sg).
      split; [repeat dstep; apply (D_cols nb (fun u s => kmat d sg (gd u s))); intros; apply (D_kmat U Lin lin_zero lin_comb d nb); assumption|].
      split; [apply (DFld_0 U Lin lin_zero lin_comb d b nb); [assumption|rewrite <- Hc; apply DT_const; assumption]|].
      apply near_all. intros u s. do 2 eexists. split; [reflexivity|]. split; [|split; [reflexivity|split; [|split; reflexivity]]].
      + cbn [cost]. rewrite (trans_cost_form b sg (gd u s) t nb d Hs (proj1 H u s) Hc). reflexivity.
      + apply (good_SF0 d b (gd u s) t sg nb Hs (proj1 H u s) Hc).
    - apply DA_explicit. intros G c HG Hc. specialize (Hc u0 0). destruct c as [t|l]; [|destruct Hc]. cbn [ctrl_ok] in Hc.
      destruct W0 as (_ & Hs & _).
      exists (fun u s => 1 / 2 * (co * rsum d (fun a => bil nb (fun i j => kmat d sg (gd u s) i j + nu * delta i j) (fun i => t @2 i a) (fun i => t @2 i a)))),
             (fun u s => SF_0 b (gd u s) t sg).
      split; [repeat dstep; apply (D_cols nb (fun u s i j => kmat d sg (gd u s) i j + nu * delta i j)); intros; repeat dstep;
              apply (D_kmat U Lin lin_zero lin_comb d nb); assumption|].
      split; [apply (DFld_0 U Lin lin_zero lin_comb d b nb); [assumption|rewrite <- Hc; apply DT_const; assumption]|].
      apply near_all. intros u s. do 2 eexists. split; [reflexivity|]. split; [|split; [reflexivity|split; [|split; reflexivity]]].
      + cbn [cost]. rewrite (imp0_cost_form b sg nu co (gd u s) t nb d Hs (proj1 H u s) Hc). reflexivity.
      + apply (good_SF0 d b (gd u s) t sg nb Hs (proj1 H u s) Hc).
    - apply DA_explicit. intros G c HG Hc. specialize (Hc u0 0). destruct c as [t|l]; [|destruct Hc]. cbn [ctrl_ok] in Hc.
      destruct W0 as (_ & Hs & _).
      assert (Sm : forall u s, shape (oriented_moments d (gd1 u s) t) = [nb; d]) by (intros; cbn; unfold nrows; rewrite (proj1 H0); reflexivity).
      exists (fun u s => 1 / 2 * co * rsum d (fun a => bil nb (kmat d sg (gd0 u s)) (fun i => t @1 i * (gd1 u s) @2 i a) (fun i => t @1 i * (gd1 u s) @2 i a))),
             (fun u s => SF_0 Torch (gd0 u s) (oriented_moments d (gd1 u s) t) sg).
      split.
      { repeat dstep. apply (D_bil U Lin lin_zero lin_comb nb (fun u s => kmat d sg (gd0 u s)) (fun u s i0 => t @1 i0 * (gd1 u s) @2 i0 i) (fun u s i0 => t @1 i0 * (gd1 u s) @2 i0 i)).
        - intros. apply (D_kmat U Lin lin_zero lin_comb d nb); assumption.
        - intros k Hk. repeat dstep. apply (DT2 U Lin nb d gd1); assumption.
        - intros k Hk. repeat dstep. apply (DT2 U Lin nb d gd1); assumption. }
      split.
      { apply (DFld_0 U Lin lin_zero lin_comb d Torch nb); [assumption|]. split; [apply Sm|]. intros idx Hv.
        destruct idx as [|i [|a [|? ?]]]; cbn in Hv; try tauto. cbn [oriented_moments mk2 get]. repeat dstep. apply (DT2 U Lin nb d gd1); tauto. }
      apply near_all. intros u s. do 2 eexists. split; [reflexivity|]. split; [|split; [reflexivity|split; [|split; reflexivity]]].
      + cbn [cost]. unfold oriented_cost. do 2 f_equal.
        rewrite (mm_form (K_xx (gd0 u s) sg) _ _ nb d (kmat d sg (gd0 u s)) (K_xx_sh (gd0 u s) nb d sg (proj1 H u s)) (Sm u s) (Sm u s)
          (fun i j _ _ => K_xx_kmat (gd0 u s) nb d sg i j Hs (proj1 H u s))). reflexivity.
      + apply (good_SF0 d Torch (gd0 u s) _ sg nb Hs (proj1 H u s) (Sm u s)).
    - apply DA_explicit. intros G c HG Hc. specialize (Hc u0 0). destruct c as [t|l]; [|destruct Hc]. cbn [ctrl_ok] in Hc.
      destruct W0 as (_ & Hs & _).
      exists (fun u s => 1 / 2 * co * rsum d (fun a => bil M (kmat d sg (S u s)) (fun i => (V u s) @2 i a) (fun i => (V u s) @2 i a)) * item t * item t),
             (fun u s => SF_0 Torch (S u s) (tscal (item t) (V u s)) sg).
      split.
      { repeat dstep. apply (D_bil U Lin lin_zero lin_comb M (fun u s => kmat d sg (S u s)) (fun u s i0 => (V u s) @2 i0 i) (fun u s i0 => (V u s) @2 i0 i)).
        - intros. apply (D_kmat U Lin lin_zero lin_comb d M); assumption.
        - intros k Hk. apply (DT2 U Lin M d V); assumption.
        - intros k Hk. apply (DT2 U Lin M d V); assumption. }
      split.
      { apply (DFld_0 U Lin lin_zero lin_comb d Torch M); [assumption|]. split; [intros; cbn; apply H2|]. intros idx Hv.
        cbn [tscal tmap get]. repeat dstep. apply H2. assumption. }
      eapply near_imp; [|exact H3]. cbn beta. intros u s (E1 & E2). exists (MLocal sg co fs fv d nb (gd u s) (ct u s) t), (SF_0 Torch (S u s) (tscal (item t) (V u s)) sg).
      split; [reflexivity|]. cbn [cost field_generator]. rewrite E1, E2. cbn [bind]. split; [|split; [reflexivity|split; [|split; reflexivity]]].
      + unfold local_norm. do 4 f_equal.
        rewrite (mm_form (K_xx (S u s) sg) _ _ M d (kmat d sg (S u s)) (K_xx_sh (S u s) M d sg (proj1 H1 u s)) (proj1 H2 u s) (proj1 H2 u s)
          (fun i j _ _ => K_xx_kmat (S u s) M d sg i j Hs (proj1 H1 u s))). reflexivity.
      + apply (good_SF0 d Torch (S u s) _ sg M Hs (proj1 H1 u s)). cbn. apply H2.
    - apply DA_explicit. intros G c HG Hc. specialize (Hc u0 0). destruct c as [t|l]; [|destruct Hc]. cbn [ctrl_ok] in Hc.
      destruct W0 as (SA & Hco & _).
      assert (Sp : forall u s, prod (shape (gd u s)) = d) by (intros; rewrite (proj1 H); cbn; lia).
      exists (fun _ _ => 1 / 2 * co * item t ^ 2), (fun u s => SF_affine (tscal (item t) A) (tflatten (gd u s)) (tzeros [prod (shape (gd u s))])).
      split; [dstep|]. split.
      { apply DFld_affine; [assumption|assumption| |apply DT_flat1; assumption|].
        - split; [intros; cbn; assumption|]. intros. cbn [tscal tmap get]. dstep.
        - split; [intros; cbn; rewrite Sp; reflexivity|]. intros. cbn [tzeros get]. dstep. }
      apply near_all. intros u s. do 2 eexists. split; [cbn [fill_controls]; rewrite Hc; reflexivity|]. split; [reflexivity|]. split; [reflexivity|]. split; [|split; reflexivity].
      split; [|split; [exact I|split; [exact I|]]].
      + split; [cbn; assumption|]. split; [cbn; rewrite Sp; reflexivity|cbn; rewrite Sp; reflexivity].
      + cbn. unfold nrows. cbn. rewrite SA. reflexivity.
    - apply DA_explicit. intros G' c HG Hc. specialize (Hc u0 0). destruct c as [t|l]; [|destruct Hc]. cbn [ctrl_ok] in Hc.
      exists (fun _ _ => 0), (fun u s => SF_null d). split; [dstep|]. split; [apply DFld_null; assumption|].
      eapply near_imp; [|exact NW]. cbn beta. intros u s (WG & NE). do 2 eexists. split; [reflexivity|]. split; [reflexivity|]. split; [reflexivity|].
      pose proof (gdim_wf d _ WG NE) as GD. split; [|split; reflexivity]. split; [exact GD|]. split; [exact I|]. split; [exact I|exact GD].
    - apply DA_explicit. intros G c HG Hc. specialize (Hc u0 0). destruct c as [t|l]; [|destruct Hc]. cbn [ctrl_ok] in Hc.
      destruct W0 as (_ & (e & He) & Hs & Hnu & Hco & (r & SC) & _). rewrite SC in Hc. cbn [tnth nth] in Hc.
      pose proof (eta_basis d e He) as (Se & HE & _). set (w := sym_dim d) in *. set (n := (nb * w)%nat).
      set (A := fun q u s => rsum r (fun k => fvec t k * coords d e (growth_of d C (gd1 u s) (q / w) k) (q mod w))).
      assert (DAq : forall q, (q < n)%nat -> DD (A q)).
      { intros q Hq. unfold A, coords, frob, growth_of. repeat dstep; apply (DT3 U Lin nb d d gd1); try assumption;
          (apply Nat.div_lt_upper_bound; [intros Z; unfold n in Hq; rewrite Z in Hq; lia|unfold n in Hq; lia]). }
      assert (SA : forall u s, shape (imp1_aqh d nb e C (gd1 u s) t) = [nb; w]).
      { intros u s. apply (aqh_get d nb r w e C (gd1 u s) t 0 0); try assumption. apply H0. }
      assert (HA : forall u s q, (q < n)%nat -> fvec (imp1_aqh d nb e C (gd1 u s) t) q = A q u s).
      { intros u s q Hq. apply fvec_aqh; try assumption. apply H0. }
      set (rhs := fun u s => match b with Torch => tflatten (imp1_aqh d nb e C (gd1 u s) t) | Keops => reshape [n; 1%nat] (imp1_aqh d nb e C (gd1 u s) t) end).
      set (sh := match b with Torch => [n] | Keops => [n; 1%nat] end).
      assert (SR : forall u s, shape (rhs u s) = sh).
      { intros u s. unfold rhs, sh. destruct b; [|reflexivity]. cbn [tflatten reshape shape]. rewrite SA. cbn [prod fold_right]. unfold n. f_equal. lia. }
      assert (FR : forall u s q, (q < n)%nat -> fvec (rhs u s) q = A q u s).
      { intros u s q Hq. rewrite <- HA by assumption. unfold rhs. destruct b.
        - unfold tflatten. apply fvec_reshape_lt. rewrite SA. cbn [prod fold_right]. unfold n in Hq. lia.
        - apply fvec_reshape_lt. cbn [prod fold_right]. lia. }
      destruct (D_system n (fun q q' u s => bM d sg nu w nb e 1 (gd0 u s) q q') A
        (fun u s => S <- imp1_sks b sg nu d nb e (gd0 u s) ;; sv S (rhs u s)) sh) as (lam & HL & NL).
      + unfold sh. destruct b; [left|right]; reflexivity.
      + intros q q' Hq Hq'. unfold bM. repeat dstep. apply (D_bmatrix U Lin lin_zero lin_comb d w nb 0); [rewrite Nat.add_0_r; assumption|unfold n in *; lia|unfold n in *; lia].
      + exact DAq.
      + intros u s. apply (symmetric_diag n). pose proof (bm_sym d w nb 0 e 1 sg (vrow (gd0 u s))) as X. rewrite Nat.mul_0_l, Nat.add_0_r in X. exact X.
      + intros u. apply HR. assumption.
      + intros u s. destruct (imp1_sks_ok b sg nu d e nb (gd0 u s) Hs He (proj1 H u s)) as (S & ES & SS & GS). exists S, (rhs u s).
        rewrite ES. split; [reflexivity|]. split; [assumption|]. split; [assumption|]. split; [apply SR|apply FR].
      + assert (HQ : forall i k, (i < nb)%nat -> (k < w)%nat -> (i * w + k < n)%nat) by (intros; apply pair_lt; assumption).
        exists (fun u s => 1 / 2 * co * rsum n (fun q => A q u s * lam q u s)),
               (fun u s => SF_p b (gd0 u s) (moments_of nb d w e (fun q => lam q u s)) sg).
        split; [repeat dstep; [apply DAq|apply HL]; assumption|]. split.
        { apply (DFld_p U Lin lin_zero lin_comb d b nb); [assumption|]. split; [reflexivity|]. intros idx Hv.
          destruct idx as [|i [|a [|c [|? ?]]]]; cbn in Hv; try tauto. unfold moments_of, mk3. cbn [get]. unfold from_coords. repeat dstep.
          apply HL. apply HQ; tauto. }
        eapply near_imp; [|exact NL]. cbn beta. intros u s (l & El & Sl & Gl).
        assert (Pl : prod (shape l) = n) by (rewrite Sl; unfold sh; destruct b; cbn [prod fold_right]; lia).
        assert (HF : fill_controls sv (MImp1 b sg nu co C d nb (gd0 u s) (gd1 u s) (c0 u s) (c1 u s) h ca) (CLeaf t) =
          Ok (MImp1 b sg nu co C d nb (gd0 u s) (gd1 u s) (c0 u s) (c1 u s) t (Some (mkC1 (imp1_aqh d nb e C (gd1 u s) t) l (lam_moments nb w e l))))).
        { cbn [fill_controls]. unfold imp1_moments. rewrite He. cbn [bind]. fold w. fold n.
          destruct (imp1_sks b sg nu d nb e (gd0 u s)) as [S|x]; [|discriminate]. cbn [bind] in *. unfold rhs in El. destruct b; rewrite El; reflexivity. }
        rewrite HF. eexists. exists (SF_p b (gd0 u s) (lam_moments nb w e l) sg). split; [reflexivity|]. split; [|split; [reflexivity|split; [|split]]].
        * cbn [cost c_aqh c_lam]. do 2 f_equal. unfold tdot. rewrite SA. replace (prod [nb; w]) with n by (cbn [prod fold_right]; unfold n; lia).
          apply rsum_ext. intros k Hk. rewrite Gl, <- HA by assumption. reflexivity.
        * split; [|split; [exact I|split; [exact I|]]].
          -- cbn. split; [assumption|]. exists nb. split; [apply H|]. exact (lam_moments_shape nb w e l d Se).
          -- cbn [fdim]. unfold ncols. rewrite (proj1 H). reflexivity.
        * intros p a Ha. cbn [fval]. rewrite (DT_nrows U Lin nb [d] gd0 u s H). apply rsum_ext. intros i Hi. apply rsum_ext. intros c Hc'. unfold symP.
          rewrite !(lam_moments_get nb w e l d) by assumption. unfold moments_of, mk3, from_coords. cbn [get]. f_equal. f_equal.
          f_equal; apply rsum_ext; intros; rewrite Gl; reflexivity.
        * intros p a c Ha Hc'. cbn [fjac]. rewrite (DT_nrows U Lin nb [d] gd0 u s H). apply rsum_ext. intros i Hi. apply rsum_ext. intros c' Hc''. unfold symP.
          rewrite !(lam_moments_get nb w e l d) by assumption. unfold moments_of, mk3, from_coords. cbn [get]. f_equal. f_equal.
          f_equal; apply rsum_ext; intros; rewrite Gl; reflexivity.
    - destruct W0 as (_ & Hs & Hnu & Hco & _).
      apply (DA_block _ 1 n0 n1 (e_div d) cd sg nu co gd (fun u s t l => MDivFree sg cd nu co d n0 n1 (gd u s) (ct u s) t (Some l))
        (fun u s t => div_moments sv sg cd nu d n0 (gd u s) t)); try assumption.
      + apply e_div_sym.
      + intros u s [t|x] Hc; [|destruct Hc]. exists t. split; [reflexivity|exact Hc].
      + reflexivity.
      + intros u s t. destruct (div_sks_ok sg cd nu d n0 n1 (gd u s) Hs (proj1 H u s)) as (S & ES & SS & GS). exists S.
        unfold div_moments. rewrite ES, Nat.mul_1_r in *. split; [reflexivity|]. split; [exact SS|exact GS].
      + intros u s t x. rewrite Nat.mul_1_r. reflexivity.
      + intros u s t x Ht Sl. exact (div_field_b sg cd d n0 n1 (gd u s) x Hs (proj1 H u s) Sl).
    - destruct W0 as (_ & (e & He) & Hs & Hnu & Hco & _).
      apply (DA_block _ (sym_dim d) n0 n1 e ca sg nu co gd (fun u s t l => MArap sg ca nu co d n0 n1 (gd u s) (ct u s) t (Some l))
        (fun u s t => arap_moments sv sg ca nu d n0 n1 (gd u s) t)); try assumption.
      + exact (proj1 (proj2 (eta_basis d e He))).
      + intros u s [t|x] Hc; [|destruct Hc]. exists t. split; [reflexivity|exact Hc].
      + intros u. apply HR. assumption.
      + reflexivity.
      + intros u s t. destruct (arap_sks_ok sg ca nu d e n0 n1 (gd u s) Hs He (proj1 H u s)) as (S & ES & SS & GS). exists S.
        unfold arap_moments. rewrite ES. split; [reflexivity|]. split; [exact SS|exact GS].
      + reflexivity.
      + intros u s t x Ht Sl. exact (arap_field_b sg ca d e n0 n1 (gd u s) x Hs He (proj1 H u s) Sl).
  Qed.
End DL.
