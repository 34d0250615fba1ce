(** Regular configurations stay regular when they are placed elsewhere. *)
From Coq Require Import Reals String List Arith Lia Lra.
From Verif Require Import Py RSum Tensor TensorFacts KernelModel FieldModel GeometryModel ModuleModel
  SpecLinAlg SpecKernel SpecField SpecGeometry SpecSKS SpecModule SpecShooting SpecHistory LinAlg KernelFacts FieldFacts GeometryFacts SKSFacts
  GaussPSD ModuleDual ModuleAlg ModuleLeaves ModuleImplicit ModuleMain ModuleRegular ModuleStrain ModuleBackend SolverExists
  ShootingModel SpecMotion SpecRigid RigidField RigidBlock RigidModule.
Import ListNotations.
Open Scope R_scope.

Section There.
Variables (d : nat) (Q : mat).
Hypothesis HQ : rigid d Q.
Variable c : nat -> R.

Lemma rigid_back : rigid d (mtr Q).
Proof. destruct HQ as (A & B). split; [exact B|]. exact A. Qed.
Lemma turned_nil u : (forall a, (a < d)%nat -> turned d Q u a = 0) -> forall b, (b < d)%nat -> u b = 0.
Proof.
  intros H b B. rewrite <- (turned_back d (mtr Q) rigid_back u b B). change (mtr (mtr Q)) with Q.
  rewrite (turned_ext d (mtr Q) _ (fun _ => 0)) by exact H. apply turned_zero.
Qed.
Lemma conj_nil A : (forall a l, (a < d)%nat -> (l < d)%nat -> conj_by d Q A a l = 0) -> forall a l, (a < d)%nat -> (l < d)%nat -> A a l = 0.
Proof.
  intros H b k B K. apply (turned_nil (A b)); [|exact K]. intros l L.
  apply (turned_nil (fun b => turned d Q (A b) l)); [|exact B]. intros a A'. exact (H a l A' L).
Qed.
Lemma distinct_there N s s' : prows d Q c N s s' -> distinct d N (vrow s) -> distinct d N (vrow s').
Proof.
  intros P D i j I J NE. destruct (D i j I J NE) as (k & K & N0).
  destruct (first_nonzero d (fun a => vsub (vrow s' i) (vrow s' j) a)) as [A|(a & A & X)]; [|exists a; split; [exact A|]; unfold vsub in X; lra]. exfalso. apply N0.
  apply Rminus_diag_uniq. apply (turned_nil (vsub (vrow s i) (vrow s j))); [|exact K]. intros a La.
  rewrite <- (placed_sub d Q c (vrow s i) (vrow s' i) (vrow s j) (vrow s' j) a); [|intros b B; exact (P i b I B)|intros b B; exact (P j b J B)|exact La].
  exact (A a La).
Qed.

Lemma regular_there m : forall m', wf_mod d m -> wf_mod d m' -> elsewhere d Q c m m' -> regular d m -> regular d m'.
Proof.
  induction m as [m NC|ms IH] using dmod_ind'.
  - intros m' W W' (TW & ((_ & G) & _)) RG. destruct m; destruct m'; try contradiction TW; try elim (NC ms eq_refl);
      cbn [mod_manifold placed_man g_gd] in G; cbn [twin] in TW; cbn [regular] in *; cbn [wf_mod] in W, W'; try exact Logic.I.
    + destruct TW as (-> & -> & ->). destruct W as (-> & _ & Sg & _). inversion G; subst. eapply distinct_there; [|exact RG]. eapply prows_teq; eassumption.
    + destruct TW as (-> & -> & -> & -> & ->). destruct W as (-> & _ & _ & _ & Sg & _). inversion G; subst. destruct RG as [RG|RG]; [left; exact RG|right]. eapply distinct_there; [|exact RG]. eapply prows_teq; eassumption.
    + destruct TW as (-> & -> & -> & -> & ->). destruct W as (-> & _ & _ & Sg0 & Sg1 & _). inversion G as [|? ? ? ? G0 GR]; subst. inversion GR as [|? ? ? ? G1 _]; subst.
      destruct RG as (RG & NZ). split; [eapply distinct_there; [|exact RG]; eapply prows_teq; eassumption|].
      intros i I. destruct (NZ i I) as (a & A & N0). destruct (first_nonzero d (fun a => gd3 @2 i a)) as [Z|Z]; [|exact Z]. exfalso. apply N0.
      apply (turned_nil (vrow gd1 i)); [|exact A]. intros b B. rewrite <- (trows_teq d Q nb _ _ Sg1 G1 i b I B). exact (Z b B).
    + destruct TW as (-> & -> & -> & -> & TW). destruct W as (-> & _ & _ & Sg & _ & M & s & v & Es & Ev & Ss & Sv). inversion G; subst. intros s' v' Es' Ev'.
      destruct (TW gd gd0 s v s' v' H2 Es Ev Es' Ev') as (TS & TV). destruct (RG s v Es Ev) as (DS & i & a & I & A & N0).
      assert (N : nrows s' = nrows s) by (unfold nrows; rewrite (proj1 TS); reflexivity). assert (NM : nrows s = M) by (unfold nrows; rewrite Ss; reflexivity). rewrite N.
      rewrite NM in *. split; [eapply distinct_there; [|exact DS]; eapply prows_teq; eassumption|]. exists i.
      destruct (first_nonzero d (fun a => v' @2 i a)) as [Z|(b & B & Z)]; [|exists b; auto]. exfalso. apply N0.
      apply (turned_nil (vrow v i)); [|exact A]. intros b B. rewrite <- (trows_teq d Q M _ _ Sv TV i b I B). exact (Z b B).
    + destruct TW as (-> & -> & -> & TWC & -> & ->). destruct W as (-> & _ & _ & _ & _ & (r & SC) & Sg0 & Sg1 & _).
      inversion G as [|? ? ? ? G0 GR]; subst. inversion GR as [|? ? ? ? G1 _]; subst. destruct RG as (RG & NZ).
      split; [destruct RG as [RG|RG]; [left; exact RG|right]; eapply distinct_there; [|exact RG]; eapply prows_teq; eassumption|].
      rewrite (proj1 TWC), SC. rewrite SC in NZ. cbn [tnth nth] in *. intros h' Sh H0. apply (NZ h' Sh). intros n a1 b1 Hn. revert a1 b1. apply conj_nil. intros a l A L.
      rewrite <- (growth_turned d Q r C C0 gd1 gd3 h' h' nb n Hn SC TWC Sh (teq_refl _) (tframes_teq d Q nb _ _ Sg1 G1) a l A L). exact (H0 n a l Hn A L).
    + destruct TW as (-> & -> & -> & -> & -> & -> & ->). destruct W as (-> & _ & _ & _ & Sg & _). inversion G; subst. destruct RG as [RG|(N & D0 & RG)]; [left; exact RG|right]. split; [exact N|]. split; [exact D0|]. eapply distinct_there; [|exact RG]. eapply prows_teq; eassumption.
    + destruct TW as (-> & -> & -> & -> & -> & -> & ->). destruct W as (-> & _ & _ & _ & _ & Sg & _). inversion G; subst. destruct RG as [RG|(N & RG)]; [left; exact RG|right]. split; [exact N|]. eapply distinct_there; [|exact RG]. eapply prows_teq; eassumption.
  - intros m' W W' EW RG. destruct m' as [| | | | | | | | | |ms']; try (destruct EW as (T & _); contradiction T).
    apply elsewhere_comp in EW. destruct W as (_ & W). destruct W' as (_ & W'). cbn [regular] in *. revert IH W W' RG. induction EW as [|m m' ms ms' E EW IHe]; intros IH W W' RG; [exact Logic.I|].
    inversion IH as [|? ? Hm IHs]; subst. destruct W, W', RG. split; [apply Hm; assumption|apply IHe; assumption].
Qed.
End There.
