(** A module in another unit of length, given the corresponding controls, has the cost and
    the field of the module in that unit. *)
From Coq Require Import Reals String List Arith Lia Lra.
From Verif Require Import Py RSum Tensor TensorFacts KernelModel FieldModel GeometryModel ModuleModel
  SpecLinAlg SpecKernel SpecField SpecGeometry SpecSKS SpecModule SpecShooting SpecHistory LinAlg KernelFacts FieldFacts GeometryFacts SKSFacts
  GaussPSD ModuleDual ModuleAlg ModuleLeaves ModuleImplicit ModuleMain ModuleRegular ModuleStrain ModuleBackend
  ShootingModel SpecMotion TransportFacts RigidField RigidControl SpecUnits UnitsField.
Import ListNotations.
Open Scope R_scope.

Lemma ceq_leaf r t t' : ceq (CLeaf t') (CLeaf (tscal r t)) -> prod (shape t') = prod (shape t) /\ forall k, (k < prod (shape t))%nat -> fvec t' k = r * fvec t k.
Proof. intros (E & H). change (prod (shape t') = prod (shape t)) in E. split; [exact E|]. intros k K. rewrite <- E in K. exact (H k K). Qed.
Lemma ceq_teq r t t' : shape t' = shape t -> ceq (CLeaf t') (CLeaf (tscal r t)) -> teq t' (tscal r t).
Proof. intros S (E & H). apply fvec_teq; [exact S|]. exact H. Qed.
Lemma teq_one t : teq t (tscal 1 t).
Proof. split; [reflexivity|]. intros idx _. cbn. ring. Qed.
Lemma ceq_one t t' : ceq (CLeaf t') (CLeaf t) -> ceq (CLeaf t') (CLeaf (tscal 1 t)).
Proof. intros (E & H). split; [exact E|]. intros k K. rewrite (H k K). change ((tflatten t) @1 k = 1 * (tflatten t) @1 k). ring. Qed.

Section Units.
Variables (d : nat) (u : R).
Hypothesis U0 : u <> 0.

Lemma kmat_units N sg s s' i j : sg <> 0 -> srows d u N s s' -> (i < N)%nat -> (j < N)%nat -> kmat d (u * sg) s' i j = kmat d sg s i j.
Proof.
  intros S0 P I J. unfold kmat. apply (gaussian_units d u U0); [|exact S0]. intros a A.
  apply (units_sub d u (vrow s i) (vrow s' i) (vrow s j)); [| |exact A]; intros b B; [exact (P i b I B)|exact (P j b J B)].
Qed.
Lemma rows_units r N (K K' : nat -> nat -> R) h h' : (forall i j, (i < N)%nat -> (j < N)%nat -> K' i j = K i j) -> srows d r N h h' ->
  rsum d (fun a => bil N K' (fun i => h' @2 i a) (fun i => h' @2 i a)) = r * r * rsum d (fun a => bil N K (fun i => h @2 i a) (fun i => h @2 i a)).
Proof.
  intros HK T. rewrite <- rsum_scal. apply rsum_ext. intros a A. unfold bil. rewrite <- rsum_scal. apply rsum_ext. intros i I. rewrite <- rsum_scal. apply rsum_ext. intros j J.
  rewrite HK, (T i a I A), (T j a J A) by assumption. ring.
Qed.

Definition scaled_to (m1 m1' : dmod) : Prop :=
  exists x f f', cost m1 = Ok x /\ cost m1' = Ok (u * u * x) /\ field_generator m1 = Ok f /\ field_generator m1' = Ok f' /\
    good d f /\ good d f' /\ swells d u f f'.

Variables sv sv' : solver.
Hypothesis HSV : exact_solver sv.
Hypothesis HSV' : exact_solver sv'.

Definition grows (m : dmod) : Prop := forall m' k k' m1 m1', wf_mod d m -> wf_mod d m' -> other_unit d u m m' ->
  ctrl_ok d m k -> ctrl_ok d m' k' -> ctrl_units u m m' k k' ->
  fill_controls sv m k = Ok m1 -> fill_controls sv' m' k' = Ok m1' -> scaled_to m1 m1'.

Ltac start := intros m' k k' m1 m1' W W' (TW & ((_ & G) & _)) Hk Hk' TC F F';
  destruct m'; try contradiction TW; destruct k as [t|?]; try contradiction Hk; destruct k' as [t'|?]; try contradiction Hk';
  cbn in Hk, Hk'; cbn [mod_manifold in_units g_gd] in G; cbn [ctrl_units] in TC; cbn [resized] in TW.

Lemma grows_global dim co h : grows (MGlobal dim co h).
Proof.
  start. cbn in F, F'. injection F as <-. injection F' as <-. destruct TW as (-> & ->). destruct W as (-> & Hco & Sh).
  apply (ceq_teq u t t') in TC; [|congruence].
  assert (TV : forall a, (a < d)%nat -> t' @1 a = u * t @1 a) by (intros a A; apply (proj2 TC); rewrite Hk'; cbn; auto).
  exists (1 / 2 * co * tdot t t), (SF_const t), (SF_const t'). cbn [cost field_generator].
  split; [reflexivity|]. split.
  { f_equal. rewrite !(tdot_1 _ _ d) by assumption. transitivity (1 / 2 * co * (u * u * rsum d (fun k => t @1 k * t @1 k))); [f_equal|ring].
    rewrite <- rsum_scal. apply rsum_ext. intros a A. rewrite (TV a A). ring. }
  split; [reflexivity|]. split; [reflexivity|].
  assert (GD : forall v, shape v = [d] -> good d (SF_const v)).
  { intros v Su. split; [cbn; rewrite Su; auto|]. split; [exact Logic.I|]. split; [exact Logic.I|]. cbn. unfold nrows. rewrite Su. reflexivity. }
  split; [auto|]. split; [auto|]. apply swells_const. exact TV.
Qed.

Lemma grows_trans b sg dim nb gd ct h : grows (MTrans b sg dim nb gd ct h).
Proof.
  start. cbn in F, F'. injection F as <-. injection F' as <-. destruct TW as (-> & -> & ->). destruct W as (-> & Hs & Sg & Sc).
  destruct W' as (_ & Hs' & Sg' & Sc').
  inversion G; subst. pose proof (srows_teq d u nb _ _ Sg H2) as P. apply (ceq_teq u t t') in TC; [|congruence]. pose proof (srows_teq d u nb _ _ Hk TC) as T.
  eexists. exists (SF_0 b gd t sg), (SF_0 b0 gd0 t' (u * sg)). cbn [cost field_generator].
  rewrite (trans_cost_form b sg gd t nb d), (trans_cost_form b0 (u * sg) gd0 t' nb d) by assumption.
  split; [reflexivity|]. split.
  { f_equal. rewrite (rows_units u nb (kmat d sg gd) (kmat d (u * sg) gd0) t t'); [ring| |exact T]. intros i j I J. apply (kmat_units nb); assumption. }
  do 2 (split; [reflexivity|]). split; [apply (good_SF0 d b gd t sg nb); assumption|].
  split; [apply (good_SF0 d b0 gd0 t' (u * sg) nb); assumption|].
  apply (swells_0 d u U0 b b0 nb); try assumption; unfold nrows; [rewrite Sg|rewrite Sg']; reflexivity.
Qed.

Lemma grows_imp0 b sg nu co dim nb gd ct h : grows (MImp0 b sg nu co dim nb gd ct h).
Proof.
  start. cbn in F, F'. injection F as <-. injection F' as <-. destruct TW as (-> & -> & -> & -> & ->). destruct W as (-> & Hs & Hnu & Hco & Sg & Sc).
  destruct W' as (_ & Hs' & _ & _ & Sg' & Sc').
  inversion G; subst. pose proof (srows_teq d u nb _ _ Sg H2) as P. apply (ceq_teq u t t') in TC; [|congruence]. pose proof (srows_teq d u nb _ _ Hk TC) as T.
  eexists. exists (SF_0 b gd t sg), (SF_0 b0 gd0 t' (u * sg)). cbn [cost field_generator].
  rewrite (imp0_cost_form b sg nu co gd t nb d), (imp0_cost_form b0 (u * sg) nu co gd0 t' nb d) by assumption.
  split; [reflexivity|]. split.
  { f_equal. rewrite (rows_units u nb (fun i j => kmat d sg gd i j + nu * delta i j) _ t t'); [| |exact T]; [ring|]. intros i j I J. f_equal. apply (kmat_units nb); assumption. }
  do 2 (split; [reflexivity|]). split; [apply (good_SF0 d b gd t sg nb); assumption|].
  split; [apply (good_SF0 d b0 gd0 t' (u * sg) nb); assumption|].
  apply (swells_0 d u U0 b b0 nb); try assumption; unfold nrows; [rewrite Sg|rewrite Sg']; reflexivity.
Qed.

Lemma grows_oriented sg co tr dim nb gd0 gd1 c0 c1 h : grows (MOriented sg co tr dim nb gd0 gd1 c0 c1 h).
Proof.
  start. cbn in F, F'. injection F as <-. injection F' as <-. destruct TW as (-> & -> & -> & -> & ->).
  destruct W as (-> & Hs & Hco & Sg0 & Sg1 & Sc0 & Sc1). destruct W' as (_ & Hs' & _ & Sg0' & Sg1' & _ & _).
  inversion G as [|? ? ? ? G0 GR]; subst. inversion GR as [|? ? ? ? G1 _]; subst.
  pose proof (srows_teq d u nb _ _ Sg0 G0) as P. apply (ceq_teq u t t') in TC; [|congruence].
  assert (T : srows d u nb (oriented_moments d gd1 t) (oriented_moments d gd3 t')).
  { intros j a J A. unfold oriented_moments, mk2. cbn [get]. rewrite (proj2 G1 [j; a]) by (rewrite Sg1'; cbn; auto).
    rewrite (proj2 TC [j]) by (rewrite Hk'; cbn; auto). change (get (tscal u t) [j]) with (u * t @1 j). ring. }
  assert (Sm : shape (oriented_moments d gd1 t) = [nb; d]) by (cbn; unfold nrows; rewrite Sg1; reflexivity).
  assert (Sm' : shape (oriented_moments d gd3 t') = [nb; d]) by (cbn; unfold nrows; rewrite Sg1'; reflexivity).
  eexists. exists (SF_0 Torch gd0 (oriented_moments d gd1 t) sg), (SF_0 Torch gd2 (oriented_moments d gd3 t') (u * sg)). cbn [cost field_generator].
  split; [reflexivity|]. split.
  { f_equal. unfold oriented_cost.
    rewrite (mm_form (K_xx gd0 sg) _ _ nb d (kmat d sg gd0)) by
      (assumption || (apply (K_xx_sh gd0 nb d); assumption) || (intros; apply (K_xx_kmat gd0 nb d); assumption)).
    rewrite (mm_form (K_xx gd2 (u * sg)) _ _ nb d (kmat d (u * sg) gd2)) by
      (assumption || (apply (K_xx_sh gd2 nb d); assumption) || (intros; apply (K_xx_kmat gd2 nb d); assumption)).
    rewrite (rows_units u nb (kmat d sg gd0) (kmat d (u * sg) gd2) (oriented_moments d gd1 t) (oriented_moments d gd3 t')); [| |exact T]; [ring|]. intros i j I J. apply (kmat_units nb); assumption. }
  do 2 (split; [reflexivity|]). split; [apply (good_SF0 d Torch gd0 _ sg nb); assumption|].
  split; [apply (good_SF0 d Torch gd2 _ (u * sg) nb); assumption|].
  apply (swells_0 d u U0 Torch Torch nb); try assumption; unfold nrows; [rewrite Sg0|rewrite Sg0']; reflexivity.
Qed.

Lemma grows_local sg co fs fv dim nb gd ct h : grows (MLocal sg co fs fv dim nb gd ct h).
Proof.
  start. cbn in F, F'. injection F as <-. injection F' as <-. destruct TW as (-> & -> & -> & -> & TS & _). destruct TC as (om & (O0 & TV) & TC).
  destruct W as (-> & Hs & Hco & Sg & Sc & M & s & v & Es & Ev & Ss & Sv). destruct W' as (_ & Hs' & _ & Sg' & _ & M' & s' & v' & Es' & Ev' & Ss' & Sv').
  inversion G; subst. specialize (TS gd gd0 s s' H2 Es Es'). specialize (TV gd gd0 v v' H2 Ev Ev').
  assert (M' = M). { destruct TS as (TS & _). cbn in TS. rewrite Ss, Ss' in TS. congruence. } subst M'.
  pose proof (srows_teq d u M _ _ Ss TS) as P. pose proof (srows_teq d om M _ _ Sv TV) as T.
  eexists. exists (SF_0 Torch s (tscal (item t) v) sg), (SF_0 Torch s' (tscal (item t') v') (u * sg)). cbn [cost field_generator].
  rewrite Es, Ev, Es', Ev'. cbn [bind].
  split; [reflexivity|]. split.
  { f_equal. unfold local_norm.
    rewrite (mm_form (K_xx s sg) v v M d (kmat d sg s)) by
      (assumption || (apply (K_xx_sh s M d); assumption) || (intros; apply (K_xx_kmat s M d); assumption)).
    rewrite (mm_form (K_xx s' (u * sg)) v' v' M d (kmat d (u * sg) s')) by
      (assumption || (apply (K_xx_sh s' M d); assumption) || (intros; apply (K_xx_kmat s' M d); assumption)).
    rewrite (rows_units om M (kmat d sg s) (kmat d (u * sg) s') v v'); [| |exact T]; [|intros i j I J; apply (kmat_units M); assumption].
    set (X := rsum d _). transitivity (1 / 2 * co * ((om * item t') * (om * item t')) * X); [ring|rewrite TC; ring]. }
  do 2 (split; [reflexivity|]). split; [apply (good_SF0 d Torch s _ sg M); assumption|].
  split; [apply (good_SF0 d Torch s' _ (u * sg) M); assumption|].
  apply (swells_0 d u U0 Torch Torch M); [exact Hs|unfold nrows; rewrite Ss; reflexivity|unfold nrows; rewrite Ss'; reflexivity|exact P|].
  intros j a J A. change (item t' * v' @2 j a = u * (item t * v @2 j a)). rewrite (T j a J A). transitivity (om * item t' * v @2 j a); [ring|rewrite TC; ring].
Qed.

Lemma grows_linear A co gd ct h : grows (MLinear A co gd ct h).
Proof.
  start. cbn [fill_controls] in F, F'. rewrite Hk in F. rewrite Hk' in F'. injection F as <-. injection F' as <-.
  destruct TW as (-> & TA). destruct W as (SA & Hco & Sg & Sc & _). destruct W' as (SA' & _ & Sg' & _).
  inversion G; subst. pose proof (srows_teq d u 1 _ _ Sg H2) as P.
  assert (TI : item t' = item t). { destruct TC as (_ & TC). rewrite Hk' in TC. specialize (TC 0%nat ltac:(cbn; lia)). rewrite <- (fvec_item t' (or_introl Hk')), <- (fvec_item t (or_introl Hk)). exact TC. }
  assert (GD : forall A' g, shape A' = [d; d] -> shape g = [1%nat; d] -> good d (SF_affine A' (tflatten g) (tzeros [prod (shape g)]))).
  { intros A' g SA1 Sg1. assert (Sp : prod (shape g) = d) by (rewrite Sg1; cbn; lia). rewrite Sp. split; [|split; [exact Logic.I|split; [exact Logic.I|]]].
    - split; [assumption|]. split; [cbn; rewrite Sp; reflexivity|reflexivity].
    - cbn. unfold nrows. rewrite SA1. reflexivity. }
  eexists. do 2 eexists. cbn [cost field_generator]. split; [reflexivity|]. split; [rewrite TI; f_equal; ring|].
  do 2 (split; [reflexivity|]). split; [apply GD; assumption|]. split; [apply GD; assumption|].
  assert (FV : forall g a, shape g = [1%nat; d] -> (a < d)%nat -> (tflatten g) @1 a = g @2 0%nat a).
  { intros g a Sg1 Ha. change a with (0 * d + a)%nat at 1. exact (fvec_2 g 1 d 0 a Sg1 ltac:(lia) Ha). }
  apply swells_affine.
  - intros i j I J. unfold tscal, tmap. cbn [get]. rewrite TI. f_equal. apply (proj2 TA). rewrite SA'. cbn. auto.
  - intros a Ha. rewrite !FV by assumption. exact (P 0%nat a ltac:(lia) Ha).
  - intros a Ha. cbn. ring.
Qed.

Lemma grows_silent man : grows (MSilent man).
Proof.
  start. cbn in F, F'. injection F as <-. injection F' as <-. destruct W as (W0 & NE0). destruct W' as (W0' & NE0').
  exists 0, (SF_null (gdim man)), (SF_null (gdim man0)). cbn [cost field_generator]. split; [reflexivity|]. split; [f_equal; ring|]. do 2 (split; [reflexivity|]).
  pose proof (gdim_wf d man W0 NE0) as GD. pose proof (gdim_wf d man0 W0' NE0') as GD'.
  split; [repeat split; exact GD|]. split; [repeat split; exact GD'|]. apply swells_null.
Qed.

Lemma grows_block s n0 n1 e ka sg nu co gd gd' t t' S S' l l' f f' m1 m1' :
  let N := (n0 * s)%nat in
  let n := (N + n1 * d)%nat in
  let M q q' := bmatrix d s n0 e ka sg (vrow gd) q q' + nu * delta q q' in
  let M' q q' := bmatrix d s n0 e (u * ka) (u * sg) (vrow gd') q q' + nu * delta q q' in
  sg <> 0 -> sym_tensor d s e ->
  shape gd = [(n0 + n1)%nat; d] -> shape gd' = [(n0 + n1)%nat; d] -> srows d u (n0 + n1) gd gd' ->
  pad_shape d n1 t -> pad_shape d n1 t' -> ceq (CLeaf t') (CLeaf (tscal u t)) ->
  shape S = [n; n] -> (forall q q', (q < n)%nat -> (q' < n)%nat -> entries S q q' = M q q') ->
  shape S' = [n; n] -> (forall q q', (q < n)%nat -> (q' < n)%nat -> entries S' q q' = M' q q') ->
  sv S (pad_controls N t) = Ok l -> sv' S' (pad_controls N t') = Ok l' ->
  cost m1 = Ok (1 / 2 * co * tdot (pad_controls N t) l) -> cost m1' = Ok (1 / 2 * co * tdot (pad_controls N t') l') ->
  (shape l = [n] -> field_generator m1 = Ok f /\ good d f /\
     (forall p a, (a < d)%nat -> fval d f p a = fval d (b_field d s n0 n1 e ka sg gd (fun q => l @1 q)) p a) /\
     (forall p a c, (a < d)%nat -> (c < d)%nat -> fjac d f p a c = fjac d (b_field d s n0 n1 e ka sg gd (fun q => l @1 q)) p a c)) ->
  (shape l' = [n] -> field_generator m1' = Ok f' /\ good d f' /\
     (forall p a, (a < d)%nat -> fval d f' p a = fval d (b_field d s n0 n1 e (u * ka) (u * sg) gd' (fun q => l' @1 q)) p a) /\
     (forall p a c, (a < d)%nat -> (c < d)%nat -> fjac d f' p a c = fjac d (b_field d s n0 n1 e (u * ka) (u * sg) gd' (fun q => l' @1 q)) p a c)) ->
  scaled_to m1 m1'.
Proof.
  intros N n M M' S0 HE Sg Sg' P Ht Ht' TC SS SE SS' SE' El El' C1 C1' F1 F1'.
  assert (HP : forall v, pad_shape d n1 v -> shape (pad_controls N v) = [n]).
  { intros v [E|E]; rewrite pad_controls_shape, E; unfold n; f_equal; cbn; lia. }
  destruct (solver_vec sv n S _ l M HSV SS (HP t Ht) El SE) as (_ & Sl & HL).
  destruct (solver_vec sv' n S' _ l' M' HSV' SS' (HP t' Ht') El' SE') as (NS' & Sl' & HL').
  assert (EB : forall q, (q < n)%nat -> (pad_controls N t') @1 q = u * (pad_controls N t) @1 q).
  { intros q Hq. change (pad N (fvec t') q = u * pad N (fvec t) q). destruct (Nat.ltb_spec q N) as [L|L]; [rewrite !pad_lo by exact L; ring|].
    replace q with (N + (q - N))%nat by lia. rewrite !pad_hi. apply (ceq_leaf u t t' TC). destruct Ht as [-> | ->]; cbn [prod fold_right]; unfold n in Hq; nia. }
  assert (EL : forall q, (q < n)%nat -> l' @1 q = u * l @1 q).
  { apply (solves_unique n M' _ (fun q => u * l @1 q) (fun k => (pad_controls N t') @1 k) NS' HL'). intros q Hq. rewrite EB, <- (HL q Hq) by exact Hq. rewrite <- rsum_scal. apply rsum_ext. intros q' Hq'.
    unfold M', M. rewrite (bmatrix_units d u U0 s n0 n1 e ka sg gd gd' S0 P q q' Hq Hq'). ring. }
  destruct (F1 Sl) as (E1 & GD & FV & FJ). destruct (F1' Sl') as (E1' & GD' & FV' & FJ').
  exists (1 / 2 * co * tdot (pad_controls N t) l), f, f'. split; [exact C1|]. split.
  { rewrite C1'. f_equal. rewrite !(tdot_1 _ _ n) by (assumption || (apply HP; assumption)).
    transitivity (1 / 2 * co * (u * u * rsum n (fun k => (pad_controls N t) @1 k * l @1 k))); [f_equal|ring]. rewrite <- rsum_scal. apply rsum_ext. intros q Hq. rewrite EB, EL by exact Hq. ring. }
  do 4 (split; [assumption|]).
  pose proof (swells_b d u U0 s n0 n1 e ka sg gd gd' S0 P Sg Sg' HE (fun q => l @1 q) (fun q => l' @1 q) EL) as CB.
  intros x x' X. destruct (CB x x' X) as [V J]. split.
  - intros a A. rewrite FV', V, FV by exact A. reflexivity.
  - intros a k A K. rewrite FJ', J, FJ by assumption. reflexivity.
Qed.

Lemma grows_div sg cd nu co dim n0 n1 gd ct h la : grows (MDivFree sg cd nu co dim n0 n1 gd ct h la).
Proof.
  start. cbn [fill_controls] in F, F'. bok F l El. bok F' l' El'. injection F as <-. injection F' as <-.
  destruct TW as (-> & -> & -> & -> & -> & -> & ->). destruct W as (-> & Hs & Hnu & Hco & Sg & _). destruct W' as (_ & Hs' & _ & _ & Sg' & _).
  inversion G; subst. pose proof (srows_teq d u _ _ _ Sg H2) as P.
  destruct (div_sks_ok sg cd nu d n0 n1 gd Hs Sg) as (S & ES & SS & GS). destruct (div_sks_ok (u * sg) (u * cd) nu d n0 n1 gd0 Hs' Sg') as (S' & ES' & SS' & GS').
  unfold div_moments in El, El'. rewrite ES in El. rewrite ES' in El'. cbn [bind] in El, El'. rewrite <- (Nat.mul_1_r n0) in El, El' at 1.
  assert (FX : forall sg cd g v (_ : sg <> 0) (W : shape g = [(n0 + n1)%nat; d]), exists f, shape v = [(n0 * 1 + n1 * d)%nat] -> div_field sg cd n0 g v = Ok f /\ good d f /\
     (forall p a, (a < d)%nat -> fval d f p a = fval d (b_field d 1 n0 n1 (e_div d) cd sg g (fun q => v @1 q)) p a) /\
     (forall p a c, (a < d)%nat -> (c < d)%nat -> fjac d f p a c = fjac d (b_field d 1 n0 n1 (e_div d) cd sg g (fun q => v @1 q)) p a c)).
  { intros sg1 cd1 g v H1 Wg. destruct (list_eq_dec Nat.eq_dec (shape v) [(n0 * 1 + n1 * d)%nat]) as [E|E].
    - destruct (div_field_b sg1 cd1 d n0 n1 g v H1 Wg E) as (f & X). exists f. intros _. exact X.
    - exists (SF_null 0). intros E'. contradiction. }
  destruct (FX sg cd gd l Hs Sg) as (f & Ef). destruct (FX (u * sg) (u * cd) gd0 l' Hs' Sg') as (f' & Ef').
  eapply (grows_block 1 n0 n1 (e_div d) cd sg nu co gd gd0 t t' S S' l l' f f'); try eassumption.
  - apply e_div_sym.
  - cbn [cost]. rewrite Nat.mul_1_r. reflexivity.
  - cbn [cost]. rewrite Nat.mul_1_r. reflexivity.
Qed.

Lemma grows_arap sg ca nu co dim n0 n1 gd ct h la : grows (MArap sg ca nu co dim n0 n1 gd ct h la).
Proof.
  start. cbn [fill_controls] in F, F'. bok F l El. bok F' l' El'. injection F as <-. injection F' as <-.
  destruct TW as (-> & -> & -> & -> & -> & -> & ->). destruct W as (-> & (e & He) & Hs & Hnu & Hco & Sg & _). destruct W' as (_ & _ & Hs' & _ & _ & Sg' & _).
  inversion G; subst. pose proof (srows_teq d u _ _ _ Sg H2) as P. pose proof (eta_basis d e He) as HB.
  destruct (arap_sks_ok sg ca nu d e n0 n1 gd Hs He Sg) as (S & ES & SS & GS). destruct (arap_sks_ok (u * sg) (u * ca) nu d e n0 n1 gd0 Hs' He Sg') as (S' & ES' & SS' & GS').
  unfold arap_moments in El, El'. rewrite ES in El. rewrite ES' in El'. cbn [bind] in El, El'.
  assert (FX : forall sg ca g v (_ : sg <> 0) (W : shape g = [(n0 + n1)%nat; d]), exists f, shape v = [(n0 * sym_dim d + n1 * d)%nat] -> arap_field sg ca d n0 g v = Ok f /\ good d f /\
     (forall p a, (a < d)%nat -> fval d f p a = fval d (b_field d (sym_dim d) n0 n1 e ca sg g (fun q => v @1 q)) p a) /\
     (forall p a c, (a < d)%nat -> (c < d)%nat -> fjac d f p a c = fjac d (b_field d (sym_dim d) n0 n1 e ca sg g (fun q => v @1 q)) p a c)).
  { intros sg1 ca1 g v H1 Wg. destruct (list_eq_dec Nat.eq_dec (shape v) [(n0 * sym_dim d + n1 * d)%nat]) as [E|E].
    - destruct (arap_field_b sg1 ca1 d e n0 n1 g v H1 He Wg E) as (f & X). exists f. intros _. exact X.
    - exists (SF_null 0). intros E'. contradiction. }
  destruct (FX sg ca gd l Hs Sg) as (f & Ef). destruct (FX (u * sg) (u * ca) gd0 l' Hs' Sg') as (f' & Ef').
  eapply (grows_block (sym_dim d) n0 n1 e ca sg nu co gd gd0 t t' S S' l l' f f'); try eassumption; try reflexivity.
  exact (proj1 (proj2 HB)).
Qed.

Lemma grows_imp1 b sg nu co C dim nb gd0 gd1 c0 c1 h ca : grows (MImp1 b sg nu co C dim nb gd0 gd1 c0 c1 h ca).
Proof.
  start. cbn [fill_controls] in F, F'. bok F k1 Ek1. bok F' k2 Ek2. injection F as <-. injection F' as <-.
  destruct TW as (-> & -> & -> & TWC & -> & ->).
  destruct W as (-> & (e & He) & Hs & Hnu & Hco & (r & SC) & Sg0 & Sg1 & Sc0 & Sc1). destruct W' as (_ & _ & Hs' & _ & _ & (r' & SC') & Sg0' & Sg1' & _).
  rewrite SC in Hk. cbn in Hk. rewrite SC' in Hk'. cbn in Hk'.
  assert (r' = r). { destruct TWC as (E & _). rewrite SC, SC' in E. congruence. } subst r'.
  inversion G as [|? ? ? ? G0 GR]; subst. inversion GR as [|? ? ? ? G1 _]; subst.
  pose proof (srows_teq d u nb _ _ Sg0 G0) as P. apply ceq_one in TC. apply (ceq_teq 1 t t') in TC; [|congruence].
  pose proof (eta_basis d e He) as HB. pose proof HB as (Se & HE & _).
  set (s := sym_dim d) in *.
  destruct (imp1_lam sv d HSV b sg nu C nb gd0 gd1 r e t k1 Hs He Sg0 Sg1 SC Hk Ek1) as (A1 & SA1 & P1 & M1 & _ & S1).
  destruct (imp1_lam sv' d HSV' b0 (u * sg) (nu / (u * u)) C0 nb gd2 gd3 r e t' k2 Hs' He Sg0' Sg1' SC' Hk' Ek2) as (A2 & SA2 & P2 & M2 & NS2 & S2).
  fold s in SA1, P1, M1, S1, SA2, P2, M2, NS2, S2.
  assert (GT : forall i, (i < nb)%nat -> forall a l, (a < d)%nat -> (l < d)%nat -> growth d r C0 gd3 t' i a l = growth d r C gd1 t i a l).
  { intros i Hi a l Ha Hl. unfold growth. apply rsum_ext. intros j J. rewrite !(proj2 G1 [i; _; _]) by (rewrite Sg1'; cbn; auto). f_equal. f_equal. apply rsum_ext. intros v V.
    rewrite (proj2 TWC [i; j; v]) by (rewrite SC'; cbn; auto). rewrite (proj2 TC [v]) by (rewrite Hk'; cbn; auto). change (get (tscal 1 t) [v]) with (1 * t @1 v). ring. }
  assert (AG : forall i w, (i < nb)%nat -> (w < s)%nat -> fvec (imp1_aqh d nb e C gd1 t) (i * s + w)%nat = coords d e (growth d r C gd1 t i) w).
  { intros i w Hi Hw. rewrite (fvec_2 _ nb s); [|rewrite <- A1; exact SA1|exact Hi|exact Hw]. apply (aqh_growth d nb r s); assumption. }
  assert (AG' : forall i w, (i < nb)%nat -> (w < s)%nat -> fvec (imp1_aqh d nb e C0 gd3 t') (i * s + w)%nat = coords d e (growth d r C0 gd3 t' i) w).
  { intros i w Hi Hw. rewrite (fvec_2 _ nb s); [|rewrite <- A2; exact SA2|exact Hi|exact Hw]. apply (aqh_growth d nb r s); assumption. }
  assert (AE : forall q, (q < nb * s)%nat -> fvec (imp1_aqh d nb e C0 gd3 t') q = fvec (imp1_aqh d nb e C gd1 t) q).
  { intros q Hq. destruct (row_split s nb q) as (i & w & Hi & Hw & ->); [lia|]. rewrite AG, AG' by assumption. apply coords_ext. intros a l Ha Hl. apply GT; assumption. }
  assert (EL : forall q, (q < nb * s)%nat -> fvec (c_lam k2) q = u ^ 2 * fvec (c_lam k1) q).
  { assert (Pz : srows d u (nb + 0) gd0 gd2) by (rewrite Nat.add_0_r; exact P).
    apply (solves_unique (nb * s) _ _ (fun q => u ^ 2 * fvec (c_lam k1) q) _ NS2 S2). intros q Hq. rewrite AE, <- (S1 q Hq) by exact Hq. apply rsum_ext. intros q' Hq'.
    rewrite (bmatrix_growth d u U0 s nb 0 e sg gd0 gd2 Hs Pz q q' eq_refl Hq Hq'). field. exact U0. }
  destruct (imp1_field_b d b sg e nb gd0 (c_lam k1) Hs He Sg0 P1) as (G1' & _).
  destruct (imp1_field_b d b0 (u * sg) e nb gd2 (c_lam k2) Hs' He Sg0' P2) as (G2' & _). fold s in G1', G2'.
  eexists. exists (SF_p b gd0 (c_mom k1) sg), (SF_p b0 gd2 (c_mom k2) (u * sg)). cbn [cost field_generator].
  split; [reflexivity|]. split.
  { f_equal. unfold tdot. rewrite SA1, SA2. 
    transitivity (1 / 2 * co * (u * u * rsum (prod [nb; s]) (fun k => fvec (c_aqh k1) k * fvec (c_lam k1) k))); [f_equal|unfold fvec; ring].
    rewrite <- rsum_scal. apply rsum_ext. intros q Hq. replace (prod [nb; s]) with (nb * s)%nat in Hq by (cbn [prod fold_right]; lia).
    change (fvec (c_aqh k2) q * fvec (c_lam k2) q = u * u * (fvec (c_aqh k1) q * fvec (c_lam k1) q)). rewrite EL, A1, A2, AE by exact Hq. ring. }
  split; [reflexivity|]. split; [reflexivity|]. rewrite M1, M2. split; [exact G1'|]. split; [exact G2'|].
  apply (swells_p d u U0 b b0 nb); [exact Hs|unfold nrows; rewrite Sg0; reflexivity|unfold nrows; rewrite Sg0'; reflexivity|exact P|].
  intros j a l Hj Ha Hl. unfold symP. rewrite !(lam_moments_get nb s e _ d) by assumption.
  assert (X : forall a l, from_coords s e (fun w => fvec (c_lam k2) (j * s + w)%nat) a l = u ^ 2 * from_coords s e (fun w => fvec (c_lam k1) (j * s + w)%nat) a l).
  { intros x y. unfold from_coords. rewrite <- rsum_scal. apply rsum_ext. intros w Hw. rewrite EL by (apply pair_lt; assumption). ring. }
  rewrite !X. unfold Rdiv. ring.
Qed.

(** Compounds. *)
Lemma unit_comp ms ms' : other_unit d u (MComp ms) (MComp ms') -> Forall2 (other_unit d u) ms ms'.
Proof.
  intros (T & V). cbn [mod_manifold in_units] in V. apply (same_values_comp 0 (fun _ => 0)) in V. cbn [resized] in T. revert ms' T V.
  induction ms as [|m ms IH]; intros [|m' ms'] T V; try contradiction T; [constructor|]. destruct T as (T & TS). cbn [map] in V. inversion V; subst.
  constructor; [split; assumption|apply IH; assumption].
Qed.

Lemma scaled_sums ms ms' : Forall2 scaled_to ms ms' -> exists xs fs fs', mapM cost ms = Ok xs /\ mapM cost ms' = Ok (map (fun x => u * u * x) xs) /\
  fields ms = Ok fs /\ fields ms' = Ok fs' /\ Forall (good d) fs /\ Forall (good d) fs' /\ Forall2 (swells d u) fs fs'.
Proof.
  induction 1 as [|m1 m2 ms1 ms2 (x & f & f' & C & C' & F & F' & G & G' & SF) _ (xs & fs & fs' & Cs & Cs' & Fs & Fs' & Gs & Gs' & SFs)].
  - exists [], [], []. repeat split; constructor.
  - exists (x :: xs), (f :: fs), (f' :: fs'). cbn [mapM fields map]. fold fields. rewrite C, C', F, F', Cs, Cs', Fs, Fs'. cbn [bind].
    repeat split; try constructor; auto.
Qed.

Theorem module_grows m : grows m.
Proof.
  induction m as [m NC|ms IH] using dmod_ind'.
  - destruct m; [apply grows_global|apply grows_trans|apply grows_imp0|apply grows_oriented|apply grows_local|apply grows_linear|apply grows_silent
      |apply grows_imp1|apply grows_div|apply grows_arap|elim (NC ms eq_refl)].
  - intros m' k k' m1 m1' W W' EW Hk Hk' TC F F'.
    destruct m' as [| | | | | | | | | |ms']; try (destruct EW as (T & _); contradiction T).
    apply unit_comp in EW. destruct k as [t|cs]; [destruct Hk|]. destruct k' as [t'|cs']; [destruct Hk'|].
    destruct W as (NE & W). destruct W' as (NE' & W'). rewrite fill_comp in F, F'.
    destruct (Nat.eqb (length cs) (length ms)); [|discriminate]. destruct (Nat.eqb (length cs') (length ms')); [|discriminate].
    bok F ms1 F1. bok F' ms1' F1'. injection F as <-. injection F' as <-. cbn [ctrl_ok] in Hk, Hk'. cbn [ctrl_units] in TC.
    assert (HA : Forall2 scaled_to ms1 ms1' /\ length ms1 = length ms).
    { clear NE NE'. revert ms' cs cs' ms1 ms1' W' EW Hk Hk' TC F1 F1'. induction IH as [|m ms Hm _ IHs]; intros ms' cs cs' ms1 ms1' W' EW Hk Hk' TC F1 F1'.
      - inversion EW; subst. destruct cs; [|destruct Hk]. destruct cs'; [|destruct Hk']. injection F1 as <-. injection F1' as <-. split; [constructor|reflexivity].
      - inversion EW as [|? m' ? r' E1 ER]; subst. destruct cs as [|k cs]; [destruct Hk|]. destruct cs' as [|k' cs']; [destruct Hk'|].
        destruct Hk as (Hk & Hks). destruct Hk' as (Hk' & Hks'). destruct TC as (TC & TCs). destruct W as (W & Ws). destruct W' as (W' & Ws').
        cbn [fills] in F1, F1'. fold (fills sv) in F1. fold (fills sv') in F1'. bok F1 n1 En. bok F1 r1 Er. injection F1 as <-.
        bok F1' n1' En'. bok F1' r1' Er'. injection F1' as <-. destruct (IHs Ws r' cs cs' r1 r1' Ws' ER Hks Hks' TCs Er Er') as (H & L).
        split; [constructor; [eapply Hm; eassumption|assumption]|cbn; lia]. }
    destruct HA as (HA & L). destruct (scaled_sums ms1 ms1' HA) as (xs & fs & fs' & Cs & Cs' & Fs & Fs' & Gs & Gs' & SFs).
    assert (NF : fs <> [] /\ fs' <> []).
    { destruct ms as [|m ms]; [congruence|]. destruct ms1 as [|n1 ms1]; [discriminate|].
      inversion HA; subst. cbn [fields] in Fs, Fs'. bok Fs g1 Eg1. bok Fs r1 Er1. bok Fs' g2 Eg2. bok Fs' r2 Er2.
      injection Fs as <-. injection Fs' as <-. split; discriminate. }
    destruct (good_sum d fs (proj1 NF) Gs) as (SC & GS). destruct (good_sum d fs' (proj2 NF) Gs') as (SC' & GS').
    exists (fold_right Rplus 0 xs), (SF_sum fs), (SF_sum fs').
    rewrite !cost_comp, Cs, Cs'. split; [reflexivity|]. split.
    { cbn [bind]. f_equal. clear. induction xs as [|x xs IH]; cbn [map fold_right]; [ring|rewrite IH; ring]. }
    change (field_generator (MComp ms1)) with (fs <- fields ms1 ;; sum_ctor fs).
    change (field_generator (MComp ms1')) with (fs <- fields ms1' ;; sum_ctor fs).
    rewrite Fs, Fs'. split; [exact SC|]. split; [exact SC'|]. split; [assumption|]. split; [assumption|]. apply swells_sum; assumption.
Qed.
End Units.
