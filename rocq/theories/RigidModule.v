(** A module placed elsewhere by a rigid motion, given the turned controls, has the same
    cost and carries its field along. *)
From Coq Require Import Reals String List Arith Lia Lra.
From Verif Require Import Py RSum Tensor TensorFacts KernelModel FieldModel GeometryModel ModuleModel
  SpecLinAlg SpecKernel SpecField SpecGeometry SpecSKS SpecModule SpecShooting SpecHistory LinAlg KernelFacts FieldFacts GeometryFacts SKSFacts
  GaussPSD ModuleDual ModuleAlg ModuleLeaves ModuleImplicit ModuleMain ModuleRegular ModuleStrain ModuleBackend
  ShootingModel SpecMotion SpecRigid RigidField RigidBlock.
Import ListNotations.
Open Scope R_scope.

Section Turn.
Variables (d : nat) (Q : mat).
Hypothesis HQ : rigid d Q.
Variable c : nat -> R.

Lemma kmat_placed N sg s s' i j : prows d Q c N s s' -> (i < N)%nat -> (j < N)%nat -> kmat d sg s' i j = kmat d sg s i j.
Proof.
  intros P I J. unfold kmat. apply (gaussian_turned d Q HQ). intros a A.
  apply (placed_sub d Q c (vrow s i) (vrow s' i) (vrow s j)); [| |exact A]; intros b B; [exact (P i b I B)|exact (P j b J B)].
Qed.

Lemma rows_form N (K K' : nat -> nat -> R) h h' : (forall i j, (i < N)%nat -> (j < N)%nat -> K' i j = K i j) -> trows d Q N h h' ->
  rsum d (fun a => bil N K' (fun i => h' @2 i a) (fun i => h' @2 i a)) = rsum d (fun a => bil N K (fun i => h @2 i a) (fun i => h @2 i a)).
Proof.
  intros HK T.
  assert (SW : forall (L : nat -> nat -> R) u, rsum d (fun a => bil N L (fun i => u @2 i a) (fun i => u @2 i a)) =
            rsum N (fun i => rsum N (fun j => L i j * rsum d (fun a => u @2 i a * u @2 j a)))).
  { intros L u. unfold bil. rewrite (rsum_swap d N). apply rsum_ext. intros i _. rewrite (rsum_swap d N). apply rsum_ext. intros j _.
    rewrite <- rsum_scal. apply rsum_ext. intros; ring. }
  rewrite !SW. apply rsum_ext. intros i I. apply rsum_ext. intros j J. rewrite HK by assumption. f_equal.
  etransitivity; [|exact (turned_dot d Q HQ (vrow h i) (vrow h j))]. apply rsum_ext. intros a A.
  rewrite (T i a I A), (T j a J A). reflexivity.
Qed.

Definition moved_to (m1 m1' : dmod) : Prop :=
  exists x f f', cost m1 = Ok x /\ cost m1' = Ok x /\ field_generator m1 = Ok f /\ field_generator m1' = Ok f' /\
    good d f /\ good d f' /\ carries d Q c f f'.

Variables sv sv' : solver.
Hypothesis HSV : exact_solver sv.
Hypothesis HSV' : exact_solver sv'.

Definition goes (m : dmod) : Prop := forall m' k k' m1 m1', wf_mod d m -> wf_mod d m' -> elsewhere d Q c m m' ->
  ctrl_ok d m k -> ctrl_ok d m' k' -> turned_ctrl d Q m k k' ->
  fill_controls sv m k = Ok m1 -> fill_controls sv' m' k' = Ok m1' -> moved_to m1 m1'.

Ltac start := intros m' k k' m1 m1' W W' (TW & ((_ & G) & _)) Hk Hk' TC F F';
  destruct m'; try contradiction TW; destruct k as [t|?]; try contradiction Hk; destruct k' as [t'|?]; try contradiction Hk';
  cbn in Hk, Hk'; cbn [mod_manifold placed_man g_gd] in G; cbn [turned_ctrl] in TC.

Lemma goes_global dim co h : goes (MGlobal dim co h).
Proof.
  start. cbn in F, F'. injection F as <-. injection F' as <-. destruct TW as (-> & ->). destruct W as (-> & Hco & Sh). 
  exists (1 / 2 * co * tdot t t), (SF_const t), (SF_const t'). cbn [cost field_generator].
  split; [reflexivity|]. split.
  { f_equal. f_equal. rewrite !(tdot_1 _ _ d) by assumption. rewrite <- (turned_dot d Q HQ (fun a => t @1 a)). apply rsum_ext. intros a A.
    rewrite (TC a A). reflexivity. }
  split; [reflexivity|]. split; [reflexivity|]. 
  assert (GD : forall u, shape u = [d] -> good d (SF_const u)).
  { intros u Su. split; [cbn; rewrite Su; auto|]. split; [exact Logic.I|]. split; [exact Logic.I|]. cbn. unfold nrows. rewrite Su. reflexivity. }
  split; [auto|]. split; [auto|]. apply carries_const. exact TC.
Qed.

Lemma goes_trans b sg dim nb gd ct h : goes (MTrans b sg dim nb gd ct h).
Proof.
  start. cbn in F, F'. injection F as <-. injection F' as <-. destruct TW as (-> & -> & ->). destruct W as (-> & Hs & Sg & Sc).
  destruct W' as (_ & _ & Sg' & Sc').
  inversion G; subst. pose proof (prows_teq d Q c nb _ _ Sg H2) as P. pose proof (trows_teq d Q nb _ _ Hk TC) as T.
  eexists. exists (SF_0 b gd t sg), (SF_0 b0 gd0 t' sg). cbn [cost field_generator].
  rewrite (trans_cost_form b sg gd t nb d), (trans_cost_form b0 sg gd0 t' nb d) by assumption.
  split; [reflexivity|]. split.
  { f_equal. f_equal. apply rows_form; [|exact T]. intros i j I J. apply (kmat_placed nb); assumption. }
  do 2 (split; [reflexivity|]). split; [apply (good_SF0 d b gd t sg nb); assumption|].
  split; [apply (good_SF0 d b0 gd0 t' sg nb); assumption|].
  apply (carries_0 d Q HQ c b b0 nb); try assumption; unfold nrows; [rewrite Sg|rewrite Sg']; reflexivity.
Qed.

Lemma goes_imp0 b sg nu co dim nb gd ct h : goes (MImp0 b sg nu co dim nb gd ct h).
Proof.
  start. cbn in F, F'. injection F as <-. injection F' as <-. destruct TW as (-> & -> & -> & -> & ->). destruct W as (-> & Hs & Hnu & Hco & Sg & Sc).
  destruct W' as (_ & _ & _ & _ & Sg' & Sc').
  inversion G; subst. pose proof (prows_teq d Q c nb _ _ Sg H2) as P. pose proof (trows_teq d Q nb _ _ Hk TC) as T.
  eexists. exists (SF_0 b gd t sg), (SF_0 b0 gd0 t' sg). cbn [cost field_generator].
  rewrite (imp0_cost_form b sg nu co gd t nb d), (imp0_cost_form b0 sg nu co gd0 t' nb d) by assumption.
  split; [reflexivity|]. split.
  { f_equal. f_equal. f_equal. apply rows_form; [|exact T]. intros i j I J. f_equal. apply (kmat_placed nb); assumption. }
  do 2 (split; [reflexivity|]). split; [apply (good_SF0 d b gd t sg nb); assumption|].
  split; [apply (good_SF0 d b0 gd0 t' sg nb); assumption|].
  apply (carries_0 d Q HQ c b b0 nb); try assumption; unfold nrows; [rewrite Sg|rewrite Sg']; reflexivity.
Qed.

Lemma goes_oriented sg co tr dim nb gd0 gd1 c0 c1 h : goes (MOriented sg co tr dim nb gd0 gd1 c0 c1 h).
Proof.
  start. cbn in F, F'. injection F as <-. injection F' as <-. destruct TW as (-> & -> & -> & -> & ->).
  destruct W as (-> & Hs & Hco & Sg0 & Sg1 & Sc0 & Sc1). destruct W' as (_ & _ & _ & Sg0' & Sg1' & _ & _).
  inversion G as [|? ? ? ? G0 GR]; subst. inversion GR as [|? ? ? ? G1 _]; subst.
  pose proof (prows_teq d Q c nb _ _ Sg0 G0) as P. pose proof (trows_teq d Q nb _ _ Sg1 G1) as T1.
  assert (T : trows d Q nb (oriented_moments d gd1 t) (oriented_moments d gd3 t')).
  { intros j a J A. unfold oriented_moments, mk2 at 1. cbn [get]. rewrite (T1 j a J A).
    destruct TC as (_ & TC). rewrite (TC [j]) by (rewrite Hk'; cbn; auto).
    rewrite <- turned_scal. reflexivity. }
  assert (Sm : shape (oriented_moments d gd1 t) = [nb; d]) by (cbn; unfold nrows; rewrite Sg1; reflexivity).
  assert (Sm' : shape (oriented_moments d gd3 t') = [nb; d]) by (cbn; unfold nrows; rewrite Sg1'; reflexivity).
  eexists. exists (SF_0 Torch gd0 (oriented_moments d gd1 t) sg), (SF_0 Torch gd2 (oriented_moments d gd3 t') sg). cbn [cost field_generator].
  split; [reflexivity|]. split.
  { f_equal. unfold oriented_cost. f_equal.
    rewrite (mm_form (K_xx gd0 sg) _ _ nb d (kmat d sg gd0)) by
      (assumption || (apply (K_xx_sh gd0 nb d); assumption) || (intros; apply (K_xx_kmat gd0 nb d); assumption)).
    rewrite (mm_form (K_xx gd2 sg) _ _ nb d (kmat d sg gd2)) by
      (assumption || (apply (K_xx_sh gd2 nb d); assumption) || (intros; apply (K_xx_kmat gd2 nb d); assumption)).
    apply rows_form; [|exact T]. intros i j I J. apply (kmat_placed nb); assumption. }
  do 2 (split; [reflexivity|]). split; [apply (good_SF0 d Torch gd0 _ sg nb); assumption|].
  split; [apply (good_SF0 d Torch gd2 _ sg nb); assumption|].
  apply (carries_0 d Q HQ c Torch Torch nb); try assumption; unfold nrows; [rewrite Sg0|rewrite Sg0']; reflexivity.
Qed.

Lemma goes_local sg co fs fv dim nb gd ct h : goes (MLocal sg co fs fv dim nb gd ct h).
Proof.
  start. cbn in F, F'. injection F as <-. injection F' as <-. destruct TW as (-> & -> & -> & -> & TW).
  destruct W as (-> & Hs & Hco & Sg & Sc & M & s & v & Es & Ev & Ss & Sv). destruct W' as (_ & _ & _ & Sg' & _ & M' & s' & v' & Es' & Ev' & Ss' & Sv').
  inversion G; subst. destruct (TW gd gd0 s v s' v' H2 Es Ev Es' Ev') as (TS & TV).
  assert (M' = M). { destruct TS as (TS & _). cbn in TS. rewrite Ss, Ss' in TS. congruence. } subst M'.
  pose proof (prows_teq d Q c M _ _ Ss TS) as P. pose proof (trows_teq d Q M _ _ Sv TV) as T.
  eexists. exists (SF_0 Torch s (tscal (item t) v) sg), (SF_0 Torch s' (tscal (item t') v') sg). cbn [cost field_generator].
  rewrite Es, Ev, Es', Ev'. cbn [bind].
  split; [reflexivity|]. split.
  { f_equal. rewrite TC. f_equal. f_equal. f_equal. unfold local_norm.
    rewrite (mm_form (K_xx s sg) v v M d (kmat d sg s)) by
      (assumption || (apply (K_xx_sh s M d); assumption) || (intros; apply (K_xx_kmat s M d); assumption)).
    rewrite (mm_form (K_xx s' sg) v' v' M d (kmat d sg s')) by
      (assumption || (apply (K_xx_sh s' M d); assumption) || (intros; apply (K_xx_kmat s' M d); assumption)).
    apply rows_form; [|exact T]. intros i j I J. apply (kmat_placed M); assumption. }
  do 2 (split; [reflexivity|]). split; [apply (good_SF0 d Torch s _ sg M); assumption|].
  split; [apply (good_SF0 d Torch s' _ sg M); assumption|].
  apply (carries_0 d Q HQ c Torch Torch M); [unfold nrows; rewrite Ss; reflexivity|unfold nrows; rewrite Ss'; reflexivity|exact P|].
  intros j a J A. unfold tscal, tmap at 1. cbn [get]. rewrite (T j a J A), TC. exact (eq_sym (turned_scal d Q (item t) (vrow v j) a)).
Qed.

Lemma goes_linear A co gd ct h : goes (MLinear A co gd ct h).
Proof.
  start. cbn [fill_controls] in F, F'. rewrite Hk in F. rewrite Hk' in F'. injection F as <-. injection F' as <-.
  destruct TW as (-> & EA & TA). destruct W as (SA & Hco & Sg & Sc & _). destruct W' as (SA' & _ & Sg' & _).
  inversion G; subst. pose proof (prows_teq d Q c 1 _ _ Sg H2) as P.
  assert (GD : forall A' g, shape A' = [d; d] -> shape g = [1%nat; d] -> good d (SF_affine A' (tflatten g) (tzeros [prod (shape g)]))).
  { intros A' g SA1 Sg1. assert (Sp : prod (shape g) = d) by (rewrite Sg1; cbn; lia). rewrite Sp. split; [|split; [exact Logic.I|split; [exact Logic.I|]]].
    - split; [assumption|]. split; [cbn; rewrite Sp; reflexivity|reflexivity].
    - cbn. unfold nrows. rewrite SA1. reflexivity. }
  eexists. do 2 eexists. cbn [cost field_generator]. split; [reflexivity|]. split; [rewrite TC; reflexivity|].
  do 2 (split; [reflexivity|]). split; [apply GD; assumption|]. split; [apply GD; assumption|].
  assert (FV : forall g a, shape g = [1%nat; d] -> (a < d)%nat -> (tflatten g) @1 a = g @2 0%nat a).
  { intros g a Sg1 Ha. change a with (0 * d + a)%nat at 1. exact (fvec_2 g 1 d 0 a Sg1 ltac:(lia) Ha). }
  apply (carries_affine d Q HQ c).
  - intros i j I J. unfold tscal, tmap. cbn [get]. rewrite TA, TC by assumption.
    exact (eq_sym (conj_scal d Q (item t) (fun k l => A @2 k l) i j)).
  - intros a Ha. rewrite FV by assumption. rewrite (P 0%nat a ltac:(lia) Ha). unfold placed. f_equal. apply turned_ext. intros b B.
    rewrite FV by assumption. reflexivity.
  - intros a Ha. cbn. symmetry. apply turned_zero.
Qed.

Lemma goes_silent man : goes (MSilent man).
Proof.
  start. cbn in F, F'. injection F as <-. injection F' as <-. destruct W as (W0 & NE0). destruct W' as (W0' & NE0').
  exists 0, (SF_null (gdim man)), (SF_null (gdim man0)). cbn [cost field_generator]. do 4 (split; [reflexivity|]).
  pose proof (gdim_wf d man W0 NE0) as GD. pose proof (gdim_wf d man0 W0' NE0') as GD'.
  split; [repeat split; exact GD|]. split; [repeat split; exact GD'|]. apply carries_null.
Qed.

(** The two modules whose multipliers solve a block system. *)
Lemma goes_block s n0 n1 e ka sg nu co gd gd' t t' S S' l l' f f' m1 m1' :
  let N := (n0 * s)%nat in
  let n := (N + n1 * d)%nat in
  let M g q q' := bmatrix d s n0 e ka sg (vrow g) q q' + nu * delta q q' in
  (exists rho, turns_coords d Q s e rho) -> sym_tensor d s e ->
  shape gd = [(n0 + n1)%nat; d] -> shape gd' = [(n0 + n1)%nat; d] -> prows d Q c (n0 + n1) gd gd' ->
  pad_shape d n1 t -> pad_shape d n1 t' ->
  (forall k a, (k < n1)%nat -> (a < d)%nat -> block d t' k a = turned d Q (block d t k) a) ->
  shape S = [n; n] -> (forall q q', (q < n)%nat -> (q' < n)%nat -> entries S q q' = M gd q q') ->
  shape S' = [n; n] -> (forall q q', (q < n)%nat -> (q' < n)%nat -> entries S' q q' = M gd' q q') ->
  sv S (pad_controls N t) = Ok l -> sv' S' (pad_controls N t') = Ok l' ->
  cost m1 = Ok (1 / 2 * co * tdot (pad_controls N t) l) -> cost m1' = Ok (1 / 2 * co * tdot (pad_controls N t') l') ->
  (shape l = [n] -> field_generator m1 = Ok f /\ good d f /\
     (forall p a, (a < d)%nat -> fval d f p a = fval d (b_field d s n0 n1 e ka sg gd (fun q => l @1 q)) p a) /\
     (forall p a c, (a < d)%nat -> (c < d)%nat -> fjac d f p a c = fjac d (b_field d s n0 n1 e ka sg gd (fun q => l @1 q)) p a c)) ->
  (shape l' = [n] -> field_generator m1' = Ok f' /\ good d f' /\
     (forall p a, (a < d)%nat -> fval d f' p a = fval d (b_field d s n0 n1 e ka sg gd' (fun q => l' @1 q)) p a) /\
     (forall p a c, (a < d)%nat -> (c < d)%nat -> fjac d f' p a c = fjac d (b_field d s n0 n1 e ka sg gd' (fun q => l' @1 q)) p a c)) ->
  moved_to m1 m1'.
Proof.
  intros N n M (rho & HR) HE Sg Sg' P Ht Ht' TC SS SE SS' SE' El El' C1 C1' F1 F1'.
  assert (HP : forall u, pad_shape d n1 u -> shape (pad_controls N u) = [n]).
  { intros u [E|E]; rewrite pad_controls_shape, E; unfold n; f_equal; cbn; lia. }
  destruct (solver_vec sv n S _ l (M gd) HSV SS (HP t Ht) El SE) as (_ & Sl & HL).
  destruct (solver_vec sv' n S' _ l' (M gd') HSV' SS' (HP t' Ht') El' SE') as (NS' & Sl' & HL').
  assert (EL : forall q, (q < n)%nat -> l' @1 q = turn_lam d Q s n0 rho (fun q => l @1 q) q).
  { refine (system_placed d Q HQ c s n0 n1 e rho ka sg gd gd' Sg Sg' HE HR P nu (fun q => l @1 q) (fun q => l' @1 q) (pad N (fvec t)) (pad N (fvec t')) HL HL' NS' _).
    intros q Hq. apply (pad_turn d Q s n0 n1 rho); [exact TC|exact Hq]. }
  destruct (F1 Sl) as (E1 & GD & FV & FJ). destruct (F1' Sl') as (E1' & GD' & FV' & FJ').
  exists (1 / 2 * co * tdot (pad_controls N t) l), f, f'. split; [exact C1|]. split.
  { rewrite C1'. f_equal. f_equal. rewrite !(tdot_1 _ _ n) by (assumption || (apply HP; assumption)).
    exact (pad_energy d Q HQ s n0 n1 rho (fvec t) (fvec t') (fun q => l @1 q) (fun q => l' @1 q) TC EL). }
  do 4 (split; [assumption|]).
  pose proof (carries_b d Q HQ c s n0 n1 e rho ka sg gd gd' Sg Sg' HE HR P (fun q => l @1 q) (fun q => l' @1 q) EL) as CB.
  intros x x' X. destruct (CB x x' X) as [V J]. split.
  - intros a A. rewrite FV', V by exact A. apply turned_ext. intros b B. symmetry. apply FV. exact B.
  - intros a k A K. rewrite FJ', J by assumption. apply conj_ext. intros i j I0 J0. symmetry. apply FJ; assumption.
Qed.

Lemma goes_div sg cd nu co dim n0 n1 gd ct h la : goes (MDivFree sg cd nu co dim n0 n1 gd ct h la).
Proof.
  start. cbn [fill_controls] in F, F'. bok F l El. bok F' l' El'. injection F as <-. injection F' as <-.
  destruct TW as (-> & -> & -> & -> & -> & -> & ->). destruct W as (-> & Hs & Hnu & Hco & Sg & _). destruct W' as (_ & _ & _ & _ & Sg' & _).
  inversion G; subst. pose proof (prows_teq d Q c _ _ _ Sg H2) as P.
  destruct (div_sks_ok sg cd nu d n0 n1 gd Hs Sg) as (S & ES & SS & GS). destruct (div_sks_ok sg cd nu d n0 n1 gd0 Hs Sg') as (S' & ES' & SS' & GS').
  unfold div_moments in El, El'. rewrite ES in El. rewrite ES' in El'. cbn [bind] in El, El'. rewrite <- (Nat.mul_1_r n0) in El, El' at 1.
  assert (FX : forall g u (W : shape g = [(n0 + n1)%nat; d]), exists f, shape u = [(n0 * 1 + n1 * d)%nat] -> div_field sg cd n0 g u = Ok f /\ good d f /\
     (forall p a, (a < d)%nat -> fval d f p a = fval d (b_field d 1 n0 n1 (e_div d) cd sg g (fun q => u @1 q)) p a) /\
     (forall p a c, (a < d)%nat -> (c < d)%nat -> fjac d f p a c = fjac d (b_field d 1 n0 n1 (e_div d) cd sg g (fun q => u @1 q)) p a c)).
  { intros g u Wg. destruct (list_eq_dec Nat.eq_dec (shape u) [(n0 * 1 + n1 * d)%nat]) as [E|E].
    - destruct (div_field_b sg cd d n0 n1 g u Hs Wg E) as (f & X). exists f. intros _. exact X.
    - exists (SF_null 0). intros E'. contradiction. }
  destruct (FX gd l Sg) as (f & Ef). destruct (FX gd0 l' Sg') as (f' & Ef').
  eapply (goes_block 1 n0 n1 (e_div d) cd sg nu co gd gd0 t t' S S' l l' f f'); try eassumption.
  - eexists. apply (turns_div d Q HQ).
  - apply e_div_sym.
  - cbn [cost]. rewrite Nat.mul_1_r. reflexivity.
  - cbn [cost]. rewrite Nat.mul_1_r. reflexivity.
Qed.

Lemma goes_arap sg ca nu co dim n0 n1 gd ct h la : goes (MArap sg ca nu co dim n0 n1 gd ct h la).
Proof.
  start. cbn [fill_controls] in F, F'. bok F l El. bok F' l' El'. injection F as <-. injection F' as <-.
  destruct TW as (-> & -> & -> & -> & -> & -> & ->). destruct W as (-> & (e & He) & Hs & Hnu & Hco & Sg & _). destruct W' as (_ & _ & _ & _ & _ & Sg' & _).
  inversion G; subst. pose proof (prows_teq d Q c _ _ _ Sg H2) as P. pose proof (eta_basis d e He) as HB.
  destruct (arap_sks_ok sg ca nu d e n0 n1 gd Hs He Sg) as (S & ES & SS & GS). destruct (arap_sks_ok sg ca nu d e n0 n1 gd0 Hs He Sg') as (S' & ES' & SS' & GS').
  unfold arap_moments in El, El'. rewrite ES in El. rewrite ES' in El'. cbn [bind] in El, El'.
  assert (FX : forall g u (W : shape g = [(n0 + n1)%nat; d]), exists f, shape u = [(n0 * sym_dim d + n1 * d)%nat] -> arap_field sg ca d n0 g u = Ok f /\ good d f /\
     (forall p a, (a < d)%nat -> fval d f p a = fval d (b_field d (sym_dim d) n0 n1 e ca sg g (fun q => u @1 q)) p a) /\
     (forall p a c, (a < d)%nat -> (c < d)%nat -> fjac d f p a c = fjac d (b_field d (sym_dim d) n0 n1 e ca sg g (fun q => u @1 q)) p a c)).
  { intros g u Wg. destruct (list_eq_dec Nat.eq_dec (shape u) [(n0 * sym_dim d + n1 * d)%nat]) as [E|E].
    - destruct (arap_field_b sg ca d e n0 n1 g u Hs He Wg E) as (f & X). exists f. intros _. exact X.
    - exists (SF_null 0). intros E'. contradiction. }
  destruct (FX gd l Sg) as (f & Ef). destruct (FX gd0 l' Sg') as (f' & Ef').
  eapply (goes_block (sym_dim d) n0 n1 e ca sg nu co gd gd0 t t' S S' l l' f f'); try eassumption; try reflexivity.
  - eexists. apply (turns_basis d Q). exact HB.
  - exact (proj1 (proj2 HB)).
Qed.

Lemma growth_turned r C C' gd1 gd1' h h' nb n : (n < nb)%nat -> shape C = [nb; d; r] -> teq C' C -> shape h = [r] -> teq h' h ->
  (forall j a k, (j < nb)%nat -> (a < d)%nat -> (k < d)%nat -> gd1' @3 j a k = turned d Q (fun b => gd1 @3 j b k) a) ->
  forall a b, (a < d)%nat -> (b < d)%nat -> growth d r C' gd1' h' n a b = conj_by d Q (growth d r C gd1 h n) a b.
Proof.
  intros Hn SC (EC & TC) Sh (Eh & Th) T a b A B. unfold growth. 
  transitivity (rsum d (fun i => rsum r (fun k => C @3 n i k * h @1 k) * (turned d Q (fun b => gd1 @3 n b i) a * turned d Q (fun b => gd1 @3 n b i) b))).
  - apply rsum_ext. intros i I. rewrite !T by assumption.
    rewrite (rsum_ext r _ (fun k => C @3 n i k * h @1 k)); [ring|]. intros k K. rewrite TC, Th; [reflexivity| |]; [rewrite Eh, Sh|rewrite EC, SC]; cbn; auto.
  - rewrite (conj_sum d Q d (fun i a b => _)). apply rsum_ext. intros i I.
    rewrite <- (conj_outer d Q (fun b => gd1 @3 n b i)), <- conj_scal. apply conj_ext. intros u v _ _. ring.
Qed.

Lemma goes_imp1 b sg nu co C dim nb gd0 gd1 c0 c1 h ca : goes (MImp1 b sg nu co C dim nb gd0 gd1 c0 c1 h ca).
Proof.
  start. cbn [fill_controls] in F, F'. bok F k1 Ek1. bok F' k2 Ek2. injection F as <-. injection F' as <-.
  destruct TW as (-> & -> & -> & TWC & -> & ->).
  destruct W as (-> & (e & He) & Hs & Hnu & Hco & (r & SC) & Sg0 & Sg1 & Sc0 & Sc1). destruct W' as (_ & _ & _ & _ & _ & (r' & SC') & Sg0' & Sg1' & _).
  rewrite SC in Hk. cbn in Hk. rewrite SC' in Hk'. cbn in Hk'.
  assert (r' = r). { destruct TWC as (E & _). rewrite SC, SC' in E. congruence. } subst r'.
  inversion G as [|? ? ? ? G0 GR]; subst. inversion GR as [|? ? ? ? G1 _]; subst.
  pose proof (prows_teq d Q c nb _ _ Sg0 G0) as P. pose proof (tframes_teq d Q nb _ _ Sg1 G1) as T1.
  pose proof (eta_basis d e He) as HB. pose proof HB as (Se & HE & _). pose proof (turns_basis d Q _ _ HB) as HR.
  set (s := sym_dim d) in *. set (rho := fun t w => coords d e (conj_by d Q (bmat e w)) t) in HR.
  destruct (imp1_lam sv d HSV b sg nu C nb gd0 gd1 r e t k1 Hs He Sg0 Sg1 SC Hk Ek1) as (A1 & SA1 & P1 & M1 & _ & S1).
  destruct (imp1_lam sv' d HSV' b0 sg nu C0 nb gd2 gd3 r e t' k2 Hs He Sg0' Sg1' SC' Hk' Ek2) as (A2 & SA2 & P2 & M2 & NS2 & S2).
  fold s in SA1, P1, M1, S1, SA2, P2, M2, NS2, S2.
  assert (GT : forall i, (i < nb)%nat -> forall a l, (a < d)%nat -> (l < d)%nat -> growth d r C0 gd3 t' i a l = conj_by d Q (growth d r C gd1 t i) a l).
  { intros i Hi. apply (growth_turned r C C0 gd1 gd3 t t' nb); assumption. }
  assert (AG : forall i w, (i < nb)%nat -> (w < s)%nat -> fvec (imp1_aqh d nb e C gd1 t) (i * s + w)%nat = coords d e (growth d r C gd1 t i) w).
  { intros i w Hi Hw. rewrite (fvec_2 _ nb s); [|rewrite <- A1; exact SA1|exact Hi|exact Hw]. apply (aqh_growth d nb r s); assumption. }
  assert (AG' : forall i w, (i < nb)%nat -> (w < s)%nat -> fvec (imp1_aqh d nb e C0 gd3 t') (i * s + w)%nat = coords d e (growth d r C0 gd3 t' i) w).
  { intros i w Hi Hw. rewrite (fvec_2 _ nb s); [|rewrite <- A2; exact SA2|exact Hi|exact Hw]. apply (aqh_growth d nb r s); assumption. }
  assert (N0 : (nb * s + 0 * d = nb * s)%nat) by lia.
  assert (EL : forall q, (q < nb * s)%nat -> fvec (c_lam k2) q = turn_lam d Q s nb rho (fvec (c_lam k1)) q).
  { assert (Sz : shape gd0 = [(nb + 0)%nat; d]) by (rewrite Nat.add_0_r; exact Sg0).
    assert (Sz' : shape gd2 = [(nb + 0)%nat; d]) by (rewrite Nat.add_0_r; exact Sg0').
    assert (Pz : prows d Q c (nb + 0) gd0 gd2) by (rewrite Nat.add_0_r; exact P).
    pose proof (system_placed d Q HQ c s nb 0 e rho 1 sg gd0 gd2 Sz Sz' HE HR Pz nu (fvec (c_lam k1)) (fvec (c_lam k2))
      (fvec (imp1_aqh d nb e C gd1 t)) (fvec (imp1_aqh d nb e C0 gd3 t'))) as SP. cbv zeta in SP. rewrite N0 in SP. apply SP; try assumption.
    intros q Hq. destruct (row_split s nb q) as (i & w & Hi & Hw & ->); [lia|]. rewrite turn_lo by assumption. rewrite AG' by assumption.
    rewrite (coords_ext d e _ _ w (GT i Hi)), (proj2 HR) by exact Hw. apply rsum_ext. intros v V. rewrite AG by assumption. reflexivity. }
  assert (FC : forall i a l, (i < nb)%nat -> (a < d)%nat -> (l < d)%nat ->
     from_coords s e (fun w => fvec (c_lam k2) (i * s + w)%nat) a l = conj_by d Q (from_coords s e (fun w => fvec (c_lam k1) (i * s + w)%nat)) a l).
  { intros i a l Hi Ha Hl. rewrite <- (proj1 HR) by assumption. unfold from_coords. apply rsum_ext. intros w Hw. f_equal.
    rewrite EL by (apply pair_lt; assumption). apply turn_lo; assumption. }
  assert (CF : forall A, frob d A (from_coords s e (fun _ => 0)) = 0).
  { intros A. unfold frob, from_coords. apply rsum_zero. intros i _. apply rsum_zero. intros j _. rewrite (rsum_zero s) by (intros; ring). ring. }
  assert (EN : forall A u, rsum s (fun w => coords d e A w * u w) = frob d A (from_coords s e u)).
  { intros A u. unfold coords, frob, from_coords, bmat.
    transitivity (rsum s (fun w => rsum d (fun i => rsum d (fun j => A i j * (u w * e @3 i j w))))).
    - apply rsum_ext. intros w _. rewrite <- rsum_scal_r. apply rsum_ext. intros i _. rewrite <- rsum_scal_r. apply rsum_ext. intros; ring.
    - rewrite (rsum_swap s d). apply rsum_ext. intros i _. rewrite (rsum_swap s d). apply rsum_ext. intros j _. rewrite rsum_scal. reflexivity. }
  destruct (imp1_field_b d b sg e nb gd0 (c_lam k1) Hs He Sg0 P1) as (G1' & _).
  destruct (imp1_field_b d b0 sg e nb gd2 (c_lam k2) Hs He Sg0' P2) as (G2' & _). fold s in G1', G2'.
  eexists. exists (SF_p b gd0 (c_mom k1) sg), (SF_p b0 gd2 (c_mom k2) sg). cbn [cost field_generator].
  split; [reflexivity|]. split.
  { f_equal. f_equal. unfold tdot. rewrite SA1, SA2. replace (prod [nb; s]) with (nb * s + 0 * d)%nat by (cbn [prod fold_right]; lia).
    rewrite !(sum_rows d s nb 0), !rsum_0, !Rplus_0_r. apply rsum_ext. intros i Hi.
    transitivity (rsum s (fun w => coords d e (growth d r C0 gd3 t' i) w * fvec (c_lam k2) (i * s + w)%nat)).
    { apply rsum_ext. intros w Hw. rewrite <- AG' by assumption. rewrite A2. reflexivity. }
    transitivity (rsum s (fun w => coords d e (growth d r C gd1 t i) w * fvec (c_lam k1) (i * s + w)%nat)).
    2:{ apply rsum_ext. intros w Hw. rewrite <- AG by assumption. rewrite A1. reflexivity. }
    rewrite !EN. rewrite <- (frob_conj d Q HQ (growth d r C gd1 t i)). unfold frob. apply rsum_ext. intros a Ha. apply rsum_ext. intros l Hl.
    rewrite GT, FC by assumption. reflexivity. }
  split; [reflexivity|]. split; [reflexivity|]. rewrite M1, M2. split; [exact G1'|]. split; [exact G2'|].
  apply (carries_p d Q HQ c b b0 nb); [unfold nrows; rewrite Sg0; reflexivity|unfold nrows; rewrite Sg0'; reflexivity|exact P|].
  assert (LM : forall k j a l, prod (shape (c_lam k)) = (nb * s)%nat -> (j < nb)%nat -> (a < d)%nat -> (l < d)%nat ->
     symP (lam_moments nb s e (c_lam k)) j a l = from_coords s e (fun w => fvec (c_lam k) (j * s + w)%nat) a l).
  { intros k j a l Pk Hj Ha Hl. unfold symP. rewrite !(lam_moments_get nb s e _ d) by assumption.
    assert (E : from_coords s e (fun w => fvec (c_lam k) (j * s + w)%nat) l a = from_coords s e (fun w => fvec (c_lam k) (j * s + w)%nat) a l);
      [|rewrite E; lra]. unfold from_coords. apply rsum_ext. intros w Hw. rewrite (HE l a w) by assumption. reflexivity. }
  intros j a l Hj Ha Hl. rewrite LM, FC by assumption. apply conj_ext. intros i v Hi Hv. symmetry. apply LM; assumption.
Qed.

(** Compounds. *)
Lemma elsewhere_comp ms ms' : elsewhere d Q c (MComp ms) (MComp ms') -> Forall2 (elsewhere d Q c) ms ms'.
Proof.
  intros (T & V). cbn [mod_manifold placed_man] in V. apply (same_values_comp d c) in V. cbn [twin] in T. revert ms' T V.
  induction ms as [|m ms IH]; intros [|m' ms'] T V; try contradiction T; [constructor|]. destruct T as (T & TS). cbn [map] in V. inversion V; subst.
  constructor; [split; assumption|apply IH; assumption].
Qed.

Lemma moved_sums ms ms' : Forall2 moved_to ms ms' -> exists xs fs fs', mapM cost ms = Ok xs /\ mapM cost ms' = Ok xs /\
  fields ms = Ok fs /\ fields ms' = Ok fs' /\ Forall (good d) fs /\ Forall (good d) fs' /\ Forall2 (carries d Q c) fs fs'.
Proof.
  induction 1 as [|m1 m2 ms1 ms2 (x & f & f' & C & C' & F & F' & G & G' & SF) _ (xs & fs & fs' & Cs & Cs' & Fs & Fs' & Gs & Gs' & SFs)].
  - exists [], [], []. repeat split; constructor.
  - exists (x :: xs), (f :: fs), (f' :: fs'). cbn [mapM fields]. fold fields. rewrite C, C', F, F', Cs, Cs', Fs, Fs'. cbn [bind].
    repeat split; try constructor; auto.
Qed.

Theorem module_goes m : goes m.
Proof.
  induction m as [m NC|ms IH] using dmod_ind'.
  - destruct m; [apply goes_global|apply goes_trans|apply goes_imp0|apply goes_oriented|apply goes_local|apply goes_linear|apply goes_silent
      |apply goes_imp1|apply goes_div|apply goes_arap|elim (NC ms eq_refl)].
  - intros m' k k' m1 m1' W W' EW Hk Hk' TC F F'.
    destruct m' as [| | | | | | | | | |ms']; try (destruct EW as (T & _); contradiction T).
    apply elsewhere_comp in EW. destruct k as [t|cs]; [destruct Hk|]. destruct k' as [t'|cs']; [destruct Hk'|]. 
    destruct W as (NE & W). destruct W' as (NE' & W'). rewrite fill_comp in F, F'.
    destruct (Nat.eqb (length cs) (length ms)); [|discriminate]. destruct (Nat.eqb (length cs') (length ms')); [|discriminate].
    bok F ms1 F1. bok F' ms1' F1'. injection F as <-. injection F' as <-. cbn [ctrl_ok] in Hk, Hk'. cbn [turned_ctrl] in TC.
    assert (HA : Forall2 moved_to ms1 ms1' /\ length ms1 = length ms).
    { clear NE NE'. revert ms' cs cs' ms1 ms1' W' EW Hk Hk' TC F1 F1'. induction IH as [|m ms Hm _ IHs]; intros ms' cs cs' ms1 ms1' W' EW Hk Hk' TC F1 F1'.
      - inversion EW; subst. destruct cs; [|destruct Hk]. destruct cs'; [|destruct Hk']. injection F1 as <-. injection F1' as <-. split; [constructor|reflexivity].
      - inversion EW as [|? m' ? r' E1 ER]; subst. destruct cs as [|k cs]; [destruct Hk|]. destruct cs' as [|k' cs']; [destruct Hk'|].
        destruct Hk as (Hk & Hks). destruct Hk' as (Hk' & Hks'). destruct TC as (TC & TCs). destruct W as (W & Ws). destruct W' as (W' & Ws').
        cbn [fills] in F1, F1'. fold (fills sv) in F1. fold (fills sv') in F1'. bok F1 n1 En. bok F1 r1 Er. injection F1 as <-.
        bok F1' n1' En'. bok F1' r1' Er'. injection F1' as <-. destruct (IHs Ws r' cs cs' r1 r1' Ws' ER Hks Hks' TCs Er Er') as (H & L).
        split; [constructor; [eapply Hm; eassumption|assumption]|cbn; lia]. }
    destruct HA as (HA & L). destruct (moved_sums ms1 ms1' HA) as (xs & fs & fs' & Cs & Cs' & Fs & Fs' & Gs & Gs' & SFs).
    assert (NF : fs <> [] /\ fs' <> []).
    { destruct ms as [|m ms]; [congruence|]. destruct ms1 as [|n1 ms1]; [discriminate|].
      inversion HA; subst. cbn [fields] in Fs, Fs'. bok Fs g1 Eg1. bok Fs r1 Er1. bok Fs' g2 Eg2. bok Fs' r2 Er2.
      injection Fs as <-. injection Fs' as <-. split; discriminate. }
    destruct (good_sum d fs (proj1 NF) Gs) as (SC & GS). destruct (good_sum d fs' (proj2 NF) Gs') as (SC' & GS').
    exists (fold_right Rplus 0 xs), (SF_sum fs), (SF_sum fs').
    rewrite !cost_comp, Cs, Cs'. split; [reflexivity|]. split; [reflexivity|].
    change (field_generator (MComp ms1)) with (fs <- fields ms1 ;; sum_ctor fs).
    change (field_generator (MComp ms1')) with (fs <- fields ms1' ;; sum_ctor fs).
    rewrite Fs, Fs'. split; [exact SC|]. split; [exact SC'|]. split; [assumption|]. split; [assumption|]. apply carries_sum; assumption.
Qed.
End Turn.
