(** Fields, pairings and the linear systems of the constrained modules in another unit of
    length. *)
From Coq Require Import Reals String List Arith Lia Lra.
From Verif Require Import Py RSum Tensor TensorFacts KernelModel FieldModel GeometryModel ModuleModel
  SpecLinAlg SpecKernel SpecField SpecGeometry SpecSKS SpecModule SpecShooting SpecHistory LinAlg KernelFacts FieldFacts GeometryFacts SKSFacts
  GaussPSD ModuleDual ModuleAlg ModuleLeaves ModuleImplicit ShootingModel ShootingPack SpecMotion RigidField SpecUnits.
Import ListNotations.
Open Scope R_scope.

Section Units.
Variables (d : nat) (u : R).
Hypothesis U0 : u <> 0.

(** ** The Gaussian *)
Section Gauss.
Variables (sg : R) (z z' : nat -> R).
Hypothesis Hz : forall a, (a < d)%nat -> z' a = u * z a.

Lemma sqn_units : sqn d z' = u ^ 2 * sqn d z.
Proof. unfold sqn. rewrite <- rsum_scal. apply rsum_ext. intros a A. rewrite Hz by exact A. ring. Qed.
Lemma gaussian_units : sg <> 0 -> gaussian d (u * sg) z' = gaussian d sg z.
Proof. intros S0. unfold gaussian. rewrite sqn_units. f_equal. field. split; assumption. Qed.
Lemma dgauss_units l : sg <> 0 -> (l < d)%nat -> dgauss d (u * sg) z' l = / u * dgauss d sg z l.
Proof. intros S0 L. unfold dgauss. rewrite gaussian_units, Hz by assumption. field. split; assumption. Qed.
Lemma d2gauss_units l k : sg <> 0 -> (l < d)%nat -> (k < d)%nat -> d2gauss d (u * sg) z' l k = / u ^ 2 * d2gauss d sg z l k.
Proof. intros S0 L K. unfold d2gauss. rewrite gaussian_units, !Hz by assumption. field. split; assumption. Qed.
End Gauss.

Lemma units_sub x x' y y' a : (forall a, (a < d)%nat -> x' a = u * x a) -> (forall a, (a < d)%nat -> y' a = u * y a) ->
  (a < d)%nat -> vsub x' y' a = u * vsub x y a.
Proof. intros X Y A. unfold vsub. rewrite X, Y by exact A. ring. Qed.

(** ** Fields *)
Definition swells (f f' : sfield) : Prop :=
  forall x x', (forall a, (a < d)%nat -> x' a = u * x a) ->
    (forall a, (a < d)%nat -> fval d f' x' a = u * fval d f x a) /\
    (forall a l, (a < d)%nat -> (l < d)%nat -> fjac d f' x' a l = fjac d f x a l).

Definition srows (r : R) (M : nat) (s s' : tensor) : Prop := forall j a, (j < M)%nat -> (a < d)%nat -> s' @2 j a = r * s @2 j a.

Lemma srows_sub M s s' x x' j : srows u M s s' -> (j < M)%nat -> (forall a, (a < d)%nat -> x' a = u * x a) ->
  forall a, (a < d)%nat -> vsub x' (vrow s' j) a = u * vsub x (vrow s j) a.
Proof. intros P J X a A. apply (units_sub x x' (vrow s j)); [exact X| |exact A]. intros b B. exact (P j b J B). Qed.
Lemma srows_bus M s s' x x' j : srows u M s s' -> (j < M)%nat -> (forall a, (a < d)%nat -> x' a = u * x a) ->
  forall a, (a < d)%nat -> vsub (vrow s' j) x' a = u * vsub (vrow s j) x a.
Proof. intros P J X a A. apply (units_sub (vrow s j) (vrow s' j) x); [|exact X|exact A]. intros b B. exact (P j b J B). Qed.

Lemma swells_0 b b' M s m s' m' sg : sg <> 0 -> nrows s = M -> nrows s' = M -> srows u M s s' -> srows u M m m' ->
  swells (SF_0 b s m sg) (SF_0 b' s' m' (u * sg)).
Proof.
  intros S0 N N' P T x x' X. cbn [fval fjac]. rewrite N, N'. split.
  - intros a A. rewrite <- rsum_scal. apply rsum_ext. intros j J.
    rewrite (gaussian_units sg (vsub x (vrow s j)) _ (srows_sub M s s' x x' j P J X) S0). rewrite (T j a J A). ring.
  - intros a l A L. apply rsum_ext. intros j J.
    rewrite (dgauss_units sg (vsub x (vrow s j)) _ (srows_sub M s s' x x' j P J X) l S0 L). rewrite (T j a J A). field. exact U0.
Qed.
Lemma swells_p b b' M s m s' m' sg : sg <> 0 -> nrows s = M -> nrows s' = M -> srows u M s s' ->
  (forall j a k, (j < M)%nat -> (a < d)%nat -> (k < d)%nat -> symP m' j a k = u ^ 2 * symP m j a k) ->
  swells (SF_p b s m sg) (SF_p b' s' m' (u * sg)).
Proof.
  intros S0 N N' P T x x' X. cbn [fval fjac]. rewrite N, N'. split.
  - intros a A. rewrite <- rsum_scal. apply rsum_ext. intros j J. rewrite <- rsum_scal. apply rsum_ext. intros k K.
    rewrite (dgauss_units sg (vsub x (vrow s j)) _ (srows_sub M s s' x x' j P J X) k S0 K), (T j a k J A K). field. exact U0.
  - intros a l A L. apply rsum_ext. intros j J. apply rsum_ext. intros k K.
    rewrite (d2gauss_units sg (vsub x (vrow s j)) _ (srows_sub M s s' x x' j P J X) k l S0 K L), (T j a k J A K). field. exact U0.
Qed.
Lemma swells_affine A x0 v A' x0' v' : (forall i j, (i < d)%nat -> (j < d)%nat -> A' @2 i j = A @2 i j) ->
  (forall a, (a < d)%nat -> x0' @1 a = u * x0 @1 a) ->
  (forall a, (a < d)%nat -> v' @1 a = u * v @1 a) -> swells (SF_affine A x0 v) (SF_affine A' x0' v').
Proof.
  intros HA HX HU x x' X. cbn [fval fjac]. split.
  - intros a B. rewrite HU by exact B. rewrite Rmult_plus_distr_l. f_equal. rewrite <- rsum_scal. apply rsum_ext. intros k K. rewrite HA, X, HX by assumption. ring.
  - intros a l B L. apply HA; assumption.
Qed.
Lemma swells_const m m' : (forall a, (a < d)%nat -> m' @1 a = u * m @1 a) -> swells (SF_const m) (SF_const m').
Proof. intros H x x' X. cbn [fval fjac]. split; [exact H|reflexivity]. Qed.
Lemma swells_null k k' : swells (SF_null k) (SF_null k').
Proof. intros x x' X. cbn [fval fjac]. split; intros; ring. Qed.
Lemma swells_sum fs fs' : Forall2 swells fs fs' -> swells (SF_sum fs) (SF_sum fs').
Proof.
  induction 1 as [|f f' fs fs' F _ IH]; intros x x' X; cbn [fval fjac fold_right].
  - split; intros; ring.
  - destruct (F x x' X) as [V J]. destruct (IH x x' X) as [V' J']. cbn [fval fjac] in V', J'. split.
    + intros a A. rewrite V, V' by exact A. ring.
    + intros a l A L. rewrite J, J' by assumption. ring.
Qed.

(** ** Pairings *)
Lemma srows_teq r M s s' : shape s = [M; d] -> teq s' (tscal r s) -> srows r M s s'.
Proof. intros S [E V] j a J A. cbn in E. specialize (V [j; a]). rewrite E, S in V. rewrite V by (cbn; auto). reflexivity. Qed.

Lemma points_units M gd ct gd' ct' v v' : shape gd = [M; d] -> shape ct = [M; d] -> teq gd' (tscal u gd) -> teq ct' (tscal u ct) ->
  (forall x x', (forall a, (a < d)%nat -> x' a = u * x a) -> forall a, (a < d)%nat -> v' x' a = u * v x a) ->
  rsum M (fun n => rsum d (fun a => ct' @2 n a * v' (vrow gd' n) a)) = u * u * rsum M (fun n => rsum d (fun a => ct @2 n a * v (vrow gd n) a)).
Proof.
  intros SG SC G C V. rewrite <- rsum_scal. apply rsum_ext. intros n N. rewrite <- rsum_scal. apply rsum_ext. intros a A.
  rewrite (srows_teq u M ct ct' SC C n a N A). rewrite (V (vrow gd n) (vrow gd' n)); [ring| |exact A].
  intros b B. exact (srows_teq u M gd gd' SG G n b N B).
Qed.

Lemma pairing_units g : forall g' v v' D D', wf_gman d g -> same_values g' (in_units u g) ->
  (forall x x', (forall a, (a < d)%nat -> x' a = u * x a) ->
    (forall a, (a < d)%nat -> v' x' a = u * v x a) /\
    (forall a l, (a < d)%nat -> (l < d)%nat -> D' x' a l = D x a l)) ->
  pairing d g' v' D' = u * u * pairing d g v D.
Proof.
  induction g as [g NC|gs IH] using gman_ind'; intros g' v v' D D' W SV HV.
  - assert (HV0 : forall x x', (forall a, (a < d)%nat -> x' a = u * x a) -> forall a, (a < d)%nat -> v' x' a = u * v x a)
      by (intros x x' X; exact (proj1 (HV x x' X))).
    assert (HD : forall x x', (forall a, (a < d)%nat -> x' a = u * x a) -> forall a l, (a < d)%nat -> (l < d)%nat -> D' x' a l = D x a l)
      by (intros x x' X; exact (proj2 (HV x x' X))).
    destruct SV as ((K & G) & (_ & C)).
    destruct g as [dim nb gd ct|tr dim nb gd0 gd1 c0 c1|dim nb gd0 gd1 c0 c1| |dim|gs]; try contradiction W; try contradiction NC;
      destruct g' as [dim' nb' gd' ct'|tr' dim' nb' gd0' gd1' c0' c1'|dim' nb' gd0' gd1' c0' c1'| |dim'|gs']; try discriminate K;
      cbn [in_units skel] in K; cbn [in_units g_gd g_cotan] in G, C.
    + injection K as -> ->. inversion G; subst. inversion C; subst. cbn [wf_gman] in W. destruct W as (_ & S0 & S1). cbn [pairing].
      refine (points_units nb gd ct gd' ct' v v' _ _ _ _ _); assumption.
    + injection K as -> -> ->. inversion G as [|? ? ? ? G0 GR]; subst. inversion GR as [|? ? ? ? G1 _]; subst. inversion C as [|? ? ? ? C0 CR]; subst. inversion CR as [|? ? ? ? C1 _]; subst.
      cbn [wf_gman] in W. destruct W as (_ & S0 & S1 & S2 & S3).
      assert (T1 : forall n l, (n < nb)%nat -> (l < d)%nat -> gd1' @2 n l = gd1 @2 n l) by (intros n l N L; apply (proj2 G1); rewrite (proj1 G1), S1; cbn; auto).
      pose proof (srows_teq (u * u) nb _ _ S3 C1) as T3. pose proof (srows_teq u nb _ _ S0 G0) as P0. cbn [pairing].
      destruct tr; rewrite Rmult_plus_distr_l; (f_equal; [refine (points_units nb gd0 c0 gd0' c0' v v' _ _ _ _ _); assumption|]);
        rewrite <- rsum_scal; apply rsum_ext; intros n N; rewrite <- rsum_scal; apply rsum_ext; intros a A; rewrite (T3 n a N A), Rmult_assoc; f_equal; f_equal; [|f_equal]; apply rsum_ext; intros l L;
        rewrite (T1 n l N L), (HD (vrow gd0 n) (vrow gd0' n)); try assumption; try reflexivity; intros b B; exact (P0 n b N B).
    + injection K as -> ->. inversion G as [|? ? ? ? G0 GR]; subst. inversion GR as [|? ? ? ? G1 _]; subst. inversion C as [|? ? ? ? C0 CR]; subst. inversion CR as [|? ? ? ? C1 _]; subst.
      cbn [wf_gman] in W. destruct W as (_ & S0 & S1 & S2 & S3).
      assert (T1 : forall n l j, (n < nb)%nat -> (l < d)%nat -> (j < d)%nat -> gd1' @3 n l j = gd1 @3 n l j) by (intros n l j N L J; apply (proj2 G1); rewrite (proj1 G1), S1; cbn; auto).
      assert (T3 : forall n l j, (n < nb)%nat -> (l < d)%nat -> (j < d)%nat -> c1' @3 n l j = u * u * c1 @3 n l j) by (intros n l j N L J; apply (proj2 C1); rewrite (proj1 C1); cbn; rewrite S3; cbn; auto).
      pose proof (srows_teq u nb _ _ S0 G0) as P0. cbn [pairing]. rewrite Rmult_plus_distr_l. f_equal; [refine (points_units nb gd0 c0 gd0' c0' v v' _ _ _ _ _); assumption|].
      rewrite <- rsum_scal. apply rsum_ext. intros n N. rewrite <- rsum_scal. apply rsum_ext. intros i I. rewrite <- rsum_scal. apply rsum_ext. intros j J. rewrite T3, Rmult_assoc by assumption. f_equal. f_equal.
      apply rsum_ext. intros k L. rewrite T1 by assumption. assert (X : forall b, (b < d)%nat -> vrow gd0' n b = u * vrow gd0 n b) by (intros b B; exact (P0 n b N B)).
      rewrite !(HD (vrow gd0 n) (vrow gd0' n) X) by assumption. reflexivity.
    + cbn [pairing]. ring.
  - destruct g' as [| | | | |gs']; try (destruct SV as ((K & _) & _); discriminate K).
    cbn [in_units] in SV. apply (same_values_comp 0 (fun _ => 0)) in SV. cbn [wf_gman] in W. cbn [pairing].
    revert gs' SV. induction IH as [|g gs Hg _ IHs]; intros gs' SV; inversion SV; subst; [cbn; ring|]. destruct W as [W1 W2]. cbn [fold_right].
    erewrite Hg; [|exact W1|eassumption|exact HV]. rewrite Rmult_plus_distr_l. f_equal. apply IHs; assumption.
Qed.

(** ** The block matrix *)
Section Sys.
Variables (s n0 n1 : nat) (e : tensor) (ka sg : R) (gd gd' : tensor).
Hypothesis S0 : sg <> 0.
Hypothesis P : srows u (n0 + n1) gd gd'.

Lemma two_rows i j : (i < n0 + n1)%nat -> (j < n0 + n1)%nat -> forall a, (a < d)%nat -> vsub (vrow gd' i) (vrow gd' j) a = u * vsub (vrow gd i) (vrow gd j) a.
Proof. intros I J a A. apply units_sub; [intros b B; exact (P i b I B)|intros b B; exact (P j b J B)|exact A]. Qed.

Lemma sks_units i j t w : (i < n0 + n1)%nat -> (j < n0 + n1)%nat ->
  sks_entry d e (u * sg) (vsub (vrow gd' i) (vrow gd' j)) t w = / u ^ 2 * sks_entry d e sg (vsub (vrow gd i) (vrow gd j)) t w.
Proof.
  intros I J. unfold sks_entry. rewrite <- Ropp_mult_distr_r, <- rsum_scal. f_equal. apply rsum_ext. intros a A. rewrite <- rsum_scal. apply rsum_ext. intros b B.
  rewrite (d2gauss_units sg _ _ (two_rows i j I J)) by assumption. ring.
Qed.

Lemma bmatrix_units q q' : (q < n0 * s + n1 * d)%nat -> (q' < n0 * s + n1 * d)%nat ->
  bmatrix d s n0 e (u * ka) (u * sg) (vrow gd') q q' = bmatrix d s n0 e ka sg (vrow gd) q q'.
Proof.
  intros Hq Hq'.
  assert (LO : forall q, (q < n0 * s)%nat -> (q / s < n0 + n1)%nat).
  { intros x X. assert (s <> 0)%nat by (intros ->; lia). assert (x / s < n0)%nat by (apply Nat.div_lt_upper_bound; lia). lia. }
  assert (HI : forall q, (q < n0 * s + n1 * d)%nat -> (n0 * s <= q)%nat -> (n0 + (q - n0 * s) / d < n0 + n1)%nat /\ ((q - n0 * s) mod d < d)%nat).
  { intros x X Y. assert (d <> 0)%nat by (intros ->; lia). assert ((x - n0 * s) / d < n1)%nat by (apply Nat.div_lt_upper_bound; lia). split; [lia|]. apply Nat.mod_upper_bound. assumption. }
  assert (BT : forall i t j r, (i < n0 + n1)%nat -> (n0 + j < n0 + n1)%nat -> bT d n0 e (u * ka) (u * sg) (vrow gd') i t j r = bT d n0 e ka sg (vrow gd) i t j r).
  { intros i t j r I J. unfold bT. rewrite Rmult_comm, (Rmult_comm ka). rewrite <- !rsum_scal_r. apply rsum_ext. intros c C. rewrite (dgauss_units sg _ _ (two_rows i (n0 + j) I J)) by assumption. field. exact U0. }
  unfold bmatrix. destruct (Nat.ltb_spec q (n0 * s)) as [A|A], (Nat.ltb_spec q' (n0 * s)) as [B|B].
  - rewrite sks_units by (apply LO; assumption). field. exact U0.
  - apply BT; [apply LO; assumption|apply HI; assumption].
  - apply BT; [apply LO; assumption|apply HI; assumption].
  - rewrite (gaussian_units sg _ _ (two_rows _ _ (proj1 (HI q Hq A)) (proj1 (HI q' Hq' B)))) by exact S0. reflexivity.
Qed.

Lemma bmatrix_growth q q' : n1 = 0%nat -> (q < n0 * s)%nat -> (q' < n0 * s)%nat ->
  bmatrix d s n0 e 1 (u * sg) (vrow gd') q q' = / u ^ 2 * bmatrix d s n0 e 1 sg (vrow gd) q q'.
Proof.
  intros Z Hq Hq'.
  assert (LO : forall q, (q < n0 * s)%nat -> (q / s < n0 + n1)%nat).
  { intros x X. assert (s <> 0)%nat by (intros ->; lia). assert (x / s < n0)%nat by (apply Nat.div_lt_upper_bound; lia). lia. }
  unfold bmatrix. rewrite (proj2 (Nat.ltb_lt _ _) Hq), (proj2 (Nat.ltb_lt _ _) Hq'). rewrite sks_units by (apply LO; assumption). ring.
Qed.

Hypothesis Sgd : shape gd = [(n0 + n1)%nat; d].
Hypothesis Sgd' : shape gd' = [(n0 + n1)%nat; d].
Hypothesis HE : sym_tensor d s e.
Lemma swells_b lam lam' : (forall q, (q < n0 * s + n1 * d)%nat -> lam' q = u * lam q) ->
  swells (b_field d s n0 n1 e ka sg gd lam) (b_field d s n0 n1 e (u * ka) (u * sg) gd' lam').
Proof.
  intros E. unfold b_field. apply swells_sum. constructor; [|constructor; [|constructor]].
  - apply (swells_0 Torch Torch n1).
    + exact S0.
    + unfold nrows. rewrite (last_shape gd n0 n1 d Sgd). reflexivity.
    + unfold nrows. rewrite (last_shape gd' n0 n1 d Sgd'). reflexivity.
    + intros j a J A. exact (P (n0 + j)%nat a ltac:(lia) A).
    + intros j a J A. unfold mk2. cbn [get]. apply E. pose proof (pair_lt n1 d j a J A). lia.
  - apply (swells_p Torch Torch n0).
    + exact S0.
    + unfold nrows. rewrite (first_shape gd n0 n1 d Sgd). reflexivity.
    + unfold nrows. rewrite (first_shape gd' n0 n1 d Sgd'). reflexivity.
    + intros j a J A. exact (P j a ltac:(lia) A).
    + intros j a k J A K. rewrite !symP_moments by assumption. unfold from_coords. rewrite <- rsum_scal. apply rsum_ext. intros t T.
      rewrite E by (pose proof (pair_lt n0 s j t J T); lia). ring.
Qed.
End Sys.
End Units.
