(** Pairing of a manifold's cotangents with the kernel fields of order 0 and 1,
    expressed with the field [vs] that the cotangents generate. *)
From Coq Require Import Reals List Arith Lia Lra.
From Verif Require Import Py Tensor TensorFacts KernelModel FieldModel SpecKernel SpecField KernelFacts
  FieldFacts GeometryModel SpecGeometry GeometryFacts.
Import ListNotations.
Open Scope R_scope.

(** The pairing only looks at components below d. *)
Lemma pairing_ext d m v v' D D' :
  (forall x a, (a < d)%nat -> v x a = v' x a) ->
  (forall x a l, (a < d)%nat -> (l < d)%nat -> D x a l = D' x a l) ->
  pairing d m v D = pairing d m v' D'.
Proof.
  intros Hv HD.
  assert (Hp : forall nb gd c, rsum nb (fun n => rsum d (fun a => c @2 n a * v (vrow gd n) a)) =
                               rsum nb (fun n => rsum d (fun a => c @2 n a * v' (vrow gd n) a))).
  { intros. apply rsum_ext; intros n _; apply rsum_ext; intros a Ha. rewrite Hv by assumption. reflexivity. }
  induction m as [dim nb gd c|tr dim nb gd0 gd1 c0 c1|dim nb gd0 gd1 c0 c1|dim n0 n1 gd0 gd1 c0 c1 i0 i1|dim|ms IH]
    using gman_ind'; cbn [pairing].
  - apply Hp.
  - destruct tr; rewrite Hp; f_equal; apply rsum_ext; intros n _; apply rsum_ext; intros a Ha; f_equal; [|f_equal];
      apply rsum_ext; intros l Hl; rewrite HD by assumption; reflexivity.
  - rewrite Hp; f_equal; apply rsum_ext; intros n _; apply rsum_ext; intros a Ha; apply rsum_ext; intros j Hj; f_equal;
      apply rsum_ext; intros l Hl; rewrite !HD by assumption; reflexivity.
  - reflexivity.
  - reflexivity.
  - induction IH as [|m ms Hm _ IHm]; cbn [fold_right]; [reflexivity|]. rewrite Hm, IHm. reflexivity.
Qed.

Lemma pairing_lin d m a b v v' D D' :
  pairing d m (fun x i => a * v x i + b * v' x i) (fun x i l => a * D x i l + b * D' x i l) =
  a * pairing d m v D + b * pairing d m v' D'.
Proof.
  pose proof (pairing_rsum d m 2 (fun j x i => if Nat.eqb j 0 then a * v x i else b * v' x i)
                (fun j x i l => if Nat.eqb j 0 then a * D x i l else b * D' x i l)) as H.
  rewrite !rsum_S, rsum_0 in H. cbn [Nat.eqb] in H.
  assert (S1 : forall s w E, pairing d m (fun x i => s * w x i) (fun x i l => s * E x i l) = s * pairing d m w E).
  { clear. intros s v D.
    assert (Hp : forall nb gd c, rsum nb (fun n => rsum d (fun a => c @2 n a * (s * v (vrow gd n) a))) =
                               s * rsum nb (fun n => rsum d (fun a => c @2 n a * v (vrow gd n) a))).
    { intros. rewrite <- rsum_scal. apply rsum_ext; intros n _. rewrite <- rsum_scal. apply rsum_ext; intros a Ha. ring. }
    induction m as [dim nb gd c|tr dim nb gd0 gd1 c0 c1|dim nb gd0 gd1 c0 c1|dim n0 n1 gd0 gd1 c0 c1 i0 i1|dim|ms IH]
      using gman_ind'; cbn [pairing].
    - apply Hp.
    - destruct tr; rewrite Hp, Rmult_plus_distr_l; f_equal; rewrite <- rsum_scal; apply rsum_ext; intros n _;
        rewrite <- rsum_scal; apply rsum_ext; intros a Ha.
      + rewrite (rsum_ext d (fun l => s * D (vrow gd0 n) a l * gd1 @2 n l) (fun l => s * (D (vrow gd0 n) a l * gd1 @2 n l))) by (intros; ring).
        rewrite rsum_scal. ring.
      + rewrite (rsum_ext d (fun l => s * D (vrow gd0 n) l a * gd1 @2 n l) (fun l => s * (D (vrow gd0 n) l a * gd1 @2 n l))) by (intros; ring).
        rewrite rsum_scal. ring.
    - rewrite Hp, Rmult_plus_distr_l; f_equal; rewrite <- rsum_scal; apply rsum_ext; intros n _;
        rewrite <- rsum_scal; apply rsum_ext; intros a Ha; rewrite <- rsum_scal; apply rsum_ext; intros j Hj.
      rewrite (rsum_ext d _ (fun k => s * ((D (vrow gd0 n) a k - D (vrow gd0 n) k a) / 2 * gd1 @3 n k j))) by (intros; field).
      rewrite rsum_scal. ring.
    - ring.
    - ring.
    - induction IH as [|m ms Hm _ IHm]; cbn [fold_right]; [ring|]. rewrite Hm, IHm. ring. }
  rewrite !S1 in H.
  rewrite <- Rplus_assoc, Rplus_0_l in H || rewrite Rplus_0_l in H.
  rewrite <- H. apply pairing_ext; intros; rewrite !rsum_S, rsum_0; cbn [Nat.eqb]; ring.
Qed.

Lemma pairing_scal d m s v D :
  pairing d m (fun x i => s * v x i) (fun x i l => s * D x i l) = s * pairing d m v D.
Proof.
  transitivity (pairing d m (fun x i => s * v x i + 0 * v x i) (fun x i l => s * D x i l + 0 * D x i l)).
  - apply pairing_ext; intros; ring.
  - rewrite pairing_lin. ring.
Qed.

Lemma pairing_plus d m v v' D D' :
  pairing d m (fun x i => v x i + v' x i) (fun x i l => D x i l + D' x i l) =
  pairing d m v D + pairing d m v' D'.
Proof.
  transitivity (pairing d m (fun x i => 1 * v x i + 1 * v' x i) (fun x i l => 1 * D x i l + 1 * D' x i l)).
  - apply pairing_ext; intros; ring.
  - rewrite pairing_lin. ring.
Qed.

(** Derivative of the pairing with respect to a parameter of the field. *)
Lemma pairing_partial d m (v : (nat -> R) -> (nat -> R) -> nat -> R) D v' D' y c :
  (forall x a, (a < d)%nat -> is_partial (fun w => v w x a) y c (v' x a)) ->
  (forall x a l, (a < d)%nat -> (l < d)%nat -> is_partial (fun w => D w x a l) y c (D' x a l)) ->
  is_partial (fun w => pairing d m (v w) (D w)) y c (pairing d m v' D').
Proof.
  intros Hv HD.
  assert (Hp : forall nb gd ct,
    is_partial (fun w => rsum nb (fun n => rsum d (fun a => ct @2 n a * v w (vrow gd n) a))) y c
      (rsum nb (fun n => rsum d (fun a => ct @2 n a * v' (vrow gd n) a)))).
  { intros. apply (partial_rsum nb (fun n w => rsum d (fun a => ct @2 n a * v w (vrow gd n) a))). intros n _.
    apply (partial_rsum d (fun a w => ct @2 n a * v w (vrow gd n) a)). intros a Ha. apply partial_scal. apply Hv; assumption. }
  induction m as [dim nb gd ct|tr dim nb gd0 gd1 c0 c1|dim nb gd0 gd1 c0 c1|dim n0 n1 gd0 gd1 c0 c1 i0 i1|dim|ms IH]
    using gman_ind'; cbn [pairing].
  - apply Hp.
  - destruct tr; apply (partial_plus (fun w => rsum nb (fun n => rsum d (fun a => c0 @2 n a * v w (vrow gd0 n) a)))); try apply Hp.
    + apply (partial_rsum nb (fun n w => rsum d (fun a => c1 @2 n a * rsum d (fun l => D w (vrow gd0 n) a l * gd1 @2 n l)))). intros n _.
      apply (partial_rsum d (fun a w => c1 @2 n a * rsum d (fun l => D w (vrow gd0 n) a l * gd1 @2 n l))). intros a Ha.
      apply partial_scal. apply (partial_rsum d (fun l w => D w (vrow gd0 n) a l * gd1 @2 n l)). intros l Hl.
      apply partial_scal_r. apply HD; assumption.
    + apply (partial_rsum nb (fun n w => rsum d (fun a => c1 @2 n a * - rsum d (fun l => D w (vrow gd0 n) l a * gd1 @2 n l)))). intros n _.
      apply (partial_rsum d (fun a w => c1 @2 n a * - rsum d (fun l => D w (vrow gd0 n) l a * gd1 @2 n l))). intros a Ha.
      apply partial_scal. apply partial_opp. apply (partial_rsum d (fun l w => D w (vrow gd0 n) l a * gd1 @2 n l)). intros l Hl.
      apply partial_scal_r. apply HD; assumption.
  - apply (partial_plus (fun w => rsum nb (fun n => rsum d (fun a => c0 @2 n a * v w (vrow gd0 n) a)))); try apply Hp.
    apply (partial_rsum nb (fun n w => rsum d (fun i => rsum d (fun j => c1 @3 n i j *
             rsum d (fun k => (D w (vrow gd0 n) i k - D w (vrow gd0 n) k i) / 2 * gd1 @3 n k j))))). intros n _.
    apply (partial_rsum d (fun i w => rsum d (fun j => c1 @3 n i j *
             rsum d (fun k => (D w (vrow gd0 n) i k - D w (vrow gd0 n) k i) / 2 * gd1 @3 n k j)))). intros i Hi.
    apply (partial_rsum d (fun j w => c1 @3 n i j *
             rsum d (fun k => (D w (vrow gd0 n) i k - D w (vrow gd0 n) k i) / 2 * gd1 @3 n k j))). intros j Hj.
    apply partial_scal.
    apply (partial_rsum d (fun k w => (D w (vrow gd0 n) i k - D w (vrow gd0 n) k i) / 2 * gd1 @3 n k j)). intros k Hk.
    apply partial_scal_r. unfold Rdiv. apply partial_scal_r. unfold Rminus.
    apply (partial_plus (fun w => D w (vrow gd0 n) i k)); [apply HD; assumption|].
    apply partial_opp. apply HD; assumption.
  - apply partial_const.
  - apply partial_const.
  - induction IH as [|m ms Hm _ IHm]; cbn [fold_right]; [apply partial_const|].
    apply (partial_plus (fun w => pairing d m (v w) (D w))); assumption.
Qed.

Lemma partial_unique F z l D E : is_partial F z l D -> is_partial F z l E -> D = E.
Proof. unfold is_partial. apply uniqueness_limite. Qed.

(** [vs] represents the pairing of [m]: both for values and for derivatives of the
    Gaussian bumps. *)
Definition represents (d : nat) (m : gman) (sg : R) (vs : sfield) : Prop :=
  (forall y u, pairing d m (fun x a => gaussian d sg (vsub x y) * u a)
                           (fun x a l => dgauss d sg (vsub x y) l * u a)
             = rsum d (fun a => u a * fval d vs y a)) /\
  (forall y u c, (c < d)%nat ->
     pairing d m (fun x a => - dgauss d sg (vsub x y) c * u a)
                 (fun x a l => - d2gauss d sg (vsub x y) c l * u a)
     = rsum d (fun a => u a * fjac d vs y a c)).

Lemma cot_to_vs_represents d m sg b b0 vs :
  wf_gman d m -> no_empty_comp m -> sg <> 0 -> cot_to_vs m sg b b0 = Ok vs ->
  wf_field d vs /\ has0 vs /\ fdim vs = d /\ represents d m sg vs.
Proof.
  intros W NE Hsg E.
  destruct (cot_to_vs_wf d m sg b b0 W NE Hsg) as (vs' & E' & Wvs & Zvs & Dvs & _ & P).
  rewrite E in E'. injection E' as <-. split; [assumption|]. split; [assumption|]. split; [assumption|].
  assert (P0 : forall y u, pairing d m (fun x a => gaussian d sg (vsub x y) * u a)
                           (fun x a l => dgauss d sg (vsub x y) l * u a)
             = rsum d (fun a => u a * fval d vs y a)) by (intros y u; exact (P (y, u))).
  split; [exact P0|]. intros y u c Hc.
  apply (partial_unique (fun w => rsum d (fun a => u a * fval d vs w a)) y c).
  - apply (partial_ext (fun w => pairing d m (fun x a => gaussian d sg (vsub x w) * u a)
                           (fun x a l => dgauss d sg (vsub x w) l * u a))); [intros w; apply P0|].
    apply (pairing_partial d m (fun w x a => gaussian d sg (vsub x w) * u a)
                           (fun w x a l => dgauss d sg (vsub x w) l * u a)).
    + intros x a Ha. apply (partial_scal_r (u a) (fun w => gaussian d sg (vsub x w))). apply partial_shift_neg. apply partial_gaussian; assumption.
    + intros x a l Ha Hl. apply (partial_scal_r (u a) (fun w => dgauss d sg (vsub x w) l)).
      apply (partial_shift_neg (fun z => dgauss d sg z l)).
      rewrite d2gauss_sym. apply partial_dgauss; assumption.
  - apply (partial_rsum d (fun a w => u a * fval d vs w a)). intros a Ha. apply partial_scal.
    apply fval_partial; assumption.
Qed.

(** Pairing with the kernel fields. *)
Lemma pair_SF0 d m sg vs bf y mom M : shape y = [M; d] -> represents d m sg vs ->
  pairing d m (fval d (SF_0 bf y mom sg)) (fjac d (SF_0 bf y mom sg)) =
  rsum M (fun j => rsum d (fun a => mom @2 j a * fval d vs (vrow y j) a)).
Proof.
  intros Sy (P0 & _). cbn [fval fjac]. unfold nrows; rewrite Sy; cbn [tnth nth].
  rewrite (pairing_rsum d m M (fun j x a => gaussian d sg (vsub x (vrow y j)) * mom @2 j a)
             (fun j x a l => dgauss d sg (vsub x (vrow y j)) l * mom @2 j a)).
  apply rsum_ext. intros j _. apply (P0 (vrow y j) (fun a => mom @2 j a)).
Qed.

Lemma pair_SFp d m sg vs bf y mom M : shape y = [M; d] -> represents d m sg vs ->
  pairing d m (fval d (SF_p bf y mom sg)) (fjac d (SF_p bf y mom sg)) =
  rsum M (fun j => rsum d (fun c => rsum d (fun a => symP mom j a c * fjac d vs (vrow y j) a c))).
Proof.
  intros Sy (_ & P1). cbn [fval fjac]. unfold nrows; rewrite Sy; cbn [tnth nth].
  rewrite (pairing_rsum d m M (fun j x a => rsum d (fun c => symP mom j a c * - dgauss d sg (vsub x (vrow y j)) c))
             (fun j x a l => rsum d (fun c => symP mom j a c * - d2gauss d sg (vsub x (vrow y j)) c l))).
  apply rsum_ext. intros j _.
  rewrite (pairing_rsum d m d (fun c x a => symP mom j a c * - dgauss d sg (vsub x (vrow y j)) c)
             (fun c x a l => symP mom j a c * - d2gauss d sg (vsub x (vrow y j)) c l)).
  apply rsum_ext. intros c Hc. rewrite <- (P1 (vrow y j) (fun a => symP mom j a c) c Hc).
  apply pairing_ext; intros; ring.
Qed.

Lemma pair_SF1 d m sg vs bf y mom M : shape y = [M; d] -> represents d m sg vs ->
  pairing d m (fval d (SF_1 bf y mom sg)) (fjac d (SF_1 bf y mom sg)) =
  rsum M (fun j => mom @1 j * rsum d (fun a => fjac d vs (vrow y j) a a)).
Proof.
  intros Sy (_ & P1). cbn [fval fjac]. unfold nrows; rewrite Sy; cbn [tnth nth].
  rewrite (pairing_rsum d m M (fun j x a => dgauss d sg (vsub (vrow y j) x) a * mom @1 j)
             (fun j x a l => - d2gauss d sg (vsub (vrow y j) x) a l * mom @1 j)).
  apply rsum_ext. intros j _.
  transitivity (pairing d m (fun x a => rsum d (fun c => - dgauss d sg (vsub x (vrow y j)) c * (delta c a * mom @1 j)))
     (fun x a l => rsum d (fun c => - d2gauss d sg (vsub x (vrow y j)) c l * (delta c a * mom @1 j)))).
  - apply pairing_ext; intros.
    + rewrite dgauss_vsub_odd. symmetry.
      rewrite (rsum_ext d _ (fun c => delta c a * (- dgauss d sg (vsub x (vrow y j)) c * mom @1 j))) by (intros; ring).
      apply rsum_delta_l; assumption.
    + rewrite d2gauss_vsub_even. symmetry.
      rewrite (rsum_ext d _ (fun c => delta c a * (- d2gauss d sg (vsub x (vrow y j)) c l * mom @1 j))) by (intros; ring).
      apply rsum_delta_l; assumption.
  - rewrite (pairing_rsum d m d (fun c x a => - dgauss d sg (vsub x (vrow y j)) c * (delta c a * mom @1 j))
       (fun c x a l => - d2gauss d sg (vsub x (vrow y j)) c l * (delta c a * mom @1 j))).
    rewrite <- rsum_scal. apply rsum_ext. intros c Hc.
    rewrite (P1 (vrow y j) (fun a => delta c a * mom @1 j) c Hc).
    rewrite (rsum_ext d _ (fun a => delta c a * (mom @1 j * fjac d vs (vrow y j) a c))) by (intros; ring).
    rewrite (rsum_ext d _ (fun a => delta a c * (mom @1 j * fjac d vs (vrow y j) a c))) by (intros; rewrite (delta_sym c); reflexivity).
    rewrite rsum_delta_l by assumption. reflexivity.
Qed.
