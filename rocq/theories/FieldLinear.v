(** Linearity of the kernel fields in their moments, additivity in their support,
    pointwise sums, and independence from the back end. *)
From Coq Require Import Reals String List Arith Lia Lra.
From Verif Require Import Py Tensor TensorFacts KernelModel FieldModel SpecKernel SpecField KernelFacts FieldFacts.
Import ListNotations.
Open Scope R_scope.

Lemma rsum_lin2 n c1 c2 f g h :
  (forall i, (i < n)%nat -> f i = c1 * g i + c2 * h i) ->
  rsum n f = c1 * rsum n g + c2 * rsum n h.
Proof.
  intros H. rewrite <- !rsum_scal, <- rsum_plus. apply rsum_ext. exact H.
Qed.

Lemma fval_lin kd b s m1 m2 c1 c2 sg d p a :
  fval d (kfield kd b s (tadd (tscal c1 m1) (tscal c2 m2)) sg) p a =
  c1 * fval d (kfield kd b s m1 sg) p a + c2 * fval d (kfield kd b s m2 sg) p a.
Proof.
  destruct kd; cbn [kfield fval]; apply rsum_lin2; intros j _; cbn [tadd tmap2 tscal tmap get].
  - ring.
  - ring.
  - ring.
  - apply rsum_lin2. intros c _. unfold symP. cbn [tadd tmap2 tscal tmap get]. field.
  - apply rsum_lin2. intros c _. unfold skewP. cbn [tadd tmap2 tscal tmap get]. field.
Qed.

Lemma fjac_lin kd b s m1 m2 c1 c2 sg d p a l :
  fjac d (kfield kd b s (tadd (tscal c1 m1) (tscal c2 m2)) sg) p a l =
  c1 * fjac d (kfield kd b s m1 sg) p a l + c2 * fjac d (kfield kd b s m2 sg) p a l.
Proof.
  destruct kd; cbn [kfield fjac]; apply rsum_lin2; intros j _; cbn [tadd tmap2 tscal tmap get].
  - ring.
  - ring.
  - ring.
  - apply rsum_lin2. intros c _. unfold symP. cbn [tadd tmap2 tscal tmap get]. field.
  - apply rsum_lin2. intros c _. unfold skewP. cbn [tadd tmap2 tscal tmap get]. field.
Qed.

Lemma wf_lin kd b s m1 m2 c1 c2 sg d :
  wf_field d (kfield kd b s m1 sg) ->
  wf_field d (kfield kd b s (tadd (tscal c1 m1) (tscal c2 m2)) sg).
Proof. destruct kd; cbn; intros H; exact H. Qed.

Lemma has0_kind kd b s m s' m' sg : has0 (kfield kd b s m sg) -> has0 (kfield kd b s' m' sg).
Proof. destruct kd, b; cbn; auto. Qed.
Lemma has1_kind kd b s m s' m' sg : has1 (kfield kd b s m sg) -> has1 (kfield kd b s' m' sg).
Proof. destruct kd, b; cbn; auto. Qed.

(** What the call of a field gives, at order 0 and 1 at once. *)
Definition V_k (d : nat) (p : tensor) (k : nat) : sfield -> list nat -> R :=
  match k with 0%nat => V0 d p | _ => V1 d p end.

Lemma feval_01 d f p N k :
  wf_field d f -> has_k k f -> shape p = [N; d] -> computes f p k (shape_k N d k) (V_k d p k).
Proof.
  destruct k as [|[|k]]; cbn [has_k]; intros Hwf Hh Hp; [| |destruct Hh].
  - apply feval_0; assumption.
  - apply feval_1; assumption.
Qed.

Lemma feval_lin kd b s m1 m2 c1 c2 sg d p N k :
  wf_field d (kfield kd b s m1 sg) -> wf_field d (kfield kd b s m2 sg) ->
  has_k k (kfield kd b s m1 sg) -> shape p = [N; d] ->
  exists t t1 t2,
    feval (kfield kd b s (tadd (tscal c1 m1) (tscal c2 m2)) sg) p k = Ok t /\
    feval (kfield kd b s m1 sg) p k = Ok t1 /\
    feval (kfield kd b s m2 sg) p k = Ok t2 /\
    shape t = shape_k N d k /\ shape t1 = shape_k N d k /\ shape t2 = shape_k N d k /\
    forall idx, valid (shape_k N d k) idx -> get t idx = c1 * get t1 idx + c2 * get t2 idx.
Proof.
  intros W1 W2 Hh Hp.
  assert (Hh' : forall m, has_k k (kfield kd b s m sg)).
  { intros m. destruct k as [|[|k]]; cbn in *; [|
    |destruct Hh]; [eapply has0_kind|eapply has1_kind]; eassumption. }
  destruct (feval_01 d _ p N k W1 Hh Hp) as (t1 & E1 & S1 & G1).
  destruct (feval_01 d _ p N k W2 (Hh' m2) Hp) as (t2 & E2 & S2 & G2).
  destruct (feval_01 d _ p N k (wf_lin kd b s m1 m2 c1 c2 sg d W1) (Hh' _) Hp) as (t & E & S & G).
  exists t, t1, t2. do 6 (split; [assumption|]).
  intros idx Hv. rewrite G, G1, G2 by assumption.
  destruct k as [|[|k]]; cbn [has_k] in Hh; [| |destruct Hh]; cbn [V_k]; unfold V0, V1.
  - destruct idx as [|n [|a [|? ?]]]; try ring. apply fval_lin.
  - destruct idx as [|n [|a [|l [|? ?]]]]; try ring. apply fjac_lin.
Qed.

Lemma is_cat_lo M1 t t1 t2 j r : is_cat M1 t t1 t2 -> (j < M1)%nat -> get t (j :: r) = get t1 (j :: r).
Proof. intros H Hj. rewrite H. apply Nat.ltb_lt in Hj. rewrite Hj. reflexivity. Qed.

Lemma is_cat_hi M1 t t1 t2 j r :
  is_cat M1 t t1 t2 -> get t ((M1 + j)%nat :: r) = get t2 (j :: r).
Proof.
  intros H. rewrite H. assert (E : Nat.ltb (M1 + j) M1 = false) by (apply Nat.ltb_ge; lia).
  rewrite E. do 2 f_equal. lia.
Qed.

Lemma vrow_cat_lo M1 t t1 t2 j : is_cat M1 t t1 t2 -> (j < M1)%nat -> forall c, vrow t j c = vrow t1 j c.
Proof. intros H Hj c. unfold vrow. apply (is_cat_lo M1 t t1 t2); assumption. Qed.
Lemma vrow_cat_hi M1 t t1 t2 j : is_cat M1 t t1 t2 -> forall c, vrow t (M1 + j) c = vrow t2 j c.
Proof. intros H c. unfold vrow. apply (is_cat_hi M1 t t1 t2); assumption. Qed.


Lemma rsum_cat M1 M2 f g h :
  (forall j, (j < M1)%nat -> f j = g j) -> (forall j, (j < M2)%nat -> f (M1 + j)%nat = h j) ->
  rsum (M1 + M2) f = rsum M1 g + rsum M2 h.
Proof. intros H1 H2. rewrite rsum_split. f_equal; apply rsum_ext; assumption. Qed.

Lemma vsub_ext_r p x y c : x c = y c -> vsub p x c = vsub p y c.
Proof. unfold vsub. intros ->. reflexivity. Qed.
Lemma vsub_ext_l p x y c : x c = y c -> vsub x p c = vsub y p c.
Proof. unfold vsub. intros ->. reflexivity. Qed.

Lemma fval_cat kd kd1 kd2 b s s1 s2 m m1 m2 sg d p a M1 M2 :
  kind_cat M1 kd kd1 kd2 -> is_cat M1 s s1 s2 -> is_cat M1 m m1 m2 ->
  shape s = [(M1 + M2)%nat; d] -> shape s1 = [M1; d] -> shape s2 = [M2; d] -> (a < d)%nat ->
  fval d (kfield kd b s m sg) p a =
  fval d (kfield kd1 b s1 m1 sg) p a + fval d (kfield kd2 b s2 m2 sg) p a.
Proof.
  intros Hk Hs Hm S S1 S2 Ha.
  assert (Lo : forall j c, (j < M1)%nat -> vrow s j c = vrow s1 j c)
    by (intros; apply (vrow_cat_lo M1 s s1 s2); assumption).
  assert (Hi : forall j c, vrow s (M1 + j) c = vrow s2 j c)
    by (intros; apply (vrow_cat_hi M1 s s1 s2); assumption).
  destruct kd, kd1, kd2; cbn [kind_cat] in Hk; try (destruct Hk; fail); cbn [kfield fval];
    rewrite (rsum_nrows s _ d _ S), (rsum_nrows s1 _ d _ S1), (rsum_nrows s2 _ d _ S2);
    apply rsum_cat; intros j Hj.
  - rewrite (is_cat_lo _ _ _ _ _ _ Hm) by assumption. f_equal. apply gaussian_ext. intros c _.
    apply vsub_ext_r. auto.
  - rewrite (is_cat_hi _ _ _ _ _ _ Hm). f_equal. apply gaussian_ext. intros c _. apply vsub_ext_r. auto.
  - rewrite (is_cat_lo _ _ _ _ _ _ Hm) by assumption. f_equal. apply rsum_ext. intros c Hc.
    rewrite (is_cat_lo _ _ _ _ _ _ Hk) by assumption. do 2 f_equal. apply dgauss_ext; [assumption|].
    intros c' _. apply vsub_ext_r. auto.
  - rewrite (is_cat_hi _ _ _ _ _ _ Hm). f_equal. apply rsum_ext. intros c Hc.
    rewrite (is_cat_hi _ _ _ _ _ _ Hk). do 2 f_equal. apply dgauss_ext; [assumption|].
    intros c' _. apply vsub_ext_r. auto.
  - rewrite (is_cat_lo _ _ _ _ _ _ Hm) by assumption. f_equal. apply dgauss_ext; [assumption|]. intros c _.
    apply vsub_ext_l. auto.
  - rewrite (is_cat_hi _ _ _ _ _ _ Hm). f_equal. apply dgauss_ext; [assumption|]. intros c _.
    apply vsub_ext_l. auto.
  - apply rsum_ext. intros c Hc. unfold symP. rewrite !(is_cat_lo _ _ _ _ _ _ Hm) by assumption.
    do 2 f_equal. apply dgauss_ext; [assumption|]. intros c' _. apply vsub_ext_r. auto.
  - apply rsum_ext. intros c Hc. unfold symP. rewrite !(is_cat_hi _ _ _ _ _ _ Hm).
    do 2 f_equal. apply dgauss_ext; [assumption|]. intros c' _. apply vsub_ext_r. auto.
  - apply rsum_ext. intros c Hc. unfold skewP. rewrite !(is_cat_lo _ _ _ _ _ _ Hm) by assumption.
    do 2 f_equal. apply dgauss_ext; [assumption|]. intros c' _. apply vsub_ext_r. auto.
  - apply rsum_ext. intros c Hc. unfold skewP. rewrite !(is_cat_hi _ _ _ _ _ _ Hm).
    do 2 f_equal. apply dgauss_ext; [assumption|]. intros c' _. apply vsub_ext_r. auto.
Qed.

Lemma fjac_cat kd kd1 kd2 b s s1 s2 m m1 m2 sg d p a l M1 M2 :
  kind_cat M1 kd kd1 kd2 -> is_cat M1 s s1 s2 -> is_cat M1 m m1 m2 ->
  shape s = [(M1 + M2)%nat; d] -> shape s1 = [M1; d] -> shape s2 = [M2; d] -> (a < d)%nat -> (l < d)%nat ->
  fjac d (kfield kd b s m sg) p a l =
  fjac d (kfield kd1 b s1 m1 sg) p a l + fjac d (kfield kd2 b s2 m2 sg) p a l.
Proof.
  intros Hk Hs Hm S S1 S2 Ha Hl.
  assert (Lo : forall j c, (j < M1)%nat -> vrow s j c = vrow s1 j c)
    by (intros; apply (vrow_cat_lo M1 s s1 s2); assumption).
  assert (Hi : forall j c, vrow s (M1 + j) c = vrow s2 j c)
    by (intros; apply (vrow_cat_hi M1 s s1 s2); assumption).
  destruct kd, kd1, kd2; cbn [kind_cat] in Hk; try (destruct Hk; fail); cbn [kfield fjac];
    rewrite (rsum_nrows s _ d _ S), (rsum_nrows s1 _ d _ S1), (rsum_nrows s2 _ d _ S2);
    apply rsum_cat; intros j Hj.
  - rewrite (is_cat_lo _ _ _ _ _ _ Hm) by assumption. f_equal. apply dgauss_ext; [assumption|].
    intros c _. apply vsub_ext_r. auto.
  - rewrite (is_cat_hi _ _ _ _ _ _ Hm). f_equal. apply dgauss_ext; [assumption|]. intros c _. apply vsub_ext_r. auto.
  - rewrite (is_cat_lo _ _ _ _ _ _ Hm) by assumption. f_equal. apply rsum_ext. intros c Hc.
    rewrite (is_cat_lo _ _ _ _ _ _ Hk) by assumption. do 2 f_equal. apply d2gauss_ext; [assumption..|].
    intros c' _. apply vsub_ext_r. auto.
  - rewrite (is_cat_hi _ _ _ _ _ _ Hm). f_equal. apply rsum_ext. intros c Hc.
    rewrite (is_cat_hi _ _ _ _ _ _ Hk). do 2 f_equal. apply d2gauss_ext; [assumption..|].
    intros c' _. apply vsub_ext_r. auto.
  - rewrite (is_cat_lo _ _ _ _ _ _ Hm) by assumption. do 2 f_equal. apply d2gauss_ext; [assumption..|].
    intros c _. apply vsub_ext_l. auto.
  - rewrite (is_cat_hi _ _ _ _ _ _ Hm). do 2 f_equal. apply d2gauss_ext; [assumption..|]. intros c _.
    apply vsub_ext_l. auto.
  - apply rsum_ext. intros c Hc. unfold symP. rewrite !(is_cat_lo _ _ _ _ _ _ Hm) by assumption.
    do 2 f_equal. apply d2gauss_ext; [assumption..|]. intros c' _. apply vsub_ext_r. auto.
  - apply rsum_ext. intros c Hc. unfold symP. rewrite !(is_cat_hi _ _ _ _ _ _ Hm).
    do 2 f_equal. apply d2gauss_ext; [assumption..|]. intros c' _. apply vsub_ext_r. auto.
  - apply rsum_ext. intros c Hc. unfold skewP. rewrite !(is_cat_lo _ _ _ _ _ _ Hm) by assumption.
    do 2 f_equal. apply d2gauss_ext; [assumption..|]. intros c' _. apply vsub_ext_r. auto.
  - apply rsum_ext. intros c Hc. unfold skewP. rewrite !(is_cat_hi _ _ _ _ _ _ Hm).
    do 2 f_equal. apply d2gauss_ext; [assumption..|]. intros c' _. apply vsub_ext_r. auto.
Qed.

Lemma shape_support d kd b s m sg : wf_field d (kfield kd b s m sg) -> exists M, shape s = [M; d].
Proof. destruct kd; cbn; intros (_ & M & H); exists M; tauto. Qed.

Lemma has_k_cat k M1 kd kd1 kd2 b s s1 m m1 sg :
  kind_cat M1 kd kd1 kd2 -> has_k k (kfield kd b s m sg) -> 
  has_k k (kfield kd1 b s1 m1 sg) /\ has_k k (kfield kd2 b s1 m1 sg).
Proof.
  destruct kd, kd1, kd2; cbn [kind_cat]; intros Hk; try (destruct Hk; fail);
    destruct k as [|[|k]]; destruct b; cbn; tauto.
Qed.

Lemma feval_cat kd kd1 kd2 b s s1 s2 m m1 m2 sg d p N k M1 :
  wf_field d (kfield kd b s m sg) -> wf_field d (kfield kd1 b s1 m1 sg) -> wf_field d (kfield kd2 b s2 m2 sg) ->
  kind_cat M1 kd kd1 kd2 -> nrows s1 = M1 -> nrows s = (M1 + nrows s2)%nat ->
  is_cat M1 s s1 s2 -> is_cat M1 m m1 m2 ->
  has_k k (kfield kd b s m sg) -> shape p = [N; d] ->
  exists t t12,
    feval (kfield kd b s m sg) p k = Ok t /\
    feval (SF_sum [kfield kd1 b s1 m1 sg; kfield kd2 b s2 m2 sg]) p k = Ok t12 /\
    shape t = shape_k N d k /\ shape t12 = shape_k N d k /\
    forall idx, valid (shape_k N d k) idx -> get t idx = get t12 idx.
Proof.
  intros W W1 W2 Hk R1 R Hs Hm Hh Hp.
  destruct (shape_support _ _ _ _ _ _ W) as (M & S).
  destruct (shape_support _ _ _ _ _ _ W1) as (M1' & S1).
  destruct (shape_support _ _ _ _ _ _ W2) as (M2 & S2).
  unfold nrows in R, R1. rewrite S, S2 in R. rewrite S1 in R1. cbn [tnth nth] in R, R1. subst M1' M.
  destruct (has_k_cat k M1 kd kd1 kd2 b s s1 m m1 sg Hk Hh) as (Hh1 & _).
  destruct (has_k_cat k M1 kd kd1 kd2 b s s2 m m2 sg Hk Hh) as (_ & Hh2).
  destruct (feval_01 d _ p N k W Hh Hp) as (t & E & Sh & G).
  assert (Ws : wf_field d (SF_sum [kfield kd1 b s1 m1 sg; kfield kd2 b s2 m2 sg]))
    by (cbn [wf_field fold_right]; split; [discriminate|tauto]).
  assert (Hhs : has_k k (SF_sum [kfield kd1 b s1 m1 sg; kfield kd2 b s2 m2 sg])).
  { destruct k as [|[|k]]; cbn [has_k has0 has1 fold_right] in *; tauto. }
  destruct (feval_01 d _ p N k Ws Hhs Hp) as (t2 & E2 & Sh2 & G2).
  exists t, t2. do 4 (split; [assumption|]).
  intros idx Hv. rewrite G, G2 by assumption.
  destruct k as [|[|k]]; cbn [has_k] in Hh; [| |destruct Hh]; cbn [V_k]; unfold V0, V1.
  - cbn [shape_k Nat.add repeat] in Hv. inv_valid Hv.
    cbn [fval fold_right].
    rewrite (fval_cat kd kd1 kd2 b s s1 s2 m m1 m2 sg d _ _ M1 M2) by assumption. ring.
  - cbn [shape_k Nat.add repeat] in Hv. inv_valid Hv.
    cbn [fjac fold_right].
    rewrite (fjac_cat kd kd1 kd2 b s s1 s2 m m1 m2 sg d _ _ _ M1 M2) by assumption. ring.
Qed.

(** Sums are pointwise at every order. *)
Lemma feval_sum_ok fs p k ts :
  fs <> [] -> Forall2 (fun f t => feval f p k = Ok t) fs ts ->
  exists t, feval (SF_sum fs) p k = Ok t /\ shape t = shape (hd t ts) /\
    forall idx, get t idx = fold_right (fun t' acc => get t' idx + acc) 0 ts.
Proof.
  intros Hne H.
  assert (E : mapM (fun f => feval f p k) fs = Ok ts).
  { clear Hne. induction H as [|f t fs ts Hf _ IH]; [reflexivity|].
    cbn [mapM]. rewrite Hf. cbn [bind]. rewrite IH. reflexivity. }
  rewrite feval_sum, E. cbn [bind]. eexists. split; [reflexivity|].
  destruct H as [|f t fs ts Hf H]; [congruence|].
  split.
  - rewrite tsum_shape. reflexivity.
  - intros idx. apply tsum_get. discriminate.
Qed.

Lemma feval_sum_err fs1 f fs2 p k e :
  (forall g, In g fs1 -> exists t, feval g p k = Ok t) -> feval f p k = Err e ->
  feval (SF_sum (fs1 ++ f :: fs2)) p k = Err e.
Proof.
  intros H1 Hf. rewrite feval_sum.
  assert (E : mapM (fun f => feval f p k) (fs1 ++ f :: fs2) = Err e).
  { induction fs1 as [|g fs1 IH]; cbn [app mapM].
    - rewrite Hf. reflexivity.
    - destruct (H1 g (or_introl eq_refl)) as (t & ->). cbn [bind].
      rewrite IH by (intros; apply H1; right; assumption). reflexivity. }
  rewrite E. reflexivity.
Qed.

(** Back ends. *)
Lemma feval_backend d f p N k b1 b2 :
  wf_field d f -> has_k k (with_backend b1 f) -> has_k k (with_backend b2 f) -> shape p = [N; d] ->
  exists t1 t2, feval (with_backend b1 f) p k = Ok t1 /\ feval (with_backend b2 f) p k = Ok t2 /\ teq t1 t2.
Proof.
  intros W H1 H2 Hp.
  destruct (feval_01 d _ p N k (wf_backend d b1 f W) H1 Hp) as (t1 & E1 & S1 & G1).
  destruct (feval_01 d _ p N k (wf_backend d b2 f W) H2 Hp) as (t2 & E2 & S2 & G2).
  exists t1, t2. split; [assumption|]. split; [assumption|]. split; [congruence|].
  intros idx Hv. rewrite S1 in Hv. rewrite G1, G2 by assumption.
  destruct k as [|[|k]]; cbn [has_k] in H1; [| |destruct H1]; cbn [V_k]; unfold V0, V1.
  - destruct idx as [|n [|a [|? ?]]]; try reflexivity. rewrite !fval_backend. reflexivity.
  - destruct idx as [|n [|a [|l [|? ?]]]]; try reflexivity. rewrite !fjac_backend. reflexivity.
Qed.

(** ** The Jacobian property in terms of calls only *)

Lemma has1_has0 f : has1 f -> has0 f.
Proof.
  induction f as [| | | | | | | |fs IH] using sfield_ind'; cbn [has1 has0]; auto.
  intros H. apply fr_and in H. apply fr_and.
  induction IH as [|f fs Hf _ IHf]; inversion H; subst; constructor; auto.
Qed.

Lemma shape_upd_point p n l t : shape (upd_point p n l t) = shape p.
Proof. reflexivity. Qed.

Lemma vrow_upd_point p n l t : vrow (upd_point p n l t) n = upd (vrow p n) l t.
Proof.
  apply FunctionalExtensionality.functional_extensionality. intros c.
  unfold vrow, upd_point, upd. cbn [get]. rewrite Nat.eqb_refl. cbn [andb].
  destruct (Nat.eqb c l); reflexivity.
Qed.

Lemma feval_jacobian d f p N :
  wf_field d f -> has1 f -> shape p = [N; d] ->
  exists J, feval f p 1 = Ok J /\ shape J = [N; d; d] /\
    forall n a l, (n < N)%nat -> (a < d)%nat -> (l < d)%nat ->
      exists F : R -> R,
        (forall t, exists v, feval f (upd_point p n l t) 0 = Ok v /\ v @2 n a = F t) /\
        derivable_pt_lim F (p @2 n l) (J @3 n a l).
Proof.
  intros W H1 Hp.
  destruct (feval_1 d f p N W H1 Hp) as (J & EJ & SJ & GJ).
  exists J. split; [assumption|]. split; [assumption|].
  intros n a l Hn Ha Hl.
  exists (fun t => fval d f (upd (vrow p n) l t) a). split.
  - intros t.
    destruct (feval_0 d f (upd_point p n l t) N W (has1_has0 f H1)) as (v & Ev & Sv & Gv);
      [rewrite shape_upd_point; assumption|].
    exists v. split; [assumption|]. rewrite Gv by (cbn; auto). cbn [V0]. rewrite vrow_upd_point. reflexivity.
  - rewrite GJ by (cbn; auto). cbn [V1].
    apply (fval_partial d f (vrow p n) a l W Ha Hl).
Qed.

Lemma has2_has1 f : has2 f -> has1 f.
Proof.
  induction f as [b| | | | | | | |fs IH] using sfield_ind'; cbn [has2 has1]; try tauto.
  intros H. apply fr_and in H. apply fr_and.
  induction IH as [|f fs Hf _ IHf]; inversion H; subst; constructor; auto.
Qed.

Lemma feval_hessian d f p N :
  wf_field d f -> has2 f -> shape p = [N; d] ->
  exists H, feval f p 2 = Ok H /\ shape H = [N; d; d; d] /\
    forall n a l l', (n < N)%nat -> (a < d)%nat -> (l < d)%nat -> (l' < d)%nat ->
      exists F : R -> R,
        (forall t, exists v, feval f (upd_point p n l' t) 1 = Ok v /\ v @3 n a l = F t) /\
        derivable_pt_lim F (p @2 n l') (H @4 n a l l').
Proof.
  intros W H2 Hp.
  destruct (feval_2 d f p N W H2 Hp) as (H & EH & SH & GH).
  exists H. split; [assumption|]. split; [assumption|].
  intros n a l l' Hn Ha Hl Hl'.
  exists (fun t => fjac d f (upd (vrow p n) l' t) a l). split.
  - intros t.
    destruct (feval_1 d f (upd_point p n l' t) N W (has2_has1 f H2)) as (v & Ev & Sv & Gv);
      [rewrite shape_upd_point; assumption|].
    exists v. split; [assumption|]. rewrite Gv by (cbn; auto). cbn [V1]. rewrite vrow_upd_point. reflexivity.
  - rewrite GH by (cbn; auto). cbn [V2].
    apply (fjac_partial d f (vrow p n) a l l' W H2 Ha Hl Hl').
Qed.

Lemma feval_1_total d f p N :
  wf_field d f -> shape p = [N; d] ->
  (has1 f /\ is_ok (feval f p 1)) \/ (~ has1 f /\ feval f p 1 = Err NotImplementedError).
Proof.
  intros W Hp.
  assert (Hok : has1 f -> is_ok (feval f p 1)).
  { intros H. destruct (feval_1 d f p N W H Hp) as (t & E & _). exists t. exact E. }
  assert (Hd : has1 f \/ (~ has1 f /\ feval f p 1 = Err NotImplementedError)).
  { clear Hok. revert W. induction f as [| |b| | | | | |fs IH] using sfield_ind'; intros W; cbn [has1]; auto.
    - destruct b; [left; exact I|right; split; [tauto|reflexivity]].
    - cbn [wf_field] in W. destruct W as (_ & W). apply fr_and in W. rewrite fr_and.
      induction IH as [|f fs Hf _ IHf]; [left; constructor|].
      inversion W as [|? ? Wf Wfs]; subst. destruct (Hf Wf) as [H1|(H1 & E1)].
      + destruct (IHf Wfs) as [H2|(H2 & E2)]; [left; constructor; assumption|].
        right. split; [intros Hc; inversion Hc; tauto|].
        rewrite feval_sum in E2 |- *. cbn [mapM].
        destruct (feval_1 d f p N Wf H1 Hp) as (t & E & _). rewrite E. cbn [bind].
        destruct (mapM (fun f0 => feval f0 p 1) fs); [discriminate|].
        cbn [bind] in *. congruence.
      + right. split; [intros Hc; inversion Hc; tauto|].
        rewrite feval_sum. cbn [mapM]. rewrite E1. reflexivity. }
  destruct Hd as [H|H]; [left|right]; auto.
Qed.
