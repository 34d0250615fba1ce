(** Vector fields and pairings under a rigid motion. *)
From Coq Require Import Reals List Arith Lia Lra.
From Verif Require Import Py RSum Tensor TensorFacts KernelModel FieldModel GeometryModel ModuleModel ShootingModel
  SpecKernel SpecField SpecGeometry SpecModule SpecShooting SpecMotion SpecRigid FieldFacts GeometryFacts ShootingPack.
Import ListNotations.
Open Scope R_scope.

(** ** Linear algebra *)
Lemma turned_ext d Q u v a : (forall b, (b < d)%nat -> u b = v b) -> turned d Q u a = turned d Q v a.
Proof. intros E. unfold turned. apply rsum_ext. intros b B. rewrite E by exact B. reflexivity. Qed.
Lemma turned_plus d Q u v a : turned d Q (fun b => u b + v b) a = turned d Q u a + turned d Q v a.
Proof. unfold turned. rewrite <- rsum_plus. apply rsum_ext. intros; ring. Qed.
Lemma turned_scal d Q s u a : turned d Q (fun b => s * u b) a = s * turned d Q u a.
Proof. unfold turned. rewrite <- rsum_scal. apply rsum_ext. intros; ring. Qed.
Lemma turned_opp d Q u a : turned d Q (fun b => - u b) a = - turned d Q u a.
Proof. unfold turned. rewrite <- rsum_opp. apply rsum_ext. intros; ring. Qed.
Lemma turned_zero d Q a : turned d Q (fun _ => 0) a = 0.
Proof. unfold turned. apply rsum_zero. intros; ring. Qed.
Lemma turned_sum d Q n (F : nat -> nat -> R) a : turned d Q (fun b => rsum n (fun j => F j b)) a = rsum n (fun j => turned d Q (F j) a).
Proof. unfold turned. rewrite (rsum_swap n d). apply rsum_ext. intros b _. rewrite <- rsum_scal. reflexivity. Qed.
Lemma turned_sum_r d Q n (F : nat -> nat -> R) (w : nat -> R) a :
  turned d Q (fun b => rsum n (fun j => w j * F j b)) a = rsum n (fun j => w j * turned d Q (F j) a).
Proof. rewrite (turned_sum d Q n (fun j b => w j * F j b)). apply rsum_ext. intros j _. apply (turned_scal d Q (w j) (F j)). Qed.

Section Turn.
Variables (d : nat) (Q : mat).
Hypothesis HQ : rigid d Q.

Lemma cols_dot i j : (i < d)%nat -> (j < d)%nat -> rsum d (fun k => Q k i * Q k j) = delta i j.
Proof. intros I J. exact (proj1 HQ i j I J). Qed.
Lemma rows_dot i j : (i < d)%nat -> (j < d)%nat -> rsum d (fun k => Q i k * Q j k) = delta i j.
Proof. intros I J. exact (proj2 HQ i j I J). Qed.
Lemma rigid_tr : rigid d (mtr Q).
Proof. destruct HQ as [A B]. split; [exact B|exact A]. Qed.

Lemma turned_dot u v : rsum d (fun a => turned d Q u a * turned d Q v a) = rsum d (fun a => u a * v a).
Proof.
  transitivity (rsum d (fun b => rsum d (fun k => u b * v k * rsum d (fun a => Q a b * Q a k)))).
  - transitivity (rsum d (fun a => rsum d (fun b => rsum d (fun k => u b * v k * (Q a b * Q a k))))).
    + apply rsum_ext. intros a _. unfold turned. rewrite rsum_mult. apply rsum_ext. intros b _. apply rsum_ext. intros; ring.
    + rewrite rsum_swap. apply rsum_ext. intros b _. rewrite rsum_swap. apply rsum_ext. intros k _. rewrite rsum_scal. reflexivity.
  - apply rsum_ext. intros b B. rewrite (rsum_ext d _ (fun k => delta b k * (u b * v k))).
    + rewrite rsum_delta_r by exact B. reflexivity.
    + intros k K. rewrite cols_dot by assumption. ring.
Qed.
Lemma turned_adj u v : rsum d (fun a => turned d Q u a * v a) = rsum d (fun b => u b * turned d (mtr Q) v b).
Proof.
  unfold turned, mtr. rewrite (rsum_ext d _ (fun a => rsum d (fun b => u b * (Q a b * v a)))).
  - rewrite rsum_swap. apply rsum_ext. intros b _. rewrite rsum_scal. reflexivity.
  - intros a _. rewrite <- rsum_scal_r. apply rsum_ext. intros; ring.
Qed.
Lemma turned_back u a : (a < d)%nat -> turned d Q (turned d (mtr Q) u) a = u a.
Proof.
  intros A. unfold turned. rewrite (rsum_ext d _ (fun b => rsum d (fun k => u k * (Q a b * Q k b)))).
  - rewrite rsum_swap. rewrite (rsum_ext d _ (fun k => delta a k * u k)).
    + apply rsum_delta_r. exact A.
    + intros k K. rewrite rsum_scal, rows_dot by assumption. ring.
  - intros b _. rewrite <- rsum_scal. apply rsum_ext. intros k _. unfold mtr. ring.
Qed.

(** Q A Q^T *)
Lemma conj_ext A B a l : (forall i j, (i < d)%nat -> (j < d)%nat -> A i j = B i j) -> conj_by d Q A a l = conj_by d Q B a l.
Proof. intros E. apply rsum_ext. intros b Hb. f_equal. apply rsum_ext. intros k Hk. rewrite E by assumption. reflexivity. Qed.
Lemma conj_plus A B a l : conj_by d Q (fun i j => A i j + B i j) a l = conj_by d Q A a l + conj_by d Q B a l.
Proof.
  unfold conj_by. rewrite <- rsum_plus. apply rsum_ext. intros b _. rewrite <- Rmult_plus_distr_l. f_equal.
  rewrite <- rsum_plus. apply rsum_ext. intros; ring.
Qed.
Lemma conj_scal s A a l : conj_by d Q (fun i j => s * A i j) a l = s * conj_by d Q A a l.
Proof.
  unfold conj_by. rewrite <- rsum_scal. apply rsum_ext. intros b _. rewrite <- Rmult_assoc, (Rmult_comm s), Rmult_assoc. f_equal.
  rewrite <- rsum_scal. apply rsum_ext. intros; ring.
Qed.
Lemma conj_opp A a l : conj_by d Q (fun i j => - A i j) a l = - conj_by d Q A a l.
Proof. rewrite (conj_ext _ (fun i j => (-1) * A i j)) by (intros; ring). rewrite (conj_scal (-1)). ring. Qed.
Lemma conj_zero a l : conj_by d Q (fun _ _ => 0) a l = 0.
Proof. unfold conj_by. apply rsum_zero. intros b _. rewrite (rsum_zero d) by (intros; ring). ring. Qed.
Lemma conj_sum n (F : nat -> mat) a l : conj_by d Q (fun i j => rsum n (fun k => F k i j)) a l = rsum n (fun k => conj_by d Q (F k) a l).
Proof.
  induction n as [|n IH]; [cbn; apply conj_zero|]. rewrite rsum_S, <- IH.
  rewrite <- (conj_plus (fun i j => rsum n (fun k => F k i j)) (F n)). apply conj_ext. intros i j _ _. exact (rsum_S n (fun k => F k i j)).
Qed.
Lemma conj_outer u w a l : conj_by d Q (fun i j => u i * w j) a l = turned d Q u a * turned d Q w l.
Proof.
  unfold conj_by, turned. rewrite <- rsum_scal_r. apply rsum_ext. intros b _. rewrite Rmult_assoc. f_equal.
  rewrite <- rsum_scal. apply rsum_ext. intros; ring.
Qed.
Lemma conj_tr A a l : conj_by d Q (mtr A) a l = conj_by d Q A l a.
Proof.
  unfold conj_by, mtr.
  transitivity (rsum d (fun b => rsum d (fun k => Q a b * Q l k * A k b))).
  - apply rsum_ext. intros b _. rewrite <- rsum_scal. apply rsum_ext. intros; ring.
  - rewrite rsum_swap. apply rsum_ext. intros b _. rewrite <- rsum_scal. apply rsum_ext. intros; ring.
Qed.
Lemma conj_delta a l : (a < d)%nat -> (l < d)%nat -> conj_by d Q delta a l = delta a l.
Proof.
  intros A L. rewrite <- (rows_dot a l A L). unfold conj_by. apply rsum_ext. intros b B. f_equal.
  rewrite (rsum_ext d _ (fun k => delta b k * Q l k)) by (intros; ring). apply rsum_delta_r. exact B.
Qed.
Lemma conj_mv A w a : rsum d (fun c => conj_by d Q A a c * turned d Q w c) = turned d Q (fun b => rsum d (fun c => A b c * w c)) a.
Proof.
  unfold conj_by. rewrite (rsum_ext d _ (fun c => rsum d (fun b => Q a b * (turned d Q (A b) c * turned d Q w c)))).
  - rewrite rsum_swap. apply rsum_ext. intros b _. rewrite rsum_scal, turned_dot. reflexivity.
  - intros c _. rewrite <- rsum_scal_r. apply rsum_ext. intros b _. unfold turned. ring.
Qed.
Lemma conj_vm A w a : rsum d (fun c => conj_by d Q A c a * turned d Q w c) = turned d Q (fun b => rsum d (fun c => A c b * w c)) a.
Proof. etransitivity; [|exact (conj_mv (mtr A) w a)]. apply rsum_ext. intros c _. rewrite conj_tr. reflexivity. Qed.
Lemma conj_mm A B a l : rsum d (fun c => conj_by d Q A a c * conj_by d Q B c l) = conj_by d Q (fun i j => rsum d (fun c => A i c * B c j)) a l.
Proof.
  transitivity (rsum d (fun c => conj_by d Q A a c * turned d Q (fun b => turned d Q (B b) l) c)); [reflexivity|].
  rewrite conj_mv. unfold conj_by. apply rsum_ext. intros b _. f_equal.
  rewrite (rsum_ext d _ (fun c => rsum d (fun k => Q l k * (A b c * B c k)))).
  - rewrite rsum_swap. apply rsum_ext. intros k _. rewrite rsum_scal. reflexivity.
  - intros c _. unfold turned. rewrite <- rsum_scal. apply rsum_ext. intros; ring.
Qed.
Lemma conj_trace A : rsum d (fun a => conj_by d Q A a a) = rsum d (fun a => A a a).
Proof.
  transitivity (rsum d (fun b => rsum d (fun k => A b k * rsum d (fun a => Q a b * Q a k)))).
  - transitivity (rsum d (fun a => rsum d (fun b => rsum d (fun k => A b k * (Q a b * Q a k))))).
    + apply rsum_ext. intros a _. apply rsum_ext. intros b _. rewrite <- rsum_scal. apply rsum_ext. intros; ring.
    + rewrite rsum_swap. apply rsum_ext. intros b _. rewrite rsum_swap. apply rsum_ext. intros k _. rewrite rsum_scal. reflexivity.
  - apply rsum_ext. intros b B. rewrite (rsum_ext d _ (fun k => delta b k * A b k)).
    + apply rsum_delta_r. exact B.
    + intros k K. rewrite cols_dot by assumption. ring.
Qed.

(** ** The Gaussian *)
Section Gauss.
Variables (sg : R) (z z' : nat -> R).
Hypothesis Hz : forall a, (a < d)%nat -> z' a = turned d Q z a.

Lemma sqn_turned : sqn d z' = sqn d z.
Proof.
  unfold sqn. rewrite (rsum_ext d _ (fun a => turned d Q z a * turned d Q z a)).
  - rewrite turned_dot. apply rsum_ext. intros; ring.
  - intros a A. rewrite Hz by exact A. ring.
Qed.
Lemma gaussian_turned : gaussian d sg z' = gaussian d sg z.
Proof. unfold gaussian. rewrite sqn_turned. reflexivity. Qed.
Lemma dgauss_turned l : (l < d)%nat -> dgauss d sg z' l = turned d Q (dgauss d sg z) l.
Proof.
  intros L. rewrite (turned_ext d Q (dgauss d sg z) (fun b => (- (1 / sg ^ 2) * gaussian d sg z) * z b)) by (intros; unfold dgauss, Rdiv; ring).
  rewrite turned_scal. unfold dgauss. rewrite gaussian_turned, Hz by exact L. unfold Rdiv. ring.
Qed.
Lemma d2gauss_turned l k : (l < d)%nat -> (k < d)%nat -> d2gauss d sg z' l k = conj_by d Q (d2gauss d sg z) l k.
Proof.
  intros L K.
  rewrite (conj_ext (d2gauss d sg z) (fun i j => (gaussian d sg z * / sg ^ 4) * (z i * z j) + (- (gaussian d sg z * / sg ^ 2)) * delta i j)) by (intros; unfold d2gauss, Rdiv; ring).
  rewrite (conj_plus (fun i j => (gaussian d sg z * / sg ^ 4) * (z i * z j)) (fun i j => (- (gaussian d sg z * / sg ^ 2)) * delta i j)).
  rewrite (conj_scal _ (fun i j => z i * z j)), (conj_scal _ delta), conj_outer, conj_delta by assumption.
  unfold d2gauss. rewrite gaussian_turned, !Hz by assumption. unfold Rdiv. ring.
Qed.
End Gauss.

Lemma placed_sub c x x' y y' a : (forall a, (a < d)%nat -> x' a = placed d Q c x a) -> (forall a, (a < d)%nat -> y' a = placed d Q c y a) ->
  (a < d)%nat -> vsub x' y' a = turned d Q (vsub x y) a.
Proof.
  intros X Y A. unfold vsub. rewrite X, Y by exact A. unfold placed, turned.
  rewrite (rsum_ext d (fun b => Q a b * (x b - y b)) (fun b => Q a b * x b - Q a b * y b)) by (intros; ring). rewrite rsum_minus. ring.
Qed.

(** ** Fields *)
Variable c : nat -> R.
Definition carries (f f' : sfield) : Prop :=
  forall x x', (forall a, (a < d)%nat -> x' a = placed d Q c x a) ->
    (forall a, (a < d)%nat -> fval d f' x' a = turned d Q (fval d f x) a) /\
    (forall a l, (a < d)%nat -> (l < d)%nat -> fjac d f' x' a l = conj_by d Q (fjac d f x) a l).

(** Rows that are placed, turned. *)
Definition prows (M : nat) (s s' : tensor) : Prop := forall j a, (j < M)%nat -> (a < d)%nat -> s' @2 j a = placed d Q c (vrow s j) a.
Definition trows (M : nat) (s s' : tensor) : Prop := forall j a, (j < M)%nat -> (a < d)%nat -> s' @2 j a = turned d Q (vrow s j) a.

Lemma rows_sub M s s' x x' j : prows M s s' -> (j < M)%nat -> (forall a, (a < d)%nat -> x' a = placed d Q c x a) ->
  forall a, (a < d)%nat -> vsub x' (vrow s' j) a = turned d Q (vsub x (vrow s j)) a.
Proof. intros P J X a A. apply (placed_sub c x x' (vrow s j)); [exact X| |exact A]. intros b B. exact (P j b J B). Qed.
Lemma rows_bus M s s' x x' j : prows M s s' -> (j < M)%nat -> (forall a, (a < d)%nat -> x' a = placed d Q c x a) ->
  forall a, (a < d)%nat -> vsub (vrow s' j) x' a = turned d Q (vsub (vrow s j) x) a.
Proof. intros P J X a A. apply (placed_sub c (vrow s j) (vrow s' j) x); [|exact X|exact A]. intros b B. exact (P j b J B). Qed.

Lemma carries_0 b b' M s m s' m' sg : nrows s = M -> nrows s' = M -> prows M s s' -> trows M m m' -> carries (SF_0 b s m sg) (SF_0 b' s' m' sg).
Proof.
  intros N N' P T x x' X. cbn [fval fjac]. rewrite N, N'. split.
  - intros a A. rewrite (turned_sum_r d Q M (fun j b => m @2 j b)). apply rsum_ext. intros j J.
    rewrite (gaussian_turned sg (vsub x (vrow s j)) _ (rows_sub M s s' x x' j P J X)). rewrite (T j a J A). reflexivity.
  - intros a l A L. rewrite (conj_sum M (fun j a l => dgauss d sg (vsub x (vrow s j)) l * m @2 j a)). apply rsum_ext. intros j J.
    rewrite (conj_ext _ (fun a l => m @2 j a * dgauss d sg (vsub x (vrow s j)) l)) by (intros; ring). rewrite conj_outer.
    rewrite (dgauss_turned sg (vsub x (vrow s j)) _ (rows_sub M s s' x x' j P J X)) by assumption. rewrite (T j a J A). unfold vrow. ring.
Qed.
Lemma carries_1 b b' M s m s' m' sg : nrows s = M -> nrows s' = M -> prows M s s' -> (forall j, (j < M)%nat -> m' @1 j = m @1 j) ->
  carries (SF_1 b s m sg) (SF_1 b' s' m' sg).
Proof.
  intros N N' P T x x' X. cbn [fval fjac]. rewrite N, N'. split.
  - intros a A. rewrite (turned_sum d Q M (fun j b => dgauss d sg (vsub (vrow s j) x) b * m @1 j)). apply rsum_ext. intros j J.
    rewrite (turned_ext d Q _ (fun b => m @1 j * dgauss d sg (vsub (vrow s j) x) b)) by (intros; ring). rewrite turned_scal.
    rewrite (dgauss_turned sg (vsub (vrow s j) x) _ (rows_bus M s s' x x' j P J X)) by assumption. rewrite (T j J). ring.
  - intros a l A L. rewrite (conj_sum M (fun j a l => - d2gauss d sg (vsub (vrow s j) x) a l * m @1 j)). apply rsum_ext. intros j J.
    rewrite (conj_ext _ (fun a l => (- m @1 j) * d2gauss d sg (vsub (vrow s j) x) a l)) by (intros; ring). rewrite conj_scal.
    rewrite (d2gauss_turned sg (vsub (vrow s j) x) _ (rows_bus M s s' x x' j P J X)) by assumption. rewrite (T j J). ring.
Qed.
Lemma carries_p b b' M s m s' m' sg : nrows s = M -> nrows s' = M -> prows M s s' ->
  (forall j a k, (j < M)%nat -> (a < d)%nat -> (k < d)%nat -> symP m' j a k = conj_by d Q (symP m j) a k) ->
  carries (SF_p b s m sg) (SF_p b' s' m' sg).
Proof.
  intros N N' P T x x' X. cbn [fval fjac]. rewrite N, N'. split.
  - intros a A. rewrite (turned_sum d Q M (fun j b => rsum d (fun c => symP m j b c * - dgauss d sg (vsub x (vrow s j)) c))). apply rsum_ext. intros j J.
    rewrite <- conj_mv. apply rsum_ext. intros k K.
    rewrite (dgauss_turned sg (vsub x (vrow s j)) _ (rows_sub M s s' x x' j P J X)) by assumption. rewrite (T j a k J A K), turned_opp. reflexivity.
  - intros a l A L. rewrite (conj_sum M (fun j a l => rsum d (fun c => symP m j a c * - d2gauss d sg (vsub x (vrow s j)) c l))). apply rsum_ext. intros j J.
    rewrite <- conj_mm. apply rsum_ext. intros k K.
    rewrite (d2gauss_turned sg (vsub x (vrow s j)) _ (rows_sub M s s' x x' j P J X)) by assumption. rewrite (T j a k J A K).
    rewrite (conj_opp (d2gauss d sg (vsub x (vrow s j)))). reflexivity.
Qed.
Lemma carries_affine A x0 u A' x0' u' : (forall i j, (i < d)%nat -> (j < d)%nat -> A' @2 i j = conj_by d Q (fun k l => A @2 k l) i j) ->
  (forall a, (a < d)%nat -> x0' @1 a = placed d Q c (fun b => x0 @1 b) a) ->
  (forall a, (a < d)%nat -> u' @1 a = turned d Q (fun b => u @1 b) a) -> carries (SF_affine A x0 u) (SF_affine A' x0' u').
Proof.
  intros HA HX HU x x' X. cbn [fval fjac]. split.
  - intros a B. rewrite HU by exact B. rewrite (turned_plus d Q (fun a => rsum d (fun c0 => A @2 a c0 * (x c0 - x0 @1 c0)))). f_equal.
    etransitivity; [|exact (conj_mv (fun k l => A @2 k l) (fun c0 => x c0 - x0 @1 c0) a)]. apply rsum_ext. intros k K. rewrite HA by assumption. f_equal.
    exact (placed_sub c x x' (fun b => x0 @1 b) (fun b => x0' @1 b) k X HX K).
  - intros a l B L. apply HA; assumption.
Qed.
Lemma carries_const m m' : (forall a, (a < d)%nat -> m' @1 a = turned d Q (fun b => m @1 b) a) -> carries (SF_const m) (SF_const m').
Proof. intros H x x' X. cbn [fval fjac]. split; [exact H|]. intros a l _ _. rewrite conj_zero. reflexivity. Qed.
Lemma carries_null k k' : carries (SF_null k) (SF_null k').
Proof. intros x x' X. cbn [fval fjac]. split; intros; [rewrite turned_zero|rewrite conj_zero]; reflexivity. Qed.
Lemma carries_sum fs fs' : Forall2 carries fs fs' -> carries (SF_sum fs) (SF_sum fs').
Proof.
  induction 1 as [|f f' fs fs' F _ IH]; intros x x' X; cbn [fval fjac fold_right].
  - split; intros; [rewrite turned_zero|rewrite conj_zero]; reflexivity.
  - destruct (F x x' X) as [V J]. destruct (IH x x' X) as [V' J']. cbn [fval fjac] in V', J'. split.
    + intros a A. rewrite (turned_plus d Q (fval d f x)), V, V' by exact A. reflexivity.
    + intros a l A L. rewrite (conj_plus (fjac d f x)), J, J' by assumption. reflexivity.
Qed.

(** ** Pairings *)
Lemma prows_teq M s s' : shape s = [M; d] -> teq s' (place_rows d Q c s) -> prows M s s'.
Proof. intros S [E V] j a J A. cbn in E. specialize (V [j; a]). rewrite E, S in V. rewrite V by (cbn; auto). reflexivity. Qed.
Lemma trows_teq M s s' : shape s = [M; d] -> teq s' (turn_rows d Q s) -> trows M s s'.
Proof. intros S [E V] j a J A. cbn in E. specialize (V [j; a]). rewrite E, S in V. rewrite V by (cbn; auto). reflexivity. Qed.
Lemma tframes_teq M s s' : shape s = [M; d; d] -> teq s' (turn_frames d Q s) ->
  forall j a k, (j < M)%nat -> (a < d)%nat -> (k < d)%nat -> s' @3 j a k = turned d Q (fun b => s @3 j b k) a.
Proof. intros S [E V] j a k J A K. cbn in E. specialize (V [j; a; k]). rewrite E, S in V. rewrite V by (cbn; auto). reflexivity. Qed.

Lemma points_pairing M gd ct gd' ct' v v' : shape gd = [M; d] -> shape ct = [M; d] -> teq gd' (place_rows d Q c gd) -> teq ct' (turn_rows d Q ct) ->
  (forall x x', (forall a, (a < d)%nat -> x' a = placed d Q c x a) -> forall a, (a < d)%nat -> v' x' a = turned d Q (v x) a) ->
  rsum M (fun n => rsum d (fun a => ct' @2 n a * v' (vrow gd' n) a)) = rsum M (fun n => rsum d (fun a => ct @2 n a * v (vrow gd n) a)).
Proof.
  intros SG SC G C V. apply rsum_ext. intros n N. etransitivity; [|exact (turned_dot (vrow ct n) (v (vrow gd n)))]. apply rsum_ext. intros a A.
  rewrite (trows_teq M ct ct' SC C n a N A). rewrite (V (vrow gd n) (vrow gd' n)); [reflexivity| |exact A].
  intros b B. exact (prows_teq M gd gd' SG G n b N B).
Qed.

Lemma same_values_comp gs gs' : same_values (GComp gs') (GComp gs) -> Forall2 same_values gs' gs.
Proof.
  intros ((K & G) & (_ & C)). cbn [skel] in K. injection K as K. cbn [g_gd g_cotan] in G, C. revert gs K G C.
  induction gs' as [|g' gs' IH]; intros gs K G C; destruct gs as [|g gs]; try discriminate K; [constructor|].
  cbn [map] in K. injection K as K1 K2. cbn [flat_map] in G, C.
  assert (Fapp : forall (a b a' b' : list tensor), length a = length a' -> Forall2 teq (a ++ b) (a' ++ b') -> Forall2 teq a a' /\ Forall2 teq b b').
  { clear. induction a as [|x a IH]; intros b a' b' L H; destruct a' as [|y a']; try discriminate L; [auto|].
    inversion H; subst. injection L as L. destruct (IH _ _ _ L H5). auto. }
  apply Fapp in G; [|rewrite !g_gd_len; apply skel_len; exact K1]. apply Fapp in C; [|rewrite !g_cotan_len; apply skel_len; exact K1].
  constructor; [|apply IH; tauto]. split; split; tauto.
Qed.

Lemma pairing_placed g : forall g' v v' D D', wf_gman d g -> same_values g' (placed_man d Q c g) ->
  (forall x x', (forall a, (a < d)%nat -> x' a = placed d Q c x a) ->
    (forall a, (a < d)%nat -> v' x' a = turned d Q (v x) a) /\
    (forall a l, (a < d)%nat -> (l < d)%nat -> D' x' a l = conj_by d Q (D x) a l)) ->
  pairing d g' v' D' = pairing d g v D.
Proof.
  induction g as [g NC|gs IH] using gman_ind'; intros g' v v' D D' W SV HV.
  - assert (HV0 : forall x x', (forall a, (a < d)%nat -> x' a = placed d Q c x a) -> forall a, (a < d)%nat -> v' x' a = turned d Q (v x) a)
      by (intros x x' X; exact (proj1 (HV x x' X))).
    assert (HD : forall x x', (forall a, (a < d)%nat -> x' a = placed d Q c x a) -> forall a l, (a < d)%nat -> (l < d)%nat -> D' x' a l = conj_by d Q (D x) a l)
      by (intros x x' X; exact (proj2 (HV x x' X))).
    destruct SV as ((K & G) & (_ & C)).
    destruct g as [dim nb gd ct|tr dim nb gd0 gd1 c0 c1|dim nb gd0 gd1 c0 c1| |dim|gs]; try contradiction W; try contradiction NC;
      destruct g' as [dim' nb' gd' ct'|tr' dim' nb' gd0' gd1' c0' c1'|dim' nb' gd0' gd1' c0' c1'| |dim'|gs']; try discriminate K;
      cbn [placed_man skel] in K; cbn [placed_man g_gd g_cotan] in G, C.
    + injection K as -> ->. inversion G; subst. inversion C; subst. cbn [wf_gman] in W. destruct W as (_ & S0 & S1). cbn [pairing].
      refine (points_pairing nb gd ct gd' ct' v v' _ _ _ _ _); assumption.
    + injection K as -> -> ->. inversion G as [|? ? ? ? G0 GR]; subst. inversion GR as [|? ? ? ? G1 _]; subst. inversion C as [|? ? ? ? C0 CR]; subst. inversion CR as [|? ? ? ? C1 _]; subst.
      cbn [wf_gman] in W. destruct W as (_ & S0 & S1 & S2 & S3). pose proof (trows_teq nb _ _ S1 G1) as T1. pose proof (trows_teq nb _ _ S3 C1) as T3.
      pose proof (prows_teq nb _ _ S0 G0) as P0. cbn [pairing].
      destruct tr; (f_equal; [refine (points_pairing nb gd0 c0 gd0' c0' v v' _ _ _ _ _); assumption|]); apply rsum_ext; intros n N.
      * etransitivity; [|exact (turned_dot (vrow c1 n) (fun a => rsum d (fun l => D (vrow gd0 n) a l * gd1 @2 n l)))]. apply rsum_ext. intros a A.
        rewrite (T3 n a N A). f_equal. etransitivity; [|exact (conj_mv (D (vrow gd0 n)) (vrow gd1 n) a)]. apply rsum_ext. intros l L. rewrite (T1 n l N L).
        rewrite (HD (vrow gd0 n) (vrow gd0' n)); [reflexivity| |exact A|exact L]. intros b B. exact (P0 n b N B).
      * etransitivity; [|exact (turned_dot (vrow c1 n) (fun a => - rsum d (fun l => D (vrow gd0 n) l a * gd1 @2 n l)))]. apply rsum_ext. intros a A.
        rewrite (T3 n a N A). f_equal. rewrite (turned_opp d Q (fun a => rsum d (fun l => D (vrow gd0 n) l a * gd1 @2 n l))). f_equal.
        etransitivity; [|exact (conj_vm (D (vrow gd0 n)) (vrow gd1 n) a)]. apply rsum_ext. intros l L. rewrite (T1 n l N L).
        rewrite (HD (vrow gd0 n) (vrow gd0' n)); [reflexivity| |exact L|exact A]. intros b B. exact (P0 n b N B).
    + injection K as -> ->. inversion G as [|? ? ? ? G0 GR]; subst. inversion GR as [|? ? ? ? G1 _]; subst. inversion C as [|? ? ? ? C0 CR]; subst. inversion CR as [|? ? ? ? C1 _]; subst.
      cbn [wf_gman] in W. destruct W as (_ & S0 & S1 & S2 & S3). pose proof (tframes_teq nb _ _ S1 G1) as T1. pose proof (tframes_teq nb _ _ S3 C1) as T3.
      pose proof (prows_teq nb _ _ S0 G0) as P0. cbn [pairing]. f_equal; [refine (points_pairing nb gd0 c0 gd0' c0' v v' _ _ _ _ _); assumption|]. apply rsum_ext. intros n N.
      rewrite (rsum_swap d d (fun i j => c1' @3 n i j * rsum d (fun k => (D' (vrow gd0' n) i k - D' (vrow gd0' n) k i) / 2 * gd1' @3 n k j))).
      rewrite (rsum_swap d d (fun i j => c1 @3 n i j * rsum d (fun k => (D (vrow gd0 n) i k - D (vrow gd0 n) k i) / 2 * gd1 @3 n k j))).
      apply rsum_ext. intros j J.
      rewrite <- (turned_dot (fun i => c1 @3 n i j) (fun i => rsum d (fun k => (D (vrow gd0 n) i k - D (vrow gd0 n) k i) / 2 * gd1 @3 n k j))).
      apply rsum_ext. intros a A. rewrite (T3 n a j N A J). f_equal.
      etransitivity; [|exact (conj_mv (fun i k => (D (vrow gd0 n) i k - D (vrow gd0 n) k i) / 2) (fun k => gd1 @3 n k j) a)]. apply rsum_ext. intros l L. rewrite (T1 n l j N L J). f_equal.
      assert (X : forall b, (b < d)%nat -> vrow gd0' n b = placed d Q c (vrow gd0 n) b) by (intros b B; exact (P0 n b N B)).
      rewrite !(HD (vrow gd0 n) (vrow gd0' n) X) by assumption.
      symmetry. rewrite (conj_ext (fun i k => (D (vrow gd0 n) i k - D (vrow gd0 n) k i) / 2) (fun i k => (1 / 2) * D (vrow gd0 n) i k + (- (1 / 2)) * mtr (D (vrow gd0 n)) i k)) by (intros; unfold mtr; field).
      rewrite (conj_plus (fun i k => (1 / 2) * D (vrow gd0 n) i k) (fun i k => (- (1 / 2)) * mtr (D (vrow gd0 n)) i k)), (conj_scal _ (D (vrow gd0 n))), (conj_scal _ (mtr (D (vrow gd0 n)))), conj_tr. field.
    + reflexivity.
  - destruct g' as [| | | | |gs']; try (destruct SV as ((K & _) & _); discriminate K).
    cbn [placed_man] in SV. apply same_values_comp in SV. cbn [wf_gman] in W. cbn [pairing].
    revert gs' SV. induction IH as [|g gs Hg _ IHs]; intros gs' SV; inversion SV; subst; [reflexivity|]. destruct W as [W1 W2]. cbn [fold_right].
    erewrite Hg; [|exact W1|eassumption|exact HV]. f_equal. apply IHs; assumption.
Qed.
End Turn.
