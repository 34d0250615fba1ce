(** Algebra of quadratic costs: positive bilinear forms, linear systems, and the
    description of a module by such a form. *)
From Coq Require Import Reals List Arith Lia Lra.
From Verif Require Import Py Tensor TensorFacts KernelModel FieldModel SpecKernel SpecField KernelFacts
  FieldFacts GeometryModel SpecGeometry GeometryFacts LinAlg ModuleModel SpecModule ModuleDual.
Import ListNotations.
Open Scope R_scope.

(** ** Positive symmetric bilinear forms on vectors of length n *)
Record vb (n : nat) (Q : (nat -> R) -> (nat -> R) -> R) : Prop := {
  vb_ext : forall f f' g g', (forall k, (k < n)%nat -> f k = f' k) ->
             (forall k, (k < n)%nat -> g k = g' k) -> Q f g = Q f' g';
  vb_lin : forall a b f f' g, Q (fun k => a * f k + b * f' k) g = a * Q f g + b * Q f' g;
  vb_sym : forall f g, Q f g = Q g f;
  vb_psd : forall f, 0 <= Q f f }.

Lemma vb_bil n M : symmetric n M -> psd n M -> vb n (bil n M).
Proof.
  intros HS HP. split.
  - intros. apply bil_ext; auto.
  - intros. rewrite (bil_plus_l n M (fun k => a * f k) (fun k => b * f' k)), !bil_scal_l. reflexivity.
  - intros. apply bil_sym. assumption.
  - intros f. apply HP.
Qed.

Lemma vb_mul n Q c : 0 <= c -> vb n Q -> vb n (fun f g => c * Q f g).
Proof.
  intros Hc H. split.
  - intros. f_equal. apply (vb_ext n Q H); assumption.
  - intros. rewrite (vb_lin n Q H). ring.
  - intros. f_equal. apply (vb_sym n Q H).
  - intros. apply Rmult_le_pos; [assumption|apply (vb_psd n Q H)].
Qed.

Lemma vb_zero n : vb n (fun _ _ => 0).
Proof. split; intros; try reflexivity; try ring; lra. Qed.

Lemma vb_sum n N Q : (forall i, (i < N)%nat -> vb n (Q i)) -> vb n (fun f g => rsum N (fun i => Q i f g)).
Proof.
  intros H. split.
  - intros. apply rsum_ext. intros i Hi. apply (vb_ext n _ (H i Hi)); assumption.
  - intros. rewrite <- !rsum_scal, <- rsum_plus. apply rsum_ext. intros i Hi. apply (vb_lin n _ (H i Hi)).
  - intros. apply rsum_ext. intros i Hi. apply (vb_sym n _ (H i Hi)).
  - intros. apply rsum_nonneg. intros i Hi. apply (vb_psd n _ (H i Hi)).
Qed.

(** Composition with a linear map from vectors of length r to vectors of length n. *)
Lemma vb_pull r n Q (L : (nat -> R) -> nat -> R) : vb n Q ->
  (forall f f', (forall k, (k < r)%nat -> f k = f' k) -> forall k, (k < n)%nat -> L f k = L f' k) ->
  (forall a b f f' k, (k < n)%nat -> L (fun k => a * f k + b * f' k) k = a * L f k + b * L f' k) ->
  vb r (fun f g => Q (L f) (L g)).
Proof.
  intros H HE HL. split.
  - intros. apply (vb_ext n Q H); apply HE; assumption.
  - intros. rewrite <- (vb_lin n Q H). apply (vb_ext n Q H); [|reflexivity]. intros k Hk. apply HL. assumption.
  - intros. apply (vb_sym n Q H).
  - intros. apply (vb_psd n Q H).
Qed.

(** Column-wise quadratic form of an (N, d) array. *)
Lemma vb_cols N d M : symmetric N M -> psd N M ->
  vb (N * d) (fun f g => rsum d (fun a => bil N M (fun i => f (i * d + a)%nat) (fun i => g (i * d + a)%nat))).
Proof.
  intros HS HP. apply (vb_sum (N * d) d (fun a f g => bil N M (fun i => f (i * d + a)%nat) (fun i => g (i * d + a)%nat))).
  intros a Ha. apply (vb_pull (N * d) N (bil N M) (fun f i => f (i * d + a)%nat)).
  - apply vb_bil; assumption.
  - intros f f' H k Hk. apply H. apply pair_lt; assumption.
  - reflexivity.
Qed.

Lemma symmetric_diag n M nu : symmetric n M -> symmetric n (fun i j => M i j + nu * delta i j).
Proof. intros H i j Hi Hj. rewrite (H i j), (delta_sym i j) by assumption. reflexivity. Qed.

Lemma quad_diag n M nu f :
  quad n (fun i j => M i j + nu * delta i j) f = quad n M f + nu * rsum n (fun i => f i ^ 2).
Proof.
  unfold quad. rewrite <- rsum_scal, <- rsum_plus. apply rsum_ext. intros i Hi.
  rewrite (rsum_ext n _ (fun j => f i * f j * M i j + nu * f i * (delta i j * f j))) by (intros; ring).
  rewrite rsum_plus, rsum_scal, rsum_delta_r by assumption. ring.
Qed.

Lemma bil_diag n M nu f g :
  bil n (fun i j => M i j + nu * delta i j) f g = bil n M f g + nu * rsum n (fun i => f i * g i).
Proof.
  unfold bil. rewrite <- rsum_scal, <- rsum_plus. apply rsum_ext. intros i Hi.
  rewrite (rsum_ext n _ (fun j => f i * g j * M i j + nu * f i * (delta i j * g j))) by (intros; ring).
  rewrite rsum_plus, rsum_scal, rsum_delta_r by assumption. ring.
Qed.

Lemma psd_diag n M nu : 0 <= nu -> psd n M -> psd n (fun i j => M i j + nu * delta i j).
Proof.
  intros Hn H f. rewrite quad_diag. specialize (H f).
  assert (0 <= nu * rsum n (fun i => f i ^ 2)); [|lra].
  apply Rmult_le_pos; [assumption|]. apply rsum_nonneg. intros; apply pow2_ge_0.
Qed.

Lemma pd_diag n M nu : 0 < nu -> psd n M -> pd n (fun i j => M i j + nu * delta i j).
Proof.
  intros Hn H f (i & Hi & Hf). rewrite quad_diag. specialize (H f).
  assert (0 < nu * rsum n (fun i => f i ^ 2)); [|lra].
  apply Rmult_lt_0_compat; [assumption|].
  destruct (rsum_nonneg n (fun i => f i ^ 2)) as [P|Z]; [intros; apply pow2_ge_0|assumption|].
  symmetry in Z. assert (Z' := rsum_nonneg_zero n (fun i => f i ^ 2) (fun k _ => pow2_ge_0 (f k)) Z i Hi).
  cbn beta in Z'. exfalso. apply Hf. nra.
Qed.

Lemma pd_nonsingular n M : pd n M -> nonsingular n M.
Proof.
  intros H y Hy j Hj. apply (pd_unique n M y (fun _ => 0) (fun _ => 0) H); [assumption| |assumption].
  intros i Hi. apply rsum_zero. intros; ring.
Qed.

Lemma nonsingular_ext n M M' : (forall i j, (i < n)%nat -> (j < n)%nat -> M i j = M' i j) ->
  nonsingular n M -> nonsingular n M'.
Proof.
  intros H HM y Hy. apply HM. intros i Hi. rewrite <- (Hy i Hi). apply rsum_ext. intros j Hj. rewrite H by assumption. reflexivity.
Qed.

Lemma solves_ext n M M' x x' b b' : (forall i j, (i < n)%nat -> (j < n)%nat -> M i j = M' i j) ->
  (forall i, (i < n)%nat -> x i = x' i) -> (forall i, (i < n)%nat -> b i = b' i) ->
  solves n M x b -> solves n M' x' b'.
Proof.
  intros HM Hx Hb H i Hi. rewrite <- Hb, <- (H i Hi) by assumption. apply rsum_ext. intros j Hj.
  rewrite HM, Hx by assumption. reflexivity.
Qed.

Lemma solves_unique n M x y b : nonsingular n M -> solves n M x b -> solves n M y b ->
  forall i, (i < n)%nat -> x i = y i.
Proof.
  intros HN Hx Hy i Hi.
  assert (H : solves n M (fun i => x i - y i) (fun _ => 0)).
  { intros k Hk. rewrite (rsum_ext n _ (fun j => M k j * x j - M k j * y j)) by (intros; ring).
    rewrite rsum_minus, (Hx k Hk), (Hy k Hk). ring. }
  specialize (HN _ H i Hi). cbn in HN. lra.
Qed.

Lemma solves_lin n M a b x y u v : solves n M x u -> solves n M y v ->
  solves n M (fun k => a * x k + b * y k) (fun k => a * u k + b * v k).
Proof.
  intros Hx Hy i Hi. rewrite <- (Hx i Hi), <- (Hy i Hi).
  rewrite (rsum_ext n _ (fun j => a * (M i j * x j) + b * (M i j * y j))) by (intros; ring).
  rewrite rsum_plus, !rsum_scal. reflexivity.
Qed.

(** The forms of the implicit modules: Q(f, g) = c A(f) . S^-1 A(g). *)
Lemma vb_implicit r n c S (A Lam : (nat -> R) -> nat -> R) :
  0 <= c -> symmetric n S -> psd n S -> nonsingular n S ->
  (forall f f', (forall k, (k < r)%nat -> f k = f' k) -> forall k, (k < n)%nat -> A f k = A f' k) ->
  (forall a b f f' k, (k < n)%nat -> A (fun k => a * f k + b * f' k) k = a * A f k + b * A f' k) ->
  (forall f, solves n S (Lam f) (A f)) ->
  vb r (fun f g => c * rsum n (fun k => A f k * Lam g k)).
Proof.
  intros Hc HS HP HN HE HL HA.
  assert (HB : forall f g, rsum n (fun k => A f k * Lam g k) = bil n S (Lam f) (Lam g)).
  { intros f g. rewrite bil_sym by assumption. rewrite (bil_solves n S (Lam f) (A f) _ (HA f)).
    apply rsum_ext. intros; ring. }
  assert (V : vb r (fun f g => c * bil n S (Lam f) (Lam g))).
  { apply vb_mul; [assumption|]. apply (vb_pull r n (bil n S) Lam); [apply vb_bil; assumption| |].
    - intros f f' H. apply (solves_unique n S _ _ (A f) HN (HA f)).
      apply (solves_ext n S S (Lam f') (Lam f') (A f') (A f)); auto. intros i Hi. symmetry. apply HE; assumption.
    - intros a b f f'. apply (solves_unique n S _ _ (A (fun k => a * f k + b * f' k)) HN (HA _)).
      apply (solves_ext n S S (fun k => a * Lam f k + b * Lam f' k) (fun k => a * Lam f k + b * Lam f' k) (fun k => a * A f k + b * A f' k)); auto.
      + intros i Hi. symmetry. apply HL. assumption.
      + apply solves_lin; apply HA. }
  split.
  - intros. rewrite !HB. apply (vb_ext _ _ V); assumption.
  - intros. rewrite !HB. apply (vb_lin _ _ V).
  - intros. rewrite !HB. apply (vb_sym _ _ V).
  - intros. rewrite !HB. apply (vb_psd _ _ V).
Qed.

(** ** The solver *)
Lemma solver_mat sv n m A B X M : exact_solver sv -> shape A = [n; n] -> shape B = [n; m] ->
  sv A B = Ok X -> (forall i j, (i < n)%nat -> (j < n)%nat -> entries A i j = M i j) ->
  nonsingular n M /\ shape X = [n; m] /\
  forall j, (j < m)%nat -> solves n M (fun k => X @2 k j) (fun k => B @2 k j).
Proof.
  intros HS SA SB E HM. destruct (HS n A B SA (or_intror (ex_intro _ m SB))) as (_ & H).
  destruct (H X E) as (HN & SX & _ & HX). split; [apply (nonsingular_ext n (entries A)); assumption|].
  rewrite SX, SB. split; [reflexivity|]. intros j Hj.
  apply (solves_ext n (entries A) M (fun k => X @2 k j) (fun k => X @2 k j) (fun k => B @2 k j) (fun k => B @2 k j)); auto.
  apply (HX m SB j Hj).
Qed.

Lemma solver_vec sv n A B X M : exact_solver sv -> shape A = [n; n] -> shape B = [n] ->
  sv A B = Ok X -> (forall i j, (i < n)%nat -> (j < n)%nat -> entries A i j = M i j) ->
  nonsingular n M /\ shape X = [n] /\ solves n M (fun k => X @1 k) (fun k => B @1 k).
Proof.
  intros HS SA SB E HM. destruct (HS n A B SA (or_introl SB)) as (_ & H).
  destruct (H X E) as (HN & SX & HX & _). split; [apply (nonsingular_ext n (entries A)); assumption|].
  rewrite SX, SB. split; [reflexivity|].
  apply (solves_ext n (entries A) M (fun k => X @1 k) (fun k => X @1 k) (fun k => B @1 k) (fun k => B @1 k)); auto.
Qed.

Lemma solver_total sv n A B M : exact_solver sv -> shape A = [n; n] ->
  (shape B = [n] \/ exists m, shape B = [n; m]) ->
  (forall i j, (i < n)%nat -> (j < n)%nat -> entries A i j = M i j) -> nonsingular n M -> is_ok (sv A B).
Proof.
  intros HS SA SB HM HN. apply (HS n A B SA SB). apply (nonsingular_ext n M); [|assumption].
  intros; symmetry; apply HM; assumption.
Qed.

(** ** Flattened controls *)
Definition fvec (t : tensor) (k : nat) : R := (tflatten t) @1 k.

Lemma fvec_2 t N d i a : shape t = [N; d] -> (i < N)%nat -> (a < d)%nat -> fvec t (i * d + a)%nat = t @2 i a.
Proof.
  intros St Hi Ha. unfold fvec. rewrite get_flatten_k, St. cbn [unravel prod fold_right].
  rewrite !Nat.mul_1_r, div_pair, mod_pair, Nat.div_1_r by assumption. reflexivity.
Qed.

Lemma fvec_1 t n k : shape t = [n] -> (k < n)%nat -> fvec t k = t @1 k.
Proof. intros St Hk. unfold fvec. rewrite get_flatten_k, St. cbn [unravel prod fold_right]. rewrite Nat.div_1_r. reflexivity. Qed.

Lemma fvec_item t : shape t = [] \/ shape t = [1%nat] -> fvec t 0%nat = item t.
Proof.
  intros [H|H]; unfold fvec, item; rewrite get_flatten_k, H; reflexivity.
Qed.

Lemma fvec_scal s t k : fvec (tscal s t) k = s * fvec t k.
Proof. reflexivity. Qed.

Lemma fvec_sub t t' k : prod (shape t') = prod (shape t) -> (k < prod (shape t))%nat ->
  fvec (tsub t (reshape (shape t) t')) k = fvec t k - fvec t' k.
Proof.
  intros H Hk. unfold fvec. rewrite !get_flatten_k. cbn [tsub tmap2 shape get reshape].
  rewrite ravel_unravel by assumption. reflexivity.
Qed.

Lemma fvec_null t : (forall idx, valid (shape t) idx -> get t idx = 0) ->
  forall k, (k < prod (shape t))%nat -> fvec t k = 0.
Proof. intros H k Hk. unfold fvec. rewrite get_flatten_k. apply H. apply valid_unravel. assumption. Qed.

Lemma fvec_null_inv t : (forall k, (k < prod (shape t))%nat -> fvec t k = 0) ->
  forall idx, valid (shape t) idx -> get t idx = 0.
Proof.
  intros H idx Hv. rewrite <- (get_flatten t idx Hv). apply H. apply ravel_lt. assumption.
Qed.

(** ** Description of a module by a quadratic form on its controls *)
Definition good (d : nat) (f : sfield) : Prop := wf_field d f /\ has0 f /\ has1 f /\ fdim f = d.

Record pack (sv : solver) (d : nat) (m : dmod) (Q : ctrl -> ctrl -> R) : Prop := {
  pk_fill : forall c, ctrl_ok d m c -> exists m1 f, fill_controls sv m c = Ok m1 /\
              cost m1 = Ok (1 / 2 * Q c c) /\ field_generator m1 = Ok f /\ good d f;
  pk_psd : forall c, ctrl_ok d m c -> 0 <= Q c c;
  pk_sub : forall c c', ctrl_ok d m c -> ctrl_ok d m c' ->
             ctrl_ok d m (csub c c') /\ Q (csub c c') (csub c c') = Q c c - 2 * Q c c' + Q c' c';
  pk_scal : forall s c, ctrl_ok d m c -> ctrl_ok d m (cscal s c) /\ Q (cscal s c) (cscal s c) = s ^ 2 * Q c c;
  pk_null : forall c, ctrl_ok d m c -> cnull c -> Q c c = 0;
  pk_sym : forall c c', ctrl_ok d m c -> ctrl_ok d m c' -> Q c c' = Q c' c;
  pk_lin : forall s c c', ctrl_ok d m c -> ctrl_ok d m c' -> Q (cscal s c) c' = s * Q c c';
  pk_diff : forall c c' x, ctrl_ok d m c -> ctrl_ok d m c' -> ctrl_ok d m x -> Q (csub c c') x = Q c x - Q c' x }.

Definition Qc (Q : (nat -> R) -> (nat -> R) -> R) (c c' : ctrl) : R :=
  match c, c' with CLeaf t, CLeaf t' => Q (fvec t) (fvec t') | _, _ => 0 end.

Lemma leaf_pack sv d m n Q : vb n Q ->
  (forall c, ctrl_ok d m c -> exists t, c = CLeaf t /\ prod (shape t) = n) ->
  (forall t t', shape t' = shape t -> ctrl_ok d m (CLeaf t) -> ctrl_ok d m (CLeaf t')) ->
  (forall t, ctrl_ok d m (CLeaf t) -> exists m1 f, fill_controls sv m (CLeaf t) = Ok m1 /\
      cost m1 = Ok (1 / 2 * Q (fvec t) (fvec t)) /\ field_generator m1 = Ok f /\ good d f) ->
  pack sv d m (Qc Q).
Proof.
  intros V HL HS HF. split.
  - intros c Hc. destruct (HL c Hc) as (t & -> & _). apply HF. assumption.
  - intros c Hc. destruct (HL c Hc) as (t & -> & _). apply (vb_psd n Q V).
  - intros c c' Hc Hc'. destruct (HL c Hc) as (t & -> & Ht). destruct (HL c' Hc') as (t' & -> & Ht').
    split; [cbn [csub]; apply (HS t); [reflexivity|assumption]|]. cbn [csub Qc].
    transitivity (Q (fun k => 1 * fvec t k + -1 * fvec t' k) (fun k => 1 * fvec t k + -1 * fvec t' k)).
    + apply (vb_ext n Q V); intros k Hk; rewrite fvec_sub by lia; ring.
    + rewrite (vb_lin n Q V), (vb_sym n Q V (fvec t)), (vb_sym n Q V (fvec t') (fun _ => _)), !(vb_lin n Q V).
      rewrite (vb_sym n Q V (fvec t') (fvec t)). ring.
  - intros s c Hc. destruct (HL c Hc) as (t & -> & Ht). split; [cbn [cscal]; apply (HS t); [reflexivity|assumption]|]. cbn [cscal Qc].
    transitivity (Q (fun k => s * fvec t k + 0 * fvec t k) (fun k => s * fvec t k + 0 * fvec t k)).
    + apply (vb_ext n Q V); intros k Hk; rewrite fvec_scal; ring.
    + rewrite (vb_lin n Q V), (vb_sym n Q V (fvec t)), !(vb_lin n Q V). ring.
  - intros c Hc Hn. destruct (HL c Hc) as (t & -> & Ht). cbn [cnull Qc] in *.
    transitivity (Q (fun k => 0 * fvec t k + 0 * fvec t k) (fun k => 0 * fvec t k + 0 * fvec t k)).
    + apply (vb_ext n Q V); intros k Hk; rewrite (fvec_null t Hn) by lia; ring.
    + rewrite (vb_lin n Q V). ring.
  - intros c c' Hc Hc'. destruct (HL c Hc) as (t & -> & _). destruct (HL c' Hc') as (t' & -> & _). apply (vb_sym n Q V).
  - intros s c c' Hc Hc'. destruct (HL c Hc) as (t & -> & _). destruct (HL c' Hc') as (t' & -> & _). cbn [cscal Qc].
    transitivity (Q (fun k => s * fvec t k + 0 * fvec t k) (fvec t')).
    + apply (vb_ext n Q V); intros k Hk; [rewrite fvec_scal; ring|reflexivity].
    + rewrite (vb_lin n Q V). ring.
  - intros c c' x Hc Hc' Hx. destruct (HL c Hc) as (t & -> & Ht). destruct (HL c' Hc') as (t' & -> & Ht'). destruct (HL x Hx) as (y & -> & _). cbn [csub Qc].
    transitivity (Q (fun k => 1 * fvec t k + -1 * fvec t' k) (fvec y)).
    + apply (vb_ext n Q V); intros k Hk; [rewrite fvec_sub by lia; ring|reflexivity].
    + rewrite (vb_lin n Q V). ring.
Qed.

(** The pairing with a geodesic control is the form itself. *)
Definition dual (sv : solver) (b0 : backend) (d : nat) (m : dmod) (Q : ctrl -> ctrl -> R) : Prop :=
  forall man m', wf_gman d man -> no_empty_comp man -> compute_geodesic_control sv b0 m man = Ok m' ->
  forall c m1 f, ctrl_ok d m c -> fill_controls sv m c = Ok m1 -> field_generator m1 = Ok f ->
  pairing d man (fval d f) (fjac d f) = Q c (controls m').
