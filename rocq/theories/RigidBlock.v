(** The linear systems of the constrained modules, seen after a rigid motion. *)
From Coq Require Import Reals String List Arith Lia Lra.
From Verif Require Import Py RSum Tensor TensorFacts KernelModel FieldModel GeometryModel ModuleModel
  SpecLinAlg SpecKernel SpecField SpecGeometry SpecSKS SpecModule LinAlg KernelFacts FieldFacts GeometryFacts SKSFacts
  GaussPSD ModuleDual ModuleAlg ModuleLeaves ModuleImplicit SpecMotion SpecRigid RigidField.
Import ListNotations.
Open Scope R_scope.

Section Turn.
Variables (d : nat) (Q : mat).
Hypothesis HQ : rigid d Q.

Lemma frob_conj A B : frob d (conj_by d Q A) (conj_by d Q B) = frob d A B.
Proof.
  transitivity (rsum d (fun a => conj_by d Q (fun i j => rsum d (fun c => A i c * mtr B c j)) a a)).
  - unfold frob. apply rsum_ext. intros a Ha. rewrite <- (conj_mm d Q HQ A (mtr B)). apply rsum_ext. intros b Hb.
    rewrite (conj_tr d Q B b a). reflexivity.
  - rewrite (conj_trace d Q HQ). reflexivity.
Qed.

(** What is used of the coordinates of symmetric matrices. *)
Definition turns_coords (s : nat) (e : tensor) (rho : nat -> nat -> R) : Prop :=
  (forall u a l, (a < d)%nat -> (l < d)%nat ->
     from_coords s e (fun t => rsum s (fun w => rho t w * u w)) a l = conj_by d Q (from_coords s e u) a l) /\
  (forall A t, (t < s)%nat -> coords d e (conj_by d Q A) t = rsum s (fun w => rho t w * coords d e A w)).

Lemma turns_div : turns_coords 1 (e_div d) (fun _ _ => 1).
Proof.
  split.
  - intros u a l A L. unfold from_coords, e_div, mk3. cbn [get]. rewrite !rsum_S, !rsum_0.
    rewrite (conj_ext d Q _ (fun i j => u 0%nat * delta i j)) by (intros; rewrite rsum_S, rsum_0; ring).
    rewrite (conj_scal d Q (u 0%nat) delta), conj_delta by assumption. ring.
  - intros A t T. rewrite rsum_S, rsum_0, !coords_div. rewrite (conj_trace d Q HQ). ring.
Qed.

Lemma coords_lin s e (u : nat -> R) (E : nat -> mat) t :
  coords d e (fun i j => rsum s (fun w => u w * E w i j)) t = rsum s (fun w => u w * coords d e (E w) t).
Proof.
  unfold coords, frob.
  transitivity (rsum d (fun i => rsum s (fun w => rsum d (fun j => u w * (E w i j * bmat e t i j))))).
  - apply rsum_ext. intros i _. rewrite rsum_swap. apply rsum_ext. intros j _. rewrite <- rsum_scal_r. apply rsum_ext. intros; ring.
  - rewrite rsum_swap. apply rsum_ext. intros w _. rewrite <- rsum_scal. apply rsum_ext. intros i _. rewrite <- rsum_scal. reflexivity.
Qed.

Lemma conj_from_coords s e u a l : conj_by d Q (from_coords s e u) a l = rsum s (fun w => u w * conj_by d Q (bmat e w) a l).
Proof.
  unfold from_coords. rewrite (conj_sum d Q s (fun w i j => u w * e @3 i j w)). apply rsum_ext. intros w _.
  exact (conj_scal d Q (u w) (bmat e w) a l).
Qed.

Lemma turns_basis s e : basis d s e -> turns_coords s e (fun t w => coords d e (conj_by d Q (bmat e w)) t).
Proof.
  intros HB. pose proof HB as (_ & SY & _ & _). split.
  - intros u a l A L.
    transitivity (from_coords s e (coords d e (conj_by d Q (from_coords s e u))) a l).
    + unfold from_coords at 1 2. apply rsum_ext. intros t T. f_equal.
      rewrite (coords_ext d e (conj_by d Q (from_coords s e u)) (fun i j => rsum s (fun w => u w * conj_by d Q (bmat e w) i j))).
      * rewrite (coords_lin s e u (fun w => conj_by d Q (bmat e w))). apply rsum_ext. intros; ring.
      * intros i j _ _. apply conj_from_coords.
    + rewrite (from_coords_coords d s e HB) by assumption. unfold sym_part.
      assert (E : conj_by d Q (from_coords s e u) l a = conj_by d Q (from_coords s e u) a l); [|rewrite E; field].
      rewrite <- (conj_tr d Q (from_coords s e u) a l). apply conj_ext. intros i j I J. unfold mtr, from_coords.
      apply rsum_ext. intros w W. rewrite (SY j i w) by assumption. reflexivity.
  - intros A t T.
    rewrite <- (coords_symm d s e (conj_by d Q A) t SY T).
    rewrite (coords_ext d e _ (conj_by d Q (from_coords s e (coords d e A)))).
    + rewrite (coords_ext d e _ (fun i j => rsum s (fun w => coords d e A w * conj_by d Q (bmat e w) i j))).
      * rewrite (coords_lin s e (coords d e A) (fun w => conj_by d Q (bmat e w))). apply rsum_ext. intros; ring.
      * intros i j _ _. apply conj_from_coords.
    + intros a l Ha Hl. rewrite (conj_ext d Q (from_coords s e (coords d e A)) (sym_part A)).
      * rewrite (conj_ext d Q (sym_part A) (fun i j => (1 / 2) * (A i j + mtr A i j))) by (intros; unfold mtr, sym_part; field).
        rewrite (conj_scal d Q (1 / 2) (fun i j => A i j + mtr A i j)), (conj_plus d Q A (mtr A)), (conj_tr d Q A). reflexivity.
      * intros i j I J. apply (from_coords_coords d s e HB); assumption.
Qed.

Variable c : nat -> R.

(** Multipliers of the placed system. *)
Definition turn_lam (s n0 : nat) (rho : nat -> nat -> R) (lam : nat -> R) (q : nat) : R :=
  if Nat.ltb q (n0 * s)
  then rsum s (fun w => rho (q mod s) w * lam ((q / s) * s + w)%nat)
  else turned d Q (fun b => lam (n0 * s + ((q - n0 * s) / d * d + b))%nat) ((q - n0 * s) mod d).

Lemma turn_lo s n0 rho lam i t : (i < n0)%nat -> (t < s)%nat ->
  turn_lam s n0 rho lam (i * s + t)%nat = rsum s (fun w => rho t w * lam (i * s + w)%nat).
Proof.
  intros I T. unfold turn_lam. rewrite (proj2 (Nat.ltb_lt _ _) (pair_lt n0 s i t I T)).
  rewrite div_pair, mod_pair by assumption. reflexivity.
Qed.
Lemma turn_hi s n0 rho lam j r : (r < d)%nat ->
  turn_lam s n0 rho lam (n0 * s + (j * d + r))%nat = turned d Q (fun b => lam (n0 * s + (j * d + b))%nat) r.
Proof.
  intros Hr. unfold turn_lam. destruct (Nat.ltb_spec (n0 * s + (j * d + r)) (n0 * s)); [lia|].
  replace (n0 * s + (j * d + r) - n0 * s)%nat with (j * d + r)%nat by lia.
  rewrite div_pair, mod_pair by assumption. reflexivity.
Qed.

Section Sys.
Variables (s n0 n1 : nat) (e : tensor) (rho : nat -> nat -> R) (ka sg : R) (gd gd' : tensor).
Hypothesis Sgd : shape gd = [(n0 + n1)%nat; d].
Hypothesis Sgd' : shape gd' = [(n0 + n1)%nat; d].
Hypothesis HE : sym_tensor d s e.
Hypothesis HR : turns_coords s e rho.
Hypothesis P : prows d Q c (n0 + n1) gd gd'.

Lemma carries_b lam lam' : (forall q, (q < n0 * s + n1 * d)%nat -> lam' q = turn_lam s n0 rho lam q) ->
  carries d Q c (b_field d s n0 n1 e ka sg gd lam) (b_field d s n0 n1 e ka sg gd' lam').
Proof.
  intros E. unfold b_field. apply (carries_sum d Q c). constructor; [|constructor; [|constructor]].
  - apply (carries_0 d Q HQ c Torch Torch n1).
    + unfold nrows. rewrite (last_shape gd n0 n1 d Sgd). reflexivity.
    + unfold nrows. rewrite (last_shape gd' n0 n1 d Sgd'). reflexivity.
    + intros j a J A. exact (P (n0 + j)%nat a ltac:(lia) A).
    + intros j a J A. unfold mk2 at 1. cbn [get]. rewrite E by (pose proof (pair_lt n1 d j a J A); lia).
      rewrite turn_hi by exact A. reflexivity.
  - apply (carries_p d Q HQ c Torch Torch n0).
    + unfold nrows. rewrite (first_shape gd n0 n1 d Sgd). reflexivity.
    + unfold nrows. rewrite (first_shape gd' n0 n1 d Sgd'). reflexivity.
    + intros j a J A. exact (P j a ltac:(lia) A).
    + intros j a k J A K. rewrite symP_moments by assumption.
      rewrite (conj_ext d Q (symP (moments_of n0 d s e (fun q => ka * lam q)) j) (from_coords s e (fun t => ka * lam (j * s + t)%nat))).
      * rewrite <- (proj1 HR) by assumption. unfold from_coords. apply rsum_ext. intros t T. f_equal.
        rewrite E by (pose proof (pair_lt n0 s j t J T); lia). rewrite turn_lo by assumption.
        rewrite <- rsum_scal. apply rsum_ext. intros; ring.
      * intros i l I L. apply symP_moments; assumption.
Qed.

Lemma system_placed nu lam lam' b b' :
  let n := (n0 * s + n1 * d)%nat in
  let M g q q' := bmatrix d s n0 e ka sg (vrow g) q q' + nu * delta q q' in
  solves n (M gd) lam b -> solves n (M gd') lam' b' -> nonsingular n (M gd') ->
  (forall q, (q < n)%nat -> b' q = turn_lam s n0 rho b q) ->
  forall q, (q < n)%nat -> lam' q = turn_lam s n0 rho lam q.
Proof.
  intros n M HL HL' NS HB. apply (solves_unique n (M gd') _ _ b' NS HL').
  assert (SP : forall g x q, (q < n)%nat -> rsum n (fun q' => M g q q' * x q') = rsum n (fun q' => bmatrix d s n0 e ka sg (vrow g) q q' * x q') + nu * x q).
  { intros g x q Hq. rewrite (rsum_ext n _ (fun q' => bmatrix d s n0 e ka sg (vrow g) q q' * x q' + nu * (delta q q' * x q'))) by (intros; unfold M; ring).
    rewrite rsum_plus, rsum_scal, rsum_delta_r by exact Hq. reflexivity. }
  pose proof (carries_b lam (turn_lam s n0 rho lam) (fun q _ => eq_refl)) as CB.
  intros q Hq. rewrite SP, HB by exact Hq.
  destruct (Nat.ltb_spec q (n0 * s)) as [L|L].
  - destruct (row_split s n0 q) as (i & t & Hi & Ht & ->); [lia|].
    rewrite <- (b_strain d s n0 n1 e ka sg gd' Sgd' HE _ i t Hi Ht).
    destruct (CB (vrow gd i) (vrow gd' i)) as [_ J]. { intros a A. exact (P i a ltac:(lia) A). }
    rewrite (coords_ext d e _ _ t J), (proj2 HR), !turn_lo by assumption.
    rewrite <- !rsum_scal, <- rsum_plus. apply rsum_ext. intros w W.
    assert (Hw : (i * s + w < n)%nat) by (pose proof (pair_lt n0 s i w Hi W); unfold n; lia).
    rewrite <- (HL (i * s + w)%nat Hw), SP by exact Hw.
    rewrite <- (b_strain d s n0 n1 e ka sg gd Sgd HE _ i w Hi W). ring.
  - destruct (row_split d n1 (q - n0 * s)) as (j & r & Hj & Hr & E); [unfold n in Hq; lia|].
    replace q with (n0 * s + (j * d + r))%nat in * by lia.
    rewrite <- (b_value d s n0 n1 e ka sg gd' Sgd' HE _ j r Hj Hr).
    destruct (CB (vrow gd (n0 + j)) (vrow gd' (n0 + j))) as [V _]. { intros a A. exact (P (n0 + j)%nat a ltac:(lia) A). }
    rewrite V, !turn_hi by exact Hr. rewrite <- turned_scal, <- turned_plus. apply turned_ext. intros k K.
    assert (Hk : (n0 * s + (j * d + k) < n)%nat) by (pose proof (pair_lt n1 d j k Hj K); unfold n; lia).
    rewrite <- (HL _ Hk), SP by exact Hk. rewrite <- (b_value d s n0 n1 e ka sg gd Sgd HE _ j k Hj K). reflexivity.
Qed.

(** The energy of controls padded with zeros. *)
Lemma pad_energy h h' lam lam' :
  let n := (n0 * s + n1 * d)%nat in
  (forall k a, (k < n1)%nat -> (a < d)%nat -> h' (k * d + a)%nat = turned d Q (fun b => h (k * d + b)%nat) a) ->
  (forall q, (q < n)%nat -> lam' q = turn_lam s n0 rho lam q) ->
  rsum n (fun q => pad (n0 * s) h' q * lam' q) = rsum n (fun q => pad (n0 * s) h q * lam q).
Proof.
  intros n H L. unfold n. rewrite !(sum_rows d s n0 n1). f_equal.
  - apply rsum_ext. intros i I. apply rsum_ext. intros t T. rewrite !pad_lo by (apply pair_lt; assumption). ring.
  - apply rsum_ext. intros k K.
    rewrite (rsum_ext d _ (fun a => turned d Q (fun b => h (k * d + b)%nat) a * turned d Q (fun b => lam (n0 * s + (k * d + b))%nat) a)).
    + rewrite (turned_dot d Q HQ). apply rsum_ext. intros a A. rewrite pad_hi. reflexivity.
    + intros a A. rewrite pad_hi, H, L by (assumption || (pose proof (pair_lt n1 d k a K A); unfold n; lia)).
      rewrite turn_hi by exact A. reflexivity.
Qed.

Lemma pad_turn h h' q :
  (forall k a, (k < n1)%nat -> (a < d)%nat -> h' (k * d + a)%nat = turned d Q (fun b => h (k * d + b)%nat) a) ->
  (q < n0 * s + n1 * d)%nat -> pad (n0 * s) h' q = turn_lam s n0 rho (pad (n0 * s) h) q.
Proof.
  intros H Hq. destruct (Nat.ltb_spec q (n0 * s)) as [L|L].
  - destruct (row_split s n0 q) as (i & t & Hi & Ht & ->); [lia|]. rewrite turn_lo by assumption. rewrite pad_lo by exact L.
    symmetry. apply rsum_zero. intros w W. rewrite pad_lo by (apply pair_lt; assumption). ring.
  - destruct (row_split d n1 (q - n0 * s)) as (j & r & Hj & Hr & E); [lia|].
    replace q with (n0 * s + (j * d + r))%nat in * by lia. rewrite pad_hi, turn_hi, H by assumption.
    apply turned_ext. intros b B. rewrite pad_hi. reflexivity.
Qed.
End Sys.
End Turn.
