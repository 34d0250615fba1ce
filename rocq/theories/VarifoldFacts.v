(** Varifold products: symmetry, positivity, invariances. *)
From Coq Require Import Reals List Arith Lia Lra Permutation.
From Verif Require Import RSum SpecLinAlg LinAlg Tensor SpecKernel KernelFacts GaussPSD KernelModel MeshModel SpecAttachment.
Import ListNotations.
Open Scope R_scope.

(** ** Sums over lists *)
Lemma sumof_cons {A} (f : A -> R) a l : sumof f (a :: l) = f a + sumof f l. Proof. reflexivity. Qed.
Lemma sumof_app {A} (f : A -> R) l l' : sumof f (l ++ l') = sumof f l + sumof f l'.
Proof. induction l as [|a l IH]; cbn [app]; rewrite ?sumof_cons, ?IH; [unfold sumof; cbn|]; ring. Qed.
Lemma sumof_ext {A} (f g : A -> R) l : (forall a, In a l -> f a = g a) -> sumof f l = sumof g l.
Proof. induction l as [|a l IH]; intros H; [reflexivity|]. rewrite !sumof_cons, IH, (H a); auto using in_eq. intros; apply H; right; assumption. Qed.
Lemma sumof_map {A B} (f : B -> R) (h : A -> B) l : sumof f (map h l) = sumof (fun a => f (h a)) l.
Proof. induction l as [|a l IH]; [reflexivity|]. cbn [map]. rewrite !sumof_cons, IH. reflexivity. Qed.
Lemma sumof_perm {A} (f : A -> R) l l' : Permutation l l' -> sumof f l = sumof f l'.
Proof. induction 1 as [| | |]; rewrite ?sumof_cons; [reflexivity|congruence|ring|congruence]. Qed.
Lemma sumof_Forall2 {A B} (f : A -> R) (g : B -> R) l l' : Forall2 (fun a b => f a = g b) l l' -> sumof f l = sumof g l'.
Proof. induction 1; rewrite ?sumof_cons; [reflexivity|]. congruence. Qed.
Lemma sumof_scal {A} (c : R) (f : A -> R) l : sumof (fun a => c * f a) l = c * sumof f l.
Proof. induction l as [|a l IH]; rewrite ?sumof_cons, ?IH; [unfold sumof; cbn|]; ring. Qed.
Lemma sumof_plus {A} (f g : A -> R) l : sumof (fun a => f a + g a) l = sumof f l + sumof g l.
Proof. induction l as [|a l IH]; rewrite ?sumof_cons, ?IH; [unfold sumof; cbn|]; ring. Qed.
Lemma sumof_zero {A} (f : A -> R) l : (forall a, f a = 0) -> sumof f l = 0.
Proof. intros H. induction l as [|a l IH]; [reflexivity|]. rewrite sumof_cons, IH, H. ring. Qed.
Lemma sumof_swap {A B} (f : A -> B -> R) l l' : sumof (fun a => sumof (f a) l') l = sumof (fun b => sumof (fun a => f a b) l) l'.
Proof.
  induction l as [|a l IH]; [cbn; rewrite sumof_zero; reflexivity|]. change (sumof (f a) l' + sumof (fun a => sumof (f a) l') l = sumof (fun b => f a b + sumof (fun a => f a b) l) l').
  rewrite IH, <- sumof_plus. reflexivity.
Qed.
Lemma sumof_nth {A} (d : A) (f : A -> R) l : sumof f l = rsum (length l) (fun i => f (nth i l d)).
Proof.
  induction l as [|a l IH]; [reflexivity|]. change (f a + sumof f l = rsum (S (length l)) (fun i => f (nth i (a :: l) d))).
  rewrite rsum_first, IH. reflexivity.
Qed.
Lemma sumof_seq (f : nat -> R) n : sumof f (seq 0 n) = rsum n f.
Proof. rewrite (sumof_nth 0%nat), seq_length. apply rsum_ext. intros i L. rewrite seq_nth by exact L. reflexivity. Qed.
Lemma sumof_rsum {A} n (f : A -> nat -> R) l : sumof (fun a => rsum n (f a)) l = rsum n (fun i => sumof (fun a => f a i) l).
Proof.
  induction l as [|a l IH]; [symmetry; apply rsum_zero; intros; reflexivity|].
  change (rsum n (f a) + sumof (fun a => rsum n (f a)) l = rsum n (fun i => f a i + sumof (fun a => f a i) l)). rewrite IH, rsum_plus. reflexivity.
Qed.

(** ** Products *)
Lemma dotv_sym d u v : dotv d u v = dotv d v u.
Proof. apply rsum_ext. intros; ring. Qed.
Lemma normv_nonneg d u : 0 <= normv d u. Proof. apply sqrt_pos. Qed.
Lemma normv_sq d u : normv d u ^ 2 = sqn d u.
Proof. unfold normv. rewrite pow2_sqrt; [reflexivity|apply sqn_nonneg]. Qed.
Lemma normv_zero d u : normv d u = 0 <-> forall c, (c < d)%nat -> u c = 0.
Proof.
  split.
  - intros E c L. apply (f_equal (fun a => a ^ 2)) in E. rewrite normv_sq in E. replace (0 ^ 2) with 0 in E by ring. unfold sqn in E.
    pose proof (rsum_nonneg_zero d (fun c => u c ^ 2) (fun i _ => pow2_ge_0 _) E c L) as H. cbn beta in H.
    destruct (Req_dec (u c) 0) as [|N]; [assumption|]. apply (pow_nonzero _ 2) in N. contradiction.
  - intros H. unfold normv, sqn. rewrite rsum_zero; [apply sqrt_0|]. intros i L. rewrite H by exact L. ring.
Qed.

Lemma cauchy_schwarz d u v : dotv d u v ^ 2 <= sqn d u * sqn d v.
Proof.
  set (A := sqn d u). set (B := sqn d v). set (C := dotv d u v).
  assert (E : sqn d (fun c => B * u c - C * v c) = B * (A * B - C ^ 2)).
  { unfold sqn. rewrite (rsum_ext d _ (fun c => B ^ 2 * u c ^ 2 - 2 * B * C * (u c * v c) + C ^ 2 * v c ^ 2)) by (intros; ring).
    rewrite rsum_plus, rsum_minus, !rsum_scal. fold (dotv d u v) (sqn d u) (sqn d v). fold A B C. ring. }
  pose proof (sqn_nonneg d (fun c => B * u c - C * v c)) as P. rewrite E in P.
  destruct (sqn_nonneg d v) as [Q|Z]; fold B in Q || fold B in Z.
  - destruct (Rle_dec (C ^ 2) (A * B)) as [|N]; [assumption|]. exfalso. apply Rnot_le_lt in N. assert (B * (A * B - C ^ 2) < 0) by nra. lra.
  - assert (C0 : C = 0).
    { unfold C, dotv. apply rsum_zero. intros c L. pose proof (rsum_nonneg_zero d (fun c => v c ^ 2) (fun i _ => pow2_ge_0 _) (eq_sym Z) c L) as H. cbn beta in H.
      destruct (Req_dec (v c) 0) as [->|N]; [ring|]. apply (pow_nonzero _ 2) in N. contradiction. }
    rewrite C0, <- Z. lra.
Qed.
Lemma normv_triangle d u v : normv d (fun c => u c + v c) <= normv d u + normv d v.
Proof.
  pose proof (normv_nonneg d u). pose proof (normv_nonneg d v). apply Rsqr_incr_0_var; [|lra]. unfold Rsqr.
  replace (normv d (fun c => u c + v c) * normv d (fun c => u c + v c)) with (normv d (fun c => u c + v c) ^ 2) by ring. rewrite normv_sq.
  replace (sqn d (fun c => u c + v c)) with (sqn d u + 2 * dotv d u v + sqn d v).
  - rewrite <- !normv_sq. assert (K : dotv d u v <= normv d u * normv d v); [|nra].
    apply Rsqr_incr_0_var; [|nra]. unfold Rsqr. pose proof (cauchy_schwarz d u v) as C. rewrite <- !normv_sq in C. nra.
  - unfold sqn, dotv. rewrite (rsum_ext d (fun c => (u c + v c) ^ 2) (fun c => u c ^ 2 + 2 * (u c * v c) + v c ^ 2)) by (intros; ring). rewrite !rsum_plus, rsum_scal. ring.
Qed.

Lemma pair_sym d s p q : pair_dot d s p q = pair_dot d s q p.
Proof. unfold pair_dot. rewrite gaussian_vsub_sym, (dotv_sym d (vec p)), (Rmult_comm (normv d (vec p))). reflexivity. Qed.
Lemma shape_dot_sym d s P Q : shape_dot d s P Q = shape_dot d s Q P.
Proof. unfold shape_dot. rewrite sumof_swap. apply sumof_ext. intros q _. apply sumof_ext. intros p _. apply pair_sym. Qed.
Lemma shape_dist2_sym d s P Q : shape_dist2 d s P Q = shape_dist2 d s Q P.
Proof. unfold shape_dist2. rewrite (shape_dot_sym d s P Q). ring. Qed.
Lemma shape_dist2_same d s P : shape_dist2 d s P P = 0.
Proof. unfold shape_dist2. ring. Qed.

(** ** Positivity *)
Lemma pair_expand d s p q : pair_dot d s p q =
  rsum d (fun a => rsum d (fun b => (vec p a * vec p b / normv d (vec p)) * (vec q a * vec q b / normv d (vec q)) *
                                    gaussian d s (vsub (centre p) (centre q)))).
Proof.
  unfold pair_dot, dotv. replace (rsum d (fun c => vec p c * vec q c) ^ 2) with (rsum d (fun c => vec p c * vec q c) * rsum d (fun c => vec p c * vec q c)) by ring.
  rewrite rsum_mult. unfold Rdiv. rewrite Rinv_mult.
  replace (gaussian d s (vsub (centre p) (centre q)) * rsum d (fun i => rsum d (fun j => vec p i * vec q i * (vec p j * vec q j))) * (/ normv d (vec p) * / normv d (vec q)))
    with (gaussian d s (vsub (centre p) (centre q)) * / normv d (vec p) * / normv d (vec q) * rsum d (fun i => rsum d (fun j => vec p i * vec q i * (vec p j * vec q j)))) by ring.
  rewrite <- rsum_scal. apply rsum_ext. intros a _. rewrite <- rsum_scal. apply rsum_ext. intros b _. ring.
Qed.

(** Weighted pieces. *)
Definition wdot d s (W : list (R * piece)) : R := sumof (fun x => sumof (fun y => fst x * fst y * pair_dot d s (snd x) (snd y)) W) W.

Lemma wdot_nonneg d s W : s <> 0 -> 0 <= wdot d s W.
Proof.
  intros Hs. set (z := (0, mkPiece (fun _ => 0) (fun _ => 0)) : R * piece).
  assert (E : wdot d s W = rsum d (fun a => rsum d (fun b =>
    quad (length W) (G d s (fun i => centre (snd (nth i W z))))
      (fun i => fst (nth i W z) * (vec (snd (nth i W z)) a * vec (snd (nth i W z)) b / normv d (vec (snd (nth i W z)))))))).
  { unfold wdot. rewrite (sumof_nth z).
    rewrite (rsum_ext _ _ (fun i => rsum d (fun a => rsum d (fun b => rsum (length W) (fun j =>
      fst (nth i W z) * (vec (snd (nth i W z)) a * vec (snd (nth i W z)) b / normv d (vec (snd (nth i W z)))) *
      (fst (nth j W z) * (vec (snd (nth j W z)) a * vec (snd (nth j W z)) b / normv d (vec (snd (nth j W z))))) *
      G d s (fun i => centre (snd (nth i W z))) i j))))).
    - rewrite rsum_swap. apply rsum_ext. intros a _. rewrite rsum_swap. apply rsum_ext. intros b _. reflexivity.
    - intros i _. rewrite (sumof_nth z).
      rewrite (rsum_ext _ _ (fun j => rsum d (fun a => rsum d (fun b =>
        fst (nth i W z) * (vec (snd (nth i W z)) a * vec (snd (nth i W z)) b / normv d (vec (snd (nth i W z)))) *
        (fst (nth j W z) * (vec (snd (nth j W z)) a * vec (snd (nth j W z)) b / normv d (vec (snd (nth j W z))))) *
        G d s (fun i => centre (snd (nth i W z))) i j)))).
      + rewrite rsum_swap. apply rsum_ext. intros a _. rewrite rsum_swap. reflexivity.
      + intros j _. rewrite pair_expand, <- rsum_scal. apply rsum_ext. intros a _. rewrite <- rsum_scal. apply rsum_ext. intros b _. unfold G. ring. }
  rewrite E. apply rsum_nonneg. intros a _. apply rsum_nonneg. intros b _. apply G_psd. exact Hs.
Qed.

Lemma shape_dist2_wdot d s P Q : shape_dist2 d s P Q = wdot d s (map (fun p => (1, p)) P ++ map (fun q => (-1, q)) Q).
Proof.
  unfold shape_dist2, wdot. rewrite sumof_app, !sumof_map. cbn [fst snd].
  rewrite (sumof_ext _ (fun p => sumof (pair_dot d s p) P + -1 * sumof (pair_dot d s p) Q) P).
  - rewrite (sumof_ext _ (fun q => -1 * sumof (pair_dot d s q) P + sumof (pair_dot d s q) Q) Q).
    + rewrite !sumof_plus, !sumof_scal. fold (shape_dot d s P P) (shape_dot d s P Q) (shape_dot d s Q P) (shape_dot d s Q Q). rewrite (shape_dot_sym d s Q P). ring.
    + intros q _. rewrite sumof_app, !sumof_map. cbn [fst snd]. rewrite <- sumof_scal. f_equal; apply sumof_ext; intros; ring.
  - intros p _. rewrite sumof_app, !sumof_map. cbn [fst snd]. rewrite <- sumof_scal. f_equal; apply sumof_ext; intros; ring.
Qed.

Lemma shape_dist2_nonneg d s P Q : s <> 0 -> 0 <= shape_dist2 d s P Q.
Proof. intros Hs. rewrite shape_dist2_wdot. apply wdot_nonneg. exact Hs. Qed.

(** ** Invariances *)

(** Same centre, same vector up to sign. *)
Definition unoriented d (p q : piece) : Prop :=
  (forall c, (c < d)%nat -> centre p c = centre q c) /\
  ((forall c, (c < d)%nat -> vec p c = vec q c) \/ (forall c, (c < d)%nat -> vec p c = - vec q c)).

Lemma unoriented_norm d p q : unoriented d p q -> normv d (vec p) = normv d (vec q).
Proof. intros (_ & [H|H]); unfold normv, sqn; f_equal; apply rsum_ext; intros c L; rewrite H by exact L; ring. Qed.
Lemma unoriented_dot d p q r : unoriented d p q -> dotv d (vec p) (vec r) ^ 2 = dotv d (vec q) (vec r) ^ 2.
Proof.
  intros (_ & [H|H]); unfold dotv.
  - f_equal. apply rsum_ext. intros c L. rewrite H by exact L. reflexivity.
  - rewrite (rsum_ext _ _ (fun c => - (vec q c * vec r c))) by (intros c L; rewrite H by exact L; ring). rewrite rsum_opp. ring.
Qed.
Lemma unoriented_pair d s p q r : unoriented d p q -> pair_dot d s p r = pair_dot d s q r.
Proof.
  intros U. unfold pair_dot. rewrite (unoriented_norm d p q U), (unoriented_dot d p q r U). f_equal. f_equal.
  destruct U as (C & _). unfold gaussian, sqn. f_equal. f_equal. f_equal. apply rsum_ext. intros c L. unfold vsub. rewrite C by exact L. reflexivity.
Qed.

Definition same_shape d (P Q : list piece) : Prop := exists H, Permutation P H /\ Forall2 (unoriented d) H Q.

Lemma same_dot d s P Q S : same_shape d P Q -> shape_dot d s P S = shape_dot d s Q S.
Proof.
  intros (H & PE & F). unfold shape_dot. rewrite (sumof_perm _ _ _ PE). apply sumof_Forall2. clear PE. induction F as [|p q H' Q' U _ IH]; constructor; [|exact IH].
  apply sumof_ext. intros r _. apply unoriented_pair. exact U.
Qed.
Lemma same_dist2 d s P Q S : same_shape d P Q -> shape_dist2 d s P S = shape_dist2 d s Q S.
Proof.
  intros H. unfold shape_dist2. rewrite (same_dot d s P Q P H), (shape_dot_sym d s Q P), (same_dot d s P Q Q H), (same_dot d s P Q S H). reflexivity.
Qed.
Lemma same_shape_perm d P Q : Permutation P Q -> same_shape d P Q.
Proof. intros PE. exists Q. split; [exact PE|]. clear PE. induction Q as [|q Q IH]; constructor; [|exact IH]. split; [|left]; auto. Qed.

(** A motion of the pieces that keeps distances between centres and products of vectors. *)
Definition congruent d (p p' q q' : piece) : Prop :=
  sqn d (vsub (centre p) (centre q)) = sqn d (vsub (centre p') (centre q')) /\
  dotv d (vec p) (vec q) = dotv d (vec p') (vec q').

Lemma sqn_dotv d u : sqn d u = dotv d u u.
Proof. apply rsum_ext. intros; ring. Qed.

Lemma congruent_dot d s P P' Q Q' :
  length P = length P' -> length Q = length Q' ->
  (forall p p' q q', In (p, p') (combine P P' ++ combine Q Q') -> In (q, q') (combine P P' ++ combine Q Q') -> congruent d p p' q q') ->
  shape_dist2 d s P Q = shape_dist2 d s P' Q'.
Proof.
  intros LP LQ H.
  assert (D : forall p p' q q', In (p, p') (combine P P' ++ combine Q Q') -> In (q, q') (combine P P' ++ combine Q Q') -> pair_dot d s p q = pair_dot d s p' q').
  { intros p p' q q' I J. destruct (H p p' q q' I J) as (C & V). destruct (H p p' p p' I I) as (_ & Vp). destruct (H q q' q q' J J) as (_ & Vq).
    unfold pair_dot, gaussian, normv. rewrite C, V, !sqn_dotv, Vp, Vq. reflexivity. }
  assert (F : forall (A A' : list piece) (g g' : piece -> R), length A = length A' -> (forall a a', In (a, a') (combine A A') -> g a = g' a') -> sumof g A = sumof g' A').
  { induction A as [|a A IH]; intros [|a' A'] g g' L E; try discriminate L; [reflexivity|]. change (g a + sumof g A = g' a' + sumof g' A'). f_equal; [apply E; left; reflexivity|].
    apply IH; [cbn in L; lia|]. intros b b' I. apply E. right. exact I. }
  assert (T : forall A A' B B', length A = length A' -> length B = length B' -> incl (combine A A') (combine P P' ++ combine Q Q') -> incl (combine B B') (combine P P' ++ combine Q Q') ->
    shape_dot d s A B = shape_dot d s A' B').
  { intros A A' B B' LA LB IA IB. unfold shape_dot. apply F; [exact LA|]. intros a a' Ia. apply F; [exact LB|]. intros b b' Ib. apply D; [apply IA|apply IB]; assumption. }
  assert (IP : incl (combine P P') (combine P P' ++ combine Q Q')) by (apply incl_appl, incl_refl).
  assert (IQ : incl (combine Q Q') (combine P P' ++ combine Q Q')) by (apply incl_appr, incl_refl).
  unfold shape_dist2. rewrite (T P P' P P'), (T Q Q' Q Q'), (T P P' Q Q') by assumption. reflexivity.
Qed.

(** ** Closed curves *)
Lemma seq_perm (f g : nat -> nat) n : (forall i, (i < n)%nat -> (f i < n)%nat /\ g (f i) = i) -> Permutation (map f (seq 0 n)) (seq 0 n).
Proof.
  intros H. apply NoDup_Permutation_bis.
  - assert (ND : NoDup (map g (map f (seq 0 n)))).
    { rewrite map_map. rewrite (map_ext_in _ (fun i => i)); [rewrite map_id; apply seq_NoDup|]. intros i I. apply in_seq in I. apply H. lia. }
    apply NoDup_map_inv in ND. exact ND.
  - rewrite map_length. lia.
  - intros x I. apply in_map_iff in I. destruct I as (i & <- & I). apply in_seq in I. apply in_seq. destruct (H i); lia.
Qed.

Definition edge (x : tensor) (i : nat) : piece :=
  mkPiece (fun c => (x @2 i c + x @2 ((i + 1) mod nrows x)%nat c) / 2) (fun c => x @2 ((i + 1) mod nrows x)%nat c - x @2 i c).
Lemma edges_eq x : edges x = map (edge x) (seq 0 (nrows x)).
Proof. reflexivity. Qed.

Lemma mod_shift i k n : (0 < n)%nat -> (((i + 1) mod n + k) mod n = ((i + k) mod n + 1) mod n)%nat.
Proof. intros L. rewrite !Nat.add_mod_idemp_l by lia. f_equal. lia. Qed.


Lemma from_vertex_edges x k : (0 < nrows x)%nat -> map (edge (from_vertex k x)) (seq 0 (nrows x)) = map (fun i => edge x ((i + k) mod nrows x)%nat) (seq 0 (nrows x)).
Proof.
  intros L. apply map_ext_in. intros i I. unfold edge, from_vertex, nrows. cbn [shape get tnth nth mk2]. fold (nrows x). rewrite (mod_shift i k _ L). reflexivity.
Qed.
Lemma from_vertex_same d k x : same_shape d (edges (from_vertex k x)) (edges x).
Proof.
  apply same_shape_perm. rewrite !edges_eq. change (nrows (from_vertex k x)) with (nrows x).
  destruct (Nat.eq_dec (nrows x) 0) as [Z|NZ]; [rewrite Z; constructor|].
  rewrite from_vertex_edges by lia. rewrite <- (map_map (fun i => (i + k) mod nrows x)%nat (edge x)). apply Permutation_map.
  apply (seq_perm _ (fun j => (j + (nrows x - k mod nrows x)) mod nrows x)%nat). intros i L. split; [apply Nat.mod_upper_bound; lia|].
  rewrite Nat.add_mod_idemp_l by lia. pose proof (Nat.div_mod k (nrows x) NZ) as D. pose proof (Nat.mod_upper_bound k (nrows x) NZ).
  replace (i + k + (nrows x - k mod nrows x))%nat with (i + (k / nrows x + 1) * nrows x)%nat by nia. rewrite Nat.mod_add by lia. apply Nat.mod_small. exact L.
Qed.

Lemma backward_same d x : same_shape d (edges (backward x)) (edges x).
Proof.
  rewrite !edges_eq. change (nrows (backward x)) with (nrows x). destruct (Nat.eq_dec (nrows x) 0) as [Z|NZ]; [exists []; rewrite Z; split; constructor|].
  set (n := nrows x) in *. set (f := fun i => ((2 * n - 2 - i) mod n)%nat).
  exists (map (fun i => edge (backward x) (f i)) (seq 0 n)). split.
  - rewrite <- (map_map f (edge (backward x))). apply Permutation_sym, Permutation_map. apply (seq_perm f f). intros i L. unfold f. split; [apply Nat.mod_upper_bound; exact NZ|].
    destruct (Nat.eq_dec i (n - 1)) as [->|NE].
    + replace (2 * n - 2 - (n - 1))%nat with (n - 1)%nat by lia. rewrite (Nat.mod_small (n - 1)) by lia. replace (2 * n - 2 - (n - 1))%nat with (n - 1)%nat by lia. apply Nat.mod_small. lia.
    + replace (2 * n - 2 - i)%nat with ((n - 2 - i) + 1 * n)%nat by lia. rewrite Nat.mod_add by exact NZ. rewrite (Nat.mod_small (n - 2 - i)) by lia.
      replace (2 * n - 2 - (n - 2 - i))%nat with (i + 1 * n)%nat by lia. rewrite Nat.mod_add by exact NZ. apply Nat.mod_small. lia.
  - assert (H : forall l, incl l (seq 0 n) -> Forall2 (unoriented d) (map (fun i => edge (backward x) (f i)) l) (map (edge x) l)).
    2: { apply H. apply incl_refl. }
    induction l as [|i l IH]; intros I; constructor; [|apply IH; intros j J; apply I; right; exact J].
    assert (L : (i < n)%nat) by (specialize (I i (or_introl eq_refl)); apply in_seq in I; lia).
    assert (E1 : ((n - 1 - f i) = (i + 1) mod n)%nat).
    { unfold f. destruct (Nat.eq_dec i (n - 1)) as [->|NE].
      - replace (2 * n - 2 - (n - 1))%nat with (n - 1)%nat by lia. rewrite (Nat.mod_small (n - 1)) by lia. replace (n - 1 + 1)%nat with n by lia. rewrite Nat.mod_same by exact NZ. lia.
      - replace (2 * n - 2 - i)%nat with ((n - 2 - i) + 1 * n)%nat by lia. rewrite Nat.mod_add by exact NZ. rewrite (Nat.mod_small (n - 2 - i)) by lia. rewrite (Nat.mod_small (i + 1)) by lia. lia. }
    assert (E2 : ((n - 1 - (f i + 1) mod n) = i)%nat).
    { unfold f. rewrite Nat.add_mod_idemp_l by exact NZ. replace (2 * n - 2 - i + 1)%nat with ((n - 1 - i) + 1 * n)%nat by lia. rewrite Nat.mod_add by exact NZ. rewrite Nat.mod_small by lia. lia. }
    unfold edge, backward, nrows. cbn [shape get tnth nth mk2]. fold (nrows x). fold n. split; cbn [centre vec]; [|right]; intros c _; rewrite E1, E2; lra.
Qed.
