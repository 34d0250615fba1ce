(** Convex shapes, segments, smoothing, resampling. *)
From Coq Require Import Reals List Arith ZArith Lia Lra Permutation Bool.
From Verif Require Import Py RSum Tensor TensorFacts KernelModel KernelFacts FieldModel Fl MeshModel SpecMesh SpecAttachment VarifoldFacts AttachmentFacts MeshFacts.
Import ListNotations.
Open Scope R_scope.

Lemma Reqb_true a b : Reqb a b = true <-> a = b.
Proof. unfold Reqb. destruct (Req_EM_T a b); split; congruence. Qed.
Lemma Reqb_false a b : Reqb a b = false <-> a <> b.
Proof. unfold Reqb. destruct (Req_EM_T a b); split; congruence. Qed.

Lemma nth_map_seq {A} (f : nat -> A) n i d : (i < n)%nat -> nth i (map f (seq 0 n)) d = f i.
Proof. intros L. rewrite (nth_indep _ d (f 0%nat)) by (rewrite map_length, seq_length; exact L). rewrite map_nth, seq_nth by exact L. reflexivity. Qed.

(** ** Convex shapes *)
Definition wrong (side : Z) (b : bool) (a c q : pt) : bool :=
  let r := rsign (orient a c q) in if negb b then (Z.eqb r side || Z.eqb r 0)%bool else Z.eqb r side.
Lemma some_edge_ok c p side b : is_point p -> forall n j,
  some_edge c p side b j n = Ok (existsb (fun k => wrong side b (vtx c k) (vtx c (k + 1)%nat) (pt_of p)) (seq j n)).
Proof.
  intros Hp. induction n as [|n IH]; intros j; cbn [some_edge seq existsb]; [reflexivity|].
  rewrite area_side_one by exact Hp. cbn [bind]. change (pt_of (row c j)) with (vtx c j). change (pt_of (row c (j + 1)%nat)) with (vtx c (j + 1)%nat).
  fold (wrong side b (vtx c j) (vtx c (j + 1)%nat) (pt_of p)). destruct (wrong side b (vtx c j) (vtx c (j + 1)%nat) (pt_of p)); [reflexivity|]. rewrite IH. reflexivity.
Qed.

Lemma wrong_strict side a c q : (side = 1 \/ side = -1)%Z -> (wrong side false a c q = false <-> 0 < - IZR side * orient a c q).
Proof.
  intros S. unfold wrong. cbn [negb]. cbv zeta. destruct (Rtotal_order (orient a c q) 0) as [L|[E|G]].
  - rewrite (proj2 (rsign_m1 _) L). destruct S as [->| ->]; cbn; split; intros; try discriminate; try reflexivity; lra.
  - rewrite (proj2 (rsign_0 _) E). destruct S as [->| ->]; cbn; split; intros; try discriminate; lra.
  - rewrite (proj2 (rsign_1 _) G). destruct S as [->| ->]; cbn; split; intros; try discriminate; try reflexivity; lra.
Qed.
Lemma wrong_weak side a c q : (side = 1 \/ side = -1)%Z -> (wrong side true a c q = false <-> 0 <= - IZR side * orient a c q).
Proof.
  intros S. unfold wrong. cbn [negb]. cbv zeta. destruct (Rtotal_order (orient a c q) 0) as [L|[E|G]].
  - rewrite (proj2 (rsign_m1 _) L). destruct S as [->| ->]; cbn; split; intros; try discriminate; try reflexivity; lra.
  - rewrite (proj2 (rsign_0 _) E). destruct S as [->| ->]; cbn; split; intros; try discriminate; try reflexivity; lra.
  - rewrite (proj2 (rsign_1 _) G). destruct S as [->| ->]; cbn; split; intros; try discriminate; try reflexivity; lra.
Qed.

Lemma existsb_false {A} (f : A -> bool) l : existsb f l = false <-> forall a, In a l -> f a = false.
Proof.
  induction l as [|a l IH]; cbn [existsb In]; [tauto|]. rewrite orb_false_iff, IH. split; [intros (H1 & H2) x [<-|I]; auto|intros H; split; [apply H; left; reflexivity|intros x I; apply H; right; exact I]].
Qed.

Lemma convex_marks delaunay pts n s N side b : shape pts = [n; 2%nat] -> shape s = [N; 2%nat] -> (0 < N)%nat -> (side = 1 \/ side = -1)%Z ->
  exists marks, area_convex_shape delaunay pts (Some s) (Some side) (Some b) = Ok marks /\ length marks = n /\
    forall i, (i < n)%nat -> (nth i marks false = true <-> if b then inside_or_on (- IZR side) s (vtx pts i) else inside (- IZR side) s (vtx pts i)).
Proof.
  intros Hp Hs LN S. unfold area_convex_shape. rewrite Hp. cbn [Nat.eqb].
  replace (Z.eqb side (-1) || Z.eqb side 1)%bool with true by (destruct S as [->| ->]; reflexivity). cbn [bind].
  destruct (close_ok s N 2 Hs LN) as (c & Ec & Hc & _). rewrite Ec. cbn [bind].
  assert (NS : nrows s = N) by (unfold nrows; rewrite Hs; reflexivity).
  rewrite (mapM_map _ (fun i => negb (existsb (fun k => wrong side b (vtx c k) (vtx c (k + 1)%nat) (vtx pts i)) (seq 0 N)))).
  - eexists. split; [reflexivity|]. split; [rewrite map_length, seq_length; reflexivity|]. intros i L. rewrite nth_map_seq by exact L.
    rewrite negb_true_iff, existsb_false.
    assert (E : forall k, (k < N)%nat -> vtx c k = edge_from s k /\ vtx c (k + 1)%nat = edge_to s k).
    { intros k Lk. unfold edge_from, edge_to. rewrite NS. apply (closed_vtx s N 2 c Hs Ec k Lk). }
    destruct b.
    + split.
      * intros H k Lk. rewrite NS in Lk. specialize (H k ltac:(apply in_seq; lia)). destruct (E k Lk) as (E1 & E2). rewrite E1, E2 in H. apply wrong_weak in H; [exact H|exact S].
      * intros H k I. apply in_seq in I. destruct (E k ltac:(lia)) as (E1 & E2). rewrite E1, E2. apply wrong_weak; [exact S|]. apply H. lia.
    + split.
      * intros H k Lk. rewrite NS in Lk. specialize (H k ltac:(apply in_seq; lia)). destruct (E k Lk) as (E1 & E2). rewrite E1, E2 in H. apply wrong_strict in H; [exact H|exact S].
      * intros H k I. apply in_seq in I. destruct (E k ltac:(lia)) as (E1 & E2). rewrite E1, E2. apply wrong_strict; [exact S|]. apply H. lia.
  - intros i I. rewrite some_edge_ok; [cbn [bind]; rewrite NS; reflexivity|]. unfold is_point, row. cbn [shape mk1]. unfold ncols. rewrite Hp. reflexivity.
Qed.

Lemma orient_along a b p q t : orient a b (along p q t) = (1 - t) * orient a b p + t * orient a b q.
Proof. unfold orient, along. cbn [fst snd]. ring. Qed.
Lemma inside_convex k s p q t : 0 <= t <= 1 -> inside k s p -> inside k s q -> inside k s (along p q t).
Proof.
  intros T P Q i L. rewrite orient_along. specialize (P i L). specialize (Q i L). set (A := orient _ _ p) in *. set (B := orient _ _ q) in *.
  replace (k * ((1 - t) * A + t * B)) with ((1 - t) * (k * A) + t * (k * B)) by ring. destruct (Rle_dec (k * A) (k * B)); nra.
Qed.
Lemma inside_or_on_convex k s p q t : 0 <= t <= 1 -> inside_or_on k s p -> inside_or_on k s q -> inside_or_on k s (along p q t).
Proof.
  intros T P Q i L. rewrite orient_along. specialize (P i L). specialize (Q i L). set (A := orient _ _ p) in *. set (B := orient _ _ q) in *.
  replace (k * ((1 - t) * A + t * B)) with ((1 - t) * (k * A) + t * (k * B)) by ring. destruct (Rle_dec (k * A) (k * B)); nra.
Qed.

Lemma orient_combination a b n (f : nat -> pt) w : rsum n w = 1 ->
  orient a b (rsum n (fun i => w i * fst (f i)), rsum n (fun i => w i * snd (f i))) = rsum n (fun i => w i * orient a b (f i)).
Proof.
  intros W. unfold orient. cbn [fst snd].
  rewrite (rsum_ext n (fun i => w i * ((fst b - fst a) * (snd (f i) - snd a) - (snd b - snd a) * (fst (f i) - fst a)))
     (fun i => ((fst b - fst a) * (w i * snd (f i)) - (snd b - snd a) * (w i * fst (f i))) - ((fst b - fst a) * snd a - (snd b - snd a) * fst a) * w i)) by (intros; ring).
  rewrite !rsum_minus, !rsum_scal, W. ring.
Qed.

Lemma combination_inside k s w : convex_polygon k s -> weights (nrows s) w -> inside_or_on k s (combination s w).
Proof.
  intros C (W0 & W1) i L. unfold combination. rewrite orient_combination by exact W1. rewrite <- rsum_scal. apply rsum_nonneg. intros j Lj.
  specialize (C j Lj i L). specialize (W0 j Lj). nra.
Qed.
(** With positive weights, strictly inside (as soon as no edge line contains the polygon). *)
Lemma combination_strict k s w : convex_polygon k s -> (forall i, (i < nrows s)%nat -> 0 < w i) -> rsum (nrows s) w = 1 ->
  (forall i, (i < nrows s)%nat -> exists j, (j < nrows s)%nat /\ orient (edge_from s i) (edge_to s i) (vtx s j) <> 0) -> inside k s (combination s w) \/ k = 0.
Proof.
  intros C W0 W1 ND. destruct (Req_dec k 0) as [K|K]; [right; exact K|left]. intros i L. unfold combination. rewrite orient_combination by exact W1. rewrite <- rsum_scal.
  assert (P : forall j, (j < nrows s)%nat -> 0 <= k * (w j * orient (edge_from s i) (edge_to s i) (vtx s j))).
  { intros j Lj. specialize (C j Lj i L). specialize (W0 j Lj). nra. }
  destruct (Rle_lt_or_eq_dec _ _ (rsum_nonneg _ _ P)) as [G|E]; [exact G|]. exfalso. destruct (ND i L) as (j & Lj & NZ).
  pose proof (rsum_nonneg_zero _ _ P (eq_sym E) j Lj) as Z. cbn beta in Z. specialize (W0 j Lj). apply Rmult_integral in Z. destruct Z as [Z|Z]; [contradiction|]. apply Rmult_integral in Z. destruct Z; [lra|contradiction].
Qed.

(** A point strictly outside a convex polygon is not surrounded. *)
Lemma convex_outside_turns s q side : (side = 1 \/ side = -1)%Z -> convex_polygon 1 s -> ~ inside_or_on 1 s q -> turns side q s = 0%Z.
Proof.
  intros S C NI.
  assert (E : exists i, (i < nrows s)%nat /\ orient (edge_from s i) (edge_to s i) q < 0).
  { assert (G : forall n, (n <= nrows s)%nat -> (exists i, (i < n)%nat /\ orient (edge_from s i) (edge_to s i) q < 0) \/ forall i, (i < n)%nat -> 0 <= 1 * orient (edge_from s i) (edge_to s i) q).
    { induction n as [|n IH]; intros Ln; [right; intros; lia|]. destruct (IH ltac:(lia)) as [(i & Li & O)|H]; [left; exists i; split; [lia|exact O]|].
      destruct (Rlt_le_dec (orient (edge_from s n) (edge_to s n) q) 0) as [O|O]; [left; exists n; split; [lia|exact O]|].
      right. intros i L. destruct (Nat.eq_dec i n) as [->|NE]; [lra|apply H; lia]. }
    destruct (G (nrows s) (le_n _)) as [H|H]; [exact H|exfalso; apply NI; exact H]. }
  destruct E as (i & Li & O). apply separated_turns; [exact S|].
  set (a := edge_from s i) in *. set (b := edge_to s i) in *. exists (- (snd b - snd a), fst b - fst a). intros j Lj. specialize (C j Lj i Li). fold a b in C. unfold orient in C, O. cbn [fst snd]. lra.
Qed.

(** ** Segments *)
Lemma eudist_nonneg d a b : 0 <= eudist d a b.
Proof. apply sqrt_pos. Qed.
Lemma vdist_eu d a b : shape a = [d] -> vdist a b = eudist d (fun c => a @1 c) (fun c => b @1 c).
Proof. intros H. unfold vdist. rewrite H. reflexivity. Qed.
Lemma eudist_sym d a b : eudist d a b = eudist d b a.
Proof. unfold eudist. f_equal. apply rsum_ext. intros; ring. Qed.
Lemma eudist_ext d a b a' b' : (forall c, (c < d)%nat -> a c = a' c) -> (forall c, (c < d)%nat -> b c = b' c) -> eudist d a b = eudist d a' b'.
Proof. intros H H'. unfold eudist. f_equal. apply rsum_ext. intros c L. rewrite H, H' by exact L. reflexivity. Qed.

Lemma distance_spec d q a b : shape q = [d] -> shape a = [d] -> shape b = [d] ->
  segment_distance d (fun c => a @1 c) (fun c => b @1 c) (fun c => q @1 c) (distance_segment q a b).
Proof.
  intros Hq Ha Hb. unfold distance_segment. rewrite (vdist_eu d a b Ha).
  set (A := fun c => a @1 c). set (B := fun c => b @1 c). set (Q := fun c => q @1 c).
  set (D := rsum d (fun c => (B c - A c) * (B c - A c))). set (P := rsum d (fun c => (Q c - A c) * (B c - A c))). set (F := rsum d (fun c => (Q c - A c) * (Q c - A c))).
  assert (D0 : 0 <= D) by (apply rsum_nonneg; intros; apply Rle_0_sqr).
  assert (ED : eudist d A B ^ 2 = D).
  { unfold eudist. rewrite <- Rsqr_pow2, Rsqr_sqrt by (apply rsum_nonneg; intros; apply pow2_ge_0). apply rsum_ext. intros; ring. }
  assert (EQ : forall t, eudist d Q (between A B t) = sqrt (F - 2 * t * P + t * t * D)).
  { intros t. unfold eudist, between. f_equal. unfold F, P, D. rewrite <- !rsum_scal, <- rsum_minus, <- rsum_plus. apply rsum_ext. intros; ring. }
  destruct (Reqb (eudist d A B ^ 2) 0) eqn:Z.
  - apply Reqb_true in Z. rewrite ED in Z.
    assert (AB : forall c, (c < d)%nat -> B c = A c).
    { intros c L. assert (N : forall i, (i < d)%nat -> 0 <= (B i - A i) * (B i - A i)) by (intros; apply Rle_0_sqr). pose proof (rsum_nonneg_zero _ _ N Z c L) as E. cbn beta in E. apply Rsqr_0_uniq in E. lra. }
    rewrite (vdist_eu d a q Ha). fold A Q. rewrite eudist_sym. split.
    + exists 0. split; [lra|]. apply eudist_ext; [reflexivity|]. intros c L. unfold between. ring.
    + intros t T. apply Req_le. apply eudist_ext; [reflexivity|]. intros c L. unfold between. rewrite AB by exact L. ring.
  - apply Reqb_false in Z. rewrite ED in Z |- *. assert (DP : 0 < D) by lra. rewrite Hq. cbn [tnth nth]. change (rsum d (fun c => (q @1 c - a @1 c) * (b @1 c - a @1 c))) with P.
    set (t0 := Rmax 0 (Rmin 1 (P / D))).
    assert (T0 : 0 <= t0 <= 1) by (unfold t0, Rmax, Rmin; destruct (Rle_dec 1 (P / D)); destruct (Rle_dec 0 _); lra).
    assert (E0 : vdist q (tadd a (tscal t0 (tsub b a))) = eudist d Q (between A B t0)).
    { rewrite (vdist_eu d q _ Hq). apply eudist_ext; [reflexivity|]. intros c L. reflexivity. }
    rewrite E0. split; [exists t0; split; [exact T0|reflexivity]|]. intros t T. rewrite !EQ. apply sqrt_le_1_alt.
    assert (EP : P = P / D * D) by (field; lra). set (r := P / D) in *.
    assert (M : 0 <= D * ((t - t0) * (t + t0 - 2 * r))).
    { apply Rmult_le_pos; [lra|]. unfold t0, Rmax, Rmin. destruct (Rle_dec 1 r) as [H|H]; destruct (Rle_dec 0 _) as [H'|H']; try lra.
      - replace ((t - 1) * (t + 1 - 2 * r)) with ((1 - t) * (2 * r - 1 - t)) by ring. apply Rmult_le_pos; lra.
      - replace ((t - r) * (t + r - 2 * r)) with ((t - r) * (t - r)) by ring. apply Rle_0_sqr.
      - apply Rmult_le_pos; lra. }
    rewrite EP. nra.
Qed.

Lemma distance_le d q a b w : shape q = [d] -> shape a = [d] -> shape b = [d] ->
  (distance_segment q a b <= w <-> exists t, 0 <= t <= 1 /\ eudist d (fun c => q @1 c) (between (fun c => a @1 c) (fun c => b @1 c) t) <= w).
Proof.
  intros Hq Ha Hb. destruct (distance_spec d q a b Hq Ha Hb) as ((t & T & E) & M). split.
  - intros H. exists t. split; [exact T|]. rewrite <- E. exact H.
  - intros (u & U & H). specialize (M u U). lra.
Qed.

(** ** Smoothing *)
Definition smoothing_weight (K : tensor) (i j : nat) : R := K @2 i j / rsum (ncols K) (fun j => K @2 i j).
Lemma smoothing_weights n K i : shape K = [n; n] -> (forall j, (j < n)%nat -> 0 < K @2 i j) -> (0 < n)%nat -> weights n (smoothing_weight K i).
Proof.
  intros HK P L. assert (S : 0 < rsum n (fun j => K @2 i j)) by (apply rsum_pos; assumption). unfold smoothing_weight. replace (ncols K) with n by (unfold ncols; rewrite HK; reflexivity). split.
  - intros j Lj. apply Rlt_le, Rdiv_lt_0_compat; [apply P; exact Lj|exact S].
  - rewrite rsum_div. apply Rinv_r. lra.
Qed.
Lemma smooth_value n d pts kernel i c : shape pts = [n; d] -> shape (kernel pts pts) = [n; n] -> (i < n)%nat -> (c < d)%nat ->
  (kernel_smooth pts kernel) @2 i c = rsum n (fun j => smoothing_weight (kernel pts pts) i j * pts @2 j c).
Proof.
  intros Hp HK Li Lc. unfold kernel_smooth, smoothing_weight. cbn [get mk2]. unfold mm. cbn [get mk2]. unfold ncols. rewrite HK. cbn [tnth nth].
  rewrite <- rsum_div. apply rsum_ext. intros j Lj. unfold Rdiv. ring.
Qed.
