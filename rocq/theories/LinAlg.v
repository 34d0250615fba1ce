(** Quadratic forms and linear systems over matrices given as functions. *)
From Coq Require Import Reals List Arith Lia Lra.
From Verif Require Import RSum.
From Verif Require Export SpecLinAlg.
Open Scope R_scope.

Lemma quad_ext n K K' f f' :
  (forall i j, (i < n)%nat -> (j < n)%nat -> K i j = K' i j) ->
  (forall i, (i < n)%nat -> f i = f' i) -> quad n K f = quad n K' f'.
Proof.
  intros HK Hf. unfold quad. apply rsum_ext. intros i Hi. apply rsum_ext. intros j Hj.
  rewrite HK, !Hf by assumption. reflexivity.
Qed.

Lemma bil_ext n K K' f f' g g' :
  (forall i j, (i < n)%nat -> (j < n)%nat -> K i j = K' i j) ->
  (forall i, (i < n)%nat -> f i = f' i) -> (forall i, (i < n)%nat -> g i = g' i) ->
  bil n K f g = bil n K' f' g'.
Proof.
  intros HK Hf Hg. unfold bil. apply rsum_ext. intros i Hi. apply rsum_ext. intros j Hj.
  rewrite HK, Hf, Hg by assumption. reflexivity.
Qed.

Lemma quad_bil n K f : quad n K f = bil n K f f.
Proof. reflexivity. Qed.

Lemma bil_sym n K f g : symmetric n K -> bil n K f g = bil n K g f.
Proof.
  intros HK. unfold bil. rewrite rsum_swap. apply rsum_ext. intros i Hi. apply rsum_ext. intros j Hj.
  rewrite (HK j i) by assumption. ring.
Qed.

Lemma bil_plus_l n K f g h : bil n K (fun i => f i + g i) h = bil n K f h + bil n K g h.
Proof.
  unfold bil. rewrite <- rsum_plus. apply rsum_ext. intros i _. rewrite <- rsum_plus.
  apply rsum_ext. intros j _. ring.
Qed.
Lemma bil_plus_r n K f g h : bil n K h (fun i => f i + g i) = bil n K h f + bil n K h g.
Proof.
  unfold bil. rewrite <- rsum_plus. apply rsum_ext. intros i _. rewrite <- rsum_plus.
  apply rsum_ext. intros j _. ring.
Qed.
Lemma bil_scal_l n K c f h : bil n K (fun i => c * f i) h = c * bil n K f h.
Proof.
  unfold bil. rewrite <- rsum_scal. apply rsum_ext. intros i _. rewrite <- rsum_scal.
  apply rsum_ext. intros j _. ring.
Qed.
Lemma bil_scal_r n K c f h : bil n K h (fun i => c * f i) = c * bil n K h f.
Proof.
  unfold bil. rewrite <- rsum_scal. apply rsum_ext. intros i _. rewrite <- rsum_scal.
  apply rsum_ext. intros j _. ring.
Qed.
Lemma quad_scal n K c f : quad n K (fun i => c * f i) = c ^ 2 * quad n K f.
Proof. rewrite !quad_bil, bil_scal_l, bil_scal_r. ring. Qed.

Lemma quad_plus n K f g :
  quad n K (fun i => f i + g i) = quad n K f + quad n K g + bil n K f g + bil n K g f.
Proof. rewrite !quad_bil, bil_plus_l, !bil_plus_r. ring. Qed.

Lemma quad_minus n K f g :
  quad n K (fun i => f i - g i) = quad n K f + quad n K g - bil n K f g - bil n K g f.
Proof.
  rewrite (quad_ext n K K (fun i => f i - g i) (fun i => f i + (-1) * g i)) by (intros; ring).
  rewrite (quad_plus n K f (fun i => -1 * g i)), quad_scal, bil_scal_l, bil_scal_r. ring.
Qed.

(** Vectors with zero energy form a subspace. *)
Lemma psd_zero_plus n K f g : psd n K -> quad n K f = 0 -> quad n K g = 0 ->
  quad n K (fun i => f i + g i) = 0.
Proof.
  intros HK Hf Hg. pose proof (HK (fun i => f i + g i)) as H1. pose proof (HK (fun i => f i - g i)) as H2.
  rewrite quad_plus in *. rewrite quad_minus in H2. lra.
Qed.

Lemma bil_solves n K x b f : solves n K x b -> bil n K f x = rsum n (fun i => f i * b i).
Proof.
  intros H. unfold bil. apply rsum_ext. intros i Hi. rewrite <- (H i Hi), <- rsum_scal.
  apply rsum_ext. intros j _. ring.
Qed.

Lemma quad_0 n K f : (forall i, (i < n)%nat -> f i = 0) -> quad n K f = 0.
Proof.
  intros H. unfold quad. apply rsum_zero. intros i Hi. apply rsum_zero. intros j Hj.
  rewrite H by assumption. ring.
Qed.

Lemma exists_nonzero_dec n (f : nat -> R) :
  (exists i, (i < n)%nat /\ f i <> 0) \/ (forall i, (i < n)%nat -> f i = 0).
Proof.
  induction n as [|n IH].
  - right. intros; lia.
  - destruct IH as [(i & Hi & Hf)|H]; [left; exists i; split; [lia|assumption]|].
    destruct (Req_dec (f n) 0) as [E|E].
    + right. intros i Hi. destruct (Nat.eq_dec i n) as [->|]; [assumption|apply H; lia].
    + left. exists n. split; [lia|assumption].
Qed.

Lemma pd_psd n K : pd n K -> psd n K.
Proof.
  intros H f. destruct (exists_nonzero_dec n f) as [Hn|Hz].
  - left. apply H. assumption.
  - rewrite quad_0 by assumption. lra.
Qed.

(** A positive definite system has at most one solution ... *)
Lemma pd_unique n K x y b :
  pd n K -> solves n K x b -> solves n K y b -> forall i, (i < n)%nat -> x i = y i.
Proof.
  intros HK Hx Hy.
  destruct (exists_nonzero_dec n (fun i => x i - y i)) as [Hn|Hz].
  - exfalso. pose proof (HK _ Hn) as Hq.
    assert (Hs : solves n K (fun i => x i - y i) (fun _ => 0)).
    { intros i Hi. rewrite (rsum_ext n _ (fun j => K i j * x j - K i j * y j)) by (intros; ring).
      rewrite rsum_minus, (Hx i Hi), (Hy i Hi). ring. }
    rewrite quad_bil, (bil_solves _ _ _ _ _ Hs) in Hq.
    rewrite rsum_zero in Hq by (intros; ring). lra.
  - intros i Hi. specialize (Hz i Hi). cbn in Hz. lra.
Qed.

Lemma quad_S n K f :
  quad (S n) K f =
  quad n K f + f n * rsum n (fun i => K i n * f i) + f n * rsum n (fun j => K n j * f j) + f n * f n * K n n.
Proof.
  unfold quad. cbn [rsum]. rewrite rsum_plus.
  rewrite (rsum_ext n (fun i => f i * f n * K i n) (fun i => f n * (K i n * f i))) by (intros; ring).
  rewrite rsum_scal.
  rewrite (rsum_ext n (fun i => f n * f i * K n i) (fun i => f n * (K n i * f i))) by (intros; ring).
  rewrite rsum_scal. ring.
Qed.

(** ... and always has one (elimination by Schur complements). *)
Lemma pd_solvable n K b : symmetric n K -> pd n K -> exists x, solves n K x b.
Proof.
  revert b. induction n as [|n IH]; intros b HS HK.
  - exists (fun _ => 0). intros i Hi; lia.
  - assert (HS' : symmetric n K) by (intros i j Hi Hj; apply HS; lia).
    assert (HK' : pd n K).
    { intros f (i & Hi & Hf).
      pose (g := fun i => if Nat.ltb i n then f i else 0).
      assert (Hg : 0 < quad (S n) K g).
      { apply HK. exists i. split; [lia|]. unfold g.
        destruct (Nat.ltb_spec i n); [assumption|lia]. }
      rewrite quad_S in Hg.
      assert (Hgn : g n = 0) by (unfold g; rewrite Nat.ltb_irrefl; reflexivity).
      rewrite Hgn in Hg.
      rewrite (quad_ext n K K f g); [lra|reflexivity|].
      intros k Hk. unfold g. destruct (Nat.ltb_spec k n); [reflexivity|lia]. }
    destruct (IH (fun i => K i n) HS' HK') as (u & Hu).
    destruct (IH b HS' HK') as (w & Hw).
    pose (s := K n n - rsum n (fun j => K n j * u j)).
    assert (Hs : 0 < s).
    { pose (g := fun i => if Nat.ltb i n then u i else -1).
      assert (Hgi : forall k, (k < n)%nat -> g k = u k).
      { intros k Hk. unfold g. destruct (Nat.ltb_spec k n); [reflexivity|lia]. }
      assert (Hgn : g n = -1) by (unfold g; rewrite Nat.ltb_irrefl; reflexivity).
      assert (Hg : 0 < quad (S n) K g).
      { apply HK. exists n. split; [lia|]. rewrite Hgn. lra. }
      rewrite quad_S, Hgn in Hg.
      rewrite (quad_ext n K K g u) in Hg by auto.
      rewrite (rsum_ext n (fun i => K i n * g i) (fun i => K n i * u i)) in Hg.
      2: { intros k Hk. rewrite Hgi by assumption. rewrite (HS k n) by lia. reflexivity. }
      rewrite (rsum_ext n (fun i => K n i * g i) (fun i => K n i * u i)) in Hg.
      2: { intros k Hk. rewrite Hgi by assumption. reflexivity. }
      rewrite quad_bil, (bil_solves _ _ _ _ _ Hu) in Hg.
      rewrite (rsum_ext n (fun i => u i * K i n) (fun i => K n i * u i)) in Hg.
      2: { intros k Hk. rewrite (HS k n) by lia. ring. }
      unfold s. lra. }
    pose (t := (b n - rsum n (fun j => K n j * w j)) / s).
    pose (x := fun i => if Nat.ltb i n then w i - t * u i else t).
    assert (Hxi : forall k, (k < n)%nat -> x k = w k - t * u k).
    { intros k Hk. unfold x. destruct (Nat.ltb_spec k n); [reflexivity|lia]. }
    assert (Hxn : x n = t) by (unfold x; rewrite Nat.ltb_irrefl; reflexivity).
    exists x. intros i Hi. cbn [rsum]. rewrite Hxn.
    rewrite (rsum_ext n _ (fun j => K i j * w j - t * (K i j * u j))).
    2: { intros j Hj. rewrite Hxi by assumption. ring. }
    rewrite rsum_minus, rsum_scal.
    destruct (Nat.eq_dec i n) as [->|Hne].
    + unfold t, s. unfold s in Hs. field. lra.
    + rewrite (Hw i) by lia. rewrite (Hu i) by lia. ring.
Qed.
