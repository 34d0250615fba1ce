(** Values and first derivatives of the Gaussian kernel together: the Gram matrix
    of the functionals  f |-> alpha_i f(x_i) + a_i . grad f (x_i)  is positive
    semi-definite, and positive definite when the points are distinct. *)
From Coq Require Import Reals List Arith Lia Lra.
From Verif Require Import RSum LinAlg Tensor SpecKernel KernelFacts GaussPSD.
Open Scope R_scope.

(** Pairing of two functionals through the kernel K(x - y). *)
Definition mixed (d : nat) (sigma : R) (x y : nat -> R) (al be : R) (a b : nat -> R) : R :=
  let z := vsub x y in
  al * be * gaussian d sigma z
  + be * rsum d (fun c => a c * dgauss d sigma z c)
  - al * rsum d (fun c => b c * dgauss d sigma z c)
  - rsum d (fun c => rsum d (fun c' => a c * b c' * d2gauss d sigma z c c')).

Definition mixed_form (d : nat) (sigma : R) (N : nat) (x : nat -> nat -> R)
    (al : nat -> R) (a : nat -> nat -> R) : R :=
  rsum N (fun i => rsum N (fun j => mixed d sigma (x i) (x j) (al i) (al j) (a i) (a j))).

Section Hermite.
  Variables (d N : nat) (y : nat -> nat -> R).

  (** sum_c u_c v_c *)
  Definition dt (u v : nat -> R) : R := rsum d (fun c => u c * v c).

  Lemma dt_sym u v : dt u v = dt v u.
  Proof. apply rsum_ext. intros; ring. Qed.

  Lemma dt_scal_l c u v : dt (fun i => c * u i) v = c * dt u v.
  Proof. unfold dt. rewrite <- rsum_scal. apply rsum_ext. intros; ring. Qed.

  Lemma dt_scal_r c u v : dt u (fun i => c * v i) = c * dt u v.
  Proof. unfold dt. rewrite <- rsum_scal. apply rsum_ext. intros; ring. Qed.

  Lemma dt_plus_l u u' v : dt (fun i => u i + u' i) v = dt u v + dt u' v.
  Proof. unfold dt. rewrite <- rsum_plus. apply rsum_ext. intros; ring. Qed.

  (** Functional weights: a value weight and a gradient weight per point. *)
  Definition W := nat -> R * (nat -> R).
  Definition va (f : W) (i : nat) : R := fst (f i).
  Definition gr (f : W) (i : nat) : nat -> R := snd (f i).

  (** The functional applied to (coordinate c) times a function. *)
  Definition mulc (c : nat) (f : W) : W :=
    fun i => (va f i * y i c + gr f i c, fun k => gr f i k * y i c).
  Definition addW (f g : W) : W := fun i => (va f i + va g i, fun k => gr f i k + gr g i k).
  Definition scalW (t : R) (f : W) : W := fun i => (t * va f i, fun k => t * gr f i k).

  (** The functional applied on both sides to <x, y>^n. *)
  Definition term (n : nat) (f : W) (i j : nat) : R :=
    let p := dt (y i) (y j) in
    va f i * va f j * p ^ n
    + INR n * p ^ (n - 1) * (va f i * dt (gr f j) (y i) + va f j * dt (gr f i) (y j) + dt (gr f i) (gr f j))
    + INR n * INR (n - 1) * p ^ (n - 2) * (dt (gr f i) (y j) * dt (gr f j) (y i)).

  Definition Tn (n : nat) (f : W) : R := rsum N (fun i => rsum N (fun j => term n f i j)).

  Lemma Tn_0 f : Tn 0 f = rsum N (va f) ^ 2.
  Proof.
    unfold Tn, term. cbn [pow INR Nat.sub].
    replace (rsum N (va f) * (rsum N (va f) * 1)) with (rsum N (va f) * rsum N (va f)) by ring.
    rewrite rsum_mult. apply rsum_ext. intros i _. apply rsum_ext. intros j _. ring.
  Qed.

  Lemma Tn_S n f : Tn (S n) f = rsum d (fun c => Tn n (mulc c f)).
  Proof.
    unfold Tn. symmetry. rewrite rsum_swap. apply rsum_ext. intros i _. rewrite rsum_swap.
    apply rsum_ext. intros j _.
    set (p := dt (y i) (y j)). set (ai := va f i). set (aj := va f j).
    set (gi := gr f i). set (gj := gr f j).
    set (u := dt gi (y j)). set (v := dt gj (y i)). set (g := dt gi gj).
    transitivity (rsum d (fun c =>
      p ^ n * ((ai * y i c + gi c) * (aj * y j c + gj c))
      + INR n * p ^ (n - 1) * ((ai * y i c + gi c) * (y j c * v) + (aj * y j c + gj c) * (y i c * u)
           + y i c * y j c * g)
      + INR n * INR (n - 1) * p ^ (n - 2) * (u * v) * (y i c * y j c))).
    { apply rsum_ext. intros c _. unfold term. fold p.
      change (va (mulc c f) i) with (ai * y i c + gi c).
      change (va (mulc c f) j) with (aj * y j c + gj c).
      change (gr (mulc c f) i) with (fun k => gi k * y i c).
      change (gr (mulc c f) j) with (fun k => gj k * y j c).
      assert (E1 : dt (fun k => gj k * y j c) (y i) = y j c * v).
      { unfold v. rewrite <- dt_scal_l. apply rsum_ext. intros; ring. }
      assert (E2 : dt (fun k => gi k * y i c) (y j) = y i c * u).
      { unfold u. rewrite <- dt_scal_l. apply rsum_ext. intros; ring. }
      assert (E3 : dt (fun k => gi k * y i c) (fun k => gj k * y j c) = y i c * y j c * g).
      { unfold g, dt. rewrite <- rsum_scal. apply rsum_ext. intros; ring. }
      rewrite E1, E2, E3. ring. }
    rewrite !rsum_plus. rewrite !rsum_scal.
    assert (F1 : rsum d (fun c => (ai * y i c + gi c) * (aj * y j c + gj c))
                 = ai * aj * p + ai * v + aj * u + g).
    { unfold p, v, u, g, dt. rewrite <- !rsum_scal, <- !rsum_plus. apply rsum_ext. intros; ring. }
    assert (F2 : rsum d (fun c => (ai * y i c + gi c) * (y j c * v) + (aj * y j c + gj c) * (y i c * u)
                 + y i c * y j c * g) = (ai * p + u) * v + (aj * p + v) * u + p * g).
    { rewrite !rsum_plus.
      assert (G1 : rsum d (fun c => (ai * y i c + gi c) * (y j c * v)) = (ai * p + u) * v).
      { unfold p, u at 1, dt. rewrite <- rsum_scal, <- rsum_plus, <- rsum_scal_r. apply rsum_ext. intros; ring. }
      assert (G2 : rsum d (fun c => (aj * y j c + gj c) * (y i c * u)) = (aj * p + v) * u).
      { unfold p, v at 1, dt. rewrite <- rsum_scal, <- rsum_plus, <- rsum_scal_r. apply rsum_ext. intros; ring. }
      rewrite G1, G2, rsum_scal_r. reflexivity. }
    rewrite F1, F2. change (rsum d (fun i0 => y i i0 * y j i0)) with p.
    unfold term. fold p ai aj gi gj u v g.
    destruct n as [|[|n]].
    - cbn [INR Nat.sub pow]. ring.
    - cbn [INR Nat.sub pow]. ring.
    - replace (S (S (S n)) - 1)%nat with (S (S n)) by lia. replace (S (S (S n)) - 2)%nat with (S n) by lia.
      replace (S (S n) - 1)%nat with (S n) by lia. replace (S (S n) - 2)%nat with n by lia.
      rewrite !S_INR. cbn [pow]. ring.
  Qed.

  Lemma Tn_nonneg n f : 0 <= Tn n f.
  Proof.
    revert f. induction n as [|n IH]; intros f.
    - rewrite Tn_0. apply pow2_ge_0.
    - rewrite Tn_S. apply rsum_nonneg. intros c _. apply IH.
  Qed.

  (** Parallelogram identity, hence the weights annihilated by all terms form a
      vector space. *)
  Lemma dt_add_r u v w' : dt u (fun k => v k + w' k) = dt u v + dt u w'.
  Proof. rewrite dt_sym, dt_plus_l, (dt_sym v), (dt_sym w'). reflexivity. Qed.

  Lemma Tn_par n f g : Tn n (addW f g) + Tn n (addW f (scalW (-1) g)) = 2 * Tn n f + 2 * Tn n g.
  Proof.
    unfold Tn. rewrite <- !rsum_scal, <- !rsum_plus. apply rsum_ext. intros i _.
    rewrite <- !rsum_scal, <- !rsum_plus. apply rsum_ext. intros j _.
    unfold term, va, gr, addW, scalW, va, gr. cbn [fst snd].
    repeat rewrite ?dt_plus_l, ?dt_add_r, ?dt_scal_l, ?dt_scal_r. ring.
  Qed.

  Lemma Tn_scal n t f : Tn n (scalW t f) = t ^ 2 * Tn n f.
  Proof.
    unfold Tn. rewrite <- !rsum_scal. apply rsum_ext. intros i _.
    rewrite <- !rsum_scal. apply rsum_ext. intros j _.
    unfold term, va, gr, scalW, va, gr. cbn [fst snd].
    repeat rewrite ?dt_scal_l, ?dt_scal_r. ring.
  Qed.

  Definition ZW (f : W) : Prop := forall n, Tn n f = 0.

  Lemma ZW_ext f g :
    (forall i, (i < N)%nat -> va f i = va g i /\ forall c, (c < d)%nat -> gr f i c = gr g i c) ->
    ZW f -> ZW g.
  Proof.
    intros H Hf n. rewrite <- (Hf n). symmetry. unfold Tn. apply rsum_ext. intros i Hi. apply rsum_ext. intros j Hj.
    destruct (H i Hi) as (Vi & Gi). destruct (H j Hj) as (Vj & Gj).
    unfold term. rewrite Vi, Vj.
    assert (E1 : dt (gr f i) (y j) = dt (gr g i) (y j))
      by (apply rsum_ext; intros c Hc; rewrite Gi by assumption; reflexivity).
    assert (E2 : dt (gr f j) (y i) = dt (gr g j) (y i))
      by (apply rsum_ext; intros c Hc; rewrite Gj by assumption; reflexivity).
    assert (E3 : dt (gr f i) (gr f j) = dt (gr g i) (gr g j))
      by (apply rsum_ext; intros c Hc; rewrite Gi, Gj by assumption; reflexivity).
    rewrite E1, E2, E3. reflexivity.
  Qed.

  Lemma ZW_sum f : ZW f -> rsum N (va f) = 0.
  Proof.
    intros H. specialize (H 0%nat). rewrite Tn_0 in H.
    destruct (Req_dec (rsum N (va f)) 0) as [E|E]; [assumption|].
    exfalso. revert H. apply pow_nonzero. assumption.
  Qed.

  Lemma ZW_mulc f c : (c < d)%nat -> ZW f -> ZW (mulc c f).
  Proof.
    intros Hc H n. pose proof (H (S n)) as Hn. rewrite Tn_S in Hn.
    apply (rsum_nonneg_zero d (fun c => Tn n (mulc c f))); auto.
    intros c' _. apply Tn_nonneg.
  Qed.

  Lemma ZW_add f g : ZW f -> ZW g -> ZW (addW f g).
  Proof.
    intros Hf Hg n. pose proof (Tn_par n f g) as H. rewrite Hf, Hg in H.
    pose proof (Tn_nonneg n (addW f g)). pose proof (Tn_nonneg n (addW f (scalW (-1) g))). lra.
  Qed.

  Lemma ZW_scal t f : ZW f -> ZW (scalW t f).
  Proof. intros Hf n. rewrite Tn_scal, Hf. ring. Qed.

  (** Multiplication by a function q with gradient q' at the points. *)
  Definition mulq (q : nat -> R) (q' : nat -> nat -> R) (f : W) : W :=
    fun i => (va f i * q i + dt (gr f i) (q' i), fun k => gr f i k * q i).

  (** Multiplication by (coordinate c minus a). *)
  Lemma ZW_shift f c t : (c < d)%nat -> ZW f ->
    ZW (mulq (fun i => y i c - t) (fun _ k => delta k c) f).
  Proof.
    intros Hc H. apply (ZW_ext (addW (mulc c f) (scalW (- t) f))).
    - intros i Hi. split.
      + unfold va, addW, mulc, scalW, mulq, va, gr. cbn [fst snd]. unfold dt.
        rewrite (rsum_ext d (fun k => snd (f i) k * delta k c) (fun k => delta k c * snd (f i) k))
          by (intros; ring).
        rewrite rsum_delta_l by assumption. ring.
      + intros k Hk. unfold gr, addW, mulc, scalW, mulq, va, gr. cbn [fst snd]. ring.
    - apply ZW_add; [apply ZW_mulc; assumption|apply ZW_scal; assumption].
  Qed.

  Lemma mulq_mulq q q' r r' f i :
    va (mulq r r' (mulq q q' f)) i = va (mulq (fun i => q i * r i) (fun i k => q' i k * r i + q i * r' i k) f) i /\
    forall c, gr (mulq r r' (mulq q q' f)) i c = gr (mulq (fun i => q i * r i) (fun i k => q' i k * r i + q i * r' i k) f) i c.
  Proof.
    split.
    - unfold mulq, va, gr. cbn [fst snd]. rewrite dt_add_r.
      assert (E1 : dt (snd (f i)) (fun k => q' i k * r i) = r i * dt (snd (f i)) (q' i))
        by (unfold dt; rewrite <- rsum_scal; apply rsum_ext; intros; ring).
      assert (E2 : dt (snd (f i)) (fun k => q i * r' i k) = q i * dt (snd (f i)) (r' i))
        by (unfold dt; rewrite <- rsum_scal; apply rsum_ext; intros; ring).
      assert (E3 : dt (fun k => snd (f i) k * q i) (r' i) = q i * dt (snd (f i)) (r' i))
        by (unfold dt; rewrite <- rsum_scal; apply rsum_ext; intros; ring).
      rewrite E1, E2, E3. ring.
    - intros c. unfold mulq, gr. cbn [snd]. ring.
  Qed.

  Lemma mulq_add q q' r r' f i :
    va (addW (mulq q q' f) (mulq r r' f)) i = va (mulq (fun i => q i + r i) (fun i k => q' i k + r' i k) f) i /\
    forall c, gr (addW (mulq q q' f) (mulq r r' f)) i c = gr (mulq (fun i => q i + r i) (fun i k => q' i k + r' i k) f) i c.
  Proof.
    split.
    - unfold addW, mulq, va, gr. cbn [fst snd]. rewrite dt_add_r. ring.
    - intros c. unfold addW, mulq, gr. cbn [snd]. ring.
  Qed.

  (** [pol q q']: q is a polynomial function of the points with gradient q'. *)
  Definition pol (q : nat -> R) (q' : nat -> nat -> R) : Prop := forall f, ZW f -> ZW (mulq q q' f).

  Lemma pol_shift c t : (c < d)%nat -> pol (fun i => y i c - t) (fun _ k => delta k c).
  Proof. intros Hc f. apply ZW_shift. assumption. Qed.

  Lemma pol_mul q q' r r' : pol q q' -> pol r r' ->
    pol (fun i => q i * r i) (fun i k => q' i k * r i + q i * r' i k).
  Proof.
    intros Hq Hr f Hf. apply (ZW_ext (mulq r r' (mulq q q' f))).
    - intros i _. destruct (mulq_mulq q q' r r' f i) as (E1 & E2). split; [exact E1|intros; apply E2].
    - apply Hr, Hq, Hf.
  Qed.

  Lemma pol_add q q' r r' : pol q q' -> pol r r' ->
    pol (fun i => q i + r i) (fun i k => q' i k + r' i k).
  Proof.
    intros Hq Hr f Hf. apply (ZW_ext (addW (mulq q q' f) (mulq r r' f))).
    - intros i _. destruct (mulq_add q q' r r' f i) as (E1 & E2). split; [exact E1|intros; apply E2].
    - apply ZW_add; [apply Hq|apply Hr]; assumption.
  Qed.

  Lemma pol_1 : pol (fun _ => 1) (fun _ _ => 0).
  Proof.
    intros f. apply ZW_ext. intros i Hi. unfold mulq, va, gr. cbn [fst snd]. split.
    - unfold dt. rewrite (rsum_zero d) by (intros; ring). ring.
    - intros; ring.
  Qed.

  Lemma pol_0 : pol (fun _ => 0) (fun _ _ => 0).
  Proof.
    intros f Hf. apply (ZW_ext (scalW 0 f)); [|apply ZW_scal; assumption].
    intros i Hi. unfold mulq, scalW, va, gr. cbn [fst snd]. split.
    - unfold dt. rewrite (rsum_zero d) by (intros; ring). ring.
    - intros; ring.
  Qed.

  Lemma pol_sum m (q : nat -> nat -> R) (q' : nat -> nat -> nat -> R) :
    (forall c, (c < m)%nat -> pol (q c) (q' c)) ->
    pol (fun i => rsum m (fun c => q c i)) (fun i k => rsum m (fun c => q' c i k)).
  Proof.
    induction m as [|m IH]; intros H; cbn [rsum].
    - apply pol_0.
    - apply (pol_add (fun i => rsum m (fun c => q c i)) (fun i k => rsum m (fun c => q' c i k)) (q m) (q' m));
        [apply IH; intros; apply H; lia|apply H; lia].
  Qed.

  (** squared distance to point j, with some gradient *)
  Lemma pol_D2 j : exists q', pol (D2 d y j) q'.
  Proof.
    eexists.
    intros f Hf. apply (ZW_ext (mulq (fun i => rsum d (fun c => (y i c - y j c) * (y i c - y j c)))
       (fun i k => rsum d (fun c => delta k c * (y i c - y j c) + (y i c - y j c) * delta k c)) f)).
    - intros i Hi. assert (E : rsum d (fun c => (y i c - y j c) * (y i c - y j c)) = D2 d y j i)
        by (unfold D2; apply rsum_ext; intros; ring).
      unfold mulq, va, gr. cbn [fst snd]. rewrite E. split; [reflexivity|intros; reflexivity].
    - revert f Hf.
      apply (pol_sum d (fun c i => (y i c - y j c) * (y i c - y j c))
                (fun c i k => delta k c * (y i c - y j c) + (y i c - y j c) * delta k c)).
      intros c Hc. apply (pol_mul (fun i => y i c - y j c) (fun _ k => delta k c)
                                  (fun i => y i c - y j c) (fun _ k => delta k c));
        apply pol_shift; assumption.
  Qed.

  Lemma pol_sep k m : exists q', pol (sep d y k m) q'.
  Proof.
    induction m as [|m (q' & IH)]; cbn [sep].
    - exists (fun _ _ => 0). apply pol_1.
    - destruct (Nat.eqb m k).
      + eexists. apply (pol_mul _ _ (fun _ => 1) (fun _ _ => 0) IH pol_1).
      + destruct (pol_D2 m) as (r' & Hr). eexists. apply (pol_mul _ _ _ _ IH Hr).
  Qed.

  Lemma ZW_trivial f : distinct d N y -> ZW f ->
    forall k, (k < N)%nat -> va f k = 0 /\ forall c, (c < d)%nat -> gr f k c = 0.
  Proof.
    intros Hd Hf k Hk.
    destruct (pol_sep k N) as (q' & Hq).
    pose proof (pol_mul _ _ _ _ Hq Hq) as Hqq.
    pose proof (sep_pos d N y k N Hd Hk (le_n N)) as Hp.
    assert (Hz : forall i, (i < N)%nat -> i <> k -> sep d y k N i = 0)
      by (intros i Hi Hne; apply sep_zero; assumption).
    assert (Hg : forall c, (c < d)%nat -> gr f k c = 0).
    { intros c Hc.
      pose proof (pol_mul _ _ _ _ Hqq (pol_shift c (y k c) Hc)) as Hq3.
      pose proof (ZW_sum _ (Hq3 f Hf)) as Hs.
      rewrite (rsum_single N _ k Hk) in Hs.
      - unfold mulq, va, gr in Hs. cbn [fst snd] in Hs.
        assert (E : dt (snd (f k)) (fun i => (q' k i * sep d y k N k + sep d y k N k * q' k i) * (y k c - y k c)
                     + sep d y k N k * sep d y k N k * delta i c) = sep d y k N k * sep d y k N k * snd (f k) c).
        { unfold dt. rewrite (rsum_ext d _ (fun i => delta i c * (sep d y k N k * sep d y k N k * snd (f k) i)))
            by (intros; ring).
          rewrite rsum_delta_l by assumption. reflexivity. }
        rewrite E in Hs.
        assert (Hs' : sep d y k N k * sep d y k N k * snd (f k) c = 0)
          by (rewrite <- Hs; ring).
        apply Rmult_integral in Hs'. destruct Hs' as [H|H]; [|exact H].
        apply Rmult_integral in H. lra.
      - intros i Hi Hne. unfold mulq, va, gr. cbn [fst snd]. rewrite (Hz i Hi Hne).
        unfold dt. rewrite (rsum_zero d) by (intros; ring). ring. }
    split; [|exact Hg].
    pose proof (ZW_sum _ (Hqq f Hf)) as Hs.
    rewrite (rsum_single N _ k Hk) in Hs.
    - unfold mulq, va, gr in Hs. cbn [fst snd] in Hs.
      unfold dt in Hs. rewrite (rsum_zero d) in Hs.
      + assert (Hs' : fst (f k) * (sep d y k N k * sep d y k N k) = 0) by lra.
        apply Rmult_integral in Hs'. destruct Hs' as [H|H]; [exact H|].
        apply Rmult_integral in H. lra.
      + intros c Hc. unfold gr in Hg. rewrite Hg by assumption. ring.
    - intros i Hi Hne. unfold mulq, va, gr. cbn [fst snd]. rewrite (Hz i Hi Hne).
      unfold dt. rewrite (rsum_zero d) by (intros; ring). ring.
  Qed.
End Hermite.

(** ** Series *)

Lemma infinite_sum_shift s l : infinite_sum s l -> infinite_sum (fun n => match n with 0%nat => 0 | S n => s n end) l.
Proof.
  intros H eps He. destruct (H eps He) as (n0 & Hn0). exists (S n0). intros n Hn.
  destruct n as [|n]; [lia|].
  replace (sum_f_R0 (fun n => match n with 0%nat => 0 | S n => s n end) (S n)) with (sum_f_R0 s n).
  - apply Hn0. lia.
  - clear. induction n as [|n IH]; [cbn; ring|]. cbn [sum_f_R0] in *. rewrite IH. reflexivity.
Qed.

Lemma series_1 p : infinite_sum (fun n => / INR (fact n) * (INR n * p ^ (n - 1))) (exp p).
Proof.
  apply (infinite_sum_ext (fun n => match n with 0%nat => 0 | S n => / INR (fact n) * p ^ n end)).
  - intros [|n]; [cbn; ring|]. replace (S n - 1)%nat with n by lia.
    rewrite fact_simpl, mult_INR. field. split; [apply INR_fact_neq_0|apply not_0_INR; lia].
  - apply infinite_sum_shift. apply exp_series.
Qed.

Lemma series_2 p : infinite_sum (fun n => / INR (fact n) * (INR n * INR (n - 1) * p ^ (n - 2))) (exp p).
Proof.
  apply (infinite_sum_ext (fun n => match n with 0%nat => 0 | S n => / INR (fact n) * (INR n * p ^ (n - 1)) end)).
  - intros [|n]; [cbn; ring|]. replace (S n - 1)%nat with n by lia. replace (S n - 2)%nat with (n - 1)%nat by lia.
    rewrite fact_simpl, mult_INR. field. split; [apply INR_fact_neq_0|apply not_0_INR; lia].
  - apply infinite_sum_shift. apply series_1.
Qed.

Section MixedForm.
  Variables (d N : nat) (sigma : R) (x : nat -> nat -> R).
  Hypothesis Hs : sigma <> 0.
  Variables (al : nat -> R) (a : nat -> nat -> R).

  Let yy := ysc sigma x.
  (** weights of the functional on exp <y, y'> *)
  Definition fw : W := fun i =>
    (w d sigma x i * (al i - dt d (fun c => a i c / sigma) (yy i)), fun c => w d sigma x i * (a i c / sigma)).

  Lemma mixed_exp i j :
    let p := dt d (yy i) (yy j) in
    mixed d sigma (x i) (x j) (al i) (al j) (a i) (a j) =
    (va fw i * va fw j
     + (va fw i * dt d (gr fw j) (yy i) + va fw j * dt d (gr fw i) (yy j) + dt d (gr fw i) (gr fw j))
     + dt d (gr fw i) (yy j) * dt d (gr fw j) (yy i)) * exp p.
  Proof.
    intros p. unfold mixed.
    set (z := vsub (x i) (x j)). set (K := gaussian d sigma z).
    set (bi := fun c => a i c / sigma). set (bj := fun c => a j c / sigma).
    assert (EK : K = w d sigma x i * w d sigma x j * exp p).
    { unfold K, z. pose proof (G_factor d sigma x Hs i j) as E. unfold G in E. rewrite E. reflexivity. }
    assert (Di : rsum d (fun c => a i c * dgauss d sigma z c) = - (dt d bi (yy i) - dt d bi (yy j)) * K).
    { unfold dgauss. fold K. unfold dt. rewrite <- rsum_minus, <- rsum_opp, <- rsum_scal_r.
      apply rsum_ext. intros c _. unfold bi, yy, ysc, z, vsub. field. assumption. }
    assert (Dj : rsum d (fun c => a j c * dgauss d sigma z c) = - (dt d bj (yy i) - dt d bj (yy j)) * K).
    { unfold dgauss. fold K. unfold dt. rewrite <- rsum_minus, <- rsum_opp, <- rsum_scal_r.
      apply rsum_ext. intros c _. unfold bj, yy, ysc, z, vsub. field. assumption. }
    assert (Hij : rsum d (fun c => rsum d (fun c' => a i c * a j c' * d2gauss d sigma z c c')) =
                  ((dt d bi (yy i) - dt d bi (yy j)) * (dt d bj (yy i) - dt d bj (yy j)) - dt d bi bj) * K).
    { unfold d2gauss. fold K.
      transitivity (rsum d (fun c => rsum d (fun c' =>
         (bi c * (yy i c - yy j c)) * (bj c' * (yy i c' - yy j c')) * K)) -
         rsum d (fun c => rsum d (fun c' => delta c c' * (a i c * a j c' / sigma ^ 2 * K)))).
      { rewrite <- rsum_minus. apply rsum_ext. intros c _. rewrite <- rsum_minus. apply rsum_ext. intros c' _.
        unfold bi, bj, yy, ysc, z, vsub. field. assumption. }
      rewrite Rmult_minus_distr_r. f_equal.
      - unfold dt. rewrite <- !rsum_minus. rewrite rsum_mult, <- rsum_scal_r. apply rsum_ext. intros c _.
        rewrite <- rsum_scal_r. apply rsum_ext. intros c' _. ring.
      - unfold dt. rewrite <- rsum_scal_r. apply rsum_ext. intros c Hc. rewrite rsum_delta_r by assumption.
        unfold bi, bj. field. assumption. }
    rewrite Di, Dj, Hij, EK.
    unfold va, gr, fw. cbn [fst snd]. fold bi bj.
    change (fun c => w d sigma x j * (a j c / sigma)) with (fun c => w d sigma x j * bj c).
    change (fun c => w d sigma x i * (a i c / sigma)) with (fun c => w d sigma x i * bi c).
    repeat rewrite ?dt_scal_l, ?dt_scal_r. ring.
  Qed.

  Lemma mixed_series : infinite_sum (fun n => / INR (fact n) * Tn d N yy n fw) (mixed_form d sigma N x al a).
  Proof.
    unfold mixed_form.
    apply (infinite_sum_ext
      (fun n => rsum N (fun i => rsum N (fun j => / INR (fact n) * term d yy n fw i j)))).
    { intros n. unfold Tn. rewrite <- rsum_scal. apply rsum_ext. intros i _.
      rewrite <- rsum_scal. reflexivity. }
    apply (infinite_sum_rsum N (fun i n => rsum N (fun j => / INR (fact n) * term d yy n fw i j))). intros i _.
    apply (infinite_sum_rsum N (fun j n => / INR (fact n) * term d yy n fw i j)).
    intros j _. rewrite mixed_exp. set (p := dt d (yy i) (yy j)).
    set (A := va fw i * va fw j).
    set (B := va fw i * dt d (gr fw j) (yy i) + va fw j * dt d (gr fw i) (yy j) + dt d (gr fw i) (gr fw j)).
    set (C := dt d (gr fw i) (yy j) * dt d (gr fw j) (yy i)).
    apply (infinite_sum_ext (fun n => A * (/ INR (fact n) * p ^ n) + B * (/ INR (fact n) * (INR n * p ^ (n - 1)))
       + C * (/ INR (fact n) * (INR n * INR (n - 1) * p ^ (n - 2))))).
    { intros n. unfold term. fold p. fold A B C. ring. }
    replace ((A + B + C) * exp p) with (A * exp p + B * exp p + C * exp p) by ring.
    apply infinite_sum_plus; [apply infinite_sum_plus|]; apply infinite_sum_scal;
      [apply exp_series|apply series_1|apply series_2].
  Qed.

  Lemma Tterm_nonneg n : 0 <= / INR (fact n) * Tn d N yy n fw.
  Proof.
    apply Rmult_le_pos; [|apply Tn_nonneg]. left. apply Rinv_0_lt_compat. apply INR_fact_lt_0.
  Qed.

  Lemma mixed_form_nonneg : 0 <= mixed_form d sigma N x al a.
  Proof.
    eapply Rle_trans; [apply (Tterm_nonneg 0)|].
    apply (infinite_sum_ge_term _ _ 0%nat Tterm_nonneg mixed_series).
  Qed.

  Lemma mixed_form_zero : distinct d N x -> mixed_form d sigma N x al a = 0 ->
    forall i, (i < N)%nat -> al i = 0 /\ forall c, (c < d)%nat -> a i c = 0.
  Proof.
    intros Hd H.
    assert (Hd' : distinct d N yy).
    { intros i j Hi Hj Hij. destruct (Hd i j Hi Hj Hij) as (c & Hc & Hne). exists c. split; [assumption|].
      unfold yy, ysc. intros E. apply Hne.
      apply (f_equal (fun t => t * sigma)) in E. unfold Rdiv in E.
      rewrite !Rmult_assoc, Rinv_l, !Rmult_1_r in E by assumption. assumption. }
    assert (HZ : ZW d N yy fw).
    { intros n. pose proof (infinite_sum_ge_term _ _ n Tterm_nonneg mixed_series) as Hn. cbn beta in Hn. rewrite H in Hn.
      pose proof (Tn_nonneg d N yy n fw) as H0.
      assert (Hf : 0 < / INR (fact n)) by (apply Rinv_0_lt_compat; apply INR_fact_lt_0).
      destruct H0 as [H0|H0]; [|symmetry; assumption].
      assert (0 < / INR (fact n) * Tn d N yy n fw) by (apply Rmult_lt_0_compat; assumption). lra. }
    intros i Hi. destruct (ZW_trivial d N yy fw Hd' HZ i Hi) as (Hv & Hg).
    assert (Hw : w d sigma x i <> 0) by (unfold w; apply Rgt_not_eq; apply exp_pos).
    assert (Hg' : forall c, (c < d)%nat -> a i c / sigma = 0).
    { intros c Hc. specialize (Hg c Hc). unfold gr, fw in Hg. cbn [snd] in Hg.
      apply Rmult_integral in Hg. tauto. }
    split.
    - unfold va, fw in Hv. cbn [fst] in Hv. apply Rmult_integral in Hv. destruct Hv as [|Hv]; [tauto|].
      unfold dt in Hv. rewrite (rsum_zero d) in Hv by (intros c Hc; rewrite Hg' by assumption; ring). lra.
    - intros c Hc. specialize (Hg' c Hc). apply (f_equal (fun t => t * sigma)) in Hg'.
      unfold Rdiv in Hg'. rewrite Rmult_assoc, Rinv_l in Hg' by assumption. lra.
  Qed.
End MixedForm.
