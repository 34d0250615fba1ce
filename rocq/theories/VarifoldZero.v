(** When the varifold distance is zero. *)
From Coq Require Import Reals List Arith Lia Lra Permutation Bool.
From Verif Require Import RSum SpecLinAlg LinAlg Tensor SpecKernel KernelFacts GaussPSD Fl KernelModel MeshModel SpecAttachment VarifoldFacts.
Import ListNotations.
Open Scope R_scope.

Lemma sameb_true d x y : sameb d x y = true <-> forall c, (c < d)%nat -> x c = y c.
Proof.
  unfold sameb. rewrite forallb_forall. split.
  - intros H c L. apply Reqb_true. apply H. apply in_seq. lia.
  - intros H c I. apply in_seq in I. apply Reqb_true. apply H. lia.
Qed.
Lemma sameb_refl d x : sameb d x x = true. Proof. apply sameb_true. reflexivity. Qed.
Lemma sameb_sym d x y : sameb d x y = sameb d y x.
Proof. apply eq_true_iff_eq. rewrite !sameb_true. split; intros H c L; symmetry; apply H; exact L. Qed.
Lemma sameb_trans d x y z : sameb d x y = true -> sameb d x z = sameb d y z.
Proof. rewrite sameb_true. intros H. apply eq_true_iff_eq. rewrite !sameb_true. split; intros K c L; [rewrite <- H|rewrite H]; auto. Qed.

Lemma forallb_exists_false {A} (f : A -> bool) l : forallb f l = false -> exists a, In a l /\ f a = false.
Proof.
  induction l as [|a l IH]; cbn [forallb]; [discriminate|]. destruct (f a) eqn:E; [|exists a; split; [left; reflexivity|exact E]].
  intros H. destruct (IH H) as (x & I & Hx). exists x. split; [right; exact I|exact Hx].
Qed.

Section Merge.
  Variable d : nat.
  Notation vect := (nat -> R).
  Definition wsum (K : vect -> R) (W : list (R * vect)) : R := sumof (fun fx => fst fx * K (snd fx)) W.
  Definition respects (K : vect -> R) : Prop := forall x y, sameb d x y = true -> K x = K y.

  Fixpoint addw (f : R) (x : vect) (D : list (R * vect)) : list (R * vect) :=
    match D with
    | [] => [(f, x)]
    | (g, y) :: D' => if sameb d x y then (g + f, y) :: D' else (g, y) :: addw f x D'
    end.
  Fixpoint merge (W : list (R * vect)) : list (R * vect) :=
    match W with [] => [] | (f, x) :: W' => addw f x (merge W') end.

  Lemma addw_sum K f x D : respects K -> wsum K (addw f x D) = f * K x + wsum K D.
  Proof.
    intros HK. induction D as [|(g & y) D IH]; [reflexivity|]. cbn [addw]. unfold wsum in *. destruct (sameb d x y) eqn:E; rewrite !sumof_cons; cbn [fst snd].
    - rewrite (HK x y E). ring.
    - rewrite IH. ring.
  Qed.
  Lemma merge_sum K W : respects K -> wsum K (merge W) = wsum K W.
  Proof.
    intros HK. induction W as [|(f & x) W IH]; [reflexivity|]. cbn [merge]. rewrite addw_sum, IH by exact HK. reflexivity.
  Qed.

  Fixpoint apart (D : list (R * vect)) : Prop :=
    match D with [] => True | (_, y) :: D' => (forall q, In q D' -> sameb d y (snd q) = false) /\ apart D' end.
  Lemma addw_in f x D q : In q (addw f x D) -> sameb d x (snd q) = true \/ exists q', In q' D /\ snd q' = snd q.
  Proof.
    induction D as [|(g & y) D IH]; cbn [addw].
    - intros [<-|[]]. left. apply sameb_refl.
    - destruct (sameb d x y) eqn:E.
      + intros [<-|I]; [left; exact E|right]. exists q. split; [right; exact I|reflexivity].
      + intros [<-|I]; [right; exists (g, y); split; [left; reflexivity|reflexivity]|]. destruct (IH I) as [H|(q' & I' & H)]; [left; exact H|right]. exists q'. split; [right; exact I'|exact H].
  Qed.
  Lemma addw_apart f x D : apart D -> apart (addw f x D).
  Proof.
    induction D as [|(g & y) D IH]; intros A; cbn [addw]; [split; [intros q []|exact I]|]. destruct A as (A1 & A2). destruct (sameb d x y) eqn:E; [split; assumption|].
    split; [|apply IH; exact A2]. intros q Iq. destruct (addw_in f x D q Iq) as [H|(q' & I' & H)].
    - rewrite sameb_sym, <- (sameb_trans d _ _ y H). exact E.
    - rewrite <- H. apply A1. exact I'.
  Qed.
  Lemma merge_apart W : apart (merge W).
  Proof. induction W as [|(f & x) W IH]; [exact I|]. cbn [merge]. apply addw_apart. exact IH. Qed.

  Lemma apart_nth D z i j : apart D -> (i < length D)%nat -> (j < length D)%nat -> i <> j -> sameb d (snd (nth i D z)) (snd (nth j D z)) = false.
  Proof.
    revert i j. induction D as [|(g & y) D IH]; intros i j A Li Lj N; [cbn in Li; lia|]. destruct A as (A1 & A2). cbn [length] in Li, Lj.
    destruct i as [|i], j as [|j]; cbn [nth]; [lia| | |apply IH; auto; lia].
    - apply A1. apply nth_In. lia.
    - rewrite sameb_sym. apply A1. apply nth_In. lia.
  Qed.

  (** The weights at z. *)
  Definition at_point (z : vect) (x : vect) : R := if sameb d x z then 1 else 0.
  Lemma at_point_respects z : respects (at_point z).
  Proof. intros x y E. unfold at_point. rewrite (sameb_trans d x y z E). reflexivity. Qed.

  Variable sigma : R.
  Hypothesis Hs : sigma <> 0.
  Definition ker (x y : vect) : R := gaussian d sigma (vsub x y).
  Lemma ker_respects x : respects (ker x).
  Proof. intros y z E. rewrite sameb_true in E. unfold ker, gaussian, sqn, vsub. f_equal. f_equal. f_equal. apply rsum_ext. intros c L. rewrite E by exact L. reflexivity. Qed.
  Lemma ker_sym x y : ker x y = ker y x. Proof. apply gaussian_vsub_sym. Qed.

  Definition wquad (W : list (R * vect)) : R := wsum (fun x => wsum (ker x) W) W.
  Lemma wsum_ext K K' W : (forall x, K x = K' x) -> wsum K W = wsum K' W.
  Proof. intros H. apply sumof_ext. intros q _. rewrite H. reflexivity. Qed.
  Lemma wquad_merge W : wquad W = wquad (merge W).
  Proof.
    unfold wquad. rewrite (wsum_ext (fun x => wsum (ker x) W) (fun x => wsum (ker x) (merge W))) by (intros x; symmetry; apply merge_sum, ker_respects).
    symmetry. apply merge_sum. intros x y E. unfold wsum. apply sumof_ext. intros q _. f_equal. rewrite (ker_sym x), (ker_sym y). apply ker_respects. exact E.
  Qed.

  Definition z0 : R * vect := (0, fun _ => 0).
  Lemma wquad_quad D : wquad D = quad (length D) (G d sigma (fun i => snd (nth i D z0))) (fun i => fst (nth i D z0)).
  Proof.
    unfold wquad, wsum, quad. rewrite (sumof_nth z0). apply rsum_ext. intros i _. rewrite (sumof_nth z0), <- rsum_scal. apply rsum_ext. intros j _. unfold G, ker. ring.
  Qed.

  Lemma weight_nth D i : apart D -> (i < length D)%nat -> wsum (at_point (snd (nth i D z0))) D = fst (nth i D z0).
  Proof.
    intros A L. unfold wsum. rewrite (sumof_nth z0). rewrite (rsum_single _ _ i L).
    - unfold at_point. rewrite sameb_refl. ring.
    - intros j Lj N. unfold at_point. rewrite (apart_nth D z0 j i A Lj L N). ring.
  Qed.

  Lemma wquad_zero W : wquad W = 0 <-> forall z, wsum (at_point z) W = 0.
  Proof.
    rewrite wquad_merge. set (D := merge W). pose proof (merge_apart W : apart D) as A. split.
    - intros H z. rewrite <- (merge_sum _ W (at_point_respects z)). fold D. rewrite wquad_quad in H.
      assert (Z : forall i, (i < length D)%nat -> fst (nth i D z0) = 0).
      { intros i L. destruct (Req_dec (fst (nth i D z0)) 0) as [|N]; [assumption|]. exfalso.
        assert (P : 0 < quad (length D) (G d sigma (fun i => snd (nth i D z0))) (fun i => fst (nth i D z0))).
        { apply (G_pd d (length D) sigma (fun i => snd (nth i D z0)) Hs); [|exists i; split; assumption]. intros a b La Lb Nab.
          pose proof (apart_nth D z0 a b A La Lb Nab) as E. unfold sameb in E.
          destruct (forallb_exists_false _ _ E) as (c & Ic & Hc). apply in_seq in Ic. exists c. split; [lia|]. intros X. apply Reqb_true in X. congruence. }
        lra. }
      unfold wsum. rewrite (sumof_nth z0). apply rsum_zero. intros i L. rewrite Z by exact L. ring.
    - intros H. rewrite wquad_quad. apply quad_0. intros i L. rewrite <- (weight_nth D i A L). unfold D. rewrite merge_sum by apply at_point_respects. apply H.
  Qed.
End Merge.

(** ** Length tensors *)
Definition signed (P Q : list piece) : list (R * piece) := map (fun p => (1, p)) P ++ map (fun q => (-1, q)) Q.
Definition part (d a b : nat) (x : R * piece) : R * (nat -> R) :=
  (fst x * (vec (snd x) a * vec (snd x) b / normv d (vec (snd x))), centre (snd x)).

Lemma wdot_parts d s W : wdot d s W = rsum d (fun a => rsum d (fun b => wquad d s (map (part d a b) W))).
Proof.
  unfold wdot, wquad, wsum.
  rewrite (sumof_ext _ (fun x => rsum d (fun a => rsum d (fun b => sumof (fun y => fst x * fst y *
     ((vec (snd x) a * vec (snd x) b / normv d (vec (snd x))) * (vec (snd y) a * vec (snd y) b / normv d (vec (snd y))) * gaussian d s (vsub (centre (snd x)) (centre (snd y))))) W)))).
  - rewrite sumof_rsum. apply rsum_ext. intros a _. rewrite sumof_rsum. apply rsum_ext. intros b _. rewrite sumof_map. apply sumof_ext. intros x _.
    rewrite sumof_map, <- sumof_scal. apply sumof_ext. intros y _. unfold part, ker. cbn [fst snd]. ring.
  - intros x _. rewrite (sumof_ext _ (fun y => rsum d (fun a => rsum d (fun b => fst x * fst y *
      ((vec (snd x) a * vec (snd x) b / normv d (vec (snd x))) * (vec (snd y) a * vec (snd y) b / normv d (vec (snd y))) * gaussian d s (vsub (centre (snd x)) (centre (snd y)))))))).
    + rewrite sumof_rsum. apply rsum_ext. intros a _. rewrite sumof_rsum. reflexivity.
    + intros y _. rewrite pair_expand, <- rsum_scal. apply rsum_ext. intros a _. rewrite <- rsum_scal. reflexivity.
Qed.

Lemma wquad_nonneg d s W : s <> 0 -> 0 <= wquad d s W.
Proof. intros Hs. rewrite wquad_quad. apply G_psd. exact Hs. Qed.

Lemma tensor_signed d P Q z a b : wsum (at_point d z) (map (part d a b) (signed P Q)) = length_tensor d P z a b - length_tensor d Q z a b.
Proof.
  unfold wsum, signed, length_tensor. rewrite sumof_map, sumof_app, !sumof_map. unfold part, at_point. cbn [fst snd].
  replace (sumof (fun q => -1 * (vec q a * vec q b / normv d (vec q)) * (if sameb d (centre q) z then 1 else 0)) Q)
    with (-1 * sumof (fun p => if sameb d (centre p) z then vec p a * vec p b / normv d (vec p) else 0) Q).
  - replace (sumof (fun p => 1 * (vec p a * vec p b / normv d (vec p)) * (if sameb d (centre p) z then 1 else 0)) P)
      with (sumof (fun p => if sameb d (centre p) z then vec p a * vec p b / normv d (vec p) else 0) P); [ring|].
    apply sumof_ext. intros p _. destruct (sameb d (centre p) z); ring.
  - rewrite <- sumof_scal. apply sumof_ext. intros p _. destruct (sameb d (centre p) z); ring.
Qed.

Lemma shape_dist2_zero d s P Q : s <> 0 ->
  (shape_dist2 d s P Q = 0 <-> forall z a b, (a < d)%nat -> (b < d)%nat -> length_tensor d P z a b = length_tensor d Q z a b).
Proof.
  intros Hs. rewrite shape_dist2_wdot. fold (signed P Q). rewrite wdot_parts. split.
  - intros H z a b La Lb.
    assert (Ha : rsum d (fun b => wquad d s (map (part d a b) (signed P Q))) = 0).
    { apply (rsum_nonneg_zero d (fun a => rsum d (fun b => wquad d s (map (part d a b) (signed P Q))))); [|exact H|exact La]. intros i _. apply rsum_nonneg. intros j _. apply wquad_nonneg. exact Hs. }
    assert (Hb : wquad d s (map (part d a b) (signed P Q)) = 0).
    { apply (rsum_nonneg_zero d (fun b => wquad d s (map (part d a b) (signed P Q)))); [|exact Ha|exact Lb]. intros j _. apply wquad_nonneg. exact Hs. }
    rewrite (wquad_zero d s Hs) in Hb. specialize (Hb z). rewrite tensor_signed in Hb. lra.
  - intros H. apply rsum_zero. intros a La. apply rsum_zero. intros b Lb. apply (wquad_zero d s Hs). intros z. rewrite tensor_signed, (H z a b La Lb). ring.
Qed.
