(** Facts about the tensor primitives. *)
From Coq Require Import Reals String List Arith Lia.
From Verif Require Import Tensor.
Import ListNotations.
Open Scope nat_scope.

Lemma prod_cons n sh : prod (n :: sh) = n * prod sh.
Proof. reflexivity. Qed.

Lemma valid_length sh idx : valid sh idx -> List.length idx = List.length sh.
Proof.
  revert idx; induction sh as [|n sh IH]; destruct idx as [|i idx]; cbn; intros H; try tauto.
  destruct H as [_ H]. rewrite (IH idx H). reflexivity.
Qed.

Lemma ravel_lt sh idx : valid sh idx -> ravel sh idx < prod sh.
Proof.
  revert idx; induction sh as [|n sh IH]; destruct idx as [|i idx]; cbn; intros H; try tauto; try lia.
  destruct H as [Hi H]. specialize (IH idx H). fold (prod sh). nia.
Qed.

Lemma unravel_ravel sh idx : valid sh idx -> unravel sh (ravel sh idx) = idx.
Proof.
  revert idx; induction sh as [|n sh IH]; destruct idx as [|i idx]; cbn; intros H; try tauto.
  destruct H as [Hi H]. pose proof (ravel_lt sh idx H) as Hlt.
  fold (prod sh).
  assert (Hp : prod sh <> 0) by lia.
  f_equal.
  - rewrite Nat.div_add_l by assumption. rewrite Nat.div_small by assumption. lia.
  - rewrite Nat.add_comm, Nat.mod_add by assumption.
    rewrite Nat.mod_small by assumption. apply IH; assumption.
Qed.

Lemma valid_unravel sh k : k < prod sh -> valid sh (unravel sh k).
Proof.
  revert k; induction sh as [|n sh IH]; intros k; [intros; exact I|].
  cbn; fold (prod sh); intros H.
  assert (Hp : prod sh <> 0) by (intros E; rewrite E in H; lia).
  split.
  - apply Nat.div_lt_upper_bound; [assumption|]. lia.
  - apply IH. apply Nat.mod_upper_bound; assumption.
Qed.

Lemma ravel_unravel sh k : k < prod sh -> ravel sh (unravel sh k) = k.
Proof.
  revert k; induction sh as [|n sh IH]; intros k; [cbn; lia|].
  cbn; fold (prod sh); intros H.
  assert (Hp : prod sh <> 0) by (intros E; rewrite E in H; lia).
  rewrite IH by (apply Nat.mod_upper_bound; assumption).
  pose proof (Nat.div_mod k (prod sh) Hp). lia.
Qed.

(** Merging the two leading axes. *)
Lemma ravel_merge N M sh i j idx :
  ravel ((N * M) :: sh) ((i * M + j) :: idx) = ravel (N :: M :: sh) (i :: j :: idx).
Proof. cbn. fold (prod sh). nia. Qed.

Lemma ravel_merge1 N M i j : ravel [N * M] [i * M + j] = ravel [N; M] [i; j].
Proof. apply ravel_merge. Qed.

Lemma get_reshape sh t idx idx' :
  ravel sh idx = ravel (shape t) idx' -> valid (shape t) idx' ->
  get (reshape sh t) idx = get t idx'.
Proof.
  intros E V. cbn. rewrite E, unravel_ravel by assumption. reflexivity.
Qed.

Lemma pair_lt N M i j : i < N -> j < M -> i * M + j < N * M.
Proof. nia. Qed.

Lemma div_pair M i j : j < M -> (i * M + j) / M = i.
Proof. intros H. rewrite Nat.div_add_l by lia. rewrite Nat.div_small; lia. Qed.

Lemma mod_pair M i j : j < M -> (i * M + j) mod M = j.
Proof. intros H. rewrite Nat.add_comm, Nat.mod_add by lia. apply Nat.mod_small; assumption. Qed.

(** [reshape] to the flattened pair index and back. *)
Lemma get_reshape_split N M sh t i j idx :
  shape t = (N * M) :: sh -> i < N -> j < M -> valid sh idx ->
  get (reshape (N :: M :: sh) t) (i :: j :: idx) = get t ((i * M + j) :: idx).
Proof.
  intros Ht Hi Hj Hv. apply get_reshape; rewrite Ht.
  - symmetry. apply ravel_merge.
  - cbn. split; [apply pair_lt; assumption | assumption].
Qed.

Lemma get_reshape_merge N M sh t i j idx :
  shape t = N :: M :: sh -> i < N -> j < M -> valid sh idx ->
  get (reshape ((N * M) :: sh) t) ((i * M + j) :: idx) = get t (i :: j :: idx).
Proof.
  intros Ht Hi Hj Hv. apply get_reshape; rewrite Ht.
  - apply ravel_merge.
  - cbn. auto.
Qed.

Lemma get_reshape_id t idx : valid (shape t) idx -> get (reshape (shape t) t) idx = get t idx.
Proof. intros H. apply get_reshape; [reflexivity | assumption]. Qed.

(** Equality of tensors. *)
Lemma teq_refl a : teq a a.
Proof. split; auto. Qed.

Lemma teq_sym a b : teq a b -> teq b a.
Proof. intros [H1 H2]; split; [auto|]. intros idx V. symmetry. apply H2. rewrite H1. exact V. Qed.

Lemma teq_trans a b c : teq a b -> teq b c -> teq a c.
Proof.
  intros [H1 H2] [H3 H4]; split; [congruence|].
  intros idx V. rewrite H2 by assumption. apply H4. rewrite <- H1. exact V.
Qed.

(** Sum over all indices of a shape equals the sum over the flattened tensor. *)
Lemma sum_idx_flat sh : forall f,
  sum_idx sh f = rsum (prod sh) (fun k => f (unravel sh k)).
Proof.
  induction sh as [|n sh IH]; intros f.
  - cbn. ring.
  - cbn [sum_idx]. rewrite prod_cons, rsum_flat. apply rsum_ext. intros i Hi.
    rewrite IH. apply rsum_ext. intros j Hj. cbn [unravel].
    rewrite div_pair, mod_pair by assumption. reflexivity.
Qed.

Lemma sum_idx_ext sh : forall f g,
  (forall idx, valid sh idx -> f idx = g idx) -> sum_idx sh f = sum_idx sh g.
Proof.
  induction sh as [|n sh IH]; intros f g H; cbn [sum_idx].
  - apply H. exact I.
  - apply rsum_ext. intros i Hi. apply IH. intros idx V. apply H. cbn; auto.
Qed.

Lemma get_flatten t idx : valid (shape t) idx ->
  get (tflatten t) [ravel (shape t) idx] = get t idx.
Proof.
  intros V. unfold tflatten. apply get_reshape; [cbn; lia | assumption].
Qed.

Lemma get_flatten_k t k : get (tflatten t) [k] = get t (unravel (shape t) k).
Proof. cbn. f_equal. f_equal. lia. Qed.

(** The flattened dot product is the sum of products over all indices. *)
Lemma tdot_sum a b : shape b = shape a ->
  tdot a b = sum_idx (shape a) (fun idx => (get a idx * get b idx)%R).
Proof.
  intros H. unfold tdot. rewrite sum_idx_flat. apply rsum_ext. intros k Hk.
  rewrite !get_flatten_k, H. reflexivity.
Qed.

(** The dot product only looks at the flattened data. *)
Lemma tdot_ext a b b' :
  (forall k, k < prod (shape a) -> get (tflatten b) [k] = get (tflatten b') [k]) ->
  tdot a b = tdot a b'.
Proof. intros H. unfold tdot. apply rsum_ext. intros k Hk. rewrite H by assumption. reflexivity. Qed.

(** Sums of tensors. *)
Lemma fold_tadd_shape l : forall a, shape (fold_left tadd l a) = shape a.
Proof. induction l as [|b l IH]; intros a; cbn; [reflexivity|]. rewrite IH. reflexivity. Qed.

Lemma fold_tadd_get l : forall a idx,
  get (fold_left tadd l a) idx = (get a idx + fold_right (fun t acc => get t idx + acc) 0 l)%R.
Proof.
  induction l as [|b l IH]; intros a idx; cbn; [ring|]. rewrite IH. cbn. ring.
Qed.

Lemma tsum_get l idx : l <> [] -> get (tsum l) idx = fold_right (fun t acc => (get t idx + acc)%R) 0%R l.
Proof. destruct l as [|a l]; intros H; [congruence|]. cbn. apply fold_tadd_get. Qed.

Lemma tsum_shape a l : shape (tsum (a :: l)) = shape a.
Proof. cbn. apply fold_tadd_shape. Qed.
