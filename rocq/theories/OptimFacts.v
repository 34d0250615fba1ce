(** Proofs about the gradient descent. *)
From Coq Require Import Reals Lra String List Arith Lia Bool.
From Verif Require Import Py Fl OptimModel SpecOptim.
Import ListNotations.
Open Scope list_scope.
Open Scope R_scope.

Lemma map_combine_nth {A B C} (f : A * B -> C) a b da db : length a = length b ->
  map f (combine a b) = map (fun i => f (nth i a da, nth i b db)) (seq 0 (length a)).
Proof.
  revert b. induction a as [|x a IH]; intros [|y b] H; try discriminate; [reflexivity|].
  cbn in H. cbn [combine map length seq]. f_equal. rewrite IH by lia.
  rewrite <- seq_shift, map_map. apply map_ext. reflexivity.
Qed.

Lemma same_shape_length x y : same_shape x y -> length x = length y.
Proof. intros H. apply (f_equal (@length _)) in H. rewrite !map_length in H. exact H. Qed.
Lemma same_shape_nth x y g : same_shape x y -> map (@length R) (nth g x []) = map (@length R) (nth g y []).
Proof.
  intros H. apply (f_equal (fun l => nth g l (map (@length R) []))) in H. rewrite !map_nth in H. exact H.
Qed.
Lemma same_shape_length2 x y g : same_shape x y -> length (nth g x []) = length (nth g y []).
Proof. intros H. apply (same_shape_nth _ _ g) in H. apply (f_equal (@length _)) in H. rewrite !map_length in H. exact H. Qed.
Lemma same_shape_length3 x y g i : same_shape x y ->
  length (nth i (nth g x []) []) = length (nth i (nth g y []) []).
Proof.
  intros H. apply (same_shape_nth _ _ g) in H.
  apply (f_equal (fun l => nth i l (length (@nil R)))) in H. rewrite !map_nth in H. exact H.
Qed.

Lemma move_moved ss x d : length ss = length x -> same_shape d x ->
  move ss x d = moved (fun g => nth g ss 0) x d.
Proof.
  intros Hs Hd. unfold move, moved.
  rewrite (map_combine_nth _ (combine x d) ss ([], []) 0)
    by (rewrite combine_length, (same_shape_length _ _ Hd); lia).
  rewrite combine_length, (same_shape_length _ _ Hd), Nat.min_id. apply map_ext_in. intros g Hg.
  cbn [fst snd]. rewrite combine_nth by (symmetry; apply (same_shape_length _ _ Hd)). cbn [fst snd].
  rewrite (map_combine_nth _ (nth g x []) (nth g d []) [] []) by (symmetry; apply same_shape_length2, Hd).
  apply map_ext. intros i. cbn [fst snd]. unfold move_tensor.
  rewrite (map_combine_nth _ (nth i (nth g x []) []) (nth i (nth g d []) []) 0 0) by (symmetry; apply same_shape_length3, Hd).
  reflexivity.
Qed.

Lemma moved_ext s s' x d : (forall g, (g < length x)%nat -> s g = s' g) -> moved s x d = moved s' x d.
Proof.
  intros H. unfold moved. apply map_ext_in. intros g Hg. apply in_seq in Hg.
  apply map_ext. intros i. apply map_ext. intros j. rewrite H by lia. reflexivity.
Qed.

Lemma map_nth_seq_length {A} (l : list (list A)) : map (fun i => length (nth i l [])) (seq 0 (length l)) = map (@length A) l.
Proof.
  induction l as [|a l IH]; [reflexivity|]. cbn [length seq map]. f_equal.
  rewrite <- seq_shift, map_map. exact IH.
Qed.
Lemma moved_shape s x d : same_shape (moved s x d) x.
Proof.
  unfold same_shape, moved. rewrite map_map.
  transitivity (map (fun g => map (@length R) (nth g x [])) (seq 0 (length x))).
  - apply map_ext. intros g. rewrite map_map. rewrite <- map_nth_seq_length. apply map_ext. intros i.
    rewrite map_length, seq_length. reflexivity.
  - induction x as [|a x IH]; [reflexivity|]. cbn [length seq map]. f_equal.
    rewrite <- seq_shift, map_map. exact IH.
Qed.

Lemma update1_length c ss : length (groups c) = length ss -> length (update1 c ss) = length ss.
Proof. intros H. unfold update1. rewrite map_length, combine_length. lia. Qed.
Lemma update1_nth c ss g : length (groups c) = length ss ->
  nth g (update1 c ss) 0 = gam1 c g * nth g ss 0.
Proof.
  unfold update1, gam1. generalize (groups c). intros l. revert ss g.
  induction l as [|a l IH]; intros [|s ss] [|g] H; try discriminate; cbn; try ring.
  apply IH. cbn in H. lia.
Qed.
Lemma update2_length c ss : length (groups c) = length ss -> length (update2 c ss) = length ss.
Proof. intros H. unfold update2. rewrite map_length, combine_length. lia. Qed.
Lemma update2_nth c ss g : length (groups c) = length ss ->
  nth g (update2 c ss) 0 = gam2 c g * nth g ss 0.
Proof.
  unfold update2, gam2. generalize (groups c). intros l. revert ss g.
  induction l as [|a l IH]; intros [|s ss] [|g] H; try discriminate; cbn; try ring.
  apply IH. cbn in H. lia.
Qed.

Fixpoint upd1s (c : gd_conf) (k : nat) (ss : list R) : list R :=
  match k with O => ss | S k' => upd1s c k' (update1 c ss) end.
Lemma upd1s_length c k : forall ss, length (groups c) = length ss -> length (upd1s c k ss) = length ss.
Proof.
  induction k as [|k IH]; intros ss H; [reflexivity|]. cbn. rewrite IH; rewrite update1_length; auto.
Qed.
Lemma upd1s_nth c k g : forall ss, length (groups c) = length ss -> nth g (upd1s c k ss) 0 = tried c ss k g.
Proof.
  unfold tried. induction k as [|k IH]; intros ss H; cbn [upd1s pow]; [ring|].
  rewrite IH by (rewrite update1_length; auto). rewrite update1_nth by exact H. ring.
Qed.

Lemma lower_iff a b : (flt a b && isfinite a)%bool = true <-> lower a b.
Proof.
  unfold lower. rewrite andb_true_iff. split; intros [H1 H2]; (split; [exact H1|]).
  - destruct a; try discriminate. eauto.
  - destruct H2 as [r ->]. reflexivity.
Qed.
Lemma unchanged_iff a b : feq a b = true <-> unchanged a b.
Proof. rewrite feq_true. unfold unchanged. split; intros [-> H]; auto. Qed.

Lemma gd_loop_spec c f x d cx cnt fuel : forall n ss st,
  gd_loop c f x d cx cnt fuel n ss = Some st ->
  exists k, (k < fuel)%nat /\
    let y := move (upd1s c k ss) x d in
    (forall k', (k' < k)%nat -> ~ lower (f (move (upd1s c k' ss) x d)) cx /\
                                ~ unchanged (f (move (upd1s c k' ss) x d)) cx) /\
    ((lower (f y) cx /\ st = mkGd y (if Nat.eqb (n + k) 1 then update2 c (upd1s c k ss) else upd1s c k ss) cnt) \/
     (unchanged (f y) cx /\ st = mkGd y (upd1s c k ss) cnt)).
Proof.
  induction fuel as [|fuel IH]; intros n ss st; cbn [gd_loop]; [discriminate|].
  destruct (flt _ _ && _)%bool eqn:E1.
  - intros E. injection E as <-. exists 0%nat. cbn. split; [lia|]. split; [lia|]. left.
    apply lower_iff in E1. rewrite Nat.add_0_r. auto.
  - destruct (feq _ _) eqn:E2.
    + intros E. injection E as <-. exists 0%nat. cbn. split; [lia|]. split; [lia|]. right.
      apply unchanged_iff in E2. auto.
    + intros E. destruct (IH _ _ _ E) as [k [Hk [Hno Hy]]]. exists (S k). cbn [upd1s].
      split; [lia|]. split.
      * intros [|k'] Hk'; [|apply Hno; lia]. cbn [upd1s].
        rewrite <- lower_iff, <- unchanged_iff, E1, E2. split; discriminate.
      * rewrite Nat.add_succ_r. exact Hy.
Qed.

(** The converse: the loop stops at the first acceptable trial. *)
Lemma gd_loop_reach c f x d cx cnt : forall k n ss fuel, (k < fuel)%nat ->
  (lower (f (move (upd1s c k ss) x d)) cx \/ unchanged (f (move (upd1s c k ss) x d)) cx) ->
  exists st, gd_loop c f x d cx cnt fuel n ss = Some st.
Proof.
  induction k as [|k IH]; intros n ss [|fuel] Hf Hy; try lia; cbn [gd_loop].
  - cbn [upd1s] in Hy. destruct (flt _ _ && _)%bool eqn:E1; [eauto|].
    destruct (feq _ _) eqn:E2; [eauto|]. exfalso.
    rewrite <- lower_iff, <- unchanged_iff, E1, E2 in Hy. destruct Hy; discriminate.
  - destruct (flt _ _ && _)%bool eqn:E1; [eauto|].
    destruct (feq _ _) eqn:E2; [eauto|]. apply IH; [lia|exact Hy].
Qed.

(** ** C35 *)
Theorem gd_step_spec c f grad fuel st st' :
  gd_consistent c grad st -> gd_step c f grad fuel st = Some st' ->
  let x := gd_params st in
  exists k,
    gd_params st' = moved (tried c (gd_steps st) k) x (grad x) /\
    (forall k', (k' < k)%nat -> ~ lower (f (moved (tried c (gd_steps st) k') x (grad x))) (f x) /\
                                ~ unchanged (f (moved (tried c (gd_steps st) k') x (grad x))) (f x)) /\
    (lower (f (gd_params st')) (f x) \/ unchanged (f (gd_params st')) (f x)) /\
    length (gd_steps st') = length (gd_steps st) /\
    (k = 0%nat -> lower (f (gd_params st')) (f x) ->
       forall g, (g < length x)%nat -> nth g (gd_steps st') 0 = gam2 c g * nth g (gd_steps st) 0) /\
    ((0 < k)%nat \/ unchanged (f (gd_params st')) (f x) ->
       forall g, (g < length x)%nat -> nth g (gd_steps st') 0 = gam1 c g ^ k * nth g (gd_steps st) 0) /\
    gd_count st' = S (gd_count st).
Proof.
  intros [Hg [Hs Hd]] E x. unfold gd_step in E. fold x in E.
  destruct (gd_loop_spec _ _ _ _ _ _ _ _ _ _ E) as [k [Hk [Hno Hy]]].
  assert (Hgs : length (groups c) = length (gd_steps st)) by congruence.
  assert (Hm : forall j, move (upd1s c j (gd_steps st)) x (grad x) = moved (tried c (gd_steps st) j) x (grad x)).
  { intros j. rewrite move_moved; [|rewrite upd1s_length; assumption|assumption].
    apply moved_ext. intros g _. apply upd1s_nth. exact Hgs. }
  rewrite Hm in Hy.
  assert (Hlu : forall a, lower a (f x) -> unchanged a (f x) -> False).
  { intros a [H1 [r ->]] [H2 _]. rewrite <- H2 in H1. cbn in H1. apply Rltb_true in H1. lra. }
  assert (Hno' : forall k', (k' < k)%nat -> ~ lower (f (moved (tried c (gd_steps st) k') x (grad x))) (f x) /\
                                ~ unchanged (f (moved (tried c (gd_steps st) k') x (grad x))) (f x)).
  { intros k' Hk'. specialize (Hno k' Hk'). rewrite Hm in Hno. exact Hno. }
  exists k. destruct Hy as [[Hl ->]|[Hu ->]]; cbn [gd_params gd_steps gd_count].
  - split; [reflexivity|]. split; [exact Hno'|]. split; [auto|]. split; [|split; [|split; [|reflexivity]]].
    + destruct (Nat.eqb _ _); rewrite ?update2_length; rewrite ?upd1s_length; auto.
    + intros -> _ g Hgx. cbn [Nat.add Nat.eqb]. cbn [upd1s]. rewrite update2_nth by auto. reflexivity.
    + intros [Hk0|Hu] g Hgx; [|destruct (Hlu _ Hl Hu)].
      destruct k; [lia|]. cbn [Nat.add Nat.eqb]. rewrite upd1s_nth by exact Hgs. reflexivity.
  - split; [reflexivity|]. split; [exact Hno'|]. split; [auto|]. split; [|split; [|split; [|reflexivity]]].
    + rewrite upd1s_length; auto.
    + intros _ Hl. destruct (Hlu _ Hl Hu).
    + intros _ g Hgx. rewrite upd1s_nth by exact Hgs. reflexivity.
Qed.

Lemma fle_trans a b c : fle a b = true -> fle b c = true -> fle a c = true.
Proof.
  unfold fle. destruct a, b, c; cbn; try congruence; rewrite ?orb_true_iff, ?Rltb_true, ?Reqb_true; auto; intros; try lra;
    try tauto.
Qed.
Lemma fle_refl a : a <> NaN -> fle a a = true.
Proof. destruct a; unfold fle; cbn; try congruence; auto. intros _. rewrite orb_true_iff. right. apply Reqb_true. reflexivity. Qed.

Lemma consistent_step c f grad fuel st st' :
  (forall x, same_shape x (gd_params st) -> same_shape (grad x) x) ->
  gd_consistent c grad st -> gd_step c f grad fuel st = Some st' ->
  same_shape (gd_params st') (gd_params st) /\ gd_consistent c grad st'.
Proof.
  intros Hgr Hc E. destruct (gd_step_spec _ _ _ _ _ _ Hc E) as [k [Hp [_ [_ [Hl _]]]]].
  assert (Hsh : same_shape (gd_params st') (gd_params st)) by (rewrite Hp; apply moved_shape).
  split; [exact Hsh|]. destruct Hc as [H1 [H2 H3]].
  pose proof (same_shape_length _ _ Hsh). repeat split; try congruence. apply Hgr, Hsh.
Qed.

Theorem gd_monotone c f grad fuel n : forall st st',
  (forall x, same_shape x (gd_params st) -> same_shape (grad x) x) ->
  gd_consistent c grad st -> f (gd_params st) <> NaN ->
  gd_steps_n c f grad fuel n st = Some st' ->
  fle (f (gd_params st')) (f (gd_params st)) = true /\ f (gd_params st') <> NaN /\
  gd_count st' = (n + gd_count st)%nat.
Proof.
  induction n as [|n IH]; intros st st' Hgr Hc Hnan E; cbn in E.
  - injection E as <-. split; [apply fle_refl, Hnan|auto].
  - destruct (gd_step c f grad fuel st) as [st1|] eqn:E1; [|discriminate].
    destruct (consistent_step _ _ _ _ _ _ Hgr Hc E1) as [Hsh Hc1].
    destruct (gd_step_spec _ _ _ _ _ _ Hc E1) as [k [_ [_ [Hy [_ [_ [_ Hcount]]]]]]].
    assert (H1 : fle (f (gd_params st1)) (f (gd_params st)) = true /\ f (gd_params st1) <> NaN).
    { destruct Hy as [[Hl [r Hr]]|[He Hn]].
      - split; [|congruence]. unfold fle. rewrite Hl. reflexivity.
      - split; [|congruence]. rewrite He. apply fle_refl, Hnan. }
    destruct (IH st1 st') as [H2 [H3 H4]]; auto.
    + intros x Hx. apply Hgr. unfold same_shape in *. congruence.
    + tauto.
    + split; [|split; [exact H3|lia]]. eapply fle_trans; [exact H2|tauto].
Qed.

(** ** C36 *)
Lemma nan_loops c f x d cnt fuel : forall n ss, gd_loop c f x d NaN cnt fuel n ss = None.
Proof.
  induction fuel as [|fuel IH]; intros; cbn [gd_loop]; [reflexivity|].
  assert (flt (f (move ss x d)) NaN = false) as -> by (destruct (f _); reflexivity).
  assert (feq (f (move ss x d)) NaN = false) as -> by (destruct (f _); reflexivity).
  apply IH.
Qed.
Lemma gd_step_nan c f grad fuel st : f (gd_params st) = NaN -> gd_step c f grad fuel st = None.
Proof. intros H. unfold gd_step. rewrite H. apply nan_loops. Qed.

(** Sums over groups of what happens to each entry. *)
Definition group_abs (dg : list (list R)) : R := sumR (map Rabs (List.concat dg)).
Definition group_sq (dg : list (list R)) : R := sumR (map (fun a => a * a) (List.concat dg)).
Fixpoint wsum (ss : list R) (D : list R) : R :=
  match ss, D with s :: ss', a :: D' => s * a + wsum ss' D' | _, _ => 0 end.

Lemma sumR_app a b : sumR (a ++ b) = sumR a + sumR b.
Proof. induction a as [|x a IH]; cbn; [ring|]. rewrite IH. ring. Qed.

Lemma combine_app {A B} (a a' : list A) (b b' : list B) : length a = length b ->
  combine (a ++ a') (b ++ b') = combine a b ++ combine a' b'.
Proof.
  revert b. induction a as [|x a IH]; intros [|y b] H; try discriminate; [reflexivity|].
  cbn. f_equal. apply IH. cbn in H. lia.
Qed.

Lemma move_tensor_length s x d : length x = length d -> length (move_tensor s x d) = length x.
Proof. intros H. unfold move_tensor. rewrite map_length, combine_length. lia. Qed.

Lemma tensor_abs s x d : length x = length d ->
  sumR (map (fun p => Rabs (snd p - fst p)) (combine x (move_tensor s x d))) = Rabs s * sumR (map Rabs d).
Proof.
  revert d. induction x as [|a x IH]; intros [|b d] H; try discriminate; cbn; [ring|].
  unfold move_tensor in IH. rewrite IH by (cbn in H; lia).
  replace (a - s * b - a) with (- (s * b)) by ring. rewrite Rabs_Ropp, Rabs_mult. ring.
Qed.
Lemma tensor_pair s x d : length x = length d ->
  sumR (map (fun p => fst p * (snd (snd p) - fst (snd p))) (combine d (combine x (move_tensor s x d))))
  = - (s * sumR (map (fun a => a * a) d)).
Proof.
  revert d. induction x as [|a x IH]; intros [|b d] H; try discriminate; cbn; [ring|].
  unfold move_tensor in IH. rewrite IH by (cbn in H; lia). ring.
Qed.

Definition move_group (s : R) (x d : list (list R)) : list (list R) :=
  map (fun q => move_tensor s (fst q) (snd q)) (combine x d).

Lemma group_sums s : forall x d, map (@length R) d = map (@length R) x ->
  length (List.concat (move_group s x d)) = length (List.concat x) /\
  length (List.concat d) = length (List.concat x) /\
  sumR (map (fun p => Rabs (snd p - fst p)) (combine (List.concat x) (List.concat (move_group s x d)))) = Rabs s * group_abs d /\
  sumR (map (fun p => fst p * (snd (snd p) - fst (snd p)))
      (combine (List.concat d) (combine (List.concat x) (List.concat (move_group s x d))))) = - (s * group_sq d).
Proof.
  induction x as [|a x IH]; intros [|b d] H; try discriminate.
  - unfold group_abs, group_sq. cbn. repeat split; ring.
  - injection H as Hab H. destruct (IH d H) as [L1 [L2 [S1 S2]]].
    change (move_group s (a :: x) (b :: d)) with (move_tensor s a b :: move_group s x d).
    assert (Hm : length (move_tensor s a b) = length a) by (apply move_tensor_length; congruence).
    unfold group_abs, group_sq in *. cbn [List.concat].
    rewrite !app_length, L1, L2, Hm, Hab. repeat split; auto.
    + rewrite combine_app by congruence. rewrite !map_app, !sumR_app, S1, tensor_abs by congruence. ring.
    + rewrite (combine_app a) by congruence. rewrite combine_app by (rewrite combine_length; lia).
      rewrite !map_app, !sumR_app, S2, tensor_pair by congruence. ring.
Qed.

Lemma move_cons s ss a x b d : move (s :: ss) (a :: x) (b :: d) = move_group s a b :: move ss x d.
Proof. reflexivity. Qed.

Lemma params_sums : forall x d ss, map (map (@length R)) d = map (map (@length R)) x -> length ss = length x ->
  length (flat_params (move ss x d)) = length (flat_params x) /\
  length (flat_params d) = length (flat_params x) /\
  dist1 x (move ss x d) = wsum (map Rabs ss) (map group_abs d) /\
  pairing d x (move ss x d) = - wsum ss (map group_sq d).
Proof.
  unfold dist1, pairing, flat_params.
  induction x as [|a x IH]; intros [|b d] [|s ss] H Hs; try discriminate.
  - cbn. repeat split; ring.
  - injection H as Hab H. cbn in Hs. destruct (IH d ss H ltac:(lia)) as [L1 [L2 [S1 S2]]].
    destruct (group_sums s a b Hab) as [G1 [G2 [G3 G4]]].
    rewrite move_cons. cbn [List.concat map wsum]. rewrite !concat_app, !app_length.
    rewrite L1, L2, G1, G2. repeat split; auto.
    + rewrite combine_app by congruence. rewrite map_app, sumR_app, S1, G3. reflexivity.
    + rewrite (combine_app (List.concat a)) by congruence. rewrite combine_app by (rewrite combine_length; lia).
      rewrite map_app, sumR_app, S2, G4. ring.
Qed.

(** Smallest non-zero absolute value. *)
Lemma min_nonzero (l : list R) : exists m, 0 < m /\ Forall (fun a => m * Rabs a <= a * a) l.
Proof.
  induction l as [|a l [m [Hm IH]]]; [exists 1; split; [lra|constructor]|].
  destruct (Req_dec a 0) as [->|Ha].
  - exists m. split; [exact Hm|]. constructor; [rewrite Rabs_R0; lra|exact IH].
  - assert (0 < Rabs a) by (apply Rabs_pos_lt, Ha).
    assert (a * a = Rabs a * Rabs a) by (rewrite <- Rabs_mult; symmetry; apply Rabs_pos_eq, Rle_0_sqr).
    exists (Rmin m (Rabs a)). split; [apply Rmin_glb_lt; assumption|].
    constructor.
    + rewrite H0. apply Rmult_le_compat_r; [lra|]. apply Rmin_r.
    + eapply Forall_impl; [|exact IH]. intros b Hb. cbn in Hb.
      assert (0 <= Rabs b) by apply Rabs_pos. assert (Rmin m (Rabs a) <= m) by apply Rmin_l. nra.
Qed.

Lemma group_compare m dg : Forall (fun a => m * Rabs a <= a * a) (List.concat dg) ->
  m * group_abs dg <= group_sq dg.
Proof.
  unfold group_abs, group_sq. induction 1; cbn; nra.
Qed.
Lemma group_abs_nonneg dg : 0 <= group_abs dg.
Proof. unfold group_abs. induction (List.concat dg); cbn; [lra|]. pose proof (Rabs_pos a). lra. Qed.

Lemma wsum_compare m ss d : 0 < m -> Forall (fun s => 0 < s) ss ->
  Forall (fun a => m * Rabs a <= a * a) (flat_params d) ->
  m * wsum (map Rabs ss) (map group_abs d) <= wsum ss (map group_sq d).
Proof.
  intros Hm. unfold flat_params. revert ss.
  induction d as [|g d IH]; intros [|s ss] Hs Hd; cbn; try lra.
  inversion Hs as [|? ? Hs1 Hs2]; subst. cbn in Hd. rewrite concat_app in Hd. apply Forall_app in Hd.
  destruct Hd as [Hd1 Hd2]. specialize (IH ss Hs2 Hd2). pose proof (group_compare m g Hd1).
  rewrite Rabs_pos_eq by lra. nra.
Qed.

Lemma wsum_nonneg ss D : Forall (fun s => 0 <= s) ss -> Forall (fun a => 0 <= a) D -> 0 <= wsum ss D.
Proof.
  revert D. induction ss as [|s ss IH]; intros [|a D] H1 H2; cbn; try lra.
  inversion H1; inversion H2; subst. assert (0 <= wsum ss D) by auto. nra.
Qed.

Lemma wsum_scale q ss ss' D : Forall2 (fun s s' => s' <= q * s) ss ss' -> Forall (fun a => 0 <= a) D ->
  wsum ss' D <= q * wsum ss D.
Proof.
  intros H. revert D. induction H as [|s s' ss ss' H1 H2 IH]; intros [|a D] HD; cbn; try lra.
  inversion HD; subst. specialize (IH D ltac:(assumption)). nra.
Qed.

(** A vanishing weighted sum of the groups means a vanishing gradient. *)
Lemma wsum_zero ss d : length ss = length d -> Forall (fun s => 0 < s) ss ->
  wsum (map Rabs ss) (map group_abs d) = 0 -> Forall (fun a => a = 0) (flat_params d).
Proof.
  unfold flat_params. revert ss. induction d as [|g d IH]; intros [|s ss] Hl Hs H; try discriminate; [constructor|].
  inversion Hs as [|? ? Hs1 Hs2]; subst. cbn in H, Hl. rewrite Rabs_pos_eq in H by lra.
  pose proof (group_abs_nonneg g).
  assert (0 <= wsum (map Rabs ss) (map group_abs d)).
  { apply wsum_nonneg; apply Forall_map, Forall_forall; intros; [apply Rabs_pos|apply group_abs_nonneg]. }
  assert (group_abs g = 0) by nra. cbn. rewrite concat_app. apply Forall_app. split; [|apply (IH ss); auto; nra].
  unfold group_abs in H2. clear -H2. induction (List.concat g) as [|a l IHl]; [constructor|].
  cbn in H2. pose proof (Rabs_pos a). assert (0 <= sumR (map Rabs l)) by (clear; induction l; cbn; [lra|]; pose proof (Rabs_pos a); lra).
  constructor; [|apply IHl; lra]. destruct (Req_dec a 0) as [->|Ha]; [reflexivity|].
  apply Rabs_pos_lt in Ha. lra.
Qed.

Lemma zero_move : forall x d ss, map (map (@length R)) d = map (map (@length R)) x -> length ss = length x ->
  Forall (fun a => a = 0) (flat_params d) -> move ss x d = x.
Proof.
  unfold flat_params. induction x as [|a x IH]; intros [|b d] [|s ss] H Hs Hz; try discriminate; [reflexivity|].
  injection H as Hab H. cbn in Hs, Hz. rewrite concat_app in Hz. apply Forall_app in Hz. destruct Hz as [Hz1 Hz2].
  rewrite move_cons. f_equal; [|apply IH; auto].
  clear -Hab Hz1. revert b Hab Hz1. induction a as [|t a IH]; intros [|u b] H Hz; try discriminate; [reflexivity|].
  injection H as Htu H. cbn in Hz. apply Forall_app in Hz. destruct Hz as [Hz1 Hz2].
  unfold move_group. cbn [combine map]. f_equal; [|apply IH; auto]. cbn [fst snd].
  clear -Htu Hz1. revert u Htu Hz1. induction t as [|y t IH]; intros [|z u] H Hz; try discriminate; [reflexivity|].
  inversion Hz; subst. unfold move_tensor. cbn. f_equal; [ring|]. apply IH; auto.
Qed.

Lemma max_gamma c (ss : list R) : length (groups c) = length ss ->
  (forall g, (g < length ss)%nat -> 0 < gam1 c g < 1) ->
  exists q, 0 < q < 1 /\ forall g, (g < length ss)%nat -> gam1 c g <= q.
Proof.
  intros _. induction (length ss) as [|n IH]; intros H.
  - exists (1/2). split; [lra|intros; lia].
  - destruct IH as [q [Hq IH]]; [intros; apply H; lia|].
    specialize (H n ltac:(lia)) as Hn. exists (Rmax q (gam1 c n)). split.
    + unfold Rmax. destruct (Rle_dec _ _); lra.
    + intros g Hg. destruct (Nat.eq_dec g n) as [->|]; [apply Rmax_r|].
      eapply Rle_trans; [apply IH; lia|apply Rmax_l].
Qed.

Lemma Forall2_nth_intro {A B} (P : A -> B -> Prop) a b da db : length a = length b ->
  (forall i, (i < length a)%nat -> P (nth i a da) (nth i b db)) -> Forall2 P a b.
Proof.
  revert b. induction a as [|x a IH]; intros [|y b] Hl H; try discriminate; constructor.
  - apply (H 0%nat). cbn. lia.
  - apply IH; [cbn in Hl; lia|]. intros i Hi. apply (H (S i)). cbn. lia.
Qed.
Lemma Forall_nth_intro {A} (P : A -> Prop) a da : (forall i, (i < length a)%nat -> P (nth i a da)) -> Forall P a.
Proof.
  induction a as [|x a IH]; intros H; constructor; [apply (H 0%nat); cbn; lia|].
  apply IH. intros i Hi. apply (H (S i)). cbn. lia.
Qed.

Theorem gd_terminates c f grad st a :
  gd_consistent c grad st ->
  (forall g, (g < length (gd_params st))%nat -> 0 < gam1 c g < 1 /\ 0 < nth g (gd_steps st) 0) ->
  differentiable_at f (gd_params st) a (grad (gd_params st)) ->
  exists fuel st', gd_step c f grad fuel st = Some st'.
Proof.
  intros [Hg [Hs Hd]] Hpos [Hfx [_ Hdiff]]. set (x := gd_params st) in *. set (d := grad x) in *.
  set (ss := gd_steps st) in *.
  assert (Hgs : length (groups c) = length ss) by congruence.
  assert (Hposk : forall k, Forall (fun s => 0 < s) (upd1s c k ss)).
  { intros k. apply Forall_nth_intro with (da := 0). rewrite upd1s_length by exact Hgs. intros i Hi.
    rewrite upd1s_nth by exact Hgs. unfold tried. destruct (Hpos i ltac:(congruence)).
    apply Rmult_lt_0_compat; [apply pow_lt; lra|assumption]. }
  assert (Hlk : forall k, length (upd1s c k ss) = length x) by (intros; rewrite upd1s_length; congruence).
  destruct (min_nonzero (flat_params d)) as [m [Hm Hmin]].
  destruct (Req_dec (wsum (map Rabs ss) (map group_abs d)) 0) as [Hz|Hnz].
  - (* zero gradient *)
    assert (Forall (fun a => a = 0) (flat_params d)).
    { apply (wsum_zero ss); auto; [|apply (Hposk 0%nat)]. rewrite Hs. symmetry. apply same_shape_length, Hd. }
    exists 1%nat. apply (gd_loop_reach _ _ _ _ _ _ 0); [lia|]. right. cbn [upd1s].
    fold x. fold d. fold ss. rewrite zero_move; auto. rewrite Hfx. split; [reflexivity|discriminate].
  - destruct (max_gamma c ss Hgs) as [q [Hq Hmax]].
    { intros g Hg'. apply Hpos. congruence. }
    set (D := wsum (map Rabs ss) (map group_abs d)) in *.
    assert (HDn : Forall (fun a => 0 <= a) (map group_abs d)).
    { apply Forall_map, Forall_forall. intros. apply group_abs_nonneg. }
    assert (HD : 0 < D).
    { assert (0 <= D) by (apply wsum_nonneg; [apply Forall_map, Forall_forall; intros; apply Rabs_pos|exact HDn]). lra. }
    destruct (Hdiff (m / 2) ltac:(lra)) as [del [Hdel Hnear]].
    destruct (pow_lt_1_zero q) with (y := del / D) as [N HN].
    { rewrite Rabs_pos_eq; lra. }
    { apply Rdiv_lt_0_compat; assumption. }
    specialize (HN N ltac:(lia)). rewrite Rabs_pos_eq in HN by (apply pow_le; lra).
    set (y := move (upd1s c N ss) x d).
    destruct (params_sums x d (upd1s c N ss) Hd (Hlk N)) as [_ [_ [S1 S2]]]. fold y in S1, S2.
    assert (Hdist : dist1 x y <= q ^ N * D).
    { rewrite S1. apply wsum_scale; [|exact HDn].
      apply (Forall2_nth_intro _ _ _ 0 0).
      { rewrite !map_length. rewrite Hlk. congruence. }
      rewrite map_length. intros i Hi.
      assert (Hn : forall l, nth i (map Rabs l) 0 = Rabs (nth i l 0)) by (intros l; rewrite <- (map_nth Rabs), Rabs_R0; reflexivity).
      rewrite !Hn.
      rewrite upd1s_nth by exact Hgs. unfold tried.
      destruct (Hpos i ltac:(congruence)) as [Hg1 Hs1]. fold ss in Hs1.
      assert (0 < gam1 c i ^ N) by (apply pow_lt; lra).
      assert (gam1 c i ^ N <= q ^ N) by (apply pow_incr; split; [lra|apply Hmax; congruence]).
      rewrite !Rabs_pos_eq by nra. nra. }
    assert (Hdpos : 0 < dist1 x y).
    { rewrite S1. assert (0 <= wsum (map Rabs (upd1s c N ss)) (map group_abs d)) as [H|H].
      - apply wsum_nonneg; [apply Forall_map, Forall_forall; intros; apply Rabs_pos|exact HDn].
      - exact H.
      - exfalso. apply Hnz. symmetry in H. apply wsum_zero in H; [|rewrite Hlk; symmetry; apply same_shape_length, Hd|apply Hposk].
        unfold D. clear -H. generalize ss. unfold flat_params in *. clear ss. intros ss. revert ss. induction d as [|g d' IH]; intros [|s ss]; cbn; try ring.
        cbn in H. rewrite concat_app in H. apply Forall_app in H. destruct H as [H1 H2]. rewrite IH by exact H2.
        assert (group_abs g = 0) as ->; [|ring]. unfold group_abs. induction H1 as [|b l -> H1 IH1]; cbn; [ring|].
        rewrite IH1, Rabs_R0. ring. }
    destruct (Hnear y) as [b [Hb Hclose]].
    { unfold y. rewrite move_moved; [apply moved_shape|apply Hlk|exact Hd]. }
    { apply Rle_lt_trans with (1 := Hdist). apply Rmult_lt_reg_r with (/ D); [apply Rinv_0_lt_compat, HD|].
      rewrite Rmult_assoc, Rinv_r, Rmult_1_r by lra. exact HN. }
    exists (S N). apply (gd_loop_reach _ _ _ _ _ _ N); [lia|]. left. fold x d ss. fold y. rewrite Hb, Hfx.
    split; [|eauto]. cbn. apply Rltb_true.
    pose proof (wsum_compare m (upd1s c N ss) d Hm (Hposk N) Hmin) as Hcmp. rewrite <- S1 in Hcmp.
    rewrite S2 in Hclose. assert (- (m / 2 * dist1 x y) <= b - a - - wsum (upd1s c N ss) (map group_sq d) <= m / 2 * dist1 x y)
      by (revert Hclose; apply Rabs_def2_le || (unfold Rabs; destruct (Rcase_abs _); lra)). nra.
Qed.
