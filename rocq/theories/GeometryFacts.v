(** Facts about the geometry of manifolds. *)
From Coq Require Import Reals String List Arith Lia Lra.
From Verif Require Import Py Tensor TensorFacts KernelModel FieldModel SpecKernel SpecField KernelFacts
  FieldFacts FieldLinear GeometryModel SpecGeometry.
Import ListNotations.
Open Scope R_scope.

(** ** Induction over manifold trees *)
Section gman_ind.
  Variable P : gman -> Prop.
  Hypothesis H1 : forall d n g c, P (GLm d n g c).
  Hypothesis H2 : forall tr d n g0 g1 c0 c1, P (GDir tr d n g0 g1 c0 c1).
  Hypothesis H3 : forall d n g0 g1 c0 c1, P (GFrame d n g0 g1 c0 c1).
  Hypothesis H4 : forall d n n' g0 g1 c0 c1 i0 i1, P (GCLm d n n' g0 g1 c0 c1 i0 i1).
  Hypothesis H5 : forall d, P (GEmpty d).
  Hypothesis H6 : forall ms, Forall P ms -> P (GComp ms).
  Fixpoint gman_ind' (m : gman) : P m :=
    match m with
    | GLm d n g c => H1 d n g c
    | GDir tr d n g0 g1 c0 c1 => H2 tr d n g0 g1 c0 c1
    | GFrame d n g0 g1 c0 c1 => H3 d n g0 g1 c0 c1
    | GCLm d n n' g0 g1 c0 c1 i0 i1 => H4 d n n' g0 g1 c0 c1 i0 i1
    | GEmpty d => H5 d
    | GComp ms =>
        H6 ms ((fix go (l : list gman) : Forall P l :=
                  match l with
                  | [] => Forall_nil P
                  | g :: l' => Forall_cons g (gman_ind' g) (go l')
                  end) ms)
    end.
End gman_ind.

Lemma action_comp ms F :
  infinitesimal_action (GComp ms) F =
  (ts <- mapM (fun m => infinitesimal_action m F) ms ;; Ok (TComp ts)).
Proof.
  cbn [infinitesimal_action].
  match goal with |- bind ?A _ = bind ?B _ => replace A with B; [reflexivity|] end.
  induction ms as [|m ms IH]; [reflexivity|]. cbn [mapM]. rewrite IH. reflexivity.
Qed.

Lemma cot_to_vs_comp ms sg b b0 :
  cot_to_vs (GComp ms) sg b b0 =
  (fs <- mapM (fun m => cot_to_vs m sg b b0) ms ;; sum_ctor fs).
Proof.
  cbn [cot_to_vs].
  match goal with |- bind ?A _ = bind ?B _ => replace A with B; [reflexivity|] end.
  induction ms as [|m ms IH]; [reflexivity|]. cbn [mapM]. rewrite IH. reflexivity.
Qed.

Lemma inner_nil F : inner_prod_field (GComp []) F = Ok 0.
Proof. reflexivity. Qed.

Lemma inner_cons m ms F :
  inner_prod_field (GComp (m :: ms)) F =
  (a <- inner_prod_field m F ;; b <- inner_prod_field (GComp ms) F ;; Ok (a + b)).
Proof. reflexivity. Qed.

(** ** Dot products of tensors *)

Lemma tdot2 a b N d : shape a = [N; d] -> shape b = [N; d] ->
  tdot a b = rsum N (fun n => rsum d (fun c => a @2 n c * b @2 n c)).
Proof. intros Ha Hb. rewrite tdot_sum by congruence. rewrite Ha. reflexivity. Qed.

Lemma tdot3 a b N d e : shape a = [N; d; e] -> shape b = [N; d; e] ->
  tdot a b = rsum N (fun n => rsum d (fun c => rsum e (fun c' => a @3 n c c' * b @3 n c c'))).
Proof. intros Ha Hb. rewrite tdot_sum by congruence. rewrite Ha. reflexivity. Qed.

Lemma tdot_col a b N d : shape a = [N; d] -> shape b = [N; d; 1%nat] ->
  tdot a b = rsum N (fun n => rsum d (fun c => a @2 n c * b @3 n c 0%nat)).
Proof.
  intros Ha Hb. unfold tdot. rewrite Ha. cbn [prod fold_right]. rewrite Nat.mul_1_r.
  rewrite rsum_flat. apply rsum_ext. intros n Hn. apply rsum_ext. intros c Hc.
  f_equal.
  - rewrite <- (get_flatten a [n; c]) by (rewrite Ha; cbn; auto). rewrite Ha. cbn [ravel prod fold_right].
    do 2 f_equal. lia.
  - rewrite <- (get_flatten b [n; c; 0%nat]) by (rewrite Hb; cbn; auto). rewrite Hb. cbn [ravel prod fold_right].
    do 2 f_equal. lia.
Qed.

Lemma einsum_dot3 a b N d e : shape a = [N; d; e] -> shape b = [N; d; e] ->
  get (einsum "nij, nij->" [a; b]) [] =
  rsum N (fun n => rsum d (fun i => rsum e (fun j => a @3 n i j * b @3 n i j))).
Proof.
  intros Ha Hb. destruct a as [sa a], b as [sb b]. cbn [shape] in Ha, Hb. subst sa sb.
  unfold einsum. cbn -[rsum].
  apply rsum_ext; intros n _; apply rsum_ext; intros i _; apply rsum_ext; intros j _.
  rewrite Rmult_1_r. reflexivity.
Qed.

Lemma einsum_outer a b N d e : shape a = [N; d; e] -> shape b = [N; d; e] ->
  shape (einsum "nik, njk->nij" [a; b]) = [N; d; d] /\
  forall n i j, (einsum "nik, njk->nij" [a; b]) @3 n i j = rsum e (fun k => a @3 n i k * b @3 n j k).
Proof.
  intros Ha Hb. destruct a as [sa a], b as [sb b]. cbn [shape] in Ha, Hb. subst sa sb.
  split; [reflexivity|].
  intros n i j. unfold einsum. cbn -[rsum]. apply rsum_ext; intros k _. rewrite Rmult_1_r. reflexivity.
Qed.

(** ** Actions and inner products in terms of the answers of the field *)

Lemma assert_axes2_ok t n m r : shape t = n :: m :: r -> assert_axes2 t n m = Ok tt.
Proof.
  intros H. unfold assert_axes2, assert_axis. rewrite H. cbn. rewrite !Nat.eqb_refl. reflexivity.
Qed.

Lemma assert_axis_ok t i n : nth_error (shape t) i = Some n -> assert_axis t i n = Ok tt.
Proof. intros H. unfold assert_axis. rewrite H, Nat.eqb_refl. reflexivity. Qed.

Lemma lm_action_ok d nb gd F t0 : F gd 0%nat = Ok t0 -> shape t0 = [nb; d] ->
  lm_action d nb gd F = Ok t0.
Proof. intros E S. unfold lm_action. rewrite E. cbn [bind]. rewrite (assert_axes2_ok _ _ _ [] S). reflexivity. Qed.

Lemma lm_inner_ok d nb gd cot F t0 : F gd 0%nat = Ok t0 -> shape t0 = [nb; d] -> shape cot = [nb; d] ->
  lm_inner d nb gd cot F = Ok (rsum nb (fun n => rsum d (fun a => cot @2 n a * t0 @2 n a))).
Proof.
  intros E S Sc. unfold lm_inner. rewrite (lm_action_ok d nb gd F t0 E S). cbn [bind].
  rewrite (tdot2 _ _ nb d) by assumption. reflexivity.
Qed.

Definition dir_tan (tr : transport) (d nb : nat) (t1 gd1 : tensor) : tensor :=
  match tr with
  | Vector => bmm t1 (unsqueeze2 gd1)
  | Orthogonal => topp (bmm (transpose 1 2 t1) (unsqueeze2 gd1))
  end.

Definition dir_vel (tr : transport) (d : nat) (t1 gd1 : tensor) (n a : nat) : R :=
  match tr with
  | Vector => rsum d (fun l => t1 @3 n a l * gd1 @2 n l)
  | Orthogonal => - rsum d (fun l => t1 @3 n l a * gd1 @2 n l)
  end.

Lemma dir_tan_shape tr d nb t1 gd1 : shape t1 = [nb; d; d] -> shape gd1 = [nb; d] ->
  shape (dir_tan tr d nb t1 gd1) = [nb; d; 1%nat].
Proof. intros H1 H2. destruct tr; cbn; rewrite H1; reflexivity. Qed.

Lemma dir_tan_get tr d nb t1 gd1 n a : shape t1 = [nb; d; d] -> shape gd1 = [nb; d] ->
  (dir_tan tr d nb t1 gd1) @3 n a 0%nat = dir_vel tr d t1 gd1 n a.
Proof.
  intros H1 H2. destruct tr; cbn; rewrite H1; reflexivity.
Qed.

Lemma dir_action_ok tr d nb gd0 gd1 F t0 t1 :
  F gd0 0%nat = Ok t0 -> F gd0 1%nat = Ok t1 -> shape t0 = [nb; d] -> shape t1 = [nb; d; d] ->
  shape gd1 = [nb; d] ->
  dir_action tr d nb gd0 gd1 F = Ok (t0, dir_tan tr d nb t1 gd1).
Proof.
  intros E0 E1 S0 S1 Sg. unfold dir_action. rewrite E0, E1. cbn [bind].
  rewrite (assert_axes2_ok _ _ _ [] S0). cbn [bind].
  change (match tr with
          | Vector => bmm t1 (unsqueeze2 gd1)
          | Orthogonal => topp (bmm (transpose 1 2 t1) (unsqueeze2 gd1))
          end) with (dir_tan tr d nb t1 gd1).
  rewrite (assert_axes2_ok _ _ _ [1%nat] (dir_tan_shape tr d nb t1 gd1 S1 Sg)). reflexivity.
Qed.

Definition frame_vel (d : nat) (t1 gd1 : tensor) (n i j : nat) : R :=
  rsum d (fun k => (t1 @3 n i k - t1 @3 n k i) / 2 * gd1 @3 n k j).

Definition frame_tan (t1 gd1 : tensor) : tensor :=
  bmm (tscal (1 / 2) (tsub t1 (transpose 1 2 t1))) gd1.

Lemma frame_tan_shape d nb t1 gd1 : shape t1 = [nb; d; d] -> shape gd1 = [nb; d; d] ->
  shape (frame_tan t1 gd1) = [nb; d; d].
Proof. intros H1 H2. cbn. rewrite H1, H2. reflexivity. Qed.

Lemma frame_tan_get d nb t1 gd1 n i j : shape t1 = [nb; d; d] -> shape gd1 = [nb; d; d] ->
  (frame_tan t1 gd1) @3 n i j = frame_vel d t1 gd1 n i j.
Proof.
  intros H1 H2. cbn. rewrite H1. cbn. unfold frame_vel. apply rsum_ext. intros k Hk. lra.
Qed.

Lemma frame_action_ok d nb gd0 gd1 F t0 t1 :
  F gd0 0%nat = Ok t0 -> F gd0 1%nat = Ok t1 -> shape t0 = [nb; d] -> shape t1 = [nb; d; d] ->
  shape gd1 = [nb; d; d] ->
  frame_action d nb gd0 gd1 F = Ok (t0, frame_tan t1 gd1).
Proof.
  intros E0 E1 S0 S1 Sg. unfold frame_action. rewrite E0, E1. cbn [bind].
  rewrite (assert_axes2_ok _ _ _ [] S0). cbn [bind].
  change (bmm (tscal (1 / 2) (tsub t1 (transpose 1 2 t1))) gd1) with (frame_tan t1 gd1).
  pose proof (frame_tan_shape d nb t1 gd1 S1 Sg) as HS.
  rewrite (assert_axes2_ok _ _ _ [d] HS). cbn [bind].
  rewrite (assert_axis_ok _ 2 d) by (rewrite HS; reflexivity). reflexivity.
Qed.

Definition pts_pair (d nb : nat) (cot t0 : tensor) : R :=
  rsum nb (fun n => rsum d (fun a => cot @2 n a * t0 @2 n a)).

Lemma dir_inner_ok tr d nb gd0 gd1 c0 c1 F t0 t1 :
  F gd0 0%nat = Ok t0 -> F gd0 1%nat = Ok t1 -> shape t0 = [nb; d] -> shape t1 = [nb; d; d] ->
  shape gd1 = [nb; d] -> shape c0 = [nb; d] -> shape c1 = [nb; d] ->
  inner_prod_field (GDir tr d nb gd0 gd1 c0 c1) F =
  Ok (pts_pair d nb c0 t0 +
      rsum nb (fun n => rsum d (fun a => c1 @2 n a * dir_vel tr d t1 gd1 n a))).
Proof.
  intros E0 E1 S0 S1 Sg Sc0 Sc1. cbn [inner_prod_field].
  rewrite (dir_action_ok tr d nb gd0 gd1 F t0 t1) by assumption. cbn [bind fst snd].
  rewrite (tdot2 _ _ nb d) by assumption.
  rewrite (tdot_col _ _ nb d) by (try assumption; apply dir_tan_shape; assumption).
  do 2 f_equal. apply rsum_ext. intros n _. apply rsum_ext. intros a _.
  rewrite (dir_tan_get tr d nb) by assumption. reflexivity.
Qed.

Lemma frame_inner_ok d nb gd0 gd1 c0 c1 F t0 t1 :
  F gd0 0%nat = Ok t0 -> F gd0 1%nat = Ok t1 -> shape t0 = [nb; d] -> shape t1 = [nb; d; d] ->
  shape gd1 = [nb; d; d] -> shape c0 = [nb; d] -> shape c1 = [nb; d; d] ->
  inner_prod_field (GFrame d nb gd0 gd1 c0 c1) F =
  Ok (pts_pair d nb c0 t0 +
      rsum nb (fun n => rsum d (fun i => rsum d (fun j => c1 @3 n i j * frame_vel d t1 gd1 n i j)))).
Proof.
  intros E0 E1 S0 S1 Sg Sc0 Sc1. cbn [inner_prod_field].
  rewrite (frame_action_ok d nb gd0 gd1 F t0 t1) by assumption. cbn [bind fst snd].
  rewrite (tdot2 _ _ nb d) by assumption.
  rewrite (einsum_dot3 _ _ nb d d) by (try assumption; apply frame_tan_shape; assumption).
  do 2 f_equal. apply rsum_ext. intros n _. apply rsum_ext. intros i _. apply rsum_ext. intros j _.
  rewrite (frame_tan_get d nb) by assumption. reflexivity.
Qed.

(** ** C16: inner product = cotangent times action *)

Lemma inner_is_tree_dot d m F :
  wf_gman d m -> answers d F ->
  exists t, infinitesimal_action m F = Ok t /\ inner_prod_field m F = Ok (tree_dot (cotans m) t).
Proof.
  intros W HF. revert W.
  induction m as [dim nb gd c|tr dim nb gd0 gd1 c0 c1|dim nb gd0 gd1 c0 c1|dim n0 n1 gd0 gd1 c0 c1 i0 i1|dim|ms IH]
    using gman_ind'; cbn [wf_gman]; intros W.
  - destruct W as (-> & Sg & Sc). destruct (HF gd nb Sg) as ((t0 & E0 & S0) & _).
    exists (TLm t0). cbn [infinitesimal_action inner_prod_field cotans tree_dot].
    unfold lm_inner. rewrite (lm_action_ok d nb gd F t0) by assumption. auto.
  - destruct W as (-> & Sg0 & Sg1 & Sc0 & Sc1).
    destruct (HF gd0 nb Sg0) as ((t0 & E0 & S0) & (t1 & E1 & S1)).
    eexists. cbn [infinitesimal_action inner_prod_field cotans].
    rewrite (dir_action_ok tr d nb gd0 gd1 F t0 t1) by assumption. cbn [bind fst snd]. split; reflexivity.
  - destruct W as (-> & Sg0 & Sg1 & Sc0 & Sc1).
    destruct (HF gd0 nb Sg0) as ((t0 & E0 & S0) & (t1 & E1 & S1)).
    eexists. cbn [infinitesimal_action inner_prod_field cotans].
    rewrite (frame_action_ok d nb gd0 gd1 F t0 t1) by assumption. cbn [bind fst snd]. split; [reflexivity|].
    cbn [tree_dot]. do 2 f_equal.
    rewrite (einsum_dot3 _ _ nb d d), (tdot3 _ _ nb d d) by (try assumption; apply frame_tan_shape; assumption).
    reflexivity.
  - destruct W.
  - exists TEmpty. split; reflexivity.
  - apply fr_and in W. rewrite action_comp.
    assert (H : exists ts, mapM (fun m => infinitesimal_action m F) ms = Ok ts /\
                inner_prod_field (GComp ms) F = Ok (tree_dot (TComp (map cotans ms)) (TComp ts))).
    { clear HF. induction IH as [|m ms Hm _ IHm].
      - exists []. split; reflexivity.
      - inversion W as [|? ? Wm Wms]; subst.
        destruct (Hm Wm) as (t & Et & Ei). destruct (IHm Wms) as (ts & Ets & Eis).
        exists (t :: ts). cbn [mapM]. rewrite Et. cbn [bind]. rewrite Ets. cbn [bind]. split; [reflexivity|].
        rewrite inner_cons, Ei, Eis. reflexivity. }
    destruct H as (ts & Ets & Ei). rewrite Ets. cbn [bind]. exists (TComp ts). split; [reflexivity|]. exact Ei.
Qed.

(** ** C16: the pairing formula *)

Lemma inner_pairing d m F v D :
  wf_gman d m ->
  (forall p N, shape p = [N; d] -> exists t, F p 0%nat = Ok t /\ shape t = [N; d] /\
     forall n a, (n < N)%nat -> (a < d)%nat -> t @2 n a = v (vrow p n) a) ->
  (needs_jac m -> forall p N, shape p = [N; d] -> exists t, F p 1%nat = Ok t /\ shape t = [N; d; d] /\
     forall n a l, (n < N)%nat -> (a < d)%nat -> (l < d)%nat -> t @3 n a l = D (vrow p n) a l) ->
  inner_prod_field m F = Ok (pairing d m v D).
Proof.
  intros W HF0 HF1. revert W HF1.
  induction m as [dim nb gd c|tr dim nb gd0 gd1 c0 c1|dim nb gd0 gd1 c0 c1|dim n0 n1 gd0 gd1 c0 c1 i0 i1|dim|ms IH]
    using gman_ind'; cbn [wf_gman needs_jac]; intros W HF1.
  - destruct W as (-> & Sg & Sc). destruct (HF0 gd nb Sg) as (t0 & E0 & S0 & G0).
    cbn [inner_prod_field pairing]. rewrite (lm_inner_ok d nb gd c F t0) by assumption.
    f_equal. apply rsum_ext. intros n Hn. apply rsum_ext. intros a Ha. rewrite G0 by assumption. reflexivity.
  - destruct W as (-> & Sg0 & Sg1 & Sc0 & Sc1).
    destruct (HF0 gd0 nb Sg0) as (t0 & E0 & S0 & G0).
    destruct (HF1 I gd0 nb Sg0) as (t1 & E1 & S1 & G1).
    rewrite (dir_inner_ok tr d nb gd0 gd1 c0 c1 F t0 t1) by assumption.
    destruct tr; cbn [pairing dir_vel]; f_equal; f_equal;
      try (apply rsum_ext; intros n Hn; apply rsum_ext; intros a Ha; rewrite G0 by assumption; reflexivity);
      apply rsum_ext; intros n Hn; apply rsum_ext; intros a Ha; f_equal;
      first [apply rsum_ext|apply Ropp_eq_compat; apply rsum_ext]; intros l Hl; rewrite G1 by assumption; reflexivity.
  - destruct W as (-> & Sg0 & Sg1 & Sc0 & Sc1).
    destruct (HF0 gd0 nb Sg0) as (t0 & E0 & S0 & G0).
    destruct (HF1 I gd0 nb Sg0) as (t1 & E1 & S1 & G1).
    rewrite (frame_inner_ok d nb gd0 gd1 c0 c1 F t0 t1) by assumption.
    cbn [pairing]. unfold frame_vel. f_equal. f_equal.
    + apply rsum_ext; intros n Hn; apply rsum_ext; intros a Ha; rewrite G0 by assumption; reflexivity.
    + apply rsum_ext; intros n Hn; apply rsum_ext; intros i Hi; apply rsum_ext; intros j Hj. f_equal.
      apply rsum_ext. intros k Hk. rewrite !G1 by assumption. reflexivity.
  - destruct W.
  - reflexivity.
  - apply fr_and in W. cbn [pairing].
    induction IH as [|m ms Hm _ IHm]; [reflexivity|].
    inversion W as [|? ? Wm Wms]; subst. rewrite inner_cons. cbn [fold_right].
    rewrite (Hm Wm) by (intros HJ; apply HF1; cbn; auto).
    rewrite (IHm Wms) by (intros HJ; apply HF1; cbn; auto). reflexivity.
Qed.

Lemma inner_pairing_field d m f :
  wf_gman d m -> wf_field d f -> has0 f -> (needs_jac m -> has1 f) ->
  inner_prod_field m (feval f) = Ok (pairing d m (fval d f) (fjac d f)).
Proof.
  intros W Wf H0 H1. apply inner_pairing; [assumption| |].
  - intros p N Sp. destruct (feval_0 d f p N Wf H0 Sp) as (t & E & S & G).
    exists t. split; [assumption|]. split; [assumption|]. intros n a Hn Ha. rewrite G by (cbn; auto). reflexivity.
  - intros HJ p N Sp. destruct (feval_1 d f p N Wf (H1 HJ) Sp) as (t & E & S & G).
    exists t. split; [assumption|]. split; [assumption|]. intros n a l Hn Ha Hl. rewrite G by (cbn; auto). reflexivity.
Qed.

(** ** C16: linearity *)

Lemma pts_pair_lin d nb c f g h a b :
  shape f = [nb; d] -> (forall idx, valid (shape f) idx -> get h idx = a * get f idx + b * get g idx) ->
  pts_pair d nb c h = a * pts_pair d nb c f + b * pts_pair d nb c g.
Proof.
  intros S H. unfold pts_pair. rewrite <- !rsum_scal, <- rsum_plus. apply rsum_ext. intros n Hn.
  rewrite <- !rsum_scal, <- rsum_plus. apply rsum_ext. intros i Hi.
  rewrite H by (rewrite S; cbn; auto). ring.
Qed.

Lemma dir_vel_lin tr d nb u f g h a b n i :
  shape f = [nb; d; d] -> (n < nb)%nat -> (i < d)%nat ->
  (forall idx, valid (shape f) idx -> get h idx = a * get f idx + b * get g idx) ->
  dir_vel tr d h u n i = a * dir_vel tr d f u n i + b * dir_vel tr d g u n i.
Proof.
  intros S Hn Hi H. destruct tr; cbn [dir_vel].
  - rewrite <- !rsum_scal, <- rsum_plus. apply rsum_ext. intros l Hl. rewrite H by (rewrite S; cbn; auto). ring.
  - rewrite <- !rsum_opp, <- !rsum_scal, <- rsum_plus. apply rsum_ext. intros l Hl.
    rewrite H by (rewrite S; cbn; auto). ring.
Qed.

Lemma frame_vel_lin d nb r f g h a b n i j :
  shape f = [nb; d; d] -> (n < nb)%nat -> (i < d)%nat -> (j < d)%nat ->
  (forall idx, valid (shape f) idx -> get h idx = a * get f idx + b * get g idx) ->
  frame_vel d h r n i j = a * frame_vel d f r n i j + b * frame_vel d g r n i j.
Proof.
  intros S Hn Hi Hj H. unfold frame_vel.
  rewrite <- !rsum_scal, <- rsum_plus. apply rsum_ext. intros l Hl. rewrite !H by (rewrite S; cbn; auto). field.
Qed.

Lemma inner_linear d m F G H a b :
  wf_gman d m -> is_lincomb d a b F G H ->
  exists x y, inner_prod_field m F = Ok x /\ inner_prod_field m G = Ok y /\
    inner_prod_field m H = Ok (a * x + b * y).
Proof.
  intros W HL. revert W.
  induction m as [dim nb gd c|tr dim nb gd0 gd1 c0 c1|dim nb gd0 gd1 c0 c1|dim n0 n1 gd0 gd1 c0 c1 i0 i1|dim|ms IH]
    using gman_ind'; cbn [wf_gman]; intros W.
  - destruct W as (-> & Sg & Sc).
    destruct (HL gd nb 0%nat Sg ltac:(lia)) as (f & g & h & Ef & Eg & Eh & Sf & Sg' & Sh & L).
    cbn in Sf. cbn [inner_prod_field].
    rewrite (lm_inner_ok d nb gd c F f), (lm_inner_ok d nb gd c G g), (lm_inner_ok d nb gd c H h) by congruence.
    do 2 eexists. split; [reflexivity|]. split; [reflexivity|]. f_equal.
    apply (pts_pair_lin d nb c f g h a b); assumption.
  - destruct W as (-> & Sg0 & Sg1 & Sc0 & Sc1).
    destruct (HL gd0 nb 0%nat Sg0 ltac:(lia)) as (f & g & h & Ef & Eg & Eh & Sf & Sg' & Sh & L).
    destruct (HL gd0 nb 1%nat Sg0 ltac:(lia)) as (f1 & g1 & h1 & Ef1 & Eg1 & Eh1 & Sf1 & Sg1' & Sh1 & L1).
    cbn in Sf, Sf1.
    rewrite (dir_inner_ok tr d nb gd0 gd1 c0 c1 F f f1), (dir_inner_ok tr d nb gd0 gd1 c0 c1 G g g1),
      (dir_inner_ok tr d nb gd0 gd1 c0 c1 H h h1) by congruence.
    do 2 eexists. split; [reflexivity|]. split; [reflexivity|]. f_equal.
    rewrite (pts_pair_lin d nb c0 f g h a b) by assumption.
    match goal with |- _ + ?X = a * (_ + ?Y) + b * (_ + ?Z) => assert (E : X = a * Y + b * Z) end.
    { rewrite <- !rsum_scal, <- rsum_plus. apply rsum_ext. intros n Hn.
      rewrite <- !rsum_scal, <- rsum_plus. apply rsum_ext. intros i Hi.
      rewrite (dir_vel_lin tr d nb gd1 f1 g1 h1 a b) by assumption. ring. }
    rewrite E. ring.
  - destruct W as (-> & Sg0 & Sg1 & Sc0 & Sc1).
    destruct (HL gd0 nb 0%nat Sg0 ltac:(lia)) as (f & g & h & Ef & Eg & Eh & Sf & Sg' & Sh & L).
    destruct (HL gd0 nb 1%nat Sg0 ltac:(lia)) as (f1 & g1 & h1 & Ef1 & Eg1 & Eh1 & Sf1 & Sg1' & Sh1 & L1).
    cbn in Sf, Sf1.
    rewrite (frame_inner_ok d nb gd0 gd1 c0 c1 F f f1), (frame_inner_ok d nb gd0 gd1 c0 c1 G g g1),
      (frame_inner_ok d nb gd0 gd1 c0 c1 H h h1) by congruence.
    do 2 eexists. split; [reflexivity|]. split; [reflexivity|]. f_equal.
    rewrite (pts_pair_lin d nb c0 f g h a b) by assumption.
    match goal with |- _ + ?X = a * (_ + ?Y) + b * (_ + ?Z) => assert (E : X = a * Y + b * Z) end.
    { rewrite <- !rsum_scal, <- rsum_plus. apply rsum_ext. intros n Hn.
      rewrite <- !rsum_scal, <- rsum_plus. apply rsum_ext. intros i Hi.
      rewrite <- !rsum_scal, <- rsum_plus. apply rsum_ext. intros j Hj.
      rewrite (frame_vel_lin d nb gd1 f1 g1 h1 a b) by assumption. ring. }
    rewrite E. ring.
  - destruct W.
  - exists 0, 0. repeat split. cbn. f_equal. ring.
  - apply fr_and in W. induction IH as [|m ms Hm _ IHm].
    + exists 0, 0. repeat split. cbn. f_equal. ring.
    + inversion W as [|? ? Wm Wms]; subst.
      destruct (Hm Wm) as (x & y & Ex & Ey & Exy). destruct (IHm Wms) as (x' & y' & Ex' & Ey' & Exy').
      exists (x + x'), (y + y'). rewrite !inner_cons, Ex, Ey, Exy, Ex', Ey', Exy'. cbn [bind].
      split; [reflexivity|]. split; [reflexivity|]. f_equal. ring.
Qed.

Lemma pairing_zero d m v D :
  (forall p a, v p a = 0) -> (forall p a l, D p a l = 0) -> pairing d m v D = 0.
Proof.
  intros Hv HD.
  assert (Hp : forall nb gd cot, rsum nb (fun n => rsum d (fun a => cot @2 n a * v (vrow gd n) a)) = 0).
  { intros. apply rsum_zero. intros n _. apply rsum_zero. intros a _. rewrite Hv. ring. }
  induction m as [dim nb gd c|tr dim nb gd0 gd1 c0 c1|dim nb gd0 gd1 c0 c1|dim n0 n1 gd0 gd1 c0 c1 i0 i1|dim|ms IH]
    using gman_ind'; cbn [pairing].
  - apply Hp.
  - destruct tr; rewrite Hp, Rplus_0_l; apply rsum_zero; intros n _; apply rsum_zero; intros a _;
      rewrite rsum_zero; try ring; intros l _; rewrite HD; ring.
  - rewrite Hp, Rplus_0_l. apply rsum_zero; intros n _; apply rsum_zero; intros a _; apply rsum_zero; intros j _.
    rewrite rsum_zero; [ring|]. intros l _. rewrite !HD. field.
  - reflexivity.
  - reflexivity.
  - induction IH as [|m ms Hm _ IHm]; cbn [fold_right]; [reflexivity|]. rewrite Hm, IHm. ring.
Qed.

Lemma inner_null d m : wf_gman d m -> inner_prod_field m (feval (SF_null d)) = Ok 0.
Proof.
  intros W. rewrite (inner_pairing_field d m (SF_null d)) by (cbn; auto).
  f_equal. apply pairing_zero; reflexivity.
Qed.

Lemma inner_comp ms F rs :
  Forall2 (fun m r => inner_prod_field m F = Ok r) ms rs ->
  inner_prod_field (GComp ms) F = Ok (fold_right Rplus 0 rs).
Proof.
  induction 1 as [|m r ms rs H _ IH]; [reflexivity|]. rewrite inner_cons, H, IH. reflexivity.
Qed.

(** ** C15: duality with the kernel fields *)

Lemma cot_to_vs_wf d m sg b b0 :
  wf_gman d m -> no_empty_comp m -> sg <> 0 ->
  exists vs, cot_to_vs m sg b b0 = Ok vs /\ wf_field d vs /\ has0 vs /\ fdim vs = d /\
    (~ has_dir m -> has1 vs) /\
    forall y, pairing d m (fun x a => gaussian d sg (vsub x (fst y)) * snd y a)
                          (fun x a l => dgauss d sg (vsub x (fst y)) l * snd y a)
            = rsum d (fun a => snd y a * fval d vs (fst y) a).
Proof.
  intros W NE Hsg. revert W NE.
  induction m as [dim nb gd c|tr dim nb gd0 gd1 c0 c1|dim nb gd0 gd1 c0 c1|dim n0 n1 gd0 gd1 c0 c1 i0 i1|dim|ms IH]
    using gman_ind'; cbn [wf_gman no_empty_comp]; intros W NE.
  - destruct W as (-> & Sg & Sc). eexists. split; [reflexivity|].
    split; [cbn; split; [assumption|]; exists nb; auto|]. split; [exact I|].
    split; [unfold fdim, ncols; rewrite Sg; reflexivity|]. split; [intros; exact I|].
    intros [y m]. cbn [pairing fval fst snd]. unfold nrows; rewrite Sg; cbn [tnth nth].
    rewrite rsum_swap. apply rsum_ext. intros a Ha.
    rewrite <- rsum_scal. apply rsum_ext. intros n Hn. rewrite gaussian_vsub_sym. ring.
  - destruct W as (-> & Sg0 & Sg1 & Sc0 & Sc1). cbn [cot_to_vs].
    set (vu := match tr with Vector => SF_0_u b0 gd0 c1 gd1 sg | Orthogonal => SF_0_u b0 gd0 (topp gd1) c1 sg end).
    assert (Hfd : fdim vu = d) by (unfold vu; destruct tr; unfold fdim, ncols; rewrite Sg0; reflexivity).
    unfold sum_ctor. cbn [forallb]. rewrite Hfd.
    assert (Hfd0 : fdim (SF_0 b gd0 c0 sg) = d) by (unfold fdim, ncols; rewrite Sg0; reflexivity).
    rewrite Hfd0, Nat.eqb_refl. cbn [andb].
    eexists. split; [reflexivity|].
    assert (Wu : wf_field d vu) by
      (unfold vu; destruct tr; cbn; split; try assumption; exists nb; auto).
    split; [cbn [wf_field fold_right]; split; [discriminate|]; split; [cbn; split; [assumption|]; exists nb; auto|split; [exact Wu|exact I]]|].
    split; [unfold vu; destruct tr; cbn; auto|].
    split; [exact Hfd0|]. split; [cbn [has_dir]; tauto|].
    intros [y m]. cbn [fst snd].
    transitivity (rsum d (fun a => m a * fval d (SF_0 b gd0 c0 sg) y a) + rsum d (fun a => m a * fval d vu y a)).
    2:{ rewrite <- rsum_plus. apply rsum_ext. intros a _. cbn [fval fold_right]. ring. }
    unfold vu. destruct tr; cbn [pairing fval]; unfold nrows; rewrite Sg0; cbn [tnth nth]; f_equal.
    + rewrite rsum_swap. apply rsum_ext. intros a Ha.
      rewrite <- rsum_scal. apply rsum_ext. intros n Hn. rewrite gaussian_vsub_sym. ring.
    + rewrite rsum_swap. apply rsum_ext. intros a Ha.
      rewrite <- rsum_scal. apply rsum_ext. intros n Hn.
      rewrite <- rsum_scal_r, <- !rsum_scal. apply rsum_ext. intros l Hl.
      rewrite (dgauss_vsub_odd d sg y). ring.
    + rewrite rsum_swap. apply rsum_ext. intros a Ha.
      rewrite <- rsum_scal. apply rsum_ext. intros n Hn. rewrite gaussian_vsub_sym. ring.
    + transitivity (rsum nb (fun n => rsum d (fun l => rsum d (fun a =>
         - (c1 @2 n a * (dgauss d sg (vsub (vrow gd0 n) y) a * m l) * gd1 @2 n l))))).
      { apply rsum_ext. intros n Hn. rewrite rsum_swap. apply rsum_ext. intros a Ha.
        rewrite <- rsum_opp, <- rsum_scal. apply rsum_ext. intros l Hl. ring. }
      rewrite rsum_swap. apply rsum_ext. intros l Hl. rewrite <- rsum_scal. apply rsum_ext. intros n Hn.
      rewrite <- rsum_scal_r, <- rsum_scal. apply rsum_ext. intros a Ha.
      cbn [topp tmap get]. rewrite (dgauss_vsub_odd d sg y). ring.
  - destruct W as (-> & Sg0 & Sg1 & Sc0 & Sc1). cbn [cot_to_vs].
    destruct (einsum_outer c1 gd1 nb d d Sc1 Sg1) as (SR & GR).
    set (Rm := einsum "nik, njk->nij" [c1; gd1]) in *.
    assert (Hfd : forall X s m, shape s = [nb; d] -> (X = SF_0 b s m sg \/ X = SF_m b s m sg) -> fdim X = d)
      by (intros X s m Hs [->| ->]; unfold fdim, ncols; rewrite Hs; reflexivity).
    unfold sum_ctor. cbn [forallb].
    rewrite (Hfd (SF_0 b gd0 c0 sg) gd0 c0) by auto. rewrite (Hfd (SF_m b gd0 Rm sg) gd0 Rm) by auto.
    rewrite Nat.eqb_refl. cbn [andb].
    eexists. split; [reflexivity|].
    split; [cbn [wf_field fold_right]; split; [discriminate|]; split; [split; [assumption|]; exists nb; auto|
            split; [split; [assumption|]; exists nb; auto|exact I]]|].
    split; [cbn; auto|]. split; [apply (Hfd (SF_0 b gd0 c0 sg) gd0 c0); auto|]. split; [cbn; auto|].
    intros [y m]. cbn [fst snd].
    transitivity (rsum d (fun a => m a * fval d (SF_0 b gd0 c0 sg) y a) + rsum d (fun a => m a * fval d (SF_m b gd0 Rm sg) y a)).
    2:{ rewrite <- rsum_plus. apply rsum_ext. intros a _. cbn [fval fold_right]. ring. }
    cbn [pairing fval]. unfold nrows; rewrite Sg0; cbn [tnth nth]. f_equal.
    + rewrite rsum_swap. apply rsum_ext. intros a Ha.
      rewrite <- rsum_scal. apply rsum_ext. intros n Hn. rewrite gaussian_vsub_sym. ring.
    + set (g := fun n l => dgauss d sg (vsub (vrow gd0 n) y) l).
      transitivity (rsum nb (fun n => rsum d (fun a => rsum d (fun c =>
         m a * (skewP Rm n a c * g n c))))).
      { apply rsum_ext. intros n Hn.
        (* sum_ij c_ij sum_k (D_ik - D_ki)/2 r_kj = sum_ik R_ik (D_ik - D_ki)/2 *)
        transitivity (rsum d (fun i => rsum d (fun k => Rm @3 n i k * ((g n k * m i - g n i * m k) / 2)))).
        { apply rsum_ext. intros i Hi. 
          transitivity (rsum d (fun j => rsum d (fun k => (g n k * m i - g n i * m k) / 2 * (c1 @3 n i j * gd1 @3 n k j)))).
          { apply rsum_ext. intros j Hj. rewrite <- rsum_scal. apply rsum_ext. intros k Hk. unfold g. ring. }
          rewrite rsum_swap. apply rsum_ext. intros k Hk. rewrite rsum_scal, <- GR. ring. }
        transitivity (rsum d (fun i => rsum d (fun k => m i * (Rm @3 n i k / 2 * g n k))) -
                      rsum d (fun i => rsum d (fun k => m k * (Rm @3 n i k / 2 * g n i)))).
        { rewrite <- rsum_minus. apply rsum_ext. intros i Hi. rewrite <- rsum_minus. apply rsum_ext. intros k Hk. field. }
        rewrite (rsum_swap d d (fun i k => m k * (Rm @3 n i k / 2 * g n i))).
        rewrite <- rsum_minus. apply rsum_ext. intros i Hi. rewrite <- rsum_minus. apply rsum_ext. intros k Hk.
        unfold skewP. field. }
      rewrite rsum_swap. apply rsum_ext. intros a Ha. rewrite <- rsum_scal. apply rsum_ext. intros n Hn.
      rewrite <- rsum_scal. apply rsum_ext. intros c Hc. unfold g. rewrite (dgauss_vsub_odd d sg y). ring.
  - destruct W.
  - subst dim. eexists. split; [reflexivity|]. cbn. repeat split. intros y.
    symmetry. apply rsum_zero. intros; ring.
  - destruct NE as (Hne & NE). apply fr_and in W. apply fr_and in NE. rewrite cot_to_vs_comp.
    assert (H : exists vs, mapM (fun m => cot_to_vs m sg b b0) ms = Ok vs /\
      length vs = length ms /\
      Forall (wf_field d) vs /\ Forall has0 vs /\ Forall (fun v => fdim v = d) vs /\
      (~ has_dir (GComp ms) -> Forall has1 vs) /\
      forall y, pairing d (GComp ms) (fun x a => gaussian d sg (vsub x (fst y)) * snd y a)
                          (fun x a l => dgauss d sg (vsub x (fst y)) l * snd y a)
            = rsum d (fun a => snd y a * fold_right (fun g acc => fval d g (fst y) a + acc) 0 vs)).
    { clear Hne. induction IH as [|m ms Hm _ IHm].
      - exists []. repeat split; try constructor. intros y. cbn [pairing fold_right]. symmetry. apply rsum_zero. intros; ring.
      - inversion W as [|? ? Wm Wms]; subst. inversion NE as [|? ? Nm Nms]; subst.
        destruct (Hm Wm Nm) as (v & Ev & Wv & Zv & Dv & Jv & Pv).
        destruct (IHm Wms Nms) as (vs & Evs & Lvs & Wvs & Zvs & Dvs & Jvs & Pvs).
        exists (v :: vs). cbn [mapM]. rewrite Ev. cbn [bind]. rewrite Evs. cbn [bind].
        split; [reflexivity|]. split; [cbn; lia|]. split; [constructor; assumption|].
        split; [constructor; assumption|]. split; [constructor; assumption|].
        split; [cbn [has_dir fold_right]; intros HD; constructor; [apply Jv; tauto|apply Jvs; cbn [has_dir]; tauto]|].
        intros y. specialize (Pvs y). cbn [pairing] in Pvs. cbn [pairing fold_right]. rewrite Pv, Pvs, <- rsum_plus.
        apply rsum_ext. intros a Ha. ring. }
    destruct H as (vs & Evs & Lvs & Wvs & Zvs & Dvs & Jvs & Pvs). rewrite Evs. cbn [bind].
    destruct vs as [|v vs]; [destruct ms; [congruence|discriminate]|].
    inversion Dvs as [|? ? Dv Dvs']; subst.
    unfold sum_ctor. replace (forallb _ vs) with true.
    2:{ symmetry. apply forallb_forall. intros g Hg. rewrite Forall_forall in Dvs'. apply Nat.eqb_eq. auto. }
    eexists. split; [reflexivity|].
    split; [cbn [wf_field]; split; [discriminate|apply fr_and; assumption]|].
    split; [cbn [has0]; apply fr_and; assumption|]. split; [reflexivity|].
    split; [intros HD; cbn [has1]; apply fr_and; auto|].
    intros y. rewrite Pvs. reflexivity.
Qed.

Lemma pairing_rsum d m M v D :
  pairing d m (fun x a => rsum M (fun j => v j x a)) (fun x a l => rsum M (fun j => D j x a l)) =
  rsum M (fun j => pairing d m (v j) (D j)).
Proof.
  assert (Hp : forall nb gd cot, rsum nb (fun n => rsum d (fun a => cot @2 n a * rsum M (fun j => v j (vrow gd n) a))) =
             rsum M (fun j => rsum nb (fun n => rsum d (fun a => cot @2 n a * v j (vrow gd n) a)))).
  { intros. rewrite (rsum_swap M nb). apply rsum_ext. intros n _. rewrite (rsum_swap M d). apply rsum_ext. intros a _.
    rewrite <- rsum_scal. reflexivity. }
  induction m as [dim nb gd c|tr dim nb gd0 gd1 c0 c1|dim nb gd0 gd1 c0 c1|dim n0 n1 gd0 gd1 c0 c1 i0 i1|dim|ms IH]
    using gman_ind'; cbn [pairing].
  - apply Hp.
  - destruct tr; rewrite Hp, rsum_plus; f_equal; rewrite (rsum_swap M nb); apply rsum_ext; intros n _;
      rewrite (rsum_swap M d); apply rsum_ext; intros a _.
    + rewrite rsum_scal. f_equal. rewrite (rsum_swap M d). apply rsum_ext. intros l _. rewrite <- rsum_scal_r. reflexivity.
    + rewrite rsum_scal, rsum_opp. do 2 f_equal. rewrite (rsum_swap M d). apply rsum_ext. intros l _. rewrite <- rsum_scal_r. reflexivity.
  - rewrite Hp, rsum_plus; f_equal; rewrite (rsum_swap M nb); apply rsum_ext; intros n _.
    rewrite (rsum_swap M d); apply rsum_ext; intros i _. rewrite (rsum_swap M d); apply rsum_ext; intros j _.
    rewrite rsum_scal. f_equal. rewrite (rsum_swap M d). apply rsum_ext. intros l _.
    rewrite rsum_scal_r, rsum_div, rsum_minus. reflexivity.
  - symmetry. apply rsum_zero. reflexivity.
  - symmetry. apply rsum_zero. reflexivity.
  - induction IH as [|m ms Hm _ IHm]; cbn [fold_right]; [symmetry; apply rsum_zero; reflexivity|].
    rewrite Hm, IHm, rsum_plus. reflexivity.
Qed.

Lemma duality d m sg b b0 bf y mom M :
  wf_gman d m -> no_empty_comp m -> sg <> 0 -> shape y = [M; d] -> shape mom = [M; d] ->
  exists vs V, cot_to_vs m sg b b0 = Ok vs /\ feval vs y 0%nat = Ok V /\ shape V = [M; d] /\
    inner_prod_field m (feval (SF_0 bf y mom sg)) =
    Ok (rsum M (fun j => rsum d (fun a => mom @2 j a * V @2 j a))).
Proof.
  intros W NE Hsg Sy Sm.
  destruct (cot_to_vs_wf d m sg b b0 W NE Hsg) as (vs & Evs & Wvs & Zvs & _ & _ & P).
  destruct (feval_0 d vs y M Wvs Zvs Sy) as (V & EV & SV & GV).
  exists vs, V. split; [assumption|]. split; [assumption|]. split; [assumption|].
  assert (Wf : wf_field d (SF_0 bf y mom sg)) by (cbn; split; [assumption|]; exists M; auto).
  rewrite (inner_pairing_field d m (SF_0 bf y mom sg)); [|assumption|exact Wf|exact I|intros; exact I].
  f_equal. cbn [fval fjac]. unfold nrows. rewrite Sy. cbn [tnth nth].
  rewrite (pairing_rsum d m M (fun j x a => gaussian d sg (vsub x (vrow y j)) * mom @2 j a)
             (fun j x a l => dgauss d sg (vsub x (vrow y j)) l * mom @2 j a)).
  apply rsum_ext. intros j Hj. pose proof (P (vrow y j, fun a => mom @2 j a)) as Pj. cbn [fst snd] in Pj.
  rewrite Pj.
  apply rsum_ext. intros a Ha. rewrite GV by (cbn; auto). reflexivity.
Qed.

(** The field built from landmarks with directions has no Jacobian. *)
Lemma cot_to_vs_dir_no_jac d m sg b b0 vs :
  wf_gman d m -> no_empty_comp m -> sg <> 0 -> has_dir m -> cot_to_vs m sg b b0 = Ok vs -> ~ has1 vs.
Proof.
  intros W NE Hsg. revert vs W NE.
  induction m as [dim nb gd c|tr dim nb gd0 gd1 c0 c1|dim nb gd0 gd1 c0 c1|dim n0 n1 gd0 gd1 c0 c1 i0 i1|dim|ms IH]
    using gman_ind'; intros vs W NE HD; cbn [has_dir] in HD; try tauto.
  - cbn [cot_to_vs]. unfold sum_ctor. cbn [forallb].
    destruct (_ && _)%bool; [|discriminate]. intros E. injection E as <-.
    destruct tr; cbn; tauto.
  - rewrite cot_to_vs_comp. cbn [wf_gman no_empty_comp] in W, NE. destruct NE as (_ & NE).
    apply fr_and in W. apply fr_and in NE. intros E.
    destruct (mapM (fun m => cot_to_vs m sg b b0) ms) as [fs|e] eqn:Em; [|discriminate]. cbn [bind] in E.
    assert (Hf : ~ Forall has1 fs).
    { clear E. revert fs Em HD. induction IH as [|m ms Hm _ IHm]; intros fs Em HD; [destruct HD|].
      inversion W as [|? ? Wm Wms]; subst. inversion NE as [|? ? Nm Nms]; subst.
      cbn [mapM] in Em. destruct (cot_to_vs m sg b b0) as [f|e] eqn:Ef; [|discriminate]. cbn [bind] in Em.
      destruct (mapM _ ms) as [fs'|e] eqn:Efs; [|discriminate]. cbn [bind] in Em. injection Em as <-.
      intros HF. inversion HF as [|? ? Hf1 Hf2]; subst. cbn [fold_right] in HD. destruct HD as [HD|HD].
      - exact (Hm f Wm Nm HD eq_refl Hf1).
      - exact (IHm Wms Nms fs' eq_refl HD Hf2). }
    unfold sum_ctor in E. destruct fs as [|f fs]; [discriminate|].
    destruct (forallb _ fs); [|discriminate]. injection E as <-.
    cbn [has1]. rewrite fr_and. exact Hf.
Qed.

Lemma cot_to_vs_jac_iff d m sg b b0 p N :
  wf_gman d m -> no_empty_comp m -> sg <> 0 -> shape p = [N; d] ->
  exists vs, cot_to_vs m sg b b0 = Ok vs /\
    (~ has_dir m -> is_ok (feval vs p 1%nat)) /\
    (has_dir m -> feval vs p 1%nat = Err NotImplementedError).
Proof.
  intros W NE Hsg Sp.
  destruct (cot_to_vs_wf d m sg b b0 W NE Hsg) as (vs & Evs & Wvs & _ & _ & J & _).
  exists vs. split; [assumption|]. split.
  - intros HD. destruct (feval_1 d vs p N Wvs (J HD) Sp) as (t & E & _). exists t. exact E.
  - intros HD. destruct (feval_1_total d vs p N Wvs Sp) as [(H & _)|(_ & H)]; [|exact H].
    destruct (cot_to_vs_dir_no_jac d m sg b b0 vs W NE Hsg HD Evs H).
Qed.

(** ** CompoundLandmarks *)

Lemma tdot_zero_l a b : (forall idx, get a idx = 0) -> tdot a b = 0.
Proof.
  intros H. unfold tdot. apply rsum_zero. intros k _. rewrite get_flatten_k, H. ring.
Qed.

Lemma compound_landmarks_inner d n0 n1 gd0 gd1 c0 c1 F :
  answers d F -> inner_prod_field (compound_landmarks d n0 n1 gd0 gd1 c0 c1) F = Ok 0.
Proof.
  intros HF. unfold compound_landmarks. cbn [inner_prod_field fst snd]. unfold lm_inner.
  destruct (HF (tzeros [n0; d]) n0 eq_refl) as ((t0 & E0 & S0) & _).
  destruct (HF (tzeros [n1; d]) n1 eq_refl) as ((t1 & E1 & S1) & _).
  rewrite (lm_action_ok d n0 _ F t0), (lm_action_ok d n1 _ F t1) by assumption.
  cbn [bind]. rewrite !tdot_zero_l by reflexivity. f_equal. ring.
Qed.

(** ** C17: frames *)

Lemma frame_velocity d nb gd0 gd1 c0 c1 F :
  wf_gman d (GFrame d nb gd0 gd1 c0 c1) -> answers d F ->
  exists J vx vr, F gd0 1%nat = Ok J /\
    infinitesimal_action (GFrame d nb gd0 gd1 c0 c1) F = Ok (TPair vx vr) /\
    F gd0 0%nat = Ok vx /\ shape vr = [nb; d; d] /\
    forall n, (n < nb)%nat ->
      let S := fun i k => (J @3 n i k - J @3 n k i) / 2 in
      skew d S /\ meq d (slice vr n) (mprod d S (slice gd1 n)).
Proof.
  intros (_ & Sg0 & Sg1 & Sc0 & Sc1) HF.
  destruct (HF gd0 nb Sg0) as ((t0 & E0 & S0) & (t1 & E1 & S1)).
  exists t1, t0, (frame_tan t1 gd1). split; [assumption|].
  cbn [infinitesimal_action]. rewrite (frame_action_ok d nb gd0 gd1 F t0 t1) by assumption.
  cbn [bind fst snd]. split; [reflexivity|]. split; [assumption|].
  split; [apply frame_tan_shape; assumption|]. intros n Hn. split.
  - intros i j _ _. field.
  - intros i j Hi Hj. unfold slice. rewrite (frame_tan_get d nb) by assumption. reflexivity.
Qed.

(** If V = S R with S skew then V^T R + R^T V = 0. *)
Lemma skew_gram d S R V :
  skew d S -> meq d V (mprod d S R) ->
  meq d (fun i j => mprod d (mtr V) R i j + mprod d (mtr R) V i j) (fun _ _ => 0).
Proof.
  intros HS HV i j Hi Hj. unfold mprod, mtr.
  transitivity (rsum d (fun k => rsum d (fun l => S k l * (R l i * R k j))) +
                rsum d (fun k => rsum d (fun l => S k l * (R k i * R l j)))).
  { f_equal; apply rsum_ext; intros k Hk; rewrite HV by assumption; unfold mprod.
    - rewrite <- rsum_scal_r. apply rsum_ext. intros l _. ring.
    - rewrite <- rsum_scal. apply rsum_ext. intros l _. ring. }
  rewrite (rsum_swap d d (fun k l => S k l * (R k i * R l j))).
  rewrite <- rsum_plus. apply rsum_zero. intros k Hk.
  rewrite <- rsum_plus. apply rsum_zero. intros l Hl. rewrite (HS k l) by assumption. ring.
Qed.

Lemma derivable_mult f g x D E :
  derivable_pt_lim f x D -> derivable_pt_lim g x E ->
  derivable_pt_lim (fun t => f t * g t) x (D * g x + f x * E).
Proof. intros Hf Hg. exact (derivable_pt_lim_mult f g x D E Hf Hg). Qed.

(** The derivative of the Gram matrix of a curve of frames with velocity V. *)
Lemma gram_derivative d (Rt : R -> mat) t0 V :
  (forall i j, (i < d)%nat -> (j < d)%nat -> derivable_pt_lim (fun t => Rt t i j) t0 (V i j)) ->
  forall i j, (i < d)%nat -> (j < d)%nat ->
  derivable_pt_lim (fun t => mprod d (mtr (Rt t)) (Rt t) i j) t0
    (mprod d (mtr V) (Rt t0) i j + mprod d (mtr (Rt t0)) V i j).
Proof.
  intros H i j Hi Hj. unfold mprod, mtr.
  rewrite <- rsum_plus.
  assert (G : forall n, (n <= d)%nat ->
     derivable_pt_lim (fun t => rsum n (fun k => Rt t k i * Rt t k j)) t0
       (rsum n (fun k => V k i * Rt t0 k j + Rt t0 k i * V k j))).
  { induction n as [|n IH]; intros Hn.
    - cbn. apply derivable_pt_lim_const.
    - rewrite rsum_S. apply (derivable_ext (fun t => rsum n (fun k => Rt t k i * Rt t k j) + Rt t n i * Rt t n j)).
      { intros t. rewrite rsum_S. reflexivity. }
      apply (derivable_pt_lim_plus (fun t => rsum n (fun k => Rt t k i * Rt t k j)) (fun t => Rt t n i * Rt t n j)).
      + apply IH. lia.
      + apply derivable_mult; apply H; lia. }
  apply G. lia.
Qed.

(** A function with zero derivative everywhere is constant. *)
Lemma derivable_zero_const f : (forall t, derivable_pt_lim f t 0) -> forall a b, f a = f b.
Proof.
  intros H. set (pr := fun t => exist (fun l => derivable_pt_abs f t l) 0 (H t) : derivable_pt f t).
  intros a b.
  destruct (Rtotal_order a b) as [L|[->|L]]; [|reflexivity|].
  - destruct (MVT_cor1 f a b (fun t => pr t) L) as (c & Hc & _). unfold derive_pt in Hc. cbn in Hc. lra.
  - destruct (MVT_cor1 f b a (fun t => pr t) L) as (c & Hc & _). unfold derive_pt in Hc. cbn in Hc. lra.
Qed.

Lemma frame_gram_first_order d nb gd0 gd1 c0 c1 F vx vr n (Rt : R -> mat) t0 :
  wf_gman d (GFrame d nb gd0 gd1 c0 c1) -> answers d F -> (n < nb)%nat ->
  infinitesimal_action (GFrame d nb gd0 gd1 c0 c1) F = Ok (TPair vx vr) ->
  meq d (Rt t0) (slice gd1 n) ->
  (forall i j, (i < d)%nat -> (j < d)%nat -> derivable_pt_lim (fun t => Rt t i j) t0 (vr @3 n i j)) ->
  forall i j, (i < d)%nat -> (j < d)%nat ->
    derivable_pt_lim (fun t => mprod d (mtr (Rt t)) (Rt t) i j) t0 0.
Proof.
  intros W HF Hn E HR HV i j Hi Hj.
  destruct (frame_velocity d nb gd0 gd1 c0 c1 F W HF) as (J & vx' & vr' & _ & E' & _ & _ & Hv).
  rewrite E in E'. injection E' as <- <-. destruct (Hv n Hn) as (HS & HM).
  pose proof (gram_derivative d Rt t0 (slice vr n) HV i j Hi Hj) as G.
  rewrite (skew_gram d _ (Rt t0) (slice vr n) HS) in G; [exact G| |assumption|assumption].
  intros a b Ha Hb. rewrite HM by assumption. unfold mprod. apply rsum_ext. intros k Hk.
  rewrite HR by assumption. reflexivity.
Qed.

Lemma frame_orthonormal_forever d nb (x r : R -> tensor) c0 c1 (F : R -> vfield) n :
  (forall t, wf_gman d (GFrame d nb (x t) (r t) c0 c1)) -> (forall t, answers d (F t)) -> (n < nb)%nat ->
  (forall t, exists vx vr, infinitesimal_action (GFrame d nb (x t) (r t) c0 c1) (F t) = Ok (TPair vx vr) /\
     forall i j, (i < d)%nat -> (j < d)%nat -> derivable_pt_lim (fun s => (r s) @3 n i j) t (vr @3 n i j)) ->
  orthonormal d (slice (r 0) n) -> forall t, orthonormal d (slice (r t) n).
Proof.
  intros W HF Hn HV H0 t i j Hi Hj. rewrite <- (H0 i j Hi Hj).
  apply (derivable_zero_const (fun s => mprod d (mtr (slice (r s) n)) (slice (r s) n) i j)).
  intros s. destruct (HV s) as (vx & vr & E & D).
  apply (frame_gram_first_order d nb (x s) (r s) c0 c1 (F s) vx vr n (fun s => slice (r s) n) s);
    try assumption; try apply W; try apply HF.
  intros a b _ _. reflexivity.
Qed.

Lemma answers_field d f : wf_field d f -> has1 f -> answers d (feval f).
Proof.
  intros W H p N Sp. split.
  - destruct (feval_0 d f p N W (has1_has0 f H) Sp) as (t & E & S & _). exists t. auto.
  - destruct (feval_1 d f p N W H Sp) as (t & E & S & _). exists t. auto.
Qed.

Lemma frame_rigid d nb gd0 gd1 c0 c1 A x0 u :
  wf_gman d (GFrame d nb gd0 gd1 c0 c1) -> wf_field d (SF_affine A x0 u) -> skew d (entries A) ->
  exists vx vr, infinitesimal_action (GFrame d nb gd0 gd1 c0 c1) (feval (SF_affine A x0 u)) = Ok (TPair vx vr) /\
    (forall n a, (n < nb)%nat -> (a < d)%nat ->
       vx @2 n a = rsum d (fun c => A @2 a c * (gd0 @2 n c - x0 @1 c)) + u @1 a) /\
    (forall n, (n < nb)%nat -> meq d (slice vr n) (mprod d (entries A) (slice gd1 n))).
Proof.
  intros W Wf HA. pose proof W as (_ & Sg0 & _).
  destruct (frame_velocity d nb gd0 gd1 c0 c1 (feval (SF_affine A x0 u)) W) as (J & vx & vr & EJ & E & Ex & _ & Hv).
  { apply answers_field; [assumption|exact I]. }
  exists vx, vr. split; [assumption|]. split.
  - intros n a Hn Ha. destruct (feval_0 d _ gd0 nb Wf I Sg0) as (t & Et & _ & G).
    rewrite Et in Ex. injection Ex as <-. rewrite G by (cbn; auto). reflexivity.
  - intros n Hn. destruct (Hv n Hn) as (_ & HM).
    destruct (feval_1 d _ gd0 nb Wf I Sg0) as (t & Et & _ & G). rewrite Et in EJ. injection EJ as <-.
    intros i j Hi Hj. rewrite HM by assumption. unfold mprod. apply rsum_ext. intros k Hk. f_equal.
    rewrite !G by (cbn; auto). cbn [V1 fjac]. pose proof (HA i k Hi Hk) as E'. unfold entries in *. rewrite E'. field.
Qed.
