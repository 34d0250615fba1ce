(** Rotations of the whole scene, and the angular momentum. *)
From Coq Require Import Reals String List Arith Lia Lra FunctionalExtensionality.
From Coquelicot Require Import Coquelicot.
From Verif Require Import Py RSum Tensor TensorFacts KernelModel FieldModel GeometryModel ModuleModel ShootingModel
  SpecKernel SpecField SpecGeometry SpecModule SpecShooting SpecMotion SpecTransport SpecSmooth ModuleLeaves ModuleMain ShootingPack ShootingDyn MotionFacts MotionShoot MotionMomentum
  TransportFacts SpecRigid RigidField RigidBlock RigidModule RigidControl RigidShoot DiffBuild SpecEnergy EnergyFacts.
Import ListNotations.
Open Scope R_scope.

(** ** Rotations in the plane of two axes *)
Definition gen (a b : nat) : mat := fun i j => delta i b * delta j a - delta i a * delta j b.
Definition rot (a b : nat) (s : R) : mat := fun i j =>
  delta i j + (delta i a * ((cos s - 1) * delta j a - sin s * delta j b) + delta i b * (sin s * delta j a + (cos s - 1) * delta j b)).

Lemma delta_swap i j : delta i j = delta j i.
Proof. unfold delta. rewrite Nat.eqb_sym. reflexivity. Qed.
Lemma rot_back a b s i j : mtr (rot a b s) i j = rot a b (- s) i j.
Proof. unfold mtr, rot. rewrite cos_neg, sin_neg, (delta_swap j i). ring. Qed.
Lemma rot_sum d a b s j f : (a < d)%nat -> (b < d)%nat -> (j < d)%nat ->
  rsum d (fun k => rot a b s k j * f k) = f j + ((cos s - 1) * delta j a - sin s * delta j b) * f a + (sin s * delta j a + (cos s - 1) * delta j b) * f b.
Proof.
  intros A B J. unfold rot.
  rewrite (rsum_ext d _ (fun k => delta k j * f k + (delta k a * (((cos s - 1) * delta j a - sin s * delta j b) * f k) + delta k b * ((sin s * delta j a + (cos s - 1) * delta j b) * f k)))) by (intros; ring).
  rewrite !rsum_plus, !rsum_delta_l by assumption. ring.
Qed.
Lemma rot_orthonormal d a b s : (a < d)%nat -> (b < d)%nat -> a <> b -> orthonormal d (rot a b s).
Proof.
  intros A B N i j I J. unfold mprod, mtr, mid. rewrite (rot_sum d a b s i (fun k => rot a b s k j) A B I). unfold rot. rewrite !delta_same, (delta_diff a b N), (delta_diff b a (not_eq_sym N)).
  pose proof (sin2_cos2 s) as SC. unfold Rsqr in SC. 
  clear I J A B. unfold delta. repeat match goal with |- context [Nat.eqb ?x ?y] => destruct (Nat.eqb_spec x y) end; try lia; nra.
Qed.
Lemma rot_rigid d a b s : (a < d)%nat -> (b < d)%nat -> a <> b -> rigid d (rot a b s).
Proof.
  intros A B N. split; [apply rot_orthonormal; assumption|]. intros i j I J. rewrite <- (rot_orthonormal d a b (- s) A B N i j I J). unfold mprod. apply rsum_ext. intros k _.
  change (mtr (rot a b (- s)) i k) with (rot a b (- s) k i). rewrite <- !rot_back. reflexivity.
Qed.
Lemma turned_gen d a b u i : (a < d)%nat -> (b < d)%nat -> turned d (gen a b) u i = delta i b * u a - delta i a * u b.
Proof.
  intros A B. unfold turned, gen. rewrite (rsum_ext d _ (fun k => delta k a * (delta i b * u k) - delta k b * (delta i a * u k))) by (intros; ring).
  rewrite rsum_minus, !rsum_delta_l by assumption. reflexivity.
Qed.
Lemma turned_start d a b u i : (i < d)%nat -> turned d (rot a b 0) u i = u i.
Proof.
  intros I. unfold turned, rot. rewrite cos_0, sin_0. rewrite (rsum_ext d _ (fun k => delta i k * u k)) by (intros; ring). apply rsum_delta_r. exact I.
Qed.
Lemma turned_derivative d a b u i : derivable_pt_lim (fun s => turned d (rot a b s) u i) 0 (turned d (gen a b) u i).
Proof.
  unfold turned. apply (rsum_derivative d (fun k s => rot a b s i k * u k)). intros k _. unfold rot, gen. apply is_derive_Reals. auto_derive; [trivial|]. rewrite cos_0, sin_0. ring.
Qed.
Lemma gen_skew a b : mtr (gen a b) = fun i j => - gen a b i j.
Proof. apply functional_extensionality. intros i. apply functional_extensionality. intros j. unfold mtr, gen. ring. Qed.

Notation still := (fun _ : nat => 0).

(** The curve of turned scenes. *)
Definition turning d a b ks l (s : R) : list tensor := if Req_EM_T s 0 then l else lplace d (rot a b s) still ks l.
Lemma place_get d Q k t idx : kshape d k (shape t) -> valid (shape t) idx -> get (place1 d Q still k t) idx = get (turn1 d Q k t) idx.
Proof. destruct k; try reflexivity. intros (n & S) V. rewrite S in V. idx2 V. cbn [place1 place_rows turn1 turn_rows get]. unfold placed. ring. Qed.
Lemma turn_start d a b k t idx : kshape d k (shape t) -> valid (shape t) idx -> get (turn1 d (rot a b 0) k t) idx = get t idx.
Proof.
  destruct k; intros (n & S) V; rewrite S in V; [idx2 V|idx2 V|idx3 V]; cbn [turn1 turn_rows turn_frames get]; rewrite turned_start by tauto; reflexivity.
Qed.
Lemma turn_derivative d a b k t idx : kshape d k (shape t) -> valid (shape t) idx ->
  derivable_pt_lim (fun s => get (turn1 d (rot a b s) k t) idx) 0 (get (turn1 d (gen a b) k t) idx).
Proof.
  destruct k; intros (n & S) V; rewrite S in V; [idx2 V|idx2 V|idx3 V]; cbn [turn1 turn_rows turn_frames get]; apply turned_derivative.
Qed.
Lemma nth_lplace d Q c ks shs : kshapes d ks shs -> forall l i t, map shape l = shs -> nth_error l i = Some t ->
  exists k, nth_error ks i = Some k /\ kshape d k (shape t) /\ nth_error (lplace d Q c ks l) i = Some (place1 d Q c k t).
Proof.
  induction 1 as [|k sh ks shs H _ IH]; intros [|u l] i t E N; try discriminate E; [destruct i; discriminate N|].
  cbn [map] in E. injection E as E1 E2. destruct i as [|i]; cbn [nth_error] in *.
  - injection N as <-. exists k. split; [reflexivity|]. split; [rewrite E1; exact H|reflexivity].
  - exact (IH l i t E2 N).
Qed.
Lemma turning_passes d a b ks l : kshapes d ks (map shape l) -> lpasses (turning d a b ks l) l (lturn d (gen a b) ks l).
Proof.
  intros K. split; [unfold turning; destruct (Req_EM_T 0 0) as [_|N]; [reflexivity|elim N; reflexivity]|].
  split; [intros s; unfold turning; destruct (Req_EM_T s 0); [reflexivity|exact (lplace_shape d _ still ks l _ K eq_refl)]|].
  split; [exact (lturn_shape d _ ks l _ K eq_refl)|]. intros i t idx E V.
  destruct (nth_lturn d (gen a b) ks _ K l i t eq_refl E) as (k & Ek & KS & ET). unfold entry at 2. rewrite ET.
  replace (fun s => entry (turning d a b ks l s) i idx) with (fun s => get (turn1 d (rot a b s) k t) idx); [apply turn_derivative; assumption|].
  apply functional_extensionality. intros s. unfold entry, turning. destruct (Req_EM_T s 0) as [->|N]; [rewrite E; apply turn_start; assumption|].
  destruct (nth_lplace d (rot a b s) still ks _ K l i t eq_refl E) as (k' & Ek' & _ & EP). assert (k' = k) by congruence. subst k'. rewrite EP. symmetry. apply place_get; assumption.
Qed.

Lemma lturn_app d Q ks ks' l l' : length ks = length l -> lturn d Q (ks ++ ks') (l ++ l') = lturn d Q ks l ++ lturn d Q ks' l'.
Proof. intros L. unfold lturn. rewrite combine_app by exact L. apply map_app. Qed.
Lemma lturn_len d Q ks l : length ks = length l -> length (lturn d Q ks l) = length l.
Proof. intros L. unfold lturn. rewrite map_length, combine_length. lia. Qed.

(** ** The angular momentum as a product *)
Section Momentum.
Variables (d a b : nat).
Hypothesis A : (a < d)%nat.
Hypothesis B : (b < d)%nat.

Lemma rows_momentum_dot q p n : shape q = [n; d] -> shape p = [n; d] -> rows_momentum a b q p = tdot p (turn_rows d (gen a b) q).
Proof.
  intros SQ SP. rewrite tdot_sum by (cbn; congruence). rewrite SP. cbn [sum_idx turn_rows get]. unfold rows_momentum. rewrite SQ. unfold tnth. cbn [nth]. apply rsum_ext. intros i _.
  rewrite (rsum_ext d _ (fun x => delta x b * (q @2 i a * p @2 i x) - delta x a * (q @2 i b * p @2 i x))).
  - rewrite rsum_minus, !rsum_delta_l by assumption. reflexivity.
  - intros x _. rewrite turned_gen by assumption. unfold vrow. change (get p [i; x]) with (p @2 i x). ring.
Qed.
Lemma frames_momentum_dot q p n : shape q = [n; d; d] -> shape p = [n; d; d] -> frames_momentum a b q p = tdot p (turn_frames d (gen a b) q).
Proof.
  intros SQ SP. rewrite tdot_sum by (cbn; congruence). rewrite SP. cbn [sum_idx turn_frames get]. unfold frames_momentum. rewrite SQ. unfold tnth. cbn [nth]. apply rsum_ext. intros i _.
  symmetry. etransitivity; [apply rsum_swap|]. apply rsum_ext. intros j _.
  rewrite (rsum_ext d _ (fun x => delta x b * (q @3 i a j * p @3 i x j) - delta x a * (q @3 i b j * p @3 i x j))).
  - rewrite rsum_minus, !rsum_delta_l by assumption. reflexivity.
  - intros x _. rewrite turned_gen by assumption. change (get p [i; x; j]) with (p @3 i x j). ring.
Qed.
Lemma momentum_dot g : wf_gman d g -> angular_momentum a b g = ldot (g_cotan g) (lturn d (gen a b) (kinds_gd g) (g_gd g)).
Proof.
  induction g as [g S|gs IH] using gman_ind'; intros W.
  - destruct g; try (elim S); cbn [wf_gman] in W; try contradiction W; cbn [angular_momentum kinds_gd g_gd g_cotan]; unfold lturn, ldot; cbn [combine map fold_right fst snd turn1];
      repeat match goal with H : _ /\ _ |- _ => destruct H end; rewrite ?Rplus_0_r; try reflexivity;
      repeat match goal with |- context [rows_momentum a b ?x ?y] => rewrite (rows_momentum_dot x y nb) by assumption end;
      repeat match goal with |- context [frames_momentum a b ?x ?y] => rewrite (frames_momentum_dot x y nb) by assumption end; reflexivity.
  - cbn [angular_momentum kinds_gd g_gd g_cotan wf_gman] in *. induction IH as [|g gs Hg _ IHs]; [reflexivity|]. destruct W as [W1 W2]. cbn [map fold_right flat_map].
    rewrite (Hg W1), (IHs W2). rewrite lturn_app by (rewrite (proj1 (kinds_len g)), g_gd_len; reflexivity). rewrite ldot_app; [reflexivity|].
    rewrite lturn_len, g_gd_len, g_cotan_len; [reflexivity|]. rewrite (proj1 (kinds_len g)), g_gd_len. reflexivity.
Qed.
End Momentum.

(** ** Curves of parts and of turned tensors *)
Lemma entry_first n (l : list tensor) i idx : (i < n)%nat -> entry (firstn n l) i idx = entry l i idx.
Proof.
  revert l i. induction n as [|n IH]; intros [|x l] [|i] I; try lia; try reflexivity. unfold entry in *. cbn [firstn nth_error]. apply (IH l i). lia.
Qed.
Lemma entry_skip n (l : list tensor) i idx : entry (skipn n l) i idx = entry l (n + i) idx.
Proof.
  revert l. induction n as [|n IH]; intros [|x l]; try reflexivity; [destruct i; reflexivity|]. cbn [skipn]. rewrite IH. reflexivity.
Qed.
Lemma nth_first {X} n (l : list X) i t : nth_error (firstn n l) i = Some t -> (i < n)%nat /\ nth_error l i = Some t.
Proof.
  revert l i. induction n as [|n IH]; intros [|x l] [|i] E; try discriminate E; [split; [lia|exact E]|]. destruct (IH l i E). split; [lia|assumption].
Qed.
Lemma nth_skip {X} n (l : list X) i t : nth_error (skipn n l) i = Some t -> nth_error l (n + i) = Some t.
Proof. revert l. induction n as [|n IH]; intros [|x l] E; try exact E; [destruct i; discriminate E|]. exact (IH l E). Qed.
Lemma passes_first n c l v : lpasses c l v -> lpasses (fun s => firstn n (c s)) (firstn n l) (firstn n v).
Proof.
  intros (C0 & CS & SV & D). split; [rewrite C0; reflexivity|]. split; [intros s; rewrite <- !firstn_map, CS; reflexivity|]. split; [rewrite <- !firstn_map, SV; reflexivity|].
  intros i t idx E V. destruct (nth_first n l i t E) as (I & E'). rewrite (entry_first n v i idx I).
  replace (fun s => entry (firstn n (c s)) i idx) with (fun s => entry (c s) i idx) by (apply functional_extensionality; intros s; rewrite entry_first by exact I; reflexivity). exact (D i t idx E' V).
Qed.
Lemma passes_skip n c l v : lpasses c l v -> lpasses (fun s => skipn n (c s)) (skipn n l) (skipn n v).
Proof.
  intros (C0 & CS & SV & D). split; [rewrite C0; reflexivity|]. split; [intros s; rewrite <- !skipn_map, CS; reflexivity|]. split; [rewrite <- !skipn_map, SV; reflexivity|].
  intros i t idx E V. rewrite (entry_skip n v i idx).
  replace (fun s => entry (skipn n (c s)) i idx) with (fun s => entry (c s) (n + i) idx) by (apply functional_extensionality; intros s; rewrite entry_skip; reflexivity). exact (D _ t idx (nth_skip n l i t E) V).
Qed.
Lemma entry_turn d Q ks shs l i k t idx : kshapes d ks shs -> map shape l = shs -> nth_error ks i = Some k -> nth_error l i = Some t ->
  entry (lturn d Q ks l) i idx = match k, idx with
    | KF, [j; x; y] => turned d Q (fun z => entry l i [j; z; y]) x | KF, _ => entry l i idx
    | _, [j; x] => turned d Q (fun z => entry l i [j; z]) x | _, _ => entry l i idx end.
Proof.
  intros K S Ek Et. destruct (nth_lturn d Q ks shs K l i t S Et) as (k' & Ek' & _ & E). assert (k' = k) by congruence. subst k'. unfold entry. rewrite E, Et.
  destruct k; cbn [turn1 turn_rows turn_frames get]; destruct idx as [|j [|x [|y [|]]]]; reflexivity.
Qed.
Lemma passes_turn d Q ks c l v : kshapes d ks (map shape l) -> lpasses c l v -> lpasses (fun s => lturn d Q ks (c s)) (lturn d Q ks l) (lturn d Q ks v).
Proof.
  intros K (C0 & CS & SV & D). split; [rewrite C0; reflexivity|].
  assert (T : forall x, map shape x = map shape l -> map shape (lturn d Q ks x) = map shape (lturn d Q ks l)).
  { intros x S. rewrite (lturn_shape d Q ks x _ K S), (lturn_shape d Q ks l _ K eq_refl). reflexivity. }
  split; [intros s; apply T, CS|]. split; [apply T, SV|]. intros i u idx E V.
  assert (Et : exists t, nth_error l i = Some t /\ shape t = shape u).
  { pose proof (map_nth_error shape i _ E) as Z. rewrite (lturn_shape d Q ks l _ K eq_refl), nth_error_map in Z. destruct (nth_error l i) as [t|]; [|discriminate Z]. injection Z as Z. exists t. auto. }
  destruct Et as (t & Et & St). rewrite <- St in V. destruct (nth_lturn d Q ks _ K l i t eq_refl Et) as (k & Ek & KS & _).
  assert (NE : forall x, map shape x = map shape l -> exists y, nth_error x i = Some y).
  { intros x S. pose proof (map_nth_error shape i l Et) as Z. rewrite <- S, nth_error_map in Z. destruct (nth_error x i) as [y|]; [|discriminate Z]. exists y. reflexivity. }
  destruct (NE v SV) as (w & Ew). rewrite (entry_turn d Q ks _ v i k w idx K SV Ek Ew).
  pose proof (D i) as DI. 
  replace (fun s => entry (lturn d Q ks (c s)) i idx) with (fun s => match k, idx with
    | KF, [j; x; y] => turned d Q (fun z => entry (c s) i [j; z; y]) x | KF, _ => entry (c s) i idx
    | _, [j; x] => turned d Q (fun z => entry (c s) i [j; z]) x | _, _ => entry (c s) i idx end)
    by (apply functional_extensionality; intros s; destruct (NE _ (CS s)) as (y & Ey); symmetry; exact (entry_turn d Q ks _ (c s) i k y idx K (CS s) Ek Ey)).
  destruct KS as (n & KS) || (destruct k; destruct KS as (n & KS)); rewrite KS in V; [idx2 V|idx2 V|idx3 V]; unfold turned.
  - apply (rsum_derivative d (fun z s => Q a z * entry (c s) i [i0; z])). intros z Z. apply derivable_pt_lim_scal. apply (DI t _ Et). rewrite KS. cbn. tauto.
  - apply (rsum_derivative d (fun z s => Q a z * entry (c s) i [i0; z])). intros z Z. apply derivable_pt_lim_scal. apply (DI t _ Et). rewrite KS. cbn. tauto.
  - apply (rsum_derivative d (fun z s => Q a z * entry (c s) i [i0; z; j])). intros z Z. apply derivable_pt_lim_scal. apply (DI t _ Et). rewrite KS. cbn. tauto.
Qed.

(** ** The conservation law *)
Section Noether.
Variables (d a b : nat) (g : gman) (H : list tensor -> res R).
Hypothesis A : (a < d)%nat.
Hypothesis B : (b < d)%nat.
Hypothesis AB : a <> b.
Hypothesis W : wf_gman d g.
Notation n := (g_len g).
Notation shs := (map shape (phase g)).
Notation J := (gen a b).
Hypothesis same : forall s l x x', map shape l = shs -> H l = Ok x -> H (lplace d (rot a b s) still (kinds g) l) = Ok x' -> x' = x.

Definition twist (l k : list tensor) : R := ldot (skipn n l) (lturn d J (kinds_gd g) (firstn n k)).

Lemma gd_shapes : map shape (firstn n (phase g)) = map shape (g_gd g) /\ map shape (skipn n (phase g)) = map shape (g_cotan g) /\ map shape (g_cotan g) = map shape (g_gd g).
Proof.
  unfold phase. rewrite <- (g_gd_len g), firstn_app, skipn_app, Nat.sub_diag, firstn_all, skipn_all. cbn [firstn skipn]. rewrite app_nil_r. cbn [app].
  split; [reflexivity|]. split; [reflexivity|]. exact (wf_shapes d g W).
Qed.
Lemma gd_part l : map shape l = shs -> map shape (firstn n l) = map shape (g_gd g) /\ map shape (skipn n l) = map shape (g_gd g).
Proof.
  intros S. destruct gd_shapes as (G1 & G2 & G3). rewrite G3 in G2. split; [rewrite <- G1, <- !firstn_map, S; reflexivity|rewrite <- G2, <- !skipn_map, S; reflexivity].
Qed.
Lemma kgd : kshapes d (kinds_gd g) (map shape (g_gd g)).
Proof. exact (proj1 (wf_kinds d g W)). Qed.

Lemma twist_skew l k : map shape l = shs -> map shape k = shs -> ldot (firstn n k) (lturn d J (kinds_ct g) (skipn n l)) = - twist l k.
Proof.
  intros SL SK. destruct (gd_part l SL) as (L1 & L2). destruct (gd_part k SK) as (K1 & K2). unfold twist.
  assert (E : lturn d J (kinds_ct g) (skipn n l) = lturn d J (kinds_gd g) (skipn n l)).
  { pose proof (kinds_lin d J g) as F. generalize (skipn n l) as r. intros r. clear - F. revert r. induction F as [|x y p q X _ IH]; intros [|t r]; try reflexivity.
    unfold lturn in *. cbn [combine map fst snd]. rewrite X, (IH r). reflexivity. }
  rewrite E.
  assert (T : map shape (lturn d J (kinds_gd g) (skipn n l)) = map shape (g_gd g)) by (exact (lturn_shape d J _ _ _ kgd L2)).
  rewrite (ldot_comm (firstn n k)) by congruence. rewrite <- (lturn_dot d J _ _ kgd (skipn n l) (firstn n k) L2 K1). rewrite gen_skew.
  assert (O : leq (lturn d (fun i j => - J i j) (kinds_gd g) (firstn n k)) (lscal (-1) (lturn d J (kinds_gd g) (firstn n k)))).
  { pose proof kgd as KG. revert K1 KG. generalize (kinds_gd g) as ks, (map shape (g_gd g)) as sh, (firstn n k) as r. clear. intros ks sh r <- KG. revert ks KG.
    induction r as [|t r IH]; intros [|x ks] KG; inversion KG as [|? ? ? ? KX KR]; subst; [constructor|]. unfold lturn, lscal in *. cbn [combine map fst snd]. constructor; [|exact (IH ks KR)].
    split; [cbn [tscal tmap shape]; rewrite !turn1_shape; reflexivity|]. intros idx V. rewrite turn1_shape in V.
    change (get (tscal (-1) (turn1 d J x t)) idx) with (-1 * get (turn1 d J x t) idx).
    destruct x; destruct KX as (m & KX); rewrite KX in V; [idx2 V|idx2 V|idx3 V]; cbn [turn1 turn_rows turn_frames get]; unfold turned; rewrite <- rsum_scal; apply rsum_ext; intros; ring. }
  pose proof (lturn_shape d J _ _ _ kgd K1) as TK.
  assert (SO : map shape (skipn n l) = map shape (lscal (-1) (lturn d J (kinds_gd g) (firstn n k)))) by (rewrite DiffBuild.lscal_shape; congruence).
  rewrite (ldot_same (skipn n l) (skipn n l) _ _ SO (leq_refl' _) O).
  rewrite (ldot_entries (map shape (g_gd g))) by (rewrite ?DiffBuild.lscal_shape; congruence). rewrite (ldot_entries (map shape (g_gd g)) (skipn n l) (lturn d J (kinds_gd g) (firstn n k))) by congruence.
  rewrite <- rsum_opp. apply rsum_ext. intros i _. rewrite !sum_idx_flat, <- rsum_opp. apply rsum_ext. intros j _. rewrite entry_scal. ring.
Qed.

Lemma noether l x k : map shape l = shs -> differentiable_along H l -> H l = Ok x -> hamilton H l k -> twist l k + twist k l = 0.
Proof.
  intros SL (G & SG & HG) X HK. pose proof HK as (SK & _). rewrite SL in SK.
  assert (N : length l = (n + n)%nat) by (rewrite <- (map_length shape l), SL, map_length; apply phase_len).
  assert (KS : kshapes d (kinds g) (map shape l)) by (rewrite SL; exact (wf_kshapes d g W)).
  destruct (HG _ _ (turning_passes d a b (kinds g) l KS)) as (eps & f & P & Q & D).
  assert (Z : ldot G (lturn d J (kinds g) l) = 0).
  { apply (uniqueness_limite f 0); [exact D|]. apply (lim_loc (fun _ => x) f 0 0 eps P); [|apply derivable_pt_lim_const]. intros s S. rewrite Rminus_0_r in S. specialize (Q s S).
    unfold turning in Q. destruct (Req_EM_T s 0) as [_|_]; [congruence|]. symmetry. exact (same s l x (f s) SL X Q). }
  rewrite (gradient_dot H l k G n HK N SG (along_directions H l G HG) _ (lturn_shape d J _ _ _ KS eq_refl)) in Z.
  destruct (gd_part l SL) as (L1 & L2). 
  assert (SP : lturn d J (kinds g) l = lturn d J (kinds_gd g) (firstn n l) ++ lturn d J (kinds_ct g) (skipn n l)).
  { unfold kinds. rewrite <- (firstn_skipn n l) at 1. apply lturn_app. rewrite (proj1 (kinds_len g)), <- (map_length shape (firstn n l)), L1, map_length, g_gd_len. reflexivity. }
  assert (LN : length (lturn d J (kinds_gd g) (firstn n l)) = n).
  { rewrite lturn_len; rewrite ?(proj1 (kinds_len g)), <- (map_length shape (firstn n l)), L1, map_length, g_gd_len; reflexivity. }
  assert (F1 : firstn n (lturn d J (kinds g) l) = lturn d J (kinds_gd g) (firstn n l)).
  { rewrite SP, firstn_app, LN, Nat.sub_diag. cbn [firstn]. rewrite app_nil_r. apply firstn_all2. lia. }
  assert (F2 : skipn n (lturn d J (kinds g) l) = lturn d J (kinds_ct g) (skipn n l)).
  { rewrite SP, skipn_app, LN, Nat.sub_diag. cbn [skipn]. rewrite skipn_all2 by lia. reflexivity. }
  rewrite F1, F2, (twist_skew l k SL SK) in Z. fold (twist k l) in Z. lra.
Qed.

Lemma twist_momentum g' : skel g' = skel g -> map shape (phase g') = shs -> angular_momentum a b g' = twist (phase g') (phase g').
Proof.
  intros K S. destruct (app_shapes (g_gd g') (g_gd g) (g_cotan g') (g_cotan g)) as (S1 & S2); [rewrite !g_gd_len; apply skel_len; exact K|exact S|].
  rewrite (momentum_dot d a b A B g').
  - unfold twist, phase. assert (E : n = length (g_gd g')) by (rewrite g_gd_len; symmetry; apply skel_len; exact K). rewrite E, firstn_app, skipn_app, Nat.sub_diag, firstn_all, skipn_all.
    cbn [firstn skipn app]. rewrite app_nil_r. rewrite <- (proj1 (kinds_skel g')), K, (proj1 (kinds_skel g)). reflexivity.
  - exact (wf_gman_same d g g' W K S1 S2).
Qed.

Lemma lturn_leq ks sh l l' : kshapes d ks sh -> map shape l = sh -> leq l' l -> leq (lturn d J ks l') (lturn d J ks l).
Proof.
  intros K. revert l l'. induction K as [|k s ks sh HK _ IH]; intros [|t l] l' E G; try discriminate E; inversion G as [|t' ? l1 ? G1 G2]; subst; [constructor|].
  cbn [map] in E. injection E as E1 E2. constructor; cbn [fst snd]; [apply turn1_teq; [rewrite E1; exact HK|exact G1]|]. exact (IH l l1 E2 G2).
Qed.
Lemma leq_first m (l l' : list tensor) : leq l' l -> leq (firstn m l') (firstn m l).
Proof. intros E. revert m. induction E as [|x y p q X _ IH]; intros [|m]; cbn [firstn]; constructor; [exact X|apply IH]. Qed.
Lemma leq_skip m (l l' : list tensor) : leq l' l -> leq (skipn m l') (skipn m l).
Proof. intros E. revert m. induction E as [|x y p q X E IH]; intros [|m]; cbn [skipn]; try constructor; [exact X|exact E|apply IH]. Qed.
Lemma twist_leq l l' : map shape l = shs -> leq l' l -> twist l' l' = twist l l.
Proof.
  intros S E. destruct (gd_part l S) as (L1 & L2). unfold twist. apply ldot_same; [rewrite (lturn_shape d J _ _ _ kgd L1); exact L2|apply leq_skip; exact E|].
  apply (lturn_leq _ _ _ _ kgd L1). apply leq_first. exact E.
Qed.
Lemma first_line m s (l k : list tensor) : firstn m (ladd l (lscal s k)) = ladd (firstn m l) (lscal s (firstn m k)).
Proof.
  unfold ladd, lscal. revert l k. induction m as [|m IH]; intros [|x l] [|y k]; try reflexivity. cbn [map combine firstn]. rewrite IH. reflexivity.
Qed.
Lemma skip_line m s (l k : list tensor) : length l = length k -> skipn m (ladd l (lscal s k)) = ladd (skipn m l) (lscal s (skipn m k)).
Proof.
  unfold ladd, lscal. revert l k. induction m as [|m IH]; intros [|x l] [|y k] L; try discriminate L; try reflexivity. cbn [map combine skipn]. apply IH. injection L as L. exact L.
Qed.
Lemma twist_line s l k : map shape l = shs -> map shape k = shs -> twist (ladd l (lscal s k)) (ladd l (lscal s k)) = twist l l + s * (twist l k + twist k l) + s ^ 2 * twist k k.
Proof.
  intros SL SK. destruct (gd_part l SL) as (L1 & L2). destruct (gd_part k SK) as (K1 & K2). unfold twist. pose proof kgd as KG.
  assert (LK : length l = length k) by (rewrite <- (map_length shape l), <- (map_length shape k); congruence).
  rewrite first_line, (skip_line n s l k LK).
  pose proof (lturn_shape d J _ _ _ KG L1) as T1. pose proof (lturn_shape d J _ _ _ KG K1) as T2.
  assert (E : leq (lturn d J (kinds_gd g) (ladd (firstn n l) (lscal s (firstn n k)))) (ladd (lturn d J (kinds_gd g) (firstn n l)) (lscal s (lturn d J (kinds_gd g) (firstn n k))))).
  { apply leq_sym. apply (lturn_add d J _ _ KG); [exact L1|rewrite DiffBuild.lscal_shape; exact K1|apply leq_refl'|]. apply (lturn_scal d J _ _ s KG); [exact K1|apply leq_refl']. }
  assert (SA : forall x y, map shape x = map shape (g_gd g) -> map shape y = map shape (g_gd g) -> map shape (ladd x (lscal s y)) = map shape (g_gd g)).
  { intros x y X Y. rewrite DiffBuild.ladd_shape; rewrite ?DiffBuild.lscal_shape; congruence. }
  assert (SX : map shape (ladd (skipn n l) (lscal s (skipn n k))) = map shape (ladd (lturn d J (kinds_gd g) (firstn n l)) (lscal s (lturn d J (kinds_gd g) (firstn n k))))) by (rewrite !SA by assumption; reflexivity).
  rewrite (ldot_same _ _ _ _ SX (leq_refl' _) E).
  rewrite ldot_add_l by (rewrite SA by assumption; assumption). rewrite !ldot_add_r by congruence. ring.
Qed.

Hypothesis smooth : smooth_along shs H.

(** Along exact solutions the angular momentum is constant. *)
Lemma angular_constant gam u v : (forall t, skel (gam t) = skel g) -> (forall t, map shape (phase (gam t)) = shs) -> solution H (fun t => phase (gam t)) u v ->
  forall s t, u < s < v -> u < t < v -> angular_momentum a b (gam s) = angular_momentum a b (gam t).
Proof.
  intros K S SO. apply flat_constant. intros t T. destruct (solution_passes H _ u v t SO T) as ((x & X) & k & HK & P).
  apply shift_derivable. replace (fun s => angular_momentum a b (gam (t + s))) with (fun s => twist (phase (gam (t + s))) (phase (gam (t + s))))
    by (apply functional_extensionality; intros s; symmetry; apply twist_momentum; [apply K|apply S]).
  assert (SK : map shape k = shs) by (rewrite (proj1 HK); apply S). destruct (gd_part _ (S t)) as (L1 & L2).
  pose proof (ldot_derivative _ _ _ _ _ _ (passes_skip n _ _ _ P) (passes_turn d J (kinds_gd g) _ _ _ ltac:(rewrite L1; exact kgd) (passes_first n _ _ _ P))) as D.
  pose proof (noether _ x k (S t) (smooth _ x (S t) X) X HK) as Z. unfold twist in Z.
  specialize (D ltac:(rewrite L2; exact (lturn_shape d J _ _ _ kgd L1))). rewrite Rplus_comm, Z in D. exact D.
Qed.

(** A step of the explicit Euler scheme changes it by the square of the step times the
    angular momentum of the velocity. *)
Lemma angular_step g1 g2 dt k x : skel g1 = skel g -> skel g2 = skel g -> map shape (phase g1) = shs -> H (phase g1) = Ok x -> hamilton H (phase g1) k ->
  leq (phase g2) (ladd (phase g1) (lscal dt k)) ->
  exists gk, skel gk = skel g /\ phase gk = k /\ angular_momentum a b g2 = angular_momentum a b g1 + dt ^ 2 * angular_momentum a b gk.
Proof.
  intros K1 K2 S1 X HK E. assert (SK : map shape k = shs) by (rewrite (proj1 HK); exact S1).
  destruct (phase_fill g k) as (gk & Pk & Kk). { rewrite <- phase_len, <- (map_length shape k), SK, map_length. reflexivity. }
  exists gk. split; [exact Kk|]. split; [exact Pk|].
  assert (SL : map shape (ladd (phase g1) (lscal dt k)) = shs) by (rewrite DiffBuild.ladd_shape; rewrite ?DiffBuild.lscal_shape; congruence).
  rewrite (twist_momentum g2 K2 ltac:(rewrite (leq_shape _ _ E); exact SL)), (twist_momentum g1 K1 S1), (twist_momentum gk Kk ltac:(rewrite Pk; exact SK)), Pk.
  rewrite (twist_leq _ _ SL E), (twist_line dt _ _ S1 SK), (noether _ x k S1 (smooth _ x S1 X) X HK). ring.
Qed.
End Noether.
