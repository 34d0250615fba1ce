(** Quantities conserved by exact solutions of Hamilton's equations. *)
From Coq Require Import Reals String List Arith Lia Lra FunctionalExtensionality.
From Verif Require Import Py RSum Tensor TensorFacts KernelModel FieldModel GeometryModel ModuleModel ShootingModel
  SpecKernel SpecField SpecGeometry SpecModule SpecShooting SpecMotion SpecTransport SpecSmooth ModuleLeaves ModuleMain ShootingPack ShootingDyn MotionFacts MotionShoot MotionMomentum
  TransportFacts SpecRigid RigidField RigidBlock RigidModule RigidControl RigidShoot DiffBuild SpecEnergy.
Import ListNotations.
Open Scope R_scope.

(** ** Products of lists of tensors, entry by entry *)
Lemma ldot_entries sh : forall a b, map shape a = sh -> map shape b = sh ->
  ldot a b = rsum (length sh) (fun i => sum_idx (nth i sh []) (fun idx => entry a i idx * entry b i idx)).
Proof.
  induction sh as [|s sh IH]; intros [|x a] [|y b] A B; try discriminate A; try discriminate B; [reflexivity|]. cbn [map] in A, B. injection A as A1 A2. injection B as B1 B2.
  cbn [length]. rewrite rsum_first. unfold ldot in *. cbn [combine map fold_right fst snd]. rewrite (IH a b A2 B2). rewrite tdot_sum by congruence. rewrite A1. reflexivity.
Qed.
Lemma nth_shape sh : forall a i, map shape a = sh -> (i < length sh)%nat -> exists t, nth_error a i = Some t /\ shape t = nth i sh [].
Proof.
  intros a i <- L. rewrite map_length in L. destruct (nth_error a i) as [t|] eqn:E; [|apply nth_error_None in E; lia]. exists t. split; [reflexivity|].
  symmetry. apply nth_error_nth. exact (map_nth_error shape i a E).
Qed.
Lemma ldot_same a a' b b' : map shape a = map shape b -> leq a' a -> leq b' b -> ldot a' b' = ldot a b.
Proof.
  intros S A B. pose proof (leq_shape _ _ A) as SA. pose proof (leq_shape _ _ B) as SB.
  rewrite (ldot_entries (map shape b) a b S eq_refl), (ldot_entries (map shape b) a' b') by congruence.
  apply rsum_ext. intros i I. apply sum_idx_ext. intros idx V.
  assert (X : forall l l' : list tensor, leq l' l -> map shape l = map shape b -> entry l' i idx = entry l i idx).
  { intros l l' E SL. destruct (nth_shape _ l i SL I) as (t & Et & St). rewrite <- St in V. clear - E Et V. revert i Et. induction E as [|x y r r' H _ IH]; intros [|i] Et; try discriminate Et.
    - injection Et as ->. destruct H as [H1 H2]. cbn. apply H2. rewrite H1. exact V.
    - exact (IH i Et). }
  rewrite (X a a' A S), (X b b' B eq_refl). reflexivity.
Qed.
Lemma ldot_app a b c e : length a = length c -> ldot (a ++ b) (c ++ e) = ldot a c + ldot b e.
Proof.
  revert c. induction a as [|x a IH]; intros [|y c] L; try discriminate L; [cbn [app]; unfold ldot at 2; cbn; ring|].
  cbn [length] in L. injection L as L. specialize (IH c L). unfold ldot in *. cbn [app combine map fold_right fst snd]. rewrite IH. ring.
Qed.
Lemma ldot_lin_r a b G u u' : map shape u = map shape G -> map shape u' = map shape G -> ldot G (ladd (lscal a u) (lscal b u')) = a * ldot G u + b * ldot G u'.
Proof.
  intros A B. rewrite ldot_comm; [|rewrite DiffBuild.ladd_shape; rewrite !DiffBuild.lscal_shape; congruence]. rewrite ldot_lin by assumption. rewrite (ldot_comm u G A), (ldot_comm u' G B). reflexivity.
Qed.
Lemma ladd_one l v : map shape v = map shape l -> ladd l v = ladd (lscal 1 l) (lscal 1 v).
Proof.
  revert v. induction l as [|x l IH]; intros [|y v] S; try discriminate S; [reflexivity|]. cbn [map] in S. injection S as S1 S2. unfold ladd, lscal in *. cbn [map combine fst snd]. f_equal; [|exact (IH v S2)].
  unfold tadd, tmap2, tscal, tmap. cbn [shape]. apply mkT_ext. intros idx. cbn. ring.
Qed.
Lemma ldot_add_l s a v b : map shape a = map shape b -> map shape v = map shape b -> ldot (ladd a (lscal s v)) b = ldot a b + s * ldot v b.
Proof.
  intros A B. replace (ladd a (lscal s v)) with (ladd (lscal 1 a) (lscal s v)); [rewrite ldot_lin by assumption; ring|].
  assert (S : map shape v = map shape a) by congruence. clear - S. revert v S. induction a as [|x a IH]; intros [|y v] S; try discriminate S; [reflexivity|]. cbn [map] in S. injection S as S1 S2.
  unfold ladd, lscal in *. cbn [map combine fst snd]. f_equal; [|exact (IH v S2)]. unfold tadd, tmap2, tscal, tmap. cbn [shape]. apply mkT_ext. intros idx. cbn. ring.
Qed.
Lemma ldot_add_r s a v b : map shape a = map shape b -> map shape v = map shape b -> ldot b (ladd a (lscal s v)) = ldot b a + s * ldot b v.
Proof.
  intros A B. rewrite ldot_comm; [|rewrite DiffBuild.ladd_shape; rewrite ?DiffBuild.lscal_shape; congruence]. rewrite ldot_add_l by assumption. rewrite (ldot_comm a b A), (ldot_comm v b B). reflexivity.
Qed.

(** The product of two curves. *)
Lemma ldot_derivative f l v g m w : lpasses f l v -> lpasses g m w -> map shape m = map shape l ->
  derivable_pt_lim (fun s => ldot (f s) (g s)) 0 (ldot v m + ldot l w).
Proof.
  intros (F0 & FS & SV & FD) (G0 & GS & SW & GD) S. set (sh := map shape l) in *.
  rewrite (ldot_entries sh v m) by congruence. rewrite (ldot_entries sh l w) by congruence.
  replace (fun s => ldot (f s) (g s)) with (fun s => rsum (length sh) (fun i => sum_idx (nth i sh []) (fun idx => entry (f s) i idx * entry (g s) i idx)))
    by (apply functional_extensionality; intros s; symmetry; apply ldot_entries; [apply FS|rewrite GS; exact S]).
  rewrite <- rsum_plus.
  apply (rsum_derivative (length sh) (fun i s => sum_idx (nth i sh []) (fun idx => entry (f s) i idx * entry (g s) i idx))). intros i I.
  assert (E : sum_idx (nth i sh []) (fun idx => entry v i idx * entry m i idx) + sum_idx (nth i sh []) (fun idx => entry l i idx * entry w i idx) =
              sum_idx (nth i sh []) (fun idx => entry v i idx * entry m i idx + entry l i idx * entry w i idx)) by (rewrite !sum_idx_flat; symmetry; apply rsum_plus).
  rewrite E. apply (sum_idx_derivative (nth i sh []) (fun idx s => entry (f s) i idx * entry (g s) i idx)). intros idx V.
  destruct (nth_shape sh l i eq_refl I) as (t & Et & St). destruct (nth_shape sh m i S I) as (u & Eu & Su).
  pose proof (derivable_pt_lim_mult _ _ _ _ _ (FD i t idx Et ltac:(rewrite St; exact V)) (GD i u idx Eu ltac:(rewrite Su; exact V))) as D. cbv beta in D. rewrite F0, G0 in D. exact D.
Qed.

Lemma entry_app1 a b i idx : (i < length a)%nat -> entry (a ++ b) i idx = entry a i idx.
Proof. intros I. unfold entry. rewrite nth_error_app1 by exact I. reflexivity. Qed.
Lemma entry_app2 a b i idx : entry (a ++ b) (length a + i) idx = entry b i idx.
Proof. unfold entry. rewrite nth_error_app2 by lia. replace (length a + i - length a)%nat with i by lia. reflexivity. Qed.
Lemma entry_scal s a i idx : entry (lscal s a) i idx = s * entry a i idx.
Proof. unfold entry, lscal. rewrite nth_error_map. destruct (nth_error a i); cbn; ring. Qed.

(** ** The gradient of H is the Hamiltonian vector field turned by a quarter *)
Section Field.
Variables (H : list tensor -> res R) (l k G : list tensor) (n : nat).
Hypothesis HK : hamilton H l k.
Hypothesis N : length l = (n + n)%nat.
Hypothesis SG : map shape G = map shape l.
Hypothesis HG : forall u, map shape u = map shape l ->
  exists eps f, 0 < eps /\ (forall s, Rabs s < eps -> H (ladd l (lscal s u)) = Ok (f s)) /\ derivable_pt_lim f 0 (ldot G u).

Lemma half_shapes (x : list tensor) : map shape x = map shape l ->
  map shape (firstn n x) = map shape (firstn n l) /\ map shape (skipn n x) = map shape (firstn n l) /\ length (firstn n x) = n /\ length (skipn n x) = n.
Proof.
  intros S. destruct HK as (_ & m & L & SS & _). assert (m = n) by lia. subst m.
  assert (LX : length x = (n + n)%nat) by (rewrite <- (map_length shape x), S, map_length; exact N).
  split; [rewrite <- !firstn_map, S; reflexivity|]. split; [rewrite <- skipn_map, S, skipn_map; symmetry; exact SS|]. split; [apply firstn_length_le; lia|rewrite skipn_length; lia].
Qed.

Lemma gradient_halves : leq (firstn n G) (lscal (-1) (skipn n k)) /\ leq (skipn n G) (firstn n k).
Proof.
  destruct (half_shapes G SG) as (G1 & G2 & LG1 & LG2). pose proof HK as (SK & m & L & SS & D). assert (m = n) by lia. subst m.
  destruct (half_shapes k SK) as (K1 & K2 & LK1 & LK2). destruct (half_shapes l eq_refl) as (_ & L2 & LL1 & LL2).
  assert (X : forall i t idx, (i < n)%nat -> nth_error (firstn n l) i = Some t -> valid (shape t) idx ->
    entry (firstn n G) i idx = - entry (skipn n k) i idx /\ entry (skipn n G) i idx = entry (firstn n k) i idx).
  { intros i t idx I E V. assert (E' : nth_error l i = Some t) by (rewrite <- (firstn_skipn n l), nth_error_app1 by lia; exact E).
    destruct (D i t idx I E' V) as (D1 & D2).
    assert (E2 : exists t2, nth_error l (n + i) = Some t2 /\ shape t2 = shape t).
    { pose proof (map_nth_error shape i (firstn n l) E) as Z. rewrite <- L2, nth_error_map in Z. destruct (nth_error (skipn n l) i) as [t2|] eqn:F; [|discriminate Z]. injection Z as Z. exists t2.
      split; [|exact Z]. rewrite <- (firstn_skipn n l), nth_error_app2 by lia. rewrite LL1. replace (n + i - n)%nat with i by lia. exact F. }
    destruct E2 as (t2 & E2 & S2).
    pose proof (gradient_entries H l G i t idx _ SG HG E' V D2) as Y1. pose proof (gradient_entries H l G (n + i) t2 idx _ SG HG E2 ltac:(rewrite S2; exact V) D1) as Y2.
    assert (Z : forall x : list tensor, length (firstn n x) = n -> entry x i idx = entry (firstn n x) i idx /\ entry x (n + i) idx = entry (skipn n x) i idx).
    { intros x LX. split; [rewrite <- (firstn_skipn n x) at 1; apply entry_app1; lia|]. rewrite <- (firstn_skipn n x) at 1. replace (n + i)%nat with (length (firstn n x) + i)%nat by lia. apply entry_app2. }
    destruct (Z G LG1) as (Z1 & Z2). destruct (Z k LK1) as (Z3 & Z4). rewrite Z1, Z4 in Y1. rewrite Z2, Z3 in Y2. auto. }
  assert (T : forall (x : list tensor) i t, map shape x = map shape (firstn n l) -> nth_error x i = Some t -> (i < n)%nat /\ exists t', nth_error (firstn n l) i = Some t' /\ shape t' = shape t).
  { intros x i t S E. pose proof (map_nth_error shape i x E) as Z. rewrite S, nth_error_map in Z. destruct (nth_error (firstn n l) i) as [t'|] eqn:F; [|discriminate Z]. injection Z as Z.
    split; [|exists t'; auto]. rewrite <- LL1. apply nth_error_Some. congruence. }
  split; apply leq_entries.
  - rewrite DiffBuild.lscal_shape. congruence.
  - intros i t idx E V. destruct (T _ i t ltac:(rewrite DiffBuild.lscal_shape; exact K2) E) as (I & t' & E' & S'). rewrite entry_scal. destruct (X i t' idx I E' ltac:(rewrite S'; exact V)) as (-> & _). ring.
  - congruence.
  - intros i t idx E V. destruct (T _ i t K1 E) as (I & t' & E' & S'). exact (proj2 (X i t' idx I E' ltac:(rewrite S'; exact V))).
Qed.

Lemma gradient_dot u : map shape u = map shape l -> ldot G u = ldot (firstn n k) (skipn n u) - ldot (skipn n k) (firstn n u).
Proof.
  intros SU. destruct gradient_halves as (A & B). destruct (half_shapes G SG) as (G1 & G2 & LG1 & LG2). destruct (half_shapes u SU) as (U1 & U2 & LU1 & LU2).
  pose proof HK as (SK & _). destruct (half_shapes k SK) as (K1 & K2 & LK1 & LK2).
  rewrite <- (firstn_skipn n G), <- (firstn_skipn n u) at 1. rewrite ldot_app by congruence.
  assert (Q1 : map shape (lscal (-1) (skipn n k)) = map shape (firstn n u)) by (rewrite DiffBuild.lscal_shape; congruence). assert (Q2 : map shape (firstn n k) = map shape (skipn n u)) by congruence.
  rewrite (ldot_same _ _ _ _ Q1 A (leq_refl' (firstn n u))), (ldot_same _ _ _ _ Q2 B (leq_refl' (skipn n u))).
  assert (E : ldot (lscal (-1) (skipn n k)) (firstn n u) = - ldot (skipn n k) (firstn n u)).
  { rewrite (ldot_entries (map shape (firstn n l))) by (rewrite ?DiffBuild.lscal_shape; congruence). rewrite (ldot_entries (map shape (firstn n l)) (skipn n k)) by congruence.
    rewrite <- rsum_opp. apply rsum_ext. intros i _. rewrite !sum_idx_flat, <- rsum_opp. apply rsum_ext. intros j _. rewrite entry_scal. ring. }
  rewrite E. ring.
Qed.
Lemma field_tangent : ldot G k = 0.
Proof.
  pose proof HK as (SK & _). rewrite (gradient_dot k SK). destruct (half_shapes k SK) as (K1 & K2 & _). rewrite (ldot_comm (firstn n k) (skipn n k)) by congruence. ring.
Qed.
End Field.

Lemma along_directions F l G : (forall c v, lpasses c l v -> exists eps f, 0 < eps /\ (forall s, Rabs s < eps -> F (c s) = Ok (f s)) /\ derivable_pt_lim f 0 (ldot G v)) ->
  forall u, map shape u = map shape l -> exists eps f, 0 < eps /\ (forall s, Rabs s < eps -> F (ladd l (lscal s u)) = Ok (f s)) /\ derivable_pt_lim f 0 (ldot G u).
Proof. intros H u S. exact (H _ u (line_passes l u S)). Qed.

(** ** Constant quantities *)
Lemma flat_constant (f : R -> R) a b : (forall t, a < t < b -> derivable_pt_lim f t 0) -> forall s t, a < s < b -> a < t < b -> f s = f t.
Proof.
  intros D. assert (X : forall s t, s < t -> a < s -> t < b -> f s = f t).
  { intros s t L A B. destruct (MVT_cor2 f (fun _ => 0) s t L) as (x & E & _); [intros x X; apply D; lra|]. lra. }
  intros s t S T. destruct (Rtotal_order s t) as [L|[->|L]]; [apply X; lra|reflexivity|symmetry; apply X; lra].
Qed.
Lemma shift_derivable f t d : derivable_pt_lim (fun s => f (t + s)) 0 d -> derivable_pt_lim f t d.
Proof.
  intros D e E. destruct (D e E) as (r & X). exists r. intros h N B. specialize (X h N B). rewrite Rplus_0_l, Rplus_0_r in X. exact X.
Qed.
Lemma derivable_shift f t d : derivable_pt_lim f t d -> derivable_pt_lim (fun s => f (t + s)) 0 d.
Proof.
  intros D e E. destruct (D e E) as (r & X). exists r. intros h N B. specialize (X h N B). rewrite Rplus_0_l, Rplus_0_r. exact X.
Qed.
Lemma solution_passes H c a b t : solution H c a b -> a < t < b -> is_ok (H (c t)) /\ exists k, hamilton H (c t) k /\ lpasses (fun s => c (t + s)) (c t) k.
Proof.
  intros (S & D) T. destruct (D t T) as (O & k & HK & DK). split; [exact O|]. exists k. split; [exact HK|].
  split; [f_equal; ring|]. split; [intros s; apply S|]. split; [apply HK|]. intros i x idx E V. apply (derivable_shift (fun s => entry (c s) i idx)). exact (DK i x idx E V).
Qed.

Definition value_of (x : res R) : R := match x with Ok v => v | Err _ => 0 end.

Lemma energy_constant H c a b : solution H c a b -> (forall t, a < t < b -> differentiable_along H (c t)) ->
  forall s t, a < s < b -> a < t < b -> H (c s) = H (c t).
Proof.
  intros SO DF s t S T.
  assert (D : forall x, a < x < b -> derivable_pt_lim (fun x => value_of (H (c x))) x 0).
  { intros x X. destruct (solution_passes H c a b x SO X) as (_ & k & HK & P). destruct (DF x X) as (G & SG & HG).
    destruct (HG _ k P) as (eps & f & E & Q & D). pose proof HK as (_ & n & N & _). rewrite (field_tangent H (c x) k G n HK N SG (along_directions H (c x) G HG)) in D.
    apply shift_derivable. apply (lim_loc f _ 0 0 eps E); [|exact D]. intros h B. rewrite Rminus_0_r in B. rewrite (Q h B). reflexivity. }
  pose proof (flat_constant _ a b D s t S T) as E. destruct (proj1 (solution_passes H c a b s SO S)) as (x & X). destruct (proj1 (solution_passes H c a b t SO T)) as (y & Y).
  cbv beta in E. rewrite X, Y in *. cbn in E. congruence.
Qed.

(** A function differentiable along curves does not look at values outside the tensors. *)
Lemma along_leq F l l' x : differentiable_along F l -> F l = Ok x -> leq l' l -> F l' = Ok x.
Proof.
  intros (G & SG & HG) X E. set (c := fun s : R => if Req_EM_T s 0 then l else l').
  pose proof (leq_shape _ _ E) as SE.
  assert (P : lpasses c l (map (fun t => tzeros (shape t)) l)).
  { split; [unfold c; destruct (Req_EM_T 0 0) as [_|N]; [reflexivity|elim N; reflexivity]|]. split; [intros s; unfold c; destruct (Req_EM_T s 0); congruence|].
    split; [rewrite map_map; reflexivity|]. intros i t idx Et V. replace (entry (map (fun t => tzeros (shape t)) l) i idx) with 0 by (unfold entry; rewrite nth_error_map, Et; reflexivity).
    replace (fun s => entry (c s) i idx) with (fun _ : R => entry l i idx); [apply derivable_pt_lim_const|]. apply functional_extensionality. intros s. unfold c. destruct (Req_EM_T s 0); [reflexivity|].
    clear - E Et V. revert i Et. induction E as [|y z r r' H _ IH]; intros [|i] Et; try discriminate Et; [|exact (IH i Et)].
    injection Et as ->. destruct H as [H1 H2]. cbn. symmetry. apply H2. rewrite H1. exact V. }
  destruct (HG c _ P) as (e & f & He & Hf & D).
  assert (C0 : c 0 = l) by apply P.
  assert (F0 : f 0 = x) by (specialize (Hf 0 ltac:(rewrite Rabs_R0; exact He)); rewrite C0 in Hf; congruence).
  assert (CN : forall s, s <> 0 -> c s = l') by (intros s N; unfold c; destruct (Req_EM_T s 0); [contradiction|reflexivity]).
  assert (K : forall s, s <> 0 -> Rabs s < e -> F l' = Ok (f s)) by (intros s N B; rewrite <- (CN s N); exact (Hf s B)).
  assert (H2 : Rabs (e / 2) < e) by (rewrite Rabs_right; lra). assert (N2 : e / 2 <> 0) by lra. rewrite (K (e / 2) N2 H2). f_equal. rewrite <- F0.
  assert (CT : continuity_pt f 0) by (apply derivable_continuous_pt; exists (ldot G (map (fun t => tzeros (shape t)) l)); exact D).
  destruct (Req_dec (f (e / 2)) (f 0)) as [Q|Q]; [exact Q|]. exfalso.
  destruct (CT (Rabs (f (e / 2) - f 0))) as (a & A & B); [apply Rabs_pos_lt; lra|].
  set (s := Rmin a e / 2). assert (0 < Rmin a e) by (apply Rmin_pos; assumption). pose proof (Rmin_l a e). pose proof (Rmin_r a e).
  assert (S0 : s <> 0) by (unfold s; lra). assert (SA : Rabs s < a) by (unfold s; rewrite Rabs_right; lra). assert (SE' : Rabs s < e) by (unfold s; rewrite Rabs_right; lra).
  assert (V : f s = f (e / 2)) by (pose proof (K s S0 SE') as Y; rewrite (K (e / 2) N2 H2) in Y; congruence).
  specialize (B s). cbn in B. unfold R_dist in B. rewrite V, Rminus_0_r in B. apply (Rlt_irrefl (Rabs (f (e / 2) - f 0))). apply B. split; [|exact SA]. split; [exact Logic.I|]. intros Z. apply S0. symmetry. exact Z.
Qed.

Lemma hamilton_unique H l k k' : hamilton H l k -> hamilton H l k' -> leq k k'.
Proof.
  intros (S & n & N & SS & D) (S' & n' & N' & _ & D'). assert (n' = n) by lia. subst n'.
  assert (U : forall i idx x y, partial_derivative H l i idx x -> partial_derivative H l i idx y -> x = y).
  { intros i idx x y (e1 & f1 & P1 & Q1 & D1) (e2 & f2 & P2 & Q2 & D2). apply (uniqueness_limite f1 (entry l i idx)); [exact D1|].
    apply (lim_loc f2 f1 _ y (Rmin e1 e2)); [apply Rmin_pos; assumption| |exact D2]. intros s B.
    specialize (Q1 s ltac:(eapply Rlt_le_trans; [exact B|apply Rmin_l])). specialize (Q2 s ltac:(eapply Rlt_le_trans; [exact B|apply Rmin_r])). congruence. }
  apply leq_entries; [congruence|]. intros j t idx E V.
  assert (J : (j < n + n)%nat). { rewrite <- N, <- (map_length shape l), <- S', map_length. apply nth_error_Some. congruence. }
  assert (EL : exists u, nth_error l j = Some u /\ shape u = shape t).
  { pose proof (map_nth_error shape j k' E) as Z. rewrite S', nth_error_map in Z. destruct (nth_error l j) as [u|]; [|discriminate Z]. injection Z as Z. exists u. auto. }
  destruct EL as (u & Eu & Su).
  destruct (Nat.lt_ge_cases j n) as [L|L].
  - destruct (D j u idx L Eu ltac:(rewrite Su; exact V)) as (A & _). destruct (D' j u idx L Eu ltac:(rewrite Su; exact V)) as (A' & _). exact (U _ _ _ _ A A').
  - assert (EI : exists w, nth_error l (j - n) = Some w /\ shape w = shape t).
    { assert (F : nth_error (skipn n l) (j - n) = Some u). { rewrite <- (firstn_skipn n l), nth_error_app2 in Eu; rewrite firstn_length_le in * by lia; [exact Eu|exact L]. }
      pose proof (map_nth_error shape _ _ F) as Z. rewrite <- SS, nth_error_map in Z. destruct (nth_error (firstn n l) (j - n)) as [w|] eqn:Ew; [|discriminate Z]. injection Z as Z. exists w.
      split; [|congruence]. rewrite <- (firstn_skipn n l), nth_error_app1; [exact Ew|]. rewrite firstn_length_le; lia. }
    destruct EI as (w & Ew & Sw). destruct (D (j - n)%nat w idx ltac:(lia) Ew ltac:(rewrite Sw; exact V)) as (_ & A). destruct (D' (j - n)%nat w idx ltac:(lia) Ew ltac:(rewrite Sw; exact V)) as (_ & A').
    replace (n + (j - n))%nat with j in A, A' by lia. pose proof (U _ _ _ _ A A'). lra.
Qed.

Lemma leq_line l s k k' : map shape k' = map shape l -> leq k k' -> leq (ladd l (lscal s k)) (ladd l (lscal s k')).
Proof.
  intros SL E. revert l SL. induction E as [|x y k k' [S X] _ IH]; intros [|t l] SL; try discriminate SL; [constructor|]. cbn [map] in SL. injection SL as S1 S2.
  unfold ladd, lscal in *. cbn [map combine fst snd]. constructor; [|exact (IH l S2)]. split; [reflexivity|].
  intros idx V. cbn [tadd tmap2 shape] in V. change (get t idx + s * get x idx = get t idx + s * get y idx). rewrite X; [reflexivity|]. rewrite S, S1. exact V.
Qed.

(** One explicit Euler step changes the energy by o(dt). *)
Lemma energy_step shs H l k0 : smooth_along shs H -> map shape l = shs -> is_ok (H l) -> hamilton H l k0 -> forall eps, 0 < eps ->
  exists h0, 0 < h0 /\ forall k l' dt, hamilton H l k -> leq l' (ladd l (lscal dt k)) -> Rabs dt < h0 ->
    exists x y, H l = Ok x /\ H l' = Ok y /\ Rabs (y - x) <= eps * Rabs dt.
Proof.
  intros SM SL (x & X) HK0 eps E. destruct (SM l x SL X) as (G & SG & HG). pose proof HK0 as (SK0 & n & N & _).
  destruct (along_directions H l G HG k0 SK0) as (e & f & P & Q & D). rewrite (field_tangent H l k0 G n HK0 N SG (along_directions H l G HG)) in D.
  destruct (D eps E) as (r & B). assert (F0 : f 0 = x).
  { specialize (Q 0 ltac:(rewrite Rabs_R0; exact P)). rewrite (proj1 (line_passes l k0 SK0)) in Q. congruence. }
  exists (Rmin e r). split; [apply Rmin_pos; [exact P|apply cond_pos]|]. intros k l' dt HK EL L.
  assert (L1 : Rabs dt < e) by (eapply Rlt_le_trans; [exact L|apply Rmin_l]). assert (L2 : Rabs dt < r) by (eapply Rlt_le_trans; [exact L|apply Rmin_r]).
  exists x, (f dt). split; [exact X|]. split.
  - assert (SS : map shape (ladd l (lscal dt k0)) = shs) by (rewrite (proj1 (proj2 (line_passes l k0 SK0)) dt); exact SL).
    apply (along_leq H (ladd l (lscal dt k0))); [exact (SM _ _ SS (Q dt L1))|exact (Q dt L1)|].
    eapply leq_trans'; [exact EL|]. apply leq_line; [exact SK0|]. exact (hamilton_unique H l k k0 HK HK0).
  - destruct (Req_dec dt 0) as [->|N0]; [rewrite F0, Rminus_diag_eq, Rabs_R0 by reflexivity; lra|].
    specialize (B dt N0 L2). rewrite Rplus_0_l, F0, Rminus_0_r in B. pose proof (Rabs_pos_lt dt N0) as PD. unfold Rdiv in B. rewrite Rabs_mult, Rabs_inv in B.
    apply Rlt_le. apply (Rmult_lt_reg_r (/ Rabs dt)); [apply Rinv_0_lt_compat; exact PD|]. rewrite Rmult_assoc, Rinv_r, Rmult_1_r by lra. exact B.
Qed.
