(** Shooting with modules listed in another order. *)
From Coq Require Import Reals String List Arith Lia Lra Permutation.
From Verif Require Import Py RSum Tensor TensorFacts KernelModel FieldModel GeometryModel ModuleModel ShootingModel
  SpecKernel SpecField SpecGeometry SpecModule SpecShooting SpecMotion SpecTransport SpecSmooth SpecOrder ModuleAlg ModuleLeaves ModuleMain ShootingPack ShootingDyn MotionFacts MotionShoot MotionMomentum
  TransportFacts RigidControl RigidShoot DiffBuild EnergyFacts OrderFacts.
Import ListNotations.
Open Scope R_scope.

(** ** Picked lists as vectors *)
Lemma leq_pick q a b : leq a b -> leq (pick q a) (pick q b).
Proof.
  intros E. induction q as [|i q IH]; [constructor|]. rewrite !pick_cons. apply Forall2_app; [|exact IH]. clear IH.
  revert i. induction E as [|x y a b T _ IH]; intros [|i]; cbn [nth_error]; try (constructor; fail); [repeat constructor; apply T|]. 
  apply IH.
Qed.
Lemma pick_ladd q a b : length a = length b -> pick q (ladd a b) = ladd (pick q a) (pick q b).
Proof. intros L. unfold ladd. rewrite pick_map, pick_combine by exact L. reflexivity. Qed.
Lemma pick_lscal q s a : pick q (lscal s a) = lscal s (pick q a).
Proof. apply pick_map. Qed.

Lemma leq_add a b v w : map shape b = map shape w -> leq a b -> leq v w -> leq (ladd a v) (ladd b w).
Proof.
  intros S E. revert v w S. induction E as [|x y a b T _ IH]; intros v w S V; [constructor|]. inversion V as [|u u' v1 w1 U UV]; subst; [constructor|]. cbn [map] in S. injection S as S1 S2.
  unfold ladd in *. cbn [combine map fst snd]. constructor; [|apply IH; assumption]. destruct T as (T1 & T2), U as (U1 & U2). split; [exact T1|]. intros idx I. cbn in *. rewrite T2, U2; [reflexivity| |exact I].
  rewrite U1, <- S1, <- T1. exact I.
Qed.
Lemma leq_scal s a b : leq a b -> leq (lscal s a) (lscal s b).
Proof.
  intros E. induction E as [|x y a b T _ IH]; [constructor|]. cbn. constructor; [|exact IH]. destruct T as (T1 & T2). split; [exact T1|]. intros idx I. cbn in *. rewrite T2 by exact I. reflexivity.
Qed.
Lemma pick_shape q a : map shape (pick q a) = pick q (map shape a).
Proof. symmetry. apply pick_map. Qed.

Section Pairs.
Variables (q : list nat) (shs : list (list nat)).
Variables F F' : vfields.
Hypothesis rel : forall j l l' k k', map shape l = shs -> leq l' (pick q l) -> F j l k -> F' j l' k' -> map shape k = shs /\ leq k' (pick q k).

Definition picked (s s' : list tensor) : Prop := map shape s = shs /\ leq s' (pick q s).

Lemma psadd l k : map shape l = shs -> map shape k = shs -> map shape (ladd l k) = shs.
Proof. intros A B. rewrite DiffBuild.ladd_shape; [exact A|congruence]. Qed.
Lemma psscal s k : map shape k = shs -> map shape (lscal s k) = shs.
Proof. intros B. rewrite DiffBuild.lscal_shape. exact B. Qed.
Lemma same_len a b : map shape a = shs -> map shape b = shs -> length a = length b.
Proof. intros A B. rewrite <- (map_length shape a), <- (map_length shape b), A, B. reflexivity. Qed.
Lemma pradd v w v' w' : map shape v = shs -> map shape w = shs -> leq v' (pick q v) -> leq w' (pick q w) -> leq (ladd v' w') (pick q (ladd v w)).
Proof. intros A B E E'. rewrite (pick_ladd q v w (same_len v w A B)). apply leq_add; [rewrite !pick_shape, A, B; reflexivity|exact E|exact E']. Qed.
Lemma prscal s v v' : map shape v = shs -> leq v' (pick q v) -> leq (lscal s v') (pick q (lscal s v)).
Proof. intros _ E. rewrite pick_lscal. apply leq_scal. exact E. Qed.
Lemma pnext l l' k k' s r r' : picked l l' -> map shape k = shs -> leq k' (pick q k) -> leq r (ladd l (lscal s k)) -> leq r' (ladd l' (lscal s k')) -> picked r r'.
Proof.
  intros (S & E) K EK R R'. split; [rewrite (leq_shape _ _ R); apply psadd; [exact S|apply psscal; exact K]|].
  apply leq_trans' with (ladd l' (lscal s k')); [exact R'|]. apply leq_trans' with (pick q (ladd l (lscal s k))); [apply pradd; [exact S|apply psscal; exact K|exact E|apply prscal; assumption]|].
  apply leq_pick. apply leq_sym. exact R.
Qed.

Ltac lin := repeat first [assumption | apply pradd | apply prscal | apply psadd | apply psscal].

Lemma step_picked sch o dt l l' ss ss' r r' : picked l l' -> scheme_step sch (fun j => F (o + j)%nat) dt l ss r -> scheme_step sch (fun j => F' (o + j)%nat) dt l' ss' r' ->
  picked r r' /\ Forall2 picked ss ss'.
Proof.
  intros R. destruct sch; cbn [scheme_step].
  - intros (k & -> & K & E) (k' & -> & K' & E'). destruct (rel _ _ _ _ _ (proj1 R) (proj2 R) K K') as (S1 & E1).
    split; [exact (pnext _ _ _ _ _ _ _ R S1 E1 E E')|repeat constructor; apply R].
  - intros (k1 & l2 & k2 & -> & K1 & E2 & K2 & E) (k1' & l2' & k2' & -> & K1' & E2' & K2' & E').
    destruct (rel _ _ _ _ _ (proj1 R) (proj2 R) K1 K1') as (S1 & V1). pose proof (pnext _ _ _ _ _ _ _ R S1 V1 E2 E2') as R2.
    destruct (rel _ _ _ _ _ (proj1 R2) (proj2 R2) K2 K2') as (S2 & V2).
    split; [exact (pnext _ _ _ _ _ _ _ R S2 V2 E E')|repeat constructor; try apply R; apply R2].
  - intros (k1 & l2 & k2 & l3 & k3 & l4 & k4 & -> & K1 & E2 & K2 & E3 & K3 & E4 & K4 & E) (k1' & l2' & k2' & l3' & k3' & l4' & k4' & -> & K1' & E2' & K2' & E3' & K3' & E4' & K4' & E').
    destruct (rel _ _ _ _ _ (proj1 R) (proj2 R) K1 K1') as (S1 & V1). pose proof (pnext _ _ _ _ _ _ _ R S1 V1 E2 E2') as R2.
    destruct (rel _ _ _ _ _ (proj1 R2) (proj2 R2) K2 K2') as (S2 & V2).
    assert (R3 : picked l3 l3') by (eapply pnext; [exact R| | |exact E3|exact E3']; lin).
    destruct (rel _ _ _ _ _ (proj1 R3) (proj2 R3) K3 K3') as (S3 & V3).
    assert (R4 : picked l4 l4') by (eapply pnext; [exact R| | |exact E4|exact E4']; lin).
    destruct (rel _ _ _ _ _ (proj1 R4) (proj2 R4) K4 K4') as (S4 & V4).
    split; [eapply pnext; [exact R| | |exact E|exact E']; lin|]. repeat constructor; try apply R; try apply R2; try apply R3; apply R4.
Qed.

Lemma trajectory_picked sch dt states stages states' stages' l0 l0' :
  trajectory sch F dt states stages -> trajectory sch F' dt states' stages' -> length stages' = length stages ->
  nth_error states 0 = Some l0 -> nth_error states' 0 = Some l0' -> picked l0 l0' ->
  forall i l l', nth_error states i = Some l -> nth_error states' i = Some l' ->
    picked l l' /\ forall ss ss', nth_error stages i = Some ss -> nth_error stages' i = Some ss' -> Forall2 picked ss ss'.
Proof.
  intros (L & T) (L' & T') LL E0 E0' R0.
  assert (X : forall i l l', nth_error states i = Some l -> nth_error states' i = Some l' -> picked l l').
  { induction i as [|i IH]; intros l l' E E'; [congruence|].
    assert (I : (S i < length states)%nat) by (apply nth_error_Some; congruence).
    destruct (nth_error states i) as [x|] eqn:Ex; [|apply nth_error_None in Ex; lia]. destruct (nth_error states' i) as [x'|] eqn:Ex'; [|apply nth_error_None in Ex'; lia].
    destruct (nth_error stages i) as [ss|] eqn:Es; [|apply nth_error_None in Es; lia]. destruct (nth_error stages' i) as [ss'|] eqn:Es'; [|apply nth_error_None in Es'; lia].
    exact (proj1 (step_picked sch _ dt x x' ss ss' l l' (IH x x' eq_refl eq_refl) (T i x ss l Ex Es E) (T' i x' ss' l' Ex' Es' E'))). }
  intros i l l' E E'. split; [exact (X i l l' E E')|]. intros ss ss' Es Es'.
  assert (I : (i < length stages)%nat) by (apply nth_error_Some; congruence).
  destruct (nth_error states (S i)) as [y|] eqn:Ey; [|apply nth_error_None in Ey; lia]. destruct (nth_error states' (S i)) as [y'|] eqn:Ey'; [|apply nth_error_None in Ey'; lia].
  exact (proj2 (step_picked sch _ dt l l' ss ss' y y' (X i l l' E E') (T i l ss y E Es Ey) (T' i l' ss' y' E' Es' Ey'))).
Qed.
End Pairs.

(** ** Hamilton's equations *)
Lemma nth_upd l : forall i idx s j, nth_error (upd l i idx s) j = if Nat.eqb j i then match nth_error l i with Some t => Some (tset t idx s) | None => None end else nth_error l j.
Proof.
  induction l as [|t l IH]; intros i idx s j; [cbn [upd]; destruct i, j; cbn; try reflexivity; destruct (Nat.eqb j i); reflexivity|].
  destruct i as [|i], j as [|j]; cbn [upd nth_error Nat.eqb]; try reflexivity. apply IH.
Qed.
Lemma upd_shape l : forall i idx s, map shape (upd l i idx s) = map shape l.
Proof. induction l as [|t l IH]; intros [|i] idx s; cbn [upd map]; try reflexivity. rewrite IH. reflexivity. Qed.
Lemma leq_nths a : forall b, length a = length b -> (forall j x y, nth_error a j = Some x -> nth_error b j = Some y -> teq x y) -> leq a b.
Proof.
  induction a as [|x a IH]; intros [|y b] L H; try discriminate L; constructor; [exact (H 0%nat x y eq_refl eq_refl)|].
  apply IH; [injection L; auto|]. intros j. exact (H (S j)).
Qed.
Lemma leq_at a b : leq a b -> forall j x y, nth_error a j = Some x -> nth_error b j = Some y -> teq x y.
Proof. intros E. induction E as [|x y a b T _ IH]; intros [|j] u v A B; try discriminate A; [injection A as <-; injection B as <-; exact T|exact (IH j u v A B)]. Qed.

Lemma upd_picked q l l' i j idx s : NoDup q -> Forall (fun i => (i < length l)%nat) q -> leq l' (pick q l) -> nth_error q j = Some i -> leq (upd l' j idx s) (pick q (upd l i idx s)).
Proof.
  intros ND B E J. assert (LU : length (upd l i idx s) = length l) by (rewrite <- (map_length shape), upd_shape, map_length; reflexivity).
  assert (B2 : Forall (fun i0 => (i0 < length (upd l i idx s))%nat) q) by (rewrite LU; exact B).
  apply leq_nths.
  - rewrite (pick_length q _ B2). rewrite <- (map_length shape (upd l' j idx s)), upd_shape, map_length. rewrite (F2len E). apply pick_length. exact B.
  - intros a x y X Y. rewrite nth_upd in X.
    assert (A : exists b, nth_error q a = Some b). { destruct (nth_error q a) as [b|] eqn:Eb; [eauto|]. apply nth_error_None in Eb. assert (a < length (pick q (upd l i idx s)))%nat by (apply nth_error_Some; congruence). rewrite (pick_length q _ B2) in H. lia. }
    destruct A as (b & Eb). rewrite (nth_pick q _ a b B2 Eb), nth_upd in Y.
    destruct (Nat.eqb_spec a j) as [->|N].
    + rewrite J in Eb. injection Eb as <-. rewrite Nat.eqb_refl in Y. destruct (nth_error l' j) as [t'|] eqn:T'; [|discriminate X]. destruct (nth_error l i) as [t|] eqn:T; [|discriminate Y].
      injection X as <-. injection Y as <-. pose proof (leq_at _ _ E j t' t T' ltac:(rewrite (nth_pick q l j i B J); exact T)) as (S1 & S2).
      split; [exact S1|]. intros k V. cbn [tset get shape] in *. destruct (idx_eqb k idx); [reflexivity|]. apply S2. exact V.
    + destruct (Nat.eqb_spec b i) as [EB|NB].
      * elim N. apply (proj1 (NoDup_nth_error q) ND); [apply nth_error_Some; congruence|congruence].
      * apply (leq_at _ _ E a x y X). rewrite (nth_pick q l a b B Eb). exact Y.
Qed.

Lemma entry_picked q l l' i j t idx : Forall (fun i => (i < length l)%nat) q -> leq l' (pick q l) -> nth_error q j = Some i -> nth_error l i = Some t -> valid (shape t) idx -> entry l' j idx = entry l i idx.
Proof.
  intros B E J T V. unfold entry. rewrite T. assert (P : nth_error (pick q l) j = Some t) by (rewrite (nth_pick q l j i B J); exact T).
  destruct (nth_error l' j) as [t'|] eqn:T'.
  - destruct (leq_at _ _ E j t' t T' P) as (S1 & S2). apply S2. rewrite S1. exact V.
  - apply nth_error_None in T'. rewrite (F2len E) in T'. assert (j < length (pick q l))%nat by (apply nth_error_Some; congruence). lia.
Qed.

Section Hamilton.
Variables (q : list nat) (N : nat) (shs : list (list nat)) (H H' : list tensor -> res R).
Hypothesis PQ : Permutation q (seq 0 N).
Hypothesis LS : length shs = (N + N)%nat.
Definition twice : list nat := q ++ map (Nat.add N) q.
Hypothesis same : forall x x' v v', map shape x = shs -> leq x' (pick twice x) -> H x = Ok v -> H' x' = Ok v' -> v' = v.

Lemma twice_perm : Permutation twice (seq 0 (N + N)).
Proof.
  unfold twice. rewrite seq_app. apply Permutation_app; [exact PQ|]. cbn [Nat.add].
  eapply Permutation_trans; [apply Permutation_map; exact PQ|]. replace (map (Nat.add N) (seq 0 N)) with (seq N N); [apply Permutation_refl|].
  clear. assert (X : forall k a n, seq (a + k) n = map (Nat.add a) (seq k n)) by (intros k a n; revert k; induction n as [|n IH]; intros k; [reflexivity|]; cbn; rewrite <- IH; f_equal; f_equal; lia).
  rewrite <- (X 0%nat N N). f_equal. lia.
Qed.
Lemma twice_nodup : NoDup twice.
Proof. apply (Permutation_NoDup (Permutation_sym twice_perm)). apply seq_NoDup. Qed.
Lemma twice_bound (l : list tensor) : map shape l = shs -> Forall (fun i => (i < length l)%nat) twice.
Proof. intros S. rewrite <- (map_length shape l), S, LS. apply pick_bound. exact twice_perm. Qed.

Lemma deriv_picked l l' i j t idx g g' : map shape l = shs -> leq l' (pick twice l) -> nth_error twice j = Some i -> nth_error l i = Some t -> valid (shape t) idx ->
  partial_derivative H l i idx g -> partial_derivative H' l' j idx g' -> g' = g.
Proof.
  intros S E J T V (e1 & f1 & P1 & Q1 & D1) (e2 & f2 & P2 & Q2 & D2). rewrite (entry_picked twice l l' i j t idx (twice_bound l S) E J T V) in Q2, D2.
  apply (uniqueness_limite f1 (entry l i idx)); [|exact D1]. apply (lim_loc f2 f1 _ _ (Rmin e1 e2)); [apply Rmin_pos; assumption| |exact D2]. intros s B.
  specialize (Q1 s ltac:(eapply Rlt_le_trans; [exact B|apply Rmin_l])). specialize (Q2 s ltac:(eapply Rlt_le_trans; [exact B|apply Rmin_r])).
  eapply same; [|apply (upd_picked twice l l' i j idx s twice_nodup (twice_bound l S) E J)|exact Q1|exact Q2]. rewrite upd_shape. exact S.
Qed.

Lemma hamilton_picked l l' k k' : map shape l = shs -> leq l' (pick twice l) -> hamilton H l k -> hamilton H' l' k' -> map shape k = shs /\ leq k' (pick twice k).
Proof.
  intros S E (SK & n & Ln & SS & HK) (SK' & n' & Ln' & SS' & HK'). split; [congruence|].
  assert (LQ : length q = N) by exact (perm_len N q PQ).
  assert (Ll : length l = (N + N)%nat) by (rewrite <- (map_length shape l), S; exact LS). assert (n = N) by lia. subst n.
  assert (Ll' : length l' = (N + N)%nat). { rewrite (F2len E), (pick_length twice l (twice_bound l S)). unfold twice. rewrite app_length, map_length. lia. }
  assert (n' = N) by lia. subst n'. pose proof (twice_bound l S) as B.
  assert (BK : Forall (fun i => (i < length k)%nat) twice) by (apply twice_bound; congruence).
  apply leq_entries; [rewrite SK', (leq_shape _ _ E), !pick_shape, SK; reflexivity|]. intros j t idx Ej V.
  assert (J : (j < N + N)%nat). { assert (X : (j < length (pick twice k))%nat) by (apply nth_error_Some; congruence). rewrite (pick_length _ _ BK) in X. unfold twice in X. rewrite app_length, map_length in X. lia. }
  set (j0 := if Nat.ltb j N then j else (j - N)%nat). assert (J0 : (j0 < N)%nat) by (unfold j0; destruct (Nat.ltb_spec j N); lia).
  destruct (nth_error q j0) as [i0|] eqn:E0; [|apply nth_error_None in E0; lia].
  assert (I0 : (i0 < N)%nat). { pose proof (pick_bound N q PQ) as X. rewrite Forall_forall in X. apply X. exact (nth_error_In _ _ E0). }
  assert (T1 : nth_error twice j0 = Some i0) by (unfold twice; rewrite nth_error_app1 by lia; exact E0).
  assert (T2 : nth_error twice (N + j0) = Some (N + i0)%nat).
  { unfold twice. rewrite nth_error_app2 by lia. replace (N + j0 - length q)%nat with j0 by lia. rewrite nth_error_map, E0. reflexivity. }
  destruct (nth_error l i0) as [u|] eqn:Eu; [|apply nth_error_None in Eu; lia]. destruct (nth_error l (N + i0)) as [w|] eqn:Ew; [|apply nth_error_None in Ew; lia].
  assert (SW : shape w = shape u).
  { assert (A : nth_error (map shape (firstn N l)) i0 = Some (shape u)) by (rewrite nth_error_map, nth_first, Eu by exact I0; reflexivity).
    rewrite SS, nth_error_map, nth_skip, Ew in A. injection A as A. exact A. }
  assert (NN : forall (x y : list tensor) i a, map shape x = map shape y -> nth_error x i = Some a -> exists b, nth_error y i = Some b /\ shape b = shape a).
  { intros x y i a Sxy NX. assert (N2 : nth_error (map shape y) i = Some (shape a)) by (rewrite <- Sxy, nth_error_map, NX; reflexivity).
    rewrite nth_error_map in N2. destruct (nth_error y i) as [b|]; [|discriminate N2]. injection N2 as N2. eauto. }
  assert (EJ : (j = j0 /\ nth_error twice j = Some i0) \/ (j = N + j0 /\ nth_error twice j = Some (N + i0))%nat).
  { unfold j0 in *. destruct (Nat.ltb_spec j N); [left; split; [reflexivity|exact T1]|right]. replace (N + (j - N))%nat with j in * by lia. split; [reflexivity|exact T2]. }
  assert (VT : shape t = shape u).
  { destruct EJ as [(_ & X)|(_ & X)]; rewrite (nth_pick twice k j _ BK X) in Ej; destruct (NN k l _ t SK Ej) as (b & Eb & Sb); [rewrite Eu in Eb|rewrite Ew in Eb]; injection Eb as <-; congruence. }
  rewrite VT in V.
  destruct (nth_error l' j0) as [u'|] eqn:Eu'; [|apply nth_error_None in Eu'; lia].
  assert (SU : shape u' = shape u) by (apply (leq_at _ _ E j0 u' u Eu'); rewrite (nth_pick twice l j0 i0 B T1); exact Eu).
  destruct (HK i0 u idx I0 Eu V) as (A1 & A2). destruct (HK' j0 u' idx J0 Eu' ltac:(rewrite SU; exact V)) as (C1 & C2).
  assert (EP : forall i, nth_error twice j = Some i -> entry (pick twice k) j idx = entry k i idx) by (intros i X; unfold entry; rewrite (nth_pick twice k j i BK X); reflexivity).
  destruct EJ as [(EJ & X)|(EJ & X)]; rewrite (EP _ X), EJ.
  - exact (deriv_picked l l' (N + i0) (N + j0) w idx _ _ S E T2 Ew ltac:(rewrite SW; exact V) A1 C1).
  - pose proof (deriv_picked l l' i0 j0 u idx _ _ S E T1 Eu V A2 C2). lra.
Qed.
End Hamilton.

Lemma app_inj_len {A} (a a' b b' : list A) : length a = length a' -> a ++ b = a' ++ b' -> a = a' /\ b = b'.
Proof. revert a'. induction a as [|x a IH]; intros [|y a'] L E; try discriminate L; [auto|]. cbn in E. injection E as -> E. destruct (IH a' ltac:(injection L; auto) E) as (-> & ->). auto. Qed.

(** ** Modules at corresponding states *)
Lemma concat_eq {A} (bs bs' : list (list A)) : map (@length A) bs = map (@length A) bs' -> List.concat bs = List.concat bs' -> bs = bs'.
Proof.
  intros L E. assert (F : Forall2 (@eq A) (List.concat bs) (List.concat bs')) by (rewrite E; clear; induction (List.concat bs'); constructor; auto).
  apply (concat_forall2 _ bs bs' L) in F. clear - F. induction F as [|b b' bs bs' X _ IH]; [reflexivity|]. f_equal; [|exact IH]. clear - X. induction X; congruence.
Qed.
Lemma map_eq_pair {A B C} (f : A -> B) (g : A -> C) (P : A -> A -> Prop) : (forall a a', f a = f a' -> g a = g a' -> P a a') -> forall l l', map f l = map f l' -> map g l = map g l' -> Forall2 P l l'.
Proof. intros H. induction l as [|a l IH]; intros [|a' l'] E G; try discriminate E; [constructor|]. cbn in E, G. injection E as E1 E2. injection G as G1 G2. constructor; auto. Qed.

Section Modules.
Variables (d : nat) (p : list nat) (m m' : dmod) (sv : solver) (b0 : backend) (cs cs' : option (list ctrl)).
Hypothesis HS : exact_solver sv.
Hypothesis W : wf_mod d m.
Hypothesis W' : wf_mod d m'.
Hypothesis LS : locals_smooth d m.
Hypothesis RE : rearranged p m m'.
Hypothesis CS : match cs, cs' with None, None => True | Some l, Some l' => Forall2 (driven_alike p m m') l l' | _, _ => False end.
Hypothesis CO : forall l x, cs = Some l -> In x l -> ctrl_ok d m x.
Hypothesis CO' : forall l x, cs' = Some l -> In x l -> ctrl_ok d m' x.
Notation g0 := (mod_manifold m).
Notation g0' := (mod_manifold m').
Definition sizes : list nat := map (fun x => g_len (mod_manifold x)) (leaves m).
Definition places : list nat := spread p sizes.
Notation N := (g_len g0).
Notation shs := (map shape (phase g0)).
Notation T := (twice places N).

Lemma LS' : locals_smooth d m'.
Proof.
  apply locals_leaves. destruct RE as (P & ->). apply locals_leaves in LS. rewrite Forall_forall in *. intros x X. apply LS. exact (Permutation_in _ (pick_perm p _ P) X).
Qed.
Lemma sizes_of g : skel g = skel g0 -> map (@length tensor) (map g_gd (pieces m g)) = sizes /\ map (@length tensor) (map g_cotan (pieces m g)) = sizes /\ N = list_sum sizes.
Proof.
  intros K. destruct (pieces_skel m g K) as (A & G & C).
  assert (X : map g_len (pieces m g) = sizes).
  { unfold sizes. clear - A. revert A. generalize (leaves m). induction (pieces m g) as [|x l IH]; intros [|y r] A; try discriminate A; [reflexivity|]. cbn in *. injection A as A1 A2. rewrite (IH r A2), (skel_len x (mod_manifold y) A1). reflexivity. }
  split; [rewrite map_map, <- X; apply map_ext; intros; apply g_gd_len|]. split; [rewrite map_map, <- X; apply map_ext; intros; apply g_cotan_len|].
  rewrite <- (skel_len _ _ K), <- g_gd_len, G. rewrite <- X. clear. induction (pieces m g) as [|x l IH]; [reflexivity|]. cbn [map List.concat]. rewrite app_length, IH, g_gd_len. reflexivity.
Qed.
Lemma places_perm : Permutation places (seq 0 N).
Proof.
  destruct (sizes_of g0 eq_refl) as (_ & _ & ->). apply spread_perm. unfold sizes. rewrite map_length. exact (proj1 RE).
Qed.
Lemma shs_len : length shs = (N + N)%nat.
Proof. rewrite map_length. apply phase_len. Qed.
Lemma pick_shift (q : list nat) {A} (a b : list A) : Forall (fun i => (i < length b)%nat) q -> pick (map (Nat.add (length a)) q) (a ++ b) = pick q b.
Proof.
  induction 1 as [|i q I _ IH]; [reflexivity|]. cbn [map]. rewrite !pick_cons, nth_error_app2 by lia. replace (length a + i - length a)%nat with i by lia. rewrite IH. reflexivity.
Qed.
Lemma pick_left (q : list nat) {A} (a b : list A) : Forall (fun i => (i < length a)%nat) q -> pick q (a ++ b) = pick q a.
Proof. induction 1 as [|i q I _ IH]; [reflexivity|]. rewrite !pick_cons, nth_error_app1 by lia. rewrite IH. reflexivity. Qed.
Lemma pick_twice (a b : list tensor) : length a = N -> length b = N -> pick T (a ++ b) = pick places a ++ pick places b.
Proof.
  intros A B. unfold twice. pose proof (pick_bound _ _ places_perm) as BD. rewrite pick_app, pick_left by (rewrite A; exact BD). f_equal. rewrite <- A at 1. apply pick_shift. rewrite B. exact BD.
Qed.
Lemma phase_pieces g : skel g = skel g0 -> pick T (phase g) = List.concat (map g_gd (pick p (pieces m g))) ++ List.concat (map g_cotan (pick p (pieces m g))).
Proof.
  intros K. destruct (pieces_skel m g K) as (_ & G & C). destruct (sizes_of g K) as (S1 & S2 & _). unfold phase.
  rewrite pick_twice by (rewrite ?g_gd_len, ?g_cotan_len; apply skel_len; exact K). rewrite G, C. unfold places. rewrite (pick_spread p sizes _ S1), (pick_spread p sizes _ S2), !pick_map. reflexivity.
Qed.
Lemma lens_of g g' : skel g = skel g0 -> skel g' = skel g0' ->
  map skel (pieces m' g') = map skel (pick p (pieces m g)) /\
  map (@length tensor) (map g_gd (pieces m' g')) = map (@length tensor) (map g_gd (pick p (pieces m g))) /\
  map (@length tensor) (map g_cotan (pieces m' g')) = map (@length tensor) (map g_cotan (pick p (pieces m g))).
Proof.
  intros K K'. destruct (pieces_skel m g K) as (A & _). destruct (pieces_skel m' g' K') as (A' & _).
  assert (X : map skel (pieces m' g') = map skel (pick p (pieces m g))) by (rewrite A', (proj2 RE), <- !pick_map, A, pick_map; reflexivity).
  split; [exact X|]. assert (Y : map g_len (pieces m' g') = map g_len (pick p (pieces m g))).
  { clear - X. revert X. generalize (pick p (pieces m g)). induction (pieces m' g') as [|x l IH]; intros [|y r] X; try discriminate X; [reflexivity|]. cbn in *. injection X as X1 X2. rewrite (IH r X2), (skel_len x y X1). reflexivity. }
  rewrite !map_map. rewrite !(map_ext _ _ g_gd_len), !(map_ext _ _ g_cotan_len). split; exact Y.
Qed.
Lemma halves (P : tensor -> tensor -> Prop) (a a' b b' : list tensor) : length a = length a' -> Forall2 P (a ++ b) (a' ++ b') -> Forall2 P a a' /\ Forall2 P b b'.
Proof.
  revert a'. induction a as [|x a IH]; intros [|y a'] L F; try discriminate L; [split; [constructor|exact F]|]. cbn [app] in F. inversion F; subst. destruct (IH a' ltac:(injection L; auto)); [assumption|]. split; [constructor; assumption|assumption].
Qed.
Lemma len_concat (bs bs' : list (list tensor)) : map (@length tensor) bs = map (@length tensor) bs' -> length (List.concat bs) = length (List.concat bs').
Proof. revert bs'. induction bs as [|b bs IH]; intros [|b' bs'] L; try discriminate L; [reflexivity|]. cbn in L. injection L as L1 L2. cbn. rewrite !app_length, L1, (IH bs' L2). reflexivity. Qed.

(** The same values at the other places. *)
Lemma states_alike g g' : skel g = skel g0 -> skel g' = skel g0' -> leq (phase g') (pick T (phase g)) -> moved_alike p m m' g g'.
Proof.
  intros K K' E. destruct (lens_of g g' K K') as (X & L1 & L2). destruct (pieces_skel m' g' K') as (_ & G & C). rewrite (phase_pieces g K) in E. unfold phase in E. rewrite G, C in E.
  apply halves in E; [|apply len_concat; exact L1]. destruct E as (E1 & E2). apply (concat_forall2 _ _ _ L1) in E1. apply (concat_forall2 _ _ _ L2) in E2.
  unfold moved_alike. clear - X E1 E2. revert X E1 E2. generalize (pick p (pieces m g)). induction (pieces m' g') as [|x l IH]; intros [|y r] X E1 E2; try discriminate X; [constructor|].
  cbn [map] in X, E1, E2. injection X as X1 X2. inversion E1; subst. inversion E2; subst. constructor; [|apply IH; assumption]. split; split; assumption.
Qed.
Lemma pieces_eq g g' : skel g = skel g0 -> skel g' = skel g0' -> phase g' = pick T (phase g) -> pieces m' g' = pick p (pieces m g).
Proof.
  intros K K' E. destruct (lens_of g g' K K') as (X & L1 & L2). destruct (pieces_skel m' g' K') as (_ & G & C). rewrite (phase_pieces g K) in E. unfold phase in E. rewrite G, C in E.
  assert (E12 : List.concat (map g_gd (pieces m' g')) = List.concat (map g_gd (pick p (pieces m g))) /\ List.concat (map g_cotan (pieces m' g')) = List.concat (map g_cotan (pick p (pieces m g)))).
  { apply app_inj_len; [apply len_concat; exact L1|exact E]. }
  destruct E12 as (E1 & E2). apply (concat_eq _ _ L1) in E1. apply (concat_eq _ _ L2) in E2.
  clear - X E1 E2. revert X E1 E2. generalize (pick p (pieces m g)). induction (pieces m' g') as [|x l IH]; intros [|y r] X E1 E2; try discriminate X; [reflexivity|].
  cbn [map] in X, E1, E2. injection X as X1 X2. injection E1 as E11 E12. injection E2 as E21 E22. f_equal; [|apply IH; assumption]. apply g_ext; assumption.
Qed.

Lemma start : picked T shs (phase g0) (phase g0').
Proof.
  split; [reflexivity|]. rewrite (phase_pieces g0 eq_refl), pieces_own, pick_map, <- (proj2 RE), <- pieces_own. destruct (pieces_skel m' g0' eq_refl) as (_ & G & C). unfold phase. rewrite <- G, <- C. apply leq_refl'.
Qed.
Lemma fill_state (n : dmod) (WN : wf_mod d n) (LN : locals_smooth d n) r r1 : map shape r = map shape (phase (mod_manifold n)) -> write_manifold n r = Ok r1 ->
  exists g, phase g = r /\ skel g = skel (mod_manifold n) /\ set_manifold n g = Ok r1 /\ mod_manifold r1 = g /\ wf_mod d r1.
Proof.
  intros SR Er. destruct (phase_fill (mod_manifold n) r) as (g & Pg & Kg). { rewrite <- phase_len, <- (map_length shape r), SR, map_length. reflexivity. }
  rewrite <- Pg, (write_phase n g Kg) in Er. destruct (set_ok n g Kg) as (y & Ey & My & _). rewrite Er in Ey. injection Ey as <-.
  assert (SP : map shape (g_gd g) = map shape (g_gd (mod_manifold n)) /\ map shape (g_cotan g) = map shape (g_cotan (mod_manifold n))).
  { apply app_shapes; [rewrite !g_gd_len; apply skel_len; exact Kg|]. unfold phase in Pg. rewrite Pg. exact SR. }
  exists g. split; [exact Pg|]. split; [exact Kg|]. split; [exact Er|]. split; [exact My|]. exact (wf_set d n g r1 WN (smooth_total d n LN) Kg (proj1 SP) (proj2 SP) Er).
Qed.
Lemma shs' : map shape (phase g0') = pick T shs.
Proof. rewrite <- pick_shape. exact (leq_shape _ _ (proj2 start)). Qed.

(** Modules whose descriptors and moments are those of the other, at the other places. *)
Lemma mods_alike l m1 m1' : map shape l = shs -> write_manifold m l = Ok m1 -> write_manifold m' (pick T l) = Ok m1' ->
  wf_mod d m1 /\ wf_mod d m1' /\ leaves m1' = pick p (leaves m1) /\ Permutation (leaves m1) (leaves m1') /\
  (forall c, ctrl_ok d m1 c <-> ctrl_ok d m c) /\ (forall c, ctrl_ok d m1' c <-> ctrl_ok d m' c) /\ length (leaves m1) = length (leaves m).
Proof.
  intros S E E'. destruct (fill_state m W LS l m1 S E) as (g & Pg & Kg & Sg & Mg & W1).
  destruct (fill_state m' W' LS' (pick T l) m1') as (g' & Pg' & Kg' & Sg' & Mg' & W1'); [rewrite shs', pick_shape, S; reflexivity|exact E'|].
  split; [exact W1|]. split; [exact W1'|]. destruct (set_leaves m g m1 Sg) as (L & F). destruct (set_leaves m' g' m1' Sg') as (L' & F').
  rewrite (pieces_eq g g' Kg Kg' ltac:(rewrite Pg', Pg; reflexivity)), (proj2 RE), <- pick_combine in F' by congruence.
  rewrite (mapM_pick _ p _ _ F) in F'. injection F' as F'. split; [congruence|].
  assert (LL : length (leaves m1) = length (leaves m)) by (rewrite (mapM_len _ _ _ F), combine_length, L; lia).
  split; [rewrite <- F'; apply Permutation_sym, pick_perm; rewrite LL; exact (proj1 RE)|].
  split; [intros c; exact (ctrl_set d m g m1 c Sg)|]. split; [intros c; exact (ctrl_set d m' g' m1' c Sg')|exact LL].
Qed.

(** Filled with the same controls. *)
Lemma fill_alike n n' c c' n1 n1' : wf_mod d n -> wf_mod d n' -> leaves n' = pick p (leaves n) -> Permutation p (seq 0 (length (leaves n))) ->
  ctrl_ok d n c -> ctrl_ok d n' c' -> driven_alike p n n' c c' -> fill_controls sv n c = Ok n1 -> fill_controls sv n' c' = Ok n1' ->
  leaves n1' = pick p (leaves n1) /\ Permutation (leaves n1) (leaves n1').
Proof.
  intros Wn Wn' E P O O' DA F F'. pose proof (fill_leaves sv d n c n1 O F) as X. pose proof (fill_leaves sv d n' c' n1' O' F') as X'.
  rewrite E, DA, <- pick_combine in X' by exact (F2len (ctrl_leaves d n c O)). rewrite (mapM_pick _ p _ _ X) in X'. injection X' as X'. split; [congruence|].
  rewrite <- X'. apply Permutation_sym, pick_perm. rewrite (mapM_len _ _ _ X), combine_length, (F2len (ctrl_leaves d n c O)), Nat.min_id, <- (F2len (ctrl_leaves d n c O)). exact P.
Qed.

Lemma cpieces_struct c : forall x g x1, set_manifold x g = Ok x1 -> cpieces x1 c = cpieces x c.
Proof.
  intros x. revert c. induction x as [x NC|ms IH] using dmod_ind'; intros c g x1 E.
  - destruct x, g; cbn in E; try discriminate E; try (injection E as <-; reflexivity). elim (NC _ eq_refl).
  - destruct g as [| | | | |gs]; try discriminate E. cbn [set_manifold] in E. bok E r Er. injection E as <-. destruct c as [t|cl]; [reflexivity|]. cbn [cpieces]. revert cl gs r Er.
    induction IH as [|x ms Hm _ IHs]; intros cl [|g gs] r Er; try discriminate Er; [injection Er as <-; reflexivity|]. bok Er y Ey. bok Er ys Eys. injection Er as <-.
    destruct cl as [|c cl]; [reflexivity|]. rewrite (Hm c g y Ey), (IHs cl gs ys Eys). reflexivity.
Qed.

Lemma value_alike i l x x' : map shape l = shs -> ham_of m (step_controls sv b0 cs i) l = Ok x -> ham_of m' (step_controls sv b0 cs' i) (pick T l) = Ok x' -> x' = x.
Proof.
  intros S X X'. unfold ham_of in X, X'. bok X m1 Ew. bok X m2 Ex. bok X' m1' Ew'. bok X' m2' Ex'.
  destruct (mods_alike l m1 m1' S Ew Ew') as (W1 & W1' & EL & PL & C1 & C1' & LL). unfold step_controls in Ex, Ex'. destruct cs as [k|], cs' as [k'|]; try contradiction CS.
  - destruct (nth_error k i) as [c|] eqn:Ek; [|discriminate Ex]. destruct (nth_error k' i) as [c'|] eqn:Ek'; [|discriminate Ex'].
    assert (DA : driven_alike p m m' c c'). { clear - CS Ek Ek'. pose proof CS as Z. clear CS. revert i Ek Ek'. induction Z as [|a b r r' A _ IH]; intros [|i] Ek Ek'; try discriminate Ek; cbn in Ek, Ek'; [congruence|apply (IH i); assumption]. }
    pose proof (proj2 (C1 c) (CO k c eq_refl (nth_error_In _ _ Ek))) as O. pose proof (proj2 (C1' c') (CO' k' c' eq_refl (nth_error_In _ _ Ek'))) as O'.
    destruct (fill_state m W LS l m1 S Ew) as (g & _ & _ & Sg & _). destruct (fill_state m' W' LS' (pick T l) m1') as (g' & _ & _ & Sg' & _); [rewrite shs', pick_shape, S; reflexivity|exact Ew'|].
    assert (DA1 : driven_alike p m1 m1' c c') by (unfold driven_alike; rewrite (cpieces_struct c m g m1 Sg), (cpieces_struct c' m' g' m1' Sg'); exact DA).
    destruct (fill_alike m1 m1' c c' m2 m2' W1 W1' EL ltac:(rewrite LL; exact (proj1 RE)) O O' DA1 Ex Ex') as (_ & P2).
    pose proof (gain_perm sv d HS m1 m1' c c' m2 m2' W1 W1' O O' Ex Ex' P2) as G.
    rewrite ham_gain_own, (fill_manifold sv m1 c m2 Ex) in X. rewrite ham_gain_own, (fill_manifold sv m1' c' m2' Ex') in X'. congruence.
  - destruct (geodesic_perm sv d HS b0 m1 m1' m2 m2' W1 W1' PL Ex Ex') as (y & A & B & _). congruence.
Qed.

Lemma value_picked i l l' x x' : map shape l = shs -> leq l' (pick T l) -> ham_of m (step_controls sv b0 cs i) l = Ok x -> ham_of m' (step_controls sv b0 cs' i) l' = Ok x' -> x' = x.
Proof.
  intros S E X X'. apply (value_alike i l x x' S X). assert (SL : map shape l' = map shape (phase g0')) by (rewrite (leq_shape _ _ E), pick_shape, S, shs'; reflexivity).
  apply (along_leq _ l'); [|exact X'|apply leq_sym; exact E]. exact (along_step sv b0 d HS m' cs' i W' LS' CO' l' x' SL X').
Qed.

Lemma cost_picked l l' n n' x x' : cs = None -> cs' = None -> map shape l = shs -> leq l' (pick T l) -> at_state m (geodesic_controls sv b0) l = Ok n -> at_state m' (geodesic_controls sv b0) l' = Ok n' ->
  cost n = Ok x -> cost n' = Ok x' -> x' = x.
Proof.
  intros N1 N2 S E A A' C C'. assert (SL : map shape l' = map shape (phase g0')) by (rewrite (leq_shape _ _ E), pick_shape, S, shs'; reflexivity).
  unfold at_state in A, A'. bok A m1 Ew. bok A' m1' Ew'. destruct (fill_state m W LS l m1 S Ew) as (_ & _ & _ & _ & _ & W1). destruct (fill_state m' W' LS' l' m1' SL Ew') as (_ & _ & _ & _ & _ & W1').
  destruct (hamiltonian_cost sv b0 d HS m1 n W1 A) as (y & C1 & H1 & _). destruct (hamiltonian_cost sv b0 d HS m1' n' W1' A') as (y' & C1' & H1' & _).
  rewrite C in C1. injection C1 as <-. rewrite C' in C1'. injection C1' as <-. apply (value_picked 0 l l' x x' S E); unfold ham_of; [rewrite Ew, N1|rewrite Ew', N2]; cbn [bind step_controls]; [rewrite A|rewrite A']; assumption.
Qed.

Lemma run_alike sch dt states stages states' stages' l0 l0' :
  trajectory sch (fun n => hamilton (ham_of m (step_controls sv b0 cs n))) dt states stages ->
  trajectory sch (fun n => hamilton (ham_of m' (step_controls sv b0 cs' n))) dt states' stages' -> length stages' = length stages ->
  nth_error states 0 = Some l0 -> nth_error states' 0 = Some l0' -> picked T shs l0 l0' ->
  forall i l l', nth_error states i = Some l -> nth_error states' i = Some l' ->
    picked T shs l l' /\ forall ss ss', nth_error stages i = Some ss -> nth_error stages' i = Some ss' -> Forall2 (picked T shs) ss ss'.
Proof.
  intros H H' LL E0 E0' R0. eapply trajectory_picked; [|exact H|exact H'|exact LL|exact E0|exact E0'|exact R0].
  intros j l l' k k' SL E HK HK'. eapply (hamilton_picked places N shs _ _ places_perm shs_len); [|exact SL|exact E|exact HK|exact HK']. intros x x' v v'. apply value_picked.
Qed.
End Modules.
