(** Facts about similarities of parameters (C104). *)
From Coq Require Import Reals List Arith Bool Lia Lra Psatz.
From Verif Require Import Py RSum SpecGeometry SpecRigid RigidField Fl OptimModel FitModel SpecOptim OptimFacts FitFacts SpecSimilar.
Import ListNotations.
Open Scope list_scope.
Open Scope R_scope.

Lemma away_move s x d : move_tensor s x d = away s x d.
Proof. reflexivity. Qed.
Lemma away_len s x d : length x = length d -> length (away s x d) = length x.
Proof. apply move_tensor_length. Qed.

Lemma mapi_length {A B} (f : nat -> A -> B) l : forall k, length (mapi f k l) = length l.
Proof. induction l; intros k; cbn; auto. Qed.
Lemma mapi_map {A B C} (f : nat -> A -> B) (h : B -> C) (q : nat -> A -> C) l : forall k,
  (forall i a, nth_error l i = Some a -> h (f (k + i)%nat a) = q (k + i)%nat a) -> map h (mapi f k l) = mapi q k l.
Proof.
  induction l as [|a l IH]; intros k H; [reflexivity|]. cbn. f_equal.
  - pose proof (H 0%nat a eq_refl) as X. rewrite Nat.add_0_r in X. exact X.
  - apply IH. intros i b E. pose proof (H (S i) b E) as X. rewrite Nat.add_succ_r in X. exact X.
Qed.
Lemma mapi_const {A B} (f : nat -> A -> B) (h : A -> B) l : forall k, (forall i a, nth_error l i = Some a -> f (k + i)%nat a = h a) -> mapi f k l = map h l.
Proof.
  induction l as [|a l IH]; intros k H; [reflexivity|]. cbn. f_equal.
  - pose proof (H 0%nat a eq_refl) as X. rewrite Nat.add_0_r in X. exact X.
  - apply IH. intros i b E. pose proof (H (S i) b E) as X. rewrite Nat.add_succ_r in X. exact X.
Qed.
Lemma mapi_nth {A B} (f : nat -> A -> B) l : forall k i, nth_error (mapi f k l) i = option_map (f (k + i)%nat) (nth_error l i).
Proof.
  induction l as [|a l IH]; intros k [|i]; cbn; try reflexivity; [rewrite Nat.add_0_r; reflexivity|]. rewrite IH, Nat.add_succ_r. reflexivity.
Qed.

(** Sums. *)
Lemma dotl_app a b c d : length a = length c -> dotl (a ++ b) (c ++ d) = dotl a c + dotl b d.
Proof. intros H. unfold dotl. rewrite combine_app by exact H. rewrite map_app, sumR_app. reflexivity. Qed.
Lemma dotl_zero : forall x, dotl x x = 0 -> forall a, In a x -> a = 0.
Proof.
  assert (P : forall x, 0 <= dotl x x) by (induction x as [|a x IH]; unfold dotl in *; cbn; [lra|nra]).
  induction x as [|a x IH]; intros E b I; [destruct I|]. pose proof (P x) as Q. change (dotl (a :: x) (a :: x)) with (a * a + dotl x x) in E.
  destruct I as [<-|I]; [nra|]. apply IH; [nra|exact I].
Qed.

(** Shapes of nested lists. *)
Lemma shape_cons a x b y : same_shape (a :: x) (b :: y) <-> map (@length R) a = map (@length R) b /\ same_shape x y.
Proof. unfold same_shape. cbn. split; [intros E; injection E as E1 E2; auto|intros (-> & ->); reflexivity]. Qed.
Lemma group_flat : forall a b, map (@length R) a = map (@length R) b -> length (List.concat a) = length (List.concat b).
Proof. induction a as [|s a IH]; intros [|t b] E; try discriminate; [reflexivity|]. injection E as E1 E2. cbn. rewrite !app_length, E1, (IH b E2). reflexivity. Qed.
Lemma flat_cons a x : flat_params (a :: x) = List.concat a ++ flat_params x.
Proof. unfold flat_params. cbn [List.concat]. apply concat_app. Qed.
Lemma shape_flat : forall x y, same_shape x y -> length (flat_params x) = length (flat_params y).
Proof.
  induction x as [|a x IH]; intros [|b y] E; try discriminate E; [reflexivity|]. apply shape_cons in E. rewrite !flat_cons, !app_length, (group_flat a b) by tauto. f_equal. apply IH. tauto.
Qed.

(** A common induction on nested lists of the same shape. *)
Lemma away_app s a b c d : length a = length c -> away s (a ++ b) (c ++ d) = away s a c ++ away s b d.
Proof. intros H. unfold away. rewrite combine_app by exact H. apply map_app. Qed.
Lemma group_away s : forall x d, map (@length R) d = map (@length R) x -> List.concat (move_group s x d) = away s (List.concat x) (List.concat d).
Proof.
  induction x as [|a x IH]; intros [|b d] H; try discriminate; [reflexivity|]. injection H as Hab H.
  change (move_group s (a :: x) (b :: d)) with (move_tensor s a b :: move_group s x d). cbn [List.concat]. rewrite away_app by congruence. rewrite IH by exact H. reflexivity.
Qed.
Lemma flat_away s : forall x d, same_shape d x -> flat_params (move (repeat s (length x)) x d) = away s (flat_params x) (flat_params d).
Proof.
  induction x as [|a x IH]; intros [|b d] H; try discriminate H; [reflexivity|]. apply shape_cons in H. destruct H as (H1 & H2). cbn [length repeat]. rewrite move_cons, !flat_cons.
  rewrite away_app by (symmetry; apply group_flat; exact H1). rewrite IH by exact H2. f_equal. apply group_away. exact H1.
Qed.
Lemma pairing_away s : forall g x e, length x = length e -> length g = length e ->
  sumR (map (fun p => fst p * (snd (snd p) - fst (snd p))) (combine g (combine x (away s x e)))) = - (s * dotl g e).
Proof.
  induction g as [|c g IH]; intros [|a x] [|b e] H1 H2; try discriminate; unfold dotl, away in *; cbn; [ring|]. rewrite IH by (cbn in *; lia). ring.
Qed.
Definition size (e : params) : R := sumR (map Rabs (flat_params e)).
Lemma size_nonneg e : 0 <= size e.
Proof. unfold size. induction (flat_params e) as [|a l IH]; cbn; [lra|]. pose proof (Rabs_pos a). lra. Qed.
Lemma along_line s x d g : same_shape d x -> same_shape g x -> let y := move (repeat s (length x)) x d in
  same_shape y x /\ dist1 x y = Rabs s * size d /\ pairing g x y = - (s * dotl (flat_params g) (flat_params d)).
Proof.
  intros SD SG y. split; [unfold y; rewrite move_moved by (rewrite ?repeat_length; auto); apply moved_shape|].
  unfold dist1, pairing, y. rewrite flat_away by exact SD. split; [apply (tensor_abs s)|apply pairing_away]; rewrite ?(shape_flat d x SD), ?(shape_flat g x SG); reflexivity.
Qed.

(** ** Placed parameters *)
Section Similar.
Variables (r : nat -> R) (p l : nat -> nat -> list R -> list R).

Definition at_group (k : nat) (x : params) : Prop :=
  forall g i ts t, nth_error x g = Some ts -> nth_error ts i = Some t -> similarity (length t) (r (k + g)%nat) (p (k + g)%nat i) (l (k + g)%nat i).
Lemma at_tail k a x : at_group k (a :: x) -> at_group (S k) x.
Proof. intros H g i ts t E F. pose proof (H (S g) i ts t E F) as X. rewrite Nat.add_succ_r in X. exact X. Qed.
Definition in_group (k j : nat) (a : list (list R)) : Prop := forall i t, nth_error a i = Some t -> similarity (length t) (r k) (p k (j + i)%nat) (l k (j + i)%nat).
Lemma at_head k a x : at_group k (a :: x) -> in_group k 0 a.
Proof. intros H i t E. pose proof (H 0%nat i a t eq_refl E) as X. rewrite Nat.add_0_r in X. exact X. Qed.
Lemma in_head k j t a : in_group k j (t :: a) -> similarity (length t) (r k) (p k j) (l k j).
Proof. intros H. pose proof (H 0%nat t eq_refl) as X. rewrite Nat.add_0_r in X. exact X. Qed.
Lemma in_tail k j t a : in_group k j (t :: a) -> in_group k (S j) a.
Proof. intros H i u E. pose proof (H (S i) u E) as X. rewrite Nat.add_succ_r in X. exact X. Qed.
Lemma in_same k j a b : map (@length R) a = map (@length R) b -> in_group k j b -> in_group k j a.
Proof.
  intros E H i t F. pose proof (map_nth_error (@length R) _ _ F) as X. rewrite E, nth_error_map in X. destruct (nth_error b i) as [u|] eqn:G; [|discriminate X]. injection X as X. rewrite <- X. apply H. exact G.
Qed.
Lemma at_same k : forall x y, same_shape x y -> at_group k y -> at_group k x.
Proof.
  intros x y. revert k. revert y. induction x as [|a x IH]; intros [|b y] k E H; try discriminate E; [intros [|g] i ts t F; discriminate F|]. apply shape_cons in E. destruct E as (E1 & E2).
  intros [|g] i ts t F G.
  - injection F as <-. rewrite Nat.add_0_r. exact (in_same k 0 a b E1 (at_head k b y H) i t G).
  - rewrite Nat.add_succ_r. exact (IH y (S k) E2 (at_tail k b y H) g i ts t F G).
Qed.

Lemma in_shape k (q : nat -> nat -> list R -> list R) : forall a j, (forall i t, nth_error a i = Some t -> length (q k (j + i)%nat t) = length t) -> map (@length R) (mapi (q k) j a) = map (@length R) a.
Proof.
  induction a as [|t a IH]; intros j H; [reflexivity|]. cbn. f_equal; [pose proof (H 0%nat t eq_refl) as X; rewrite Nat.add_0_r in X; exact X|].
  apply IH. intros i u E. pose proof (H (S i) u E) as X. rewrite Nat.add_succ_r in X. exact X.
Qed.
Lemma at_shape (q : nat -> nat -> list R -> list R) : forall x k, (forall g i ts t, nth_error x g = Some ts -> nth_error ts i = Some t -> length (q (k + g)%nat i t) = length t) ->
  same_shape (mapi (fun g => mapi (q g) 0) k x) x.
Proof.
  induction x as [|a x IH]; intros k H; [reflexivity|]. cbn [mapi]. apply shape_cons. split.
  - apply in_shape. intros i t E. pose proof (H 0%nat i a t eq_refl E) as X. rewrite Nat.add_0_r in X. exact X.
  - apply IH. intros g i ts t E F. pose proof (H (S g) i ts t E F) as X. rewrite Nat.add_succ_r in X. exact X.
Qed.

(** Moving in the placed parameters. *)
Lemma times_len v d : length (times v d) = length d.
Proof. apply map_length. Qed.
Lemma away_times s w v x : forall d, w * v = 1 -> away (w * s) x (times v d) = away s x d.
Proof.
  intros d H. revert d. induction x as [|a x IH]; intros [|b d]; try reflexivity. unfold away, times in *. cbn. rewrite IH. f_equal. replace (w * s * (v * b)) with (w * v * (s * b)) by ring. rewrite H. ring.
Qed.
Lemma group_placed k s w v : w * v = 1 -> forall a b j, map (@length R) b = map (@length R) a -> in_group k j a ->
  move_group (w * s) (mapi (p k) j a) (mapi (fun i t => l k i (times v t)) j b) = mapi (p k) j (move_group s a b).
Proof.
  intros WV. induction a as [|t a IH]; intros [|e b] j E H; try discriminate; [reflexivity|]. injection E as E1 E2.
  change (move_group s (t :: a) (e :: b)) with (move_tensor s t e :: move_group s a b). cbn [mapi].
  change (move_group (w * s) (p k j t :: mapi (p k) (S j) a) (l k j (times v e) :: mapi (fun i t => l k i (times v t)) (S j) b))
    with (move_tensor (w * s) (p k j t) (l k j (times v e)) :: move_group (w * s) (mapi (p k) (S j) a) (mapi (fun i t => l k i (times v t)) (S j) b)).
  f_equal; [|apply IH; [exact E2|exact (in_tail _ _ _ _ H)]]. rewrite !away_move. pose proof (in_head _ _ _ _ H) as SI.
  rewrite <- (sim_away _ _ _ _ SI) by (rewrite ?times_len; congruence). rewrite away_times by exact WV. reflexivity.
Qed.
Lemma move_placed w v : (forall g, w g * v g = 1) -> forall x d ss k, same_shape d x -> length ss = length x -> at_group k x ->
  move (mapi (fun g s => w g * s) k ss) (mapi (fun g => mapi (p g) 0) k x) (mapi (fun g => mapi (fun i t => l g i (times (v g) t)) 0) k d)
  = mapi (fun g => mapi (p g) 0) k (move ss x d).
Proof.
  intros WV. induction x as [|a x IH]; intros [|b d] [|s ss] k E L H; try discriminate; [reflexivity|]. apply shape_cons in E. destruct E as (E1 & E2). rewrite move_cons. cbn [mapi]. rewrite move_cons. f_equal.
  - apply group_placed; [apply WV|exact E1|exact (at_head _ _ _ H)].
  - apply IH; [exact E2|cbn in L; lia|exact (at_tail _ _ _ H)].
Qed.
Lemma times_one d : times 1 d = d.
Proof. unfold times. rewrite <- (map_id d) at 2. apply map_ext. intros a. ring. Qed.

(** Scalar products of placed directions. *)
Lemma group_dot k : forall a b j, map (@length R) b = map (@length R) a -> in_group k j a ->
  dotl (List.concat (mapi (l k) j a)) (List.concat (mapi (l k) j b)) = r k * r k * dotl (List.concat a) (List.concat b).
Proof.
  induction a as [|t a IH]; intros [|e b] j E H; try discriminate; [unfold dotl; cbn; ring|]. injection E as E1 E2. cbn [mapi List.concat]. pose proof (in_head _ _ _ _ H) as SI.
  destruct (sim_len _ _ _ _ SI t eq_refl) as (_ & L1). destruct (sim_len _ _ _ _ SI e E1) as (_ & L2).
  rewrite !dotl_app by congruence. rewrite (sim_dot _ _ _ _ SI) by congruence. rewrite IH by (exact E2 || exact (in_tail _ _ _ _ H)). ring.
Qed.
Lemma group_times v : forall a, List.concat (map (times v) a) = times v (List.concat a).
Proof. induction a as [|t a IH]; [reflexivity|]. cbn. rewrite IH. unfold times. rewrite map_app. reflexivity. Qed.
Lemma dot_times v : forall a b, dotl (times v a) b = v * dotl a b.
Proof. unfold dotl, times. induction a as [|x a IH]; intros [|y b]; cbn; try ring. rewrite IH. ring. Qed.
(** each tensor of group g multiplied by c g *)
Definition weigh (c : nat -> R) (k : nat) (x : params) : params := mapi (fun g => map (times (c g))) k x.
Lemma dot_placed : forall x y k, same_shape y x -> at_group k x ->
  dotl (flat_params (mapi (fun g => mapi (l g) 0) k x)) (flat_params (mapi (fun g => mapi (l g) 0) k y)) =
  dotl (flat_params (weigh (fun g => r g * r g) k x)) (flat_params y).
Proof.
  unfold weigh. induction x as [|a x IH]; intros [|b y] k E H; try discriminate E; [reflexivity|]. apply shape_cons in E. destruct E as (E1 & E2). cbn [mapi]. rewrite !flat_cons.
  assert (SA : map (@length R) (mapi (l k) 0 a) = map (@length R) a).
  { apply in_shape. intros i t F. exact (proj2 (sim_len _ _ _ _ (at_head _ _ _ H i t F) t eq_refl)). }
  assert (SB : map (@length R) (mapi (l k) 0 b) = map (@length R) b).
  { apply in_shape. intros i t F. exact (proj2 (sim_len _ _ _ _ (in_same k 0 b a E1 (at_head _ _ _ H) i t F) t eq_refl)). }
  rewrite dotl_app by (apply group_flat; congruence). rewrite (dotl_app (List.concat (map _ a))).
  - rewrite (IH y (S k) E2 (at_tail _ _ _ H)). rewrite group_dot by (exact E1 || exact (at_head _ _ _ H)). rewrite group_times, dot_times. reflexivity.
  - rewrite group_times, times_len. symmetry. apply group_flat. exact E1.
Qed.
Lemma onto_group k : forall a j, in_group k j a -> exists b, map (@length R) b = map (@length R) a /\ mapi (l k) j b = a.
Proof.
  induction a as [|t a IH]; intros j H; [exists []; auto|]. destruct (IH (S j) (in_tail _ _ _ _ H)) as (b & Sb & Eb). destruct (sim_onto _ _ _ _ (in_head _ _ _ _ H) t eq_refl) as (e & Le & Ee).
  exists (e :: b). cbn. split; congruence.
Qed.
Lemma onto_placed : forall x k, at_group k x -> exists y, same_shape y x /\ mapi (fun g => mapi (l g) 0) k y = x.
Proof.
  induction x as [|a x IH]; intros k H; [exists []; split; reflexivity|]. destruct (IH (S k) (at_tail _ _ _ H)) as (y & Sy & Ey). destruct (onto_group k a 0 (at_head _ _ _ H)) as (b & Sb & Eb).
  exists (b :: y). split; [apply shape_cons; auto|]. cbn. congruence.
Qed.
End Similar.

(** Lists that are equal when their difference is orthogonal to everything. *)
Lemma dot_right : forall a b c, length a = length c -> length b = length c -> dotl (away 1 a b) c = dotl a c - dotl b c.
Proof. unfold dotl, away. induction a as [|x a IH]; intros [|y b] [|z c] H1 H2; try discriminate; cbn; [ring|]. rewrite IH by (cbn in *; lia). ring. Qed.
Lemma away_zero : forall a b, length a = length b -> (forall z, In z (away 1 a b) -> z = 0) -> a = b.
Proof.
  unfold away. induction a as [|x a IH]; intros [|y b] H Z; try discriminate; [reflexivity|]. f_equal; [pose proof (Z (x - 1 * y) (or_introl eq_refl)); lra|].
  apply IH; [cbn in H; lia|]. intros z I. apply Z. right. exact I.
Qed.
(** Nested lists are determined by their shape and their entries. *)
Lemma concat_inj : forall a b : list (list R), map (@length R) a = map (@length R) b -> List.concat a = List.concat b -> a = b.
Proof.
  induction a as [|s a IH]; intros [|t b] E F; try discriminate; [reflexivity|]. injection E as E1 E2. cbn in F.
  assert (s = t /\ List.concat a = List.concat b) as (-> & G).
  { clear - E1 F. revert t E1 F. induction s as [|x s IHs]; intros [|y t] E1 F; try discriminate; [auto|]. cbn in F. injection F as -> F. destruct (IHs t) as (-> & ->); auto. }
  f_equal. apply IH; assumption.
Qed.
Lemma flat_inj : forall x y, same_shape x y -> flat_params x = flat_params y -> x = y.
Proof.
  induction x as [|a x IH]; intros [|b y] E F; try discriminate E; [reflexivity|]. apply shape_cons in E. destruct E as (E1 & E2). rewrite !flat_cons in F.
  assert (X : forall (s t u v : list R), length s = length t -> s ++ u = t ++ v -> s = t /\ u = v).
  { induction s as [|q s IHs]; intros [|q' t] u v L G; try discriminate; [auto|]. cbn in G. injection G as -> G. destruct (IHs t u v) as (-> & ->); auto. }
  destruct (X _ _ _ _ (group_flat a b E1) F) as (A & B). f_equal; [apply concat_inj; assumption|apply IH; assumption].
Qed.

(** ** Gradients *)
Lemma fscale_fin k a b : fscale k a = Fin b -> exists c, a = Fin c /\ b = k * c.
Proof. destruct a; cbn; intros E; try discriminate. injection E as <-. eauto. Qed.

Lemma gradient_pairing ka r p l f f' x a a' g g' e :
  at_group r p l 0 x -> (forall y, same_shape y x -> f' (each p y) = fscale ka (f y)) ->
  differentiable_at f x a g -> differentiable_at f' (each p x) a' g' -> same_shape e x ->
  dotl (flat_params g') (flat_params (each l e)) = ka * dotl (flat_params g) (flat_params e).
Proof.
  intros SI FF (Fx & Sg & Df) (Fx' & Sg' & Df') Se.
  assert (Sp : forall y, same_shape y x -> same_shape (each p y) x).
  { intros y Sy. unfold each. unfold same_shape in *. rewrite <- Sy. apply at_shape. intros h i ts t E F. exact (proj1 (sim_len _ _ _ _ (at_same r p l 0 y x Sy SI h i ts t E F) t eq_refl)). }
  assert (Sl : same_shape (each l e) x).
  { unfold each. unfold same_shape in *. rewrite <- Se. apply at_shape. intros h i ts t E F. exact (proj2 (sim_len _ _ _ _ (at_same r p l 0 e x Se SI h i ts t E F) t eq_refl)). }
  assert (A' : a' = ka * a). { rewrite FF, Fx in Fx' by reflexivity. cbn in Fx'. injection Fx' as <-. reflexivity. }
  set (A := dotl (flat_params g) (flat_params e)). set (B := dotl (flat_params g') (flat_params (each l e))).
  set (N := size e). set (N' := size (each l e)). pose proof (size_nonneg e) as PN. pose proof (size_nonneg (each l e)) as PN'. fold N in PN. fold N' in PN'.
  assert (LX : length x = length (each p x)) by (unfold each; rewrite mapi_length; reflexivity).
  enough (X : forall eps, 0 < eps -> Rabs (B - ka * A) <= eps * (Rabs ka * N + N')).
  { destruct (Req_dec (B - ka * A) 0) as [Z|Z]; [lra|]. exfalso. apply Rabs_pos_lt in Z. set (q := Rabs (B - ka * A)) in *. pose proof (Rabs_pos ka) as PK. set (T := Rabs ka * N + N') in *.
    assert (PT : 0 <= T) by (unfold T; nra). specialize (X (q / (2 * (T + 1))) ltac:(apply Rdiv_lt_0_compat; lra)).
    assert (Y : q / (2 * (T + 1)) * T = q / 2 * (T / (T + 1))) by (field; lra). rewrite Y in X. assert (T / (T + 1) <= 1) by (apply Rmult_le_reg_r with (T + 1); [lra|]; unfold Rdiv; rewrite Rmult_assoc, Rinv_l by lra; lra). nra. }
  intros eps PE. destruct (Df eps PE) as (d1 & P1 & D1). destruct (Df' eps PE) as (d2 & P2 & D2).
  assert (exists s, 0 < s /\ s * N < d1 /\ s * N' < d2) as (s & PS & Q1 & Q2).
  { set (M := N + N' + 1). assert (PM : 0 < M) by (unfold M; lra). exists (Rmin d1 d2 / (2 * M)). assert (PD : 0 < Rmin d1 d2) by (apply Rmin_pos; assumption).
    assert (H1 : Rmin d1 d2 <= d1) by apply Rmin_l. assert (H2 : Rmin d1 d2 <= d2) by apply Rmin_r. set (dd := Rmin d1 d2) in *.
    assert (PQ : 0 < dd / (2 * M)) by (apply Rdiv_lt_0_compat; lra). assert (QM : dd / (2 * M) * M = dd / 2) by (field; lra). split; [exact PQ|].
    split; [apply Rle_lt_trans with (dd / (2 * M) * M); [apply Rmult_le_compat_l; [lra|unfold M; lra]|lra]|apply Rle_lt_trans with (dd / (2 * M) * M); [apply Rmult_le_compat_l; [lra|unfold M; lra]|lra]]. }
  destruct (along_line s x e g Se Sg) as (Sy & Dy & Py). set (y := move (repeat s (length x)) x e) in *.
  assert (EY : move (repeat s (length (each p x))) (each p x) (each l e) = each p y).
  { rewrite <- LX. unfold y, each. rewrite <- (move_placed r p l (fun _ => 1) (fun _ => 1) ltac:(intros; cbv beta; ring) x e (repeat s (length x)) 0 Se ltac:(apply repeat_length) SI).
    f_equal.
    - rewrite (mapi_const _ (fun s => s)) by (intros i c _; cbv beta; ring). symmetry. apply map_id.
    - clear. enough (X : forall k, mapi (fun g => mapi (l g) 0) k e = mapi (fun g => mapi (fun i t => l g i (times 1 t)) 0) k e) by exact (X 0%nat). induction e as [|b e IH]; intros k; [reflexivity|]. cbn [mapi]. f_equal; [|apply IH]. generalize 0%nat. induction b as [|t b IHb]; intros j; [reflexivity|]. cbn. rewrite times_one. f_equal. apply IHb. }
  assert (Sl' : same_shape (each l e) (each p x)). { pose proof (Sp x eq_refl). unfold same_shape in *. congruence. }
  destruct (along_line s (each p x) (each l e) g' Sl' Sg') as (Sy' & Dy' & Py'). rewrite EY in Sy', Dy', Py'.
  rewrite (Rabs_pos_eq s) in Dy, Dy' by lra. fold N in Dy. fold N' in Dy'. fold A in Py. fold B in Py'.
  destruct (D1 y Sy) as (b & Fb & Lb); [rewrite Dy; exact Q1|]. destruct (D2 (each p y) Sy') as (b' & Fb' & Lb'); [rewrite Dy'; exact Q2|].
  rewrite FF, Fb in Fb' by exact Sy. cbn in Fb'. injection Fb' as <-. rewrite Dy, Py in Lb. rewrite Dy', Py' in Lb'. rewrite A' in Lb'.
  assert (Z : Rabs (s * (B - ka * A)) <= Rabs ka * (eps * (s * N)) + eps * (s * N')).
  { replace (s * (B - ka * A)) with ((ka * b - ka * a - - (s * B)) - ka * (b - a - - (s * A))) by ring.
    eapply Rle_trans; [apply Rabs_triang|]. rewrite Rabs_Ropp, Rabs_mult. pose proof (Rabs_pos ka). nra. }
  rewrite Rabs_mult, (Rabs_pos_eq s) in Z by lra. apply Rmult_le_reg_l with s; [exact PS|]. lra.
Qed.

(** The gradient of the placed problem. *)
Lemma weigh_shape c x : forall k, same_shape (weigh c k x) x.
Proof.
  unfold weigh. induction x as [|a x IH]; intros k; [reflexivity|]. cbn [mapi]. apply shape_cons. split; [|apply IH]. rewrite map_map. apply map_ext. intros t. apply times_len.
Qed.
Lemma weigh_twice c c' x : forall k, (forall g, c g * c' g = 1) -> weigh c k (weigh c' k x) = x.
Proof.
  unfold weigh. induction x as [|a x IH]; intros k H; [reflexivity|]. cbn [mapi]. f_equal; [|apply IH; exact H]. rewrite map_map. rewrite <- (map_id a) at 2. apply map_ext. intros t. unfold times. rewrite map_map.
  rewrite <- (map_id t) at 2. apply map_ext. intros z. rewrite <- Rmult_assoc, H. ring.
Qed.
Lemma weigh_prod c c' x : forall k, weigh c k (weigh c' k x) = weigh (fun g => c g * c' g) k x.
Proof.
  unfold weigh. induction x as [|a x IH]; intros k; [reflexivity|]. cbn [mapi]. f_equal; [|apply IH]. rewrite map_map. apply map_ext. intros t. unfold times. rewrite map_map.
  apply map_ext. intros z. ring.
Qed.
Lemma weigh_ext c c' x : forall k, (forall g, c g = c' g) -> weigh c k x = weigh c' k x.
Proof. unfold weigh. induction x as [|a x IH]; intros k H; [reflexivity|]. cbn [mapi]. rewrite H. f_equal. apply IH, H. Qed.
Lemma flat_weigh v x : forall k, flat_params (weigh (fun _ => v) k x) = times v (flat_params x).
Proof.
  unfold weigh. induction x as [|a x IH]; intros k; [reflexivity|]. cbn [mapi]. rewrite !flat_cons, IH, group_times. unfold times. rewrite map_app. reflexivity.
Qed.
Lemma each_weigh (l : nat -> nat -> list R -> list R) c x : forall k, mapi (fun g => mapi (l g) 0) k (weigh c k x) = mapi (fun g => mapi (fun i t => l g i (times (c g) t)) 0) k x.
Proof.
  unfold weigh. induction x as [|a x IH]; intros k; [reflexivity|]. cbn [mapi]. f_equal; [|apply IH]. generalize 0%nat. induction a as [|t a IHa]; intros j; [reflexivity|]. cbn. f_equal. apply IHa.
Qed.

Lemma gradient_placed ka r p l f f' x a a' g g' :
  at_group r p l 0 x -> (forall h, r h <> 0) -> (forall y, same_shape y x -> f' (each p y) = fscale ka (f y)) ->
  differentiable_at f x a g -> differentiable_at f' (each p x) a' g' ->
  g' = each (fun h i t => l h i (times (ka / (r h * r h)) t)) g.
Proof.
  intros SI RN FF D D'. pose proof D as (_ & Sg & _). pose proof D' as (_ & Sg' & _).
  assert (Sp : same_shape (each p x) x).
  { apply at_shape. intros h i ts t E F. exact (proj1 (sim_len _ _ _ _ (SI h i ts t E F) t eq_refl)). }
  assert (SX : same_shape g' x) by (unfold same_shape in *; congruence).
  destruct (onto_placed r p l g' 0 (at_same r p l 0 g' x SX SI)) as (y & Sy & Ey). fold (each l y) in Ey.
  assert (Syx : same_shape y x) by (unfold same_shape in *; congruence). pose proof (at_same r p l 0 y x Syx SI) as SIy.
  assert (O : forall e, same_shape e x -> dotl (flat_params (weigh (fun h => r h * r h) 0 y)) (flat_params e) = dotl (flat_params (weigh (fun _ => ka) 0 g)) (flat_params e)).
  { intros e Se. rewrite flat_weigh, dot_times, <- (gradient_pairing ka r p l f f' x a a' g g' e SI FF D D' Se), <- Ey. symmetry.
    apply (dot_placed r p l); [unfold same_shape in *; congruence|exact SIy]. }
  set (u := weigh (fun h => r h * r h) 0 y) in *. set (v := weigh (fun _ => ka) 0 g) in *.
  assert (Su : same_shape u x) by (pose proof (weigh_shape (fun h => r h * r h) y 0); unfold same_shape, u in *; congruence).
  assert (Sv : same_shape v x) by (pose proof (weigh_shape (fun _ => ka) g 0); unfold same_shape, v in *; congruence).
  assert (UV : u = v).
  { assert (SUV : same_shape u v) by (unfold same_shape in *; congruence). apply flat_inj; [exact SUV|]. apply away_zero; [apply shape_flat; exact SUV|].
    set (e := move (repeat 1 (length u)) u v). assert (SVU : same_shape v u) by (unfold same_shape in *; congruence). pose proof (flat_away 1 u v SVU) as FE. fold e in FE.
    assert (Se : same_shape e x). { destruct (along_line 1 u v v SVU SVU) as (Z & _). fold e in Z. unfold same_shape in *. congruence. }
    apply dotl_zero. rewrite <- FE. rewrite FE at 1. rewrite dot_right by (apply shape_flat; unfold same_shape in *; congruence). rewrite (O e Se). ring. }
  rewrite <- Ey. unfold each at 2. rewrite <- (each_weigh l (fun h => ka / (r h * r h))). unfold each. f_equal.
  assert (Y : y = weigh (fun h => / (r h * r h)) 0 u) by (unfold u; symmetry; apply weigh_twice; intros h; field; apply RN).
  rewrite Y, UV. unfold v. rewrite weigh_prod. apply weigh_ext. intros h. unfold Rdiv. ring.
Qed.

(** ** Steps *)
Lemma rescaled_len w ss : length (rescaled w ss) = length ss.
Proof. apply mapi_length. Qed.
Lemma rescaled_nth w ss g : nth g (rescaled w ss) 0 = w g * nth g ss 0.
Proof.
  unfold rescaled. pose proof (mapi_nth (fun g s => w g * s) ss 0 g) as E. rewrite Nat.add_0_l in E.
  destruct (nth_error ss g) as [s|] eqn:F; cbn in E.
  - rewrite (nth_error_nth _ _ 0 E), (nth_error_nth _ _ 0 F). reflexivity.
  - apply nth_error_None in E. apply nth_error_None in F. rewrite !nth_overflow by assumption. ring.
Qed.
Lemma nth_eq (a b : list R) : length a = length b -> (forall g, nth g a 0 = nth g b 0) -> a = b.
Proof. intros L H. apply (nth_ext _ _ 0 0 L). intros n _. apply H. Qed.
Lemma update1_placed w c c' ss : same_gammas c c' -> length (groups c) = length ss -> update1 c' (rescaled w ss) = rescaled w (update1 c ss).
Proof.
  intros (G & H) L. assert (L' : length (groups c') = length (rescaled w ss)) by (rewrite rescaled_len; congruence). apply nth_eq.
  - rewrite update1_length by exact L'. rewrite !rescaled_len. symmetry. apply update1_length. exact L.
  - intros g. rewrite rescaled_nth, !update1_nth by assumption. rewrite rescaled_nth, (proj1 (H g)). ring.
Qed.
Lemma update2_placed w c c' ss : same_gammas c c' -> length (groups c) = length ss -> update2 c' (rescaled w ss) = rescaled w (update2 c ss).
Proof.
  intros (G & H) L. assert (L' : length (groups c') = length (rescaled w ss)) by (rewrite rescaled_len; congruence). apply nth_eq.
  - rewrite update2_length by exact L'. rewrite !rescaled_len. symmetry. apply update2_length. exact L.
  - intros g. rewrite rescaled_nth, !update2_nth by assumption. rewrite rescaled_nth, (proj2 (H g)). ring.
Qed.
Lemma Rltb_scale k a b : 0 < k -> Rltb (k * a) (k * b) = Rltb a b.
Proof. intros K. destruct (Rltb a b) eqn:E; [apply Rltb_true in E; apply Rltb_true; nra|apply Rltb_false in E; apply Rltb_false; nra]. Qed.
Lemma Reqb_scale k a b : 0 < k -> Reqb (k * a) (k * b) = Reqb a b.
Proof.
  intros K. unfold Reqb. destruct (Req_EM_T a b) as [->|N]; destruct (Req_EM_T _ _) as [E|E]; try reflexivity; exfalso; [congruence|]. apply N. apply Rmult_eq_reg_l with k; lra.
Qed.
Lemma flt_scale k a b : 0 < k -> flt (fscale k a) (fscale k b) = flt a b.
Proof. intros K. destruct a, b; cbn; try reflexivity. apply Rltb_scale. exact K. Qed.
Lemma feq_scale k a b : 0 < k -> feq (fscale k a) (fscale k b) = feq a b.
Proof. intros K. destruct a, b; cbn; try reflexivity. apply Reqb_scale. exact K. Qed.
Lemma fin_scale k a : isfinite (fscale k a) = isfinite a.
Proof. destruct a; reflexivity. Qed.
Lemma fscale_1 a : fscale 1 a = a.
Proof. destruct a; cbn; try reflexivity. f_equal. ring. Qed.

Section Steps.
Variables (ka : R) (r : nat -> R) (p l : nat -> nat -> list R -> list R) (c c' : gd_conf) (x0 : params).
Hypothesis Pk : 0 < ka.
Hypothesis RN : forall g, r g <> 0.
Hypothesis SI : similar x0 r p l.
Hypothesis SG : same_gammas c c'.
Hypothesis LG : length (groups c) = length x0.
Let w (g : nat) : R := r g * r g / ka.
Let v (g : nat) : R := ka / (r g * r g).
Let turn (d : params) : params := each (fun h i t => l h i (times (v h) t)) d.

Lemma wv g : w g * v g = 1.
Proof. unfold w, v. field. pose proof (RN g); split; lra || assumption. Qed.
Lemma similar_at x : same_shape x x0 -> at_group r p l 0 x.
Proof. intros E. apply (at_same r p l 0 x x0 E). exact SI. Qed.
Lemma each_shape x : same_shape x x0 -> same_shape (each p x) x0.
Proof.
  intros E. unfold same_shape in *. rewrite <- E. apply at_shape. intros h i ts t E1 E2. exact (proj1 (sim_len _ _ _ _ (similar_at x E h i ts t E1 E2) t eq_refl)).
Qed.
Lemma moves_placed x d ss : same_shape x x0 -> same_shape d x -> length ss = length x -> move (rescaled w ss) (each p x) (turn d) = each p (move ss x d).
Proof. intros E D L. apply (move_placed r p l w v wv x d ss 0 D L). apply similar_at. exact E. Qed.

Lemma loop_placed f f' : (forall y, same_shape y x0 -> f' (each p y) = fscale ka (f y)) -> forall x d cx cnt, same_shape x x0 -> same_shape d x -> forall fuel n ss, length ss = length x ->
  gd_loop c' f' (each p x) (turn d) (fscale ka cx) cnt fuel n (rescaled w ss) = option_map (placed_state p w) (gd_loop c f x d cx cnt fuel n ss).
Proof.
  intros FF x d cx cnt E D. induction fuel as [|fuel IH]; intros n ss L; [reflexivity|]. cbn [gd_loop]. rewrite (moves_placed x d ss E D L).
  assert (LG' : length (groups c) = length ss) by (rewrite LG, L; symmetry; apply same_shape_length; exact E).
  assert (Sy : same_shape (move ss x d) x0). { rewrite move_moved by assumption. pose proof (moved_shape (fun g => nth g ss 0) x d). unfold same_shape in *. congruence. }
  rewrite (FF _ Sy), flt_scale, feq_scale, fin_scale by exact Pk. destruct (_ && _)%bool.
  - destruct (Nat.eqb n 1); cbn; unfold placed_state; cbn; [rewrite (update2_placed w c c' ss SG LG')|]; reflexivity.
  - destruct (feq _ _); [reflexivity|]. rewrite (update1_placed w c c' ss SG LG'). apply IH. rewrite update1_length; assumption.
Qed.
End Steps.

Section Descent.
Variables (ka : R) (r : nat -> R) (p l : nat -> nat -> list R -> list R) (c c' : gd_conf) (x0 : params).
Hypothesis Pk : 0 < ka.
Hypothesis RN : forall g, r g <> 0.
Hypothesis SI : similar x0 r p l.
Hypothesis SG : same_gammas c c'.
Hypothesis LG : length (groups c) = length x0.
Variables (f f' : params -> fl) (grad grad' : params -> params).
Hypothesis FF : forall y, same_shape y x0 -> f' (each p y) = fscale ka (f y).
Hypothesis EG : exact_gradient f grad x0.
Hypothesis EG' : exact_gradient f' grad' x0.
Let w (g : nat) : R := r g * r g / ka.

Lemma grad_shape x : same_shape x x0 -> same_shape (grad x) x.
Proof. intros E. destruct (EG x E) as (a & _ & G & _). exact G. Qed.
Lemma grad_placed x : same_shape x x0 -> grad' (each p x) = each (fun h i t => l h i (times (ka / (r h * r h)) t)) (grad x).
Proof.
  intros E. destruct (EG x E) as (a & D). destruct (EG' (each p x) (each_shape r p l x0 SI x E)) as (a' & D').
  apply (gradient_placed ka r p l f f' x a a'); try assumption; [exact (similar_at r p l x0 SI x E)|]. intros y Sy. apply FF. unfold same_shape in *. congruence.
Qed.
Lemma step_placed fuel st : same_shape (gd_params st) x0 -> length (gd_steps st) = length x0 ->
  gd_step c' f' grad' fuel (placed_state p w st) = option_map (placed_state p w) (gd_step c f grad fuel st).
Proof.
  intros E L. unfold gd_step. cbn [placed_state gd_params gd_steps gd_count]. rewrite (grad_placed _ E), (FF _ E).
  apply (loop_placed ka r p l c c' x0 Pk RN SI SG LG f f' FF); [exact E|exact (grad_shape _ E)|]. rewrite L. symmetry. apply same_shape_length. exact E.
Qed.
Lemma step_kept fuel st st' : gd_step c f grad fuel st = Some st' -> same_shape (gd_params st) x0 -> length (gd_steps st) = length x0 ->
  same_shape (gd_params st') x0 /\ length (gd_steps st') = length x0.
Proof.
  intros H E L. pose proof (same_shape_length _ _ E) as LX.
  assert (C0 : gd_consistent c grad st) by (split; [congruence|split; [congruence|apply grad_shape; exact E]]).
  unfold gd_step in H. revert H. generalize (gd_steps st) L. generalize 1%nat. generalize (f (gd_params st)). generalize (S (gd_count st)). induction fuel as [|fuel IH]; intros k cx n ss Ls H; [discriminate H|]. cbn [gd_loop] in H.
  assert (Sy : same_shape (move ss (gd_params st) (grad (gd_params st))) x0).
  { rewrite move_moved by (rewrite ?LX; auto; apply grad_shape; exact E). match goal with |- same_shape (moved ?a ?b ?d) _ => pose proof (moved_shape a b d) end. unfold same_shape in *. congruence. }
  destruct (_ && _)%bool.
  - injection H as <-. cbn. split; [exact Sy|]. destruct (Nat.eqb n 1); [rewrite update2_length by congruence|]; exact Ls.
  - destruct (feq _ _); [injection H as <-; cbn; auto|]. apply (IH k cx (S n) (update1 c ss)); [rewrite update1_length by congruence; exact Ls|exact H].
Qed.
Lemma steps_placed fuel : forall n st, same_shape (gd_params st) x0 -> length (gd_steps st) = length x0 ->
  gd_steps_n c' f' grad' fuel n (placed_state p w st) = option_map (placed_state p w) (gd_steps_n c f grad fuel n st).
Proof.
  induction n as [|n IH]; intros st E L; [reflexivity|]. cbn [gd_steps_n]. rewrite (step_placed fuel st E L). destruct (gd_step c f grad fuel st) as [st'|] eqn:F; [|reflexivity]. cbn [option_map].
  destruct (step_kept fuel st st' F E L) as (E' & L'). apply IH; assumption.
Qed.
End Descent.

(** ** Whole optimisations *)
Definition placed_evals (p : nat -> nat -> list R -> list R) (tr : list (params * bool)) : list (params * bool) := map (fun e => (each p (fst e), snd e)) tr.
Definition placed_run {S S'} (p : nat -> nat -> list R -> list R) (st : S -> S') (q : list (params * bool) * params * S) : list (params * bool) * params * S' :=
  (placed_evals p (fst (fst q)), each p (snd (fst q)), st (snd q)).

Section Whole.
Context {S S' : Type} (step : S -> params -> strat S) (step' : S' -> params -> strat S') (st : S -> S')
  (f f' : params -> costs) (grad grad' : params -> params) (p : nat -> nat -> list R -> list R) (I : S -> params -> Prop) (x0 : params)
  (callback : option costs -> option exn).
Hypothesis H1 : forall s x, I s x -> run f' grad' (step' (st s) (each p x)) = option_map (placed_run p st) (run f grad (step s x)).
Hypothesis H2 : forall s x tr y s', I s x -> run f grad (step s x) = Some (tr, y, s') -> I s' y /\ Forall (fun e => same_shape (fst e) x0) tr.
Hypothesis H3 : forall y, same_shape y x0 -> f' (each p y) = f y.

Lemma costs_placed tr lc : Forall (fun e => same_shape (fst e) x0) tr -> last_costs f' (placed_evals p tr) lc = last_costs f tr lc.
Proof.
  intros F. unfold last_costs, placed_evals. rewrite <- map_rev. apply Forall_rev in F. destruct (rev tr) as [|(x & b) q]; [reflexivity|]. cbn. f_equal. apply H3. exact (Forall_inv F).
Qed.
Lemma whole_placed tol mi : forall rem lst i x s neval lc bound, I s x ->
  optimize_loop step' f' grad' callback tol mi lst i rem (each p x) (st s) neval lc bound =
  option_map (placed_outcome p st) (optimize_loop step f grad callback tol mi lst i rem x s neval lc bound).
Proof.
  induction rem as [|rem IH]; intros lst i x s neval lc bound HI; [reflexivity|]. cbn [optimize_loop]. rewrite (H1 s x HI). destruct (run f grad (step s x)) as [((tr & y) & s')|] eqn:E; [|reflexivity].
  destruct (H2 s x tr y s' HI E) as (HI' & F). cbn [option_map placed_run fst snd]. rewrite (costs_placed tr lc F).
  replace (length (placed_evals p tr)) with (length tr) by (symmetry; apply map_length).
  destruct (callback (last_costs f tr lc)) as [e|]; [reflexivity|]. destruct (last_costs f tr lc) as [cs|]; [|reflexivity]. destruct (isnan (total cs)); [reflexivity|]. destruct (_ && _)%bool; [reflexivity|].
  rewrite (IH _ _ _ _ _ _ _ HI'). destruct (optimize_loop step f grad callback tol mi _ _ rem y s' _ _ _) as [o|]; [|reflexivity]. cbn. f_equal. unfold before, placed_outcome. cbn. f_equal.
  unfold placed_evals. rewrite map_app. reflexivity.
Qed.
End Whole.


Section Fits.
Variables (r : nat -> R) (p l : nat -> nat -> list R -> list R) (c c' : gd_conf) (x0 : params).
Hypothesis RN : forall g, r g <> 0.
Hypothesis SI : similar x0 r p l.
Hypothesis SG : same_gammas c c'.
Hypothesis LG : length (groups c) = length x0.
Variables (f f' : params -> costs) (grad grad' : params -> params).
Hypothesis FF : forall y, same_shape y x0 -> f' (each p y) = f y.
Hypothesis EG : exact_gradient (fun y => total (f y)) grad x0.
Hypothesis EG' : exact_gradient (fun y => total (f' y)) grad' x0.
Let w (g : nat) : R := r g * r g / 1.

Lemma totals y : same_shape y x0 -> total (f' (each p y)) = fscale 1 (total (f y)).
Proof. intros E. rewrite fscale_1, FF by exact E. reflexivity. Qed.
Lemma tries_placed x d cx cnt mf : same_shape x x0 -> same_shape d x -> forall fuel n ss, length ss = length x ->
  run f' grad' (gd_tries c' (each p x) (each (fun h i t => l h i (times (1 / (r h * r h)) t)) d) cx cnt mf fuel n (rescaled w ss))
  = option_map (placed_run p (placed_ctl w)) (run f grad (gd_tries c x d cx cnt mf fuel n ss)).
Proof.
  intros E D. induction fuel as [|fuel IH]; intros n ss L; [reflexivity|]. cbn [gd_tries run].
  assert (LG' : length (groups c) = length ss) by (rewrite LG, L; symmetry; apply same_shape_length; exact E).
  assert (MP : move (rescaled w ss) (each p x) (each (fun h i t => l h i (times (1 / (r h * r h)) t)) d) = each p (move ss x d)) by exact (moves_placed 1 r p l x0 ltac:(lra) RN SI x d ss E D L).
  rewrite !MP.
  assert (Sy : same_shape (move ss x d) x0). { rewrite move_moved by assumption. pose proof (moved_shape (fun g => nth g ss 0) x d). unfold same_shape in *. congruence. }
  rewrite (FF _ Sy). destruct (_ && _)%bool.
  - cbn. unfold placed_run, placed_ctl. cbn. destruct (Nat.eqb n 1); [rewrite (update2_placed w c c' ss SG LG')|]; reflexivity.
  - destruct (feq _ _); [reflexivity|]. rewrite (update1_placed w c c' ss SG LG'). rewrite IH by (rewrite update1_length; assumption).
    destruct (run f grad (gd_tries c x d cx cnt mf fuel (S n) (update1 c ss))) as [((tr & y) & s)|]; reflexivity.
Qed.
Lemma tries_kept x d cx cnt mf : same_shape x x0 -> same_shape d x -> forall fuel n ss tr y s, length ss = length x0 ->
  run f grad (gd_tries c x d cx cnt mf fuel n ss) = Some (tr, y, s) -> (same_shape y x0 /\ length (c_steps s) = length x0) /\ Forall (fun e => same_shape (fst e) x0) tr.
Proof.
  intros E D. pose proof (same_shape_length _ _ E) as LX. induction fuel as [|fuel IH]; intros n ss tr y s L H; [discriminate H|]. cbn [gd_tries run] in H.
  assert (Sy : same_shape (move ss x d) x0). { rewrite move_moved by (congruence || exact D). pose proof (moved_shape (fun g => nth g ss 0) x d). unfold same_shape in *. congruence. }
  destruct (_ && _)%bool.
  - cbn in H. injection H as <- <- <-. cbn. split; [split; [exact Sy|]|auto]. destruct (Nat.eqb n 1); [rewrite update2_length by congruence|]; exact L.
  - destruct (feq _ _); [cbn in H; injection H as <- <- <-; cbn; auto|].
    destruct (run f grad (gd_tries c x d cx cnt mf fuel (S n) (update1 c ss))) as [((tr1 & y1) & s1)|] eqn:R1; [|discriminate H]. injection H as <- <- <-.
    assert (L1 : length (update1 c ss) = length x0) by (rewrite update1_length by congruence; exact L).
    destruct (IH _ _ _ _ _ L1 R1) as (A & B). split; [exact A|]. constructor; [exact Sy|exact B].
Qed.

Lemma gd_optimize_placed fuel cb max_iter tol mi x s : same_shape x x0 -> length (c_steps s) = length x0 ->
  optimize (gd_strat c' fuel) f' grad' cb max_iter tol mi (each p x) (placed_ctl w s) =
  option_map (placed_outcome p (placed_ctl w)) (optimize (gd_strat c fuel) f grad cb max_iter tol mi x s).
Proof.
  intros E L. unfold optimize. apply (whole_placed _ _ _ f f' grad grad' p (fun s x => same_shape x x0 /\ length (c_steps s) = length x0) x0 cb); [| |exact FF|auto].
  - clear x s E L. intros s x (E & L). unfold gd_strat. cbn [run placed_ctl c_count c_min c_steps].
    rewrite (FF _ E). rewrite (grad_placed 1 r p l x0 RN SI (fun y => total (f y)) (fun y => total (f' y)) grad grad' totals EG EG' x E).
    rewrite (tries_placed x (grad x) (total (f x)) (S (c_count s)) (c_min s) E (grad_shape x0 (fun y => total (f y)) grad EG x E)) by (rewrite L; symmetry; apply same_shape_length; exact E).
    destruct (run f grad (gd_tries c x (grad x) _ _ _ _ _ _)) as [((tr & y) & s1)|]; reflexivity.
  - clear x s E L. intros s x tr y s' (E & L) H. unfold gd_strat in H. cbn [run] in H.
    destruct (run f grad (gd_tries c x (grad x) _ _ _ _ _ _)) as [((tr1 & y1) & s1)|] eqn:R1; [|discriminate H]. injection H as <- <- <-.
    destruct (tries_kept x (grad x) _ _ _ E (grad_shape x0 (fun y => total (f y)) grad EG x E) _ _ _ _ _ _ L R1) as (A & B). split; [exact A|]. constructor; [exact E|exact B].
Qed.
Lemma sgd_optimize_placed lrs cb max_iter tol mi x : same_shape x x0 -> length lrs = length x0 ->
  optimize (sgd_strat (rescaled w lrs)) f' grad' cb max_iter tol mi (each p x) tt =
  option_map (placed_outcome p (fun u => u)) (optimize (sgd_strat lrs) f grad cb max_iter tol mi x tt).
Proof.
  intros E L. unfold optimize. apply (whole_placed (sgd_strat lrs) (sgd_strat (rescaled w lrs)) (fun u => u) f f' grad grad' p (fun _ x => same_shape x x0) x0 cb); [| |exact FF|auto].
  - clear x E. intros s x E. unfold sgd_strat. cbn [run option_map]. unfold placed_run. cbn [fst snd placed_evals map]. do 3 f_equal.
    rewrite (grad_placed 1 r p l x0 RN SI (fun y => total (f y)) (fun y => total (f' y)) grad grad' totals EG EG' x E).
    apply (moves_placed 1 r p l x0 ltac:(lra) RN SI x (grad x) lrs E (grad_shape x0 (fun y => total (f y)) grad EG x E)). rewrite L. symmetry. apply same_shape_length. exact E.
  - clear x E. intros s x tr y s' E H. cbn in H. injection H as <- <- <-. split; [|constructor; [exact E|constructor]].
    pose proof (grad_shape x0 (fun y => total (f y)) grad EG x E) as D. rewrite move_moved by (exact D || (rewrite L; symmetry; apply same_shape_length; exact E)).
    match goal with |- same_shape (moved ?a ?b ?d) _ => pose proof (moved_shape a b d) end. unfold same_shape in *. congruence.
Qed.
End Fits.

(** ** Point sets *)
Lemma dotl_rsum : forall x y, length x = length y -> dotl x y = rsum (length x) (fun k => nth k x 0 * nth k y 0).
Proof.
  unfold dotl. induction x as [|a x IH]; intros [|b y] H; try discriminate; [reflexivity|]. cbn [combine map sumR fold_right length fst snd]. rewrite rsum_first. cbn [nth]. f_equal. apply IH. cbn in H. lia.
Qed.

Lemma place_len d u Q c x : length (place_points d u Q c x) = length x.
Proof. unfold place_points. rewrite map_length, seq_length. reflexivity. Qed.
Lemma place_nth d u Q c x k : (k < length x)%nat ->
  nth k (place_points d u Q c x) 0 = u * turned d Q (fun b => nth (k / d * d + b) x 0) (k mod d) + c (k mod d)%nat.
Proof.
  intros L. unfold place_points. match goal with |- nth k (map ?f _) 0 = _ => rewrite (nth_indep _ 0 (f 0%nat)) by (rewrite map_length, seq_length; exact L); rewrite (map_nth f) end.
  rewrite seq_nth by exact L. reflexivity.
Qed.
Lemma away_nth s : forall x d k, length d = length x -> nth k (away s x d) 0 = nth k x 0 - s * nth k d 0.
Proof. unfold away. induction x as [|a x IH]; intros [|b d] [|k] H; try discriminate; cbn; try ring. apply IH. cbn in H. lia. Qed.
Lemma place_points_similarity d N u Q c : rigid d Q -> u <> 0 -> similarity (N * d) u (place_points d u Q c) (place_points d u Q (fun _ => 0)).
Proof.
  intros HQ HU. destruct d as [|d'].
  { rewrite Nat.mul_0_r. assert (E : forall x : list R, length x = 0%nat -> x = []) by (intros [|? ?] ?; [reflexivity|discriminate]). split.
    - intros x H. rewrite !place_len. auto.
    - intros s x e H1 H2. rewrite (E x H1), (E e H2). reflexivity.
    - intros x e H1 H2. rewrite (E x H1), (E e H2). unfold dotl. cbn. ring.
    - intros e H. exists []. rewrite (E e H). auto. }
  set (d := S d') in *. assert (PD : (0 < d)%nat) by (unfold d; lia).
  split.
  - intros x H. rewrite !place_len. auto.
  - intros s x e H1 H2. assert (LA : length (away s x e) = length x) by (apply away_len; congruence). apply nth_eq; [rewrite place_len, !away_len by (rewrite ?place_len; congruence); rewrite place_len; reflexivity|].
    intros k. rewrite away_nth by (rewrite !place_len; congruence). destruct (Nat.lt_ge_cases k (length x)) as [K|K].
    + rewrite !place_nth by congruence. rewrite (turned_ext d Q _ (fun b => nth (k / d * d + b) x 0 + - s * nth (k / d * d + b) e 0)) by (intros b B; rewrite away_nth by congruence; ring).
      rewrite (turned_plus d Q (fun b => nth (k / d * d + b) x 0) (fun b => - s * nth (k / d * d + b) e 0)), (turned_scal d Q (- s) (fun b => nth (k / d * d + b) e 0)). ring.
    + rewrite !nth_overflow by (rewrite place_len; lia). ring.
  - intros x e H1 H2. rewrite !dotl_rsum by (rewrite ?place_len; congruence). rewrite place_len, H1. rewrite !rsum_flat. rewrite <- rsum_scal. apply rsum_ext. intros i I.
    assert (B0 : forall a, (a < d)%nat -> (i * d + a < N * d)%nat) by (intros a A; nia).
    assert (DV : forall a, (a < d)%nat -> ((i * d + a) / d = i /\ (i * d + a) mod d = a)%nat).
    { intros a A. rewrite Nat.div_add_l, Nat.div_small by lia. rewrite (Nat.add_comm (i * d) a), Nat.mod_add, Nat.mod_small by lia. lia. }
    transitivity (rsum d (fun a => u * u * (turned d Q (fun b => nth (i * d + b) x 0) a * turned d Q (fun b => nth (i * d + b) e 0) a))).
    + apply rsum_ext. intros a A. rewrite !place_nth by (rewrite ?H1, ?H2; apply B0; exact A). destruct (DV a A) as (-> & ->). ring.
    + rewrite rsum_scal. f_equal. apply (turned_dot d Q HQ).
  - intros e H. exists (place_points d (/ u) (mtr Q) (fun _ => 0) e). split; [rewrite place_len; exact H|]. apply nth_eq; [rewrite !place_len; reflexivity|]. intros k.
    destruct (Nat.lt_ge_cases k (length e)) as [K|K]; [|rewrite !nth_overflow by (rewrite ?place_len; lia); reflexivity].
    assert (M : (k mod d < d)%nat) by (apply Nat.mod_upper_bound; lia). assert (KD : (k / d < N)%nat) by (apply Nat.div_lt_upper_bound; lia).
    rewrite place_nth by (rewrite place_len; exact K).
    rewrite (turned_ext d Q _ (fun b => / u * turned d (mtr Q) (fun a => nth (k / d * d + a) e 0) b)).
    + rewrite (turned_scal d Q (/ u) (turned d (mtr Q) (fun a => nth (k / d * d + a) e 0))), (turned_back d Q HQ _ _ M).
      replace (k / d * d + k mod d)%nat with k by (rewrite Nat.mul_comm; apply Nat.div_mod; lia). field. exact HU.
    + intros b B. assert (KB : (k / d * d + b < N * d)%nat) by (clear - KD B; revert KD; generalize (k / d)%nat; intros q KD; nia). rewrite place_nth by (rewrite H; exact KB).
      assert (E1 : ((k / d * d + b) / d = k / d)%nat) by (rewrite Nat.div_add_l by lia; rewrite (Nat.div_small b d B); apply Nat.add_0_r).
      assert (E2 : ((k / d * d + b) mod d = b)%nat) by (rewrite (Nat.add_comm (k / d * d) b), Nat.mod_add, Nat.mod_small by lia; reflexivity).
      rewrite E1, E2. ring.
Qed.
