(** Conservation of the total linear momentum. *)
From Coq Require Import Reals String List Arith Lia Lra FunctionalExtensionality.
From Verif Require Import Py RSum Tensor TensorFacts KernelModel FieldModel GeometryModel ModuleModel ShootingModel
  SpecGeometry SpecModule SpecShooting SpecMotion ModuleMain ShootingPack ShootingDyn MotionFacts MotionShoot.
Import ListNotations.
Open Scope R_scope.

(** ** Derivatives *)

Lemma lim_loc f g x l eps : 0 < eps -> (forall s, Rabs (s - x) < eps -> f s = g s) -> derivable_pt_lim f x l -> derivable_pt_lim g x l.
Proof.
  intros P E D e He. destruct (D e He) as (dl & Q). destruct dl as [dl Hd]. cbn in Q.
  assert (M : 0 < Rmin dl eps) by (apply Rmin_pos; assumption). exists (mkposreal _ M). intros h Nh Hh. cbn in Hh.
  rewrite <- (E (x + h)), <- (E x).
  - apply Q; [assumption|]. eapply Rlt_le_trans; [exact Hh|apply Rmin_l].
  - rewrite Rminus_diag_eq, Rabs_R0 by reflexivity. assumption.
  - replace (x + h - x) with h by ring. eapply Rlt_le_trans; [exact Hh|apply Rmin_r].
Qed.
Lemma lim_translate f x l k : derivable_pt_lim f x l -> derivable_pt_lim (fun s => f (s - k)) (x + k) l.
Proof.
  intros D e He. destruct (D e He) as (dl & Q). exists dl. intros h Nh Hh. specialize (Q h Nh Hh).
  replace (x + k + h - k) with (x + h) by ring. replace (x + k - k) with x by ring. exact Q.
Qed.

Lemma tensor_eta t : mkT (shape t) (get t) = t.
Proof. destruct t; reflexivity. Qed.

(** Unit directions. *)
Fixpoint unit_at (l : list tensor) (i : nat) (idx : list nat) : list tensor :=
  match l, i with
  | [], _ => []
  | t :: l', O => mkT (shape t) (fun j => if idx_eqb j idx then 1 else 0) :: map (fun t => tzeros (shape t)) l'
  | t :: l', S i' => tzeros (shape t) :: unit_at l' i' idx
  end.

Lemma unit_shape l : forall i idx, map shape (unit_at l i idx) = map shape l.
Proof.
  induction l as [|t l IH]; intros i idx; [reflexivity|]. destruct i; cbn [unit_at map].
  - f_equal. rewrite map_map. reflexivity.
  - rewrite IH. reflexivity.
Qed.
Lemma tadd_zeros t sh s : tadd t (tscal s (tzeros sh)) = t.
Proof.
  rewrite <- (tensor_eta t) at 2. unfold tadd, tmap2. apply mkT_ext. intros idx. cbn. ring.
Qed.
Lemma ladd_zeros l s : ladd l (lscal s (map (fun t => tzeros (shape t)) l)) = l.
Proof.
  induction l as [|t l IH]; [reflexivity|]. unfold ladd, lscal in *. cbn [map combine fst snd]. rewrite IH, tadd_zeros. reflexivity.
Qed.
Lemma ladd_unit l : forall i idx s t, nth_error l i = Some t ->
  ladd l (lscal s (unit_at l i idx)) = upd l i idx (entry l i idx + s).
Proof.
  induction l as [|t l IH]; intros i idx s u E; [destruct i; discriminate E|]. destruct i as [|i]; cbn [nth_error] in E.
  - unfold entry. cbn [unit_at upd nth_error]. unfold ladd, lscal. cbn [map combine fst snd].
    pose proof (ladd_zeros l s) as Z. unfold ladd, lscal in Z. rewrite Z. f_equal. unfold tadd, tmap2, tset. cbn [shape get tscal tmap].
    apply mkT_ext. intros j. unfold idx_eqb. destruct (list_eq_dec Nat.eq_dec j idx) as [->|]; ring.
  - unfold entry in *. cbn [unit_at upd nth_error]. unfold ladd, lscal in *. cbn [map combine fst snd].
    rewrite (IH i idx s u E), tadd_zeros. reflexivity.
Qed.

Lemma sum_idx_zero sh : forall f, (forall j, f j = 0) -> sum_idx sh f = 0.
Proof. induction sh as [|n sh IH]; intros f H; cbn [sum_idx]; [apply H|]. apply rsum_zero. intros i _. apply IH. intros j. apply H. Qed.

Lemma sum_idx_unit sh : forall idx f, valid sh idx -> sum_idx sh (fun j => f j * (if idx_eqb j idx then 1 else 0)) = f idx.
Proof.
  induction sh as [|n sh IH]; intros idx f V; destruct idx as [|i idx]; try (elim V).
  - cbn. unfold idx_eqb. destruct (list_eq_dec Nat.eq_dec [] []) as [_|N]; [ring|elim N; reflexivity].
  - destruct V as [V1 V2]. cbn [sum_idx].
    rewrite (rsum_ext n _ (fun k => delta k i * f (i :: idx))).
    + rewrite rsum_delta_l by exact V1. reflexivity.
    + intros k _. destruct (Nat.eq_dec k i) as [->|N].
      * rewrite delta_same. rewrite <- (IH idx (fun j => 1 * f (i :: j)) V2) at 1.
        apply sum_idx_ext. intros j _. unfold idx_eqb. destruct (list_eq_dec Nat.eq_dec (i :: j) (i :: idx)) as [Q|Q];
          destruct (list_eq_dec Nat.eq_dec j idx) as [Q'|Q']; try ring; [injection Q; intros; elim Q'; assumption|subst; elim Q; reflexivity].
      * rewrite delta_diff by exact N. rewrite Rmult_0_l. apply sum_idx_zero. intros j. unfold idx_eqb.
        destruct (list_eq_dec Nat.eq_dec (k :: j) (i :: idx)) as [Q|Q]; [injection Q; intros; elim N; assumption|ring].
Qed.

Lemma tdot_zeros a sh : tdot a (tzeros sh) = 0.
Proof. unfold tdot. apply rsum_zero. intros k _. cbn. ring. Qed.
Lemma ldot_zeros G l : ldot G (map (fun t => tzeros (shape t)) l) = 0.
Proof.
  revert l. induction G as [|g G IH]; intros l; [reflexivity|]. destruct l as [|t l]; [reflexivity|]. unfold ldot in *.
  cbn [map combine fold_right fst snd]. rewrite IH, tdot_zeros. ring.
Qed.
Lemma ldot_unit G l : forall i idx t, map shape G = map shape l -> nth_error l i = Some t -> valid (shape t) idx ->
  ldot G (unit_at l i idx) = entry G i idx.
Proof.
  revert l. induction G as [|g G IH]; intros l i idx t S E V; destruct l as [|u l]; try discriminate S; [destruct i; discriminate E|].
  cbn [map] in S. injection S as S1 S2. unfold ldot, entry in *. destruct i as [|i]; cbn [nth_error unit_at map combine fold_right fst snd] in *.
  - injection E as ->. pose proof (ldot_zeros G l) as Z. unfold ldot in Z. rewrite Z, Rplus_0_r.
    rewrite tdot_sum by (cbn; congruence). rewrite <- S1 in V. apply (sum_idx_unit (shape g) idx (get g) V).
  - rewrite tdot_zeros, Rplus_0_l. exact (IH l i idx t S2 E V).
Qed.

Lemma gradient_entries F l G i t idx g : map shape G = map shape l ->
  (forall u, map shape u = map shape l ->
      exists eps f, 0 < eps /\ (forall s, Rabs s < eps -> F (ladd l (lscal s u)) = Ok (f s)) /\ derivable_pt_lim f 0 (ldot G u)) ->
  nth_error l i = Some t -> valid (shape t) idx -> partial_derivative F l i idx g -> entry G i idx = g.
Proof.
  intros S H E V (e1 & f1 & P1 & Q1 & D1). destruct (H (unit_at l i idx) (unit_shape l i idx)) as (e2 & f2 & P2 & Q2 & D2).
  rewrite (ldot_unit G l i idx t S E V) in D2.
  apply (lim_translate f1 _ _ (- entry l i idx)) in D1. replace (entry l i idx + - entry l i idx) with 0 in D1 by ring.
  apply (uniqueness_limite f2 0); [exact D2|].
  apply (lim_loc (fun s => f1 (s - - entry l i idx)) f2 0 g (Rmin e1 e2)); [apply Rmin_pos; assumption| |exact D1].
  intros s B. rewrite Rminus_0_r in B. assert (Q : Ok (f1 (s - - entry l i idx)) = Ok (f2 s)); [|injection Q; auto].
  rewrite <- Q2 by (eapply Rlt_le_trans; [exact B|apply Rmin_r]). rewrite (ladd_unit l i idx s t E), <- Q1; [do 2 f_equal; ring|].
  replace (s - - entry l i idx - entry l i idx) with s by ring. eapply Rlt_le_trans; [exact B|apply Rmin_l].
Qed.

(** ** The direction of a translation *)

Definition dir_of (c : nat -> R) (b : bool) (t : tensor) : tensor :=
  if b then mkT (shape t) (fun j => match j with [_; a] => c a | _ => 0 end) else tzeros (shape t).
Definition direction (c : nat -> R) (bs : list bool) (l : list tensor) : list tensor :=
  map (fun p : bool * tensor => dir_of c (fst p) (snd p)) (combine bs l).

Lemma direction_shape c bs : forall l, length bs = length l -> map shape (direction c bs l) = map shape l.
Proof.
  induction bs as [|b bs IH]; intros l L; destruct l as [|t l]; try discriminate L; [reflexivity|].
  unfold direction in *. cbn [combine map fst snd]. rewrite IH by (injection L; auto). destruct b; reflexivity.
Qed.
Lemma ladd_direction c bs s : forall l, length bs = length l -> ladd l (lscal s (direction c bs l)) = mshift (fun a => s * c a) bs l.
Proof.
  induction bs as [|b bs IH]; intros l L; destruct l as [|t l]; try discriminate L; [reflexivity|].
  unfold direction, ladd, lscal, mshift in *. cbn [combine map fst snd]. rewrite IH by (injection L; auto). f_equal.
  destruct b; cbn [dir_of]; [|apply tadd_zeros]. unfold tadd, tmap2, tscal, tmap, shift. cbn [shape get].
  apply mkT_ext. intros j. destruct j as [|i [|a [|]]]; ring.
Qed.

(** Coordinate a of the sum of the rows of the marked tensors. *)
Definition marked_sum (a : nat) (bs : list bool) (l : list tensor) : R :=
  fold_right Rplus 0 (map (fun p : bool * tensor => if fst p then rsum (nrows (snd p)) (fun r => (snd p) @2 r a) else 0) (combine bs l)).

Definition pts (d : nat) (bs : list bool) (l : list tensor) : Prop :=
  Forall2 (fun b t => b = true -> exists n, shape t = [n; d]) bs l.
Lemma pts_shape d bs l l' : pts d bs l -> map shape l' = map shape l -> pts d bs l'.
Proof.
  intros H. revert l'. induction H as [|b t bs l Q H IH]; intros l' E; destruct l' as [|t' l']; try discriminate E; [constructor|].
  cbn [map] in E. injection E as E1 E2. constructor; [rewrite E1; exact Q|exact (IH l' E2)].
Qed.
Lemma pts_len d bs l : pts d bs l -> length bs = length l.
Proof. induction 1; cbn; congruence. Qed.

Lemma ldot_direction d a bs : (a < d)%nat -> forall G l, map shape G = map shape l -> pts d bs l ->
  ldot G (direction (vec d (delta a)) bs l) = marked_sum a bs G.
Proof.
  intros A G l S P. revert G S. induction P as [|b t bs l Q P IH]; intros G S; destruct G as [|g G]; try discriminate S; [reflexivity|].
  cbn [map] in S. injection S as S1 S2. unfold ldot, direction, marked_sum in *. cbn [combine map fold_right fst snd]. rewrite (IH G S2). f_equal.
  destruct b; cbn [dir_of]; [|apply tdot_zeros]. destruct (Q eq_refl) as (n & E). rewrite tdot_sum by (cbn; congruence). rewrite S1, E.
  cbn [sum_idx get shape]. unfold nrows. rewrite S1, E. cbn [tnth nth]. apply rsum_ext. intros r _.
  rewrite (rsum_ext d _ (fun j => delta a j * get g [r; j])).
  - apply rsum_delta_r. exact A.
  - intros j Hj. unfold vec. rewrite Nat.mod_small by exact Hj. ring.
Qed.

Lemma marked_sum_add a bs : forall l k, map shape k = map shape l -> length bs = length l ->
  marked_sum a bs (ladd l k) = marked_sum a bs l + marked_sum a bs k.
Proof.
  unfold marked_sum, ladd. induction bs as [|b bs IH]; intros l k S L; destruct l as [|t l], k as [|u k]; try discriminate L; try discriminate S.
  - cbn. ring.
  - cbn [map] in S. injection S as S1 S2. cbn [combine map fold_right fst snd]. rewrite (IH l k S2) by (injection L; auto).
    destruct b; [|ring]. change (nrows (tadd t u)) with (nrows t). unfold nrows. rewrite S1.
    rewrite (rsum_ext (tnth (shape t) 0) (fun r => (tadd t u) @2 r a) (fun r => t @2 r a + u @2 r a)) by reflexivity. rewrite rsum_plus. ring.
Qed.
Lemma marked_sum_scal a bs s : forall l, marked_sum a bs (lscal s l) = s * marked_sum a bs l.
Proof.
  unfold marked_sum, lscal. induction bs as [|b bs IH]; intros l; [cbn; ring|]. destruct l as [|t l]; [cbn; ring|].
  cbn [combine map fold_right fst snd]. rewrite IH. destruct b; [|ring]. change (nrows (tscal s t)) with (nrows t).
  rewrite Rmult_plus_distr_l, <- rsum_scal. reflexivity.
Qed.
Lemma marked_sum_teq d a bs : (a < d)%nat -> forall l l', pts d bs l -> leq l' l -> marked_sum a bs l' = marked_sum a bs l.
Proof.
  intros A l l' P. revert l'. unfold marked_sum. induction P as [|b t bs l Q P IH]; intros l' E; [destruct l'; reflexivity|].
  inversion E as [|t' u l'' l2 E1 E2]; subst. cbn [combine map fold_right fst snd]. rewrite (IH l'' E2). f_equal. destruct b; [|reflexivity].
  destruct (Q eq_refl) as (n & S). destruct E1 as [S1 E1]. unfold nrows. rewrite S1, S. cbn [tnth nth]. apply rsum_ext. intros r Hr.
  apply E1. rewrite S1, S. cbn. auto.
Qed.
Lemma marked_sum_app a bs bs' l l' : length bs = length l -> marked_sum a (bs ++ bs') (l ++ l') = marked_sum a bs l + marked_sum a bs' l'.
Proof.
  intros L. unfold marked_sum. rewrite combine_app by exact L. rewrite map_app. generalize (map (fun p : bool * tensor => if fst p then rsum (nrows (snd p)) (fun r => (snd p) @2 r a) else 0) (combine bs l)).
  intros x. induction x as [|y x IH]; cbn [app fold_right]; [ring|]. rewrite IH. ring.
Qed.
Lemma momentum_marked g a : linear_momentum g a = marked_sum a (marks g) (g_cotan g).
Proof.
  induction g as [g S|gs IH] using gman_ind'; [destruct g; try (elim S); unfold marked_sum; cbn [linear_momentum marks g_cotan combine map fold_right fst snd]; ring|].
  cbn [linear_momentum marks g_cotan]. induction IH as [|g gs Hg _ IHs]; [reflexivity|]. cbn [fold_right flat_map].
  rewrite marked_sum_app by (rewrite marks_len, g_cotan_len; reflexivity). rewrite Hg, IHs. reflexivity.
Qed.

(** A nonzero sum has a term. *)
Lemma marked_sum_term a bs : forall l, marked_sum a bs l <> 0 -> exists i t, nth_error bs i = Some true /\ nth_error l i = Some t /\ (0 < nrows t)%nat.
Proof.
  unfold marked_sum. induction bs as [|b bs IH]; intros l N; [elim N; reflexivity|]. destruct l as [|t l]; [elim N; reflexivity|].
  cbn [combine map fold_right fst snd] in N. destruct (Req_dec (marked_sum a bs l) 0) as [Z|Z].
  - unfold marked_sum in Z. rewrite Z, Rplus_0_r in N. destruct b; [|elim N; reflexivity]. exists 0%nat, t. split; [reflexivity|]. split; [reflexivity|].
    destruct (nrows t); [elim N; reflexivity|lia].
  - destruct (IH l Z) as (i & u & A & B & C). exists (S i), u. auto.
Qed.

Lemma marked_sum_opp a bs : forall x y, map shape x = map shape y ->
  (forall i t r, nth_error bs i = Some true -> nth_error y i = Some t -> (r < nrows t)%nat -> entry x i [r; a] = - entry y i [r; a]) ->
  marked_sum a bs x = - marked_sum a bs y.
Proof.
  unfold marked_sum. induction bs as [|b bs IH]; intros x y S H; [cbn; ring|]. destruct x as [|t x], y as [|u y]; try discriminate S; [cbn; ring|].
  cbn [map] in S. injection S as S1 S2. cbn [combine map fold_right fst snd]. rewrite (IH x y S2).
  - destruct b; [|ring]. rewrite Ropp_plus_distr. f_equal. unfold nrows. rewrite S1. rewrite <- rsum_opp. apply rsum_ext. intros r Hr.
    exact (H 0%nat u r eq_refl eq_refl Hr).
  - intros i t' r A B C. exact (H (S i) t' r A B C).
Qed.
Lemma marked_sum_falses a n : forall l, marked_sum a (repeat false n) l = 0.
Proof.
  unfold marked_sum. induction n as [|n IH]; intros l; [reflexivity|]. destruct l as [|t l]; [reflexivity|]. cbn [repeat combine map fold_right fst snd]. rewrite IH. ring.
Qed.

Lemma upd_same l : forall i t idx, nth_error l i = Some t -> upd l i idx (entry l i idx) = l.
Proof.
  induction l as [|u l IH]; intros i t idx E; [destruct i; discriminate E|]. destruct i as [|i]; cbn [nth_error upd] in *.
  - unfold entry. cbn [nth_error]. f_equal. transitivity (mkT (shape u) (get u)); [|apply tensor_eta]. unfold tset. apply mkT_ext. intros j. unfold idx_eqb.
    destruct (list_eq_dec Nat.eq_dec j idx) as [->|]; reflexivity.
  - f_equal. exact (IH i t idx E).
Qed.

Lemma phase_fill g l : length l = (g_len g + g_len g)%nat -> exists g', phase g' = l /\ skel g' = skel g.
Proof.
  intros L. unfold phase in *.
  destruct (put_gd_ok g (firstn (g_len g) l) []) as (g1 & _ & G1 & C1 & K1); [rewrite firstn_length; lia|].
  destruct (put_cotan_ok g1 (skipn (g_len g) l) []) as (g2 & _ & C2 & G2 & K2); [rewrite skipn_length, (skel_len _ _ K1); lia|].
  exists g2. rewrite C2, G2, G1. split; [apply firstn_skipn|congruence].
Qed.
Lemma phase_len g : length (phase g) = (g_len g + g_len g)%nat.
Proof. unfold phase. rewrite app_length, g_gd_len, g_cotan_len. reflexivity. Qed.

Definition all_marks (g : gman) : list bool := marks g ++ repeat false (g_len g).
Lemma mshift_falses c n l : length l = n -> mshift c (repeat false n) l = l.
Proof.
  revert n. induction l as [|t l IH]; intros n L; destruct n; try discriminate L; [reflexivity|]. unfold mshift in *. cbn [repeat combine map fst snd].
  rewrite IH by (injection L; auto). reflexivity.
Qed.
Lemma moved_phase c g : phase (moved c g) = mshift c (all_marks g) (phase g).
Proof.
  unfold phase, all_marks. rewrite mshift_app by (rewrite marks_len, g_gd_len; reflexivity).
  rewrite mshift_falses by (apply g_cotan_len). rewrite gd_moved, cotan_moved. reflexivity.
Qed.
Lemma all_marks_len g : length (all_marks g) = length (phase g).
Proof. unfold all_marks. rewrite phase_len, app_length, repeat_length, marks_len. reflexivity. Qed.
Lemma all_marks_same g g' : skel g = skel g' -> all_marks g = all_marks g'.
Proof. intros K. unfold all_marks. rewrite (marks_same g g' K), (skel_len g g' K). reflexivity. Qed.

Lemma wf_pts d g : wf_gman d g -> pts d (marks g) (g_gd g) /\ pts d (marks g) (g_cotan g).
Proof.
  unfold pts. induction g as [g S|gs IH] using gman_ind'; intros W.
  - destruct g; try (elim S); cbn [wf_gman] in W; try contradiction W; cbn [marks g_gd g_cotan]; try (split; constructor);
      repeat match goal with H : _ /\ _ |- _ => destruct H end; try intros _; try discriminate; try constructor; try discriminate;
      repeat constructor; try discriminate; try (eexists; eassumption).
  - cbn [marks g_gd g_cotan wf_gman] in *. induction IH as [|g gs Hg _ IHs]; [split; constructor|]. destruct W as [W1 W2].
    destruct (Hg W1) as [A B]. destruct (IHs W2) as [A' B']. cbn [flat_map]. split; apply Forall2_app; assumption.
Qed.
Lemma wf_shapes d g : wf_gman d g -> map shape (g_cotan g) = map shape (g_gd g).
Proof.
  induction g as [g S|gs IH] using gman_ind'; intros W.
  - destruct g; try (elim S); cbn [wf_gman] in W; try contradiction W; cbn [g_gd g_cotan map];
      repeat match goal with H : _ /\ _ |- _ => destruct H end; congruence.
  - cbn [g_gd g_cotan wf_gman] in *. induction IH as [|g gs Hg _ IHs]; [reflexivity|]. destruct W as [W1 W2]. cbn [flat_map]. rewrite !map_app.
    rewrite (Hg W1), (IHs W2). reflexivity.
Qed.

Lemma nth_skip {A} (l : list A) k : forall i, nth_error (skipn k l) i = nth_error l (k + i).
Proof. revert l. induction k as [|k IH]; intros l i; [reflexivity|]. destruct l; [destruct i; reflexivity|]. cbn. apply IH. Qed.
Lemma nth_first {A} (l : list A) k : forall i, (i < k)%nat -> nth_error (firstn k l) i = nth_error l i.
Proof. revert l. induction k as [|k IH]; intros l i Hi; [lia|]. destruct l; [destruct i; reflexivity|]. destruct i; cbn; [reflexivity|]. apply IH. lia. Qed.
Lemma entry_skip (l : list tensor) k i idx : entry (skipn k l) i idx = entry l (k + i) idx.
Proof. unfold entry. rewrite nth_skip. reflexivity. Qed.
Lemma entry_first (l : list tensor) k i idx : (i < k)%nat -> entry (firstn k l) i idx = entry l i idx.
Proof. intros Q. unfold entry. rewrite nth_first by exact Q. reflexivity. Qed.
Lemma map_skipn {A B} (f : A -> B) k : forall l, map f (skipn k l) = skipn k (map f l).
Proof. induction k as [|k IH]; intros l; [reflexivity|]. destruct l; [reflexivity|]. cbn. apply IH. Qed.
Lemma map_firstn {A B} (f : A -> B) k : forall l, map f (firstn k l) = firstn k (map f l).
Proof. induction k as [|k IH]; intros l; [reflexivity|]. destruct l; [reflexivity|]. cbn. rewrite IH. reflexivity. Qed.

(** ** An invariant Hamiltonian *)
Section Invariant.
Variables (d a : nat) (g0 : gman) (H : list tensor -> res R).
Hypothesis Ha : (a < d)%nat.
Hypothesis wf : wf_gman d g0.
Notation n := (g_len g0).
Notation shapes := (map shape (phase g0)).
Hypothesis smooth : smooth_on shapes H.
Hypothesis invariant : forall g v, skel g = skel g0 -> map shape (phase g) = shapes -> H (phase (moved (vec d v) g)) = H (phase g).

Definition total (l : list tensor) : R := marked_sum a (marks g0) (skipn n l).

Lemma shapes_len l : map shape l = shapes -> length l = (n + n)%nat.
Proof. intros S. rewrite <- (map_length shape), S, map_length. apply phase_len. Qed.

Lemma pts_all : pts d (all_marks g0) (phase g0).
Proof.
  apply Forall2_app; [exact (proj1 (wf_pts d g0 wf))|]. pose proof (g_cotan_len g0) as L. revert L. generalize (g_len g0). generalize (g_cotan g0).
  induction l as [|t l IH]; intros k L; destruct k; try discriminate L; cbn [repeat]; constructor; [discriminate|]. apply IH. injection L; auto.
Qed.

Lemma invariant_gradient l G : map shape l = shapes -> map shape G = map shape l ->
  (forall u, map shape u = map shape l ->
      exists eps f, 0 < eps /\ (forall s, Rabs s < eps -> H (ladd l (lscal s u)) = Ok (f s)) /\ derivable_pt_lim f 0 (ldot G u)) ->
  marked_sum a (marks g0) (firstn n G) = 0.
Proof.
  intros SL SG D. pose proof (shapes_len l SL) as L.
  assert (LM : length (all_marks g0) = length l) by (rewrite all_marks_len, phase_len; congruence).
  destruct (D (direction (vec d (delta a)) (all_marks g0) l)) as (eps & f & P & Q & DD); [apply direction_shape; exact LM|].
  rewrite (ldot_direction d a (all_marks g0) Ha G l SG (pts_shape d _ _ l pts_all SL)) in DD.
  assert (LG : length G = (n + n)%nat) by (rewrite <- (map_length shape), SG, map_length; exact L).
  rewrite <- (firstn_skipn n G) in DD. unfold all_marks in DD.
  rewrite marked_sum_app in DD by (rewrite marks_len, firstn_length; lia). rewrite marked_sum_falses, Rplus_0_r in DD.
  apply (uniqueness_limite f 0); [exact DD|]. destruct (phase_fill g0 l L) as (g & PG & K).
  apply (lim_loc (fun _ => f 0) f 0 0 eps); [exact P| |apply derivable_pt_lim_const].
  intros s B. rewrite Rminus_0_r in B. assert (E : Ok (f 0) = Ok (f s)); [|injection E; auto].
  rewrite <- (Q s B), <- (Q 0) by (rewrite Rabs_R0; exact P). rewrite !ladd_direction by exact LM.
  rewrite <- PG, <- (all_marks_same g g0 K).
  change (mshift (fun b => s * vec d (delta a) b) (all_marks g) (phase g)) with (mshift (vec d (fun b => s * delta a b)) (all_marks g) (phase g)).
  change (mshift (fun b => 0 * vec d (delta a) b) (all_marks g) (phase g)) with (mshift (vec d (fun b => 0 * delta a b)) (all_marks g) (phase g)).
  rewrite <- !moved_phase. rewrite !invariant; auto; rewrite PG; exact SL.
Qed.

Lemma stage_total l k : map shape l = shapes -> hamilton H l k -> total k = 0.
Proof.
  intros SL (SK & n' & L' & SS & HK). pose proof (shapes_len l SL) as L. assert (n' = n) by lia. subst n'.
  assert (LK : length k = (n + n)%nat) by (rewrite <- (map_length shape), SK, map_length; exact L).
  destruct (Req_dec (total k) 0) as [Z|NZ]; [exact Z|]. exfalso. apply NZ.
  pose proof (pts_shape d _ _ l pts_all SL) as PL.
  (* the shapes of the first half *)
  assert (P1 : pts d (marks g0) (firstn n l)).
  { apply (pts_shape d _ (g_gd g0)); [exact (proj1 (wf_pts d g0 wf))|]. rewrite map_firstn, SL. unfold phase. rewrite map_app.
    replace n with (length (map shape (g_gd g0))) by (rewrite map_length; apply g_gd_len). rewrite firstn_app, Nat.sub_diag, firstn_all, firstn_O, app_nil_r. reflexivity. }
  assert (Hd : forall i t r, nth_error (marks g0) i = Some true -> nth_error (firstn n l) i = Some t -> (r < nrows t)%nat -> (i < n)%nat /\ nth_error l i = Some t /\ valid (shape t) [r; a]).
  { intros i t r M E R. assert (I : (i < n)%nat) by (assert (nth_error (marks g0) i <> None) as N by congruence; apply nth_error_Some in N; rewrite marks_len in N; exact N).
    split; [exact I|]. rewrite nth_first in E by exact I. split; [exact E|].
    assert (exists m, shape t = [m; d]) as (m & S).
    { rewrite <- nth_first with (k := n) in E by exact I. clear - P1 M E. revert i M E. induction P1 as [|b u bs us Q P IH]; intros i M E; [destruct i; discriminate M|].
      destruct i as [|i]; cbn [nth_error] in *; [injection M as ->; injection E as ->; exact (Q eq_refl)|]. exact (IH i M E). }
    unfold nrows in R. rewrite S in *. cbn in R. cbn. auto. }
  destruct (marked_sum_term a _ _ NZ) as (i & t & M & E & R). rewrite nth_skip in E.
  assert (I : (i < n)%nat) by (assert (nth_error (marks g0) i <> None) as N by congruence; apply nth_error_Some in N; rewrite marks_len in N; exact N).
  assert (exists u, nth_error (firstn n l) i = Some u /\ shape u = shape t) as (u & EU & SU).
  { assert (nth_error (map shape (firstn n l)) i = Some (shape t)) as Q.
    { rewrite SS, map_skipn, <- SK, <- map_skipn. rewrite nth_error_map, nth_skip, E. reflexivity. }
    rewrite nth_error_map in Q. destruct (nth_error (firstn n l) i) as [u|]; [|discriminate Q]. injection Q as Q. eauto. }
  assert (Ru : (0 < nrows u)%nat) by (unfold nrows; rewrite SU; exact R).
  destruct (Hd i u 0%nat M EU Ru) as (_ & EL & V). destruct (HK i u [0%nat; a] I EL V) as (_ & (eps & f & P & Q & _)).
  specialize (Q (entry l i [0%nat; a]) ltac:(rewrite Rminus_diag_eq, Rabs_R0 by reflexivity; exact P)). rewrite (upd_same l i u [0%nat; a] EL) in Q.
  destruct (smooth l _ SL Q) as (G & SG & D). pose proof (invariant_gradient l G SL SG D) as Z.
  unfold total. rewrite (marked_sum_opp a (marks g0) (skipn n k) (firstn n G)).
  - rewrite Z. ring.
  - rewrite map_skipn, SK, <- map_skipn, <- SS, !map_firstn, SG. reflexivity.
  - intros j w r Mj Ej Rj. rewrite entry_skip. rewrite entry_first by (assert (nth_error (marks g0) j <> None) as N by congruence; apply nth_error_Some in N; rewrite marks_len in N; exact N).
    assert (exists u', nth_error (firstn n l) j = Some u' /\ shape u' = shape w) as (u' & EU' & SU').
    { assert (nth_error (map shape (firstn n l)) j = Some (shape w)) as QQ.
      { rewrite map_firstn, <- SG, <- map_firstn, nth_error_map, Ej. reflexivity. }
      rewrite nth_error_map in QQ. destruct (nth_error (firstn n l) j) as [u'|]; [|discriminate QQ]. injection QQ as QQ. eauto. }
    assert (Ru' : (r < nrows u')%nat) by (unfold nrows; rewrite SU'; exact Rj).
    destruct (Hd j u' r Mj EU' Ru') as (I' & EL' & V'). destruct (HK j u' [r; a] I' EL' V') as (_ & PD).
    rewrite (gradient_entries H l G j u' [r; a] _ SG D EL' V' PD). ring.
Qed.
End Invariant.

(** ** Schemes *)
Section Schemes.
Variables (d a : nat) (g0 : gman).
Hypothesis Ha : (a < d)%nat.
Hypothesis wf : wf_gman d g0.
Notation shapes := (map shape (phase g0)).
Notation tot := (total a g0).

Lemma skipn_ladd k : forall l l', skipn k (ladd l l') = ladd (skipn k l) (skipn k l').
Proof.
  unfold ladd. induction k as [|k IH]; intros l l'; [reflexivity|]. destruct l as [|t l]; [reflexivity|]. destruct l' as [|t' l'].
  - cbn [skipn combine map]. destruct (skipn k l); reflexivity.
  - cbn [skipn combine map]. apply IH.
Qed.

Lemma tot_add l k : map shape l = shapes -> map shape k = shapes -> tot (ladd l k) = tot l + tot k.
Proof.
  intros A B. unfold total. rewrite skipn_ladd. apply marked_sum_add.
  - rewrite !map_skipn, A, B. reflexivity.
  - rewrite marks_len, skipn_length. pose proof (f_equal (@length _) A) as L. rewrite !map_length, phase_len in L. lia.
Qed.
Lemma tot_scal s l : tot (lscal s l) = s * tot l.
Proof. unfold total. unfold lscal. rewrite <- map_skipn. apply marked_sum_scal. Qed.
Lemma pts_second l : map shape l = shapes -> pts d (marks g0) (skipn (g_len g0) l).
Proof.
  intros S. apply (pts_shape d _ (g_cotan g0)); [exact (proj2 (wf_pts d g0 wf))|]. rewrite map_skipn, S. unfold phase. rewrite map_app.
  replace (g_len g0) with (length (map shape (g_gd g0))) by (rewrite map_length; apply g_gd_len). rewrite skipn_app, Nat.sub_diag, skipn_all. reflexivity.
Qed.
Lemma skipn_leq k : forall l l', leq l l' -> leq (skipn k l) (skipn k l').
Proof. induction k as [|k IH]; intros l l' E; [exact E|]. inversion E; subst; [constructor|]. cbn. apply IH. assumption. Qed.
Lemma tot_leq l l' : leq l' l -> map shape l = shapes -> tot l' = tot l.
Proof. intros E S. unfold total. apply (marked_sum_teq d a _ Ha); [apply pts_second; exact S|apply skipn_leq; exact E]. Qed.

Lemma shape_add l k : map shape l = shapes -> map shape k = shapes -> map shape (ladd l k) = shapes.
Proof.
  intros A B. rewrite ladd_shape; [exact A|]. rewrite <- (map_length shape), A, <- B, map_length. reflexivity.
Qed.
Lemma shape_scal s k : map shape k = shapes -> map shape (lscal s k) = shapes.
Proof. intros B. rewrite lscal_shape. exact B. Qed.
Lemma shape_leq l l' : leq l' l -> map shape l = shapes -> map shape l' = shapes.
Proof. intros E S. rewrite (leq_shape _ _ E). exact S. Qed.

Ltac shp := repeat first [assumption | apply shape_add | apply shape_scal].
Ltac tots := repeat first [rewrite tot_add by shp | rewrite tot_scal].

Variable F : vfields.
Hypothesis zero : forall j l k, map shape l = shapes -> F j l k -> map shape k = shapes /\ tot k = 0.

Lemma step_tot sch o dt l ss l' : map shape l = shapes -> scheme_step sch (fun j => F (o + j)%nat) dt l ss l' -> map shape l' = shapes /\ tot l' = tot l.
Proof.
  intros S. destruct sch; cbn [scheme_step].
  - intros (k & _ & K & E). destruct (zero _ _ _ S K) as [S1 Z1].
    assert (SL : map shape (ladd l (lscal dt k)) = shapes) by shp. split; [exact (shape_leq _ _ E SL)|].
    rewrite (tot_leq _ _ E SL). tots. rewrite Z1. ring.
  - intros (k1 & l2 & k2 & _ & K1 & E2 & K2 & E). destruct (zero _ _ _ S K1) as [S1 Z1].
    assert (SL2 : map shape (ladd l (lscal (dt / 2) k1)) = shapes) by shp. destruct (zero _ _ _ (shape_leq _ _ E2 SL2) K2) as [S2 Z2].
    assert (SL : map shape (ladd l (lscal dt k2)) = shapes) by shp. split; [exact (shape_leq _ _ E SL)|].
    rewrite (tot_leq _ _ E SL). tots. rewrite Z2. ring.
  - intros (k1 & l2 & k2 & l3 & k3 & l4 & k4 & _ & K1 & E2 & K2 & E3 & K3 & E4 & K4 & E).
    destruct (zero _ _ _ S K1) as [S1 Z1].
    assert (SL2 : map shape (ladd l (lscal (dt / 3) k1)) = shapes) by shp. destruct (zero _ _ _ (shape_leq _ _ E2 SL2) K2) as [S2 Z2].
    assert (SL3 : map shape (ladd l (lscal dt (ladd k2 (lscal (- (1 / 3)) k1)))) = shapes) by shp. destruct (zero _ _ _ (shape_leq _ _ E3 SL3) K3) as [S3 Z3].
    assert (SL4 : map shape (ladd l (lscal dt (ladd (ladd k1 (lscal (-1) k2)) k3))) = shapes) by shp. destruct (zero _ _ _ (shape_leq _ _ E4 SL4) K4) as [S4 Z4].
    assert (SL : map shape (ladd l (lscal (dt / 8) (ladd (ladd k1 (lscal 3 (ladd k2 k3))) k4))) = shapes) by shp. split; [exact (shape_leq _ _ E SL)|].
    rewrite (tot_leq _ _ E SL). tots. rewrite Z1, Z2, Z3, Z4. ring.
Qed.

Lemma trajectory_tot sch dt states stages l0 : trajectory sch F dt states stages -> nth_error states 0 = Some l0 -> map shape l0 = shapes ->
  forall i l, nth_error states i = Some l -> map shape l = shapes /\ tot l = tot l0.
Proof.
  intros (L & T) E0 S0. induction i as [|i IH]; intros l E; [rewrite E0 in E; injection E as <-; auto|].
  assert (I : (S i < length states)%nat) by (apply nth_error_Some; congruence).
  destruct (nth_error states i) as [x|] eqn:Ex; [|apply nth_error_None in Ex; lia]. destruct (IH x eq_refl) as [Sx Tx].
  destruct (nth_error stages i) as [ss|] eqn:Es; [|apply nth_error_None in Es; lia].
  destruct (step_tot sch _ dt x ss l Sx (T i x ss l Ex Es E)) as [Sl Tl]. split; [exact Sl|congruence].
Qed.
End Schemes.

Lemma tot_momentum d a g0 g : (a < d)%nat -> skel g = skel g0 -> total a g0 (phase g) = linear_momentum g a.
Proof.
  intros _ K. rewrite momentum_marked. unfold total, phase. rewrite (marks_same g g0 K). f_equal.
  rewrite <- (skel_len g g0 K), <- g_gd_len, skipn_app, Nat.sub_diag, skipn_all. reflexivity.
Qed.

(** ** The Hamiltonian of a module *)

Lemma set_unmoved c m g : skel g = skel (mod_manifold m) -> set_manifold (moved_mod c m) g = set_manifold m g.
Proof.
  revert g. induction m as [m NC|ms IH] using dmod_ind'; intros g K.
  - destruct m; try (elim (NC ms eq_refl)); destruct g; try discriminate K; reflexivity.
  - destruct g as [| | | | |gs]; try discriminate K. cbn [moved_mod]. rewrite !set_comp. cbn [mod_manifold skel] in K. injection K as K.
    assert (E : sets (map (moved_mod c) ms) gs = sets ms gs); [|rewrite E; reflexivity].
    revert gs K. induction IH as [|m ms Hm _ IHs]; intros gs K; destruct gs as [|g gs]; try discriminate K; [reflexivity|].
    cbn [map] in *. injection K as K1 K2. cbn [sets]. fold sets. rewrite (Hm g K1), (IHs gs K2). reflexivity.
Qed.

Lemma ham_unmoved c m ctl g : skel g = skel (mod_manifold m) -> ham_of (moved_mod c m) ctl (phase g) = ham_of m ctl (phase g).
Proof.
  intros K. unfold ham_of. rewrite (write_phase m g K).
  rewrite (write_phase (moved_mod c m) g) by (rewrite mod_manifold_moved, skel_moved; exact K). rewrite (set_unmoved c m g K). reflexivity.
Qed.

Lemma ham_invariant d sv b0 cs i m : (forall v, follows d (vec d v) m) -> forall g v, skel g = skel (mod_manifold m) ->
  map shape (phase g) = map shape (phase (mod_manifold m)) ->
  ham_of m (step_controls sv b0 cs i) (phase (moved (vec d v) g)) = ham_of m (step_controls sv b0 cs i) (phase g).
Proof.
  intros F g v K S. rewrite <- (ham_unmoved (vec d v) m) by (rewrite skel_moved; exact K).
  apply (ham_moved d (vec d v) (vec_periodic d v)); [apply F|exact K|]. unfold phase in S. apply app_shapes in S; [exact (proj1 S)|].
  rewrite !g_gd_len. apply skel_len. exact K.
Qed.

Lemma momentum_trajectory d a sv b0 cs m sch dt states stages : (a < d)%nat -> wf_gman d (mod_manifold m) ->
  (forall v, follows d (vec d v) m) -> (forall i, smooth_on (map shape (phase (mod_manifold m))) (ham_of m (step_controls sv b0 cs i))) ->
  trajectory sch (fun i => hamilton (ham_of m (step_controls sv b0 cs i))) dt (map phase states) stages ->
  forall g, nth_error states 0 = Some g -> skel g = skel (mod_manifold m) -> map shape (phase g) = map shape (phase (mod_manifold m)) ->
  forall i g', nth_error states i = Some g' -> skel g' = skel (mod_manifold m) -> linear_momentum g' a = linear_momentum g a.
Proof.
  intros A W F SM T g E0 K0 S0 i g' E K.
  destruct (trajectory_tot d a (mod_manifold m) A W (fun i => hamilton (ham_of m (step_controls sv b0 cs i)))) with
    (sch := sch) (dt := dt) (states := map phase states) (stages := stages) (l0 := phase g) (i := i) (l := phase g') as [_ Q].
  - intros j l k Sl Hk. split; [destruct Hk as (Sk & _); congruence|].
    exact (stage_total d a (mod_manifold m) _ A W (SM j) (fun g v => ham_invariant d sv b0 cs j m F g v) l k Sl Hk).
  - exact T.
  - rewrite nth_error_map, E0. reflexivity.
  - exact S0.
  - rewrite nth_error_map, E. reflexivity.
  - rewrite !(tot_momentum d a) in Q by assumption. exact Q.
Qed.
