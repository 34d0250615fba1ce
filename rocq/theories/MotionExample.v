(** An autograd that is exact and answers the same for a translated function at the
    translated point.  Choosing the derivatives uses Coq.Logic.ClassicalEpsilon: only
    examples depend on this file. *)
From Coq Require Import Reals String List Arith ZArith Lia Lra FunctionalExtensionality ClassicalEpsilon.
From Verif Require Import Py RSum Tensor TensorFacts KernelModel FieldModel GeometryModel ModuleModel ShootingModel
  SpecModule SpecShooting SpecMotion ModuleHistory ShootingPack ShootingDyn ShootingExample MotionFacts MotionShoot.
Import ListNotations.
Open Scope R_scope.

Lemma lim_local f g x l eps : 0 < eps -> (forall s, Rabs (s - x) < eps -> f s = g s) -> derivable_pt_lim f x l -> derivable_pt_lim g x l.
Proof.
  intros P E D e He. destruct (D e He) as (dl & Q). destruct dl as [dl Hd]. cbn in Q.
  assert (M : 0 < Rmin dl eps) by (apply Rmin_pos; assumption). exists (mkposreal _ M). intros h Nh Hh. cbn in Hh.
  rewrite <- (E (x + h)), <- (E x).
  - apply Q; [assumption|]. eapply Rlt_le_trans; [exact Hh|apply Rmin_l].
  - rewrite Rminus_diag_eq, Rabs_R0 by reflexivity. assumption.
  - replace (x + h - x) with h by ring. eapply Rlt_le_trans; [exact Hh|apply Rmin_r].
Qed.

Lemma partial_unique F l i idx a b : partial_derivative F l i idx a -> partial_derivative F l i idx b -> a = b.
Proof.
  intros (e1 & f1 & P1 & E1 & D1) (e2 & f2 & P2 & E2 & D2). apply (uniqueness_limite f1 (entry l i idx)); [exact D1|].
  apply (lim_local f2 f1 _ _ (Rmin e1 e2)); [apply Rmin_pos; assumption| |exact D2]. intros s H.
  assert (Q : Ok (f2 s) = Ok (f1 s)); [|injection Q; auto].
  rewrite <- E1, <- E2; [reflexivity|eapply Rlt_le_trans; [exact H|apply Rmin_r]|eapply Rlt_le_trans; [exact H|apply Rmin_l]].
Qed.

Definition the_partial (F : list tensor -> res R) (l : list tensor) (i : nat) (idx : list nat) : R :=
  match excluded_middle_informative (exists x, partial_derivative F l i idx x) with
  | left H => proj1_sig (constructive_indefinite_description _ H)
  | right _ => 0
  end.
Lemma the_partial_ok F l i idx x : partial_derivative F l i idx x -> the_partial F l i idx = x.
Proof.
  intros H. unfold the_partial. destruct (excluded_middle_informative _) as [E|E]; [|elim E; exists x; exact H].
  apply (partial_unique F l i idx); [|exact H]. exact (proj2_sig (constructive_indefinite_description _ E)).
Qed.

Fixpoint std_grad (F : list tensor -> res R) (l : list tensor) (i : nat) (rest : list (list nat)) : list (option tensor) :=
  match rest with
  | [] => []
  | sh :: rest' => Some (mkT sh (the_partial F l i)) :: std_grad F l (S i) rest'
  end.
Definition std_ag : autograd := fun F l =>
  match excluded_middle_informative (exists G, is_gradient F l G) with
  | left _ => Ok (std_grad F l 0 (map shape l))
  | right _ => Err RuntimeError
  end.

Lemma std_grad_nth F l r : forall j i, nth_error (std_grad F l j r) i = match nth_error r i with Some sh => Some (Some (mkT sh (the_partial F l (j + i)))) | None => None end.
Proof.
  induction r as [|sh r IH]; intros j i; [destruct i; reflexivity|]. destruct i as [|i]; cbn [std_grad nth_error].
  - rewrite Nat.add_0_r. reflexivity.
  - rewrite IH. replace (S j + i)%nat with (j + S i)%nat by lia. reflexivity.
Qed.
Lemma std_grad_len F l r : forall j, length (std_grad F l j r) = length r.
Proof. induction r as [|sh r IH]; intros j; [reflexivity|]. cbn. rewrite IH. reflexivity. Qed.

Lemma gradient_partial F l G i t idx : is_gradient F l G -> nth_error l i = Some t -> valid (shape t) idx ->
  partial_derivative F l i idx (the_partial F l i idx).
Proof.
  intros (L & H) E V. specialize (H i t E). assert (Q : exists x, partial_derivative F l i idx x).
  { destruct (nth_error G i) as [[g|]|]; [destruct H as [_ H]|..]; eauto. }
  destruct Q as (x & Q). rewrite (the_partial_ok _ _ _ _ _ Q). exact Q.
Qed.

Lemma std_gradient F l G : is_gradient F l G -> is_gradient F l (std_grad F l 0 (map shape l)).
Proof.
  intros H. split; [rewrite std_grad_len, map_length; reflexivity|]. intros i t E. rewrite std_grad_nth.
  rewrite (map_nth_error shape _ _ E). cbn [Nat.add shape get]. split; [reflexivity|]. intros idx V. exact (gradient_partial F l G i t idx H E V).
Qed.

Lemma std_exact : exact_grad std_ag.
Proof.
  intros F l G E. unfold std_ag in E. destruct (excluded_middle_informative _) as [[G' H]|]; [|discriminate E]. injection E as <-.
  exact (std_gradient F l G' H).
Qed.
Lemma std_ok F l : (exists G, is_gradient F l G) -> is_ok (std_ag F l).
Proof. intros H. unfold std_ag. destruct (excluded_middle_informative _) as [H'|H']; [eexists; reflexivity|elim (H' H)]. Qed.

(** ** Naturality *)
Section Nat.
Variable c : nat -> R.

Definition full_marks (g : gman) : list bool := marks g ++ repeat false (g_len g).
Lemma mshift_false n l : length l = n -> mshift c (repeat false n) l = l.
Proof.
  revert n. induction l as [|t l IH]; intros n L; destruct n; try discriminate L; [reflexivity|]. unfold mshift in *. cbn [repeat combine map fst snd].
  rewrite IH by (injection L; auto). reflexivity.
Qed.
Lemma phase_moved g : phase (moved c g) = mshift c (full_marks g) (phase g).
Proof.
  unfold phase, full_marks. rewrite mshift_app by (rewrite marks_len, g_gd_len; reflexivity).
  rewrite mshift_false by (apply g_cotan_len). rewrite gd_moved, cotan_moved. reflexivity.
Qed.
Lemma full_marks_len g : length (full_marks g) = length (phase g).
Proof. unfold full_marks, phase. rewrite !app_length, repeat_length, marks_len, g_gd_len, g_cotan_len. reflexivity. Qed.

Definition gap (bs : list bool) (i : nat) (idx : list nat) : R :=
  if nth i bs false then match idx with [_; a] => c a | _ => 0 end else 0.

Lemma tset_shift t idx s : tset (shift c t) idx (s + match idx with [_; a] => c a | _ => 0 end) = shift c (tset t idx s).
Proof.
  unfold tset, shift. cbn [shape get]. apply mkT_ext. intros j. unfold idx_eqb. destruct (list_eq_dec Nat.eq_dec j idx) as [->|N].
  - destruct idx as [|i [|a [|]]]; try (rewrite Rplus_0_r; reflexivity). cbn [get]. destruct (list_eq_dec Nat.eq_dec [i; a] [i; a]) as [_|N]; [reflexivity|elim N; reflexivity].
  - destruct j as [|i [|a [|]]]; try reflexivity. cbn [get]. destruct (list_eq_dec Nat.eq_dec [i; a] idx) as [E|_]; [elim N; exact E|reflexivity].
Qed.

Lemma upd_mshift bs : forall l i idx s, length bs = length l ->
  upd (mshift c bs l) i idx (s + gap bs i idx) = mshift c bs (upd l i idx s).
Proof.
  induction bs as [|b bs IH]; intros l i idx s L; destruct l as [|t l]; try discriminate L; [reflexivity|]. unfold mshift in *.
  destruct i as [|i]; cbn [combine map fst snd upd].
  - f_equal. unfold gap. cbn [nth]. destruct b; [apply tset_shift|rewrite Rplus_0_r; reflexivity].
  - f_equal. unfold gap in *. cbn [nth]. apply IH. injection L; auto.
Qed.
Lemma entry_mshift bs : forall l i t idx, length bs = length l -> nth_error l i = Some t ->
  entry (mshift c bs l) i idx = entry l i idx + gap bs i idx.
Proof.
  induction bs as [|b bs IH]; intros l i t idx L E; destruct l as [|u l]; try discriminate L; [destruct i; discriminate E|]. unfold mshift in *.
  destruct i as [|i]; cbn [combine map fst snd nth_error] in *.
  - unfold entry, gap. cbn [nth_error nth]. destruct b; [|rewrite Rplus_0_r; reflexivity].
    destruct idx as [|r [|a [|]]]; cbn [shift get]; try (rewrite Rplus_0_r; reflexivity). reflexivity.
  - unfold entry, gap in *. cbn [nth_error nth]. apply (IH l i t idx); [injection L; auto|exact E].
Qed.

Lemma phase_onto g l : length l = length (phase g) -> exists g', phase g' = l /\ skel g' = skel g.
Proof.
  intros L. unfold phase in *. rewrite app_length, g_gd_len, g_cotan_len in L.
  destruct (put_gd_ok g (firstn (g_len g) l) []) as (g1 & _ & G1 & C1 & K1); [rewrite firstn_length; lia|].
  destruct (put_cotan_ok g1 (skipn (g_len g) l) []) as (g2 & _ & C2 & G2 & K2); [rewrite skipn_length, (skel_len _ _ K1); lia|].
  exists g2. rewrite C2, G2, G1. split; [apply firstn_skipn|congruence].
Qed.
Lemma upd_shape l : forall i idx s, map shape (upd l i idx s) = map shape l.
Proof. induction l as [|t l IH]; intros i idx s; [reflexivity|]. destruct i; cbn [upd map]; [reflexivity|]. rewrite IH. reflexivity. Qed.

Lemma lim_shift f x l k : derivable_pt_lim f x l -> derivable_pt_lim (fun s => f (s - k)) (x + k) l.
Proof.
  intros D e He. destruct (D e He) as (dl & Q). exists dl. intros h Nh Hh. specialize (Q h Nh Hh).
  replace (x + k + h - k) with (x + h) by ring. replace (x + k - k) with x by ring. exact Q.
Qed.

Variables (F F' : list tensor -> res R) (g : gman).
Hypothesis same : forall g', skel g' = skel g -> map shape (phase g') = map shape (phase g) -> F' (phase (moved c g')) = F (phase g').

Lemma same_upd i idx s : F' (upd (phase (moved c g)) i idx (s + gap (full_marks g) i idx)) = F (upd (phase g) i idx s).
Proof.
  rewrite phase_moved, upd_mshift by apply full_marks_len.
  destruct (phase_onto g (upd (phase g) i idx s)) as (g' & P & K); [rewrite <- (map_length shape), upd_shape; apply map_length|].
  rewrite <- P. rewrite <- (same g' K); [|rewrite P; apply upd_shape]. f_equal. rewrite phase_moved.
  unfold full_marks. rewrite (marks_same g' g K), (skel_len _ _ K). reflexivity.
Qed.

Lemma partial_natural i t idx x : nth_error (phase g) i = Some t ->
  partial_derivative F' (phase (moved c g)) i idx x <-> partial_derivative F (phase g) i idx x.
Proof.
  intros E. pose proof (entry_mshift (full_marks g) (phase g) i t idx (full_marks_len g) E) as EN. rewrite <- phase_moved in EN.
  set (k := gap (full_marks g) i idx) in *. split; intros (eps & f & P & EQ & D); unfold partial_derivative.
  - exists eps, (fun s => f (s - - k)). split; [assumption|]. split.
    + intros s H. rewrite <- same_upd. fold k. rewrite EQ; [do 2 f_equal; ring|]. rewrite EN. replace (s + k - (entry (phase g) i idx + k)) with (s - entry (phase g) i idx) by ring. assumption.
    + replace (entry (phase g) i idx) with (entry (phase (moved c g)) i idx + - k) by (rewrite EN; ring). apply lim_shift. exact D.
  - exists eps, (fun s => f (s - k)). split; [assumption|]. split.
    + intros s H. replace s with ((s - k) + k) at 1 by ring. unfold k at 2. rewrite same_upd. apply EQ. rewrite EN in H.
      replace (s - k - entry (phase g) i idx) with (s - (entry (phase g) i idx + k)) by ring. assumption.
    + rewrite EN. apply lim_shift. exact D.
Qed.

Lemma phase_moved_nth i t : nth_error (phase g) i = Some t -> exists t', nth_error (phase (moved c g)) i = Some t' /\ shape t' = shape t.
Proof.
  intros E. pose proof (map_nth_error shape _ _ E) as Q. rewrite <- (phase_moved_shape c g) in Q.
  destruct (nth_error (phase (moved c g)) i) as [t'|] eqn:E'.
  - rewrite (map_nth_error shape _ _ E') in Q. injection Q as Q. eauto.
  - apply nth_error_None in E'. assert (nth_error (map shape (phase (moved c g))) i <> None) as N by congruence.
    apply nth_error_Some in N. rewrite map_length in N. lia.
Qed.
Lemma phase_moved_nth' i t : nth_error (phase (moved c g)) i = Some t -> exists t', nth_error (phase g) i = Some t' /\ shape t' = shape t.
Proof.
  intros E. destruct (nth_error (phase g) i) as [t'|] eqn:E'.
  - destruct (phase_moved_nth i t' E') as (u & U & S). rewrite E in U. injection U as <-. eauto.
  - apply nth_error_None in E'. assert (nth_error (phase (moved c g)) i <> None) as N by congruence.
    apply nth_error_Some in N. pose proof (f_equal (@length _) (phase_moved_shape c g)) as L. rewrite !map_length in L. lia.
Qed.

Lemma gradient_natural G : is_gradient F' (phase (moved c g)) G <-> is_gradient F (phase g) G.
Proof.
  pose proof (f_equal (@length _) (phase_moved_shape c g)) as L. rewrite !map_length in L. unfold is_gradient. rewrite L.
  split; intros (LG & H); (split; [exact LG|]); intros i t E.
  - destruct (phase_moved_nth i t E) as (t' & E' & S). specialize (H i t' E'). rewrite S in H. destruct (nth_error G i) as [[u|]|].
    + destruct H as [H1 H2]. split; [exact H1|]. intros idx V. apply (partial_natural i t idx _ E). auto.
    + intros idx V. apply (partial_natural i t idx _ E). auto.
    + intros idx V. apply (partial_natural i t idx _ E). auto.
  - destruct (phase_moved_nth' i t E) as (t' & E' & S). specialize (H i t' E'). rewrite S in H. destruct (nth_error G i) as [[u|]|].
    + destruct H as [H1 H2]. split; [exact H1|]. intros idx V. apply (partial_natural i t' idx _ E'). auto.
    + intros idx V. apply (partial_natural i t' idx _ E'). auto.
    + intros idx V. apply (partial_natural i t' idx _ E'). auto.
Qed.

Lemma the_partial_natural i t idx : nth_error (phase g) i = Some t -> the_partial F' (phase (moved c g)) i idx = the_partial F (phase g) i idx.
Proof.
  intros E. unfold the_partial at 2. destruct (excluded_middle_informative _) as [H|H].
  - apply the_partial_ok. apply (partial_natural i t idx _ E). exact (proj2_sig (constructive_indefinite_description _ H)).
  - unfold the_partial. destruct (excluded_middle_informative _) as [[x Q]|]; [|reflexivity]. elim H. exists x. apply (partial_natural i t idx _ E). exact Q.
Qed.

Lemma std_grad_natural r : forall j, (forall i sh, nth_error r i = Some sh -> exists t, nth_error (phase g) (j + i) = Some t) ->
  std_grad F' (phase (moved c g)) j r = std_grad F (phase g) j r.
Proof.
  induction r as [|sh r IH]; intros j H; [reflexivity|]. cbn [std_grad]. f_equal.
  - destruct (H 0%nat sh eq_refl) as (t & E). rewrite Nat.add_0_r in E. do 2 f_equal. extensionality idx. exact (the_partial_natural j t idx E).
  - apply IH. intros i sh' E. destruct (H (S i) sh' E) as (t & Q). exists t. rewrite <- Q. f_equal. lia.
Qed.

Lemma std_natural_at : std_ag F' (phase (moved c g)) = std_ag F (phase g).
Proof.
  unfold std_ag. destruct (excluded_middle_informative _) as [[G H]|H]; destruct (excluded_middle_informative _) as [[G' H']|H'].
  - rewrite phase_moved_shape. f_equal. apply std_grad_natural. intros i sh E. cbn [Nat.add].
    destruct (nth_error (phase g) i) as [t|] eqn:Q; [eauto|]. apply nth_error_None in Q.
    assert (nth_error (map shape (phase g)) i <> None) as N by congruence. apply nth_error_Some in N. rewrite map_length in N. lia.
  - elim H'. exists G. apply gradient_natural. exact H.
  - elim H. exists G'. apply gradient_natural. exact H'.
  - reflexivity.
Qed.
End Nat.

Lemma std_natural c : translation_natural c std_ag.
Proof. intros F F' g H. exact (std_natural_at c F F' g H). Qed.
