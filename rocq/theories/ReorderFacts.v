(** Lemmas for C115. *)
From Coq Require Import Reals String List Arith Lia Lra Permutation Bool.
From Verif Require Import Py RSum Tensor Fl OptimModel FitModel SpecOptim OptimFacts SpecSimilar SimilarFacts SpecOrder OrderFacts SpecReorder SpecJoint JointFacts.
Import ListNotations.
Open Scope list_scope.
Open Scope R_scope.

(** ** Places *)
Fixpoint pos (i : nat) (p : list nat) : nat := match p with [] => 0%nat | j :: p' => if Nat.eqb i j then 0%nat else S (pos i p') end.
Lemma pos_nth p : NoDup p -> forall k, (k < length p)%nat -> pos (nth k p 0%nat) p = k.
Proof.
  induction 1 as [|j p N ND IH]; intros k K; [cbn in K; lia|]. destruct k as [|k]; cbn [nth pos]; [rewrite Nat.eqb_refl; reflexivity|]. cbn in K.
  destruct (Nat.eqb_spec (nth k p 0%nat) j) as [E|_]; [elim N; rewrite <- E; apply nth_In; lia|]. rewrite IH by lia. reflexivity.
Qed.
Lemma pick_nth {A} (d : A) l : forall p, Forall (fun i => (i < length l)%nat) p -> pick p l = map (fun i => nth i l d) p.
Proof.
  induction 1 as [|i p I _ IH]; [reflexivity|]. rewrite pick_cons, IH. cbn [map]. rewrite (nth_error_nth' l d I). reflexivity.
Qed.
Lemma pick_onto {A} n p (y : list A) : Permutation p (seq 0 n) -> length y = n -> exists z, length z = n /\ pick p z = y.
Proof.
  intros P L. destruct y as [|d y0]; [cbn in L; subst n; exists []; apply Permutation_sym, Permutation_nil in P; subst p; auto|]. set (y := d :: y0) in *. clearbody y.
  pose proof (perm_len _ _ P) as LP. assert (ND : NoDup p) by (apply (Permutation_NoDup (Permutation_sym P)); apply seq_NoDup). pose proof (pick_bound _ _ P) as B.
  exists (map (fun i => nth (pos i p) y d) (seq 0 n)). split; [rewrite map_length, seq_length; reflexivity|].
  rewrite (pick_nth d) by (rewrite map_length, seq_length; exact B). apply (nth_ext _ _ d d); [rewrite map_length; congruence|]. rewrite map_length. intros k K.
  rewrite (nth_indep _ d (nth 0%nat (map (fun i => nth (pos i p) y d) (seq 0 n)) d)) by (rewrite map_length; exact K).
  rewrite (map_nth (fun i => nth i (map (fun i => nth (pos i p) y d) (seq 0 n)) d) p 0%nat k).
  assert (KN : (nth k p 0 < n)%nat) by (rewrite Forall_forall in B; apply B, nth_In, K).
  rewrite (nth_indep _ d (nth (pos 0 p) y d)) by (rewrite map_length, seq_length; exact KN). rewrite (map_nth (fun i => nth (pos i p) y d)), seq_nth by exact KN. cbn [Nat.add]. rewrite (pos_nth p ND k K). reflexivity.
Qed.

(** ** Reordered parameters *)
Lemma orders_shape ps x y : orders ps x -> same_shape y x -> orders ps y.
Proof.
  intros O. revert y. induction O as [|p ts ps x P _ IH]; intros y S; destruct y as [|us y]; try discriminate S; [constructor|]. unfold same_shape in S. cbn in S. injection S as S1 S2.
  constructor; [|apply IH; exact S2]. apply (f_equal (@length nat)) in S1. rewrite !map_length in S1. rewrite S1. exact P.
Qed.
Lemma reorder_shape ps : forall x y, same_shape y x -> same_shape (reorder ps y) (reorder ps x).
Proof.
  unfold same_shape, reorder. induction ps as [|p ps IH]; intros [|ts x] [|us y] S; try discriminate S; try reflexivity. cbn [combine map fst snd] in *. injection S as S1 S2. f_equal; [|apply IH; exact S2]. rewrite <- !pick_map, S1. reflexivity.
Qed.
Lemma reorder_onto ps x : orders ps x -> forall y, same_shape y (reorder ps x) -> exists z, same_shape z x /\ reorder ps z = y.
Proof.
  unfold same_shape, reorder. induction 1 as [|p ts ps x P _ IH]; intros y S; destruct y as [|us y]; try discriminate S; [exists []; auto|]. cbn [combine map fst snd] in S. injection S as S1 S2. destruct (IH y S2) as (z & Sz & Ez).
  assert (L : length us = length ts). { apply (f_equal (@length nat)) in S1. rewrite !map_length in S1. rewrite S1, pick_length by (apply pick_bound; exact P). exact (perm_len _ _ P). }
  destruct (pick_onto _ p us P L) as (vs & Lv & Ev). exists (vs :: z). cbn [combine map fst snd]. rewrite Ez, Ev. split; [|reflexivity]. f_equal; [|exact Sz].
  (* sizes of vs *)
  rewrite <- Ev, <- !pick_map in S1. 
  assert (NI : forall a b : list nat, length a = length ts -> length b = length ts -> pick p a = pick p b -> a = b).
  { clear - P. intros a b La Lb E. apply (nth_ext _ _ 0%nat 0%nat); [congruence|]. intros k K. rewrite !(pick_nth 0%nat) in E by (rewrite ?La, ?Lb; apply pick_bound; exact P).
    assert (IN : In k p) by (apply (Permutation_in _ (Permutation_sym P)), in_seq; lia).
    clear - E IN. induction p as [|j p IH]; [destruct IN|]. cbn in E. injection E as E1 E2. destruct IN as [->|IN]; auto. }
  apply NI; rewrite ?map_length; auto.
Qed.
Lemma reorder_move ps : forall ss x d, same_shape d x -> length ss = length x -> move ss (reorder ps x) (reorder ps d) = reorder ps (move ss x d).
Proof.
  unfold move, reorder, same_shape. induction ps as [|p ps IH]; intros ss x d S L; [reflexivity|]. destruct x as [|ts x], d as [|us d], ss as [|s ss]; try discriminate S; try discriminate L; try reflexivity.
  cbn in S, L. injection S as S1 S2. injection L as L. cbn [combine map fst snd]. f_equal; [|exact (IH ss x d S2 L)].
  assert (LU : length ts = length us) by (apply (f_equal (@length nat)) in S1; rewrite !map_length in S1; auto). rewrite <- pick_combine, <- pick_map by exact LU. reflexivity.
Qed.

(** Distances and pairings, tensor by tensor. *)
Definition tensors3 (g x y : params) : list (list R * (list R * list R)) := combine (concat g) (combine (concat x) (concat y)).
Lemma combine_concat {A B} : forall (a : list (list A)) (b : list (list B)), map (@length A) a = map (@length B) b -> combine (concat a) (concat b) = concat (map (fun q => combine (fst q) (snd q)) (combine a b)).
Proof. induction a as [|u a IH]; intros [|v b] E; try discriminate E; [reflexivity|]. cbn in *. injection E as E1 E2. rewrite combine_app, (IH b E2) by exact E1. reflexivity. Qed.
Lemma sum_concat {A} (h : A -> R) l : sumR (map h (concat l)) = sumR (map (fun t => sumR (map h t)) l).
Proof. induction l as [|t l IH]; [reflexivity|]. cbn [concat]. rewrite map_app, sumR_app, IH. reflexivity. Qed.
Lemma sum_perm l l' : Permutation l l' -> sumR l = sumR l'.
Proof. induction 1; cbn; lra. Qed.
Lemma shape_concat x y : same_shape y x -> map (@length R) (concat y) = map (@length R) (concat x).
Proof. intros S. rewrite !concat_map. f_equal. exact S. Qed.
Lemma pairing_tensors g x y : same_shape g x -> same_shape y x ->
  pairing g x y = sumR (map (fun q => sumR (map (fun p => fst p * (snd (snd p) - fst (snd p))) (combine (fst q) (combine (fst (snd q)) (snd (snd q)))))) (tensors3 g x y)).
Proof.
  intros Sg Sy. apply shape_concat in Sg, Sy. unfold pairing, flat_params, tensors3. rewrite (combine_concat (concat x)) by congruence.
  assert (E : map (@length R) (concat g) = map (@length (R * R)) (map (fun q => combine (fst q) (snd q)) (combine (concat x) (concat y)))).
  { rewrite Sg. clear g Sg. revert Sy. generalize (concat x) as a, (concat y) as b. induction a as [|u a IH]; intros [|v b] E; try discriminate E; [reflexivity|]. cbn in *. injection E as E1 E2. rewrite combine_length, E1, Nat.min_id. f_equal. apply IH. exact E2. }
  rewrite (combine_concat _ _ E), sum_concat, map_map. f_equal. generalize (combine (concat x) (concat y)) as b. generalize (concat g) as a. induction a as [|u a IH]; intros [|v b]; try reflexivity. cbn. f_equal. apply IH.
Qed.
Lemma dist_tensors x y : same_shape y x ->
  dist1 x y = sumR (map (fun q => sumR (map (fun p => Rabs (snd p - fst p)) (combine (fst q) (snd q)))) (combine (concat x) (concat y))).
Proof.
  intros Sy. apply shape_concat in Sy. unfold dist1, flat_params. rewrite combine_concat by congruence. rewrite sum_concat, map_map. reflexivity.
Qed.
Lemma perm3 ps x : orders ps x -> forall g y, same_shape g x -> same_shape y x -> Permutation (tensors3 (reorder ps g) (reorder ps x) (reorder ps y)) (tensors3 g x y).
Proof.
  unfold tensors3, reorder, same_shape. induction 1 as [|p ts ps x P _ IH]; intros g y Sg Sy; destruct g as [|gs g], y as [|us y]; try discriminate; [constructor|]. cbn in Sg, Sy. injection Sg as Sg1 Sg2. injection Sy as Sy1 Sy2.
  apply (f_equal (@length nat)) in Sg1, Sy1. rewrite !map_length in Sg1, Sy1. pose proof (pick_bound _ _ P) as B. cbn [combine map concat fst snd].
  assert (LP : forall (l : list (list R)), length l = length ts -> length (pick p l) = length ts) by (intros l L; rewrite pick_length by (rewrite L; exact B); exact (perm_len _ _ P)).
  rewrite !combine_app; rewrite ?combine_length, ?LP, ?Sg1, ?Sy1, ?Nat.min_id; auto. apply Permutation_app; [|exact (IH g y Sg2 Sy2)].
  rewrite <- (pick_combine p ts us), <- (pick_combine p gs) by (rewrite ?combine_length; lia). apply pick_perm. rewrite !combine_length, Sg1, Sy1, !Nat.min_id. exact P.
Qed.
Lemma reorder_pairing ps x g y : orders ps x -> same_shape g x -> same_shape y x -> pairing (reorder ps g) (reorder ps x) (reorder ps y) = pairing g x y.
Proof.
  intros O Sg Sy. rewrite !pairing_tensors by (try apply reorder_shape; assumption). apply sum_perm, Permutation_map, perm3; assumption.
Qed.
Lemma reorder_dist ps x y : orders ps x -> same_shape y x -> dist1 (reorder ps x) (reorder ps y) = dist1 x y.
Proof.
  intros O Sy. rewrite !dist_tensors by (try apply reorder_shape; assumption). apply sum_perm.
  pose proof (perm3 ps x O x y eq_refl Sy) as P. apply (Permutation_map snd) in P. unfold tensors3 in P.
  assert (Q : forall (a b : list (list R)) , length a = length b -> map snd (combine a (combine a b)) = combine a b).
  { clear. induction a as [|u a IH]; intros [|v b] L; try discriminate L; [reflexivity|]. cbn. f_equal. apply IH. cbn in L. lia. }
  assert (LC : forall x y : params, same_shape y x -> length (concat x) = length (concat y)) by (intros u v S; apply shape_concat in S; apply (f_equal (@length nat)) in S; rewrite !map_length in S; auto).
  rewrite !Q in P by (apply LC; try apply reorder_shape; exact Sy). apply Permutation_map. exact P.
Qed.
Lemma reorder_gradient ps f f' x a a' g g' : orders ps x -> (forall y, same_shape y x -> f' (reorder ps y) = f y) ->
  differentiable_at f x a g -> differentiable_at f' (reorder ps x) a' g' -> g' = reorder ps g.
Proof.
  intros O FF (E & Sg & D) D'. assert (DD : differentiable_at f' (reorder ps x) a (reorder ps g)); [|exact (gradient_unique _ _ _ _ _ _ DD D')].
  split; [rewrite FF by reflexivity; exact E|]. split; [apply reorder_shape; exact Sg|]. intros eps PE. destruct (D eps PE) as (del & PD & H). exists del. split; [exact PD|].
  intros y Sy Dy. destruct (reorder_onto ps x O y Sy) as (z & Sz & <-). rewrite (reorder_dist ps x z O Sz) in *. destruct (H z Sz Dy) as (b & B & BB). exists b. rewrite FF by exact Sz. split; [exact B|].
  rewrite (reorder_pairing ps x g z O Sg Sz). exact BB.
Qed.

(** ** Fits *)
Section Fits.
Variables (ps : list (list nat)) (x0 : params) (f f' : params -> costs) (grad grad' : params -> params).
Hypothesis OR : orders ps x0.
Hypothesis FF : forall y, same_shape y x0 -> f' (reorder ps y) = f y.
(** The gradients match at z. *)
Let G (z : params) : Prop := same_shape z x0 -> same_shape (grad z) z /\ grad' (reorder ps z) = reorder ps (grad z).
Let evs (tr : list (params * bool)) := map (fun e => (reorder ps (fst e), snd e)) tr.

Section Whole.
Context {S : Type} (step : S -> params -> strat S) (I : S -> params -> Prop) (callback : option costs -> option exn).
Hypothesis H1 : forall s x tr y s', I s x -> run f grad (step s x) = Some (tr, y, s') -> (forall z, In (z, true) tr -> G z) ->
  run f' grad' (step s (reorder ps x)) = Some (evs tr, reorder ps y, s') /\ I s' y /\ Forall (fun e => same_shape (fst e) x0) tr.
Lemma costs_reordered tr lc : Forall (fun e => same_shape (fst e) x0) tr -> last_costs f' (evs tr) lc = last_costs f tr lc.
Proof.
  intros F. unfold last_costs, evs. rewrite <- map_rev. apply Forall_rev in F. destruct (rev tr) as [|(x & b) q]; [reflexivity|]. cbn. f_equal. apply FF. exact (Forall_inv F).
Qed.
Lemma whole_reordered tol mi : forall rem lst i x s neval lc bound o, I s x ->
  optimize_loop step f grad callback tol mi lst i rem x s neval lc bound = Some o -> (forall z, In (z, true) (o_evals o) -> G z) ->
  optimize_loop step f' grad' callback tol mi lst i rem (reorder ps x) s neval lc bound = Some (reordered_outcome ps o).
Proof.
  induction rem as [|rem IH]; intros lst i x s neval lc bound o HI E GE; [injection E as <-; reflexivity|]. cbn [optimize_loop] in E |- *. destruct (run f grad (step s x)) as [((tr & y) & s')|] eqn:ER; [|discriminate E].
  assert (GT : forall z, In (z, true) tr -> G z).
  { intros z Z. apply GE. destruct (callback (last_costs f tr lc)) as [e|]; [injection E as <-; exact Z|]. destruct (last_costs f tr lc) as [cs|]; [|injection E as <-; exact Z]. destruct (isnan (total cs)); [injection E as <-; exact Z|].
    destruct (_ && _)%bool; [injection E as <-; exact Z|]. match type of E with option_map _ ?z = _ => destruct z as [o1|] end; [|discriminate E]. injection E as <-. cbn. apply in_or_app. left. exact Z. }
  destruct (H1 s x tr y s' HI ER GT) as (R1 & HI' & F). rewrite R1, (costs_reordered tr lc F). replace (length (evs tr)) with (length tr) by (symmetry; apply map_length).
  destruct (callback (last_costs f tr lc)) as [e|]; [injection E as <-; reflexivity|]. destruct (last_costs f tr lc) as [cs|]; [|injection E as <-; reflexivity]. destruct (isnan (total cs)); [injection E as <-; reflexivity|].
  destruct (_ && _)%bool; [injection E as <-; reflexivity|]. match type of E with option_map _ ?z = _ => destruct z as [o1|] eqn:E1 end; [|discriminate E]. injection E as <-.
  rewrite (IH _ _ _ _ _ _ _ o1 HI' E1) by (intros z Z; apply GE; cbn; apply in_or_app; right; exact Z). cbn. f_equal. unfold before, reordered_outcome. cbn. f_equal. unfold evs. rewrite map_app. reflexivity.
Qed.
End Whole.

Lemma move_shape ss x d : same_shape x x0 -> same_shape d x -> length ss = length x -> same_shape (move ss x d) x0.
Proof. intros E D L. rewrite move_moved by assumption. pose proof (moved_shape (fun g => nth g ss 0) x d). unfold same_shape in *. congruence. Qed.
Lemma tries_reordered c x d cx cnt mf : length (groups c) = length x0 -> same_shape x x0 -> same_shape d x -> forall fuel n ss tr y s, length ss = length x0 ->
  run f grad (gd_tries c x d cx cnt mf fuel n ss) = Some (tr, y, s) ->
  run f' grad' (gd_tries c (reorder ps x) (reorder ps d) cx cnt mf fuel n ss) = Some (evs tr, reorder ps y, s) /\ (same_shape y x0 /\ length (c_steps s) = length x0) /\ Forall (fun e => same_shape (fst e) x0) tr.
Proof.
  intros LG E D. pose proof (same_shape_length _ _ E) as LX. induction fuel as [|fuel IH]; intros n ss tr y s L H; [discriminate H|]. cbn [gd_tries run] in H |- *.
  rewrite (reorder_move ps ss x d D) by congruence. pose proof (move_shape ss x d E D ltac:(congruence)) as Sy. rewrite (FF _ Sy).
  destruct (_ && _)%bool.
  - cbn in H |- *. injection H as <- <- <-. cbn. split; [reflexivity|]. split; [split; [exact Sy|]|auto]. destruct (Nat.eqb n 1); [rewrite update2_length by congruence|]; exact L.
  - destruct (feq _ _); [cbn in H |- *; injection H as <- <- <-; cbn; auto|].
    destruct (run f grad (gd_tries c x d cx cnt mf fuel (S n) (update1 c ss))) as [((tr1 & y1) & s1)|] eqn:R1; [|discriminate H]. injection H as <- <- <-.
    assert (L1 : length (update1 c ss) = length x0) by (rewrite update1_length by congruence; exact L). destruct (IH _ _ _ _ _ L1 R1) as (A & B & C). rewrite A. split; [reflexivity|]. split; [exact B|]. constructor; [exact Sy|exact C].
Qed.
Lemma gd_reordered c fuel cb max_iter tol mi x s o : length (groups c) = length x0 -> same_shape x x0 -> length (c_steps s) = length x0 ->
  optimize (gd_strat c fuel) f grad cb max_iter tol mi x s = Some o -> (forall z, In (z, true) (o_evals o) -> G z) ->
  optimize (gd_strat c fuel) f' grad' cb max_iter tol mi (reorder ps x) s = Some (reordered_outcome ps o).
Proof.
  intros LG E L. unfold optimize. apply (whole_reordered (gd_strat c fuel) (fun s x => same_shape x x0 /\ length (c_steps s) = length x0) cb); [|auto].
  clear x s E L. intros s x tr y s' (E & L) H GT. unfold gd_strat in *. cbn [run] in H |- *.
  destruct (run f grad (gd_tries c x (grad x) _ _ _ _ _ _)) as [((tr1 & y1) & s1)|] eqn:R1; [|discriminate H]. injection H as <- <- <-.
  destruct (GT x (or_introl eq_refl) E) as (Sg & Eg). rewrite Eg, (FF _ E). destruct (tries_reordered c x (grad x) _ _ _ LG E Sg _ _ _ _ _ _ L R1) as (A & B & C). rewrite A. split; [reflexivity|]. split; [exact B|]. constructor; [exact E|exact C].
Qed.
Lemma sgd_reordered lrs cb max_iter tol mi x o : same_shape x x0 -> length lrs = length x0 ->
  optimize (sgd_strat lrs) f grad cb max_iter tol mi x tt = Some o -> (forall z, In (z, true) (o_evals o) -> G z) ->
  optimize (sgd_strat lrs) f' grad' cb max_iter tol mi (reorder ps x) tt = Some (reordered_outcome ps o).
Proof.
  intros E L. unfold optimize. apply (whole_reordered (sgd_strat lrs) (fun s x => same_shape x x0) cb); [|auto].
  clear x E. intros s x tr y s' E H GT. pose proof (same_shape_length _ _ E) as LX. cbn in H. injection H as <- <- <-.
  destruct (GT x (or_introl eq_refl) E) as (Sg & Eg). cbn. rewrite Eg, (reorder_move ps lrs x (grad x) Sg) by congruence. split; [reflexivity|]. split; [apply move_shape; congruence|]. constructor; [exact E|constructor].
Qed.
End Fits.
