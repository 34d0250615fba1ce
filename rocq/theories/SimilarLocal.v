(** Fits placed elsewhere when the costs are differentiable only where gradients are asked
    for (losses that are sums of distances are not differentiable where points meet). *)
From Coq Require Import Reals String List Arith Bool Lia Lra.
From Verif Require Import Py RSum Fl OptimModel FitModel SpecGeometry SpecRigid RigidField SpecOptim OptimFacts SpecSimilar SimilarFacts.
Import ListNotations.
Open Scope list_scope.
Open Scope R_scope.

Section WholeLocal.
Context {S S' : Type} (step : S -> params -> strat S) (step' : S' -> params -> strat S') (st : S -> S')
  (f f' : params -> costs) (grad grad' : params -> params) (p : nat -> nat -> list R -> list R) (I : S -> params -> Prop) (D : params -> Prop) (x0 : params)
  (callback : option costs -> option exn).
Hypothesis H1 : forall s x q, I s x -> run f grad (step s x) = Some q -> (forall e, In (e, true) (fst (fst q)) -> D e) ->
  run f' grad' (step' (st s) (each p x)) = Some (placed_run p st q) /\ I (snd q) (snd (fst q)) /\ Forall (fun e => same_shape (fst e) x0) (fst (fst q)).
Hypothesis H3 : forall y, same_shape y x0 -> f' (each p y) = f y.

Lemma whole_local tol mi : forall rem lst i x s neval lc bound o, I s x ->
  optimize_loop step f grad callback tol mi lst i rem x s neval lc bound = Some o -> (forall e, In (e, true) (o_evals o) -> D e) ->
  optimize_loop step' f' grad' callback tol mi lst i rem (each p x) (st s) neval lc bound = Some (placed_outcome p st o).
Proof.
  induction rem as [|rem IH]; intros lst i x s neval lc bound o HI; [intros H _; injection H as <-; reflexivity|]. cbn [optimize_loop].
  destruct (run f grad (step s x)) as [((tr & y) & s')|] eqn:E; [|discriminate]. intros H HD.
  assert (TD : forall e, In (e, true) tr -> D e).
  { intros e Ie. apply HD. destruct (callback (last_costs f tr lc)) as [x1|]; [injection H as <-; exact Ie|]. destruct (last_costs f tr lc) as [cs|]; [|injection H as <-; exact Ie].
    destruct (isnan (total cs)); [injection H as <-; exact Ie|]. destruct (_ && _)%bool; [injection H as <-; exact Ie|].
    destruct (optimize_loop step f grad callback tol mi _ _ rem y s' _ _ _) as [o1|]; [|discriminate H]. injection H as <-. cbn. apply in_or_app. auto. }
  destruct (H1 s x _ HI E TD) as (-> & HI' & F). cbn [placed_run fst snd] in *.
  rewrite (costs_placed f f' p x0 H3 tr lc F). replace (length (placed_evals p tr)) with (length tr) by (symmetry; apply map_length).
  destruct (callback (last_costs f tr lc)) as [x1|]; [injection H as <-; reflexivity|]. destruct (last_costs f tr lc) as [cs|]; [|injection H as <-; reflexivity].
  destruct (isnan (total cs)); [injection H as <-; reflexivity|]. destruct (_ && _)%bool; [injection H as <-; reflexivity|].
  destruct (optimize_loop step f grad callback tol mi _ _ rem y s' _ _ _) as [o1|] eqn:E1; [|discriminate H]. injection H as <-.
  rewrite (IH _ _ _ _ _ _ _ o1 HI' E1).
  - cbn. f_equal. unfold before, placed_outcome. cbn. f_equal. unfold placed_evals. rewrite map_app. reflexivity.
  - intros e Ie. apply HD. cbn. apply in_or_app. auto.
Qed.
End WholeLocal.

Section FitsLocal.
Variables (r : nat -> R) (p l : nat -> nat -> list R -> list R) (c c' : gd_conf) (x0 : params).
Hypothesis RN : forall g, r g <> 0.
Hypothesis SI : similar x0 r p l.
Hypothesis SG : same_gammas c c'.
Hypothesis LG : length (groups c) = length x0.
Variables (f f' : params -> costs) (grad grad' : params -> params) (D : params -> Prop).
Hypothesis FF : forall y, same_shape y x0 -> f' (each p y) = f y.
Hypothesis EG : forall x, same_shape x x0 -> D x -> exists a, differentiable_at (fun y => total (f y)) x a (grad x).
Hypothesis EG' : forall x, same_shape x x0 -> D x -> exists a, differentiable_at (fun y => total (f' y)) (each p x) a (grad' (each p x)).
Let w (g : nat) : R := r g * r g / 1.

Lemma local_shape x : same_shape x x0 -> D x -> same_shape (grad x) x.
Proof. intros E HD. destruct (EG x E HD) as (a & _ & G & _). exact G. Qed.
Lemma local_placed x : same_shape x x0 -> D x -> grad' (each p x) = each (fun h i t => l h i (times (1 / (r h * r h)) t)) (grad x).
Proof.
  intros E HD. destruct (EG x E HD) as (a & D1). destruct (EG' x E HD) as (a' & D2).
  apply (gradient_placed 1 r p l (fun y => total (f y)) (fun y => total (f' y)) x a a'); try assumption; [exact (similar_at r p l x0 SI x E)|].
  intros y Sy. apply (totals p x0 f f' FF). unfold same_shape in *. congruence.
Qed.

Lemma gd_optimize_local fuel cb max_iter tol mi x s o : same_shape x x0 -> length (c_steps s) = length x0 ->
  optimize (gd_strat c fuel) f grad cb max_iter tol mi x s = Some o -> (forall e, In (e, true) (o_evals o) -> D e) ->
  optimize (gd_strat c' fuel) f' grad' cb max_iter tol mi (each p x) (placed_ctl w s) = Some (placed_outcome p (placed_ctl w) o).
Proof.
  intros E L. unfold optimize. apply (whole_local _ _ _ f f' grad grad' p (fun s x => same_shape x x0 /\ length (c_steps s) = length x0) D x0 cb); [|exact FF|auto].
  clear x s o E L. intros s x q (E & L) H HD. unfold gd_strat in *. cbn [run placed_ctl c_count c_min c_steps] in *.
  destruct (run f grad (gd_tries c x (grad x) _ _ _ _ _ _)) as [((tr1 & y1) & s1)|] eqn:R1; [|discriminate H]. injection H as <-. cbn [fst snd] in *.
  assert (Dx : D x) by (apply HD; left; reflexivity).
  rewrite (FF _ E), (local_placed x E Dx).
  rewrite (tries_placed r p l c c' x0 RN SI SG LG f f' grad grad' FF x (grad x) (total (f x)) (S (c_count s)) (c_min s) E (local_shape x E Dx)) by (rewrite L; symmetry; apply same_shape_length; exact E).
  rewrite R1. cbn [option_map]. split; [reflexivity|].
  destruct (tries_kept c x0 LG f grad x (grad x) _ _ _ E (local_shape x E Dx) _ _ _ _ _ _ L R1) as (A & B). split; [exact A|]. constructor; [exact E|exact B].
Qed.
Lemma sgd_optimize_local lrs cb max_iter tol mi x o : same_shape x x0 -> length lrs = length x0 ->
  optimize (sgd_strat lrs) f grad cb max_iter tol mi x tt = Some o -> (forall e, In (e, true) (o_evals o) -> D e) ->
  optimize (sgd_strat (rescaled w lrs)) f' grad' cb max_iter tol mi (each p x) tt = Some (placed_outcome p (fun u => u) o).
Proof.
  intros E L. unfold optimize. apply (whole_local (sgd_strat lrs) (sgd_strat (rescaled w lrs)) (fun u => u) f f' grad grad' p (fun _ x => same_shape x x0) D x0 cb); [|exact FF|auto].
  clear x o E. intros s x q E H HD. cbn in H. injection H as <-. cbn [fst snd] in *. assert (Dx : D x) by (apply HD; left; reflexivity).
  pose proof (local_shape x E Dx) as DS. assert (LX : length lrs = length x) by (rewrite L; symmetry; apply same_shape_length; exact E). split; [|split].
  - unfold sgd_strat. cbn [run]. unfold placed_run. cbn [fst snd placed_evals map]. rewrite (local_placed x E Dx).
    assert (MP : move (rescaled w lrs) (each p x) (each (fun h i t => l h i (times (1 / (r h * r h)) t)) (grad x)) = each p (move lrs x (grad x))) by exact (moves_placed 1 r p l x0 ltac:(lra) RN SI x (grad x) lrs E DS LX).
    rewrite MP. reflexivity.
  - rewrite move_moved by assumption. match goal with |- same_shape (moved ?a ?b ?d) _ => pose proof (moved_shape a b d) end. unfold same_shape in *. congruence.
  - constructor; [exact E|constructor].
Qed.
End FitsLocal.
