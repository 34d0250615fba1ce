(** Costs that are sums over subjects: gradients and fits (lemmas for C113). *)
From Coq Require Import Reals String List Arith Lia Lra Bool.
From Verif Require Import Py RSum Tensor Fl OptimModel FitModel SpecOptim SpecSimilar SimilarFacts SpecFitElsewhere SpecJoint.
Import ListNotations.
Open Scope list_scope.
Open Scope R_scope.

Lemma combine_app {A B} (a : list A) : forall (b : list B) a' b', length a = length b -> combine (a ++ a') (b ++ b') = combine a b ++ combine a' b'.
Proof. induction a as [|u a IH]; intros [|v b] a' b' L; try discriminate L; cbn; [reflexivity|]. f_equal. apply IH. cbn in L. lia. Qed.
Lemma sumR_app a : forall b, sumR (a ++ b) = sumR a + sumR b.
Proof. unfold sumR. induction a as [|u a IH]; intros b; cbn; [lra|]. rewrite IH. lra. Qed.
Lemma sizes_concat : forall a b, sizes a = sizes b -> length (concat a) = length (concat b).
Proof. induction a as [|u a IH]; intros [|v b] E; try discriminate E; [reflexivity|]. cbn in *. injection E as E1 E2. rewrite !app_length, E1, (IH b E2). reflexivity. Qed.
Lemma sizes_app a b : sizes (a ++ b) = sizes a ++ sizes b. Proof. apply map_app. Qed.
Lemma shape1 x y : sizes x = sizes y -> SpecOptim.same_shape [x] [y].
Proof. intros E. unfold SpecOptim.same_shape. cbn. f_equal. exact E. Qed.
Lemma shape1_inv g y : SpecOptim.same_shape g [y] -> exists x, g = [x] /\ sizes x = sizes y.
Proof. unfold SpecOptim.same_shape. destruct g as [|x [|? ?]]; cbn; intros E; try discriminate E. injection E as E. exists x. auto. Qed.
Lemma sizes_split g : forall l1 l2, sizes g = l1 ++ l2 -> exists g1 g2, g = g1 ++ g2 /\ sizes g1 = l1 /\ sizes g2 = l2.
Proof.
  intros l1. revert g. induction l1 as [|n l1 IH]; intros g l2 E; [exists [], g; auto|]. destruct g as [|t g]; [discriminate E|]. cbn in E. injection E as E1 E2.
  destruct (IH g l2 E2) as (g1 & g2 & -> & S1 & S2). exists (t :: g1), g2. repeat split; [cbn; f_equal; assumption|exact S2].
Qed.

Lemma dist_same a : dist1 [a] [a] = 0.
Proof.
  unfold dist1, flat_params. cbn [List.concat]. rewrite app_nil_r. induction (concat a) as [|u l IH]; [reflexivity|]. cbn in *. rewrite IH, Rminus_diag_eq, Rabs_R0; lra.
Qed.
Lemma dist_app a b a' b' : sizes a = sizes a' -> dist1 [a ++ b] [a' ++ b'] = dist1 [a] [a'] + dist1 [b] [b'].
Proof.
  intros E. unfold dist1, flat_params. cbn [List.concat]. rewrite !app_nil_r, !concat_app, combine_app, map_app, sumR_app by (apply sizes_concat; exact E). reflexivity.
Qed.
Lemma pairing_same g a : pairing [g] [a] [a] = 0.
Proof.
  unfold pairing, flat_params. cbn [List.concat]. rewrite !app_nil_r. generalize (concat g) as l. induction (concat a) as [|u m IH]; intros [|v l]; try reflexivity. cbn in *. rewrite IH. lra.
Qed.
Lemma pairing_app g g' a b a' b' : sizes g = sizes a -> sizes a = sizes a' -> pairing [g ++ g'] [a ++ b] [a' ++ b'] = pairing [g] [a] [a'] + pairing [g'] [b] [b'].
Proof.
  intros E1 E2. unfold pairing, flat_params. cbn [List.concat]. apply sizes_concat in E1, E2. rewrite !app_nil_r, !concat_app, !combine_app, map_app, sumR_app; [reflexivity| |exact E2].
  rewrite combine_length, E1, E2. symmetry. apply Nat.min_id.
Qed.

(** The gradient of the joint cost with respect to b is the gradient of the cost of b. *)
Lemma gradient_part la lb lc F f a b c u g : alone la lb lc F f -> sizes a = la -> sizes b = lb -> sizes c = lc ->
  differentiable_at F [a ++ b ++ c] u g ->
  exists ga gb gc v, g = [ga ++ gb ++ gc] /\ sizes ga = la /\ sizes gb = lb /\ sizes gc = lc /\ differentiable_at f [b] v [gb].
Proof.
  intros AL Ea Eb Ec (E & SG & D). destruct (shape1_inv _ _ SG) as (g0 & -> & S0). rewrite !sizes_app, Ea, Eb, Ec in S0.
  destruct (sizes_split _ _ _ S0) as (ga & g1 & -> & Sa & S1). destruct (sizes_split _ _ _ S1) as (gb & gc & -> & Sb & Sc).
  destruct (AL a b b c Ea Eb Eb Ec) as (u0 & _ & v & _ & F0 & _ & V0 & _ & _).
  exists ga, gb, gc, v. repeat split; try assumption; [apply shape1; congruence|].
  intros eps PE. destruct (D eps PE) as (del & PD & H). exists del. split; [exact PD|]. intros y Sy Dy. destruct (shape1_inv _ _ Sy) as (b' & -> & Sb').
  assert (DD : dist1 [a ++ b ++ c] [a ++ b' ++ c] = dist1 [b] [b']) by (rewrite !dist_app, !dist_same by congruence; lra).
  destruct (H [a ++ b' ++ c]) as (w & W & B); [apply shape1; rewrite !sizes_app; congruence|rewrite DD; exact Dy|].
  destruct (AL a b b' c Ea Eb ltac:(congruence) Ec) as (u1 & u2 & v1 & v2 & F1 & F2 & V1 & V2 & DF).
  exists v2. split; [exact V2|]. rewrite DD in B. rewrite !pairing_app, !pairing_same in B by congruence.
  replace (v2 - v) with (w - u); [replace (pairing [gb] [b] [b']) with (0 + (pairing [gb] [b] [b'] + 0)) by lra; exact B|].
  rewrite W in F2. rewrite E in F1. rewrite V0 in V1. injection F1 as <-. injection F2 as <-. injection V1 as <-. lra.
Qed.

(** A function has one gradient. *)
Lemma mapi_id {A} (l : list A) : forall k, mapi (fun _ t => t) k l = l.
Proof. induction l as [|a l IH]; intros k; cbn; [reflexivity|]. f_equal. apply IH. Qed.
Lemma mapi_same {A B} (f g : nat -> A -> B) (l : list A) : (forall k a, f k a = g k a) -> forall k, mapi f k l = mapi g k l.
Proof. intros E. induction l as [|a l IH]; intros k; cbn; [reflexivity|]. rewrite E, IH. reflexivity. Qed.
Lemma each_id x : each (fun _ _ t => t) x = x.
Proof. unfold each. rewrite (mapi_same _ (fun _ t => t)); [apply mapi_id|]. intros k a. apply mapi_id. Qed.
Lemma gradient_unique f x a a' g g' : differentiable_at f x a g -> differentiable_at f x a' g' -> g' = g.
Proof.
  intros D D'. pose proof (gradient_placed 1 (fun _ => 1) (fun _ _ t => t) (fun _ _ t => t) f f x a a' g g') as G. rewrite !each_id in G.
  assert (T : forall t, times (1 / (1 * 1)) t = t) by (intros t; unfold times; rewrite <- (map_id t) at 2; apply map_ext; intros z; field).
  rewrite G; [|intros h i ts t _ _; constructor; intros; auto; [lra|exists e; auto]|intros; lra| |exact D|exact D'].
  - unfold each. rewrite (mapi_same _ (fun _ t => t)); [apply mapi_id|]. intros k l. rewrite (mapi_same _ (fun _ t => t)); [apply mapi_id|]. intros _ t. apply T.
  - intros y _. rewrite each_id. destruct (f y); cbn; [f_equal; lra|reflexivity..].
Qed.

Lemma move_app s a g x y : length a = length g -> move [s] [a ++ x] [g ++ y] = [nth 0 (move [s] [a] [g]) [] ++ nth 0 (move [s] [x] [y]) []].
Proof. intros L. unfold move. cbn. rewrite combine_app, map_app by exact L. reflexivity. Qed.
Lemma move_sizes s : forall a g, sizes g = sizes a -> sizes (nth 0 (move [s] [a] [g]) []) = sizes a.
Proof.
  unfold move, sizes. cbn. induction a as [|u a IH]; intros [|v g] E; try discriminate E; [reflexivity|]. cbn in *. injection E as E1 E2. rewrite (IH g E2). f_equal.
  unfold move_tensor. rewrite map_length, combine_length, E1. apply Nat.min_id.
Qed.
Lemma move1 s a g : move [s] [a] [g] = [nth 0 (move [s] [a] [g]) []]. Proof. reflexivity. Qed.
Lemma sizes_length a b : sizes a = sizes b -> length a = length b.
Proof. intros E. apply (f_equal (@length nat)) in E. unfold sizes in E. rewrite !map_length in E. exact E. Qed.

Section Fits.
  Variables (la lb lc : list nat) (F f : params -> costs) (gradF gradf : params -> params).
  Hypothesis AL : alone la lb lc (fun x => total (F x)) (fun x => total (f x)).
  Variables (a0 b0 c0 : list (list R)).
  Hypotheses (Sa : sizes a0 = la) (Sb : sizes b0 = lb) (Sc : sizes c0 = lc).
  Hypothesis EF : exact_gradient (fun x => total (F x)) gradF [a0 ++ b0 ++ c0].
  Hypothesis Ef : exact_gradient (fun x => total (f x)) gradf [b0].

  Lemma one_step lr a b c : sizes a = la -> sizes b = lb -> sizes c = lc ->
    exists a' c' b' , move [lr] [a ++ b ++ c] (gradF [a ++ b ++ c]) = [a' ++ b' ++ c'] /\ move [lr] [b] (gradf [b]) = [b'] /\ sizes a' = la /\ sizes b' = lb /\ sizes c' = lc.
  Proof.
    intros Ea Eb Ec. destruct (EF [a ++ b ++ c]) as (u & D); [apply shape1; rewrite !sizes_app; congruence|]. destruct (Ef [b]) as (v & D'); [apply shape1; congruence|].
    destruct (gradient_part _ _ _ _ _ _ _ _ _ _ AL Ea Eb Ec D) as (ga & gb & gc & v' & -> & Ga & Gb & Gc & DG). rewrite (gradient_unique _ _ _ _ _ _ DG D').
    rewrite !move_app by (apply sizes_length; congruence). 
    exists (nth 0 (move [lr] [a] [ga]) []), (nth 0 (move [lr] [c] [gc]) []), (nth 0 (move [lr] [b] [gb]) []). split; [reflexivity|]. split; [apply move1|].
    split; [|split]; rewrite move_sizes; congruence.
  Qed.

  Lemma fits_part lr cb cb' tol tol' n : (forall k, cb k = None) -> (forall k, cb' k = None) ->
    forall rem i a b c last last' ne ne' lc0 lc0' bd bd' o o', (i + rem <= n)%nat -> sizes a = la -> sizes b = lb -> sizes c = lc ->
    optimize_loop (sgd_strat [lr]) F gradF cb tol n last i rem [a ++ b ++ c] tt ne lc0 bd = Some o ->
    optimize_loop (sgd_strat [lr]) f gradf cb' tol' n last' i rem [b] tt ne' lc0' bd' = Some o' ->
    exists a' b' c', o_left o = [a' ++ b' ++ c'] /\ o_left o' = [b'] /\ sizes a' = la /\ sizes b' = lb /\ sizes c' = lc.
  Proof.
    intros NC NC'. induction rem as [|rem IH]; intros i a b c last last' ne ne' lc0 lc0' bd bd' o o' LE Ea Eb Ec E E'; cbn [optimize_loop] in E, E'.
    - injection E as <-. injection E' as <-. exists a, b, c. cbn [o_left]. auto.
    - cbn [run sgd_strat last_costs rev app] in E, E'. rewrite NC in E. rewrite NC' in E'.
      destruct (AL a b b c Ea Eb Eb Ec) as (u & _ & v & _ & U & _ & V & _ & _). cbv beta in U, V. rewrite U in E. rewrite V in E'. cbn [isnan] in E, E'.
      replace (Nat.leb n i) with false in E, E' by (symmetry; apply Nat.leb_gt; lia). rewrite andb_false_r in E, E'.
      destruct (one_step lr a b c Ea Eb Ec) as (a' & c' & b' & M & M' & A1 & A2 & A3). rewrite M in E. rewrite M' in E'.
      match type of E with option_map _ ?z = _ => destruct z as [o1|] eqn:E1; [|discriminate E] end. match type of E' with option_map _ ?z = _ => destruct z as [o1'|] eqn:E1'; [|discriminate E'] end.
      cbn [option_map] in E, E'. injection E as <-. injection E' as <-. cbn [before o_left].
      eapply IH; [|exact A1|exact A2|exact A3|exact E1|exact E1']. lia.
  Qed.
End Fits.
