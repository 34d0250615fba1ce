(** C104: fitting a problem whose parameters are expressed in other coordinates. *)
From Coq Require Import Reals String List Arith Bool Lia Lra Psatz.
From Verif Require Import Py RSum SpecGeometry SpecRigid Fl OptimModel FitModel SpecOptim OptimFacts SpecSimilar SimilarFacts SimilarLocal.
Import ListNotations.
Open Scope list_scope.
Open Scope R_scope.

(** Point sets (and moments) placed by a rotation or reflection, a translation and a change
    of unit. *)
Theorem C104_points : forall d N u Q c, rigid d Q -> u <> 0 ->
  similarity (N * d) u (place_points d u Q c) (place_points d u Q (fun _ => 0)).
Proof. exact place_points_similarity. Qed.
Print Assumptions C104_points.

(** The gradients of the two problems. *)
Theorem C104_gradients : forall ka r p l x0 f f' grad grad', (forall g, r g <> 0) -> similar x0 r p l ->
  (forall y, same_shape y x0 -> f' (each p y) = fscale ka (f y)) -> exact_gradient f grad x0 -> exact_gradient f' grad' x0 ->
  forall x, same_shape x x0 -> grad' (each p x) = each (fun g i t => l g i (times (ka / (r g * r g)) t)) (grad x).
Proof. intros ka r p l x0 f f' grad grad' RN SI FF EG EG' x E. exact (grad_placed ka r p l x0 RN SI f f' grad grad' FF EG EG' x E). Qed.
Print Assumptions C104_gradients.

(** One call of step(), and any number of them: costs multiplied by ka, parameters of group
    g placed by similarities of ratio r g, step lengths of group g multiplied by
    (r g)^2 / ka. *)
Theorem C104_gd_steps : forall ka r p l c c' x0 f f' grad grad' fuel n st, 0 < ka -> (forall g, r g <> 0) -> similar x0 r p l ->
  same_gammas c c' -> length (groups c) = length x0 ->
  (forall y, same_shape y x0 -> f' (each p y) = fscale ka (f y)) -> exact_gradient f grad x0 -> exact_gradient f' grad' x0 ->
  same_shape (gd_params st) x0 -> length (gd_steps st) = length x0 ->
  let w g := r g * r g / ka in
  gd_step c' f' grad' fuel (placed_state p w st) = option_map (placed_state p w) (gd_step c f grad fuel st) /\
  gd_steps_n c' f' grad' fuel n (placed_state p w st) = option_map (placed_state p w) (gd_steps_n c f grad fuel n st).
Proof.
  intros ka r p l c c' x0 f f' grad grad' fuel n st Pk RN SI SG LG FF EG EG' E L w. split.
  - exact (step_placed ka r p l c c' x0 Pk RN SI SG LG f f' grad grad' FF EG EG' fuel st E L).
  - exact (steps_placed ka r p l c c' x0 Pk RN SI SG LG f f' grad grad' FF EG EG' fuel n st E L).
Qed.
Print Assumptions C104_gd_steps.

(** Whole optimisations, for equal costs: the same result (success, final cost, number of
    evaluations) or the same exception, the same costs given to the callback at each
    iteration, and the placed parameters, in the model and at each evaluation. *)
Theorem C104_gd_fit : forall r p l c c' x0 f f' grad grad' fuel callback max_iter tol miniter x s, (forall g, r g <> 0) -> similar x0 r p l ->
  same_gammas c c' -> length (groups c) = length x0 ->
  (forall y, same_shape y x0 -> f' (each p y) = f y) ->
  exact_gradient (fun y => total (f y)) grad x0 -> exact_gradient (fun y => total (f' y)) grad' x0 ->
  same_shape x x0 -> length (c_steps s) = length x0 ->
  let w g := r g * r g / 1 in
  optimize (gd_strat c' fuel) f' grad' callback max_iter tol miniter (each p x) (placed_ctl w s) =
  option_map (placed_outcome p (placed_ctl w)) (optimize (gd_strat c fuel) f grad callback max_iter tol miniter x s).
Proof.
  intros r p l c c' x0 f f' grad grad' fuel cb max_iter tol mi x s RN SI SG LG FF EG EG' E L w.
  exact (gd_optimize_placed r p l c c' x0 RN SI SG LG f f' grad grad' FF EG EG' fuel cb max_iter tol mi x s E L).
Qed.
Print Assumptions C104_gd_fit.

(** The same with torch.optim.SGD ("torch_sgd"), learning rates multiplied by (r g)^2. *)
Theorem C104_sgd_fit : forall r p l x0 f f' grad grad' lrs callback max_iter tol miniter x, (forall g, r g <> 0) -> similar x0 r p l ->
  (forall y, same_shape y x0 -> f' (each p y) = f y) ->
  exact_gradient (fun y => total (f y)) grad x0 -> exact_gradient (fun y => total (f' y)) grad' x0 ->
  same_shape x x0 -> length lrs = length x0 ->
  optimize (sgd_strat (rescaled (fun g => r g * r g / 1) lrs)) f' grad' callback max_iter tol miniter (each p x) tt =
  option_map (placed_outcome p (fun u => u)) (optimize (sgd_strat lrs) f grad callback max_iter tol miniter x tt).
Proof.
  intros r p l x0 f f' grad grad' lrs cb max_iter tol mi x RN SI FF EG EG' E L.
  exact (sgd_optimize_placed r p l x0 RN SI f f' grad grad' FF EG EG' lrs cb max_iter tol mi x E L).
Qed.
Print Assumptions C104_sgd_fit.

(** Losses such as sums of distances are not differentiable everywhere: it is enough that the
    two costs are where the run asks for gradients (points of [D], for instance all those
    where no point meets its target). *)
Theorem C104_gd_fit_where_smooth : forall r p l c c' x0 f f' grad grad' (D : params -> Prop) fuel callback max_iter tol miniter x s o, (forall g, r g <> 0) -> similar x0 r p l ->
  same_gammas c c' -> length (groups c) = length x0 ->
  (forall y, same_shape y x0 -> f' (each p y) = f y) ->
  (forall y, same_shape y x0 -> D y -> exists a, differentiable_at (fun z => total (f z)) y a (grad y)) ->
  (forall y, same_shape y x0 -> D y -> exists a, differentiable_at (fun z => total (f' z)) (each p y) a (grad' (each p y))) ->
  same_shape x x0 -> length (c_steps s) = length x0 ->
  optimize (gd_strat c fuel) f grad callback max_iter tol miniter x s = Some o -> (forall y, In (y, true) (o_evals o) -> D y) ->
  let w g := r g * r g / 1 in
  optimize (gd_strat c' fuel) f' grad' callback max_iter tol miniter (each p x) (placed_ctl w s) = Some (placed_outcome p (placed_ctl w) o).
Proof.
  intros r p l c c' x0 f f' grad grad' D fuel cb max_iter tol mi x s o RN SI SG LG FF EG EG' E L H HD w.
  exact (gd_optimize_local r p l c c' x0 RN SI SG LG f f' grad grad' D FF EG EG' fuel cb max_iter tol mi x s o E L H HD).
Qed.
Print Assumptions C104_gd_fit_where_smooth.

Theorem C104_sgd_fit_where_smooth : forall r p l x0 f f' grad grad' (D : params -> Prop) lrs callback max_iter tol miniter x o, (forall g, r g <> 0) -> similar x0 r p l ->
  (forall y, same_shape y x0 -> f' (each p y) = f y) ->
  (forall y, same_shape y x0 -> D y -> exists a, differentiable_at (fun z => total (f z)) y a (grad y)) ->
  (forall y, same_shape y x0 -> D y -> exists a, differentiable_at (fun z => total (f' z)) (each p y) a (grad' (each p y))) ->
  same_shape x x0 -> length lrs = length x0 ->
  optimize (sgd_strat lrs) f grad callback max_iter tol miniter x tt = Some o -> (forall y, In (y, true) (o_evals o) -> D y) ->
  optimize (sgd_strat (rescaled (fun g => r g * r g / 1) lrs)) f' grad' callback max_iter tol miniter (each p x) tt = Some (placed_outcome p (fun u => u) o).
Proof.
  intros r p l x0 f f' grad grad' D lrs cb max_iter tol mi x o RN SI FF EG EG' E L H HD.
  exact (sgd_optimize_local r p l x0 RN SI f f' grad grad' D FF EG EG' lrs cb max_iter tol mi x o E L H HD).
Qed.
Print Assumptions C104_sgd_fit_where_smooth.

(** ** A case: a point of the plane and a number
    The point is turned by a quarter turn and translated, the number is doubled. *)
Definition bowl (x : params) : costs := match x with [[[a; b]]; [[t]]] => [("attach"%string, Fin ((a - 1) * (a - 1) + (b - 2) * (b - 2))); ("deformation"%string, Fin (t * t))] | _ => [] end.
Definition bowl_grad (x : params) : params := match x with [[[a; b]]; [[t]]] => [[[2 * (a - 1); 2 * (b - 2)]]; [[2 * t]]] | _ => x end.
Definition bowl' (x : params) : costs := match x with [[[a; b]]; [[t]]] => [("attach"%string, Fin ((b - 1) * (b - 1) + (1 - a) * (1 - a))); ("deformation"%string, Fin (t / 2 * (t / 2)))] | _ => [] end.
Definition bowl_grad' (x : params) : params := match x with [[[a; b]]; [[t]]] => [[[2 * (a - 1); 2 * (b - 1)]]; [[t / 2]]] | _ => x end.
Definition quarter (a b : nat) : R := match a, b with 0%nat, 1%nat => -1 | 1%nat, 0%nat => 1 | _, _ => 0 end.
Definition to_bowl (g i : nat) : list R -> list R :=
  match g with 0%nat => place_points 2 1 quarter (fun a => match a with 0%nat => 3 | _ => 0 end) | _ => place_points 1 2 mid (fun _ => 0) end.
Definition to_bowl_lin (g i : nat) : list R -> list R :=
  match g with 0%nat => place_points 2 1 quarter (fun _ => 0) | _ => place_points 1 2 mid (fun _ => 0) end.
Definition bowl0 : params := [[[5; 0]]; [[7]]].

Lemma bowl_shape x : same_shape x bowl0 -> exists a b t, x = [[[a; b]]; [[t]]].
Proof.
  unfold same_shape, bowl0. cbn. destruct x as [|g1 x]; [discriminate|]. destruct x as [|g2 x]; [discriminate|]. destruct x as [|g3 x]; [|discriminate]. cbn. intros E. injection E as E1 E2.
  destruct g1 as [|t1 g1]; [discriminate|]. destruct g1; [|discriminate]. destruct g2 as [|t2 g2]; [discriminate|]. destruct g2; [|discriminate]. cbn in E1, E2. injection E1 as E1. injection E2 as E2.
  destruct t1 as [|a [|b [|? ?]]]; try discriminate. destruct t2 as [|t [|? ?]]; try discriminate. eauto.
Qed.
Lemma quadratic (f : params -> fl) (grad : params -> params) (F : R -> R -> R -> R) (G : R -> R -> R -> params) :
  (forall a b t, f [[[a; b]]; [[t]]] = Fin (F a b t)) -> (forall a b t, grad [[[a; b]]; [[t]]] = G a b t) ->
  (forall a b t, same_shape (G a b t) bowl0) ->
  (forall a b t a' b' t', Rabs (F a' b' t' - F a b t - pairing (G a b t) [[[a; b]]; [[t]]] [[[a'; b']]; [[t']]]) <= (a' - a) * (a' - a) + (b' - b) * (b' - b) + (t' - t) * (t' - t)) ->
  exact_gradient f grad bowl0.
Proof.
  intros Hf Hg SG HB x E. destruct (bowl_shape x E) as (a & b & t & ->). exists (F a b t). split; [apply Hf|]. rewrite Hg. split; [apply (SG a b t)|].
  intros eps PE. exists eps. split; [exact PE|]. intros y Ey D. assert (Ey' : same_shape y bowl0) by exact Ey. destruct (bowl_shape y Ey') as (a' & b' & t' & ->). exists (F a' b' t'). split; [apply Hf|].
  eapply Rle_trans; [apply HB|]. unfold dist1, flat_params in *. cbn in *. 
  pose proof (Rabs_pos (a' - a)) as P1. pose proof (Rabs_pos (b' - b)) as P2. pose proof (Rabs_pos (t' - t)) as P3.
  assert (SQ : forall q, q * q = Rabs q * Rabs q) by (intros q; rewrite <- Rabs_mult; symmetry; apply Rabs_pos_eq, Rle_0_sqr).
  rewrite (SQ (a' - a)), (SQ (b' - b)), (SQ (t' - t)).
  set (u := Rabs (a' - a)) in *. set (v := Rabs (b' - b)) in *. set (z := Rabs (t' - t)) in *.
  assert (S0 : u * u + v * v + z * z <= (u + (v + (z + 0))) * (u + (v + (z + 0)))) by nra.
  eapply Rle_trans; [exact S0|]. apply Rmult_le_compat_r; lra.
Qed.
Lemma bowl_exact : exact_gradient (fun y => total (bowl y)) bowl_grad bowl0.
Proof.
  apply (quadratic _ _ (fun a b t => 0 + ((a - 1) * (a - 1) + (b - 2) * (b - 2)) + t * t) (fun a b t => [[[2 * (a - 1); 2 * (b - 2)]]; [[2 * t]]])); try reflexivity.
  intros a b t a' b' t'. unfold pairing, flat_params. cbn. apply Req_le. rewrite Rabs_pos_eq; [ring|].
  replace (_ - _) with ((a' - a) * (a' - a) + (b' - b) * (b' - b) + (t' - t) * (t' - t)) by ring.
  pose proof (Rle_0_sqr (a' - a)). pose proof (Rle_0_sqr (b' - b)). pose proof (Rle_0_sqr (t' - t)). unfold Rsqr in *. lra.
Qed.
Lemma bowl_exact' : exact_gradient (fun y => total (bowl' y)) bowl_grad' bowl0.
Proof.
  apply (quadratic _ _ (fun a b t => 0 + ((b - 1) * (b - 1) + (1 - a) * (1 - a)) + t / 2 * (t / 2)) (fun a b t => [[[2 * (a - 1); 2 * (b - 1)]]; [[t / 2]]])); try reflexivity.
  intros a b t a' b' t'. unfold pairing, flat_params. cbn.
  replace (_ - _) with ((a' - a) * (a' - a) + (b' - b) * (b' - b) + / 4 * ((t' - t) * (t' - t))) by field.
  pose proof (Rle_0_sqr (a' - a)). pose proof (Rle_0_sqr (b' - b)). pose proof (Rle_0_sqr (t' - t)). unfold Rsqr in *. rewrite Rabs_pos_eq by lra. lra.
Qed.
Lemma quarter_rigid : rigid 2 quarter.
Proof.
  split; intros [|[|i]] [|[|j]] I J; try lia; unfold mprod, mtr, quarter, mid, delta; cbn; ring.
Qed.
Lemma mid_rigid : rigid 1 mid.
Proof. split; intros [|i] [|j] I J; try lia; unfold mprod, mtr, mid, delta; cbn; ring. Qed.
Lemma bowl_similar : similar bowl0 (fun g => match g with 0%nat => 1 | _ => 2 end) to_bowl to_bowl_lin.
Proof.
  intros [|[|[|g]]] [|[|i]] ts t E F; try discriminate E; injection E as <-; try discriminate F; injection F as <-; cbn [length to_bowl to_bowl_lin].
  - apply (C104_points 2 1); [exact quarter_rigid|lra].
  - apply (C104_points 1 1); [exact mid_rigid|lra].
Qed.
Lemma bowl_eq (a b t a' b' t' : R) : a = a' -> b = b' -> t = t' -> [[[a; b]]; [[t]]] = [[[a'; b']]; [[t']]].
Proof. intros -> -> ->. reflexivity. Qed.
Lemma bowl_each a b t : each to_bowl [[[a; b]]; [[t]]] = [[[3 - b; a]]; [[2 * t]]].
Proof. unfold each, to_bowl, place_points, turned, quarter, mid, delta. cbn. apply bowl_eq; ring. Qed.
Definition bowl_conf : gd_conf := mkConf 1 (1 / 2) 2 [mkGroup None None None; mkGroup (Some (1 / 2)) None (Some 1)].
Definition bowl_conf' : gd_conf := mkConf 1 (1 / 2) 2 [mkGroup None None None; mkGroup (Some 2) None (Some 1)].
Example C104_hypotheses :
  (forall g, (match g with 0%nat => 1 | _ => 2 end) <> 0) /\
  similar bowl0 (fun g => match g with 0%nat => 1 | _ => 2 end) to_bowl to_bowl_lin /\
  same_gammas bowl_conf bowl_conf' /\ length (groups bowl_conf) = length bowl0 /\
  (forall y, same_shape y bowl0 -> bowl' (each to_bowl y) = bowl y) /\
  exact_gradient (fun y => total (bowl y)) bowl_grad bowl0 /\ exact_gradient (fun y => total (bowl' y)) bowl_grad' bowl0 /\
  length (c_steps (ctl_reset bowl_conf)) = length bowl0 /\
  placed_ctl (fun g => (match g with 0%nat => 1 | _ => 2 end) * (match g with 0%nat => 1 | _ => 2 end) / 1) (ctl_reset bowl_conf) = ctl_reset bowl_conf' /\
  each to_bowl bowl0 = [[[3; 5]]; [[14]]].
Proof.
  split; [intros [|g]; lra|]. split; [exact bowl_similar|]. split; [split; [reflexivity|intros [|[|[|g]]]; split; reflexivity]|]. split; [reflexivity|]. split.
  - intros y E. destruct (bowl_shape y E) as (a & b & t & ->). rewrite bowl_each. unfold bowl', bowl. f_equal; [|f_equal]; f_equal; f_equal; field.
  - split; [exact bowl_exact|]. split; [exact bowl_exact'|]. split; [reflexivity|]. split.
    + unfold placed_ctl, ctl_reset, gd_reset, rescaled. cbn. f_equal. f_equal; [field|f_equal; field].
    + unfold bowl0. rewrite bowl_each. apply bowl_eq; ring.
Qed.

(** ** Findings *)
Definition parabola (q : R) (x : params) : costs := [("attach"%string, Fin (q * (entry x 0 0 0 * entry x 0 0 0)))].
Definition slope (q : R) (x : params) : params := map (map (map (fun a => 2 * q * a))) x.
Lemma one_shape x : same_shape x [[[1]]] -> exists a, x = [[[a]]].
Proof.
  unfold same_shape. cbn. destruct x as [|g1 x]; [discriminate|]. destruct x as [|g2 x]; [|discriminate]. cbn. intros E. injection E as E1.
  destruct g1 as [|t1 g1]; [discriminate|]. destruct g1; [|discriminate]. cbn in E1. injection E1 as E1. destruct t1 as [|a [|? ?]]; try discriminate. eauto.
Qed.
Lemma parabola_exact q : 0 < q -> exact_gradient (fun y => total (parabola q y)) (slope q) [[[1]]].
Proof.
  intros Q x E. destruct (one_shape x E) as (a & ->). exists (0 + q * (a * a)). split; [reflexivity|]. split; [reflexivity|]. intros eps PE. exists (eps / q). split; [apply Rdiv_lt_0_compat; assumption|].
  intros y Ey D. destruct (one_shape y Ey) as (b & ->). exists (0 + q * (b * b)). split; [reflexivity|]. unfold dist1, pairing, flat_params, slope in *. cbn in *.
  replace (_ - _) with (q * ((b - a) * (b - a))) by ring. rewrite Rabs_mult, (Rabs_pos_eq q) by lra. rewrite Rabs_mult. pose proof (Rabs_pos (b - a)) as P. set (u := Rabs (b - a)) in *.
  assert (q * u < eps). { assert (D' : u < eps / q) by lra. apply Rmult_lt_compat_l with (r := q) in D'; [|exact Q]. replace (q * (eps / q)) with eps in D' by (field; lra). exact D'. } nra.
Qed.

(** A case with a cost that is not differentiable everywhere: the distance of a number to 0,
    the number being negated. *)
Definition hat (x : params) : costs := [("attach"%string, Fin (Rabs (entry x 0 0 0)))].
Definition hat_grad (x : params) : params := [[[if Rle_dec 0 (entry x 0 0 0) then 1 else -1]]].
Definition flip (a b : nat) : R := if Nat.eqb a b then -1 else 0.
Definition negated (g i : nat) : list R -> list R := place_points 1 1 flip (fun _ => 0).
Lemma negated_each a : each negated [[[a]]] = [[[- a]]].
Proof. unfold each, negated, place_points, turned, flip. cbn. do 3 f_equal. ring. Qed.
Lemma hat_smooth a : a <> 0 -> exists v, differentiable_at (fun z => total (hat z)) [[[a]]] v (hat_grad [[[a]]]).
Proof.
  intros N. exists (0 + Rabs a). split; [reflexivity|]. split; [reflexivity|]. intros eps PE. exists (Rabs a). split; [apply Rabs_pos_lt; exact N|].
  intros y Ey D. destruct (one_shape y Ey) as (b & ->). exists (0 + Rabs b). split; [reflexivity|]. unfold dist1, pairing, flat_params, hat_grad, entry in *. cbn in *.
  replace (_ - _) with 0; [rewrite Rabs_R0; apply Rmult_le_pos; [lra|pose proof (Rabs_pos (b - a)); lra]|].
  destruct (Rle_dec 0 a) as [P|P].
  - rewrite (Rabs_pos_eq a) in * by exact P. pose proof (Rle_abs (- (b - a))) as Q. rewrite Rabs_Ropp in Q. rewrite (Rabs_pos_eq b) by lra. ring.
  - rewrite (Rabs_left a) in * by lra. pose proof (Rle_abs (b - a)) as Q. rewrite (Rabs_left b) by lra. ring.
Qed.
Example C104_where_smooth_hypotheses : exists o,
  rigid 1 flip /\ similar [[[1]]] (fun _ => 1) negated negated /\ (forall y, same_shape y [[[1]]] -> hat (each negated y) = hat y) /\
  (forall y, same_shape y [[[1]]] -> entry y 0 0 0 <> 0 -> exists a, differentiable_at (fun z => total (hat z)) y a (hat_grad y)) /\
  (forall y, same_shape y [[[1]]] -> entry y 0 0 0 <> 0 -> exists a, differentiable_at (fun z => total (hat z)) (each negated y) a (hat_grad (each negated y))) /\
  optimize (sgd_strat [1 / 4]) hat hat_grad (fun _ => None) 1 None 0 [[[1]]] tt = Some o /\
  (forall y, In (y, true) (o_evals o) -> entry y 0 0 0 <> 0) /\ o_left o <> [[[1]]] /\
  ~ exact_gradient (fun z => total (hat z)) hat_grad [[[1]]].
Proof.
  assert (HR : rigid 1 flip) by (split; intros [|i] [|j] I J; try lia; unfold mprod, mtr, flip, mid, delta; cbn; ring).
  eexists. split; [exact HR|]. split.
  { intros [|[|g]] [|i] ts t E F; try discriminate E; injection E as <-; try discriminate F; [injection F as <-|destruct i; discriminate F]. apply (C104_points 1 1); [exact HR|lra]. }
  split; [intros y E; destruct (one_shape y E) as (a & ->); rewrite negated_each; unfold hat, entry; cbn; rewrite Rabs_Ropp; reflexivity|].
  split; [intros y E N; destruct (one_shape y E) as (a & ->); apply hat_smooth; exact N|].
  split; [intros y E N; destruct (one_shape y E) as (a & ->); rewrite negated_each; apply hat_smooth; cbn in N; lra|].
  split.
  { unfold optimize. cbn [optimize_loop run sgd_strat last_costs rev app]. change (isnan (total (hat [[[1]]]))) with false. cbv iota.
    replace (fle (fdiv (fsub PInf (total (hat [[[1]]]))) (fmax (fmax (total (hat [[[1]]])) PInf) (Fin 1))) (Fin (/ 10 ^ 10))) with false by reflexivity. cbn [andb option_map]. reflexivity. }
  split; [cbn; intros y [H|[]]; injection H as <-; cbn; lra|]. split.
  { cbn. unfold hat_grad, entry. cbn. destruct (Rle_dec 0 1); [|lra]. intros H. injection H as H. lra. }
  intros EG. destruct (EG [[[0]]] eq_refl) as (a & Ea & _ & LIM). unfold hat, total in Ea. cbn in Ea. injection Ea as Ea. unfold entry in Ea. cbn in Ea. rewrite Rabs_R0 in Ea.
  destruct (LIM (1/2) ltac:(lra)) as (del & PD & H). destruct (H [[[- (del / 2)]]] eq_refl) as (b & Eb & B).
  - unfold dist1, flat_params. cbn. rewrite Rabs_left by lra. lra.
  - unfold total, hat, entry in Eb. cbn in Eb. injection Eb as Eb. unfold pairing, dist1, flat_params, hat_grad, entry in B. cbn in B. destruct (Rle_dec 0 0); [|lra].
    rewrite (Rabs_left (- (del / 2))) in Eb by lra. rewrite (Rabs_left (- (del / 2) - 0)) in B by lra. pose proof (Rle_abs (b - a - (1 * (- (del / 2) - 0) + 0))). lra.
Qed.

(** The test of convergence depends on the unit of the costs: the same iterates (C104_gd_steps
    holds with any ka > 0), and a run that has not converged for the costs x^2 has converged
    for the costs x^2 / 100. *)
Theorem C104_tolerance_refuted : exists o o' r r',
  exact_gradient (fun y => total (parabola 1 y)) (slope 1) [[[1]]] /\ exact_gradient (fun y => total (parabola (/ 100) y)) (slope (/ 100)) [[[1]]] /\
  (forall y, total (parabola (/ 100) y) = fscale (/ 100) (total (parabola 1 y))) /\
  optimize (sgd_strat [1 / 4]) (parabola 1) (slope 1) (fun _ => None) 2 (Some (1 / 10)) 0 [[[1]]] tt = Some o /\
  optimize (sgd_strat [25]) (parabola (/ 100)) (slope (/ 100)) (fun _ => None) 2 (Some (1 / 10)) 0 [[[1]]] tt = Some o' /\
  o_left o' = o_left o /\ o_res o = Ok r /\ o_res o' = Ok r' /\ r_success r = false /\ r_success r' = true.
Proof.
  assert (T : forall q p, total (parabola q p) = Fin (q * (entry p 0 0 0 * entry p 0 0 0))) by (intros q p; unfold total; cbn; f_equal; ring).
  assert (M : forall s q a, move [s] [[[a]]] (slope q [[[a]]]) = [[[a - s * (2 * q * a)]]]) by reflexivity.
  assert (I0 : forall b tl, fle (fdiv (fsub PInf (Fin b)) (fmax (fmax (Fin b) PInf) (Fin 1))) (Fin tl) = false) by reflexivity.
  assert (V : forall q a, q * (entry [[[a]]] 0 0 0 * entry [[[a]]] 0 0 0) = q * (a * a)) by reflexivity.
  assert (FL : forall a b, a <= b -> b <= 1 -> fmax (fmax (Fin a) (Fin b)) (Fin 1) = Fin 1 \/ (b = 1 /\ fmax (fmax (Fin a) (Fin b)) (Fin 1) = Fin b)).
  { intros a b H1 H2. unfold fmax. cbn. destruct (Rltb a b) eqn:E1; cbn.
    - destruct (Rltb b 1) eqn:E2; [left; reflexivity|]. apply Rltb_false in E2. right. split; [lra|reflexivity].
    - apply Rltb_false in E1. assert (a = b) as -> by lra. destruct (Rltb b 1) eqn:E2; [left; reflexivity|]. apply Rltb_false in E2. right. split; [lra|reflexivity]. }
  eexists _, _, _, _. split; [apply parabola_exact; lra|]. split; [apply parabola_exact; lra|]. split; [intros y; rewrite !T; cbn; f_equal; ring|].
  split; [|split].
  - unfold optimize. cbn [optimize_loop run sgd_strat last_costs rev app]. rewrite !M, !T, !V. cbn [isnan]. rewrite I0. cbn [andb option_map].
    destruct (FL (1 * ((1 - 1 / 4 * (2 * 1 * 1)) * (1 - 1 / 4 * (2 * 1 * 1)))) (1 * (1 * 1))) as [H|(_ & H)]; [lra|lra| |]; rewrite H; cbn [fsub fadd fneg fdiv].
    + match goal with |- context [fle (Fin ?u) (Fin ?v)] => replace (fle (Fin u) (Fin v)) with false; [|symmetry; apply not_true_is_false; intros X; apply fle_fin in X; lra] end. cbn [andb]. reflexivity.
    + match goal with |- context [fle (Fin ?u) (Fin ?v)] => replace (fle (Fin u) (Fin v)) with false; [|symmetry; apply not_true_is_false; intros X; apply fle_fin in X; lra] end. cbn [andb]. reflexivity.
  - unfold optimize. cbn [optimize_loop run sgd_strat last_costs rev app]. rewrite !M, !T, !V. cbn [isnan]. rewrite I0. cbn [andb option_map].
    destruct (FL (/ 100 * ((1 - 25 * (2 * / 100 * 1)) * (1 - 25 * (2 * / 100 * 1)))) (/ 100 * (1 * 1))) as [H|(H0 & _)]; [lra|lra| |exfalso; lra]; rewrite H; cbn [fsub fadd fneg fdiv].
    match goal with |- context [fle (Fin ?u) (Fin ?v)] => replace (fle (Fin u) (Fin v)) with true; [|symmetry; apply fle_fin; lra] end. cbn [andb Nat.leb]. reflexivity.
  - cbn [before o_left o_res]. split; [|split; [reflexivity|split; [reflexivity|split; reflexivity]]].
    do 3 f_equal; field.
Qed.
Print Assumptions C104_tolerance_refuted.

(** Step lengths have a unit: the number doubled and the same step length give other
    iterates. *)
Theorem C104_same_steps_refuted :
  (forall a, total (parabola (/ 4) [[[2 * a]]]) = total (parabola 1 [[[a]]])) /\
  exact_gradient (fun y => total (parabola 1 y)) (slope 1) [[[1]]] /\ exact_gradient (fun y => total (parabola (/ 4) y)) (slope (/ 4)) [[[1]]] /\
  exists o o' a a',
  optimize (sgd_strat [1 / 2]) (parabola 1) (slope 1) (fun _ => None) 1 None 0 [[[1]]] tt = Some o /\
  optimize (sgd_strat [1 / 2]) (parabola (/ 4)) (slope (/ 4)) (fun _ => None) 1 None 0 [[[2 * 1]]] tt = Some o' /\
  o_left o = [[[a]]] /\ o_left o' = [[[a']]] /\ a' <> 2 * a.
Proof.
  assert (T : forall q p, total (parabola q p) = Fin (q * (entry p 0 0 0 * entry p 0 0 0))) by (intros q p; unfold total; cbn; f_equal; ring).
  assert (M : forall s q a, move [s] [[[a]]] (slope q [[[a]]]) = [[[a - s * (2 * q * a)]]]) by reflexivity.
  assert (I0 : forall b tl, fle (fdiv (fsub PInf (Fin b)) (fmax (fmax (Fin b) PInf) (Fin 1))) (Fin tl) = false) by reflexivity.
  split; [intros a; rewrite !T; unfold entry; cbn; f_equal; field|]. split; [apply parabola_exact; lra|]. split; [apply parabola_exact; lra|].
  eexists _, _, _, _. split; [|split].
  - unfold optimize. cbn [optimize_loop run sgd_strat last_costs rev app]. rewrite !M, !T. cbn [isnan]. rewrite I0. cbn [andb option_map]. reflexivity.
  - unfold optimize. cbn [optimize_loop run sgd_strat last_costs rev app]. rewrite !M, !T. cbn [isnan]. rewrite I0. cbn [andb option_map]. reflexivity.
  - cbn [before o_left]. split; [reflexivity|]. split; [reflexivity|]. lra.
Qed.
Print Assumptions C104_same_steps_refuted.
