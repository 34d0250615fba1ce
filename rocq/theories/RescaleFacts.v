(** Whole optimisations whose costs are multiplied by a constant. *)
From Coq Require Import Reals String List Arith Bool Lia Lra.
From Verif Require Import Py RSum Fl OptimModel FitModel SpecGeometry SpecRigid RigidField SpecOptim OptimFacts SpecSimilar SimilarFacts SpecRescale.
Import ListNotations.
Open Scope list_scope.
Open Scope R_scope.

Lemma total_multiplied k c : total (multiplied k c) = fscale k (total c).
Proof.
  unfold total, multiplied. rewrite map_map. cbn [snd]. replace (Fin 0) with (fscale k (Fin 0)) at 1 by (cbn; f_equal; ring). generalize (Fin 0). induction c as [|e c IH]; intros a; [reflexivity|]. cbn [map fold_left]. rewrite <- IH. f_equal.
  destruct a, (snd e); cbn; try reflexivity. f_equal. ring.
Qed.

Definition large (k : R) (a : fl) : Prop := match a with Fin x => 1 <= x /\ 1 <= k * x | _ => True end.
Definition stop (tol : R) (lst t : fl) : bool := fle (fdiv (fsub lst t) (fmax (fmax t lst) (Fin 1))) (Fin tol).

Lemma max_one x : 1 <= x -> fmax (Fin x) (Fin 1) = Fin x.
Proof. intros H. unfold fmax. cbn. replace (Rltb x 1) with false; [reflexivity|]. symmetry. apply Rltb_false. exact H. Qed.
Lemma no_less x : 1 <= x -> Rltb x 0 = false.
Proof. intros H. apply Rltb_false. lra. Qed.
Lemma stop_multiplied k tol lst t : 0 < k -> large k lst -> large k t -> stop tol (fscale k lst) (fscale k t) = stop tol lst t.
Proof.
  intros K L T. unfold stop. destruct lst as [a| | |], t as [b| | |]; cbn [large fscale] in *; try reflexivity.
  - assert (M : fmax (Fin (k * b)) (Fin (k * a)) = fscale k (fmax (Fin b) (Fin a))).
    { unfold fmax. cbn [flt]. rewrite Rltb_scale by exact K. destruct (Rltb b a); reflexivity. }
    rewrite M. assert (N : exists m, fmax (Fin b) (Fin a) = Fin m /\ 1 <= m /\ 1 <= k * m) by (unfold fmax; cbn; destruct (Rltb b a); eexists; (split; [reflexivity|tauto])).
    destruct N as (m & -> & M1 & M2). cbn [fscale]. rewrite !max_one by assumption. unfold fsub. cbn [fneg fadd fdiv]. do 2 f_equal. field. split; lra.
  - unfold fmax. cbn. replace (Rltb (k * a) 1) with false by (symmetry; apply Rltb_false; tauto). replace (Rltb a 1) with false by (symmetry; apply Rltb_false; tauto). cbn. rewrite !no_less by tauto. reflexivity.
  - unfold fmax. cbn. replace (Rltb (k * b) 1) with false by (symmetry; apply Rltb_false; tauto). replace (Rltb b 1) with false by (symmetry; apply Rltb_false; tauto). cbn. rewrite !no_less by tauto. reflexivity.
Qed.

Section Whole.
Context {S S' : Type} (k : R) (step : S -> params -> strat S) (step' : S' -> params -> strat S') (st : S -> S')
  (f f' : params -> costs) (grad grad' : params -> params) (p : nat -> nat -> list R -> list R) (I : S -> params -> Prop) (x0 : params)
  (callback callback' : option costs -> option exn).
Hypothesis Pk : 0 < k.
Hypothesis H1 : forall s x, I s x -> run f' grad' (step' (st s) (each p x)) = option_map (placed_run p st) (run f grad (step s x)).
Hypothesis H2 : forall s x tr y s', I s x -> run f grad (step s x) = Some (tr, y, s') -> I s' y /\ Forall (fun e => same_shape (fst e) x0) tr.
Hypothesis H3 : forall y, same_shape y x0 -> f' (each p y) = multiplied k (f y).
Hypothesis HC : forall lc, callback' (option_map (multiplied k) lc) = callback lc.

Lemma costs_multiplied tr lc : Forall (fun e => same_shape (fst e) x0) tr -> last_costs f' (placed_evals p tr) (option_map (multiplied k) lc) = option_map (multiplied k) (last_costs f tr lc).
Proof.
  intros F. unfold last_costs, placed_evals. rewrite <- map_rev. apply Forall_rev in F. destruct (rev tr) as [|(x & b) q]; [reflexivity|]. cbn. f_equal. apply H3. exact (Forall_inv F).
Qed.
Lemma whole_multiplied tol mi : forall rem lst i x s neval lc bound o, I s x -> large k lst ->
  optimize_loop step f grad callback tol mi lst i rem x s neval lc bound = Some o -> costs_above_one k o ->
  optimize_loop step' f' grad' callback' tol mi (fscale k lst) i rem (each p x) (st s) neval (option_map (multiplied k) lc) (option_map (fscale k) bound) = Some (multiplied_outcome k p st o).
Proof.
  induction rem as [|rem IH]; intros lst i x s neval lc bound o HI HL; [intros H _; injection H as <-; cbn; f_equal; unfold multiplied_outcome; cbn; f_equal; destruct bound; reflexivity|].
  cbn [optimize_loop]. rewrite (H1 s x HI). destruct (run f grad (step s x)) as [((tr & y) & s')|] eqn:E; [|discriminate]. intros H HB.
  destruct (H2 s x tr y s' HI E) as (HI' & F). cbn [option_map placed_run fst snd]. rewrite (costs_multiplied tr lc F), HC.
  replace (length (placed_evals p tr)) with (length tr) by (symmetry; apply map_length).
  destruct (callback (last_costs f tr lc)) as [e|]; [injection H as <-; reflexivity|]. destruct (last_costs f tr lc) as [cs|]; [|injection H as <-; reflexivity]. cbn [option_map] in *.
  rewrite total_multiplied. replace (isnan (fscale k (total cs))) with (isnan (total cs)) by (destruct (total cs); reflexivity).
  assert (HT : large k (total cs)).
  { destruct (total cs) as [a| | |] eqn:TC; cbn; auto. apply (HB cs a); [|exact TC]. cbn [isnan] in H. destruct (_ && _)%bool; [injection H as <-; left; reflexivity|].
    destruct (optimize_loop step f grad callback tol mi _ _ rem y s' _ _ _); [|discriminate H]. injection H as <-. left. reflexivity. }
  destruct (isnan (total cs)) eqn:IN; [injection H as <-; unfold multiplied_outcome; cbn; destruct (total cs); try discriminate IN; reflexivity|].
  pose proof (stop_multiplied k tol lst (total cs) Pk HL HT) as ST. unfold stop in ST. rewrite ST. destruct (_ && _)%bool; [injection H as <-; reflexivity|].
  destruct (optimize_loop step f grad callback tol mi (total cs) (Datatypes.S i) rem y s' _ _ _) as [o1|] eqn:E1; [|discriminate H]. injection H as <-.
  change (Some (fscale k (total cs))) with (option_map (fscale k) (Some (total cs))). change (Some (multiplied k cs)) with (option_map (multiplied k) (Some cs)).
  rewrite (IH _ _ _ _ _ _ _ o1 HI' HT E1).
  - cbn. f_equal. unfold before, multiplied_outcome. cbn. f_equal. unfold placed_evals. rewrite map_app. reflexivity.
  - intros cs1 a I1 T1. apply (HB cs1 a); [|exact T1]. right. exact I1.
Qed.
End Whole.

Section Fits.
Variables (k : R) (r : nat -> R) (p l : nat -> nat -> list R -> list R) (c c' : gd_conf) (x0 : params).
Hypothesis Pk : 0 < k.
Hypothesis RN : forall g, r g <> 0.
Hypothesis SI : similar x0 r p l.
Hypothesis SG : same_gammas c c'.
Hypothesis LG : length (groups c) = length x0.
Variables (f f' : params -> costs) (grad grad' : params -> params).
Hypothesis FF : forall y, same_shape y x0 -> f' (each p y) = multiplied k (f y).
Hypothesis EG : exact_gradient (fun y => total (f y)) grad x0.
Hypothesis EG' : exact_gradient (fun y => total (f' y)) grad' x0.
Variables (callback callback' : option costs -> option exn).
Hypothesis HC : forall lc, callback' (option_map (multiplied k) lc) = callback lc.
Let w (g : nat) : R := r g * r g / k.

Lemma totals_k y : same_shape y x0 -> total (f' (each p y)) = fscale k (total (f y)).
Proof. intros E. rewrite FF by exact E. apply total_multiplied. Qed.
Lemma tries_multiplied x d cx cnt mf : same_shape x x0 -> same_shape d x -> forall fuel n ss, length ss = length x ->
  run f' grad' (gd_tries c' (each p x) (each (fun h i t => l h i (times (k / (r h * r h)) t)) d) (fscale k cx) cnt mf fuel n (rescaled w ss))
  = option_map (placed_run p (placed_ctl w)) (run f grad (gd_tries c x d cx cnt mf fuel n ss)).
Proof.
  intros E D. induction fuel as [|fuel IH]; intros n ss L; [reflexivity|]. cbn [gd_tries run].
  assert (LG' : length (groups c) = length ss) by (rewrite LG, L; symmetry; apply same_shape_length; exact E).
  assert (MP : move (rescaled w ss) (each p x) (each (fun h i t => l h i (times (k / (r h * r h)) t)) d) = each p (move ss x d)) by exact (moves_placed k r p l x0 Pk RN SI x d ss E D L).
  rewrite !MP.
  assert (Sy : same_shape (move ss x d) x0). { rewrite move_moved by assumption. pose proof (moved_shape (fun g => nth g ss 0) x d). unfold same_shape in *. congruence. }
  rewrite (totals_k _ Sy), flt_scale, feq_scale, fin_scale by exact Pk. destruct (_ && _)%bool.
  - cbn. unfold placed_run, placed_ctl. cbn. destruct (Nat.eqb n 1); [rewrite (update2_placed w c c' ss SG LG')|]; reflexivity.
  - destruct (feq _ _); [reflexivity|]. rewrite (update1_placed w c c' ss SG LG'). rewrite IH by (rewrite update1_length; assumption).
    destruct (run f grad (gd_tries c x d cx cnt mf fuel (S n) (update1 c ss))) as [((tr & y) & s)|]; reflexivity.
Qed.
Lemma gd_multiplied fuel max_iter tol mi x s o : same_shape x x0 -> length (c_steps s) = length x0 ->
  optimize (gd_strat c fuel) f grad callback max_iter tol mi x s = Some o -> costs_above_one k o ->
  optimize (gd_strat c' fuel) f' grad' callback' max_iter tol mi (each p x) (placed_ctl w s) = Some (multiplied_outcome k p (placed_ctl w) o).
Proof.
  intros E L. unfold optimize. apply (whole_multiplied k _ _ _ f f' grad grad' p (fun s x => same_shape x x0 /\ length (c_steps s) = length x0) x0 callback callback' Pk) with (lst := PInf) (lc := None) (bound := None); [| |exact FF|exact HC|auto|exact Logic.I].
  - clear x s o E L. intros s x (E & L). unfold gd_strat. cbn [run placed_ctl c_count c_min c_steps].
    rewrite (totals_k _ E). rewrite (grad_placed k r p l x0 RN SI (fun y => total (f y)) (fun y => total (f' y)) grad grad' totals_k EG EG' x E).
    rewrite (tries_multiplied x (grad x) (total (f x)) (S (c_count s)) (c_min s) E (grad_shape x0 (fun y => total (f y)) grad EG x E)) by (rewrite L; symmetry; apply same_shape_length; exact E).
    destruct (run f grad (gd_tries c x (grad x) _ _ _ _ _ _)) as [((tr & y) & s1)|]; reflexivity.
  - clear x s o E L. intros s x tr y s' (E & L) H. unfold gd_strat in H. cbn [run] in H.
    destruct (run f grad (gd_tries c x (grad x) _ _ _ _ _ _)) as [((tr1 & y1) & s1)|] eqn:R1; [|discriminate H]. injection H as <- <- <-.
    destruct (tries_kept c x0 LG f grad x (grad x) _ _ _ E (grad_shape x0 (fun y => total (f y)) grad EG x E) _ _ _ _ _ _ L R1) as (A & B). split; [exact A|]. constructor; [exact E|exact B].
Qed.
Lemma sgd_multiplied lrs max_iter tol mi x o : same_shape x x0 -> length lrs = length x0 ->
  optimize (sgd_strat lrs) f grad callback max_iter tol mi x tt = Some o -> costs_above_one k o ->
  optimize (sgd_strat (rescaled w lrs)) f' grad' callback' max_iter tol mi (each p x) tt = Some (multiplied_outcome k p (fun u => u) o).
Proof.
  intros E L. unfold optimize. apply (whole_multiplied k (sgd_strat lrs) (sgd_strat (rescaled w lrs)) (fun u => u) f f' grad grad' p (fun _ x => same_shape x x0) x0 callback callback' Pk) with (lst := PInf) (lc := None) (bound := None); [| |exact FF|exact HC|auto|exact Logic.I].
  - clear x o E. intros s x E. unfold sgd_strat. cbn [run]. rewrite (grad_placed k r p l x0 RN SI (fun y => total (f y)) (fun y => total (f' y)) grad grad' totals_k EG EG' x E).
    pose proof (grad_shape x0 (fun y => total (f y)) grad EG x E) as DS. assert (LX : length lrs = length x) by (rewrite L; symmetry; apply same_shape_length; exact E).
    assert (MP : move (rescaled w lrs) (each p x) (each (fun h i t => l h i (times (k / (r h * r h)) t)) (grad x)) = each p (move lrs x (grad x))) by exact (moves_placed k r p l x0 Pk RN SI x (grad x) lrs E DS LX).
    cbv beta in *. rewrite MP. reflexivity.
  - clear x o E. intros s x tr y s' E H. unfold sgd_strat in H. cbn in H. injection H as <- <- <-. pose proof (grad_shape x0 (fun y => total (f y)) grad EG x E) as DS.
    assert (LX : length lrs = length x) by (rewrite L; symmetry; apply same_shape_length; exact E). split.
    + rewrite move_moved by assumption. match goal with |- same_shape (moved ?a ?b ?d) _ => pose proof (moved_shape a b d) end. unfold same_shape in *. congruence.
    + constructor; [exact E|constructor].
Qed.
End Fits.
