(** Concrete cases for the properties of optimizers. *)
From Coq Require Import Reals Lra String List Arith Lia Bool.
From Verif Require Import Py Fl OptimModel SpecOptim OptimFacts OptimFacts2.
Import ListNotations.
Open Scope list_scope.
Open Scope R_scope.

(** The square of a number, its gradient, at 3 with step length 2. *)
Definition ex_cost (p : params) : fl := Fin (entry p 0 0 0 ^ 2).
Definition ex_grad (p : params) : params := map (map (map (fun a => 2 * a))) p.
Definition ex_conf : gd_conf := mkConf 1 (1/5) (13/10) [mkGroup (Some 2) None None].
Definition ex_state : gd_state := mkGd [[[3]]] (gd_reset ex_conf) 0.

Lemma ex_consistent : gd_consistent ex_conf ex_grad ex_state.
Proof. repeat split; reflexivity. Qed.

Lemma ex_step : exists st', gd_step ex_conf ex_cost ex_grad 2 ex_state = Some st' /\
  entry (gd_params st') 0 0 0 = 3 / 5 /\ nth 0 (gd_steps st') 0 = 2 / 5.
Proof.
  unfold gd_step, ex_state, ex_cost. cbn -[Rltb Reqb pow].
  assert (Rltb ((3 - 2 * (2 * 3)) ^ 2) (3 ^ 2) = false) as -> by (apply Rltb_false; lra).
  assert (Reqb ((3 - 2 * (2 * 3)) ^ 2) (3 ^ 2) = false) as ->.
  { destruct (Reqb _ _) eqn:E; [|reflexivity]. apply Reqb_true in E. lra. }
  assert (Rltb ((3 - 1 / 5 * 2 * (2 * 3)) ^ 2) (3 ^ 2) = true) as -> by (apply Rltb_true; lra).
  eexists. split; [reflexivity|]. cbn. split; lra.
Qed.

Lemma ex_differentiable : differentiable_at ex_cost (gd_params ex_state) 9 (ex_grad (gd_params ex_state)).
Proof.
  split; [unfold ex_cost; cbn; f_equal; lra|]. split; [reflexivity|].
  intros eps He. exists eps. split; [exact He|]. intros y Hy Hd.
  assert (exists b, y = [[[b]]]) as [b ->].
  { unfold same_shape in Hy. cbn in Hy. destruct y as [|g [|? ?]]; try discriminate. injection Hy as Hy.
    destruct g as [|t [|? ?]]; try discriminate. injection Hy as Hy. destruct t as [|b [|? ?]]; try discriminate. eauto. }
  exists (b ^ 2). split; [reflexivity|]. unfold dist1, pairing, flat_params in *. cbn in *.
  rewrite Rplus_0_r in *. rewrite Rplus_0_r.
  replace (b * (b * 1) - 9 - 2 * 3 * (b - 3)) with ((b - 3) * (b - 3)) by ring. rewrite Rabs_mult.
  apply Rmult_le_compat_r; [apply Rabs_pos|lra].
Qed.

Lemma ex_steps_pos : forall g, (g < length (gd_params ex_state))%nat ->
  0 < gam1 ex_conf g < 1 /\ 0 < nth g (gd_steps ex_state) 0.
Proof. intros [|g] H; [|cbn in H; lia]. cbn. lra. Qed.

Lemma ex_torch : exists outs R, torch_optimize outs 10 (Some 0) 0 = (Ok R, 2%nat) /\ r_success R = true /\
  (forall i, total_after outs i = Fin ((fun _ => 5) i)).
Proof.
  exists (fun i => (Fin 5, S i)). unfold torch_optimize. cbn [torch_loop isnan].
  change (fle (fdiv (fsub PInf (Fin 5)) (fmax (fmax (Fin 5) PInf) (Fin 1))) (Fin 0)) with false. cbn [andb].
  assert (fle (fdiv (fsub (Fin 5) (Fin 5)) (fmax (fmax (Fin 5) (Fin 5)) (Fin 1))) (Fin 0) = true) as ->.
  { apply converged_fin. lra. }
  cbn [andb Nat.leb]. eexists. split; [reflexivity|]. split; reflexivity.
Qed.

Lemma ex_pack : Forall well_formed [mkP [2%nat; 1%nat] [1; 2] true; mkP [] [7] true] /\
  model_to_numpy [mkP [2%nat; 1%nat] [1; 2] true; mkP [] [7] true] = Ok [1; 2; 7].
Proof. split; [repeat constructor|reflexivity]. Qed.
