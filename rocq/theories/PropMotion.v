(** Property theorems about translated scenes (C70, C71). *)
From Coq Require Import Reals String List Arith Lia Lra.
From Verif Require Import Py RSum Tensor TensorFacts KernelModel FieldModel GeometryModel ModuleModel ShootingModel
  SpecModule SpecShooting SpecMotion ModuleMain ModuleRegular ModuleHistory SolverExists PropModule ShootingPack ShootingDyn ShootingEuler ShootingTotal ShootingExample
  MotionFacts MotionShoot MotionExample.
Import ListNotations.
Open Scope R_scope.

(** ** C70 *)

(** The field a manifold generates from its moments, in the moved scene. *)
Theorem C70_fields : forall d v g sigma b b0,
  same_result (fun f f' => forall points k, feval f' (shift (vec d v) points) k = feval f points k)
    (cot_to_vs g sigma b b0) (cot_to_vs (moved (vec d v) g) sigma b b0).
Proof.
  intros d v g sigma b b0. rewrite (cot_to_vs_moved (vec d v)). destruct (cot_to_vs g sigma b b0) as [f|e]; [|exact eq_refl].
  intros points k. apply feval_moved.
Qed.
Print Assumptions C70_fields.

(** The velocities that a field gives to the descriptors of a manifold. *)
Theorem C70_action : forall d v g f f', ordinary_man g ->
  (forall points k, feval f' (shift (vec d v) points) k = feval f points k) ->
  infinitesimal_action (moved (vec d v) g) (feval f') = infinitesimal_action g (feval f) /\
  inner_prod_field (moved (vec d v) g) (feval f') = inner_prod_field g (feval f).
Proof.
  intros d v g f f' O H. split; [apply infinitesimal_action_moved|apply inner_prod_field_moved]; assumption.
Qed.
Print Assumptions C70_action.

(** Giving controls to a module: in the moved scene, the same controls have the same cost and
    give the same velocities at the moved points (or the same exception is raised). *)
Theorem C70_given_controls : forall sv d v m x, follows d (vec d v) m ->
  exists m1, set_manifold m (moved (vec d v) (mod_manifold m)) = Ok m1 /\
    same_result (same_in_moved_scene (vec d v)) (fill_controls sv m x) (fill_controls sv m1 x).
Proof.
  intros sv d v m x F. exists (moved_mod (vec d v) m). split; [apply set_manifold_moved|]. rewrite fill_controls_moved.
  destruct (fill_controls sv m x) as [m'|e] eqn:E; [|exact eq_refl]. apply (moved_same_scene d); [apply vec_periodic|].
  exact (follows_fill d _ sv m x m' F E).
Qed.
Print Assumptions C70_given_controls.

(** Geodesic controls: the moved module has the same geodesic controls, the same cost and
    Hamiltonian, and the same velocities at the moved points. *)
Theorem C70_geodesic_controls : forall sv b0 d v m, follows d (vec d v) m ->
  exists m1, set_manifold m (moved (vec d v) (mod_manifold m)) = Ok m1 /\
    same_result (same_in_moved_scene (vec d v)) (geodesic_controls sv b0 m) (geodesic_controls sv b0 m1).
Proof.
  intros sv b0 d v m F. exists (moved_mod (vec d v) m). split; [apply set_manifold_moved|]. unfold geodesic_controls.
  rewrite mod_manifold_moved, (geodesic_moved d (vec d v) (vec_periodic d v)); [|exact (follows_ordinary _ _ _ F)|exact F].
  destruct (compute_geodesic_control sv b0 m (mod_manifold m)) as [m'|e] eqn:E; [|exact eq_refl].
  apply (moved_same_scene d); [apply vec_periodic|]. exact (follows_geodesic d _ sv b0 _ m m' F E).
Qed.
Print Assumptions C70_geodesic_controls.

(** The local modules of the library follow translations. *)
Theorem C70_local_modules : forall d v dim sigma coeff gd cotan,
  follows d (vec d v) (LocalScaling dim sigma coeff gd cotan) /\ follows d (vec d v) (LocalRotation dim sigma coeff gd cotan).
Proof. intros. split; [apply scaling_follows|apply rotation_follows]. Qed.
Print Assumptions C70_local_modules.

(** A closure that ignores the descriptors does not. *)
Definition anchored : dmod :=
  MLocal 1 1 (fun _ => Ok (tzeros [1%nat; 1%nat])) (fun _ => Ok (mk2 1 1 (fun _ _ => 1))) 1 1 (tzeros [1%nat; 1%nat]) (tzeros [1%nat; 1%nat]) (mk0 0).
Theorem C70_anchored_closures_refuted : forall sv, exists m1 a b,
  set_manifold anchored (moved (vec 1 (fun _ => 1)) (mod_manifold anchored)) = Ok m1 /\
  fill_controls sv anchored (CLeaf (mk0 1)) = Ok a /\ fill_controls sv m1 (CLeaf (mk0 1)) = Ok b /\
  ~ same_in_moved_scene (vec 1 (fun _ => 1)) a b.
Proof.
  intros sv. do 3 eexists. split; [reflexivity|]. split; [reflexivity|]. split; [reflexivity|]. intros (_ & _ & _ & _ & H).
  specialize (H (tzeros [1%nat; 1%nat]) 0%nat). unfold velocity in H. cbn in H.
  pose proof (f_equal (fun r : res tensor => match r with Ok t => t @2 0%nat 0%nat | Err _ => 0 end) H) as Q. clear H. cbn in Q.
  match type of Q with 0 + exp ?A * (1 * 1) = 0 + exp ?B * (1 * 1) => assert (E : exp A = exp B) by lra end.
  apply exp_inv in E. unfold vec in E. cbn in E. lra.
Qed.
Print Assumptions C70_anchored_closures_refuted.

Lemma ex_all_follows v : follows 2 (vec 2 v) ex_all.
Proof. cbn. tauto. Qed.
Lemma ex_geo_follows v : follows 2 (vec 2 v) ex_geo.
Proof. cbn. tauto. Qed.

Example C70_hypotheses : forall v, follows 2 (vec 2 v) ex_all /\ ordinary_man (mod_manifold ex_all) /\
  (exists m', fill_controls exact_sv ex_all (controls ex_all) = Ok m') /\
  (exists m', geodesic_controls exact_sv Torch ex_geo = Ok m') /\ follows 2 (vec 2 v) ex_geo.
Proof.
  intros v. split; [apply ex_all_follows|]. split; [exact (follows_ordinary _ _ _ (ex_all_follows v))|].
  split; [|split; [|apply ex_geo_follows]].
  - exact (fill_regular exact_sv 2 exact_sv_exact ex_all _ ex_all_wf ex_all_regular ex_all_ctrl).
  - destruct (wf_mod_manifold 2 ex_geo ex_geo_wf) as (WG & NE).
    exact (geo_regular exact_sv Torch 2 exact_sv_exact ex_geo _ ex_geo_wf ex_geo_regular WG NE (fun _ => ex_geo_nodir)).
Qed.

(** ** C71 *)
Theorem C71_shooting_commutes_with_translations : forall ck others sv b0 ag it t1 cs keep costs0 d v m,
  follows d (vec d v) m -> translation_natural (vec d v) ag ->
  exists m1, set_manifold m (moved (vec d v) (mod_manifold m)) = Ok m1 /\
    same_result (same_shot_in_moved_scene (vec d v))
      (shoot ck others sv b0 ag "torch_euler" it t1 cs keep costs0 m)
      (shoot ck others sv b0 ag "torch_euler" it t1 cs keep costs0 m1).
Proof.
  intros ck others sv b0 ag it t1 cs keep costs0 d v m F N. exists (moved_mod (vec d v) m). split; [apply set_manifold_moved|].
  apply (shoot_euler_moved d (vec d v) (vec_periodic d v)); assumption.
Qed.
Print Assumptions C71_shooting_commutes_with_translations.

Lemma ex_total_std sv b0 m : frozen m = frozen ex0 -> skel (mod_manifold m) = skel (mod_manifold ex0) ->
  map shape (g_gd (mod_manifold m)) = map shape (g_gd (mod_manifold ex0)) -> map shape (g_cotan (mod_manifold m)) = map shape (g_gd (mod_manifold ex0)) ->
  exists m2, geodesic_controls sv b0 m = Ok m2 /\ is_ok (std_ag (ham_of m2 (geodesic_controls sv b0)) (phase (mod_manifold m2))).
Proof.
  intros F K A B. destruct (ex_frozen m F A B K) as (q & p & h & -> & Sq & Sp & Sh). destruct (ex_geo_ok sv b0 q p h Sq Sp Sh) as (h' & Sh' & E & _ & C).
  exists (ex_mod q p h'). split; [assumption|]. apply std_ok. exists [None; Some p]. apply ex_gradient; assumption.
Qed.

Example C71_hypotheses : forall ck others sv b0 it t1 v, (0 < it)%nat ->
  follows 1 (vec 1 v) ex0 /\ translation_natural (vec 1 v) std_ag /\ exact_grad std_ag /\
  exists sh, shoot ck others sv b0 std_ag "torch_euler" it t1 None false None ex0 = Ok sh.
Proof.
  intros ck others sv b0 it t1 v IT. split; [cbn; tauto|]. split; [apply std_natural|]. split; [exact std_exact|].
  apply euler_total; [exact std_exact| |assumption|reflexivity]. intros m F K A B. exact (ex_total_std sv b0 m F K A B).
Qed.
