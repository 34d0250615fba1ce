(** Assigning the initial manifold of a registration model (C30, continued). *)
From Coq Require Import Reals String List Arith ZArith Lia Lra.
From Verif Require Import Py RSum Tensor KernelModel FieldModel GeometryModel ModuleModel ShootingModel
  RegistrationModel SpecModule SpecHistory SpecShooting SpecRegistration ModuleMain ModuleLeaves ShootingDyn ShootingExample RegistrationRun RegistrationHeap RegistrationParams RegistrationLife PropRegistration.
Import ListNotations.
Open Scope string_scope.
Open Scope list_scope.
Open Scope R_scope.

(** After [model.init_manifold = init] the parameters are the tensors of the new manifold
    (the moments are the very tensors of init), the values are those of init, the descriptors
    selected by True record gradients, nothing else of the model changes.  The moments record
    gradients only if the caller's did: unlike the constructor, the assignment does not ask
    for it. *)
Theorem C30_filled_initial_manifold : forall h r init h1 r1,
  NoDup (map fst (r_other r)) -> Forall (exists_in h) (flat_map man_refs init) -> length init = (length (r_defs r) + length (r_mods r))%nat ->
  fill_init_manifold h r init = Ok (h1, r1) ->
  (forall k, dict_get (r_params r1) k = expected r1 k) /\
  init_cotan r1 = flat_map om_cotan init /\ map (man_value h1) (r_init r1) = map (man_value h) init /\
  Forall (records h1) (selected_whole (r_fit_gd r1) (modules_init r1)) /\
  (forall k, In k (init_cotan r1) -> (records h1 k <-> records h k)) /\
  r_defs r1 = r_defs r /\ r_mods r1 = r_mods r /\ r_att r1 = r_att r /\ r_lam r1 = r_lam r /\ r_reduce r1 = r_reduce r /\
  r_fit_gd r1 = r_fit_gd r /\ r_fit_controls r1 = r_fit_controls r /\ r_it r1 = r_it r /\ r_ctrls r1 = r_ctrls r /\ r_other r1 = r_other r.
Proof.
  intros h r init h' r' ND EI LE E. unfold fill_init_manifold, compute_parameters in E. cbn [r_init r_defs r_fit_gd r_fit_controls r_ctrls r_other set_init] in E.
  bok E y HE1. destruct y as ((h1 & init1) & d1). injection E as <- <-. set (n := length (r_defs r)) in *.
  assert (H : relabel h h1 (flat init) (flat init1) /\ cut_as init init1 /\ map om_cotan init1 = map om_cotan init /\
    Forall (fun k => flag h1 k = true) (selected_whole (r_fit_gd r) (skipn n init1)) /\
    d1 = [("cotan", flat_map om_cotan init)] ++ (match r_fit_gd r with [] => [] | _ => [("gd", selected (r_fit_gd r) (skipn n init1))] end)).
  { destruct (r_fit_gd r) as [|f0 fits0] eqn:Ef.
    - injection HE1 as <- <- <-. split; [apply relabel_refl; exact EI|]. split; [clear; induction init; constructor; auto|]. repeat split. constructor.
    - rewrite <- Ef in *. clear Ef f0 fits0. bok HE1 y HE2. destruct y as ((h2 & ms2) & ps). injection HE1 as <- <- <-.
      assert (EF : firstn n init ++ skipn n init = init) by apply firstn_skipn.
      change (Forall (exists_in h) (flat init)) in EI. rewrite <- EF, flat_app in EI. apply Forall_app in EI. destruct EI as (EI1 & EI2).
      destruct (gd_params_ok _ _ _ _ _ _ EI2 HE2) as (R & C & G & EP & S & T & I1 & I2).
      assert (L1 : length (firstn n init) = n) by (rewrite firstn_length; lia).
      assert (SK : skipn n (firstn n init ++ ms2) = ms2).
      { rewrite skipn_app, L1, Nat.sub_diag. rewrite skipn_all2 by lia. reflexivity. }
      rewrite SK. split; [|split; [|split; [|split; [exact T|]]]].
      + rewrite <- EF at 1. rewrite !flat_app. apply (relabel_app h h h2); [exact EI2|apply relabel_refl; exact EI1|exact R].
      + rewrite <- EF at 1. apply Forall2_app; [clear; induction (firstn n init); constructor; auto|exact C].
      + rewrite <- EF at 2. rewrite !map_app, G. reflexivity.
      + rewrite EP. reflexivity. }
  destruct H as (R & C & G & T & ->). assert (FC : flat_map om_cotan init1 = flat_map om_cotan init) by (rewrite !flat_map_concat_map, G; reflexivity).
  unfold init_cotan, modules_init. cbn [r_init r_defs r_mods r_att r_lam r_reduce r_fit_gd r_fit_controls r_it r_ctrls r_other r_params set_init set_parameters]. fold n.
  split; [|split; [exact FC|split; [|split; [exact T|split; [|repeat split]]]]].
  - intros k. rewrite (dict_get_update _ ND). unfold expected, init_cotan, modules_init. cbn [r_init r_defs r_mods r_att r_lam r_reduce r_fit_gd r_fit_controls r_it r_ctrls r_other r_params set_init set_parameters]. fold n.
    rewrite FC. destruct (dict_get (r_other r) k); [reflexivity|].
    rewrite (String.eqb_sym k "cotan"), (String.eqb_sym k "gd"), (String.eqb_sym k "controls").
    destruct (r_fit_gd r), (r_fit_controls r); cbn [app dict_get]; destruct ("cotan" =? k)%string; try reflexivity; destruct ("gd" =? k)%string eqn:Eg; try reflexivity;
      destruct ("controls" =? k)%string eqn:Ec; try reflexivity.
    all: apply String.eqb_eq in Eg; apply String.eqb_eq in Ec; congruence.
  - apply corresp_value, cut_corresp; [exact C|]. exact (relabel_deref _ _ _ _ R EI).
  - intros k I. rewrite FC in I. pose proof (flat_in_cotan _ _ I) as J. change (Forall (exists_in h) (flat init)) in EI. rewrite Forall_forall in EI.
    assert (X : flag h1 k = flag h k) by (apply ext_flag; [apply R|auto]). unfold records. change (flag h1 k = true <-> flag h k = true). rewrite X. tauto.
Qed.
Print Assumptions C30_filled_initial_manifold.

(** A finding: the model of the C30 example, given back the clones of its own initial
    manifold, has moments among its parameters that record no gradient. *)
Definition ex_given : heap * list oman := clone_mans (fst ex_state) [GLm 1 1 one11 one11; GLm 1 1 one11 one11; GLm 1 1 one11 one11].
Theorem C30_filled_moments_record_refuted : exists h0 h r init h1 r1 k,
  ex_model true = Ok (h0, r) /\ Forall (exists_in h) (flat_map man_refs init) /\ length init = (length (r_defs r) + length (r_mods r))%nat /\
  NoDup (map fst (r_other r)) /\ fill_init_manifold h r init = Ok (h1, r1) /\
  (exists ps, dict_get (r_params r1) "cotan" = Some ps /\ In k ps) /\ ~ records h1 k.
Proof.
  pose (i := snd ex_given).
  assert (F : exists p, fill_init_manifold (fst ex_given) (snd ex_state) i = Ok p) by (eexists; vm_compute; reflexivity).
  destruct F as ((h1 & r1) & F).
  exists (fst ex_state), (fst ex_given), (snd ex_state), i, h1, r1, (hd 0%nat (flat_map om_cotan i)). split; [exact ex_state_ok|].
  assert (EX : Forall (exists_in (fst ex_given)) (flat_map man_refs i)) by (cbn; unfold exists_in; cbn; repeat constructor; lia).
  split; [exact EX|]. split; [reflexivity|]. split; [constructor|]. split; [exact F|].
  destruct (C30_filled_initial_manifold (fst ex_given) (snd ex_state) i h1 r1 ltac:(constructor) EX eq_refl F) as (P & C & _ & _ & RE & _ & _ & _ & _ & _ & _ & _ & _ & _ & EO).
  assert (I : In (hd 0%nat (flat_map om_cotan i)) (init_cotan r1)) by (rewrite C; cbn; auto).
  split.
  - exists (init_cotan r1). split; [|exact I]. rewrite P. unfold expected. rewrite EO. reflexivity.
  - rewrite (RE _ I). cbn. discriminate.
Qed.
Print Assumptions C30_filled_moments_record_refuted.
