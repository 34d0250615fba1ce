(** A concrete history where an implicit module answers for a previous
    geometrical descriptor. *)
From Coq Require Import Reals String List Arith Lia Lra.
From Verif Require Import Py RSum Tensor TensorFacts KernelModel FieldModel GeometryModel ModuleModel
  SpecLinAlg SpecKernel SpecField SpecGeometry SpecSKS SpecModule SpecHistory LinAlg KernelFacts FieldFacts GeometryFacts SKSFacts
  GaussPSD ModuleDual ModuleAlg ModuleLeaves ModuleImplicit ModuleMain ModuleRegular ModuleStrain.
Import ListNotations.
Open Scope R_scope.

(** Two value points on a line, at the same place and then at distance 1. *)
Definition st_A : tensor := tzeros [2; 1]%nat.
Definition st_B : tensor := mk2 2 1 (fun i _ => INR i).
Definition st_ct : tensor := tzeros [2; 1]%nat.
Definition st_h : tensor := mk2 2 1 (fun _ _ => 1).
Definition st_mod : dmod := MDivFree 1 1 1 1 1 0 2 st_A st_ct (tzeros [2; 1]%nat) None.
Definition st_manB : gman := GLm 1 2 st_B st_ct.
(** fill_controls, then fill_gd. *)
Definition st_ops1 : list mop := [OpFill (CLeaf st_h); OpManifold st_manB].
(** fill_gd, then fill_controls. *)
Definition st_ops2 : list mop := [OpManifold st_manB; OpFill (CLeaf st_h)].

Section Stale.
  Variable sv : solver.
  Hypothesis HSV : exact_solver sv.

  Definition st_k (gd : tensor) : R := gaussian 1 1 (vsub (vrow gd 0) (vrow gd 1)).

  Lemma st_gauss0 z : z 0%nat = 0 -> gaussian 1 1 z = 1.
  Proof. intros H. unfold gaussian, sqn. rewrite rsum_S, rsum_0, H. replace (- (0 + 0 ^ 2) / (2 * 1 ^ 2)) with 0 by field. apply exp_0. Qed.

  Lemma st_solve gd : shape gd = [2; 1]%nat -> exists l, div_moments sv 1 1 1 1 0 gd st_h = Ok l /\ shape l = [2%nat] /\
    l @1 0%nat = 1 / (2 + st_k gd) /\ l @1 1%nat = 1 / (2 + st_k gd).
  Proof.
    intros Sg. destruct (div_sks_ok 1 1 1 1 0 2 gd ltac:(lra) Sg) as (S & ES & SS & GS). cbn in SS.
    set (M := fun q q' => bmatrix 1 1 0 (e_div 1) 1 1 (vrow gd) q q' + 1 * delta q q') in *.
    assert (K0 : 0 < st_k gd) by apply exp_pos.
    assert (M00 : M 0%nat 0%nat = 2).
    { unfold M. pose proof (bm_22 1 1 0 (e_div 1) 1 1 (vrow gd) 0 0 0 0 ltac:(lia) ltac:(lia)) as E. cbn [Nat.mul Nat.add] in E. rewrite E.
      rewrite st_gauss0, !delta_same by (unfold vsub; ring). ring. }
    assert (M11 : M 1%nat 1%nat = 2).
    { unfold M. pose proof (bm_22 1 1 0 (e_div 1) 1 1 (vrow gd) 1 0 1 0 ltac:(lia) ltac:(lia)) as E. cbn [Nat.mul Nat.add] in E. rewrite E.
      rewrite st_gauss0, !delta_same by (unfold vsub; ring). ring. }
    assert (M01 : M 0%nat 1%nat = st_k gd).
    { unfold M. pose proof (bm_22 1 1 0 (e_div 1) 1 1 (vrow gd) 0 0 1 0 ltac:(lia) ltac:(lia)) as E. cbn [Nat.mul Nat.add] in E. rewrite E.
      rewrite delta_same, (delta_diff 0 1) by lia. unfold st_k. cbn [Nat.add]. ring. }
    assert (M10 : M 1%nat 0%nat = st_k gd).
    { rewrite <- M01. unfold M. rewrite (bm_sym 1 1 0 2 (e_div 1) 1 1 (vrow gd) 1%nat 0%nat) by (cbn; lia). rewrite delta_sym. reflexivity. }
    assert (K1 : st_k gd <= 1).
    { unfold st_k, gaussian. set (z := vsub (vrow gd 0) (vrow gd 1)).
      assert (H : 0 <= sqn 1 z) by (unfold sqn; apply rsum_nonneg; intros; apply pow2_ge_0).
      apply (Rle_trans _ (exp 0)); [|rewrite exp_0; lra].
      destruct (Rle_lt_or_eq_dec _ _ H) as [L|E]; [left; apply exp_increasing; lra|rewrite <- E; right; f_equal; field]. }
    assert (HN : nonsingular 2 M).
    { intros y Hy. pose proof (Hy 0%nat ltac:(lia)) as E0. pose proof (Hy 1%nat ltac:(lia)) as E1'.
      rewrite !rsum_S, rsum_0 in E0, E1'. rewrite M00, M01 in E0. rewrite M10, M11 in E1'.
      set (k := st_k gd) in *.
      assert (Z : forall u v, 2 * u + k * v = 0 -> k * u + 2 * v = 0 -> u = 0).
      { intros u v Hu Hv. assert (H : (4 - k * k) * u = 0) by (replace ((4 - k * k) * u) with (2 * (2 * u + k * v) - k * (k * u + 2 * v)) by ring; rewrite Hu, Hv; ring).
        apply Rmult_integral in H. destruct H as [H|H]; [nra|assumption]. }
      intros j Hj. destruct j as [|[|j]]; [| |lia]; [apply (Z (y 0%nat) (y 1%nat)); lra|apply (Z (y 1%nat) (y 0%nat)); lra]. }
    assert (SP : shape (pad_controls 0 st_h) = [2%nat]) by reflexivity.
    destruct (solver_total sv 2 S (pad_controls 0 st_h) M HSV SS (or_introl SP) GS HN) as (l & El).
    destruct (solver_vec sv 2 S _ l M HSV SS SP El GS) as (_ & Sl & HL).
    exists l. unfold div_moments. rewrite ES. cbn [bind]. split; [assumption|]. split; [assumption|].
    assert (H : forall k, (k < 2)%nat -> l @1 k = 1 / (2 + st_k gd)).
    { apply (solves_unique 2 M (fun k => l @1 k) (fun _ => 1 / (2 + st_k gd)) (fun k => (pad_controls 0 st_h) @1 k) HN HL).
      intros i Hi. rewrite !rsum_S, rsum_0. destruct i as [|[|i]]; [| |lia].
      - rewrite M00, M01. rewrite pad_controls_get. cbn. field. lra.
      - rewrite M10, M11. rewrite pad_controls_get. cbn. field. lra. }
    split; apply H; lia.
  Qed.

  Lemma st_kA : st_k st_A = 1.
  Proof. unfold st_k. apply st_gauss0. unfold vsub, vrow, st_A. cbn. ring. Qed.

  Lemma st_kB : 0 < st_k st_B < 1.
  Proof.
    unfold st_k, gaussian. split; [apply exp_pos|]. apply (Rlt_le_trans _ (exp 0)); [|rewrite exp_0; lra]. apply exp_increasing. unfold sqn, vsub, vrow, st_B.
    rewrite rsum_S, rsum_0. cbn. lra.
  Qed.

  Lemma st_cost l c : shape l = [2%nat] -> l @1 0%nat = c -> l @1 1%nat = c -> (1 / 2) * 1 * tdot (pad_controls 0 st_h) l = c.
  Proof.
    intros Sl H0 H1. rewrite (tdot_1 _ _ 2) by (reflexivity || assumption). rewrite !rsum_S, rsum_0, H0, H1, !pad_controls_get. cbn. field.
  Qed.

  Lemma st_field l c : shape l = [2%nat] -> l @1 0%nat = c -> l @1 1%nat = c ->
    exists f V, div_field 1 1 0 st_B l = Ok f /\ feval f st_B 0 = Ok V /\ V @2 0%nat 0%nat = c * (1 + st_k st_B).
  Proof.
    intros Sl H0 H1. destruct (div_field_b 1 1 1 0 2 st_B l ltac:(lra) eq_refl Sl) as (f & Ef & G & FV & _).
    destruct (feval_strain 1 f st_B 2 G eq_refl) as (V & _ & EV & SV & _ & _ & GV & _).
    exists f, V. split; [assumption|]. split; [assumption|]. rewrite GV, FV by lia.
    unfold b_field. cbn [fval fold_right].
    replace (nrows (last_rows 0 st_B)) with 2%nat by reflexivity. replace (nrows (first_rows 0 st_B)) with 0%nat by reflexivity.
    rewrite !rsum_S, rsum_0.
    change (vrow (last_rows 0 st_B) 0) with (vrow st_B 0). change (vrow (last_rows 0 st_B) 1) with (vrow st_B 1). fold (st_k st_B).
    rewrite st_gauss0 by (unfold vsub; ring). unfold mk2. cbn [get Nat.mul Nat.add]. rewrite H0, H1. rewrite rsum_0. ring.
  Qed.

  Theorem stale_history : exists m1 m2 x1 x2 f1 f2 V1 V2,
    run_ops sv Torch st_mod st_ops1 = Ok m1 /\ run_ops sv Torch st_mod st_ops2 = Ok m2 /\
    mod_manifold m1 = mod_manifold m2 /\ controls m1 = controls m2 /\
    cost m1 = Ok x1 /\ cost m2 = Ok x2 /\ x1 < x2 /\
    field_generator m1 = Ok f1 /\ field_generator m2 = Ok f2 /\
    feval f1 st_B 0 = Ok V1 /\ feval f2 st_B 0 = Ok V2 /\ V1 @2 0%nat 0%nat < V2 @2 0%nat 0%nat.
  Proof.
    destruct (st_solve st_A eq_refl) as (l1 & E1' & S1 & A0 & A1). destruct (st_solve st_B eq_refl) as (l2 & E2' & S2 & B0 & B1).
    rewrite st_kA in A0, A1. pose proof st_kB as K.
    destruct (st_field l1 _ S1 A0 A1) as (f1 & V1 & F1 & EV1 & HV1). destruct (st_field l2 _ S2 B0 B1) as (f2 & V2 & F2 & EV2 & HV2).
    assert (LT : 1 / (2 + 1) < 1 / (2 + st_k st_B)).
    { apply Rmult_lt_compat_l; [lra|]. apply Rinv_lt_contravar; nra. }
    exists (MDivFree 1 1 1 1 1 0 2 st_B st_ct st_h (Some l1)), (MDivFree 1 1 1 1 1 0 2 st_B st_ct st_h (Some l2)),
      (1 / (2 + 1)), (1 / (2 + st_k st_B)), f1, f2, V1, V2.
    unfold run_ops, st_ops1, st_ops2, st_mod. cbn [fold_left bind run_op fill_controls set_manifold st_manB]. rewrite E1', E2'. cbn [bind].
    split; [reflexivity|]. split; [reflexivity|]. split; [reflexivity|]. split; [reflexivity|].
    cbn [cost field_generator]. split; [f_equal; apply st_cost; assumption|]. split; [f_equal; apply st_cost; assumption|].
    split; [assumption|]. split; [assumption|]. split; [assumption|]. split; [assumption|]. split; [assumption|].
    rewrite HV1, HV2. apply Rmult_lt_compat_r; [lra|assumption].
  Qed.
End Stale.
