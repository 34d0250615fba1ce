(** Property theorems about the differentiability of the Hamiltonian (C81) and about
    shooting that never fails (C82), with their consequences for C72 and C80. *)
From Coq Require Import Reals String List Arith Lia Lra FunctionalExtensionality.
From Verif Require Import Py RSum Tensor TensorFacts KernelModel FieldModel GeometryModel ModuleModel ShootingModel
  SpecLinAlg SpecKernel SpecField SpecGeometry SpecModule SpecShooting SpecMotion SpecTransport SpecRigid SpecSmooth
  ShootingPack ShootingInst GeometryFacts ModuleAlg ModuleLeaves ModuleMain ModuleRegular ModuleHistory ModulePosed ShootingDyn ShootingEuler ShootingTotal ShootingFinal
  MotionFacts MotionShoot MotionMomentum MotionExample TransportFacts SolverExists PropModule PropShooting PropMomentum PropRigid DiffBuild SmoothRun.
Import ListNotations.
Open Scope R_scope.

(** ** C81 *)

(** With the geodesic controls of each configuration, the Hamiltonian is a differentiable
    function of the descriptors and the moments wherever it can be computed. *)
Theorem C81_geodesic : forall sv b0 d m,
  exact_solver sv -> wf_mod d m -> locals_smooth d m ->
  smooth_on (map shape (phase (mod_manifold m))) (ham_of m (geodesic_controls sv b0)).
Proof. intros sv b0 d m HS. exact (smooth_geodesic sv b0 d HS m). Qed.
Print Assumptions C81_geodesic.

(** The same with given controls. *)
Theorem C81_given : forall sv d m c,
  exact_solver sv -> wf_mod d m -> locals_smooth d m -> ctrl_ok d m c ->
  smooth_on (map shape (phase (mod_manifold m))) (ham_of m (fun m => fill_controls sv m c)).
Proof. intros sv d m c HS. exact (smooth_given sv d HS m c). Qed.
Print Assumptions C81_given.

(** Each step of a shooting. *)
Theorem C81_steps : forall sv b0 d m cs i,
  exact_solver sv -> wf_mod d m -> locals_smooth d m -> (forall l c, cs = Some l -> In c l -> ctrl_ok d m c) ->
  smooth_on (map shape (phase (mod_manifold m))) (ham_of m (step_controls sv b0 cs i)).
Proof. intros sv b0 d m cs i HS. exact (smooth_step sv b0 d HS m cs i). Qed.
Print Assumptions C81_steps.

(** Not only on lines: along any differentiable curve of descriptors and moments. *)
Theorem C81_along_curves : forall sv b0 d m cs i,
  exact_solver sv -> wf_mod d m -> locals_smooth d m -> (forall l c, cs = Some l -> In c l -> ctrl_ok d m c) ->
  smooth_along (map shape (phase (mod_manifold m))) (ham_of m (step_controls sv b0 cs i)).
Proof. intros sv b0 d m cs i HS. exact (along_step sv b0 d HS m cs i). Qed.
Print Assumptions C81_along_curves.

(** The two local modules that the library defines have smooth supports and vectors. *)
Lemma affine_closure f sh sh' (F : tensor -> tensor) (J : list nat -> tensor) : (forall t, shape t = sh -> f t = Ok (F t) /\ shape (F t) = sh') ->
  (forall idx, shape (J idx) = sh) ->
  (forall idx t v s, valid sh' idx -> shape t = sh -> shape v = sh -> get (F (tadd t (tscal s v))) idx = get (F t) idx + s * tdot (J idx) v) ->
  forall t, shape t = sh -> closure_differentiable f t sh'.
Proof.
  intros H1 SJ HJ t St. exists J. split; [intros; rewrite SJ; congruence|]. intros c v (C0 & CS & Sv & CD). exists 1, (fun s => F (c s)). split; [lra|]. split.
  - intros s _. apply H1. rewrite CS. exact St.
  - intros idx V.
    assert (E : forall s, get (F (c s)) idx = get (F t) idx + sum_idx sh (fun k => get (J idx) k * (get (c s) k - get t k))).
    { intros s. assert (Z : c s = tadd t (tscal 1 (tsub (c s) t))).
      { rewrite <- (tensor_eta (c s)) at 1. rewrite CS. unfold tadd, tmap2. apply mkT_ext. intros k. cbn. ring. }
      rewrite Z at 1. rewrite (HJ idx t (tsub (c s) t) 1 V St) by (cbn; rewrite CS; exact St). rewrite tdot_sum by (rewrite SJ; cbn; rewrite CS; congruence).
      rewrite SJ, Rmult_1_l. reflexivity. }
    replace (fun s => get (F (c s)) idx) with (fun s => get (F t) idx + sum_idx sh (fun k => get (J idx) k * (get (c s) k - get t k))) by (apply functional_extensionality; intros s; symmetry; apply E).
    rewrite tdot_sum by (rewrite SJ; congruence). rewrite SJ. rewrite <- (Rplus_0_l (sum_idx _ _)).
    apply (derivable_pt_lim_plus (fun _ => get (F t) idx) (fun s => sum_idx sh (fun k => get (J idx) k * (get (c s) k - get t k)))); [apply derivable_pt_lim_const|].
    apply sum_idx_derivative. intros k Hk. rewrite <- St in Hk. specialize (CD k Hk).
    replace (get (J idx) k * get v k) with (get (J idx) k * (get v k - 0)) by ring.
    apply (derivable_pt_lim_scal (fun s => get (c s) k - get t k)). apply (derivable_pt_lim_minus (fun s => get (c s) k) (fun _ => get t k)); [exact CD|apply derivable_pt_lim_const].
Qed.
Lemma constant_closure c t : closure_differentiable (fun _ => Ok c) t (shape c).
Proof.
  apply (affine_closure _ (shape t) (shape c) (fun _ => c) (fun _ => tzeros (shape t))); try reflexivity.
  - intros; split; reflexivity.
  - intros idx t0 v s _ _ Sv. rewrite tdot_sum by (cbn; congruence). cbn [shape tzeros]. rewrite MotionMomentum.sum_idx_zero by (intros; cbn; ring). ring.
Qed.

Lemma circle_differentiable sg t : shape t = [1%nat; 2%nat] -> closure_differentiable (circle_support sg) t [3%nat; 2%nat].
Proof.
  apply (affine_closure _ [1%nat; 2%nat] [3%nat; 2%nat] (fun t => mk2 3 2 (fun i c => t @2 0%nat c + sg / 3 * circle3 @2 i c))
    (fun idx => mk2 1 2 (fun _ c => if Nat.eqb c (nth 1 idx 0%nat) then 1 else 0))); try reflexivity.
  - intros t0 S0. unfold circle_support. rewrite S0. split; reflexivity.
  - intros idx t0 v s V S0 Sv. destruct idx as [|i [|c [|? ?]]]; try (cbn in V; tauto). cbn in V. rewrite tdot_sum by (cbn; congruence).
    destruct t0 as [s0 t0], v as [s1 v]. cbn [shape] in S0, Sv. subst s0 s1. destruct c as [|[|c]]; [| |lia]; cbn; ring.
Qed.
Lemma rot3_support_differentiable sg t : shape t = [2%nat; 3%nat] -> closure_differentiable (rot3_support sg) t [4%nat; 3%nat].
Proof.
  apply (affine_closure _ [2%nat; 3%nat] [4%nat; 3%nat] (fun t => mk2 4 3 (fun i c => t @2 0%nat c + sg / 3 * tetra @2 i c))
    (fun idx => mk2 2 3 (fun j c => if (Nat.eqb j 0 && Nat.eqb c (nth 1 idx 0%nat))%bool then 1 else 0))); try reflexivity.
  - intros t0 S0. unfold rot3_support. rewrite S0. split; reflexivity.
  - intros idx t0 v s V S0 Sv. destruct idx as [|i [|c [|? ?]]]; try (cbn in V; tauto). cbn in V. rewrite tdot_sum by (cbn; congruence).
    destruct t0 as [s0 t0], v as [s1 v]. cbn [shape] in S0, Sv. subst s0 s1. destruct c as [|[|[|c]]]; [| | |lia]; cbn; ring.
Qed.
Lemma rot3_vectors_differentiable t : shape t = [2%nat; 3%nat] -> closure_differentiable rot3_vectors t [4%nat; 3%nat].
Proof.
  set (F := fun gd : tensor => mk2 4 3 (fun i c =>
        let w c := gd @2 1%nat c - gd @2 0%nat c in
        let t c := tetra @2 i c in
        match c with
        | 0%nat => t 1%nat * w 2%nat - t 2%nat * w 1%nat
        | 1%nat => t 2%nat * w 0%nat - t 0%nat * w 2%nat
        | _ => t 0%nat * w 1%nat - t 1%nat * w 0%nat
        end)).
  apply (affine_closure _ [2%nat; 3%nat] [4%nat; 3%nat] F
    (fun idx => mk2 2 3 (fun j c => (if Nat.eqb j 0 then -1 else 1) *
       let i := nth 0 idx 0%nat in
       match nth 1 idx 0%nat, c with
       | 0%nat, 1%nat => - tetra @2 i 2%nat | 0%nat, 2%nat => tetra @2 i 1%nat
       | 1%nat, 0%nat => tetra @2 i 2%nat | 1%nat, 2%nat => - tetra @2 i 0%nat
       | 2%nat, 0%nat => - tetra @2 i 1%nat | 2%nat, 1%nat => tetra @2 i 0%nat
       | _, _ => 0 end))); try reflexivity.
  - intros t0 S0. unfold rot3_vectors. rewrite S0. split; reflexivity.
  - intros idx t0 v s V S0 Sv. destruct idx as [|i [|c [|? ?]]]; try (cbn in V; tauto). cbn in V. rewrite tdot_sum by (cbn; congruence).
    destruct t0 as [s0 t0], v as [s1 v]. cbn [shape] in S0, Sv. subst s0 s1. unfold F. destruct c as [|[|[|c]]]; [| | |lia]; cbn -[tetra]; ring.
Qed.

Theorem C81_local_modules : forall sg co gd ct,
  locals_smooth 2 (LocalScaling 2 sg co gd ct) /\ locals_smooth 2 (LocalRotation 2 sg co gd ct) /\ locals_smooth 3 (LocalRotation 3 sg co gd ct).
Proof.
  intros sg co gd ct. split; [|split]; cbn [LocalScaling LocalRotation Nat.eqb locals_smooth]; intros t St.
  - exists 3%nat. split; [exact (circle_differentiable sg t St)|exact (constant_closure circle3 t)].
  - exists 3%nat. split; [exact (circle_differentiable sg t St)|exact (constant_closure circle3_tangent t)].
  - exists 4%nat. split; [exact (rot3_support_differentiable sg t St)|exact (rot3_vectors_differentiable t St)].
Qed.
Print Assumptions C81_local_modules.

(** ** Consequences for C72: the linear momentum is conserved by every module *)

Theorem C72_modules_torch_euler : forall ck others sv b0 ag it t1 cs keep costs0 d m sh,
  exact_grad ag -> exact_solver sv -> wf_mod d m -> locals_smooth d m -> (forall v, follows d (vec d v) m) ->
  (forall l c, cs = Some l -> In c l -> ctrl_ok d m c) ->
  shoot ck others sv b0 ag "torch_euler" it t1 cs keep costs0 m = Ok sh ->
  forall a, (a < d)%nat ->
    linear_momentum (mod_manifold (sh_mod sh)) a = linear_momentum (mod_manifold m) a /\
    forall i g, sh_inter sh = Some i -> In g (in_states i) -> linear_momentum g a = linear_momentum (mod_manifold m) a.
Proof.
  intros ck others sv b0 ag it t1 cs keep costs0 d m sh EX HS W LS FO CO.
  exact (C72_torch_euler ck others sv b0 ag it t1 cs keep costs0 d m sh EX (proj1 (wf_mod_manifold d m W)) FO (fun i => C81_steps sv b0 d m cs i HS W LS CO)).
Qed.
Print Assumptions C72_modules_torch_euler.

Theorem C72_modules_fixed_step : forall others sv b0 ag sch it t1 keep costs0 d m sh,
  exact_grad ag -> exact_solver sv -> shootable m -> 0 < t1 -> (0 < it)%nat ->
  wf_mod d m -> locals_smooth d m -> (forall v, follows d (vec d v) m) ->
  shoot real_clock others sv b0 ag (scheme_name sch) it t1 None keep costs0 m = Ok sh ->
  forall a, (a < d)%nat ->
    linear_momentum (mod_manifold (sh_mod sh)) a = linear_momentum (mod_manifold m) a /\
    forall i g, sh_inter sh = Some i -> In g (in_states i) -> linear_momentum g a = linear_momentum (mod_manifold m) a.
Proof.
  intros others sv b0 ag sch it t1 keep costs0 d m sh EX HS SH T1 IT W LS FO.
  exact (C72_fixed_step_schemes others sv b0 ag sch it t1 keep costs0 d m sh EX SH T1 IT (proj1 (wf_mod_manifold d m W)) FO (C81_geodesic sv b0 d m HS W LS)).
Qed.
Print Assumptions C72_modules_fixed_step.

(** ** Consequences for C80 *)

Theorem C80_modules_torch_euler : forall ck ck' others others' sv sv' b0 b0' ag ag' it t1 t1' cs cs' keep costs0 d Q c m m' sh sh',
  rigid d Q -> exact_grad ag -> exact_grad ag' -> exact_solver sv -> exact_solver sv' ->
  wf_mod d m -> wf_mod d m' -> locals_smooth d m -> locals_total d m' -> elsewhere d Q c m m' ->
  turned_ctrls d Q m cs cs' ->
  (forall l x, cs = Some l -> In x l -> ctrl_ok d m x) -> (forall l x, cs' = Some l -> In x l -> ctrl_ok d m' x) ->
  shoot ck others sv b0 ag "torch_euler" it t1 cs keep costs0 m = Ok sh ->
  shoot ck' others' sv' b0' ag' "torch_euler" it t1' cs' keep costs0 m' = Ok sh' ->
  shot_elsewhere d Q c sh sh' /\ kept_turned d Q m (cs <> None) sh sh'.
Proof.
  intros ck ck' others others' sv sv' b0 b0' ag ag' it t1 t1' cs cs' keep costs0 d Q c m m' sh sh' HQ EX EX' HS HS' W W' LS LT' EW TC CO CO'.
  exact (C80_torch_euler ck ck' others others' sv sv' b0 b0' ag ag' it t1 t1' cs cs' keep costs0 d Q c m m' sh sh' HQ EX EX' HS HS' W W' (smooth_total d m LS) LT' EW TC CO CO'
    (fun i => C81_steps sv b0 d m cs i HS W LS CO)).
Qed.
Print Assumptions C80_modules_torch_euler.

Theorem C80_modules_fixed_step : forall others others' sv sv' b0 b0' ag ag' sch it t1 keep costs0 costs0' d Q c m m' sh sh',
  rigid d Q -> exact_grad ag -> exact_grad ag' -> exact_solver sv -> exact_solver sv' ->
  wf_mod d m -> wf_mod d m' -> locals_smooth d m -> locals_total d m' -> elsewhere d Q c m m' ->
  shootable m -> shootable m' -> 0 < t1 -> (0 < it)%nat ->
  shoot real_clock others sv b0 ag (scheme_name sch) it t1 None keep costs0 m = Ok sh ->
  shoot real_clock others' sv' b0' ag' (scheme_name sch) it t1 None keep costs0' m' = Ok sh' ->
  shot_elsewhere d Q c sh sh'.
Proof.
  intros others others' sv sv' b0 b0' ag ag' sch it t1 keep costs0 costs0' d Q c m m' sh sh' HQ EX EX' HS HS' W W' LS LT' EW SH SH' T1 IT.
  exact (C80_fixed_step_schemes others others' sv sv' b0 b0' ag ag' sch it t1 keep costs0 costs0' d Q c m m' sh sh' HQ EX EX' HS HS' W W' (smooth_total d m LS) LT' EW SH SH' T1 IT
    (C81_geodesic sv b0 d m HS W LS)).
Qed.
Print Assumptions C80_modules_fixed_step.

(** ** C82 *)

(** One step of torch_euler succeeds exactly when its controls can be computed. *)
Theorem C82_step : forall sv b0 ag d m cs dt i,
  exact_grad ag -> differentiates ag -> exact_solver sv -> wf_mod d m -> locals_smooth d m ->
  (forall l c, cs = Some l -> In c l -> ctrl_ok d m c) ->
  (is_ok (euler_step sv b0 ag dt cs i m) <-> is_ok (step_controls sv b0 cs i m)).
Proof.
  intros sv b0 ag d m cs dt i EX AN HS W LS CO. split.
  - intros (m' & E). unfold euler_step in E. bok E m1 Em. eexists. exact Em.
  - intros (m1 & E). destruct (step_goes_on sv b0 ag d cs m HS EX AN W LS CO dt i m m1 (reached0 cs m) E) as (m' & E' & _). eexists. exact E'.
Qed.
Print Assumptions C82_step.

(** A module that is regular wherever its descriptors are (positive nu, ...) shoots for any
    number of steps, whatever the moments. *)
Lemma regular_reached sv b0 d m cs : exact_solver sv -> wf_mod d m -> locals_smooth d m -> everywhere (regular d) m ->
  (cs = None -> first_order m -> ~ has_dir (mod_manifold m)) -> (forall l c, cs = Some l -> In c l -> ctrl_ok d m c) ->
  forall i n, reached cs m n -> match cs with None => True | Some l => (i < length l)%nat end -> is_ok (step_controls sv b0 cs i n).
Proof.
  intros HS W LS RG HF CO i n HR IL. destruct (there d cs m W LS n HR) as (m1 & E & M & F & W1 & _ & HC & A).
  rewrite <- (ctl_det sv b0 cs i m1 n A M). destruct HR as (_ & K & SP). pose proof (RG _ m1 K SP E) as R1. unfold step_controls. destruct cs as [l|].
  - destruct (nth_error l i) as [c|] eqn:Ec; [|apply nth_error_None in Ec; lia].
    apply (fill_regular sv d HS m1 c W1 R1). apply HC. exact (CO l c eq_refl (nth_error_In _ _ Ec)).
  - destruct (wf_mod_manifold d m1 W1) as (WG & NE). apply (geo_regular sv b0 d HS m1 _ W1 R1 WG NE). intros FO HD. rewrite M in HD.
    apply (HF eq_refl).
    + exact (first_set m _ m1 E FO).
    + exact (has_dir_same _ _ K HD).
Qed.

Theorem C82_torch_euler : forall ck others sv b0 ag it t1 cs keep costs0 d m,
  exact_grad ag -> differentiates ag -> exact_solver sv -> wf_mod d m -> locals_smooth d m ->
  everywhere (regular d) m -> (cs = None -> first_order m -> ~ has_dir (mod_manifold m)) ->
  (forall l c, cs = Some l -> In c l -> ctrl_ok d m c) -> (forall l, cs = Some l -> (it <= length l)%nat) ->
  (0 < it)%nat -> keep = false \/ (exists ms, m = MComp ms /\ Forall simple (map mod_manifold ms)) ->
  is_ok (shoot ck others sv b0 ag "torch_euler" it t1 cs keep costs0 m).
Proof.
  intros ck others sv b0 ag it t1 cs keep costs0 d m EX AN HS W LS RG HF CO LC IT KP.
  apply (run_goes_on sv b0 ag d cs m HS EX AN W LS CO); try assumption. apply (regular_reached sv b0 d m cs); assumption.
Qed.
Print Assumptions C82_torch_euler.

Theorem C82_fixed_step_schemes : forall others sv b0 ag sch it t1 keep costs0 d m,
  exact_grad ag -> differentiates ag -> exact_solver sv -> wf_mod d m -> locals_smooth d m ->
  everywhere (regular d) m -> (first_order m -> ~ has_dir (mod_manifold m)) ->
  shootable m -> (0 < numel (g_gd (mod_manifold m)))%nat -> 0 < t1 -> (0 < it)%nat ->
  is_ok (shoot real_clock others sv b0 ag (scheme_name sch) it t1 None keep costs0 m).
Proof.
  intros others sv b0 ag sch it t1 keep costs0 d m EX AN HS W LS RG HF (ms & -> & SI & SP) NP T1 IT.
  apply (moments_total sv b0 ag t1 it keep ms T1 IT SI SP NP others sch costs0 EX). intros n F K SG SC.
  assert (HR : reached None (MComp ms) n).
  { split; [exact F|]. split; [exact K|]. unfold phase. rewrite !map_app, SG, SC. f_equal. symmetry. apply wf_shapes with (d := d). apply wf_mod_manifold. exact W. }
  assert (CO : forall l c, @None (list ctrl) = Some l -> In c l -> ctrl_ok d (MComp ms) c) by discriminate.
  destruct (regular_reached sv b0 d (MComp ms) None HS W LS RG (fun _ => HF) CO 0%nat n HR Logic.I) as (m2 & E). cbn [step_controls] in E.
  exists m2. split; [exact E|]. split.
  - destruct (there d None (MComp ms) W LS n HR) as (m1 & _ & M & _ & W1 & _ & _ & A). change (geodesic_controls sv b0 n) with (step_controls sv b0 None 0 n) in E.
    rewrite <- (ctl_det sv b0 None 0 m1 n A M) in E. destruct (hamiltonian_cost sv b0 d HS m1 m2 W1 E) as (x & C & _). eexists. exact C.
  - apply AN. exact (differentiable_at sv b0 d None (MComp ms) HS W LS CO 0%nat n m2 HR E).
Qed.
Print Assumptions C82_fixed_step_schemes.

(** ** Examples *)

Lemma std_differentiates : differentiates std_ag.
Proof. intros F l DF. apply std_ok, differentiable_gradient. exact DF. Qed.

Definition one_point : tensor := mk2 1 2 (fun _ _ => 1).
(** A compound with order-0, order-1 and local members. *)
Definition sturdy : dmod :=
  MComp [ex_global; ex_imp0; MDivFree 2 1 1 1 2 1 1 ex_pts ex_vec (mk1 2 INR) None; MArap 2 1 1 1 2 1 1 ex_pts ex_vec (mk1 2 INR) None;
         LocalScaling 2 3 1 one_point one_point].

Lemma sturdy_wf : wf_mod 2 sturdy.
Proof. cbn. split; [discriminate|]. repeat match goal with |- _ /\ _ => split | |- True => exact Logic.I | |- exists M s v, _ => exists 3%nat; do 2 eexists; repeat split end; try discriminate; try lra; try reflexivity. eexists. reflexivity. Qed.
Lemma sturdy_smooth : locals_smooth 2 sturdy.
Proof. pose proof (C81_local_modules 3 1 one_point one_point) as (A & _). cbn [sturdy locals_smooth fold_right] in *. repeat split. exact A. Qed.

Lemma circle_sin : circle3 @2 1%nat 1%nat = sqrt 3 / 2 /\ circle3 @2 2%nat 1%nat = - (sqrt 3 / 2).
Proof.
  cbn. rewrite Rmult_1_r. replace (2 * PI / 3) with (2 * (PI / 3)) by field. rewrite sin_2PI3.
  replace (2 * (PI / 3) * (1 + 1)) with (PI / 3 + PI) by field. rewrite neg_sin, sin_PI3. split; field.
Qed.
Lemma scaling_regular gd ct : shape gd = [1%nat; 2%nat] -> regular 2 (LocalScaling 2 3 1 gd ct).
Proof.
  intros Sg s v Es Ev. unfold circle_support in Es. rewrite Sg in Es. injection Es as <-. injection Ev as <-.
  destruct circle_cos as (C0 & C1 & C2). destruct circle_sin as (S1 & S2). pose proof (sqrt_lt_R0 3 ltac:(lra)) as P3.
  split.
  - intros i j Hi Hj N. unfold nrows, tnth in Hi, Hj. cbn [shape mk2 nth] in Hi, Hj. 
    assert (D : forall i j, (i < j < 3)%nat -> exists c, (c < 2)%nat /\ circle3 @2 i c <> circle3 @2 j c).
    { clear i j Hi Hj N. intros i j (A & B). destruct i as [|[|i]]; [| |lia].
      - exists 0%nat. split; [lia|]. destruct j as [|[|[|j]]]; try lia; rewrite C0; [rewrite C1|rewrite C2]; lra.
      - exists 1%nat. split; [lia|]. destruct j as [|[|[|j]]]; try lia. rewrite S1, S2. lra. }
    destruct (Nat.lt_gt_cases i j) as (L & _). destruct (L N) as [X|X]; [destruct (D i j ltac:(lia)) as (c & Hc & Nc)|destruct (D j i ltac:(lia)) as (c & Hc & Nc)];
      exists c; (split; [exact Hc|]); intros Q;
      change (gd @2 0%nat c + 3 / 3 * circle3 @2 i c = gd @2 0%nat c + 3 / 3 * circle3 @2 j c) in Q; apply Nc; lra.
  - exists 0%nat, 0%nat. split; [unfold nrows, tnth; cbn; lia|]. split; [lia|]. rewrite C0. lra.
Qed.
Lemma sturdy_everywhere : everywhere (regular 2) sturdy.
Proof.
  intros g m1 K SP E. destruct g as [| | | | |gs]; try discriminate K. cbn [sturdy mod_manifold map skel] in K. injection K as K.
  destruct gs as [|g0 [|g1 [|g2 [|g3 [|g4 [|]]]]]]; try discriminate K. cbn [map] in K. injection K as K0 K1 K2 K3 K4.
  destruct g0; try discriminate K0. destruct g1; try discriminate K1. destruct g2; try discriminate K2. destruct g3; try discriminate K3. destruct g4; try discriminate K4.
  cbn in E. injection E as <-. cbn in SP. injection SP as P1 P2 P3 P4 P5 P6 P7 P8.
  split; [exact Logic.I|]. split; [left; lra|]. split; [left; lra|]. split; [left; lra|]. split; [|exact Logic.I]. apply scaling_regular. exact P4.
Qed.

(** C81: the compound meets the hypotheses, and its Hamiltonian can be computed where it
    stands, so it is differentiable there.  C82: it shoots for ever. *)
Example C81_hypotheses : forall b0,
  exact_solver exact_sv /\ wf_mod 2 sturdy /\ locals_smooth 2 sturdy /\ wf_mod 2 ex_all /\ locals_smooth 2 ex_all /\ ctrl_ok 2 ex_all (controls ex_all) /\
  differentiable (ham_of sturdy (geodesic_controls exact_sv b0)) (phase (mod_manifold sturdy)).
Proof.
  intros b0. split; [exact exact_sv_exact|]. split; [exact sturdy_wf|]. split; [exact sturdy_smooth|]. split; [exact ex_all_wf|]. split; [cbn; tauto|].
  split; [exact ex_all_ctrl|]. assert (CO : forall l c, @None (list ctrl) = Some l -> In c l -> ctrl_ok 2 sturdy c) by discriminate.
  destruct (regular_reached exact_sv b0 2 sturdy None exact_sv_exact sturdy_wf sturdy_smooth sturdy_everywhere ltac:(intros _ _; cbn; tauto) CO 0%nat sturdy (reached0 None sturdy) Logic.I) as (m2 & E).
  pose proof (differentiable_at exact_sv b0 2 None sturdy exact_sv_exact sturdy_wf sturdy_smooth CO 0%nat sturdy m2 (reached0 None sturdy) E) as DF.
  destruct (ctl_ok exact_sv b0 None 0 sturdy m2 E) as (A & M). rewrite M in DF.
  apply (directional_ext _ (ham_of m2 (step_controls exact_sv b0 None 0))); [|exact DF]. intros l' S'. change (geodesic_controls exact_sv b0) with (step_controls exact_sv b0 None 0).
  apply (ham_alike exact_sv b0 None 0); [symmetry; exact A|rewrite M; reflexivity|]. rewrite <- (map_length shape l'), S', map_length, phase_len. lia.
Qed.

Example C82_hypotheses : forall ck others b0 it t1 t1' keep costs0, (0 < it)%nat -> 0 < t1' ->
  exact_grad std_ag /\ differentiates std_ag /\ exact_solver exact_sv /\ wf_mod 2 sturdy /\ locals_smooth 2 sturdy /\ everywhere (regular 2) sturdy /\
  first_order sturdy /\ ~ has_dir (mod_manifold sturdy) /\ shootable sturdy /\
  is_ok (shoot ck others exact_sv b0 std_ag "torch_euler" it t1 None keep costs0 sturdy) /\
  is_ok (shoot real_clock (fun _ => None) exact_sv b0 std_ag "rk4" it t1' None keep None sturdy).
Proof.
  intros ck others b0 it t1 t1' keep costs0 IT T1.
  assert (SI : Forall simple (map mod_manifold [ex_global; ex_imp0; MDivFree 2 1 1 1 2 1 1 ex_pts ex_vec (mk1 2 INR) None; MArap 2 1 1 1 2 1 1 ex_pts ex_vec (mk1 2 INR) None;
         LocalScaling 2 3 1 one_point one_point])) by (repeat constructor).
  assert (SH : shootable sturdy) by (eexists; split; [reflexivity|]; split; [exact SI|cbn; tauto]).
  split; [exact std_exact|]. split; [exact std_differentiates|]. split; [exact exact_sv_exact|]. split; [exact sturdy_wf|]. split; [exact sturdy_smooth|].
  split; [exact sturdy_everywhere|]. split; [cbn; tauto|]. split; [cbn; tauto|]. split; [exact SH|]. split.
  - apply (C82_torch_euler ck others exact_sv b0 std_ag it t1 None keep costs0 2 sturdy std_exact std_differentiates exact_sv_exact sturdy_wf sturdy_smooth sturdy_everywhere);
      [intros _ _; cbn; tauto|discriminate|discriminate|exact IT|]. right. eexists. split; [reflexivity|exact SI].
  - apply (C82_fixed_step_schemes (fun _ => None) exact_sv b0 std_ag SRk4 it t1' keep None 2 sturdy std_exact std_differentiates exact_sv_exact sturdy_wf sturdy_smooth sturdy_everywhere);
      [intros _; cbn; tauto|exact SH|cbn; lia|exact T1|exact IT].
Qed.

Example C72_modules_hypotheses : wf_mod 2 ex_geo /\ locals_smooth 2 ex_geo /\ (forall v, follows 2 (vec 2 v) ex_geo).
Proof. split; [exact ex_geo_wf|]. split; [cbn; tauto|]. intros v. cbn. tauto. Qed.
