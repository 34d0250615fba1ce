(** Shooting goes on as long as the controls can be computed. *)
From Coq Require Import Reals String List Arith ZArith Lia Lra.
From Verif Require Import Py RSum Tensor TensorFacts KernelModel FieldModel GeometryModel ModuleModel ShootingModel
  SpecLinAlg SpecKernel SpecField SpecGeometry SpecModule SpecShooting SpecMotion SpecSmooth SpecTransport
  ShootingPack ShootingInst GeometryFacts ModuleAlg ModuleLeaves ModuleMain ModuleRegular ModuleHistory ModulePosed ShootingDyn ShootingEuler ShootingTotal
  MotionFacts MotionShoot MotionMomentum TransportFacts DiffBuild.
Import ListNotations.
Open Scope R_scope.

Lemma first_set m : forall g m1, set_manifold m g = Ok m1 -> first_order m1 -> first_order m.
Proof.
  induction m as [m NC|ms IH] using dmod_ind'; intros g m1 E.
  - destruct m; try (elim (NC ms eq_refl)); destruct g; try discriminate E; cbn [set_manifold] in E; injection E as <-; exact (fun x => x).
  - destruct g as [| | | | |gs]; try discriminate E. rewrite set_comp in E. destruct (sets ms gs) as [r|] eqn:Er; [|discriminate E]. injection E as <-.
    cbn [first_order]. revert gs r Er. induction IH as [|m ms Hm _ IHs]; intros gs r Er; destruct gs as [|g gs]; try discriminate Er; [injection Er as <-; exact (fun x => x)|].
    cbn [sets] in Er. fold sets in Er. destruct (set_manifold m g) as [m1|] eqn:Em; [|discriminate Er]. cbn [bind] in Er.
    destruct (sets ms gs) as [r'|] eqn:Er'; [|discriminate Er]. injection Er as <-. cbn [fold_right]. intros [A|B]; [left; exact (Hm g m1 Em A)|right; exact (IHs gs r' Er' B)].
Qed.
Lemma has_dir_same g : forall g', skel g = skel g' -> has_dir g -> has_dir g'.
Proof.
  induction g as [g S|gs IH] using ShootingPack.gman_ind'; intros g' K.
  - destruct g; try (elim S); destruct g'; try discriminate K; exact (fun x => x).
  - destruct g' as [| | | | |gs']; try discriminate K. cbn [skel has_dir] in *. injection K as K.
    revert gs' K. induction IH as [|g gs Hg _ IHs]; intros gs' K; destruct gs' as [|g' gs']; try discriminate K; [exact (fun x => x)|].
    cbn [map fold_right] in *. injection K as K1 K2. intros [A|B]; [left; exact (Hg g' K1 A)|right; exact (IHs gs' K2 B)].
Qed.

Section Run.
  Variables (sv : solver) (b0 : backend) (ag : autograd) (d : nat) (cs : option (list ctrl)) (m0 : dmod).
  Hypothesis HSV : exact_solver sv.
  Hypothesis EX : exact_grad ag.
  Hypothesis AN : differentiates ag.
  Hypothesis W : wf_mod d m0.
  Hypothesis LS : locals_smooth d m0.
  Hypothesis CO : forall l c, cs = Some l -> In c l -> ctrl_ok d m0 c.
  Notation ctl := (step_controls sv b0 cs).
  Notation g0 := (mod_manifold m0).
  Notation alike := (alike cs).

  Definition reached (m : dmod) : Prop := alike m m0 /\ skel (mod_manifold m) = skel g0 /\ map shape (phase (mod_manifold m)) = map shape (phase g0).

  Lemma reached_shapes m : reached m ->
    map shape (g_gd (mod_manifold m)) = map shape (g_gd g0) /\ map shape (g_cotan (mod_manifold m)) = map shape (g_cotan g0).
  Proof. intros (_ & K & SP). apply app_shapes; [rewrite !g_gd_len; apply skel_len; exact K|exact SP]. Qed.

  (** The module m0 put in the state of m. *)
  Lemma there m : reached m -> exists m1, set_manifold m0 (mod_manifold m) = Ok m1 /\ mod_manifold m1 = mod_manifold m /\ frozen m1 = frozen m0 /\
    wf_mod d m1 /\ locals_differentiable d m1 /\ (forall c, ctrl_ok d m1 c <-> ctrl_ok d m0 c) /\ alike m1 m.
  Proof.
    intros HR. pose proof (reached_shapes m HR) as (SG & SC). destruct HR as (A & K & SP). destruct (set_ok m0 _ K) as (m1 & E & M & F & _).
    assert (W1 : wf_mod d m1) by (exact (wf_set d m0 _ m1 W (smooth_total d m0 LS) K SG SC E)).
    exists m1. repeat (split; [first [assumption|exact (smooth_there d m0 _ m1 W1 LS E)|intros c; exact (ctrl_set d m0 _ m1 c E)]|]).
    eapply alike_trans; [apply alike_frozen; exact F|apply alike_sym; exact A].
  Qed.

  Lemma differentiable_at i m m2 : reached m -> ctl i m = Ok m2 -> differentiable (ham_of m2 (ctl i)) (phase (mod_manifold m2)).
  Proof.
    intros HR E. destruct (there m HR) as (m1 & _ & M1 & F1 & W1 & LD & HC & A1).
    destruct (ctl_ok sv b0 cs i m m2 E) as (A2 & M2).
    assert (E1 : ctl i m1 = Ok m2) by (rewrite (ctl_det sv b0 cs i m1 m A1 M1); exact E).
    apply along_differentiable, (differentiable_ext _ (ham_of m1 (ctl i))).
    - intros l' S'. apply (ham_alike sv b0 cs i).
      + eapply alike_trans; [exact A2|apply alike_sym; exact A1].
      + congruence.
      + rewrite <- (map_length shape l'), S', map_length, phase_len. lia.
    - rewrite M2, <- M1. unfold step_controls in E1 |- *. destruct cs as [k|].
      + destruct (nth_error k i) as [c|] eqn:Ek; [|discriminate E1].
        assert (Hc : ctrl_ok d m1 c) by (apply HC; exact (CO k c eq_refl (nth_error_In _ _ Ek))).
        exact (ham_given sv d HSV m1 c W1 (fill_solvable sv d HSV m1 c m2 W1 Hc E1) LD Hc).
      + destruct (wf_mod_manifold d m1 W1) as (WG & NE). apply (ham_geodesic sv b0 d HSV m1 W1).
        * exact (geo_posed_conv sv b0 d HSV m1 _ WG NE m2 W1 E1).
        * exact LD.
        * intros FO HD. exact (geo_no_dir sv b0 d m1 _ W1 WG NE FO HD (ex_intro _ m2 E1)).
  Qed.

  Lemma step_goes_on dt i m m1 : reached m -> ctl i m = Ok m1 -> exists m', euler_step sv b0 ag dt cs i m = Ok m' /\ reached m'.
  Proof.
    intros HR E. pose proof (differentiable_at i m m1 HR E) as DF. apply AN in DF. destruct DF as (G & EG).
    pose proof (reached_shapes m HR) as (SG & SC). destruct HR as (A & K & SP). destruct (wf_mod_manifold d m0 W) as (WG & _). pose proof (wf_shapes d g0 WG) as B0.
    destruct (ctl_ok sv b0 cs i m m1 E) as (A1 & M1). destruct (delta_ok ag EX _ _ _ EG) as (delta & En & Sd & _).
    unfold euler_step. rewrite E. cbn [bind].
    assert (GR : exists dq dp, gradients ag m1 (ctl i) = Ok (dq, dp)) by (unfold gradients; fold (phase (mod_manifold m1)); rewrite EG; cbn [bind]; rewrite En; cbn [bind]; eauto).
    destruct GR as (dq & dp & EGR). rewrite EGR. cbn [bind]. set (g := mod_manifold m) in *.
    destruct (gradients_ok ag EX m1 (ctl i) dq dp (g_len g) EGR) as (Sq & Sp & _); [rewrite M1; apply g_gd_len|rewrite M1; apply g_cotan_len|rewrite M1; congruence|].
    rewrite M1 in *. fold g in Sq, Sp |- *.
    assert (Lq : length dq = g_len g) by (rewrite <- (map_length shape), Sq, map_length; apply g_gd_len).
    assert (Lp : length dp = g_len g) by (rewrite <- (map_length shape), Sp, map_length; apply g_gd_len).
    destruct (put_gd_ok g (map (tscal (- dt)) dq) []) as (a1 & P1 & _); [rewrite map_length; assumption|]. rewrite app_nil_r in P1. rewrite P1. cbn [bind].
    destruct (put_cotan_ok g (map (tscal dt) dp) []) as (a2 & P2 & _); [rewrite map_length; assumption|]. rewrite app_nil_r in P2. rewrite P2. cbn [bind].
    assert (X1 : length (g_gd g) = length (map (tscal dt) dp)) by (rewrite map_length, g_gd_len; auto).
    assert (X2 : length (g_cotan g) = length (map (tscal (- dt)) dq)) by (rewrite map_length, g_cotan_len; auto).
    destruct (put_gd_ok g (add_lists (g_gd g) (map (tscal dt) dp)) []) as (h1 & P3 & G1 & C1 & K1); [rewrite (add_len _ _ X1); apply g_gd_len|].
    rewrite app_nil_r in P3. rewrite P3. cbn [bind]. rewrite C1.
    destruct (put_cotan_ok h1 (add_lists (g_cotan g) (map (tscal (- dt)) dq)) []) as (h2 & P4 & C2 & G2 & K2);
      [rewrite (add_len _ _ X2), g_cotan_len; symmetry; apply skel_len; assumption|].
    rewrite app_nil_r in P4. rewrite P4. cbn [bind].
    destruct (set_ok m1 h2) as (m2 & E2 & M2 & F2 & _); [unfold g in *; congruence|]. exists m2. split; [exact E2|]. split; [|split].
    - eapply alike_trans; [apply alike_frozen; exact F2|]. eapply alike_trans; eassumption.
    - congruence.
    - rewrite M2. unfold phase. rewrite C2, G2, G1, !map_app, !add_shape by assumption. unfold phase in SP. rewrite !map_app in SP. exact SP.
  Qed.

  Lemma reached0 : reached m0.
  Proof. split; [apply alike_frozen; reflexivity|]. split; reflexivity. Qed.

  Lemma reached_comp ms m : m0 = MComp ms -> reached m -> exists ms', m = MComp ms'.
  Proof.
    intros Em (A & _). unfold ShootingEuler.alike in A. rewrite Em in A. destruct cs; destruct m; cbn [params frozen] in A; try discriminate A; eexists; reflexivity.
  Qed.

  (** The controls can be computed wherever the shooting goes. *)
  Hypothesis GO : forall i m, reached m -> match cs with None => True | Some l => (i < length l)%nat end -> is_ok (ctl i m).

  Lemma run_goes_from ck others it t1 keep costs0 w : reached w -> (0 < it)%nat -> (forall l, cs = Some l -> (it <= length l)%nat) ->
    keep = false \/ (exists ms, m0 = MComp ms /\ Forall simple (map mod_manifold ms)) ->
    is_ok (shoot ck others sv b0 ag "torch_euler" it t1 cs keep costs0 w).
  Proof.
    intros HM IT LC KP. unfold shoot. change (String.eqb "torch_euler" "torch_euler") with true. cbn iota. unfold shoot_euler. destruct (Nat.eqb_spec it 0); [lia|].
    assert (L : forall n i m acc, reached m -> (i + n = it)%nat -> is_ok (euler_loop sv b0 ag (1 / INR it) cs keep n i m acc)).
    { induction n0 as [|k IH]; intros i m acc HR IL; cbn [euler_loop]; [eexists; reflexivity|].
      destruct (GO i m HR) as (m1 & E1); [destruct cs; [specialize (LC l eq_refl); lia|trivial]|].
      destruct (step_goes_on (1 / INR it) i m m1 HR E1) as (m' & E & HR'). rewrite E. cbn [bind].
      assert (CK : is_ok (if keep then (c <- clone_controls (controls m') ;; Ok (mkInter (in_states acc ++ [mod_manifold m']) (in_controls acc ++ [c]))) else Ok acc)).
      { destruct KP as [->|(ms & Em & SI)]; [eexists; reflexivity|]. destruct keep; [|eexists; reflexivity].
        destruct (reached_comp ms m' Em HR') as (ms' & ->). destruct (clone_simple ms') as (c & Ec).
        - destruct HR' as (_ & K & _). rewrite Em in K. cbn [mod_manifold skel] in K. injection K as K. exact (simple_skels _ _ (eq_sym K) SI).
        - rewrite Ec. eexists. reflexivity. }
      destruct CK as (acc1 & ->). cbn [bind]. apply IH; [exact HR'|lia]. }
    destruct (L it 0%nat w (mkInter [mod_manifold w] []) HM eq_refl) as ((m' & acc') & E). rewrite E. eexists. reflexivity.
  Qed.
  Lemma run_goes_on ck others it t1 keep costs0 : (0 < it)%nat -> (forall l, cs = Some l -> (it <= length l)%nat) ->
    keep = false \/ (exists ms, m0 = MComp ms /\ Forall simple (map mod_manifold ms)) ->
    is_ok (shoot ck others sv b0 ag "torch_euler" it t1 cs keep costs0 m0).
  Proof. exact (run_goes_from ck others it t1 keep costs0 m0 reached0). Qed.
End Run.
