(** Property theorems about the exact motions that shoot() approximates: energy (C86) and
    angular momentum (C87). *)
From Coq Require Import Reals String List Arith Lia Lra Classical_Prop FunctionalExtensionality.
From Coquelicot Require Import Coquelicot.
From Verif Require Import Py RSum Tensor TensorFacts KernelModel FieldModel GeometryModel ModuleModel ShootingModel
  SpecLinAlg SpecKernel SpecField SpecGeometry SpecModule SpecShooting SpecMotion SpecTransport SpecSmooth ModuleLeaves ModuleMain ShootingPack ShootingDyn ShootingEuler PropShooting MotionFacts MotionShoot MotionMomentum
  TransportFacts SpecRigid RigidField RigidBlock RigidModule RigidControl RigidShoot DiffBuild SmoothRun SolverExists MotionExample PropSmooth SpecEnergy EnergyFacts NoetherFacts.
Import ListNotations.
Open Scope R_scope.

(** ** C86 *)

(** Along an exact solution of the equations that geodesic shooting integrates, the energy
    is constant. *)
Theorem C86_geodesic_energy : forall sv b0 d m c u v,
  exact_solver sv -> wf_mod d m -> locals_smooth d m ->
  (forall t, map shape (c t) = map shape (phase (mod_manifold m))) ->
  solution (ham_of m (geodesic_controls sv b0)) c u v ->
  exists e, forall t, u < t < v -> ham_of m (geodesic_controls sv b0) (c t) = Ok e.
Proof.
  intros sv b0 d m c u v HS W L SC SO. set (H := ham_of m (geodesic_controls sv b0)) in *.
  assert (DF : forall t, u < t < v -> differentiable_along H (c t)).
  { intros t T. destruct (solution_passes H c u v t SO T) as ((x & X) & _). exact (along_geodesic sv b0 d HS m W L (c t) x (SC t) X). }
  destruct (Rlt_dec u v) as [UV|UV]; [|exists 0; intros t T; lra].
  destruct (solution_passes H c u v ((u + v) / 2) SO ltac:(lra)) as ((x & X) & _). exists x. intros t T. rewrite <- X. apply (energy_constant H c u v SO DF); [exact T|lra].
Qed.
Print Assumptions C86_geodesic_energy.

(** The same with given controls that do not change with time. *)
Theorem C86_given_energy : forall sv d m k c u v,
  exact_solver sv -> wf_mod d m -> locals_smooth d m -> ctrl_ok d m k ->
  (forall t, map shape (c t) = map shape (phase (mod_manifold m))) ->
  solution (ham_of m (fun m => fill_controls sv m k)) c u v ->
  exists e, forall t, u < t < v -> ham_of m (fun m => fill_controls sv m k) (c t) = Ok e.
Proof.
  intros sv d m k c u v HS W L CK SC SO. set (H := ham_of m (fun m => fill_controls sv m k)) in *.
  assert (DF : forall t, u < t < v -> differentiable_along H (c t)).
  { intros t T. destruct (solution_passes H c u v t SO T) as ((x & X) & _). exact (along_given sv d HS m k W L CK (c t) x (SC t) X). }
  destruct (Rlt_dec u v) as [UV|UV]; [|exists 0; intros t T; lra].
  destruct (solution_passes H c u v ((u + v) / 2) SO ltac:(lra)) as ((x & X) & _). exists x. intros t T. rewrite <- X. apply (energy_constant H c u v SO DF); [exact T|lra].
Qed.
Print Assumptions C86_given_energy.

Lemma differentiable_ok F l : differentiable F l -> is_ok (F l).
Proof.
  intros (G & _ & HG). destruct (HG l eq_refl) as (e & f & E & Q & _). specialize (Q 0 ltac:(rewrite Rabs_R0; exact E)).
  rewrite (proj1 (line_passes l l eq_refl)) in Q. exists (f 0). exact Q.
Qed.

(** One step of torch_euler changes the energy by less than any fraction of the step, as
    soon as the step is short enough. *)
Theorem C86_torch_euler_step : forall sv b0 d m cs i eps,
  exact_solver sv -> wf_mod d m -> locals_smooth d m -> (forall l c, cs = Some l -> In c l -> ctrl_ok d m c) -> 0 < eps ->
  exists h0, 0 < h0 /\ forall ag dt m', exact_grad ag -> Rabs dt < h0 -> euler_step sv b0 ag dt cs i m = Ok m' ->
    exists x y, ham_of m (step_controls sv b0 cs i) (phase (mod_manifold m)) = Ok x /\
      ham_of m (step_controls sv b0 cs i) (phase (mod_manifold m')) = Ok y /\ Rabs (y - x) <= eps * Rabs dt.
Proof.
  intros sv b0 d m cs i eps HS W L CO E. set (H := ham_of m (step_controls sv b0 cs i)). set (l := phase (mod_manifold m)).
  destruct (wf_mod_manifold d m W) as (WG & _). pose proof (wf_shapes d _ WG) as B0.
  destruct (classic (is_ok (H l) /\ exists k, hamilton H l k)) as [(O & k0 & HK0)|N].
  - destruct (energy_step _ H l k0 (along_step sv b0 d HS m cs i W L CO) eq_refl O HK0 eps E) as (h0 & P & Q).
    exists h0. split; [exact P|]. intros ag dt m' EX LT ES.
    destruct (step_ok sv b0 ag cs m EX dt i m m' ltac:(apply alike_frozen; reflexivity) eq_refl B0 ES) as (_ & _ & _ & mk & _ & _ & (k & _ & HK & EL)).
    exact (Q k _ dt HK EL LT).
  - exists 1. split; [lra|]. intros ag dt m' EX LT ES. elim N.
    destruct (step_ok sv b0 ag cs m EX dt i m m' ltac:(apply alike_frozen; reflexivity) eq_refl B0 ES) as (_ & _ & _ & mk & AT & _ & (k & _ & HK & EL)).
    split; [|exists k; exact HK]. unfold at_state in AT. bok AT m1 EW.
    unfold l, phase in EW. 
    destruct (write_ok m (g_gd (mod_manifold m)) (g_cotan (mod_manifold m))) as (w & EW' & WG1 & WC1 & WK & WF); [apply g_gd_len|apply g_cotan_len|]. rewrite EW in EW'. injection EW' as <-.
    assert (ES' : step_controls sv b0 cs i m = Ok mk).
    { rewrite <- AT. apply ctl_det; [apply alike_frozen; symmetry; exact WF|]. apply g_ext; congruence. }
    pose proof (differentiable_at sv b0 d cs m HS W L CO i m mk (reached0 cs m) ES') as DF. apply differentiable_ok in DF.
    destruct (ctl_ok sv b0 cs i m mk ES') as (A1 & M1). rewrite M1 in DF. fold l in DF. destruct DF as (x & X). exists x. rewrite <- X. symmetry. unfold H.
    apply (ham_alike sv b0 cs i); [exact A1|rewrite M1; reflexivity|]. unfold l. rewrite phase_len, M1. lia.
Qed.
Print Assumptions C86_torch_euler_step.

(** ** C87 *)
Lemma ham_turned sv b0 d Q c m l l' x x' : rigid d Q -> exact_solver sv -> wf_mod d m -> locals_total d m -> twin d Q c m m ->
  map shape l = map shape (phase (mod_manifold m)) -> leq l' (lplace d Q c (kinds (mod_manifold m)) l) ->
  ham_of m (geodesic_controls sv b0) l = Ok x -> ham_of m (geodesic_controls sv b0) l' = Ok x' -> x' = x.
Proof.
  intros HQ HS W LT TW SL E X X'. unfold ham_of in X, X'. bok X m1 Ew. bok X m2 Eg. bok X' m1' Ew'. bok X' m2' Eg'.
  set (g0 := mod_manifold m) in *. pose proof (KS0 d m W) as KS. fold g0 in KS.
  assert (SL' : map shape l' = map shape (phase g0)) by (rewrite (leq_shape _ _ E); apply (lplace_shape d Q c (kinds g0) _ _ KS); exact SL).
  assert (FILL : forall r, map shape r = map shape (phase g0) -> forall r1, write_manifold m r = Ok r1 ->
    exists g, phase g = r /\ skel g = skel g0 /\ set_manifold m g = Ok r1 /\ mod_manifold r1 = g /\ wf_mod d r1).
  { intros r SR r1 Er. destruct (phase_fill g0 r) as (g & Pg & Kg). { rewrite <- phase_len, <- (map_length shape r), SR, map_length. reflexivity. }
    rewrite <- Pg, (write_phase m g Kg) in Er. destruct (set_ok m g Kg) as (y & Ey & My & _). rewrite Er in Ey. injection Ey as <-.
    assert (SP : map shape (g_gd g) = map shape (g_gd g0) /\ map shape (g_cotan g) = map shape (g_cotan g0)).
    { apply app_shapes; [rewrite !g_gd_len; apply skel_len; exact Kg|]. unfold phase in Pg. rewrite Pg. exact SR. }
    exists g. split; [exact Pg|]. split; [exact Kg|]. split; [exact Er|]. split; [exact My|]. exact (wf_set d m g r1 W LT Kg (proj1 SP) (proj2 SP) Er). }
  destruct (FILL l SL m1 Ew) as (g & Pg & Kg & Sg & Mg & W1). destruct (FILL l' SL' m1' Ew') as (g' & Pg' & Kg' & Sg' & Mg' & W1').
  assert (EW : elsewhere d Q c m1 m1').
  { split; [exact (twin_set d Q c m m g g' m1 m1' TW Sg Sg')|]. rewrite Mg, Mg'. apply placed_values; [rewrite <- Mg; exact (proj1 (wf_mod_manifold d m1 W1))|congruence|].
    rewrite Pg, Pg', (kinds_same g g0 Kg). exact E. }
  destruct (geodesic_ham d Q HQ c sv sv b0 b0 HS HS m1 m1' m2 m2' W1 W1' EW Eg Eg') as (HE & _). congruence.
Qed.

(** Along an exact solution, the angular momentum in each plane is constant. *)
Theorem C87_exact_motion : forall sv b0 d m gam u v a b,
  exact_solver sv -> wf_mod d m -> locals_smooth d m -> isotropic d m ->
  (forall t, skel (gam t) = skel (mod_manifold m)) -> (forall t, map shape (phase (gam t)) = map shape (phase (mod_manifold m))) ->
  solution (ham_of m (geodesic_controls sv b0)) (fun t => phase (gam t)) u v -> (a < d)%nat -> (b < d)%nat -> a <> b ->
  forall s t, u < s < v -> u < t < v -> angular_momentum a b (gam s) = angular_momentum a b (gam t).
Proof.
  intros sv b0 d m gam u v a b HS W L IS K SP SO A B N s t S T. destruct (wf_mod_manifold d m W) as (WG & _).
  apply (angular_constant d a b (mod_manifold m) (ham_of m (geodesic_controls sv b0)) A B N WG) with (u := u) (v := v); try assumption.
  - intros x l y y' SL X X'. apply (ham_turned sv b0 d (rot a b x) (fun _ => 0) m l (lplace d (rot a b x) (fun _ => 0) (kinds (mod_manifold m)) l) y y');
      try assumption; [apply rot_rigid; assumption|exact (smooth_total d m L)|apply IS; apply rot_rigid; assumption|apply leq_refl'].
  - exact (along_geodesic sv b0 d HS m W L).
Qed.
Print Assumptions C87_exact_motion.

(** Shooting with torch_euler: each step of length 1 / iterations adds the square of the
    length times the angular momentum of the velocity. *)
Theorem C87_torch_euler : forall ck others sv b0 ag it t1 keep costs0 d m sh a b,
  exact_grad ag -> exact_solver sv -> wf_mod d m -> locals_smooth d m -> isotropic d m -> (a < d)%nat -> (b < d)%nat -> a <> b ->
  shoot ck others sv b0 ag "torch_euler" it t1 None keep costs0 m = Ok sh ->
  exists states, length states = S it /\ nth_error states 0 = Some (mod_manifold m) /\ nth_error states it = Some (mod_manifold (sh_mod sh)) /\
    (forall i, sh_inter sh = Some i -> in_states i = states) /\
    forall n g g', nth_error states n = Some g -> nth_error states (S n) = Some g' ->
      exists gv, skel gv = skel (mod_manifold m) /\ hamilton (ham_of m (geodesic_controls sv b0)) (phase g) (phase gv) /\
        angular_momentum a b g' = angular_momentum a b g + (1 / INR it) ^ 2 * angular_momentum a b gv.
Proof.
  intros ck others sv b0 ag it t1 keep costs0 d m sh a b EX HS W L IS A B N E. destruct (wf_mod_manifold d m W) as (WG & _).
  destruct (C25_torch_euler_steps ck others sv b0 ag it t1 None keep costs0 m sh EX (wf_shapes d _ WG) E)
    as (_ & states & mods & LS & LM & E0 & E1 & T & AT & K & _ & KE).
  exists states. split; [exact LS|]. split; [exact E0|]. split; [exact E1|].
  split; [intros i Ei; destruct keep; [destruct KE as (ks & _ & KE); rewrite KE in Ei; injection Ei as <-; reflexivity|congruence]|].
  set (H := ham_of m (geodesic_controls sv b0)) in *.
  assert (ST : forall n g g', nth_error states n = Some g -> nth_error states (S n) = Some g' -> exists k, hamilton H (phase g) k /\ leq (phase g') (ladd (phase g) (lscal (1 / INR it) k))).
  { intros n g g' Eg Eg'. assert (I : (n < it)%nat) by (assert (S n < S it)%nat; [rewrite <- LS; apply nth_error_Some; congruence|lia]).
    assert (EF : nth_error (map (fun g => [phase g]) (firstn it states)) n = Some [phase g]).
    { rewrite nth_error_map. assert (F : nth_error (firstn it states) n = Some g) by (rewrite <- (firstn_skipn it states), nth_error_app1 in Eg by (rewrite firstn_length_le; lia); exact Eg). rewrite F. reflexivity. }
    destruct (proj2 T n (phase g) [phase g] (phase g') ltac:(rewrite nth_error_map, Eg; reflexivity) EF ltac:(rewrite nth_error_map, Eg'; reflexivity)) as (k & _ & HK & EL).
    exists k. split; [exact HK|exact EL]. }
  assert (SH : forall n g, nth_error states n = Some g -> map shape (phase g) = map shape (phase (mod_manifold m))).
  { induction n as [|n IH]; intros g Eg; [rewrite E0 in Eg; injection Eg as <-; reflexivity|].
    destruct (nth_error states n) as [g1|] eqn:E2; [|apply nth_error_None in E2; assert (S n < length states)%nat by (apply nth_error_Some; congruence); lia].
    destruct (ST n g1 g E2 Eg) as (k & HK & EL). rewrite (leq_shape _ _ EL), DiffBuild.ladd_shape; [exact (IH g1 eq_refl)|]. rewrite DiffBuild.lscal_shape. symmetry. apply HK. }
  rewrite Forall_forall in K. intros n g g' Eg Eg'. destruct (ST n g g' Eg Eg') as (k & HK & EL).
  assert (OK : is_ok (H (phase g))).
  { assert (I : (n < it)%nat) by (assert (S n < S it)%nat; [rewrite <- LS; apply nth_error_Some; congruence|lia]).
    destruct (nth_error mods n) as [mn|] eqn:Em; [|apply nth_error_None in Em; lia]. specialize (AT n g mn Eg Em). unfold at_state in AT. bok AT m1 EW.
    pose proof (SH n g Eg) as SG. pose proof (K g (nth_error_In _ _ Eg)) as KG. rewrite (write_phase m g KG) in EW.
    assert (SP : map shape (g_gd g) = map shape (g_gd (mod_manifold m)) /\ map shape (g_cotan g) = map shape (g_cotan (mod_manifold m)))
      by (apply app_shapes; [rewrite !g_gd_len; apply skel_len; exact KG|exact SG]).
    pose proof (wf_set d m g m1 W (smooth_total d m L) KG (proj1 SP) (proj2 SP) EW) as W1.
    destruct (hamiltonian_cost sv b0 d HS m1 mn W1 AT) as (y & C1 & C2 & _). exists y. unfold H, ham_of. rewrite (write_phase m g KG), EW. cbn [bind].
    change (step_controls sv b0 None n) with (geodesic_controls sv b0) in AT. rewrite AT. cbn [bind]. exact C2. }
  destruct OK as (x & X).
  destruct (angular_step d a b (mod_manifold m) H A B N WG) with (g1 := g) (g2 := g') (dt := 1 / INR it) (k := k) (x := x) as (gv & Kv & Pv & Ev).
  - intros z l y y' SL Y Y'. apply (ham_turned sv b0 d (rot a b z) (fun _ => 0) m l (lplace d (rot a b z) (fun _ => 0) (kinds (mod_manifold m)) l) y y');
      try assumption; [apply rot_rigid; assumption|exact (smooth_total d m L)|apply IS; apply rot_rigid; assumption|apply leq_refl'].
  - exact (along_geodesic sv b0 d HS m W L).
  - exact (K g (nth_error_In _ _ Eg)).
  - exact (K g' (nth_error_In _ _ Eg')).
  - exact (SH n g Eg).
  - exact X.
  - exact HK.
  - exact EL.
  - exists gv. split; [exact Kv|]. split; [rewrite Pv; exact HK|exact Ev].
Qed.
Print Assumptions C87_torch_euler.

(** The momentum of C72 along exact solutions. *)
Theorem C72_exact_motion : forall sv b0 d m cs i gam u v a,
  exact_solver sv -> wf_mod d m -> locals_smooth d m -> (forall l c, cs = Some l -> In c l -> ctrl_ok d m c) -> (forall w, follows d (vec d w) m) ->
  (forall t, skel (gam t) = skel (mod_manifold m)) -> (forall t, map shape (phase (gam t)) = map shape (phase (mod_manifold m))) ->
  solution (ham_of m (step_controls sv b0 cs i)) (fun t => phase (gam t)) u v -> (a < d)%nat ->
  forall s t, u < s < v -> u < t < v -> linear_momentum (gam s) a = linear_momentum (gam t) a.
Proof.
  intros sv b0 d m cs i gam u v a HS W L CO F K SP SO A. destruct (wf_mod_manifold d m W) as (WG & _). set (g0 := mod_manifold m) in *. set (n := g_len g0).
  set (U := direction (vec d (delta a)) (marks g0) (g_cotan g0)).
  assert (SU : map shape U = map shape (g_cotan g0)) by (apply direction_shape; rewrite marks_len, g_cotan_len; reflexivity).
  assert (HALF : forall l, map shape l = map shape (phase g0) -> map shape (skipn n l) = map shape (g_cotan g0)).
  { intros l S. unfold n. destruct (gd_shapes d g0 WG) as (_ & G2 & _). rewrite <- G2, <- !skipn_map, S. reflexivity. }
  assert (DOT : forall l, map shape l = map shape (phase g0) -> marked_sum a (marks g0) (skipn n l) = ldot (skipn n l) U).
  { intros l S. symmetry. apply (ldot_direction d a (marks g0) A); [exact (HALF l S)|exact (proj2 (wf_pts d g0 WG))]. }
  apply flat_constant. intros t T. destruct (solution_passes _ _ u v t SO T) as (_ & k & HK & P). apply shift_derivable.
  assert (SK : map shape k = map shape (phase g0)) by (rewrite (proj1 HK); apply SP).
  replace (fun s => linear_momentum (gam (t + s)) a) with (fun s => ldot (skipn n (phase (gam (t + s)))) U).
  - assert (PU : lpasses (fun _ => U) U (map (fun x => tzeros (shape x)) U)).
    { split; [reflexivity|]. split; [reflexivity|]. split; [rewrite map_map; reflexivity|]. intros j x idx E V. unfold entry at 2. rewrite nth_error_map, E. cbn. apply derivable_pt_lim_const. }
    pose proof (ldot_derivative _ _ _ _ _ _ (passes_skip n _ _ _ P) PU) as D. cbv beta in D.
    specialize (D ltac:(rewrite (HALF _ (SP t)); exact SU)). rewrite ldot_zeros, Rplus_0_r in D.
    rewrite <- (DOT k SK) in D.
    pose proof (stage_total d a g0 _ A WG (smooth_step sv b0 d HS m cs i W L CO) (fun g w => ham_invariant d sv b0 cs i m F g w) _ k (SP t) HK) as Z. change (marked_sum a (marks g0) (skipn n k) = 0) in Z. rewrite Z in D. exact D.
  - apply functional_extensionality. intros s. rewrite momentum_marked, (marks_same _ g0 (K _)), <- (DOT _ (SP _)). f_equal. unfold phase.
    assert (EN : n = length (g_gd (gam (t + s)))) by (rewrite g_gd_len; symmetry; apply skel_len; apply K). rewrite EN, skipn_app, Nat.sub_diag, skipn_all. reflexivity.
Qed.
Print Assumptions C72_exact_motion.

(** ** An example: a point drawn away from a centre by a linear module *)
Definition spin (q c p pc h : tensor) : dmod := MComp [MSilent (GLm 2 1 q p); MLinear (mk2 2 2 delta) 1 c pc h].
Definition spin_man (q c p pc : tensor) : gman := GComp [GLm 2 1 q p; GLm 2 1 c pc].
Definition pt (x y : R) : tensor := mkT [1%nat; 2%nat] (fun idx => match idx with [O; O] => x | [O; S O] => y | _ => 0 end).
Definition row := [1%nat; 2%nat].
Definition reach (q c p : tensor) : R :=
  (q @2 0%nat 0%nat - c @2 0%nat 0%nat) * p @2 0%nat 0%nat + (q @2 0%nat 1%nat - c @2 0%nat 1%nat) * p @2 0%nat 1%nat.

Lemma spin_ham sv b0 q0 c0 p0 pc0 h q c p pc : shape q = row -> shape c = row -> shape p = row -> shape pc = row ->
  ham_of (spin q0 c0 p0 pc0 h) (geodesic_controls sv b0) [q; c; p; pc] = Ok (reach q c p ^ 2 / 2).
Proof.
  destruct q as [sq q]. destruct c as [sc c]. destruct p as [sp p]. destruct pc as [spc pc]. cbn [shape]. unfold row. intros -> -> -> ->. cbn. f_equal. unfold reach. cbn. unfold delta. cbn. field.
Qed.
Definition spin_velocity (q c p : tensor) : list tensor :=
  let k := reach q c p in
  [pt (k * (q @2 0%nat 0%nat - c @2 0%nat 0%nat)) (k * (q @2 0%nat 1%nat - c @2 0%nat 1%nat)); pt 0 0;
   pt (- k * p @2 0%nat 0%nat) (- k * p @2 0%nat 1%nat); pt (k * p @2 0%nat 0%nat) (k * p @2 0%nat 1%nat)].

Lemma spin_field sv b0 q0 c0 p0 pc0 h q c p pc : shape q = row -> shape c = row -> shape p = row -> shape pc = row ->
  hamilton (ham_of (spin q0 c0 p0 pc0 h) (geodesic_controls sv b0)) [q; c; p; pc] (spin_velocity q c p).
Proof.
  intros Sq Sc Sp Spc. split; [cbn; rewrite Sq, Sc, Sp, Spc; reflexivity|]. exists 2%nat. split; [reflexivity|]. split; [cbn; congruence|].
  assert (X : forall (f : R -> R) i idx x, (forall s, ham_of (spin q0 c0 p0 pc0 h) (geodesic_controls sv b0) (upd [q; c; p; pc] i idx s) = Ok (f s)) -> is_derive f (entry [q; c; p; pc] i idx) x ->
    partial_derivative (ham_of (spin q0 c0 p0 pc0 h) (geodesic_controls sv b0)) [q; c; p; pc] i idx x).
  { intros f i idx x E D. exists 1, f. split; [lra|]. split; [intros s _; apply E|]. apply is_derive_Reals. exact D. }
  intros i t idx I E V.
  assert (R : exists a, idx = [0%nat; a] /\ (a = 0%nat \/ a = 1%nat)).
  { destruct i as [|[|i]]; [| |lia]; cbn in E; injection E as <-; [rewrite Sq in V|rewrite Sc in V]; unfold row in V; idx2 V; destruct V as (V1 & V2 & _); exists a; split; try lia; f_equal; lia. }
  destruct R as (a & -> & R). destruct i as [|[|i]]; [| |lia]; destruct R as [-> | ->]; split;
    (eapply X; [intros s; cbn [upd Nat.add]; apply spin_ham; first [assumption|reflexivity]|]); unfold reach; cbn; auto_derive; trivial; unfold reach; field.
Qed.

Lemma spin_isotropic q c p pc h : isotropic 2 (spin q c p pc h).
Proof.
  intros Q (_ & HQ). cbn [twin spin]. split; [exact Logic.I|]. split; [|exact Logic.I]. split; [reflexivity|]. split; [reflexivity|]. intros i j I J. unfold conj_by.
  specialize (HQ i j I J). unfold mprod, mtr, mid in HQ. change ((mk2 2 2 delta) @2 i j) with (delta i j). rewrite <- HQ. apply rsum_ext. intros k K. f_equal.
  rewrite (rsum_ext 2 _ (fun l => delta k l * Q j l)); [rewrite rsum_delta_r by exact K; reflexivity|]. intros l _. change ((mk2 2 2 delta) @2 k l) with (delta k l). ring.
Qed.
Lemma spin_wf q c p pc : shape q = row -> shape c = row -> shape p = row -> shape pc = row -> wf_mod 2 (spin q c p pc (mk0 0)).
Proof. intros Sq Sc Sp Spc. cbn. unfold row in *. repeat split; try assumption; try lra; try discriminate. Qed.

Definition spin0 : dmod := spin (pt 1 0) (pt 0 0) (pt 1 1) (pt 0 0) (mk0 0).
Definition spin_path (t : R) : gman := spin_man (pt (exp t) 0) (pt 0 0) (pt (exp (- t)) (exp (- t))) (pt (1 - exp (- t)) (1 - exp (- t))).

Lemma spin_solution sv b0 u v : solution (ham_of spin0 (geodesic_controls sv b0)) (fun t => phase (spin_path t)) u v.
Proof.
  split; [reflexivity|]. intros t _. change (phase (spin_path t)) with [pt (exp t) 0; pt 0 0; pt (exp (- t)) (exp (- t)); pt (1 - exp (- t)) (1 - exp (- t))].
  split; [unfold spin0; rewrite spin_ham by reflexivity; eexists; reflexivity|].
  exists (spin_velocity (pt (exp t) 0) (pt 0 0) (pt (exp (- t)) (exp (- t)))). split; [apply spin_field; reflexivity|].
  intros i x idx E V. assert (RE : reach (pt (exp t) 0) (pt 0 0) (pt (exp (- t)) (exp (- t))) = 1).
  { unfold reach. cbn. rewrite exp_Ropp. field. apply Rgt_not_eq, exp_pos. }
  unfold spin_velocity. rewrite RE. clear RE.
  assert (R : exists a, idx = [0%nat; a] /\ (a = 0%nat \/ a = 1%nat)).
  { destruct i as [|[|[|[|i]]]]; [| | | |destruct i; discriminate E]; cbn in E; injection E as <-; cbn [shape pt] in V; idx2 V; destruct V as (V1 & V2 & _); exists a; split; try lia; f_equal; lia. }
  destruct R as (a & -> & R). destruct i as [|[|[|[|i]]]]; [| | | |destruct i; discriminate E]; destruct R as [-> | ->]; apply is_derive_Reals; unfold entry; cbn; auto_derive; trivial; ring.
Qed.

Example C86_hypotheses : forall b0 u v,
  exact_solver exact_sv /\ wf_mod 2 spin0 /\ locals_smooth 2 spin0 /\ isotropic 2 spin0 /\
  (forall t, skel (spin_path t) = skel (mod_manifold spin0)) /\
  (forall t, map shape (phase (spin_path t)) = map shape (phase (mod_manifold spin0))) /\
  solution (ham_of spin0 (geodesic_controls exact_sv b0)) (fun t => phase (spin_path t)) u v /\
  (forall t, ham_of spin0 (geodesic_controls exact_sv b0) (phase (spin_path t)) = Ok (1 / 2)) /\
  (forall t, angular_momentum 0 1 (spin_path t) = 1) /\ (forall w, follows 2 (vec 2 w) spin0).
Proof.
  intros b0 u v. split; [exact exact_sv_exact|]. split; [apply spin_wf; reflexivity|]. split; [cbn; tauto|]. split; [apply spin_isotropic|]. split; [reflexivity|]. split; [reflexivity|].
  split; [apply spin_solution|]. split; [|split; [|intros w; cbn; tauto]].
  - intros t. change (phase (spin_path t)) with [pt (exp t) 0; pt 0 0; pt (exp (- t)) (exp (- t)); pt (1 - exp (- t)) (1 - exp (- t))]. unfold spin0. rewrite spin_ham by reflexivity.
    f_equal. unfold reach. cbn. rewrite exp_Ropp. field. apply Rgt_not_eq, exp_pos.
  - intros t. unfold spin_path, spin_man, angular_momentum, rows_momentum. cbn. rewrite exp_Ropp. field. apply Rgt_not_eq, exp_pos.
Qed.

(** With the controls kept at 1 the same path is a solution. *)
Lemma spin_given_ham sv q0 c0 p0 pc0 h q c p pc : shape q = row -> shape c = row -> shape p = row -> shape pc = row ->
  ham_of (spin q0 c0 p0 pc0 h) (fun m => fill_controls sv m (CList [CLeaf (tzeros [0%nat]); CLeaf (mk0 1)])) [q; c; p; pc] = Ok (reach q c p - 1 / 2).
Proof.
  destruct q as [sq q]. destruct c as [sc c]. destruct p as [sp p]. destruct pc as [spc pc]. cbn [shape]. unfold row. intros -> -> -> ->. cbn. f_equal. unfold reach. cbn. unfold delta. cbn. field.
Qed.
Example C86_given_hypotheses : forall sv u v,
  ctrl_ok 2 spin0 (CList [CLeaf (tzeros [0%nat]); CLeaf (mk0 1)]) /\
  solution (ham_of spin0 (fun m => fill_controls sv m (CList [CLeaf (tzeros [0%nat]); CLeaf (mk0 1)]))) (fun t => phase (spin_path t)) u v.
Proof.
  intros sv u v. split; [cbn; tauto|]. split; [reflexivity|]. intros t _.
  set (q := pt (exp t) 0). set (c := pt 0 0). set (p := pt (exp (- t)) (exp (- t))). set (pc := pt (1 - exp (- t)) (1 - exp (- t))).
  change (phase (spin_path t)) with [q; c; p; pc].
  split; [unfold spin0; rewrite spin_given_ham by reflexivity; eexists; reflexivity|].
  exists [q; c; pt (- exp (- t)) (- exp (- t)); p]. split.
  - split; [reflexivity|]. exists 2%nat. split; [reflexivity|]. split; [reflexivity|].
    set (F := ham_of spin0 _).
    assert (X : forall (f : R -> R) i idx x, (forall s, F (upd [q; c; p; pc] i idx s) = Ok (f s)) -> is_derive f (entry [q; c; p; pc] i idx) x ->
      partial_derivative F [q; c; p; pc] i idx x).
    { intros f i idx x E D. exists 1, f. split; [lra|]. split; [intros s _; apply E|]. apply is_derive_Reals. exact D. }
    intros i x idx I E V.
    assert (R : exists a, idx = [0%nat; a] /\ (a = 0%nat \/ a = 1%nat)).
    { destruct i as [|[|i]]; [| |lia]; cbn in E; injection E as <-; cbn [shape pt q c] in V; idx2 V; destruct V as (V1 & V2 & _); exists a; split; try lia; f_equal; lia. }
    destruct R as (a & -> & R). destruct i as [|[|i]]; [| |lia]; destruct R as [-> | ->]; split;
      (eapply X; [intros s; cbn [upd Nat.add]; apply spin_given_ham; first [assumption|reflexivity]|]); unfold reach; cbn; auto_derive; trivial; ring.
  - intros i x idx E V.
    assert (R : exists a, idx = [0%nat; a] /\ (a = 0%nat \/ a = 1%nat)).
    { destruct i as [|[|[|[|i]]]]; [| | | |destruct i; discriminate E]; cbn in E; injection E as <-; cbn [shape pt q c p pc] in V; idx2 V; destruct V as (V1 & V2 & _); exists a; split; try lia; f_equal; lia. }
    destruct R as (a & -> & R). destruct i as [|[|[|[|i]]]]; [| | | |destruct i; discriminate E]; destruct R as [-> | ->]; apply is_derive_Reals; unfold entry, q, c, p, pc; cbn; auto_derive; trivial; ring.
Qed.

(** A finding: unlike the linear momentum (C72), the angular momentum is not kept by the
    shooting itself.  One step of torch_euler brings that of this example from 1 to 0. *)
Theorem C87_shooting_keeps_angular_momentum_refuted : exists ag sv b0 d m sh a b,
  exact_grad ag /\ exact_solver sv /\ wf_mod d m /\ locals_smooth d m /\ isotropic d m /\ (a < d)%nat /\ (b < d)%nat /\
  shoot real_clock (fun _ => None) sv b0 ag "torch_euler" 1 1 None true None m = Ok sh /\
  angular_momentum a b (mod_manifold m) = 1 /\ angular_momentum a b (mod_manifold (sh_mod sh)) = 0.
Proof.
  assert (W : wf_mod 2 spin0) by (apply spin_wf; reflexivity). assert (L : locals_smooth 2 spin0) by (cbn; tauto).
  assert (RG : everywhere (regular 2) spin0).
  { intros g m1 K _ E. destruct g as [| | | | |gs]; try discriminate K. cbn [spin0 spin mod_manifold map skel] in K. injection K as K. destruct gs as [|g0 [|g1 [|]]]; try discriminate K.
    cbn [map] in K. injection K as K0 K1. destruct g0; try discriminate K0. destruct g1; try discriminate K1. cbn in E. injection E as <-. cbn. tauto. }
  destruct (C82_torch_euler real_clock (fun _ => None) exact_sv Torch std_ag 1 1 None true None 2 spin0 std_exact std_differentiates exact_sv_exact W L RG) as (sh & E).
  - intros _ _. cbn. tauto.
  - discriminate.
  - discriminate.
  - lia.
  - right. eexists. split; [reflexivity|]. repeat constructor.
  - exists std_ag, exact_sv, Torch, 2%nat, spin0, sh, 0%nat, 1%nat. split; [exact std_exact|]. split; [exact exact_sv_exact|]. split; [exact W|]. split; [exact L|].
    split; [apply spin_isotropic|]. split; [lia|]. split; [lia|]. split; [exact E|].
    assert (J0 : angular_momentum 0 1 (mod_manifold spin0) = 1) by (unfold spin0, spin, mod_manifold, angular_momentum, rows_momentum; cbn; ring). split; [exact J0|].
    destruct (C87_torch_euler _ _ _ _ _ _ _ _ _ 2%nat _ _ 0%nat 1%nat std_exact exact_sv_exact W L (spin_isotropic _ _ _ _ _) ltac:(lia) ltac:(lia) ltac:(lia) E) as (states & LS & E0 & E1 & _ & ST).
    destruct (ST 0%nat _ _ E0 E1) as (gv & Kv & HV & ->). rewrite J0.
    pose proof (spin_field exact_sv Torch (pt 1 0) (pt 0 0) (pt 1 1) (pt 0 0) (mk0 0) (pt 1 0) (pt 0 0) (pt 1 1) (pt 0 0) eq_refl eq_refl eq_refl eq_refl) as HF.
    pose proof (hamilton_unique _ _ _ _ HV HF) as EQ. 
    destruct gv as [| | | | |gs]; try discriminate Kv. cbn [spin0 spin mod_manifold map skel] in Kv. injection Kv as Kv. destruct gs as [|g0 [|g1 [|]]]; try discriminate Kv.
    cbn [map] in Kv. injection Kv as K0 K1. destruct g0 as [d0 n0 q p| | | | |]; try discriminate K0. destruct g1 as [d1 n1 c pc| | | | |]; try discriminate K1.
    unfold phase in EQ. cbn [g_gd g_cotan flat_map app spin_velocity] in EQ.
    inversion EQ as [|? ? ? ? Q1 EQ1]; subst. inversion EQ1 as [|? ? ? ? Q2 EQ2]; subst. inversion EQ2 as [|? ? ? ? Q3 EQ3]; subst. inversion EQ3 as [|? ? ? ? Q4 _]; subst. clear EQ EQ1 EQ2 EQ3.
    unfold angular_momentum, rows_momentum. cbn [map fold_right].
    assert (G : forall (t : tensor) x y, teq t (pt x y) -> shape t = row /\ t @2 0%nat 0%nat = x /\ t @2 0%nat 1%nat = y).
    { intros t x y (S & X). split; [exact S|]. split; [apply (X [0%nat; 0%nat])|apply (X [0%nat; 1%nat])]; rewrite S; cbn; lia. }
    destruct (G _ _ _ Q1) as (S1 & A1 & B1). destruct (G _ _ _ Q2) as (S2 & A2 & B2). destruct (G _ _ _ Q3) as (S3 & A3 & B3). destruct (G _ _ _ Q4) as (S4 & A4 & B4).
    rewrite S1, S2. unfold row, tnth. cbn [nth]. rewrite !rsum_S, !rsum_0, A1, B1, A2, B2, A3, B3, A4, B4. unfold reach. cbn. field.
Qed.
Print Assumptions C87_shooting_keeps_angular_momentum_refuted.
