(** Property theorems: the order in which modules are listed, and how they are nested in
    compounds, do not matter (C88). *)
From Coq Require Import Reals String List Arith Lia Lra Permutation.
From Verif Require Import Py RSum Tensor TensorFacts KernelModel FieldModel GeometryModel ModuleModel ShootingModel
  SpecLinAlg SpecKernel SpecField SpecGeometry SpecModule SpecShooting SpecMotion SpecTransport SpecSmooth SpecOrder ModuleAlg ModuleLeaves ModuleMain
  ShootingPack ShootingDyn ShootingScheme ShootingFinal ShootingInst ShootingTotal ShootingExample PropModule PropShooting MotionFacts MotionShoot MotionMomentum
  MotionExample TransportFacts RigidControl RigidShoot PropRigid DiffBuild SmoothRun SolverExists PropSmooth EnergyFacts OrderFacts OrderShoot.
Import ListNotations.
Open Scope R_scope.

(** Given the same controls, the modules listed in another order or nested otherwise
    generate the same vector field, with the same derivative, at the same cost and with the
    same Hamiltonian; and what one accepts the other accepts. *)
Theorem C88_given_controls : forall sv d p m m' c m1,
  exact_solver sv -> wf_mod d m -> wf_mod d m' -> rearranged p m m' -> ctrl_ok d m c -> fill_controls sv m c = Ok m1 ->
  (exists c', ctrl_ok d m' c' /\ driven_alike p m m' c c') /\
  forall c', ctrl_ok d m' c' -> driven_alike p m m' c c' ->
  exists m1' f f', fill_controls sv m' c' = Ok m1' /\ rearranged p m1 m1' /\ cost m1' = cost m1 /\ hamiltonian m1' = hamiltonian m1 /\
    field_generator m1 = Ok f /\ field_generator m1' = Ok f' /\
    (forall x a, fval d f' x a = fval d f x a) /\ forall x a b, fjac d f' x a b = fjac d f x a b.
Proof.
  intros sv d p m m' c m1 HS W W' (P & EL) O F. pose proof (ctrl_leaves d m c O) as FK. pose proof (fill_leaves sv d m c m1 O F) as FL. split.
  - destruct (assemble d m' (pick p (cpieces m c))) as (c' & O' & E'); [|exists c'; auto]. rewrite EL. clear - FK. induction p as [|i p IH]; [constructor|]. rewrite !pick_cons. apply Forall2_app; [|exact IH].
    clear IH. revert i. induction FK as [|x y a b T _ IH]; intros [|i]; cbn [nth_error]; try (constructor; fail); [repeat constructor; exact T|apply IH].
  - intros c' O' DA.
    assert (X : mapM (fun x => fill_controls sv (fst x) (snd x)) (combine (leaves m') (cpieces m' c')) = Ok (pick p (leaves m1))) by (rewrite EL, DA, <- pick_combine by exact (F2len FK); exact (mapM_pick _ p _ _ FL)).
    destruct (fill_back sv d m' c' _ O' X) as (m1' & F'). rewrite (fill_leaves sv d m' c' m1' O' F') in X. injection X as X.
    assert (LL : length (leaves m1) = length (leaves m)) by (rewrite (mapM_len _ _ _ FL), combine_length, <- (F2len FK), Nat.min_id; reflexivity).
    assert (RE : rearranged p m1 m1') by (split; [rewrite LL; exact P|exact X]).
    assert (PM : Permutation (leaves m1) (leaves m1')) by (rewrite X; apply Permutation_sym, pick_perm; exact (proj1 RE)).
    destruct (filled sv d HS m c m1 W O F) as (f & x & FG & _ & C). destruct (filled sv d HS m' c' m1' W' O' F') as (f' & x' & FG' & _ & C').
    destruct (perm_alike d m1 m1' PM) as (PC & PF & _). exists m1', f, f'. split; [exact F'|]. split; [exact RE|]. split; [rewrite C, C', (PC x x' C C'); reflexivity|].
    split; [|split; [exact FG|split; [exact FG'|exact (PF f f' FG FG')]]].
    pose proof (gain_perm sv d HS m m' c c' m1 m1' W W' O O' F F' PM) as G. rewrite !ham_gain_own, (fill_manifold sv m c m1 F), (fill_manifold sv m' c' m1' F'). exact G.
Qed.
Print Assumptions C88_given_controls.

(** The geodesic controls are those of the same modules; the same cost, the same
    Hamiltonian. *)
Lemma ceq_pieces m : forall c c', ceq c c' -> Forall2 ceq (cpieces m c) (cpieces m c').
Proof.
  induction m as [m NC|ms IH] using dmod_ind'; intros c c' E.
  - assert (X : forall c, cpieces m c = [c]) by (intros k; destruct m; try reflexivity; elim (NC ms eq_refl)). rewrite !X. repeat constructor. exact E.
  - destruct c as [t|l], c' as [t'|l']; try contradiction E; [apply Forall2_cons; [exact E|apply Forall2_nil]|]. cbn [ceq cpieces] in *. revert l l' E.
    induction IH as [|m ms Hm _ IHs]; intros l l' E; [constructor|]. destruct l as [|a l], l' as [|a' l']; try contradiction E; [constructor|]. destruct E as (E1 & E2). apply Forall2_app; [exact (Hm a a' E1)|exact (IHs l l' E2)].
Qed.
Theorem C88_geodesic_controls : forall sv b0 d p m m' m1 m1',
  exact_solver sv -> wf_mod d m -> wf_mod d m' -> rearranged p m m' ->
  geodesic_controls sv b0 m = Ok m1 -> geodesic_controls sv b0 m' = Ok m1' ->
  Forall2 ceq (pick p (cpieces m (controls m1))) (cpieces m' (controls m1')) /\
  cost m1' = cost m1 /\ hamiltonian m1' = hamiltonian m1.
Proof.
  intros sv b0 d p m m' m1 m1' HS W W' RE E E'.
  assert (PM : Permutation (leaves m) (leaves m')) by (destruct RE as (P & ->); apply Permutation_sym, pick_perm; exact P).
  destruct (geodesic_perm sv d HS b0 m m' m1 m1' W W' PM E E') as (x & H & H' & C & C' & G). split; [|split; congruence].
  unfold geodesic_controls in E, E'. destruct (wf_mod_manifold d m W) as (WG & NE). destruct (wf_mod_manifold d m' W') as (WG' & NE').
  destruct (geodesic_max sv b0 d HS m _ m1 W WG NE E) as (O & F & g & GA & _).
  destruct (C88_given_controls sv d p m m' (controls m1) m1 HS W W' RE O F) as ((c' & O' & DA) & X). destruct (X c' O' DA) as (n1 & f & f' & FN & RN & _ & HN & _).
  rewrite <- DA. apply ceq_pieces. apply (C19_only_maximiser sv b0 d m' _ m1' c' n1 g HS W' WG' NE' E' O' FN); [|congruence].
  rewrite <- GA, <- (fill_manifold sv m' c' n1 FN), <- (fill_manifold sv m _ m1 F), <- !ham_gain_own. exact HN.
Qed.
Print Assumptions C88_geodesic_controls.

(** Shooting with torch_euler, with geodesic or with given controls: each module moves as
    it does in the other list. *)
Theorem C88_torch_euler : forall ck ck' others others' sv b0 ag ag' it t1 t1' cs cs' keep costs0 d p m m' sh sh',
  exact_grad ag -> exact_grad ag' -> exact_solver sv -> wf_mod d m -> wf_mod d m' -> locals_smooth d m -> rearranged p m m' ->
  match cs, cs' with None, None => True | Some l, Some l' => Forall2 (driven_alike p m m') l l' | _, _ => False end ->
  (forall l x, cs = Some l -> In x l -> ctrl_ok d m x) -> (forall l x, cs' = Some l -> In x l -> ctrl_ok d m' x) ->
  shoot ck others sv b0 ag "torch_euler" it t1 cs keep costs0 m = Ok sh ->
  shoot ck' others' sv b0 ag' "torch_euler" it t1' cs' keep costs0 m' = Ok sh' ->
  shot_alike p m m' sh sh'.
Proof.
  intros ck ck' others others' sv b0 ag ag' it t1 t1' cs cs' keep costs0 d p m m' sh sh' EX EX' HS W W' LS RE CS CO CO' E E'.
  destruct (wf_mod_manifold d m W) as (WG & _). destruct (wf_mod_manifold d m' W') as (WG' & _).
  destruct (C25_torch_euler_steps ck others sv b0 ag it t1 cs keep costs0 m sh EX (wf_shapes d _ WG) E)
    as (IT & states & mods & L & LM & E0 & E1 & T & AT & K & CC & KE).
  destruct (C25_torch_euler_steps ck' others' sv b0 ag' it t1' cs' keep costs0 m' sh' EX' (wf_shapes d _ WG') E')
    as (_ & states' & mods' & L' & LM' & E0' & E1' & T' & AT' & K' & CC' & KE').
  rewrite Forall_forall in K, K'.
  assert (P : forall i g g', nth_error states i = Some g -> nth_error states' i = Some g' -> moved_alike p m m' g g').
  { intros i g g' Eg Eg'. apply (states_alike p m m' RE); [exact (K g (nth_error_In _ _ Eg))|exact (K' g' (nth_error_In _ _ Eg'))|].
    eapply (run_alike d p m m' sv b0 cs cs' HS W W' LS RE CS CO CO' SEuler (1 / INR it) _ _ _ _ _ _ T T');
      [rewrite !map_length, !firstn_length; lia|rewrite nth_error_map, E0; reflexivity|rewrite nth_error_map, E0'; reflexivity|apply start; assumption|rewrite nth_error_map, Eg; reflexivity|rewrite nth_error_map, Eg'; reflexivity]. }
  split; [exact (P it _ _ E1 E1')|]. split; [congruence|].
  destruct keep; [|rewrite KE, KE'; exact Logic.I]. destruct KE as (ks & _ & ->). destruct KE' as (ks' & _ & ->). cbn [in_states]. apply PropRigid.forall2_nth; [congruence|exact P].
Qed.
Print Assumptions C88_torch_euler.

(** euler, midpoint and rk4 of torchdiffeq, with geodesic controls. *)
Theorem C88_fixed_step_schemes : forall others others' sv b0 ag ag' sch it t1 keep costs0 costs0' d p m m' sh sh',
  exact_grad ag -> exact_grad ag' -> exact_solver sv -> wf_mod d m -> wf_mod d m' -> locals_smooth d m -> rearranged p m m' ->
  shootable m -> shootable m' -> 0 < t1 -> (0 < it)%nat ->
  shoot real_clock others sv b0 ag (scheme_name sch) it t1 None keep costs0 m = Ok sh ->
  shoot real_clock others' sv b0 ag' (scheme_name sch) it t1 None keep costs0' m' = Ok sh' ->
  shot_alike p m m' sh sh'.
Proof.
  intros others others' sv b0 ag ag' sch it t1 keep costs0 costs0' d p m m' sh sh' EX EX' HS W W' LS RE SH SH' T1 IT E E'.
  destruct SH as (ms & EQm & SI & SP). destruct SH' as (ms' & EQm' & SI' & SP').
  rewrite EQm in E. rewrite EQm' in E'.
  destruct (whole_moments sv b0 ag t1 it keep ms T1 IT SI ltac:(rewrite EQm in *; assumption) EX others sch costs0 sh E) as (states & stages & mods & costs & L & LS0 & LE & T & (g0 & E0 & V0) & E1 & K & AT & CC & CL & CR & KE).
  destruct (whole_moments sv b0 ag' t1 it keep ms' T1 IT SI' ltac:(rewrite EQm' in *; assumption) EX' others' sch costs0' sh' E') as (states' & stages' & mods' & costs' & L' & LS0' & LE' & T' & (g0' & E0' & V0') & E1' & K' & AT' & CC' & CL' & CR' & KE').
  rewrite <- EQm in *. rewrite <- EQm' in *. clear E E' EQm EQm' SI SI'.
  rewrite Forall_forall in K, K'.
  assert (CO : forall m l x, @None (list ctrl) = Some l -> In x l -> ctrl_ok d m x) by discriminate.
  set (TT := twice (places p m) (g_len (mod_manifold m))). set (shs := map shape (phase (mod_manifold m))).
  assert (R0 : picked TT shs (phase g0) (phase g0')).
  { destruct (start p m m' RE) as (_ & S2). pose proof (values_phase _ _ V0) as P0. pose proof (values_phase _ _ V0') as P0'. split; [exact (leq_shape _ _ P0)|].
    apply (leq_trans' _ _ _ P0'). apply (leq_trans' _ _ _ S2). apply leq_pick. apply leq_sym. exact P0. }
  assert (R : forall i g g', nth_error states i = Some g -> nth_error states' i = Some g' -> picked TT shs (phase g) (phase g') /\
    forall ss ss', nth_error stages i = Some ss -> nth_error stages' i = Some ss' -> Forall2 (picked TT shs) ss ss').
  { intros i g g' Eg Eg'.
    eapply (run_alike d p m m' sv b0 None None HS W W' LS RE Logic.I (CO m) (CO m') sch (t1 / INR it) _ _ _ _ _ _ T T');
      [congruence|rewrite nth_error_map, E0; reflexivity|rewrite nth_error_map, E0'; reflexivity|exact R0|rewrite nth_error_map, Eg; reflexivity|rewrite nth_error_map, Eg'; reflexivity]. }
  assert (P : forall i g g', nth_error states i = Some g -> nth_error states' i = Some g' -> moved_alike p m m' g g').
  { intros i g g' Eg Eg'. apply (states_alike p m m' RE); [exact (K g (nth_error_In _ _ Eg))|exact (K' g' (nth_error_In _ _ Eg'))|exact (proj2 (proj1 (R i g g' Eg Eg')))]. }
  split; [exact (P it _ _ E1 E1')|]. split.
  - rewrite CC, CC'. f_equal. apply costs_eq; [congruence|]. intros k x' x Ex' Ex.
    assert (Kt : (k < it)%nat) by (rewrite <- CL; apply nth_error_Some; congruence).
    destruct (CR k Kt) as (mk & y & Em & Cm & Ey). destruct (CR' k Kt) as (mk' & y' & Em' & Cm' & Ey'). rewrite Ex in Ey. injection Ey as <-. rewrite Ex' in Ey'. injection Ey' as <-.
    destruct (mapM_back _ _ _ _ _ AT Em) as (l & El & Al). destruct (mapM_back _ _ _ _ _ AT' Em') as (l' & El' & Al').
    assert (RS : Forall2 (Forall2 (picked TT shs)) stages stages').
    { apply PropRigid.forall2_nth; [congruence|]. intros i ss ss' Es Es'. assert (Ii : (i < it)%nat) by (rewrite <- LS0; apply nth_error_Some; congruence).
      destruct (nth_error states i) as [g|] eqn:Eg; [|apply nth_error_None in Eg; lia]. destruct (nth_error states' i) as [g'|] eqn:Eg'; [|apply nth_error_None in Eg'; lia].
      exact (proj2 (R i g g' Eg Eg') ss ss' Es Es'). }
    destruct (forall2_at _ _ _ (forall2_concat _ _ _ RS) _ _ _ El El') as (S1 & S2).
    exact (cost_picked d p m m' sv b0 None None HS W W' LS RE Logic.I (CO m) (CO m') l l' mk mk' x x' eq_refl eq_refl S1 S2 Al Al' Cm Cm').
  - destruct keep; [|rewrite KE, KE'; exact Logic.I]. destruct KE as (ks & _ & ->). destruct KE' as (ks' & _ & ->). cbn [in_states]. apply PropRigid.forall2_nth; [congruence|exact P].
Qed.
Print Assumptions C88_fixed_step_schemes.

(** The compound of C82, its modules shuffled and nested; and shuffled only. *)
Definition places_ex : list nat := [4; 0; 2; 1; 3]%nat.
Definition sturdy2 : dmod :=
  match sturdy with
  | MComp [a; b; c; e; f] => MComp [MComp [f; a]; c; MComp [MComp [b]; e]]
  | m => m
  end.
Definition sturdy3 : dmod :=
  match sturdy with
  | MComp [a; b; c; e; f] => MComp [f; a; c; b; e]
  | m => m
  end.
Lemma places_ex_perm : Permutation places_ex (seq 0 5).
Proof.
  unfold places_ex. cbn [seq]. apply NoDup_Permutation; [repeat constructor; cbn; lia|repeat constructor; cbn; lia|]. intros x. cbn. lia.
Qed.
Lemma sturdy2_wf : wf_mod 2 sturdy2.
Proof. cbn. repeat match goal with |- _ /\ _ => split | |- True => exact Logic.I | |- exists M s v, _ => exists 3%nat; do 2 eexists; repeat split end; try discriminate; try lra; try reflexivity. eexists. reflexivity. Qed.
Lemma sturdy3_wf : wf_mod 2 sturdy3.
Proof. cbn. repeat match goal with |- _ /\ _ => split | |- True => exact Logic.I | |- exists M s v, _ => exists 3%nat; do 2 eexists; repeat split end; try discriminate; try lra; try reflexivity. eexists. reflexivity. Qed.
Lemma sturdy2_everywhere : everywhere (regular 2) sturdy2.
Proof.
  intros g m1 K SP E. destruct g as [| | | | |gs]; try discriminate K. cbn [sturdy2 sturdy mod_manifold map skel] in K. injection K as K.
  destruct gs as [|h0 [|g2 [|h1 [|]]]]; try discriminate K. cbn [map] in K. injection K as K0 K2 K1.
  destruct h0 as [| | | | |gs0]; try discriminate K0. destruct h1 as [| | | | |gs1]; try discriminate K1. cbn [skel] in K0, K1. injection K0 as K0. injection K1 as K1.
  destruct gs0 as [|g4 [|g0 [|]]]; try discriminate K0. destruct gs1 as [|h2 [|g3 [|]]]; try discriminate K1. cbn [map] in K0, K1. injection K0 as K4 K0. injection K1 as K1 K3.
  destruct h2 as [| | | | |gs2]; try discriminate K1. cbn [skel] in K1. injection K1 as K1. destruct gs2 as [|g1 [|]]; try discriminate K1. cbn [map] in K1. injection K1 as K1.
  destruct g0; try discriminate K0. destruct g1; try discriminate K1. destruct g2; try discriminate K2. destruct g3; try discriminate K3. destruct g4; try discriminate K4.
  cbn in E. injection E as <-. cbn in SP. injection SP as P1 P2 P3 P4 P5 P6 P7 P8.
  cbn [regular fold_right]. repeat match goal with |- _ /\ _ => split | |- True => exact Logic.I | |- _ \/ _ => left; lra end.
  match goal with |- context [circle_support 3 ?g] => apply (scaling_regular g g) end. assumption.
Qed.
Lemma sturdy3_everywhere : everywhere (regular 2) sturdy3.
Proof.
  intros g m1 K SP E. destruct g as [| | | | |gs]; try discriminate K. cbn [sturdy3 sturdy mod_manifold map skel] in K. injection K as K.
  destruct gs as [|g0 [|g1 [|g2 [|g3 [|g4 [|]]]]]]; try discriminate K. cbn [map] in K. injection K as K0 K1 K2 K3 K4.
  destruct g0; try discriminate K0. destruct g1; try discriminate K1. destruct g2; try discriminate K2. destruct g3; try discriminate K3. destruct g4; try discriminate K4.
  cbn in E. injection E as <-. cbn in SP. injection SP as P1 P2 P3 P4 P5 P6 P7 P8.
  split; [apply scaling_regular; assumption|]. split; [exact Logic.I|]. split; [left; lra|]. split; [left; lra|]. split; [left; lra|exact Logic.I].
Qed.

Example C88_hypotheses : forall ck others b0 it t1 t1' costs0, (0 < it)%nat -> 0 < t1' ->
  exact_grad std_ag /\ exact_solver exact_sv /\ wf_mod 2 sturdy /\ wf_mod 2 sturdy2 /\ wf_mod 2 sturdy3 /\ locals_smooth 2 sturdy /\
  rearranged places_ex sturdy sturdy2 /\ rearranged places_ex sturdy sturdy3 /\ shootable sturdy /\ shootable sturdy3 /\
  is_ok (geodesic_controls exact_sv b0 sturdy) /\ is_ok (geodesic_controls exact_sv b0 sturdy2) /\
  is_ok (shoot ck others exact_sv b0 std_ag "torch_euler" it t1 None false costs0 sturdy) /\
  is_ok (shoot ck others exact_sv b0 std_ag "torch_euler" it t1 None false costs0 sturdy2) /\
  is_ok (shoot real_clock (fun _ => None) exact_sv b0 std_ag "rk4" it t1' None true None sturdy) /\
  is_ok (shoot real_clock (fun _ => None) exact_sv b0 std_ag "rk4" it t1' None true None sturdy3).
Proof.
  intros ck others b0 it t1 t1' costs0 IT T1. assert (PM := places_ex_perm).
  destruct (C82_hypotheses ck others b0 it t1 t1' false costs0 IT T1) as (_ & _ & _ & _ & _ & _ & _ & _ & SH & TE & _).
  destruct (C82_hypotheses ck others b0 it t1 t1' true costs0 IT T1) as (_ & _ & _ & _ & _ & _ & _ & _ & _ & _ & RK).
  assert (R2 : rearranged places_ex sturdy sturdy2) by (split; [exact PM|reflexivity]). assert (R3 : rearranged places_ex sturdy sturdy3) by (split; [exact PM|reflexivity]).
  assert (L2 : locals_smooth 2 sturdy2) by (apply (LS' 2 places_ex sturdy); [exact sturdy_smooth|exact R2]).
  assert (L3 : locals_smooth 2 sturdy3) by (apply (LS' 2 places_ex sturdy); [exact sturdy_smooth|exact R3]).
  assert (SH3 : shootable sturdy3) by (eexists; split; [reflexivity|]; split; [repeat constructor|cbn; tauto]).
  assert (CO : forall m l c, @None (list ctrl) = Some l -> In c l -> ctrl_ok 2 m c) by discriminate.
  split; [exact std_exact|]. split; [exact exact_sv_exact|]. split; [exact sturdy_wf|]. split; [exact sturdy2_wf|]. split; [exact sturdy3_wf|]. split; [exact sturdy_smooth|].
  split; [exact R2|]. split; [exact R3|]. split; [exact SH|]. split; [exact SH3|]. split; [|split; [|split; [exact TE|split; [|split; [exact RK|]]]]].
  - exact (regular_reached exact_sv b0 2 sturdy None exact_sv_exact sturdy_wf sturdy_smooth sturdy_everywhere ltac:(intros _ _; cbn; tauto) (CO sturdy) 0%nat sturdy (reached0 None sturdy) Logic.I).
  - exact (regular_reached exact_sv b0 2 sturdy2 None exact_sv_exact sturdy2_wf L2 sturdy2_everywhere ltac:(intros _ _; cbn; tauto) (CO sturdy2) 0%nat sturdy2 (reached0 None sturdy2) Logic.I).
  - apply (C82_torch_euler ck others exact_sv b0 std_ag it t1 None false costs0 2 sturdy2 std_exact std_differentiates exact_sv_exact sturdy2_wf L2 sturdy2_everywhere);
      [intros _ _; cbn; tauto|discriminate|discriminate|exact IT|left; reflexivity].
  - apply (C82_fixed_step_schemes (fun _ => None) exact_sv b0 std_ag SRk4 it t1' true None 2 sturdy3 std_exact std_differentiates exact_sv_exact sturdy3_wf L3 sturdy3_everywhere);
      [intros _; cbn; tauto|exact SH3|cbn; lia|exact T1|exact IT].
Qed.
Example C88_controls_exist : forall b0 : backend, exists m1, ctrl_ok 2 sturdy (controls m1) /\ fill_controls exact_sv sturdy (controls m1) = Ok m1.
Proof.
  intros b0. destruct (C88_hypotheses real_clock (fun _ => None) b0 1 1 1 None ltac:(lia) ltac:(lra)) as (_ & HS & W & _ & _ & _ & _ & _ & _ & _ & (m1 & E) & _).
  destruct (wf_mod_manifold 2 sturdy W) as (WG & NE). destruct (geodesic_max exact_sv b0 2 HS sturdy _ m1 W WG NE E) as (O & F & _). exists m1. split; assumption.
Qed.
