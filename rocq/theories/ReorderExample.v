(** Two points moved by two global translations, for the example of C115. *)
From Coq Require Import Reals String List Arith Lia Lra Permutation.
From Coquelicot Require Import Coquelicot.
From Verif Require Import Py RSum Tensor TensorFacts Fl OptimModel FitModel SpecOptim KernelModel FieldModel GeometryModel ModuleModel ShootingModel RegistrationModel
  SpecModule SpecShooting SpecMotion SpecRegistration SpecSmooth SpecOrder SpecElsewhere SpecFitElsewhere
  ModuleLeaves ModuleMain ShootingPack ShootingDyn ShootingTotal SolverExists ShootingExample MotionExample MotionMomentum ReduceFacts RegistrationRun RegistrationParams RegistrationShoot ElsewhereFacts ShootingFinal PropShooting PropSmooth PropRegistration PropAtlas PropElsewhere FitElsewhere PropFitElsewhere PropShuffle.
Import ListNotations.
Open Scope string_scope.
Open Scope list_scope.
Open Scope R_scope.

(** An attachment that reads the first coordinate, with a weight. *)
Definition reading (k : R) : attachment := fun x _ => bind (coordinate x []) (fun v => Ok (k * v)).

Section Two.
Variables (others : string -> option (list (time real_clock) -> tensor -> ShootingModel.strat (time real_clock))) (sv : solver) (b0 : backend).
Hypothesis HS : exact_solver sv.
Notation geo := (geodesic_controls sv b0).
Variables (c c' : R).
Hypothesis C0 : 0 < c.
Hypothesis C1 : 0 < c'.
Definition gain : R := / c + / c'.
Definition two_mod (q q' p p' h h' : tensor) : dmod := MComp [MSilent (GLm 1 1 q p); MSilent (GLm 1 1 q' p'); MGlobal 1 c h; MGlobal 1 c' h'].
Definition is11 (t : tensor) : Prop := shape t = [1%nat; 1%nat].

Lemma two_geo q q' p p' h h' : is11 q -> is11 q' -> is11 p -> is11 p' -> tnth (shape h) 0 = 1%nat -> tnth (shape h') 0 = 1%nat ->
  exists k k', tnth (shape k) 0 = 1%nat /\ tnth (shape k') 0 = 1%nat /\ geo (two_mod q q' p p' h h') = Ok (two_mod q q' p p' k k') /\
    hamiltonian (two_mod q q' p p' k k') = Ok (gain / 2 * (p @2 0%nat 0%nat + p' @2 0%nat 0%nat) ^ 2).
Proof.
  unfold is11. destruct q as [sq q]. destruct p as [sp p]. destruct q' as [sq' q']. destruct p' as [sp' p']. intros A A' B B' H1 H2. cbn [shape] in A, A', B, B'. subst.
  unfold geodesic_controls, two_mod. cbn [mod_manifold map compute_geodesic_control]. unfold global_geodesic. rewrite H1, H2. cbn.
  eexists (mk1 1 _), (mk1 1 _). split; [reflexivity|]. split; [reflexivity|]. split; [reflexivity|].
  unfold hamiltonian, apply_mom, gain. cbn. f_equal. field. lra.
Qed.

Lemma two_ham q q' p p' h h' u u' v v' : is11 u -> is11 u' -> is11 v -> is11 v' -> tnth (shape h) 0 = 1%nat -> tnth (shape h') 0 = 1%nat ->
  ham_of (two_mod q q' p p' h h') geo [u; u'; v; v'] = Ok (gain / 2 * (v @2 0%nat 0%nat + v' @2 0%nat 0%nat) ^ 2).
Proof.
  intros A A' B B' H1 H2. unfold ham_of. change (write_manifold (two_mod q q' p p' h h') [u; u'; v; v']) with (Ok (two_mod u u' v v' h h')). cbn [bind].
  destruct (two_geo u u' v v' h h' A A' B B' H1 H2) as (k & k' & _ & _ & E & H). rewrite E. exact H.
Qed.

Lemma two_slope q q' p p' h h' u u' v v' i : is11 u -> is11 u' -> is11 v -> is11 v' -> tnth (shape h) 0 = 1%nat -> tnth (shape h') 0 = 1%nat -> i = 2%nat \/ i = 3%nat ->
  partial_derivative (ham_of (two_mod q q' p p' h h') geo) [u; u'; v; v'] i [0%nat; 0%nat] (gain * (v @2 0%nat 0%nat + v' @2 0%nat 0%nat)).
Proof.
  intros A A' B B' H1 H2 [->| ->].
  - exists 1, (fun s => gain / 2 * (s + v' @2 0%nat 0%nat) ^ 2). split; [lra|]. split.
    + intros s _. cbn [upd]. rewrite two_ham by assumption. reflexivity.
    + cbn [entry nth_error]. apply is_derive_Reals. auto_derive; [exact Logic.I|]. cbn. field.
  - exists 1, (fun s => gain / 2 * (v @2 0%nat 0%nat + s) ^ 2). split; [lra|]. split.
    + intros s _. cbn [upd]. rewrite two_ham by assumption. reflexivity.
    + cbn [entry nth_error]. apply is_derive_Reals. auto_derive; [exact Logic.I|]. cbn. field.
Qed.

Definition two_start (q q' : tensor) (a b : R) : dmod := start [DPoints (GLm 1 1 q (of_entries [1%nat; 1%nat] [a])); DPoints (GLm 1 1 q' (of_entries [1%nat; 1%nat] [b]))] [MGlobal 1 c (tzeros [1%nat]); MGlobal 1 c' (tzeros [1%nat])].

Lemma two_shot q q' a b sh : is11 q -> is11 q' ->
  shoot real_clock others sv b0 std_ag "euler" 1 1 None true None (two_start q q' a b) = Ok sh ->
  sh_costs sh = Some [gain / 2 * (a + b) ^ 2] /\ exists q1 q1' p1 p1' g2 g3, mod_manifold (sh_mod sh) = GComp [GLm 1 1 q1 p1; GLm 1 1 q1' p1'; g2; g3] /\ is11 q1 /\ is11 q1' /\
    q1 @2 0%nat 0%nat = q @2 0%nat 0%nat + gain * (a + b) /\ q1' @2 0%nat 0%nat = q' @2 0%nat 0%nat + gain * (a + b).
Proof.
  unfold is11. intros Sq Sq' E. set (p := of_entries [1%nat; 1%nat] [a]). set (p' := of_entries [1%nat; 1%nat] [b]).
  set (ms := [MSilent (GLm 1 1 q p); MSilent (GLm 1 1 q' p'); MGlobal 1 c (tzeros [1%nat]); MGlobal 1 c' (tzeros [1%nat])]).
  assert (SI : Forall simple (map mod_manifold ms)) by (repeat constructor).
  assert (SP : shaped (GComp (map mod_manifold ms))) by (cbn; rewrite Sq, Sq'; repeat split).
  destruct (whole_moments sv b0 std_ag 1 1 true ms Rlt_0_1 Nat.lt_0_1 SI SP std_exact others SEuler None sh E)
    as (states & stages & mods & costs & L1 & L2 & L3 & TR & (g0 & G0 & V0) & G1 & KS & MO & CO & LC & RC & _).
  destruct stages as [|ss [|? ?]]; try discriminate L2. destruct states as [|g0' [|g1 [|? ?]]]; try discriminate L1. injection G0 as ->. injection G1 as G1.
  destruct (proj2 TR 0%nat (phase g0) ss (phase g1) eq_refl eq_refl eq_refl) as (k & -> & (SK & n & LN & _ & PD) & LE).
  fold ms in PD. destruct V0 as ((_ & VQ) & (_ & VP)). cbn [ms mod_manifold map g_gd g_cotan flat_map app] in VQ, VP.
  inversion KS as [|? ? K0 KS']; subst. inversion KS' as [|? ? K1 _]; subst. clear KS KS'.
  assert (SH : forall g, skel g = skel (mod_manifold (MComp ms)) -> exists q q' p p' g2 g3, g = GComp [GLm 1 1 q p; GLm 1 1 q' p'; g2; g3] /\ g_gd g = [q; q'] /\ g_cotan g = [p; p']).
  { intros g K. destruct g as [| | | | |gs]; try discriminate K. cbn [ms mod_manifold map skel] in K. injection K as K.
    destruct gs as [|u [|u' [|w [|w' [|? ?]]]]]; try discriminate K. cbn [map] in K. injection K as Ku Ku' Kw Kw'. destruct u; try discriminate Ku. destruct u'; try discriminate Ku'. destruct w; try discriminate Kw. destruct w'; try discriminate Kw'.
    injection Ku as -> ->. injection Ku' as -> ->. eexists _, _, _, _, _, _. split; [reflexivity|]. split; reflexivity. }
  destruct (SH _ K0) as (q0 & q0' & p0 & p0' & w0 & w0' & -> & Gq0 & Gp0). destruct (SH _ K1) as (q1 & q1' & p1 & p1' & w1 & w1' & M1 & Gq1 & Gp1). rewrite Gq0 in VQ. rewrite Gp0 in VP.
  inversion VQ as [|? ? ? ? TQ VQ']; subst. inversion VQ' as [|? ? ? ? TQ' _]; subst. inversion VP as [|? ? ? ? TP VP']; subst. inversion VP' as [|? ? ? ? TP' _]; subst. clear VQ VP VQ' VP'.
  unfold phase in LE, PD, LN, MO, SK. rewrite Gq0, Gp0 in *. rewrite Gq1, Gp1 in LE. cbn [app] in *. assert (n = 2%nat) by (cbn in LN; lia). subst n.
  assert (S0 : shape q0 = [1%nat; 1%nat]) by (rewrite (proj1 TQ); exact Sq). assert (S0' : shape q0' = [1%nat; 1%nat]) by (rewrite (proj1 TQ'); exact Sq'). assert (S1 : shape p0 = [1%nat; 1%nat]) by exact (proj1 TP). assert (S1' : shape p0' = [1%nat; 1%nat]) by exact (proj1 TP').
  destruct k as [|kq [|kq' [|kp [|kp' [|? ?]]]]]; try discriminate SK. cbn in SK. injection SK as SK1 SK1' SK2 SK2'. inversion LE as [|? ? ? ? LEq LE']; subst. inversion LE' as [|? ? ? ? LEq' _]; subst.
  assert (EP : p0 @2 0%nat 0%nat = a) by (destruct TP as (_ & TP); rewrite (TP [0%nat; 0%nat]); [reflexivity|rewrite S1; cbn; lia]).
  assert (EP' : p0' @2 0%nat 0%nat = b) by (destruct TP' as (_ & TP'); rewrite (TP' [0%nat; 0%nat]); [reflexivity|rewrite S1'; cbn; lia]).
  assert (EQ : q0 @2 0%nat 0%nat = q @2 0%nat 0%nat) by (apply (proj2 TQ); rewrite S0; cbn; lia).
  assert (EQ' : q0' @2 0%nat 0%nat = q' @2 0%nat 0%nat) by (apply (proj2 TQ'); rewrite S0'; cbn; lia).
  assert (D1 : kq @2 0%nat 0%nat = gain * (a + b)).
  { pose proof (two_slope q q' p p' (tzeros [1%nat]) (tzeros [1%nat]) q0 q0' p0 p0' 2 S0 S0' S1 S1' eq_refl eq_refl (or_introl eq_refl)) as GR.
    destruct (PD 0%nat q0 [0%nat; 0%nat] Nat.lt_0_2 eq_refl ltac:(rewrite S0; cbn; lia)) as (P & _). rewrite <- EP, <- EP'. exact (MotionExample.partial_unique _ _ _ _ _ _ P GR). }
  assert (D1' : kq' @2 0%nat 0%nat = gain * (a + b)).
  { pose proof (two_slope q q' p p' (tzeros [1%nat]) (tzeros [1%nat]) q0 q0' p0 p0' 3 S0 S0' S1 S1' eq_refl eq_refl (or_intror eq_refl)) as GR.
    destruct (PD 1%nat q0' [0%nat; 0%nat] ltac:(lia) eq_refl ltac:(rewrite S0'; cbn; lia)) as (P & _). rewrite <- EP, <- EP'. exact (MotionExample.partial_unique _ _ _ _ _ _ P GR). }
  split.
  - rewrite CO. f_equal. destruct costs as [|c0 [|? ?]]; try discriminate LC. destruct (RC 0%nat Nat.lt_0_1) as (mk & cc & N1 & N2 & N3). cbn in N1, N3. injection N3 as ->. f_equal.
    cbn [List.concat app mapM] in MO. bok MO m1 HA1. injection MO as <-. injection N1 as ->. unfold at_state in HA1.
    change (write_manifold (MComp ms) [q0; q0'; p0; p0']) with (Ok (two_mod q0 q0' p0 p0' (tzeros [1%nat]) (tzeros [1%nat]))) in HA1. cbn [bind] in HA1.
    destruct (two_geo q0 q0' p0 p0' (tzeros [1%nat]) (tzeros [1%nat]) S0 S0' S1 S1' eq_refl eq_refl) as (k & k' & _ & _ & GE & HM). rewrite GE in HA1. injection HA1 as <-.
    assert (WM : wf_mod 1 (two_mod q0 q0' p0 p0' (tzeros [1%nat]) (tzeros [1%nat]))) by (cbn; repeat split; solve [exact S0|exact S0'|exact S1|exact S1'|lra|reflexivity|discriminate]).
    destruct (hamiltonian_cost sv b0 1 HS _ _ WM GE) as (x & X1 & X2 & _). rewrite N2 in X1. rewrite HM in X2. injection X1 as <-. injection X2 as <-. rewrite EP, EP'. field.
  - rewrite M1. exists q1, q1', p1, p1', w1, w1'. split; [reflexivity|]. destruct LEq as (SE & VE). destruct LEq' as (SE' & VE'). cbn in SE, SE'. split; [congruence|]. split; [congruence|]. split.
    + rewrite (VE [0%nat; 0%nat]) by (rewrite SE, S0; cbn; lia). cbn. cbn in D1, EQ. rewrite D1, EQ. field.
    + rewrite (VE' [0%nat; 0%nat]) by (rewrite SE', S0'; cbn; lia). cbn. cbn in D1', EQ'. rewrite D1', EQ'. field.
Qed.

(** The costs of the model with the moments a and b, its attachments reading coordinates. *)
Lemma two_costs h r q q' y y' k k' a b : is11 q -> is11 q' ->
  filled (with_moments h r [[[a]; [b]]]) r = Ok ([DPoints (GLm 1 1 q (of_entries [1%nat; 1%nat] [a])); DPoints (GLm 1 1 q' (of_entries [1%nat; 1%nat] [b]))], [MGlobal 1 c (tzeros [1%nat]); MGlobal 1 c' (tzeros [1%nat])]) ->
  r_fit_controls r = false -> r_reduce r = "sum" -> r_lam r = 2 ->
  r_att r = [reading k; reading k'] ->
  is_ok (evaluate real_clock others sv b0 std_ag (with_moments h r [[[a]; [b]]]) r [y; y'] "euler" 1 1 []) ->
  fit_costs real_clock others sv b0 std_ag h r [y; y'] "euler" 1 1 [[[a]; [b]]] =
    [("deformation", Fin (gain / 2 * (a + b) ^ 2)); ("attach", Fin (2 * (k * (q @2 0%nat 0%nat + gain * (a + b)) + k' * (q' @2 0%nat 0%nat + gain * (a + b)))))].
Proof.
  intros Sq Sq' F RF RR RL RA ((cost & r1) & V). unfold fit_costs. rewrite V. destruct (evaluate_inv real_clock others sv b0 std_ag _ _ _ _ _ _ _ _ V) as (defs & mods & o & atts & F' & CD & AC & _ & ->).
  rewrite F in F'. injection F' as <- <-. unfold steps_of, controls_of in CD. rewrite RF in CD. destruct (compute_inv real_clock others sv b0 std_ag _ _ _ _ _ _ _ _ CD) as (sh & ms & m' & S & MM & _ & RD & DL & _).
  cbn [given] in S, RD. destruct (two_shot q q' a b sh Sq Sq' S) as (CO & q1 & q1' & p1 & p1' & g2 & g3 & M1 & Sq1 & Sq1' & E1 & E1'). rewrite MM in M1. cbn [mod_manifold] in M1. injection M1 as M1.
  destruct ms as [|m1 [|m2 ms]]; [discriminate M1|discriminate M1|]. cbn [map] in M1. injection M1 as M1 M2 _.
  unfold reduction in RD. rewrite RR, CO in RD. cbn in RD. injection RD as RD _. rewrite <- RD. cbn [length firstn deformed_list] in DL. rewrite M1, M2 in DL. cbn in DL. injection DL as DL. rewrite <- DL, RA in AC.
  cbn in AC. injection AC as <-. rewrite RL. cbn. cbn in E1, E1'. rewrite E1, E1'. apply f_equal2; [f_equal; f_equal; ring|]. apply f_equal2; [f_equal; f_equal; ring|reflexivity].
Qed.
End Two.
