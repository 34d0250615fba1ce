(** The order in which the objects and modules of a registration are listed does not matter (C114). *)
From Coq Require Import Reals String List Arith Lia Lra Permutation.
From Verif Require Import Py RSum Tensor TensorFacts KernelModel FieldModel GeometryModel MeshModel AttachmentModel ModuleModel ShootingModel
  SpecLinAlg SpecKernel SpecField SpecGeometry SpecModule SpecShooting SpecMotion SpecTransport SpecSmooth SpecOrder ModuleAlg ModuleLeaves ModuleMain
  ShootingPack ShootingDyn ShootingScheme ShootingFinal ShootingInst ShootingTotal ShootingExample PropModule PropShooting
  MotionExample DiffBuild SmoothRun SolverExists PropSmooth OrderFacts OrderShoot PropOrder
  RegistrationModel SpecRegistration SpecReduce RegistrationRun RegistrationParams RegistrationLife RegistrationShoot PropRegistration ReduceFacts PropReduce SpecRigid SpecElsewhere ElsewhereFacts SpecAttachment PropElsewhere PropAtlasElsewhere SpecShuffle.
Import ListNotations.
Open Scope string_scope.
Open Scope list_scope.
Open Scope R_scope.

(** ** Permutations as lists of places *)

Lemma pick_shift {A} (l l' : list A) p : pick (map (fun i => (length l + i)%nat) p) (l ++ l') = pick p l'.
Proof.
  induction p as [|i p IH]; [reflexivity|]. cbn [map]. rewrite !pick_cons, IH. f_equal. rewrite nth_error_app2 by lia. replace (length l + i - length l)%nat with i by lia. reflexivity.
Qed.
Lemma pick_left {A} (l l' : list A) p : Forall (fun i => (i < length l)%nat) p -> pick p (l ++ l') = pick p l.
Proof. induction 1 as [|i p I _ IH]; [reflexivity|]. rewrite !pick_cons, IH, nth_error_app1 by exact I. reflexivity. Qed.
Lemma perm_places {A} (l l' : list A) : Permutation l l' -> exists p, Permutation p (seq 0 (length l)) /\ l' = pick p l.
Proof.
  induction 1 as [|x l l' P (p & Pp & E)|x y l|l1 l2 l3 P1 (p1 & Pp1 & E1) P2 (p2 & Pp2 & E2)].
  - exists []. split; [constructor|reflexivity].
  - exists (0%nat :: map (fun i => (1 + i)%nat) p). split.
    + cbn [length seq]. constructor. rewrite <- seq_shift. apply Permutation_map. exact Pp.
    + rewrite pick_cons. cbn [nth_error app]. f_equal. change (x :: l) with ([x] ++ l). change 1%nat with (length [x]). rewrite pick_shift. exact E.
  - exists (1%nat :: 0%nat :: seq 2 (length l)). split; [cbn [length seq]; apply perm_swap|]. rewrite !pick_cons. cbn [nth_error app]. do 2 f_equal.
    change (y :: x :: l) with ([y; x] ++ l). change 2%nat with (length [y; x] + 0)%nat. rewrite pick_skip. symmetry. apply pick_all.
  - assert (B : Forall (fun i => (i < length l1)%nat) p1) by (apply pick_bound; exact Pp1). exists (pick p2 p1). split.
    + eapply perm_trans; [|exact Pp1]. apply pick_perm. rewrite (perm_len _ _ Pp1), (Permutation_length P1). exact Pp2.
    + rewrite E2, E1. clear - B Pp2. revert B. generalize p2. clear p2 Pp2. intros p2 B. induction p2 as [|i p2 IH]; [reflexivity|]. rewrite !pick_cons, pick_app, <- IH. f_equal. clear IH.
      revert i. induction B as [|j p1 J _ IH]; intros i; [destruct i; reflexivity|]. rewrite pick_cons. destruct (nth_error l1 j) as [x|] eqn:Q; [|apply nth_error_None in Q; lia].
      destruct i as [|i]; cbn [app nth_error]; [rewrite pick_cons, Q; reflexivity|apply IH].
Qed.

(** ** Where the objects are in the manifold of the shooting *)

Lemma pieces_objects defs : forall mods gs, length gs = (length defs + length mods)%nat -> exists rest, pieces (start defs mods) (GComp gs) = firstn (length defs) gs ++ rest.
Proof.
  intros mods. unfold start. cbn [pieces]. induction defs as [|o defs IH]; intros gs L; cbn [map app length firstn].
  - eexists. reflexivity.
  - destruct gs as [|g gs]; [discriminate L|]. cbn in L. destruct (IH gs ltac:(lia)) as (rest & E). exists rest. cbn [firstn]. change (pieces (silent_module o) g) with [g]. cbn [app]. f_equal. exact E.
Qed.
Lemma leaves_objects defs mods : leaves (start defs mods) = map silent_module defs ++ flat_map leaves mods.
Proof. unfold start. cbn [leaves]. rewrite flat_map_app. f_equal. induction defs as [|o defs IH]; [reflexivity|]. cbn. f_equal. exact IH. Qed.
Lemma shuffled_leaves p defs att ts mods defs' att' ts' mods' : shuffled p defs att ts mods defs' att' ts' mods' ->
  exists p2, rearranged (p ++ map (fun i => (length defs + i)%nat) p2) (start defs mods) (start defs' mods').
Proof.
  intros S. destruct (perm_places _ _ (Permutation_flat_map leaves (sf_modules _ _ _ _ _ _ _ _ _ S))) as (p2 & P2 & E2). pose proof (sf_places _ _ _ _ _ _ _ _ _ S) as P. exists p2.
  unfold rearranged. rewrite !leaves_objects, app_length, map_length, seq_app. cbn [plus]. split.
  - apply Permutation_app; [exact P|]. assert (SH : seq (length defs) (length (flat_map leaves mods)) = map (fun i => (length defs + i)%nat) (seq 0 (length (flat_map leaves mods)))).
    { clear. generalize (length (flat_map leaves mods)) as k. intros k. generalize (length defs) as n. intros n. replace n with (n + 0)%nat at 1 by lia. generalize 0%nat as s. induction k as [|k IH]; intros s; [reflexivity|]. cbn. f_equal. rewrite <- IH. f_equal. lia. }
    rewrite SH. apply Permutation_map. exact P2.
  - rewrite pick_app, pick_left by (rewrite map_length; apply pick_bound; exact P). rewrite (sf_objects _ _ _ _ _ _ _ _ _ S), pick_map, E2. f_equal.
    symmetry. rewrite <- (pick_shift (map silent_module defs) (flat_map leaves mods) p2), map_length. reflexivity.
Qed.

(** ** The costs of the attachments *)

Definition measured (z : deformable * attachment * geom * gman) (c : R) : Prop :=
  exists q x, lm_gd (snd z) = Ok q /\ to_deformed (fst (fst (fst z))) q = Ok x /\ snd (fst (fst z)) x (snd (fst z)) = Ok c.
Lemma measured_each defs : forall att ts ms xs cs, length att = length defs -> length ts = length defs -> length ms = length defs ->
  deformed_list defs ms = Ok xs -> attachment_costs att xs ts = Ok cs -> Forall2 measured (combine (combine (combine defs att) ts) (map mod_manifold ms)) cs.
Proof.
  induction defs as [|o defs IH]; intros att ts ms xs cs La Lt Lm D A; destruct att as [|a att]; try discriminate La; destruct ts as [|y ts]; try discriminate Lt; destruct ms as [|m ms]; try discriminate Lm; cbn [combine map] in *.
  - cbn in A. injection A as <-. constructor.
  - cbn [deformed_list] in D. bok D q HQ. bok D x HX. bok D xs' HR. injection D as <-. cbn [attachment_costs] in A. bok A c HC. bok A cs' HA. injection A as <-.
    constructor; [exists q, x; cbn; auto|]. apply (IH att ts ms xs' cs'); auto.
Qed.
Definition fits (z : deformable * attachment * geom * gman) : Prop := exists q0 q, lm_gd (df_man (fst (fst (fst z)))) = Ok q0 /\ lm_gd (snd z) = Ok q /\ shape q = shape q0.
Lemma measured_alike o a y g g' c c' : reads_values o a y -> fits (o, a, y, g) -> same_values g' g -> measured (o, a, y, g) c -> measured (o, a, y, g') c' -> c' = c.
Proof.
  intros RV (q0 & q1 & Q0 & Q1 & SQ) ((_ & G) & _) (q & x & Q & X & C) (q' & x' & Q' & X' & C'). cbn [fst snd] in *. rewrite Q in Q1. injection Q1 as <-. destruct g; try discriminate Q. destruct g'; try discriminate Q'.
  cbn in Q, Q', G. injection Q as ->. injection Q' as ->. inversion G as [|? ? ? ? T _]; subst. rewrite (RV q0 q q' x x' Q0 SQ T X X'), C in C'. injection C' as ->. reflexivity.
Qed.
Lemma measured_pick (Z : list (deformable * attachment * geom)) (G : list gman) cs : Forall (fun z => reads_values (fst (fst z)) (snd (fst z)) (snd z)) Z -> length Z = length G -> Forall fits (combine Z G) ->
  Forall2 measured (combine Z G) cs -> forall p gs' cs', Forall (fun i => (i < length Z)%nat) p -> Forall2 same_values gs' (pick p G) ->
  Forall2 measured (combine (pick p Z) gs') cs' -> cs' = pick p cs.
Proof.
  intros RV L FT F p gs' cs' B. revert gs' cs'. induction B as [|i p I B IH]; intros gs' cs' SV F'; [inversion SV; subst; inversion F'; reflexivity|].
  rewrite pick_cons. rewrite pick_cons in SV. rewrite pick_cons in F'. destruct (nth_error Z i) as [z|] eqn:EZ; [|apply nth_error_None in EZ; lia]. destruct (nth_error G i) as [g|] eqn:EG; [|apply nth_error_None in EG; lia].
  assert (FI : fits (z, g)).
  { clear - FT EZ EG. revert G i FT EZ EG. induction Z as [|z0 Z IH]; intros [|g0 G] [|i] FT EZ EG; try discriminate; cbn [combine] in FT; inversion FT as [|? ? M F1]; subst; [injection EZ as ->; injection EG as ->; exact M|].
    exact (IH G i F1 EZ EG). }
  assert (EC : exists c, nth_error cs i = Some c /\ measured (z, g) c).
  { clear - F EZ EG. revert G cs i F EZ EG. induction Z as [|z0 Z IH]; intros [|g0 G] cs [|i] F EZ EG; try discriminate; cbn [combine] in F; inversion F as [|? c ? cs' M F1]; subst; [injection EZ as ->; injection EG as ->; exists c; auto|].
    exact (IH G cs' i F1 EZ EG). }
  destruct EC as (c & EC & MC). rewrite EC. cbn [app] in *. inversion SV as [|g' ? gr ? S1 SR]; subst. cbn [combine] in F'. inversion F' as [|? c' ? cr M1 FR]; subst. rewrite <- (IH gr cr SR FR). assert (Q : c' = c); [|rewrite Q; reflexivity].
  rewrite Forall_forall in RV. specialize (RV z (nth_error_In _ _ EZ)). destruct z as ((o & a) & y). exact (measured_alike o a y g g' c c' RV FI S1 MC M1).
Qed.

Lemma final_members ck others sv b0 ag name it t1 cs keep costs0 ms0 sh ms : shoot ck others sv b0 ag name it t1 cs keep costs0 (MComp ms0) = Ok sh -> sh_mod sh = MComp ms -> length ms = length ms0.
Proof.
  intros E M. apply shoot_skel in E. rewrite M in E. cbn in E. injection E as E. apply (f_equal (@length _)) in E. rewrite !map_length in E. exact E.
Qed.

Lemma total_perm l l' : Permutation l l' -> total l = total l'.
Proof. unfold total. induction 1; cbn; lra. Qed.

(** ** The attachments of the library *)

Lemma place_id d N t : shape t = [N; d] -> teq t (place_rows d mid (fun _ => 0) t).
Proof.
  intros E. split; [reflexivity|]. intros idx I. rewrite E in I. destruct idx as [|i [|a [|? ?]]]; cbn in I; try tauto. cbn. unfold placed, turned, mid, vrow. rewrite Rplus_0_r.
  rewrite (rsum_delta_r d (fun b => t @2 i b) a) by tauto. reflexivity.
Qed.
Lemma mid_rigid d : rigid d mid.
Proof.
  assert (S : forall i j, delta i j = delta j i) by (intros i j; unfold delta; rewrite Nat.eqb_sym; reflexivity).
  split; intros i j I J; unfold mprod, mtr, mid; rewrite (rsum_ext _ _ (fun k => delta i k * delta k j)) by (intros k _; rewrite ?(S k i), ?(S j k); reflexivity); apply (rsum_delta_r d (fun k => delta k j)); exact I.
Qed.

Theorem C114_attachments : forall d o a p l N, alike_objects o o -> shape p = [N; d] ->
  (forall q0, lm_gd (df_man o) = Ok q0 -> exists M, shape q0 = [M; d]) ->
  (forall q0 q x, lm_gd (df_man o) = Ok q0 -> shape q = shape q0 -> to_deformed o q = Ok x -> comparable d a (geo_of x) (geo_of (p :: l))) ->
  reads_values o (as_attachment a) (p :: l).
Proof.
  intros d o a p l N AO SP SO CO q0 q q' x x' E0 SQ T X X'. destruct (SO q0 E0) as (M & S0).
  refine (C102_attachments_in_models d mid (fun _ => 0) o o a (p :: l) (p :: l) (mid_rigid d) AO _ CO q0 q q' x x' E0 SQ _ X X').
  - split; [exact (place_id d N p SP)|reflexivity].
  - eapply teq_trans; [exact T|]. apply (place_id d M). congruence.
Qed.
Print Assumptions C114_attachments.

(** ** Evaluations *)

Theorem C114_any_order : forall others others' sv b0 ag ag' h h' r r' targets targets' sch it t1 cost cost' r1 r1' d p defs mods defs' mods',
  exact_grad ag -> exact_grad ag' -> exact_solver sv -> 0 < t1 -> (0 < it)%nat ->
  filled h r = Ok (defs, mods) -> filled h' r' = Ok (defs', mods') ->
  shuffled p defs (r_att r) targets mods defs' (r_att r') targets' mods' ->
  Forall (fun z => reads_values (fst (fst z)) (snd (fst z)) (snd z)) (combine (combine defs (r_att r)) targets) ->
  r_fit_controls r = false -> r_fit_controls r' = false -> r_lam r' = r_lam r -> r_reduce r = "sum" -> r_reduce r' = "sum" ->
  wf_mod d (start defs mods) -> wf_mod d (start defs' mods') -> locals_smooth d (start defs mods) ->
  shootable (start defs mods) -> shootable (start defs' mods') ->
  evaluate real_clock others sv b0 ag h r targets (scheme_name sch) it t1 [] = Ok (cost, r1) ->
  evaluate real_clock others' sv b0 ag' h' r' targets' (scheme_name sch) it t1 [] = Ok (cost', r1') ->
  cost' = cost.
Proof.
  intros others others' sv b0 ag ag' h h' r r' targets targets' sch it t1 cost cost' r1 r1' d p defs mods defs' mods' EX EX' HS T1 IT F F' SF RV FC FC' EL RR RR' W W' LS SH SH' E E'.
  destruct (evaluate_inv real_clock others sv b0 ag _ _ _ _ _ _ _ _ E) as (? & ? & o & atts & F1 & CD & AC & _ & ->). rewrite F in F1. injection F1 as <- <-.
  destruct (evaluate_inv real_clock others' sv b0 ag' _ _ _ _ _ _ _ _ E') as (? & ? & o' & atts' & F1 & CD' & AC' & _ & ->). rewrite F' in F1. injection F1 as <- <-.
  unfold steps_of, controls_of in CD, CD'. rewrite FC in CD. rewrite FC' in CD'.
  destruct (compute_inv real_clock others sv b0 ag _ _ _ _ _ _ _ _ CD) as (sh & ms & m1 & S & EM & _ & RD & DL & _). destruct (compute_inv real_clock others' sv b0 ag' _ _ _ _ _ _ _ _ CD') as (sh' & ms' & m1' & S' & EM' & _ & RD' & DL' & _).
  cbn [given option_map] in S, S', RD, RD'.
  destruct (shuffled_leaves _ _ _ _ _ _ _ _ _ SF) as (p2 & RE).
  destruct (C88_fixed_step_schemes others others' sv b0 ag ag' sch it t1 true None None d _ _ _ sh sh' EX EX' HS W W' LS RE SH SH' T1 IT S S') as (MV & CO & _).
  pose proof (sf_places _ _ _ _ _ _ _ _ _ SF) as P. destruct (sf_lengths _ _ _ _ _ _ _ _ _ SF) as (La & Lt). pose proof (pick_bound _ _ P) as B. pose proof (perm_len _ _ P) as LP.
  pose proof (final_members _ _ _ _ _ _ _ _ _ _ _ _ _ _ S EM) as LM. pose proof (final_members _ _ _ _ _ _ _ _ _ _ _ _ _ _ S' EM') as LM'. rewrite app_length, map_length in LM, LM'.
  assert (LD : length defs' = length defs) by (rewrite (sf_objects _ _ _ _ _ _ _ _ _ SF), pick_length by exact B; exact LP).
  unfold reduction in RD, RD'. rewrite RR, String.eqb_refl in RD. rewrite RR', String.eqb_refl, CO in RD'. destruct (sh_costs sh) as [l|]; [|discriminate RD]. injection RD as RD _. injection RD' as RD' _. rewrite <- RD, <- RD', EL.
  assert (Q : total atts' = total atts); [|rewrite Q; reflexivity].
  unfold moved_alike in MV. rewrite EM, EM' in MV. cbn [mod_manifold] in MV.
  destruct (pieces_objects defs mods (map mod_manifold ms) ltac:(rewrite map_length; exact LM)) as (rest & PE). destruct (pieces_objects defs' mods' (map mod_manifold ms') ltac:(rewrite map_length; exact LM')) as (rest' & PE').
  rewrite PE, PE', firstn_map, firstn_map in MV.
  assert (LF : length (map mod_manifold (firstn (length defs) ms)) = length defs) by (rewrite map_length, firstn_length; lia).
  assert (LF' : length (map mod_manifold (firstn (length defs') ms')) = length defs) by (rewrite map_length, firstn_length; lia).
  assert (SV : Forall2 same_values (map mod_manifold (firstn (length defs') ms')) (pick p (map mod_manifold (firstn (length defs) ms)))).
  { rewrite pick_app, pick_left in MV by (rewrite LF; exact B). apply Forall2_app_inv_l in MV. destruct MV as (u & v & U & _ & EQ).
    assert (LU : length u = length (pick p (map mod_manifold (firstn (length defs) ms)))) by (rewrite pick_length by (rewrite LF; exact B); rewrite LP, <- LF'; clear - U; induction U; cbn; congruence).
    assert (EU : u = pick p (map mod_manifold (firstn (length defs) ms))). { clear - EQ LU. revert LU EQ. generalize (pick p (map mod_manifold (firstn (length defs) ms))) as w. revert u. induction u as [|x u IH]; intros [|y w] L Q; try discriminate L; [reflexivity|]. cbn in Q. injection Q as -> Q. f_equal. apply (IH w); [cbn in L; lia|exact Q]. }
    rewrite EU in U. exact U. }
  pose proof (measured_each defs (r_att r) targets (firstn (length defs) ms) _ _ La Lt ltac:(rewrite map_length in LF; exact LF) DL AC) as ME.
  assert (La' : length (r_att r') = length defs') by (rewrite (sf_attachments _ _ _ _ _ _ _ _ _ SF), pick_length, LP, LD by (rewrite La; exact B); reflexivity).
  assert (Lt' : length targets' = length defs') by (rewrite (sf_targets _ _ _ _ _ _ _ _ _ SF), pick_length, LP, LD by (rewrite Lt; exact B); reflexivity).
  pose proof (measured_each defs' (r_att r') targets' (firstn (length defs') ms') _ _ La' Lt' ltac:(rewrite map_length in LF'; rewrite LF', LD; reflexivity) DL' AC') as ME'.
  assert (LC : length (combine (combine defs (r_att r)) targets) = length defs) by (rewrite !combine_length; lia).
  assert (FI : Forall fits (combine (combine (combine defs (r_att r)) targets) (map mod_manifold (firstn (length defs) ms)))).
  { destruct (final_state others sv b0 ag sch it t1 _ sh EX T1 IT SH S) as (_ & _ & _ & _ & _ & _ & K & SG & _). rewrite EM, start_man in K, SG. cbn [mod_manifold] in K, SG.
    pose proof (heads defs _ ms K SG (ex_intro _ _ DL)) as HD. clear - HD. revert HD. generalize (firstn (length defs) ms) as l, (r_att r) as aa, targets as tt. intros l aa tt HD. revert aa tt.
    induction HD as [|o m defs l (dim & nb & q0 & p0 & q & p & E0 & E1 & ES) _ IH]; intros aa tt; [destruct aa; constructor|]. destruct aa as [|a aa]; [constructor|]. destruct tt as [|y tt]; [constructor|]. cbn [combine map]. constructor; [|apply IH].
    exists q0, q. cbn [fst snd]. rewrite E0, E1. auto. }
  assert (EZ : combine (combine defs' (r_att r')) targets' = pick p (combine (combine defs (r_att r)) targets)).
  { rewrite !pick_combine by (rewrite ?combine_length; lia). rewrite (sf_objects _ _ _ _ _ _ _ _ _ SF), (sf_attachments _ _ _ _ _ _ _ _ _ SF), (sf_targets _ _ _ _ _ _ _ _ _ SF). reflexivity. }
  rewrite EZ in ME'. rewrite (measured_pick _ _ atts RV (eq_trans LC (eq_sym LF)) FI ME p _ _ (eq_ind_r (fun n => Forall (fun i => (i < n)%nat) p) B LC) SV ME').
  apply total_perm. apply pick_perm. assert (LA : length atts = length defs); [|rewrite LA; exact P].
  transitivity (length (combine (combine (combine defs (r_att r)) targets) (map mod_manifold (firstn (length defs) ms)))); [clear - ME; induction ME; cbn; congruence|]. rewrite combine_length, LC, LF. apply Nat.min_id.
Qed.
Print Assumptions C114_any_order.

(** What a registration starts from just after it is built: the objects and modules given. *)
Lemma fill_objects h defs : forall init rest, map (man_value h) init = map (@Ok _) (map df_man defs ++ rest) -> fill_defs h defs init = Ok defs.
Proof.
  induction defs as [|o defs IH]; intros [|i init] rest E; try reflexivity; try discriminate E. cbn [map app] in E. injection E as E1 E2. cbn [fill_defs]. rewrite E1. cbn [bind]. rewrite (IH init rest E2). cbn [bind]. destruct o; reflexivity.
Qed.
Lemma built_filled h0 defs mods att fc ones fits0 lam other reduce it solver h r : NoDup (map fst other) ->
  registration h0 defs mods att fc ones fits0 lam other reduce it solver = Ok (h, r) -> filled h r = Ok (defs, mods).
Proof.
  intros ND B. destruct (registration_ok _ _ _ _ _ _ _ _ _ _ _ _ _ _ ND B) as (_ & _ & RD & RM & _ & _ & _ & _ & _ & _ & _ & V & _).
  unfold filled. rewrite RD, RM, (fill_objects h defs _ _ V). rewrite (fill_self h mods); [reflexivity|]. rewrite <- skipn_map, V, map_app, skipn_app, skipn_all2 by (rewrite !map_length; lia). rewrite !map_length, Nat.sub_diag. reflexivity.
Qed.

(** Two registrations just built from the same objects (with their attachments) and modules in
    two orders have the same costs, for targets in the corresponding order. *)
Theorem C114_built : forall others others' sv b0 ag ag' h0 h0' ones ones' fits0 fits0' lam it0 it0' solver solver' h h' r r' targets targets' sch it t1 cost cost' r1 r1' d p defs att mods defs' att' mods',
  exact_grad ag -> exact_grad ag' -> exact_solver sv -> 0 < t1 -> (0 < it)%nat ->
  registration h0 defs mods att false ones fits0 lam [] "sum" it0 solver = Ok (h, r) ->
  registration h0' defs' mods' att' false ones' fits0' lam [] "sum" it0' solver' = Ok (h', r') ->
  shuffled p defs att targets mods defs' att' targets' mods' ->
  Forall (fun z => reads_values (fst (fst z)) (snd (fst z)) (snd z)) (combine (combine defs att) targets) ->
  wf_mod d (start defs mods) -> wf_mod d (start defs' mods') -> locals_smooth d (start defs mods) ->
  shootable (start defs mods) -> shootable (start defs' mods') ->
  evaluate real_clock others sv b0 ag h r targets (scheme_name sch) it t1 [] = Ok (cost, r1) ->
  evaluate real_clock others' sv b0 ag' h' r' targets' (scheme_name sch) it t1 [] = Ok (cost', r1') ->
  cost' = cost.
Proof.
  intros others others' sv b0 ag ag' h0 h0' ones ones' fits0 fits0' lam it0 it0' solver solver' h h' r r' targets targets' sch it t1 cost cost' r1 r1' d p defs att mods defs' att' mods' EX EX' HS T1 IT B B' SF RV W W' LS SH SH' E E'.
  assert (ND : NoDup (map fst (@nil (string * list ref)))) by constructor.
  destruct (registration_ok _ _ _ _ _ _ _ _ _ _ _ _ _ _ ND B) as (_ & _ & _ & _ & RA & RL & RR & _ & RF & _). destruct (registration_ok _ _ _ _ _ _ _ _ _ _ _ _ _ _ ND B') as (_ & _ & _ & _ & RA' & RL' & RR' & _ & RF' & _).
  refine (C114_any_order others others' sv b0 ag ag' h h' r r' targets targets' sch it t1 cost cost' r1 r1' d p defs mods defs' mods' EX EX' HS T1 IT (built_filled _ _ _ _ _ _ _ _ _ _ _ _ _ _ ND B) (built_filled _ _ _ _ _ _ _ _ _ _ _ _ _ _ ND B') _ _ RF RF' _ RR RR' W W' LS SH SH' E E'); [rewrite RA, RA'; exact SF|rewrite RA; exact RV|congruence].
Qed.
Print Assumptions C114_built.

(** ** A concrete problem *)

(** Two points on the line with their own attachments and targets, moved by two translations
    of different costs; listed in one order and in the other. *)
Definition gt2 : dmod := MGlobal 1 2 (tzeros [1%nat]).
Definition eu2 : attachment := as_attachment (AEuclid 2).
Definition listed : res (heap * reg) := registration (mkHeap [] []) [pt1; pt5] [gt1; gt2] [eu; eu2] false false [] 2 [] "sum" None None.
Definition relisted : res (heap * reg) := registration (mkHeap [] []) [pt5; pt1] [gt2; gt1] [eu2; eu] false false [] 2 [] "sum" None None.
Definition listed_state : heap * reg := Eval cbv -[IZR one11 q5 p5 tzeros eu eu2] in value no_model listed.
Definition relisted_state : heap * reg := Eval cbv -[IZR one11 q5 p5 tzeros eu eu2] in value no_model relisted.

Lemma two_everywhere q p q' p' c c' : everywhere (regular 1) (start [DPoints (GLm 1 1 q p); DPoints (GLm 1 1 q' p')] [MGlobal 1 c (tzeros [1%nat]); MGlobal 1 c' (tzeros [1%nat])]).
Proof.
  intros g m1 K SP E. destruct g as [| | | | |gs]; try discriminate K. cbn in K. injection K as K.
  destruct gs as [|g0 [|g1 [|g2 [|g3 [|? ?]]]]]; try discriminate K. cbn [map] in K. injection K as K0 K1 K2 K3. destruct g0; try discriminate K0. destruct g1; try discriminate K1. destruct g2; try discriminate K2. destruct g3; try discriminate K3.
  cbn in E. injection E as <-. repeat split.
Qed.

Example C114_hypotheses : forall sv b0 sch it, exact_solver sv -> (0 < it)%nat ->
  let h := fst listed_state in let r := snd listed_state in let h' := fst relisted_state in let r' := snd relisted_state in
  listed = Ok (h, r) /\ relisted = Ok (h', r') /\ exact_grad std_ag /\
  filled h r = Ok ([pt1; pt5], [gt1; gt2]) /\ filled h' r' = Ok ([pt5; pt1], [gt2; gt1]) /\
  shuffled [1; 0]%nat [pt1; pt5] (r_att r) [[goal0]; [one11]] [gt1; gt2] [pt5; pt1] (r_att r') [[one11]; [goal0]] [gt2; gt1] /\
  Forall (fun z => reads_values (fst (fst z)) (snd (fst z)) (snd z)) (combine (combine [pt1; pt5] (r_att r)) [[goal0]; [one11]]) /\
  r_fit_controls r = false /\ r_fit_controls r' = false /\ r_lam r' = r_lam r /\ r_reduce r = "sum" /\ r_reduce r' = "sum" /\
  wf_mod 1 (start [pt1; pt5] [gt1; gt2]) /\ wf_mod 1 (start [pt5; pt1] [gt2; gt1]) /\ locals_smooth 1 (start [pt1; pt5] [gt1; gt2]) /\
  shootable (start [pt1; pt5] [gt1; gt2]) /\ shootable (start [pt5; pt1] [gt2; gt1]) /\
  exists cost r1 r1', evaluate real_clock no_others sv b0 std_ag h r [[goal0]; [one11]] (scheme_name sch) it 1 [] = Ok (cost, r1) /\
    evaluate real_clock no_others sv b0 std_ag h' r' [[one11]; [goal0]] (scheme_name sch) it 1 [] = Ok (cost, r1').
Proof.
  intros sv b0 sch it HS IT h r h' r'.
  assert (H1 : listed = Ok (h, r)) by (vm_compute; reflexivity). assert (H2 : relisted = Ok (h', r')) by (vm_compute; reflexivity).
  assert (F : filled h r = Ok ([pt1; pt5], [gt1; gt2])) by reflexivity. assert (F' : filled h' r' = Ok ([pt5; pt1], [gt2; gt1])) by reflexivity.
  assert (A : r_att r = [eu; eu2]) by reflexivity. assert (A' : r_att r' = [eu2; eu]) by reflexivity.
  assert (Q : r_fit_controls r = false /\ r_fit_controls r' = false /\ r_lam r' = r_lam r /\ r_reduce r = "sum" /\ r_reduce r' = "sum") by (repeat split). destruct Q as (Q1 & Q2 & Q3 & Q4 & Q5).
  assert (LD : length (r_defs r) = 2%nat /\ length (r_defs r') = 2%nat) by (split; reflexivity). destruct LD as (LD & LD').
  clearbody h r h' r'. rewrite A, A'.
  assert (SF : shuffled [1; 0]%nat [pt1; pt5] [eu; eu2] [[goal0]; [one11]] [gt1; gt2] [pt5; pt1] [eu2; eu] [[one11]; [goal0]] [gt2; gt1]).
  { constructor; try reflexivity; [apply perm_swap|split; reflexivity|apply perm_swap]. }
  assert (RV : Forall (fun z => reads_values (fst (fst z)) (snd (fst z)) (snd z)) (combine (combine [pt1; pt5] [eu; eu2]) [[goal0]; [one11]])).
  { cbn [combine]. repeat constructor; cbn [fst snd]; apply (C114_attachments 1) with (N := 1%nat); try exact Logic.I; try reflexivity;
      try (intros q0 E; cbn in E; injection E as <-; exists 1%nat; reflexivity);
      intros q0 q x E0 Sq D; cbn in E0, D; injection E0 as <-; injection D as <-; exists 1%nat; (split; [exact Sq|reflexivity]). }
  assert (W : wf_mod 1 (start [pt1; pt5] [gt1; gt2])). { cbn; repeat split; try discriminate; lra. }
  assert (W' : wf_mod 1 (start [pt5; pt1] [gt2; gt1])) by (cbn; repeat split; try discriminate; lra).
  assert (LS : locals_smooth 1 (start [pt1; pt5] [gt1; gt2])) by (cbn; tauto). assert (LS' : locals_smooth 1 (start [pt5; pt1] [gt2; gt1])) by (cbn; tauto).
  assert (SH : shootable (start [pt1; pt5] [gt1; gt2])) by (eexists; split; [reflexivity|]; split; [repeat constructor|cbn; repeat split]).
  assert (SH' : shootable (start [pt5; pt1] [gt2; gt1])) by (eexists; split; [reflexivity|]; split; [repeat constructor|cbn; repeat split]).
  assert (RG : everywhere (regular 1) (start [pt1; pt5] [gt1; gt2])) by (apply two_everywhere).
  assert (RG' : everywhere (regular 1) (start [pt5; pt1] [gt2; gt1])) by (apply two_everywhere).
  destruct (C82_fixed_step_schemes no_others sv b0 std_ag sch it 1 true None 1 (start [pt1; pt5] [gt1; gt2]) std_exact std_differentiates HS W LS RG ltac:(cbn; tauto) SH ltac:(cbn; lia) Rlt_0_1 IT) as (sh & ES).
  destruct (C82_fixed_step_schemes no_others sv b0 std_ag sch it 1 true None 1 (start [pt5; pt1] [gt2; gt1]) std_exact std_differentiates HS W' LS' RG' ltac:(cbn; tauto) SH' ltac:(cbn; lia) Rlt_0_1 IT) as (sh' & ES').
  assert (AO : forall a x y, In a [eu; eu2] -> is_ok (a x y)).
  { intros a x y [<-|[<-|[]]]; unfold eu, eu2, as_attachment, call; cbn [loss bind att_weight]; eexists; reflexivity. }
  assert (OR : Forall ordinary [pt1; pt5] /\ Forall ordinary [pt5; pt1]).
  { split; repeat (constructor; [split; [reflexivity|]; (split; [cbn; eauto 10|]); intros q; eexists; reflexivity|]); constructor. }
  assert (NE : scheme_name sch <> "torch_euler") by (destruct sch; discriminate).
  destruct (C32_solvers_evaluate real_clock no_others sv b0 std_ag h r [[goal0]; [one11]] (scheme_name sch) it 1 [pt1; pt5] [gt1; gt2] sh NE Q4 F (proj1 OR)) as (co & xs & atts & r1 & _ & _ & E).
  { unfold steps_of, controls_of. rewrite Q1. exact ES. } { rewrite LD. reflexivity. } { rewrite A. exact AO. }
  destruct (C32_solvers_evaluate real_clock no_others sv b0 std_ag h' r' [[one11]; [goal0]] (scheme_name sch) it 1 [pt5; pt1] [gt2; gt1] sh' NE Q5 F' (proj2 OR)) as (co' & xs' & atts' & r1' & _ & _ & E').
  { unfold steps_of, controls_of. rewrite Q2. exact ES'. } { rewrite LD'. reflexivity. } { rewrite A'. intros a x y I. apply AO. cbn in I |- *. tauto. }
  split; [exact H1|]. split; [exact H2|]. split; [exact std_exact|]. split; [exact F|]. split; [exact F'|].
  do 12 (split; [assumption|]).
  assert (EC := C114_any_order no_others no_others sv b0 std_ag std_ag h h' r r' _ _ sch it 1 _ _ _ _ 1%nat [1; 0]%nat _ _ _ _ std_exact std_exact HS Rlt_0_1 IT F F'
    ltac:(rewrite A, A'; exact SF) ltac:(rewrite A; exact RV) Q1 Q2 Q3 Q4 Q5 W W' LS SH SH' E E').
  rewrite EC in E'. eauto.
Qed.
