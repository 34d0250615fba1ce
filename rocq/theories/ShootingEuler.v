(** The torch_euler solver. *)
From Coq Require Import Reals String List Arith ZArith Lia Lra.
From Verif Require Import Py RSum Tensor TensorFacts KernelModel FieldModel GeometryModel ModuleModel ShootingModel
  SpecModule SpecShooting ModuleMain ModuleLeaves ModuleHistory GeometryFacts ShootingPack ShootingDyn ShootingInst ShootingFinal.
Import ListNotations.
Open Scope R_scope.

Lemma ham_params m m' ctl l : params m = params m' -> skel (mod_manifold m) = skel (mod_manifold m') ->
  (forall n n', params n = params n' -> mod_manifold n = mod_manifold n' -> ctl n = ctl n') ->
  length l = (2 * g_len (mod_manifold m))%nat -> ham_of m ctl l = ham_of m' ctl l.
Proof.
  intros P K D L. unfold ham_of. set (n := g_len (mod_manifold m)) in *. rewrite <- (firstn_skipn n l).
  assert (Lq : length (firstn n l) = n) by (rewrite firstn_length; lia). assert (Lp : length (skipn n l) = n) by (rewrite skipn_length; lia).
  destruct (write_ok m _ _ Lq Lp) as (m1 & E & G & C & K1 & F).
  pose proof (skel_len _ _ K) as Kn. fold n in Kn.
  destruct (write_ok m' (firstn n l) (skipn n l)) as (m1' & E' & G' & C' & K1' & F'); [lia|lia|].
  rewrite E, E'. cbn [bind]. rewrite (D m1 m1'); [reflexivity|rewrite (frozen_params _ _ F), (frozen_params _ _ F'); assumption|apply g_ext; congruence].
Qed.

Section Euler.
  Variables (sv : solver) (b0 : backend) (ag : autograd) (cs : option (list ctrl)) (m0 : dmod).
  Hypothesis EX : exact_grad ag.
  Notation ctl := (step_controls sv b0 cs).
  Notation g0 := (mod_manifold m0).

  Definition alike (m m' : dmod) : Prop := match cs with None => frozen m = frozen m' | Some _ => params m = params m' end.

  Lemma alike_frozen m m' : frozen m = frozen m' -> alike m m'.
  Proof. unfold alike. destruct cs; [apply frozen_params|auto]. Qed.
  Lemma alike_trans a b c : alike a b -> alike b c -> alike a c.
  Proof. unfold alike. destruct cs; congruence. Qed.
  Lemma alike_sym a b : alike a b -> alike b a.
  Proof. unfold alike. destruct cs; congruence. Qed.

  Lemma ctl_ok i m m1 : ctl i m = Ok m1 -> alike m1 m /\ mod_manifold m1 = mod_manifold m.
  Proof.
    unfold step_controls, alike. destruct cs as [l|].
    - destruct (nth_error l i) as [c|]; [|discriminate]. intros E. split; [exact (fill_params _ _ _ _ E)|exact (fill_manifold _ _ _ _ E)].
    - intros E. exact (geo_frozen sv b0 _ _ _ E).
  Qed.
  Lemma ctl_det i n n' : alike n n' -> mod_manifold n = mod_manifold n' -> ctl i n = ctl i n'.
  Proof.
    unfold step_controls, alike. destruct cs as [l|]; intros A M.
    - destruct (nth_error l i) as [c|]; [|reflexivity]. apply fill_determined; assumption.
    - apply geodesic_determined; assumption.
  Qed.
  Lemma ham_alike i m m' l : alike m m' -> skel (mod_manifold m) = skel (mod_manifold m') ->
    length l = (2 * g_len (mod_manifold m))%nat -> ham_of m (ctl i) l = ham_of m' (ctl i) l.
  Proof.
    intros A K L. pose proof (ctl_det i) as D. unfold alike in *. destruct cs; [apply ham_params|apply ham_determined]; assumption.
  Qed.

  Lemma add_shape a b : length a = length b -> map shape (add_lists a b) = map shape a.
  Proof.
    revert b. induction a as [|x a IH]; intros b L; destruct b as [|y b]; try discriminate L; [reflexivity|]. cbn. f_equal. apply IH. cbn in L. lia.
  Qed.
  Lemma add_len a b : length a = length b -> length (add_lists a b) = length a.
  Proof. intros L. unfold add_lists. rewrite map_length, combine_length. lia. Qed.

  Lemma euler_sum dt a b dq dp : map shape a = map shape dp -> map shape b = map shape dq ->
    leq (add_lists a (map (tscal dt) dp) ++ add_lists b (map (tscal (- dt)) dq)) (ladd (a ++ b) (lscal dt (dp ++ map topp dq))).
  Proof.
    revert dp. induction a as [|x a IH]; intros dp S1 S2; destruct dp as [|y dp]; try discriminate S1.
    - cbn [add_lists map combine app]. revert dq S2. induction b as [|x b IH]; intros dq S2; destruct dq as [|y dq]; try discriminate S2; [constructor|].
      cbn in S2. injection S2 as S2 S3. cbn [map combine add_lists ladd lscal fst snd]. constructor; [|apply IH; assumption].
      split; [reflexivity|]. intros idx V. cbn. ring.
    - cbn in S1. injection S1 as S1 S3. cbn [map combine add_lists ladd lscal fst snd app]. constructor; [split; reflexivity|]. apply IH; assumption.
  Qed.

  Definition balanced (g : gman) : Prop := map shape (g_cotan g) = map shape (g_gd g).

  Lemma step_ok dt i m m' : alike m m0 -> skel (mod_manifold m) = skel g0 -> balanced (mod_manifold m) -> euler_step sv b0 ag dt cs i m = Ok m' ->
    alike m' m0 /\ skel (mod_manifold m') = skel g0 /\ balanced (mod_manifold m') /\
    exists mk, at_state m0 (ctl i) (phase (mod_manifold m)) = Ok mk /\ controls mk = controls m' /\
      euler_scheme (fun _ => hamilton (ham_of m0 (ctl i))) dt (phase (mod_manifold m)) [phase (mod_manifold m)] (phase (mod_manifold m')).
  Proof.
    intros A K B E. unfold euler_step in E. bok E m1 Em1. destruct (ctl_ok i m m1 Em1) as (A1 & M1). bok E dd Ed. destruct dd as (dq & dp).
    set (g := mod_manifold m) in *. rewrite M1 in E. bok E u1 Eu1. bok E u2 Eu2. clear u1 Eu1 u2 Eu2.
    destruct (gradients_ok ag EX m1 (ctl i) dq dp (g_len g) Ed) as (Sq & Sp & HH); [rewrite M1; apply g_gd_len|rewrite M1; apply g_cotan_len|rewrite M1; exact B|].
    rewrite M1 in Sq, Sp, HH. fold g in Sq, Sp, HH. unfold balanced in B.
    assert (Lq : length dq = g_len g) by (rewrite <- (map_length shape), Sq, map_length; apply g_gd_len).
    assert (Lp : length dp = g_len g) by (rewrite <- (map_length shape), Sp, map_length; apply g_gd_len).
    assert (X1 : length (g_gd g) = length (map (tscal dt) dp)) by (rewrite map_length, g_gd_len; auto).
    assert (X2 : length (g_cotan g) = length (map (tscal (- dt)) dq)) by (rewrite map_length, g_cotan_len; auto).
    destruct (put_gd_ok g (add_lists (g_gd g) (map (tscal dt) dp)) []) as (h1 & P1 & G1 & C1 & K1); [rewrite (add_len _ _ X1); apply g_gd_len|].
    rewrite app_nil_r in P1. rewrite P1 in E. cbn [bind] in E. rewrite C1 in E.
    destruct (put_cotan_ok h1 (add_lists (g_cotan g) (map (tscal (- dt)) dq)) []) as (h2 & P2 & C2 & G2 & K2);
      [rewrite (add_len _ _ X2), g_cotan_len; symmetry; apply skel_len; assumption|].
    rewrite app_nil_r in P2. rewrite P2 in E. cbn [bind] in E.
    assert (MK : mod_manifold m1 = g) by exact M1.
    destruct (set_ok m1 h2) as (m2 & E2 & M2 & F2 & CC); [congruence|]. rewrite E2 in E. injection E as <-.
    assert (A10 : alike m1 m0) by (eapply alike_trans; eassumption).
    split; [eapply alike_trans; [apply alike_frozen; eassumption|assumption]|]. split; [congruence|].
    split; [unfold balanced; rewrite M2, C2, G2, G1, !add_shape by assumption; assumption|].
    destruct (write_ok m0 (g_gd g) (g_cotan g)) as (w & W & WG & WC & WK & WF); [rewrite g_gd_len; apply skel_len; assumption|rewrite g_cotan_len; apply skel_len; assumption|].
    exists m1. split; [|split].
    - unfold at_state, phase. rewrite W. cbn [bind]. rewrite (ctl_det i w m); [exact Em1| |apply g_ext; try assumption; unfold g in *; congruence].
      eapply alike_trans; [apply alike_frozen; eassumption|apply alike_sym; assumption].
    - congruence.
    - exists (dp ++ map topp dq). split; [reflexivity|]. split.
      + eapply hamilton_ext; [|apply leq_refl|exact HH]. intros l' Hl. apply ham_alike; [assumption|congruence|]. rewrite Hl. unfold phase. rewrite app_length, g_gd_len, g_cotan_len, M1. unfold g. lia.
      + rewrite M2. unfold phase. rewrite C2, G2, G1. apply euler_sum; congruence.
  Qed.

  Lemma loop_ok dt keep n : forall i m acc m' acc', alike m m0 -> skel (mod_manifold m) = skel g0 -> balanced (mod_manifold m) ->
    euler_loop sv b0 ag dt cs keep n i m acc = Ok (m', acc') ->
    exists sts mods, length sts = n /\ length mods = n /\
      nth_error (mod_manifold m :: sts) n = Some (mod_manifold m') /\
      (forall k g g', nth_error (mod_manifold m :: sts) k = Some g -> nth_error sts k = Some g' ->
         exists mk, nth_error mods k = Some mk /\ at_state m0 (ctl (i + k)) (phase g) = Ok mk /\
           euler_scheme (fun _ => hamilton (ham_of m0 (ctl (i + k)))) dt (phase g) [phase g] (phase g')) /\
      Forall (fun g => skel g = skel g0) sts /\
      if keep then in_states acc' = in_states acc ++ sts /\ exists ks, mapM (fun m => clone_controls (controls m)) mods = Ok ks /\ in_controls acc' = in_controls acc ++ ks
      else acc' = acc.
  Proof.
    induction n as [|n IH]; intros i m acc m' acc' A K B E; cbn [euler_loop] in E.
    - injection E as <- <-. exists [], []. split; [reflexivity|]. split; [reflexivity|]. split; [reflexivity|]. split; [intros [|k] g g' _ H; discriminate|].
      split; [constructor|]. destruct keep; [|reflexivity]. rewrite app_nil_r. split; [reflexivity|]. exists []. rewrite app_nil_r. split; reflexivity.
    - bok E m1 Em1. destruct (step_ok dt i m m1 A K B Em1) as (A1 & K1 & B1 & mk & AT & CM & ST). bok E acc1 Ea.
      destruct (IH (S i) m1 acc1 m' acc' A1 K1 B1 E) as (sts & mods & L1 & L2 & LA & TR & FK & KP).
      exists (mod_manifold m1 :: sts), (mk :: mods). split; [cbn; lia|]. split; [cbn; lia|]. split; [exact LA|]. split; [|split; [constructor; assumption|]].
      + intros [|k] g g' Hg Hg'.
        * cbn in Hg, Hg'. injection Hg as <-. injection Hg' as <-. exists mk. rewrite Nat.add_0_r. auto.
        * cbn [nth_error] in Hg, Hg'. replace (i + S k)%nat with (S i + k)%nat by lia. apply TR; assumption.
      + destruct keep; [|congruence]. bok Ea c Ec. injection Ea as <-. cbn [in_states in_controls] in KP. destruct KP as (KS & ks & KM & KC).
        split; [rewrite KS, <- app_assoc; reflexivity|]. exists (c :: ks). split; [cbn [mapM]; rewrite CM, Ec, KM; reflexivity|rewrite KC, <- app_assoc; reflexivity].
  Qed.

  Theorem whole_euler ck others it t1 keep costs0 sh : balanced g0 ->
    shoot ck others sv b0 ag "torch_euler" it t1 cs keep costs0 m0 = Ok sh ->
    (0 < it)%nat /\ exists states mods,
      length states = S it /\ length mods = it /\
      nth_error states 0 = Some g0 /\ nth_error states it = Some (mod_manifold (sh_mod sh)) /\
      trajectory SEuler (fun n => hamilton (ham_of m0 (ctl n))) (1 / INR it) (map phase states) (map (fun g => [phase g]) (firstn it states)) /\
      (forall n g mn, nth_error states n = Some g -> nth_error mods n = Some mn -> at_state m0 (ctl n) (phase g) = Ok mn) /\
      Forall (fun g => skel g = skel g0) states /\
      sh_costs sh = costs0 /\
      (if keep then exists ks, mapM (fun m => clone_controls (controls m)) mods = Ok ks /\ sh_inter sh = Some (mkInter states ks)
       else sh_inter sh = None).
  Proof.
    intros B E. unfold shoot in E. cbn [String.eqb] in E. change (String.eqb "torch_euler" "torch_euler") with true in E. cbn iota in E.
    bok E r Er. destruct r as (m1 & i). injection E as <-. cbn [sh_mod sh_costs sh_inter]. unfold shoot_euler in Er. destruct (Nat.eqb_spec it 0); [discriminate|]. split; [lia|].
    destruct (loop_ok _ keep it 0 m0 _ m1 i (alike_frozen _ _ eq_refl) eq_refl B Er) as (sts & mods & L1 & L2 & LA & TR & FK & KP). cbn [Nat.add] in TR.
    exists (g0 :: sts), mods. split; [cbn; lia|]. split; [assumption|]. split; [reflexivity|]. split; [exact LA|]. split; [|split; [|split; [constructor; [reflexivity|assumption]|split; [reflexivity|]]]].
    - split; [rewrite !map_length, firstn_length; cbn [length]; lia|]. intros k l ss l' A C D. cbn [scheme_step evaluations].
      rewrite nth_error_map in A, C. cbn [map nth_error] in D. rewrite nth_error_map in D.
      destruct (nth_error (g0 :: sts) k) as [h|] eqn:Eh; [|discriminate]. injection A as <-.
      destruct (nth_error sts k) as [h'|] eqn:Eh'; [|discriminate]. injection D as <-.
      assert (k < it)%nat by (rewrite <- L1; apply nth_error_Some; congruence).
      rewrite nth_firstn, Eh in C by assumption. injection C as <-. destruct (TR k h h' Eh Eh') as (mk & _ & _ & ST).
      destruct ST as (v & S1 & S2 & S3). exists v. split; [reflexivity|]. rewrite Nat.mul_1_r, Nat.add_0_r. split; assumption.
    - intros n0 g mn Hg Hm. assert (n0 < it)%nat by (rewrite <- L2; apply nth_error_Some; congruence).
      destruct (nth_error sts n0) as [g'|] eqn:Eg'; [|apply nth_error_None in Eg'; lia]. destruct (TR n0 g g' Hg Eg') as (mk & A & C & _). congruence.
    - destruct keep; [|reflexivity]. destruct KP as (KS & ks & KM & KC). exists ks. split; [assumption|]. destruct i as (a & b). cbn in KS, KC. subst. reflexivity.
  Qed.
End Euler.
