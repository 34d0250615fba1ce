(** The dynamics with moments and the dynamics with given controls, run by the schemes. *)
From Coq Require Import Reals String List Arith ZArith Lia Lra.
From Verif Require Import Py RSum Tensor TensorFacts KernelModel FieldModel GeometryModel ModuleModel ShootingModel
  SpecField SpecGeometry SpecModule SpecShooting FieldFacts ModuleAlg ModuleMain ModuleLeaves ModuleHistory GeometryFacts ShootingPack ShootingDyn ShootingRun ShootingScheme ShootingMain.
Import ListNotations.
Open Scope R_scope.

Lemma rows_ok r N l v y : numel l = (r * N)%nat -> (0 < r)%nat -> cat_flat l = Ok v -> view_rows r v = Ok y ->
  shape y = [r; N] /\ (0 < N)%nat /\ forall i j, (i < r)%nat -> (j < N)%nat -> y @2 i j = cat_get l (i * N + j).
Proof.
  intros NL R C V. assert (v = mk1 (numel l) (cat_get l)) by (destruct l; [discriminate|]; injection C as <-; reflexivity). subst v.
  unfold view_rows in V. cbn [shape mk1] in V. unfold tnth in V. cbn [nth] in V. rewrite NL in V.
  destruct (Nat.eqb_spec (r * N) 0); [discriminate|]. replace ((r * N) mod r)%nat with 0%nat in V by (rewrite Nat.mul_comm, Nat.mod_mul; lia).
  cbn [Nat.eqb orb negb] in V. replace ((r * N) / r)%nat with N in V by (rewrite Nat.mul_comm, Nat.div_mul; lia). injection V as <-.
  split; [reflexivity|]. split; [nia|]. intros i j Hi Hj. rewrite (get_reshape [r; N] (mk1 (r * N) (cat_get l)) [i; j] [(i * N + j)%nat]); [reflexivity| |].
  - cbn [shape mk1 ravel prod fold_right]. lia.
  - cbn [shape mk1 valid]. split; [nia|exact I].
Qed.

Lemma shapes_skels gs : forall gs', map skel gs = map skel gs' -> all_shapes gs = all_shapes gs'.
Proof.
  induction gs as [|g gs IH]; intros gs' E; destruct gs' as [|g' gs']; try discriminate E; [reflexivity|].
  cbn [map] in E. injection E as E1 E2. unfold all_shapes in *. cbn [flat_map]. rewrite (shapes_skel _ _ E1), (IH _ E2). reflexivity.
Qed.
Lemma simple_skels gs : forall gs', map skel gs = map skel gs' -> Forall simple gs -> Forall simple gs'.
Proof.
  induction gs as [|g gs IH]; intros gs' E F; destruct gs' as [|g' gs']; try discriminate E; [constructor|].
  cbn [map] in E. injection E as E1 E2. inversion F; subst. constructor; [eapply simple_skel; eassumption|auto].
Qed.
Lemma gshapes_skel g g' : skel g = skel g' -> g_shapes g = g_shapes g'.
Proof. intros E. destruct g; destruct g'; try discriminate E; cbn [skel] in E; try injection E; intros; subst; reflexivity. Qed.
Lemma unpack_skels gs : forall gs' x i, map skel gs = map skel gs' -> unpack gs x i = unpack gs' x i.
Proof.
  induction gs as [|g gs IH]; intros gs' x i E; destruct gs' as [|g' gs']; try discriminate E; [reflexivity|].
  cbn [map] in E. injection E as E1 E2. cbn [unpack]. rewrite (skel_len _ _ E1), (gshapes_skel _ _ E1).
  match goal with |- bind ?a _ = _ => destruct a as [(ts & j)|] end; cbn [bind]; [rewrite (IH gs' x j E2); reflexivity|reflexivity].
Qed.

Lemma partial_ext F G l i idx v : (forall l', length l' = length l -> F l' = G l') -> partial_derivative F l i idx v -> partial_derivative G l i idx v.
Proof.
  intros E (eps & f & P & A & B). exists eps, f. split; [assumption|]. split; [|assumption]. intros s Hs. rewrite <- E; [apply A; assumption|].
  clear. revert i. induction l as [|t l IH]; intros i; [reflexivity|]. destruct i; cbn; [reflexivity|]. rewrite IH. reflexivity.
Qed.

Lemma hamilton_ext H G l k k' : (forall l', length l' = length l -> H l' = G l') -> leq k k' -> hamilton H l k -> hamilton G l k'.
Proof.
  intros E Q (S & n & L & SS & HK). pose proof (leq_shape _ _ Q) as SQ. split; [congruence|]. exists n. split; [assumption|]. split; [assumption|]. intros i t idx Hi Et V.
  destruct (HK i t idx Hi Et V) as (A & B).
  assert (EN : forall j u, nth_error l j = Some u -> valid (shape u) idx -> entry k' j idx = entry k j idx).
  { intros j u Eu Vu. unfold entry. assert (Ek : exists a, nth_error k j = Some a /\ shape a = shape u).
    { pose proof (map_nth_error shape _ _ Eu) as M. rewrite <- S, nth_error_map in M. destruct (nth_error k j) as [a|]; [|discriminate]. injection M as M. eauto. }
    destruct Ek as (a & Ea & Sa). rewrite Ea. clear -Q Ea Sa Vu. revert j Ea. induction Q as [|x y k k' (E1 & E2) _ IH]; intros j Ea; [destruct j; discriminate|].
    destruct j as [|j]; [injection Ea as ->; cbn; symmetry; apply E2; rewrite Sa; assumption|apply IH; assumption]. }
  destruct (nth_error l (n + i)) as [u|] eqn:Eu; [|apply nth_error_None in Eu; assert (nth_error l i <> None) by congruence; lia].
  assert (SU : shape u = shape t).
  { rewrite <- (nth_firstn l n i Hi) in Et. rewrite <- nth_skipn in Eu. pose proof (map_nth_error shape _ _ Et) as M1. pose proof (map_nth_error shape _ _ Eu) as M2.
    rewrite SS, M2 in M1. injection M1 as ->. reflexivity. }
  split.
  - rewrite (EN i t Et V). eapply partial_ext; eassumption.
  - rewrite (EN (n + i)%nat u Eu ltac:(rewrite SU; assumption)). eapply partial_ext; eassumption.
Qed.

Lemma py_nth_In {A} (l : list A) i c : py_nth l i = Ok c -> In c l.
Proof.
  unfold py_nth. cbv zeta. set (k := if Z.ltb i 0 then _ else _). destruct (Z.ltb k 0); [discriminate|].
  destruct (nth_error l (Z.to_nat k)) eqn:E; [|discriminate]. intros X. injection X as <-. eapply nth_error_In. eassumption.
Qed.

(** ** The module that is shot *)
Section Inst.
  Variables (sv : solver) (b0 : backend) (ag : autograd) (ms : list dmod).
  Notation m0 := (MComp ms).
  Notation g0 := (mod_manifold m0).
  Definition gs0 := map mod_manifold ms.
  Definition shs := all_shapes gs0.
  Definition N := shapes_numel shs.
  Hypotheses (SI : Forall simple gs0) (SP : shaped g0).

  Lemma gd_shapes : map shape (g_gd g0) = shs /\ map shape (g_cotan g0) = shs.
  Proof. apply shaped_comp; assumption. Qed.
  Lemma gd_len : g_len g0 = length shs.
  Proof. apply total_len. assumption. Qed.

  Definition Q (x : tensor) : list tensor := match unpack gs0 (row 0 x) 0 with Ok q => q | Err _ => [] end.
  Definition L2 (x : tensor) : list tensor := Q x ++ match unpack gs0 (row 1 x) 0 with Ok q => q | Err _ => [] end.

  Lemma unpack_any x r n0 : shape x = [r; N] -> exists l, unpack gs0 (row n0 x) 0 = Ok l /\ map shape l = shs /\ row_is x n0 l.
  Proof. intros S. apply (unpack_row gs0 x n0 N SI); [|reflexivity]. unfold ncols, tnth. rewrite S. reflexivity. Qed.

  Lemma member_ok m : skel (mod_manifold m) = skel g0 -> (exists ms', m = MComp ms') ->
    exists gs, member_manifolds m = Ok gs /\ mod_manifold m = GComp gs /\ map skel gs = map skel gs0.
  Proof.
    intros K (ms' & ->). exists (map mod_manifold ms'). split; [reflexivity|]. split; [reflexivity|]. cbn [mod_manifold skel] in K. injection K as K. exact K.
  Qed.

  Lemma unpack_state m gs x : skel (mod_manifold m) = skel g0 -> mod_manifold m = GComp gs -> map skel gs = map skel gs0 -> shape x = [2%nat; N] ->
    forall g, skel g = skel g0 -> exists g', unpack_into gs g x true = Ok g' /\ phase g' = L2 x /\ skel g' = skel g0 /\
      map shape (g_gd g') = shs /\ map shape (g_cotan g') = shs.
  Proof.
    intros K EM KS S g Kg. destruct (unpack_into_ok gs g x N) as (q & p & g' & U & U0 & U1 & G & C & K' & S0 & S1 & _).
    - exact (simple_skels _ _ (eq_sym KS) SI).
    - rewrite Kg. cbn [mod_manifold skel]. rewrite KS. reflexivity.
    - unfold ncols, tnth. rewrite S. reflexivity.
    - unfold N, shs. rewrite (shapes_skels _ _ KS). reflexivity.
    - exists g'. split; [assumption|]. rewrite (unpack_skels _ _ _ _ KS) in U0. rewrite (unpack_skels _ _ _ _ KS) in U1. unfold phase, L2, Q. rewrite U0, U1, G, C. split; [reflexivity|]. split; [congruence|].
      split; [rewrite S0|rewrite S1]; apply shapes_skels; assumption.
  Qed.

  Lemma unpack_state1 m gs x : skel (mod_manifold m) = skel g0 -> mod_manifold m = GComp gs -> map skel gs = map skel gs0 -> shape x = [1%nat; N] ->
    forall g, skel g = skel g0 -> exists g', unpack_into gs g x false = Ok g' /\ g_gd g' = Q x /\ g_cotan g' = g_cotan g /\ skel g' = skel g0 /\
      map shape (g_gd g') = shs.
  Proof.
    intros K EM KS S g Kg. destruct (unpack_into1_ok gs g x N) as (q & g' & U & U0 & G & C & K' & S0 & _).
    - exact (simple_skels _ _ (eq_sym KS) SI).
    - rewrite Kg. cbn [mod_manifold skel]. rewrite KS. reflexivity.
    - unfold ncols, tnth. rewrite S. reflexivity.
    - unfold N, shs. rewrite (shapes_skels _ _ KS). reflexivity.
    - exists g'. split; [assumption|]. rewrite (unpack_skels _ _ _ _ KS) in U0. unfold Q. rewrite U0, G, C. split; [reflexivity|]. split; [reflexivity|]. split; [congruence|].
      rewrite S0. apply shapes_skels; assumption.
  Qed.

  (** Indices of the entries of the state tensor. *)
  Definition vi (j : nat) : list nat := if Nat.ltb j N then [0%nat; j] else [1%nat; (j - N)%nat].

  Lemma L2_shape x : shape x = [2%nat; N] -> map shape (L2 x) = shs ++ shs.
  Proof.
    intros S. destruct (unpack_any x _ 0 S) as (q & U & Sq & _). destruct (unpack_any x _ 1 S) as (p & U' & Sp & _).
    unfold L2, Q. rewrite U, U', map_app. congruence.
  Qed.
  Lemma numel_shs l : map shape l = shs -> numel l = N.
  Proof. apply numel_shapes_of. Qed.
  Lemma L2_val x j : shape x = [2%nat; N] -> (j < shapes_numel (shs ++ shs))%nat -> cat_get (L2 x) j = get x (vi j).
  Proof.
    intros S Hj. rewrite shapes_numel_app in Hj. fold N in Hj. destruct (unpack_any x _ 0 S) as (q & U & Sq & R0). destruct (unpack_any x _ 1 S) as (p & U' & Sp & R1).
    unfold L2, Q, vi. rewrite U, U'. pose proof (numel_shs q Sq) as Nq. pose proof (numel_shs p Sp) as Np. destruct R0 as (_ & R0). destruct R1 as (_ & R1).
    destruct (Nat.ltb_spec j N).
    - rewrite cat_get_app by lia. rewrite <- R0 by lia. reflexivity.
    - replace j with (numel q + (j - N))%nat at 1 by lia. rewrite cat_get_app_r. rewrite <- R1 by lia. reflexivity.
  Qed.
  Lemma Q_shape x : shape x = [1%nat; N] -> map shape (Q x) = shs.
  Proof. intros S. destruct (unpack_any x _ 0 S) as (q & U & Sq & _). unfold Q. rewrite U. assumption. Qed.
  Lemma Q_val x j : shape x = [1%nat; N] -> (j < N)%nat -> cat_get (Q x) j = get x [0%nat; j].
  Proof.
    intros S Hj. destruct (unpack_any x _ 0 S) as (q & U & Sq & _ & R0). unfold Q. rewrite U. rewrite <- R0 by (rewrite (numel_shs q Sq); assumption). reflexivity.
  Qed.

  Variables (ck : clock) (t1 : time ck) (it : nat) (keep : bool).

  (** *** With moments *)
  Hypothesis EX : exact_grad ag.
  Notation geo := (geodesic_controls sv b0).

  Definition Inv2 (s : fstate) : Prop := frozen (f_mod s) = frozen m0 /\ skel (mod_manifold (f_mod s)) = skel g0.

  Lemma frozen_comp m : frozen m = frozen m0 -> exists ms', m = MComp ms'.
  Proof. destruct m; try discriminate. eauto. Qed.
  Lemma params_comp m : params m = params m0 -> exists ms', m = MComp ms'.
  Proof. destruct m; try discriminate. eauto. Qed.

  Lemma geo_det n n' : frozen n = frozen n' -> mod_manifold n = mod_manifold n' -> geo n = geo n'.
  Proof. apply geodesic_determined. Qed.

  Lemma phase_split g q p : phase g = q ++ p -> length q = length (g_gd g) -> g_gd g = q /\ g_cotan g = p.
  Proof.
    unfold phase. intros E Hl. generalize dependent (g_gd g). intros a E Hl. revert q E Hl. induction a as [|x a IH]; intros [|y q] E Hl; try discriminate Hl; [auto|].
    cbn in E. injection E as -> E. destruct (IH q E ltac:(cbn in Hl; lia)) as (-> & ->). auto.
  Qed.

  Lemma fwd2 t x s y s' : Inv2 s -> shape x = [2%nat; N] -> forward ck sv b0 ag t1 it None keep t x s = Ok (y, s') ->
    Inv2 s' /\ shape y = [2%nat; N] /\ hamilton (ham_of m0 geo) (L2 x) (L2 y) /\ at_state m0 geo (L2 x) = Ok (f_mod s').
  Proof.
    intros (IF & IK) S E. unfold forward in E. bok E i Ei. bok E gs Eg. destruct (member_ok (f_mod s) IK (frozen_comp _ IF)) as (gs' & Eg' & EM & KS).
    rewrite Eg' in Eg. injection Eg as <-. destruct (unpack_state (f_mod s) gs' x IK EM KS S (mod_manifold (f_mod s)) IK) as (g & U & PH & Kg & Sq & Sp).
    rewrite U in E. cbn [bind] in E. bok E m1 HE1. destruct (set_ok (f_mod s) g) as (m1' & HE1' & M1 & F1 & _); [congruence|]. rewrite HE1' in HE1. injection HE1 as ->.
    bok E m2 HE2. destruct (geo_frozen sv b0 _ _ _ HE2) as (F2 & M2). bok E ks Ek. bok E dd Ed. destruct dd as (dq & dp). bok E cs Ec. bok E v Ev. bok E yy Ey. injection E as <- <-.
    cbn [f_mod].
    assert (GM : mod_manifold m2 = g) by congruence.
    assert (Lq : length (g_gd g) = length shs) by (rewrite <- Sq, map_length; reflexivity).
    assert (Lp : length (g_cotan g) = length shs) by (rewrite <- Sp, map_length; reflexivity).
    destruct (gradients_ok ag EX m2 geo dq dp (length shs) Ed) as (Sdq & Sdp & HH); [rewrite GM; assumption|rewrite GM; assumption|rewrite GM; congruence|].
    rewrite GM in Sdq, Sdp, HH. rewrite PH in HH.
    assert (SK : map shape (dp ++ map topp dq) = shs ++ shs).
    { rewrite map_app, map_map. cbn [shape topp tmap]. change (map (fun z => shape z) dq) with (map shape dq). congruence. }
    assert (NK : numel (dp ++ map topp dq) = (2 * N)%nat) by (rewrite (numel_shapes_of _ _ SK), shapes_numel_app; fold N; lia).
    destruct (rows_ok 2 N _ v yy NK ltac:(lia) Ev Ey) as (Sy & NP & Gy).
    split; [split; [cbn [f_mod]; congruence|cbn [f_mod]; congruence]|]. split; [assumption|].
    assert (LE : leq (dp ++ map topp dq) (L2 yy)).
    { apply cat_get_inj; [rewrite (L2_shape yy Sy); exact SK|]. intros k Hk. rewrite NK in Hk. rewrite L2_val by (try assumption; rewrite shapes_numel_app; fold N; lia).
      unfold vi. destruct (Nat.ltb_spec k N).
      - rewrite (Gy 0%nat k) by lia. reflexivity.
      - rewrite (Gy 1%nat (k - N)%nat) by lia. f_equal. lia. }
    assert (LL : length (L2 x) = (2 * g_len g0)%nat) by (rewrite <- PH; unfold phase; rewrite app_length, Lq, Lp, gd_len; lia).
    split.
    - eapply hamilton_ext; [|exact LE|exact HH]. intros l' Hl'. apply ham_determined; [congruence|congruence|exact geo_det|].
      rewrite Hl', LL. f_equal. apply skel_len. congruence.
    - unfold at_state. rewrite <- PH. unfold phase. destruct (write_ok m0 (g_gd g) (g_cotan g)) as (w & W & G1 & C1 & K1 & FW); [rewrite gd_len; assumption|rewrite gd_len; assumption|].
      rewrite W. cbn [bind]. rewrite (geo_det w m1); [exact HE2|congruence|]. rewrite M1. apply g_ext; congruence.
  Qed.

  (** *** With given controls *)
  Variables (d : nat) (cs : list ctrl).
  Hypotheses (HS : exact_solver sv).
  Hypothesis RD : forall q m1 c, map shape q = shs -> write_manifold m0 (q ++ g_cotan g0) = Ok m1 -> In c cs -> wf_mod d m1 /\ ctrl_ok d m1 c.

  Definition Inv1 (s : fstate) : Prop := params (f_mod s) = params m0 /\ skel (mod_manifold (f_mod s)) = skel g0 /\ g_cotan (mod_manifold (f_mod s)) = g_cotan g0.
  Definition control_of (i : Z) (n : nat) (c : ctrl) : Prop := py_nth cs (control_index it (length cs) i n) = Ok c.

  Lemma action_numel F g : wf_gman d g -> answers d F -> forall tn, infinitesimal_action g F = Ok tn -> numel (g_tan tn) = numel (g_gd g).
  Proof.
    intros W HF. revert W.
    induction g as [dim nb gd c|tr dim nb gd0 gd1 c0 c1|dim nb gd0 gd1 c0 c1|dim n0 n1 gd0 gd1 c0 c1 i0 i1|dim|gs IH] using GeometryFacts.gman_ind'; cbn [wf_gman]; intros W tn E.
    - destruct W as (-> & Sg & Sc). destruct (HF gd nb Sg) as ((t0 & E0 & S0) & _). cbn [infinitesimal_action] in E. rewrite (lm_action_ok d nb gd F t0 E0 S0) in E. injection E as <-.
      cbn. rewrite S0, Sg. reflexivity.
    - destruct W as (-> & Sg0 & Sg1 & Sc0 & Sc1). destruct (HF gd0 nb Sg0) as ((t0 & E0 & S0) & (t2 & HE2 & S2)).
      cbn [infinitesimal_action] in E. rewrite (dir_action_ok tr d nb gd0 gd1 F t0 t2) in E by assumption. cbn [bind fst snd] in E. injection E as <-.
      unfold numel. cbn [g_tan g_gd map list_sum fold_right]. rewrite (dir_tan_shape tr d nb t2 gd1 S2 Sg1), S0, Sg0, Sg1. cbn [prod fold_right]. lia.
    - destruct W as (-> & Sg0 & Sg1 & Sc0 & Sc1). destruct (HF gd0 nb Sg0) as ((t0 & E0 & S0) & (t2 & HE2 & S2)).
      cbn [infinitesimal_action] in E. rewrite (frame_action_ok d nb gd0 gd1 F t0 t2) in E by assumption. cbn [bind fst snd] in E. injection E as <-.
      unfold numel. cbn [g_tan g_gd map list_sum fold_right]. rewrite (frame_tan_shape d nb t2 gd1) by assumption. rewrite S0, Sg0, Sg1. reflexivity.
    - destruct W.
    - injection E as <-. reflexivity.
    - apply fr_and in W. rewrite action_comp in E. bok E ts Ets. injection E as <-. cbn [g_tan g_gd].
      revert ts Ets. clear HF. induction IH as [|g gs Hg _ IHg]; intros ts Ets.
      + injection Ets as <-. reflexivity.
      + inversion W as [|? ? Wg Wgs]; subst. cbn [mapM] in Ets. bok Ets a Ea. bok Ets r Er. injection Ets as <-. cbn [flat_map]. rewrite !numel_app, (Hg Wg a Ea), (IHg Wgs r Er). reflexivity.
  Qed.

  Lemma fwd1 t x s y s' : Inv1 s -> shape x = [1%nat; N] -> forward ck sv b0 ag t1 it (Some cs) keep t x s = Ok (y, s') ->
    Inv1 s' /\ shape y = [1%nat; N] /\
    (exists c, control_of (f_true s') (f_it s) c /\ driven sv m0 c (Q x) (Q y)) /\
    (exists c, control_of (f_true s') (f_it s) c /\ at_state m0 (fun m => fill_controls sv m c) (Q x ++ g_cotan g0) = Ok (f_mod s')).
  Proof.
    intros (IP & IK & IC) S E. unfold forward in E. bok E i Ei. bok E gs Eg. destruct (member_ok (f_mod s) IK (params_comp _ IP)) as (gs' & Eg' & EM & KS).
    rewrite Eg' in Eg. injection Eg as <-. destruct (unpack_state1 (f_mod s) gs' x IK EM KS S (mod_manifold (f_mod s)) IK) as (g & U & PH & GC & Kg & Sq).
    rewrite U in E. cbn [bind] in E. bok E m1 HE1. destruct (set_ok (f_mod s) g) as (m1' & HE1' & M1 & F1 & _); [congruence|]. rewrite HE1' in HE1. injection HE1 as ->.
    bok E c Ec. bok E m2 HE2. bok E ks Ek. bok E cts Ecs. bok E fg Ef. bok E tn Et. bok E v Ev. bok E yy Ey. injection E as <- <-. cbn [f_mod f_true].
    assert (M2 : mod_manifold m2 = g) by (rewrite (fill_manifold _ _ _ _ HE2); assumption).
    assert (P2 : params m2 = params m0) by (rewrite (fill_params _ _ _ _ HE2); rewrite (frozen_params _ _ F1); assumption).
    assert (CO : control_of i (f_it s) c).
    { unfold control_of, control_index. unfold choose_control in Ec. destruct (Nat.eqb (length cs) it); [exact Ec|]. destruct (Nat.ltb it (length cs)); exact Ec. }
    assert (INC : In c cs).
    { exact (py_nth_In _ _ _ CO). }
    assert (Lq : length (g_gd g) = length shs) by (rewrite <- Sq, map_length; reflexivity).
    assert (Lp : length (g_cotan g0) = length shs) by (rewrite <- (proj2 gd_shapes), map_length; reflexivity).
    destruct (write_ok m0 (g_gd g) (g_cotan g0)) as (w & W & G1 & C1 & K1 & FW); [rewrite gd_len; assumption|rewrite gd_len; assumption|].
    assert (FIL : fill_controls sv w c = Ok m2).
    { rewrite (fill_determined sv w m1 c); [exact HE2|rewrite (frozen_params _ _ F1), (frozen_params _ _ FW); symmetry; assumption|rewrite M1; apply g_ext; congruence]. }
    assert (AT : at_state m0 (fun m => fill_controls sv m c) (Q x ++ g_cotan g0) = Ok m2) by (unfold at_state; rewrite <- PH, W; cbn [bind]; exact FIL).
    destruct (RD (g_gd g) w c Sq W INC) as (WF & OKC).
    assert (NT : numel (g_tan tn) = N).
    { destruct (module_leaf sv b0 d w HS WF (ex_intro _ c (ex_intro _ m2 (conj OKC FIL)))) as (QQ & LF).
      destruct (pk_fill _ _ _ _ (lf_pack _ _ _ _ _ LF) c OKC) as (m2' & f' & A1 & _ & A3 & (A4 & A5 & A6 & _)). rewrite FIL in A1. injection A1 as <-. rewrite Ef in A3. injection A3 as <-.
      rewrite (action_numel (feval fg) (mod_manifold m2)) with (tn := tn); [rewrite M2; apply numel_shs; exact Sq| |apply answers_field; assumption|assumption].
      rewrite (fill_manifold _ _ _ _ FIL). exact (proj1 (wf_mod_manifold d w WF)). }
    destruct (rows_ok 1 N (g_tan tn) v yy ltac:(lia) ltac:(lia) Ev Ey) as (Sy & NP & Gy).
    split; [split; [exact P2|split; cbn [f_mod]; congruence]|]. split; [assumption|]. split; [|exists c; split; assumption].
    exists c. split; [exact CO|]. exists m2, fg, tn. split; [exact AT|]. split; [assumption|]. split; [assumption|].
    rewrite (Q_shape yy Sy), (Q_shape x S). split; [reflexivity|]. pose proof (numel_shs (Q x) (Q_shape x S)) as NQ. split; [congruence|]. intros j Hj. rewrite NQ in Hj.
    rewrite Q_val by assumption. rewrite (Gy 0%nat j) by lia. reflexivity.
  Qed.
End Inst.
