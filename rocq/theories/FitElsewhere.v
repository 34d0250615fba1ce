(** Facts about the moments of a registration model as parameters of a fit. *)
From Coq Require Import Reals String List Arith Lia Lra Permutation.
From Verif Require Import Py RSum Tensor TensorFacts Fl OptimModel FitModel SpecOptim SpecGeometry SpecRigid SpecSimilar SimilarFacts
  KernelModel FieldModel GeometryModel ModuleModel ShootingModel RegistrationModel
  SpecKernel SpecModule SpecShooting SpecRegistration SpecTransport SpecSmooth SpecElsewhere SpecFitElsewhere
  GeometryFacts ModuleLeaves ModuleMain ShootingPack ShootingDyn RigidField RigidShoot RegistrationHeap RegistrationParams RegistrationLife TransportFacts DiffBuild ElsewhereFacts.
Import ListNotations.
Open Scope list_scope.
Open Scope R_scope.

(** ** Entries *)
Lemma entries_len t : length (entries t) = prod (shape t).
Proof. unfold entries. rewrite map_length, seq_length. reflexivity. Qed.
Lemma entries_nth t k : (k < prod (shape t))%nat -> nth k (entries t) 0 = get t (unravel (shape t) k).
Proof.
  intros K. unfold entries. rewrite (nth_indep _ 0 (get t (unravel (shape t) 0%nat))) by (rewrite map_length, seq_length; exact K).
  rewrite (map_nth (fun k => get t (unravel (shape t) k)) (seq 0 (prod (shape t))) 0%nat k), seq_nth by exact K. reflexivity.
Qed.
Lemma nth_eq' : forall x y : list R, length x = length y -> (forall k, (k < length x)%nat -> nth k x 0 = nth k y 0) -> x = y.
Proof. intros x y L H. apply (nth_ext _ _ 0 0); assumption. Qed.
Lemma entries_of sh x : length x = prod sh -> entries (of_entries sh x) = x.
Proof.
  intros L. apply nth_eq'; [rewrite entries_len; symmetry; exact L|]. rewrite entries_len. intros k K. rewrite entries_nth by exact K. cbn [of_entries get shape] in *. rewrite ravel_unravel by exact K. reflexivity.
Qed.
Lemma of_entries_teq t : teq (of_entries (shape t) (entries t)) t.
Proof.
  split; [reflexivity|]. intros idx V. cbn [of_entries get shape] in *. rewrite entries_nth by (apply ravel_lt; exact V). rewrite unravel_ravel by exact V. reflexivity.
Qed.
Lemma entries_teq t u : teq t u -> entries t = entries u.
Proof.
  intros [S E]. apply nth_eq'; [rewrite !entries_len, S; reflexivity|]. rewrite entries_len. intros k K. rewrite !entries_nth by congruence. rewrite <- S. apply E. apply valid_unravel. exact K.
Qed.
Lemma entries_dot a b : shape b = shape a -> dotl (entries a) (entries b) = tdot a b.
Proof.
  intros S. rewrite dotl_rsum by (rewrite !entries_len; congruence). rewrite tdot_sum by exact S. rewrite sum_idx_flat, entries_len. apply rsum_ext. intros k K.
  rewrite !entries_nth by congruence. rewrite S. reflexivity.
Qed.
Lemma of_away sh s x e : length x = prod sh -> length e = prod sh -> teq (of_entries sh (away s x e)) (tadd (of_entries sh x) (tscal (- s) (of_entries sh e))).
Proof. intros L1 L2. split; [reflexivity|]. intros idx V. cbn [of_entries get tadd tmap2 tscal tmap]. rewrite away_nth by congruence. ring. Qed.
Lemma away_entries s a b : shape b = shape a -> entries (tadd a (tscal (- s) b)) = away s (entries a) (entries b).
Proof.
  intros S. assert (L : length (entries b) = length (entries a)) by (rewrite !entries_len; congruence).
  apply nth_eq'; [rewrite entries_len, away_len by (symmetry; exact L); rewrite entries_len; reflexivity|]. rewrite entries_len. intros k K. rewrite away_nth by exact L. cbn [tadd tmap2 shape] in K.
  rewrite !entries_nth by (cbn [tadd tmap2 shape]; congruence). rewrite S. cbn [tadd tmap2 tscal tmap get shape]. ring.
Qed.

(** ** Turning moments *)
Definition mshape (d : nat) (sh : list nat) : Prop := (exists n, sh = [n; d]) \/ (exists n, sh = [n; d; d]).
Definition mkind (sh : list nat) : kind := match sh with [_; _; _] => KF | _ => KV end.
Lemma turn_moment_kind d Q t : turn_moment d Q t = turn1 d Q (mkind (shape t)) t.
Proof. unfold turn_moment, mkind. destruct (shape t) as [|? [|? [|? [|? ?]]]]; reflexivity. Qed.
Lemma mkind_ok d sh : mshape d sh -> kshape d (mkind sh) sh.
Proof. intros [(n & ->)|(n & ->)]; exists n; reflexivity. Qed.
Lemma kind_moment d k sh : k <> KP -> kshape d k sh -> mshape d sh /\ mkind sh = k.
Proof. destruct k; intros N (n & ->); [elim N; reflexivity|split; [left; eauto|reflexivity]|split; [right; eauto|reflexivity]]. Qed.

Lemma turn_similarity d Q sh : rigid d Q -> mshape d sh ->
  similarity (prod sh) 1 (fun x => entries (turn_moment d Q (of_entries sh x))) (fun x => entries (turn_moment d Q (of_entries sh x))).
Proof.
  intros HQ M. pose proof (mkind_ok d sh M) as K. set (k := mkind sh) in *.
  assert (T : forall x, turn_moment d Q (of_entries sh x) = turn1 d Q k (of_entries sh x)) by (intros x; rewrite turn_moment_kind; reflexivity).
  assert (L : forall x, length (entries (turn_moment d Q (of_entries sh x))) = prod sh) by (intros x; rewrite entries_len, T, turn1_shape; reflexivity).
  split.
  - intros x _. split; apply L.
  - intros s x e Lx Le. rewrite !T. rewrite <- away_entries by (rewrite !turn1_shape; reflexivity). apply entries_teq.
    assert (TE : teq (turn1 d Q k (of_entries sh (away s x e))) (turn1 d Q k (tadd (of_entries sh x) (tscal (- s) (of_entries sh e))))) by (apply turn1_teq; [exact K|apply of_away; assumption]).
    apply (teq_trans _ _ _ TE). apply teq_sym.
    apply (turn1_add d Q k (of_entries sh x) (tscal (- s) (of_entries sh e))); [exact K|reflexivity|apply teq_refl|].
    apply turn1_scal; [exact K|apply teq_refl].
  - intros x e Lx Le. rewrite !T. rewrite entries_dot by (rewrite !turn1_shape; reflexivity).
    rewrite <- (entries_of sh x Lx) at 2. rewrite <- (entries_of sh e Le) at 2. rewrite entries_dot by reflexivity.
    assert (A : tdot (turn1 d Q k (of_entries sh x)) (turn1 d Q k (of_entries sh e)) = tdot (of_entries sh x) (turn1 d (mtr Q) k (turn1 d Q k (of_entries sh e)))).
    { symmetry. apply turn1_dot; [exact K|rewrite turn1_shape; reflexivity]. }
    rewrite A. pose proof (turn1_back d (mtr Q) (rigid_tr d Q HQ) k (of_entries sh e) K) as B. change (mtr (mtr Q)) with Q in B.
    rewrite (tdot_sum (of_entries sh x) (of_entries sh e)), tdot_sum by (rewrite ?turn1_shape; reflexivity). rewrite !sum_idx_flat. rewrite Rmult_1_l, Rmult_1_l. apply rsum_ext. intros j J. rewrite (proj2 B) by (apply valid_unravel; exact J). reflexivity.
  - intros e Le. exists (entries (turn1 d (mtr Q) k (of_entries sh e))). split; [rewrite entries_len, turn1_shape; reflexivity|]. rewrite T.
    rewrite <- (entries_of sh e Le) at 2. apply entries_teq.
    assert (TE : teq (of_entries sh (entries (turn1 d (mtr Q) k (of_entries sh e)))) (turn1 d (mtr Q) k (of_entries sh e))).
    { pose proof (of_entries_teq (turn1 d (mtr Q) k (of_entries sh e))) as X. rewrite turn1_shape in X. exact X. }
    apply (teq_trans _ (turn1 d Q k (turn1 d (mtr Q) k (of_entries sh e)))); [apply turn1_teq; [rewrite turn1_shape; exact K|exact TE]|].
    apply teq_sym. apply turn1_back; [exact HQ|exact K].
Qed.

(** ** Writing in distinct tensors *)
Lemma write_all_frame vs : forall h j, ~ In (store h j) (map (fun w => store h (fst w)) vs) -> deref (write_all h vs) j = deref h j.
Proof.
  induction vs as [|(k & v) vs IH]; intros h j N; [reflexivity|]. change (write_all h ((k, v) :: vs)) with (write_all (write h k v) vs). cbn [map In fst] in N.
  rewrite IH; [apply write_unseen; intros E; apply N; left; symmetry; exact E|]. intros I. apply N. right. exact I.
Qed.
Lemma write_all_seen ks : forall h vs, Forall (exists_in h) ks -> NoDup (map (store h) ks) -> length vs = length ks -> map (deref (write_all h (combine ks vs))) ks = vs.
Proof.
  induction ks as [|k ks IH]; intros h [|v vs] F N L; try discriminate L; [reflexivity|]. cbn [combine map] in *. change (write_all h ((k, v) :: combine ks vs)) with (write_all (write h k v) (combine ks vs)).
  inversion F; subst. inversion N as [|? ? N1 N2]; subst. f_equal.
  - rewrite write_all_frame; [apply write_seen; assumption|]. intros I. apply N1. rewrite <- (map_map fst (store (write h k v))) in I. apply in_map_iff in I. destruct I as (j & Ej & Ij).
    apply in_map_iff. exists j. split; [exact Ej|]. apply in_map_iff in Ij. destruct Ij as ((a & b) & Eab & Iab). cbn in Eab. subst a. exact (in_combine_l _ _ _ _ Iab).
  - apply IH; [|exact N2|cbn in L; lia]. rewrite Forall_forall in *. intros j I. apply write_exists. auto.
Qed.

(** ** A freshly built model *)
Lemma f2len {A B} (P : A -> B -> Prop) l l' : Forall2 P l l' -> length l = length l'.
Proof. induction 1; cbn; congruence. Qed.

Definition full (m : oman) : Prop := length (om_gd m) = g_len (om_kind m) /\ length (om_cotan m) = g_len (om_kind m).
Lemma registration_full h0 defs mods att ones lam other reduce it solver h r :
  registration h0 defs mods att false ones [] lam other reduce it solver = Ok (h, r) -> Forall full (r_init r).
Proof.
  intros E. unfold registration in E. bok E u HE0. cbn [bind] in E. destruct (clone_mans h0 _) as [h2 init] eqn:Ecl. bok E y HE2. destruct y as (h3 & init1).
  destruct (clone_mans_ok _ _ _ _ Ecl) as (RI & KI & CI). assert (GI : Forall (exists_in h2) (flat init)) by apply RI.
  destruct (cotan_records_ok _ _ _ _ GI HE2) as (RL & CU & GD & CT). unfold compute_parameters in E. cbn [r_fit_gd r_fit_controls bind] in E. injection E as _ <-. cbn [set_parameters r_init].
  assert (C0 : Forall full init).
  { revert CI. apply Forall_impl. intros m (A & B & _). unfold full. rewrite <- (map_length (deref h2) (om_gd m)), <- (map_length (deref h2) (om_cotan m)), A, B, g_gd_len, g_cotan_len. auto. }
  clear - CU C0. induction CU as [|m m' ms ms' (K & L1 & L2) _ IH]; inversion C0 as [|? ? (A & B) F']; subst; constructor; [unfold full; rewrite K, L1, L2; auto|auto].
Qed.

Lemma full_value h m g : full m -> man_value h m = Ok g ->
  skel g = skel (om_kind m) /\ g_gd g = map (deref h) (om_gd m) /\ g_cotan g = map (deref h) (om_cotan m).
Proof.
  intros (L1 & L2) E. unfold man_value in E.
  destruct (put_gd_ok (om_kind m) (map (deref h) (om_gd m)) []) as (g1 & E1 & G1 & C1 & K1); [rewrite map_length; exact L1|]. rewrite app_nil_r in E1. rewrite E1 in E. cbn [bind] in E.
  destruct (put_cotan_ok g1 (map (deref h) (om_cotan m)) []) as (g2 & E2 & C2 & G2 & K2); [rewrite map_length, (skel_len g1 (om_kind m) K1); exact L2|]. rewrite app_nil_r in E2. rewrite E2 in E. cbn [bind] in E.
  injection E as <-. split; [congruence|]. split; congruence.
Qed.
Lemma full_ok h m : full m -> exists g, man_value h m = Ok g.
Proof.
  intros (L1 & L2). unfold man_value.
  destruct (put_gd_ok (om_kind m) (map (deref h) (om_gd m)) []) as (g1 & E1 & G1 & C1 & K1); [rewrite map_length; exact L1|]. rewrite app_nil_r in E1. rewrite E1. cbn [bind].
  destruct (put_cotan_ok g1 (map (deref h) (om_cotan m)) []) as (g2 & E2 & C2 & G2 & K2); [rewrite map_length, (skel_len g1 (om_kind m) K1); exact L2|]. rewrite app_nil_r in E2. rewrite E2. eexists. reflexivity.
Qed.

(** New moments: the same kinds, the same descriptors. *)
Definition moments_changed (g gx : gman) : Prop := skel gx = skel g /\ g_gd gx = g_gd g.
Lemma new_values h hx ms : Forall full ms -> (forall m, In m ms -> map (deref hx) (om_gd m) = map (deref h) (om_gd m)) ->
  forall gs, map (man_value h) ms = map (@Ok _) gs ->
  exists gsx, map (man_value hx) ms = map (@Ok _) gsx /\ Forall2 moments_changed gs gsx /\
    flat_map g_cotan gs = map (deref h) (flat_map om_cotan ms) /\ flat_map g_cotan gsx = map (deref hx) (flat_map om_cotan ms).
Proof.
  induction 1 as [|m ms F _ IH]; intros D [|g gs] E; try discriminate E; [exists []; repeat split; constructor|]. cbn [map] in E. injection E as E1 E2.
  destruct (IH (fun m I => D m (or_intror I)) gs E2) as (gsx & A & B & C1 & C2). destruct (full_ok hx m F) as (gx & Ex). exists (gx :: gsx).
  destruct (full_value h m g F E1) as (K & G & C). destruct (full_value hx m gx F Ex) as (Kx & Gx & Cx). cbn [map flat_map]. rewrite Ex, A, C1, C2, C, Cx, !map_app.
  split; [reflexivity|]. split; [constructor; [|exact B]|auto]. split; [congruence|]. rewrite Gx, G. apply D. left. reflexivity.
Qed.

(** Filling the modules and the objects. *)
Lemma sets_app a : forall b ga gb ra rb, length ga = length a -> sets a ga = Ok ra -> sets b gb = Ok rb -> sets (a ++ b) (ga ++ gb) = Ok (ra ++ rb).
Proof.
  induction a as [|m a IH]; intros b [|g ga] gb ra rb L E F; try discriminate L; cbn [sets app] in *; fold sets in *.
  - injection E as <-. exact F.
  - bok E m1 HE1. bok E r1 HE2. injection E as <-. rewrite HE1. cbn [bind]. rewrite (IH b ga gb r1 rb); [reflexivity|cbn in L; lia|exact HE2|exact F].
Qed.
Lemma filled_mods h mods : forall init gs, map (man_value h) init = map (@Ok _) gs -> map skel gs = map (fun m => skel (mod_manifold m)) mods ->
  exists mods', fill_mods h mods init = Ok mods' /\ sets mods gs = Ok mods'.
Proof.
  induction mods as [|m mods IH]; intros init [|g gs] E K; try discriminate K; destruct init as [|o init]; try discriminate E; [exists []; split; reflexivity|]. cbn [map] in *. injection E as E1 E2. injection K as K1 K2.
  destruct (set_ok m g K1) as (m1 & S & _). destruct (IH init gs E2 K2) as (ms' & F & T). exists (m1 :: ms'). cbn [fill_mods sets]. fold sets. rewrite E1. cbn [bind]. rewrite S. cbn [bind]. rewrite F, T. split; reflexivity.
Qed.
Lemma filled_defs h defs : forall init gs rest, map (man_value h) init = map (@Ok _) (gs ++ rest) -> length gs = length defs ->
  fill_defs h defs init = Ok (map (fun p => df_set (fst p) (snd p)) (combine defs gs)).
Proof.
  induction defs as [|o defs IH]; intros init [|g gs] rest E L; try discriminate L; [destruct init; reflexivity|]. destruct init as [|m init]; [discriminate E|]. cbn [map app combine fill_defs] in *. injection E as E1 E2.
  rewrite E1. cbn [bind]. rewrite (IH init gs rest E2) by (cbn in L; lia). reflexivity.
Qed.
Lemma df_man_set o g : df_man (df_set o g) = g.
Proof. destruct o; reflexivity. Qed.
Lemma sets_defs defs : forall gs, length gs = length defs ->
  sets (map silent_module defs) gs = Ok (map silent_module (map (fun p => df_set (fst p) (snd p)) (combine defs gs))).
Proof.
  induction defs as [|o defs IH]; intros [|g gs] L; try discriminate L; [reflexivity|]. cbn [map combine sets silent_module set_manifold bind fst snd]. fold sets. rewrite IH by (cbn in L; lia). cbn [bind]. unfold silent_module at 2. rewrite df_man_set. reflexivity.
Qed.

Definition same_object (o ox : deformable) : Prop := ox = df_set o (df_man ox) /\ moments_changed (df_man o) (df_man ox).
Definition refilled (defs : list deformable) (mods : list dmod) (vs : list tensor) (defs' : list deformable) (mods' : list dmod) : Prop :=
  set_manifold (start defs mods) (mod_manifold (start defs' mods')) = Ok (start defs' mods') /\
  moments_changed (mod_manifold (start defs mods)) (mod_manifold (start defs' mods')) /\
  g_cotan (mod_manifold (start defs' mods')) = vs /\ Forall2 same_object defs defs'.

Lemma start_manifold defs mods : mod_manifold (start defs mods) = GComp (map df_man defs ++ map mod_manifold mods).
Proof. unfold start. cbn [mod_manifold]. rewrite map_app, map_map. reflexivity. Qed.
Lemma changed_comp gs gsx : Forall2 moments_changed gs gsx -> moments_changed (GComp gs) (GComp gsx).
Proof.
  induction 1 as [|g gx gs gsx (K & G) _ (IK & IG)]; [split; reflexivity|]. cbn [skel g_gd] in *. injection IK as IK. split; cbn [skel g_gd map flat_map]; [rewrite K, IK|rewrite G, IG]; reflexivity.
Qed.

Lemma with_moments_filled h0 defs mods att ones lam reduce it solver h r x :
  registration h0 defs mods att false ones [] lam [] reduce it solver = Ok (h, r) -> same_shape x (moments h r) ->
  exists defs' mods', filled (with_moments h r x) r = Ok (defs', mods') /\
    refilled defs mods (map (fun p => of_entries (shape (fst p)) (snd p)) (combine (g_cotan (mod_manifold (start defs mods))) (List.concat x))) defs' mods' /\
    map (deref h) (init_cotan r) = g_cotan (mod_manifold (start defs mods)).
Proof.
  intros E SX. pose proof (registration_full _ _ _ _ _ _ _ _ _ _ _ _ E) as FU.
  destruct (registration_ok h0 defs mods att false ones [] lam [] reduce it solver h r (NoDup_nil _) E) as ([GO _ _] & _ & RD & RM & _ & _ & _ & _ & _ & _ & _ & V & _).
  destruct GO as [EX DI _ _ _ _]. set (gs := map df_man defs ++ map mod_manifold mods) in *.
  assert (LX : length (List.concat x) = length (init_cotan r)).
  { unfold same_shape, moments in SX. destruct x as [|a [|b x]]; try discriminate SX. cbn [map] in SX. injection SX as SX. cbn [List.concat]. rewrite app_nil_r, <- (map_length (@length R) a), SX, !map_length. reflexivity. }
  set (vs := map (fun p => of_entries (shape (deref h (fst p))) (snd p)) (combine (init_cotan r) (List.concat x))).
  assert (HX : with_moments h r x = write_all h (combine (init_cotan r) vs)).
  { unfold with_moments, vs. f_equal. clear - LX. revert LX. generalize (List.concat x). intros l. revert l. induction (init_cotan r) as [|k ks IH]; intros [|y l] L; try discriminate L; [reflexivity|]. cbn [combine map fst snd]. f_equal. apply IH. cbn in L. lia. }
  assert (LV : length vs = length (init_cotan r)) by (unfold vs; rewrite map_length, combine_length, LX; lia).
  assert (DIS : Forall (exists_in h) (init_cotan r) /\ NoDup (map (store h) (init_cotan r)) /\ forall m, In m (r_init r) -> forall k, In k (om_gd m) -> ~ In (store h k) (map (store h) (init_cotan r))).
  { unfold tensors_of in EX, DI. apply Forall_app in EX. destruct EX as (EX & _). rewrite map_app in DI. assert (DI1 : NoDup (map (store h) (flat_map man_refs (r_init r)))) by (clear - DI; induction (map (store h) (flat_map man_refs (r_init r))) as [|a l IH]; [constructor|]; inversion DI; subst; constructor; [intros I; apply H1; apply in_app_iff; auto|auto]).
    clear - EX DI1. unfold init_cotan.
    assert (P : Permutation (flat_map man_refs (r_init r)) (flat_map om_gd (r_init r) ++ flat_map om_cotan (r_init r))).
    { clear. induction (r_init r) as [|m l IH]; [constructor|]. cbn [flat_map]. unfold man_refs at 1. rewrite <- !app_assoc. apply Permutation_app_head. rewrite IH. apply Permutation_app_swap_app. }
    assert (EX1 : Forall (exists_in h) (flat_map om_gd (r_init r) ++ flat_map om_cotan (r_init r))) by (revert EX; apply Permutation_Forall; exact P). apply Forall_app in EX1.
    assert (N1 : NoDup (map (store h) (flat_map om_gd (r_init r) ++ flat_map om_cotan (r_init r)))) by (apply (Permutation_NoDup (Permutation_map (store h) P)); exact DI1). rewrite map_app in N1.
    split; [apply EX1|]. split; [clear - N1; induction (map (store h) (flat_map om_gd (r_init r))) as [|a l IH]; [exact N1|]; inversion N1; auto|].
    intros m I k J X. assert (IG : In (store h k) (map (store h) (flat_map om_gd (r_init r)))) by (apply in_map, in_flat_map; eauto).
    clear - N1 X IG. induction (map (store h) (flat_map om_gd (r_init r))) as [|a l IH]; [contradiction IG|]. cbn [app] in N1. inversion N1; subst. destruct IG as [->|IG]; [apply H1, in_app_iff; auto|auto]. }
  destruct DIS as (EXC & NDC & GDC). set (hx := with_moments h r x) in *.
  assert (DG : forall m, In m (r_init r) -> map (deref hx) (om_gd m) = map (deref h) (om_gd m)).
  { intros m I. apply map_ext_in. intros k J. rewrite HX. apply write_all_frame. intros X. apply (GDC m I k J). rewrite <- (map_map fst (store h)) in X. apply in_map_iff in X. destruct X as (j & Ej & Ij).
    apply in_map_iff. exists j. split; [exact Ej|]. apply in_map_iff in Ij. destruct Ij as ((a & b) & Eab & Iab). cbn in Eab. subst a. exact (in_combine_l _ _ _ _ Iab). }
  destruct (new_values h hx (r_init r) FU DG gs V) as (gsx & VX & CH & C0 & CX). fold (init_cotan r) in C0, CX. rewrite HX, (write_all_seen _ _ _ EXC NDC LV) in CX.
  assert (LG : length gsx = length gs) by (clear - CH; induction CH; cbn; congruence).
  set (n := length defs) in *. set (ga := firstn n gsx). set (gb := skipn n gsx). assert (EG : gsx = ga ++ gb) by (symmetry; apply firstn_skipn).
  assert (LA : length ga = n) by (unfold ga; apply firstn_length_le; rewrite LG; unfold gs; rewrite app_length, map_length; unfold n; lia).
  assert (CHA : Forall2 moments_changed (map df_man defs) ga /\ Forall2 moments_changed (map mod_manifold mods) gb).
  { rewrite EG in CH. unfold gs in CH. apply Forall2_app_inv_l in CH. destruct CH as (a & b & Fa & Fb & Eab). assert (La : length a = n) by (rewrite <- (f2len _ _ _ Fa), map_length; reflexivity).
    apply app_eq_len in Eab; [|congruence]. destruct Eab as (<- & <-). auto. }
  destruct CHA as (CHA & CHB).
  assert (VB : map (man_value hx) (skipn n (r_init r)) = map (@Ok _) gb).
  { unfold gb. rewrite <- !skipn_map, VX. reflexivity. }
  destruct (filled_mods hx mods (skipn n (r_init r)) gb VB) as (mods' & FM & SM).
  { clear - CHB. clearbody gb. revert gb CHB. induction mods as [|m mods IH]; intros gb F; inversion F as [|? ? ? ? (K & _) F']; subst; [reflexivity|]. cbn [map]. rewrite K. f_equal. apply IH. exact F'. }
  pose proof (filled_defs hx defs (r_init r) ga gb ltac:(rewrite <- EG; exact VX) LA) as FD. set (defs' := map (fun p => df_set (fst p) (snd p)) (combine defs ga)) in *.
  exists defs', mods'. split; [unfold filled; rewrite RM, RD; fold n; rewrite FM; cbn [bind]; rewrite FD; reflexivity|].
  assert (ST : set_manifold (start defs mods) (GComp gsx) = Ok (start defs' mods')).
  { unfold start. rewrite set_comp, EG. rewrite (sets_app _ _ ga gb (map silent_module defs') mods'); [reflexivity|rewrite map_length; exact LA|apply sets_defs; exact LA|exact SM]. }
  assert (MM : mod_manifold (start defs' mods') = GComp gsx).
  { assert (K : skel (GComp gsx) = skel (mod_manifold (start defs mods))) by (rewrite start_manifold; apply (changed_comp gs gsx CH)).
    destruct (set_ok (start defs mods) (GComp gsx) K) as (m1 & S1 & M1 & _). rewrite ST in S1. injection S1 as ->. exact M1. }
  split; [|rewrite start_manifold; exact (eq_sym C0)].
  split; [rewrite MM; exact ST|]. rewrite MM. split; [rewrite start_manifold; apply changed_comp; exact CH|]. split.
  - cbn [g_cotan]. rewrite CX. rewrite start_manifold. cbn [g_cotan]. fold gs. rewrite C0. unfold vs. clear. generalize (List.concat x). intros l. revert l. induction (init_cotan r) as [|k ks IH]; intros [|y l]; try reflexivity. cbn [combine map fst snd]. f_equal. apply IH.
  - unfold defs'. clear - CHA LA. clearbody ga. unfold n in *. clear n. revert ga CHA LA. induction defs as [|o defs IH]; intros [|g ga] F L; try discriminate L; [constructor|]. cbn [map combine fst snd] in *. inversion F as [|? ? ? ? C F']; subst.
    constructor; [split; rewrite df_man_set; [reflexivity|exact C]|]. apply IH; [exact F'|cbn in L; lia].
Qed.

(** ** Moving the moments of two models, one placed elsewhere *)
Lemma kinds_no_points g : Forall (fun k => k <> KP) (kinds_ct g).
Proof.
  induction g as [g S|gs IH] using ShootingPack.gman_ind'; [destruct g; try (elim S); repeat constructor; discriminate|]. cbn [kinds_ct]. induction IH as [|g gs A _ B]; [constructor|]. cbn [flat_map]. apply Forall_app. auto.
Qed.
Lemma turned_tensors d Q c ks cs : kshapes d ks (map shape cs) -> Forall (fun k => k <> KP) ks -> forall cs' xs j (p : nat -> list R -> list R),
  map shape cs' = map shape cs -> length xs = length cs ->
  (forall i u, nth_error cs i = Some u -> p (j + i)%nat = fun x => entries (turn_moment d Q (of_entries (shape u) x))) ->
  leq (map (fun p => of_entries (shape (fst p)) (snd p)) (combine cs' (mapi p j xs))) (lplace d Q c ks (map (fun p => of_entries (shape (fst p)) (snd p)) (combine cs xs))).
Proof.
  intros K. remember (map shape cs) as shs eqn:ES. revert cs ES. induction K as [|k sh ks shs K1 _ IH]; intros cs ES NP cs' xs j p S L P.
  - destruct cs; [|discriminate ES]. destruct cs'; [|discriminate S]. constructor.
  - destruct cs as [|u cs]; [discriminate ES|]. destruct cs' as [|u' cs']; [discriminate S|]. destruct xs as [|x xs]; [discriminate L|]. cbn [map] in ES, S. injection ES as -> ES. injection S as S1 S2.
    inversion NP as [|? ? N1 N2]; subst. cbn [combine mapi map lplace fst snd]. constructor.
    + pose proof (P 0%nat u eq_refl) as P0. rewrite Nat.add_0_r in P0. rewrite P0, S1. destruct (kind_moment d k _ N1 K1) as (_ & MK).
      assert (PT : place1 d Q c k (of_entries (shape u) x) = turn_moment d Q (of_entries (shape u) x)).
      { rewrite turn_moment_kind. cbn [of_entries shape]. rewrite MK. destruct k; [elim N1; reflexivity|reflexivity|reflexivity]. }
      rewrite PT. pose proof (of_entries_teq (turn_moment d Q (of_entries (shape u) x))) as X. rewrite turn_moment_kind in X at 1. rewrite turn1_shape in X. exact X.
    + apply (IH cs eq_refl N2 cs' xs (S j) p); [exact S2|cbn in L; lia|]. intros i w W. rewrite Nat.add_succ_comm. apply P. exact W.
Qed.

Lemma refilled_elsewhere d Q c defs mods defs' mods' vs vs' dx mx dx' mx' : wf_mod d (start defs mods) -> elsewhere d Q c (start defs mods) (start defs' mods') ->
  wf_gman d (mod_manifold (start dx mx)) ->
  refilled defs mods vs dx mx -> refilled defs' mods' vs' dx' mx' -> leq vs' (lplace d Q c (kinds_ct (mod_manifold (start defs mods))) vs) ->
  elsewhere d Q c (start dx mx) (start dx' mx').
Proof.
  intros W (TW & SV) WX (ST & (K & G) & C & _) (ST' & (K' & G') & C' & _) LE. split; [exact (twin_set d Q c _ _ _ _ _ _ TW ST ST')|].
  set (g := mod_manifold (start defs mods)) in *. set (g' := mod_manifold (start defs' mods')) in *. set (gx := mod_manifold (start dx mx)) in *. set (gx' := mod_manifold (start dx' mx')) in *.
  destruct SV as ((KS & A) & (KS2 & B)). pose proof (proj1 (wf_mod_manifold d _ W)) as WG. fold g in WG.
  destruct (gd_placed d Q c g WG) as (P1 & P2). destruct (gd_placed d Q c gx WX) as (P1x & P2x). destruct (kinds_skel g) as (Kg & Kc). destruct (kinds_skel gx) as (Kgx & Kcx).
  assert (SK : skel gx' = skel (placed_man d Q c gx)) by (rewrite skel_placed; rewrite skel_placed in KS; congruence).
  split; split; try exact SK.
  - rewrite P1x, G', G, <- Kgx, K, Kg, <- P1. exact A.
  - rewrite P2x, C', C, <- Kcx, K, Kc. exact LE.
Qed.

Lemma attached_refilled d Q c defs att ts defs' att' ts' : attached_elsewhere d Q c defs att ts defs' att' ts' -> forall dx dx',
  Forall2 same_object defs dx -> Forall2 same_object defs' dx' -> attached_elsewhere d Q c dx att ts dx' att' ts'.
Proof.
  induction 1 as [|o a y defs att ts o' a' y' defs' att' ts' AO GE IN _ IH]; intros dx dx' F F'; inversion F as [|? ox ? dx1 (E & K & G) F1]; inversion F' as [|? ox' ? dx1' (E' & K' & G') F1']; subst; [constructor|].
  constructor; [|exact GE| |apply IH; assumption].
  - rewrite E, E'. destruct o, o'; cbn in AO |- *; try contradiction AO; exact AO.
  - intros q0 q q' x x' H0 S T D D'. apply (IN q0 q q' x x'); [|exact S|exact T| |].
    + rewrite <- H0. clear - K G. destruct (df_man o), (df_man ox); try discriminate K; cbn in G |- *; congruence.
    + rewrite <- D, E. destruct o, o'; try contradiction AO; reflexivity.
    + rewrite <- D', E'. destruct o, o'; try contradiction AO; reflexivity.
Qed.

(** ** What does not depend on where the descriptors and the moments are *)
Lemma smooth_set d m : forall g m1, locals_smooth d m -> set_manifold m g = Ok m1 -> locals_smooth d m1.
Proof.
  induction m as [m NC|ms IH] using dmod_ind'; intros g m1 L E.
  - destruct m; try (elim (NC ms eq_refl)); destruct g; try discriminate E; cbn [set_manifold] in E; injection E as <-; exact L.
  - destruct g as [| | | | |gs]; try discriminate E. rewrite set_comp in E. bok E r1 Er. injection E as <-. cbn [locals_smooth] in *.
    revert gs r1 L Er. induction IH as [|m ms Hm _ IHs]; intros gs r L Er; destruct gs as [|g gs]; try discriminate Er; [injection Er as <-; exact Logic.I|].
    cbn [fold_right sets] in *. fold sets in Er. bok Er m1 Em. bok Er r1 Er1. injection Er as <-. cbn [fold_right]. destruct L as (L1 & L2). split; [exact (Hm g m1 L1 Em)|exact (IHs gs r1 L2 Er1)].
Qed.
Lemma total_set d m : forall g m1, locals_total d m -> set_manifold m g = Ok m1 -> locals_total d m1.
Proof.
  induction m as [m NC|ms IH] using dmod_ind'; intros g m1 L E.
  - destruct m; try (elim (NC ms eq_refl)); destruct g; try discriminate E; cbn [set_manifold] in E; injection E as <-; exact L.
  - destruct g as [| | | | |gs]; try discriminate E. rewrite set_comp in E. bok E r1 Er. injection E as <-. cbn [locals_total] in *.
    revert gs r1 L Er. induction IH as [|m ms Hm _ IHs]; intros gs r L Er; destruct gs as [|g gs]; try discriminate Er; [injection Er as <-; exact Logic.I|].
    cbn [fold_right sets] in *. fold sets in Er. bok Er m1 Em. bok Er r1 Er1. injection Er as <-. cbn [fold_right]. destruct L as (L1 & L2). split; [exact (Hm g m1 L1 Em)|exact (IHs gs r1 L2 Er1)].
Qed.
Lemma set_set m : forall g m1 g2, set_manifold m g = Ok m1 -> set_manifold m1 g2 = set_manifold m g2.
Proof.
  induction m as [m NC|ms IH] using dmod_ind'; intros g m1 g2 E.
  - destruct m; try (elim (NC ms eq_refl)); destruct g; try discriminate E; cbn [set_manifold] in E; injection E as <-; reflexivity.
  - destruct g as [| | | | |gs]; try discriminate E. rewrite set_comp in E. bok E r1 Er. injection E as <-. destruct g2 as [| | | | |gs2]; try reflexivity. rewrite !set_comp.
    assert (H : sets r1 gs2 = sets ms gs2); [|rewrite H; reflexivity].
    revert gs r1 gs2 Er. induction IH as [|m ms Hm _ IHs]; intros gs r gs2 Er; destruct gs as [|g gs]; try discriminate Er; [injection Er as <-; reflexivity|].
    cbn [sets] in Er. fold sets in Er. bok Er m1 Em. bok Er r1 Er1. injection Er as <-. destruct gs2 as [|g2 gs2]; [reflexivity|]. cbn [sets]. fold sets. rewrite (Hm g m1 g2 Em), (IHs gs r1 gs2 Er1). reflexivity.
Qed.

Lemma refilled_shapes defs mods dx mx x : length x = length (g_cotan (mod_manifold (start defs mods))) ->
  refilled defs mods (map (fun p => of_entries (shape (fst p)) (snd p)) (combine (g_cotan (mod_manifold (start defs mods))) x)) dx mx ->
  map shape (g_gd (mod_manifold (start dx mx))) = map shape (g_gd (mod_manifold (start defs mods))) /\
  map shape (g_cotan (mod_manifold (start dx mx))) = map shape (g_cotan (mod_manifold (start defs mods))).
Proof.
  intros L (_ & (_ & G) & C & _). rewrite G, C. split; [reflexivity|]. clear - L. revert x L. induction (g_cotan (mod_manifold (start defs mods))) as [|u cs IH]; intros [|y x] L; try discriminate L; [reflexivity|]. cbn [combine map fst snd of_entries shape].
  f_equal. apply IH. cbn in L. lia.
Qed.
