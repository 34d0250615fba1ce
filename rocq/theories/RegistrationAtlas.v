(** Atlases. *)
From Coq Require Import Reals String List Permutation Arith ZArith Lia.
From Verif Require Import Py Tensor KernelModel FieldModel GeometryModel ModuleModel ShootingModel
  RegistrationModel SpecModule SpecRegistration ModuleMain ModuleLeaves RegistrationRun RegistrationHeap RegistrationParams RegistrationLife.
Import ListNotations.
Open Scope string_scope.
Open Scope list_scope.

Lemma incl_select bs : forall l : list ref, incl (select bs l) l.
Proof.
  induction bs as [|b bs IH]; intros [|k l]; cbn [select]; try apply incl_nil_l. destruct b; cbn [app].
  - apply incl_cons; [left; reflexivity|]. apply incl_tl. apply IH.
  - apply incl_tl. apply IH.
Qed.

Lemma selected_whole_incl fits : forall ms, incl (selected_whole fits ms) (flat ms).
Proof.
  induction fits as [|[[]|bs] fits IH]; intros [|m ms]; cbn [selected_whole flat_map]; try apply incl_nil_l; try (apply incl_appr; apply IH).
  apply incl_app; [apply incl_appl; unfold man_refs; apply incl_appl, incl_refl|apply incl_appr; apply IH].
Qed.

Lemma tensors_init r k : In k (flat (r_init r)) -> In k (tensors_of r).
Proof. intros I. unfold tensors_of. apply in_app_iff. auto. Qed.

Lemma in_skipn {A} n (l : list A) x : In x (skipn n l) -> In x l.
Proof. revert l. induction n as [|n IH]; intros [|a l] I; cbn in *; auto. Qed.

Lemma flat_skipn n ms k : In k (flat (skipn n ms)) -> In k (flat ms).
Proof. intros I. apply in_flat_map in I. destruct I as (m & I & J). apply in_flat_map. exists m. split; [exact (in_skipn _ _ _ I)|exact J]. Qed.

Lemma good_ext h h' r : ext h h' -> good h r -> good h' r.
Proof.
  intros X [EX DI CR KR ER LE].
  assert (FL : forall k b, In k (tensors_of r) -> flag h k = b -> flag h' k = b).
  { intros k b I <-. apply ext_flag; [exact X|]. rewrite Forall_forall in EX. auto. }
  split.
  - exact (exists_ext _ _ _ X EX).
  - rewrite (stores_ext _ _ _ X EX). exact DI.
  - rewrite Forall_forall in *. intros k I. apply FL; [|auto]. apply tensors_init, flat_in_cotan. exact I.
  - rewrite Forall_forall in *. intros k I. apply FL; [|auto]. unfold tensors_of. apply in_app_iff. auto.
  - rewrite Forall_forall in *. intros k I. apply FL; [|auto]. apply selected_incl in I. apply tensors_init, (flat_skipn _ _ _ I).
  - exact LE.
Qed.

Definition rs_tensors (rs : list reg) : list ref := flat_map tensors_of rs.

Lemma subjects_ok n template mods att lam other : NoDup (map fst other) -> forall h h' rs,
  subjects n h template mods att lam other = Ok (h', rs) ->
  renew h h' (rs_tensors rs) /\ Forall (good h') rs /\ length rs = n /\
  Forall (fun r => r_fit_gd r = [] /\ r_fit_controls r = false /\ r_defs r = [template] /\ r_mods r = mods /\ r_other r = other /\ r_reduce r = "sum" /\
                   r_att r = [att] /\ r_lam r = lam /\
                   map (man_value h') (r_init r) = map (@Ok _) (df_man template :: map mod_manifold mods) /\
                   map om_kind (r_init r) = df_man template :: map mod_manifold mods) rs.
Proof.
  intros ND. induction n as [|n IH]; intros h h' rs E; cbn [subjects] in E.
  - injection E as <- <-. split; [apply renew_nil|]. repeat split; constructor.
  - bok E y HE1. destruct y as (h1 & r). bok E y HE2. destruct y as (h2 & rs2). injection E as <- <-.
    destruct (registration_ok _ _ _ _ _ _ _ _ _ _ _ _ _ _ ND HE1) as ([G _ _] & R & K1 & K2 & K3 & K4 & K5 & K6 & K7 & K8 & _ & V & KI & _ & _).
    destruct (IH _ _ _ HE2) as (R2 & F2 & L2 & V2). assert (X2 : ext h1 h2) by apply R2. split; [exact (renew_app _ _ _ _ _ R R2)|]. split; [|split].
    + constructor; [exact (good_ext _ _ _ X2 G)|exact F2].
    + cbn. congruence.
    + constructor; [|exact V2]. do 8 (split; [assumption|]). split; [|exact KI].
      refine (eq_trans (proj1 (same_values_reads h1 h2 r _)) V).
      intros k I. apply ext_deref; [exact X2|]. pose proof (g_exist _ _ G) as EX. rewrite Forall_forall in EX. auto.
Qed.

(** gd_requires_grad_ on one manifold of each subject *)
Lemma set_nth_split {A} (l : list A) n x y : nth_error l n = Some x -> set_nth l n y = firstn n l ++ y :: skipn (S n) l /\ l = firstn n l ++ x :: skipn (S n) l.
Proof.
  revert n. induction l as [|a l IH]; intros [|n] E; try discriminate E; cbn in *; [injection E as ->; auto|]. destruct (IH _ E) as (A1 & A2). rewrite A1. split; [reflexivity|].
  rewrite <- A2. reflexivity.
Qed.

Lemma subject_records_ok h r i h1 r1 : r_fit_gd r = [] -> good h r -> subject_records h r i = Ok (h1, r1) ->
  good h1 r1 /\ kept r r1 /\ relabel h h1 (tensors_of r) (tensors_of r1) /\ cut_as (r_init r) (r_init r1) /\
  (exists m, nth_error (r_init r1) (S i) = Some m /\ Forall (fun k => flag h1 k = true) (om_gd m)) /\
  (forall j, j <> S i -> nth_error (r_init r1) j = nth_error (r_init r) j).
Proof.
  intros NF G E. unfold subject_records in E. destruct (nth_error (r_init r) (S i)) as [m|] eqn:En; [|discriminate]. bok E y HE1. destruct y as (h2 & m1). injection E as <- <-.
  pose proof (g_exist _ _ G) as EX. unfold tensors_of in EX. apply Forall_app in EX. destruct EX as (EI & EC).
  destruct (set_nth_split _ _ _ m1 En) as (S1 & S2). set (A := firstn (S i) (r_init r)) in *. set (B := skipn (S (S i)) (r_init r)) in *.
  rewrite S2, flat_app in EI. cbn [flat_map] in EI. rewrite !Forall_app in EI. destruct EI as (EA & Em & EB).
  unfold gd_records in HE1. destruct (is_comp m); [discriminate|]. unfold man_refs in Em. rewrite Forall_app in Em. destruct Em as (Eg & Ec).
  destruct (each_ref (fun h r => detach h r true) h (om_gd m)) as [hx g] eqn:Ed. injection HE1 as <- <-.
  destruct (each_detach (fun _ _ => true) _ _ _ _ Eg Ed) as (R & L). pose proof (each_detach_true _ _ _ _ Eg Ed) as FT. assert (X : ext h hx) by apply R.
  assert (CU : cut_as (r_init r) (set_nth (r_init r) (S i) (mkOman (om_kind m) g (om_cotan m)))).
  { rewrite S1. rewrite S2 at 1. apply Forall2_app; [clear; induction A; constructor; auto|]. constructor; [cbn; auto|clear; induction B; constructor; auto]. }
  assert (RT : relabel h hx (tensors_of r) (tensors_of (set_init r (set_nth (r_init r) (S i) (mkOman (om_kind m) g (om_cotan m)))))).
  { unfold tensors_of. cbn [r_init r_ctrls set_init]. rewrite S1. rewrite S2 at 1. rewrite !flat_app. cbn [flat_map]. unfold man_refs at 2 5. cbn [om_gd om_cotan].
    apply (relabel_app h hx hx); [exact EC| |apply relabel_refl; exact (exists_ext _ _ _ X EC)].
    apply (relabel_app h h hx); [rewrite !Forall_app; auto|apply relabel_refl; exact EA|].
    apply (relabel_app h hx hx); [exact EB| |apply relabel_refl; exact (exists_ext _ _ _ X EB)].
    apply (relabel_app h hx hx); [exact Ec|exact R|apply relabel_refl; exact (exists_ext _ _ _ X Ec)]. }
  assert (CO : flat_map om_cotan (set_nth (r_init r) (S i) (mkOman (om_kind m) g (om_cotan m))) = flat_map om_cotan (r_init r)).
  { rewrite S1. rewrite S2 at 1. rewrite !flat_map_app. reflexivity. }
  split; [|split; [|split; [exact RT|split; [exact CU|split]]]].
  - destruct G as [_ DI CR KR ER LE]. split.
    + apply RT.
    + destruct RT as (_ & _ & ->). exact DI.
    + unfold init_cotan. cbn. rewrite CO. rewrite Forall_forall in *. intros k I. rewrite (ext_flag _ _ _ X); [auto|].
      apply flat_in_cotan in I. rewrite S2, flat_app in I. cbn [flat_map] in I. unfold man_refs at 2 in I. rewrite !in_app_iff in I. destruct I as [I|[[I|I]|I]]; auto.
    + cbn. rewrite Forall_forall in *. intros k I. rewrite (ext_flag _ _ _ X); auto.
    + cbn. rewrite NF. constructor.
    + cbn. rewrite set_nth_len. exact LE.
  - repeat split.
  - eexists. split; [cbn [r_init set_init]; rewrite S1, nth_error_app2; unfold A; rewrite firstn_length_le by (apply Nat.lt_le_incl; apply nth_error_Some; congruence); [rewrite Nat.sub_diag; reflexivity|lia]|]. exact FT.
  - intros j N. cbn [r_init set_init]. clear - N. revert j N. generalize (S i) as n. induction (r_init r) as [|a l IH]; intros n j N; [destruct n, j; reflexivity|].
    destruct n, j; cbn; try reflexivity; [congruence|]. apply IH. congruence.
Qed.

Definition plain (r : reg) : Prop := r_fit_gd r = [] /\ r_fit_controls r = false.

Definition agree_man (r r1 : reg) : Prop := plain r1 /\ kept r r1 /\ cut_as (r_init r) (r_init r1).

Lemma cut_as_refl ms : cut_as ms ms.
Proof. induction ms; constructor; auto. Qed.
Lemma cut_as_trans a b c : cut_as a b -> cut_as b c -> cut_as a c.
Proof.
  apply Forall2_trans. intros x y z (A & B & C) (D & E & F). repeat split; congruence.
Qed.
Lemma kept_refl r : kept r r.
Proof. repeat split. Qed.
Lemma kept_trans a b c : kept a b -> kept b c -> kept a c.
Proof.
  intros (K1 & K2 & K3 & K4 & K5 & K6 & K7 & K8 & K9 & K10) (L1 & L2 & L3 & L4 & L5 & L6 & L7 & L8 & L9 & L10). unfold kept. repeat split; congruence.
Qed.

Definition marked (h : heap) (r : reg) (i : nat) : Prop :=
  exists m, nth_error (r_init r) (S i) = Some m /\ Forall (fun k => flag h k = true) (om_gd m).

Lemma marked_ext h h' r i : ext h h' -> good h r -> marked h r i -> marked h' r i.
Proof.
  intros X G (m & E & F). exists m. split; [exact E|]. rewrite Forall_forall in *. intros k I. rewrite (ext_flag _ _ _ X); [auto|].
  pose proof (g_exist _ _ G) as EX. rewrite Forall_forall in EX. apply EX. apply tensors_init. apply in_flat_map. exists m. split; [exact (nth_error_In _ _ E)|].
  unfold man_refs. apply in_app_iff. auto.
Qed.

Lemma subjects_record_ok rs : forall i h h1 rs1, Forall (good h) rs -> Forall plain rs -> subjects_record h rs i = Ok (h1, rs1) ->
  Forall (good h1) rs1 /\ relabel h h1 (rs_tensors rs) (rs_tensors rs1) /\ Forall2 agree_man rs rs1 /\
  Forall (fun r => marked h1 r i) rs1 /\
  (forall j, j <> i -> Forall (fun r => marked h r j) rs -> Forall (fun r => marked h1 r j) rs1).
Proof.
  induction rs as [|r rs IH]; intros i h h1 rs1 G P E; cbn [subjects_record] in E.
  - injection E as <- <-. split; [constructor|]. split; [apply relabel_refl; constructor|]. repeat split; constructor.
  - bok E y HE1. destruct y as (h2 & r2). bok E y HE2. destruct y as (h3 & rs3). injection E as <- <-. inversion G as [|? ? Gr Grs]; subst. inversion P as [|? ? Pr Prs]; subst.
    destruct (subject_records_ok _ _ _ _ _ (proj1 Pr) Gr HE1) as (G2 & K2 & R2 & C2 & M2 & O2). assert (X2 : ext h h2) by apply R2.
    assert (Grs2 : Forall (good h2) rs) by (eapply Forall_impl; [intros a; apply good_ext; exact X2|exact Grs]).
    destruct (IH _ _ _ _ Grs2 Prs HE2) as (G3 & R3 & A3 & M3 & O3). assert (X3 : ext h2 h3) by apply R3. split; [|split; [|split; [|split]]].
    + constructor; [exact (good_ext _ _ _ X3 G2)|exact G3].
    + unfold rs_tensors. cbn [flat_map]. apply (relabel_app h h2 h3); [|exact R2|exact R3].
      apply Forall_flat_map. eapply Forall_impl; [|exact Grs]. intros a Ga. apply Ga.
    + constructor; [|exact A3]. split; [|split; [exact K2|exact C2]]. destruct Pr as (P1 & P2), K2 as (_ & _ & _ & _ & _ & K6 & K7 & _). split; congruence.
    + constructor; [exact (marked_ext _ _ _ _ X3 G2 M2)|exact M3].
    + intros j N F. inversion F as [|? ? F1 F2]; subst. constructor.
      * apply (marked_ext _ _ _ _ X3 G2). apply (marked_ext h h2 r j X2 Gr) in F1. destruct F1 as (m & E1 & F1). exists m. split; [|exact F1]. rewrite O2 by congruence. exact E1.
      * apply (O3 j N). apply Forall_forall. intros a I. rewrite Forall_forall in F2, Grs. apply (marked_ext h h2 a j X2); auto.
Qed.

Lemma Forall2_refl_agree rs : Forall plain rs -> Forall2 agree_man rs rs.
Proof. induction 1; constructor; [|assumption]. split; [assumption|]. split; [apply kept_refl|apply cut_as_refl]. Qed.

Lemma agree_trans a b c : agree_man a b -> agree_man b c -> agree_man a c.
Proof. intros (A1 & A2 & A3) (B1 & B2 & B3). split; [exact B1|]. split; [exact (kept_trans _ _ _ A2 B2)|exact (cut_as_trans _ _ _ A3 B3)]. Qed.

Lemma fit_loop_ok fits n : forall i h rs h1 rs1, Forall (good h) rs -> Forall plain rs -> fit_loop fits n i h rs = Ok (h1, rs1) ->
  Forall (good h1) rs1 /\ relabel h h1 (rs_tensors rs) (rs_tensors rs1) /\ Forall2 agree_man rs rs1 /\
  (forall j, (i <= j < i + n)%nat -> nth_error fits j = Some (FBool true) -> Forall (fun r => marked h1 r j) rs1) /\
  (forall j, (j < i)%nat -> Forall (fun r => marked h r j) rs -> Forall (fun r => marked h1 r j) rs1).
Proof.
  induction n as [|n IH]; intros i h rs h1 rs1 G P E; cbn [fit_loop] in E.
  - injection E as <- <-. split; [exact G|]. split; [apply relabel_refl; apply Forall_flat_map; eapply Forall_impl; [|exact G]; intros a Ga; apply Ga|].
    split; [apply Forall2_refl_agree; exact P|]. split; [intros j L; lia|auto].
  - destruct (nth_error fits i) as [f|] eqn:Ef; [|discriminate].
    assert (SK : forall f, fit_loop fits n (S i) h rs = Ok (h1, rs1) -> nth_error fits i = Some f -> f <> FBool true ->
      Forall (good h1) rs1 /\ relabel h h1 (rs_tensors rs) (rs_tensors rs1) /\ Forall2 agree_man rs rs1 /\
      (forall j, (i <= j < i + S n)%nat -> nth_error fits j = Some (FBool true) -> Forall (fun r => marked h1 r j) rs1) /\
      (forall j, (j < i)%nat -> Forall (fun r => marked h r j) rs -> Forall (fun r => marked h1 r j) rs1)).
    { intros f' E' Ef' NF. destruct (IH _ _ _ _ _ G P E') as (A & B & C & D & F). do 3 (split; [assumption|]). split.
      - intros j L EJ. destruct (Nat.eq_dec j i) as [->|]; [congruence|]. apply D; [lia|exact EJ].
      - intros j L. apply F. lia. }
    destruct f as [[]|bs]; [|apply (SK (FBool false)); [exact E|exact Ef|discriminate]|apply (SK (FEach bs)); [exact E|exact Ef|discriminate]]. clear SK.
    bok E y HE1. destruct y as (h2 & rs2). destruct (subjects_record_ok _ _ _ _ _ G P HE1) as (G2 & R2 & A2 & M2 & O2).
    assert (P2 : Forall plain rs2) by (clear - A2; induction A2 as [|? ? ? ? (Q & _)]; constructor; assumption).
    destruct (IH _ _ _ _ _ G2 P2 E) as (A & B & C & D & F). split; [exact A|]. split; [exact (relabel_trans _ _ _ _ _ _ R2 B)|].
    split; [exact (Forall2_trans _ _ _ _ agree_trans A2 C)|]. split.
    + intros j L EJ. destruct (Nat.eq_dec j i) as [->|]; [|apply D; [lia|exact EJ]]. apply F; [lia|exact M2].
    + intros j L FJ. apply F; [lia|]. apply O2; [lia|exact FJ].
Qed.

(** The parameters of the subjects *)
Definition with_params (r : reg) : reg :=
  set_parameters r (r_init r) (dict_update [("cotan", flat_map om_cotan (r_init r))] (r_other r)).

Lemma all_parameters_ok rs : Forall plain rs -> forall h, all_parameters h rs = Ok (h, map with_params rs).
Proof.
  induction 1 as [|r rs (P1 & P2) _ IH]; intros h; [reflexivity|]. cbn [all_parameters map]. unfold compute_parameters. rewrite P1, P2. cbn [bind].
  rewrite IH. reflexivity.
Qed.

Lemma atlas_gd_ok fits n : forall i rs ps, atlas_gd fits n i rs = Ok ps -> forall r rs', rs = r :: rs' ->
  ps = selected_modules (firstn n (skipn i fits)) (skipn (S i) (r_init r)) \/
  exists j, (i <= j < i + n)%nat /\ nth_error (r_init r) (S j) = None.
Proof.
  induction n as [|n IH]; intros i rs ps E r rs' ->; cbn [atlas_gd] in E.
  - injection E as <-. left. reflexivity.
  - destruct (nth_error fits i) as [f|] eqn:Ef; [|discriminate].
    assert (SF : skipn i fits = f :: skipn (S i) fits).
    { clear - Ef. revert i Ef. induction fits as [|a l IH]; intros [|i] E; try discriminate E; cbn in *; [congruence|]. apply IH. exact E. }
    destruct (nth_error (r_init r) (S i)) as [m|] eqn:Em.
    + assert (SM : skipn (S i) (r_init r) = m :: skipn (S (S i)) (r_init r)).
      { clear - Em. revert Em. generalize (S i) as k. induction (r_init r) as [|a l IH]; intros [|k] E; try discriminate E; cbn in *; [congruence|]. apply IH. exact E. }
      bok E ps1 HE1. bok E qs HE2. injection E as <-. destruct (IH _ _ _ HE2 r rs' eq_refl) as [->|(j & L & N)].
      * left. rewrite SF, SM. cbn [firstn selected_modules]. assert (TP : truthy f = picks f) by (destruct f as [[|]|[|]]; reflexivity). rewrite <- TP. destruct (truthy f); injection HE1 as <-; reflexivity.
      * right. exists j. split; [lia|exact N].
    + right. exists i. split; [lia|exact Em].
Qed.

Lemma selected_modules_incl fits : forall ms k, In k (selected_modules fits ms) -> In k (flat ms).
Proof.
  induction fits as [|f fits IH]; intros [|m ms] k I; cbn [selected_modules flat_map] in *; try contradiction. apply in_app_iff in I. apply in_app_iff. destruct I as [I|I].
  - left. destruct (picks f); [|contradiction]. unfold man_refs. apply in_app_iff. auto.
  - right. apply IH. exact I.
Qed.

(** What an atlas is when it has been built. *)
Record atlas_built (h : heap) (a : atlas) (template : deformable) (mods : list dmod) (population : nat) (other : list (string * list ref)) : Prop := mkBuilt {
  ab_length : length (a_models a) = population;
  ab_distinct : NoDup (map (store h) (rs_tensors (a_models a)));
  ab_exist : Forall (exists_in h) (rs_tensors (a_models a));
  ab_good : Forall (good h) (a_models a);
  ab_cotan : Forall (fun k => flag h k = true) (flat_map init_cotan (a_models a));
  ab_pcotan : dict_get other "cotan" = None -> dict_get (a_params a) "cotan" = Some (flat_map init_cotan (a_models a));
  ab_pgd : forall fits, a_fit_gd a = Some fits -> dict_get other "gd" = None ->
    forall r0 rs, a_models a = r0 :: rs -> dict_get (a_params a) "gd" = Some (selected_modules fits (modules_init r0));
  ab_values : Forall (fun r => map (man_value h) (r_init r) = map (@Ok _) (df_man template :: map mod_manifold mods)) (a_models a);
  ab_marked : forall fits j, a_fit_gd a = Some fits -> (j < length mods)%nat -> nth_error fits j = Some (FBool true) ->
    Forall (fun r => marked h r j) (a_models a)
}.

Lemma firstn_selected fits : forall n ms, length ms = n -> selected_modules (firstn n fits) ms = selected_modules fits ms.
Proof.
  induction fits as [|f fits IH]; intros n ms L; [destruct n; reflexivity|]. destruct ms as [|m ms]; [cbn in L; subst n; reflexivity|].
  cbn in L. subst n. cbn [firstn selected_modules]. rewrite IH; reflexivity.
Qed.

Lemma rs_tensors_params rs : rs_tensors (map with_params rs) = rs_tensors rs.
Proof. unfold rs_tensors. induction rs as [|r rs IH]; [reflexivity|]. cbn [map flat_map]. rewrite IH. reflexivity. Qed.

Lemma good_params h r : good h r -> good h (with_params r).
Proof. intros [A B C D E F]. split; assumption. Qed.

Lemma atlas_init_ok h0 template mods att population lam fit_gd optimise ht_sigma other h a :
  NoDup (map fst other) ->
  atlas_init h0 template mods att population lam fit_gd optimise ht_sigma other = Ok (h, a) ->
  atlas_built h a template mods population other /\ a_fit_gd a = fit_gd /\ a_optimise a = optimise /\
  Forall (fun r => r_fit_gd r = [] /\ r_fit_controls r = false /\ r_defs r = [template] /\ r_mods r = mods /\ r_reduce r = "sum" /\ r_att r = [att] /\ r_lam r = lam) (a_models a).
Proof.
  intros ND E. unfold atlas_init in E. destruct (optimise && _)%bool; [discriminate|]. bok E y HE1. destruct y as (h1 & rs1). bok E y HE2. destruct y as (h2 & rs2).
  destruct (subjects_ok _ _ _ _ _ _ ND _ _ _ HE1) as (RN & G1 & L1 & V1).
  assert (P1 : Forall plain rs1) by (eapply Forall_impl; [|exact V1]; intros r (A & B & _); split; assumption).
  assert (EX1 : Forall (exists_in h1) (rs_tensors rs1)) by apply RN.
  assert (H : Forall (good h2) rs2 /\ relabel h1 h2 (rs_tensors rs1) (rs_tensors rs2) /\ Forall2 agree_man rs1 rs2 /\
    (forall fits j, fit_gd = Some fits -> (j < length mods)%nat -> nth_error fits j = Some (FBool true) -> Forall (fun r => marked h2 r j) rs2)).
  { destruct fit_gd as [fits|].
    - destruct (fit_loop_ok _ _ _ _ _ _ _ G1 P1 HE2) as (A & B & C & D & _). do 3 (split; [assumption|]). intros fits' j [= <-] L. apply D. lia.
    - injection HE2 as <- <-. split; [exact G1|]. split; [apply relabel_refl; exact EX1|]. split; [apply Forall2_refl_agree; exact P1|discriminate]. }
  destruct H as (G2 & RL & AG & MK).
  assert (P2 : Forall plain rs2) by (clear - AG; induction AG as [|? ? ? ? (Q & _)]; constructor; assumption).
  assert (K2 : Forall (fun r => r_fit_gd r = [] /\ r_fit_controls r = false /\ r_defs r = [template] /\ r_mods r = mods /\ r_other r = other /\ r_reduce r = "sum" /\ r_att r = [att] /\ r_lam r = lam /\
     map om_kind (r_init r) = df_man template :: map mod_manifold mods) rs2).
  { clear - AG V1. induction AG as [|r r' rs rs' (P & K & C) _ IH]; constructor; inversion V1 as [|? ? V2 V3]; subst; [|auto].
    destruct V2 as (A1 & A2 & A3 & A4 & A5 & A6 & A7 & A8 & _ & A9). destruct K as (B1 & B2 & B3 & B4 & B5 & B6 & B7 & B8 & B9 & B10).
    do 8 (split; [congruence|]). rewrite <- A9. clear - C. induction C as [|? ? ? ? (Q & _) _ IHC]; [reflexivity|]. cbn [map]. congruence. }
  assert (W2 : Forall (fun r => map (man_value h2) (r_init r) = map (@Ok _) (df_man template :: map mod_manifold mods)) rs2).
  { pose proof (relabel_deref _ _ _ _ RL EX1) as D. clear - AG V1 D. revert D V1. induction AG as [|r r' rs rs' (P & K & C) _ IH]; intros D V1; constructor; inversion V1 as [|? ? V2 V3]; subst.
    - destruct V2 as (_ & _ & _ & _ & _ & _ & _ & _ & W & _). rewrite <- W. apply corresp_value. apply cut_corresp; [exact C|].
      unfold rs_tensors in D. cbn [flat_map] in D. unfold tensors_of at 1 3 in D. rewrite !map_app, <- !app_assoc in D. apply app_eq_len in D; [apply D|].
      rewrite !map_length. clear - C. induction C as [|? ? ? ? (_ & A & B) _ IHC]; [reflexivity|]. cbn [flat_map]. unfold man_refs at 1 3. rewrite !app_length. lia.
    - apply IH; [|exact V3]. unfold rs_tensors in *. cbn [flat_map] in D. rewrite !map_app in D. apply app_eq_len in D; [apply D|].
      rewrite !map_length. unfold tensors_of. rewrite !app_length. replace (r_ctrls r') with (r_ctrls r) by (symmetry; apply K). f_equal.
      clear - C. induction C as [|? ? ? ? (_ & A & B) _ IHC]; [reflexivity|]. cbn [flat_map]. unfold man_refs at 1 3. rewrite !app_length. lia. }
  unfold atlas_parameters in E. cbn [a_models a_fit_gd a_nmod a_optimise a_other] in E. rewrite (all_parameters_ok _ P2) in E. cbn [bind] in E.
  bok E dd HE3. injection E as <- <-.
  assert (EQC : flat_map (fun r => flat_map om_cotan (r_init r)) (map with_params rs2) = flat_map init_cotan (map with_params rs2)) by reflexivity.
  split; [|split; [reflexivity|split; [reflexivity|]]].
  - split; cbn [a_models a_params a_fit_gd].
    + rewrite map_length. rewrite <- (Forall2_len _ _ _ AG). exact L1.
    + rewrite rs_tensors_params. destruct RL as (_ & _ & ->). apply RN.
    + rewrite rs_tensors_params. apply RL.
    + apply Forall_map. eapply Forall_impl; [intros r; apply good_params|exact G2].
    + apply Forall_flat_map. apply Forall_map. eapply Forall_impl; [|exact G2]. intros r [_ _ A _ _ _]. exact A.
    + intros NC. rewrite (dict_get_update _ ND), NC. destruct fit_gd as [fits|]; [bok HE3 ps HE4; injection HE3 as <-|injection HE3 as <-]; reflexivity.
    + intros fits -> NG r0 rs ER. bok HE3 ps HE4. injection HE3 as <-. rewrite (dict_get_update _ ND), NG. cbn [app dict_get].
      change ("cotan" =? "gd") with false. change ("gd" =? "gd") with true. cbn iota.
      assert (LI : length (r_init r0) = S (length mods) /\ r_defs r0 = [template]).
      { assert (I : In r0 (map with_params rs2)) by (rewrite ER; left; reflexivity). apply in_map_iff in I. destruct I as (r & <- & I). rewrite Forall_forall in K2. specialize (K2 r I).
        destruct K2 as (_ & _ & D & _ & _ & _ & _ & _ & K). split; [|exact D]. change (r_init (with_params r)) with (r_init r). rewrite <- (map_length om_kind), K. cbn. rewrite map_length. reflexivity. }
      destruct LI as (LI & LD). unfold modules_init. rewrite LD. cbn [length].
      destruct (atlas_gd_ok _ _ _ _ _ HE4 r0 rs ER) as [->|(j & L & N)].
      * cbn [skipn]. f_equal. change (match r_init r0 with [] => [] | _ :: l => l end) with (skipn 1 (r_init r0)). apply firstn_selected. rewrite skipn_length, LI. lia.
      * apply nth_error_None in N. lia.
    + apply Forall_map. exact W2.
    + intros fits j EF L EJ. apply Forall_map. eapply Forall_impl; [|exact (MK fits j EF L EJ)]. intros r (m & A & B). exists m. auto.
  - apply Forall_map. eapply Forall_impl; [|exact K2]. intros r (A1 & A2 & A3 & A4 & A5 & A6 & A7 & A8 & _). cbn. auto 10.
Qed.

(** ** Costs *)
Section Costs.
  Variable ck : clock.
  Variable others : string -> option (list (time ck) -> tensor -> strat (time ck)).
  Variables (sv : solver) (b0 : backend) (ag : autograd).
  Notation loop := (atlas_loop ck others sv b0 ag).
  Notation eval := (evaluate ck others sv b0 ag).

  Notation costs_of := (costs_of ck others sv b0 ag).

  Lemma loop_costs h rs : forall targets name it t1 out ds0 as0,
    Forall2 (costs_of h name it t1) (combine rs targets) out ->
    exists rs', loop h false rs targets name it t1 [("deformation", ds0); ("attach", as0)] =
      Ok ([("deformation", ds0 ++ map fst out); ("attach", as0 ++ map snd out)], rs').
  Proof.
    induction rs as [|r rs IH]; intros targets name it t1 out ds0 as0 F.
    - cbn in F. inversion F; subst. cbn [map]. rewrite !app_nil_r. eexists; reflexivity.
    - destruct targets as [|t targets]; [cbn in F; inversion F; subst; cbn [map]; rewrite !app_nil_r; eexists; reflexivity|].
      cbn [combine] in F. inversion F as [|? d ? out' (r' & E) F']; subst. cbn [fst snd] in E. cbn [atlas_loop bind]. rewrite E. cbn [bind].
      change (append_in_dict [("deformation", ds0); ("attach", as0)] (subject_costs (fst d) (snd d))) with [("deformation", ds0 ++ [fst d]); ("attach", as0 ++ [snd d])].
      destruct (IH targets name it t1 out' (ds0 ++ [fst d]) (as0 ++ [snd d]) F') as (rs' & A). rewrite A. cbn [bind map]. rewrite <- !app_assoc. eexists; reflexivity.
  Qed.

  Lemma atlas_costs h a targets name it t1 d0 out : a_optimise a = false ->
    Forall2 (costs_of h name it t1) (combine (a_models a) targets) (d0 :: out) ->
    exists a', atlas_evaluate ck others sv b0 ag h a targets name it t1 = Ok (subject_costs (py_sum (map fst (d0 :: out))) (py_sum (map snd (d0 :: out))), a').
  Proof.
    intros NO F. unfold atlas_evaluate. rewrite NO. destruct (a_models a) as [|r rs]; [inversion F|]. destruct targets as [|t targets]; [inversion F|].
    cbn [combine] in F. inversion F as [|? ? ? ? (r' & E) F']; subst. cbn [fst snd] in E. cbn [atlas_loop bind]. rewrite E. cbn [bind].
    change (append_in_dict [] (subject_costs (fst d0) (snd d0))) with [("deformation", [fst d0]); ("attach", [snd d0])].
    destruct (loop_costs h rs targets name it t1 out [fst d0] [snd d0] F') as (rs' & A). rewrite A. eexists. reflexivity.
  Qed.

  Lemma loop_extra h optimise rs : forall targets extra name it t1 c, length targets = length rs ->
    loop h optimise rs (targets ++ extra) name it t1 c = loop h optimise rs targets name it t1 c.
  Proof.
    induction rs as [|r rs IH]; intros targets extra name it t1 c L; [destruct targets, extra; reflexivity|]. destruct targets as [|t targets]; [discriminate L|].
    cbn [app atlas_loop]. destruct (if optimise then _ else _); [|reflexivity]. cbn [bind]. destruct (eval h r [t] name it t1 []) as [(c1 & r1)|]; [|reflexivity]. cbn [bind].
    rewrite IH by (cbn in L; lia). reflexivity.
  Qed.

  Lemma loop_missing h optimise rs1 rs2 : forall targets name it t1 c, length targets = length rs1 ->
    loop h optimise (rs1 ++ rs2) targets name it t1 c =
    (' (c', rs') <- loop h optimise rs1 targets name it t1 c ;; Ok (c', rs' ++ rs2)).
  Proof.
    induction rs1 as [|r rs IH]; intros targets name it t1 c L; [destruct targets; [|discriminate L]; cbn [app]; destruct rs2; reflexivity|]. destruct targets as [|t targets]; [discriminate L|].
    cbn [app atlas_loop]. destruct (if optimise then _ else _); [|reflexivity]. cbn [bind]. destruct (eval h r [t] name it t1 []) as [(c1 & r1)|]; [|reflexivity]. cbn [bind].
    rewrite IH by (cbn in L; lia). destruct (loop h optimise rs targets name it t1 _) as [(c2 & r2)|]; reflexivity.
  Qed.
End Costs.
