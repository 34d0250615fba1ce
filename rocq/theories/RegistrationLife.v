(** The life of a registration model: construction, devices, optimizers' writes, evaluations. *)
From Coq Require Import Reals String List Permutation Arith ZArith Lia.
From Verif Require Import Py Tensor KernelModel FieldModel GeometryModel ModuleModel ShootingModel
  RegistrationModel SpecModule SpecRegistration ModuleMain ModuleLeaves RegistrationRun RegistrationHeap RegistrationParams.
Import ListNotations.
Open Scope string_scope.
Open Scope list_scope.

(** ** Construction *)

Lemma control_set_ok ones mods : forall h h' s, control_set ones h mods = Ok (h', s) ->
  renew h h' s /\ Forall (fun k => flag h' k = true) s /\
  Forall2 (fun m k => exists t, controls m = CLeaf t /\ deref h' k = mkT (shape t) (fun _ => if ones then 1%R else 0%R)) mods s.
Proof.
  induction mods as [|m mods IH]; intros h h' s E; cbn [control_set] in E.
  - injection E as <- <-. split; [apply renew_nil|]. split; constructor.
  - destruct (controls m) as [t|] eqn:Ec; [|discriminate]. set (v := mkT (shape t) (fun _ => if ones then 1%R else 0%R)) in *.
    pose proof (alloc_renew h v true) as R. pose proof (alloc_obj h v true) as O. pose proof (alloc_deref h v true) as D. pose proof (alloc_exists h v true) as G.
    destruct (alloc h v true) as [h1 r]. cbn [fst snd] in *. bok E y HE1. destruct y as (h2 & rs). injection E as <- <-. destruct (IH _ _ _ HE1) as (R2 & F2 & V2).
    assert (X2 : ext h1 h2) by apply R2. split; [exact (renew_app _ _ _ _ _ R R2)|]. split.
    + constructor; [|exact F2]. rewrite (ext_flag _ _ _ X2 G). unfold flag. rewrite O. reflexivity.
    + constructor; [|exact V2]. exists t. split; [exact Ec|]. rewrite (ext_deref _ _ _ X2 G). exact D.
Qed.

Lemma control_sets_ok n ones mods : forall h h' ss, control_sets n ones h mods = Ok (h', ss) ->
  renew h h' (List.concat ss) /\ Forall (fun k => flag h' k = true) (List.concat ss) /\ length ss = n /\
  Forall (Forall2 (fun m k => exists t, controls m = CLeaf t /\ deref h' k = mkT (shape t) (fun _ => if ones then 1%R else 0%R)) mods) ss.
Proof.
  induction n as [|n IH]; intros h h' ss E; cbn [control_sets] in E.
  - injection E as <- <-. split; [apply renew_nil|]. repeat split; constructor.
  - bok E y HE1. destruct y as (h1 & s). bok E y HE2. destruct y as (h2 & ss2). injection E as <- <-.
    destruct (control_set_ok _ _ _ _ _ HE1) as (R & F & V). destruct (IH _ _ _ HE2) as (R2 & F2 & L2 & V2). assert (X2 : ext h1 h2) by apply R2.
    assert (G : Forall (exists_in h1) s) by apply R. cbn [List.concat]. split; [exact (renew_app _ _ _ _ _ R R2)|]. split; [|split].
    + apply Forall_app. split; [|exact F2]. rewrite Forall_forall in *. intros k I. rewrite (ext_flag _ _ _ X2); auto.
    + cbn. congruence.
    + constructor; [|exact V2]. clear - V G X2. induction V as [|m k ms ks (t & Et & D) _ IH]; constructor; inversion G; subst; [|auto].
      exists t. split; [exact Et|]. rewrite (ext_deref _ _ _ X2); assumption.
Qed.

Lemma renew_relabel h h1 h2 l l' : renew h h1 l -> relabel h1 h2 l l' -> renew h h2 l'.
Proof.
  intros (X & F & N & G) (X' & F' & S). split; [exact (ext_trans _ _ _ X X')|]. split; [exact F'|]. rewrite S. split; [exact N|].
  assert (H : Forall (fun n => (length (h_vals h) <= n)%nat) (map (store h2) l')).
  { rewrite S. apply Forall_map. exact G. }
  rewrite Forall_map in H. exact H.
Qed.

Lemma put_gd_same g : forall rest, put_gd g (g_gd g ++ rest) = Ok (g, rest)
with put_cotan_same g : forall rest, put_cotan g (g_cotan g ++ rest) = Ok (g, rest).
Proof.
  - destruct g; intros rest; try reflexivity. cbn [put_gd g_gd].
    match goal with |- bind ?a _ = _ => assert (H : a = Ok (ms, rest)) end; [|rewrite H; reflexivity].
    revert rest. induction ms as [|g gs IH]; intros rest; [reflexivity|]. cbn [flat_map]. rewrite <- app_assoc, put_gd_same. cbn [bind]. rewrite IH. reflexivity.
  - destruct g; intros rest; try reflexivity. cbn [put_cotan g_cotan].
    match goal with |- bind ?a _ = _ => assert (H : a = Ok (ms, rest)) end; [|rewrite H; reflexivity].
    revert rest. induction ms as [|g gs IH]; intros rest; [reflexivity|]. cbn [flat_map]. rewrite <- app_assoc, put_cotan_same. cbn [bind]. rewrite IH. reflexivity.
Qed.

Lemma cloned_value h m : cloned h m -> man_value h m = Ok (om_kind m).
Proof.
  intros (G & C & _). unfold man_value. rewrite G, C. rewrite <- (app_nil_r (g_gd _)), put_gd_same. cbn [bind].
  rewrite <- (app_nil_r (g_cotan _)), put_cotan_same. reflexivity.
Qed.

Lemma selected_each_gd h fits : forall ms, Forall (fun m => Forall (fun k => flag h k = false) (om_gd m)) ms ->
  Forall (fun k => flag h k = false) (selected_each fits ms).
Proof.
  assert (SF : forall (P : ref -> Prop) bs l, Forall P l -> Forall P (select bs l)).
  { induction bs as [|b bs IH]; intros [|k l] F; cbn [select]; try constructor. inversion F; subst. destruct b; cbn [app]; [constructor|]; auto. }
  induction fits as [|[b|bs] fits IH]; intros [|m ms] F; cbn [selected_each]; try constructor; inversion F; subst; [auto|].
  apply Forall_app. split; auto.
Qed.

Definition evaluations_of (solver : option string) : res nat := cont_per_it (match solver with None => "euler" | Some s => s end).

Lemma registration_ok h0 defs mods att fc ones fits lam other reduce it solver h r :
  NoDup (map fst other) ->
  registration h0 defs mods att fc ones fits lam other reduce it solver = Ok (h, r) ->
  complete h r /\ renew h0 h (tensors_of r) /\
  r_defs r = defs /\ r_mods r = mods /\ r_att r = att /\ r_lam r = lam /\ r_reduce r = reduce /\ r_fit_gd r = fits /\ r_fit_controls r = fc /\ r_other r = other /\
  length att = length defs /\
  map (man_value h) (r_init r) = map (@Ok _) (map df_man defs ++ map mod_manifold mods) /\
  map om_kind (r_init r) = map df_man defs ++ map mod_manifold mods /\
  (fc = false -> r_ctrls r = []) /\
  (fc = true -> exists n k, it = Some n /\ evaluations_of solver = Ok k /\ r_it r = n /\ length (r_ctrls r) = (n * k)%nat /\
     Forall (Forall2 (fun m c => exists t, controls m = CLeaf t /\ deref h c = mkT (shape t) (fun _ => if ones then 1%R else 0%R)) mods) (r_ctrls r)).
Proof.
  intros ND E. unfold registration in E. bok E u HE0. unfold py_assert in HE0. destruct (Nat.eqb_spec (length defs) (length att)) as [LA|]; [|discriminate]. clear HE0 u.
  bok E y HE1. destruct y as (h1 & ctrls). destruct (clone_mans h1 _) as [h2 init] eqn:Ecl. bok E y HE2. destruct y as (h3 & init1).
  set (r0 := mkReg defs mods att lam reduce fits fc (match it with Some n => n | None => 0%nat end) init1 ctrls other []) in *.
  assert (C1 : renew h0 h1 (List.concat ctrls) /\ Forall (fun k => flag h1 k = true) (List.concat ctrls) /\ (fc = false -> ctrls = []) /\
    (fc = true -> exists n k, it = Some n /\ evaluations_of solver = Ok k /\ length ctrls = (n * k)%nat /\
     Forall (Forall2 (fun m c => exists t, controls m = CLeaf t /\ deref h1 c = mkT (shape t) (fun _ => if ones then 1%R else 0%R)) mods) ctrls)).
  { destruct fc.
    - bok HE1 k HE3. destruct it as [n|]; [|discriminate]. destruct (control_sets_ok _ _ _ _ _ _ HE1) as (R & F & L & V).
      split; [exact R|]. split; [exact F|]. split; [discriminate|]. intros _. exists n, k. auto.
    - injection HE1 as <- <-. split; [apply renew_nil|]. split; [constructor|]. split; [reflexivity|discriminate]. }
  destruct C1 as (RC & FC & NC & VC).
  destruct (clone_mans_ok _ _ _ _ Ecl) as (RI & KI & CI). assert (GI : Forall (exists_in h2) (flat init)) by apply RI.
  destruct (cotan_records_ok _ _ _ _ GI HE2) as (RL & CU & GD & CT).
  assert (X2 : ext h1 h2) by apply RI. assert (X3 : ext h2 h3) by apply RL. assert (GC : Forall (exists_in h1) (List.concat ctrls)) by apply RC.
  assert (X13 : ext h1 h3) by exact (ext_trans _ _ _ X2 X3).
  assert (RA : renew h0 h3 (List.concat ctrls ++ flat init1)).
  { exact (renew_app _ _ _ _ _ RC (renew_relabel _ _ _ _ _ RI RL)). }
  assert (KI1 : map om_kind init1 = map om_kind init).
  { clear - CU. induction CU as [|m m' ms ms' (K & _) _ IH]; [reflexivity|]. cbn [map]. congruence. }
  assert (GO : good h3 r0).
  { destruct RA as (_ & RF & RN & _). split.
    - unfold tensors_of. cbn. rewrite Forall_app in *. tauto.
    - unfold tensors_of. cbn. rewrite map_app in *.
      apply (Permutation_NoDup (Permutation_app_comm _ _)). exact RN.
    - exact CT.
    - cbn. rewrite Forall_forall in *. intros k I. rewrite (ext_flag _ _ _ X13); auto.
    - unfold modules_init. cbn. apply selected_each_gd.
      assert (F : Forall (fun m => Forall (fun k => flag h3 k = false) (om_gd m)) init1).
      { assert (F0 : Forall (fun l => Forall (fun k => flag h3 k = false) l) (map om_gd init)).
        { apply Forall_map. rewrite Forall_forall in *. intros m I. destruct (CI m I) as (_ & _ & Fm). rewrite Forall_forall in *. intros k J.
          rewrite (ext_flag _ _ _ X3); [auto|]. apply GI. apply in_flat_map. exists m. split; [exact I|]. unfold man_refs. apply in_app_iff. auto. }
        rewrite <- GD in F0. rewrite Forall_map in F0. exact F0. }
      rewrite <- (firstn_skipn (length defs) init1), Forall_app in F. apply F.
    - cbn. rewrite <- (map_length om_kind), KI1, KI, app_length, !map_length. reflexivity. }
  destruct (compute_parameters_ok h3 r0 h r ND GO E) as (CO & (K1 & K2 & K3 & K4 & K5 & K6 & K7 & K8 & K9 & K10) & RT & CUT).
  assert (GO3 : Forall (exists_in h3) (tensors_of r0)) by apply GO.
  assert (X4 : ext h3 h) by apply RT.
  split; [exact CO|]. split.
  { refine (renew_relabel h0 h3 h _ _ _ RT). unfold tensors_of. cbn. destruct RA as (A & B & C & D). split; [exact A|].
    rewrite Forall_app in B, D. split; [rewrite Forall_app; tauto|]. split; [|rewrite Forall_app; tauto]. rewrite map_app in *.
    apply (Permutation_NoDup (Permutation_app_comm _ _)). exact C. }
  do 8 (split; [assumption|]). split; [congruence|]. split; [|split; [|split]].
  - assert (V3 : map (man_value h3) init1 = map (man_value h2) init).
    { apply corresp_value. apply cut_corresp; [exact CU|]. apply relabel_deref; assumption. }
    assert (V4 : map (man_value h) (r_init r) = map (man_value h3) init1).
    { apply corresp_value. apply cut_corresp; [exact CUT|].
      assert (D := relabel_deref _ _ _ _ RT GO3). unfold tensors_of in D. rewrite !map_app in D. apply app_eq_len in D; [apply D|].
      rewrite !map_length. assert (EL : length (tensors_of r) = length (tensors_of r0)) by (rewrite <- (map_length (store h)), (proj2 (proj2 RT)), map_length; reflexivity).
      unfold tensors_of in EL. rewrite !app_length, K9 in EL. lia. }
    rewrite V4, V3, <- KI, map_map. apply map_ext_in. intros m I. apply cloned_value. rewrite Forall_forall in CI. auto.
  - rewrite <- KI, <- KI1. clear - CUT. change init1 with (r_init r0). induction CUT as [|m m' ms ms' (K & _) _ IH]; [reflexivity|]. cbn [map]. congruence.
  - intros F. rewrite K9. apply NC. exact F.
  - intros F. destruct (VC F) as (n & k & E1 & E2 & L & V). exists n, k. rewrite K9, K8. split; [exact E1|]. split; [exact E2|]. split; [cbn; rewrite E1; reflexivity|]. split; [exact L|].
    change (r_ctrls r0) with ctrls. clear - V GC X13 X4. induction ctrls as [|s ss IH]; constructor; inversion V as [|? ? V1 V2]; subst; cbn [List.concat] in GC;
      apply Forall_app in GC; destruct GC as (G1 & G2); [|auto].
    clear - V1 G1 X13 X4. induction V1 as [|m c ms cs (t & Et & D) _ IH]; constructor; inversion G1; subst; [|auto].
    exists t. split; [exact Et|]. rewrite (ext_deref _ _ _ (ext_trans _ _ _ X13 X4)); assumption.
Qed.

(** ** Devices *)
Lemma to_device_ok moved h r h1 r1 : NoDup (map fst (r_other r)) -> complete h r -> reg_to_device moved h r = Ok (h1, r1) ->
  complete h1 r1 /\ kept r r1 /\ map (man_value h1) (r_init r1) = map (man_value h) (r_init r) /\ learned h1 r1 = learned h r.
Proof.
  intros ND [GO WH PA] E. pose proof GO as GO0. destruct GO as [EX DI CR KR ER LE]. unfold reg_to_device in E. bok E y HE1. destruct y as (h2 & init).
  destruct (mans_to_device _ _ _ _ _ HE1) as (ER1 & CU). unfold tensors_of in EX. apply Forall_app in EX. destruct EX as (EI & EC).
  destruct (each_dev _ _ _ _ _ EI ER1) as (AL & DE & FL).
  assert (X : ext h h2) by (destruct AL as [A|A]; apply A).
  pose proof (cut_corresp (deref h) (deref h2) _ _ CU DE) as CD. pose proof (cut_corresp (flag h) (flag h2) _ _ CU FL) as CF.
  set (n := length (r_defs r)) in *.
  destruct (corresp_each _ _ _ _ (r_fit_gd r) (corresp_skipn _ _ n _ _ CF)) as (F1 & _ & _).
  destruct (corresp_each _ _ _ _ (r_fit_gd r) CF) as (_ & _ & F3).
  assert (G2 : good h2 (set_init r init)).
  { split.
    - unfold tensors_of. cbn. apply Forall_app. split; [destruct AL as [A|A]; apply A|exact (exists_ext _ _ _ X EC)].
    - unfold tensors_of. cbn. unfold tensors_of in DI. rewrite map_app in *. rewrite (stores_ext _ _ _ X EC). destruct AL as [(_ & _ & A)|(_ & _ & A & B)].
      + rewrite A. exact DI.
      + clear - DI A B EC. assert (DC : NoDup (map (store h) (List.concat (r_ctrls r)))).
        { clear - DI. induction (map (store h) (flat (r_init r))) as [|a l IH]; [exact DI|]. inversion DI; auto. }
        clear DI. induction (flat init) as [|k l IH]; [exact DC|]. cbn [map app] in *. inversion A; subst. inversion B; subst. constructor; [|auto].
        rewrite in_app_iff. intros [I|I]; [auto|]. apply in_map_iff in I. destruct I as (j & Ej & I). rewrite Forall_forall in EC. destruct (EC j I) as (_ & S). unfold store in *. lia.
    - unfold init_cotan. cbn. exact (Forall_flags _ _ _ _ _ F3 CR).
    - cbn. rewrite Forall_forall in *. intros k I. rewrite (ext_flag _ _ _ X); auto.
    - unfold modules_init. cbn. fold n. exact (Forall_flags _ _ _ _ _ F1 ER).
    - cbn. rewrite (cut_as_len _ _ CU). exact LE. }
  destruct (compute_parameters_ok _ _ _ _ (ND : NoDup (map fst (r_other (set_init r init)))) G2 E) as (CO & KE & RT & CUT). split; [exact CO|]. split; [exact KE|].
  destruct KE as (K1 & K2 & K3 & K4 & K5 & K6 & K7 & K8 & K9 & K10). cbn in K9.
  assert (D := relabel_deref _ _ _ _ RT (g_exist _ _ G2)). unfold tensors_of in D. rewrite !map_app in D. apply app_eq_len in D.
  2:{ rewrite !map_length. assert (EL : length (tensors_of r1) = length (tensors_of (set_init r init))) by (rewrite <- (map_length (store h1)), (proj2 (proj2 RT)), map_length; reflexivity).
      unfold tensors_of in EL. rewrite !app_length, K9 in EL. cbn in *. lia. }
  destruct D as (D1 & D2). split.
  - rewrite <- (corresp_value _ _ _ _ CD). apply corresp_value. apply cut_corresp; assumption.
  - assert (X3 : ext h h1) by (refine (ext_trans _ _ _ X _); apply RT). unfold learned. rewrite K9. clear - EC X3. induction (r_ctrls r) as [|s ss IH]; [reflexivity|]. cbn [List.concat map] in *.
    apply Forall_app in EC. destruct EC as (E1 & E2). rewrite (IH E2). f_equal. apply map_ext_in. intros k I. rewrite (ext_deref _ _ _ X3); [reflexivity|]. rewrite Forall_forall in E1. auto.
Qed.

(** ** Writes *)
Lemma set_nth_len {A} (l : list A) n x : length (set_nth l n x) = length l.
Proof. revert n. induction l as [|a l IH]; intros [|n]; cbn; auto. Qed.
Lemma set_nth_same {A} (l : list A) n x d : (n < length l)%nat -> nth n (set_nth l n x) d = x.
Proof. revert n. induction l as [|a l IH]; intros [|n] L; cbn in *; try lia; [reflexivity|]. apply IH. lia. Qed.
Lemma set_nth_other {A} (l : list A) n m x d : n <> m -> nth m (set_nth l n x) d = nth m l d.
Proof. revert n m. induction l as [|a l IH]; intros [|n] [|m] N; cbn; try congruence; try reflexivity. apply IH. congruence. Qed.

Lemma write_exists h k v j : exists_in (write h k v) j <-> exists_in h j.
Proof. unfold exists_in, write, the_obj. cbn. rewrite set_nth_len. reflexivity. Qed.
Lemma write_store h k v j : store (write h k v) j = store h j.
Proof. reflexivity. Qed.
Lemma write_flag h k v j : flag (write h k v) j = flag h j.
Proof. reflexivity. Qed.
Lemma write_seen h k v : exists_in h k -> deref (write h k v) k = v.
Proof. intros (_ & S). unfold deref, write, the_obj in *. cbn. apply set_nth_same. exact S. Qed.
Lemma write_unseen h k v j : store h j <> store h k -> deref (write h k v) j = deref h j.
Proof. intros N. unfold deref, write, the_obj, store in *. cbn. apply set_nth_other. intros E. apply N. symmetry. exact E. Qed.

Lemma write_good h r k v : good h r -> good (write h k v) r.
Proof.
  intros [EX DI CR KR ER LE]. split; try assumption.
  rewrite Forall_forall in *. intros j I. apply write_exists. auto.
Qed.

Lemma write_complete h r k v : complete h r -> complete (write h k v) r.
Proof. intros [G W P]. split; [apply write_good; exact G|exact W|exact P]. Qed.

Lemma NoDup_store h l k j : NoDup (map (store h) l) -> In k l -> In j l -> j <> k -> store h j <> store h k.
Proof.
  induction l as [|a l IH]; intros N I J D E; [destruct I|]. cbn [map] in N. inversion N as [|? ? NI N']; subst. destruct I as [->|I], J as [->|J]; try congruence.
  - apply NI. rewrite <- E. apply in_map. exact J.
  - apply NI. rewrite E. apply in_map. exact I.
  - exact (IH N' I J D E).
Qed.

(** ** Life *)
Lemma alike_complete h r r1 : alike r r1 -> complete h r -> complete h r1.
Proof.
  intros (defs & mods & -> & D & M) [[EX DI CR KR ER LE] W P]. pose proof (Forall2_len _ _ _ D) as LD. pose proof (Forall2_len _ _ _ M) as LM.
  split; [split|..]; unfold tensors_of, init_cotan, modules_init, expected in *; cbn in *; try rewrite <- LD; try assumption.
  - rewrite LE, LM. reflexivity.
Qed.

Lemma lived_complete ck others sv b0 ag h r h1 r1 : lived ck others sv b0 ag h r h1 r1 ->
  NoDup (map fst (r_other r)) -> complete h r -> complete h1 r1 /\ r_other r1 = r_other r /\ r_fit_gd r1 = r_fit_gd r /\ r_fit_controls r1 = r_fit_controls r.
Proof.
  induction 1 as [h r|h r h2 r2 k v I L IH|h r moved h1 r1 h2 r2 E L IH|h r r1 h2 r2 U L IH]; intros ND C.
  - auto.
  - apply IH; [exact ND|]. apply write_complete. exact C.
  - destruct (to_device_ok _ _ _ _ _ ND C E) as (C1 & (K1 & K2 & K3 & K4 & K5 & K6 & K7 & K8 & K9 & K10) & _). rewrite <- K10 in ND.
    destruct (IH ND C1) as (A & B & D & F). split; [exact A|]. rewrite B, D, F. auto.
  - pose proof (used_alike _ _ _ _ _ _ _ _ U) as A. pose proof (alike_complete _ _ _ A C) as C1. destruct A as (defs & mods & -> & _).
    exact (IH ND C1).
Qed.

(** ** Evaluations read the tensors of the model *)
Section Reads.
  Variable ck : clock.
  Variable others : string -> option (list (time ck) -> tensor -> strat (time ck)).
  Variables (sv : solver) (b0 : backend) (ag : autograd).

  Lemma fill_mods_reads h h' mods : forall init init', map (man_value h') init' = map (man_value h) init ->
    fill_mods h' mods init' = fill_mods h mods init.
  Proof.
    induction mods as [|m mods IH]; intros init init' E; [destruct init, init'; reflexivity|].
    destruct init as [|o init], init' as [|o' init']; try discriminate E; [reflexivity|]. cbn [map] in E. injection E as E1 E2. cbn [fill_mods]. rewrite E1.
    destruct (man_value h o); [|reflexivity]. cbn [bind]. destruct (set_manifold m _); [|reflexivity]. cbn [bind]. rewrite (IH _ _ E2). reflexivity.
  Qed.
  Lemma fill_defs_reads h h' defs : forall init init', map (man_value h') init' = map (man_value h) init ->
    fill_defs h' defs init' = fill_defs h defs init.
  Proof.
    induction defs as [|m defs IH]; intros init init' E; [destruct init, init'; reflexivity|].
    destruct init as [|o init], init' as [|o' init']; try discriminate E; [reflexivity|]. cbn [map] in E. injection E as E1 E2. cbn [fill_defs]. rewrite E1.
    destruct (man_value h o); [|reflexivity]. cbn [bind]. rewrite (IH _ _ E2). reflexivity.
  Qed.

  Lemma evaluate_reads h h' r r' targets name it t1 cost0 : kept r r' ->
    map (man_value h') (r_init r') = map (man_value h) (r_init r) -> learned h' r' = learned h r ->
    match evaluate ck others sv b0 ag h r targets name it t1 cost0, evaluate ck others sv b0 ag h' r' targets name it t1 cost0 with
    | Ok (c, _), Ok (c', _) => c' = c
    | Err e, Err e' => e' = e
    | _, _ => False
    end.
  Proof.
    intros (K1 & K2 & K3 & K4 & K5 & K6 & K7 & K8 & K9 & K10) V L. unfold evaluate, compute_deformed.
    rewrite K1, K2, K3, K4, K5, K7, K8, L. rewrite (fill_defs_reads h h' _ _ _ V).
    rewrite (fill_mods_reads h h' (r_mods r) (skipn (length (r_defs r)) (r_init r)) (skipn (length (r_defs r)) (r_init r'))) by (rewrite <- !skipn_map, V; reflexivity).
    destruct (py_assert _); [|reflexivity]. cbn [bind]. destruct (fill_mods h _ _); [|reflexivity]. cbn [bind]. destruct (fill_defs h _ _); [|reflexivity]. cbn [bind].
    match goal with |- context [if r_fit_controls r then ?a else ?b] => destruct (if r_fit_controls r then a else b) end; [|reflexivity]. cbn [bind]. destruct (attachment_costs _ _ _); reflexivity.
  Qed.

  Lemma same_values_reads h h' r : (forall k, In k (tensors_of r) -> deref h' k = deref h k) ->
    map (man_value h') (r_init r) = map (man_value h) (r_init r) /\ learned h' r = learned h r.
  Proof.
    intros S. unfold tensors_of in S. split.
    - apply corresp_value. apply cut_corresp; [clear; induction (r_init r); constructor; auto|]. apply map_ext_in. intros k I. apply S. apply in_app_iff. auto.
    - unfold learned. apply map_ext_in. intros s I. apply map_ext_in. intros k J. rewrite S; [reflexivity|]. apply in_app_iff. right. apply in_concat. eauto.
  Qed.

  Lemma deformed_reads h h' r name it t1 costs : (forall k, In k (tensors_of r) -> deref h' k = deref h k) ->
    compute_deformed ck others sv b0 ag h' r name it t1 costs = compute_deformed ck others sv b0 ag h r name it t1 costs.
  Proof.
    intros S. destruct (same_values_reads h h' r S) as (V & L). unfold compute_deformed. rewrite L, (fill_defs_reads h h' _ _ _ V).
    rewrite (fill_mods_reads h h' (r_mods r) (skipn (length (r_defs r)) (r_init r)) (skipn (length (r_defs r)) (r_init r))) by (rewrite <- !skipn_map, V; reflexivity).
    reflexivity.
  Qed.
  Lemma evaluation_reads h h' r targets name it t1 cost0 : (forall k, In k (tensors_of r) -> deref h' k = deref h k) ->
    evaluate ck others sv b0 ag h' r targets name it t1 cost0 = evaluate ck others sv b0 ag h r targets name it t1 cost0.
  Proof. intros S. unfold evaluate. rewrite (deformed_reads h h' r name it t1 true S). reflexivity. Qed.
End Reads.
