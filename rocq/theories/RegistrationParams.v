(** Parameters of registration models. *)
From Coq Require Import Reals String List Arith ZArith Lia.
From Verif Require Import Py Tensor KernelModel FieldModel GeometryModel ModuleModel ShootingModel
  RegistrationModel SpecModule SpecRegistration ModuleMain ModuleLeaves RegistrationRun RegistrationHeap.
Import ListNotations.
Open Scope string_scope.
Open Scope list_scope.

Notation flat := (flat_map man_refs).

(** ** Lists of manifolds *)

Definition cut_as (ms ms' : list oman) : Prop :=
  Forall2 (fun m m' => om_kind m' = om_kind m /\ length (om_gd m') = length (om_gd m) /\ length (om_cotan m') = length (om_cotan m)) ms ms'.

Definition corresp {B} (f f' : ref -> B) (ms ms' : list oman) : Prop :=
  Forall2 (fun m m' => om_kind m' = om_kind m /\ map f' (om_gd m') = map f (om_gd m) /\ map f' (om_cotan m') = map f (om_cotan m)) ms ms'.

Lemma app_eq_len {A} (a b c d : list A) : length a = length c -> a ++ b = c ++ d -> a = c /\ b = d.
Proof.
  revert c. induction a as [|x a IH]; intros [|y c] L E; try discriminate L; [auto|]. cbn in *. injection E as -> E. injection L as L.
  destruct (IH c L E). subst. auto.
Qed.

Lemma cut_corresp {B} (f f' : ref -> B) ms ms' : cut_as ms ms' -> map f' (flat ms') = map f (flat ms) -> corresp f f' ms ms'.
Proof.
  induction 1 as [|m m' ms ms' (K & Lg & Lc) C IH]; intros E; [constructor|]. cbn [flat_map] in E. unfold man_refs at 1 3 in E. rewrite !map_app, <- !app_assoc in E.
  apply app_eq_len in E; [|rewrite !map_length; exact Lg]. destruct E as (Eg & E).
  apply app_eq_len in E; [|rewrite !map_length; exact Lc]. destruct E as (Ec & E). constructor; [auto|]. apply IH. exact E.
Qed.

Lemma corresp_value h h' ms ms' : corresp (deref h) (deref h') ms ms' -> map (man_value h') ms' = map (man_value h) ms.
Proof.
  induction 1 as [|m m' ms ms' (K & Eg & Ec) _ IH]; [reflexivity|]. cbn [map]. rewrite IH. f_equal. unfold man_value. rewrite K, Eg, Ec. reflexivity.
Qed.

Lemma select_map {B} (f : ref -> B) (g : list bool) l l' (f' : ref -> B) : map f' l' = map f l -> map f' (select g l') = map f (select g l).
Proof.
  revert l l'. induction g as [|b g IH]; intros l l' E; [destruct l, l'; reflexivity|]. destruct l as [|k l], l' as [|k' l']; try discriminate E; [reflexivity|].
  cbn [select map] in *. injection E as E1 E2. destruct b; cbn [app map]; [rewrite E1|]; rewrite (IH _ _ E2); reflexivity.
Qed.

Lemma corresp_each {B} (f f' : ref -> B) ms ms' fits : corresp f f' ms ms' ->
  map f' (selected_each fits ms') = map f (selected_each fits ms) /\
  map f' (selected_whole fits ms') = map f (selected_whole fits ms) /\
  map f' (flat_map om_cotan ms') = map f (flat_map om_cotan ms).
Proof.
  intros C. split; [|split].
  - revert fits. induction C as [|m m' ms ms' (K & Eg & Ec) _ IH]; intros fits; destruct fits as [|[b|bs] fits]; cbn [selected_each]; try reflexivity; [apply IH|].
    rewrite !map_app, IH, (select_map f bs _ _ f' Eg). reflexivity.
  - revert fits. induction C as [|m m' ms ms' (K & Eg & Ec) _ IH]; intros fits; destruct fits as [|[[]|bs] fits]; cbn [selected_whole]; try reflexivity; try apply IH.
    rewrite !map_app, IH, Eg. reflexivity.
  - induction C as [|m m' ms ms' (K & Eg & Ec) _ IH]; [reflexivity|]. cbn [flat_map]. rewrite !map_app, IH, Ec. reflexivity.
Qed.

Lemma corresp_skipn {B} (f f' : ref -> B) n ms ms' : corresp f f' ms ms' -> corresp f f' (skipn n ms) (skipn n ms').
Proof. intros C. revert n. induction C; intros n; destruct n; cbn; [constructor|constructor|constructor; assumption|apply IHC]. Qed.

Lemma flat_in_cotan ms k : In k (flat_map om_cotan ms) -> In k (flat ms).
Proof. intros I. apply in_flat_map in I. destruct I as (m & I & J). apply in_flat_map. exists m. split; [exact I|]. unfold man_refs. apply in_app_iff. auto. Qed.

(** clone *)
Definition cloned (h : heap) (m : oman) : Prop :=
  map (deref h) (om_gd m) = g_gd (om_kind m) /\ map (deref h) (om_cotan m) = g_cotan (om_kind m) /\ Forall (fun k => flag h k = false) (om_gd m).

Lemma clone_mans_ok gs : forall h h' ms, clone_mans h gs = (h', ms) ->
  renew h h' (flat ms) /\ map om_kind ms = gs /\ Forall (cloned h') ms.
Proof.
  induction gs as [|g gs IH]; intros h h' ms E; cbn [clone_mans] in E.
  - injection E as <- <-. split; [apply renew_nil|]. split; [reflexivity|constructor].
  - unfold clone_man in E. destruct (each_ref (fun h v => alloc h v false) h (g_gd g)) as [h1 gd] eqn:E1.
    destruct (each_ref (fun h v => alloc h v false) h1 (g_cotan g)) as [h2 co] eqn:E2. destruct (clone_mans h2 gs) as [h3 ms3] eqn:E3. injection E as <- <-.
    destruct (each_alloc (fun _ v => v) (fun _ _ => false) _ _ _ _ E1) as (R1 & _). destruct (each_alloc (fun _ v => v) (fun _ _ => false) _ _ _ _ E2) as (R2 & _).
    destruct (each_alloc_const _ _ _ _ _ E1) as (D1 & F1). destruct (each_alloc_const _ _ _ _ _ E2) as (D2 & F2). destruct (IH _ _ _ E3) as (R3 & K & C).
    split; [|split].
    + cbn [flat_map]. unfold man_refs at 1. cbn [om_gd om_cotan]. exact (renew_app _ _ _ _ _ (renew_app _ _ _ _ _ R1 R2) R3).
    + cbn [map om_kind]. rewrite K. reflexivity.
    + constructor; [|exact C]. destruct R1 as (X1 & G1 & _), R2 as (X2 & G2 & _), R3 as (X3 & _). unfold cloned. cbn [om_gd om_cotan om_kind].
      pose proof (exists_ext _ _ _ X2 G1) as G1'. rewrite (derefs_ext _ _ _ X3 G1'), (derefs_ext _ _ _ X2 G1), D1, (derefs_ext _ _ _ X3 G2), D2.
      split; [reflexivity|]. split; [reflexivity|]. rewrite Forall_forall in *. intros k I. rewrite (ext_flag _ _ _ X3 (G1' k I)), (ext_flag _ _ _ X2 (G1 k I)). auto.
Qed.

(** cotan_requires_grad_ on every manifold *)
Lemma cotan_records_ok ms : forall h h' ms', Forall (exists_in h) (flat ms) -> each_man cotan_records h ms = Ok (h', ms') ->
  relabel h h' (flat ms) (flat ms') /\ cut_as ms ms' /\ map om_gd ms' = map om_gd ms /\ Forall (fun k => flag h' k = true) (flat_map om_cotan ms').
Proof.
  induction ms as [|m ms IH]; intros h h' ms' F E; cbn [each_man] in E.
  - injection E as <- <-. split; [apply relabel_refl; constructor|]. repeat split; constructor.
  - bok E hm HE1. destruct hm as (h1 & m1). bok E hm HE2. destruct hm as (h2 & ms2). injection E as <- <-.
    cbn [flat_map] in F. apply Forall_app in F. destruct F as (Fm & Fms). unfold man_refs in Fm. apply Forall_app in Fm. destruct Fm as (Fg & Fc).
    unfold cotan_records in HE1. destruct (is_comp m); [discriminate|].
    destruct (each_ref (fun h r => detach h r true) h (om_cotan m)) as [hx c] eqn:Ed. injection HE1 as <- <-.
    destruct (each_detach (fun _ _ => true) _ _ _ _ Fc Ed) as (R & L). pose proof (each_detach_true _ _ _ _ Fc Ed) as FT.
    assert (X : ext h hx) by apply R.
    destruct (IH _ _ _ (exists_ext _ _ _ X Fms) HE2) as (R2 & C2 & G2 & T2). split; [|split; [|split]].
    + cbn [flat_map]. apply (relabel_app h hx h2); [exact Fms| |exact R2]. unfold man_refs. cbn [om_gd om_cotan].
      refine (relabel_app h h hx _ _ _ _ Fc (relabel_refl _ _ Fg) R).
    + constructor; [|exact C2]. cbn. auto.
    + cbn [map om_gd]. rewrite G2. reflexivity.
    + cbn [flat_map om_cotan]. apply Forall_app. split; [|exact T2]. destruct R as (_ & Gc & _), R2 as (X2 & _). rewrite Forall_forall in *. intros k I.
      rewrite (ext_flag _ _ _ X2 (Gc k I)). auto.
Qed.

(** The selected descriptors *)
Lemma gd_params_ok fits : forall ms h h' ms' ps, Forall (exists_in h) (flat ms) -> gd_params fits h ms = Ok (h', ms', ps) ->
  relabel h h' (flat ms) (flat ms') /\ cut_as ms ms' /\ map om_cotan ms' = map om_cotan ms /\ ps = selected fits ms' /\
  selected_each fits ms' = selected_each fits ms /\ Forall (fun k => flag h' k = true) (selected_whole fits ms') /\ incl (selected_whole fits ms') (flat ms') /\
  incl (selected_each fits ms') (flat ms').
Proof.
  assert (IS : forall bs l, incl (select bs l) l).
  { induction bs as [|b bs IH]; intros [|k l]; cbn [select]; try apply incl_nil_l. destruct b; cbn [app].
    - apply incl_cons; [left; reflexivity|]. apply incl_tl. apply IH.
    - apply incl_tl. apply IH. }
  assert (RC : forall ms, cut_as ms ms) by (induction ms; constructor; auto).
  induction fits as [|f fits IH]; intros ms h h' ms' ps F E.
  - cbn [gd_params] in E. injection E as <- <- <-. split; [apply relabel_refl; exact F|]. split; [apply RC|]. repeat split; try constructor; apply incl_nil_l.
  - destruct ms as [|m ms].
    { cbn [gd_params] in E. injection E as <- <- <-. split; [apply relabel_refl; exact F|]. split; [apply RC|]. destruct f as [[]|]; repeat split; try constructor; apply incl_nil_l. }
    cbn [gd_params] in E. cbn [flat_map] in F. apply Forall_app in F. destruct F as (Fm & Fms).
    destruct f as [[]|bs].
    + bok E x HE1. bok HE1 y HE0. destruct y as (h1 & m1). injection HE1 as <-. bok E y HE2. destruct y as ((h2 & ms2) & qs). injection E as <- <- <-.
      unfold gd_records in HE0. destruct (is_comp m); [discriminate|]. unfold man_refs in Fm. apply Forall_app in Fm. destruct Fm as (Fg & Fc).
      destruct (each_ref (fun h r => detach h r true) h (om_gd m)) as [hx c] eqn:Ed. injection HE0 as <- <-.
      destruct (each_detach (fun _ _ => true) _ _ _ _ Fg Ed) as (R & L). pose proof (each_detach_true _ _ _ _ Fg Ed) as FT. assert (X : ext h hx) by apply R.
      destruct (IH _ _ _ _ _ (exists_ext _ _ _ X Fms) HE2) as (R2 & C2 & G2 & -> & S2 & T2 & I2 & J2). cbn [selected selected_each selected_whole om_gd om_cotan flat_map map].
      split; [|split; [|split; [|split; [reflexivity|split; [|split; [|split]]]]]].
      * apply (relabel_app h hx h2); [exact Fms| |exact R2]. unfold man_refs. cbn [om_gd om_cotan].
        refine (relabel_app h hx hx _ _ _ _ Fc R (relabel_refl _ _ (exists_ext _ _ _ X Fc))).
      * constructor; [|exact C2]. cbn. auto.
      * rewrite G2. reflexivity.
      * exact S2.
      * apply Forall_app. split; [|exact T2]. destruct R as (_ & Gc & _), R2 as (X2 & _). rewrite Forall_forall in *. intros k I.
        rewrite (ext_flag _ _ _ X2 (Gc k I)). auto.
      * apply incl_app; [apply incl_appl; unfold man_refs; cbn [om_gd om_cotan]; apply incl_appl, incl_refl|apply incl_appr; exact I2].
      * apply incl_appr. exact J2.
    + cbn [bind] in E. bok E y HE2. destruct y as ((h2 & ms2) & qs). injection E as <- <- <-.
      destruct (IH _ _ _ _ _ Fms HE2) as (R2 & C2 & G2 & -> & S2 & T2 & I2 & J2). cbn [selected selected_each selected_whole om_gd om_cotan flat_map map app].
      split; [|split; [|split; [|split; [reflexivity|split; [|split; [|split]]]]]].
      * apply (relabel_app h h h2); [exact Fms|apply relabel_refl; exact Fm|exact R2].
      * constructor; [auto|exact C2].
      * rewrite G2. reflexivity.
      * exact S2.
      * exact T2.
      * apply incl_appr. exact I2.
      * apply incl_appr. exact J2.
    + cbn [bind] in E. bok E y HE2. destruct y as ((h2 & ms2) & qs). injection E as <- <- <-.
      destruct (IH _ _ _ _ _ Fms HE2) as (R2 & C2 & G2 & -> & S2 & T2 & I2 & J2). cbn [selected selected_each selected_whole om_gd om_cotan flat_map map app].
      split; [|split; [|split; [|split; [reflexivity|split; [|split; [|split]]]]]].
      * apply (relabel_app h h h2); [exact Fms|apply relabel_refl; exact Fm|exact R2].
      * constructor; [auto|exact C2].
      * rewrite G2. reflexivity.
      * rewrite S2. reflexivity.
      * exact T2.
      * apply incl_appr. exact I2.
      * apply incl_app; [apply incl_appl; unfold man_refs; apply incl_appl; apply IS|apply incl_appr; exact J2].
Qed.

(** to_device of every manifold *)
Lemma each_length {A} (f : heap -> A -> heap * ref) l : forall h h' l', each_ref f h l = (h', l') -> length l' = length l.
Proof.
  induction l as [|k l IH]; intros h h' l' E; cbn [each_ref] in E; [injection E as _ <-; reflexivity|]. destruct (f h k) as [h1 r].
  destruct (each_ref f h1 l) as [h2 rs] eqn:E2. injection E as _ <-. cbn. rewrite (IH _ _ _ E2). reflexivity.
Qed.

Lemma mans_to_device moved ms : forall h h' ms', each_man (man_to_device moved) h ms = Ok (h', ms') ->
  each_ref (to_dev moved) h (flat ms) = (h', flat ms') /\ cut_as ms ms'.
Proof.
  induction ms as [|m ms IH]; intros h h' ms' E; cbn [each_man] in E.
  - injection E as <- <-. split; [reflexivity|constructor].
  - bok E hm HE1. destruct hm as (h1 & m1). bok E hm HE2. destruct hm as (h2 & ms2). injection E as <- <-. unfold man_to_device in HE1.
    destruct (each_ref (to_dev moved) h (om_gd m)) as [ha g] eqn:Ea. destruct (each_ref (to_dev moved) ha (om_cotan m)) as [hb c] eqn:Eb. injection HE1 as <- <-.
    destruct (IH _ _ _ HE2) as (R & C). split.
    + cbn [flat_map]. unfold man_refs at 1 3. cbn [om_gd om_cotan]. rewrite !each_app, Ea, Eb, R. reflexivity.
    + constructor; [|exact C]. cbn. rewrite (each_length _ _ _ _ _ Ea), (each_length _ _ _ _ _ Eb). auto.
Qed.

(** ** Dictionaries *)
Lemma dict_get_set {A} (d : list (string * A)) k v k' : dict_get (dict_set d k v) k' = if k =? k' then Some v else dict_get d k'.
Proof.
  induction d as [|(a & x) d IH]; cbn [dict_set dict_get]; [reflexivity|].
  destruct (String.eqb_spec a k) as [->|N]; cbn [dict_get].
  - destruct (String.eqb_spec k k'); reflexivity.
  - rewrite IH. destruct (String.eqb_spec a k') as [->|]; [|reflexivity]. destruct (String.eqb_spec k k') as [->|]; [congruence|reflexivity].
Qed.

Lemma dict_get_none {A} (d : list (string * A)) k : ~ In k (map fst d) -> dict_get d k = None.
Proof.
  induction d as [|(a & x) d IH]; intros N; [reflexivity|]. cbn [dict_get map fst] in *. destruct (String.eqb_spec a k) as [->|]; [elim N; left; reflexivity|].
  apply IH. intros I. apply N. right. exact I.
Qed.

Lemma dict_get_update {A} (d' : list (string * A)) : NoDup (map fst d') -> forall d k,
  dict_get (dict_update d d') k = match dict_get d' k with Some v => Some v | None => dict_get d k end.
Proof.
  unfold dict_update. induction d' as [|(a & x) d' IH]; intros N d k; [reflexivity|]. cbn [fold_left fst snd map dict_get] in *. inversion N as [|? ? NI N']; subst.
  rewrite (IH N'), dict_get_set. destruct (String.eqb_spec a k) as [->|]; [|reflexivity]. rewrite (dict_get_none _ _ NI). reflexivity.
Qed.

(** ** The invariant *)
Record good (h : heap) (r : reg) : Prop := mkGood {
  g_exist : Forall (exists_in h) (tensors_of r);
  g_distinct : NoDup (map (store h) (tensors_of r));
  g_cotan_rec : Forall (fun k => flag h k = true) (init_cotan r);
  g_ctrl_rec : Forall (fun k => flag h k = true) (List.concat (r_ctrls r));
  g_each : Forall (fun k => flag h k = false) (selected_each (r_fit_gd r) (modules_init r));
  g_length : length (r_init r) = (length (r_defs r) + length (r_mods r))%nat
}.

Record complete (h : heap) (r : reg) : Prop := mkComplete {
  c_good : good h r;
  c_whole : Forall (fun k => flag h k = true) (selected_whole (r_fit_gd r) (modules_init r));
  c_params : forall k, dict_get (r_params r) k = expected r k
}.

Lemma Forall_flags h h' l l' b : map (flag h') l' = map (flag h) l -> Forall (fun k => flag h k = b) l -> Forall (fun k => flag h' k = b) l'.
Proof.
  intros E F. revert l E F. induction l' as [|k l' IH]; intros l E F; constructor; destruct l as [|j l]; try discriminate E; cbn [map] in E; injection E as E1 E2; inversion F; subst.
  - congruence.
  - eauto.
Qed.

Lemma cut_as_len ms ms' : cut_as ms ms' -> length ms' = length ms.
Proof. induction 1; cbn; congruence. Qed.

Lemma flat_app a b : flat (a ++ b) = flat a ++ flat b.
Proof. apply flat_map_app. Qed.

Lemma selected_incl fits : forall ms, incl (selected_each fits ms) (flat ms).
Proof.
  assert (IS : forall bs l, incl (select bs l) l).
  { induction bs as [|b bs IH]; intros [|k l]; cbn [select]; try apply incl_nil_l. destruct b; cbn [app].
    - apply incl_cons; [left; reflexivity|]. apply incl_tl. apply IH.
    - apply incl_tl. apply IH. }
  induction fits as [|[b|bs] fits IH]; intros [|m ms]; cbn [selected_each flat_map]; try apply incl_nil_l.
  - apply incl_appr. apply IH.
  - apply incl_app; [apply incl_appl; unfold man_refs; apply incl_appl; apply IS|apply incl_appr; apply IH].
Qed.

(** What changes keep. *)
Definition kept (r r' : reg) : Prop :=
  r_defs r' = r_defs r /\ r_mods r' = r_mods r /\ r_att r' = r_att r /\ r_lam r' = r_lam r /\ r_reduce r' = r_reduce r /\
  r_fit_gd r' = r_fit_gd r /\ r_fit_controls r' = r_fit_controls r /\ r_it r' = r_it r /\ r_ctrls r' = r_ctrls r /\ r_other r' = r_other r.

Lemma compute_parameters_ok h r h' r' : NoDup (map fst (r_other r)) -> good h r -> compute_parameters h r = Ok (h', r') ->
  complete h' r' /\ kept r r' /\ relabel h h' (tensors_of r) (tensors_of r') /\ cut_as (r_init r) (r_init r').
Proof.
  intros ND [EX DI CR KR ER LE] E. unfold compute_parameters in E. bok E y HE1. destruct y as ((h1 & init1) & d1). injection E as <- <-.
  unfold tensors_of in EX. apply Forall_app in EX. destruct EX as (EI & EC). set (n := length (r_defs r)) in *.
  assert (H : relabel h h1 (flat (r_init r)) (flat init1) /\ cut_as (r_init r) init1 /\ map om_cotan init1 = map om_cotan (r_init r) /\
    selected_each (r_fit_gd r) (skipn n init1) = selected_each (r_fit_gd r) (skipn n (r_init r)) /\
    Forall (fun k => flag h1 k = true) (selected_whole (r_fit_gd r) (skipn n init1)) /\
    d1 = [("cotan", flat_map om_cotan (r_init r))] ++ (match r_fit_gd r with [] => [] | _ => [("gd", selected (r_fit_gd r) (skipn n init1))] end)).
  { destruct (r_fit_gd r) as [|f0 fits0] eqn:Ef.
    - injection HE1 as <- <- <-. split; [apply relabel_refl; exact EI|]. split; [clear; induction (r_init r); constructor; auto|]. repeat split. constructor.
    - rewrite <- Ef in *. clear Ef f0 fits0. bok HE1 y HE2. destruct y as ((h2 & ms2) & ps). injection HE1 as <- <- <-.
      assert (EF : firstn n (r_init r) ++ skipn n (r_init r) = r_init r) by apply firstn_skipn.
      rewrite <- EF, flat_app in EI. apply Forall_app in EI. destruct EI as (EI1 & EI2).
      destruct (gd_params_ok _ _ _ _ _ _ EI2 HE2) as (R & C & G & EP & S & T & I1 & I2).
      assert (L1 : length (firstn n (r_init r)) = n) by (rewrite firstn_length; lia).
      assert (SK : skipn n (firstn n (r_init r) ++ ms2) = ms2).
      { rewrite skipn_app, L1, Nat.sub_diag. rewrite skipn_all2 by lia. reflexivity. }
      rewrite SK. split; [|split; [|split; [|split; [exact S|split; [exact T|]]]]].
      + rewrite <- EF at 1. rewrite !flat_app. apply (relabel_app h h h2); [exact EI2|apply relabel_refl; exact EI1|exact R].
      + rewrite <- EF at 1. apply Forall2_app; [clear; induction (firstn n (r_init r)); constructor; auto|exact C].
      + rewrite <- EF at 2. rewrite !map_app, G. reflexivity.
      + rewrite EP. reflexivity. }
  destruct H as (R & C & G & S & T & ->).
  assert (X : ext h h1) by apply R.
  assert (RT : relabel h h1 (tensors_of r) (flat init1 ++ List.concat (r_ctrls r))).
  { apply (relabel_app h h1 h1); [exact EC|exact R|apply relabel_refl; exact (exists_ext _ _ _ X EC)]. }
  assert (FC : flat_map om_cotan init1 = init_cotan r) by (unfold init_cotan; rewrite !flat_map_concat_map, G; reflexivity).
  split; [|split; [|split; [exact RT|exact C]]].
  2: { repeat split. }
  split.
  - split.
    + apply RT.
    + unfold tensors_of. cbn. destruct RT as (_ & _ & ->). exact DI.
    + unfold init_cotan at 1. cbn [r_init set_parameters]. rewrite FC. rewrite Forall_forall in *. intros k I. rewrite (ext_flag _ _ _ X); [auto|].
      apply EI. apply flat_in_cotan. exact I.
    + cbn. rewrite Forall_forall in *. intros k I. rewrite (ext_flag _ _ _ X); auto.
    + unfold modules_init. cbn. fold n. rewrite S. rewrite Forall_forall in *. intros k I. rewrite (ext_flag _ _ _ X); [auto|].
      apply EI. apply (selected_incl _ _) in I. rewrite <- (firstn_skipn n (r_init r)), flat_app. apply in_app_iff. right. exact I.
    + cbn. rewrite (cut_as_len _ _ C). exact LE.
  - exact T.
  - intros k. cbn [r_params set_parameters]. rewrite (dict_get_update _ ND). unfold expected. cbn [r_other r_fit_gd r_fit_controls r_ctrls set_parameters].
    unfold init_cotan, modules_init. cbn [r_init r_defs set_parameters]. fold n. rewrite FC. change (flat_map om_cotan (r_init r)) with (init_cotan r).
    destruct (dict_get (r_other r) k); [reflexivity|].
    rewrite (String.eqb_sym k "cotan"), (String.eqb_sym k "gd"), (String.eqb_sym k "controls").
    destruct (r_fit_gd r), (r_fit_controls r); cbn [app dict_get]; destruct ("cotan" =? k); try reflexivity; destruct ("gd" =? k) eqn:Eg; try reflexivity;
      destruct ("controls" =? k) eqn:Ec; try reflexivity.
    all: apply String.eqb_eq in Eg; apply String.eqb_eq in Ec; congruence.
Qed.
