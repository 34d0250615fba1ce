(** Property theorems about building (C91), copying (C92) and converting (C93) manifolds,
    with additions to C03 and C07. *)
From Coq Require Import Reals String List Arith ZArith Bool Lia.
From Verif Require Import Py Tensor ManifoldModel SpecManifold ManifoldFacts ManifoldState PropManifoldAux SpecStorage StorageFacts.
Import ListNotations.
Open Scope list_scope.
Open Scope nat_scope.

(** ** C91 *)

(** Built with some of gd, tan, cotan: the manifold holds what was given, zeros of the
    declared shapes elsewhere, and reports the device and dtype that were given or, failing
    that, those of the tensors. *)
Theorem C91_built : forall ddt shapes nb gd tan cotan lg lt lc dv dt D T,
  optional (length shapes) gd lg -> optional (length shapes) tan lt -> optional (length shapes) cotan lc ->
  (gd <> VNone \/ tan <> VNone \/ cotan <> VNone) -> uniform lg -> uniform lt -> uniform lc ->
  settled tdev dv (lg ++ lt ++ lc) D -> settled tdty dt (lg ++ lt ++ lc) T ->
  exists lf, leaf_init ddt shapes nb gd tan cotan dv dt = Ok lf /\
    man_device (MLeaf lf) = Ok (Some D) /\ man_dtype (MLeaf lf) = Some T /\
    nb_pts (MLeaf lf) = nb /\ len_gd (MLeaf lf) = length shapes /\ shape_gd (MLeaf lf) = Ok (map (fun sh => nb :: sh) shapes) /\
    unroll Gd (MLeaf lf) = map VT (held gd lg (fresh shapes nb D T)) /\
    unroll Tan (MLeaf lf) = map VT (held tan lt (fresh shapes nb D T)) /\
    unroll Cotan (MLeaf lf) = map VT (held cotan lc (fresh shapes nb D T)) /\
    (gd <> VNone -> getter Gd (MLeaf lf) = Ok gd) /\ (tan <> VNone -> getter Tan (MLeaf lf) = Ok tan) /\ (cotan <> VNone -> getter Cotan (MLeaf lf) = Ok cotan).
Proof.
  intros ddt shapes nb gd tan cotan lg lt lc dv dt D T G TT C NN Ug Ut Uc SD ST.
  assert (AN : all_none gd tan cotan = false) by (destruct gd, tan, cotan; try reflexivity; destruct NN as [N|[N|N]]; congruence).
  rewrite (leaf_init_eq ddt shapes nb gd tan cotan lg lt lc dv dt G TT C AN), (find_settled String.eqb tdev dv _ D device_eqb SD), (find_settled dtype_eqb tdty dt _ T dtype_eqb_eq ST). cbn [bind].
  set (k := cont_init (leaf_shape_gd shapes nb) D T). assert (LK : length (c_shapes k) = length shapes) by apply map_length.
  destruct (fill_agrees k gd lg _ G LK Ug) as (cg & Eg & _ & Tg). destruct (fill_agrees k tan lt _ TT LK Ut) as (ct & Et & _ & Tt). destruct (fill_agrees k cotan lc _ C LK Uc) as (cc & Ec & _ & Tc).
  rewrite Eg, Et, Ec. cbn [bind]. eexists. split; [reflexivity|]. repeat (split; [reflexivity|]).
  assert (Z : c_tensors k = map VT (fresh shapes nb D T)) by (unfold k, cont_init, leaf_shape_gd, fresh, zeros_tob; cbn; rewrite !map_map; reflexivity).
  assert (HE : forall v l (c : cont), c_tensors c = match v with VNone => c_tensors k | _ => map VT l end -> c_tensors c = map VT (held v l (fresh shapes nb D T))) by (intros v l c E; rewrite E; destruct v; try reflexivity; exact Z).
  assert (GE : forall v l (c : cont), optional (length shapes) v l -> c_tensors c = match v with VNone => c_tensors k | _ => map VT l end -> v <> VNone ->
    (if Nat.eqb (length shapes) 1 then match c_tensors c with [] => Err IndexError | x :: _ => Ok x end else Ok (VL (c_tensors c))) = Ok v).
  { intros v l c [(-> & _)|[(N & t & -> & ->)|(N & L & ->)]] E NV; [congruence| |].
    - rewrite N. cbn. rewrite E. reflexivity.
    - replace (Nat.eqb (length shapes) 1) with false by (symmetry; apply Nat.eqb_neq; lia). rewrite E. reflexivity. }
  cbn. unfold cont_unroll. split; [exact (HE _ _ _ Tg)|]. split; [exact (HE _ _ _ Tt)|]. split; [exact (HE _ _ _ Tc)|].
  split; [exact (GE _ _ _ G Tg)|]. split; [exact (GE _ _ _ TT Tt)|exact (GE _ _ _ C Tc)].
Qed.
Print Assumptions C91_built.

(** Built with nothing: zeros everywhere, on the processor and in the default dtype of torch
    unless told otherwise. *)
Theorem C91_nothing_given : forall ddt shapes nb dv dt,
  let D := match dv with Some d => d | None => "cpu"%string end in let T := match dt with Some t => t | None => ddt end in
  exists lf, leaf_init ddt shapes nb VNone VNone VNone dv dt = Ok lf /\
    man_device (MLeaf lf) = Ok (Some D) /\ man_dtype (MLeaf lf) = Some T /\ nb_pts (MLeaf lf) = nb /\
    forall p, unroll p (MLeaf lf) = map VT (fresh shapes nb D T).
Proof.
  intros ddt shapes nb dv dt D T. eexists. split; [reflexivity|]. repeat (split; [reflexivity|]).
  intros p. unfold fresh. rewrite map_map. destruct p; cbn; unfold cont_unroll, cont_init, leaf_shape_gd, zeros_tob; cbn; rewrite map_map; reflexivity.
Qed.
Print Assumptions C91_nothing_given.

(** Tensors that disagree are refused: all of them when the device (or dtype) is not given,
    those of one part in any case. *)
Theorem C91_refused : forall ddt shapes nb gd tan cotan lg lt lc dv dt,
  optional (length shapes) gd lg -> optional (length shapes) tan lt -> optional (length shapes) cotan lc ->
  (dv = None /\ differ tdev (lg ++ lt ++ lc)) \/ (dt = None /\ differ tdty (lg ++ lt ++ lc)) \/
  ~ uniform lg \/ ~ uniform lt \/ ~ uniform lc ->
  leaf_init ddt shapes nb gd tan cotan dv dt = Err RuntimeError.
Proof.
  intros ddt shapes nb gd tan cotan lg lt lc dv dt G TT C H.
  assert (NE : lg ++ lt ++ lc <> []).
  { intros E. apply app_eq_nil in E. destruct E as (-> & E). apply app_eq_nil in E. destruct E as (-> & ->).
    destruct H as [(_ & s & t & [] & _)|[(_ & s & t & [] & _)|[N|[N|N]]]]; apply N; apply uniform_nil. }
  assert (AN : all_none gd tan cotan = false).
  { destruct gd, tan, cotan; try reflexivity. exfalso. destruct G as [(_ & ->)|[(_ & x & X & _)|(_ & _ & X)]]; [|discriminate X..]. destruct TT as [(_ & ->)|[(_ & x & X & _)|(_ & _ & X)]]; [|discriminate X..]. destruct C as [(_ & ->)|[(_ & x & X & _)|(_ & _ & X)]]; [|discriminate X..].
    apply NE. reflexivity. }
  rewrite (leaf_init_eq ddt shapes nb gd tan cotan lg lt lc dv dt G TT C AN).
  destruct (find_either String.eqb tdev dv _ string_dec device_eqb NE) as [(D & ED & ND)|ED]; rewrite ED; [cbn [bind]|reflexivity].
  destruct (find_either dtype_eqb tdty dt _ dtype_dec dtype_eqb_eq NE) as [(T & ET & NT)|ET]; rewrite ET; [cbn [bind]|reflexivity].
  destruct H as [H|[H|NU]]; [destruct (ND H)|destruct (NT H)|].
  set (k := cont_init (leaf_shape_gd shapes nb) D T). assert (LK : length (c_shapes k) = length shapes) by apply map_length.
  assert (BAD : forall v l, optional (length shapes) v l -> ~ uniform l -> given_fill k v = Err RuntimeError).
  { intros v l O N. destruct (uniform_dec l) as [U|DF]; [destruct (N U)|]. exact (fill_differs k v l _ O DF). }
  destruct (fill_either k gd lg _ G LK) as [(cg & Eg)|Eg]; rewrite Eg; [cbn [bind]|reflexivity]. destruct (fill_either k tan lt _ TT LK) as [(ct & Et)|Et]; rewrite Et; [cbn [bind]|reflexivity].
  destruct (fill_either k cotan lc _ C LK) as [(cc & Ec)|Ec]; rewrite Ec; [exfalso|reflexivity].
  destruct NU as [N|[N|N]]; [rewrite (BAD _ _ G N) in Eg; discriminate Eg|rewrite (BAD _ _ TT N) in Et; discriminate Et|rewrite (BAD _ _ C N) in Ec; discriminate Ec].
Qed.
Print Assumptions C91_refused.

(** A compound reports the dtype its members agree on (None if they do not), the device of
    its first member, and counts the points and descriptors of all of them. *)
Theorem C91_compound : forall ms, Forall peopled ms ->
  exists c, comp_init ms = Ok c /\
    (forall m ms', ms = m :: ms' -> man_device c = man_device m) /\ (ms = [] -> man_device c = Err IndexError) /\
    (forall T, ms <> [] -> Forall (fun m => man_dtype m = Some T) ms -> man_dtype c = Some T) /\
    (forall a b S T, In a ms -> In b ms -> man_dtype a = Some S -> man_dtype b = Some T -> S <> T -> man_dtype c = None) /\
    nb_pts c = list_sum (map nb_pts ms) /\ len_gd c = list_sum (map len_gd ms) /\ numel_gd c = List.concat (map numel_gd ms) /\
    forall p vs, mapM (getter p) ms = Ok vs -> getter p c = Ok (VL vs).
Proof.
  intros ms P. assert (X : exists ds, mapM man_device ms = Ok ds).
  { induction P as [|m ms Pm _ (ds & IH)]; [eexists; reflexivity|].
    assert (Y : exists d, man_device m = Ok d).
    { clear -Pm. induction m as [l|n dv dt|dv dt ms IH] using man_ind'; [eexists; reflexivity..|]. inversion Pm as [| |? ? ? NE PS]; subst. destruct ms as [|m ms]; [congruence|]. inversion IH; subst. inversion PS; subst. cbn. auto. }
    destruct Y as (d & Y). exists (d :: ds). cbn. rewrite Y. cbn. rewrite IH. reflexivity. }
  destruct X as (ds & X). unfold comp_init. rewrite X. cbn [bind]. eexists. split; [reflexivity|].
  split; [intros m ms' ->; reflexivity|]. split; [intros ->; reflexivity|]. split; [|split; [|split; [reflexivity|split; [reflexivity|split]]]].
  - intros T NE F. cbn [man_dtype]. set (dts := flat_map _ ms). assert (E : dts = map (fun _ => T) ms).
    { unfold dts. clear -F. induction F as [|m ms E _ IH]; [reflexivity|]. cbn. rewrite E, IH. reflexivity. }
    rewrite E. destruct ms as [|m ms]; [congruence|]. cbn. replace (forallb _ _) with true; [reflexivity|]. symmetry. apply forallb_forall. intros x I. apply in_map_iff in I. destruct I as (_ & <- & _). apply dtype_eqb_eq. reflexivity.
  - intros a b S T A B EA EB N. cbn [man_dtype]. set (dts := flat_map _ ms).
    assert (IN : forall m t, In m ms -> man_dtype m = Some t -> In t dts) by (intros m t I E; apply in_flat_map; exists m; split; [exact I|rewrite E; left; reflexivity]).
    pose proof (IN a S A EA) as IS. pose proof (IN b T B EB) as IT. destruct dts as [|x l]; [destruct IS|]. destruct (forallb _ l) eqn:E; [exfalso|reflexivity]. rewrite forallb_forall in E. apply N.
    assert (Q : forall y, In y (x :: l) -> y = x) by (intros y [<-|I]; [reflexivity|apply dtype_eqb_eq; exact (E y I)]). rewrite (Q S IS), (Q T IT). reflexivity.
  - cbn [numel_gd]. apply flat_map_concat_map.
  - intros p vs E. cbn [getter]. rewrite E. reflexivity.
Qed.
Print Assumptions C91_compound.

Definition two_d : list tob := [ones [3; 2]; ones [3; 2; 2]].
Example C91_hypotheses :
  optional (length [[2]; [2; 2]]) (VL (map VT two_d)) two_d /\ optional (length [[2]; [2; 2]]) VNone [] /\ uniform two_d /\
  settled tdev None (two_d ++ [] ++ two_d) "cpu"%string /\ settled tdty None (two_d ++ [] ++ two_d) F64 /\
  differ tdty (two_d ++ [zeros_tob [3; 2] "cpu" F32 false]).
Proof.
  split; [right; right; cbn; auto|]. split; [left; auto|]. split; [exists "cpu"%string, F64; repeat constructor|]. split; [split; [discriminate|repeat constructor]|]. split; [split; [discriminate|repeat constructor]|].
  exists (ones [3; 2]), (zeros_tob [3; 2] "cpu" F32 false). split; [left; reflexivity|]. split; [right; right; left; reflexivity|discriminate].
Qed.

(** ** C92 *)

(** clone(requires_grad=b) gives a manifold with the same members, sizes, values, devices and
    dtypes; all its tensors have the flag b. *)
Theorem C92_clone : forall b m, whole m -> peopled m ->
  exists m', clone b m = Ok m' /\ copied (set_rg b) (fun d => d) (fun t => t) m m' /\
    (forall p l, unroll p m = map VT l -> unroll p m' = map VT (map (set_rg b) l)) /\
    nb_pts m' = nb_pts m /\ len_gd m' = len_gd m /\ numel_gd m' = numel_gd m /\ man_device m' = man_device m.
Proof.
  intros b m W P. destruct (clone_copied b m (whole_leaves m W) P) as (m' & E & C & _). exists m'. split; [exact E|]. split; [exact C|].
  split; [intros p l; exact (copied_unroll _ _ _ m m' p l C)|]. destruct (copied_sizes _ _ _ m m' C) as (A & B & N). repeat (split; [assumption|]).
  destruct (copied_device _ _ _ m m' C P) as (d & E1 & E2). congruence.
Qed.
Print Assumptions C92_clone.

(** The clone of a container keeps shapes, values and flags; deepcopy does the same. *)
Theorem C92_container : forall c l, c_tensors c = map VT l -> 1 <= length l -> uniform l ->
  exists c', cont_clone c = Ok c' /\ c_shapes c' = c_shapes c /\ c_tensors c' = c_tensors c /\ Forall (fun t => tdev t = c_dev c' /\ tdty t = c_dty c') l.
Proof. intros c l E L U. destruct (container_clone c l E L U) as (dv & dt & Q & F). eexists. split; [exact Q|]. auto. Qed.
Print Assumptions C92_container.

(** fill(other) copies the three parts of the other manifold. *)
Theorem C92_fill : forall m other (copy : bool) rg vg vt vc lg lt lc, all_leaves leaf_made m ->
  getter Gd other = Ok vg -> getter Tan other = Ok vt -> getter Cotan other = Ok vc ->
  arg m vg lg -> arg m vt lt -> arg m vc lc ->
  let stored (t : tob) := if copy then match rg with Some b => set_rg b t | None => t end else t in
  exists m', fill_from m other copy rg = (m', None) /\ nb_pts m' = nb_pts m /\
    unroll Gd m' = map VT (map stored lg) /\ unroll Tan m' = map VT (map stored lt) /\ unroll Cotan m' = map VT (map stored lc).
Proof.
  intros m other copy rg vg vt vc lg lt lc M Gg Gt Gc Ag At Ac stored. destruct (fill_three m other copy rg vg vt vc lg lt lc M Gg Gt Gc Ag At Ac) as (m' & E & R & U).
  exists m'. split; [exact E|]. split; [|exact U]. clear -R. revert m' R. induction m as [l|n dv dt|dv dt ms IH] using man_ind'; intros m' R; inversion R as [? ? (_ & N & _)|?|? ? ? ms' F]; subst; [exact N|reflexivity|].
  cbn. clear R. revert ms' F. induction IH as [|m ms Hm _ IHms]; intros ms' F; inversion F as [|? m' ? ms'' F1 F2]; subst; [reflexivity|]. cbn. f_equal; [exact (Hm m' F1)|exact (IHms ms'' F2)].
Qed.
Print Assumptions C92_fill.

Lemma ex_whole : whole ex_man.
Proof.
  split; [exact ex_made|].
  assert (H : forall p shapes nb, 1 <= length shapes -> leaf_full p (mk_leaf shapes nb)).
  { intros p shapes nb Hs. exists (map (fun sh => zeros_tob sh "cpu" F32 false) (leaf_shape_gd shapes nb)).
    unfold leaf_shape_gd. split; [destruct p; cbn; unfold leaf_shape_gd; rewrite !map_map; reflexivity|]. rewrite !map_length. split; [reflexivity|]. split; [exact Hs|].
    exists "cpu"%string, F32. apply Forall_forall. intros t Ht. apply in_map_iff in Ht. destruct Ht as (sh & <- & _). now split. }
  intros p. repeat constructor; apply H; cbn; lia.
Qed.
Example C92_hypotheses : whole ex_man /\ peopled ex_man /\ exists m', clone true ex_man = Ok m' /\ m' <> ex_man.
Proof.
  split; [exact ex_whole|]. split; [repeat constructor; discriminate|]. destruct (C92_clone true ex_man ex_whole) as (m' & E & _ & U & _); [repeat constructor; discriminate|].
  exists m'. split; [exact E|]. intros ->. specialize (U Gd (map (fun sh => zeros_tob sh "cpu" F32 false) [[3; 2]; [2; 2]; [2; 2; 2]; [1; 2]]) eq_refl). discriminate U.
Qed.

(** ** C93 *)

(** to_ a device (None means the processor): all tensors move there, values, dtypes and flags
    stay, and the manifold, also a compound, reports the new device. *)
Theorem C93_to_device : forall a d m, a = ToStr d \/ (a = ToNone /\ d = "cpu"%string) -> whole m -> peopled m ->
  exists m', to_ a m = (m', None) /\ copied (set_dev d) (fun _ => Some d) (fun t => t) m m' /\
    (forall p l, unroll p m = map VT l -> unroll p m' = map VT (map (set_dev d) l)) /\
    nb_pts m' = nb_pts m /\ man_device m' = Ok (Some d).
Proof.
  intros a d m A W P.
  assert (LT : all_leaves leaf_tensors m) by (apply (all_leaves_impl leaf_whole); [|exact (whole_leaves m W)]; intros l (_ & F) p; destruct (F p) as (ts & E & _); exists ts; exact E).
  destruct (to_device_copied a d m A LT) as (m' & E & C). exists m'. split; [exact E|]. split; [exact C|]. split; [intros p l; exact (copied_unroll _ _ _ m m' p l C)|].
  split; [apply (copied_sizes _ _ _ m m' C)|]. destruct (copied_device _ _ _ m m' C P) as (x & _ & E2). exact E2.
Qed.
Print Assumptions C93_to_device.

(** to_ a dtype: all tensors are converted, and every leaf reports the new dtype. *)
Theorem C93_to_dtype : forall t m, whole m ->
  exists m', to_ (ToDtype t) m = (m', None) /\ copied (set_dty t) (fun d => d) (fun _ => t) m m' /\
    (forall p l, unroll p m = map VT l -> unroll p m' = map VT (map (set_dty t) l)) /\
    nb_pts m' = nb_pts m /\ (forall lf, m = MLeaf lf -> man_dtype m' = Some t).
Proof.
  intros t m W.
  assert (LT : all_leaves leaf_tensors m) by (apply (all_leaves_impl leaf_whole); [|exact (whole_leaves m W)]; intros l (_ & F) p; destruct (F p) as (ts & E & _); exists ts; exact E).
  destruct (to_dtype_copied t m LT) as (m' & E & C). exists m'. split; [exact E|]. split; [exact C|]. split; [intros p l; exact (copied_unroll _ _ _ m m' p l C)|].
  split; [apply (copied_sizes _ _ _ m m' C)|]. intros lf ->. inversion C; subst. cbn. congruence.
Qed.
Print Assumptions C93_to_dtype.

(** Anything else is refused by leaves and manifolds without points, and nothing changes. *)
Theorem C93_to_refused : forall m, (forall dv dt ms, m <> MComp dv dt ms) -> to_ ToOther m = (m, Some ValueError).
Proof. intros [l|n dv dt|dv dt ms] N; [reflexivity..|]. destruct (N dv dt ms eq_refl). Qed.
Print Assumptions C93_to_refused.

(** fill_*_zeros: zeros of the declared shapes, of the reported device and dtype, with the
    given flag; the two other parts stay.  A compound refuses. *)
Theorem C93_zeros : forall p b lf, leaf_made lf -> leaf_consistent lf ->
  exists lf', fill_zeros p b (MLeaf lf) = (MLeaf lf', None) /\
    unroll p (MLeaf lf') = map VT (map (set_rg b) (fresh (l_shapes lf) (l_nb lf) (l_dev lf) (l_dty lf))) /\
    (forall q, q <> p -> unroll q (MLeaf lf') = unroll q (MLeaf lf)) /\
    man_device (MLeaf lf') = man_device (MLeaf lf) /\ man_dtype (MLeaf lf') = man_dtype (MLeaf lf).
Proof.
  intros p b lf M C. destruct (C p) as (D & T & _). specialize (M p). eexists. split; [reflexivity|]. split.
  - unfold fresh. rewrite !map_map. cbn [unroll]. destruct p; cbn in *; unfold cont_unroll; cbn; rewrite D, T, M; unfold leaf_shape_gd; rewrite map_map; reflexivity.
  - split; [intros q N; destruct p, q; try congruence; reflexivity|]. destruct p; split; reflexivity.
Qed.
Print Assumptions C93_zeros.
Theorem C93_zeros_compound : forall p b dv dt ms, fill_zeros p b (MComp dv dt ms) = (MComp dv dt ms, Some NotImplementedError).
Proof. reflexivity. Qed.
Print Assumptions C93_zeros_compound.

(** fill_*_randn: tensors of the declared shapes, device and dtype with the given flag, in
    every leaf of a compound, the i-th tensor of a leaf holding the i-th draw; everything else
    stays. *)
Inductive redrawn (p : part) (rnd : nat -> list nat -> R) (b : bool) : man -> man -> Prop :=
| red_leaf l l' ts : l_shapes l' = l_shapes l -> l_nb l' = l_nb l -> l_dev l' = l_dev l -> l_dty l' = l_dty l ->
    (forall q, q <> p -> get_part q l' = get_part q l) ->
    c_tensors (get_part p l') = map VT ts ->
    length ts = length (l_shapes l) ->
    (forall i sh t, nth_error (l_shapes l) i = Some sh -> nth_error ts i = Some t ->
      tval t = mkT (l_nb l :: sh) (rnd i) /\ tdev t = l_dev l /\ tdty t = l_dty l /\ trg t = b) ->
    redrawn p rnd b (MLeaf l) (MLeaf l')
| red_empty n dv dt : redrawn p rnd b (MEmpty n dv dt) (MEmpty n dv dt)
| red_comp dv dt ms ms' : Forall2 (redrawn p rnd b) ms ms' -> redrawn p rnd b (MComp dv dt ms) (MComp dv dt ms').
Theorem C93_randn : forall p rnd b m, all_leaves leaf_made m -> all_leaves leaf_consistent m ->
  exists m', fill_randn p rnd b m = (m', None) /\ redrawn p rnd b m m'.
Proof.
  intros p rnd b m. induction m as [l|n dv dt|dv dt ms IH] using man_ind'; intros M C.
  - inversion M as [? Ml| |]; subst. inversion C as [? Cl| |]; subst. eexists. split; [reflexivity|].
    assert (X : forall D T shapes i, exists ts, randn_tensors rnd i (leaf_shape_gd shapes (l_nb l)) D T b = map VT ts /\ length ts = length shapes /\
      forall j sh t, nth_error shapes j = Some sh -> nth_error ts j = Some t -> tval t = mkT (l_nb l :: sh) (rnd (i + j)) /\ tdev t = D /\ tdty t = T /\ trg t = b).
    { intros D T shapes. induction shapes as [|sh shapes IH]; intros i; [exists []; split; [reflexivity|split; [reflexivity|intros [|j] sh t X; discriminate X]]|]. destruct (IH (S i)) as (ts & E & L & F).
      exists (mkTob (mkT (l_nb l :: sh) (rnd i)) D T b :: ts). cbn. unfold leaf_shape_gd in E. rewrite E. split; [reflexivity|]. split; [rewrite L; reflexivity|]. intros [|j] sh' t X Y.
      - injection X as <-. injection Y as <-. rewrite Nat.add_0_r. auto.
      - rewrite <- Nat.add_succ_comm. exact (F j sh' t X Y). }
    destruct (Cl p) as (D & T & _). destruct (X (l_dev l) (l_dty l) (l_shapes l) 0) as (ts & E & L & F).
    apply (red_leaf p rnd b l _ ts); [destruct p; reflexivity..| | |exact L|exact F]; [intros q N; destruct p, q; try congruence; reflexivity|].
    specialize (Ml p). destruct p; cbn in *; rewrite Ml, D, T; exact E.
  - eexists. split; [reflexivity|]. constructor.
  - inversion M as [| |? ? ? Ms]; subst. inversion C as [| |? ? ? Cs]; subst.
    assert (X : exists ms', each (fill_randn p rnd b) ms = (ms', None) /\ Forall2 (redrawn p rnd b) ms ms').
    { clear M C. induction IH as [|m ms Hm _ IHms]; [exists []; split; [reflexivity|constructor]|]. inversion Ms; subst. inversion Cs; subst.
      destruct Hm as (m' & E & R); [assumption..|]. destruct IHms as (ms' & E' & R'); [assumption..|]. exists (m' :: ms'). cbn [each]. rewrite E. fold (each (fill_randn p rnd b)). rewrite E'. split; [reflexivity|constructor; assumption]. }
    destruct X as (ms' & E & R). exists (MComp dv dt ms'). cbn [fill_randn]. rewrite E. split; [reflexivity|constructor; exact R].
Qed.
Print Assumptions C93_randn.

(** *_requires_grad_(b): the flag of all the tensors of the part, nothing else; a manifold
    without points takes no index; a compound refuses. *)
Theorem C93_requires_grad : forall p b lf l, unroll p (MLeaf lf) = map VT l ->
  exists lf', requires_grad_ p (MLeaf lf) b (-1)%Z = (MLeaf lf', None) /\
    unroll p (MLeaf lf') = map VT (map (set_rg b) l) /\ (forall q, q <> p -> get_part q lf' = get_part q lf) /\
    l_shapes lf' = l_shapes lf /\ l_nb lf' = l_nb lf /\ l_dev lf' = l_dev lf /\ l_dty lf' = l_dty lf.
Proof.
  intros p b lf l U. cbn [unroll] in U. unfold cont_unroll in U. cbn [requires_grad_]. rewrite (requires_all b (get_part p lf) l U). eexists. split; [reflexivity|].
  split; [destruct p; reflexivity|]. split; [intros q N; destruct p, q; try congruence; reflexivity|]. destruct p; repeat split; reflexivity.
Qed.
Print Assumptions C93_requires_grad.
Theorem C93_requires_grad_others : forall p b i n dv dv' dt dt' ms,
  requires_grad_ p (MEmpty n dv dt) b (-1)%Z = (MEmpty n dv dt, None) /\
  (i <> (-1)%Z -> requires_grad_ p (MEmpty n dv dt) b i = (MEmpty n dv dt, Some TypeError)) /\
  requires_grad_ p (MComp dv' dt' ms) b i = (MComp dv' dt' ms, Some NotImplementedError).
Proof. intros. split; [reflexivity|]. split; [|reflexivity]. intros N. cbn. apply Z.eqb_neq in N. rewrite N. reflexivity. Qed.
Print Assumptions C93_requires_grad_others.

Lemma ex_consistent : all_leaves leaf_consistent ex_man.
Proof.
  assert (H : forall shapes nb, leaf_consistent (mk_leaf shapes nb)).
  { intros shapes nb p. split; [destruct p; reflexivity|]. split; [destruct p; reflexivity|]. intros x I.
    assert (J : In x (map (fun sh => VT (zeros_tob sh "cpu" F32 false)) (leaf_shape_gd shapes nb))) by (destruct p; exact I). apply in_map_iff in J. destruct J as (sh & <- & _). eexists. split; [reflexivity|]. split; reflexivity. }
  repeat constructor; apply H.
Qed.
Example C93_hypotheses : whole ex_man /\ peopled ex_man /\ all_leaves leaf_made ex_man /\ all_leaves leaf_consistent ex_man.
Proof. split; [exact ex_whole|]. split; [repeat constructor; discriminate|]. split; [exact ex_made|exact ex_consistent]. Qed.

(** ** More about C03 and C07 *)

(** Adding tensors: the values are added, the wider dtype wins, a gradient is needed if one of
    the two needs it. *)
Theorem C03_sums : forall s t, tdev s = tdev t ->
  exists u, py_add (VT s) (VT t) = Ok (VT u) /\ tval u = tadd (tval s) (tval t) /\ tdev u = tdev s /\
    rank (tdty u) = Nat.max (rank (tdty s)) (rank (tdty t)) /\ (trg u = true <-> trg s = true \/ trg t = true).
Proof.
  intros s t D. exists (tob_add s t). cbn. replace (String.eqb (tdev s) (tdev t)) with true by (symmetry; apply String.eqb_eq; exact D).
  repeat (split; [reflexivity|]). split; [destruct (tdty s), (tdty t); reflexivity|]. apply orb_true_iff.
Qed.
Print Assumptions C03_sums.

(** Tensors of two devices are not added, and the manifold stays as it was. *)
Theorem C03_devices_refused : forall p lf v l xs, arg (MLeaf lf) v l -> leaf_made lf -> unroll p (MLeaf lf) = map VT xs -> length xs = length (l_shapes lf) ->
  ~ same_devices xs l -> add p (MLeaf lf) v = (MLeaf lf, Some RuntimeError).
Proof.
  intros p lf v l xs A M U L N. cbn [unroll] in U. unfold cont_unroll in U.
  assert (X : exists w, mapM (fun xy => py_add (fst xy) (snd xy)) (combine (map VT xs) (map VT l)) = w /\ (length xs = length l -> w = Err RuntimeError)).
  { eexists. split; [reflexivity|]. clear -N. revert l N. induction xs as [|x xs IH]; intros [|y l] N E; try discriminate E; [destruct N; constructor|]. cbn.
    destruct (String.eqb (tdev x) (tdev y)) eqn:D; [|reflexivity]. cbn [bind]. apply String.eqb_eq in D. rewrite (IH l); [reflexivity| |injection E; auto]. intros S. apply N. constructor; assumption. }
  destruct X as (w & Ew & W). cbn [add]. unfold cont_add. rewrite (M p). unfold leaf_shape_gd. rewrite map_length.
  inversion A as [? t S| ? ? S L2 _| |]; subst.
  - rewrite S. cbn [Nat.eqb]. cbn [py_iter bind]. rewrite U. cbn [map] in W |- *. rewrite W by (cbn; congruence). destruct p, lf; reflexivity.
  - replace (Nat.eqb (length (l_shapes lf)) 1) with false by (symmetry; apply Nat.eqb_neq; lia). cbn [py_iter]. rewrite U, W by congruence. destruct p, lf; reflexivity.
Qed.
Print Assumptions C03_devices_refused.

(** nb_pts is the number of points of the descriptors, added over the members. *)
Theorem C07_points : forall m, all_leaves (fun lf => leaf_shaped Gd lf /\ 1 <= length (l_shapes lf)) m -> nb_pts m = points m.
Proof. exact points_count. Qed.
Print Assumptions C07_points.

Example C03_C07_hypotheses :
  (tdev (ones [1; 2]) = "cpu"%string /\ ~ same_devices [ones [1; 2]] [set_dev "cuda" (ones [1; 2])]) /\
  all_leaves (fun lf => leaf_shaped Gd lf /\ 1 <= length (l_shapes lf)) ex_man /\ nb_pts ex_man = 6.
Proof.
  split; [split; [reflexivity|]; intros S; inversion S; discriminate|]. split; [|reflexivity].
  assert (H : forall shapes nb, 1 <= length shapes -> leaf_shaped Gd (mk_leaf shapes nb) /\ 1 <= length (l_shapes (mk_leaf shapes nb))).
  { intros shapes nb Hs. split; [|exact Hs]. exists (map (fun sh => zeros_tob sh "cpu" F32 false) (leaf_shape_gd shapes nb)). split; [cbn; rewrite !map_map; reflexivity|]. rewrite map_map. apply map_id. }
  repeat constructor; try apply mk_leaf_made; apply H; cbn; lia.
Qed.

(** One tensor given where several are expected (a manifold with several descriptors, a
    compound): its rows are what is used, in order. *)
Theorem C02_stacked : forall p m t copy rg, shape (tval t) <> [] ->
  (match m with MLeaf lf => length (c_shapes (get_part p lf)) <> 1 /\ rows t <> [] | _ => True end) ->
  fill p m (VT t) copy rg = fill p m (VL (map VT (rows t))) copy rg.
Proof.
  intros p m t copy rg S C. assert (R : py_iter (VT t) = Ok (map VT (rows t))) by (cbn; unfold rows, trow; rewrite map_map; destruct (shape (tval t)); [congruence|reflexivity]).
  destruct m as [lf|n dv dt|dv dt ms]; [|reflexivity|].
  - destruct C as (N & NE). cbn [fill fill_sk]. unfold leaf_fill, cont_fill.
    assert (D : tensors_device (VL (map VT (rows t))) = Ok (Some (tdev t)) /\ tensors_dtype (VL (map VT (rows t))) = Ok (Some (tdty t))).
    { unfold tensors_device, tensors_dtype. rewrite !shared_VL. assert (A : forall s, In s (rows t) -> tdev s = tdev t /\ tdty s = tdty t) by (intros s I; unfold rows in I; apply in_map_iff in I; destruct I as (i & <- & _); auto).
      destruct (rows t) as [|s l]; [congruence|]. destruct (A s (or_introl eq_refl)) as (-> & ->).
      split; (match goal with |- Ok (if ?b then _ else _) = _ => replace b with true; [reflexivity|]; symmetry; apply forallb_forall end); intros x I; destruct (A x (or_intror I)) as (X1 & X2); rewrite ?X1, ?X2; [apply String.eqb_refl|apply dtype_eqb_eq; reflexivity]. }
    destruct D as (-> & ->). cbn [tensors_device tensors_dtype shared_property]. unfold tensors_device, tensors_dtype, shared_property. replace (Nat.eqb (length (c_shapes (get_part p lf))) 1) with false by (symmetry; apply Nat.eqb_neq; exact N). rewrite R. reflexivity.
  - cbn [fill fill_sk]. unfold fill. cbn [fill_sk]. rewrite R. cbn [py_iter]. assert (I : forall fs ms i, index_loop fs ms (VT t) i = index_loop fs ms (VL (map VT (rows t))) i).
    { assert (X : forall i, py_index (VT t) i = py_index (VL (map VT (rows t))) i).
      { intros i. cbn [py_index]. unfold rows. destruct (shape (tval t)) as [|n sh] eqn:E; [congruence|]. cbn [hd]. rewrite map_map. destruct (Nat.ltb_spec i n) as [L|L].
        - rewrite (map_nth_error _ i (seq 0 n) (d := i)); [unfold trow; rewrite E; reflexivity|]. rewrite (nth_error_nth' _ 0) by (rewrite seq_length; exact L). rewrite seq_nth by exact L. reflexivity.
        - replace (nth_error _ i) with (@None pyv); [reflexivity|]. symmetry. apply nth_error_None. rewrite map_length, seq_length. exact L. }
      intros fs. induction fs as [|f fs IH]; intros [|m ms'] i; try reflexivity. cbn [index_loop]. rewrite X. destruct (py_index _ i); [|reflexivity]. destruct (f m a) as [m' [e|]]; [reflexivity|]. rewrite IH. reflexivity. }
    destruct (zip_loop _ _ _) as [ms1 [e|]]; [reflexivity|]. destruct p; [|reflexivity..]. rewrite I. reflexivity.
Qed.
Print Assumptions C02_stacked.
Example C02_stacked_hypotheses : shape (tval (ones [3; 2])) <> [] /\ length (c_shapes (get_part Gd (mk_leaf [[2]; [2]; [2]] 1))) <> 1 /\ rows (ones [3; 2]) <> [].
Proof. repeat split; discriminate. Qed.
