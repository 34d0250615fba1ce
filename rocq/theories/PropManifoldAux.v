(** Final lemmas and concrete manifolds for the property theorems C01 to C07. *)
From Coq Require Import Reals String List Arith Lia Lra.
From Verif Require Import Py Tensor ManifoldModel SpecManifold ManifoldFacts ManifoldState.
Import ListNotations.
Open Scope string_scope.
Open Scope list_scope.
Open Scope nat_scope.

(** A compound of landmarks, of a manifold without points and of a compound of a
    manifold with two descriptors and landmarks. *)
Definition mk_leaf (shapes : list (list nat)) (nb : nat) : leaf :=
  match leaf_init F32 shapes nb VNone VNone VNone None None with
  | Ok l => l
  | Err _ => mkLeaf [] 0 "" F32 None (cont_init [] "" F32) (cont_init [] "" F32) (cont_init [] "" F32)
  end.
Definition ex_man : man :=
  MComp None (Some F32)
    [MLeaf (mk_leaf [[2]] 3); MEmpty 2 None F32;
     MComp None (Some F32) [MLeaf (mk_leaf [[2]; [2; 2]] 2); MLeaf (mk_leaf [[2]] 1)]].
Definition ones (sh : list nat) : tob := mkTob (mkT sh (fun _ => 1%R)) "cpu" F64 true.
Definition ex_flat : list tob := [ones [3; 2]; ones [2; 2]; ones [2; 2; 2]; ones [1; 2]].
Definition ex_arg : pyv :=
  VL [VT (ones [3; 2]); VNone; VL [VL [VT (ones [2; 2]); VT (ones [2; 2; 2])]; VT (ones [1; 2])]].

Lemma mk_leaf_made shapes nb : leaf_made (mk_leaf shapes nb).
Proof. intros [| |]; reflexivity. Qed.

Lemma ex_made : all_leaves leaf_made ex_man.
Proof. repeat constructor; apply mk_leaf_made. Qed.

Lemma ex_man_ok : all_leaves leaf_made ex_man /\ splits ex_man ex_flat /\ len_gd ex_man = 4.
Proof.
  split; [exact ex_made|]. split; [|reflexivity].
  apply uniform_splits; [repeat constructor; cbn; lia|reflexivity|].
  exists "cpu"%string, F64. repeat constructor.
Qed.

Lemma ex_man_full : all_leaves leaf_made ex_man /\ all_leaves (leaf_full Gd) ex_man /\ length (unroll Gd ex_man) = 4.
Proof.
  split; [exact ex_made|]. split; [|reflexivity].
  assert (H : forall shapes nb, 1 <= length shapes -> leaf_full Gd (mk_leaf shapes nb)).
  { intros shapes nb Hs. exists (map (fun sh => zeros_tob sh "cpu" F32 false) (leaf_shape_gd shapes nb)).
    cbn. unfold leaf_shape_gd. rewrite !map_map, !map_length.
    split; [reflexivity|]. split; [reflexivity|]. split; [exact Hs|].
    exists "cpu"%string, F32. apply Forall_forall. intros t Ht. apply in_map_iff in Ht.
    destruct Ht as (sh & <- & _). now split. }
  repeat constructor; apply H; cbn; lia.
Qed.

Lemma ex_arg_ok : all_leaves leaf_made ex_man /\ arg ex_man ex_arg ex_flat.
Proof.
  split; [exact ex_made|].
  change ex_flat with (List.concat [[ones [3; 2]]; []; List.concat [[ones [2; 2]; ones [2; 2; 2]]; [ones [1; 2]]]]).
  constructor. constructor; [now constructor|]. constructor; [constructor|].
  constructor; [|constructor].
  constructor. constructor; [|constructor; [now constructor|constructor]].
  change (VL [VT (ones [2; 2]); VT (ones [2; 2; 2])]) with (VL (map VT [ones [2; 2]; ones [2; 2; 2]])).
  constructor; [reflexivity|cbn; lia|]. exists "cpu"%string, F64. repeat constructor.
Qed.

Lemma ex_add_ok : exists xs,
  all_leaves leaf_made ex_man /\ all_leaves (leaf_filled Gd) ex_man /\ unroll Gd ex_man = map VT xs /\
  arg ex_man ex_arg ex_flat /\ same_devices xs ex_flat.
Proof.
  exists (map (fun sh => zeros_tob sh "cpu" F32 false) [[3; 2]; [2; 2]; [2; 2; 2]; [1; 2]]).
  split; [exact ex_made|]. split.
  - assert (H : forall shapes nb, leaf_filled Gd (mk_leaf shapes nb)).
    { intros shapes nb. exists (map (fun sh => zeros_tob sh "cpu" F32 false) (leaf_shape_gd shapes nb)).
      cbn. unfold leaf_shape_gd. rewrite !map_map, !map_length. now split. }
    repeat constructor; apply H.
  - split; [reflexivity|]. split; [apply ex_arg_ok|]. repeat constructor.
Qed.

Lemma roll_fill_unroll : forall p m l rest,
  p <> Tan -> all_leaves leaf_made m -> splits m l ->
  exists v m', roll p m (map VT l ++ rest) = Ok (v, rest) /\
    fill p m v false None = (m', None) /\ unroll p m' = map VT l /\
    forall q, q <> p -> unroll q m' = unroll q m.
Proof.
  intros p m l rest Hp Hm Hs.
  destruct (roll_splits p m l Hp Hs rest Hm) as (v & Er & Ha).
  destruct (fill_arg p m v l false None Hm Ha) as (m' & Ef & U & _).
  exists v, m'. split; [exact Er|]. split; [exact Ef|]. split.
  - rewrite U. unfold filled. now rewrite map_id.
  - intros q Hq.
    pose proof (step_frame q (OFill p v false None) m) as HF. cbn in HF. rewrite Ef in HF.
    apply rel_same_part. apply HF. congruence.
Qed.

Lemma getter_unroll p m m' : rel same_struct m m' -> all_leaves leaf_made m ->
  all_leaves (fun lf => length (c_tensors (get_part p lf)) = length (l_shapes lf)) m ->
  all_leaves (fun lf => length (c_tensors (get_part p lf)) = length (l_shapes lf)) m' ->
  unroll p m' = unroll p m -> getter p m' = getter p m.
Proof.
  revert m'. induction m as [lf|n dv dt|dv dt ms IH] using man_ind'; intros m' Hr Hm H1 H2 Hu.
  - inversion Hr as [? lf' (E1 & E2 & E3)| |]; subst. cbn in *. unfold cont_unroll in Hu. now rewrite E1, Hu.
  - inversion Hr; subst. reflexivity.
  - inversion Hr as [| |? ? ? ms' F]; subst. inversion Hm as [| |? ? ? Hms]; subst.
    inversion H1 as [| |? ? ? H1s]; subst. inversion H2 as [| |? ? ? H2s]; subst.
    cbn [unroll getter] in *. enough (mapM (getter p) ms' = mapM (getter p) ms) as -> by reflexivity.
    clear Hr Hm H1 H2. revert ms' F H2s Hu.
    induction IH as [|m ms Hm HI IHms]; intros ms' F H2s Hu; inversion F as [|? m' ? ms'' F1 F2]; subst; [reflexivity|].
    inversion Hms; subst. inversion H1s; subst. inversion H2s as [|? ? A B]; subst. cbn in Hu.
    assert (L : forall a, all_leaves (fun lf => length (c_tensors (get_part p lf)) = length (l_shapes lf)) a ->
      length (unroll p a) = len_gd a).
    { clear. induction a as [lf|n dv dt|dv dt ms IH] using man_ind'; intros H.
      - inversion H; subst. cbn. assumption.
      - reflexivity.
      - inversion H as [| |? ? ? Hms]; subst. cbn. clear H. induction IH; [reflexivity|].
        inversion Hms; subst. cbn. rewrite app_length. f_equal; auto. }
    assert (LG : forall a b, rel same_struct a b -> len_gd b = len_gd a).
    { clear. induction a as [lf|n dv dt|dv dt ms IH] using man_ind'; intros b H.
      - inversion H as [? lf' (E1 & E2 & E3)| |]; subst. cbn. now rewrite E1.
      - inversion H; subst. reflexivity.
      - inversion H as [| |? ? ? ms' F]; subst. cbn. clear H. revert ms' F.
        induction IH as [|m ms Hm HI IHms]; intros ms' F; inversion F; subst; [reflexivity|].
        cbn. f_equal; [now apply Hm|]. now apply IHms. }
    destruct (app_split _ _ _ _ Hu) as [U1 U2].
    { rewrite !L by assumption. now apply LG. }
    cbn. rewrite (Hm m') by assumption. fold (mapM (getter p)). rewrite (IHms ltac:(assumption) ltac:(assumption) ms'') by assumption. reflexivity.
Qed.

Lemma fill_lengths p m v l m' copy rg : all_leaves leaf_made m -> arg m v l ->
  fill p m v copy rg = (m', None) ->
  all_leaves (fun lf => length (c_tensors (get_part p lf)) = length (l_shapes lf)) m'.
Proof.
  intros Hm Ha. unfold fill.
  enough (H : forall sk v l, arg sk v l -> forall m, rel same_struct sk m -> all_leaves leaf_made m ->
    all_leaves (fun lf => length (c_tensors (get_part p lf)) = length (l_shapes lf))
      (fst (fill_sk p copy rg sk m v))).
  { intros E. specialize (H m v l Ha m (rel_refl _ _ same_struct_refl) Hm). now rewrite E in H. }
  clear. 
  set (P := all_leaves (fun lf => length (c_tensors (get_part p lf)) = length (l_shapes lf))).
  apply (arg_ind2
    (fun sk v l => forall m, rel same_struct sk m -> all_leaves leaf_made m -> P (fst (fill_sk p copy rg sk m v)))
    (fun sks vs ls => forall ms, Forall2 (rel same_struct) sks ms -> Forall (all_leaves leaf_made) ms ->
       Forall P (fst (zip_loop (map (fill_sk p copy rg) sks) ms vs)))).
  - intros lf t E m Hr Hm. inversion Hr as [? l' (H1 & H2 & H3)| |]; subst. inversion Hm as [? Hl| |]; subst.
    cbn. unfold leaf_fill. rewrite cont_fill_one by (rewrite leaf_made_length; congruence). cbn.
    constructor. rewrite get_part_mdev, get_set_same. cbn. rewrite shapes_set. congruence.
  - intros lf l E E2 U m Hr Hm. inversion Hr as [? l' (H1 & H2 & H3)| |]; subst.
    cbn. unfold leaf_fill.
    destruct (cont_fill_list (get_part p l') l copy rg) as (dv & dt & Ef & _); [lia|exact U|].
    rewrite Ef. cbn. constructor. rewrite get_part_mdev, get_set_same. cbn.
    rewrite shapes_set, !map_length. congruence.
  - intros n dv dt v m Hr Hm. inversion Hr; subst. constructor.
  - intros dv dt sks vs ls Ha IH m Hr Hm. inversion Hr as [| |? ? ? ms F]; subst.
    inversion Hm as [| |? ? ? Hms]; subst. cbn [fill_sk py_iter].
    assert (Ha' : arg (MComp dv dt sks) (VL vs) (List.concat ls)) by now constructor.
    assert (EZ : forall ms, Forall2 (rel same_struct) sks ms -> Forall (all_leaves leaf_made) ms ->
       snd (zip_loop (map (fill_sk p copy rg) sks) ms vs) = None).
    { clear -Ha. revert Ha. generalize (length sks). intros _ Ha. induction Ha as [|sk sks v vs l ls A B IH]; intros ms F Hm.
      - inversion F; subst. reflexivity.
      - inversion F as [|? m ? ms' F1 F2]; subst. inversion Hm; subst. cbn.
        destruct (fill_sk_arg p copy rg sk v l A m F1) as (m' & E & _); [assumption|]. rewrite E.
        specialize (IH ms' F2). destruct (zip_loop _ ms' vs). cbn in *. auto. }
    pose proof (IH ms F Hms) as H1. pose proof (EZ ms F Hms) as N1.
    assert (R1 : Forall2 (rel same_struct) ms (fst (zip_loop (map (fill_sk p copy rg) sks) ms vs))).
    { apply (zip_loop_rel same_struct same_struct_refl). intros f m w Hf.
      apply in_map_iff in Hf. destruct Hf as (s & <- & _). apply fill_struct. }
    destruct (zip_loop (map (fill_sk p copy rg) sks) ms vs) as [ms1 [e|]]; [discriminate N1|]. cbn in H1, R1.
    destruct p; try (now constructor).
    pose proof (index_zip (map (fill_sk Gd copy rg) sks) ms1 [] vs) as EI. cbn [app length] in EI.
    rewrite EI by (rewrite map_length; eapply args_length; eauto).
    assert (M1 : Forall (all_leaves leaf_made) ms1).
    { clear -R1 Hms. revert Hms. induction R1; intros Hms; inversion Hms; subst; constructor; auto.
      eapply rel_made; eauto. }
    assert (F1 : Forall2 (rel same_struct) sks ms1)
      by (eapply Forall2_rel_trans; [exact same_struct_trans|exact F|exact R1]).
    pose proof (IH ms1 F1 M1) as H2. destruct (zip_loop _ ms1 vs) as [ms2 e]. cbn in *. now constructor.
  - intros ms F _. inversion F; subst. constructor.
  - intros sk sks v vs l ls A IHm B IHms ms F Hm. inversion F as [|? m ? ms' F1 F2]; subst. inversion Hm; subst.
    cbn. pose proof (IHm m F1) as P1.
    destruct (fill_sk_arg p copy rg sk v l A m F1) as (m' & E & _); [assumption|]. rewrite E in *. cbn in P1.
    pose proof (IHms ms' F2) as P2. destruct (zip_loop _ ms' vs) as [ms'' e]. cbn in *. constructor; auto.
Qed.

Lemma full_lengths p m : all_leaves (leaf_full p) m ->
  all_leaves (fun lf => length (c_tensors (get_part p lf)) = length (l_shapes lf)) m.
Proof.
  induction m as [lf|n dv dt|dv dt ms IH] using man_ind'; intros H.
  - inversion H as [? (l & E & E1 & _)| |]; subst. constructor. now rewrite E, map_length.
  - constructor.
  - inversion H as [| |? ? ? Hms]; subst. constructor. clear H. induction IH; constructor; inversion Hms; auto.
Qed.

Lemma roll_unroll_identity : forall p m,
  p <> Tan -> all_leaves leaf_made m -> all_leaves (leaf_full p) m ->
  exists v m', roll p m (unroll p m) = Ok (v, []) /\ fill p m v false None = (m', None) /\
    forall q, unroll q m' = unroll q m /\ getter q m' = getter q m.
Proof.
  intros p m Hp Hm Hf. destruct (full_splits m p Hf) as (l & El & Hs).
  destruct (roll_splits p m l Hp Hs [] Hm) as (v & Er & Ha). rewrite app_nil_r in Er.
  destruct (fill_arg p m v l false None Hm Ha) as (m' & Ef & U & Hst & _).
  exists v, m'. rewrite El. split; [exact Er|]. split; [exact Ef|].
  assert (Up : unroll p m' = unroll p m) by (rewrite U, El; unfold filled; now rewrite map_id).
  intros q. assert (Hq : q = p \/ p <> q) by (destruct p, q; (now left) || (right; discriminate)).
  destruct Hq as [->|Hq].
  - split; [exact Up|]. apply getter_unroll; auto; [now apply full_lengths|].
    eapply fill_lengths; eauto.
  - pose proof (step_frame q (OFill p v false None) m) as HF. cbn in HF. rewrite Ef in HF.
    apply rel_same_part. apply HF. exact Hq.
Qed.

Lemma fill_sets_part : forall p m v l copy rg,
  all_leaves leaf_made m -> arg m v l ->
  exists m', fill p m v copy rg = (m', None) /\
    unroll p m' = map (fun t => VT (if copy then match rg with Some b => set_rg b t | None => t end else t)) l /\
    (copy = false -> no_empty m -> getter p m' = Ok v) /\
    forall q, q <> p -> unroll q m' = unroll q m /\ getter q m' = getter q m.
Proof.
  intros p m v l copy rg Hm Ha. destruct (fill_arg p m v l copy rg Hm Ha) as (m' & Ef & U & _ & G).
  exists m'. split; [exact Ef|]. split; [rewrite U, map_map; reflexivity|]. split; [exact G|].
  intros q Hq. pose proof (step_frame q (OFill p v copy rg) m) as HF. cbn in HF. rewrite Ef in HF.
  apply rel_same_part. apply HF. congruence.
Qed.

Lemma add_neg_shapes : forall xs l, length xs = length l ->
  map (fun t => shape (tval t)) (add_all xs l) = map (fun t => shape (tval t)) xs /\
  map (fun t => shape (tval t)) (neg_all xs) = map (fun t => shape (tval t)) xs.
Proof.
  intros xs l H. split; [now apply add_all_shapes|]. unfold neg_all. rewrite map_map. reflexivity.
Qed.

Lemma truthful_refuted :
  (exists lf t lf', leaf_init F32 [[2]] 1 VNone VNone VNone None None = Ok lf /\
     step (MLeaf lf) (OFill Gd (VT t) false None) = (MLeaf lf', None) /\
     c_tensors (l_gd lf') = [VT t] /\
     man_dtype (MLeaf lf') = Some F32 /\ tdty t = F64 /\
     man_device (MLeaf lf') = Ok (Some "cpu"%string) /\ tdev t = "cuda:0"%string) /\
  (exists lf c c', leaf_init F32 [[2]] 1 VNone VNone VNone None None = Ok lf /\
     comp_init [MLeaf lf] = Ok c /\ step c (OTo (ToDtype F64)) = (c', None) /\
     man_dtype c' = Some F32 /\ Forall (fun x => exists t, x = VT t /\ tdty t = F64) (unroll Gd c')).
Proof.
  split.
  - eexists. exists (zeros_tob [1; 2] "cuda:0" F64 false). eexists. repeat split; reflexivity.
  - do 3 eexists. split; [reflexivity|]. split; [reflexivity|]. split; [reflexivity|].
    split; [reflexivity|]. repeat constructor. eexists. split; reflexivity.
Qed.

Lemma truthful_history : forall ddt shapes nb dv dt lf ops,
  leaf_init ddt shapes nb VNone VNone VNone dv dt = Ok lf -> matching_history ops lf ->
  exists lf', exec ops (MLeaf lf) = MLeaf lf' /\ leaf_truthful lf'.
Proof.
  intros ddt shapes nb dv dt lf ops Hi Hm. apply fresh_consistent in Hi.
  destruct (history_consistent ops lf Hi Hm) as (lf' & E & H). exists lf'. split; [exact E|].
  now apply consistent_truthful.
Qed.

Lemma ex_matching : exists lf,
  leaf_init F32 [[2]; [2; 2]] 3 VNone VNone VNone None None = Ok lf /\
  matching_history [OZeros Gd true; OTo (ToDtype F64);
                    OFill Gd (VL [VT (zeros_tob [3; 2] "cpu" F64 false); VT (zeros_tob [3; 2; 2] "cpu" F64 false)]) true (Some true);
                    ONegate Gd; ORequires Gd false (-1)] lf.
Proof.
  eexists. split; [reflexivity|]. cbn. repeat split.
  exists [zeros_tob [3; 2] "cpu" F64 false; zeros_tob [3; 2; 2] "cpu" F64 false].
  split; [now left|]. repeat constructor.
Qed.

Lemma select_one_refuted :
  (exists lf, leaf_init F32 [[2]; [2; 2]] 3 VNone VNone VNone None None = Ok lf /\
     requires_grad_ Gd (MLeaf lf) true 0 = (MLeaf lf, Some TypeError)) /\
  (forall p lf v copy rg lf' (i : nat) t flag,
     fill p (MLeaf lf) v copy rg = (MLeaf lf', None) ->
     nth_error (c_tensors (get_part p lf')) i = Some (VT t) ->
     requires_grad_ p (MLeaf lf') flag (Z.of_nat i) = (MLeaf lf', Some TypeError)).
Proof.
  split; [eexists; split; reflexivity|].
  intros p lf v copy rg lf' i t flag Hf Hn. unfold fill, fill_sk, leaf_fill in Hf.
  destruct (cont_fill (get_part p lf) v copy rg) as [c [e|]] eqn:E; [discriminate|].
  injection Hf as <-. cbn. apply fill_kind in E.
  rewrite get_part_mdev, get_set_same in Hn |- *.
  rewrite (requires_tuple c flag i t E Hn). do 2 f_equal.
  destruct p; destruct lf; reflexivity.
Qed.

Lemma nth_error_replace {A} (l : list A) i j (y : A) : i < length l ->
  nth_error (firstn i l ++ y :: skipn (S i) l) j = if Nat.eqb j i then Some y else nth_error l j.
Proof.
  revert i j. induction l as [|x l IH]; intros i j H; cbn in H; [lia|].
  destruct i as [|i]; destruct j as [|j]; try reflexivity.
  cbn [firstn skipn app nth_error]. rewrite IH by lia. reflexivity.
Qed.

Lemma select_one_ok : forall p lf o lf' (i : nat) t flag,
  (o = ORequires p flag (-1) \/ (exists d, o = OTo (ToStr d)) \/ (exists d, o = OTo (ToDtype d))) ->
  step (MLeaf lf) o = (MLeaf lf', None) ->
  nth_error (c_tensors (get_part p lf')) i = Some (VT t) ->
  exists lf'', requires_grad_ p (MLeaf lf') flag (Z.of_nat i) = (MLeaf lf'', None) /\
    nth_error (c_tensors (get_part p lf'')) i = Some (VT (set_rg flag t)) /\
    (forall j, j <> i -> nth_error (c_tensors (get_part p lf'')) j = nth_error (c_tensors (get_part p lf')) j) /\
    (forall q, q <> p -> get_part q lf'' = get_part q lf').
Proof.
  intros p lf o lf' i t flag Ho Hs Hn.
  assert (Hk : c_kind (get_part p lf') = KList).
  { assert (HA : forall f lf0 lf1, (forall c c', f c = (c', None) -> c_kind c' = KList) ->
        leaf_all f lf0 = (lf1, None) -> c_kind (get_part p lf1) = KList).
    { intros f lf0 lf1 Hf. unfold leaf_all.
      destruct (f (l_gd lf0)) as [g [e|]] eqn:E1; [discriminate|].
      destruct (f (l_tan lf0)) as [g2 [e|]] eqn:E2; [discriminate|].
      destruct (f (l_cotan lf0)) as [g3 [e|]] eqn:E3; [discriminate|].
      intros H. injection H as <-. destruct p; cbn; eauto. }
    destruct Ho as [->|[(d & ->)|(d & ->)]]; cbn in Hs.
    - change (cont_requires_grad flag (-1) (get_part p lf)) with
        (cont_map KList (set_rg flag) (get_part p lf)) in Hs.
      destruct (cont_map KList (set_rg flag) (get_part p lf)) as [c e] eqn:E.
      injection Hs as <- ->. rewrite get_set_same. eapply map_kind; exact E.
    - destruct (leaf_set_device d lf) as [l1 e] eqn:E. injection Hs as <- ->.
      unfold leaf_set_device in E. eapply HA; [|exact E]. intros c c' H. unfold cont_to_device in H.
      eapply map_kind; exact H.
    - destruct (leaf_set_dtype d lf) as [l1 e] eqn:E. injection Hs as <- ->.
      unfold leaf_set_dtype in E. eapply HA; [|exact E]. intros c c' H. unfold cont_to_dtype in H.
      eapply map_kind; exact H. }
  cbn. rewrite (requires_list _ flag i t Hk Hn). eexists. split; [reflexivity|].
  rewrite get_set_same. cbn [c_tensors].
  assert (Hi : i < length (c_tensors (get_part p lf'))) by (apply nth_error_Some; congruence).
  split; [|split].
  - rewrite nth_error_replace by exact Hi. now rewrite Nat.eqb_refl.
  - intros j Hj. rewrite nth_error_replace by exact Hi. destruct (Nat.eqb_spec j i); [lia|reflexivity].
  - intros q Hq. apply get_set_other. congruence.
Qed.

Definition one_tob (sh : list nat) : tob := mkTob (mkT sh (fun _ => 1%R)) "cpu" F32 false.

Lemma atomic_refuted :
  (exists lf v m' m'', leaf_init F32 [[2]; [2]] 1 VNone VNone VNone None None = Ok lf /\
     step (MLeaf lf) (OFill Gd v false None) = (m', Some RuntimeError) /\
     step m' (OZeros Gd false) = (m'', None) /\
     Forall (fun x => exists t, x = VT t /\ tdev t = "cpu"%string) (unroll Gd (MLeaf lf)) /\
     Forall (fun x => exists t, x = VT t /\ tdev t = "cuda:0"%string) (unroll Gd m'')) /\
  (exists lf c v c', leaf_init F32 [[2]] 1 VNone VNone VNone None None = Ok lf /\
     comp_init [MLeaf lf; MLeaf lf] = Ok c /\
     step c (OFill Gd v false None) = (c', Some IndexError) /\
     (exists t, nth_error (unroll Gd c) 0 = Some (VT t) /\ get (tval t) [0; 0] = 0%R) /\
     (exists t, nth_error (unroll Gd c') 0 = Some (VT t) /\ get (tval t) [0; 0] = 1%R)).
Proof.
  split.
  - eexists. exists (VL [VT (zeros_tob [1; 2] "cuda:0" F64 false); VT (zeros_tob [1; 2] "cuda:0" F32 false)]).
    do 2 eexists. split; [reflexivity|]. split; [reflexivity|]. split; [reflexivity|].
    split; repeat constructor; eexists; split; reflexivity.
  - do 2 eexists. exists (VL [VT (one_tob [1; 2])]). eexists.
    split; [reflexivity|]. split; [reflexivity|]. split; [reflexivity|].
    split; eexists; split; reflexivity.
Qed.

Lemma set_part_id p lf : set_part p (get_part p lf) lf = lf.
Proof. destruct p; destruct lf; reflexivity. Qed.

Lemma failing_fill : forall p lf v copy rg m' e,
  step (MLeaf lf) (OFill p v copy rg) = (m', Some e) ->
  (forall q, unroll q m' = unroll q (MLeaf lf) /\ getter q m' = getter q (MLeaf lf)) /\
  man_device m' = man_device (MLeaf lf) /\ man_dtype m' = man_dtype (MLeaf lf) /\
  ((forall d, tensors_device v <> Ok (Some d)) -> m' = MLeaf lf).
Proof.
  intros p lf v copy rg m' e. cbn. unfold fill, fill_sk, leaf_fill.
  destruct (cont_fill (get_part p lf) v copy rg) as [c [e1|]] eqn:E; [|discriminate].
  intros H. injection H as <- _.
  destruct (fill_error_tensors _ _ _ _ _ _ E) as (T & _ & _).
  split; [|split; [|split]].
  - intros q. cbn. unfold cont_unroll. rewrite shapes_set.
    assert (Hq : c_tensors (get_part q (set_part p c lf)) = c_tensors (get_part q lf)).
    { assert (Hpq : q = p \/ p <> q) by (destruct p, q; (now left) || (right; discriminate)).
      destruct Hpq as [->|Hpq]; [now rewrite get_set_same|now rewrite get_set_other]. }
    rewrite Hq. now split.
  - destruct p; reflexivity.
  - destruct p; reflexivity.
  - intros Hd. destruct (fill_device_error (get_part p lf) v copy rg Hd) as (e2 & E2).
    rewrite E in E2. injection E2 as -> _. now rewrite set_part_id.
Qed.

Lemma sizes_refuted :
  (forall n dv dt, len_gd (MEmpty n dv dt) = 0 /\ length (unroll Gd (MEmpty n dv dt)) = 0 /\
     length (numel_gd (MEmpty n dv dt)) = 1) /\
  (exists lf c, leaf_init F32 [[2]] 3 VNone VNone VNone None None = Ok lf /\
     comp_init [MEmpty 2 (Some "cpu"%string) F32; MLeaf lf] = Ok c /\
     len_gd c = 1 /\ numel_gd c = [0; 6]) /\
  (exists lf m' t, leaf_init F32 [[2]] 3 VNone VNone VNone None None = Ok lf /\
     step (MLeaf lf) (OFill Gd (VT t) false None) = (m', None) /\
     unroll Gd m' = [VT t] /\ numel_gd m' = [6] /\ prod (shape (tval t)) = 4).
Proof.
  split; [now repeat split|]. split.
  - do 2 eexists. repeat split; reflexivity.
  - do 2 eexists. exists (one_tob [2; 2]). repeat split; reflexivity.
Qed.

Lemma ex_shaped : exists lf, leaf_init F32 [[2]; [2; 2]] 3 VNone VNone VNone None None = Ok lf /\
  let m := MComp None None [MLeaf lf; MComp None None [MLeaf lf]] in
  all_leaves (leaf_shaped Gd) m /\ no_empty m /\ len_gd m = 4.
Proof.
  eexists. split; [reflexivity|]. cbn zeta.
  assert (H : leaf_shaped Gd (mk_leaf [[2]; [2; 2]] 3)).
  { exists [zeros_tob [3; 2] "cpu" F32 false; zeros_tob [3; 2; 2] "cpu" F32 false]. now split. }
  split; [repeat constructor; exact H|]. split; [repeat constructor|reflexivity].
Qed.
