(** Lemmas about manifold storage. *)
From Coq Require Import Reals String List Arith Bool Lia FunctionalExtensionality.
From Verif Require Import Py Tensor ManifoldModel SpecManifold.
Import ListNotations.
Open Scope list_scope.
Open Scope nat_scope.

Lemma man_ind' (P : man -> Prop) :
  (forall l, P (MLeaf l)) -> (forall n dv dt, P (MEmpty n dv dt)) ->
  (forall dv dt ms, Forall P ms -> P (MComp dv dt ms)) -> forall m, P m.
Proof.
  intros Hl He Hc. fix IH 1. intros [l|n dv dt|dv dt ms]; [apply Hl|apply He|].
  apply Hc. induction ms as [|m ms IHms]; constructor; [apply IH|exact IHms].
Qed.

Scheme arg_ind2 := Minimality for arg Sort Prop with args_ind2 := Minimality for args Sort Prop.
Combined Scheme arg_args_ind from arg_ind2, args_ind2.
Scheme splits_ind2 := Minimality for splits Sort Prop
  with splits_all_ind2 := Minimality for splits_all Sort Prop.
Combined Scheme splits_splits_ind from splits_ind2, splits_all_ind2.

(** ** mapM *)
Lemma mapM_ok {A B} (f : A -> res B) (g : A -> B) l :
  (forall x, In x l -> f x = Ok (g x)) -> mapM f l = Ok (map g l).
Proof.
  induction l as [|a l IH]; intros H; [reflexivity|].
  cbn. rewrite (H a) by now left. cbn. rewrite IH by (intros; apply H; now right). reflexivity.
Qed.

Lemma mapM_map {A B C} (h : A -> B) (f : B -> res C) l : mapM f (map h l) = mapM (fun x => f (h x)) l.
Proof. induction l as [|a l IH]; [reflexivity|]. cbn. now rewrite IH. Qed.

Lemma mapM_length {A B} (f : A -> res B) l l' : mapM f l = Ok l' -> length l' = length l.
Proof.
  revert l'. induction l as [|a l IH]; intros l' H; cbn in H; [now injection H as <-|].
  destruct (f a) as [b|e]; [cbn in H|discriminate].
  destruct (mapM f l) as [bs|e]; [cbn in H|discriminate].
  injection H as <-. cbn. now rewrite (IH bs).
Qed.

Lemma mapM_ext_Forall {A B} (f g : A -> res B) l :
  Forall (fun x => f x = g x) l -> mapM f l = mapM g l.
Proof. induction 1 as [|x l Hx H IH]; [reflexivity|]. cbn. now rewrite Hx, IH. Qed.

(** ** parts *)
Lemma get_set_same p c l : get_part p (set_part p c l) = c.
Proof. now destruct p. Qed.
Lemma get_set_other p q c l : p <> q -> get_part q (set_part p c l) = get_part q l.
Proof. destruct p, q; intros H; try reflexivity; now destruct H. Qed.
Lemma get_part_mdev q d l : get_part q (set_mdev d l) = get_part q l.
Proof. now destruct q. Qed.
Lemma shapes_set p c l : l_shapes (set_part p c l) = l_shapes l.
Proof. now destruct p. Qed.
Lemma nb_set p c l : l_nb (set_part p c l) = l_nb l.
Proof. now destruct p. Qed.

(** ** shared properties *)
Lemma uniform_nil : uniform [].
Proof. exists ""%string, F32. constructor. Qed.

Lemma dtype_eqb_eq a b : dtype_eqb a b = true <-> a = b.
Proof. destruct a, b; cbn; split; congruence. Qed.

Lemma shared_VL {P} (eqb : P -> P -> bool) prop (l : list tob) :
  shared_property eqb prop (VL (map VT l)) =
  Ok (match l with
      | [] => None
      | t :: l' => if forallb (fun s => eqb (prop s) (prop t)) l' then Some (prop t) else None
      end).
Proof.
  unfold shared_property. rewrite mapM_map.
  rewrite (mapM_ok _ (fun t => [prop t])) by reflexivity. cbn.
  assert (E : forall l, List.concat (map (fun t => [prop t]) l) = map prop l)
    by (clear; intros l; induction l as [|a l IH]; [reflexivity|cbn; now rewrite IH]).
  rewrite E. destruct l as [|t l]; [reflexivity|]. cbn.
  assert (F : forallb (fun q => eqb q (prop t)) (map prop l) = forallb (fun s => eqb (prop s) (prop t)) l)
    by (clear; induction l as [|a l IH]; [reflexivity|cbn; now rewrite IH]).
  rewrite F. destruct (forallb _ l); reflexivity.
Qed.

Lemma uniform_device l t : uniform (t :: l) ->
  tensors_device (VL (map VT (t :: l))) = Ok (Some (tdev t)) /\
  tensors_dtype (VL (map VT (t :: l))) = Ok (Some (tdty t)).
Proof.
  intros (dv & dt & H). inversion H as [|? ? [Hd Ht] H' Eq]; subst.
  unfold tensors_device, tensors_dtype. rewrite !shared_VL.
  split.
  - assert (E : forallb (fun s => String.eqb (tdev s) (tdev t)) l = true).
    { apply forallb_forall. intros s Hs. rewrite Forall_forall in H'.
      apply String.eqb_eq. apply (H' s Hs). }
    now rewrite E.
  - assert (E : forallb (fun s => dtype_eqb (tdty s) (tdty t)) l = true).
    { apply forallb_forall. intros s Hs. rewrite Forall_forall in H'.
      apply dtype_eqb_eq. apply (H' s Hs). }
    now rewrite E.
Qed.

(** What filling does to the tensors. *)
Definition filled (copy : bool) (rg : option bool) (t : tob) : tob :=
  if copy then match rg with Some b => set_rg b t | None => t end else t.

Lemma filled_elems (copy : bool) (rg : option bool) (l : list tob) :
  (if copy then
     match rg with
     | Some b => mapM (on_tensor (set_rg b)) (map VT l)
     | None => mapM (on_tensor (fun t => t)) (map VT l)
     end
   else Ok (map VT l)) = Ok (map VT (map (filled copy rg) l)).
Proof.
  unfold filled. destruct copy; [destruct rg as [b|]|].
  - rewrite mapM_map, (mapM_ok _ (fun t => VT (set_rg b t))) by reflexivity. now rewrite map_map.
  - rewrite mapM_map, (mapM_ok _ VT) by reflexivity. now rewrite map_id.
  - now rewrite map_id.
Qed.

Lemma cont_fill_list c l copy rg : 1 <= length l -> uniform l ->
  exists dv dt, cont_fill c (VL (map VT l)) copy rg =
    (mkCont (c_shapes c) KTuple (map VT (map (filled copy rg) l)) dv dt, None) /\
    Forall (fun t => tdev t = dv /\ tdty t = dt) l.
Proof.
  destruct l as [|t l]; cbn [length]; [lia|]. intros _ H.
  destruct (uniform_device l t H) as [Hd Ht].
  unfold cont_fill. rewrite Hd, Ht. cbn [py_iter].
  rewrite filled_elems. exists (tdev t), (tdty t). split; [reflexivity|].
  destruct H as (dv & dt & H). inversion H as [|? ? [H1 H2] H']; subst. exact H.
Qed.

Lemma cont_fill_one c t copy rg : length (c_shapes c) = 1 ->
  cont_fill c (VT t) copy rg =
    (mkCont (c_shapes c) KTuple [VT (filled copy rg t)] (tdev t) (tdty t), None).
Proof.
  intros H. unfold cont_fill. cbn. rewrite H. cbn.
  now destruct copy; [destruct rg|].
Qed.

(** ** Related trees *)
Inductive rel (R : leaf -> leaf -> Prop) : man -> man -> Prop :=
| rel_leaf l l' : R l l' -> rel R (MLeaf l) (MLeaf l')
| rel_empty n dv dt : rel R (MEmpty n dv dt) (MEmpty n dv dt)
| rel_comp dv dt ms ms' : Forall2 (rel R) ms ms' -> rel R (MComp dv dt ms) (MComp dv dt ms').

Lemma rel_refl (R : leaf -> leaf -> Prop) m : (forall l, R l l) -> rel R m m.
Proof.
  intros H. induction m as [l|n dv dt|dv dt ms IH] using man_ind'; constructor; [apply H|].
  induction IH; constructor; assumption.
Qed.

Lemma Forall2_refl_in {A} (R : A -> A -> Prop) l : Forall (fun x => R x x) l -> Forall2 R l l.
Proof. induction 1; constructor; assumption. Qed.

Lemma rel_trans (R : leaf -> leaf -> Prop) :
  (forall a b c, R a b -> R b c -> R a c) -> forall m m' m'', rel R m m' -> rel R m' m'' -> rel R m m''.
Proof.
  intros HR m. induction m as [l|n dv dt|dv dt ms IH] using man_ind'; intros m' m'' H1 H2.
  - inversion H1; subst. inversion H2; subst. constructor. eauto.
  - inversion H1; subst. inversion H2; subst. constructor.
  - inversion H1 as [| |? ? ? ms' F1]; subst. inversion H2 as [| |? ? ? ms'' F2]; subst.
    constructor. clear H1 H2. revert ms' ms'' F1 F2. induction IH as [|m ms Hm _ IHms].
    + intros ms' ms'' F1 F2. inversion F1; subst. inversion F2; subst. constructor.
    + intros ms' ms'' F1 F2. inversion F1; subst. inversion F2; subst. constructor; eauto.
Qed.

Section Loops.
  Variable R : leaf -> leaf -> Prop.
  Hypothesis Rrefl : forall l, R l l.
  Hypothesis Rtrans : forall a b c, R a b -> R b c -> R a c.

  Lemma Forall2_rel_refl ms : Forall2 (rel R) ms ms.
  Proof. apply Forall2_refl_in, Forall_forall. intros m _. now apply rel_refl. Qed.

  Lemma Forall2_rel_trans a b c : Forall2 (rel R) a b -> Forall2 (rel R) b c -> Forall2 (rel R) a c.
  Proof.
    intros H. revert c. induction H; intros c Hc; inversion Hc; subst; constructor; auto.
    eapply rel_trans; eauto.
  Qed.

  Lemma zip_loop_rel fs ms vs :
    (forall f m v, In f fs -> rel R m (fst (f m v))) -> Forall2 (rel R) ms (fst (zip_loop fs ms vs)).
  Proof.
    revert ms vs. induction fs as [|f fs IH]; intros ms vs H; [apply Forall2_rel_refl|].
    destruct ms as [|m ms]; [constructor|]. destruct vs as [|v vs]; [apply Forall2_rel_refl|].
    cbn. pose proof (H f m v (or_introl eq_refl)) as Hf.
    destruct (f m v) as [m' [e|]]; cbn in *.
    - constructor; [exact Hf|apply Forall2_rel_refl].
    - specialize (IH ms vs (fun g n w Hg => H g n w (or_intror Hg))).
      destruct (zip_loop fs ms vs) as [ms'' e]. cbn in *. now constructor.
  Qed.

  Lemma index_loop_rel fs ms v i :
    (forall f m w, In f fs -> rel R m (fst (f m w))) -> Forall2 (rel R) ms (fst (index_loop fs ms v i)).
  Proof.
    revert ms i. induction fs as [|f fs IH]; intros ms i H; [apply Forall2_rel_refl|].
    destruct ms as [|m ms]; [constructor|].
    cbn. destruct (py_index v i) as [x|e]; [|apply Forall2_rel_refl].
    pose proof (H f m x (or_introl eq_refl)) as Hf.
    destruct (f m x) as [m' [e|]]; cbn in *.
    - constructor; [exact Hf|apply Forall2_rel_refl].
    - specialize (IH ms (S i) (fun g n w Hg => H g n w (or_intror Hg))).
      destruct (index_loop fs ms v (S i)) as [ms'' e]. cbn in *. now constructor.
  Qed.

  Lemma each_rel f ms : Forall (fun m => rel R m (fst (f m))) ms -> Forall2 (rel R) ms (fst (each f ms)).
  Proof.
    induction 1 as [|m ms Hm H IH]; [constructor|].
    cbn. destruct (f m) as [m' [e|]]; cbn in *.
    - constructor; [exact Hm|apply Forall2_rel_refl].
    - fold (each f). destruct (each f ms) as [ms'' e]. cbn in *. now constructor.
  Qed.

  Lemma fill_sk_rel p copy rg :
    (forall l v, R l (fst (leaf_fill p l v copy rg))) ->
    forall sk m v, rel R m (fst (fill_sk p copy rg sk m v)).
  Proof.
    intros HR sk. induction sk as [l|n dv dt|dv dt sks IH] using man_ind'; intros m v.
    - destruct m as [l'|n dv dt|dv dt ms]; cbn.
      + specialize (HR l' v). destruct (leaf_fill p l' v copy rg) as [l'' e]. now constructor.
      + constructor.
      + constructor. apply Forall2_rel_refl.
    - destruct m as [l'|n' dv' dt'|dv' dt' ms]; cbn; apply rel_refl; exact Rrefl.
    - destruct m as [l'|n' dv' dt'|dv' dt' ms]; cbn; [apply rel_refl; exact Rrefl|constructor|].
      assert (HF : forall f m w, In f (map (fill_sk p copy rg) sks) -> rel R m (fst (f m w))).
      { intros f m w Hf. apply in_map_iff in Hf. destruct Hf as (s & <- & Hs).
        rewrite Forall_forall in IH. apply IH, Hs. }
      destruct (py_iter v) as [vs|e]; [|apply rel_refl; exact Rrefl].
      pose proof (zip_loop_rel _ ms vs HF) as H1.
      destruct (zip_loop (map (fill_sk p copy rg) sks) ms vs) as [ms1 [e|]]; cbn in *.
      + now constructor.
      + destruct p; try (now constructor).
        pose proof (index_loop_rel _ ms1 v 0 HF) as H2.
        destruct (index_loop _ ms1 v 0) as [ms2 e]. cbn in *.
        constructor. eapply Forall2_rel_trans; eauto.
  Qed.

  Lemma add_rel p :
    (forall l v, R l (set_part p (fst (cont_add (get_part p l) v)) l)) ->
    forall m v, rel R m (fst (add p m v)).
  Proof.
    intros HR m. induction m as [l|n dv dt|dv dt ms IH] using man_ind'; intros v; cbn.
    - specialize (HR l v). destruct (cont_add (get_part p l) v) as [c e]. now constructor.
    - constructor.
    - assert (H : Forall2 (rel R) ms
                   (fst (index_loop (map (fun m' (_ : man) => add p m') ms) ms v 0))).
      { generalize 0. induction IH as [|m ms Hm HI IHms]; intros i; [constructor|]. cbn.
        destruct (py_index v i) as [x|e]; [|constructor; [apply rel_refl; exact Rrefl|apply Forall2_rel_refl]].
        specialize (Hm x). destruct (add p m x) as [m' [e|]]; cbn in *.
        - constructor; [exact Hm|apply Forall2_rel_refl].
        - specialize (IHms (S i)).
          destruct (index_loop (map (fun m' (_ : man) => add p m') ms) ms v (S i)) as [ms'' e].
          cbn in *. now constructor. }
      destruct (index_loop (map (fun m' (_ : man) => add p m') ms) ms v 0) as [ms'' e].
      cbn in *. now constructor.
  Qed.

  Lemma each_man_rel (g : man -> man * option exn) :
    (forall l, rel R (MLeaf l) (fst (g (MLeaf l)))) ->
    (forall n dv dt, rel R (MEmpty n dv dt) (fst (g (MEmpty n dv dt)))) ->
    (forall dv dt ms, g (MComp dv dt ms) = let (ms', e) := each g ms in (MComp dv dt ms', e)) ->
    forall m, rel R m (fst (g m)).
  Proof.
    intros Hl He Hc m. induction m as [l|n dv dt|dv dt ms IH] using man_ind'; [apply Hl|apply He|].
    rewrite Hc. pose proof (each_rel g ms IH) as H. destruct (each g ms) as [ms' e]. now constructor.
  Qed.
End Loops.

(** ** Frame *)
Definition same_part (q : part) (l l' : leaf) : Prop :=
  get_part q l' = get_part q l /\ l_shapes l' = l_shapes l.

Lemma same_part_refl q l : same_part q l l.
Proof. now split. Qed.
Lemma same_part_trans q a b c : same_part q a b -> same_part q b c -> same_part q a c.
Proof. intros [H1 H2] [H3 H4]. split; congruence. Qed.
Lemma same_part_set p q c l : p <> q -> same_part q l (set_part p c l).
Proof. intros H. split; [now apply get_set_other|apply shapes_set]. Qed.

Lemma same_part_fill p q l v copy rg : p <> q -> same_part q l (fst (leaf_fill p l v copy rg)).
Proof.
  intros H. unfold leaf_fill. destruct (cont_fill _ v copy rg) as [c [e|]]; cbn.
  - now apply same_part_set.
  - destruct (same_part_set p q c l H) as [H1 H2]. split; [now rewrite get_part_mdev|exact H2].
Qed.

Lemma step_frame q o m : ~ touches o q -> rel (same_part q) m (fst (step m o)).
Proof.
  intros Ht.
  assert (Rr := same_part_refl q). assert (Rt := same_part_trans q).
  destruct o as [p v copy rg|p v|p|p rg i|p rg|p rnd rg|a]; cbn in Ht |- *.
  - apply fill_sk_rel; auto. intros. now apply same_part_fill.
  - apply add_rel; auto. intros. now apply same_part_set.
  - apply each_man_rel; auto.
    + intros l. cbn. destruct (cont_negate _). constructor. now apply same_part_set.
    + constructor.
  - destruct m as [l|n dv dt|dv dt ms]; cbn.
    + destruct (cont_requires_grad rg i (get_part p l)). constructor. now apply same_part_set.
    + constructor.
    + now apply rel_refl.
  - destruct m as [l|n dv dt|dv dt ms]; cbn.
    + constructor. now apply same_part_set.
    + constructor.
    + now apply rel_refl.
  - apply each_man_rel; auto.
    + intros l. cbn. constructor. now apply same_part_set.
    + constructor.
  - now destruct Ht.
Qed.

Lemma rel_same_part q m m' : rel (same_part q) m m' ->
  unroll q m' = unroll q m /\ getter q m' = getter q m.
Proof.
  revert m'. induction m as [l|n dv dt|dv dt ms IH] using man_ind'; intros m' H.
  - inversion H as [? l' [H1 H2]| |]; subst. cbn. rewrite H1, H2. now split.
  - inversion H; subst. now split.
  - inversion H as [| |? ? ? ms' F]; subst. clear H.
    assert (H : flat_map (unroll q) ms' = flat_map (unroll q) ms /\
                mapM (getter q) ms' = mapM (getter q) ms).
    { revert ms' F. induction IH as [|m ms Hm HI IHms]; intros ms' F; inversion F as [|? m' ? ms'' F1 F2]; subst.
      - now split.
      - destruct (Hm m' F1) as [A B]. destruct (IHms _ F2) as [C D]. cbn. rewrite A, B, C, D. now split. }
    destruct H as [A B]. cbn [unroll getter]. rewrite A, B. now split.
Qed.

Lemma exec_frame q ops m : Forall (fun o => ~ touches o q) ops ->
  unroll q (exec ops m) = unroll q m /\ getter q (exec ops m) = getter q m.
Proof.
  intros H. apply rel_same_part. unfold exec. revert m. induction H as [|o ops Ho H IH]; intros m.
  - cbn. apply rel_refl. apply same_part_refl.
  - cbn. eapply rel_trans; [apply same_part_trans| |apply IH]. now apply step_frame.
Qed.

(** ** Structure: what no operation changes *)
Definition same_struct (l l' : leaf) : Prop :=
  l_shapes l' = l_shapes l /\ l_nb l' = l_nb l /\
  forall p, c_shapes (get_part p l') = c_shapes (get_part p l).

Lemma same_struct_refl l : same_struct l l.
Proof. repeat split. Qed.
Lemma same_struct_trans a b c : same_struct a b -> same_struct b c -> same_struct a c.
Proof. intros (H1 & H2 & H3) (H4 & H5 & H6). repeat split; [congruence..|]. intros p. now rewrite H6. Qed.

Lemma same_struct_set p c l : c_shapes c = c_shapes (get_part p l) -> same_struct l (set_part p c l).
Proof.
  intros H. split; [apply shapes_set|]. split; [apply nb_set|].
  intros q. destruct p, q; cbn in *; congruence.
Qed.

Lemma cont_map_shapes k f c : c_shapes (fst (cont_map k f c)) = c_shapes c.
Proof. unfold cont_map. now destruct mapM. Qed.

Lemma cont_fill_shapes c v copy rg : c_shapes (fst (cont_fill c v copy rg)) = c_shapes c.
Proof.
  unfold cont_fill.
  destruct (tensors_device v) as [[dv|]|e]; try reflexivity.
  destruct (tensors_dtype v) as [[dt|]|e]; try reflexivity.
  destruct (py_iter _) as [l|e]; try reflexivity.
  destruct (if copy then _ else @Ok (list pyv) _); reflexivity.
Qed.
Lemma cont_add_shapes c v : c_shapes (fst (cont_add c v)) = c_shapes c.
Proof. unfold cont_add. destruct (py_iter _); [|reflexivity]. now destruct mapM. Qed.
Lemma cont_negate_shapes c : c_shapes (fst (cont_negate c)) = c_shapes c.
Proof. unfold cont_negate. now destruct mapM. Qed.
Lemma cont_requires_shapes rg i c : c_shapes (fst (cont_requires_grad rg i c)) = c_shapes c.
Proof.
  unfold cont_requires_grad. destruct (Z.eqb i (-1)); [apply cont_map_shapes|].
  destruct (_ || _)%bool; [reflexivity|]. destruct (nth_error _ _) as [[|t|l]|]; try reflexivity.
  now destruct (c_kind c).
Qed.

Lemma leaf_fill_struct p l v copy rg : same_struct l (fst (leaf_fill p l v copy rg)).
Proof.
  unfold leaf_fill. pose proof (cont_fill_shapes (get_part p l) v copy rg) as H.
  destruct (cont_fill _ v copy rg) as [c [e|]]; cbn in *.
  - now apply same_struct_set.
  - destruct (same_struct_set p c l H) as (A & B & C).
    split; [exact A|]. split; [exact B|]. intros q. now rewrite get_part_mdev.
Qed.

Lemma fill_struct p copy rg sk m v : rel same_struct m (fst (fill_sk p copy rg sk m v)).
Proof.
  apply fill_sk_rel; [apply same_struct_refl|apply same_struct_trans|].
  intros; apply leaf_fill_struct.
Qed.

Lemma add_struct p m v : rel same_struct m (fst (add p m v)).
Proof.
  apply add_rel; [apply same_struct_refl|].
  intros l w. apply same_struct_set, cont_add_shapes.
Qed.

Lemma negate_struct p m : rel same_struct m (fst (negate p m)).
Proof.
  apply each_man_rel; [apply same_struct_refl| | |reflexivity].
  - intros l. cbn. pose proof (cont_negate_shapes (get_part p l)) as H.
    destruct (cont_negate _). constructor. now apply same_struct_set.
  - constructor.
Qed.

Lemma rel_made m m' : rel same_struct m m' -> all_leaves leaf_made m -> all_leaves leaf_made m'.
Proof.
  revert m'. induction m as [l|n dv dt|dv dt ms IH] using man_ind'; intros m' H Hm.
  - inversion H as [? l' (H1 & H2 & H3)| |]; subst. constructor. inversion Hm as [? Hl| |]; subst.
    intros p. rewrite H3, H1, H2. apply Hl.
  - inversion H; subst. constructor.
  - inversion H as [| |? ? ? ms' F]; subst. inversion Hm as [| |? ? ? Hms]; subst. constructor.
    clear H Hm. revert ms' F. induction IH as [|m ms Hm HI IHms]; intros ms' F; inversion F; subst; constructor;
      inversion Hms; subst; eauto.
Qed.

Lemma rel_arg m m' v l : rel same_struct m m' -> arg m v l -> arg m' v l.
Proof.
  intros H Ha. revert m' H. revert m v l Ha.
  apply (arg_ind2 (fun m v l => forall m', rel same_struct m m' -> arg m' v l)
                  (fun ms vs ls => forall ms', Forall2 (rel same_struct) ms ms' -> args ms' vs ls)).
  - intros lf t E m' H. inversion H as [? l' (H1 & H2 & H3)| |]; subst. constructor. now rewrite H1.
  - intros lf l E E2 U m' H. inversion H as [? l' (H1 & H2 & H3)| |]; subst.
    constructor; auto. now rewrite H1.
  - intros n dv dt v m' H. inversion H; subst. constructor.
  - intros dv dt ms vs ls _ IH m' H. inversion H as [| |? ? ? ms' F]; subst. constructor. now apply IH.
  - intros ms' H. inversion H; subst. constructor.
  - intros m ms v vs l ls _ IHm _ IHms ms' H. inversion H; subst. constructor; auto.
Qed.

(** ** Filling with a proper argument *)
Lemma index_zip fs ms pre vs : length fs = length vs ->
  index_loop fs ms (VL (pre ++ vs)) (length pre) = zip_loop fs ms vs.
Proof.
  revert fs ms pre. induction vs as [|v vs IH]; intros [|f fs] ms pre H; try discriminate; [reflexivity|].
  destruct ms as [|m ms]; [reflexivity|]. cbn.
  rewrite nth_error_app2 by lia. rewrite Nat.sub_diag. cbn.
  destruct (f m v) as [m' [e|]]; [reflexivity|].
  specialize (IH fs ms (pre ++ [v])). rewrite app_length, Nat.add_1_r, <- app_assoc in IH. cbn in IH.
  rewrite IH by (now injection H). reflexivity.
Qed.

Lemma args_length ms vs ls : args ms vs ls -> length ms = length vs.
Proof. induction 1; cbn; congruence. Qed.

Lemma leaf_made_length lf p : leaf_made lf -> length (c_shapes (get_part p lf)) = length (l_shapes lf).
Proof. intros H. rewrite H. unfold leaf_shape_gd. apply map_length. Qed.

Lemma fill_sk_arg p copy rg sk v l : arg sk v l -> forall m,
  rel same_struct sk m -> all_leaves leaf_made m ->
  exists m', fill_sk p copy rg sk m v = (m', None) /\ unroll p m' = map VT (map (filled copy rg) l) /\
    (copy = false -> no_empty sk -> getter p m' = Ok v).
Proof.
  revert sk v l.
  apply (arg_ind2
    (fun sk v l => forall m, rel same_struct sk m -> all_leaves leaf_made m ->
       exists m', fill_sk p copy rg sk m v = (m', None) /\ unroll p m' = map VT (map (filled copy rg) l) /\
         (copy = false -> no_empty sk -> getter p m' = Ok v))
    (fun sks vs ls => forall ms, Forall2 (rel same_struct) sks ms -> Forall (all_leaves leaf_made) ms ->
       exists ms', zip_loop (map (fill_sk p copy rg) sks) ms vs = (ms', None) /\
         flat_map (unroll p) ms' = map VT (map (filled copy rg) (List.concat ls)) /\
         (copy = false -> Forall no_empty sks -> mapM (getter p) ms' = Ok vs))).
  - intros lf t E m H Hm. inversion H as [? l' (H1 & H2 & H3)| |]; subst. inversion Hm as [? Hl| |]; subst.
    cbn. unfold leaf_fill. rewrite cont_fill_one by (rewrite leaf_made_length; congruence).
    eexists. split; [reflexivity|]. cbn. rewrite get_part_mdev, get_set_same.
    split; [reflexivity|]. intros -> _. cbn. rewrite shapes_set, H1, E. reflexivity.
  - intros lf l E E2 U m H Hm. inversion H as [? l' (H1 & H2 & H3)| |]; subst. inversion Hm as [? Hl| |]; subst.
    cbn. unfold leaf_fill.
    destruct (cont_fill_list (get_part p l') l copy rg) as (dv & dt & Ef & _); [lia|exact U|].
    rewrite Ef. eexists. split; [reflexivity|]. cbn. rewrite get_part_mdev, get_set_same.
    split; [reflexivity|]. intros -> _. cbn. rewrite shapes_set, H1.
    destruct (Nat.eqb_spec (length (l_shapes lf)) 1); [lia|]. unfold filled. now rewrite map_id.
  - intros n dv dt v m H Hm. inversion H; subst. cbn. eexists. split; [reflexivity|].
    split; [reflexivity|]. intros _ Hn. inversion Hn.
  - intros dv dt sks vs ls Ha IH m H Hm. inversion H as [| |? ? ? ms F]; subst.
    inversion Hm as [| |? ? ? Hms]; subst. cbn [fill_sk py_iter].
    destruct (IH ms F Hms) as (ms1 & E1 & U1 & G1). rewrite E1.
    assert (Fin : forall ms', flat_map (unroll p) ms' = map VT (map (filled copy rg) (List.concat ls)) ->
      (copy = false -> Forall no_empty sks -> mapM (getter p) ms' = Ok vs) ->
      unroll p (MComp dv dt ms') = map VT (map (filled copy rg) (List.concat ls)) /\
      (copy = false -> no_empty (MComp dv dt sks) -> getter p (MComp dv dt ms') = Ok (VL vs))).
    { intros ms' U G. split; [exact U|]. intros Hc Hn. inversion Hn; subst. cbn [getter].
      rewrite G by auto. reflexivity. }
    destruct p; try (eexists; split; [reflexivity|]; now apply Fin).
    pose proof (index_zip (map (fill_sk Gd copy rg) sks) ms1 [] vs) as EI.
    cbn [app length] in EI. rewrite EI by (rewrite map_length; eapply args_length; eauto).
    assert (R1 : Forall2 (rel same_struct) ms ms1).
    { pose proof (zip_loop_rel same_struct same_struct_refl (map (fill_sk Gd copy rg) sks) ms vs) as Hz.
      rewrite E1 in Hz. cbn in Hz. apply Hz. intros f m w Hf.
      apply in_map_iff in Hf. destruct Hf as (s & <- & _). apply fill_struct. }
    destruct (IH ms1) as (ms2 & E2 & U2 & G2).
    + eapply Forall2_rel_trans; [exact same_struct_trans|exact F|exact R1].
    + clear -R1 Hms. revert Hms. induction R1; intros Hms; inversion Hms; subst; constructor; auto.
      eapply rel_made; eauto.
    + rewrite E2. eexists. split; [reflexivity|]. now apply Fin.
  - intros ms H _. inversion H; subst. cbn. eexists. split; [reflexivity|]. now split.
  - intros sk sks v vs l ls _ IHm _ IHms ms H Hms. inversion H as [|? m ? ms' F1 F2]; subst.
    inversion Hms; subst. cbn.
    destruct (IHm m) as (m' & E & U & G); auto. rewrite E.
    destruct (IHms ms') as (ms'' & E' & U' & G'); auto. rewrite E'.
    eexists. split; [reflexivity|]. cbn. rewrite U, U'. split; [now rewrite !map_app|].
    intros Hc Hn. inversion Hn; subst. rewrite G by auto. cbn.
    fold (mapM (getter p)). now rewrite G' by auto.
Qed.

Lemma fill_arg p m v l copy rg : all_leaves leaf_made m -> arg m v l ->
  exists m', fill p m v copy rg = (m', None) /\ unroll p m' = map VT (map (filled copy rg) l) /\
    rel same_struct m m' /\ (copy = false -> no_empty m -> getter p m' = Ok v).
Proof.
  intros Hm Ha. destruct (fill_sk_arg p copy rg m v l Ha m) as (m' & E & U & G).
  - apply rel_refl, same_struct_refl.
  - exact Hm.
  - exists m'. split; [exact E|]. split; [exact U|]. split; [|exact G].
    pose proof (fill_struct p copy rg m m v) as H. unfold fill in E. now rewrite E in H.
Qed.

(** ** Rolling *)
Lemma pops_app n l : n <= length l -> pops n l = Ok (firstn n l, skipn n l).
Proof.
  revert l. induction n as [|n IH]; intros l H; [reflexivity|].
  destruct l as [|x l]; cbn in H; [lia|]. cbn. rewrite IH by lia. reflexivity.
Qed.
Lemma pops_short n l : length l < n -> pops n l = Err IndexError.
Proof.
  revert l. induction n as [|n IH]; intros l H; [lia|].
  destruct l as [|x l]; [reflexivity|]. cbn in *. now rewrite IH by lia.
Qed.

Lemma cont_roll_ok c l : length (c_shapes c) <= length l ->
  exists v, cont_roll c l = Ok (v, skipn (length (c_shapes c)) l).
Proof.
  unfold cont_roll. destruct (length (c_shapes c)) as [|[|n]]; intros H.
  - eexists. reflexivity.
  - destruct l; cbn in H; [lia|]. eexists. reflexivity.
  - rewrite pops_app by exact H. eexists. reflexivity.
Qed.

Lemma cont_roll_short c l : length l < length (c_shapes c) -> cont_roll c l = Err IndexError.
Proof.
  unfold cont_roll. destruct (length (c_shapes c)) as [|[|n]]; intros H; [lia| |].
  - destruct l; cbn in H; [reflexivity|lia].
  - now rewrite pops_short.
Qed.

(** roll on a list of members *)
Fixpoint roll_list (p : part) (ms : list man) (l : list pyv) : res (list pyv * list pyv) :=
  match ms with
  | [] => Ok ([], l)
  | m :: ms' =>
      ' (x, l') <- roll p m l ;;
      ' (xs, l'') <- roll_list p ms' l' ;;
      Ok (x :: xs, l'')
  end.
Lemma roll_comp p dv dt ms l : p <> Tan ->
  roll p (MComp dv dt ms) l = ' (xs, l') <- roll_list p ms l ;; Ok (VL xs, l').
Proof.
  intros Hp. cbn [roll].
  assert (E : forall ms l,
    (fix go (ms : list man) (l : list pyv) : res (list pyv * list pyv) :=
               match ms with
               | [] => Ok ([], l)
               | m :: ms' =>
                   ' (x, l') <- roll p m l ;;
                   ' (xs, l'') <- go ms' l' ;;
                   Ok (x :: xs, l'')
               end) ms l = roll_list p ms l).
  { clear. induction ms as [|m ms IH]; intros l; [reflexivity|]. cbn.
    destruct (roll p m l) as [[x l']|e]; [|reflexivity]. cbn. now rewrite IH. }
  destruct p; [|now destruct Hp|]; now rewrite E.
Qed.

Lemma skipn_add {A} n m (l : list A) : skipn m (skipn n l) = skipn (n + m) l.
Proof. revert l. induction n as [|n IH]; intros l; [reflexivity|]. destruct l; [now rewrite !skipn_nil|]. apply IH. Qed.

Lemma roll_consumes p m l : p <> Tan -> all_leaves leaf_made m ->
  (len_gd m <= length l -> exists v, roll p m l = Ok (v, skipn (len_gd m) l)) /\
  (length l < len_gd m -> roll p m l = Err IndexError).
Proof.
  intros Hp. revert l. induction m as [lf|n dv dt|dv dt ms IH] using man_ind'; intros l Hm.
  - inversion Hm as [? Hl| |]; subst. cbn. rewrite <- (leaf_made_length lf p Hl). split; intros H.
    + now apply cont_roll_ok.
    + now apply cont_roll_short.
  - cbn. split; intros H; [now eexists|lia].
  - inversion Hm as [| |? ? ? Hms]; subst.
    assert (H : (len_gd (MComp dv dt ms) <= length l ->
                 exists vs, roll_list p ms l = Ok (vs, skipn (len_gd (MComp dv dt ms)) l)) /\
                (length l < len_gd (MComp dv dt ms) -> roll_list p ms l = Err IndexError)).
    { cbn. clear Hm. revert l Hms. induction IH as [|m ms Hm HI IHms]; intros l Hms.
      - cbn. split; intros H; [now eexists|lia].
      - inversion Hms as [|? ? Hm1 Hms1]; subst. destruct (Hm l Hm1) as [Hok Hsh].
        cbn [map list_sum fold_right roll_list] in *.
        fold (list_sum (map len_gd ms)) in *. split; intros H.
        + destruct Hok as (x & Ex); [lia|]. rewrite Ex. cbn.
          destruct (IHms (skipn (len_gd m) l) Hms1) as [IHok _].
          destruct IHok as (xs & Exs); [rewrite skipn_length; lia|].
          rewrite Exs. cbn. eexists. now rewrite skipn_add.
        + destruct (Nat.lt_ge_cases (length l) (len_gd m)) as [Hlt|Hge].
          * now rewrite Hsh.
          * destruct Hok as (x & Ex); [lia|]. rewrite Ex. cbn.
            destruct (IHms (skipn (len_gd m) l) Hms1) as [_ IHsh].
            rewrite IHsh; [reflexivity|]. rewrite skipn_length. lia. }
    rewrite roll_comp by exact Hp. destruct H as [H1 H2]. split; intros H.
    + destruct (H1 H) as (vs & E). rewrite E. cbn. now eexists.
    + now rewrite (H2 H).
Qed.

Lemma roll_splits p m l : p <> Tan -> splits m l -> forall rest, all_leaves leaf_made m ->
  exists v, roll p m (map VT l ++ rest) = Ok (v, rest) /\ arg m v l.
Proof.
  intros Hp. revert m l.
  apply (splits_ind2
    (fun m l => forall rest, all_leaves leaf_made m ->
       exists v, roll p m (map VT l ++ rest) = Ok (v, rest) /\ arg m v l)
    (fun ms ls => forall rest, Forall (all_leaves leaf_made) ms ->
       exists vs, roll_list p ms (map VT (List.concat ls) ++ rest) = Ok (vs, rest) /\ args ms vs ls)).
  - intros lf l E E1 U rest Hm. inversion Hm as [? Hl| |]; subst. cbn. unfold cont_roll.
    rewrite (leaf_made_length lf p Hl), E.
    destruct l as [|t [|t2 l]]; cbn in E1; [lia| |].
    + cbn. exists (VT t). split; [reflexivity|]. now constructor.
    + cbn [length]. rewrite pops_app by (rewrite app_length, map_length; cbn; lia). cbn [bind].
      replace (S (S (length l))) with (length (map VT (t :: t2 :: l))) by (rewrite map_length; reflexivity).
      rewrite firstn_app, Nat.sub_diag, firstn_O, app_nil_r, firstn_all.
      rewrite skipn_app, Nat.sub_diag, skipn_O, skipn_all. cbn [app].
      eexists. split; [reflexivity|]. constructor; [exact E|cbn; lia|exact U].
  - intros n dv dt rest _. cbn. exists VNone. split; [reflexivity|constructor].
  - intros dv dt ms ls _ IH rest Hm. inversion Hm as [| |? ? ? Hms]; subst.
    destruct (IH rest Hms) as (vs & E & Ha). rewrite roll_comp by exact Hp. rewrite E.
    cbn. eexists. split; [reflexivity|]. now constructor.
  - intros rest _. cbn. eexists. split; [reflexivity|constructor].
  - intros m ms l ls _ IHm _ IHms rest Hms. inversion Hms; subst.
    cbn [List.concat roll_list]. rewrite map_app, <- app_assoc.
    destruct (IHm (map VT (List.concat ls) ++ rest)) as (v & E & Ha); auto. rewrite E. cbn [bind].
    destruct (IHms rest) as (vs & E' & Ha'); auto. rewrite E'. cbn [bind].
    eexists. split; [reflexivity|]. now constructor.
Qed.

Lemma unroll_length m p : all_leaves (leaf_full p) m -> length (unroll p m) = len_gd m.
Proof.
  induction m as [lf|n dv dt|dv dt ms IH] using man_ind'; intros H.
  - inversion H as [? (l & E & E1 & _)| |]; subst. cbn. unfold cont_unroll. rewrite E, map_length. exact E1.
  - reflexivity.
  - inversion H as [| |? ? ? Hms]; subst. cbn. clear H. induction IH as [|m ms Hm HI IHms]; [reflexivity|].
    inversion Hms; subst. cbn. rewrite app_length, Hm, IHms; auto.
Qed.

Lemma full_splits m p : all_leaves (leaf_full p) m -> exists l, unroll p m = map VT l /\ splits m l.
Proof.
  induction m as [lf|n dv dt|dv dt ms IH] using man_ind'; intros H.
  - inversion H as [? (l & E & E1 & E2 & U)| |]; subst. exists l. split; [exact E|]. constructor; auto.
  - exists []. split; [reflexivity|constructor].
  - inversion H as [| |? ? ? Hms]; subst.
    assert (HH : exists ls, flat_map (unroll p) ms = map VT (List.concat ls) /\ splits_all ms ls).
    { clear H. induction IH as [|m ms Hm HI IHms].
      - exists []. split; [reflexivity|constructor].
      - inversion Hms; subst. destruct Hm as (l & E & S1); auto. destruct IHms as (ls & E' & S2); auto.
        exists (l :: ls). split; [cbn; now rewrite E, E', map_app|now constructor]. }
    destruct HH as (ls & E & Hs). exists (List.concat ls). split; [exact E|now constructor].
Qed.

(** A flat list of tensors on one device and of one dtype always splits. *)
Lemma uniform_app a b : uniform (a ++ b) -> uniform a /\ uniform b.
Proof. intros (dv & dt & H). apply Forall_app in H. destruct H. split; exists dv, dt; assumption. Qed.

Lemma uniform_splits m l : all_leaves (fun lf => 1 <= length (l_shapes lf)) m ->
  length l = len_gd m -> uniform l -> splits m l.
Proof.
  revert l. induction m as [lf|n dv dt|dv dt ms IH] using man_ind'; intros l H Hl U.
  - inversion H; subst. constructor; [auto|cbn in Hl; lia|exact U].
  - destruct l; [constructor|discriminate].
  - inversion H as [| |? ? ? Hms]; subst.
    assert (HH : exists ls, l = List.concat ls /\ splits_all ms ls).
    { cbn in Hl. clear H. revert l Hl U. induction IH as [|m ms Hm HI IHms]; intros l Hl U.
      - destruct l; [|discriminate]. exists []. split; [reflexivity|constructor].
      - inversion Hms; subst. cbn in Hl. fold (list_sum (map len_gd ms)) in Hl.
        rewrite <- (firstn_skipn (len_gd m) l) in U. apply uniform_app in U. destruct U as [U1 U2].
        destruct (IHms H2 (skipn (len_gd m) l)) as (ls & E & S2); [rewrite skipn_length; lia|exact U2|].
        exists (firstn (len_gd m) l :: ls). split; [cbn; now rewrite <- E, firstn_skipn|].
        constructor; [|exact S2]. apply Hm; [assumption|rewrite firstn_length; lia|exact U1]. }
    destruct HH as (ls & -> & Hs). now constructor.
Qed.


(** ** Addition and negation *)
Lemma py_add_all xs l : same_devices xs l ->
  mapM (fun p => py_add (fst p) (snd p)) (combine (map VT xs) (map VT l)) = Ok (map VT (add_all xs l)).
Proof.
  induction 1 as [|s t xs l H HF IH]; [reflexivity|]. cbn.
  rewrite H, String.eqb_refl. cbn. change (mapM (fun p => py_add (fst p) (snd p))) with
    (mapM (fun p => py_add (fst p) (snd p))) in IH. unfold mapM in IH |- *. rewrite IH. reflexivity.
Qed.

Lemma map_VT_inj a b : map VT a = map VT b -> a = b.
Proof.
  revert b. induction a as [|x a IH]; intros [|y b] H; try discriminate; [reflexivity|].
  cbn in H. injection H as -> H. f_equal. now apply IH.
Qed.

Lemma add_all_length a b : length a = length b -> length (add_all a b) = length a.
Proof. intros H. unfold add_all. rewrite map_length, combine_length. lia. Qed.
Lemma add_all_app a b c d : length a = length c -> add_all (a ++ b) (c ++ d) = add_all a c ++ add_all b d.
Proof.
  revert c. induction a as [|x a IH]; intros [|y c] H; try discriminate; [reflexivity|].
  cbn. f_equal. apply IH. now injection H.
Qed.
Lemma same_devices_length a b : same_devices a b -> length a = length b.
Proof. induction 1; cbn; congruence. Qed.

Lemma filled_length p m v l : all_leaves (leaf_filled p) m -> arg m v l -> length (unroll p m) = length l.
Proof.
  intros H Ha. revert m v l Ha H.
  apply (arg_ind2
    (fun m v l => all_leaves (leaf_filled p) m -> length (unroll p m) = length l)
    (fun ms vs ls => Forall (all_leaves (leaf_filled p)) ms -> length (flat_map (unroll p) ms) = length (List.concat ls))).
  - intros lf t E H. inversion H as [? (xs & Ex & El)| |]; subst. cbn. unfold cont_unroll.
    rewrite Ex, map_length. congruence.
  - intros lf l E E2 U H. inversion H as [? (xs & Ex & El)| |]; subst. cbn. unfold cont_unroll.
    rewrite Ex, map_length. congruence.
  - reflexivity.
  - intros dv dt ms vs ls _ IH H. inversion H; subst. cbn. auto.
  - reflexivity.
  - intros m ms v vs l ls _ IHm _ IHms H. inversion H; subst. cbn. rewrite !app_length. auto.
Qed.

Lemma filled_tensors p m : all_leaves (leaf_filled p) m -> exists xs, unroll p m = map VT xs.
Proof.
  induction m as [lf|n dv dt|dv dt ms IH] using man_ind'; intros H.
  - inversion H as [? (xs & Ex & El)| |]; subst. exists xs. exact Ex.
  - exists []. reflexivity.
  - inversion H as [| |? ? ? Hms]; subst. cbn. clear H.
    induction IH as [|m ms Hm HI IHms]; [now exists []|].
    inversion Hms; subst. destruct Hm as (x & E); auto. destruct IHms as (y & E'); auto.
    exists (x ++ y). cbn. now rewrite E, E', map_app.
Qed.

Lemma app_split {A} (a b c d : list A) : a ++ b = c ++ d -> length a = length c -> a = c /\ b = d.
Proof.
  revert c. induction a as [|x a IH]; intros [|y c] H1 H2; try discriminate; [now split|].
  cbn in *. injection H1 as -> H1. injection H2 as H2. destruct (IH _ H1 H2). now subst.
Qed.

Lemma Forall2_app_split {A B} (R : A -> B -> Prop) a b c d :
  Forall2 R (a ++ b) (c ++ d) -> length a = length c -> Forall2 R a c /\ Forall2 R b d.
Proof.
  revert c. induction a as [|x a IH]; intros [|y c] H1 H2; try discriminate; [now split|].
  cbn in *. inversion H1 as [|? ? ? ? Hxy Hr]; subst. injection H2 as H2.
  destruct (IH _ Hr H2). now split; [constructor|].
Qed.

Lemma filled_set p c lf l : c_tensors c = map VT l -> length l = length (l_shapes lf) ->
  leaf_filled p (set_part p c lf).
Proof. intros H1 H2. exists l. rewrite get_set_same, shapes_set. now split. Qed.

Lemma add_arg p m v l : arg m v l -> forall xs, all_leaves leaf_made m -> all_leaves (leaf_filled p) m ->
  unroll p m = map VT xs -> same_devices xs l ->
  exists m', add p m v = (m', None) /\ unroll p m' = map VT (add_all xs l) /\ all_leaves (leaf_filled p) m'.
Proof.
  revert m v l.
  apply (arg_ind2
    (fun m v l => forall xs, all_leaves leaf_made m -> all_leaves (leaf_filled p) m ->
       unroll p m = map VT xs -> same_devices xs l ->
       exists m', add p m v = (m', None) /\ unroll p m' = map VT (add_all xs l) /\ all_leaves (leaf_filled p) m')
    (fun ms vs ls => forall xs pre, Forall (all_leaves leaf_made) ms -> Forall (all_leaves (leaf_filled p)) ms ->
       flat_map (unroll p) ms = map VT xs -> same_devices xs (List.concat ls) ->
       exists ms', index_loop (map (fun m' (_ : man) => add p m') ms) ms (VL (pre ++ vs)) (length pre) = (ms', None) /\
         flat_map (unroll p) ms' = map VT (add_all xs (List.concat ls)) /\ Forall (all_leaves (leaf_filled p)) ms')).
  - intros lf t E xs Hm Hf Hu Hd. inversion Hm as [? Hl| |]; subst. inversion Hf as [? (ys & Ey & Ly)| |]; subst.
    cbn in Hu |- *. unfold cont_unroll in Hu. unfold cont_add.
    rewrite (leaf_made_length lf p Hl), E. cbn [Nat.eqb py_iter].
    rewrite Hu. change [VT t] with (map VT [t]). rewrite py_add_all by exact Hd.
    eexists. split; [reflexivity|]. cbn. rewrite get_set_same. split; [reflexivity|].
    constructor. eapply filled_set; [reflexivity|].
    rewrite add_all_length by now apply same_devices_length.
    apply same_devices_length in Hd. cbn in Hd. lia.
  - intros lf l E E2 U xs Hm Hf Hu Hd. inversion Hm as [? Hl| |]; subst. inversion Hf as [? (ys & Ey & Ly)| |]; subst.
    cbn in Hu |- *. unfold cont_unroll in Hu. unfold cont_add.
    rewrite (leaf_made_length lf p Hl). destruct (Nat.eqb_spec (length (l_shapes lf)) 1); [lia|]. cbn [py_iter].
    rewrite Hu. rewrite py_add_all by exact Hd.
    eexists. split; [reflexivity|]. cbn. rewrite get_set_same. split; [reflexivity|].
    constructor. eapply filled_set; [reflexivity|].
    rewrite add_all_length by now apply same_devices_length.
    apply same_devices_length in Hd. lia.
  - intros n dv dt v xs Hm Hf Hu Hd. cbn in *. destruct xs; [|discriminate].
    eexists. split; [reflexivity|]. split; [reflexivity|constructor].
  - intros dv dt ms vs ls _ IH xs Hm Hf Hu Hd. inversion Hm; subst. inversion Hf; subst.
    destruct (IH xs []) as (ms' & E & U & F); auto. cbn [app length] in E. cbn [add]. rewrite E.
    eexists. split; [reflexivity|]. split; [exact U|now constructor].
  - intros xs pre _ _ Hu Hd. cbn in *. destruct xs; [|discriminate].
    eexists. split; [reflexivity|]. split; [reflexivity|constructor].
  - intros m ms v vs l ls Ha IHm Has IHms xs pre Hm Hf Hu Hd.
    inversion Hm; subst. inversion Hf as [|? ? F1 F2]; subst. cbn in Hu, Hd.
    pose proof (filled_length p m v l F1 Ha) as Lm.
    destruct (filled_tensors p m F1) as (x1 & E1).
    assert (exists x2, xs = x1 ++ x2) as (x2 & ->).
    { exists (skipn (length x1) xs).
      assert (Hx : map VT x1 = map VT (firstn (length x1) xs)).
      { rewrite <- firstn_map, <- Hu, E1. rewrite <- (map_length VT x1).
        now rewrite firstn_app, Nat.sub_diag, firstn_O, firstn_all, app_nil_r. }
      apply map_VT_inj in Hx. rewrite Hx at 1. now rewrite firstn_skipn. }
    rewrite E1, map_length in Lm.
    destruct (Forall2_app_split _ _ _ _ _ Hd Lm) as [D1 D2].
    rewrite E1, map_app in Hu. apply app_inv_head in Hu.
    destruct (IHm x1) as (m' & E & U & F); auto.
    destruct (IHms x2 (pre ++ [v])) as (ms' & E' & U' & F'); auto.
    cbn. rewrite nth_error_app2 by lia. rewrite Nat.sub_diag. cbn. rewrite E.
    rewrite app_length, Nat.add_1_r, <- app_assoc in E'. cbn in E'. rewrite E'.
    eexists. split; [reflexivity|]. cbn. rewrite U, U'. split.
    + rewrite <- map_app. f_equal. symmetry. apply add_all_app. exact Lm.
    + now constructor.
Qed.

Lemma negate_ok p m xs : all_leaves (leaf_filled p) m -> unroll p m = map VT xs ->
  exists m', negate p m = (m', None) /\ unroll p m' = map VT (neg_all xs) /\ all_leaves (leaf_filled p) m'.
Proof.
  revert xs. induction m as [lf|n dv dt|dv dt ms IH] using man_ind'; intros xs H Hu.
  - inversion H as [? (ys & Ey & Ly)| |]; subst. cbn in Hu |- *. unfold cont_unroll in Hu.
    unfold cont_negate. rewrite Hu, mapM_map.
    rewrite (mapM_ok _ (fun t => VT (mkTob (topp (tval t)) (tdev t) (tdty t) (trg t)))) by reflexivity.
    eexists. split; [reflexivity|]. cbn. rewrite get_set_same. unfold neg_all. rewrite map_map.
    split; [reflexivity|]. constructor.
    exists (neg_all xs). rewrite get_set_same, shapes_set. cbn. unfold neg_all. rewrite map_map, map_length.
    split; [reflexivity|]. rewrite Ey in Hu. apply map_VT_inj in Hu. now subst.
  - cbn in *. destruct xs; [|discriminate]. eexists. split; [reflexivity|]. split; [reflexivity|constructor].
  - inversion H as [| |? ? ? Hms]; subst. cbn in Hu.
    assert (HH : exists ms', each (negate p) ms = (ms', None) /\ flat_map (unroll p) ms' = map VT (neg_all xs) /\
      Forall (all_leaves (leaf_filled p)) ms').
    { clear H. revert xs Hu. induction IH as [|m ms Hm HI IHms]; intros xs Hu.
      - cbn in *. destruct xs; [|discriminate]. eexists. split; [reflexivity|]. split; [reflexivity|constructor].
      - inversion Hms as [|? ? F1 F2]; subst. cbn in Hu.
        destruct (filled_tensors p m F1) as (x1 & E1).
        assert (exists x2, xs = x1 ++ x2) as (x2 & ->).
        { exists (skipn (length x1) xs).
          assert (Hx : map VT x1 = map VT (firstn (length x1) xs)).
          { rewrite <- firstn_map, <- Hu, E1. rewrite <- (map_length VT x1).
            now rewrite firstn_app, Nat.sub_diag, firstn_O, firstn_all, app_nil_r. }
          apply map_VT_inj in Hx. rewrite Hx at 1. now rewrite firstn_skipn. }
        rewrite E1, map_app in Hu. apply app_inv_head in Hu.
        destruct (Hm x1) as (m' & E & U & F); auto.
        destruct (IHms F2 x2) as (ms' & E' & U' & F'); auto.
        cbn. rewrite E. fold (each (negate p)). rewrite E'. eexists. split; [reflexivity|].
        cbn. rewrite U, U'. split; [|now constructor]. unfold neg_all. now rewrite !map_app. }
    destruct HH as (ms' & E & U & F). cbn [negate]. rewrite E.
    eexists. split; [reflexivity|]. split; [exact U|now constructor].
Qed.

(** Algebra on flat lists. *)
Lemma tensor_eq a b : shape a = shape b -> (forall i, get a i = get b i) -> a = b.
Proof. destruct a, b; cbn. intros -> H. f_equal. now apply functional_extensionality. Qed.

Lemma tob_add_assoc a b c : tob_add (tob_add a b) c = tob_add a (tob_add b c).
Proof.
  unfold tob_add. cbn. f_equal.
  - apply tensor_eq; [reflexivity|]. intros i. cbn. apply Rplus_assoc.
  - now destruct (tdty a), (tdty b), (tdty c).
  - now rewrite orb_assoc.
Qed.
Lemma add_all_assoc a b c : add_all (add_all a b) c = add_all a (add_all b c).
Proof.
  revert b c. induction a as [|x a IH]; intros [|y b] [|z c]; cbn; try reflexivity.
  rewrite tob_add_assoc. f_equal. apply IH.
Qed.
Lemma neg_neg xs : neg_all (neg_all xs) = xs.
Proof.
  induction xs as [|[t d y g] xs IH]; [reflexivity|]. cbn [neg_all map] in *. fold (neg_all xs) in *.
  fold (neg_all (neg_all xs)) in *. rewrite IH. f_equal. cbn. f_equal.
  apply tensor_eq; [reflexivity|]. intros i. cbn. apply Ropp_involutive.
Qed.
Lemma neg_add a b : neg_all (add_all a b) = add_all (neg_all a) (neg_all b).
Proof.
  revert b. induction a as [|x a IH]; intros [|y b]; cbn; try reflexivity.
  f_equal; [|apply IH]. unfold tob_add. cbn. f_equal.
  apply tensor_eq; [reflexivity|]. intros i. cbn. apply Ropp_plus_distr.
Qed.
Lemma add_zero xs zs : Forall2 (fun x z => tdty z = tdty x /\ trg z = false /\ forall i, get (tval z) i = 0%R) xs zs ->
  add_all xs zs = xs.
Proof.
  induction 1 as [|x z xs zs (H1 & H2 & H3) _ IH]; [reflexivity|]. cbn. f_equal; [|exact IH].
  destruct x as [t d y g]. unfold tob_add. cbn in *. rewrite H1, H2, orb_false_r. f_equal.
  - apply tensor_eq; [reflexivity|]. intros i. cbn. rewrite H3. apply Rplus_0_r.
  - now destruct y.
Qed.
Lemma add_neg_zero xs : Forall (fun t => forall i, get (tval t) i = 0%R) (add_all xs (neg_all xs)).
Proof.
  induction xs as [|x xs IH]; [constructor|]. cbn. constructor; [|exact IH].
  intros i. cbn. apply Rplus_opp_r.
Qed.
Lemma add_all_shapes xs l : length xs = length l ->
  map (fun t => shape (tval t)) (add_all xs l) = map (fun t => shape (tval t)) xs.
Proof.
  revert l. induction xs as [|x xs IH]; intros [|y l] H; try discriminate; [reflexivity|]. cbn.
  f_equal. apply IH. now injection H.
Qed.
Lemma same_devices_add a b c : same_devices a b -> same_devices a c -> same_devices (add_all a b) c.
Proof.
  intros H. revert c. induction H as [|x y a b H HF IH]; intros c Hc; inversion Hc; subst; constructor; auto.
  now apply IH.
Qed.

Lemma add_add p m va vb vab a b xs :
  all_leaves leaf_made m -> all_leaves (leaf_filled p) m -> unroll p m = map VT xs ->
  arg m va a -> arg m vb b -> arg m vab (add_all a b) -> same_devices xs a -> same_devices xs b ->
  exists m1 m2 m3, add p m va = (m1, None) /\ add p m1 vb = (m2, None) /\ add p m vab = (m3, None) /\
    unroll p m2 = unroll p m3 /\ unroll p m3 = map VT (add_all xs (add_all a b)).
Proof.
  intros Hm Hf Hu Aa Ab Aab Da Db.
  destruct (add_arg p m va a Aa xs Hm Hf Hu Da) as (m1 & E1 & U1 & F1).
  pose proof (add_struct p m va) as S1. rewrite E1 in S1. cbn in S1.
  destruct (add_arg p m1 vb b (rel_arg _ _ _ _ S1 Ab) (add_all xs a)) as (m2 & E2 & U2 & F2); auto.
  { eapply rel_made; eauto. }
  { now apply same_devices_add. }
  destruct (add_arg p m vab (add_all a b) Aab xs Hm Hf Hu) as (m3 & E3 & U3 & F3).
  { clear -Da Db. revert b Db. induction Da as [|x y xs a H HF IH]; intros b Db; inversion Db; subst; constructor; auto.
    now apply IH. }
  exists m1, m2, m3. repeat split; try assumption. rewrite U2, U3. f_equal. apply add_all_assoc.
Qed.

Lemma negate_negate p m xs : all_leaves (leaf_filled p) m -> unroll p m = map VT xs ->
  exists m1 m2, negate p m = (m1, None) /\ unroll p m1 = map VT (neg_all xs) /\
    negate p m1 = (m2, None) /\ unroll p m2 = unroll p m.
Proof.
  intros Hf Hu. destruct (negate_ok p m xs Hf Hu) as (m1 & E1 & U1 & F1).
  destruct (negate_ok p m1 (neg_all xs) F1 U1) as (m2 & E2 & U2 & F2).
  exists m1, m2. repeat split; try assumption. rewrite U2, Hu. now rewrite neg_neg.
Qed.

Lemma negate_add p m v v' l xs :
  all_leaves leaf_made m -> all_leaves (leaf_filled p) m -> unroll p m = map VT xs ->
  arg m v l -> arg m v' (neg_all l) -> same_devices xs l ->
  exists m1 m2 m3 m4, add p m v = (m1, None) /\ negate p m1 = (m2, None) /\
    negate p m = (m3, None) /\ add p m3 v' = (m4, None) /\ unroll p m2 = unroll p m4.
Proof.
  intros Hm Hf Hu Aa Aa' Da.
  destruct (add_arg p m v l Aa xs Hm Hf Hu Da) as (m1 & E1 & U1 & F1).
  destruct (negate_ok p m1 (add_all xs l) F1 U1) as (m2 & E2 & U2 & F2).
  destruct (negate_ok p m xs Hf Hu) as (m3 & E3 & U3 & F3).
  pose proof (negate_struct p m) as S3. rewrite E3 in S3. cbn in S3.
  destruct (add_arg p m3 v' (neg_all l) (rel_arg _ _ _ _ S3 Aa') (neg_all xs)) as (m4 & E4 & U4 & F4); auto.
  { eapply rel_made; eauto. }
  { clear -Da. induction Da; constructor; auto. }
  exists m1, m2, m3, m4. repeat split; try assumption. rewrite U2, U4, neg_add. reflexivity.
Qed.

Lemma add_zeros p m v zs xs :
  all_leaves leaf_made m -> all_leaves (leaf_filled p) m -> unroll p m = map VT xs -> arg m v zs ->
  Forall2 (fun x z => tdev x = tdev z /\ tdty z = tdty x /\ trg z = false /\ forall i, get (tval z) i = 0%R) xs zs ->
  exists m', add p m v = (m', None) /\ unroll p m' = unroll p m.
Proof.
  intros Hm Hf Hu Aa HF.
  destruct (add_arg p m v zs Aa xs Hm Hf Hu) as (m1 & E1 & U1 & F1).
  { clear -HF. induction HF; constructor; intuition. }
  exists m1. split; [exact E1|]. rewrite U1, Hu. f_equal. apply add_zero.
  clear -HF. induction HF; constructor; intuition.
Qed.
