(** Device, dtype, recording flags and sizes along histories of manifold operations. *)
From Coq Require Import Reals String List Arith Bool Lia.
From Verif Require Import Py Tensor ManifoldModel SpecManifold ManifoldFacts.
Import ListNotations.
Open Scope list_scope.
Open Scope nat_scope.

Definition cok (dv : device) (dt : dtype) (c : cont) : Prop :=
  c_dev c = dv /\ c_dty c = dt /\
  forall x, In x (c_tensors c) -> exists t, x = VT t /\ tdev t = dv /\ tdty t = dt.

Lemma mapM_in {A B} (f : A -> res B) l l' y : mapM f l = Ok l' -> In y l' -> exists x, In x l /\ f x = Ok y.
Proof.
  revert l'. induction l as [|a l IH]; intros l' H Hy; cbn in H.
  - injection H as <-. destruct Hy.
  - destruct (f a) as [b|e] eqn:E; [cbn in H|discriminate].
    fold (mapM f) in H. destruct (mapM f l) as [bs|e]; [cbn in H|discriminate]. injection H as <-.
    destruct Hy as [<-|Hy].
    + exists a. split; [now left|exact E].
    + destruct (IH bs eq_refl Hy) as (x & Hx & Ex). exists x. split; [now right|exact Ex].
Qed.

Lemma cont_map_cok k f dv dt dv' dt' c :
  cok dv dt c -> (forall t, tdev t = dv -> tdty t = dt -> tdev (f t) = dv' /\ tdty (f t) = dt') ->
  snd (cont_map k f (mkCont (c_shapes c) (c_kind c) (c_tensors c) dv' dt')) = None /\
  cok dv' dt' (fst (cont_map k f (mkCont (c_shapes c) (c_kind c) (c_tensors c) dv' dt'))).
Proof.
  intros (H1 & H2 & H3) Hf. unfold cont_map. cbn [c_tensors c_shapes c_dev c_dty].
  destruct (mapM (on_tensor f) (c_tensors c)) as [ts|e] eqn:E.
  - split; [reflexivity|]. split; [reflexivity|]. split; [reflexivity|].
    cbn. intros x Hx. destruct (mapM_in _ _ _ _ E Hx) as (y & Hy & Ey).
    destruct (H3 y Hy) as (t & -> & D1 & D2). cbn in Ey. injection Ey as <-.
    exists (f t). split; [reflexivity|]. now apply Hf.
  - exfalso. revert E. revert H3. generalize (c_tensors c). induction l as [|a l IH]; intros H3 E; [discriminate|].
    destruct (H3 a (or_introl eq_refl)) as (t & -> & _). cbn in E. fold (mapM (on_tensor f)) in E.
    destruct (mapM (on_tensor f) l) as [bs|e']; [discriminate|].
    apply IH; [intros y Hy; apply H3; now right|exact E].
Qed.

Lemma cok_eta dv dt c : cok dv dt c -> c = mkCont (c_shapes c) (c_kind c) (c_tensors c) dv dt.
Proof. destruct c as [a b d e f]. intros (H1 & H2 & _). cbn in *. now subst. Qed.

Lemma cont_fill_cok c v copy rg dv dt l : cok dv dt c ->
  (v = VL (map VT l) \/ exists t, v = VT t /\ l = [t]) ->
  Forall (fun t => tdev t = dv /\ tdty t = dt) l -> cok dv dt (fst (cont_fill c v copy rg)).
Proof.
  intros Hc Hv Hl.
  assert (Hrg : forall t, tdev (filled copy rg t) = tdev t /\ tdty (filled copy rg t) = tdty t)
    by (intros t; unfold filled; destruct copy; [destruct rg|]; now split).
  assert (Hcok : forall xs k, Forall (fun t => tdev t = dv /\ tdty t = dt) xs ->
    cok dv dt (mkCont (c_shapes c) k (map VT (map (filled copy rg) xs)) dv dt)).
  { intros xs k Hxs. split; [reflexivity|]. split; [reflexivity|]. cbn. intros x Hx.
    rewrite map_map in Hx. apply in_map_iff in Hx. destruct Hx as (t & <- & Ht).
    rewrite Forall_forall in Hxs. destruct (Hxs t Ht) as [D1 D2]. destruct (Hrg t) as [G1 G2].
    eexists. split; [reflexivity|]. split; congruence. }
  destruct Hv as [->|(t & -> & ->)].
  - destruct l as [|t l].
    + unfold cont_fill. cbn. exact Hc.
    + destruct (cont_fill_list c (t :: l) copy rg) as (dv' & dt' & E & HF).
      * cbn. lia.
      * now exists dv, dt.
      * rewrite E. cbn [fst]. inversion HF as [|? ? [E1 E2] _]; subst.
        inversion Hl as [|? ? [E3 E4] _]; subst. now apply Hcok.
  - inversion Hl as [|? ? [E1 E2] _]; subst.
    unfold cont_fill. cbn [tensors_device tensors_dtype shared_property].
    unfold tensors_device, tensors_dtype, shared_property.
    destruct (Nat.eqb (length (c_shapes c)) 1) eqn:En.
    + cbn [py_iter]. change [VT t] with (map VT [t]). rewrite filled_elems. cbn [fst].
      apply Hcok. repeat constructor.
    + cbn [py_iter]. destruct (shape (tval t)) as [|n sh] eqn:Es.
      * cbn [fst]. rewrite <- (cok_eta _ _ _ Hc). exact Hc.
      * rewrite <- (map_map (trow t) VT). rewrite filled_elems. cbn [fst]. apply Hcok.
        apply Forall_forall. intros x Hx. apply in_map_iff in Hx. destruct Hx as (i & <- & _). now split.
Qed.

Lemma promote_same d : promote d d = d.
Proof. now destruct d. Qed.

Lemma cont_add_cok c v dv dt l : cok dv dt c ->
  (v = VL (map VT l) \/ exists t, v = VT t /\ l = [t]) ->
  Forall (fun t => tdev t = dv /\ tdty t = dt) l -> cok dv dt (fst (cont_add c v)).
Proof.
  intros Hc Hv Hl. unfold cont_add.
  assert (Hin : forall w, py_iter (if Nat.eqb (length (c_shapes c)) 1 then VL [v] else v) = Ok w ->
     forall t, In (VT t) w -> tdev t = dv /\ tdty t = dt).
  { intros w Hw t Ht. rewrite Forall_forall in Hl. destruct (Nat.eqb _ 1).
    - cbn in Hw. injection Hw as <-. destruct Ht as [->|[]].
      destruct Hv as [Hv|(t' & Hv & ->)]; [discriminate|]. injection Hv as ->. apply Hl. now left.
    - destruct Hv as [->|(t' & -> & ->)].
      + cbn in Hw. injection Hw as <-. apply in_map_iff in Ht. destruct Ht as (s & [= ->] & Hs). now apply Hl.
      + cbn in Hw. destruct (shape (tval t')); [discriminate|]. injection Hw as <-.
        apply in_map_iff in Ht. destruct Ht as (i & [= <-] & _). cbn. apply Hl. now left. }
  destruct (py_iter _) as [w|e]; [|exact Hc]. specialize (Hin w eq_refl).
  destruct (mapM _ _) as [ts|e] eqn:E; [|exact Hc].
  destruct Hc as (C1 & C2 & C3). split; [exact C1|]. split; [exact C2|]. cbn.
  intros x Hx. destruct (mapM_in _ _ _ _ E Hx) as ([a b] & Hab & Ex). cbn in Ex.
  pose proof (in_combine_l _ _ _ _ Hab) as Ha. pose proof (in_combine_r _ _ _ _ Hab) as Hb.
  destruct (C3 a Ha) as (s & -> & D1 & D2). destruct b as [|t|lb]; cbn in Ex; try discriminate.
  destruct (Hin t Hb) as [D3 D4]. destruct (String.eqb _ _); [|discriminate]. injection Ex as <-.
  eexists. split; [reflexivity|]. cbn. split; [exact D1|]. rewrite D2, D4. apply promote_same.
Qed.

Lemma cont_negate_cok c dv dt : cok dv dt c -> cok dv dt (fst (cont_negate c)).
Proof.
  intros (C1 & C2 & C3). unfold cont_negate. destruct (mapM _ _) as [ts|e] eqn:E; [|now split].
  split; [exact C1|]. split; [exact C2|]. cbn. intros x Hx.
  destruct (mapM_in _ _ _ _ E Hx) as (a & Ha & Ex). destruct (C3 a Ha) as (s & -> & D1 & D2).
  injection Ex as <-. eexists. split; [reflexivity|]. now split.
Qed.

Lemma in_replace {A} (l : list A) i (y x : A) :
  In x (firstn i l ++ y :: skipn (S i) l) -> x = y \/ In x l.
Proof.
  intros H. apply in_app_or in H. destruct H as [H|[H|H]].
  - right. rewrite <- (firstn_skipn i l). apply in_or_app. now left.
  - now left.
  - right. rewrite <- (firstn_skipn (S i) l). apply in_or_app. now right.
Qed.

Lemma cont_requires_cok c rg i dv dt : cok dv dt c -> cok dv dt (fst (cont_requires_grad rg i c)).
Proof.
  intros Hc. unfold cont_requires_grad. destruct (Z.eqb i (-1)).
  - rewrite (cok_eta _ _ _ Hc). refine (proj2 (cont_map_cok KList (set_rg rg) dv dt dv dt c Hc _)).
    intros t H1 H2. now split.
  - destruct (_ || _)%bool; [exact Hc|].
    destruct (nth_error _ _) as [[|t|l]|] eqn:E; try exact Hc.
    destruct (c_kind c) eqn:Ek; [exact Hc|].
    destruct Hc as (C1 & C2 & C3). split; [exact C1|]. split; [exact C2|]. cbn.
    intros x Hx. apply in_replace in Hx. destruct Hx as [->|Hx]; [|now apply C3].
    apply nth_error_In in E. destruct (C3 _ E) as (s & [= <-] & D1 & D2).
    eexists. split; [reflexivity|]. now split.
Qed.

Lemma cont_zeros_cok c rg dv dt : cok dv dt c -> cok dv dt (cont_fill_zeros rg c).
Proof.
  intros (C1 & C2 & C3). split; [exact C1|]. split; [exact C2|]. cbn. intros x Hx.
  apply in_map_iff in Hx. destruct Hx as (sh & <- & _). eexists. split; [reflexivity|]. now split.
Qed.

Lemma cont_randn_cok c rnd rg dv dt : cok dv dt c -> cok dv dt (cont_fill_randn rnd rg c).
Proof.
  intros (C1 & C2 & C3). split; [exact C1|]. split; [exact C2|]. cbn.
  generalize 0. induction (c_shapes c) as [|sh shs IH]; intros i x Hx; [destruct Hx|].
  destruct Hx as [<-|Hx]; [|eapply IH; exact Hx]. eexists. split; [reflexivity|]. now split.
Qed.

Lemma consistent_cok lf : leaf_consistent lf <-> forall p, cok (l_dev lf) (l_dty lf) (get_part p lf).
Proof. split; intros H p; exact (H p). Qed.

Lemma consistent_set p c lf : leaf_consistent lf -> cok (l_dev lf) (l_dty lf) c -> leaf_consistent (set_part p c lf).
Proof.
  intros H Hc q. destruct p, q; cbn; (exact Hc || apply (H Gd) || apply (H Tan) || apply (H Cotan)).
Qed.

Lemma leaf_all_cok f dv dt dv' dt' lf :
  (forall c, cok dv dt c -> snd (f c) = None /\ cok dv' dt' (fst (f c))) ->
  l_dev lf = dv' -> l_dty lf = dt' -> (forall p, cok dv dt (get_part p lf)) ->
  leaf_consistent (fst (leaf_all f lf)) /\ snd (leaf_all f lf) = None.
Proof.
  intros Hf E1 E2 H. unfold leaf_all.
  destruct (Hf (l_gd lf) (H Gd)) as [Hn1 Hg]. destruct (f (l_gd lf)) as [g eg]. cbn in Hn1, Hg. subst eg.
  destruct (Hf (l_tan lf) (H Tan)) as [Hn2 Ht]. destruct (f (l_tan lf)) as [t et]. cbn in Hn2, Ht. subst et.
  destruct (Hf (l_cotan lf) (H Cotan)) as [Hn3 Hct]. destruct (f (l_cotan lf)) as [ct ect]. cbn in Hn3, Hct. subst ect.
  cbn. split; [|reflexivity]. intros [| |]; cbn; rewrite E1, E2; assumption.
Qed.

Lemma leaf_step_consistent o lf : leaf_consistent lf ->
  match o with OFill _ v _ _ | OAdd _ v => arg_matches lf v | _ => True end ->
  exists lf', fst (step (MLeaf lf) o) = MLeaf lf' /\ leaf_consistent lf'.
Proof.
  intros Hc Hm. destruct o as [p v copy rg|p v|p|p rg i|p rg|p rnd rg|a]; cbn [step].
  - destruct Hm as (l & Hv & Hl). unfold fill, fill_sk.
    pose proof (cont_fill_cok (get_part p lf) v copy rg _ _ l (Hc p) Hv Hl) as H.
    unfold leaf_fill. destruct (cont_fill (get_part p lf) v copy rg) as [c [e|]]; cbn in H |- *.
    + eexists. split; [reflexivity|]. now apply consistent_set.
    + eexists. split; [reflexivity|]. apply (consistent_set p c lf Hc) in H.
      intros q. rewrite get_part_mdev. apply H.
  - destruct Hm as (l & Hv & Hl). unfold add.
    pose proof (cont_add_cok (get_part p lf) v _ _ l (Hc p) Hv Hl) as H.
    destruct (cont_add (get_part p lf) v) as [c e]. cbn in H |- *.
    eexists. split; [reflexivity|]. now apply consistent_set.
  - cbn. pose proof (cont_negate_cok (get_part p lf) _ _ (Hc p)) as H.
    destruct (cont_negate (get_part p lf)) as [c e]. cbn in H |- *.
    eexists. split; [reflexivity|]. now apply consistent_set.
  - cbn. pose proof (cont_requires_cok (get_part p lf) rg i _ _ (Hc p)) as H.
    destruct (cont_requires_grad rg i (get_part p lf)) as [c e]. cbn in H |- *.
    eexists. split; [reflexivity|]. now apply consistent_set.
  - cbn. eexists. split; [reflexivity|]. apply consistent_set; [exact Hc|]. apply cont_zeros_cok, Hc.
  - cbn. eexists. split; [reflexivity|]. apply consistent_set; [exact Hc|]. apply cont_randn_cok, Hc.
  - assert (HD : forall d, leaf_consistent (fst (leaf_set_device d lf))).
    { intros d. unfold leaf_set_device. eapply (leaf_all_cok _ (l_dev lf) (l_dty lf) d (l_dty lf)).
      - intros c Hcc. unfold cont_to_device. destruct Hcc as (C1 & C2 & C3). rewrite C2.
        apply (cont_map_cok KList (set_dev d) (l_dev lf) (l_dty lf)); [now split|].
        intros t H1 H2. now split.
      - reflexivity.
      - reflexivity.
      - intros p. destruct p; [apply (Hc Gd)|apply (Hc Tan)|apply (Hc Cotan)]. }
    assert (HT : forall d, leaf_consistent (fst (leaf_set_dtype d lf))).
    { intros d. unfold leaf_set_dtype. eapply (leaf_all_cok _ (l_dev lf) (l_dty lf) (l_dev lf) d).
      - intros c Hcc. unfold cont_to_dtype. destruct Hcc as (C1 & C2 & C3). rewrite C1.
        apply (cont_map_cok KList (set_dty d) (l_dev lf) (l_dty lf)); [now split|].
        intros t H1 H2. now split.
      - reflexivity.
      - reflexivity.
      - intros p. destruct p; [apply (Hc Gd)|apply (Hc Tan)|apply (Hc Cotan)]. }
    destruct a as [d|t| |]; cbn.
    + specialize (HD d). destruct (leaf_set_device d lf) as [l' e]. eexists. split; [reflexivity|exact HD].
    + specialize (HT t). destruct (leaf_set_dtype t lf) as [l' e]. eexists. split; [reflexivity|exact HT].
    + specialize (HD "cpu"%string). destruct (leaf_set_device _ lf) as [l' e]. eexists. split; [reflexivity|exact HD].
    + eexists. split; [reflexivity|exact Hc].
Qed.

Lemma history_consistent ops lf : leaf_consistent lf -> matching_history ops lf ->
  exists lf', exec ops (MLeaf lf) = MLeaf lf' /\ leaf_consistent lf'.
Proof.
  revert lf. induction ops as [|o ops IH]; intros lf Hc Hm; [now exists lf|].
  cbn [matching_history] in Hm. destruct Hm as [Ho Hm].
  destruct (leaf_step_consistent o lf Hc Ho) as (lf1 & E & H1). rewrite E in Hm.
  destruct (IH lf1 H1 Hm) as (lf' & E' & H'). exists lf'. split; [|exact H'].
  unfold exec in *. cbn. now rewrite E.
Qed.

Lemma consistent_truthful lf : leaf_consistent lf -> leaf_truthful lf.
Proof. intros H p x Hx. now apply (H p). Qed.

Lemma cont_init_cok shapes dv dt : cok dv dt (cont_init shapes dv dt).
Proof.
  split; [reflexivity|]. split; [reflexivity|]. cbn. intros x Hx.
  apply in_map_iff in Hx. destruct Hx as (sh & <- & _). eexists. split; [reflexivity|]. now split.
Qed.

(** A manifold built without tensors is consistent. *)
Lemma fresh_consistent ddt shapes nb dv dt lf :
  leaf_init ddt shapes nb VNone VNone VNone dv dt = Ok lf -> leaf_consistent lf.
Proof.
  cbn. intros H. injection H as <-. intros [| |]; cbn; apply cont_init_cok.
Qed.

(** A manifold built from tensors which agree with each other, the device and the dtype
    being inferred, is consistent. *)
Lemma init_made ddt shapes nb g t c dv dt lf :
  leaf_init ddt shapes nb g t c dv dt = Ok lf -> leaf_made lf /\ l_shapes lf = shapes /\ l_nb lf = nb.
Proof.
  unfold leaf_init.
  match goal with |- bind ?X _ = _ -> _ => destruct X as [[dv' dt']|e]; [cbn [bind]|discriminate] end.
  set (c0 := cont_init (leaf_shape_gd shapes nb) dv' dt').
  assert (HF : forall v c', match v with
                | VNone => Ok c0
                | _ => match cont_fill c0 v false (Some false) with
                       | (c', None) => Ok c'
                       | (_, Some e) => Err e
                       end
                end = Ok c' -> c_shapes c' = leaf_shape_gd shapes nb).
  { intros v c' H. pose proof (cont_fill_shapes c0 v false (Some false)) as Hs.
    destruct v; [injection H as <-; reflexivity| |];
      destruct (cont_fill c0 _ false (Some false)) as [c1 [e|]]; try discriminate; injection H as <-; exact Hs. }
  match goal with |- bind ?X _ = _ -> _ => destruct X as [cg|e] eqn:Eg; [cbn [bind]|discriminate] end.
  match goal with |- bind ?X _ = _ -> _ => destruct X as [ct|e] eqn:Et; [cbn [bind]|discriminate] end.
  match goal with |- bind ?X _ = _ -> _ => destruct X as [cc|e] eqn:Ec; [cbn [bind]|discriminate] end.
  intros H. injection H as <-. split; [|now split].
  apply HF in Eg, Et, Ec. intros [| |]; cbn; assumption.
Qed.

(** ** Recording flags *)
Lemma requires_list c rg (i : nat) t : c_kind c = KList -> nth_error (c_tensors c) i = Some (VT t) ->
  cont_requires_grad rg (Z.of_nat i) c =
    (mkCont (c_shapes c) KList (firstn i (c_tensors c) ++ VT (set_rg rg t) :: skipn (S i) (c_tensors c))
       (c_dev c) (c_dty c), None).
Proof.
  intros Hk Hn. unfold cont_requires_grad.
  assert (Hi : i < length (c_tensors c)) by (apply nth_error_Some; congruence).
  destruct (Z.eqb_spec (Z.of_nat i) (-1)); [lia|].
  destruct (Z.ltb_spec (Z.of_nat i) 0); [lia|]. cbn [orb].
  destruct (Z.ltb_spec (Z.of_nat i) 0); [lia|].
  destruct (Z.leb_spec (Z.of_nat (length (c_tensors c))) (Z.of_nat i)); [lia|]. cbn [orb].
  rewrite Nat2Z.id, Hn, Hk. reflexivity.
Qed.

Lemma requires_tuple c rg (i : nat) t : c_kind c = KTuple -> nth_error (c_tensors c) i = Some (VT t) ->
  cont_requires_grad rg (Z.of_nat i) c = (c, Some TypeError).
Proof.
  intros Hk Hn. unfold cont_requires_grad.
  assert (Hi : i < length (c_tensors c)) by (apply nth_error_Some; congruence).
  destruct (Z.eqb_spec (Z.of_nat i) (-1)); [lia|].
  destruct (Z.ltb_spec (Z.of_nat i) 0); [lia|].
  destruct (Z.ltb_spec (Z.of_nat i) 0); [lia|].
  destruct (Z.leb_spec (Z.of_nat (length (c_tensors c))) (Z.of_nat i)); [lia|]. cbn [orb].
  rewrite Nat2Z.id, Hn, Hk. reflexivity.
Qed.

Lemma fill_kind c v copy rg c' : cont_fill c v copy rg = (c', None) -> c_kind c' = KTuple.
Proof.
  unfold cont_fill.
  destruct (tensors_device v) as [[dv|]|e]; try discriminate.
  destruct (tensors_dtype v) as [[dt|]|e]; try discriminate.
  destruct (py_iter _) as [l|e]; try discriminate.
  destruct (if copy then _ else @Ok (list pyv) _); [|discriminate].
  intros H. injection H as <-. reflexivity.
Qed.

Lemma map_kind k f c c' : cont_map k f c = (c', None) -> c_kind c' = k.
Proof. unfold cont_map. destruct mapM; [|discriminate]. intros H. now injection H as <-. Qed.

(** ** Failing fills *)
Lemma fill_error_tensors c v copy rg c' e : cont_fill c v copy rg = (c', Some e) ->
  c_tensors c' = c_tensors c /\ c_shapes c' = c_shapes c /\ c_kind c' = c_kind c.
Proof.
  unfold cont_fill.
  destruct (tensors_device v) as [[dv|]|e1]; try (intros H; injection H as <- _; now repeat split).
  destruct (tensors_dtype v) as [[dt|]|e1]; try (intros H; injection H as <- _; now repeat split).
  destruct (py_iter _) as [l|e1]; try (intros H; injection H as <- _; now repeat split).
  destruct (if copy then _ else @Ok (list pyv) _); [discriminate|]. intros H; injection H as <- _; now repeat split.
Qed.

Lemma fill_device_error c v copy rg : 
  (forall d, tensors_device v <> Ok (Some d)) ->
  exists e, cont_fill c v copy rg = (c, Some e).
Proof.
  intros H. unfold cont_fill. destruct (tensors_device v) as [[d|]|e].
  - now destruct (H d).
  - now eexists.
  - now eexists.
Qed.

Lemma fill_mixed_dtype c v copy rg dv : tensors_device v = Ok (Some dv) -> tensors_dtype v = Ok None ->
  cont_fill c v copy rg =
    (mkCont (c_shapes c) (c_kind c) (c_tensors c) dv (c_dty c), Some RuntimeError).
Proof. intros H1 H2. unfold cont_fill. now rewrite H1, H2. Qed.

(** ** Sizes *)
Lemma numel_shaped m : all_leaves (leaf_shaped Gd) m -> no_empty m ->
  exists l, unroll Gd m = map VT l /\ length l = len_gd m /\
    numel_gd m = map (fun t => prod (shape (tval t))) l.
Proof.
  induction m as [lf|n dv dt|dv dt ms IH] using man_ind'; intros H Hn.
  - inversion H as [? (l & E & Hs)| |]; subst. exists l. split; [exact E|]. cbn. split.
    + rewrite <- (map_length (fun t => shape (tval t)) l), Hs. unfold leaf_shape_gd. apply map_length.
    + rewrite <- Hs, map_map. reflexivity.
  - inversion Hn.
  - inversion H as [| |? ? ? Hms]; subst. inversion Hn as [|? ? ? Hns]; subst. clear H Hn. cbn.
    induction IH as [|m ms Hm HI IHms]; [exists []; now repeat split|].
    inversion Hms; subst. inversion Hns; subst.
    destruct Hm as (l & E & L & N); auto. destruct IHms as (l' & E' & L' & N'); auto.
    exists (l ++ l'). cbn. rewrite E, E', N, N', !map_app, app_length. fold (list_sum (map len_gd ms)).
    repeat split. lia.
Qed.

Lemma slices_flat l : slices (map (fun t => prod (shape t)) l) (List.concat (map flat l)) = map flat l.
Proof.
  induction l as [|t l IH]; [reflexivity|]. cbn [map slices List.concat].
  assert (L : prod (shape t) = length (flat t)) by (unfold flat; now rewrite map_length, seq_length).
  rewrite L, firstn_app, Nat.sub_diag, firstn_O, firstn_all, app_nil_r.
  rewrite skipn_app, Nat.sub_diag, skipn_O, skipn_all. cbn [app]. now rewrite IH.
Qed.

Lemma numel_slices m : all_leaves (leaf_shaped Gd) m -> no_empty m ->
  exists l, unroll Gd m = map VT l /\ length l = len_gd m /\ length (numel_gd m) = len_gd m /\
    numel_gd m = map (fun t => prod (shape (tval t))) l /\
    slices (numel_gd m) (List.concat (map (fun t => flat (tval t)) l)) = map (fun t => flat (tval t)) l.
Proof.
  intros H Hn. destruct (numel_shaped m H Hn) as (l & E & L & N). exists l.
  split; [exact E|]. split; [exact L|]. split; [rewrite N, map_length; exact L|]. split; [exact N|].
  rewrite N. rewrite <- (map_map tval (fun t => prod (shape t))), <- (map_map tval flat). apply slices_flat.
Qed.

(** With manifolds without points the numbers of entries do not agree, but the sizes
    still add up. *)
Lemma numel_sum m : all_leaves (leaf_shaped Gd) m ->
  exists l, unroll Gd m = map VT l /\ list_sum (numel_gd m) = list_sum (map (fun t => prod (shape (tval t))) l).
Proof.
  induction m as [lf|n dv dt|dv dt ms IH] using man_ind'; intros H.
  - inversion H as [? (l & E & Hs)| |]; subst. exists l. split; [exact E|]. cbn.
    rewrite <- Hs, map_map. reflexivity.
  - exists []. now split.
  - inversion H as [| |? ? ? Hms]; subst. clear H. cbn [unroll numel_gd].
    induction IH as [|m ms Hm HI IHms]; [exists []; now repeat split|].
    inversion Hms; subst. destruct Hm as (l & E & N); auto. destruct IHms as (l' & E' & N'); auto.
    exists (l ++ l'). cbn [flat_map]. rewrite E, E', !map_app. split; [reflexivity|]. rewrite !list_sum_app. lia.
Qed.
