(** Proofs for PropStorage.v. *)
From Coq Require Import Reals String List Arith Bool Lia.
From Verif Require Import Py Tensor ManifoldModel SpecManifold ManifoldFacts ManifoldState PropManifoldAux SpecStorage.
Import ListNotations.
Open Scope list_scope.
Open Scope nat_scope.

(** ** The constructor *)
Section Shared.
  Context {P : Type} (eqb : P -> P -> bool) (prop : tob -> P).
  Hypothesis EQ : forall a b, eqb a b = true <-> a = b.
  Lemma shared_same l x : l <> [] -> Forall (fun t => prop t = x) l -> shared_property eqb prop (VL (map VT l)) = Ok (Some x).
  Proof.
    intros NE H. rewrite shared_VL. destruct l as [|t l]; [congruence|]. inversion H as [|? ? E H']; subst.
    replace (forallb _ l) with true; [reflexivity|]. symmetry. apply forallb_forall. intros s S. rewrite Forall_forall in H'. apply EQ. exact (H' s S).
  Qed.
  Lemma shared_differ l : differ prop l -> shared_property eqb prop (VL (map VT l)) = Ok None.
  Proof.
    intros (s & t & S & T & N). rewrite shared_VL. destruct l as [|u l]; [destruct S|].
    destruct (forallb _ l) eqn:E; [exfalso|reflexivity]. rewrite forallb_forall in E. apply N.
    assert (X : forall x, In x (u :: l) -> prop x = prop u) by (intros x [<-|I]; [reflexivity|apply EQ; exact (E x I)]). rewrite (X s S), (X t T). reflexivity.
  Qed.
End Shared.

Lemma device_eqb a b : String.eqb a b = true <-> a = b.
Proof. apply String.eqb_eq. Qed.

Lemma flat_VT l : flat_map flatten_tensors (map VT l) = l.
Proof. induction l as [|a l IH]; [reflexivity|]. cbn. f_equal. exact IH. Qed.
Lemma flat_optional n v l : optional n v l -> flatten_tensors v = l.
Proof. intros [(-> & ->)|[(_ & t & -> & ->)|(_ & _ & ->)]]; cbn; [reflexivity|reflexivity|apply flat_VT]. Qed.
Lemma flat_three n g t c lg lt lc : optional n g lg -> optional n t lt -> optional n c lc -> flatten_tensors (VL [g; t; c]) = lg ++ lt ++ lc.
Proof. intros G T C. cbn. rewrite (flat_optional n g lg G), (flat_optional n t lt T), (flat_optional n c lc C), app_nil_r. reflexivity. Qed.

Lemma not_none n v l : optional n v l -> v <> VNone -> l <> [].
Proof. intros [(-> & _)|[(_ & t & -> & ->)|(N & L & ->)]] NE; [congruence|discriminate|intros ->; cbn in L; lia]. Qed.

(** What one of the three fills of the constructor does. *)
Definition given_fill (c : cont) (v : pyv) : res cont :=
  match v with
  | VNone => Ok c
  | _ => match cont_fill c v false (Some false) with (c', None) => Ok c' | (_, Some e) => Err e end
  end.
Lemma fill_agrees c v l n : optional n v l -> length (c_shapes c) = n -> uniform l ->
  exists c', given_fill c v = Ok c' /\ c_shapes c' = c_shapes c /\ c_tensors c' = match v with VNone => c_tensors c | _ => map VT l end.
Proof.
  intros [(-> & ->)|[(N & t & -> & ->)|(N & L & ->)]] LC U.
  - exists c. auto.
  - unfold given_fill. rewrite cont_fill_one by congruence. eexists. split; [reflexivity|]. cbn. auto.
  - unfold given_fill. destruct (cont_fill_list c l false (Some false) ltac:(lia) U) as (dv & dt & E & _). rewrite E. eexists. split; [reflexivity|]. cbn. rewrite map_id. auto.
Qed.
Lemma fill_differs c v l n : optional n v l -> differ tdev l \/ (~ differ tdev l /\ differ tdty l) -> given_fill c v = Err RuntimeError.
Proof.
  intros O D. assert (ND : forall P (f : tob -> P) t, ~ differ f [t]) by (intros P f t (a & b & [<-|[]] & [<-|[]] & N); apply N; reflexivity).
  assert (NN : forall P (f : tob -> P), ~ differ f []) by (intros P f (a & b & [] & _)).
  destruct O as [(-> & ->)|[(N & t & -> & ->)|(N & L & ->)]].
  - destruct D as [D|(_ & D)]; destruct (NN _ _ D).
  - destruct D as [D|(_ & D)]; destruct (ND _ _ _ D).
  - unfold given_fill, cont_fill, tensors_device, tensors_dtype. destruct D as [D|(D1 & D)].
    + rewrite (shared_differ String.eqb tdev device_eqb l D). reflexivity.
    + destruct l as [|t l]; [destruct (NN _ _ D)|]. rewrite (shared_same String.eqb tdev device_eqb (t :: l) (tdev t)).
      * rewrite (shared_differ dtype_eqb tdty dtype_eqb_eq (t :: l) D). reflexivity.
      * discriminate.
      * apply Forall_forall. intros x X. destruct (string_dec (tdev x) (tdev t)) as [E|E]; [exact E|]. destruct D1. exists x, t. split; [exact X|]. split; [left; reflexivity|exact E].
Qed.
Lemma uniform_dec l : uniform l \/ differ tdev l \/ (~ differ tdev l /\ differ tdty l).
Proof.
  destruct l as [|t l]; [left; apply uniform_nil|].
  destruct (forallb (fun s => String.eqb (tdev s) (tdev t)) l) eqn:E1.
  - assert (X : forall x, In x (t :: l) -> tdev x = tdev t) by (rewrite forallb_forall in E1; intros x [<-|I]; [reflexivity|apply String.eqb_eq; exact (E1 x I)]).
    assert (ND : ~ differ tdev (t :: l)) by (intros (a & b & A & B & N); apply N; rewrite (X a A), (X b B); reflexivity).
    destruct (forallb (fun s => dtype_eqb (tdty s) (tdty t)) l) eqn:E2.
    + left. exists (tdev t), (tdty t). apply Forall_forall. intros x I. split; [exact (X x I)|]. rewrite forallb_forall in E2. destruct I as [<-|I]; [reflexivity|apply dtype_eqb_eq; exact (E2 x I)].
    + right. right. split; [exact ND|]. assert (Q : ~ forall x, In x l -> dtype_eqb (tdty x) (tdty t) = true) by (intros Q; apply forallb_forall in Q; congruence).
      clear -Q. induction l as [|a l IH]; [destruct Q; intros x []|]. destruct (dtype_eqb (tdty a) (tdty t)) eqn:E.
      * destruct IH as (x & y & I & J & N); [intros H; apply Q; intros x [<-|I]; [exact E|exact (H x I)]|]. exists x, y. split; [destruct I as [<-|I]; [left|right; right]; auto|]. split; [destruct J as [<-|J]; [left|right; right]; auto|exact N].
      * exists a, t. split; [right; left; reflexivity|]. split; [left; reflexivity|]. intros C. apply dtype_eqb_eq in C. congruence.
  - right. left. assert (Q : ~ forall x, In x l -> String.eqb (tdev x) (tdev t) = true) by (intros Q; apply forallb_forall in Q; congruence).
    clear -Q. induction l as [|a l IH]; [destruct Q; intros x []|]. destruct (String.eqb (tdev a) (tdev t)) eqn:E.
    + destruct IH as (x & y & I & J & N); [intros H; apply Q; intros x [<-|I]; [exact E|exact (H x I)]|]. exists x, y. split; [destruct I as [<-|I]; [left|right; right]; auto|]. split; [destruct J as [<-|J]; [left|right; right]; auto|exact N].
    + exists a, t. split; [right; left; reflexivity|]. split; [left; reflexivity|]. intros C. rewrite C, String.eqb_refl in E. discriminate.
Qed.
Lemma fill_either c v l n : optional n v l -> length (c_shapes c) = n -> (exists c', given_fill c v = Ok c') \/ given_fill c v = Err RuntimeError.
Proof. intros O L. destruct (uniform_dec l) as [U|D]; [left; destruct (fill_agrees c v l n O L U) as (c' & E & _); exists c'; exact E|right; exact (fill_differs c v l n O D)]. Qed.

Definition find_one {P} (eqb : P -> P -> bool) (prop : tob -> P) (given : option P) (l : list tob) : res P :=
  match given with
  | Some d => Ok d
  | None => o <- shared_property eqb prop (VL (map VT l)) ;; match o with Some d => Ok d | None => Err RuntimeError end
  end.
Lemma find_settled {P} (eqb : P -> P -> bool) prop given l x : (forall a b, eqb a b = true <-> a = b) -> settled prop given l x -> find_one eqb prop given l = Ok x.
Proof. intros EQ S. unfold find_one, settled in *. destruct given as [y|]; [subst; reflexivity|]. destruct S as (NE & F). rewrite (shared_same eqb prop EQ l x NE F). reflexivity. Qed.
Lemma find_differ {P} (eqb : P -> P -> bool) prop l : (forall a b, eqb a b = true <-> a = b) -> differ prop l -> find_one eqb prop None l = Err RuntimeError.
Proof. intros EQ D. unfold find_one. rewrite (shared_differ eqb prop EQ l D). reflexivity. Qed.

Definition dtype_dec (a b : dtype) : {a = b} + {a <> b}.
Proof. decide equality. Defined.
Lemma find_either {P} (eqb : P -> P -> bool) prop given l : (forall a b : P, {a = b} + {a <> b}) -> (forall a b, eqb a b = true <-> a = b) -> l <> [] ->
  (exists x, find_one eqb prop given l = Ok x /\ ~ (given = None /\ differ prop l)) \/ find_one eqb prop given l = Err RuntimeError.
Proof.
  intros DEC EQ NE. destruct given as [x|]; [left; exists x; split; [reflexivity|intros (X & _); discriminate X]|]. destruct l as [|t l]; [congruence|].
  destruct (Forall_dec (fun x => prop x = prop t) (fun x => DEC (prop x) (prop t)) (t :: l)) as [F|F].
  - left. exists (prop t). split; [apply (find_settled eqb prop None (t :: l) (prop t) EQ); split; assumption|]. intros (_ & x & y & X & Y & N). rewrite Forall_forall in F. apply N. rewrite (F x X), (F y Y). reflexivity.
  - right. apply (find_differ eqb prop (t :: l) EQ). apply Exists_Forall_neg in F; [|intros x; destruct (DEC (prop x) (prop t)); [left|right]; assumption].
    apply Exists_exists in F. destruct F as (x & X & N). exists x, t. split; [exact X|]. split; [left; reflexivity|exact N].
Qed.

Definition all_none (g t c : pyv) : bool := match g, t, c with VNone, VNone, VNone => true | _, _, _ => false end.
Lemma leaf_init_eq ddt shapes nb g t c lg lt lc dv dt : optional (length shapes) g lg -> optional (length shapes) t lt -> optional (length shapes) c lc -> all_none g t c = false ->
  leaf_init ddt shapes nb g t c dv dt =
    (D <- find_one String.eqb tdev dv (lg ++ lt ++ lc) ;; T <- find_one dtype_eqb tdty dt (lg ++ lt ++ lc) ;;
     let k := cont_init (leaf_shape_gd shapes nb) D T in
     g' <- given_fill k g ;; t' <- given_fill k t ;; c' <- given_fill k c ;; Ok (mkLeaf shapes nb D T None g' t' c')).
Proof.
  intros G T C N. unfold leaf_init. replace (_ && _ && _)%bool with false by (destruct g, t, c; cbn in *; congruence).
  rewrite (flat_three (length shapes) g t c lg lt lc G T C). unfold find_one, tensors_device, tensors_dtype.
  destruct dv as [D|]; [|destruct (shared_property String.eqb tdev _) as [[D|]|e]; try reflexivity]; cbn [bind];
    (destruct dt as [T'|]; [|destruct (shared_property dtype_eqb tdty _) as [[T'|]|e]; try reflexivity]); reflexivity.
Qed.

(** ** Copies *)
Lemma full_list p lf : leaf_full p lf -> exists l, c_tensors (get_part p lf) = map VT l /\ 1 <= length l /\ uniform l.
Proof. intros (l & E & _ & L & U). exists l. auto. Qed.
Lemma container_clone c l : c_tensors c = map VT l -> 1 <= length l -> uniform l ->
  exists dv dt, cont_clone c = Ok (mkCont (c_shapes c) KTuple (c_tensors c) dv dt) /\ Forall (fun t => tdev t = dv /\ tdty t = dt) l.
Proof.
  intros E L U. unfold cont_clone. rewrite E. destruct (cont_fill_list (cont_init (c_shapes c) (c_dev c) (c_dty c)) l true None L U) as (dv & dt & F & A). rewrite F.
  exists dv, dt. split; [|exact A]. cbn. replace (map (filled true None) l) with l by (symmetry; apply map_id). reflexivity.
Qed.
Lemma requires_all rg c l : c_tensors c = map VT l -> cont_requires_grad rg (-1)%Z c = (mkCont (c_shapes c) KList (map VT (map (set_rg rg) l)) (c_dev c) (c_dty c), None).
Proof. intros E. unfold cont_requires_grad. cbn. unfold cont_map. rewrite E, mapM_map, (mapM_ok _ (fun t => VT (set_rg rg t))) by reflexivity. rewrite map_map. reflexivity. Qed.

Lemma all_leaves_and (P Q : leaf -> Prop) m : all_leaves P m -> all_leaves Q m -> all_leaves (fun l => P l /\ Q l) m.
Proof.
  induction m as [l|n dv dt|dv dt ms IH] using man_ind'; intros A B; inversion A; subst; inversion B; subst; constructor; auto.
  clear A B. induction IH; [constructor|]. inversion H0; subst. inversion H1; subst. constructor; auto.
Qed.
Lemma all_leaves_impl (P Q : leaf -> Prop) m : (forall l, P l -> Q l) -> all_leaves P m -> all_leaves Q m.
Proof.
  intros I. induction m as [l|n dv dt|dv dt ms IH] using man_ind'; intros A; inversion A; subst; constructor; auto.
  clear A. induction IH; [constructor|]. inversion H0; subst. constructor; auto.
Qed.
Definition leaf_whole (l : leaf) : Prop := leaf_made l /\ forall p, leaf_full p l.
Lemma whole_leaves m : whole m -> all_leaves leaf_whole m.
Proof.
  intros (A & B). pose proof (all_leaves_and _ _ m A (all_leaves_and _ _ m (B Gd) (all_leaves_and _ _ m (B Tan) (B Cotan)))) as X.
  revert X. apply all_leaves_impl. intros l (H & G & T & C). split; [exact H|]. intros [| |]; assumption.
Qed.

Lemma leaf_cloned rg l : leaf_whole l -> exists l', leaf_clone rg l = Ok l' /\ copied (set_rg rg) (fun d => d) (fun t => t) (MLeaf l) (MLeaf l') /\ leaf_made l'.
Proof.
  intros (M & F). destruct (full_list Gd l (F Gd)) as (g & Eg & Lg & Ug). destruct (full_list Tan l (F Tan)) as (t & Et & Lt & Ut). destruct (full_list Cotan l (F Cotan)) as (c & Ec & Lc & Uc). cbn [get_part] in Eg, Et, Ec.
  destruct (container_clone _ g Eg Lg Ug) as (d1 & t1 & C1 & _). destruct (container_clone _ t Et Lt Ut) as (d2 & t2 & C2 & _). destruct (container_clone _ c Ec Lc Uc) as (d3 & t3 & C3 & _).
  unfold leaf_clone. rewrite C1, C2, C3. cbn [bind].
  rewrite (requires_all rg _ g), (requires_all rg _ t), (requires_all rg _ c) by assumption. cbn [bind]. eexists. split; [reflexivity|]. split.
  - constructor; try reflexivity. intros p ts E. destruct p; cbn [get_part c_tensors l_gd l_tan l_cotan] in *; rewrite E in *; [apply map_VT_inj in Eg|apply map_VT_inj in Et|apply map_VT_inj in Ec]; subst; reflexivity.
  - intros p. destruct p; cbn; [apply (M Gd)|apply (M Tan)|apply (M Cotan)].
Qed.
Lemma copied_device f D T m m' : copied f D T m m' -> peopled m -> exists d, man_device m = Ok d /\ man_device m' = Ok (D d).
Proof.
  revert m'. induction m as [l|n dv dt|dv dt ms IH] using man_ind'; intros m' C P; inversion C as [? ? E1 E2 E3 _ _|?|? ? ? ? ? ms' F]; subst.
  - exists (Some (l_dev l)). cbn. rewrite E3. auto.
  - exists dv. auto.
  - inversion P as [| |? ? ? NE PS]; subst. destruct ms as [|m ms]; [congruence|]. inversion F; subst. inversion IH; subst. inversion PS; subst. cbn. apply H2; assumption.
Qed.
Lemma clone_copied rg m : all_leaves leaf_whole m -> peopled m -> exists m', clone rg m = Ok m' /\ copied (set_rg rg) (fun d => d) (fun t => t) m m' /\ all_leaves leaf_made m'.
Proof.
  induction m as [l|n dv dt|dv dt ms IH] using man_ind'; intros W P.
  - inversion W; subst. destruct (leaf_cloned rg l) as (l' & E & C & M); [assumption|]. exists (MLeaf l'). cbn. rewrite E. cbn. split; [reflexivity|]. split; [exact C|constructor; exact M].
  - exists (MEmpty n dv dt). split; [reflexivity|]. split; [constructor|constructor].
  - inversion W as [| |? ? ? WS]; subst. inversion P as [| |? ? ? NE PS]; subst. clear W P.
    assert (X : exists ms', mapM (clone rg) ms = Ok ms' /\ Forall2 (copied (set_rg rg) (fun d => d) (fun t => t)) ms ms' /\ Forall (all_leaves leaf_made) ms').
    { clear NE. induction IH as [|m ms Hm _ IHms]; [exists []; repeat split; constructor|]. inversion WS; subst. inversion PS; subst. destruct (Hm H1 H3) as (m' & E & C & M). destruct (IHms H2 H4) as (ms' & E' & C' & M').
      exists (m' :: ms'). cbn. rewrite E. cbn. rewrite E'. cbn. split; [reflexivity|]. split; constructor; assumption. }
    destruct X as (ms' & E & C & M). cbn. rewrite E. cbn [bind]. unfold comp_init.
    assert (Y : exists ds, mapM man_device ms' = Ok ds).
    { clear -C PS. induction C as [|m m' ms ms' H _ IH]; [eexists; reflexivity|]. inversion PS; subst. destruct (copied_device _ _ _ _ _ H H2) as (d & _ & Ed). destruct (IH H3) as (ds & Eds). eexists (_ :: ds). cbn. rewrite Ed. cbn. rewrite Eds. reflexivity. }
    destruct Y as (ds & Y). rewrite Y. cbn [bind]. eexists. split; [reflexivity|]. split; constructor; assumption.
Qed.

(** What a copy has in common with the original. *)
Lemma copied_sizes f D T m m' : copied f D T m m' -> nb_pts m' = nb_pts m /\ len_gd m' = len_gd m /\ numel_gd m' = numel_gd m.
Proof.
  revert m'. induction m as [l|n dv dt|dv dt ms IH] using man_ind'; intros m' C; inversion C as [? ? E1 E2 _ _ _|?|? ? ? ? ? ms' F]; subst.
  - cbn. rewrite E1, E2. auto.
  - cbn. auto.
  - cbn. clear C. revert ms' F. induction IH as [|m ms Hm _ IHms]; intros ms' F; inversion F as [|? m' ? ms'' F1 F2]; subst; [auto|].
    destruct (Hm m' F1) as (A & B & C). destruct (IHms ms'' F2) as (A' & B' & C'). unfold list_sum in *. cbn. rewrite A, B, C, A', B', C'. auto.
Qed.
Lemma copied_unroll f D T m m' p l : copied f D T m m' -> unroll p m = map VT l -> unroll p m' = map VT (map f l).
Proof.
  revert m' l. induction m as [lf|n dv dt|dv dt ms IH] using man_ind'; intros m' l C U; inversion C as [? ? _ _ _ _ E|?|? ? ? ? ? ms' F]; subst.
  - cbn in *. apply E. exact U.
  - cbn in *. destruct l; [reflexivity|discriminate U].
  - cbn in *. clear C. revert ms' l F U. induction IH as [|m ms Hm _ IHms]; intros ms' l F U; inversion F as [|? m' ? ms'' F1 F2]; subst; [cbn in *; destruct l; [reflexivity|discriminate U]|].
    cbn in *. assert (X : exists a b, unroll p m = map VT a /\ flat_map (unroll p) ms = map VT b /\ l = a ++ b).
    { clear -U. revert l U. generalize (unroll p m). induction l as [|x xs IH]; intros l U; [exists [], l; auto|]. destruct l as [|t l]; [discriminate U|]. cbn in U. injection U as U0 U. destruct (IH l U) as (a & b & E1 & E2 & ->). exists (t :: a), b. cbn. rewrite E1, U0. auto. }
    destruct X as (a & b & E1 & E2 & ->). rewrite (Hm m' a F1 E1), (IHms ms'' b F2 E2), !map_app. reflexivity.
Qed.

(** ** Conversions *)
Lemma cont_map_ok k f c l : c_tensors c = map VT l -> cont_map k f c = (mkCont (c_shapes c) k (map VT (map f l)) (c_dev c) (c_dty c), None).
Proof. intros E. unfold cont_map. rewrite E, mapM_map, (mapM_ok _ (fun t => VT (f t))) by reflexivity. rewrite map_map. reflexivity. Qed.

Definition leaf_tensors (l : leaf) : Prop := forall p, exists ts, c_tensors (get_part p l) = map VT ts.
Lemma leaf_converted (f : tob -> tob) (k : cont -> cont * option exn) l : leaf_tensors l ->
  (forall c ts, c_tensors c = map VT ts -> exists c', k c = (c', None) /\ c_tensors c' = map VT (map f ts)) ->
  exists l', leaf_all k l = (l', None) /\ l_shapes l' = l_shapes l /\ l_nb l' = l_nb l /\ l_dev l' = l_dev l /\ l_dty l' = l_dty l /\
    forall p ts, c_tensors (get_part p l) = map VT ts -> c_tensors (get_part p l') = map VT (map f ts).
Proof.
  intros T H. destruct (T Gd) as (g & Eg). destruct (T Tan) as (t & Et). destruct (T Cotan) as (c & Ec). cbn [get_part] in *.
  destruct (H _ g Eg) as (g' & Kg & Tg). destruct (H _ t Et) as (t' & Kt & Tt). destruct (H _ c Ec) as (c' & Kc & Tc).
  unfold leaf_all. rewrite Kg, Kt, Kc. eexists. split; [reflexivity|]. cbn. repeat (split; [reflexivity|]). intros p ts E.
  destruct p; cbn [get_part c_tensors l_gd l_tan l_cotan] in *; rewrite E in *; [apply map_VT_inj in Eg|apply map_VT_inj in Et|apply map_VT_inj in Ec]; subst; assumption.
Qed.
Lemma each_copied f D T g ms : Forall (fun m => exists m', g m = (m', None) /\ copied f D T m m') ms ->
  exists ms', each g ms = (ms', None) /\ Forall2 (copied f D T) ms ms'.
Proof.
  induction 1 as [|m ms (m' & E & C) _ (ms' & E' & C')]; [exists []; split; [reflexivity|constructor]|]. exists (m' :: ms'). cbn [each]. rewrite E. fold (each g). rewrite E'. split; [reflexivity|constructor; assumption].
Qed.
Lemma to_device_copied a d m : a = ToStr d \/ (a = ToNone /\ d = "cpu"%string) -> all_leaves leaf_tensors m ->
  exists m', to_ a m = (m', None) /\ copied (set_dev d) (fun _ => Some d) (fun t => t) m m'.
Proof.
  intros A. assert (X : forall l, leaf_tensors l -> exists l', leaf_set_device d l = (l', None) /\ copied (set_dev d) (fun _ => Some d) (fun t => t) (MLeaf l) (MLeaf l')).
  { intros l H. unfold leaf_set_device. destruct (leaf_converted (set_dev d) (cont_to_device d) (mkLeaf (l_shapes l) (l_nb l) d (l_dty l) (l_mdev l) (l_gd l) (l_tan l) (l_cotan l))) as (l' & E & S & N & DV & DT & C).
    - intros p. destruct (H p) as (ts & E). exists ts. destruct p; exact E.
    - intros c ts E. unfold cont_to_device. rewrite (cont_map_ok _ _ _ ts) by exact E. eexists. split; reflexivity.
    - exists l'. split; [exact E|]. cbn in *. constructor; try congruence; intros p ts Ep; apply C; destruct p; exact Ep. }
  induction m as [l|n dv dt|dv dt ms IH] using man_ind'; intros H; inversion H; subst.
  - destruct (X l) as (l' & E & C); [assumption|]. exists (MLeaf l'). destruct A as [->|(-> & ->)]; cbn; rewrite E; split; try reflexivity; exact C.
  - destruct A as [->|(-> & ->)]; eexists; (split; [reflexivity|]); match goal with |- copied ?f ?D ?T (MEmpty ?n ?dv ?dt) _ => exact (cop_empty f D T n dv dt) end.
  - cbn [to_]. destruct (each_copied (set_dev d) (fun _ => Some d) (fun t => t) (to_ a) ms) as (ms' & E & C).
    + clear H. induction IH; [constructor|]. inversion H1; subst. constructor; auto.
    + fold (each (to_ a)). rewrite E. eexists. split; [reflexivity|]. constructor. exact C.
Qed.
Lemma to_dtype_copied t m : all_leaves leaf_tensors m -> exists m', to_ (ToDtype t) m = (m', None) /\ copied (set_dty t) (fun d => d) (fun _ => t) m m'.
Proof.
  assert (X : forall l, leaf_tensors l -> exists l', leaf_set_dtype t l = (l', None) /\ copied (set_dty t) (fun d => d) (fun _ => t) (MLeaf l) (MLeaf l')).
  { intros l H. unfold leaf_set_dtype. destruct (leaf_converted (set_dty t) (cont_to_dtype t) (mkLeaf (l_shapes l) (l_nb l) (l_dev l) t (l_mdev l) (l_gd l) (l_tan l) (l_cotan l))) as (l' & E & S & N & DV & DT & C).
    - intros p. destruct (H p) as (ts & E). exists ts. destruct p; exact E.
    - intros c ts E. unfold cont_to_dtype. rewrite (cont_map_ok _ _ _ ts) by exact E. eexists. split; reflexivity.
    - exists l'. split; [exact E|]. cbn in *. constructor; try congruence; intros p ts Ep; apply C; destruct p; exact Ep. }
  induction m as [l|n dv dt|dv dt ms IH] using man_ind'; intros H; inversion H; subst.
  - destruct (X l) as (l' & E & C); [assumption|]. exists (MLeaf l'). cbn. rewrite E. split; [reflexivity|exact C].
  - eexists. split; [reflexivity|]. match goal with |- copied ?f ?D ?T (MEmpty ?n ?dv ?dt) _ => exact (cop_empty f D T n dv dt) end.
  - cbn [to_]. destruct (each_copied (set_dty t) (fun d => d) (fun _ => t) (to_ (ToDtype t)) ms) as (ms' & E & C).
    + clear H. induction IH; [constructor|]. inversion H1; subst. constructor; auto.
    + fold (each (to_ (ToDtype t))). rewrite E. eexists. split; [reflexivity|]. constructor. exact C.
Qed.

(** ** fill(manifold) *)
Lemma fill_three m other copy rg vg vt vc lg lt lc : all_leaves leaf_made m ->
  getter Gd other = Ok vg -> getter Tan other = Ok vt -> getter Cotan other = Ok vc -> arg m vg lg -> arg m vt lt -> arg m vc lc ->
  exists m', fill_from m other copy rg = (m', None) /\ rel same_struct m m' /\
    unroll Gd m' = map VT (map (filled copy rg) lg) /\ unroll Tan m' = map VT (map (filled copy rg) lt) /\ unroll Cotan m' = map VT (map (filled copy rg) lc).
Proof.
  intros M Gg Gt Gc Ag At Ac. unfold fill_from. rewrite Gg, Gt, Gc.
  destruct (fill_arg Gd m vg lg copy rg M Ag) as (m1 & E1 & U1 & _). rewrite E1.
  assert (R1 : rel same_struct m m1) by (pose proof (fill_struct Gd copy rg m m vg) as X; unfold fill in E1; rewrite E1 in X; exact X).
  pose proof (rel_made _ _ R1 M) as M1. destruct (fill_arg Tan m1 vt lt copy rg M1 (rel_arg _ _ _ _ R1 At)) as (m2 & E2 & U2 & _). rewrite E2.
  assert (R2 : rel same_struct m1 m2) by (pose proof (fill_struct Tan copy rg m1 m1 vt) as X; unfold fill in E2; rewrite E2 in X; exact X).
  pose proof (rel_made _ _ R2 M1) as M2. pose proof (rel_trans _ same_struct_trans _ _ _ R1 R2) as R12. destruct (fill_arg Cotan m2 vc lc copy rg M2 (rel_arg _ _ _ _ R12 Ac)) as (m3 & E3 & U3 & _). rewrite E3.
  assert (R3 : rel same_struct m2 m3) by (pose proof (fill_struct Cotan copy rg m2 m2 vc) as X; unfold fill in E3; rewrite E3 in X; exact X).
  exists m3. split; [reflexivity|]. split; [exact (rel_trans _ same_struct_trans _ _ _ R12 R3)|].
  assert (K : forall q o a, ~ touches o q -> unroll q (fst (step a o)) = unroll q a) by (intros q o a N; apply (rel_same_part q a); apply step_frame; exact N).
  pose proof (K Gd (OFill Tan vt copy rg) m1 ltac:(discriminate)) as K1. pose proof (K Gd (OFill Cotan vc copy rg) m2 ltac:(discriminate)) as K2. pose proof (K Tan (OFill Cotan vc copy rg) m2 ltac:(discriminate)) as K3.
  cbn [step] in K1, K2, K3. rewrite E2 in K1. rewrite E3 in K2, K3. cbn [fst] in *. rewrite K2, K1, K3. auto.
Qed.

(** ** Points *)
Lemma points_count m : all_leaves (fun lf => leaf_shaped Gd lf /\ 1 <= length (l_shapes lf)) m -> nb_pts m = points m.
Proof.
  induction m as [l|n dv dt|dv dt ms IH] using man_ind'; intros H; inversion H as [? ((ts & E & S) & L)| |? ? ? HS]; subst; [|reflexivity|].
  - cbn in *. rewrite E. destruct ts as [|t ts]; [destruct (l_shapes l); cbn in *; [lia|discriminate S]|]. cbn in *. destruct (l_shapes l) as [|sh shs]; [discriminate S|]. cbn in S. injection S as -> _. reflexivity.
  - cbn. f_equal. apply map_ext_in. intros x X. rewrite Forall_forall in IH, HS. apply IH; [exact X|exact (HS x X)].
Qed.
