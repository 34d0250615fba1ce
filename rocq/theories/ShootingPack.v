(** Packing descriptors and moments in the state vector and back. *)
From Coq Require Import Reals String List Arith ZArith Lia Lra.
From Verif Require Import Py RSum Tensor TensorFacts KernelModel FieldModel GeometryModel ModuleModel ShootingModel
  SpecShooting ModuleMain ModuleLeaves ModuleHistory GeometryFacts.
Import ListNotations.
Open Scope R_scope.

Fixpoint gman_ind' (P : gman -> Prop) (H : forall g, simple g -> P g)
    (HC : forall gs, Forall P gs -> P (GComp gs)) (g : gman) : P g :=
  match g with
  | GComp gs => HC gs ((fix go gs : Forall P gs :=
      match gs with [] => Forall_nil _ | g :: gs' => Forall_cons g (gman_ind' P H HC g) (go gs') end) gs)
  | g => H g I
  end.

(** ** put *)
Definition puts (put : gman -> list tensor -> res (gman * list tensor)) :=
  fix go (ms : list gman) (l : list tensor) : res (list gman * list tensor) :=
    match ms with
    | [] => Ok ([], l)
    | m :: ms' => ' (x, l') <- put m l ;; ' (xs, l'') <- go ms' l' ;; Ok (x :: xs, l'')
    end.

Lemma put_gd_comp gs l : put_gd (GComp gs) l = (' (gs', l') <- puts put_gd gs l ;; Ok (GComp gs', l')).
Proof. reflexivity. Qed.
Lemma put_cotan_comp gs l : put_cotan (GComp gs) l = (' (gs', l') <- puts put_cotan gs l ;; Ok (GComp gs', l')).
Proof. reflexivity. Qed.

Lemma g_gd_len g : length (g_gd g) = g_len g.
Proof.
  induction g as [g S|gs IH] using gman_ind'; [destruct g; try reflexivity; elim S|].
  cbn [g_gd g_len]. induction IH as [|g gs Hg _ IHs]; [reflexivity|]. cbn [flat_map map list_sum]. rewrite app_length, Hg, IHs. reflexivity.
Qed.
Lemma g_cotan_len g : length (g_cotan g) = g_len g.
Proof.
  induction g as [g S|gs IH] using gman_ind'; [destruct g; try reflexivity; elim S|].
  cbn [g_cotan g_len]. induction IH as [|g gs Hg _ IHs]; [reflexivity|]. cbn [flat_map map list_sum]. rewrite app_length, Hg, IHs. reflexivity.
Qed.
Lemma skel_len g g' : skel g = skel g' -> g_len g = g_len g'.
Proof.
  revert g'. induction g as [g S|gs IH] using gman_ind'; intros g' E.
  - destruct g; destruct g'; try discriminate E; try reflexivity; elim S.
  - destruct g' as [| | | | |gs']; try discriminate E. cbn [skel] in E. injection E as E. cbn [g_len].
    revert gs' E. induction IH as [|g gs Hg _ IHs]; intros gs' E; destruct gs' as [|g' gs']; try discriminate E; [reflexivity|].
    cbn [map] in E. injection E as E1 E2. cbn [map list_sum fold_right]. rewrite (Hg g' E1). specialize (IHs gs' E2). unfold list_sum in IHs. rewrite IHs. reflexivity.
Qed.

Lemma len1 (l : list tensor) : length l = 1%nat -> exists x, l = [x].
Proof. destruct l as [|x [|]]; cbn; try discriminate. intros _. eexists. reflexivity. Qed.
Lemma len2 (l : list tensor) : length l = 2%nat -> exists x y, l = [x; y].
Proof. destruct l as [|x [|y [|]]]; cbn; try discriminate. intros _. do 2 eexists. reflexivity. Qed.

Lemma put_gd_ok g : forall l rest, length l = g_len g ->
  exists g', put_gd g (l ++ rest) = Ok (g', rest) /\ g_gd g' = l /\ g_cotan g' = g_cotan g /\ skel g' = skel g.
Proof.
  induction g as [g S|gs IH] using gman_ind'; intros l rest L.
  - destruct g; try (elim S); cbn [g_len] in L;
      [destruct (len1 l L) as (x & ->)|destruct (len2 l L) as (x & y & ->)|destruct (len2 l L) as (x & y & ->)|
       destruct (len2 l L) as (x & y & ->)|destruct l; [|discriminate]];
      (eexists; split; [reflexivity|]; repeat split).
  - rewrite put_gd_comp. cbn [g_len] in L.
    assert (H : exists gs', puts put_gd gs (l ++ rest) = Ok (gs', rest) /\ flat_map g_gd gs' = l /\
      flat_map g_cotan gs' = flat_map g_cotan gs /\ map skel gs' = map skel gs).
    { revert l L. induction IH as [|g gs Hg _ IHs]; intros l L.
      - destruct l; [|discriminate]. exists []. repeat split.
      - cbn [map list_sum fold_right] in L. fold (list_sum (map g_len gs)) in L.
        rewrite <- (firstn_skipn (g_len g) l). set (l1 := firstn _ l). set (l2 := skipn _ l).
        assert (L1 : length l1 = g_len g) by (unfold l1; rewrite firstn_length; lia).
        assert (L2 : length l2 = list_sum (map g_len gs)) by (unfold l2; rewrite skipn_length; lia).
        destruct (Hg l1 (l2 ++ rest) L1) as (g' & P & G & C & K). destruct (IHs l2 L2) as (gs' & Ps & Gs & Cs & Ks).
        exists (g' :: gs'). cbn [puts]. fold (puts put_gd). rewrite <- app_assoc, P. cbn [bind]. rewrite Ps. cbn [bind].
        cbn [flat_map map]. rewrite G, Gs, C, Cs, K, Ks. repeat split. }
    destruct H as (gs' & P & G & C & K). rewrite P. cbn [bind]. exists (GComp gs'). cbn [g_gd g_cotan skel]. rewrite K. auto.
Qed.

Lemma put_cotan_ok g : forall l rest, length l = g_len g ->
  exists g', put_cotan g (l ++ rest) = Ok (g', rest) /\ g_cotan g' = l /\ g_gd g' = g_gd g /\ skel g' = skel g.
Proof.
  induction g as [g S|gs IH] using gman_ind'; intros l rest L.
  - destruct g; try (elim S); cbn [g_len] in L;
      [destruct (len1 l L) as (x & ->)|destruct (len2 l L) as (x & y & ->)|destruct (len2 l L) as (x & y & ->)|
       destruct (len2 l L) as (x & y & ->)|destruct l; [|discriminate]];
      (eexists; split; [reflexivity|]; repeat split).
  - rewrite put_cotan_comp. cbn [g_len] in L.
    assert (H : exists gs', puts put_cotan gs (l ++ rest) = Ok (gs', rest) /\ flat_map g_cotan gs' = l /\
      flat_map g_gd gs' = flat_map g_gd gs /\ map skel gs' = map skel gs).
    { revert l L. induction IH as [|g gs Hg _ IHs]; intros l L.
      - destruct l; [|discriminate]. exists []. repeat split.
      - cbn [map list_sum fold_right] in L. fold (list_sum (map g_len gs)) in L.
        rewrite <- (firstn_skipn (g_len g) l). set (l1 := firstn _ l). set (l2 := skipn _ l).
        assert (L1 : length l1 = g_len g) by (unfold l1; rewrite firstn_length; lia).
        assert (L2 : length l2 = list_sum (map g_len gs)) by (unfold l2; rewrite skipn_length; lia).
        destruct (Hg l1 (l2 ++ rest) L1) as (g' & P & G & C & K). destruct (IHs l2 L2) as (gs' & Ps & Gs & Cs & Ks).
        exists (g' :: gs'). cbn [puts]. fold (puts put_cotan). rewrite <- app_assoc, P. cbn [bind]. rewrite Ps. cbn [bind].
        cbn [flat_map map]. rewrite G, Gs, C, Cs, K, Ks. repeat split. }
    destruct H as (gs' & P & G & C & K). rewrite P. cbn [bind]. exists (GComp gs'). cbn [g_gd g_cotan skel]. rewrite K. auto.
Qed.

(** Too short a list is refused. *)
Lemma put_gd_short g : forall l, (length l < g_len g)%nat -> put_gd g l = Err IndexError.
Proof.
  induction g as [g S|gs IH] using gman_ind'; intros l L.
  - destruct g; try (elim S); cbn [g_len] in L; try lia; destruct l as [|x [|y l]]; try reflexivity; cbn in L; lia.
  - rewrite put_gd_comp. assert (H : puts put_gd gs l = Err IndexError); [|rewrite H; reflexivity]. cbn [g_len] in L.
    revert l L. induction IH as [|g gs Hg _ IHs]; intros l L; cbn [map list_sum fold_right] in L; [lia|].
    fold (list_sum (map g_len gs)) in L. cbn [puts]. fold (puts put_gd).
    destruct (le_lt_dec (g_len g) (length l)) as [Q|Q]; [|rewrite Hg by assumption; reflexivity].
    rewrite <- (firstn_skipn (g_len g) l). destruct (put_gd_ok g (firstn (g_len g) l) (skipn (g_len g) l)) as (g' & -> & _);
      [rewrite firstn_length; lia|]. cbn [bind]. rewrite IHs; [reflexivity|rewrite skipn_length; lia].
Qed.
Lemma put_cotan_short g : forall l, (length l < g_len g)%nat -> put_cotan g l = Err IndexError.
Proof.
  induction g as [g S|gs IH] using gman_ind'; intros l L.
  - destruct g; try (elim S); cbn [g_len] in L; try lia; destruct l as [|x [|y l]]; try reflexivity; cbn in L; lia.
  - rewrite put_cotan_comp. assert (H : puts put_cotan gs l = Err IndexError); [|rewrite H; reflexivity]. cbn [g_len] in L.
    revert l L. induction IH as [|g gs Hg _ IHs]; intros l L; cbn [map list_sum fold_right] in L; [lia|].
    fold (list_sum (map g_len gs)) in L. cbn [puts]. fold (puts put_cotan).
    destruct (le_lt_dec (g_len g) (length l)) as [Q|Q]; [|rewrite Hg by assumption; reflexivity].
    rewrite <- (firstn_skipn (g_len g) l). destruct (put_cotan_ok g (firstn (g_len g) l) (skipn (g_len g) l)) as (g' & -> & _);
      [rewrite firstn_length; lia|]. cbn [bind]. rewrite IHs; [reflexivity|rewrite skipn_length; lia].
Qed.

(** A manifold is determined by its structure, descriptors and moments. *)
Lemma g_ext g : forall g', skel g = skel g' -> g_gd g = g_gd g' -> g_cotan g = g_cotan g' -> g = g'.
Proof.
  induction g as [g S|gs IH] using gman_ind'; intros g' K G C.
  - destruct g; destruct g'; try discriminate K; try (elim S); cbn [skel g_gd g_cotan] in K, G, C;
      try (injection K); try (injection G); try (injection C); intros; subst; reflexivity.
  - destruct g' as [| | | | |gs']; try discriminate K. cbn [skel g_gd g_cotan] in K, G, C. injection K as K. f_equal.
    revert gs' K G C. induction IH as [|g gs Hg _ IHs]; intros gs' K G C; destruct gs' as [|g' gs']; try discriminate K; [reflexivity|].
    cbn [map flat_map] in K, G, C. injection K as K1 K2. pose proof (skel_len g g' K1) as L.
    assert (Q : forall (a b a' b' : list tensor), length a = length a' -> a ++ b = a' ++ b' -> a = a' /\ b = b').
    { clear. induction a as [|x a IH]; intros b a' b' L E; destruct a' as [|x' a']; try discriminate L; [auto|].
      cbn in E. injection E as -> E. destruct (IH b a' b' ltac:(cbn in L; lia) E) as (-> & ->). auto. }
    destruct (Q _ _ _ _ (eq_trans (g_gd_len g) (eq_trans L (eq_sym (g_gd_len g')))) G) as (G1 & G2).
    destruct (Q _ _ _ _ (eq_trans (g_cotan_len g) (eq_trans L (eq_sym (g_cotan_len g')))) C) as (C1 & C2).
    f_equal; [apply Hg; assumption|apply IHs; assumption].
Qed.

(** ** Concatenation of flattened tensors *)
Lemma numel_app a b : numel (a ++ b) = (numel a + numel b)%nat.
Proof. unfold numel. rewrite map_app, list_sum_app. reflexivity. Qed.
Lemma numel_cons t l : numel (t :: l) = (prod (shape t) + numel l)%nat.
Proof. reflexivity. Qed.

Lemma cat_get_app a b k : (k < numel a)%nat -> cat_get (a ++ b) k = cat_get a k.
Proof.
  revert k. induction a as [|t a IH]; intros k H; [cbn in H; lia|]. rewrite numel_cons in H. cbn [app cat_get].
  destruct (Nat.ltb_spec k (prod (shape t))); [reflexivity|]. apply IH. lia.
Qed.
Lemma cat_get_app_r a b k : cat_get (a ++ b) (numel a + k) = cat_get b k.
Proof.
  induction a as [|t a IH]; [reflexivity|]. rewrite numel_cons. cbn [app cat_get].
  destruct (Nat.ltb_spec (prod (shape t) + numel a + k) (prod (shape t))); [lia|].
  replace (prod (shape t) + numel a + k - prod (shape t))%nat with (numel a + k)%nat by lia. exact IH.
Qed.

Lemma numel_shapes a b : map shape a = map shape b -> numel a = numel b.
Proof.
  unfold numel. intros E. f_equal.
  transitivity (map prod (map shape a)); [rewrite map_map; reflexivity|]. rewrite E, map_map. reflexivity.
Qed.

(** The vector determines the tensors. *)
Lemma cat_get_inj a : forall b, map shape a = map shape b ->
  (forall k, (k < numel a)%nat -> cat_get a k = cat_get b k) -> leq a b.
Proof.
  induction a as [|t a IH]; intros b E H; destruct b as [|u b]; try discriminate E; [constructor|].
  cbn [map] in E. injection E as E1 E2. rewrite numel_cons in H. constructor.
  - split; [assumption|]. intros idx V. rewrite <- (get_flatten t idx V). rewrite <- (get_flatten u idx) by (rewrite <- E1; assumption).
    pose proof (ravel_lt _ _ V) as L. specialize (H (ravel (shape t) idx) ltac:(lia)). cbn [cat_get] in H.
    destruct (Nat.ltb_spec (ravel (shape t) idx) (prod (shape t))); [|lia]. rewrite <- E1 in H.
    destruct (Nat.ltb_spec (ravel (shape t) idx) (prod (shape t))); [|lia]. rewrite <- E1. exact H.
  - apply IH; [assumption|]. intros k Hk. specialize (H (prod (shape t) + k)%nat ltac:(lia)). cbn [cat_get] in H.
    rewrite <- E1 in H. destruct (Nat.ltb_spec (prod (shape t) + k) (prod (shape t))); [lia|].
    replace (prod (shape t) + k - prod (shape t))%nat with k in H by lia. exact H.
Qed.

Lemma leq_cat a b : leq a b -> forall k, (k < numel a)%nat -> cat_get a k = cat_get b k.
Proof.
  induction 1 as [|t u a b (E & V) _ IH]; intros k H; [reflexivity|]. rewrite numel_cons in H. cbn [cat_get]. rewrite <- E.
  destruct (Nat.ltb_spec k (prod (shape t))).
  - rewrite !get_flatten_k. rewrite <- E. apply V. apply valid_unravel. assumption.
  - apply IH. lia.
Qed.

Lemma leq_shape a b : leq a b -> map shape a = map shape b.
Proof. induction 1 as [|t u a b (E & _) _ IH]; cbn [map]; [reflexivity|]. rewrite E, IH. reflexivity. Qed.
Lemma leq_refl a : leq a a.
Proof. induction a; constructor; [apply teq_refl|assumption]. Qed.
Lemma leq_sym a b : leq a b -> leq b a.
Proof. induction 1; constructor; [apply teq_sym|]; assumption. Qed.
Lemma leq_trans a b c : leq a b -> leq b c -> leq a c.
Proof.
  intros H. revert c. induction H as [|x y a b E _ IH]; intros d Q; [exact Q|].
  inversion Q as [|x' z a' c E' Q']; subst. constructor; [eapply teq_trans; eassumption|apply IH; assumption].
Qed.
Lemma leq_app a b a' b' : leq a a' -> leq b b' -> leq (a ++ b) (a' ++ b').
Proof. intros H Q. apply Forall2_app; assumption. Qed.

Lemma ladd_shape a b : length a = length b -> map shape (ladd a b) = map shape a.
Proof.
  revert b. induction a as [|t a IH]; intros b L; destruct b as [|u b]; try discriminate L; [reflexivity|].
  unfold ladd in *. cbn [combine map]. rewrite IH by (cbn in L; lia). reflexivity.
Qed.
Lemma lscal_shape c a : map shape (lscal c a) = map shape a.
Proof. unfold lscal. rewrite map_map. apply map_ext. reflexivity. Qed.

Lemma cat_ladd a : forall b k, map shape a = map shape b -> (k < numel a)%nat ->
  cat_get (ladd a b) k = cat_get a k + cat_get b k.
Proof.
  induction a as [|t a IH]; intros b k E H; destruct b as [|u b]; try discriminate E; [cbn in H; lia|].
  cbn [map] in E. injection E as E1 E2. rewrite numel_cons in H. unfold ladd. cbn [combine map fst snd cat_get shape tadd tmap2].
  rewrite <- E1. destruct (Nat.ltb_spec k (prod (shape t))).
  - rewrite !get_flatten_k. rewrite <- E1. reflexivity.
  - apply IH; [assumption|lia].
Qed.
Lemma cat_lscal c a : forall k, (k < numel a)%nat -> cat_get (lscal c a) k = c * cat_get a k.
Proof.
  induction a as [|t a IH]; intros k H; [cbn in H; lia|]. rewrite numel_cons in H. unfold lscal. cbn [map cat_get shape tscal tmap].
  destruct (Nat.ltb_spec k (prod (shape t))); [reflexivity|]. apply IH. lia.
Qed.
Lemma map_topp_lscal a : leq (map topp a) (lscal (-1) a).
Proof.
  induction a as [|t a IH]; constructor; [|exact IH]. split; [reflexivity|]. intros idx _. cbn. ring.
Qed.

(** ** The slices *)
Definition shapes_of (g : gman) : list (list nat) := match g_shapes g with Ok l => if Nat.eqb (g_len g) 0 then [] else l | Err _ => [] end.

Lemma simple_shapes g : simple g -> exists l, g_shapes g = Ok l.
Proof. destruct g; intros S; try (elim S); eexists; reflexivity. Qed.

Lemma shaped_gd g : simple g -> shaped g -> map shape (g_gd g) = shapes_of g /\ map shape (g_cotan g) = shapes_of g.
Proof.
  intros S W. unfold shapes_of. destruct g; try (elim S); cbn [shaped] in W; try (destruct W as (E & C); rewrite E; cbn [g_len Nat.eqb]; split; [reflexivity|exact C]).
  split; reflexivity.
Qed.

Lemma shapes_skel g g' : skel g = skel g' -> shapes_of g = shapes_of g'.
Proof.
  intros E. unfold shapes_of. rewrite (skel_len g g' E). replace (g_shapes g) with (g_shapes g'); [reflexivity|].
  destruct g; destruct g'; try discriminate E; cbn [skel] in E; try injection E; intros; subst; reflexivity.
Qed.
Lemma simple_skel g g' : skel g = skel g' -> simple g -> simple g'.
Proof. destruct g; destruct g'; try discriminate; auto. Qed.

Lemma slice_ok x i sh n : shape x = [n] -> (i + prod sh <= n)%nat ->
  exists t, slice_view x i sh = Ok t /\ shape t = sh /\ forall k, (k < prod sh)%nat -> (tflatten t) @1 k = x @1 (i + k)%nat.
Proof.
  intros S L. unfold slice_view. rewrite S. unfold tnth. cbn [nth]. destruct (Nat.leb_spec (i + prod sh) n); [|lia].
  eexists. split; [reflexivity|]. split; [reflexivity|]. intros k Hk. rewrite get_flatten_k. cbn [shape get].
  rewrite ravel_unravel by assumption. reflexivity.
Qed.

Definition shapes_numel (shs : list (list nat)) : nat := list_sum (map prod shs).

Lemma cut_ok shs : forall x i n, shape x = [n] -> (i + shapes_numel shs <= n)%nat ->
  exists ts, cut shs x i = Ok (ts, (i + shapes_numel shs)%nat) /\ map shape ts = shs /\
    forall k, (k < shapes_numel shs)%nat -> cat_get ts k = x @1 (i + k)%nat.
Proof.
  induction shs as [|sh shs IH]; intros x i n S L.
  - exists []. cbn. rewrite Nat.add_0_r. repeat split. intros k Hk; lia.
  - unfold shapes_numel in L. cbn [map list_sum fold_right] in L. fold (list_sum (map prod shs)) in L. fold (shapes_numel shs) in L.
    destruct (slice_ok x i sh n S ltac:(lia)) as (t & E & St & Gt). destruct (IH x (i + prod sh)%nat n S ltac:(lia)) as (ts & Es & Ss & Gs).
    exists (t :: ts). cbn [cut]. rewrite E. cbn [bind]. rewrite Es. cbn [bind].
    unfold shapes_numel. cbn [map list_sum fold_right]. fold (list_sum (map prod shs)). fold (shapes_numel shs).
    split; [do 2 f_equal; lia|]. split; [rewrite St, Ss; reflexivity|]. intros k Hk. cbn [cat_get]. rewrite St.
    destruct (Nat.ltb_spec k (prod sh)); [apply Gt; assumption|]. rewrite Gs by lia. do 2 f_equal. lia.
Qed.

Definition all_shapes (gs : list gman) : list (list nat) := flat_map shapes_of gs.

Lemma shapes_numel_app a b : shapes_numel (a ++ b) = (shapes_numel a + shapes_numel b)%nat.
Proof. unfold shapes_numel. rewrite map_app, list_sum_app. reflexivity. Qed.

Lemma numel_shapes_of l shs : map shape l = shs -> numel l = shapes_numel shs.
Proof. intros <-. unfold numel, shapes_numel. rewrite map_map. reflexivity. Qed.

Lemma unpack_ok gs : Forall simple gs -> forall x i n, shape x = [n] -> (i + shapes_numel (all_shapes gs) <= n)%nat ->
  exists ts, unpack gs x i = Ok ts /\ map shape ts = all_shapes gs /\
    forall k, (k < shapes_numel (all_shapes gs))%nat -> cat_get ts k = x @1 (i + k)%nat.
Proof.
  induction 1 as [|g gs S _ IH]; intros x i n Sx L.
  - exists []. repeat split. intros k Hk. cbn in Hk. lia.
  - unfold all_shapes in *. cbn [flat_map] in *. rewrite shapes_numel_app in L.
    assert (Q : exists ts, (if Nat.eqb (g_len g) 0 then Ok ([], i) else (shapes <- g_shapes g ;; cut shapes x i)) =
                  Ok (ts, (i + shapes_numel (shapes_of g))%nat) /\ map shape ts = shapes_of g /\
                  forall k, (k < shapes_numel (shapes_of g))%nat -> cat_get ts k = x @1 (i + k)%nat).
    { unfold shapes_of in *. destruct (simple_shapes g S) as (l & E). rewrite E in *. destruct (Nat.eqb (g_len g) 0).
      - exists []. cbn. rewrite Nat.add_0_r. repeat split. intros k Hk; lia.
      - cbn [bind]. apply (cut_ok l x i n); [assumption|lia]. }
    destruct Q as (ts & E & St & Gt). destruct (IH x (i + shapes_numel (shapes_of g))%nat n Sx ltac:(lia)) as (us & Eu & Su & Gu).
    exists (ts ++ us). cbn [unpack]. rewrite E. cbn [bind]. rewrite Eu. cbn [bind]. split; [reflexivity|].
    split; [rewrite map_app, St, Su; reflexivity|]. rewrite shapes_numel_app. intros k Hk.
    pose proof (numel_shapes_of ts _ St) as N. destruct (le_lt_dec (numel ts) k) as [Q|Q].
    + replace k with (numel ts + (k - numel ts))%nat by lia. rewrite cat_get_app_r, Gu by lia. do 2 f_equal. lia.
    + rewrite cat_get_app by assumption. apply Gt. lia.
Qed.

(** A compound member with descriptors is refused. *)
Lemma unpack_nested gs1 g gs2 x n i : Forall simple gs1 -> ~ simple g -> g_len g <> 0%nat ->
  shape x = [n] -> (i + shapes_numel (all_shapes gs1) <= n)%nat ->
  unpack (gs1 ++ g :: gs2) x i = Err AttributeError.
Proof.
  intros F S N Sx. revert i. induction F as [|h gs1 Sh _ IH]; intros i L.
  - cbn [app unpack]. destruct (Nat.eqb_spec (g_len g) 0); [lia|]. destruct g; try (elim S; exact I). reflexivity.
  - unfold all_shapes in L. cbn [flat_map] in L. fold (all_shapes gs1) in L. rewrite shapes_numel_app in L. cbn [app unpack].
    assert (Q : exists ts, (if Nat.eqb (g_len h) 0 then Ok ([], i) else (shapes <- g_shapes h ;; cut shapes x i)) =
                  Ok (ts, (i + shapes_numel (shapes_of h))%nat)).
    { unfold shapes_of in *. destruct (simple_shapes h Sh) as (l & E). rewrite E in *. destruct (Nat.eqb (g_len h) 0).
      - exists []. cbn. rewrite Nat.add_0_r. reflexivity.
      - cbn [bind]. destruct (cut_ok l x i n Sx ltac:(lia)) as (ts & E' & _). exists ts. exact E'. }
    destruct Q as (ts & E). rewrite E. cbn [bind]. rewrite IH by lia. reflexivity.
Qed.

(** ** State vectors representing lists of tensors *)
(** Row r of x is the concatenation of the tensors l. *)
Definition row_is (x : tensor) (r : nat) (l : list tensor) : Prop :=
  ncols x = numel l /\ forall j, (j < numel l)%nat -> x @2 r j = cat_get l j.

Lemma row_is_inj x r a b : row_is x r a -> row_is x r b -> map shape a = map shape b -> leq a b.
Proof.
  intros (_ & A) (_ & B) E. apply cat_get_inj; [assumption|]. intros k Hk. rewrite <- A by assumption. apply B.
  rewrite <- (numel_shapes a b E). assumption.
Qed.

Lemma initial_state_ok g N : numel (g_gd g) = N -> numel (g_cotan g) = N -> (0 < N)%nat ->
  exists x, initial_state g true = Ok x /\ shape x = [2%nat; N] /\ row_is x 0 (g_gd g) /\ row_is x 1 (g_cotan g).
Proof.
  intros A B P. unfold initial_state. set (l := g_gd g ++ g_cotan g).
  assert (NL : numel l = (N + N)%nat) by (unfold l; rewrite numel_app, A, B; reflexivity).
  destruct (cat_flat l) as [v|e] eqn:E; [|destruct l; [cbn in NL; lia|discriminate]].
  assert (v = mk1 (numel l) (cat_get l)) by (destruct l; [discriminate|]; injection E as <-; reflexivity). subst v. cbn [bind].
  unfold view_rows. cbn [shape mk1]. unfold tnth. cbn [nth]. rewrite NL.
  destruct (Nat.eqb_spec (N + N) 0); [lia|]. replace ((N + N) mod 2)%nat with 0%nat by (replace (N + N)%nat with (N * 2)%nat by lia; symmetry; apply Nat.mod_mul; lia).
  cbn [Nat.eqb orb negb bind]. replace ((N + N) / 2)%nat with N by (replace (N + N)%nat with (N * 2)%nat by lia; symmetry; apply Nat.div_mul; lia).
  eexists. split; [reflexivity|]. split; [reflexivity|].
  assert (G : forall r j, (r < 2)%nat -> (j < N)%nat -> (reshape [2%nat; N] (mk1 (N + N) (cat_get l))) @2 r j = cat_get l (r * N + j)).
  { intros r j Hr Hj. rewrite (get_reshape [2%nat; N] (mk1 (N + N) (cat_get l)) [r; j] [(r * N + j)%nat]); [reflexivity| |].
    - cbn [shape mk1 ravel prod fold_right]. lia.
    - cbn [shape mk1 valid]. split; [nia|exact I]. }
  split; (split; [unfold ncols, tnth; cbn [shape reshape nth]; congruence|]); intros j Hj.
  - rewrite A in Hj. rewrite G by lia. cbn [Nat.mul Nat.add]. unfold l. apply cat_get_app. rewrite A. assumption.
  - rewrite B in Hj. rewrite G by lia. unfold l. replace (1 * N + j)%nat with (numel (g_gd g) + j)%nat by lia. apply cat_get_app_r.
Qed.

Lemma initial_state1_ok g N : numel (g_gd g) = N -> numel (g_cotan g) = N -> (0 < N)%nat ->
  exists x, initial_state g false = Ok x /\ shape x = [1%nat; N] /\ row_is x 0 (g_gd g).
Proof.
  intros A B P. destruct (initial_state_ok g N A B P) as (x & E & S & (C & R) & _).
  unfold initial_state in *. destruct (cat_flat (g_gd g ++ g_cotan g)) as [v|e]; [|discriminate]. cbn [bind] in *.
  destruct (view_rows 2 v) as [y|e]; [|discriminate]. cbn [bind] in *. injection E as ->.
  eexists. split; [reflexivity|]. rewrite C, A. split; [reflexivity|]. split; [unfold ncols, tnth; cbn [shape reshape nth]; congruence|].
  intros j Hj. rewrite <- R by assumption. rewrite (get_reshape [1%nat; N] (row 0 x) [0%nat; j] [j]).
  - unfold row. reflexivity.
  - cbn [shape row mk1 ravel prod fold_right]. lia.
  - cbn [shape row mk1 valid]. split; [rewrite C; assumption|exact I].
Qed.

Lemma unpack_row gs x r N : Forall simple gs -> ncols x = N -> shapes_numel (all_shapes gs) = N ->
  exists l, unpack gs (row r x) 0 = Ok l /\ map shape l = all_shapes gs /\ row_is x r l.
Proof.
  intros F C E. destruct (unpack_ok gs F (row r x) 0 N) as (l & U & S & G); [unfold row; rewrite C; reflexivity|lia|].
  exists l. split; [assumption|]. split; [assumption|]. pose proof (numel_shapes_of l _ S) as NL.
  split; [congruence|]. intros j Hj. rewrite G by lia. reflexivity.
Qed.

Lemma total_len gs : Forall simple gs -> g_len (GComp gs) = length (all_shapes gs).
Proof.
  induction 1 as [|g gs S _ IH]; [reflexivity|]. unfold all_shapes in *. cbn [g_len map list_sum fold_right flat_map] in *.
  rewrite app_length. unfold list_sum in IH. rewrite IH. f_equal.
  destruct g; try (elim S); reflexivity.
Qed.

(** Writing a state vector in a manifold with moments. *)
Lemma unpack_into_ok gs g x N : Forall simple gs -> skel g = skel (GComp gs) -> ncols x = N ->
  shapes_numel (all_shapes gs) = N ->
  exists q p g', unpack_into gs g x true = Ok g' /\ unpack gs (row 0 x) 0 = Ok q /\ unpack gs (row 1 x) 0 = Ok p /\
    g_gd g' = q /\ g_cotan g' = p /\ skel g' = skel g /\
    map shape q = all_shapes gs /\ map shape p = all_shapes gs /\ row_is x 0 q /\ row_is x 1 p.
Proof.
  intros F K C E. destruct (unpack_row gs x 0 N F C E) as (q & U0 & S0 & R0). destruct (unpack_row gs x 1 N F C E) as (p & U1 & S1 & R1).
  assert (L : forall l : list tensor, map shape l = all_shapes gs -> length l = g_len g).
  { intros l H. rewrite (skel_len _ _ K), total_len, <- H, map_length by assumption. reflexivity. }
  destruct (put_gd_ok g q [] (L q S0)) as (g1 & P1 & G1 & C1 & K1). rewrite app_nil_r in P1.
  destruct (put_cotan_ok g1 p []) as (g2 & P2 & C2 & G2 & K2); [rewrite (skel_len _ _ K1); apply L; assumption|]. rewrite app_nil_r in P2.
  exists q, p, g2. unfold unpack_into. rewrite U0, U1. cbn [bind]. rewrite P1. cbn [bind]. rewrite P2. cbn [bind].
  split; [reflexivity|]. split; [reflexivity|]. split; [reflexivity|]. split; [congruence|]. split; [assumption|]. split; [congruence|]. auto.
Qed.

Lemma unpack_into1_ok gs g x N : Forall simple gs -> skel g = skel (GComp gs) -> ncols x = N ->
  shapes_numel (all_shapes gs) = N ->
  exists q g', unpack_into gs g x false = Ok g' /\ unpack gs (row 0 x) 0 = Ok q /\
    g_gd g' = q /\ g_cotan g' = g_cotan g /\ skel g' = skel g /\ map shape q = all_shapes gs /\ row_is x 0 q.
Proof.
  intros F K C E. destruct (unpack_row gs x 0 N F C E) as (q & U0 & S0 & R0).
  assert (L : length q = g_len g). { rewrite (skel_len _ _ K), total_len, <- S0, map_length by assumption. reflexivity. }
  destruct (put_gd_ok g q [] L) as (g1 & P1 & G1 & C1 & K1). rewrite app_nil_r in P1.
  exists q, g1. unfold unpack_into. rewrite U0. cbn [bind]. rewrite P1. cbn [bind].
  split; [reflexivity|]. split; [reflexivity|]. auto.
Qed.

Lemma shaped_comp gs : Forall simple gs -> shaped (GComp gs) ->
  map shape (g_gd (GComp gs)) = all_shapes gs /\ map shape (g_cotan (GComp gs)) = all_shapes gs.
Proof.
  intros F. induction F as [|g gs S _ IH]; intros W; [split; reflexivity|]. destruct W as (W & Ws).
  destruct (shaped_gd g S W) as (A & B). destruct (IH Ws) as (C & D). unfold all_shapes in *. cbn [g_gd g_cotan flat_map] in *.
  rewrite !map_app, A, B, C, D. auto.
Qed.
