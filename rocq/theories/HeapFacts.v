(** The heap model shows what the model by values computes; which storages are new. *)
From Coq Require Import Reals String List Arith Bool ZArith Lia.
From Verif Require Import Py Tensor ManifoldModel ManifoldFacts HeapModel SpecHeap.
Import ListNotations.
Open Scope list_scope.
Open Scope nat_scope.

Section HvInd.
Variable Q : hv -> Prop.
Hypothesis H0 : Q HNone.
Hypothesis H1 : forall r, Q (HT r).
Hypothesis H2 : forall l, Forall Q l -> Q (HL l).
Fixpoint hv_ind' (v : hv) : Q v :=
  match v with
  | HNone => H0 | HT r => H1 r
  | HL l => H2 l ((fix go l := match l return Forall Q l with [] => Forall_nil Q | x :: l' => Forall_cons x (hv_ind' x) (go l') end) l)
  end.
End HvInd.
Section HmanInd.
Variable Q : hman -> Prop.
Hypothesis H0 : forall l, Q (HMLeaf l).
Hypothesis H1 : forall n dv dt, Q (HMEmpty n dv dt).
Hypothesis H2 : forall dv dt ms, Forall Q ms -> Q (HMComp dv dt ms).
Fixpoint hman_ind' (m : hman) : Q m :=
  match m with
  | HMLeaf l => H0 l | HMEmpty n dv dt => H1 n dv dt
  | HMComp dv dt ms => H2 dv dt ms ((fix go l := match l return Forall Q l with [] => Forall_nil Q | x :: l' => Forall_cons x (hman_ind' x) (go l') end) ms)
  end.
End HmanInd.
Section PyvInd.
Variable Q : pyv -> Prop.
Hypothesis H0 : Q VNone.
Hypothesis H1 : forall r, Q (VT r).
Hypothesis H2 : forall l, Forall Q l -> Q (VL l).
Fixpoint pyv_ind2 (v : pyv) : Q v :=
  match v with
  | VNone => H0 | VT r => H1 r
  | VL l => H2 l ((fix go l := match l return Forall Q l with [] => Forall_nil Q | x :: l' => Forall_cons x (pyv_ind2 x) (go l') end) l)
  end.
End PyvInd.

(** ** Heaps that grow *)
Definition ext (h h' : heap) : Prop := exists e, h' = h ++ e.
Lemma ext_refl h : ext h h.
Proof. exists []. symmetry. apply app_nil_r. Qed.
Lemma ext_trans a b c : ext a b -> ext b c -> ext a c.
Proof. intros (x & ->) (y & ->). exists (x ++ y). symmetry. apply app_assoc. Qed.
Lemma ext_length h h' : ext h h' -> length h <= length h'.
Proof. intros (e & ->). rewrite app_length. lia. Qed.

(** storages that exist and satisfy P *)
Definition inside (P : nat -> Prop) (h : heap) (ls : list nat) : Prop := Forall (fun l => l < length h /\ P l) ls.
Definition fresh_in (P : nat -> Prop) (h : heap) : Prop := forall l, length h <= l -> P l.
Lemma fresh_ext P h h' : fresh_in P h -> ext h h' -> fresh_in P h'.
Proof. intros F E l L. apply F. pose proof (ext_length h h' E). lia. Qed.
Lemma inside_ext P h h' ls : inside P h ls -> ext h h' -> inside P h' ls.
Proof. intros I E. pose proof (ext_length h h' E). revert I. apply Forall_impl. intros l (A & B). split; [lia|exact B]. Qed.
Lemma inside_app P h a b : inside P h (a ++ b) <-> inside P h a /\ inside P h b.
Proof. apply Forall_app. Qed.
Lemma inside_weak (P Q : nat -> Prop) h ls : (forall l, P l -> Q l) -> inside P h ls -> inside Q h ls.
Proof. intros I. apply Forall_impl. intros l (A & B). auto. Qed.
Lemma inside_nil P h : inside P h [].
Proof. constructor. Qed.

Lemma load_ext P h h' r : inside P h [rloc r] -> ext h h' -> load h' r = load h r.
Proof. intros I (e & ->). inversion I as [|? ? (L & _) _]; subst. unfold load. rewrite app_nth1 by exact L. reflexivity. Qed.
Lemma look_ext P h h' v : inside P h (locs v) -> ext h h' -> look h' v = look h v.
Proof.
  intros I E. induction v as [|r|l IH] using hv_ind'; [reflexivity| |].
  - cbn. rewrite (load_ext P h h' r I E). reflexivity.
  - cbn in *. f_equal. induction IH as [|x l Hx _ IHl]; [reflexivity|]. cbn in *. apply inside_app in I. destruct I as (I1 & I2). rewrite (Hx I1), (IHl I2). reflexivity.
Qed.
Lemma looks_ext P h h' l : inside P h (flat_map locs l) -> ext h h' -> map (look h') l = map (look h) l.
Proof. intros I E. induction l as [|x l IH]; [reflexivity|]. cbn in *. apply inside_app in I. destruct I as (I1 & I2). rewrite (look_ext P h h' x I1 E), (IH I2). reflexivity. Qed.
Lemma look_cont_ext P h h' c : inside P h (cont_locs c) -> ext h h' -> look_cont h' c = look_cont h c.
Proof. intros I E. unfold look_cont. rewrite (looks_ext P h h' _ I E). reflexivity. Qed.
Lemma look_leaf_ext P h h' l : inside P h (leaf_locs l) -> ext h h' -> look_leaf h' l = look_leaf h l.
Proof.
  intros I E. apply inside_app in I. destruct I as (I1 & I). apply inside_app in I. destruct I as (I2 & I3).
  unfold look_leaf. rewrite (look_cont_ext P h h' _ I1 E), (look_cont_ext P h h' _ I2 E), (look_cont_ext P h h' _ I3 E). reflexivity.
Qed.
Lemma look_man_ext P h h' m : inside P h (storages m) -> ext h h' -> look_man h' m = look_man h m.
Proof.
  intros I E. induction m as [l|n dv dt|dv dt ms IH] using hman_ind'; [|reflexivity|].
  - cbn. rewrite (look_leaf_ext P h h' l I E). reflexivity.
  - cbn in *. f_equal. induction IH as [|x l Hx _ IHl]; [reflexivity|]. cbn in *. apply inside_app in I. destruct I as (I1 & I2). rewrite (Hx I1), (IHl I2). reflexivity.
Qed.

(** ** Showing *)
Definition RT (P : nat -> Prop) (h : heap) (r : ref) (t : tob) : Prop := load h r = t /\ inside P h [rloc r].
Definition RV (P : nat -> Prop) (h : heap) (x : hv) (v : pyv) : Prop := look h x = v /\ inside P h (locs x).
Definition RL (P : nat -> Prop) (h : heap) (x : list hv) (v : list pyv) : Prop := map (look h) x = v /\ inside P h (flat_map locs x).
Definition RC (P : nat -> Prop) (h : heap) (c : hcont) (c' : cont) : Prop := look_cont h c = c' /\ inside P h (cont_locs c).
Definition RF (P : nat -> Prop) (h : heap) (l : hleaf) (l' : leaf) : Prop := look_leaf h l = l' /\ inside P h (leaf_locs l).
Definition RM (P : nat -> Prop) (h : heap) (m : hman) (m' : man) : Prop := look_man h m = m' /\ inside P h (storages m).
Definition RMS (P : nat -> Prop) (h : heap) (ms : list hman) (ms' : list man) : Prop := map (look_man h) ms = ms' /\ inside P h (flat_map storages ms).

Definition rres {A B} (R : heap -> A -> B -> Prop) (h : heap) (x : res A) (y : res B) : Prop :=
  match x, y with Ok a, Ok b => R h a b | Err e, Err f => e = f | _, _ => False end.
Definition rexn {A B} (R : heap -> A -> B -> Prop) (h : heap) (x : A * option exn) (y : B * option exn) : Prop :=
  R h (fst x) (fst y) /\ snd x = snd y.

Lemma RT_ext P h h' x v : RT P h x v -> ext h h' -> RT P h' x v.
Proof. intros (A & B) E. split; [rewrite (load_ext P h h' x B E); exact A|exact (inside_ext P h h' _ B E)]. Qed.
Lemma RV_ext P h h' x v : RV P h x v -> ext h h' -> RV P h' x v.
Proof. intros (A & B) E. split; [rewrite (look_ext P h h' x B E); exact A|exact (inside_ext P h h' _ B E)]. Qed.
Lemma RL_ext P h h' x v : RL P h x v -> ext h h' -> RL P h' x v.
Proof. intros (A & B) E. split; [rewrite (looks_ext P h h' x B E); exact A|exact (inside_ext P h h' _ B E)]. Qed.
Lemma RC_ext P h h' x v : RC P h x v -> ext h h' -> RC P h' x v.
Proof. intros (A & B) E. split; [rewrite (look_cont_ext P h h' x B E); exact A|exact (inside_ext P h h' _ B E)]. Qed.
Lemma RF_ext P h h' x v : RF P h x v -> ext h h' -> RF P h' x v.
Proof. intros (A & B) E. split; [rewrite (look_leaf_ext P h h' x B E); exact A|exact (inside_ext P h h' _ B E)]. Qed.
Lemma RM_ext P h h' x v : RM P h x v -> ext h h' -> RM P h' x v.
Proof. intros (A & B) E. split; [rewrite (look_man_ext P h h' x B E); exact A|exact (inside_ext P h h' _ B E)]. Qed.
Lemma RMS_cons P h m ms m' ms' : RMS P h (m :: ms) (m' :: ms') <-> RM P h m m' /\ RMS P h ms ms'.
Proof.
  unfold RMS, RM. cbn. rewrite inside_app. split; [intros (E & A & B); injection E as E1 E2; auto|]. intros ((A & B) & C & D). subst. auto.
Qed.
Lemma RL_cons P h m ms m' ms' : RL P h (m :: ms) (m' :: ms') <-> RV P h m m' /\ RL P h ms ms'.
Proof.
  unfold RL, RV. cbn. rewrite inside_app. split; [intros (E & A & B); injection E as E1 E2; auto|]. intros ((A & B) & C & D). subst. auto.
Qed.
Lemma RMS_ext P h h' x v : RMS P h x v -> ext h h' -> RMS P h' x v.
Proof.
  revert v. induction x as [|m ms IH]; intros [|m' ms'] H E; try (destruct H as (A & _); discriminate A); [split; [reflexivity|constructor]|].
  apply RMS_cons in H. destruct H as (A & B). apply RMS_cons. split; [exact (RM_ext P h h' m m' A E)|exact (IH ms' B E)].
Qed.
Lemma RV_weak (P Q : nat -> Prop) h x v : (forall l, P l -> Q l) -> RV P h x v -> RV Q h x v.
Proof. intros I (A & B). split; [exact A|exact (inside_weak P Q h _ I B)]. Qed.

(** ** Computations *)
Definition does {A} (c : M A) (h : heap) (Q : heap -> A -> Prop) : Prop := let (h', x) := c h in ext h h' /\ Q h' x.
Lemma does_ret {A} (x : A) h (Q : heap -> A -> Prop) : Q h x -> does (ret x) h Q.
Proof. intros H. split; [apply ext_refl|exact H]. Qed.
Lemma does_read {A} (f : heap -> A) h (Q : heap -> A -> Prop) : Q h (f h) -> does (reading f) h Q.
Proof. intros H. split; [apply ext_refl|exact H]. Qed.
Lemma does_seq {A B} (c : M A) (k : A -> M B) h Q1 (Q : heap -> B -> Prop) :
  does c h Q1 -> (forall h1 x, ext h h1 -> Q1 h1 x -> does (k x) h1 Q) -> does (seqM c k) h Q.
Proof.
  unfold does, seqM. intros C K. destruct (c h) as [h1 x]. destruct C as (E & H). specialize (K h1 x E H). destruct (k x h1) as [h2 y]. destruct K as (E2 & H2). split; [exact (ext_trans h h1 h2 E E2)|exact H2].
Qed.
Lemma does_impl {A} (c : M A) h (Q Q' : heap -> A -> Prop) : does c h Q -> (forall h' x, ext h h' -> Q h' x -> Q' h' x) -> does c h Q'.
Proof. unfold does. destruct (c h) as [h1 x]. intros (E & H) I. split; [exact E|exact (I h1 x E H)]. Qed.

Lemma tensor_eta (t : tensor) : mkT (shape t) (get t) = t.
Proof. destruct t. reflexivity. Qed.
Lemma new_does P u h : fresh_in P h -> does (new u) h (fun h' r => RT P h' r u).
Proof.
  intros F. unfold does, new. split; [eexists; reflexivity|]. split.
  - unfold load. cbn [rloc rview rdev rdty rrg fold_left]. rewrite app_nth2, Nat.sub_diag by lia. cbn. destruct u. reflexivity.
  - constructor; [|constructor]. cbn. rewrite app_length. cbn. split; [lia|]. apply F. lia.
Qed.

(** ** Views *)
Lemma row_shows P h r t i : RT P h r t -> RT P h (row r i) (trow t i).
Proof. intros (A & B). split; [|exact B]. subst. unfold load, row, trow. cbn. rewrite fold_left_app. reflexivity. Qed.
Lemma RV_T P h r t : RV P h (HT r) (VT t) <-> RT P h r t.
Proof. unfold RV, RT. cbn. split; intros (A & B); (split; [congruence|exact B]). Qed.
Lemma rows_show P h r t l : RT P h r t -> RL P h (map (fun i => HT (row r i)) l) (map (fun i => VT (trow t i)) l).
Proof.
  intros H. induction l as [|i l IH]; [split; [reflexivity|constructor]|]. apply RL_cons. split; [|exact IH]. apply RV_T. apply row_shows. exact H.
Qed.
Lemma iter_does P h v v' : RV P h v v' -> does (h_iter v) h (fun h' r => rres (RL P) h' r (py_iter v')).
Proof.
  intros H. destruct v as [|r|l].
  - destruct H as (<- & _). apply does_ret. reflexivity.
  - destruct H as (<- & I). cbn [look py_iter h_iter]. apply does_read. destruct (shape (tval (load h r))) as [|n sh]; [reflexivity|]. apply rows_show. split; [reflexivity|exact I].
  - destruct H as (<- & I). apply does_ret. split; [reflexivity|exact I].
Qed.
Lemma index_does P h v v' i : RV P h v v' -> does (h_index v i) h (fun h' r => rres (RV P) h' r (py_index v' i)).
Proof.
  intros H. destruct v as [|r|l].
  - destruct H as (<- & _). apply does_ret. reflexivity.
  - destruct H as (<- & I). cbn [look py_index h_index]. apply does_read. destruct (shape (tval (load h r))) as [|n sh]; [reflexivity|]. destruct (Nat.ltb i n); [|reflexivity]. apply RV_T. apply row_shows. split; [reflexivity|exact I].
  - destruct H as (<- & I). apply does_ret. cbn [look py_index]. rewrite nth_error_map. revert i. cbn in I. induction l as [|x l IH]; intros i; [destruct i; reflexivity|]. cbn in I. apply inside_app in I. destruct I as (I1 & I2). destruct i as [|i]; [split; [reflexivity|exact I1]|exact (IH I2 i)].
Qed.

(** ** Tensors *)
Lemma map_does P Q f g h l l' : (forall h r t, fresh_in P h -> RT Q h r t -> does (f r) h (fun h' r' => RT P h' r' (g t))) ->
  fresh_in P h -> RL Q h l l' -> does (h_map f l) h (fun h' r => rres (RL P) h' r (mapM (on_tensor g) l')).
Proof.
  intros G. revert h l'. induction l as [|x l IH]; intros h [|v l'] F H; try (destruct H as (E & _); discriminate E); [apply does_ret; split; [reflexivity|constructor]|].
  apply RL_cons in H. destruct H as (X & L). destruct x as [|r|k].
  - destruct X as (<- & _). apply does_ret. reflexivity.
  - destruct v as [|t|k]; try (destruct X as (E & _); discriminate E). apply RV_T in X. cbn [h_map mapM on_tensor bind].
    apply (does_seq _ _ _ _ _ (G h r t F X)). intros h1 r' E1 Y. cbn beta.
    apply (does_seq _ _ _ _ _ (IH h1 l' (fresh_ext P h h1 F E1) (RL_ext Q h h1 l l' L E1))). intros h2 rest E2 Z. apply does_ret.
    destruct rest as [rest|e], (mapM (on_tensor g) l') as [ts|e']; cbn in *; try contradiction; [|exact Z]. apply RL_cons. split; [apply RV_T; exact (RT_ext P h1 h2 r' (g t) Y E2)|exact Z].
  - destruct X as (<- & _). apply does_ret. reflexivity.
Qed.
Lemma news_does P h l : fresh_in P h -> does (h_news l) h (fun h' r => RL P h' r (map VT l)).
Proof.
  revert h. induction l as [|t l IH]; intros h F; [apply does_ret; split; [reflexivity|constructor]|]. cbn [h_news].
  apply (does_seq _ _ _ _ _ (new_does P t h F)). intros h1 r E1 X. apply (does_seq _ _ _ _ _ (IH h1 (fresh_ext P h h1 F E1))). intros h2 rest E2 Y.
  apply does_ret. cbn [map]. apply RL_cons. split; [apply RV_T; exact (RT_ext P h1 h2 r t X E2)|exact Y].
Qed.
Lemma clone_does P Q h r t : fresh_in P h -> RT Q h r t -> does (t_clone r) h (fun h' r' => RT P h' r' t).
Proof. intros F (<- & _). exact (new_does P (load h r) h F). Qed.
Lemma detach_clone_does P Q b h r t : fresh_in P h -> RT Q h r t -> does (t_detach_clone b r) h (fun h' r' => RT P h' r' (set_rg b t)).
Proof. intros F (<- & _). exact (new_does P (set_rg b (load h r)) h F). Qed.
Lemma detach_does P b h r t : RT P h r t -> does (t_detach b r) h (fun h' r' => RT P h' r' (set_rg b t)).
Proof. intros (<- & I). apply does_ret. split; [reflexivity|exact I]. Qed.
Lemma to_device_does P d h r t : fresh_in P h -> RT P h r t ->
  does (r' <~ t_to_device d r ;; t_detach (rrg r) r') h (fun h' r' => RT P h' r' (set_dev d t)).
Proof.
  intros F (<- & I). unfold t_to_device. destruct (String.eqb d (rdev r)) eqn:E.
  - apply String.eqb_eq in E. subst. apply (does_seq _ _ _ (fun h' x => h' = h /\ x = r)); [split; [apply ext_refl|auto]|]. intros h1 x _ (-> & ->). apply does_ret. split; [reflexivity|exact I].
  - apply (does_seq _ _ _ _ _ (new_does P (set_dev d (load h r)) h F)). intros h1 x _ (A & B). apply does_ret. split; [|exact B]. unfold load, set_dev, set_dty in *. cbn in *. injection A as A1 A2 A3 A4. congruence.
Qed.
Lemma to_dtype_does P d h r t : fresh_in P h -> RT P h r t ->
  does (r' <~ t_to_dtype d r ;; t_detach (rrg r) r') h (fun h' r' => RT P h' r' (set_dty d t)).
Proof.
  intros F (<- & I). unfold t_to_dtype. destruct (dtype_eqb d (rdty r)) eqn:E.
  - apply dtype_eqb_eq in E. subst. apply (does_seq _ _ _ (fun h' x => h' = h /\ x = r)); [split; [apply ext_refl|auto]|]. intros h1 x _ (-> & ->). apply does_ret. split; [reflexivity|exact I].
  - apply (does_seq _ _ _ _ _ (new_does P (set_dty d (load h r)) h F)). intros h1 x _ (A & B). apply does_ret. split; [|exact B]. unfold load, set_dev, set_dty in *. cbn in *. injection A as A1 A2 A3 A4. congruence.
Qed.

(** ** Containers *)
Lemma RC_tensors P h c c' : RC P h c c' -> RL P h (hc_tensors c) (c_tensors c') /\ hc_shapes c = c_shapes c' /\ hc_kind c = c_kind c' /\ hc_dev c = c_dev c' /\ hc_dty c = c_dty c'.
Proof. intros (<- & I). cbn. repeat split; try reflexivity. exact I. Qed.
Lemma RC_make P h sh sh' k k' ts ts' dv dv' dt dt' : RL P h ts ts' -> sh = sh' -> k = k' -> dv = dv' -> dt = dt' -> RC P h (mkHC sh k ts dv dt) (mkCont sh' k' ts' dv' dt').
Proof. intros (<- & I) -> -> -> ->. split; [reflexivity|exact I]. Qed.

Lemma hc_map_does P Q f g k h c c' : (forall h r t, fresh_in P h -> RT Q h r t -> does (f r) h (fun h' r' => RT P h' r' (g t))) ->
  (forall l, Q l -> P l) -> fresh_in P h -> RC Q h c c' -> does (hc_map k f c) h (fun h' r => rexn (RC P) h' r (cont_map k g c')).
Proof.
  intros G W F C. destruct (RC_tensors Q h c c' C) as (T & S & K & D & Y). unfold hc_map, cont_map. apply (does_seq _ _ _ _ _ (map_does P Q f g h _ _ G F T)). intros h1 r E X. apply does_ret.
  destruct r as [ts|e], (mapM (on_tensor g) (c_tensors c')) as [ts'|e']; cbn in X; try contradiction; split; cbn [fst snd]; try reflexivity; [|destruct (RC_ext Q h h1 c c' C E) as (A & B); split; [exact A|exact (inside_weak Q P h1 _ W B)]|congruence].
  apply RC_make; assumption || reflexivity.
Qed.
Lemma hc_device_does P d h c c' : fresh_in P h -> RC P h c c' -> does (hc_to_device d c) h (fun h' r => rexn (RC P) h' r (cont_to_device d c')).
Proof.
  intros F C. unfold hc_to_device, cont_to_device. apply (hc_map_does P P); [intros h0 r t F0; exact (to_device_does P d h0 r t F0)|auto|exact F|].
  destruct (RC_tensors P h c c' C) as (T & S & K & D & Y). apply RC_make; assumption || reflexivity.
Qed.
Lemma hc_dtype_does P d h c c' : fresh_in P h -> RC P h c c' -> does (hc_to_dtype d c) h (fun h' r => rexn (RC P) h' r (cont_to_dtype d c')).
Proof.
  intros F C. unfold hc_to_dtype, cont_to_dtype. apply (hc_map_does P P); [intros h0 r t F0; exact (to_dtype_does P d h0 r t F0)|auto|exact F|].
  destruct (RC_tensors P h c c' C) as (T & S & K & D & Y). apply RC_make; assumption || reflexivity.
Qed.
Lemma hc_zeros_does P rg h c c' : fresh_in P h -> RC P h c c' -> does (hc_fill_zeros rg c) h (fun h' r => RC P h' r (cont_fill_zeros rg c')).
Proof.
  intros F C. destruct (RC_tensors P h c c' C) as (T & S & K & D & Y). unfold hc_fill_zeros, cont_fill_zeros. apply (does_seq _ _ _ _ _ (news_does P h _ F)). intros h1 ts E X. apply does_ret.
  rewrite map_map, S, D, Y in X. apply RC_make; try (assumption || reflexivity).
Qed.
Lemma draws_tensors rnd i shapes dv dt rg : map VT (draws rnd i shapes dv dt rg) = randn_tensors rnd i shapes dv dt rg.
Proof. revert i. induction shapes as [|sh shapes IH]; intros i; [reflexivity|]. cbn. rewrite IH. reflexivity. Qed.
Lemma hc_randn_does P rnd rg h c c' : fresh_in P h -> RC P h c c' -> does (hc_fill_randn rnd rg c) h (fun h' r => RC P h' r (cont_fill_randn rnd rg c')).
Proof.
  intros F C. destruct (RC_tensors P h c c' C) as (T & S & K & D & Y). unfold hc_fill_randn, cont_fill_randn. apply (does_seq _ _ _ _ _ (news_does P h _ F)). intros h1 ts E X. apply does_ret.
  rewrite draws_tensors, S, D, Y in X. apply RC_make; try (assumption || reflexivity).
Qed.
Lemma hc_fill_does P Q c c' v v' clone rg h : fresh_in P h -> RC P h c c' -> RV Q h v v' -> (clone = true \/ forall l, Q l -> P l) ->
  does (hc_fill c v clone rg) h (fun h' r => rexn (RC P) h' r (cont_fill c' v' clone rg)).
Proof.
  intros F C V W. destruct (RC_tensors P h c c' C) as (T & S & K & D & Y). unfold hc_fill, cont_fill, does at 1. destruct V as (V & IV). rewrite V.
  destruct (tensors_device v') as [[dv|]|e]; [|split; [apply ext_refl|split; [exact C|reflexivity]]..].
  destruct (tensors_dtype v') as [[dt|]|e]; [|split; [apply ext_refl|split; [apply RC_make; assumption || reflexivity|reflexivity]]..].
  match goal with |- let (_, _) := ?c h in _ => change (does c h (fun h' r => rexn (RC P) h' r
    match py_iter match v' with VT t => if Nat.eqb (length (c_shapes c')) 1 then VL [VT t] else v' | _ => v' end with
    | Ok l => match (if clone then match rg with Some b => mapM (on_tensor (set_rg b)) l | None => mapM (on_tensor (fun t => t)) l end else Ok l) with
              | Ok ts => (mkCont (c_shapes c') KTuple ts dv dt, None)
              | Err e => (mkCont (c_shapes c') (c_kind c') (c_tensors c') dv dt, Some e) end
    | Err e => (mkCont (c_shapes c') (c_kind c') (c_tensors c') dv dt, Some e) end)) end.
  assert (V2 : RV Q h match v with HT t => if Nat.eqb (length (hc_shapes c)) 1 then HL [HT t] else v | _ => v end
                    match v' with VT t => if Nat.eqb (length (c_shapes c')) 1 then VL [VT t] else v' | _ => v' end).
  { rewrite S. destruct v as [|r|l]; destruct v' as [|t|l']; try discriminate V; try (split; assumption). destruct (Nat.eqb (length (c_shapes c')) 1); [|split; assumption]. cbn in V |- *. split; [cbn; congruence|cbn; rewrite ?app_nil_r; exact IV]. }
  assert (C2 : forall h1, ext h h1 -> RC P h1 (mkHC (hc_shapes c) (hc_kind c) (hc_tensors c) dv dt) (mkCont (c_shapes c') (c_kind c') (c_tensors c') dv dt)).
  { intros h1 E. apply RC_make; try (assumption || reflexivity). exact (RL_ext P h h1 _ _ T E). }
  apply (does_seq _ _ _ _ _ (iter_does Q h _ _ V2)). intros h1 l E1 X.
  destruct l as [l|e]; destruct (py_iter _) as [l'|e']; cbn in X; try contradiction; [|apply does_ret; split; [exact (C2 h1 E1)|cbn; congruence]].
  assert (G : does (if clone then match rg with Some b => h_map (t_detach_clone b) l | None => h_map t_clone l end else ret (Ok l)) h1
                (fun h' r => rres (RL P) h' r (if clone then match rg with Some b => mapM (on_tensor (set_rg b)) l' | None => mapM (on_tensor (fun t => t)) l' end else Ok l'))).
  { pose proof (fresh_ext P h h1 F E1) as F1. destruct clone.
    - destruct rg as [b|]; [apply (map_does P Q); [intros h0 r t; exact (detach_clone_does P Q b h0 r t)|assumption..]|apply (map_does P Q); [intros h0 r t; exact (clone_does P Q h0 r t)|assumption..]].
    - destruct W as [W|W]; [discriminate W|]. apply does_ret. destruct X as (A & B). split; [exact A|exact (inside_weak Q P h1 _ W B)]. }
  apply (does_seq _ _ _ _ _ G). intros h2 ts E2 Z. pose proof (C2 h2 (ext_trans h h1 h2 E1 E2)) as C3.
  destruct ts as [ts|e]; destruct (if clone then _ else _) as [ts'|e']; cbn in Z; try contradiction; apply does_ret; (split; [|cbn; congruence]); [|exact C3].
  apply RC_make; try (assumption || reflexivity).
Qed.
Lemma RL_len P h l l' : RL P h l l' -> length l = length l'.
Proof. intros (<- & _). symmetry. apply map_length. Qed.
Lemma RL_nth P h l l' i : RL P h l l' -> match nth_error l i, nth_error l' i with Some x, Some v => RV P h x v | None, None => True | _, _ => False end.
Proof.
  revert l' i. induction l as [|x l IH]; intros [|v l'] i H; try (destruct H as (E & _); discriminate E); [destruct i; exact Logic.I|]. apply RL_cons in H. destruct H as (A & B). destruct i as [|i]; [exact A|exact (IH l' i B)].
Qed.
Lemma RL_app P h a a' b b' : RL P h a a' -> RL P h b b' -> RL P h (a ++ b) (a' ++ b').
Proof. intros (<- & A) (<- & B). split; [apply map_app|]. rewrite flat_map_app. apply inside_app. auto. Qed.
Lemma RL_firstn P h l l' i : RL P h l l' -> RL P h (firstn i l) (firstn i l').
Proof.
  revert l' i. induction l as [|x l IH]; intros [|v l'] [|i] H; try (destruct H as (E & _); discriminate E); try (split; [reflexivity|constructor]). apply RL_cons in H. destruct H as (A & B). cbn. apply RL_cons. split; [exact A|exact (IH l' i B)].
Qed.
Lemma RL_skipn P h l l' i : RL P h l l' -> RL P h (skipn i l) (skipn i l').
Proof.
  revert l' i. induction l as [|x l IH]; intros [|v l'] [|i] H; try (destruct H as (E & _); discriminate E); try (split; [reflexivity|constructor]); [exact H|]. apply RL_cons in H. destruct H as (A & B). cbn. exact (IH l' i B).
Qed.
Lemma hc_requires_does P rg i h c c' : fresh_in P h -> RC P h c c' -> does (hc_requires_grad rg i c) h (fun h' r => rexn (RC P) h' r (cont_requires_grad rg i c')).
Proof.
  intros F C. unfold hc_requires_grad, cont_requires_grad. destruct (Z.eqb i (-1)); [apply (hc_map_does P P); [intros h0 r t _; exact (detach_does P rg h0 r t)|auto|exact F|exact C]|].
  destruct (RC_tensors P h c c' C) as (T & S & K & D & Y). rewrite (RL_len P h _ _ T). set (n := Z.of_nat _). set (j := if Z.ltb i 0 then _ else _).
  destruct (Z.ltb j 0 || Z.leb n j)%bool; [apply does_ret; split; [exact C|reflexivity]|].
  pose proof (RL_nth P h _ _ (Z.to_nat j) T) as N. destruct (nth_error (hc_tensors c) (Z.to_nat j)) as [x|]; destruct (nth_error (c_tensors c') (Z.to_nat j)) as [v|]; try contradiction; [|apply does_ret; split; [exact C|reflexivity]].
  destruct x as [|r|l]; destruct v as [|t|l']; try (destruct N as (N & _); discriminate N); try (apply does_ret; split; [exact C|reflexivity]).
  rewrite K. destruct (c_kind c'); [apply does_ret; split; [exact C|reflexivity]|]. apply RV_T in N. apply (does_seq _ _ _ _ _ (detach_does P rg h r t N)). intros h1 r' E X. apply does_ret.
  split; [|reflexivity]. apply RC_make; try (assumption || reflexivity). pose proof (RL_ext P h h1 _ _ T E) as T1. apply RL_app; [apply RL_firstn; exact T1|]. apply RL_cons. split; [apply RV_T; exact X|apply RL_skipn; exact T1].
Qed.
Lemma hc_init_does P shapes dv dt h : fresh_in P h -> does (hc_init shapes dv dt) h (fun h' r => RC P h' r (cont_init shapes dv dt)).
Proof.
  intros F. apply (does_seq _ _ _ _ _ (news_does P h _ F)). intros h1 ts E X. apply does_ret. rewrite map_map in X. apply RC_make; try (assumption || reflexivity).
Qed.
Lemma hc_clone_does P Q c c' h : fresh_in P h -> RC Q h c c' -> does (hc_clone c) h (fun h' r => rres (RC P) h' r (cont_clone c')).
Proof.
  intros F C. destruct (RC_tensors Q h c c' C) as (T & S & K & D & Y). unfold hc_clone, cont_clone. apply (does_seq _ _ _ _ _ (hc_init_does P _ _ _ h F)). intros h1 c0 E1 X. rewrite S, D, Y in X.
  assert (V : RV Q h1 (HL (hc_tensors c)) (VL (c_tensors c'))) by (destruct (RL_ext Q h h1 _ _ T E1) as (A & B); split; [cbn; congruence|exact B]).
  apply (does_seq _ _ _ _ _ (hc_fill_does P Q c0 _ _ _ true None h1 (fresh_ext P h h1 F E1) X V (or_introl eq_refl))). intros h2 r E2 Z. apply does_ret.
  destruct r as [c1 o]. destruct (cont_fill _ _ true None) as [c2 o']. destruct Z as (Z1 & Z2). cbn in Z1, Z2. subst o'. destruct o; [reflexivity|exact Z1].
Qed.
Lemma negs_does P Q h l l' : fresh_in P h -> RL Q h l l' -> does (h_negs l) h (fun h' r => rres (RL P) h' r
  (mapM (fun v => match v with VT t => Ok (VT (mkTob (topp (tval t)) (tdev t) (tdty t) (trg t))) | _ => Err TypeError end) l')).
Proof.
  revert h l'. induction l as [|x l IH]; intros h [|v l'] F H; try (destruct H as (E & _); discriminate E); [apply does_ret; split; [reflexivity|constructor]|].
  apply RL_cons in H. destruct H as (X & L). destruct x as [|r|k]; destruct v as [|t|k']; try (destruct X as (E & _); discriminate E); try (apply does_ret; reflexivity).
  apply RV_T in X. destruct X as (<- & _). cbn [h_negs mapM bind]. apply (does_seq _ _ _ _ _ (new_does P _ h F)). intros h1 r' E1 Y.
  apply (does_seq _ _ _ _ _ (IH h1 l' (fresh_ext P h h1 F E1) (RL_ext Q h h1 l l' L E1))). intros h2 rest E2 Z. apply does_ret.
  destruct rest as [rest|e]; destruct (mapM _ l') as [ts|e']; cbn in *; try contradiction; [|exact Z]. apply RL_cons. split; [apply RV_T; exact (RT_ext P h1 h2 r' _ Y E2)|exact Z].
Qed.
Lemma hc_negate_does P h c c' : fresh_in P h -> RC P h c c' -> does (hc_negate c) h (fun h' r => rexn (RC P) h' r (cont_negate c')).
Proof.
  intros F C. destruct (RC_tensors P h c c' C) as (T & S & K & D & Y). unfold hc_negate, cont_negate. apply (does_seq _ _ _ _ _ (negs_does P P h _ _ F T)). intros h1 r E X. apply does_ret.
  destruct r as [ts|e]; destruct (mapM _ (c_tensors c')) as [ts'|e']; cbn in X; try contradiction; (split; [|cbn; congruence]); [apply RC_make; assumption || reflexivity|exact (RC_ext P h h1 c c' C E)].
Qed.
Lemma adds_does P Q S h l m l' m' : fresh_in P h -> RL Q h l l' -> RL S h m m' -> does (h_adds (combine l m)) h (fun h' r => rres (RL P) h' r
  (mapM (fun p => py_add (fst p) (snd p)) (combine l' m'))).
Proof.
  revert h m l' m'. induction l as [|x l IH]; intros h m [|v l'] m' F H G; try (destruct H as (E & _); discriminate E); [apply does_ret; split; [reflexivity|constructor]|].
  destruct m as [|y m]; destruct m' as [|w m']; try (destruct G as (E & _); discriminate E); [apply does_ret; split; [reflexivity|constructor]|].
  apply RL_cons in H. destruct H as (X & L). apply RL_cons in G. destruct G as (W & N). destruct x as [|r|k]; destruct v as [|t|k']; try (destruct X as (E & _); discriminate E); try (apply does_ret; reflexivity).
  destruct y as [|s|y]; destruct w as [|u|w]; try (destruct W as (E & _); discriminate E); try (apply does_ret; reflexivity).
  apply RV_T in X. destruct X as (<- & _). apply RV_T in W. destruct W as (<- & _). cbn [combine h_adds mapM fst snd]. unfold py_add at 1. change (tdev (load h r)) with (rdev r). change (tdev (load h s)) with (rdev s).
  destruct (String.eqb (rdev r) (rdev s)); [|apply does_ret; reflexivity]. cbn [bind]. apply (does_seq _ _ _ _ _ (new_does P _ h F)). intros h1 r' E1 Y.
  apply (does_seq _ _ _ _ _ (IH h1 m l' m' (fresh_ext P h h1 F E1) (RL_ext Q h h1 l l' L E1) (RL_ext S h h1 m m' N E1))). intros h2 rest E2 Z. apply does_ret.
  destruct rest as [rest|e]; destruct (mapM _ (combine l' m')) as [ts|e']; cbn in *; try contradiction; [|exact Z]. apply RL_cons. split; [apply RV_T; exact (RT_ext P h1 h2 r' _ Y E2)|exact Z].
Qed.
Lemma hc_add_does P Q h c c' v v' : fresh_in P h -> RC P h c c' -> RV Q h v v' -> does (hc_add c v) h (fun h' r => rexn (RC P) h' r (cont_add c' v')).
Proof.
  intros F C V. destruct (RC_tensors P h c c' C) as (T & S & K & D & Y). unfold hc_add, cont_add.
  assert (V2 : RV Q h (if Nat.eqb (length (hc_shapes c)) 1 then HL [v] else v) (if Nat.eqb (length (c_shapes c')) 1 then VL [v'] else v')).
  { rewrite S. destruct (Nat.eqb _ 1); [|exact V]. destruct V as (<- & I). split; [reflexivity|]. cbn. rewrite app_nil_r. exact I. }
  apply (does_seq _ _ _ _ _ (iter_does Q h _ _ V2)). intros h1 l E1 X. destruct l as [l|e]; destruct (py_iter _) as [l'|e']; cbn in X; try contradiction; [|apply does_ret; split; [exact (RC_ext P h h1 c c' C E1)|cbn; congruence]].
  apply (does_seq _ _ _ _ _ (adds_does P P Q h1 _ _ _ _ (fresh_ext P h h1 F E1) (RL_ext P h h1 _ _ T E1) X)). intros h2 r E2 Z. apply does_ret.
  destruct r as [ts|e]; destruct (mapM _ (combine _ _)) as [ts'|e']; cbn in Z; try contradiction; (split; [|cbn; congruence]); [apply RC_make; assumption || reflexivity|exact (RC_ext P h h2 c c' C (ext_trans h h1 h2 E1 E2))].
Qed.

(** ** Leaves *)
Lemma RF_part P h l l' p : RF P h l l' -> RC P h (h_part p l) (get_part p l').
Proof. intros (<- & I). apply inside_app in I. destruct I as (I1 & I). apply inside_app in I. destruct I as (I2 & I3). destruct p; (split; [reflexivity|assumption]). Qed.
Lemma RF_set P h l l' p c c' : RF P h l l' -> RC P h c c' -> RF P h (h_set_part p c l) (set_part p c' l').
Proof.
  intros (<- & I) (<- & J). apply inside_app in I. destruct I as (I1 & I). apply inside_app in I. destruct I as (I2 & I3).
  split; [destruct p; reflexivity|]. unfold leaf_locs. destruct p; cbn; repeat (apply inside_app; split); assumption.
Qed.
Lemma RF_mdev P h l l' d : RF P h l l' -> RF P h (h_set_mdev d l) (set_mdev d l').
Proof. intros (<- & I). split; [reflexivity|exact I]. Qed.
Lemma RM_leaf P h l l' : RM P h (HMLeaf l) (MLeaf l') <-> RF P h l l'.
Proof. unfold RM, RF. cbn. split; intros (A & B); (split; [congruence|exact B]). Qed.
Lemma RM_comp P h dv dt ms dv' dt' ms' : RM P h (HMComp dv dt ms) (MComp dv' dt' ms') <-> dv = dv' /\ dt = dt' /\ RMS P h ms ms'.
Proof. unfold RM, RMS. cbn. split; [intros (A & B); injection A as A1 A2 A3; auto|]. intros (-> & -> & A & B). split; [congruence|exact B]. Qed.
(** A method that works on one container. *)
Lemma part_does P (f : hcont -> M (hcont * option exn)) (g : cont -> cont * option exn) p h l l' :
  (RC P h (h_part p l) (get_part p l') -> does (f (h_part p l)) h (fun h' r => rexn (RC P) h' r (g (get_part p l')))) -> RF P h l l' ->
  does (r <~ f (h_part p l) ;; ret (HMLeaf (h_set_part p (fst r) l), snd r)) h
    (fun h' r => rexn (RM P) h' r (let (c, e) := g (get_part p l') in (MLeaf (set_part p c l'), e))).
Proof.
  intros G L. apply (does_seq _ _ _ _ _ (G (RF_part P h l l' p L))). intros h1 r E X. apply does_ret. destruct (g (get_part p l')) as [c e]. destruct X as (X & Y).
  split; [|exact Y]. apply RM_leaf. apply RF_set; [exact (RF_ext P h h1 l l' L E)|exact X].
Qed.
Lemma leaf_fill_does P Q p l l' v v' copy rg h : fresh_in P h -> RF P h l l' -> RV Q h v v' -> (copy = true \/ forall x, Q x -> P x) ->
  does (h_leaf_fill p l v copy rg) h (fun h' r => rexn (RF P) h' r (leaf_fill p l' v' copy rg)).
Proof.
  intros F L V W. unfold h_leaf_fill, leaf_fill. apply (does_seq _ _ _ _ _ (hc_fill_does P Q _ _ v v' copy rg h F (RF_part P h l l' p L) V W)). intros h1 r E X. apply does_ret.
  destruct r as [c o]. destruct (cont_fill _ _ _ _) as [c' o']. destruct X as (X & Y). cbn in X, Y. subst o'. pose proof (RF_set P h1 l l' p c c' (RF_ext P h h1 l l' L E) X) as Z.
  destruct o; (split; [|reflexivity]); [exact Z|]. cbn. replace (hc_dev c) with (c_dev c') by (destruct X as (<- & _); reflexivity). apply RF_mdev. exact Z.
Qed.
Lemma leaf_all_does P (f : hcont -> M (hcont * option exn)) (g : cont -> cont * option exn) h l l' :
  (forall h c c', fresh_in P h -> RC P h c c' -> does (f c) h (fun h' r => rexn (RC P) h' r (g c'))) -> fresh_in P h -> RF P h l l' ->
  does (h_leaf_all f l) h (fun h' r => rexn (RF P) h' r (leaf_all g l')).
Proof.
  intros G F L. unfold h_leaf_all, leaf_all. apply (does_seq _ _ _ _ _ (G h _ _ F (RF_part P h l l' Gd L))). intros h1 r1 E1 X1. cbn [get_part] in X1. destruct r1 as [c1 o1]. destruct (g (l_gd l')) as [c1' o1']. destruct X1 as (X1 & Y1). cbn in X1, Y1. subst o1'.
  pose proof (RF_ext P h h1 l l' L E1) as L1. destruct o1 as [e|]; [apply does_ret; split; [exact (RF_set P h1 l l' Gd _ _ L1 X1)|reflexivity]|].
  apply (does_seq _ _ _ _ _ (G h1 _ _ (fresh_ext P h h1 F E1) (RF_part P h1 l l' Tan L1))). intros h2 r2 E2 X2. cbn [get_part] in X2. destruct r2 as [c2 o2]. destruct (g (l_tan l')) as [c2' o2']. destruct X2 as (X2 & Y2). cbn in X2, Y2. subst o2'.
  pose proof (RF_set P h2 _ _ Gd _ _ (RF_ext P h1 h2 l l' L1 E2) (RC_ext P h1 h2 _ _ X1 E2)) as L2. destruct o2 as [e|]; [apply does_ret; split; [exact (RF_set P h2 _ _ Tan _ _ L2 X2)|reflexivity]|].
  apply (does_seq _ _ _ _ _ (G h2 _ _ (fresh_ext P h h2 F (ext_trans _ _ _ E1 E2)) (RF_part P h2 l l' Cotan (RF_ext P h1 h2 l l' L1 E2)))). intros h3 r3 E3 X3. cbn [get_part] in X3. apply does_ret. destruct r3 as [c3 o3]. destruct (g (l_cotan l')) as [c3' o3']. destruct X3 as (X3 & Y3). cbn in X3, Y3. subst o3'.
  split; [|reflexivity]. cbn [fst]. apply (RF_set P h3 _ _ Cotan); [|exact X3]. apply (RF_set P h3 _ _ Tan); [exact (RF_ext P h2 h3 _ _ (RF_set P h2 _ _ Gd _ _ (RF_ext P h1 h2 l l' L1 E2) (RC_ext P h1 h2 _ _ X1 E2)) E3)|exact (RC_ext P h2 h3 _ _ X2 E3)].
Qed.

(** ** Trees *)
Lemma RMS_len P h l l' : RMS P h l l' -> length l = length l'.
Proof. intros (<- & _). symmetry. apply map_length. Qed.
Lemma RMS_nil P h : RMS P h [] [].
Proof. split; [reflexivity|constructor]. Qed.

(** f simulates g from any heap *)
Definition simulates (P Q : nat -> Prop) (f : hman -> hv -> M (hman * option exn)) (g : man -> pyv -> man * option exn) : Prop :=
  forall h m m' v v', fresh_in P h -> RM P h m m' -> RV Q h v v' -> does (f m v) h (fun h' r => rexn (RM P) h' r (g m' v')).
Lemma zip_does P Q fs gs ms ms' vs vs' h : Forall2 (simulates P Q) fs gs -> fresh_in P h -> RMS P h ms ms' -> RL Q h vs vs' ->
  does (h_zip_loop fs ms vs) h (fun h' r => rexn (RMS P) h' r (zip_loop gs ms' vs')).
Proof.
  intros G. revert ms ms' vs vs' h. induction G as [|f g fs gs S _ IH]; intros ms ms' vs vs' h F A V; [apply does_ret; split; [exact A|reflexivity]|].
  destruct ms as [|m ms]; destruct ms' as [|m' ms']; try (destruct A as (E & _); discriminate E); [apply does_ret; split; [exact A|reflexivity]|].
  destruct vs as [|v vs]; destruct vs' as [|v' vs']; try (destruct V as (E & _); discriminate E); [apply does_ret; split; [exact A|reflexivity]|].
  apply RMS_cons in A. destruct A as (A1 & A2). apply RL_cons in V. destruct V as (V1 & V2). cbn [h_zip_loop zip_loop].
  apply (does_seq _ _ _ _ _ (S h m m' v v' F A1 V1)). intros h1 r E1 X. destruct r as [m1 o]. destruct (g m' v') as [m1' o']. destruct X as (X & Y). cbn in X, Y. subst o'.
  destruct o as [e|]; [apply does_ret; split; [apply RMS_cons; split; [exact X|exact (RMS_ext P h h1 _ _ A2 E1)]|reflexivity]|].
  apply (does_seq _ _ _ _ _ (IH ms ms' vs vs' h1 (fresh_ext P h h1 F E1) (RMS_ext P h h1 _ _ A2 E1) (RL_ext Q h h1 _ _ V2 E1))). intros h2 q E2 Z. apply does_ret. destruct (zip_loop gs ms' vs') as [ms2 o2]. destruct Z as (Z1 & Z2).
  split; [|exact Z2]. apply RMS_cons. split; [exact (RM_ext P h1 h2 _ _ X E2)|exact Z1].
Qed.
Lemma index_loop_does P Q fs gs ms ms' v v' i h : Forall2 (simulates P Q) fs gs -> fresh_in P h -> RMS P h ms ms' -> RV Q h v v' ->
  does (h_index_loop fs ms v i) h (fun h' r => rexn (RMS P) h' r (index_loop gs ms' v' i)).
Proof.
  intros G. revert ms ms' i h. induction G as [|f g fs gs SM _ IH]; intros ms ms' i h F A V; [apply does_ret; split; [exact A|reflexivity]|].
  destruct ms as [|m ms]; destruct ms' as [|m' ms']; try (destruct A as (E & _); discriminate E); [apply does_ret; split; [exact A|reflexivity]|].
  pose proof A as A0. apply RMS_cons in A. destruct A as (A1 & A2). cbn [h_index_loop index_loop].
  apply (does_seq _ _ _ _ _ (index_does Q h v v' i V)). intros h0 x E0 X0. destruct x as [x|e]; destruct (py_index v' i) as [x'|e']; cbn in X0; try contradiction; [|apply does_ret; split; [exact (RMS_ext P h h0 _ _ A0 E0)|cbn; congruence]].
  apply (does_seq _ _ _ _ _ (SM h0 m m' x x' (fresh_ext P h h0 F E0) (RM_ext P h h0 _ _ A1 E0) X0)). intros h1 r E1 X. destruct r as [m1 o]. destruct (g m' x') as [m1' o']. destruct X as (X & Y). cbn in X, Y. subst o'.
  pose proof (ext_trans _ _ _ E0 E1) as E01. destruct o as [e|]; [apply does_ret; split; [apply RMS_cons; split; [exact X|exact (RMS_ext P h h1 _ _ A2 E01)]|reflexivity]|].
  apply (does_seq _ _ _ _ _ (IH ms ms' (S i) h1 (fresh_ext P h h1 F E01) (RMS_ext P h h1 _ _ A2 E01) (RV_ext Q h h1 _ _ V E01))). intros h2 q E2 Z. apply does_ret. destruct (index_loop gs ms' v' (S i)) as [ms2 o2]. destruct Z as (Z1 & Z2).
  split; [|exact Z2]. apply RMS_cons. split; [exact (RM_ext P h1 h2 _ _ X E2)|exact Z1].
Qed.
Lemma each_does P (f : hman -> M (hman * option exn)) (g : man -> man * option exn) ms ms' h :
  Forall (fun m => forall h m', fresh_in P h -> RM P h m m' -> does (f m) h (fun h' r => rexn (RM P) h' r (g m'))) ms -> fresh_in P h -> RMS P h ms ms' ->
  does (h_each f ms) h (fun h' r => rexn (RMS P) h' r (each g ms')).
Proof.
  intros G. revert ms' h. induction G as [|m ms S _ IH]; intros ms' h F A.
  - destruct ms' as [|m' ms']; [|destruct A as (E & _); discriminate E]. apply does_ret. split; [exact A|reflexivity].
  - destruct ms' as [|m' ms']; [destruct A as (E & _); discriminate E|]. apply RMS_cons in A. destruct A as (A1 & A2). cbn [h_each each].
    apply (does_seq _ _ _ _ _ (S h m' F A1)). intros h1 r E1 X. destruct r as [m1 o]. destruct (g m') as [m1' o']. destruct X as (X & Y). cbn in X, Y. subst o'.
    destruct o as [e|]; [apply does_ret; split; [apply RMS_cons; split; [exact X|exact (RMS_ext P h h1 _ _ A2 E1)]|reflexivity]|].
    apply (does_seq _ _ _ _ _ (IH ms' h1 (fresh_ext P h h1 F E1) (RMS_ext P h h1 _ _ A2 E1))). intros h2 q E2 Z. apply does_ret. fold (each g). destruct (each g ms') as [ms2 o2]. destruct Z as (Z1 & Z2).
    split; [|exact Z2]. apply RMS_cons. split; [exact (RM_ext P h1 h2 _ _ X E2)|exact Z1].
Qed.

(** The same shape of tree. *)
Fixpoint alike (m : hman) (m' : man) : Prop :=
  match m, m' with
  | HMLeaf _, MLeaf _ | HMEmpty _ _ _, MEmpty _ _ _ => True
  | HMComp _ _ ms, MComp _ _ ms' => (fix go (l : list hman) (l' : list man) := match l, l' with [], [] => True | x :: l, y :: l' => alike x y /\ go l l' | _, _ => False end) ms ms'
  | _, _ => False
  end.
Lemma alike_comp dv dt ms dv' dt' ms' : alike (HMComp dv dt ms) (MComp dv' dt' ms') <-> Forall2 alike ms ms'.
Proof.
  cbn. revert ms'. induction ms as [|m ms IH]; intros [|m' ms']; split; intros H; try constructor; try contradiction; try (inversion H; fail).
  - destruct H; assumption.
  - apply IH. destruct H; assumption.
  - inversion H; assumption.
  - apply IH. inversion H; assumption.
Qed.
Lemma look_alike h m : alike m (look_man h m).
Proof.
  induction m as [l|n dv dt|dv dt ms IH] using hman_ind'; [exact Logic.I..|]. apply alike_comp. induction IH as [|m ms Hm _ IHms]; [constructor|]. cbn [map]. constructor; assumption.
Qed.
Lemma fill_sk_does (P Q : nat -> Prop) p copy rg sk sk' : (copy = true \/ forall x, Q x -> P x) -> alike sk sk' -> simulates P Q (h_fill_sk p copy rg sk) (fill_sk p copy rg sk').
Proof.
  intros W. revert sk'. induction sk as [l|n dv dt|dv dt sks IH] using hman_ind'; intros sk' AL h m m' v v' F A V; destruct sk' as [l0|n' dv' dt'|dv' dt' sks']; try contradiction.
  - destruct m as [l1|n1 dv1 dt1|dv1 dt1 ms]; destruct m' as [l1'|n1' dv1' dt1'|dv1' dt1' ms']; try (destruct A as (E & _); discriminate E); try (apply does_ret; split; [exact A|reflexivity]).
    cbn [h_fill_sk fill_sk]. apply RM_leaf in A. apply (does_seq _ _ _ _ _ (leaf_fill_does P Q p l1 l1' v v' copy rg h F A V W)). intros h1 r E X. apply does_ret. destruct (leaf_fill p l1' v' copy rg) as [l2 o]. destruct X as (X & Y). split; [|exact Y]. apply RM_leaf. exact X.
  - destruct m as [l1|n1 dv1 dt1|dv1 dt1 ms]; destruct m' as [l1'|n1' dv1' dt1'|dv1' dt1' ms']; try (destruct A as (E & _); discriminate E); apply does_ret; (split; [exact A|reflexivity]).
  - destruct m as [l1|n1 dv1 dt1|dv1 dt1 ms]; destruct m' as [l1'|n1' dv1' dt1'|dv1' dt1' ms']; try (destruct A as (E & _); discriminate E); try (apply does_ret; split; [exact A|reflexivity]).
    assert (SF : Forall2 (simulates P Q) (map (h_fill_sk p copy rg) sks) (map (fill_sk p copy rg) sks')).
    { apply alike_comp in AL. clear -IH AL. revert sks' AL. induction IH as [|s sks Hs _ IHs]; intros sks' AL; inversion AL; subst; [constructor|]. cbn [map]. constructor; [apply Hs; assumption|apply IHs; assumption]. }
    cbn [h_fill_sk fill_sk]. pose proof A as A0. apply RM_comp in A. destruct A as (<- & <- & A).
    apply (does_seq _ _ _ _ _ (iter_does Q h v v' V)). intros h1 vs E1 X. destruct vs as [vs|e]; destruct (py_iter v') as [vs'|e']; cbn in X; try contradiction; [|apply does_ret; split; [exact (RM_ext P h h1 _ _ A0 E1)|cbn; congruence]].
    apply (does_seq _ _ _ _ _ (zip_does P Q _ _ _ _ _ _ h1 SF (fresh_ext P h h1 F E1) (RMS_ext P h h1 _ _ A E1) X)). intros h2 q E2 Z. destruct q as [ms1 o1]. destruct (zip_loop _ _ _) as [ms1' o1']. destruct Z as (Z1 & Z2). cbn in Z1, Z2. subst o1'.
    destruct o1 as [e|]; [apply does_ret; split; [apply RM_comp; auto|reflexivity]|].
    destruct p; [|apply does_ret; split; [apply RM_comp; auto|reflexivity]..].
    pose proof (ext_trans _ _ _ E1 E2) as E12. apply (does_seq _ _ _ _ _ (index_loop_does P Q _ _ _ _ v v' 0 h2 SF (fresh_ext P h h2 F E12) Z1 (RV_ext Q h h2 _ _ V E12))). intros h3 q E3 Y. apply does_ret. destruct (index_loop _ _ _ _) as [ms2 o2]. destruct Y as (Y1 & Y2). split; [|exact Y2]. apply RM_comp. auto.
Qed.
Lemma fill_does (P Q : nat -> Prop) p copy rg h m m' v v' : (copy = true \/ forall x, Q x -> P x) -> fresh_in P h -> RM P h m m' -> RV Q h v v' ->
  does (h_fill p m v copy rg) h (fun h' r => rexn (RM P) h' r (fill p m' v' copy rg)).
Proof. intros W F A V. apply (fill_sk_does P Q p copy rg m m' W); [|assumption..]. destruct A as (<- & _). apply look_alike. Qed.
Lemma add_does P Q p h m m' v v' : fresh_in P h -> RM P h m m' -> RV Q h v v' -> does (h_add p m v) h (fun h' r => rexn (RM P) h' r (add p m' v')).
Proof.
  revert h m' v v'. induction m as [l|n dv dt|dv dt ms IH] using hman_ind'; intros h m' v v' F A V; destruct m' as [l'|n' dv' dt'|dv' dt' ms']; try (destruct A as (E & _); discriminate E).
  - apply RM_leaf in A. apply (part_does P (fun c => hc_add c v) (fun c => cont_add c v') p h l l'); [|exact A]. intros C. exact (hc_add_does P Q h _ _ v v' F C V).
  - apply does_ret. split; [exact A|reflexivity].
  - apply RM_comp in A. destruct A as (<- & <- & A). cbn [h_add add].
    match goal with |- does (seqM ?c _) _ _ => assert (L : does c h (fun h' r => rexn (RMS P) h' r (index_loop (map (fun m' => fun _ => add p m') ms') ms' v' 0))) end.
    { generalize 0 as i. revert ms' h F A V. induction IH as [|m ms Hm _ IHms]; intros ms' h F A V i.
      - destruct ms' as [|m' ms']; [|destruct A as (E & _); discriminate E]. apply does_ret. split; [exact A|reflexivity].
      - destruct ms' as [|m' ms']; [destruct A as (E & _); discriminate E|]. pose proof A as A0. apply RMS_cons in A. destruct A as (A1 & A2). cbn [map h_index_loop index_loop].
        apply (does_seq _ _ _ _ _ (index_does Q h v v' i V)). intros h0 x E0 X0. destruct x as [x|e]; destruct (py_index v' i) as [x'|e']; cbn in X0; try contradiction; [|apply does_ret; split; [exact (RMS_ext P h h0 _ _ A0 E0)|cbn; congruence]].
        apply (does_seq _ _ _ _ _ (Hm h0 m' x x' (fresh_ext P h h0 F E0) (RM_ext P h h0 _ _ A1 E0) X0)). intros h1 r E1 X. destruct r as [m1 o]. destruct (add p m' x') as [m1' o']. destruct X as (X & Y). cbn in X, Y. subst o'.
        pose proof (ext_trans _ _ _ E0 E1) as E01. destruct o as [e|]; [apply does_ret; split; [apply RMS_cons; split; [exact X|exact (RMS_ext P h h1 _ _ A2 E01)]|reflexivity]|].
        apply (does_seq _ _ _ _ _ (IHms ms' h1 (fresh_ext P h h1 F E01) (RMS_ext P h h1 _ _ A2 E01) (RV_ext Q h h1 _ _ V E01) (S i))). intros h2 q E2 Z. apply does_ret. destruct (index_loop _ ms' v' (S i)) as [ms2 o2]. destruct Z as (Z1 & Z2).
        split; [|exact Z2]. apply RMS_cons. split; [exact (RM_ext P h1 h2 _ _ X E2)|exact Z1]. }
    apply (does_seq _ _ _ _ _ L). intros h1 q E1 X. apply does_ret. destruct (index_loop _ ms' v' 0) as [ms2 o2]. destruct X as (X1 & X2). split; [|exact X2]. apply RM_comp. auto.
Qed.
(** Methods without tensors as arguments. *)
Lemma tree_does P (f : hman -> M (hman * option exn)) (g : man -> man * option exn) :
  (forall h l l', fresh_in P h -> RF P h l l' -> does (f (HMLeaf l)) h (fun h' r => rexn (RM P) h' r (g (MLeaf l')))) ->
  (forall h n dv dt, does (f (HMEmpty n dv dt)) h (fun h' r => rexn (RM P) h' r (g (MEmpty n dv dt)))) ->
  (forall dv dt ms, f (HMComp dv dt ms) = (q <~ h_each f ms ;; ret (HMComp dv dt (fst q), snd q))) ->
  (forall dv dt ms, g (MComp dv dt ms) = let (ms', e) := each g ms in (MComp dv dt ms', e)) ->
  forall m h m', fresh_in P h -> RM P h m m' -> does (f m) h (fun h' r => rexn (RM P) h' r (g m')).
Proof.
  intros G1 G2 G3 G4 m. induction m as [l|n dv dt|dv dt ms IH] using hman_ind'; intros h m' F A; destruct m' as [l'|n' dv' dt'|dv' dt' ms']; try (destruct A as (E & _); discriminate E).
  - apply RM_leaf in A. exact (G1 h l l' F A).
  - destruct A as (E & _). injection E as <- <- <-. apply G2.
  - apply RM_comp in A. destruct A as (<- & <- & A). rewrite G3, G4. apply (does_seq _ _ _ _ _ (each_does P f g ms ms' h IH F A)). intros h1 q E X. apply does_ret. destruct (each g ms') as [ms2 o2]. destruct X as (X1 & X2). split; [|exact X2]. apply RM_comp. auto.
Qed.
Lemma RM_empty P h n dv dt : RM P h (HMEmpty n dv dt) (MEmpty n dv dt).
Proof. split; [reflexivity|constructor]. Qed.
Lemma negate_does P p m h m' : fresh_in P h -> RM P h m m' -> does (h_negate p m) h (fun h' r => rexn (RM P) h' r (negate p m')).
Proof.
  revert m h m'. apply (tree_does P (h_negate p) (negate p)); [| |reflexivity..].
  - intros h l l' F A. apply (part_does P hc_negate cont_negate p h l l'); [|exact A]. exact (hc_negate_does P h _ _ F).
  - intros h n dv dt. apply does_ret. split; [apply RM_empty|reflexivity].
Qed.
Lemma leafwise P (f : hleaf -> M (hleaf * option exn)) (g : leaf -> leaf * option exn) h l l' :
  does (f l) h (fun h' r => rexn (RF P) h' r (g l')) ->
  does (r <~ f l ;; ret (HMLeaf (fst r), snd r)) h (fun h' r => rexn (RM P) h' r (let (l', e) := g l' in (MLeaf l', e))).
Proof. intros G. apply (does_seq _ _ _ _ _ G). intros h1 r E X. apply does_ret. destruct (g l') as [l2 o]. destruct X as (X & Y). split; [|exact Y]. apply RM_leaf. exact X. Qed.
Lemma to_does P a m h m' : fresh_in P h -> RM P h m m' -> does (h_to_ a m) h (fun h' r => rexn (RM P) h' r (to_ a m')).
Proof.
  revert m h m'. apply (tree_does P (h_to_ a) (to_ a)); [| |reflexivity..].
  - intros h l l' F A.
    assert (DV : forall d, RF P h (mkHLeaf (hl_shapes l) (hl_nb l) d (hl_dty l) (hl_mdev l) (hl_gd l) (hl_tan l) (hl_cotan l)) (mkLeaf (l_shapes l') (l_nb l') d (l_dty l') (l_mdev l') (l_gd l') (l_tan l') (l_cotan l'))) by (intros d; destruct A as (<- & I); split; [reflexivity|exact I]).
    assert (DT : forall d, RF P h (mkHLeaf (hl_shapes l) (hl_nb l) (hl_dev l) d (hl_mdev l) (hl_gd l) (hl_tan l) (hl_cotan l)) (mkLeaf (l_shapes l') (l_nb l') (l_dev l') d (l_mdev l') (l_gd l') (l_tan l') (l_cotan l'))) by (intros d; destruct A as (<- & I); split; [reflexivity|exact I]).
    destruct a as [d|t| |]; cbn [h_to_ to_].
    + apply (leafwise P (h_leaf_device d) (leaf_set_device d)). apply (leaf_all_does P (hc_to_device d) (cont_to_device d)); [exact (hc_device_does P d)|exact F|apply DV].
    + apply (leafwise P (h_leaf_dtype t) (leaf_set_dtype t)). apply (leaf_all_does P (hc_to_dtype t) (cont_to_dtype t)); [exact (hc_dtype_does P t)|exact F|apply DT].
    + apply (leafwise P (h_leaf_device "cpu"%string) (leaf_set_device "cpu"%string)). apply (leaf_all_does P (hc_to_device "cpu"%string) (cont_to_device "cpu"%string)); [exact (hc_device_does P _)|exact F|apply DV].
    + apply does_ret. split; [apply RM_leaf; exact A|reflexivity].
  - intros h n dv dt. destruct a; apply does_ret; (split; [apply RM_empty|reflexivity]).
Qed.
Lemma requires_does P p rg i m h m' : fresh_in P h -> RM P h m m' -> does (h_requires_grad_ p m rg i) h (fun h' r => rexn (RM P) h' r (requires_grad_ p m' rg i)).
Proof.
  intros F A. destruct m as [l|n dv dt|dv dt ms]; destruct m' as [l'|n' dv' dt'|dv' dt' ms']; try (destruct A as (E & _); discriminate E); [|apply does_ret; split; [exact A|reflexivity]..].
  apply RM_leaf in A. apply (part_does P (hc_requires_grad rg i) (cont_requires_grad rg i) p h l l'); [|exact A]. exact (hc_requires_does P rg i h _ _ F).
Qed.
Lemma set_does P (f : hcont -> M hcont) (g : cont -> cont) p h l l' :
  (RC P h (h_part p l) (get_part p l') -> does (f (h_part p l)) h (fun h' r => RC P h' r (g (get_part p l')))) -> RF P h l l' ->
  does (c <~ f (h_part p l) ;; ret (HMLeaf (h_set_part p c l), None)) h (fun h' r => rexn (RM P) h' r (MLeaf (set_part p (g (get_part p l')) l'), None)).
Proof. intros G A. apply (does_seq _ _ _ _ _ (G (RF_part P h l l' p A))). intros h1 c E X. apply does_ret. split; [|reflexivity]. apply RM_leaf. apply RF_set; [exact (RF_ext P h h1 l l' A E)|exact X]. Qed.
Lemma zeros_does P p rg m h m' : fresh_in P h -> RM P h m m' -> does (h_fill_zeros p rg m) h (fun h' r => rexn (RM P) h' r (fill_zeros p rg m')).
Proof.
  intros F A. destruct m as [l|n dv dt|dv dt ms]; destruct m' as [l'|n' dv' dt'|dv' dt' ms']; try (destruct A as (E & _); discriminate E); [|apply does_ret; split; [exact A|reflexivity]..].
  apply RM_leaf in A. apply (set_does P (hc_fill_zeros rg) (cont_fill_zeros rg) p h l l'); [|exact A]. exact (hc_zeros_does P rg h _ _ F).
Qed.
Lemma randn_does P p rnd rg m h m' : fresh_in P h -> RM P h m m' -> does (h_fill_randn p rnd rg m) h (fun h' r => rexn (RM P) h' r (fill_randn p rnd rg m')).
Proof.
  revert m h m'. apply (tree_does P (h_fill_randn p rnd rg) (fill_randn p rnd rg)); [| |reflexivity..].
  - intros h l l' F A. apply (set_does P (hc_fill_randn rnd rg) (cont_fill_randn rnd rg) p h l l'); [|exact A]. exact (hc_randn_does P rnd rg h _ _ F).
  - intros h n dv dt. apply does_ret. split; [apply RM_empty|reflexivity].
Qed.

(** ** Histories *)
Lemma place_does P v h : fresh_in P h -> does (place v) h (fun h' x => RV P h' x v).
Proof.
  revert h. induction v as [|t|l IH] using pyv_ind2; intros h F.
  - apply does_ret. split; [reflexivity|constructor].
  - cbn [place]. apply (does_seq _ _ _ _ _ (new_does P t h F)). intros h1 r E X. apply does_ret. apply RV_T. exact X.
  - cbn [place]. match goal with |- does (seqM ?c _) _ _ => assert (L : does c h (fun h' x => RL P h' x l)) end.
    { revert h F. induction IH as [|v l Hv _ IHl]; intros h F; [apply does_ret; split; [reflexivity|constructor]|].
      apply (does_seq _ _ _ _ _ (Hv h F)). intros h1 x E1 X. apply (does_seq _ _ _ _ _ (IHl h1 (fresh_ext P h h1 F E1))). intros h2 xs E2 Y. apply does_ret. apply RL_cons. split; [exact (RV_ext P h1 h2 x v X E2)|exact Y]. }
    apply (does_seq _ _ _ _ _ L). intros h1 xs E (X & Y). apply does_ret. split; [cbn; congruence|exact Y].
Qed.
Lemma step_does P m o h m' : fresh_in P h -> RM P h m m' -> does (h_step m o) h (fun h' r => rexn (RM P) h' r (step m' o)).
Proof.
  intros F A. destruct o as [p v copy rg|p v|p|p rg i|p rg|p rnd rg|a]; cbn [h_step step].
  - apply (does_seq _ _ _ _ _ (place_does P v h F)). intros h1 x E X. apply (fill_does P P); [right; auto|exact (fresh_ext P h h1 F E)|exact (RM_ext P h h1 m m' A E)|exact X].
  - apply (does_seq _ _ _ _ _ (place_does P v h F)). intros h1 x E X. apply (add_does P P); [exact (fresh_ext P h h1 F E)|exact (RM_ext P h h1 m m' A E)|exact X].
  - apply negate_does; assumption.
  - apply requires_does; assumption.
  - apply zeros_does; assumption.
  - apply randn_does; assumption.
  - apply to_does; assumption.
Qed.

(** ** Copies *)
Lemma leaf_clone_does P Q rg l l' h : fresh_in P h -> RF Q h l l' -> does (h_leaf_clone rg l) h (fun h' r => rres (RF P) h' r (leaf_clone rg l')).
Proof.
  intros F A. unfold h_leaf_clone, leaf_clone.
  apply (does_seq _ _ _ _ _ (hc_clone_does P Q _ _ h F (RF_part Q h l l' Gd A))). intros h1 g E1 X1. cbn [get_part] in X1. destruct g as [g|e]; destruct (cont_clone (l_gd l')) as [g'|e']; cbn in X1; try contradiction; [|apply does_ret; exact X1]. cbn [bind].
  pose proof (fresh_ext P h h1 F E1) as F1. apply (does_seq _ _ _ _ _ (hc_clone_does P Q _ _ h1 F1 (RF_part Q h1 l l' Tan (RF_ext Q h h1 l l' A E1)))). intros h2 t E2 X2. cbn [get_part] in X2. destruct t as [t|e]; destruct (cont_clone (l_tan l')) as [t'|e']; cbn in X2; try contradiction; [|apply does_ret; exact X2]. cbn [bind].
  pose proof (fresh_ext P h1 h2 F1 E2) as F2. apply (does_seq _ _ _ _ _ (hc_clone_does P Q _ _ h2 F2 (RF_part Q h2 l l' Cotan (RF_ext Q h h2 l l' A (ext_trans _ _ _ E1 E2))))). intros h3 c E3 X3. cbn [get_part] in X3. destruct c as [c|e]; destruct (cont_clone (l_cotan l')) as [c'|e']; cbn in X3; try contradiction; [|apply does_ret; exact X3]. cbn [bind].
  pose proof (fresh_ext P h2 h3 F2 E3) as F3.
  apply (does_seq _ _ _ _ _ (hc_requires_does P rg (-1)%Z h3 g g' F3 (RC_ext P h1 h3 _ _ X1 (ext_trans _ _ _ E2 E3)))). intros h4 g2 E4 X4. destruct g2 as [g2 o4]. destruct (cont_requires_grad rg (-1)%Z g') as [g2' o4']. destruct X4 as (X4 & Y4). cbn in X4, Y4. subst o4'. destruct o4 as [e|]; [apply does_ret; reflexivity|]. cbn [bind].
  pose proof (fresh_ext P h3 h4 F3 E4) as F4.
  apply (does_seq _ _ _ _ _ (hc_requires_does P rg (-1)%Z h4 t t' F4 (RC_ext P h2 h4 _ _ X2 (ext_trans _ _ _ E3 E4)))). intros h5 t2 E5 X5. destruct t2 as [t2 o5]. destruct (cont_requires_grad rg (-1)%Z t') as [t2' o5']. destruct X5 as (X5 & Y5). cbn in X5, Y5. subst o5'. destruct o5 as [e|]; [apply does_ret; reflexivity|]. cbn [bind].
  pose proof (fresh_ext P h4 h5 F4 E5) as F5.
  apply (does_seq _ _ _ _ _ (hc_requires_does P rg (-1)%Z h5 c c' F5 (RC_ext P h3 h5 _ _ X3 (ext_trans _ _ _ E4 E5)))). intros h6 c2 E6 X6. destruct c2 as [c2 o6]. destruct (cont_requires_grad rg (-1)%Z c') as [c2' o6']. destruct X6 as (X6 & Y6). cbn in X6, Y6. subst o6'. destruct o6 as [e|]; [apply does_ret; reflexivity|]. cbn [bind].
  apply does_ret. cbn. destruct (RC_ext P h4 h6 _ _ X4 (ext_trans _ _ _ E5 E6)) as (A1 & B1). destruct (RC_ext P h5 h6 _ _ X5 E6) as (A2 & B2). destruct X6 as (A3 & B3).
  split; [unfold look_leaf; cbn; destruct A as (<- & _); cbn; congruence|]. unfold leaf_locs. cbn. repeat (apply inside_app; split); assumption.
Qed.
Lemma h_clone_does P Q rg m m' h : fresh_in P h -> RM Q h m m' -> does (h_clone rg m) h (fun h' r => rres (RM P) h' r (clone rg m')).
Proof.
  revert m' h. induction m as [l|n dv dt|dv dt ms IH] using hman_ind'; intros m' h F A; destruct m' as [l'|n' dv' dt'|dv' dt' ms']; try (destruct A as (E & _); discriminate E).
  - apply RM_leaf in A. cbn [h_clone clone]. apply (does_seq _ _ _ _ _ (leaf_clone_does P Q rg l l' h F A)). intros h1 r E X. apply does_ret. destruct r as [r|e]; destruct (leaf_clone rg l') as [r'|e']; cbn in *; try contradiction; [apply RM_leaf; exact X|exact X].
  - destruct A as (E & _). injection E as <- <- <-. apply does_ret. apply RM_empty.
  - apply RM_comp in A. destruct A as (_ & _ & A). cbn [h_clone clone].
    match goal with |- does (seqM ?c _) _ _ => assert (L : does c h (fun h' r => rres (RMS P) h' r (mapM (clone rg) ms'))) end.
    { revert ms' h F A. induction IH as [|m ms Hm _ IHms]; intros ms' h F A.
      - destruct ms' as [|m' ms']; [|destruct A as (E & _); discriminate E]. apply does_ret. apply RMS_nil.
      - destruct ms' as [|m' ms']; [destruct A as (E & _); discriminate E|]. apply RMS_cons in A. destruct A as (A1 & A2). cbn [mapM].
        apply (does_seq _ _ _ _ _ (Hm m' h F A1)). intros h1 x E1 X. destruct x as [x|e]; destruct (clone rg m') as [x'|e']; cbn in X; try contradiction; [|apply does_ret; exact X]. cbn [bind].
        apply (does_seq _ _ _ _ _ (IHms ms' h1 (fresh_ext P h h1 F E1) (RMS_ext Q h h1 _ _ A2 E1))). intros h2 xs E2 Y. apply does_ret. destruct xs as [xs|e]; destruct (mapM (clone rg) ms') as [xs'|e']; cbn in *; try contradiction; [|exact Y]. apply RMS_cons. split; [exact (RM_ext P h1 h2 _ _ X E2)|exact Y]. }
    apply (does_seq _ _ _ _ _ L). intros h1 r E X. destruct r as [ms1|e]; destruct (mapM (clone rg) ms') as [ms1'|e']; cbn in X; try contradiction; [|apply does_ret; exact X]. cbn [bind].
    apply does_read. destruct X as (<- & I). unfold comp_init. destruct (mapM man_device _) as [ds|e]; [|reflexivity]. cbn [bind rres]. split; [reflexivity|exact I].
Qed.
Lemma getter_does P p m m' h : fresh_in P h -> RM P h m m' -> does (h_getter p m) h (fun h' r => rres (RV P) h' r (getter p m')).
Proof.
  revert m' h. induction m as [l|n dv dt|dv dt ms IH] using hman_ind'; intros m' h F A; destruct m' as [l'|n' dv' dt'|dv' dt' ms']; try (destruct A as (E & _); discriminate E).
  - apply RM_leaf in A. cbn [h_getter getter]. apply does_ret. pose proof (RF_part P h l l' p A) as C. apply RC_tensors in C. destruct C as (T & _). replace (hl_shapes l) with (l_shapes l') by (destruct A as (<- & _); reflexivity).
    destruct (Nat.eqb _ 1); [|destruct T as (T1 & T2); split; [cbn; congruence|exact T2]].
    destruct (hc_tensors (h_part p l)) as [|x xs]; destruct (c_tensors (get_part p l')) as [|v vs]; try (destruct T as (E & _); discriminate E); [reflexivity|]. apply RL_cons in T. destruct T as (T & _). exact T.
  - destruct A as (E & _). injection E as <- <- <-. cbn [h_getter getter]. apply (does_seq _ _ _ _ _ (new_does P (empty_tob dv dt) h F)). intros h1 r E X. apply does_ret. apply RV_T. exact X.
  - apply RM_comp in A. destruct A as (_ & _ & A). cbn [h_getter getter].
    match goal with |- does (seqM ?c _) _ _ => assert (L : does c h (fun h' r => rres (RL P) h' r (mapM (getter p) ms'))) end.
    { revert ms' h F A. induction IH as [|m ms Hm _ IHms]; intros ms' h F A.
      - destruct ms' as [|m' ms']; [|destruct A as (E & _); discriminate E]. apply does_ret. split; [reflexivity|constructor].
      - destruct ms' as [|m' ms']; [destruct A as (E & _); discriminate E|]. apply RMS_cons in A. destruct A as (A1 & A2). cbn [mapM].
        apply (does_seq _ _ _ _ _ (Hm m' h F A1)). intros h1 x E1 X. destruct x as [x|e]; destruct (getter p m') as [x'|e']; cbn in X; try contradiction; [|apply does_ret; exact X]. cbn [bind].
        apply (does_seq _ _ _ _ _ (IHms ms' h1 (fresh_ext P h h1 F E1) (RMS_ext P h h1 _ _ A2 E1))). intros h2 xs E2 Y. apply does_ret. destruct xs as [xs|e]; destruct (mapM (getter p) ms') as [xs'|e']; cbn in *; try contradiction; [|exact Y]. apply RL_cons. split; [exact (RV_ext P h1 h2 _ _ X E2)|exact Y]. }
    apply (does_seq _ _ _ _ _ L). intros h1 r E X. apply does_ret. destruct r as [xs|e]; destruct (mapM (getter p) ms') as [xs'|e']; cbn in *; try contradiction; [|exact X]. destruct X as (X & Y). split; [cbn; congruence|exact Y].
Qed.
Lemma fill_from_does (P Q : nat -> Prop) copy rg h m m' o o' : (copy = true \/ forall x, Q x -> P x) -> fresh_in P h -> fresh_in Q h -> RM P h m m' -> RM Q h o o' ->
  does (h_fill_from m o copy rg) h (fun h' r => rexn (RM P) h' r (fill_from m' o' copy rg)).
Proof.
  intros W F G A B.
  assert (GO : forall p h m m' (k : hman -> M (hman * option exn)) (k' : man -> man * option exn), fresh_in P h -> fresh_in Q h -> RM P h m m' -> RM Q h o o' ->
    (forall h m m', fresh_in P h -> fresh_in Q h -> RM P h m m' -> RM Q h o o' -> does (k m) h (fun h' r => rexn (RM P) h' r (k' m'))) ->
    does (v <~ h_getter p o ;; match v with Err e => ret (m, Some e) | Ok v => r <~ h_fill p m v copy rg ;; match r with (m', Some e) => ret (m', Some e) | (m', None) => k m' end end) h
      (fun h' r => rexn (RM P) h' r (match getter p o' with Err e => (m', Some e) | Ok v => match fill p m' v copy rg with (m', Some e) => (m', Some e) | (m', None) => k' m' end end))).
  { clear h m m' F G A B. intros p h m m' k k' F G A B K. apply (does_seq _ _ _ _ _ (getter_does Q p o o' h G B)). intros h1 v E1 X. destruct v as [v|e]; destruct (getter p o') as [v'|e']; cbn in X; try contradiction; [|apply does_ret; split; [exact (RM_ext P h h1 _ _ A E1)|cbn; congruence]].
    apply (does_seq _ _ _ _ _ (fill_does P Q p copy rg h1 m m' v v' W (fresh_ext P h h1 F E1) (RM_ext P h h1 _ _ A E1) X)). intros h2 r E2 Y. destruct r as [m1 o1]. destruct (fill p m' v' copy rg) as [m1' o1']. destruct Y as (Y1 & Y2). cbn in Y1, Y2. subst o1'.
    destruct o1 as [e|]; [apply does_ret; split; [exact Y1|reflexivity]|]. pose proof (ext_trans _ _ _ E1 E2) as E12. apply K; [exact (fresh_ext P h h2 F E12)|exact (fresh_ext Q h h2 G E12)|exact Y1|exact (RM_ext Q h h2 _ _ B E12)]. }
  unfold h_fill_from, fill_from. apply GO; try assumption. intros h1 m1 m1' F1 G1 A1 B1. apply GO; try assumption. intros h2 m2 m2' F2 G2 A2 B2. apply (GO Cotan h2 m2 m2' (fun m => ret (m, None)) (fun m => (m, None))); try assumption.
  intros h3 m3 m3' _ _ A3 _. apply does_ret. split; [exact A3|reflexivity].
Qed.

(** ** Writes in place *)
Lemma write_length l t h : length (write l t h) = length h.
Proof. revert l. induction h as [|x h IH]; intros [|l]; cbn; congruence. Qed.
Lemma write_other l t h k : k <> l -> nth k (write l t h) (tzeros []) = nth k h (tzeros []).
Proof. revert l k. induction h as [|x h IH]; intros [|l] [|k] N; try reflexivity; try congruence. cbn. apply IH. congruence. Qed.
Lemma write_here l t h : l < length h -> nth l (write l t h) (tzeros []) = t.
Proof. revert l. induction h as [|x h IH]; intros [|l] N; cbn in *; try lia; [reflexivity|]. apply IH. lia. Qed.
Lemma load_write l t h r : rloc r <> l -> load (write l t h) r = load h r.
Proof. intros N. unfold load. rewrite (write_other l t h _ N). reflexivity. Qed.
Lemma look_write l t h v : ~ In l (locs v) -> look (write l t h) v = look h v.
Proof.
  induction v as [|r|vs IH] using hv_ind'; intros N; [reflexivity| |].
  - cbn. rewrite load_write; [reflexivity|]. intros E. apply N. left. exact E.
  - cbn in *. f_equal. induction IH as [|x vs Hx _ IHl]; [reflexivity|]. cbn in *. rewrite Hx, IHl; [reflexivity|intros I; apply N; apply in_or_app; auto..].
Qed.
Lemma looks_write l t h vs : ~ In l (flat_map locs vs) -> map (look (write l t h)) vs = map (look h) vs.
Proof. intros N. pose proof (look_write l t h (HL vs) N) as E. cbn in E. injection E as E. exact E. Qed.
Lemma look_man_write l t h m : ~ In l (storages m) -> look_man (write l t h) m = look_man h m.
Proof.
  induction m as [lf|n dv dt|dv dt ms IH] using hman_ind'; intros N; [|reflexivity|].
  - cbn in *. unfold leaf_locs, cont_locs in N. unfold look_leaf, look_cont. rewrite !looks_write; [reflexivity|intros I; apply N; repeat (apply in_or_app; try (left; exact I); right); try exact I..].
  - cbn in *. f_equal. induction IH as [|x vs Hx _ IHl]; [reflexivity|]. cbn in *. rewrite Hx, IHl; [reflexivity|intros I; apply N; apply in_or_app; auto..].
Qed.
Lemma live_inside (P : nat -> Prop) h m : live h m -> (forall l, In l (storages m) -> P l) -> inside P h (storages m).
Proof. intros L I. apply Forall_forall. intros l IL. split; [exact (proj1 (Forall_forall _ _) L l IL)|exact (I l IL)]. Qed.
Lemma inside_live (P : nat -> Prop) h m : inside P h (storages m) -> live h m /\ forall l, In l (storages m) -> P l.
Proof. intros I. split; [revert I; apply Forall_impl; intros l (A & _); exact A|]. intros l IL. exact (proj2 (proj1 (Forall_forall _ _) I l IL)). Qed.

(** ** Construction *)
Lemma init_fill_does (P Q : nat -> Prop) x x' c c' h : (forall l, Q l -> P l) -> fresh_in P h -> RC P h c c' -> RV Q h x x' ->
  does (h_init_fill x c) h (fun h' r => rres (RC P) h' r (match x' with VNone => Ok c' | _ => match cont_fill c' x' false (Some false) with (c', None) => Ok c' | (_, Some e) => Err e end end)).
Proof.
  intros W F C V. pose proof V as (VE & _). pose proof (hc_fill_does P Q c c' x x' false (Some false) h F C V (or_intror W)) as D.
  assert (G : does (r <~ hc_fill c x false (Some false) ;; ret (match r with (c', None) => Ok c' | (_, Some e) => Err e end)) h
    (fun h' r => rres (RC P) h' r (match cont_fill c' x' false (Some false) with (c', None) => Ok c' | (_, Some e) => Err e end))).
  { apply (does_seq _ _ _ _ _ D). intros h1 r E X. apply does_ret. destruct r as [c1 o]. destruct (cont_fill c' x' false (Some false)) as [c1' o']. destruct X as (X & Y). cbn in X, Y. subst o'. destruct o; [reflexivity|exact X]. }
  destruct x as [|r|xs]; cbn in VE; subst x'; [apply does_ret; exact C|exact G|exact G].
Qed.
Lemma leaf_init_does (P Q : nat -> Prop) ddt shapes nb gd tan cotan gd' tan' cotan' dv dt h : (forall l, Q l -> P l) -> fresh_in P h ->
  RV Q h gd gd' -> RV Q h tan tan' -> RV Q h cotan cotan' ->
  does (h_leaf_init ddt shapes nb gd tan cotan dv dt) h (fun h' r => rres (RF P) h' r (leaf_init ddt shapes nb gd' tan' cotan' dv dt)).
Proof.
  intros W F G T C. unfold h_leaf_init, leaf_init. fold (h_attributes ddt gd' tan' cotan' dv dt).
  eapply does_seq; [apply (does_read _ h (fun h1 a => h1 = h /\ a = h_attributes ddt gd' tan' cotan' dv dt)); split; [reflexivity|destruct G as (-> & _), T as (-> & _), C as (-> & _); reflexivity]|].
  intros h0 a _ (-> & ->). destruct (h_attributes ddt gd' tan' cotan' dv dt) as [[dv1 dt1]|e]; [|apply does_ret; reflexivity]. cbn [bind].
  set (k := cont_init (leaf_shape_gd shapes nb) dv1 dt1).
  apply (does_seq _ _ _ _ _ (hc_init_does P _ dv1 dt1 h F)). intros h1 c1 E1 X1. pose proof (fresh_ext P h h1 F E1) as F1.
  apply (does_seq _ _ _ _ _ (hc_init_does P _ dv1 dt1 h1 F1)). intros h2 c2 E2 X2. pose proof (fresh_ext P h1 h2 F1 E2) as F2.
  apply (does_seq _ _ _ _ _ (hc_init_does P _ dv1 dt1 h2 F2)). intros h3 c3 E3 X3. pose proof (fresh_ext P h2 h3 F2 E3) as F3.
  pose proof (ext_trans _ _ _ E2 E3) as E23. pose proof (ext_trans _ _ _ E1 E23) as E13. fold k in X1, X2, X3.
  apply (does_seq _ _ _ _ _ (init_fill_does P Q gd gd' c1 k h3 W F3 (RC_ext P h1 h3 _ _ X1 E23) (RV_ext Q h h3 _ _ G E13))). intros h4 g E4 X4.
  match type of X4 with rres _ _ _ ?z => destruct g as [g|e]; destruct z as [g'|e']; cbn in X4; try contradiction end; [|apply does_ret; exact X4]. cbn [bind].
  pose proof (fresh_ext P h3 h4 F3 E4) as F4. pose proof (ext_trans _ _ _ E13 E4) as E14.
  apply (does_seq _ _ _ _ _ (init_fill_does P Q tan tan' c2 k h4 W F4 (RC_ext P h2 h4 _ _ X2 (ext_trans _ _ _ E3 E4)) (RV_ext Q h h4 _ _ T E14))). intros h5 t E5 X5.
  match type of X5 with rres _ _ _ ?z => destruct t as [t|e]; destruct z as [t'|e']; cbn in X5; try contradiction end; [|apply does_ret; exact X5]. cbn [bind].
  pose proof (fresh_ext P h4 h5 F4 E5) as F5. pose proof (ext_trans _ _ _ E14 E5) as E15.
  apply (does_seq _ _ _ _ _ (init_fill_does P Q cotan cotan' c3 k h5 W F5 (RC_ext P h3 h5 _ _ X3 (ext_trans _ _ _ E4 E5)) (RV_ext Q h h5 _ _ C E15))). intros h6 c E6 X6. apply does_ret.
  match type of X6 with rres _ _ _ ?z => destruct c as [c|e]; destruct z as [c'|e']; cbn in X6; try contradiction end; [|exact X6]. cbn [bind rres].
  destruct (RC_ext P h4 h6 _ _ X4 (ext_trans _ _ _ E5 E6)) as (A1 & B1). destruct (RC_ext P h5 h6 _ _ X5 E6) as (A2 & B2). destruct X6 as (A3 & B3).
  split; [unfold look_leaf; cbn; congruence|]. unfold leaf_locs. cbn. repeat (apply inside_app; split); assumption.
Qed.

(** ** Filling without copies *)
Scheme fits_mut := Minimality for fits Sort Prop with fits_all_mut := Minimality for fits_all Sort Prop.

Lemma hc_fill_shares c x rg h h' c' vs : hc_fill c x false rg h = (h', (c', None)) ->
  x = HL vs \/ (exists r, x = HT r /\ vs = [HT r] /\ length (hc_shapes c) = 1) -> h' = h /\ hc_tensors c' = vs /\ hc_shapes c' = hc_shapes c.
Proof.
  unfold hc_fill. intros E X. destruct (tensors_device (look h x)) as [[dv|]|e]; [|discriminate E..]. destruct (tensors_dtype (look h x)) as [[dt|]|e]; [|discriminate E..].
  destruct X as [->|(r & -> & -> & N)].
  - cbn in E. injection E as <- <-. auto.
  - rewrite N in E. cbn in E. injection E as <- <-. auto.
Qed.
Lemma leaf_fill_shares p l x rg h h' l' vs : h_leaf_fill p l x false rg h = (h', (l', None)) -> fits p (HMLeaf l) x vs ->
  h' = h /\ held p (HMLeaf l') = vs /\ fits p (HMLeaf l') x vs /\ (forall q, q <> p -> held q (HMLeaf l') = held q (HMLeaf l)).
Proof.
  unfold h_leaf_fill, seqM. intros E X. destruct (hc_fill (h_part p l) x false rg h) as [h1 [c o]] eqn:EC. destruct o as [e|]; [discriminate E|]. injection E as <- <-.
  apply (hc_fill_shares _ _ _ _ _ _ vs) in EC; [|inversion X; subst; [right; eexists; auto|left; reflexivity]]. destruct EC as (-> & T & S).
  split; [reflexivity|]. split; [destruct p; exact T|]. split; [|intros q N; destruct p, q; try reflexivity; congruence].
  inversion X; subst; [|apply fit_many]. apply fit_one. replace (h_part p (h_set_mdev (hc_dev c) (h_set_part p c l))) with c by (destruct p; reflexivity). rewrite S. assumption.
Qed.

Fixpoint tree (a b : hman) : Prop :=
  match a, b with
  | HMLeaf _, HMLeaf _ | HMEmpty _ _ _, HMEmpty _ _ _ => True
  | HMComp _ _ ms, HMComp _ _ ms' => (fix go (l l' : list hman) := match l, l' with [], [] => True | x :: l, y :: l' => tree x y /\ go l l' | _, _ => False end) ms ms'
  | _, _ => False
  end.
Lemma tree_comp dv dt ms dv' dt' ms' : tree (HMComp dv dt ms) (HMComp dv' dt' ms') <-> Forall2 tree ms ms'.
Proof.
  cbn. revert ms'. induction ms as [|m ms IH]; intros [|m' ms']; split; intros H; try constructor; try contradiction; try (inversion H; fail).
  - destruct H; assumption.
  - apply IH. destruct H; assumption.
  - inversion H; assumption.
  - apply IH. inversion H; assumption.
Qed.
Lemma tree_refl m : tree m m.
Proof. induction m as [l|n dv dt|dv dt ms IH] using hman_ind'; [exact Logic.I..|]. apply tree_comp. induction IH; constructor; assumption. Qed.

(** f puts x in m without copying *)
Definition puts (p : part) (sk : hman) (f : hman -> hv -> M (hman * option exn)) : Prop :=
  forall m x vs h h' m', tree sk m -> fits p m x vs -> f m x h = (h', (m', None)) ->
  h' = h /\ held p m' = vs /\ fits p m' x vs /\ tree sk m' /\ (forall q, q <> p -> held q m' = held q m).
Lemma zip_puts p sks fs : Forall2 (puts p) sks fs -> forall ms xs vs h h' ms', Forall2 tree sks ms -> fits_all p ms xs vs -> h_zip_loop fs ms xs h = (h', (ms', None)) ->
  h' = h /\ flat_map (held p) ms' = vs /\ fits_all p ms' xs vs /\ Forall2 tree sks ms' /\ (forall q, q <> p -> flat_map (held q) ms' = flat_map (held q) ms).
Proof.
  intros G. induction G as [|sk f sks fs Hf _ IH]; intros ms xs vs h h' ms' T X E.
  - inversion T; subst. inversion X; subst. cbn in E. injection E as <- <-. repeat split; constructor.
  - inversion T as [|? m ? ms1 T1 T2]; subst. inversion X as [|? ? x xs1 v vs1 X1 X2]; subst. cbn [h_zip_loop] in E. unfold seqM in E.
    destruct (f m x h) as [h1 [m1 o]] eqn:E1. destruct o as [e|]; [discriminate E|]. destruct (Hf m x v h h1 m1 T1 X1 E1) as (-> & A1 & B1 & C1 & D1).
    destruct (h_zip_loop fs ms1 xs1 h) as [h2 [ms2 o2]] eqn:E2. unfold ret in E. cbn in E. injection E as <- <- ->. destruct (IH ms1 xs1 vs1 h h2 ms2 T2 X2 E2) as (-> & A2 & B2 & C2 & D2).
    split; [reflexivity|]. split; [cbn; congruence|]. split; [constructor; assumption|]. split; [constructor; assumption|]. intros q N. cbn. rewrite (D1 q N), (D2 q N). reflexivity.
Qed.
Lemma index_puts p sks fs : Forall2 (puts p) sks fs -> forall ms pre xs vs h h' ms', Forall2 tree sks ms -> fits_all p ms xs vs -> h_index_loop fs ms (HL (pre ++ xs)) (length pre) h = (h', (ms', None)) ->
  h' = h /\ flat_map (held p) ms' = vs /\ fits_all p ms' xs vs /\ Forall2 tree sks ms' /\ (forall q, q <> p -> flat_map (held q) ms' = flat_map (held q) ms).
Proof.
  intros G. induction G as [|sk f sks fs Hf _ IH]; intros ms pre xs vs h h' ms' T X E.
  - inversion T; subst. inversion X; subst. cbn in E. injection E as <- <-. repeat split; constructor.
  - inversion T as [|? m ? ms1 T1 T2]; subst. inversion X as [|? ? x xs1 v vs1 X1 X2]; subst. cbn [h_index_loop h_index] in E. unfold seqM, ret at 1 in E.
    rewrite nth_error_app2, Nat.sub_diag in E by lia. cbn [nth_error] in E.
    destruct (f m x h) as [h1 [m1 o]] eqn:E1. destruct o as [e|]; [discriminate E|]. destruct (Hf m x v h h1 m1 T1 X1 E1) as (-> & A1 & B1 & C1 & D1).
    destruct (h_index_loop fs ms1 (HL (pre ++ x :: xs1)) (S (length pre)) h) as [h2 [ms2 o2]] eqn:E2. unfold ret in E. cbn in E. injection E as <- <- ->.
    replace (pre ++ x :: xs1) with ((pre ++ [x]) ++ xs1) in E2 by (rewrite <- app_assoc; reflexivity). replace (S (length pre)) with (length (pre ++ [x])) in E2 by (rewrite app_length; cbn; lia).
    destruct (IH ms1 (pre ++ [x]) xs1 vs1 h h2 ms2 T2 X2 E2) as (-> & A2 & B2 & C2 & D2).
    split; [reflexivity|]. split; [cbn; congruence|]. split; [constructor; assumption|]. split; [constructor; assumption|]. intros q N. cbn. rewrite (D1 q N), (D2 q N). reflexivity.
Qed.
Lemma fill_puts p rg sk : puts p sk (h_fill_sk p false rg sk).
Proof.
  induction sk as [l|n dv dt|dv dt sks IH] using hman_ind'; intros m x vs h h' m' T X E; destruct m as [l1|n1 dv1 dt1|dv1 dt1 ms]; try contradiction.
  - cbn [h_fill_sk] in E. unfold seqM in E. destruct (h_leaf_fill p l1 x false rg h) as [h1 [l2 o]] eqn:EL. unfold ret in E. cbn in E. injection E as <- <- ->.
    destruct (leaf_fill_shares p l1 x rg h h1 l2 vs EL X) as (A & B & C & D). split; [exact A|]. split; [exact B|]. split; [exact C|]. split; [exact Logic.I|exact D].
  - cbn in E. unfold ret in E. injection E as <- <-. inversion X; subst. repeat split; constructor.
  - assert (SF : Forall2 (puts p) sks (map (h_fill_sk p false rg) sks)) by (clear -IH; induction IH; constructor; assumption).
    inversion X as [| | |? ? ? xs ? XA]; subst. apply tree_comp in T. cbn [h_fill_sk h_iter] in E. unfold seqM, ret at 1 in E.
    destruct (h_zip_loop (map (h_fill_sk p false rg) sks) ms xs h) as [h1 [ms1 o1]] eqn:EZ. destruct o1 as [e|]; [discriminate E|].
    destruct (zip_puts p sks _ SF ms xs vs h h1 ms1 T XA EZ) as (-> & A1 & B1 & C1 & D1). destruct p.
    + destruct (h_index_loop (map (h_fill_sk Gd false rg) sks) ms1 (HL xs) 0 h) as [h2 [ms2 o2]] eqn:EI. unfold ret in E. cbn in E. injection E as <- <- ->.
      destruct (index_puts Gd sks _ SF ms1 [] xs vs h h2 ms2 C1 B1 EI) as (-> & A2 & B2 & C2 & D2).
      split; [reflexivity|]. split; [exact A2|]. split; [apply fit_comp; exact B2|]. split; [apply tree_comp; exact C2|]. intros q N. cbn. rewrite (D2 q N). exact (D1 q N).
    + unfold ret in E. injection E as <- <-. split; [reflexivity|]. split; [exact A1|]. split; [apply fit_comp; exact B1|]. split; [apply tree_comp; exact C1|exact D1].
    + unfold ret in E. injection E as <- <-. split; [reflexivity|]. split; [exact A1|]. split; [apply fit_comp; exact B1|]. split; [apply tree_comp; exact C1|exact D1].
Qed.

(** ** Methods that keep the memory *)
Lemma map_keeps (f : ref -> M ref) : (forall r h h' r', f r h = (h', r') -> rloc r' = rloc r) ->
  forall l h h' l', h_map f l h = (h', Ok l') -> flat_map locs l' = flat_map locs l.
Proof.
  intros G l. induction l as [|x l IH]; intros h h' l' E; [cbn in E; injection E as <- <-; reflexivity|]. destruct x as [|r|xs]; [discriminate E| |discriminate E].
  cbn [h_map] in E. unfold seqM in E. destruct (f r h) as [h1 r1] eqn:E1. destruct (h_map f l h1) as [h2 [l2|e]] eqn:E2; [|discriminate E]. cbn in E. injection E as <- <-. cbn. rewrite (G _ _ _ _ E1), (IH _ _ _ E2). reflexivity.
Qed.
Lemma map_keeps_if (Q : ref -> Prop) (f : ref -> M ref) : (forall r h h' r', Q r -> f r h = (h', r') -> rloc r' = rloc r) ->
  forall l h h' l', (forall r, In (HT r) l -> Q r) -> h_map f l h = (h', Ok l') -> flat_map locs l' = flat_map locs l.
Proof.
  intros G l. induction l as [|x l IH]; intros h h' l' QL E; [cbn in E; injection E as <- <-; reflexivity|]. destruct x as [|r|xs]; [discriminate E| |discriminate E].
  cbn [h_map] in E. unfold seqM in E. destruct (f r h) as [h1 r1] eqn:E1. destruct (h_map f l h1) as [h2 [l2|e]] eqn:E2; [|discriminate E]. cbn in E. injection E as <- <-. cbn. rewrite (G r _ _ _ (QL r (or_introl eq_refl)) E1), (IH _ _ _ (fun r H => QL r (or_intror H)) E2). reflexivity.
Qed.
Definition keeps (f : hcont -> M (hcont * option exn)) (c : hcont) : Prop := forall h h' r, f c h = (h', r) -> cont_locs (fst r) = cont_locs c.
Lemma hc_map_keeps k (Q : ref -> Prop) f c0 c : (forall r h h' r', Q r -> f r h = (h', r') -> rloc r' = rloc r) -> hc_tensors c0 = hc_tensors c -> (forall r, In (HT r) (hc_tensors c) -> Q r) ->
  forall h h' r, hc_map k f c0 h = (h', r) -> cont_locs (fst r) = cont_locs c.
Proof.
  intros G T QL h h' r E. unfold hc_map, seqM in E. rewrite T in E. destruct (h_map f (hc_tensors c) h) as [h1 [ts|e]] eqn:E1; unfold ret in E; injection E as <- <-; unfold cont_locs; cbn.
  - exact (map_keeps_if Q f G _ _ _ _ QL E1).
  - rewrite T. reflexivity.
Qed.
Lemma requires_keeps rg i c : keeps (hc_requires_grad rg i) c.
Proof.
  intros h h' r E. unfold hc_requires_grad in E. destruct (Z.eqb i (-1)).
  - apply (hc_map_keeps KList (fun _ => True) (t_detach rg) c c) in E; [exact E| |reflexivity|auto]. intros r0 h0 h0' r0' _ X. injection X as <- <-. reflexivity.
  - set (j := if Z.ltb i 0 then (Z.of_nat (length (hc_tensors c)) + i)%Z else i) in E. destruct (_ || _)%bool; [injection E as <- <-; reflexivity|].
    destruct (nth_error (hc_tensors c) (Z.to_nat j)) as [[|t|xs]|] eqn:EN; try (injection E as <- <-; reflexivity).
    destruct (hc_kind c) eqn:HK; try (unfold ret in E; injection E as <- <-; reflexivity). unfold seqM, t_detach, ret in E. injection E as <- <-. unfold cont_locs. cbn [fst hc_tensors].
    destruct (nth_error_split _ _ EN) as (l1 & l2 & EQ & LN). clear EN. rewrite EQ, <- LN. clear.
    rewrite firstn_app, Nat.sub_diag, firstn_all, firstn_O, app_nil_r. change (match l1 ++ HT t :: l2 with [] => [] | _ :: l => skipn (length l1) l end) with (skipn (S (length l1)) (l1 ++ HT t :: l2)).
    replace (skipn (S (length l1)) (l1 ++ HT t :: l2)) with l2; [rewrite !flat_map_app; reflexivity|]. induction l1 as [|x l1 IH]; [reflexivity|exact IH].
Qed.
Lemma device_keeps d c : (forall r, In (HT r) (hc_tensors c) -> rdev r = d) -> keeps (hc_to_device d) c.
Proof.
  intros A h h' r E. unfold hc_to_device in E. apply (hc_map_keeps KList (fun r => rdev r = d) _ _ c) in E; [exact E| |reflexivity|exact A].
  intros r0 h0 h0' r0' <- X. unfold seqM, t_to_device in X. rewrite String.eqb_refl in X. injection X as <- <-. reflexivity.
Qed.
Lemma dtype_eqb_refl d : dtype_eqb d d = true.
Proof. apply dtype_eqb_eq. reflexivity. Qed.
Lemma dtype_keeps d c : (forall r, In (HT r) (hc_tensors c) -> rdty r = d) -> keeps (hc_to_dtype d) c.
Proof.
  intros A h h' r E. unfold hc_to_dtype in E. apply (hc_map_keeps KList (fun r => rdty r = d) _ _ c) in E; [exact E| |reflexivity|exact A].
  intros r0 h0 h0' r0' <- X. unfold seqM, t_to_dtype in X. rewrite dtype_eqb_refl in X. injection X as <- <-. reflexivity.
Qed.

(** the storages of one part *)
Definition plocs (p : part) (m : hman) : list nat := flat_map locs (held p m).
Lemma plocs_leaf p l : plocs p (HMLeaf l) = cont_locs (h_part p l).
Proof. reflexivity. Qed.
Lemma plocs_comp p dv dt ms : plocs p (HMComp dv dt ms) = flat_map (plocs p) ms.
Proof. unfold plocs. cbn. induction ms as [|m ms IH]; [reflexivity|]. cbn. rewrite flat_map_app, IH. reflexivity. Qed.
Lemma part_keeps f p l h h' r : keeps f (h_part p l) -> (r <~ f (h_part p l) ;; ret (HMLeaf (h_set_part p (fst r) l), snd r)) h = (h', r) -> forall q, plocs q (fst r) = plocs q (HMLeaf l).
Proof.
  intros K E q. unfold seqM in E. destruct (f (h_part p l) h) as [h1 [c o]] eqn:EC. pose proof (K _ _ _ EC) as X. unfold ret in E. injection E as <- <-. cbn [fst]. rewrite !plocs_leaf. destruct p, q; try reflexivity; exact X.
Qed.
Lemma leaf_all_keeps f l l0 h h' r : keeps f (hl_gd l) -> keeps f (hl_tan l) -> keeps f (hl_cotan l) -> (forall q, h_part q l0 = h_part q l) ->
  (r <~ h_leaf_all f l0 ;; ret (HMLeaf (fst r), snd r)) h = (h', r) -> forall q, plocs q (fst r) = plocs q (HMLeaf l).
Proof.
  intros K1 K2 K3 S E q. pose proof (S Gd) as S1. pose proof (S Tan) as S2. pose proof (S Cotan) as S3. cbn in S1, S2, S3. unfold h_leaf_all, seqM in E. rewrite S1 in E.
  destruct (f (hl_gd l) h) as [h1 [c1 o1]] eqn:E1. pose proof (K1 _ _ _ E1) as X1. destruct o1 as [e|]; [unfold ret in E; injection E as <- <-; rewrite !plocs_leaf; destruct q; cbn; rewrite ?S2, ?S3; auto|].
  rewrite S2 in E. destruct (f (hl_tan l) h1) as [h2 [c2 o2]] eqn:E2. pose proof (K2 _ _ _ E2) as X2. destruct o2 as [e|]; [unfold ret in E; injection E as <- <-; rewrite !plocs_leaf; destruct q; cbn; rewrite ?S2, ?S3; auto|].
  rewrite S3 in E. destruct (f (hl_cotan l) h2) as [h3 [c3 o3]] eqn:E3. pose proof (K3 _ _ _ E3) as X3. unfold ret in E. injection E as <- <-. rewrite !plocs_leaf. destruct q; cbn; auto.
Qed.
Lemma each_keeps f ms : Forall (fun m => forall h h' r, f m h = (h', r) -> forall q, plocs q (fst r) = plocs q m) ms ->
  forall h h' r, h_each f ms h = (h', r) -> forall q, flat_map (plocs q) (fst r) = flat_map (plocs q) ms.
Proof.
  intros G. induction G as [|m ms Hm _ IH]; intros h h' r E q; [injection E as <- <-; reflexivity|]. cbn [h_each] in E. unfold seqM in E.
  destruct (f m h) as [h1 [m1 o1]] eqn:E1. pose proof (Hm _ _ _ E1 q) as X. destruct o1 as [e|]; [unfold ret in E; injection E as <- <-; cbn [fst flat_map] in *; rewrite X; reflexivity|].
  fold (h_each f) in E. destruct (h_each f ms h1) as [h2 [ms2 o2]] eqn:E2. pose proof (IH _ _ _ E2 q) as Y. unfold ret in E. injection E as <- <-. cbn [fst flat_map] in *. rewrite X, Y. reflexivity.
Qed.
Lemma to_keeps a m : (forall q r, In (HT r) (held q m) -> already a r) -> forall h h' r, h_to_ a m h = (h', r) -> forall q, plocs q (fst r) = plocs q m.
Proof.
  induction m as [l|n dv dt|dv dt ms IH] using hman_ind'; intros A h h' r E q.
  - pose proof (A Gd) as A1. pose proof (A Tan) as A2. pose proof (A Cotan) as A3. cbn in A1, A2, A3. destruct a as [d|t| |]; cbn [h_to_ already] in *.
    + apply (leaf_all_keeps (hc_to_device d) l) with (q := q) in E; [exact E|apply device_keeps; assumption..|intros []; reflexivity].
    + apply (leaf_all_keeps (hc_to_dtype t) l) with (q := q) in E; [exact E|apply dtype_keeps; assumption..|intros []; reflexivity].
    + apply (leaf_all_keeps (hc_to_device "cpu"%string) l) with (q := q) in E; [exact E|apply device_keeps; assumption..|intros []; reflexivity].
    + injection E as <- <-. reflexivity.
  - destruct a; injection E as <- <-; reflexivity.
  - cbn [h_to_] in E. unfold seqM in E. destruct (h_each (h_to_ a) ms h) as [h1 [ms1 o1]] eqn:E1. unfold ret in E. injection E as <- <-. cbn [fst snd]. rewrite !plocs_comp.
    apply (each_keeps (h_to_ a) ms) with (q := q) in E1; [exact E1|]. assert (AM : forall m, In m ms -> forall q r, In (HT r) (held q m) -> already a r) by (intros m IM q0 r IR; apply (A q0 r); cbn; apply in_flat_map; exists m; auto).
    clear -IH AM. induction IH as [|m ms Hm _ IHm]; constructor; [apply Hm; intros q r; apply AM; left; reflexivity|]. apply IHm. intros m0 IM. apply AM. right. exact IM.
Qed.

(** ** Methods that use new memory *)
Definition fresher {A} (n : nat) (look_at : A -> list nat) (c : M (A * option exn)) : Prop :=
  forall h h' x, n <= length h -> c h = (h', (x, None)) -> n <= length h' /\ Forall (fun l => n <= l) (look_at x).
Lemma news_fresh n l h h' vs : n <= length h -> h_news l h = (h', vs) -> n <= length h' /\ Forall (fun k => n <= k) (flat_map locs vs).
Proof.
  revert h h' vs. induction l as [|t l IH]; intros h h' vs N E; [injection E as <- <-; split; [exact N|constructor]|]. cbn [h_news] in E. unfold seqM, new in E.
  destruct (h_news l (h ++ [tval t])) as [h2 rest] eqn:E2. unfold ret in E. injection E as <- <-. apply IH in E2; [|rewrite app_length; lia]. destruct E2 as (A & B). split; [exact A|]. cbn. constructor; [exact N|exact B].
Qed.
Lemma negs_fresh n l h h' vs : n <= length h -> h_negs l h = (h', Ok vs) -> n <= length h' /\ Forall (fun k => n <= k) (flat_map locs vs).
Proof.
  revert h h' vs. induction l as [|x l IH]; intros h h' vs N E; [injection E as <- <-; split; [exact N|constructor]|]. destruct x as [|r|xs]; [discriminate E| |discriminate E]. cbn [h_negs] in E. unfold seqM at 1 in E. unfold new in E. unfold seqM in E.
  match type of E with context [h_negs l ?hh] => destruct (h_negs l hh) as [h2 [rest|e]] eqn:E2; [|discriminate E] end. unfold ret in E. injection E as <- <-. apply IH in E2; [|rewrite app_length; lia]. destruct E2 as (A & B). split; [exact A|]. cbn. constructor; [exact N|exact B].
Qed.
Lemma adds_fresh n l h h' vs : n <= length h -> h_adds l h = (h', Ok vs) -> n <= length h' /\ Forall (fun k => n <= k) (flat_map locs vs).
Proof.
  revert h h' vs. induction l as [|[x y] l IH]; intros h h' vs N E; [injection E as <- <-; split; [exact N|constructor]|]. destruct x as [|r|xs]; [discriminate E| |discriminate E]. destruct y as [|s|ys]; [discriminate E| |discriminate E]. cbn [h_adds] in E.
  destruct (String.eqb (rdev r) (rdev s)); [|discriminate E]. unfold seqM at 1 in E. unfold new in E. unfold seqM in E.
  match type of E with context [h_adds l ?hh] => destruct (h_adds l hh) as [h2 [rest|e]] eqn:E2; [|discriminate E] end. unfold ret in E. injection E as <- <-. apply IH in E2; [|rewrite app_length; lia]. destruct E2 as (A & B). split; [exact A|]. cbn. constructor; [exact N|exact B].
Qed.
Lemma iter_heap v h h' r : h_iter v h = (h', r) -> h' = h.
Proof. destruct v; cbn; unfold ret, reading; intros E; injection E as <- _; reflexivity. Qed.
Lemma index_heap v i h h' r : h_index v i h = (h', r) -> h' = h.
Proof. destruct v; cbn; unfold ret, reading; intros E; injection E as <- _; reflexivity. Qed.
Lemma part_fresh n f p l : fresher n cont_locs (f (h_part p l)) -> fresher n (plocs p) (r <~ f (h_part p l) ;; ret (HMLeaf (h_set_part p (fst r) l), snd r)).
Proof.
  intros K h h' m N E. unfold seqM in E. destruct (f (h_part p l) h) as [h1 [c o]] eqn:EC. unfold ret in E. injection E as <- <- E3. cbn in E3. subst o. destruct (K _ _ _ N EC) as (A & B). split; [exact A|]. rewrite plocs_leaf. destruct p; exact B.
Qed.
Lemma negate_fresh_c n c : fresher n cont_locs (hc_negate c).
Proof. intros h h' x N E. unfold hc_negate, seqM in E. destruct (h_negs (hc_tensors c) h) as [h1 [ts|e]] eqn:E1; [|discriminate E]. unfold ret in E. injection E as <- <-. exact (negs_fresh n _ _ _ _ N E1). Qed.
Lemma add_fresh_c n c v : fresher n cont_locs (hc_add c v).
Proof.
  intros h h' x N E. unfold hc_add, seqM in E. destruct (h_iter _ h) as [h0 [l|e]] eqn:E0; [|discriminate E]. apply iter_heap in E0. subst h0.
  destruct (h_adds (combine (hc_tensors c) l) h) as [h1 [ts|e]] eqn:E1; [|discriminate E]. unfold ret in E. injection E as <- <-. exact (adds_fresh n _ _ _ _ N E1).
Qed.
Lemma each_fresh n p f ms : Forall (fun m => fresher n (plocs p) (f m)) ms -> fresher n (flat_map (plocs p)) (h_each f ms).
Proof.
  intros G. induction G as [|m ms Hm _ IH]; intros h h' x N E; [injection E as <- <-; split; [exact N|constructor]|]. cbn [h_each] in E. unfold seqM in E.
  destruct (f m h) as [h1 [m1 o1]] eqn:E1. destruct o1 as [e|]; [discriminate E|]. destruct (Hm _ _ _ N E1) as (A & B). fold (h_each f) in E. destruct (h_each f ms h1) as [h2 [ms2 o2]] eqn:E2. unfold ret in E. injection E as <- <- E3. cbn in E3. subst o2.
  destruct (IH _ _ _ A E2) as (C & D). split; [exact C|]. cbn. apply Forall_app. auto.
Qed.
Lemma index_fresh n p fs ms v : Forall (fun f => forall m x, fresher n (plocs p) (f m x)) fs -> length fs = length ms -> forall i, fresher n (flat_map (plocs p)) (h_index_loop fs ms v i).
Proof.
  intros G. revert ms. induction G as [|f fs Hf _ IH]; intros [|m ms] L i h h' x N E; try discriminate L; [injection E as <- <-; split; [exact N|constructor]|]. cbn [h_index_loop] in E. unfold seqM in E.
  destruct (h_index v i h) as [h0 [y|e]] eqn:E0; [|discriminate E]. apply index_heap in E0. subst h0. destruct (f m y h) as [h1 [m1 o1]] eqn:E1. destruct o1 as [e|]; [discriminate E|]. destruct (Hf _ _ _ _ _ N E1) as (A & B).
  destruct (h_index_loop fs ms v (S i) h1) as [h2 [ms2 o2]] eqn:E2. unfold ret in E. injection E as <- <- E3. cbn in E3. subst o2.
  destruct (IH ms (eq_add_S _ _ L) _ _ _ _ A E2) as (C & D). split; [exact C|]. cbn. apply Forall_app. auto.
Qed.
Lemma comp_fresh n p dv dt (c : M (list hman * option exn)) : fresher n (flat_map (plocs p)) c -> fresher n (plocs p) (q <~ c ;; ret (HMComp dv dt (fst q), snd q)).
Proof. intros K h h' x N E. unfold seqM in E. destruct (c h) as [h1 [ms o]] eqn:EC. unfold ret in E. injection E as <- <- E3. cbn in E3. subst o. rewrite plocs_comp. exact (K _ _ _ N EC). Qed.
Lemma same_fresh n p m : plocs p m = [] -> fresher n (plocs p) (ret (m, None)).
Proof. intros K h h' x N E. injection E as <- <-. split; [exact N|]. rewrite K. constructor. Qed.
Lemma negate_fresh n p m : fresher n (plocs p) (h_negate p m).
Proof.
  induction m as [l|k dv dt|dv dt ms IH] using hman_ind'; cbn [h_negate]; [apply part_fresh; apply negate_fresh_c|apply same_fresh; reflexivity|apply comp_fresh; apply each_fresh; exact IH].
Qed.
Lemma add_fresh n p m v : fresher n (plocs p) (h_add p m v).
Proof.
  revert v. induction m as [l|k dv dt|dv dt ms IH] using hman_ind'; intros v; cbn [h_add]; [apply (part_fresh n (fun c => hc_add c v)); apply add_fresh_c|apply same_fresh; reflexivity|apply comp_fresh; apply index_fresh; [|apply map_length]].
  clear -IH. induction IH as [|m ms Hm _ IHm]; constructor; [intros _ x; apply Hm|exact IHm].
Qed.
Lemma set_fresh n p l (c : M hcont) : (forall h h' x, n <= length h -> c h = (h', x) -> n <= length h' /\ Forall (fun l => n <= l) (cont_locs x)) ->
  fresher n (plocs p) (c <~ c ;; ret (HMLeaf (h_set_part p c l), None)).
Proof. intros K h h' x N E. unfold seqM in E. destruct (c h) as [h1 c1] eqn:EC. unfold ret in E. injection E as <- <-. destruct (K _ _ _ N EC) as (A & B). split; [exact A|]. rewrite plocs_leaf. destruct p; exact B. Qed.
Lemma zeros_fresh n p rg m : fresher n (plocs p) (h_fill_zeros p rg m).
Proof.
  destruct m as [l|k dv dt|dv dt ms]; cbn [h_fill_zeros]; [apply set_fresh|apply same_fresh; reflexivity|intros h h' x N E; discriminate E].
  intros h h' x N E. unfold hc_fill_zeros, seqM in E. destruct (h_news _ h) as [h1 ts] eqn:E1. unfold ret in E. injection E as <- <-. exact (news_fresh n _ _ _ _ N E1).
Qed.
Lemma randn_fresh n p rnd rg m : fresher n (plocs p) (h_fill_randn p rnd rg m).
Proof.
  induction m as [l|k dv dt|dv dt ms IH] using hman_ind'; cbn [h_fill_randn]; [apply set_fresh|apply same_fresh; reflexivity|apply comp_fresh; apply each_fresh; exact IH].
  intros h h' x N E. unfold hc_fill_randn, seqM in E. destruct (h_news _ h) as [h1 ts] eqn:E1. unfold ret in E. injection E as <- <-. exact (news_fresh n _ _ _ _ N E1).
Qed.

Lemma look_unroll later p m : unroll p (look_man later m) = map (look later) (held p m).
Proof.
  induction m as [l|n dv dt|dv dt ms IH] using hman_ind'; [destruct p; reflexivity|reflexivity|]. cbn. induction IH as [|m ms Hm _ IHm]; [reflexivity|]. cbn. rewrite map_app, <- Hm. f_equal. exact IHm.
Qed.
Lemma RV_live h x : Forall (fun k => k < length h) (locs x) -> RV (fun _ => True) h x (look h x).
Proof. intros L. split; [reflexivity|]. revert L. apply Forall_impl. auto. Qed.
Lemma init_fill_holds v c h h' c' n : n <= length h -> Forall (fun k => n <= k) (cont_locs c) -> h_init_fill v c h = (h', Ok c') ->
  n <= length h' /\ (forall vs, v = HL vs -> hc_tensors c' = vs) /\ (forall r, v = HT r -> length (hc_shapes c) = 1 -> hc_tensors c' = [v]) /\ (v = HNone -> Forall (fun k => n <= k) (cont_locs c')).
Proof.
  intros N F E. destruct v as [|r|vs]; cbn [h_init_fill] in E.
  - injection E as <- <-. repeat split; try discriminate; auto.
  - unfold seqM in E. destruct (hc_fill c (HT r) false (Some false) h) as [h1 [c1 o]] eqn:EC. destruct o as [e|]; [discriminate E|]. unfold ret in E. injection E as <- <-.
    assert (H1 : h1 = h).
    { unfold hc_fill in EC. destruct (tensors_device _) as [[dv|]|e]; [|discriminate EC..]. destruct (tensors_dtype _) as [[dt|]|e]; [|discriminate EC..]. unfold seqM in EC. destruct (h_iter _ h) as [h2 [l|e]] eqn:EI; [|discriminate EC]. apply iter_heap in EI. subst h2. unfold ret in EC. injection EC as <- _. reflexivity. }
    subst h1. split; [exact N|]. split; [discriminate|]. split; [|discriminate]. intros r0 X L. injection X as <-. apply (hc_fill_shares c (HT r) (Some false) h h c1 [HT r]) in EC; [exact (proj1 (proj2 EC))|right; exists r; auto].
  - unfold seqM in E. destruct (hc_fill c (HL vs) false (Some false) h) as [h1 [c1 o]] eqn:EC. destruct o as [e|]; [discriminate E|]. unfold ret in E. injection E as <- <-.
    apply (hc_fill_shares c (HL vs) (Some false) h h1 c1 vs) in EC; [|left; reflexivity]. destruct EC as (-> & T & _). split; [exact N|]. split; [intros ws X; injection X as <-; exact T|]. split; discriminate.
Qed.
Lemma init_holds ddt shapes nb gd tan cotan dv dt h h' l p : h_leaf_init ddt shapes nb gd tan cotan dv dt h = (h', Ok l) ->
  let v := match p with Gd => gd | Tan => tan | Cotan => cotan end in
  (forall vs, v = HL vs -> held p (HMLeaf l) = vs) /\ (forall r, v = HT r -> length shapes = 1 -> held p (HMLeaf l) = [v]) /\
  (v = HNone -> Forall (fun k => length h <= k) (flat_map locs (held p (HMLeaf l)))).
Proof.
  unfold h_leaf_init. unfold seqM at 1. unfold reading. intros E. destruct (h_attributes _ _ _ _ _ _) as [[dv1 dt1]|e]; [|discriminate E].
  unfold hc_init in E. unfold seqM, ret in E. set (z := map _ _) in E.
  destruct (h_news z h) as [h1 t1] eqn:E1. destruct (news_fresh (length h) z h h1 t1 (le_n _) E1) as (N1 & F1).
  destruct (h_news z h1) as [h2 t2] eqn:E2. destruct (news_fresh (length h) z h1 h2 t2 N1 E2) as (N2 & F2).
  destruct (h_news z h2) as [h3 t3] eqn:E3. destruct (news_fresh (length h) z h2 h3 t3 N2 E3) as (N3 & F3).
  assert (SH : length (leaf_shape_gd shapes nb) = length shapes) by apply map_length.
  destruct (h_init_fill gd _ h3) as [h4 [c1|e]] eqn:E4; [|discriminate E]. apply (init_fill_holds _ _ _ _ _ (length h) N3) in E4; [|exact F1]. destruct E4 as (N4 & A1 & A2 & A3).
  destruct (h_init_fill tan _ h4) as [h5 [c2|e]] eqn:E5; [|discriminate E]. apply (init_fill_holds _ _ _ _ _ (length h) N4) in E5; [|exact F2]. destruct E5 as (N5 & B1 & B2 & B3).
  destruct (h_init_fill cotan _ h5) as [h6 [c3|e]] eqn:E6; [|discriminate E]. apply (init_fill_holds _ _ _ _ _ (length h) N5) in E6; [|exact F3]. destruct E6 as (N6 & C1 & C2 & C3).
  injection E as <- <-. cbn in A2, B2, C2. rewrite SH in A2, B2, C2. destruct p; cbn; auto.
Qed.

(** ** The getters *)
Lemma getter_fits p o : forall m h h' v, matching m o -> tensors_held o -> h_getter p o h = (h', Ok v) -> fits p m v (held p o) /\ ext h h'.
Proof.
  induction o as [l|n dv dt|dv dt os IH] using hman_ind'; intros m h h' v MA TH E.
  - inversion MA as [l0 l1 A B| |]; subst. cbn [h_getter] in E. unfold ret in E. destruct (Nat.eqb_spec (length (hl_shapes l)) 1) as [N|N].
    + pose proof (B p) as Bp. rewrite N in Bp. pose proof (TH p) as T. cbn in T. destruct (hc_tensors (h_part p l)) as [|x xs] eqn:HT1; [discriminate E|]. injection E as <- <-. split; [|apply ext_refl]. destruct xs; [|discriminate Bp]. cbn. rewrite HT1. destruct (T x (or_introl eq_refl)) as (r & ->). apply fit_one. rewrite (A p). exact N.
    + injection E as <- <-. split; [apply fit_many|apply ext_refl].
  - inversion MA; subst. cbn [h_getter] in E. unfold seqM, new, ret in E. injection E as <- <-. split; [apply fit_empty|eexists; reflexivity].
  - inversion MA as [| |? ? ms0 ? ? ? A]; subst. cbn [h_getter] in E. unfold seqM at 1 in E.
    match type of E with context [let (_, _) := ?c h in _] => destruct (c h) as [h1 [xs|e]] eqn:EG; [|discriminate E] end. unfold ret in E. injection E as <- <-.
    cut (fits_all p ms0 xs (flat_map (held p) os) /\ ext h h1); [intros (X & Y); split; [apply fit_comp; exact X|exact Y]|].
    assert (TM : forall o, In o os -> tensors_held o) by (intros o IO q x IX; apply (TH q x); cbn; apply in_flat_map; exists o; auto). clear TH MA.
    revert ms0 A h h1 xs EG TM. induction IH as [|o os Ho _ IHo]; intros ms0 A h h1 xs EG TM.
    + inversion A; subst. unfold ret in EG. injection EG as <- <-. split; [constructor|apply ext_refl].
    + inversion A as [|m ? ms1 ? A1 A2]; subst. unfold seqM at 1 in EG. destruct (h_getter p o h) as [h2 [x|e]] eqn:E1; [|discriminate EG]. unfold seqM in EG.
      match type of EG with context [let (_, _) := ?c h2 in _] => destruct (c h2) as [h3 [ys|e]] eqn:E2; [|discriminate EG] end. unfold ret in EG. injection EG as <- <-.
      destruct (Ho m h h2 x A1 (TM o (or_introl eq_refl)) E1) as (X1 & Y1). destruct (IHo ms1 A2 h2 h3 ys E2 (fun o0 I0 => TM o0 (or_intror I0))) as (X2 & Y2). split; [cbn; constructor; assumption|exact (ext_trans _ _ _ Y1 Y2)].
Qed.
Lemma fill_shapes_sk p copy rg sk m v h h' m' : tree sk m -> h_fill_sk p copy rg sk m v h = (h', (m', None)) -> forall o, matching m o -> matching m' o /\ tree sk m'.
Proof.
  revert m v h h' m'. induction sk as [l|n dv dt|dv dt sks IH] using hman_ind'; intros m v h h' m' T E o MA; destruct m as [l1|n1 dv1 dt1|dv1 dt1 ms]; try contradiction.
  - cbn [h_fill_sk] in E. unfold h_leaf_fill, seqM in E. destruct (hc_fill (h_part p l1) v copy rg h) as [h1 [c o1]] eqn:EC. destruct o1 as [e|]; [unfold ret in E; discriminate E|]. unfold ret in E. injection E as <- <-.
    assert (S : hc_shapes c = hc_shapes (h_part p l1)).
    { unfold hc_fill in EC. destruct (tensors_device _) as [[dv|]|e]; [|discriminate EC..]. destruct (tensors_dtype _) as [[dt|]|e]; [|discriminate EC..]. unfold seqM in EC. destruct (h_iter _ h) as [h2 [l2|e]]; [|discriminate EC].
      match type of EC with context [let (_, _) := ?c h2 in _] => destruct (c h2) as [h3 [l3|e]]; [|discriminate EC] end. unfold ret in EC. injection EC as <- <-. reflexivity. }
    split; [|exact Logic.I]. inversion MA as [? l' A B| |]; subst. constructor; [|exact B]. intros q. rewrite <- (A q). destruct p, q; cbn in *; congruence.
  - cbn in E. unfold ret in E. injection E as <- <-. split; [exact MA|exact Logic.I].
  - apply tree_comp in T. inversion MA as [| |? ? ? ? ? os A]; subst. cbn [h_fill_sk] in E. unfold seqM at 1 in E. destruct (h_iter v h) as [h0 [vs|e]]; [|discriminate E]. unfold seqM at 1 in E.
    assert (SF : Forall2 (fun sk f => forall m v h h' m', tree sk m -> f m v h = (h', (m', None)) -> forall o, matching m o -> matching m' o /\ tree sk m') sks (map (h_fill_sk p copy rg) sks)) by (clear -IH; induction IH as [|s sks Hs _ IHs]; constructor; [exact Hs|exact IHs]).
    assert (ZL : forall ms vs h h' ms' os, Forall2 tree sks ms -> Forall2 matching ms os -> h_zip_loop (map (h_fill_sk p copy rg) sks) ms vs h = (h', (ms', None)) -> Forall2 matching ms' os /\ Forall2 tree sks ms').
    { clear -SF. induction SF as [|s f sks fs Hf _ IHf]; intros ms vs h h' ms' os T A E.
      - inversion T; subst. cbn in E. unfold ret in E. injection E as <- <-. auto.
      - inversion T as [|? m ? ms1 T1 T2]; subst. destruct vs as [|v vs]; [cbn in E; unfold ret in E; injection E as <- <-; auto|]. inversion A as [|? o ? os1 A1 A2]; subst. cbn [h_zip_loop] in E. unfold seqM in E. destruct (f m v h) as [h1 [m1 o1]] eqn:E1. destruct o1 as [e|]; [discriminate E|].
        destruct (h_zip_loop fs ms1 vs h1) as [h2 [ms2 o2]] eqn:E2. unfold ret in E. injection E as <- <- E3. cbn in E3. subst o2. destruct (Hf _ _ _ _ _ T1 E1 _ A1) as (X1 & Y1). destruct (IHf _ _ _ _ _ _ T2 A2 E2) as (X2 & Y2). split; constructor; assumption. }
    assert (IL : forall ms i h h' ms' os, Forall2 tree sks ms -> Forall2 matching ms os -> h_index_loop (map (h_fill_sk p copy rg) sks) ms v i h = (h', (ms', None)) -> Forall2 matching ms' os /\ Forall2 tree sks ms').
    { clear -SF. induction SF as [|s f sks fs Hf _ IHf]; intros ms i h h' ms' os T A E.
      - inversion T; subst. cbn in E. unfold ret in E. injection E as <- <-. auto.
      - inversion T as [|? m ? ms1 T1 T2]; subst. inversion A as [|? o ? os1 A1 A2]; subst. cbn [h_index_loop] in E. unfold seqM in E. destruct (h_index v i h) as [h0 [x|e]]; [|discriminate E]. destruct (f m x h0) as [h1 [m1 o1]] eqn:E1. destruct o1 as [e|]; [discriminate E|].
        destruct (h_index_loop fs ms1 v (S i) h1) as [h2 [ms2 o2]] eqn:E2. unfold ret in E. injection E as <- <- E3. cbn in E3. subst o2. destruct (Hf _ _ _ _ _ T1 E1 _ A1) as (X1 & Y1). destruct (IHf _ _ _ _ _ _ T2 A2 E2) as (X2 & Y2). split; constructor; assumption. }
    destruct (h_zip_loop (map (h_fill_sk p copy rg) sks) ms vs h0) as [h1 [ms1 o1]] eqn:EZ. destruct o1 as [e|]; [discriminate E|]. destruct (ZL _ _ _ _ _ _ T A EZ) as (X1 & Y1).
    destruct p; [|unfold ret in E; injection E as <- <-; split; [constructor; exact X1|apply tree_comp; exact Y1]..].
    unfold seqM in E. destruct (h_index_loop _ ms1 v 0 h1) as [h2 [ms2 o2]] eqn:EI. unfold ret in E. injection E as <- <- E3. cbn in E3. subst o2. destruct (IL _ _ _ _ _ _ Y1 X1 EI) as (X2 & Y2). split; [constructor; exact X2|apply tree_comp; exact Y2].
Qed.
Lemma fill_from_shares m o rg h h' m' : matching m o -> tensors_held o -> h_fill_from m o false rg h = (h', (m', None)) -> forall p, held p m' = held p o.
Proof.
  intros MA TH E. unfold h_fill_from in E.
  assert (GO : forall p m (k : hman -> M (hman * option exn)) h, matching m o ->
    (v <~ h_getter p o ;; match v with Err e => ret (m, Some e) | Ok v => r <~ h_fill p m v false rg ;; match r with (m', Some e) => ret (m', Some e) | (m', None) => k m' end end) h = (h', (m', None)) ->
    exists h1 m1, k m1 h1 = (h', (m', None)) /\ matching m1 o /\ held p m1 = held p o /\ forall q, q <> p -> held q m1 = held q m).
  { clear m MA E h. intros p m k h MA E. unfold seqM at 1 in E. destruct (h_getter p o h) as [h1 [v|e]] eqn:EG; [|discriminate E]. destruct (getter_fits p o m h h1 v MA TH EG) as (F & _). unfold seqM in E.
    destruct (h_fill p m v false rg h1) as [h2 [m1 o1]] eqn:EF. destruct o1 as [e|]; [discriminate E|]. destruct (fill_puts p rg m m v _ h1 h2 m1 (tree_refl m) F EF) as (_ & A & _ & _ & D).
    destruct (fill_shapes_sk p false rg m m v h1 h2 m1 (tree_refl m) EF o MA) as (B & _). exists h2, m1. auto. }
  apply (GO Gd m) in E; [|exact MA]. destruct E as (h1 & m1 & E & M1 & A1 & D1). apply (GO Tan m1) in E; [|exact M1]. destruct E as (h2 & m2 & E & M2 & A2 & D2). apply (GO Cotan m2 (fun m => ret (m, None))) in E; [|exact M2]. destruct E as (h3 & m3 & E & M3 & A3 & D3).
  unfold ret in E. injection E as <- <-. intros p. destruct p; [|rewrite D3 by discriminate; exact A2|exact A3]. rewrite D3, D2 by discriminate. exact A1.
Qed.
