(** Property theorems about the memory of tensors: what is shared (C95) and what the methods
    of manifolds do to it (C94). *)
From Coq Require Import Reals String List Arith ZArith Bool Lia.
From Verif Require Import Py Tensor ManifoldModel SpecManifold ManifoldFacts PropManifoldAux HeapModel SpecHeap HeapFacts.
Import ListNotations.
Open Scope list_scope.
Open Scope nat_scope.

(** Two manifolds built by the caller: storages 0 to 5 and 6 to 8. *)
Definition href (n : nat) : hv := HT (mkRef n [] "cpu"%string F32 false).
Definition hcon (shapes : list (list nat)) (ns : list nat) : hcont := mkHC shapes KTuple (map href ns) "cpu"%string F32.
Definition ex_heap : heap := map (fun i => mkT [2; 2] (fun _ => INR i)) (seq 0 9).
Definition ex_a : hman :=
  HMComp (Some "cpu"%string) (Some F32)
    [HMLeaf (mkHLeaf [[2]] 2 "cpu"%string F32 (Some "cpu"%string) (hcon [[2; 2]] [0]) (hcon [[2; 2]] [1]) (hcon [[2; 2]] [2])); HMEmpty 2 (Some "cpu"%string) F32;
     HMLeaf (mkHLeaf [[2]] 2 "cpu"%string F32 (Some "cpu"%string) (hcon [[2; 2]] [3]) (hcon [[2; 2]] [4]) (hcon [[2; 2]] [5]))].
Definition ex_b : hman :=
  HMLeaf (mkHLeaf [[2]] 2 "cpu"%string F32 (Some "cpu"%string) (hcon [[2; 2]] [6]) (hcon [[2; 2]] [7]) (hcon [[2; 2]] [8])).
Lemma ex_live_a : live ex_heap ex_a.
Proof. repeat constructor. Qed.
Lemma ex_live_b : live ex_heap ex_b.
Proof. repeat constructor. Qed.
Lemma ex_apart : apart ex_a ex_b.
Proof. intros l A B. cbn in A, B. intuition lia. Qed.

(** ** C94 *)

(** Every method call shows the values the model without memory computes and raises the same
    exception; memory that existed is never written; the storages the manifold holds
    afterwards are those it held, or new ones. *)
Theorem C94_calls : forall h m o, live h m ->
  let (h', r) := h_step m o h in
  (exists e, h' = h ++ e) /\ look_man h' (fst r) = fst (step (look_man h m) o) /\ snd r = snd (step (look_man h m) o) /\
  live h' (fst r) /\ (forall l, In l (storages (fst r)) -> In l (storages m) \/ length h <= l).
Proof.
  intros h m o L. pose proof (step_does (fun l => In l (storages m) \/ length h <= l) m o h (look_man h m)) as D. unfold does in D. destruct (h_step m o h) as [h' r].
  destruct D as (E & (A & I) & X); [intros l H; right; exact H|split; [reflexivity|apply (live_inside _ h m L); auto]|]. split; [exact E|]. split; [exact A|]. split; [exact X|]. exact (inside_live _ h' (fst r) I).
Qed.
Print Assumptions C94_calls.
Example C94_calls_nonvacuous : live ex_heap ex_a /\ snd (step (look_man ex_heap ex_a) (ONegate Gd)) = None.
Proof. split; [exact ex_live_a|reflexivity]. Qed.

(** Filled with tensors of the caller: the values, and where they are kept. *)
Theorem C94_fill : forall h m p x copy rg, live h m -> Forall (fun l => l < length h) (locs x) ->
  let (h', r) := h_fill p m x copy rg h in
  (exists e, h' = h ++ e) /\ look_man h' (fst r) = fst (fill p (look_man h m) (look h x) copy rg) /\ snd r = snd (fill p (look_man h m) (look h x) copy rg) /\
  live h' (fst r) /\
  (forall l, In l (storages (fst r)) -> In l (storages m) \/ (copy = false /\ In l (locs x)) \/ length h <= l).
Proof.
  intros h m p x copy rg L LX. pose proof (fill_does (fun l => In l (storages m) \/ (copy = false /\ In l (locs x)) \/ length h <= l) (fun l => In l (locs x)) p copy rg h m (look_man h m) x (look h x)) as D. unfold does in D. destruct (h_fill p m x copy rg h) as [h' r].
  destruct D as (E & (A & I) & X).
  - destruct copy; [left; reflexivity|right; intros l H; right; left; auto].
  - intros l H. right; right. exact H.
  - split; [reflexivity|]. apply (live_inside _ h m L). auto.
  - split; [reflexivity|]. apply Forall_forall. intros l IL. split; [exact (proj1 (Forall_forall _ _) LX l IL)|exact IL].
  - split; [exact E|]. split; [exact A|]. split; [exact X|]. exact (inside_live _ h' (fst r) I).
Qed.
Print Assumptions C94_fill.
Example C94_fill_nonvacuous : live ex_heap ex_b /\ Forall (fun l => l < length ex_heap) (locs (href 0)) /\ snd (fill Gd (look_man ex_heap ex_b) (look ex_heap (href 0)) true None) = None.
Proof. split; [exact ex_live_b|]. split; [repeat constructor|reflexivity]. Qed.

(** fill(manifold). *)
Theorem C94_fill_from : forall h m o copy rg, live h m -> live h o ->
  let (h', r) := h_fill_from m o copy rg h in
  (exists e, h' = h ++ e) /\ look_man h' (fst r) = fst (fill_from (look_man h m) (look_man h o) copy rg) /\ snd r = snd (fill_from (look_man h m) (look_man h o) copy rg) /\
  live h' (fst r) /\
  (forall l, In l (storages (fst r)) -> In l (storages m) \/ (copy = false /\ In l (storages o)) \/ length h <= l).
Proof.
  intros h m o copy rg L LO. pose proof (fill_from_does (fun l => In l (storages m) \/ (copy = false /\ In l (storages o)) \/ length h <= l) (fun l => In l (storages o) \/ length h <= l) copy rg h m (look_man h m) o (look_man h o)) as D. unfold does in D. destruct (h_fill_from m o copy rg h) as [h' r].
  destruct D as (E & (A & I) & X).
  - destruct copy; [left; reflexivity|right; intros l [H|H]; [right; left; auto|right; right; exact H]].
  - intros l H. right; right. exact H.
  - intros l H. right. exact H.
  - split; [reflexivity|]. apply (live_inside _ h m L). auto.
  - split; [reflexivity|]. apply (live_inside _ h o LO). auto.
  - split; [exact E|]. split; [exact A|]. split; [exact X|]. exact (inside_live _ h' (fst r) I).
Qed.
Print Assumptions C94_fill_from.
Example C94_fill_from_nonvacuous : live ex_heap ex_b /\ live ex_heap ex_b /\ snd (fill_from (look_man ex_heap ex_b) (look_man ex_heap ex_b) false None) = None.
Proof. split; [exact ex_live_b|]. split; [exact ex_live_b|reflexivity]. Qed.

(** clone(): the values of the copy, all of it in new memory. *)
Theorem C94_clone : forall h m rg, live h m ->
  let (h', r) := h_clone rg m h in
  (exists e, h' = h ++ e) /\
  match r with
  | Ok c => clone rg (look_man h m) = Ok (look_man h' c) /\ live h' c /\ Forall (fun l => length h <= l) (storages c)
  | Err x => clone rg (look_man h m) = Err x
  end.
Proof.
  intros h m rg L. pose proof (h_clone_does (fun l => length h <= l) (fun _ => True) rg m (look_man h m) h) as D. unfold does in D. destruct (h_clone rg m h) as [h' r].
  destruct D as (E & X); [intros l H; exact H|split; [reflexivity|apply (live_inside _ h m L); auto]|]. split; [exact E|].
  destruct r as [c|x]; destruct (clone rg (look_man h m)) as [c'|x']; cbn in X; try contradiction; [|congruence].
  destruct X as (<- & I). split; [reflexivity|]. destruct (inside_live _ h' c I) as (A & B). split; [exact A|]. apply Forall_forall. exact B.
Qed.
Print Assumptions C94_clone.
Example C94_clone_nonvacuous : live ex_heap ex_a /\ exists h' c, h_clone true ex_a ex_heap = (h', Ok c) /\ length (storages c) = 6.
Proof. split; [exact ex_live_a|]. eexists. eexists. split; [reflexivity|reflexivity]. Qed.

(** ** C95 *)

(** Two manifolds without common memory stay so, and each shows what it would show alone:
    whatever is called on the other, copied from one to the other, or written in place in the
    tensors of the other. *)
Lemma apart_new h a a' b : live h b -> apart a b -> (forall l, In l (storages a') -> In l (storages a) \/ length h <= l) -> apart a' b.
Proof. intros L A I l IA IB. destruct (I l IA) as [H|H]; [exact (A l H IB)|]. pose proof (proj1 (Forall_forall _ _) L l IB) as X. cbn in X. lia. Qed.
Lemma apart_sym a b : apart a b -> apart b a.
Proof. intros A l X Y. exact (A l Y X). Qed.
Lemma live_grows h e m : live h m -> live (h ++ e) m /\ look_man (h ++ e) m = look_man h m.
Proof.
  intros L. split; [revert L; apply Forall_impl; intros l X; rewrite app_length; lia|].
  apply (look_man_ext (fun _ => True) h (h ++ e) m); [apply live_inside; auto|exists e; reflexivity].
Qed.
Lemma live_write h l t m : live h m -> live (write l t h) m.
Proof. apply Forall_impl. intros k X. rewrite write_length. exact X. Qed.
Lemma happens_apart h a b e h' a' b' : live h a -> live h b -> apart a b -> happens (h, a, b) e (h', a', b') ->
  live h' a' /\ live h' b' /\ apart a' b' /\ separate (look_man h a, look_man h b) e (look_man h' a', look_man h' b').
Proof.
  intros LA LB AP H. destruct e as [o|o|rg|rg|l t|l t]; cbn [happens separate] in *.
  - pose proof (C94_calls h a o LA) as C. destruct (h_step a o h) as [h1 r]. injection H as -> -> ->. destruct C as ((e & ->) & V & _ & L & I). destruct (live_grows h e b LB) as (G1 & G2).
    split; [exact L|]. split; [exact G1|]. split; [exact (apart_new h a (fst r) b LB AP I)|]. rewrite V, G2. reflexivity.
  - pose proof (C94_calls h b o LB) as C. destruct (h_step b o h) as [h1 r]. injection H as -> -> ->. destruct C as ((e & ->) & V & _ & L & I). destruct (live_grows h e a LA) as (G1 & G2).
    split; [exact G1|]. split; [exact L|]. split; [exact (apart_sym _ _ (apart_new h b (fst r) a LA (apart_sym _ _ AP) I))|]. rewrite V, G2. reflexivity.
  - pose proof (C94_fill_from h a b true rg LA LB) as C. destruct (h_fill_from a b true rg h) as [h1 r]. injection H as -> -> ->. destruct C as ((e & ->) & V & _ & L & I). destruct (live_grows h e b LB) as (G1 & G2).
    split; [exact L|]. split; [exact G1|]. split; [apply (apart_new h a (fst r) b LB AP); intros l IL; destruct (I l IL) as [X|[(X & _)|X]]; auto; discriminate X|]. rewrite V, G2. reflexivity.
  - pose proof (C94_fill_from h b a true rg LB LA) as C. destruct (h_fill_from b a true rg h) as [h1 r]. injection H as -> -> ->. destruct C as ((e & ->) & V & _ & L & I). destruct (live_grows h e a LA) as (G1 & G2).
    split; [exact G1|]. split; [exact L|]. split; [apply apart_sym; apply (apart_new h b (fst r) a LA (apart_sym _ _ AP)); intros l IL; destruct (I l IL) as [X|[(X & _)|X]]; auto; discriminate X|]. rewrite V, G2. reflexivity.
  - destruct H as (IL & H). injection H as -> -> ->. split; [exact (live_write h l t a LA)|]. split; [exact (live_write h l t b LB)|]. split; [exact AP|].
    exists (look_man (write l t h) a). rewrite (look_man_write l t h b); [reflexivity|]. intros X. exact (AP l IL X).
  - destruct H as (IL & H). injection H as -> -> ->. split; [exact (live_write h l t a LA)|]. split; [exact (live_write h l t b LB)|]. split; [exact AP|].
    exists (look_man (write l t h) b). rewrite (look_man_write l t h a); [reflexivity|]. intros X. exact (AP l X IL).
Qed.
Theorem C95_independent : forall h a b es h' a' b', live h a -> live h b -> apart a b -> history (h, a, b) es (h', a', b') ->
  separately (values (h, a, b)) es (values (h', a', b')) /\ live h' a' /\ live h' b' /\ apart a' b'.
Proof.
  intros h a b es h' a' b' LA LB AP H. remember (h, a, b) as w eqn:W. remember (h', a', b') as w' eqn:W'. revert h a b W LA LB AP W'. induction H as [w|w e w1 es w' HP _ IH]; intros h a b -> LA LB AP W'.
  - injection W' as -> -> ->. split; [constructor|]. auto.
  - destruct w1 as [[h1 a1] b1]. destruct (happens_apart h a b e h1 a1 b1 LA LB AP HP) as (L1 & L2 & A1 & S). destruct (IH h1 a1 b1 eq_refl L1 L2 A1 W') as (T & Rest).
    split; [|exact Rest]. exact (sep_cons _ e _ es _ S T).
Qed.
Print Assumptions C95_independent.
Example C95_independent_nonvacuous : live ex_heap ex_a /\ live ex_heap ex_b /\ apart ex_a ex_b /\
  exists w', history (ex_heap, ex_a, ex_b) [InA (ONegate Gd); WriteB 6 (mkT [2; 2] (fun _ => 9%R)); InB (OTo (ToDtype F64))] w'.
Proof.
  split; [exact ex_live_a|]. split; [exact ex_live_b|]. split; [exact ex_apart|]. eexists. eapply his_cons; [cbv; reflexivity|]. eapply his_cons; [cbn; split; [left; reflexivity|reflexivity]|]. eapply his_cons; [cbv; reflexivity|]. constructor.
Qed.

(** A copy made by clone() has no memory in common with the original, which is unchanged: the
    theorem above applies to the two. *)
Theorem C95_clone : forall h a rg h' b, live h a -> h_clone rg a h = (h', Ok b) ->
  live h' a /\ live h' b /\ apart a b /\ look_man h' a = look_man h a.
Proof.
  intros h a rg h' b L E. pose proof (C94_clone h a rg L) as C. rewrite E in C. destruct C as ((e & ->) & _ & LB & N). destruct (live_grows h e a L) as (G1 & G2).
  split; [exact G1|]. split; [exact LB|]. split; [|exact G2]. intros l IA IB. pose proof (proj1 (Forall_forall _ _) N l IB) as X. pose proof (proj1 (Forall_forall _ _) L l IA) as Y. cbn in X, Y. lia.
Qed.
Print Assumptions C95_clone.
Example C95_clone_nonvacuous : live ex_heap ex_a /\ exists h' b, h_clone false ex_a ex_heap = (h', Ok b).
Proof. split; [exact ex_live_a|]. eexists. eexists. reflexivity. Qed.

(** Tensors given with copy=True remain the caller's: writing in them later does not change
    the manifold. *)
Theorem C95_copied : forall h m p x rg h' r l t, live h m -> Forall (fun k => k < length h) (locs x) -> (forall k, In k (locs x) -> ~ In k (storages m)) ->
  h_fill p m x true rg h = (h', r) -> In l (locs x) -> look_man (write l t h') (fst r) = look_man h' (fst r).
Proof.
  intros h m p x rg h' r l t L LX AP E IL. pose proof (C94_fill h m p x true rg L LX) as C. rewrite E in C. destruct C as (_ & _ & _ & _ & I). apply look_man_write. intros X.
  destruct (I l X) as [Y|[(Y & _)|Y]]; [exact (AP l IL Y)|discriminate Y|]. pose proof (proj1 (Forall_forall _ _) LX l IL) as Z. cbn in Z. lia.
Qed.
Print Assumptions C95_copied.
Example C95_copied_nonvacuous : live ex_heap ex_b /\ Forall (fun k => k < length ex_heap) (locs (href 0)) /\ (forall k, In k (locs (href 0)) -> ~ In k (storages ex_b)) /\
  exists h' r, h_fill Gd ex_b (href 0) true (Some true) ex_heap = (h', r) /\ snd r = None.
Proof. split; [exact ex_live_b|]. split; [repeat constructor|]. split; [intros k A B; cbn in A, B; intuition lia|]. eexists. eexists. split; [cbv; reflexivity|reflexivity]. Qed.

(** Without copy (the default) the manifold holds the tensors given, whatever requires_grad is
    asked for: no memory is used, and at any later time the manifold shows what the caller's
    tensors show. *)
Theorem C95_shared : forall p m x vs rg h h' m', fits p m x vs -> h_fill p m x false rg h = (h', (m', None)) ->
  h' = h /\ held p m' = vs /\ (forall q, q <> p -> held q m' = held q m) /\
  forall later, unroll p (look_man later m') = map (look later) vs.
Proof.
  intros p m x vs rg h h' m' X E. destruct (fill_puts p rg m m x vs h h' m' (tree_refl m) X E) as (A & B & _ & _ & D). split; [exact A|]. split; [exact B|]. split; [exact D|].
  intros later. rewrite <- B. apply look_unroll.
Qed.
Print Assumptions C95_shared.
Example C95_shared_nonvacuous : fits Gd ex_a (HL [href 6; HNone; href 7]) [href 6; href 7] /\
  exists m', h_fill Gd ex_a (HL [href 6; HNone; href 7]) false (Some true) ex_heap = (ex_heap, (m', None)).
Proof.
  split; [|eexists; cbv; reflexivity]. apply fit_comp. change [href 6; href 7] with ([href 6] ++ [] ++ [href 7] ++ []). repeat constructor.
Qed.

(** So the independence of C95_independent does not survive the default fill: a write in a
    tensor of the other manifold is seen in this one. *)
Theorem C95_default_fill_refuted : exists h a b l t, live h a /\ live h b /\ apart a b /\
  let (h', r) := h_fill_from a b false None h in
  snd r = None /\ In l (storages b) /\ ~ apart (fst r) b /\ look_man (write l t h') (fst r) <> look_man h' (fst r).
Proof.
  exists ex_heap, (HMLeaf (mkHLeaf [[2]] 2 "cpu"%string F32 (Some "cpu"%string) (hcon [[2; 2]] [0]) (hcon [[2; 2]] [1]) (hcon [[2; 2]] [2]))), ex_b, 6, (mkT [1] (fun _ => 0%R)).
  split; [repeat constructor|]. split; [exact ex_live_b|]. split; [intros l A B; cbn in A, B; intuition lia|].
  match goal with |- let (_, _) := ?c in _ => let c' := eval cbv in c in change c with c' end. cbv iota beta. split; [reflexivity|]. split; [left; reflexivity|]. split.
  - intros A. apply (A 6); [left; reflexivity|left; reflexivity].
  - intros E. apply (f_equal (unroll Gd)) in E. cbn in E. injection E as E. discriminate E.
Qed.
Print Assumptions C95_default_fill_refuted.

(** A manifold built from tensors holds these tensors; the parts not given are in new memory. *)
Theorem C95_built : forall ddt shapes nb gd tan cotan dv dt h h' l p,
  h_leaf_init ddt shapes nb gd tan cotan dv dt h = (h', Ok l) ->
  (forall v, In v [gd; tan; cotan] -> Forall (fun k => k < length h) (locs v)) ->
  let v := match p with Gd => gd | Tan => tan | Cotan => cotan end in
  (exists e, h' = h ++ e) /\ leaf_init ddt shapes nb (look h gd) (look h tan) (look h cotan) dv dt = Ok (look_leaf h' l) /\
  (forall vs, v = HL vs -> held p (HMLeaf l) = vs) /\
  (forall r, v = HT r -> length shapes = 1 -> held p (HMLeaf l) = [v]) /\
  (v = HNone -> Forall (fun k => length h <= k) (flat_map locs (held p (HMLeaf l)))).
Proof.
  intros ddt shapes nb gd tan cotan dv dt h h' l p E LV v.
  split; [|split].
  - pose proof (leaf_init_does (fun _ => True) (fun _ => True) ddt shapes nb gd tan cotan _ _ _ dv dt h (fun _ H => H) (fun _ _ => Logic.I)
      (RV_live h gd (LV gd (or_introl eq_refl))) (RV_live h tan (LV tan (or_intror (or_introl eq_refl)))) (RV_live h cotan (LV cotan (or_intror (or_intror (or_introl eq_refl)))))) as D.
    unfold does in D. rewrite E in D. exact (proj1 D).
  - pose proof (leaf_init_does (fun _ => True) (fun _ => True) ddt shapes nb gd tan cotan _ _ _ dv dt h (fun _ H => H) (fun _ _ => Logic.I)
      (RV_live h gd (LV gd (or_introl eq_refl))) (RV_live h tan (LV tan (or_intror (or_introl eq_refl)))) (RV_live h cotan (LV cotan (or_intror (or_intror (or_introl eq_refl)))))) as D.
    unfold does in D. rewrite E in D. destruct D as (_ & D). destruct (leaf_init _ _ _ _ _ _ _ _) as [l'|e]; cbn in D; [|contradiction]. destruct D as (-> & _). reflexivity.
  - exact (init_holds ddt shapes nb gd tan cotan dv dt h h' l p E).
Qed.
Print Assumptions C95_built.
Example C95_built_nonvacuous : exists h' l, h_leaf_init F32 [[2]] 2 (href 0) HNone (href 1) None None ex_heap = (h', Ok l) /\
  (forall v, In v [href 0; HNone; href 1] -> Forall (fun k => k < length ex_heap) (locs v)).
Proof. eexists. eexists. split; [cbv; reflexivity|]. intros v [<-|[<-|[<-|[]]]]; repeat constructor. Qed.

(** Changing requires_grad, or converting to the device or dtype the tensors already have,
    keeps the memory: a manifold that shares it with the caller, or with another manifold,
    still does. *)
Theorem C95_kept : forall h m o,
  (match o with
   | ORequires _ _ _ => True
   | OTo a => forall q r, In (HT r) (held q m) -> already a r
   | _ => False
   end) ->
  let (h', r) := h_step m o h in forall q, flat_map locs (held q (fst r)) = flat_map locs (held q m).
Proof.
  intros h m o C. destruct o as [p v copy rg|p v|p|p rg i|p rg|p rnd rg|a]; try contradiction; cbn [h_step].
  - destruct (h_requires_grad_ p m rg i h) as [h' r] eqn:E. destruct m as [l|n dv dt|dv dt ms]; cbn [h_requires_grad_] in E; [|injection E as <- <-; reflexivity..].
    exact (part_keeps (hc_requires_grad rg i) p l h h' r (requires_keeps rg i _) E).
  - destruct (h_to_ a m h) as [h' r] eqn:E. exact (to_keeps a m C h h' r E).
Qed.
Print Assumptions C95_kept.
Example C95_kept_nonvacuous : (forall q r, In (HT r) (held q ex_a) -> already (ToDtype F32) r) /\ snd (step (look_man ex_heap ex_a) (OTo (ToDtype F32))) = None /\ held Gd ex_a <> [].
Proof. split; [intros [] r [E|[E|[]]]; injection E as <-; reflexivity|]. split; [reflexivity|discriminate]. Qed.

(** add_*, negate_*, fill_*_zeros and fill_*_randn put the part in new memory: whatever was
    shared before no longer is. *)
Theorem C95_renewed : forall h m o p,
  (match o with OAdd q _ | ONegate q | OZeros q _ | ORandn q _ _ => q = p | _ => False end) ->
  let (h', r) := h_step m o h in snd r = None -> Forall (fun l => length h <= l) (flat_map locs (held p (fst r))).
Proof.
  intros h m o p C. destruct o as [q v copy rg|q v|q|q rg i|q rg|q rnd rg|a]; try contradiction; subst q; cbn [h_step].
  - unfold seqM. destruct (place v h) as [h1 x] eqn:EP. destruct (h_add p m x h1) as [h' [m' o']] eqn:E. cbn [fst snd]. intros ->.
    pose proof (place_does (fun _ => True) v h (fun _ _ => Logic.I)) as D. unfold does in D. rewrite EP in D. destruct D as (G & _). exact (proj2 (add_fresh (length h) p m x h1 h' m' (ext_length _ _ G) E)).
  - destruct (h_negate p m h) as [h' [m' o']] eqn:E. cbn [fst snd]. intros ->. exact (proj2 (negate_fresh (length h) p m h h' m' (le_n _) E)).
  - destruct (h_fill_zeros p rg m h) as [h' [m' o']] eqn:E. cbn [fst snd]. intros ->. exact (proj2 (zeros_fresh (length h) p rg m h h' m' (le_n _) E)).
  - destruct (h_fill_randn p rnd rg m h) as [h' [m' o']] eqn:E. cbn [fst snd]. intros ->. exact (proj2 (randn_fresh (length h) p rnd rg m h h' m' (le_n _) E)).
Qed.
Print Assumptions C95_renewed.
Example C95_renewed_nonvacuous : snd (snd (h_step ex_a (OAdd Tan (VL [VT (ones [2; 2]); VNone; VT (ones [2; 2])])) ex_heap)) = None /\ snd (snd (h_step ex_a (ONegate Cotan) ex_heap)) = None.
Proof. split; reflexivity. Qed.

(** .gd, .tan and .cotan give the tensors held themselves, in the form fill_gd expects (for
    a manifold without points a new, empty tensor). *)
Theorem C95_getter : forall p m h h' v, matching m m -> tensors_held m -> h_getter p m h = (h', Ok v) -> fits p m v (held p m) /\ exists e, h' = h ++ e.
Proof. intros p m h h' v MA TH E. exact (getter_fits p m m h h' v MA TH E). Qed.
Print Assumptions C95_getter.
(** fill(manifold) without copy: the two manifolds hold the same tensors. *)
Theorem C95_filled_from : forall m o rg h h' m', matching m o -> tensors_held o -> h_fill_from m o false rg h = (h', (m', None)) ->
  forall p, held p m' = held p o /\ forall later, unroll p (look_man later m') = unroll p (look_man later o).
Proof. intros m o rg h h' m' MA TH E p. pose proof (fill_from_shares m o rg h h' m' MA TH E p) as H. split; [exact H|]. intros later. rewrite !look_unroll, H. reflexivity. Qed.
Print Assumptions C95_filled_from.
Example C95_getter_nonvacuous : matching ex_a ex_a /\ tensors_held ex_a /\ (exists h' v, h_getter Gd ex_a ex_heap = (h', Ok v)) /\ exists h' m', h_fill_from ex_b ex_b false None ex_heap = (h', (m', None)).
Proof.
  split; [repeat constructor; intros []; reflexivity|]. split; [intros [] v [<-|[<-|[]]]; eexists; reflexivity|]. split; eexists; eexists; cbv; reflexivity.
Qed.
