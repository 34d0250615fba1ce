(** Facts about modules listed in another order. *)
From Coq Require Import Reals List Arith Lia Lra Permutation.
From Verif Require Import Py RSum Tensor TensorFacts KernelModel FieldModel GeometryModel ModuleModel ShootingModel
  SpecLinAlg SpecKernel SpecField SpecGeometry SpecModule SpecShooting SpecOrder SpecSmooth GeometryFacts ModuleAlg ModuleLeaves ModuleDual ModuleMain TransportFacts RigidControl ShootingPack.
Import ListNotations.
Open Scope R_scope.

(** ** Places in lists *)
Lemma pick_cons {A} i p (l : list A) : pick (i :: p) l = match nth_error l i with Some x => [x] | None => [] end ++ pick p l.
Proof. reflexivity. Qed.
Lemma pick_app {A} p p' (l : list A) : pick (p ++ p') l = pick p l ++ pick p' l.
Proof. apply flat_map_app. Qed.
Lemma pick_map {A B} (f : A -> B) p l : pick p (map f l) = map f (pick p l).
Proof. induction p as [|i p IH]; [reflexivity|]. rewrite !pick_cons, map_app, <- IH, nth_error_map. destruct (nth_error l i); reflexivity. Qed.
Lemma pick_length {A} p (l : list A) : Forall (fun i => (i < length l)%nat) p -> length (pick p l) = length p.
Proof.
  induction 1 as [|i p I _ IH]; [reflexivity|]. rewrite pick_cons. destruct (nth_error l i) as [x|] eqn:E; [cbn; rewrite IH; reflexivity|].
  apply nth_error_None in E. lia.
Qed.
Lemma nth_pick {A} p (l : list A) j i : Forall (fun i => (i < length l)%nat) p -> nth_error p j = Some i -> nth_error (pick p l) j = nth_error l i.
Proof.
  intros F. revert j. induction F as [|k p I _ IH]; intros j E; [destruct j; discriminate E|].
  rewrite pick_cons. destruct (nth_error l k) as [x|] eqn:Ek; [|apply nth_error_None in Ek; lia].
  destruct j as [|j]; [cbn in E; injection E as <-; rewrite Ek; reflexivity|]. exact (IH j E).
Qed.
Lemma pick_skip {A} (l l' : list A) n k : pick (seq (length l + n) k) (l ++ l') = pick (seq n k) l'.
Proof.
  revert n. induction k as [|k IH]; intros n; [reflexivity|]. cbn [seq]. rewrite !pick_cons. rewrite nth_error_app2 by lia.
  replace (length l + n - length l)%nat with n by lia. f_equal. replace (S (length l + n)) with (length l + S n)%nat by lia. apply IH.
Qed.
Lemma pick_firsts {A} (l l' : list A) : pick (seq 0 (length l)) (l ++ l') = l.
Proof.
  induction l as [|x l IH]; [reflexivity|]. cbn [length seq]. rewrite pick_cons. cbn [nth_error app]. f_equal.
  change (x :: l ++ l') with ([x] ++ (l ++ l')). change 1%nat with (length [x] + 0)%nat. rewrite pick_skip. exact IH.
Qed.
Lemma pick_all {A} (l : list A) : pick (seq 0 (length l)) l = l.
Proof. pose proof (pick_firsts l []) as H. rewrite app_nil_r in H. exact H. Qed.
Lemma pick_perm {A} p (l : list A) : Permutation p (seq 0 (length l)) -> Permutation (pick p l) l.
Proof. intros P. rewrite <- (pick_all l) at 2. apply Permutation_flat_map. exact P. Qed.
Lemma pick_bound n p : Permutation p (seq 0 n) -> Forall (fun i => (i < n)%nat) p.
Proof. intros P. apply Forall_forall. intros i I. apply (Permutation_in _ P), in_seq in I. lia. Qed.
Lemma perm_len n p : Permutation p (seq 0 n) -> length p = n.
Proof. intros P. rewrite (Permutation_length P), seq_length. reflexivity. Qed.
Lemma pick_combine {A B} p (l : list A) (r : list B) : length l = length r -> pick p (combine l r) = combine (pick p l) (pick p r).
Proof.
  intros L. induction p as [|i p IH]; [reflexivity|]. rewrite !pick_cons, IH. clear IH. revert i r L.
  assert (X : forall i (l : list A) (r : list B), length l = length r -> match nth_error (combine l r) i with Some x => [x] | None => [] end =
    combine (match nth_error l i with Some x => [x] | None => [] end) (match nth_error r i with Some x => [x] | None => [] end) /\
    length (match nth_error l i with Some x => [x] | None => [] end) = length (match nth_error r i with Some x => [x] | None => [] end)).
  { clear. induction i as [|i IH]; intros [|a l] [|b r] L; try discriminate L; try (split; reflexivity). cbn. apply IH. cbn in L. lia. }
  intros i r L. destruct (X i l r L) as (E & EL). rewrite E. destruct (nth_error l i); destruct (nth_error r i); try discriminate EL; reflexivity.
Qed.

(** Places of the blocks of a list. *)
Fixpoint blocks (n : nat) (lens : list nat) : list (list nat) :=
  match lens with [] => [] | k :: r => seq n k :: blocks (n + k) r end.
Lemma blocks_all lens : forall n, List.concat (blocks n lens) = seq n (list_sum lens).
Proof. induction lens as [|k r IH]; intros n; [reflexivity|]. change (list_sum (k :: r)) with (k + list_sum r)%nat. cbn [blocks List.concat]. rewrite IH, seq_app. reflexivity. Qed.
Lemma blocks_len lens n : length (blocks n lens) = length lens.
Proof. revert n. induction lens as [|k r IH]; intros n; [reflexivity|]. cbn. rewrite IH. reflexivity. Qed.
Lemma pick_block {A} (bs : list (list A)) : forall pre, map (fun b => pick b (pre ++ List.concat bs)) (blocks (length pre) (map (@length A) bs)) = bs.
Proof.
  induction bs as [|b bs IH]; intros pre; [reflexivity|]. cbn [map blocks List.concat]. f_equal.
  - replace (length pre) with (length pre + 0)%nat by lia. rewrite pick_skip. apply pick_firsts.
  - specialize (IH (pre ++ b)). rewrite app_length, <- app_assoc in IH. exact IH.
Qed.
Definition spread (p lens : list nat) : list nat := List.concat (pick p (blocks 0 lens)).
Lemma spread_perm p lens : Permutation p (seq 0 (length lens)) -> Permutation (spread p lens) (seq 0 (list_sum lens)).
Proof.
  intros P. unfold spread.
  assert (X : forall l l' : list (list nat), Permutation l l' -> Permutation (List.concat l) (List.concat l')).
  { intros l l' Q. induction Q; cbn; [constructor|apply Permutation_app_head; assumption|rewrite !app_assoc; apply Permutation_app_tail, Permutation_app_comm|eapply Permutation_trans; eassumption]. }
  rewrite <- (blocks_all lens 0). apply X, pick_perm. rewrite blocks_len. exact P.
Qed.
Lemma pick_spread {A} p lens (bs : list (list A)) : map (@length A) bs = lens -> pick (spread p lens) (List.concat bs) = List.concat (pick p bs).
Proof.
  intros <-. rewrite <- (pick_block bs []) at 3. cbn [app length]. rewrite pick_map. unfold spread.
  generalize (pick p (blocks 0 (map (@length A) bs))). intros l. induction l as [|b l IH]; [reflexivity|]. cbn [List.concat map]. rewrite pick_app, IH. reflexivity.
Qed.

(** ** Sums *)
Definition lsum (l : list R) : R := fold_right Rplus 0 l.
Lemma lsum_app l l' : lsum (l ++ l') = lsum l + lsum l'.
Proof. unfold lsum. induction l as [|x l IH]; cbn [app fold_right]; [lra|]. rewrite IH. lra. Qed.
Lemma lsum_perm l l' : Permutation l l' -> lsum l = lsum l'.
Proof. unfold lsum. induction 1; cbn; lra. Qed.

(** ** List comprehensions *)
Lemma mapM_app {A B} (f : A -> res B) l l' : mapM f (l ++ l') = (r <- mapM f l ;; r' <- mapM f l' ;; Ok (r ++ r')).
Proof.
  induction l as [|a l IH]; cbn [app mapM bind]; [destruct (mapM f l'); reflexivity|].
  destruct (f a); [|reflexivity]. cbn [bind]. rewrite IH. destruct (mapM f l); [|reflexivity]. cbn [bind]. destruct (mapM f l'); reflexivity.
Qed.
Lemma mapM_pick {A B} (f : A -> res B) p : forall l r, mapM f l = Ok r -> mapM f (pick p l) = Ok (pick p r).
Proof.
  induction p as [|i p IH]; intros l r E; [reflexivity|]. rewrite !pick_cons, mapM_app, (IH l r E).
  assert (X : forall i l r, mapM f l = Ok r -> mapM f (match nth_error l i with Some x => [x] | None => [] end) = Ok (match nth_error r i with Some x => [x] | None => [] end)).
  { clear. induction i as [|i IH]; intros [|a l] r E; cbn [mapM] in E; try (injection E as <-; reflexivity); bok E b Eb; bok E bs Ebs; injection E as <-; cbn [nth_error].
    - cbn [mapM bind]. rewrite Eb. reflexivity.
    - apply IH. exact Ebs. }
  rewrite (X i l r E). reflexivity.
Qed.
Lemma mapM_perm {A B} (f : A -> res B) l l' : Permutation l l' -> forall r, mapM f l = Ok r -> exists r', mapM f l' = Ok r' /\ Permutation r r'.
Proof.
  induction 1 as [|a l l' _ IH|a b l|l l' l'' _ IH1 _ IH2]; intros r E.
  - exists r. split; [exact E|apply Permutation_refl].
  - cbn [mapM] in E. bok E x Ex. bok E xs Exs. injection E as <-. destruct (IH xs Exs) as (r' & Er & P). exists (x :: r'). cbn [mapM]. rewrite Ex, Er. split; [reflexivity|constructor; exact P].
  - cbn [mapM] in E. bok E x Ex. bok E ys Eys. bok Eys y Ey. bok Eys zs Ezs. injection Eys as <-. injection E as <-. exists (y :: x :: zs). cbn [mapM]. rewrite Ex, Ey, Ezs. split; [reflexivity|apply perm_swap].
  - destruct (IH1 r E) as (r1 & E1 & P1). destruct (IH2 r1 E1) as (r2 & E2 & P2). exists r2. split; [exact E2|eapply Permutation_trans; eassumption].
Qed.
Lemma mapM_len {A B} (f : A -> res B) l r : mapM f l = Ok r -> length r = length l.
Proof. revert r. induction l as [|a l IH]; intros r E; cbn [mapM] in E; [injection E as <-; reflexivity|]. bok E x Ex. bok E xs Exs. injection E as <-. cbn. rewrite (IH xs Exs). reflexivity. Qed.

Lemma F2len {A B} {R : A -> B -> Prop} {l l'} : Forall2 R l l' -> length l = length l'.
Proof. induction 1; cbn; lia. Qed.

(** ** Modules, leaf by leaf *)
Lemma leaves_leaf m : (forall ms, m <> MComp ms) -> leaves m = [m].
Proof. intros N. destruct m; try reflexivity. elim (N ms eq_refl). Qed.

Lemma cost_leaves m : forall x, cost m = Ok x -> exists xs, mapM cost (leaves m) = Ok xs /\ x = lsum xs.
Proof.
  induction m as [m NC|ms IH] using dmod_ind'; intros x E.
  - rewrite (leaves_leaf m NC). exists [x]. cbn [mapM]. rewrite E. split; [reflexivity|cbn; lra].
  - change (costs ms = Ok x) in E. cbn [leaves]. revert x E. induction IH as [|m ms Hm _ IHs]; intros x E; cbn [costs] in E; [injection E as <-; exists []; split; reflexivity|].
    fold costs in E. bok E a Ea. bok E b Eb. injection E as <-. destruct (Hm a Ea) as (xs & Ex & ->). destruct (IHs b Eb) as (ys & Ey & ->).
    exists (xs ++ ys). cbn [flat_map]. rewrite mapM_app, Ex, Ey. split; [reflexivity|]. symmetry. apply lsum_app.
Qed.

Lemma field_leaves d m : forall f, field_generator m = Ok f -> exists fs, mapM field_generator (leaves m) = Ok fs /\
  (forall p a, fval d f p a = lsum (map (fun g => fval d g p a) fs)) /\ (forall p a b, fjac d f p a b = lsum (map (fun g => fjac d g p a b) fs)).
Proof.
  induction m as [m NC|ms IH] using dmod_ind'; intros f E.
  - rewrite (leaves_leaf m NC). exists [f]. cbn [mapM]. rewrite E. split; [reflexivity|]. split; intros; cbn; lra.
  - change ((fs <- fields ms ;; sum_ctor fs) = Ok f) in E. bok E fs Ef. cbn [leaves].
    assert (X : exists gs, mapM field_generator (flat_map leaves ms) = Ok gs /\
      (forall p a, fold_right (fun g acc => fval d g p a + acc) 0 fs = lsum (map (fun g => fval d g p a) gs)) /\
      (forall p a b, fold_right (fun g acc => fjac d g p a b + acc) 0 fs = lsum (map (fun g => fjac d g p a b) gs))).
    { clear E. revert fs Ef. induction IH as [|m ms Hm _ IHs]; intros fs E; cbn [fields] in E; [injection E as <-; exists []; repeat split; reflexivity|].
      fold fields in E. bok E g Eg. bok E r Er. injection E as <-. destruct (Hm g Eg) as (xs & Ex & V & J). destruct (IHs r Er) as (ys & Ey & V' & J').
      exists (xs ++ ys). cbn [flat_map]. rewrite mapM_app, Ex, Ey. split; [reflexivity|]. split; intros; cbn [fold_right]; rewrite map_app, lsum_app; [rewrite V, V'|rewrite J, J']; reflexivity. }
    destruct X as (gs & Eg & V & J). exists gs. split; [exact Eg|].
    assert (F : f = SF_sum fs). { unfold sum_ctor in E. destruct fs; [discriminate E|]. repeat match type of E with context [if ?b then _ else _] => destruct b end; try discriminate E; injection E as <-; reflexivity. }
    subst f. split; [exact V|exact J].
Qed.

Lemma pairing_leaves d m v D : pairing d (mod_manifold m) v D = lsum (map (fun x => pairing d (mod_manifold x) v D) (leaves m)).
Proof.
  induction m as [m NC|ms IH] using dmod_ind'; [rewrite (leaves_leaf m NC); cbn [map lsum fold_right]; lra|].
  cbn [mod_manifold pairing leaves]. induction IH as [|m ms Hm _ IHs]; [reflexivity|]. cbn [map fold_right flat_map]. rewrite map_app, lsum_app, <- Hm, <- IHs. reflexivity.
Qed.

Lemma ctrl_leaves d m : forall c, ctrl_ok d m c -> Forall2 (ctrl_ok d) (leaves m) (cpieces m c).
Proof.
  induction m as [m NC|ms IH] using dmod_ind'; intros c E.
  - rewrite (leaves_leaf m NC). assert (X : cpieces m c = [c]) by (destruct m; try reflexivity; elim (NC ms eq_refl)). rewrite X. repeat constructor. exact E.
  - destruct c as [t|cs]; [destruct E|]. change (ctrls_ok d ms cs) in E. cbn [leaves cpieces]. revert cs E.
    induction IH as [|m ms Hm _ IHs]; intros [|c cs] E; cbn [ctrls_ok] in E; try contradiction; [constructor|]. destruct E as (E1 & E2). cbn [flat_map].
    apply Forall2_app; [exact (Hm c E1)|exact (IHs cs E2)].
Qed.
Lemma assemble d m : forall ks, Forall2 (ctrl_ok d) (leaves m) ks -> exists c, ctrl_ok d m c /\ cpieces m c = ks.
Proof.
  induction m as [m NC|ms IH] using dmod_ind'; intros ks E.
  - rewrite (leaves_leaf m NC) in E. inversion E as [|? k ? ks' K N]; subst. inversion N; subst. exists k. split; [exact K|]. destruct m; try reflexivity; elim (NC ms eq_refl).
  - cbn [leaves] in E.
    assert (X : exists cs, ctrls_ok d ms cs /\ cpieces (MComp ms) (CList cs) = ks).
    { revert ks E. induction IH as [|m ms Hm _ IHs]; intros ks E; cbn [flat_map] in E; [inversion E; exists []; split; [exact Logic.I|reflexivity]|].
      apply Forall2_app_inv_l in E. destruct E as (k1 & k2 & E1 & E2 & ->). destruct (Hm k1 E1) as (c & C1 & <-). destruct (IHs k2 E2) as (cs & C2 & <-).
      exists (c :: cs). split; [split; assumption|reflexivity]. }
    destruct X as (cs & C & K). exists (CList cs). split; [exact C|exact K].
Qed.
Lemma fill_leaves sv d m : forall c m1, ctrl_ok d m c -> fill_controls sv m c = Ok m1 ->
  mapM (fun x => fill_controls sv (fst x) (snd x)) (combine (leaves m) (cpieces m c)) = Ok (leaves m1).
Proof.
  induction m as [m NC|ms IH] using dmod_ind'; intros c m1 CK E.
  - rewrite (leaves_leaf m NC). assert (X : cpieces m c = [c]) by (destruct m; try reflexivity; elim (NC ms eq_refl)). rewrite X. cbn [combine mapM fst snd]. rewrite E. cbn [bind].
    assert (Y : forall ms, m1 <> MComp ms). { intros ms ->. destruct m, c; cbn in E; try discriminate E; repeat match type of E with context [bind ?a _] => destruct a; cbn [bind] in E end; try discriminate E; try (elim (NC _ eq_refl)).
      destruct (shape t); discriminate E. }
    rewrite (leaves_leaf m1 Y). reflexivity.
  - destruct c as [t|cs]; [destruct CK|]. change (ctrls_ok d ms cs) in CK. rewrite fill_comp, (ctrls_ok_length d ms cs CK), Nat.eqb_refl in E. cbn [py_assert bind] in E. bok E ms1 EF. injection E as <-. cbn [leaves cpieces].
    revert cs CK ms1 EF. induction IH as [|m ms Hm _ IHs]; intros [|c cs] CK ms1 E; cbn [ctrls_ok] in CK; try contradiction; [cbn [fills] in E; injection E as <-; reflexivity|].
    destruct CK as (C1 & C2). cbn [fills] in E. fold (fills sv) in E. bok E m' Em. bok E r Er. injection E as <-. cbn [flat_map].
    pose proof (F2len (ctrl_leaves d m c C1)) as LL.
    assert (CA : forall (a a' : list dmod) (b b' : list ctrl), length a = length b -> combine (a ++ a') (b ++ b') = combine a b ++ combine a' b').
    { clear. induction a as [|x a IH]; intros a' [|y b] b' L; try discriminate L; [reflexivity|]. cbn. rewrite IH by (cbn in L; lia). reflexivity. }
    rewrite CA by exact LL. rewrite mapM_app, (Hm c m' C1 Em). cbn [bind]. pose proof (IHs cs C2 r Er) as T. cbn [bind] in *. rewrite T. reflexivity.
Qed.
Lemma combine_app2 {A B} (a a' : list A) (b b' : list B) : length a = length b -> combine (a ++ a') (b ++ b') = combine a b ++ combine a' b'.
Proof. revert b. induction a as [|x a IH]; intros [|y b] L; try discriminate L; [reflexivity|]. cbn. rewrite IH by (cbn in L; lia). reflexivity. Qed.

Lemma set_leaves m : forall g m1, set_manifold m g = Ok m1 ->
  length (pieces m g) = length (leaves m) /\ mapM (fun x => set_manifold (fst x) (snd x)) (combine (leaves m) (pieces m g)) = Ok (leaves m1).
Proof.
  induction m as [m NC|ms IH] using dmod_ind'; intros g m1 E.
  - rewrite (leaves_leaf m NC). assert (X : pieces m g = [g]) by (destruct m; try reflexivity; elim (NC ms eq_refl)). rewrite X. split; [reflexivity|]. cbn [combine mapM fst snd]. rewrite E. cbn [bind].
    assert (Y : forall ms, m1 <> MComp ms) by (intros ms ->; destruct m, g; cbn in E; try discriminate E; elim (NC _ eq_refl)).
    rewrite (leaves_leaf m1 Y). reflexivity.
  - destruct g as [| | | | |gs]; try discriminate E. cbn [set_manifold] in E. bok E r Er. injection E as <-. cbn [leaves pieces]. revert gs r Er.
    induction IH as [|m ms Hm _ IHs]; intros [|g gs] r Er; try discriminate Er; [injection Er as <-; split; reflexivity|].
    bok Er x Ex. bok Er xs Exs. injection Er as <-. cbn [flat_map]. destruct (Hm g x Ex) as (L1 & S1). destruct (IHs gs xs Exs) as (L2 & S2).
    split; [rewrite !app_length; congruence|]. rewrite combine_app2 by congruence. rewrite mapM_app, S1. cbn [bind]. rewrite S2. reflexivity.
Qed.

Lemma pieces_own m : pieces m (mod_manifold m) = map mod_manifold (leaves m).
Proof.
  induction m as [m NC|ms IH] using dmod_ind'; [rewrite (leaves_leaf m NC); destruct m; try reflexivity; elim (NC ms eq_refl)|].
  cbn [mod_manifold pieces leaves]. induction IH as [|m ms Hm _ IHs]; [reflexivity|]. cbn [map flat_map]. rewrite map_app, <- Hm, <- IHs. reflexivity.
Qed.
Lemma cpieces_own m : cpieces m (controls m) = map controls (leaves m).
Proof.
  induction m as [m NC|ms IH] using dmod_ind'; [rewrite (leaves_leaf m NC); destruct m; try reflexivity; elim (NC ms eq_refl)|].
  cbn [controls cpieces leaves]. induction IH as [|m ms Hm _ IHs]; [reflexivity|]. cbn [map flat_map]. rewrite map_app, <- Hm, <- IHs. reflexivity.
Qed.
Lemma pieces_skel m : forall g, skel g = skel (mod_manifold m) ->
  map skel (pieces m g) = map (fun x => skel (mod_manifold x)) (leaves m) /\ g_gd g = List.concat (map g_gd (pieces m g)) /\ g_cotan g = List.concat (map g_cotan (pieces m g)).
Proof.
  induction m as [m NC|ms IH] using dmod_ind'; intros g K.
  - rewrite (leaves_leaf m NC). assert (X : pieces m g = [g]) by (destruct m; try reflexivity; elim (NC ms eq_refl)). rewrite X. cbn [map List.concat]. rewrite !app_nil_r, K. repeat split.
  - destruct g as [| | | | |gs]; try discriminate K. cbn [mod_manifold skel] in K. injection K as K. cbn [leaves pieces g_gd g_cotan]. revert gs K.
    induction IH as [|m ms Hm _ IHs]; intros [|g gs] K; try discriminate K; [repeat split|]. cbn [map] in K. injection K as K1 K2.
    cbn [flat_map]. destruct (Hm g K1) as (A & B & C). destruct (IHs gs K2) as (A' & B' & C').
    rewrite !map_app, !List.concat_app, <- B, <- C, A, A', <- B', <- C'. repeat split.
Qed.
Lemma locals_leaves d m : locals_smooth d m <-> Forall (locals_smooth d) (leaves m).
Proof.
  induction m as [m NC|ms IH] using dmod_ind'; [rewrite (leaves_leaf m NC); split; [intros X; repeat constructor; exact X|intros X; inversion X; assumption]|].
  cbn [leaves locals_smooth]. induction IH as [|m ms Hm _ IHs]; [split; intros; [constructor|exact Logic.I]|]. cbn [fold_right flat_map].
  rewrite Forall_app, Hm, IHs. reflexivity.
Qed.
Lemma concat_forall2 {A} (P : A -> A -> Prop) : forall bs bs', map (@length A) bs = map (@length A) bs' -> Forall2 P (List.concat bs) (List.concat bs') -> Forall2 (Forall2 P) bs bs'.
Proof.
  induction bs as [|b bs IH]; intros [|b' bs'] L F; try discriminate L; [constructor|]. cbn [map List.concat] in L, F. injection L as L1 L2.
  assert (X : forall (a a' c c' : list A), length a = length a' -> Forall2 P (a ++ c) (a' ++ c') -> Forall2 P a a' /\ Forall2 P c c').
  { clear. induction a as [|x a IH]; intros [|y a'] c c' L F; try discriminate L; [split; [constructor|exact F]|]. cbn [app] in F. inversion F; subst. destruct (IH a' c c' ltac:(injection L; auto) H4). split; [constructor; assumption|assumption]. }
  destruct (X _ _ _ _ L1 F). constructor; [assumption|]. apply IH; assumption.
Qed.

(** ** The Hamiltonian *)
Lemma good_parts d f : good d f -> wf_field d f /\ has0 f /\ has1 f.
Proof. intros (A & B & C & _). auto. Qed.

(** Modules with the same leaves. *)
Lemma perm_alike d m m' : Permutation (leaves m) (leaves m') ->
  (forall x x', cost m = Ok x -> cost m' = Ok x' -> x' = x) /\
  (forall f f', field_generator m = Ok f -> field_generator m' = Ok f' -> (forall p a, fval d f' p a = fval d f p a) /\ forall p a b, fjac d f' p a b = fjac d f p a b) /\
  (forall v D, pairing d (mod_manifold m') v D = pairing d (mod_manifold m) v D).
Proof.
  intros P. split; [|split].
  - intros x x' E E'. destruct (cost_leaves m x E) as (xs & Ex & ->). destruct (cost_leaves m' x' E') as (xs' & Ex' & ->).
    destruct (mapM_perm _ _ _ P xs Ex) as (r & Er & Pr). rewrite Ex' in Er. injection Er as <-. symmetry. apply lsum_perm. exact Pr.
  - intros f f' E E'. destruct (field_leaves d m f E) as (fs & Ef & V & J). destruct (field_leaves d m' f' E') as (fs' & Ef' & V' & J').
    destruct (mapM_perm _ _ _ P fs Ef) as (r & Er & Pr). rewrite Ef' in Er. injection Er as <-.
    split; intros; [rewrite V, V'|rewrite J, J']; symmetry; apply lsum_perm, Permutation_map; exact Pr.
  - intros v D. rewrite (pairing_leaves d m), (pairing_leaves d m'). symmetry. apply lsum_perm, Permutation_map. exact P.
Qed.

Section Ham.
Variables (sv : solver) (d : nat).
Hypothesis HS : exact_solver sv.

Lemma filled m c m1 : wf_mod d m -> ctrl_ok d m c -> fill_controls sv m c = Ok m1 -> exists f x, field_generator m1 = Ok f /\ good d f /\ cost m1 = Ok x.
Proof.
  intros W O F. destruct (module_leaf sv Torch d m HS W (ex_intro _ c (ex_intro _ m1 (conj O F)))) as (Q & [P _ _]).
  destruct (pk_fill _ _ _ _ P c O) as (m2 & f & F2 & C & FG & G). rewrite F in F2. injection F2 as <-. exists f, (1 / 2 * Q c c). auto.
Qed.

Lemma gain_perm m m' c c' m1 m1' : wf_mod d m -> wf_mod d m' -> ctrl_ok d m c -> ctrl_ok d m' c' -> fill_controls sv m c = Ok m1 -> fill_controls sv m' c' = Ok m1' ->
  Permutation (leaves m1) (leaves m1') -> gain m1' (mod_manifold m') = gain m1 (mod_manifold m).
Proof.
  intros W W' O O' F F' P. destruct (filled m c m1 W O F) as (f & x & FG & GF & C). destruct (filled m' c' m1' W' O' F') as (f' & x' & FG' & GF' & C').
  destruct (perm_alike d m1 m1' P) as (PC & PF & PP). destruct (PF f f' FG FG') as (PV & PJ).
  destruct (good_parts d f GF) as (A1 & A2 & A3). destruct (good_parts d f' GF') as (B1 & B2 & B3).
  destruct (wf_mod_manifold d m W) as (WG & _). destruct (wf_mod_manifold d m' W') as (WG' & _).
  unfold gain. rewrite FG, FG'. cbn [bind]. rewrite (inner_pairing_field d _ f WG A1 A2 (fun _ => A3)), (inner_pairing_field d _ f' WG' B1 B2 (fun _ => B3)). cbn [bind].
  rewrite C, C', (PC x x' C C'). cbn [bind]. do 2 f_equal.
  rewrite <- (fill_manifold sv m c m1 F), <- (fill_manifold sv m' c' m1' F'), PP. apply pairing_ext; intros; [apply PV|apply PJ].
Qed.

(** Controls handed over to the same modules elsewhere in the list. *)
Lemma carry l l' (ks : list ctrl) : Permutation l l' -> Forall2 (ctrl_ok d) l ks ->
  exists ks', Forall2 (ctrl_ok d) l' ks' /\ Permutation (combine l ks) (combine l' ks').
Proof.
  intros P F. assert (L : length l = length ks) by exact (F2len F).
  assert (MF : forall (a : list dmod) (b : list ctrl), length a = length b -> map fst (combine a b) = a).
  { clear. induction a as [|x a IH]; intros [|y b] L; try discriminate L; [reflexivity|]. cbn. rewrite IH by (cbn in L; lia). reflexivity. }
  pose proof P as P1. rewrite <- (MF l ks L) in P1. apply Permutation_sym, Permutation_map_inv in P1. destruct P1 as (z & EZ & PZ).
  exists (map snd z). assert (CZ : combine l' (map snd z) = z).
  { rewrite EZ. clear. induction z as [|(a, b) z IH]; [reflexivity|]. cbn. rewrite IH. reflexivity. }
  rewrite CZ. split; [|exact PZ].
  assert (FZ : Forall (fun x => ctrl_ok d (fst x) (snd x)) (combine l ks)).
  { clear - F. induction F; [constructor|]. cbn. constructor; assumption. }
  apply (Permutation_Forall PZ) in FZ. rewrite EZ. clear - FZ. induction FZ; [constructor|]. cbn. constructor; assumption.
Qed.

Variable b0 : backend.

Lemma best_le m m' m1 m1' : wf_mod d m -> wf_mod d m' -> Permutation (leaves m) (leaves m') ->
  geodesic_controls sv b0 m = Ok m1 -> geodesic_controls sv b0 m' = Ok m1' ->
  exists g g', gain m1 (mod_manifold m) = Ok g /\ gain m1' (mod_manifold m') = Ok g' /\ g <= g'.
Proof.
  intros W W' P E E'. unfold geodesic_controls in E, E'. destruct (wf_mod_manifold d m W) as (WG & NE). destruct (wf_mod_manifold d m' W') as (WG' & NE').
  destruct (geodesic_max sv b0 d HS m _ m1 W WG NE E) as (O & F & g & G & _). destruct (geodesic_max sv b0 d HS m' _ m1' W' WG' NE' E') as (O' & F' & g' & G' & MX).
  exists g, g'. split; [exact G|]. split; [exact G'|].
  destruct (carry _ _ _ P (ctrl_leaves d m _ O)) as (ks' & FK & PK). destruct (assemble d m' ks' FK) as (c' & OC & <-).
  destruct (MX c' OC) as (n1 & gn & n2 & e & FN & GN & _ & _ & _ & PE & EQ).
  destruct (mapM_perm _ _ _ PK _ (fill_leaves sv d m _ m1 O F)) as (r & Er & Pr). rewrite (fill_leaves sv d m' c' n1 OC FN) in Er. injection Er as <-.
  pose proof (gain_perm m m' _ c' m1 n1 W W' O OC F FN Pr) as X. rewrite G, GN in X. injection X as X. lra.
Qed.
Lemma ham_gain_own m : hamiltonian m = gain m (mod_manifold m).
Proof. exact (TransportFacts.ham_gain m). Qed.
Lemma geodesic_perm m m' m1 m1' : wf_mod d m -> wf_mod d m' -> Permutation (leaves m) (leaves m') ->
  geodesic_controls sv b0 m = Ok m1 -> geodesic_controls sv b0 m' = Ok m1' ->
  exists x, hamiltonian m1 = Ok x /\ hamiltonian m1' = Ok x /\ cost m1 = Ok x /\ cost m1' = Ok x /\ gain m1 (mod_manifold m) = gain m1' (mod_manifold m').
Proof.
  intros W W' P E E'. destruct (best_le m m' m1 m1' W W' P E E') as (g & g' & G & G' & L). destruct (best_le m' m m1' m1 W' W (Permutation_sym P) E' E) as (g2' & g2 & G2' & G2 & L2).
  rewrite G in G2. injection G2 as <-. rewrite G' in G2'. injection G2' as <-. assert (X : g' = g) by lra. subst g'.
  destruct (hamiltonian_cost sv b0 d HS m m1 W E) as (x & C & H & _). destruct (hamiltonian_cost sv b0 d HS m' m1' W' E') as (x' & C' & H' & _).
  unfold geodesic_controls in E, E'. destruct (wf_mod_manifold d m W) as (WG & NE). destruct (wf_mod_manifold d m' W') as (WG' & NE').
  destruct (geodesic_max sv b0 d HS m _ m1 W WG NE E) as (_ & F & _). destruct (geodesic_max sv b0 d HS m' _ m1' W' WG' NE' E') as (_ & F' & _).
  pose proof H as Y. rewrite ham_gain_own, (fill_manifold sv m _ m1 F), G in Y. injection Y as Y. pose proof H' as Y'. rewrite ham_gain_own, (fill_manifold sv m' _ m1' F'), G' in Y'. injection Y' as Y'.
  exists x. replace x' with x in * by lra. rewrite G, G'. auto.
Qed.
End Ham.

(** A module takes controls as soon as its leaves do. *)
Lemma fill_back sv d m : forall c r, ctrl_ok d m c -> mapM (fun x => fill_controls sv (fst x) (snd x)) (combine (leaves m) (cpieces m c)) = Ok r -> is_ok (fill_controls sv m c).
Proof.
  induction m as [m NC|ms IH] using dmod_ind'; intros c r CK E.
  - rewrite (leaves_leaf m NC) in E. assert (X : cpieces m c = [c]) by (destruct m; try reflexivity; elim (NC ms eq_refl)). rewrite X in E. cbn [combine mapM fst snd] in E. bok E x Ex. eexists. exact Ex.
  - destruct c as [t|cs]; [destruct CK|]. change (ctrls_ok d ms cs) in CK. rewrite fill_comp, (ctrls_ok_length d ms cs CK), Nat.eqb_refl. cbn [py_assert bind].
    assert (X : is_ok (fills sv ms cs)); [|destruct X as (y & ->); eexists; reflexivity]. cbn [leaves cpieces] in E.
    revert cs r CK E. induction IH as [|m ms Hm _ IHs]; intros [|c cs] r CK E; cbn [ctrls_ok] in CK; try contradiction; [eexists; reflexivity|].
    destruct CK as (C1 & C2). cbn [flat_map] in E. rewrite combine_app2 in E by exact (F2len (ctrl_leaves d m c C1)). rewrite mapM_app in E. bok E a Ea. bok E b Eb.
    destruct (Hm c a C1 Ea) as (x & Ex). destruct (IHs cs b C2 Eb) as (y & Ey). cbn [fills]. fold (fills sv). rewrite Ex. cbn [bind]. rewrite Ey. eexists. reflexivity.
Qed.
Lemma regular_leaves d m : regular d m <-> Forall (regular d) (leaves m).
Proof.
  induction m as [m NC|ms IH] using dmod_ind'; [rewrite (leaves_leaf m NC); split; [intros X; repeat constructor; exact X|intros X; inversion X; assumption]|].
  cbn [leaves regular]. induction IH as [|m ms Hm _ IHs]; [split; intros; [constructor|exact Logic.I]|]. cbn [fold_right flat_map].
  rewrite Forall_app, Hm, IHs. reflexivity.
Qed.
