(** Facts on boxes. *)
From Coq Require Import Reals String List Arith ZArith Lia Lra Bool.
From Verif Require Import Py RSum Tensor TensorFacts KernelModel FieldModel Fl UtilModel AabbModel SpecBox AttachmentFacts MeshAreas.
Import ListNotations.
Open Scope R_scope.
Open Scope list_scope.

Lemma py_assert_ok b : py_assert b = Ok tt <-> b = true.
Proof. destruct b; cbn; split; congruence. Qed.

(** ** Constructors *)
Section Bounds.
Context {T : Type}.
Variable gt : T -> T -> bool.

Definition wf (b : aabb T) : Prop := length (a_kmin b) = a_dim b /\ length (a_kmax b) = a_dim b.
Definition ordered (kmin kmax : list T) : Prop := forall c d, (c < length kmin)%nat -> (c < length kmax)%nat -> gt (nth c kmin d) (nth c kmax d) = false.

Lemma ordered_cons a l b m : ordered (a :: l) (b :: m) <-> gt a b = false /\ ordered l m.
Proof.
  split.
  - intros H. split; [apply (H 0%nat a); cbn; lia|]. intros c d L1 L2. apply (H (S c) d); cbn; lia.
  - intros (H1 & H2) [|c] d L1 L2; cbn in *; [exact H1|apply H2; lia].
Qed.

Lemma check_ok kmin : forall kmax, check gt kmin kmax = Ok tt <-> ordered kmin kmax.
Proof.
  induction kmin as [|a l IH]; intros [|b m]; cbn [check]; try (split; [intros _ c d L1 L2; cbn in *; lia|reflexivity]).
  rewrite ordered_cons, <- IH. destruct (gt a b); split; intros; try discriminate; intuition discriminate.
Qed.
Lemma check_err kmin : forall kmax, check gt kmin kmax = Ok tt \/ check gt kmin kmax = Err ValueError.
Proof. induction kmin as [|a l IH]; intros [|b m]; cbn [check]; auto. destruct (gt a b); auto. Qed.

Lemma from_two_spec kmin kmax : length kmin = length kmax ->
  (ordered kmin kmax /\ from_two gt kmin kmax = Ok (mkAABB (length kmin) kmin kmax)) \/ (~ ordered kmin kmax /\ from_two gt kmin kmax = Err ValueError).
Proof.
  intros E. unfold from_two. rewrite E, Nat.eqb_refl. cbn [py_assert bind]. destruct (check_err kmin kmax) as [H|H]; rewrite H; cbn [bind].
  - left. split; [apply check_ok; exact H|reflexivity].
  - right. split; [|reflexivity]. intros O. apply check_ok in O. congruence.
Qed.

(** A flat list of bounds. *)
Fixpoint interleave (l m : list T) : list T :=
  match l, m with a :: l', b :: m' => a :: b :: interleave l' m' | _, _ => [] end.
Lemma evens_interleave l : forall m, length l = length m -> evens (map Num (interleave l m)) = map Num l.
Proof. induction l as [|a l IH]; intros [|b m] E; try discriminate; [reflexivity|]. cbn. rewrite IH by (cbn in E; lia). reflexivity. Qed.
Lemma odds_interleave l : forall m, length l = length m -> odds (map Num (interleave l m)) = map Num m.
Proof. induction l as [|a l IH]; intros [|b m] E; try discriminate; [reflexivity|]. cbn. rewrite IH by (cbn in E; lia). reflexivity. Qed.
Lemma length_interleave l : forall m, length l = length m -> length (interleave l m) = (2 * length l)%nat.
Proof. induction l as [|a l IH]; intros [|b m] E; try discriminate; [reflexivity|]. cbn in *. rewrite IH by lia. lia. Qed.
Lemma check_args_spec l : forall m, length l = length m ->
  (ordered l m /\ check_args gt (map Num l) (map Num m) = Ok (l, m)) \/ (~ ordered l m /\ check_args gt (map Num l) (map Num m) = Err ValueError).
Proof.
  induction l as [|a l IH]; intros [|b m] E; try discriminate; cbn [map check_args].
  - left. split; [intros c d L; cbn in L; lia|reflexivity].
  - rewrite ordered_cons. destruct (gt a b) eqn:G; [right; split; [intros (H & _); discriminate|reflexivity]|].
    destruct (IH m ltac:(cbn in E; lia)) as [(O & ->)|(O & ->)]; cbn [bind]; [left|right]; (split; [|reflexivity]); tauto.
Qed.
Lemma from_iterable_spec l m : length l = length m ->
  (ordered l m /\ from_iterable gt (map Num (interleave l m)) = Ok (mkAABB (length l) l m)) \/
  (~ ordered l m /\ from_iterable gt (map Num (interleave l m)) = Err ValueError).
Proof.
  intros E. unfold from_iterable. rewrite map_length, length_interleave by exact E. rewrite (Nat.mul_comm 2), Nat.mod_mul, Nat.div_mul by lia. cbn [Nat.eqb py_assert bind].
  rewrite evens_interleave, odds_interleave by exact E. destruct (check_args_spec l m E) as [(O & ->)|(O & ->)]; cbn [bind]; [left|right]; split; auto.
Qed.

Lemma from_prefixes_ok kw ps : forall l m, from_prefixes gt ps kw = Ok (l, m) -> length l = length m /\ ordered l m /\ (length l <= length ps)%nat.
Proof.
  induction ps as [|p ps IH]; intros l m E; cbn [from_prefixes] in E.
  - injection E as <- <-. split; [reflexivity|]. split; [intros c d L; cbn in L; lia|cbn; lia].
  - destruct (dict_get String.eqb (p ++ "min")%string kw) as [a|]; [destruct (dict_get String.eqb (p ++ "max")%string kw) as [b|]|].
    + destruct (gt a b) eqn:G; [discriminate|]. destruct (from_prefixes gt ps kw) as [[l' m']|e]; [|discriminate]. cbn [bind] in E. injection E as <- <-.
      destruct (IH l' m' eq_refl) as (H1 & H2 & H3). cbn [length]. split; [lia|]. split; [apply ordered_cons; auto|lia].
    + injection E as <- <-. split; [reflexivity|]. split; [intros c d L; cbn in L; lia|cbn; lia].
    + injection E as <- <-. split; [reflexivity|]. split; [intros c d L; cbn in L; lia|cbn; lia].
Qed.

Lemma check_args_ok l : forall m a b, length l = length m -> check_args gt l m = Ok (a, b) -> length a = length l /\ length b = length l /\ ordered a b.
Proof.
  induction l as [|x l IH]; intros [|y m] a b E H; try discriminate; cbn [check_args] in H.
  - injection H as <- <-. repeat split. intros c d L; cbn in L; lia.
  - destruct x as [x|x]; [|discriminate]. destruct y as [y|y]; [|discriminate]. destruct (gt x y) eqn:G; [discriminate|].
    destruct (check_args gt l m) as [[a' b']|e] eqn:C; [|discriminate]. cbn [bind] in H. injection H as <- <-. destruct (IH m a' b' ltac:(cbn in E; lia) C) as (H1 & H2 & H3).
    cbn [length]. repeat split; try lia. apply ordered_cons. auto.
Qed.
Lemma evens_odds_length {A} (l : list A) : (length l mod 2 = 0)%nat -> length (evens l) = (length l / 2)%nat /\ length (odds l) = (length l / 2)%nat.
Proof.
  assert (G : forall k l, length l = (k * 2)%nat -> length (@evens A l) = k /\ length (@odds A l) = k).
  { induction k as [|k IH]; intros [|a [|b r]] E; cbn in E; try lia; [split; reflexivity|]. destruct (IH r ltac:(lia)) as (H1 & H2). cbn. lia. }
  intros E. apply G. rewrite (Nat.div_mod (length l) 2) at 1 by lia. lia.
Qed.

Lemma init_valid args kw b : init gt args kw = Ok b -> wf b /\ ordered (a_kmin b) (a_kmax b).
Proof.
  unfold init. intros H. destruct (py_assert _) as [[]|]; [|discriminate]. cbn [bind] in H.
  assert (FI : forall l b, from_iterable gt l = Ok b -> wf b /\ ordered (a_kmin b) (a_kmax b)).
  { clear. intros l b H. unfold from_iterable in H. destruct (Nat.eqb_spec (length l mod 2) 0) as [E|E]; [|discriminate]. cbn [py_assert bind] in H.
    destruct (evens_odds_length l E) as (E1 & E2). destruct (check_args gt (evens l) (odds l)) as [[a c]|e] eqn:C; [|discriminate]. cbn [bind] in H. injection H as <-.
    destruct (check_args_ok (evens l) (odds l) a c ltac:(congruence) C) as (H1 & H2 & H3). split; [split; cbn [a_kmin a_kmax a_dim]; [rewrite H1; exact E1|rewrite H2; exact E1]|exact H3]. }
  assert (F2 : forall l m b, from_two gt l m = Ok b -> wf b /\ ordered (a_kmin b) (a_kmax b)).
  { clear. intros l m b H. unfold from_two in H. destruct (Nat.eqb_spec (length l) (length m)) as [E|E]; [|discriminate]. cbn [py_assert bind] in H. destruct (check gt l m) as [[]|e] eqn:C; [|discriminate].
    cbn [bind] in H. injection H as <-. split; [split; cbn [a_kmin a_kmax a_dim]; auto|apply check_ok; exact C]. }
  destruct args as [|a1 args].
  - unfold from_kwargs in H. destruct (from_prefixes gt prefixes kw) as [[l m]|e] eqn:C; [|discriminate]. cbn [bind] in H. injection H as <-.
    destruct (from_prefixes_ok kw prefixes l m C) as (H1 & H2 & _). split; [split; cbn [a_kmin a_kmax a_dim]; auto|exact H2].
  - destruct a1 as [x|x]; [apply (FI _ _ H)|]. destruct args as [|[y|y] [|z args]]; try (apply (FI _ _ H)). apply (F2 _ _ _ H).
Qed.

(** Conversions. *)
Lemma totuple_interleave b : totuple b = interleave (a_kmin b) (a_kmax b).
Proof.
  unfold totuple, tocouple. generalize (a_kmin b) (a_kmax b). clear b. induction l as [|a l IH]; intros [|c m]; try reflexivity. cbn. rewrite IH. reflexivity.
Qed.

Lemma from_todict b : wf b -> ordered (a_kmin b) (a_kmax b) ->
  from_kwargs gt (todict b) = Ok (mkAABB (min 3 (a_dim b)) (firstn 3 (a_kmin b)) (firstn 3 (a_kmax b))).
Proof.
  intros (H1 & H2) O. unfold from_kwargs, todict. rewrite <- H1 in *. destruct b as [d kmin kmax]. cbn [a_kmin a_kmax a_dim] in *.
  destruct kmin as [|x [|y [|z kmin]]]; destruct kmax as [|x' [|y' [|z' kmax]]]; try discriminate H2; cbn -[Nat.min]; rewrite ?ordered_cons in O.
  - reflexivity.
  - destruct O as (-> & _). reflexivity.
  - destruct O as (-> & -> & _). reflexivity.
  - destruct O as (-> & -> & -> & _). reflexivity.
Qed.
End Bounds.

(** ** Real bounds *)
Lemma rgt_false a b : rgt a b = false <-> a <= b.
Proof. unfold rgt. apply Rltb_false. Qed.
Lemma ordered_valid b : @wf R b -> (ordered rgt (a_kmin b) (a_kmax b) <-> forall c, (c < a_dim b)%nat -> lo b c <= hi b c).
Proof.
  intros (H1 & H2). split.
  - intros O c L. unfold lo, hi. apply rgt_false. apply O; lia.
  - intros V c d L1 L2. apply rgt_false. specialize (V c ltac:(lia)). unfold lo, hi in V. rewrite (nth_indep _ d 0), (nth_indep (a_kmax b) d 0) by assumption. exact V.
Qed.
Lemma valid_wf b : valid_box b <-> wf b /\ ordered rgt (a_kmin b) (a_kmax b).
Proof. unfold valid_box. change (shaped b) with (wf b). split; intros (H1 & H2); (split; [exact H1|]); apply ordered_valid; assumption. Qed.

(** Extremal values of a list. *)
Lemma fold_min_le l : forall a, fold_left Rmin l a <= a /\ forall x, In x l -> fold_left Rmin l a <= x.
Proof.
  induction l as [|b l IH]; intros a; cbn [fold_left In]; [split; [lra|tauto]|]. destruct (IH (Rmin a b)) as (H1 & H2). pose proof (Rmin_l a b). pose proof (Rmin_r a b).
  split; [lra|]. intros x [<-|I]; [lra|apply H2; exact I].
Qed.
Lemma fold_min_in l : forall a, fold_left Rmin l a = a \/ In (fold_left Rmin l a) l.
Proof.
  induction l as [|b l IH]; intros a; cbn [fold_left In]; [left; reflexivity|]. destruct (IH (Rmin a b)) as [H|H]; [|right; right; exact H].
  rewrite H. unfold Rmin. destruct (Rle_dec a b); [left; reflexivity|right; left; reflexivity].
Qed.
Lemma fold_max_le l : forall a, a <= fold_left Rmax l a /\ forall x, In x l -> x <= fold_left Rmax l a.
Proof.
  induction l as [|b l IH]; intros a; cbn [fold_left In]; [split; [lra|tauto]|]. destruct (IH (Rmax a b)) as (H1 & H2). pose proof (Rmax_l a b). pose proof (Rmax_r a b).
  split; [lra|]. intros x [<-|I]; [lra|apply H2; exact I].
Qed.
Lemma fold_max_in l : forall a, fold_left Rmax l a = a \/ In (fold_left Rmax l a) l.
Proof.
  induction l as [|b l IH]; intros a; cbn [fold_left In]; [left; reflexivity|]. destruct (IH (Rmax a b)) as [H|H]; [|right; right; exact H].
  rewrite H. unfold Rmax. destruct (Rle_dec a b); [right; left; reflexivity|left; reflexivity].
Qed.
Lemma list_min_spec l : l <> [] -> In (list_min l) l /\ forall x, In x l -> list_min l <= x.
Proof.
  destruct l as [|a l]; [congruence|]. intros _. cbn [list_min]. split; [destruct (fold_min_in l a) as [->|H]; [left; reflexivity|right; exact H]|].
  intros x [<-|HI]; [apply (proj1 (fold_min_le l a))|apply fold_min_le; exact HI].
Qed.
Lemma list_max_spec l : l <> [] -> In (list_max l) l /\ forall x, In x l -> x <= list_max l.
Proof.
  destruct l as [|a l]; [congruence|]. intros _. cbn [list_max]. split; [destruct (fold_max_in l a) as [->|H]; [left; reflexivity|right; exact H]|].
  intros x [<-|HI]; [apply (proj1 (fold_max_le l a))|apply fold_max_le; exact HI].
Qed.
Lemma in_column p c x : In x (column p c) <-> exists i, (i < nrows p)%nat /\ x = p @2 i c.
Proof.
  unfold column. rewrite in_map_iff. split.
  - intros (i & <- & I). apply in_seq in I. exists i. split; [lia|reflexivity].
  - intros (i & L & ->). exists i. split; [reflexivity|apply in_seq; lia].
Qed.

(** ** Grids *)
Lemma mapM_length {A B} (f : A -> res B) l : forall m, mapM f l = Ok m -> length m = length l.
Proof. induction l as [|a l IH]; intros m E; cbn in E; [injection E as <-; reflexivity|]. destruct (f a); [|discriminate]. cbn [bind] in E. fold (mapM f) in E. destruct (mapM f l); [|discriminate]. cbn in E. injection E as <-. cbn. rewrite (IH _ eq_refl). reflexivity. Qed.

Lemma tnth_valid sh : forall idx k, valid sh idx -> (k < length sh)%nat -> (tnth idx k < tnth sh k)%nat.
Proof.
  induction sh as [|n sh IH]; intros [|i idx] k V L; cbn in V, L; try lia; try tauto. destruct V as (V1 & V2). destruct k; cbn; [exact V1|]. apply (IH idx k V2). lia.
Qed.
Lemma valid_length sh : forall idx, valid sh idx -> length idx = length sh.
Proof. induction sh as [|n sh IH]; intros [|i idx] V; cbn in V; try tauto; try reflexivity. cbn. f_equal. apply IH. tauto. Qed.

(** The columns of [grid2vec] are the flattened grids. *)
Lemma grid2vec_spec sh grids : grids <> [] -> (forall h, In h grids -> shape h = sh) ->
  exists v, grid2vec grids = Ok v /\ shape v = [prod sh; length grids] /\
  forall idx k d, valid sh idx -> (k < length grids)%nat -> v @2 (ravel sh idx) k = get (nth k grids d) idx.
Proof.
  intros NE S. destruct grids as [|g grids']; [congruence|]. unfold grid2vec. set (grids := g :: grids') in *.
  replace (forallb _ _) with true. 2:{ symmetry. apply forallb_forall. intros h I. rewrite (S h I), (S g (or_introl eq_refl)). apply Nat.eqb_refl. }
  eexists. split; [reflexivity|]. split; [cbn [shape mk2]; rewrite (S g (or_introl eq_refl)); reflexivity|].
  intros idx k d V L. cbn [get mk2]. rewrite (nth_indep grids g d) by exact L. assert (Sk : shape (nth k grids d) = sh) by (apply S, nth_In, L). rewrite Sk.
  rewrite (get_reshape _ (nth k grids d) [0%nat; ravel sh idx] idx); [reflexivity| |rewrite Sk; exact V]. rewrite Sk. cbn. lia.
Qed.

(** The points of the grid whose axes are [axes]. *)
Lemma grid_points axes : axes <> [] -> exists g v, meshgrid axes = Ok g /\ grid2vec g = Ok v /\
  shape v = [prod (map nrows axes); length axes] /\
  forall idx k, valid (map nrows axes) idx -> (k < length axes)%nat -> v @2 (ravel (map nrows axes) idx) k = (nth k axes (tzeros [])) @1 (tnth idx k).
Proof.
  intros NE. set (sh := map nrows axes). set (G := fun k => mkT sh (fun idx => (nth k axes (tzeros [])) @1 (tnth idx k))).
  assert (M : meshgrid axes = Ok (map G (seq 0 (length axes)))) by (unfold meshgrid; destruct axes; [congruence|reflexivity]).
  destruct (grid2vec_spec sh (map G (seq 0 (length axes)))) as (v & E & Sh & P).
  - destruct axes; [congruence|discriminate].
  - intros h I. apply in_map_iff in I. destruct I as (k & <- & _). reflexivity.
  - exists (map G (seq 0 (length axes))), v. split; [exact M|]. split; [exact E|]. rewrite map_length, seq_length in Sh, P. split; [exact Sh|].
    intros idx k V L. rewrite (P idx k (G 0%nat) V L), map_nth, seq_nth by exact L. reflexivity.
Qed.

(** ** Axes *)
Lemma mapM_fail {A B} (f : A -> res B) e l : (forall a, In a l -> f a = Err e \/ exists b, f a = Ok b) -> (exists a, In a l /\ f a = Err e) -> mapM f l = Err e.
Proof.
  induction l as [|a l IH]; intros H (x & I & E); [destruct I|]. cbn [mapM]. destruct (H a (or_introl eq_refl)) as [->|(b & Eb)]; [reflexivity|]. rewrite Eb. cbn [bind].
  destruct I as [->|I]; [congruence|]. fold (mapM f). rewrite IH; [reflexivity| |exists x; auto]. intros y Iy. apply H. right. exact Iy.
Qed.
Lemma map_snd_combine {A B} (l : list A) : forall m : list B, length l = length m -> map snd (combine l m) = m.
Proof. induction l as [|a l IH]; intros [|b m] E; try discriminate; [reflexivity|]. cbn. rewrite IH by (cbn in E; lia). reflexivity. Qed.
Lemma nth_map_combine {A B C} (f : A * B -> C) l m k da db dc : length l = length m -> (k < length l)%nat ->
  nth k (map f (combine l m)) dc = f (nth k l da, nth k m db).
Proof.
  intros E L. rewrite (nth_indep _ dc (f (da, db))) by (rewrite map_length, combine_length; lia). rewrite map_nth, combine_nth by exact E. reflexivity.
Qed.
Lemma lo_lengths b c : (c < a_dim b)%nat -> nth c (lengths b) 0 = side b c.
Proof. intros L. unfold lengths. apply (nth_map_seq (fun i => nth i (a_kmax b) 0 - nth i (a_kmin b) 0) (a_dim b) c 0 L). Qed.
Lemma length_lengths b : length (lengths b) = a_dim b.
Proof. unfold lengths. rewrite map_length, seq_length. reflexivity. Qed.
Lemma length_centers b : shaped b -> length (centers b) = a_dim b.
Proof. intros (H1 & H2). unfold centers. rewrite map_length, combine_length. lia. Qed.
Lemma nth_centers b c : shaped b -> (c < a_dim b)%nat -> nth c (centers b) 0 = centre b c.
Proof. intros (H1 & H2) L. unfold centers. rewrite (nth_map_combine _ _ _ _ 0 0) by lia. cbn [fst snd]. unfold centre, lo, hi. lra. Qed.
Lemma nth_about f k cs n c : length f = n -> length k = n -> length cs = n -> (c < n)%nat ->
  nth c (about f k cs) 0 = nth c f 0 * (nth c k 0 - nth c cs 0) + nth c cs 0.
Proof.
  intros E1 E2 E3 L. unfold about. rewrite (nth_map_combine _ _ _ _ (0, 0) 0) by (rewrite combine_length; lia). rewrite combine_nth by lia. reflexivity.
Qed.
Lemma length_about f k cs n : length f = n -> length k = n -> length cs = n -> length (about f k cs) = n.
Proof. intros E1 E2 E3. unfold about. rewrite map_length, !combine_length. lia. Qed.

Lemma nth_ext_R (l m : list R) : length l = length m -> (forall c, (c < length l)%nat -> nth c l 0 = nth c m 0) -> l = m.
Proof. intros E H. apply (nth_ext _ _ 0 0 E H). Qed.

(** Ceiling and truncated counts. *)
Lemma ceil_lt k x : (k < ceil x)%Z <-> IZR k < x.
Proof.
  unfold ceil. destruct (base_Int_part (- x)) as (H1 & H2). split.
  - intros L. assert (L' : (k + 1 <= - Int_part (- x))%Z) by lia. apply IZR_le in L'. rewrite plus_IZR, opp_IZR in L'. lra.
  - intros L. apply lt_IZR. rewrite opp_IZR. lra.
Qed.
Lemma arange_count a b s (k : nat) : 0 < s -> (k < Z.to_nat (ceil ((b - a) / s)))%nat <-> a + INR k * s < b.
Proof.
  intros S. transitivity (Z.of_nat k < ceil ((b - a) / s))%Z; [lia|]. rewrite ceil_lt, <- INR_IZR_INZ. split; intros H.
  - apply (Rmult_lt_compat_r s) in H; [|exact S]. unfold Rdiv in H. rewrite Rmult_assoc, Rinv_l, Rmult_1_r in H by lra. lra.
  - apply (Rmult_lt_reg_r s); [exact S|]. unfold Rdiv. rewrite Rmult_assoc, Rinv_l, Rmult_1_r by lra. lra.
Qed.

(** Points on an axis of [n] points are between its ends. *)
Lemma between_axis a b n (i : nat) : a <= b -> (2 <= n)%Z -> (i < Z.to_nat n)%nat -> a <= a + INR i * ((b - a) / IZR (n - 1)) <= b.
Proof.
  intros H N L. assert (P : 0 < IZR (n - 1)) by (apply IZR_lt; lia). assert (Q : INR i <= IZR (n - 1)) by (rewrite INR_IZR_INZ; apply IZR_le; lia). pose proof (pos_INR i).
  replace (INR i * ((b - a) / IZR (n - 1))) with ((INR i / IZR (n - 1)) * (b - a)) by (field; lra).
  assert (F : 0 <= INR i / IZR (n - 1) <= 1).
  { split; [apply Rmult_le_pos; [lra|apply Rlt_le, Rinv_0_lt_compat, P]|]. apply (Rmult_le_reg_r (IZR (n - 1))); [exact P|]. unfold Rdiv. rewrite Rmult_assoc, Rinv_l by lra. lra. }
  split; nra.
Qed.

(** ** Grids over a box *)
Definition axis_of (x : R * R * Z) : tensor :=
  mk1 (Z.to_nat (snd x)) (fun i => if Z.eqb (snd x) 1 then fst (fst x) else fst (fst x) + INR i * ((snd (fst x) - fst (fst x)) / IZR (snd x - 1))).
Lemma count_axes kmin kmax l : Forall (fun n => (0 <= n)%Z) l ->
  mapM (fun x => linspace (fst (fst x)) (snd (fst x)) (snd x)) (combine (combine kmin kmax) l) = Ok (map axis_of (combine (combine kmin kmax) l)).
Proof.
  intros F. apply mapM_map. intros [[a b] n] I. cbn [fst snd]. unfold linspace. apply in_combine_r in I. rewrite Forall_forall in F. specialize (F n I).
  replace (Z.ltb n 0) with false by (symmetry; apply Z.ltb_ge; exact F). reflexivity.
Qed.
Lemma count_sizes kmin kmax l : length kmin = length l -> length kmax = length l -> map nrows (map axis_of (combine (combine kmin kmax) l)) = map Z.to_nat l.
Proof.
  intros E1 E2. rewrite map_map. rewrite (map_ext _ (fun x => Z.to_nat (snd x))) by reflexivity.
  rewrite <- (map_map snd Z.to_nat), map_snd_combine by (rewrite combine_length; lia). reflexivity.
Qed.

(** Multi-indices of a grid given by their components. *)
Lemma valid_map sh : forall f, (forall k, (k < length sh)%nat -> (f k < tnth sh k)%nat) -> valid sh (map f (seq 0 (length sh))).
Proof.
  induction sh as [|n sh IH]; intros f H; [exact Logic.I|]. cbn [length seq map valid]. split; [apply (H 0%nat); cbn; lia|].
  rewrite <- seq_shift, map_map. apply IH. intros k L. apply (H (S k)). cbn. lia.
Qed.
Lemma tnth_map_seq f n k : (k < n)%nat -> tnth (map f (seq 0 n)) k = f k.
Proof. intros L. unfold tnth. rewrite (nth_indep _ 0%nat (f 0%nat)) by (rewrite map_length, seq_length; exact L). rewrite map_nth, seq_nth by exact L. reflexivity. Qed.

Lemma accumulate_spec l : forall f i, (forall g, In g l -> g i = 0 \/ g i = 1) -> (f i = 0 \/ f i = 1) ->
  (accumulate_mul f l i <> 0 <-> f i <> 0 /\ forall g, In g l -> g i <> 0).
Proof.
  induction l as [|g l IH]; intros f i H Hf; cbn [accumulate_mul In]; [intuition|]. destruct (H g (or_introl eq_refl)) as [Eg|Eg].
  - rewrite IH; [|intros h Ih; apply H; right; exact Ih|left; rewrite Eg; ring]. rewrite Eg, Rmult_0_r. split; [intros (? & _); lra|]. intros (_ & A). destruct (A g (or_introl eq_refl) Eg).
  - rewrite IH; [|intros h Ih; apply H; right; exact Ih|rewrite Eg, Rmult_1_r; exact Hf]. rewrite Eg, Rmult_1_r. split; intros (A & B); (split; [exact A|]); intros h Ih.
    + destruct Ih as [<-|Ih]; [rewrite Eg; lra|apply B, Ih].
    + apply B. right. exact Ih.
Qed.

(** Longest side. *)
Lemma argmax_spec all : forall l i best, (forall j, (j < length l)%nat -> nth j l 0 = nth (i + j) all 0) -> (best < length all)%nat -> (i + length l = length all)%nat ->
  let m := argmax l i best (nth best all 0) in
  (m < length all)%nat /\ nth best all 0 <= nth m all 0 /\ forall j, (i <= j < length all)%nat -> nth j all 0 <= nth m all 0.
Proof.
  induction l as [|a l IH]; intros i best H Lb Li; cbn [argmax length] in *.
  - repeat split; [exact Lb|lra|intros j L; lia].
  - assert (Ea : a = nth i all 0). { specialize (H 0%nat ltac:(lia)). rewrite Nat.add_0_r in H. exact H. }
    assert (H' : forall j, (j < length l)%nat -> nth j l 0 = nth (S i + j) all 0). { intros j L. specialize (H (S j) ltac:(lia)). cbn in H. rewrite H. f_equal. lia. }
    destruct (Rltb (nth best all 0) a) eqn:C.
    + apply Rltb_true in C. subst a. destruct (IH (S i) i H' ltac:(lia) ltac:(lia)) as (M1 & M2 & M3). repeat split; [exact M1|lra|].
      intros j L. destruct (Nat.eq_dec j i) as [->|N]; [exact M2|apply M3; lia].
    + apply Rltb_false in C. destruct (IH (S i) best H' ltac:(lia) ltac:(lia)) as (M1 & M2 & M3). repeat split; [exact M1|lra|].
      intros j L. destruct (Nat.eq_dec j i) as [->|N]; [lra|apply M3; lia].
Qed.
