(** Shooting from a scene placed elsewhere by a rigid motion. *)
From Coq Require Import Reals String List Arith Lia Lra.
From Verif Require Import Py RSum Tensor TensorFacts KernelModel FieldModel GeometryModel ModuleModel ShootingModel
  SpecKernel SpecField SpecGeometry SpecModule SpecShooting SpecMotion SpecTransport ModuleLeaves ModuleMain ModuleRegular ShootingPack ShootingDyn MotionFacts MotionShoot MotionMomentum
  TransportFacts SpecRigid RigidField RigidBlock RigidModule RigidControl.
Import ListNotations.
Open Scope R_scope.

(** ** Tensors that hold points, vectors or frames *)
Inductive kind := KP | KV | KF.
Definition kshape (d : nat) (k : kind) (sh : list nat) : Prop :=
  match k with KP | KV => exists n, sh = [n; d] | KF => exists n, sh = [n; d; d] end.
Definition turn1 d Q (k : kind) (t : tensor) : tensor := match k with KP | KV => turn_rows d Q t | KF => turn_frames d Q t end.
Definition place1 d Q c (k : kind) (t : tensor) : tensor := match k with KP => place_rows d Q c t | KV => turn_rows d Q t | KF => turn_frames d Q t end.

Lemma turn1_shape d Q k t : shape (turn1 d Q k t) = shape t.
Proof. destruct k; reflexivity. Qed.
Lemma place1_shape d Q c k t : shape (place1 d Q c k t) = shape t.
Proof. destruct k; reflexivity. Qed.

Ltac idx2 V := match type of V with valid _ ?idx => destruct idx as [|?i [|?a [|? ?]]]; cbn [valid] in V; try tauto end.
Ltac idx3 V := match type of V with valid _ ?idx => destruct idx as [|?i [|?a [|?j [|? ?]]]]; cbn [valid] in V; try tauto end.

Section One.
Variables (d : nat) (Q : mat).

Lemma turn1_scaled k a b s : kshape d k (shape a) -> shape b = shape a ->
  (forall idx, valid (shape a) idx -> get a idx = s * get b idx) -> forall idx, valid (shape a) idx -> get (turn1 d Q k a) idx = s * get (turn1 d Q k b) idx.
Proof.
  intros K SB E idx V.
  destruct k; cbn [kshape turn1] in *; destruct K as (n & K); rewrite K in V, E; [idx2 V|idx2 V|idx3 V]; cbn [turn_rows turn_frames get];
    rewrite <- turned_scal; apply turned_ext; intros b' B; apply E; cbn; tauto.
Qed.
Lemma turn1_teq k a b : kshape d k (shape a) -> teq b a -> teq (turn1 d Q k b) (turn1 d Q k a).
Proof.
  intros K [SB E]. split; [rewrite !turn1_shape; exact SB|]. intros idx V. rewrite turn1_shape in V. rewrite (turn1_scaled k b a 1); [ring|rewrite SB; exact K|congruence| |exact V].
  intros i Vi. rewrite E by exact Vi. ring.
Qed.
Lemma turn1_add k v w v' w' : kshape d k (shape v) -> shape w = shape v -> teq v' (turn1 d Q k v) -> teq w' (turn1 d Q k w) ->
  teq (tadd v' w') (turn1 d Q k (tadd v w)).
Proof.
  intros K SW [S1 E1] [S2 E2]. rewrite turn1_shape in S1, S2. split; [rewrite turn1_shape; cbn; exact S1|]. intros idx V. change (get (tadd v' w') idx) with (get v' idx + get w' idx). cbn [tadd tmap2 shape] in V.
  rewrite E1 by exact V. rewrite E2 by (rewrite S2, SW, <- S1; exact V). rewrite S1 in V. clear - K V SW.
  destruct k; cbn [kshape turn1] in *; destruct K as (n & K); rewrite K in V; [idx2 V|idx2 V|idx3 V]; cbn [turn_rows turn_frames get]; symmetry; apply turned_plus.
Qed.
Lemma turn1_scal k s v v' : kshape d k (shape v) -> teq v' (turn1 d Q k v) -> teq (tscal s v') (turn1 d Q k (tscal s v)).
Proof.
  intros K [S1 E1]. rewrite turn1_shape in S1. split; [rewrite turn1_shape; cbn; exact S1|]. intros idx V. change (get (tscal s v') idx) with (s * get v' idx). cbn [tscal tmap shape] in V.
  rewrite E1 by exact V. rewrite S1 in V. symmetry. apply (turn1_scaled k (tscal s v) v s); [exact K|reflexivity|reflexivity|exact V].
Qed.
Variable c : nat -> R.

Lemma place1_teq k a b : kshape d k (shape a) -> teq b a -> teq (place1 d Q c k b) (place1 d Q c k a).
Proof.
  intros K [SB E]. destruct k; [|exact (turn1_teq KV a b K (conj SB E))|exact (turn1_teq KF a b K (conj SB E))].
  split; [exact SB|]. cbn [place1 place_rows shape]. intros idx V. destruct K as (n & K). pose proof V as V0. rewrite SB, K in V. idx2 V. cbn [place1 place_rows get].
  unfold placed. f_equal. apply turned_ext. intros b' B. apply E. rewrite SB, K. cbn. tauto.
Qed.
Lemma place1_step k s t v t' v' : kshape d k (shape t) -> shape v = shape t -> teq t' (place1 d Q c k t) -> teq v' (turn1 d Q k v) ->
  teq (tadd t' (tscal s v')) (place1 d Q c k (tadd t (tscal s v))).
Proof.
  intros K SV T V. assert (KVV : kshape d k (shape v)) by (rewrite SV; exact K). pose proof (turn1_scal k s v v' KVV V) as V2.
  destruct k; [|exact (turn1_add KV t (tscal s v) t' _ K SV T V2)|exact (turn1_add KF t (tscal s v) t' _ K SV T V2)].
  destruct T as [S1 E1]. destruct V2 as [S2 E2]. cbn [place1 place_rows turn1 turn_rows shape] in S1, S2. split; [exact S1|]. intros idx VV. change (get (tadd t' (tscal s v')) idx) with (get t' idx + get (tscal s v') idx). cbn [tadd tmap2 shape] in VV.
  rewrite E1 by exact VV. rewrite E2 by (rewrite S2; cbn [tscal tmap shape]; rewrite SV, <- S1; exact VV). rewrite S1 in VV.
  destruct K as (n & K). rewrite K in VV. idx2 VV. cbn [place1 place_rows turn1 turn_rows get]. unfold placed.
  rewrite (turned_ext d Q (vrow (tmap2 Rplus t (tscal s v)) i) (fun b => vrow t i b + vrow (tscal s v) i b)) by reflexivity. rewrite turned_plus. ring.
Qed.

End One.

Section Back.
Variables (d : nat) (Q : mat).
Hypothesis HQ : rigid d Q.

Lemma turn1_back k u : kshape d k (shape u) -> teq u (turn1 d Q k (turn1 d (mtr Q) k u)).
Proof.
  intros K. split; [rewrite !turn1_shape; reflexivity|]. intros idx V. destruct k; cbn [kshape turn1] in *; destruct K as (n & K); rewrite K in V; [idx2 V|idx2 V|idx3 V];
    cbn [turn_rows turn_frames get].
  - symmetry. exact (turned_back d Q HQ (vrow u i) a (proj1 (proj2 V))).
  - symmetry. exact (turned_back d Q HQ (vrow u i) a (proj1 (proj2 V))).
  - symmetry. exact (turned_back d Q HQ (fun b => u @3 i b j) a (proj1 (proj2 V))).
Qed.
Lemma turn1_dot k g u : kshape d k (shape g) -> shape u = shape g -> tdot g (turn1 d (mtr Q) k u) = tdot (turn1 d Q k g) u.
Proof.
  intros K SU. rewrite !tdot_sum by (rewrite ?turn1_shape; congruence). rewrite turn1_shape.
  destruct k; cbn [kshape turn1] in *; destruct K as (n & K); rewrite K; cbn [sum_idx turn_rows turn_frames get]; apply rsum_ext; intros i I.
  - symmetry. exact (turned_adj d Q (vrow g i) (vrow u i)).
  - symmetry. exact (turned_adj d Q (vrow g i) (vrow u i)).
  - etransitivity; [apply rsum_swap|]. symmetry. etransitivity; [apply rsum_swap|]. apply rsum_ext. intros j J.
    exact (turned_adj d Q (fun a => g @3 i a j) (fun a => u @3 i a j)).
Qed.
End Back.

(** ** Lists of such tensors *)
Definition lturn d Q (ks : list kind) (l : list tensor) : list tensor := map (fun p : kind * tensor => turn1 d Q (fst p) (snd p)) (combine ks l).
Definition lplace d Q c (ks : list kind) (l : list tensor) : list tensor := map (fun p : kind * tensor => place1 d Q c (fst p) (snd p)) (combine ks l).
Definition kshapes d (ks : list kind) (shs : list (list nat)) : Prop := Forall2 (kshape d) ks shs.

Section Lists.
Variables (d : nat) (Q : mat).
Variable c : nat -> R.
Notation LT := (lturn d Q).
Notation LP := (lplace d Q c).

Lemma leq_trans' a b e : leq a b -> leq b e -> leq a e.
Proof. intros H. revert e. induction H as [|x y a b X H IH]; intros e G; inversion G; subst; constructor; [eapply teq_trans; eassumption|]. apply IH; assumption. Qed.
Lemma leq_refl' a : leq a a.
Proof. induction a; constructor; [apply teq_refl|assumption]. Qed.

Lemma lturn_shape ks l shs : kshapes d ks shs -> map shape l = shs -> map shape (LT ks l) = shs.
Proof.
  intros K. revert l. induction K as [|k sh ks shs _ _ IH]; intros [|t l] E; try discriminate E; [reflexivity|]. cbn [map] in E. injection E as E1 E2.
  unfold lturn in *. cbn [combine map fst snd]. rewrite turn1_shape, E1, (IH l E2). reflexivity.
Qed.
Lemma lplace_shape ks l shs : kshapes d ks shs -> map shape l = shs -> map shape (LP ks l) = shs.
Proof.
  intros K. revert l. induction K as [|k sh ks shs _ _ IH]; intros [|t l] E; try discriminate E; [reflexivity|]. cbn [map] in E. injection E as E1 E2.
  unfold lplace in *. cbn [combine map fst snd]. rewrite place1_shape, E1, (IH l E2). reflexivity.
Qed.
Lemma lplace_leq ks l l' shs : kshapes d ks shs -> map shape l = shs -> leq l' l -> leq (LP ks l') (LP ks l).
Proof.
  intros K. revert l l'. induction K as [|k sh ks shs H _ IH]; intros [|t l] l' E G; try discriminate E; inversion G as [|t' ? l1 ? G1 G2]; subst; [constructor|].
  cbn [map] in E. injection E as E1 E2. constructor; cbn [fst snd]; [apply place1_teq; [rewrite E1; exact H|exact G1]|]. exact (IH l l1 E2 G2).
Qed.
Lemma lplace_step ks shs s : kshapes d ks shs -> forall l v l' v', map shape l = shs -> map shape v = shs -> leq l' (LP ks l) -> leq v' (LT ks v) ->
  leq (ladd l' (lscal s v')) (LP ks (ladd l (lscal s v))).
Proof.
  induction 1 as [|k sh ks shs H _ IH]; intros [|t l] [|u v] l' v' E F G K; try discriminate E; try discriminate F.
  - inversion G; subst. inversion K; subst. constructor.
  - cbn [map] in E, F. injection E as E1 E2. injection F as F1 F2. unfold lplace, lturn in *. cbn [combine map fst snd] in G, K.
    inversion G as [|t' ? l1 ? G1 G2]; subst. inversion K as [|u' ? v1 ? K1 K2]; subst.
    unfold ladd, lscal in *. cbn [map combine fst snd]. constructor; [|apply IH; assumption || reflexivity].
    apply place1_step; [exact H|exact F1|exact G1|exact K1].
Qed.
Lemma lturn_add ks shs : kshapes d ks shs -> forall v w v' w', map shape v = shs -> map shape w = shs -> leq v' (LT ks v) -> leq w' (LT ks w) ->
  leq (ladd v' w') (LT ks (ladd v w)).
Proof.
  induction 1 as [|k sh ks shs H _ IH]; intros [|t l] [|u v] l' v' E F G K; try discriminate E; try discriminate F.
  - inversion G; subst. inversion K; subst. constructor.
  - cbn [map] in E, F. injection E as E1 E2. injection F as F1 F2. unfold lturn in *. cbn [combine map fst snd] in G, K.
    inversion G as [|t' ? l1 ? G1 G2]; subst. inversion K as [|u' ? v1 ? K1 K2]; subst.
    unfold ladd in *. cbn [map combine fst snd]. constructor; [|apply IH; assumption || reflexivity].
    apply turn1_add; [exact H|exact F1|exact G1|exact K1].
Qed.
Lemma lturn_scal ks shs s : kshapes d ks shs -> forall v v', map shape v = shs -> leq v' (LT ks v) -> leq (lscal s v') (LT ks (lscal s v)).
Proof.
  induction 1 as [|k sh ks shs H _ IH]; intros [|u v] v' F K; try discriminate F.
  - inversion K; subst. constructor.
  - cbn [map] in F. injection F as F1 F2. unfold lturn in *. cbn [combine map fst snd] in K. inversion K as [|u' ? v1 ? K1 K2]; subst.
    unfold lscal in *. cbn [map combine fst snd]. constructor; [|apply IH; assumption || reflexivity]. apply turn1_scal; [exact H|exact K1].
Qed.

Lemma nth_lturn ks shs : kshapes d ks shs -> forall l i t, map shape l = shs -> nth_error l i = Some t ->
  exists k, nth_error ks i = Some k /\ kshape d k (shape t) /\ nth_error (LT ks l) i = Some (turn1 d Q k t).
Proof.
  induction 1 as [|k sh ks shs H _ IH]; intros [|u l] i t E N; try discriminate E; [destruct i; discriminate N|].
  cbn [map] in E. injection E as E1 E2. destruct i as [|i]; cbn [nth_error] in *.
  - injection N as <-. exists k. split; [reflexivity|]. split; [rewrite E1; exact H|reflexivity].
  - exact (IH l i t E2 N).
Qed.

End Lists.

Section LBack.
Variables (d : nat) (Q : mat).
Notation LT := (lturn d Q).
Hypothesis HQ : rigid d Q.

Lemma lturn_back ks shs : kshapes d ks shs -> forall u, map shape u = shs -> leq u (LT ks (lturn d (mtr Q) ks u)).
Proof.
  induction 1 as [|k sh ks shs H _ IH]; intros [|u v] F; try discriminate F; [constructor|].
  cbn [map] in F. injection F as F1 F2. constructor; [|apply IH; exact F2]. cbn [fst snd]. apply turn1_back; [exact HQ|]. rewrite F1. exact H.
Qed.
Lemma lturn_dot ks shs : kshapes d ks shs -> forall g u, map shape g = shs -> map shape u = shs -> ldot g (lturn d (mtr Q) ks u) = ldot (LT ks g) u.
Proof.
  induction 1 as [|k sh ks shs H _ IH]; intros [|t g] [|u v] E F; try discriminate E; try discriminate F; [reflexivity|].
  cbn [map] in E, F. injection E as E1 E2. injection F as F1 F2. unfold ldot, lturn in *. cbn [combine map fold_right fst snd]. rewrite IH by assumption. f_equal.
  apply turn1_dot; [rewrite E1; exact H|congruence].
Qed.
End LBack.

Lemma leq_entries : forall a b, map shape a = map shape b ->
  (forall i t idx, nth_error b i = Some t -> valid (shape t) idx -> entry a i idx = entry b i idx) -> leq a b.
Proof.
  induction a as [|x a IH]; intros [|y b] S H; try discriminate S; [constructor|]. cbn [map] in S. injection S as S1 S2. constructor.
  - split; [exact S1|]. intros idx V. exact (H 0%nat y idx eq_refl ltac:(rewrite <- S1; exact V)).
  - apply IH; [exact S2|]. intros i t idx E V. exact (H (S i) t idx E V).
Qed.

(** ** Gradients and Hamiltonian vector fields *)
Section Gradient.
Variables (d : nat) (Q : mat).
Hypothesis HQ : rigid d Q.
Variable c : nat -> R.
Variables (ks : list kind) (shs : list (list nat)) (n : nat).
Hypothesis KS : kshapes d ks shs.
Hypothesis halves : forall i k k', (i < n)%nat -> nth_error ks i = Some k -> nth_error ks (n + i) = Some k' -> turn1 d Q k = turn1 d Q k'.
Hypothesis len : length shs = (n + n)%nat.
Variables H H' : list tensor -> res R.
Hypothesis same : forall l l' x x', map shape l = shs -> leq l' (lplace d Q c ks l) -> H l = Ok x -> H' l' = Ok x' -> x' = x.
Hypothesis smooth : smooth_on shs H.

Lemma grad_placed l l' G j t idx p : map shape l = shs -> leq l' (lplace d Q c ks l) -> map shape G = shs ->
  (forall u, map shape u = map shape l ->
      exists eps f, 0 < eps /\ (forall s, Rabs s < eps -> H (ladd l (lscal s u)) = Ok (f s)) /\ derivable_pt_lim f 0 (ldot G u)) ->
  nth_error l' j = Some t -> valid (shape t) idx -> partial_derivative H' l' j idx p -> p = entry (lturn d Q ks G) j idx.
Proof.
  intros SL E SG D N V (e1 & f1 & P1 & Q1 & D1).
  assert (SL' : map shape l' = shs) by (rewrite (leq_shape _ _ E); apply lplace_shape; assumption).
  set (u' := unit_at l' j idx). assert (SU' : map shape u' = shs) by (unfold u'; rewrite unit_shape; exact SL').
  set (u := lturn d (mtr Q) ks u'). assert (SU : map shape u = shs) by (apply lturn_shape; assumption).
  destruct (D u) as (e2 & f2 & P2 & Q2 & D2); [congruence|]. unfold u in D2. rewrite (lturn_dot d Q ks shs KS G u' SG SU') in D2.
  unfold u' in D2. rewrite (ldot_unit (lturn d Q ks G) l' j idx t) in D2; [|rewrite SL'; apply lturn_shape; assumption|exact N|exact V].
  apply (lim_translate f1 _ _ (- entry l' j idx)) in D1. replace (entry l' j idx + - entry l' j idx) with 0 in D1 by ring.
  symmetry. apply (uniqueness_limite f2 0); [exact D2|].
  apply (lim_loc (fun s => f1 (s - - entry l' j idx)) f2 0 p (Rmin e1 e2)); [apply Rmin_pos; assumption| |exact D1].
  intros s B. rewrite Rminus_0_r in B.
  assert (B1 : Rabs s < e1) by (eapply Rlt_le_trans; [exact B|apply Rmin_l]). assert (B2 : Rabs s < e2) by (eapply Rlt_le_trans; [exact B|apply Rmin_r]).
  apply (same (ladd l (lscal s u)) (ladd l' (lscal s u'))).
  - rewrite ladd_shape; [exact SL|]. unfold lscal. rewrite map_length. rewrite <- (map_length shape u), <- (map_length shape l), SL, SU. reflexivity.
  - apply (lplace_step d Q c ks shs s KS); try assumption. apply (lturn_back d Q HQ ks shs KS). exact SU'.
  - exact (Q2 s B2).
  - unfold u'. rewrite (ladd_unit l' j idx s t N). rewrite Q1; [do 2 f_equal; ring|]. replace (entry l' j idx + s - entry l' j idx) with s by ring. exact B1.
Qed.

Lemma hamilton_placed l l' k k' : map shape l = shs -> leq l' (lplace d Q c ks l) -> hamilton H l k -> hamilton H' l' k' -> leq k' (lturn d Q ks k).
Proof.
  intros SL E (SK & m & Lm & SS & HK) (SK' & m' & Lm' & SS' & HK').
  assert (SL' : map shape l' = shs) by (rewrite (leq_shape _ _ E); apply lplace_shape; assumption).
  rewrite SL in SK. rewrite SL' in SK'.
  assert (m = n) by (rewrite <- (map_length shape l), SL in Lm; lia). assert (m' = n) by (rewrite <- (map_length shape l'), SL' in Lm'; lia). subst m m'.
  pose proof (lturn_shape d Q ks k shs KS SK) as SKT.
  apply leq_entries; [congruence|]. intros j tk idx Nk Vk.
  (* the tensors of index j *)
  assert (NN : forall (x y : list tensor) i a, map shape x = map shape y -> nth_error x i = Some a -> exists b, nth_error y i = Some b /\ shape b = shape a).
  { intros x y i a Sxy N. assert (N2 : nth_error (map shape y) i = Some (shape a)) by (rewrite <- Sxy, nth_error_map, N; reflexivity).
    rewrite nth_error_map in N2. destruct (nth_error y i) as [b|]; [|discriminate N2]. injection N2 as N2. eauto. }
  assert (J : (j < n + n)%nat). { rewrite <- len, <- SKT, map_length. apply nth_error_Some. congruence. }
  (* the two indices *)
  set (i := if Nat.ltb j n then j else (j - n)%nat).
  assert (I : (i < n)%nat) by (unfold i; destruct (Nat.ltb_spec j n); lia).
  destruct (nth_error l i) as [ti|] eqn:Ni; [|apply nth_error_None in Ni; rewrite <- (map_length shape l), SL in Ni; lia].
  destruct (nth_error l (n + i)) as [tn|] eqn:Nn; [|apply nth_error_None in Nn; rewrite <- (map_length shape l), SL in Nn; lia].
  assert (ST : shape tn = shape ti).
  { assert (A : nth_error (map shape (firstn n l)) i = Some (shape ti)) by (rewrite nth_error_map, nth_first, Ni by exact I; reflexivity).
    rewrite SS, nth_error_map, nth_skip, Nn in A. injection A as A. exact A. }
  assert (SJ : shape tk = shape ti).
  { unfold i in *. destruct (Nat.ltb_spec j n) as [B|B].
    - destruct (NN (lturn d Q ks k) l j tk) as (b & Nb & Sb); [congruence|exact Nk|]. rewrite Ni in Nb. injection Nb as <-. congruence.
    - replace (n + (j - n))%nat with j in Nn by lia. destruct (NN (lturn d Q ks k) l j tk) as (b & Nb & Sb); [congruence|exact Nk|]. rewrite Nn in Nb. injection Nb as <-. congruence. }
  rewrite SJ in Vk.
  (* H is defined at l, hence it has a gradient *)
  destruct (HK i ti idx I Ni Vk) as (_ & (eps & f & P & QQ & _)).
  specialize (QQ (entry l i idx) ltac:(rewrite Rminus_diag_eq, Rabs_R0 by reflexivity; exact P)). rewrite (upd_same l i ti idx Ni) in QQ.
  destruct (smooth l _ SL QQ) as (G & SG & D). rewrite SL in SG.
  assert (GE : forall idx, valid (shape ti) idx -> entry G (n + i) idx = entry k i idx /\ entry G i idx = - entry k (n + i) idx).
  { intros z Vz. destruct (HK i ti z I Ni Vz) as (A & B). split.
    - apply (gradient_entries H l G (n + i) tn z); [congruence|exact D|exact Nn|rewrite ST; exact Vz|exact A].
    - apply (gradient_entries H l G i ti z); [congruence|exact D|exact Ni|exact Vz|exact B]. }
  (* the same tensors in G, k and l' *)
  destruct (NN l G i ti) as (Gi & NGi & SGi); [congruence|exact Ni|]. destruct (NN l G (n + i)%nat tn) as (Gn & NGn & SGn); [congruence|exact Nn|].
  destruct (NN l k i ti) as (ki & Nki & Ski); [congruence|exact Ni|]. destruct (NN l k (n + i)%nat tn) as (kn & Nkn & Skn); [congruence|exact Nn|].
  destruct (NN l l' i ti) as (ti' & Ni' & Si'); [congruence|exact Ni|]. destruct (NN l l' (n + i)%nat tn) as (tn' & Nn' & Sn'); [congruence|exact Nn|].
  destruct (nth_lturn d Q ks shs KS G i Gi SG NGi) as (c1 & C1 & X1 & T1). destruct (nth_lturn d Q ks shs KS G _ Gn SG NGn) as (c2 & C2 & X2 & T2).
  destruct (nth_lturn d Q ks shs KS k i ki SK Nki) as (c3 & C3 & X3 & T3). destruct (nth_lturn d Q ks shs KS k _ kn SK Nkn) as (c4 & C4 & X4 & T4).
  rewrite C1 in C3. injection C3 as <-. rewrite C2 in C4. injection C4 as <-. pose proof (halves i c1 c2 I C1 C2) as HH.
  destruct (HK' i ti' idx I Ni' ltac:(rewrite Si'; exact Vk)) as (A' & B').
  pose proof (grad_placed l l' G (n + i) tn' idx _ SL E SG D Nn' ltac:(rewrite Sn', ST; exact Vk) A') as R1.
  pose proof (grad_placed l l' G i ti' idx _ SL E SG D Ni' ltac:(rewrite Si'; exact Vk) B') as R2.
  unfold entry in R1 at 2. rewrite T2 in R1. unfold entry in R2 at 2. rewrite T1 in R2.
  unfold entry in GE. rewrite NGn, NGi, Nki, Nkn in GE.
  unfold i in *. destruct (Nat.ltb_spec j n) as [B|B].
  - rewrite R1. unfold entry. rewrite T3, HH.
    rewrite (turn1_scaled d Q c2 Gn ki 1); [ring|exact X2|congruence| |rewrite SGn, ST; exact Vk]. intros z Vz. rewrite SGn, ST in Vz. rewrite (proj1 (GE z Vz)). ring.
  - replace (n + (j - n))%nat with j in * by lia. apply Ropp_eq_compat in R2. rewrite Ropp_involutive in R2. rewrite R2. unfold entry. rewrite T4, <- HH.
    rewrite (turn1_scaled d Q c1 Gi kn (-1)); [ring|exact X1|congruence| |rewrite SGi; exact Vk]. intros z Vz. rewrite SGi in Vz. rewrite (proj2 (GE z Vz)). ring.
Qed.
End Gradient.

(** ** Schemes *)
Section Pairs.
Variables (d : nat) (Q : mat) (c : nat -> R) (ks : list kind) (shs : list (list nat)).
Hypothesis KS : kshapes d ks shs.
Notation LT := (lturn d Q ks).
Notation LP := (lplace d Q c ks).
Variables F F' : vfields.
Hypothesis rel : forall j l l' k k', map shape l = shs -> leq l' (LP l) -> F j l k -> F' j l' k' -> map shape k = shs /\ leq k' (LT k).

Definition related (s s' : list tensor) : Prop := map shape s = shs /\ leq s' (LP s).

Lemma sadd l k : map shape l = shs -> map shape k = shs -> map shape (ladd l k) = shs.
Proof. intros A B. rewrite ladd_shape; [exact A|]. rewrite <- (map_length shape l), A, <- B, map_length. reflexivity. Qed.
Lemma sscal s k : map shape k = shs -> map shape (lscal s k) = shs.
Proof. intros B. rewrite lscal_shape. exact B. Qed.
Lemma related_next l l' k k' s r r' : related l l' -> map shape k = shs -> leq k' (LT k) -> leq r (ladd l (lscal s k)) -> leq r' (ladd l' (lscal s k')) -> related r r'.
Proof.
  intros (S & E) K EK R R'. assert (SA : map shape (ladd l (lscal s k)) = shs) by (apply sadd; [exact S|apply sscal; exact K]).
  assert (SR : map shape r = shs) by (rewrite (leq_shape _ _ R); exact SA). split; [exact SR|].
  apply leq_trans' with (ladd l' (lscal s k')); [exact R'|]. apply leq_trans' with (LP (ladd l (lscal s k))); [apply (lplace_step d Q c ks shs s KS); assumption|].
  apply (lplace_leq d Q c ks r _ shs KS SR). clear - R. induction R as [|x y a b T _ IH]; constructor; [apply teq_sym; exact T|exact IH].
Qed.
Lemma radd v w v' w' : map shape v = shs -> map shape w = shs -> leq v' (LT v) -> leq w' (LT w) -> leq (ladd v' w') (LT (ladd v w)).
Proof. intros. apply (lturn_add d Q ks shs KS); assumption. Qed.
Lemma rscal s v v' : map shape v = shs -> leq v' (LT v) -> leq (lscal s v') (LT (lscal s v)).
Proof. intros. apply (lturn_scal d Q ks shs s KS); assumption. Qed.

Ltac lin := repeat first [assumption | apply radd | apply rscal | apply sadd | apply sscal].

Lemma step_placed sch o dt l l' ss ss' r r' : related l l' -> scheme_step sch (fun j => F (o + j)%nat) dt l ss r -> scheme_step sch (fun j => F' (o + j)%nat) dt l' ss' r' ->
  related r r' /\ Forall2 related ss ss'.
Proof.
  intros R. destruct sch; cbn [scheme_step].
  - intros (k & -> & K & E) (k' & -> & K' & E'). destruct (rel _ _ _ _ _ (proj1 R) (proj2 R) K K') as (S1 & E1).
    split; [exact (related_next _ _ _ _ _ _ _ R S1 E1 E E')|repeat constructor; apply R].
  - intros (k1 & l2 & k2 & -> & K1 & E2 & K2 & E) (k1' & l2' & k2' & -> & K1' & E2' & K2' & E').
    destruct (rel _ _ _ _ _ (proj1 R) (proj2 R) K1 K1') as (S1 & V1). pose proof (related_next _ _ _ _ _ _ _ R S1 V1 E2 E2') as R2.
    destruct (rel _ _ _ _ _ (proj1 R2) (proj2 R2) K2 K2') as (S2 & V2).
    split; [exact (related_next _ _ _ _ _ _ _ R S2 V2 E E')|repeat constructor; try apply R; apply R2].
  - intros (k1 & l2 & k2 & l3 & k3 & l4 & k4 & -> & K1 & E2 & K2 & E3 & K3 & E4 & K4 & E) (k1' & l2' & k2' & l3' & k3' & l4' & k4' & -> & K1' & E2' & K2' & E3' & K3' & E4' & K4' & E').
    destruct (rel _ _ _ _ _ (proj1 R) (proj2 R) K1 K1') as (S1 & V1). pose proof (related_next _ _ _ _ _ _ _ R S1 V1 E2 E2') as R2.
    destruct (rel _ _ _ _ _ (proj1 R2) (proj2 R2) K2 K2') as (S2 & V2).
    assert (R3 : related l3 l3') by (eapply related_next; [exact R| | |exact E3|exact E3']; lin).
    destruct (rel _ _ _ _ _ (proj1 R3) (proj2 R3) K3 K3') as (S3 & V3).
    assert (R4 : related l4 l4') by (eapply related_next; [exact R| | |exact E4|exact E4']; lin).
    destruct (rel _ _ _ _ _ (proj1 R4) (proj2 R4) K4 K4') as (S4 & V4).
    split; [eapply related_next; [exact R| | |exact E|exact E']; lin|]. repeat constructor; try apply R; try apply R2; try apply R3; apply R4.
Qed.

Lemma trajectory_placed sch dt states stages states' stages' l0 l0' :
  trajectory sch F dt states stages -> trajectory sch F' dt states' stages' -> length stages' = length stages ->
  nth_error states 0 = Some l0 -> nth_error states' 0 = Some l0' -> related l0 l0' ->
  forall i l l', nth_error states i = Some l -> nth_error states' i = Some l' ->
    related l l' /\ forall ss ss', nth_error stages i = Some ss -> nth_error stages' i = Some ss' -> Forall2 related ss ss'.
Proof.
  intros (L & T) (L' & T') LL E0 E0' R0.
  assert (X : forall i l l', nth_error states i = Some l -> nth_error states' i = Some l' -> related l l').
  { induction i as [|i IH]; intros l l' E E'; [congruence|].
    assert (I : (S i < length states)%nat) by (apply nth_error_Some; congruence).
    destruct (nth_error states i) as [x|] eqn:Ex; [|apply nth_error_None in Ex; lia]. destruct (nth_error states' i) as [x'|] eqn:Ex'; [|apply nth_error_None in Ex'; lia].
    destruct (nth_error stages i) as [ss|] eqn:Es; [|apply nth_error_None in Es; lia]. destruct (nth_error stages' i) as [ss'|] eqn:Es'; [|apply nth_error_None in Es'; lia].
    exact (proj1 (step_placed sch _ dt x x' ss ss' l l' (IH x x' eq_refl eq_refl) (T i x ss l Ex Es E) (T' i x' ss' l' Ex' Es' E'))). }
  intros i l l' E E'. split; [exact (X i l l' E E')|]. intros ss ss' Es Es'.
  assert (I : (i < length stages)%nat) by (apply nth_error_Some; congruence).
  destruct (nth_error states (S i)) as [y|] eqn:Ey; [|apply nth_error_None in Ey; lia]. destruct (nth_error states' (S i)) as [y'|] eqn:Ey'; [|apply nth_error_None in Ey'; lia].
  exact (proj2 (step_placed sch _ dt l l' ss ss' y y' (X i l l' E E') (T i l ss y E Es Ey) (T' i l' ss' y' E' Es' Ey'))).
Qed.
End Pairs.

(** ** Manifolds *)
Fixpoint kinds_gd (g : gman) : list kind :=
  match g with
  | GLm _ _ _ _ => [KP] | GDir _ _ _ _ _ _ _ => [KP; KV] | GFrame _ _ _ _ _ _ => [KP; KF]
  | GCLm _ _ _ _ _ _ _ _ _ => [KP; KP] | GEmpty _ => []
  | GComp gs => flat_map kinds_gd gs
  end.
Fixpoint kinds_ct (g : gman) : list kind :=
  match g with
  | GLm _ _ _ _ => [KV] | GDir _ _ _ _ _ _ _ => [KV; KV] | GFrame _ _ _ _ _ _ => [KV; KF]
  | GCLm _ _ _ _ _ _ _ _ _ => [KV; KV] | GEmpty _ => []
  | GComp gs => flat_map kinds_ct gs
  end.
Definition kinds (g : gman) : list kind := kinds_gd g ++ kinds_ct g.

Lemma kinds_len g : length (kinds_gd g) = g_len g /\ length (kinds_ct g) = g_len g.
Proof.
  induction g as [g S|gs IH] using gman_ind'; [destruct g; try (elim S); split; reflexivity|]. cbn [kinds_gd kinds_ct g_len].
  induction IH as [|g gs (A & B) _ (A' & B')]; [split; reflexivity|]. cbn [flat_map map fold_right]. rewrite !app_length, A, B, A', B'. split; reflexivity.
Qed.
Lemma kinds_skel g : kinds_gd (skel g) = kinds_gd g /\ kinds_ct (skel g) = kinds_ct g.
Proof.
  induction g as [g S|gs IH] using gman_ind'; [destruct g; try (elim S); split; reflexivity|]. cbn [kinds_gd kinds_ct skel].
  induction IH as [|g gs (A & B) _ (A' & B')]; [split; reflexivity|]. cbn [flat_map map]. rewrite A, B, A', B'. split; reflexivity.
Qed.
Lemma kinds_same g g' : skel g = skel g' -> kinds g = kinds g'.
Proof. intros K. unfold kinds. rewrite <- (proj1 (kinds_skel g)), <- (proj2 (kinds_skel g)), K, (proj1 (kinds_skel g')), (proj2 (kinds_skel g')). reflexivity. Qed.
Lemma skel_placed d Q c g : skel (placed_man d Q c g) = skel g.
Proof.
  induction g as [g S|gs IH] using gman_ind'; [destruct g; try (elim S); reflexivity|]. cbn [placed_man skel]. f_equal. rewrite map_map.
  induction IH as [|g gs A _ B]; [reflexivity|]. cbn [map]. rewrite A, B. reflexivity.
Qed.
Lemma lplace_app d Q c ks ks' l l' : length ks = length l -> lplace d Q c (ks ++ ks') (l ++ l') = lplace d Q c ks l ++ lplace d Q c ks' l'.
Proof. intros L. unfold lplace. rewrite combine_app by exact L. apply map_app. Qed.
Lemma gd_placed d Q c g : wf_gman d g -> g_gd (placed_man d Q c g) = lplace d Q c (kinds_gd g) (g_gd g) /\ g_cotan (placed_man d Q c g) = lplace d Q c (kinds_ct g) (g_cotan g).
Proof.
  induction g as [g S|gs IH] using gman_ind'; intros W; [destruct g; try (elim S); try contradiction W; split; reflexivity|]. cbn [placed_man kinds_gd kinds_ct g_gd g_cotan wf_gman] in *.
  induction IH as [|g gs Hg _ IHs]; [split; reflexivity|]. destruct W as (W1 & W2). cbn [map flat_map]. destruct (Hg W1) as (A & B). destruct (IHs W2) as (A' & B').
  rewrite !lplace_app by (rewrite ?(proj1 (kinds_len g)), ?(proj2 (kinds_len g)), ?g_gd_len, ?g_cotan_len; reflexivity). rewrite A, B, A', B'. split; reflexivity.
Qed.
Lemma phase_placed d Q c g : wf_gman d g -> phase (placed_man d Q c g) = lplace d Q c (kinds g) (phase g).
Proof.
  intros W. destruct (gd_placed d Q c g W) as (A & B). unfold phase, kinds. rewrite lplace_app by (rewrite (proj1 (kinds_len g)), g_gd_len; reflexivity). rewrite A, B. reflexivity.
Qed.
Lemma wf_kinds d g : wf_gman d g -> kshapes d (kinds_gd g) (map shape (g_gd g)) /\ kshapes d (kinds_ct g) (map shape (g_cotan g)).
Proof.
  unfold kshapes. induction g as [g S|gs IH] using gman_ind'; intros W.
  - destruct g; try (elim S); cbn [wf_gman] in W; try contradiction W; cbn [kinds_gd kinds_ct g_gd g_cotan map];
      repeat match goal with H : _ /\ _ |- _ => destruct H end; split; repeat constructor; cbn [kshape]; eexists; eassumption.
  - cbn [kinds_gd kinds_ct g_gd g_cotan wf_gman] in *. induction IH as [|g gs Hg _ IHs]; [split; constructor|]. destruct W as [W1 W2].
    destruct (Hg W1) as [A B]. destruct (IHs W2) as [A' B']. cbn [flat_map]. rewrite !map_app. split; apply Forall2_app; assumption.
Qed.
Lemma wf_kshapes d g : wf_gman d g -> kshapes d (kinds g) (map shape (phase g)).
Proof. intros W. destruct (wf_kinds d g W). unfold kshapes, kinds, phase in *. rewrite map_app. apply Forall2_app; assumption. Qed.
Lemma kinds_lin d Q g : Forall2 (fun k k' => turn1 d Q k = turn1 d Q k') (kinds_gd g) (kinds_ct g).
Proof.
  induction g as [g S|gs IH] using gman_ind'; [destruct g; try (elim S); cbn; repeat constructor|]. cbn [kinds_gd kinds_ct].
  induction IH as [|g gs A _ B]; [constructor|]. cbn [flat_map]. apply Forall2_app; assumption.
Qed.
Lemma kinds_halves d Q g i k k' : (i < g_len g)%nat -> nth_error (kinds g) i = Some k -> nth_error (kinds g) (g_len g + i) = Some k' -> turn1 d Q k = turn1 d Q k'.
Proof.
  intros I A B. unfold kinds in A, B. destruct (kinds_len g) as (L1 & L2). rewrite nth_error_app1 in A by lia. rewrite nth_error_app2 in B by lia.
  replace (g_len g + i - length (kinds_gd g))%nat with i in B by lia. revert i k k' I A B. pose proof (kinds_lin d Q g) as F. clear L1 L2. generalize (g_len g).
  induction F as [|x y a b E _ IH]; intros n [|i] k k' I A B; cbn [nth_error] in A, B; try discriminate A; [injection A as <-; injection B as <-; exact E|]. exact (IH n i k k' ltac:(lia) A B).
Qed.

Lemma placed_values d Q c g g' : wf_gman d g -> skel g' = skel g -> leq (phase g') (lplace d Q c (kinds g) (phase g)) -> same_values g' (placed_man d Q c g).
Proof.
  intros W K E. rewrite <- (phase_placed d Q c g W) in E. unfold phase in E. pose proof (skel_placed d Q c g) as SP.
  assert (X : forall (a b a' b' : list tensor), length a = length a' -> leq (a ++ b) (a' ++ b') -> leq a a' /\ leq b b').
  { clear. induction a as [|x a IH]; intros b [|y a'] b' L E; try discriminate L; [split; [constructor|exact E]|]. inversion E; subst.
    destruct (IH b a' b') as (A & B); [injection L; auto|assumption|]. split; [constructor; assumption|exact B]. }
  apply X in E; [|rewrite !g_gd_len; apply skel_len; congruence]. split; split; try congruence; apply E.
Qed.
Lemma values_placed d Q c g g' : wf_gman d g -> same_values g' (placed_man d Q c g) -> leq (phase g') (lplace d Q c (kinds g) (phase g)).
Proof. intros W ((_ & A) & (_ & B)). rewrite <- (phase_placed d Q c g W). unfold phase. apply Forall2_app; assumption. Qed.

(** ** Modules at other states *)
Lemma twin_set d Q c m : forall m' g g' m1 m1', twin d Q c m m' -> set_manifold m g = Ok m1 -> set_manifold m' g' = Ok m1' -> twin d Q c m1 m1'.
Proof.
  induction m as [m NC|ms IH] using dmod_ind'; intros m' g g' m1 m1' T E E'.
  - destruct m; try (elim (NC ms eq_refl)); destruct m'; try contradiction T; destruct g; try discriminate E; destruct g'; try discriminate E';
      cbn [set_manifold] in E, E'; injection E as <-; injection E' as <-; exact T.
  - destruct m' as [| | | | | | | | | |ms']; try contradiction T. destruct g as [| | | | |gs]; try discriminate E. destruct g' as [| | | | |gs']; try discriminate E'.
    rewrite set_comp in E, E'. destruct (sets ms gs) as [r|] eqn:Er; [|discriminate E]. injection E as <-. destruct (sets ms' gs') as [r'|] eqn:Er'; [|discriminate E']. injection E' as <-.
    cbn [twin] in *. revert ms' gs gs' r r' T Er Er'.
    induction IH as [|m ms Hm _ IHs]; intros [|m' ms'] [|g gs] [|g' gs'] r r' T Er Er'; try contradiction T; try discriminate Er; try discriminate Er';
      try (injection Er as <-); try (injection Er' as <-); try exact Logic.I.
    destruct T as (T & TS). cbn [sets] in Er, Er'. fold sets in Er, Er'. destruct (set_manifold m g) as [m1|] eqn:Em; [|discriminate Er]. cbn [bind] in Er.
    destruct (sets ms gs) as [q|] eqn:Eq; [|discriminate Er]. injection Er as <-. destruct (set_manifold m' g') as [m1'|] eqn:Em'; [|discriminate Er']. cbn [bind] in Er'.
    destruct (sets ms' gs') as [q'|] eqn:Eq'; [|discriminate Er']. injection Er' as <-. split; [eapply Hm; eassumption|eapply IHs; eassumption].
Qed.
Lemma turned_set d Q m : forall g m1 k k', set_manifold m g = Ok m1 -> (turned_ctrl d Q m1 k k' <-> turned_ctrl d Q m k k').
Proof.
  induction m as [m NC|ms IH] using dmod_ind'; intros g m1 k k' E.
  - destruct m; try (elim (NC ms eq_refl)); destruct g; try discriminate E; cbn [set_manifold] in E; injection E as <-; destruct k, k'; reflexivity.
  - destruct g as [| | | | |gs]; try discriminate E. rewrite set_comp in E. destruct (sets ms gs) as [r|] eqn:Er; [|discriminate E]. injection E as <-.
    destruct k as [h|l]; [reflexivity|]. destruct k' as [h|l']; [reflexivity|]. cbn [turned_ctrl]. revert gs r l l' Er.
    induction IH as [|m ms Hm _ IHs]; intros gs r l l' Er; destruct gs as [|g gs]; try discriminate Er; [injection Er as <-; reflexivity|].
    cbn [sets] in Er. fold sets in Er. destruct (set_manifold m g) as [m1|] eqn:Em; [|discriminate Er]. cbn [bind] in Er. destruct (sets ms gs) as [r'|] eqn:Er'; [|discriminate Er]. injection Er as <-.
    destruct l as [|x l]; [reflexivity|]. destruct l' as [|x' l']; [reflexivity|]. rewrite (Hm g m1 x x' Em), (IHs gs r' l l' Er'). reflexivity.
Qed.

Lemma turned_fill d Q c sv sv' m : forall m' k k' m1 m1', twin d Q c m m' -> turned_ctrl d Q m k k' -> fill_controls sv m k = Ok m1 -> fill_controls sv' m' k' = Ok m1' ->
  turned_ctrl d Q m (controls m1) (controls m1').
Proof.
  induction m as [m NC|ms IH] using dmod_ind'; intros m' k k' m1 m1' T E F F'.
  - destruct m; try (elim (NC ms eq_refl)); destruct m'; try contradiction T; destruct k as [t|l], k' as [t'|l']; try contradiction E; cbn [fill_controls] in F, F';
      try (destruct (shape t); [|discriminate F]; destruct (shape t'); [|discriminate F']); try (bok F x1 Ex1; bok F' x2 Ex2); injection F as <-; injection F' as <-; exact E.
  - destruct m' as [| | | | | | | | | |ms']; try contradiction T. destruct k as [t|l], k' as [t'|l']; try contradiction E. rewrite fill_comp in F, F'.
    destruct (Nat.eqb (length l) (length ms)); [|discriminate F]. destruct (Nat.eqb (length l') (length ms')); [|discriminate F']. bok F r F1. injection F as <-. bok F' r' F1'. injection F' as <-.
    cbn [turned_ctrl twin controls] in *. revert ms' l l' r r' T E F1 F1'.
    induction IH as [|m ms Hm _ IHs]; intros [|m' ms'] [|k l] [|k' l'] r r' T E F F'; try contradiction T; try contradiction E; [injection F as <-; injection F' as <-; exact Logic.I|].
    cbn [fills] in F, F'. fold (fills sv) in F. fold (fills sv') in F'. bok F x Ex. bok F q Eqq. injection F as <-. bok F' x' Ex'. bok F' q' Eqq'. injection F' as <-.
    destruct T as (T & TS). destruct E as (E & ES). cbn [map]. split; [eapply Hm; eassumption|eapply IHs; eassumption].
Qed.
Lemma regular_fill sv d m : forall k m1, fill_controls sv m k = Ok m1 -> (regular d m1 <-> regular d m).
Proof.
  induction m as [m NC|ms IH] using dmod_ind'; intros k m1 F.
  - destruct m; try (elim (NC ms eq_refl)); destruct k as [t|l]; try discriminate F; cbn [fill_controls] in F;
      try (destruct (shape t); [|discriminate F]); try (bok F x1 Ex1); injection F as <-; reflexivity.
  - destruct k as [t|l]; [discriminate F|]. rewrite fill_comp in F. destruct (Nat.eqb_spec (length l) (length ms)) as [LN|]; [|discriminate F]. bok F r F1. injection F as <-.
    cbn [regular] in *. revert l r LN F1.
    induction IH as [|m ms Hm _ IHs]; intros [|k l] r LN F; try discriminate LN; [injection F as <-; reflexivity|].
    cbn [fills] in F. fold (fills sv) in F. bok F x Ex. bok F q Eqq. injection F as <-. cbn [fold_right]. rewrite (Hm k x Ex), (IHs l q ltac:(injection LN; auto) Eqq). reflexivity.
Qed.

Section Modules.
Variables (d : nat) (Q : mat).
Hypothesis HQ : rigid d Q.
Variable c : nat -> R.
Variables (sv sv' : solver) (b0 b0' : backend).
Hypothesis HSV : exact_solver sv.
Hypothesis HSV' : exact_solver sv'.
Variables (m m' : dmod) (cs cs' : option (list ctrl)).
Hypothesis W : wf_mod d m.
Hypothesis W' : wf_mod d m'.
Hypothesis LT : locals_total d m.
Hypothesis LT' : locals_total d m'.
Hypothesis EW : elsewhere d Q c m m'.
Hypothesis TC : turned_ctrls d Q m cs cs'.
Hypothesis CO : forall l x, cs = Some l -> In x l -> ctrl_ok d m x.
Hypothesis CO' : forall l x, cs' = Some l -> In x l -> ctrl_ok d m' x.
Notation g0 := (mod_manifold m).
Notation g0' := (mod_manifold m').
Notation ks := (kinds g0).
Notation shs := (map shape (phase g0)).

Lemma wf0 : wf_gman d g0. Proof. apply wf_mod_manifold. exact W. Qed.
Lemma wf0' : wf_gman d g0'. Proof. apply wf_mod_manifold. exact W'. Qed.
Lemma KS0 : kshapes d ks shs. Proof. apply wf_kshapes. exact wf0. Qed.
Lemma skel0 : skel g0' = skel g0.
Proof. destruct EW as (_ & ((K & _) & _)). rewrite skel_placed in K. exact K. Qed.
Lemma related0 : related d Q c ks shs (phase g0) (phase g0').
Proof. split; [reflexivity|]. apply (values_placed d Q c g0 g0' wf0). exact (proj2 EW). Qed.
Lemma shs0' : map shape (phase g0') = shs.
Proof. rewrite (leq_shape _ _ (proj2 related0)). apply (lplace_shape d Q c ks _ _ KS0). reflexivity. Qed.

Lemma state_pair l l' m1 m1' : related d Q c ks shs l l' -> write_manifold m l = Ok m1 -> write_manifold m' l' = Ok m1' ->
  wf_mod d m1 /\ wf_mod d m1' /\ elsewhere d Q c m1 m1' /\ exists g g', phase g = l /\ phase g' = l' /\ skel g = skel g0 /\ skel g' = skel g0' /\
    set_manifold m g = Ok m1 /\ set_manifold m' g' = Ok m1'.
Proof.
  intros (SL & E) A A'. assert (SL' : map shape l' = shs) by (rewrite (leq_shape _ _ E); apply (lplace_shape d Q c ks _ _ KS0); exact SL).
  destruct (phase_fill g0 l) as (g & Pg & Kg). { rewrite <- phase_len, <- (map_length shape l), SL, map_length. reflexivity. }
  destruct (phase_fill g0' l') as (g' & Pg' & Kg'). { rewrite <- phase_len, <- (map_length shape l'), SL', <- shs0', map_length. reflexivity. }
  rewrite <- Pg, (write_phase m g Kg) in A. rewrite <- Pg', (write_phase m' g' Kg') in A'.
  destruct (set_ok m g Kg) as (x & Ex & Mx & _). rewrite A in Ex. injection Ex as <-. destruct (set_ok m' g' Kg') as (x' & Ex' & Mx' & _). rewrite A' in Ex'. injection Ex' as <-.
  assert (SP : map shape (g_gd g) = map shape (g_gd g0) /\ map shape (g_cotan g) = map shape (g_cotan g0)).
  { apply app_shapes; [rewrite !g_gd_len; apply skel_len; exact Kg|]. unfold phase in Pg. rewrite Pg. exact SL. }
  assert (SP' : map shape (g_gd g') = map shape (g_gd g0') /\ map shape (g_cotan g') = map shape (g_cotan g0')).
  { apply app_shapes; [rewrite !g_gd_len; apply skel_len; exact Kg'|]. unfold phase in Pg'. rewrite Pg'. fold (phase g0'). rewrite shs0'. exact SL'. }
  pose proof (wf_set d m g m1 W LT Kg (proj1 SP) (proj2 SP) A) as W1. pose proof (wf_set d m' g' m1' W' LT' Kg' (proj1 SP') (proj2 SP') A') as W1'.
  split; [exact W1|]. split; [exact W1'|]. split; [|exists g, g'; auto 10]. split; [exact (twin_set d Q c m m' g g' m1 m1' (proj1 EW) A A')|].
  rewrite Mx, Mx'. pose proof (proj1 (wf_mod_manifold d m1 W1)) as WG. rewrite Mx in WG. apply placed_values; [exact WG|pose proof skel0; congruence|].
  rewrite Pg, Pg', (kinds_same g g0 Kg). exact E.
Qed.

(** Corresponding modules at corresponding states. *)
Lemma mods_pair i l l' m2 m2' : related d Q c ks shs l l' ->
  at_state m (step_controls sv b0 cs i) l = Ok m2 -> at_state m' (step_controls sv' b0' cs' i) l' = Ok m2' ->
  hamiltonian m2' = hamiltonian m2 /\ cost m2' = cost m2 /\ same_values (mod_manifold m2') (placed_man d Q c (mod_manifold m2)) /\
  (cs <> None \/ regular d m2' -> moved_to d Q c m2 m2' /\ turned_ctrl d Q m (controls m2) (controls m2')).
Proof.
  intros R A A'. unfold at_state in A, A'. bok A m1 Ew. bok A' m1' Ew'. destruct (state_pair l l' m1 m1' R Ew Ew') as (W1 & W1' & EW1 & g & g' & Pg & Pg' & Kg & Kg' & S1 & S1').
  unfold step_controls in A, A'. destruct cs as [x|], cs' as [x'|]; try contradiction TC; cbn [turned_ctrls] in TC.
  - destruct (nth_error x i) as [k|] eqn:Ek; [|discriminate A]. destruct (nth_error x' i) as [k'|] eqn:Ek'; [|discriminate A'].
    assert (T : turned_ctrl d Q m k k').
    { clear - TC Ek Ek'. pose proof TC as TC0. clear TC. revert i Ek Ek'. induction TC0 as [|y y' a b T _ IH]; intros [|i] Ek Ek'; try discriminate Ek; cbn [nth_error] in Ek, Ek'; [congruence|exact (IH i Ek Ek')]. }
    apply (turned_set d Q m g m1 k k' S1) in T.
    pose proof (proj2 (ctrl_set d m g m1 k S1) (CO x k eq_refl (nth_error_In _ _ Ek))) as O. pose proof (proj2 (ctrl_set d m' g' m1' k' S1') (CO' x' k' eq_refl (nth_error_In _ _ Ek'))) as O'.
    pose proof (module_goes d Q HQ c sv sv' HSV HSV' m1 m1' k k' m2 m2' W1 W1' EW1 O O' T A A') as MV.
    split; [exact (given_ham d Q HQ c sv sv' HSV HSV' m1 m1' k k' m2 m2' W1 W1' EW1 O O' T A A')|].
    split; [destruct MV as (v & f & f' & C1 & C2 & _); congruence|].
    split; [rewrite (fill_manifold sv m1 k m2 A), (fill_manifold sv' m1' k' m2' A'); exact (proj2 EW1)|]. intros _. split; [exact MV|].
    apply (turned_set d Q m g m1 _ _ S1). exact (turned_fill d Q c sv sv' m1 m1' k k' m2 m2' (proj1 EW1) T A A').
  - destruct (geodesic_ham d Q HQ c sv sv' b0 b0' HSV HSV' m1 m1' m2 m2' W1 W1' EW1 A A') as (HE & TT).
    destruct (hamiltonian_cost sv b0 d HSV m1 m2 W1 A) as (y & C1 & C2 & _). destruct (hamiltonian_cost sv' b0' d HSV' m1' m2' W1' A') as (y' & C1' & C2' & _).
    unfold geodesic_controls in A, A'. destruct (wf_mod_manifold d m1 W1) as (WM & NE). destruct (wf_mod_manifold d m1' W1') as (WM' & NE').
    destruct (geodesic_max sv b0 d HSV m1 _ m2 W1 WM NE A) as (O & F & _). destruct (geodesic_max sv' b0' d HSV' m1' _ m2' W1' WM' NE' A') as (O' & F' & _).
    split; [exact HE|]. split; [congruence|]. split; [rewrite (fill_manifold sv m1 _ m2 F), (fill_manifold sv' m1' _ m2' F'); exact (proj2 EW1)|].
    intros [N|RG]; [congruence|]. assert (RG1 : regular d m1') by (apply (regular_fill sv' d m1' _ m2' F'); exact RG). specialize (TT RG1).
    split; [|apply (turned_set d Q m g m1 _ _ S1); exact TT].
    exact (module_goes d Q HQ c sv sv' HSV HSV' m1 m1' _ _ m2 m2' W1 W1' EW1 O O' TT F F').
Qed.

Hypothesis smooth : forall i, smooth_on shs (ham_of m (step_controls sv b0 cs i)).

Lemma hams_pair i l l' k k' : related d Q c ks shs l l' -> hamilton (ham_of m (step_controls sv b0 cs i)) l k -> hamilton (ham_of m' (step_controls sv' b0' cs' i)) l' k' ->
  map shape k = shs /\ leq k' (lturn d Q ks k).
Proof.
  intros R HK HK'. split; [destruct HK as (S & _); rewrite S; exact (proj1 R)|].
  apply (hamilton_placed d Q HQ c ks shs (g_len g0) KS0) with (H := ham_of m (step_controls sv b0 cs i)) (H' := ham_of m' (step_controls sv' b0' cs' i)) (l := l) (l' := l'); try assumption.
  - intros j x y J X Y. exact (kinds_halves d Q g0 j x y J X Y).
  - rewrite map_length. apply phase_len.
  - intros x x' v v' S E V V'. unfold ham_of in V, V'. bok V y1 Ew. bok V y2 Ex. bok V' y1' Ew'. bok V' y2' Ex'.
    destruct (mods_pair i x x' y2 y2') as (HE & _); [split; assumption|unfold at_state; rewrite Ew; exact Ex|unfold at_state; rewrite Ew'; exact Ex'|]. congruence.
  - apply smooth.
  - apply R.
  - apply R.
Qed.
End Modules.
