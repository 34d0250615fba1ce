(** The attachments compute the varifold products of SpecAttachment. *)
From Coq Require Import Reals String List Arith Lia Lra Permutation Bool.
From Verif Require Import Py RSum Tensor TensorFacts SpecKernel KernelModel KernelFacts FieldModel Fl MeshModel AttachmentModel SpecAttachment VarifoldFacts.
Import ListNotations.
Open Scope R_scope.

(** ** Curves *)
Lemma close_ok x N d : shape x = [N; d] -> (0 < N)%nat -> exists c, close_shape x = Ok c /\ shape c = [(N + 1)%nat; d] /\
  forall i k, (i < N)%nat -> c @2 (1 + i)%nat k = x @2 ((i + 1) mod N)%nat k.
Proof.
  intros H L. unfold close_shape, nrows, ncols. rewrite H. cbn [tnth nth]. destruct (Nat.eqb_spec N 0); [lia|].
  eexists. split; [reflexivity|]. split; [reflexivity|]. intros i k Li. cbn [get mk2].
  destruct (Nat.ltb_spec (1 + i) N) as [G|G].
  - rewrite Nat.mod_small by lia. replace (i + 1)%nat with (1 + i)%nat by lia. reflexivity.
  - replace (i + 1)%nat with N by lia. rewrite Nat.mod_same by lia. reflexivity.
Qed.

Lemma inner_entry a b N M i j : shape a = [N; 2%nat] -> shape b = [M; 2%nat] ->
  (tensordot (transpose 1 2 (outer a b)) (eye 2) [2%nat; 3%nat] [0%nat; 1%nat]) @2 i j = rsum 2 (fun c => a @2 i c * b @2 j c).
Proof.
  intros Ha Hb. unfold tensordot, transpose, outer. cbn [shape get]. rewrite Ha, Hb. cbn. unfold delta. cbn. ring.
Qed.

Lemma pos_sq x : Rltb 0 (x ^ 2) = true \/ (Rltb 0 (x ^ 2) = false /\ x ^ 2 = 0).
Proof.
  destruct (Rltb 0 (x ^ 2)) eqn:E; [left; reflexivity|right]. split; [reflexivity|]. apply Rltb_false in E. pose proof (pow2_ge_0 x). lra.
Qed.

Lemma dot_varifold_ok x y N M sigma : sigma <> 0 -> shape x = [N; 2%nat] -> shape y = [M; 2%nat] -> (0 < N)%nat -> (0 < M)%nat ->
  dot_varifold x y sigma = Ok (shape_dot 2 sigma (edges x) (edges y)).
Proof.
  intros Hs Hx Hy LN LM. unfold dot_varifold.
  destruct (close_ok x N 2 Hx LN) as (cx & -> & Scx & Gcx). destruct (close_ok y M 2 Hy LM) as (cy & -> & Scy & Gcy). cbn [bind]. cbv zeta.
  assert (NX : nrows x = N) by (unfold nrows; rewrite Hx; reflexivity). assert (NY : nrows y = M) by (unfold nrows; rewrite Hy; reflexivity).
  f_equal. rewrite !edges_eq. unfold shape_dot. rewrite sumof_map, sumof_seq, !NX, !NY.
  apply rsum_ext. intros i Li. rewrite sumof_map, sumof_seq. apply rsum_ext. intros j Lj.
  set (vx := tsub (rows_from 1 N cx) x). set (vy := tsub (rows_from 1 M cy) y).
  set (mx := tscal (/ 2) (tadd (rows_from 1 N cx) x)). set (my := tscal (/ 2) (tadd (rows_from 1 M cy) y)).
  assert (Svx : shape vx = [N; 2%nat]) by (cbn; unfold ncols; rewrite Scx; reflexivity).
  assert (Svy : shape vy = [M; 2%nat]) by (cbn; unfold ncols; rewrite Scy; reflexivity).
  assert (Smx : shape mx = [N; 2%nat]) by (cbn; unfold ncols; rewrite Scx; reflexivity).
  assert (Smy : shape my = [M; 2%nat]) by (cbn; unfold ncols; rewrite Scy; reflexivity).
  assert (Gvx : forall c, vx @2 i c = vec (edge x i) c).
  { intros c. unfold vx, edge. cbn [vec]. unfold tsub, tmap2, rows_from. cbn [get mk2]. rewrite NX, <- Gcx by exact Li. reflexivity. }
  assert (Gvy : forall c, vy @2 j c = vec (edge y j) c).
  { intros c. unfold vy, edge. cbn [vec]. unfold tsub, tmap2, rows_from. cbn [get mk2]. rewrite NY, <- Gcy by exact Lj. reflexivity. }
  assert (Gmx : forall c, mx @2 i c = centre (edge x i) c).
  { intros c. unfold mx, edge. cbn [centre]. unfold tscal, tadd, tmap, tmap2, rows_from. cbn [get mk2]. rewrite NX, <- Gcx by exact Li. cbn [Nat.add]. lra. }
  assert (Gmy : forall c, my @2 j c = centre (edge y j) c).
  { intros c. unfold my, edge. cbn [centre]. unfold tscal, tadd, tmap, tmap2, rows_from. cbn [get mk2]. rewrite NY, <- Gcy by exact Lj. cbn [Nat.add]. lra. }
  unfold tmap at 1 2 3. cbn [get]. rewrite (inner_entry vx vy N M i j Svx Svy).
  assert (EV : rsum 2 (fun c => vx @2 i c * vy @2 j c) = dotv 2 (vec (edge x i)) (vec (edge y j))).
  { apply rsum_ext. intros c _. rewrite Gvx, Gvy. reflexivity. }
  rewrite EV.
  assert (EN : (outer (mk1 N (fun i => sqrt (rsum 2 (fun c => vx @2 i c ^ 2)))) (mk1 M (fun j => sqrt (rsum 2 (fun c => vy @2 j c ^ 2))))) @2 i j
               = normv 2 (vec (edge x i)) * normv 2 (vec (edge y j))).
  { unfold outer. cbn [get shape mk1 List.length firstn skipn]. unfold normv, sqn. f_equal; f_equal; apply rsum_ext; intros c _; [rewrite Gvx|rewrite Gvy]; reflexivity. }
  rewrite EN.
  assert (EK : exp (- (mk2 N M (fun i j => rsum 2 (fun c => mx @2 i c * mx @2 i c) + rsum 2 (fun c => my @2 j c * my @2 j c) -
      2 * (tensordot (transpose 1 2 (outer mx my)) (eye 2) [2%nat; 3%nat] [0%nat; 1%nat]) @2 i j)) @2 i j / (2 * sigma ^ 2))
      = gaussian 2 sigma (vsub (centre (edge x i)) (centre (edge y j)))).
  { cbn [get mk2]. rewrite (inner_entry mx my N M i j Smx Smy). unfold gaussian. f_equal. f_equal. f_equal. unfold sqn, vsub. cbn [rsum]. rewrite !Gmx, !Gmy. ring. }
  unfold pair_dot. rewrite <- EK.
  destruct (pos_sq (dotv 2 (vec (edge x i)) (vec (edge y j)))) as [E|(E & Z)]; rewrite E; [reflexivity|]. rewrite Z. unfold Rdiv. ring.
Qed.

Lemma cost2_ok x y N M fx fy sigma : sigma <> 0 -> shape x = [N; 2%nat] -> shape y = [M; 2%nat] -> (0 < N)%nat -> (0 < M)%nat ->
  cost_varifold2 Torch (mkGeo x fx) (mkGeo y fy) sigma = Ok (Fin (shape_dist2 2 sigma (edges x) (edges y))).
Proof.
  intros Hs Hx Hy LN LM. unfold cost_varifold2. cbn [g_points].
  rewrite (dot_varifold_ok x x N N), (dot_varifold_ok y y M M), (dot_varifold_ok x y N M) by assumption. reflexivity.
Qed.

(** ** Sums of floating-point values *)
Lemma fsum_fin n f g : (forall i, (i < n)%nat -> f i = Fin (g i)) -> fsum n f = Fin (rsum n g).
Proof.
  induction n as [|n IH]; intros H; [reflexivity|]. cbn [fsum rsum]. rewrite IH by (intros; apply H; lia). rewrite H by lia. reflexivity.
Qed.
Lemma fadd_nan_r a : fadd a NaN = NaN. Proof. destruct a; reflexivity. Qed.
Lemma fmul_nan_r a : fmul a NaN = NaN. Proof. destruct a; reflexivity. Qed.
Lemma fsum_nan n f i : (i < n)%nat -> f i = NaN -> fsum n f = NaN.
Proof.
  induction n as [|n IH]; intros L E; [lia|]. cbn [fsum]. destruct (Nat.eq_dec i n) as [->|NE]; [rewrite E; apply fadd_nan_r|].
  rewrite IH by (try exact E; lia). reflexivity.
Qed.
Lemma fold_fadd_fin {A} (g : A -> R) l a : fold_left fadd (map (fun x => Fin (g x)) l) (Fin a) = Fin (a + sumof g l).
Proof.
  revert a. induction l as [|x l IH]; intros a; cbn [map fold_left]; [unfold sumof; cbn; f_equal; ring|]. rewrite sumof_cons. cbn [fadd]. rewrite IH. f_equal. ring.
Qed.
Lemma fold_fadd_nan l : fold_left fadd l NaN = NaN.
Proof. induction l as [|a l IH]; cbn [fold_left]; [reflexivity|]. destruct a; exact IH. Qed.
Lemma fl_sum_fin {A} (g : A -> R) l : fl_sum (map (fun x => Fin (g x)) l) = Fin (sumof g l).
Proof. unfold fl_sum. rewrite fold_fadd_fin. f_equal. ring. Qed.
Lemma fl_sum_nan l : In NaN l -> fl_sum l = NaN.
Proof.
  unfold fl_sum. generalize (Fin 0). induction l as [|a l IH]; intros z; [intros []|]; intros [E|I]; cbn [fold_left].
  - subst a. rewrite fadd_nan_r. apply fold_fadd_nan.
  - apply IH. exact I.
Qed.

Lemma mapM_map {A B} (f : A -> res B) (g : A -> B) l : (forall a, In a l -> f a = Ok (g a)) -> mapM f l = Ok (map g l).
Proof.
  induction l as [|a l IH]; intros H; [reflexivity|]. cbn [mapM map]. rewrite (H a) by (left; reflexivity). cbn [bind].
  rewrite IH by (intros; apply H; right; assumption). reflexivity.
Qed.

(** ** Faces *)

(** The pieces made of computed centres and normals. *)
Definition pieces (C N : tensor) : list piece := map (fun i => mkPiece (vrow C i) (vrow N i)) (seq 0 (nrows N)).

(** Some piece has a zero vector. *)
Definition flat (P : list piece) : bool := existsb (fun p => Reqb (normv 3 (vec p)) 0) P.

Lemma flat_false P : flat P = false <-> Forall (fun p => normv 3 (vec p) <> 0) P.
Proof.
  unfold flat. induction P as [|p P IH]; cbn [existsb]; [split; [constructor|reflexivity]|].
  rewrite orb_false_iff, IH. split.
  - intros (E & F). constructor; [|exact F]. intros Z. apply Reqb_true in Z. congruence.
  - intros F. inversion F as [|? ? H F']; subst. split; [|exact F']. destruct (Reqb (normv 3 (vec p)) 0) eqn:E; [apply Reqb_true in E; contradiction|reflexivity].
Qed.

Definition computed (C N L : tensor) (F : nat) : Prop :=
  shape C = [F; 3%nat] /\ shape N = [F; 3%nat] /\ shape L = [F; 1%nat] /\
  forall i, (i < F)%nat -> L @2 i (0%nat) = normv 3 (vrow N i).

Lemma rdiv_nz x y : y <> 0 -> rdiv x y = Fin (x / y).
Proof. intros H. unfold rdiv. destruct (Reqb y 0) eqn:E; [apply Reqb_true in E; contradiction|reflexivity]. Qed.
Lemma rdiv_00 : rdiv 0 0 = NaN.
Proof. unfold rdiv. rewrite (proj2 (Reqb_true 0 0) eq_refl). reflexivity. Qed.

Lemma kernel_value b x y N M sigma i j : sigma <> 0 -> shape x = [N; 3%nat] -> shape y = [M; 3%nat] ->
  (match b with Torch => (K_xy x y sigma) @2 i j | Keops => exp (- keops_S sigma * sqnorm2 (tsub (row x i) (row y j)) / 2) end)
  = gaussian 3 sigma (vsub (vrow x i) (vrow y j)).
Proof.
  intros Hs Hx Hy. destruct b; [apply (K_xy_get x y N M 3); assumption|].
  unfold gaussian, keops_S. f_equal. replace (sqnorm2 (tsub (row x i) (row y j))) with (sqn 3 (vsub (vrow x i) (vrow y j))); [field; exact Hs|].
  unfold sqnorm2, sqn, row, tsub, tmap2, ncols. cbn [shape get mk1 tnth nth]. rewrite Hx. cbn [tnth nth]. reflexivity.
Qed.


Lemma varifold_dot_fin b C1 N1 L1 F1 C2 N2 L2 F2 sigma : sigma <> 0 -> computed C1 N1 L1 F1 -> computed C2 N2 L2 F2 ->
  flat (pieces C1 N1) = false -> flat (pieces C2 N2) = false ->
  varifold_dot b C1 C2 L1 L2 (normalized N1 L1) (normalized N2 L2) sigma = Fin (shape_dot 3 sigma (pieces C1 N1) (pieces C2 N2)).
Proof.
  intros Hs (SC1 & SN1 & SL1 & E1) (SC2 & SN2 & SL2 & E2) FL1 FL2.
  apply flat_false in FL1, FL2. unfold pieces in FL1, FL2. rewrite Forall_forall in FL1, FL2.
  assert (R1 : nrows N1 = F1) by (unfold nrows; rewrite SN1; reflexivity). assert (R2 : nrows N2 = F2) by (unfold nrows; rewrite SN2; reflexivity).
  assert (Z1 : forall i, (i < F1)%nat -> normv 3 (vrow N1 i) <> 0).
  { intros i L. apply (FL1 (mkPiece (vrow C1 i) (vrow N1 i))). apply in_map_iff. exists i. split; [reflexivity|]. apply in_seq. lia. }
  assert (Z2 : forall i, (i < F2)%nat -> normv 3 (vrow N2 i) <> 0).
  { intros i L. apply (FL2 (mkPiece (vrow C2 i) (vrow N2 i))). apply in_map_iff. exists i. split; [reflexivity|]. apply in_seq. lia. }
  unfold varifold_dot, shape_dot, pieces. rewrite sumof_map, sumof_seq, R1. replace (nrows C1) with F1 by (unfold nrows; rewrite SC1; reflexivity).
  apply fsum_fin. intros i Li. rewrite sumof_map, sumof_seq, R2. replace (nrows C2) with F2 by (unfold nrows; rewrite SC2; reflexivity).
  assert (U : forall j, (j < F2)%nat -> fsum 3 (fun c => fmul (normalized N1 L1 i c) (normalized N2 L2 j c)) =
    Fin (dotv 3 (vrow N1 i) (vrow N2 j) / (normv 3 (vrow N1 i) * normv 3 (vrow N2 j)))).
  { intros j Lj. rewrite (fsum_fin 3 _ (fun c => N1 @2 i c / normv 3 (vrow N1 i) * (N2 @2 j c / normv 3 (vrow N2 j)))).
    - f_equal. unfold dotv. rewrite <- rsum_div. apply rsum_ext. intros c _. change (vrow N1 i c) with (N1 @2 i c). change (vrow N2 j c) with (N2 @2 j c). field. auto.
    - intros c _. unfold normalized. rewrite (E1 i Li), (E2 j Lj), !rdiv_nz by auto. reflexivity. }
  assert (V : forall k, (forall j, (j < F2)%nat -> k j = gaussian 3 sigma (vsub (vrow C1 i) (vrow C2 j))) ->
    fmul (Fin (L1 @2 i (0%nat))) (fsum F2 (fun j => fmul (fmul (Fin (k j)) (fmul (fsum 3 (fun c => fmul (normalized N1 L1 i c) (normalized N2 L2 j c))) (fsum 3 (fun c => fmul (normalized N1 L1 i c) (normalized N2 L2 j c))))) (Fin (L2 @2 j (0%nat))))) =
    Fin (rsum F2 (fun j => pair_dot 3 sigma (mkPiece (vrow C1 i) (vrow N1 i)) (mkPiece (vrow C2 j) (vrow N2 j))))).
  { intros k Hk. rewrite (fsum_fin F2 _ (fun j => gaussian 3 sigma (vsub (vrow C1 i) (vrow C2 j)) *
      (dotv 3 (vrow N1 i) (vrow N2 j) / (normv 3 (vrow N1 i) * normv 3 (vrow N2 j)) * (dotv 3 (vrow N1 i) (vrow N2 j) / (normv 3 (vrow N1 i) * normv 3 (vrow N2 j)))) * normv 3 (vrow N2 j))).
    - cbn [fmul]. f_equal. rewrite <- rsum_scal. apply rsum_ext. intros j Lj. unfold pair_dot. cbn [centre vec]. rewrite (E1 i Li). field. auto.
    - intros j Lj. rewrite U, Hk, E2 by exact Lj. reflexivity. }
  destruct b; apply V; intros j _; [apply (kernel_value Torch C1 C2 F1 F2)|apply (kernel_value Keops C1 C2 F1 F2)]; assumption.
Qed.

Lemma varifold_dot_nan b C N L F sigma : computed C N L F -> flat (pieces C N) = true ->
  varifold_dot b C C L L (normalized N L) (normalized N L) sigma = NaN.
Proof.
  intros (SC & SN & SL & E) FL. apply existsb_exists in FL. destruct FL as (p & I & Z). apply Reqb_true in Z. unfold pieces in I. apply in_map_iff in I.
  destruct I as (i & <- & I). apply in_seq in I. cbn [vec] in Z. assert (Li : (i < F)%nat) by (unfold nrows in I; rewrite SN in I; cbn in I; lia).
  assert (R : nrows C = F) by (unfold nrows; rewrite SC; reflexivity).
  assert (U : fsum 3 (fun c => fmul (normalized N L i c) (normalized N L i c)) = NaN).
  { apply (fsum_nan 3 _ 0); [lia|]. unfold normalized. rewrite (E i Li), Z. change (N @2 i (0%nat)) with (vrow N i (0%nat)).
    rewrite (proj1 (normv_zero 3 _) Z) by lia. rewrite rdiv_00. reflexivity. }
  unfold varifold_dot. rewrite R. apply (fsum_nan F _ i Li).
  destruct b; (match goal with |- fmul _ (fsum F ?f) = _ => assert (X : f i = NaN) by (cbn beta; rewrite U; cbn [fmul]; reflexivity) end);
    rewrite (fsum_nan F _ i Li X); apply fmul_nan_r.
Qed.

(** ** compute_centers_normals_lengths *)
Definition no_face : face := (0, 0, 0)%nat.

Lemma select_ok v n fs k : shape v = [n; 3%nat] -> (k < 3)%nat -> valid_faces v fs ->
  select_corner v fs k = Ok (mk2 (length fs) 3 (fun i c => at_corner v k (nth i fs no_face) c)).
Proof.
  intros H K V. unfold select_corner. replace (ncols v) with 3%nat by (unfold ncols; rewrite H; reflexivity).
  rewrite (proj2 (forallb_forall _ fs)); [reflexivity|]. intros f I. apply Nat.ltb_lt. unfold valid_faces in V. rewrite Forall_forall in V. apply V; assumption.
Qed.

Lemma compute_invalid v fs : ~ valid_faces v fs -> compute_centers_normals_lengths v fs = Err IndexError.
Proof.
  intros NV. unfold compute_centers_normals_lengths, select_corner.
  destruct (forallb (fun f => corner 0 f <? nrows v)%nat fs) eqn:E0; [|reflexivity]. cbn [bind].
  destruct (forallb (fun f => corner 1 f <? nrows v)%nat fs) eqn:E1; [|reflexivity]. cbn [bind].
  destruct (forallb (fun f => corner 2 f <? nrows v)%nat fs) eqn:E2; [|reflexivity]. exfalso. apply NV. unfold valid_faces. apply Forall_forall.
  rewrite forallb_forall in E0, E1, E2. intros f I k K. specialize (E0 f I). specialize (E1 f I). specialize (E2 f I). apply Nat.ltb_lt in E0, E1, E2.
  destruct k as [|[|[|k]]]; try assumption; lia.
Qed.

Lemma compute_ok v n fs : shape v = [n; 3%nat] -> valid_faces v fs ->
  exists C N L, compute_centers_normals_lengths v fs = Ok (C, N, L) /\ computed C N L (length fs) /\
    (forall i c, C @2 i c = 3 / 2 * barycentre v (nth i fs no_face) c) /\
    (length fs <> 3%nat -> forall i c, (c < 3)%nat -> N @2 i c = area_normal v (nth i fs no_face) c).
Proof.
  intros H V. unfold compute_centers_normals_lengths. rewrite !(select_ok v n) by (try assumption; lia). cbn [bind]. cbv zeta.
  set (v0 := mk2 (length fs) 3 (fun i c => at_corner v 0 (nth i fs no_face) c)). set (v1 := mk2 (length fs) 3 (fun i c => at_corner v 1 (nth i fs no_face) c)).
  set (v2 := mk2 (length fs) 3 (fun i c => at_corner v 2 (nth i fs no_face) c)).
  set (N := tscal (1 / 2) (cross (tsub v1 v0) (tsub v2 v0))).
  assert (SN : shape N = [length fs; 3%nat]).
  { unfold N. cbn [tscal tmap shape]. unfold cross, nrows, ncols. cbn [tsub tmap2 shape v1 mk2 tnth nth]. destruct (Nat.eqb_spec (length fs) 3) as [->|]; reflexivity. }
  eexists _, N, _. split; [reflexivity|]. split; [|split].
  - split; [reflexivity|]. split; [exact SN|]. unfold nrows, ncols. rewrite SN. cbn [tnth nth]. split; [reflexivity|]. intros i _. cbn [get mk2]. reflexivity.
  - intros i c. unfold tscal, tadd, tmap, tmap2. cbn [get v0 v1 v2 mk2]. unfold barycentre. lra.
  - intros NE i c Lc. unfold N, cross, nrows. cbn [tsub tmap2 shape v1 mk2 tnth nth]. destruct (Nat.eqb_spec (length fs) 3) as [|_]; [contradiction|].
    unfold tscal, tmap, area_normal, cross3, vsub. cbn [get tsub tmap2 v0 v1 v2 mk2].
    destruct c as [|[|[|c]]]; [| | |lia]; cbn; ring.
Qed.

(** The pieces that are compared: the faces, with the centres the code computes. *)
Definition scaled_piece (v : tensor) (f : face) : piece := mkPiece (fun c => 3 / 2 * barycentre v f c) (area_normal v f).

Definition piece_eq (d : nat) (p q : piece) : Prop :=
  forall c, (c < d)%nat -> centre p c = centre q c /\ vec p c = vec q c.
Lemma piece_eq_unoriented d p q : piece_eq d p q -> unoriented d p q.
Proof. intros H. split; [|left]; intros c L; apply H; exact L. Qed.
Lemma eq_same d P Q : Forall2 (piece_eq d) P Q -> same_shape d P Q.
Proof. intros F. exists P. split; [apply Permutation_refl|]. induction F; constructor; [apply piece_eq_unoriented|]; assumption. Qed.
Lemma normv_ext d u v : (forall c, (c < d)%nat -> u c = v c) -> normv d u = normv d v.
Proof. intros H. unfold normv, sqn. f_equal. apply rsum_ext. intros c L. rewrite H by exact L. reflexivity. Qed.

Lemma same_flat P Q : same_shape 3 P Q -> flat P = flat Q.
Proof.
  intros (H & PE & F). transitivity (flat H).
  - unfold flat. clear F. induction PE as [|x l l' _ IH|x y l|l1 l2 l3 _ IH1 _ IH2]; cbn [existsb]; [reflexivity|rewrite IH; reflexivity| |congruence].
    destruct (Reqb (normv 3 (vec x)) 0), (Reqb (normv 3 (vec y)) 0); reflexivity.
  - clear PE. unfold flat. induction F as [|p q H' Q' U _ IH]; [reflexivity|]. cbn [existsb]. rewrite IH, (unoriented_norm 3 p q U). reflexivity.
Qed.

Lemma pieces_faces v fs C N L : computed C N L (length fs) -> (forall i c, C @2 i c = 3 / 2 * barycentre v (nth i fs no_face) c) ->
  (forall i c, (c < 3)%nat -> N @2 i c = area_normal v (nth i fs no_face) c) -> same_shape 3 (pieces C N) (map (scaled_piece v) fs).
Proof.
  intros (_ & SN & _) HC HN. apply eq_same. unfold pieces. replace (nrows N) with (length fs) by (unfold nrows; rewrite SN; reflexivity).
  assert (H : forall k l, fs = k ++ l -> Forall2 (piece_eq 3) (map (fun i => mkPiece (vrow C i) (vrow N i)) (seq (length k) (length l))) (map (scaled_piece v) l)).
  2: { apply (H [] fs). reflexivity. }
  intros k l. revert k. induction l as [|f l IH]; intros k E; [constructor|]. cbn [length seq map]. constructor.
  - intros c Lc. cbn [centre vec scaled_piece]. unfold vrow. rewrite HC, HN by exact Lc. rewrite E, app_nth2, Nat.sub_diag by lia. split; reflexivity.
  - replace (S (length k)) with (length (k ++ [f])) by (rewrite app_length; cbn; lia). apply IH. rewrite E, <- app_assoc. reflexivity.
Qed.

(** The cost of two meshes as a function of the pieces. *)
Definition cost_value (sigma : R) (P Q : list piece) : fl :=
  if (flat P || flat Q)%bool then NaN else Fin (shape_dist2 3 sigma P Q).

Lemma cost3_general b vs ns fs fc vt nt ft : shape vs = [ns; 3%nat] -> shape vt = [nt; 3%nat] -> valid_faces vs fs -> valid_faces vt ft -> fc = Some fs ->
  exists C N L C' N' L', compute_centers_normals_lengths vs fs = Ok (C, N, L) /\ compute_centers_normals_lengths vt ft = Ok (C', N', L') /\
    forall sigma, sigma <> 0 -> cost_varifold3 b (mkGeo vs fc) (mkGeo vt (Some ft)) sigma = Ok (cost_value sigma (pieces C N) (pieces C' N')).
Proof.
  intros Hs Ht Vs Vt ->. destruct (compute_ok vs ns fs Hs Vs) as (C & N & L & E & G & _). destruct (compute_ok vt nt ft Ht Vt) as (C' & N' & L' & E' & G' & _).
  exists C, N, L, C', N', L'. split; [exact E|]. split; [exact E'|]. intros sigma Hg. unfold cost_varifold3, unpack_mesh. cbn [g_faces g_points bind]. rewrite E, E'. cbn [bind].
  unfold cost_value. destruct (flat (pieces C' N')) eqn:F'.
  - rewrite (varifold_dot_nan b C' N' L' _ sigma G' F'). rewrite orb_true_r. reflexivity.
  - destruct (flat (pieces C N)) eqn:F.
    + rewrite (varifold_dot_nan b C N L _ sigma G F), fadd_nan_r. reflexivity.
    + rewrite (varifold_dot_fin b C' N' L' (length ft) C' N' L' (length ft) sigma Hg G' G' F' F'), (varifold_dot_fin b C N L (length fs) C N L (length fs) sigma Hg G G F F), (varifold_dot_fin b C N L (length fs) C' N' L' (length ft) sigma Hg G G' F F').
      unfold shape_dist2. cbn. f_equal. f_equal. ring.
Qed.

(** The effective scale. *)
Lemma scaled_dist2 sigma vs fs vt ft : sigma <> 0 ->
  shape_dist2 3 sigma (map (scaled_piece vs) fs) (map (scaled_piece vt) ft) = shape_dist2 3 (2 / 3 * sigma) (map (face_piece vs) fs) (map (face_piece vt) ft).
Proof.
  intros Hs.
  assert (P : forall v f w g, pair_dot 3 sigma (scaled_piece v f) (scaled_piece w g) = pair_dot 3 (2 / 3 * sigma) (face_piece v f) (face_piece w g)).
  { intros v f w g. unfold pair_dot. cbn [centre vec scaled_piece face_piece]. f_equal. f_equal. unfold gaussian. f_equal. unfold sqn, vsub.
    rewrite (rsum_ext 3 _ (fun c => 9 / 4 * (barycentre v f c - barycentre w g c) ^ 2)) by (intros; field). rewrite rsum_scal. field. exact Hs. }
  assert (D : forall v A w B, shape_dot 3 sigma (map (scaled_piece v) A) (map (scaled_piece w) B) = shape_dot 3 (2 / 3 * sigma) (map (face_piece v) A) (map (face_piece w) B)).
  { intros v A w B. unfold shape_dot. rewrite !sumof_map. apply sumof_ext. intros f _. rewrite !sumof_map. apply sumof_ext. intros g _. apply P. }
  unfold shape_dist2. rewrite !D. reflexivity.
Qed.

Lemma flat_scaled v fs : flat (map (scaled_piece v) fs) = flat (map (face_piece v) fs).
Proof. unfold flat. induction fs as [|f fs IH]; [reflexivity|]. cbn [map existsb]. rewrite IH. reflexivity. Qed.

Lemma cost_value_same s P P' Q Q' : same_shape 3 P P' -> same_shape 3 Q Q' -> cost_value s P Q = cost_value s P' Q'.
Proof.
  intros H K. unfold cost_value. rewrite (same_flat P P' H), (same_flat Q Q' K). destruct (flat P' || flat Q')%bool; [reflexivity|].
  rewrite (same_dist2 3 s P P' Q H), (shape_dist2_sym 3 s P' Q), (same_dist2 3 s Q Q' P' K), shape_dist2_sym. reflexivity.
Qed.

(** The cost of two meshes that do not have three faces. *)
Lemma cost3_ok b vs ns fs vt nt ft sigma : shape vs = [ns; 3%nat] -> shape vt = [nt; 3%nat] -> valid_faces vs fs -> valid_faces vt ft ->
  length fs <> 3%nat -> length ft <> 3%nat -> sigma <> 0 ->
  cost_varifold3 b (mkGeo vs (Some fs)) (mkGeo vt (Some ft)) sigma = Ok (cost_value (2 / 3 * sigma) (map (face_piece vs) fs) (map (face_piece vt) ft)).
Proof.
  intros Hs Ht Vs Vt Ls Lt Hg. destruct (cost3_general b vs ns fs _ vt nt ft Hs Ht Vs Vt eq_refl) as (C & N & L & C' & N' & L' & E & E' & H). rewrite H by exact Hg. f_equal.
  destruct (compute_ok vs ns fs Hs Vs) as (C0 & N0 & L0 & E0 & G0 & HC0 & HN0). rewrite E0 in E. injection E as -> -> ->.
  destruct (compute_ok vt nt ft Ht Vt) as (C1 & N1 & L1 & E1 & G1 & HC1 & HN1). rewrite E1 in E'. injection E' as -> -> ->.
  rewrite (cost_value_same sigma _ (map (scaled_piece vs) fs) _ (map (scaled_piece vt) ft)).
  - unfold cost_value. rewrite !flat_scaled, scaled_dist2 by exact Hg. reflexivity.
  - apply (pieces_faces vs fs C N L); auto.
  - apply (pieces_faces vt ft C' N' L'); auto.
Qed.

(** ** Losses *)
Lemma loss2_ok w sigmas x y N M fx fy : Forall (fun s => s <> 0) sigmas -> shape x = [N; 2%nat] -> shape y = [M; 2%nat] -> (0 < N)%nat -> (0 < M)%nat ->
  loss (AVar2 w Torch sigmas) (mkGeo x fx) (mkGeo y fy) = Ok (Fin (sumof (fun s => shape_dist2 2 s (edges x) (edges y)) sigmas)).
Proof.
  intros Hs Hx Hy LN LM. cbn [loss]. rewrite (mapM_map _ (fun s => Fin (shape_dist2 2 s (edges x) (edges y)))).
  - cbn [bind]. rewrite fl_sum_fin. reflexivity.
  - intros s I. rewrite Forall_forall in Hs. apply (cost2_ok x y N M); auto.
Qed.

(** The value of the loss of two meshes. *)
Definition losses (sigmas : list R) (P Q : list piece) : fl := fl_sum (map (fun s => cost_value s P Q) sigmas).

Lemma losses_fin sigmas P Q : flat P = false -> flat Q = false -> losses sigmas P Q = Fin (sumof (fun s => shape_dist2 3 s P Q) sigmas).
Proof. intros A B. unfold losses, cost_value. rewrite A, B. cbn [orb]. apply (fl_sum_fin (fun s => shape_dist2 3 s P Q)). Qed.
Lemma losses_nan sigmas P Q : sigmas <> [] -> (flat P || flat Q)%bool = true -> losses sigmas P Q = NaN.
Proof. intros NE E. unfold losses, cost_value. rewrite E. apply fl_sum_nan. destruct sigmas; [congruence|]. left. reflexivity. Qed.

Lemma loss3_general w b sigmas vs ns fs vt nt ft : Forall (fun s => s <> 0) sigmas -> shape vs = [ns; 3%nat] -> shape vt = [nt; 3%nat] -> valid_faces vs fs -> valid_faces vt ft ->
  exists C N L C' N' L', compute_centers_normals_lengths vs fs = Ok (C, N, L) /\ compute_centers_normals_lengths vt ft = Ok (C', N', L') /\
    loss (AVar3 w b sigmas) (mkGeo vs (Some fs)) (mkGeo vt (Some ft)) = Ok (losses sigmas (pieces C N) (pieces C' N')).
Proof.
  intros Hg Hs Ht Vs Vt. destruct (cost3_general b vs ns fs _ vt nt ft Hs Ht Vs Vt eq_refl) as (C & N & L & C' & N' & L' & E & E' & H).
  exists C, N, L, C', N', L'. split; [exact E|]. split; [exact E'|]. cbn [loss]. rewrite (mapM_map _ (fun s => cost_value s (pieces C N) (pieces C' N'))); [reflexivity|].
  intros s I. rewrite Forall_forall in Hg. apply H. apply Hg. exact I.
Qed.

Lemma loss3_ok w b sigmas vs ns fs vt nt ft : Forall (fun s => s <> 0) sigmas -> shape vs = [ns; 3%nat] -> shape vt = [nt; 3%nat] -> valid_faces vs fs -> valid_faces vt ft ->
  length fs <> 3%nat -> length ft <> 3%nat ->
  loss (AVar3 w b sigmas) (mkGeo vs (Some fs)) (mkGeo vt (Some ft)) = Ok (losses (map (Rmult (2 / 3)) sigmas) (map (face_piece vs) fs) (map (face_piece vt) ft)).
Proof.
  intros Hg Hs Ht Vs Vt Ls Lt. cbn [loss]. rewrite (mapM_map _ (fun s => cost_value (2 / 3 * s) (map (face_piece vs) fs) (map (face_piece vt) ft))).
  - cbn [bind]. unfold losses. rewrite map_map. reflexivity.
  - intros s I. rewrite Forall_forall in Hg. apply (cost3_ok b vs ns fs vt nt ft); auto.
Qed.
Lemma loss3_invalid w b sigmas vs fs t : sigmas <> [] -> ~ valid_faces vs fs -> g_faces t <> None ->
  loss (AVar3 w b sigmas) (mkGeo vs (Some fs)) t = Err IndexError.
Proof.
  intros NE NV G. destruct sigmas as [|s ss]; [congruence|]. cbn [loss mapM bind]. unfold cost_varifold3 at 1. cbn [unpack_mesh g_faces g_points bind].
  unfold unpack_mesh. destruct (g_faces t); [|congruence]. cbn [bind]. rewrite (compute_invalid vs fs NV). reflexivity.
Qed.
