(** Lemmas for PropUnitsReg. *)
From Coq Require Import Reals String List Arith Lia Lra.
From Verif Require Import Py RSum Tensor TensorFacts KernelModel KernelFacts FieldModel Fl MeshModel AttachmentModel
  SpecKernel SpecAttachment VarifoldFacts AttachmentFacts VarifoldMoves PropAttachment
  GeometryModel ModuleModel ShootingModel RegistrationModel SpecField SpecGeometry SpecModule SpecShooting SpecMotion SpecTransport SpecRegistration SpecRigid SpecElsewhere
  GeometryFacts ModuleHistory ModuleLeaves ModuleMain ShootingPack ShootingDyn ShootingInst TransportFacts MotionShoot MotionMomentum RegistrationRun RegistrationShoot RigidField RigidShoot PropRigid ElsewhereFacts
  SpecUnits SpecUnitsReg.
Import ListNotations.
Open Scope R_scope.

(** ** Losses *)
Lemma fmul_fadd k a b : 0 < k -> fmul (Fin k) (fadd a b) = fadd (fmul (Fin k) a) (fmul (Fin k) b).
Proof.
  intros K. assert (N : Reqb k 0 = false) by (destruct (Reqb k 0) eqn:Q; [apply Reqb_true in Q; lra|reflexivity]).
  assert (L : Rltb k 0 = false) by (destruct (Rltb k 0) eqn:Q; [apply Rltb_true in Q; lra|reflexivity]).
  destruct a, b; cbn [fadd fmul]; rewrite ?N, ?L; cbn [fadd]; try reflexivity. f_equal. ring.
Qed.
Lemma fmul_sum k l : 0 < k -> fmul (Fin k) (fl_sum l) = fl_sum (map (fmul (Fin k)) l).
Proof.
  intros K. unfold fl_sum. assert (G : forall z, fmul (Fin k) (fold_left fadd l z) = fold_left fadd (map (fmul (Fin k)) l) (fmul (Fin k) z)).
  { induction l as [|a l IH]; intros z; [reflexivity|]. cbn [fold_left map]. rewrite IH, fmul_fadd by exact K. reflexivity. }
  rewrite G. cbn [fmul]. rewrite Rmult_0_r. reflexivity.
Qed.
Lemma fmul_weight k w l : 0 < k -> fmul (Fin w) (fmul (Fin k) l) = fmul (Fin k) (fmul (Fin w) l).
Proof.
  intros K. assert (N : Reqb k 0 = false) by (destruct (Reqb k 0) eqn:Q; [apply Reqb_true in Q; lra|reflexivity]).
  assert (L : Rltb k 0 = false) by (destruct (Rltb k 0) eqn:Q; [apply Rltb_true in Q; lra|reflexivity]).
  destruct l; cbn [fmul]; rewrite ?N, ?L; cbn [fmul]; try reflexivity; [f_equal; ring|..]; destruct (Reqb w 0); try reflexivity; destruct (Rltb w 0); cbn [fneg fmul]; rewrite ?N, ?L; reflexivity.
Qed.

(** ** Pieces *)
Definition grown (d : nat) (u v : R) (p p' : piece) : Prop :=
  forall c, (c < d)%nat -> centre p' c = u * centre p c /\ SpecAttachment.vec p' c = v * SpecAttachment.vec p c.

Lemma grown_dotv d u v p p' q q' : grown d u v p p' -> grown d u v q q' -> dotv d (SpecAttachment.vec p') (SpecAttachment.vec q') = v * v * dotv d (SpecAttachment.vec p) (SpecAttachment.vec q).
Proof.
  intros P Q. unfold dotv. rewrite (rsum_ext d _ (fun c => SpecAttachment.vec p c * SpecAttachment.vec q c * (v * v))) by (intros c L; rewrite (proj2 (P c L)), (proj2 (Q c L)); ring).
  rewrite rsum_scal_r. ring.
Qed.
Lemma grown_norm d u v p p' : 0 < v -> grown d u v p p' -> normv d (SpecAttachment.vec p') = v * normv d (SpecAttachment.vec p).
Proof.
  intros V P. unfold normv. rewrite !sqn_dotv, (grown_dotv d u v p p' p p' P P), sqrt_mult_alt by (apply Rle_0_sqr || (pose proof (Rle_0_sqr v); unfold Rsqr in *; lra)). rewrite sqrt_square by lra. reflexivity.
Qed.
Lemma grown_pair d u v s p p' q q' : 0 < u -> 0 < v -> s <> 0 -> grown d u v p p' -> grown d u v q q' -> pair_dot d (u * s) p' q' = v * v * pair_dot d s p q.
Proof.
  intros U V Hs P Q. unfold pair_dot. rewrite (grown_dotv d u v p p' q q' P Q), (grown_norm d u v p p' V P), (grown_norm d u v q q' V Q).
  assert (G : gaussian d (u * s) (vsub (centre p') (centre q')) = gaussian d s (vsub (centre p) (centre q))).
  { unfold gaussian. f_equal. unfold sqn. rewrite (rsum_ext d _ (fun c => vsub (centre p) (centre q) c ^ 2 * (u * u))) by (intros c L; unfold vsub; rewrite (proj1 (P c L)), (proj1 (Q c L)); ring).
    rewrite rsum_scal_r. field. split; [exact Hs|lra]. }
  rewrite G. unfold Rdiv. rewrite !Rinv_mult. generalize (/ normv d (SpecAttachment.vec p)) (/ normv d (SpecAttachment.vec q)). intros a b. field. lra.
Qed.
Lemma grown_dot d u v s P P' Q Q' : 0 < u -> 0 < v -> s <> 0 -> Forall2 (grown d u v) P P' -> Forall2 (grown d u v) Q Q' -> shape_dot d (u * s) P' Q' = v * v * shape_dot d s P Q.
Proof.
  intros U V Hs HP HQ. unfold shape_dot. rewrite <- sumof_scal. symmetry. apply sumof_Forall2. induction HP as [|p p' P P' A _ IH]; constructor; [|exact IH].
  rewrite <- sumof_scal. apply sumof_Forall2. clear IH. induction HQ as [|q q' Q Q' B _ IH]; constructor; [|exact IH]. symmetry. apply (grown_pair d u); assumption.
Qed.
Lemma grown_dist2 d u v s P P' Q Q' : 0 < u -> 0 < v -> s <> 0 -> Forall2 (grown d u v) P P' -> Forall2 (grown d u v) Q Q' -> shape_dist2 d (u * s) P' Q' = v * v * shape_dist2 d s P Q.
Proof. intros U V Hs HP HQ. unfold shape_dist2. rewrite !(grown_dot d u v s _ _ _ _ U V Hs) by eassumption. ring. Qed.

Lemma units_at u N d x x' : shape x = [N; d] -> teq x' (tscal u x) -> shape x' = [N; d] /\ forall i a, (i < N)%nat -> (a < d)%nat -> x' @2 i a = u * x @2 i a.
Proof.
  intros Hx (S & G). cbn in S. split; [congruence|]. intros i a Hi Ha. rewrite (G [i; a]) by (rewrite S, Hx; cbn; tauto). reflexivity.
Qed.
Lemma edges_grown u N x x' : shape x = [N; 2%nat] -> teq x' (tscal u x) -> Forall2 (grown 2 u u) (edges x) (edges x').
Proof.
  intros Hx T. destruct (units_at u N 2 x x' Hx T) as (Hx' & G). unfold edges, nrows. rewrite Hx, Hx'. cbn [tnth nth]. apply Forall2_map'. intros i I. apply in_seq in I. intros a Ha. cbn [centre SpecAttachment.vec].
  assert (L : ((i + 1) mod N < N)%nat) by (apply Nat.mod_upper_bound; lia). rewrite !G by (try exact L; try exact Ha; lia). split; lra.
Qed.
Lemma faces_grown u N v v' fs : shape v = [N; 3%nat] -> valid_faces v fs -> teq v' (tscal u v) -> Forall2 (grown 3 u (u * u)) (map (face_piece v) fs) (map (face_piece v') fs).
Proof.
  intros Hv V T. destruct (units_at u N 3 v v' Hv T) as (Hv' & G). apply Forall2_map'. intros f I. unfold valid_faces in V. rewrite Forall_forall in V. specialize (V f I). unfold nrows in V. rewrite Hv in V. cbn [tnth nth] in V.
  assert (A : forall k a, (k < 3)%nat -> (a < 3)%nat -> at_corner v' k f a = u * at_corner v k f a) by (intros k a Hk Ha; apply G; [apply V; exact Hk|exact Ha]).
  intros a Ha. cbn [centre SpecAttachment.vec face_piece]. split; [unfold barycentre; rewrite !A by (try exact Ha; lia); lra|].
  unfold area_normal. destruct a as [|[|[|a]]]; [| | |lia]; cbn [cross3]; unfold vsub; rewrite !A by lia; ring.
Qed.
Lemma flat_grown u v P P' : 0 < v -> Forall2 (grown 3 u v) P P' -> flat P' = flat P.
Proof.
  intros V F. unfold flat. induction F as [|p p' P P' A _ IH]; [reflexivity|]. cbn [existsb]. rewrite IH, (grown_norm 3 u v p p' V A). f_equal.
  generalize (normv 3 (SpecAttachment.vec p)). intros n. destruct (Reqb n 0) eqn:Q; destruct (Reqb (v * n) 0) eqn:Q'; try reflexivity.
  - apply Reqb_true in Q. subst n. rewrite Rmult_0_r in Q'. assert (X : Reqb 0 0 = true) by (apply Reqb_true; reflexivity). congruence.
  - apply Reqb_true in Q'. apply Rmult_integral in Q'. destruct Q' as [Q'|Q']; [lra|]. apply Reqb_true in Q'. congruence.
Qed.
Lemma cost_grown u s P P' Q Q' : 0 < u -> s <> 0 -> Forall2 (grown 3 u (u * u)) P P' -> Forall2 (grown 3 u (u * u)) Q Q' -> cost_value (u * s) P' Q' = fmul (Fin (u ^ 4)) (cost_value s P Q).
Proof.
  intros U Hs HP HQ. assert (V : 0 < u * u) by (apply Rmult_lt_0_compat; exact U). unfold cost_value. rewrite (flat_grown u (u * u) P P' V HP), (flat_grown u (u * u) Q Q' V HQ).
  destruct (flat P || flat Q)%bool; [reflexivity|]. cbn [fmul]. f_equal. rewrite (grown_dist2 3 u (u * u) s P P' Q Q') by assumption. ring.
Qed.

Lemma euclid_units u N d x y x' y' : 0 < u -> shape x = [N; d] -> shape y = [N; d] -> teq x' (tscal u x) -> teq y' (tscal u y) -> euclid_loss x' y' = u * euclid_loss x y.
Proof.
  intros U Hx Hy Tx Ty. destruct (units_at u N d x x' Hx Tx) as (Sx & Gx). destruct (units_at u N d y y' Hy Ty) as (Sy & Gy).
  unfold euclid_loss, nrows, ncols. rewrite Sx, Hx. cbn [tnth nth]. rewrite (Rmult_comm u), <- rsum_scal_r. apply rsum_ext. intros i Hi.
  rewrite (rsum_ext d (fun c => (x' @2 i c - y' @2 i c) ^ 2) (fun c => (x @2 i c - y @2 i c) ^ 2 * (u * u))) by (intros c Hc; rewrite Gx, Gy by assumption; ring).
  rewrite rsum_scal_r, sqrt_mult_alt by (apply rsum_nonneg; intros c Hc; rewrite <- Rsqr_pow2; apply Rle_0_sqr). rewrite sqrt_square by lra. reflexivity.
Qed.

Lemma loss_units d u n a : 0 < u -> degree n a -> forall x y x' y', comparable d a x y -> geo_units u x x' -> geo_units u y y' ->
  loss (att_in_units u a) x' y' = times_loss (u ^ n) (loss a x y).
Proof.
  intros U DG. assert (K : 0 < u ^ n) by (apply pow_lt; exact U). induction a as [a NC|w ms IH] using att_ind'; intros x y x' y' C (Tx & Fx) (Ty & Fy).
  - destruct a as [w l| |w|w t h|w b s|w b s|w ms]; cbn [comparable] in C; try contradiction C; cbn [degree] in DG; try subst n.
    + cbn. rewrite Rmult_0_r. reflexivity.
    + destruct C as (N & Hx & Hy). cbn [loss att_in_units times_loss fmul]. rewrite pow_1. do 2 f_equal. exact (euclid_units u N d _ _ _ _ U Hx Hy Tx Ty).
    + destruct C as (-> & -> & Hs & (N & LN & Hx) & (M & LM & Hy)). destruct x as [x fx], y as [y fy], x' as [x' fx'], y' as [y' fy']. cbn [g_points g_faces] in *.
      destruct (units_at u N 2 x x' Hx Tx) as (Sx & _). destruct (units_at u M 2 y y' Hy Ty) as (Sy & _). cbn [att_in_units].
      assert (Hs' : scales (map (Rmult u) s)).
      { unfold scales in *. rewrite Forall_forall in *. intros z I. apply in_map_iff in I. destruct I as (z0 & <- & I). apply Rmult_integral_contrapositive_currified; [lra|apply Hs; exact I]. }
      rewrite (loss2_ok w s x y N M), (loss2_ok w (map (Rmult u) s) x' y' N M) by assumption. cbn [times_loss fmul]. do 2 f_equal. rewrite sumof_map, <- sumof_scal. apply sumof_ext. intros sg I.
      unfold scales in Hs. rewrite Forall_forall in Hs. rewrite (grown_dist2 2 u u sg _ _ _ _ U U (Hs sg I) (edges_grown u N x x' Hx Tx) (edges_grown u M y y' Hy Ty)). ring.
    + destruct C as (-> & Hs & fs & gs & Ex & Ey & ((N & Hx) & Vx) & ((M & Hy) & Vy) & L & L'). destruct x as [x fx], y as [y fy], x' as [x' fx'], y' as [y' fy']. cbn [g_points g_faces fst snd] in *. subst.
      destruct (units_at u N 3 x x' Hx Tx) as (Sx & _). destruct (units_at u M 3 y y' Hy Ty) as (Sy & _). cbn [att_in_units].
      assert (V : forall K u u' hs, shape u = [K; 3%nat] -> shape u' = [K; 3%nat] -> valid_faces u hs -> valid_faces u' hs).
      { intros K0 v0 v0' hs Hu Hu' V. unfold valid_faces, nrows in *. rewrite Hu in V. rewrite Hu'. exact V. }
      assert (Vx' : valid_faces x' fs) by exact (V N x x' fs Hx Sx Vx). assert (Vy' : valid_faces y' gs) by exact (V M y y' gs Hy Sy Vy).
      assert (Hs' : scales (map (Rmult u) s)).
      { unfold scales in *. rewrite Forall_forall in *. intros z I. apply in_map_iff in I. destruct I as (z0 & <- & I). apply Rmult_integral_contrapositive_currified; [lra|apply Hs; exact I]. }
      rewrite (loss3_ok w b (map (Rmult u) s) x' N fs y' M gs), (loss3_ok w b s x N fs y M gs) by assumption. cbn [times_loss]. f_equal. unfold losses. rewrite fmul_sum by exact K. f_equal. rewrite !map_map.
      apply map_ext_in. intros sg I. unfold scales in Hs. rewrite Forall_forall in Hs. specialize (Hs sg I). replace (2 / 3 * (u * sg)) with (u * (2 / 3 * sg)) by ring.
      apply cost_grown; [exact U|lra| |]; [exact (faces_grown u N x x' fs Hx Vx Tx)|exact (faces_grown u M y y' gs Hy Vy Ty)].
    + elim (NC w ms eq_refl).
  - cbn [comparable] in C. cbn [degree] in DG. cbn [loss att_in_units].
    enough (E : mapM (fun m => loss m x' y') (map (att_in_units u) ms) = match mapM (fun m => loss m x y) ms with Ok l => Ok (map (fmul (Fin (u ^ n))) l) | Err e => Err e end).
    { rewrite E. destruct (mapM (fun m => loss m x y) ms) as [l|e]; cbn [bind times_loss]; [|reflexivity]. rewrite fmul_sum by exact K. reflexivity. }
    induction IH as [|m ms Hm _ IHs]; [reflexivity|]. cbn [fold_right] in C, DG. destruct C as (C & CS). destruct DG as (DG & DGS). cbn [mapM map].
    rewrite (Hm DG x y x' y' C (conj Tx Fx) (conj Ty Fy)), (IHs DGS CS). destruct (loss m x y) as [l|e]; cbn [times_loss bind]; [|reflexivity].
    destruct (mapM (fun m => loss m x y) ms) as [ls|e]; reflexivity.
Qed.
Lemma att_weight_units u a : att_weight (att_in_units u a) = att_weight a.
Proof. destruct a; reflexivity. Qed.

Lemma geo_of_units u x x' : geom_units u x x' -> geo_units u (geo_of x) (geo_of x').
Proof. destruct x as [|p l], x' as [|p' l']; try contradiction. intros (T & ->). destruct l; split; try exact T; reflexivity. Qed.

(** ** Deformed objects *)
Lemma deformed_units u o o' q q' x x' : alike_objects o o' -> teq q' (tscal u q) -> to_deformed o q = Ok x -> to_deformed o' q' = Ok x' -> geom_units u x x'.
Proof.
  intros K T E E'. destruct o, o'. all: unfold alike_objects in K; cbn beta iota in K. all: try (exfalso; exact K). all: cbn [to_deformed] in E, E'. all: match type of E with Ok ?l = _ => assert (Ex : x = l) by congruence end; match type of E' with Ok ?l = _ => assert (Ex' : x' = l) by congruence end; clear E E'; subst x x'; (split; [exact T|]); congruence.
Qed.

Lemma attached_units_same u k defs att ts defs' att' ts' : attached_units u k defs att ts defs' att' ts' -> forall ms ms' xs xs',
  Forall2 (fun o m => exists dim nb q0 p0 q p, df_man o = GLm dim nb q0 p0 /\ mod_manifold m = GLm dim nb q p /\ shape q = shape q0) defs ms ->
  Forall2 (fun m m' => same_values (mod_manifold m') (in_units u (mod_manifold m))) ms ms' ->
  deformed_list defs ms = Ok xs -> deformed_list defs' ms' = Ok xs' ->
  attachment_costs att' xs' ts' = match attachment_costs att xs ts with Ok l => Ok (map (Rmult k) l) | Err e => Err e end /\ Forall2 (geom_units u) xs xs'.
Proof.
  induction 1 as [|o a y defs att ts o' a' y' defs' att' ts' SK GE IN _ IH]; intros ms ms' xs xs' F P D D'.
  - inversion F; subst. inversion P; subst. cbn in D, D'. injection D as <-. injection D' as <-. split; [reflexivity|constructor].
  - inversion F as [|? m ? msr Hm Fr]; subst. inversion P as [|? m' ? msr' Hv Pr]; subst. cbn [deformed_list] in D, D'.
    destruct Hm as (dim & nb & q0 & p0 & q & p & Eo & Em & S). rewrite Em in D, Hv. cbn [lm_gd bind] in D. bok D x Hx. bok D xsr Hxs. injection D as <-.
    bok D' q' Hq'. bok D' x' Hx'. bok D' xsr' Hxs'. injection D' as <-.
    assert (T : teq q' (tscal u q)).
    { destruct Hv as ((K & V) & _). destruct (mod_manifold m'); try discriminate K. cbn [lm_gd] in Hq'. injection Hq' as <-. cbn in V. inversion V; subst. assumption. }
    destruct (IH msr msr' xsr xsr' Fr Pr Hxs Hxs') as (C & G). split; [|constructor; [exact (deformed_units u o o' q q' x x' SK T Hx Hx')|exact G]].
    cbn [attachment_costs]. assert (E0 : lm_gd (df_man o) = Ok q0) by (rewrite Eo; reflexivity). rewrite C, (IN q0 q q' x x' E0 S T Hx Hx').
    destruct (a x y) as [r|e]; cbn [bind]; [|reflexivity]. destruct (attachment_costs att xsr ts); reflexivity.
Qed.
Lemma members_units u ms : forall ms', same_values (GComp (map mod_manifold ms')) (in_units u (GComp (map mod_manifold ms))) ->
  Forall2 (fun m m' => same_values (mod_manifold m') (in_units u (mod_manifold m))) ms ms'.
Proof.
  induction ms as [|m ms IH]; intros [|m' ms'] ((K & G) & (_ & C)); cbn [in_units skel map] in K; try discriminate K; constructor.
  - injection K as K _. cbn [in_units g_gd g_cotan map flat_map] in G, C. destruct (skel_g_gd_len _ _ K) as (L1 & L2).
    apply split_teq in G; [|exact L1]. apply split_teq in C; [|exact L2]. split; split; try exact K; [apply G|apply C].
  - injection K as K KS. apply IH. cbn [in_units g_gd g_cotan map flat_map] in G, C. destruct (skel_g_gd_len _ _ K) as (L1 & L2).
    apply split_teq in G; [|exact L1]. apply split_teq in C; [|exact L2]. split; split; try (cbn [in_units skel]; congruence); [apply G|apply C].
Qed.
Lemma units_shapes u g : map shape (g_gd (in_units u g)) = map shape (g_gd g) /\ map shape (g_cotan (in_units u g)) = map shape (g_cotan g).
Proof.
  induction g as [| | | | |gs IH] using GeometryFacts.gman_ind'; try (split; reflexivity).
  cbn [in_units g_gd g_cotan]. induction IH as [|g gs (H1 & H2) _ (I1 & I2)]; [split; reflexivity|]. cbn [map flat_map]. rewrite !map_app, H1, H2, I1, I2. split; reflexivity.
Qed.
Lemma landed_units d u m m' sh sh' : other_unit d u m m' -> same_values (mod_manifold (sh_mod sh')) (in_units u (mod_manifold (sh_mod sh))) ->
  landed sh m -> skel (mod_manifold (sh_mod sh')) = skel (mod_manifold m') -> frozen (sh_mod sh') = frozen m' -> landed sh' m'.
Proof.
  intros (_ & V0) V (_ & _ & G & C) K F. split; [exact K|]. split; [exact F|].
  destruct (values_shapes _ _ V) as (A1 & A2). destruct (values_shapes _ _ V0) as (B1 & B2).
  destruct (units_shapes u (mod_manifold (sh_mod sh))) as (P1 & P2). destruct (units_shapes u (mod_manifold m)) as (Q1 & Q2). split; congruence.
Qed.
Lemma attached_units_len u k defs att ts defs' att' ts' : attached_units u k defs att ts defs' att' ts' -> length defs' = length defs.
Proof. induction 1; cbn; congruence. Qed.
Lemma attachments_units u k defs mods att ts defs' att' ts' sh sh' ms ms' xs xs' :
  attached_units u k defs att ts defs' att' ts' -> landed sh (start defs mods) ->
  same_values (mod_manifold (sh_mod sh')) (in_units u (mod_manifold (sh_mod sh))) ->
  sh_mod sh = MComp ms -> sh_mod sh' = MComp ms' ->
  deformed_list defs (firstn (length defs) ms) = Ok xs -> deformed_list defs' (firstn (length defs') ms') = Ok xs' ->
  attachment_costs att' xs' ts' = match attachment_costs att xs ts with Ok l => Ok (map (Rmult k) l) | Err e => Err e end /\ Forall2 (geom_units u) xs xs'.
Proof.
  intros AE (K & _ & G & _) V M M' D D'. rewrite M, start_man in K, G. rewrite M, M' in V. cbn [mod_manifold] in K, G, V.
  rewrite (attached_units_len _ _ _ _ _ _ _ _ AE) in D'.
  refine (attached_units_same u k defs att ts defs' att' ts' AE _ _ xs xs' (heads defs _ ms K G (ex_intro _ xs D)) _ D D'). apply forall2_first, members_units. exact V.
Qed.
