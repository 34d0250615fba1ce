(** Lemmas for PropElsewhere. *)
From Coq Require Import Reals String List Arith Lia Lra.
From Verif Require Import Py RSum Tensor TensorFacts KernelModel KernelFacts FieldModel Fl MeshModel AttachmentModel
  SpecKernel SpecAttachment VarifoldFacts AttachmentFacts VarifoldMoves PropAttachment
  GeometryModel ModuleModel ShootingModel RegistrationModel SpecField SpecGeometry SpecModule SpecShooting SpecMotion SpecTransport SpecRegistration SpecRigid SpecElsewhere
  GeometryFacts ModuleHistory ModuleLeaves ModuleMain ShootingPack ShootingDyn ShootingInst TransportFacts MotionShoot MotionMomentum RegistrationRun RegistrationShoot RigidField RigidShoot PropRigid.
Import ListNotations.
Open Scope R_scope.

(** ** Attachments *)
Lemma euclid_placed d Q c N x y x' y' : rigid d Q -> shape x = [N; d] -> shape y = [N; d] ->
  teq x' (place_rows d Q c x) -> teq y' (place_rows d Q c y) -> euclid_loss x' y' = euclid_loss x y.
Proof.
  intros HQ Hx Hy (Sx & Gx) (Sy & Gy). cbn [place_rows shape] in Sx, Sy. unfold euclid_loss, nrows, ncols. rewrite Sx, Hx. cbn [tnth nth].
  apply rsum_ext. intros i Hi. f_equal.
  assert (E : forall a, (a < d)%nat -> x' @2 i a - y' @2 i a = SpecRigid.turned d Q (fun b => x @2 i b - y @2 i b) a).
  { intros a Ha. rewrite Gx, Gy by (rewrite ?Sx, ?Sy, ?Hx, ?Hy; cbn; tauto).
    cbn [place_rows get]. unfold placed, SpecRigid.turned, vrow. rewrite (rsum_ext d (fun b => Q a b * (x @2 i b - y @2 i b)) (fun b => Q a b * x @2 i b - Q a b * y @2 i b)) by (intros; ring). rewrite rsum_minus. lra. }
  rewrite (rsum_ext d _ (fun a => SpecRigid.turned d Q (fun b => x @2 i b - y @2 i b) a * SpecRigid.turned d Q (fun b => x @2 i b - y @2 i b) a)) by (intros a Ha; rewrite E by exact Ha; ring).
  rewrite (RigidField.turned_dot d Q HQ). apply rsum_ext. intros; ring.
Qed.

Lemma placed_moved d Q c N x x' : shape x = [N; d] -> teq x' (place_rows d Q c x) ->
  shape x' = [N; d] /\ shape (SpecAttachment.moved d Q c x) = [N; d] /\ forall i a, (i < N)%nat -> (a < d)%nat -> x' @2 i a = (SpecAttachment.moved d Q c x) @2 i a.
Proof.
  intros Hx (Sx & Gx). cbn [place_rows shape] in Sx. split; [congruence|]. split; [cbn; unfold nrows; rewrite Hx; reflexivity|].
  intros i a Hi Ha. rewrite Gx by (rewrite Sx, Hx; cbn; tauto). reflexivity.
Qed.
Lemma rigid_orthogonal d Q : rigid d Q -> orthogonal d Q.
Proof. intros HQ i j Hi Hj. exact (proj1 HQ i j Hi Hj). Qed.

Lemma same_edges d N x x' : shape x = [N; d] -> shape x' = [N; d] -> (forall i a, (i < N)%nat -> (a < d)%nat -> x' @2 i a = x @2 i a) ->
  Forall2 (piece_eq d) (edges x') (edges x).
Proof.
  intros Hx Hx' G. unfold edges, nrows. rewrite Hx, Hx'. cbn [tnth nth]. apply Forall2_map'. intros i I. apply in_seq in I. intros a Ha. cbn [centre SpecAttachment.vec].
  assert (L : ((i + 1) mod N < N)%nat) by (apply Nat.mod_upper_bound; lia). rewrite !G by (try exact L; try exact Ha; lia). split; reflexivity.
Qed.
Lemma edges_dist2 s Q c N M x y x' y' : rigid 2 Q -> shape x = [N; 2%nat] -> shape y = [M; 2%nat] ->
  teq x' (place_rows 2 Q c x) -> teq y' (place_rows 2 Q c y) -> shape_dist2 2 s (edges x') (edges y') = shape_dist2 2 s (edges x) (edges y).
Proof.
  intros HQ Hx Hy Tx Ty. destruct (placed_moved 2 Q c N x x' Hx Tx) as (Sx & Mx & Gx). destruct (placed_moved 2 Q c M y y' Hy Ty) as (Sy & My & Gy).
  rewrite (same_dist2 2 s _ _ _ (eq_same 2 _ _ (same_edges 2 N _ _ Mx Sx Gx))), shape_dist2_sym, (same_dist2 2 s _ _ _ (eq_same 2 _ _ (same_edges 2 M _ _ My Sy Gy))), shape_dist2_sym.
  symmetry. apply moved_dist2. exists Q, c. split; [apply rigid_orthogonal; exact HQ|]. split; apply edges_moved.
Qed.
Lemma same_pieces N v v' fs : shape v = [N; 3%nat] -> shape v' = [N; 3%nat] -> valid_faces v fs -> (forall i a, (i < N)%nat -> (a < 3)%nat -> v' @2 i a = v @2 i a) ->
  Forall2 (piece_eq 3) (map (face_piece v') fs) (map (face_piece v) fs).
Proof.
  intros Hv Hv' V G. apply Forall2_map'. intros f I. unfold valid_faces in V. rewrite Forall_forall in V. specialize (V f I). unfold nrows in V. rewrite Hv in V. cbn [tnth nth] in V.
  assert (A : forall k a, (k < 3)%nat -> (a < 3)%nat -> at_corner v' k f a = at_corner v k f a) by (intros k a Hk Ha; apply G; [apply V; exact Hk|exact Ha]).
  intros a Ha. cbn [centre SpecAttachment.vec face_piece]. split; [unfold barycentre; rewrite !A by (try exact Ha; lia); reflexivity|].
  unfold area_normal. f_equal. destruct a as [|[|[|a]]]; [| | |lia]; cbn [cross3]; unfold vsub; rewrite !A by lia; reflexivity.
Qed.

(** Every attachment of the library that compares objects of R^d. *)
Lemma att_ind' (P : att -> Prop) : (forall a, (forall w ms, a <> ACompound w ms) -> P a) -> (forall w ms, Forall P ms -> P (ACompound w ms)) -> forall a, P a.
Proof.
  intros H0 HC. fix IH 1. intros [w l| |w|w t h|w b s|w b s|w ms]; try (apply H0; intros; discriminate).
  apply HC. induction ms as [|m ms IHs]; constructor; [apply IH|exact IHs].
Qed.
Lemma loss_placed d Q c a : rigid d Q -> forall x y x' y', comparable d a x y -> geo_elsewhere d Q c x x' -> geo_elsewhere d Q c y y' -> loss a x' y' = loss a x y.
Proof.
  intros HQ. induction a as [a NC|w ms IH] using att_ind'; intros x y x' y' C (Tx & Fx) (Ty & Fy).
  - destruct a as [w l| |w|w t h|w b s|w b s|w ms]; cbn [comparable] in C; try contradiction C.
    + reflexivity.
    + destruct C as (N & Hx & Hy). cbn [loss]. do 2 f_equal. exact (euclid_placed d Q c N _ _ _ _ HQ Hx Hy Tx Ty).
    + destruct C as (-> & -> & Hs & (N & LN & Hx) & (M & LM & Hy)). destruct x as [x fx], y as [y fy], x' as [x' fx'], y' as [y' fy']. cbn [g_points g_faces] in *.
      destruct (placed_moved 2 Q c N x x' Hx Tx) as (Sx & _). destruct (placed_moved 2 Q c M y y' Hy Ty) as (Sy & _).
      rewrite (loss2_ok w s x y N M), (loss2_ok w s x' y' N M) by assumption. do 2 f_equal. apply sumof_ext. intros sg _. exact (edges_dist2 sg Q c N M x y x' y' HQ Hx Hy Tx Ty).
    + destruct C as (-> & Hs & fs & gs & Ex & Ey & ((N & Hx) & Vx) & ((M & Hy) & Vy) & L & L'). destruct x as [x fx], y as [y fy], x' as [x' fx'], y' as [y' fy']. cbn [g_points g_faces fst snd] in *. subst.
      destruct (placed_moved 3 Q c N x x' Hx Tx) as (Sx & Mx & Gx). destruct (placed_moved 3 Q c M y y' Hy Ty) as (Sy & My & Gy).
      assert (V : forall K u u' hs, shape u = [K; 3%nat] -> shape u' = [K; 3%nat] -> valid_faces u hs -> valid_faces u' hs).
      { intros K u u' hs Hu Hu' V. unfold valid_faces, nrows in *. rewrite Hu in V. rewrite Hu'. exact V. }
      assert (Vx' : valid_faces x' fs) by exact (V N x x' fs Hx Sx Vx). assert (Vy' : valid_faces y' gs) by exact (V M y y' gs Hy Sy Vy).
      rewrite (loss3_ok w b s x' N fs y' M gs), (loss3_ok w b s x N fs y M gs) by assumption. f_equal. unfold losses. f_equal. apply map_ext. intros sg.
      rewrite <- (mesh_moved sg Q c x fs y gs (rigid_orthogonal 3 Q HQ)). apply cost_value_same; apply eq_same.
      * exact (same_pieces N _ x' fs Mx Sx (V N x _ fs Hx Mx Vx) Gx).
      * exact (same_pieces M _ y' gs My Sy (V M y _ gs Hy My Vy) Gy).
    + elim (NC w ms eq_refl).
  - cbn [comparable] in C. cbn [loss]. enough (E : mapM (fun m => loss m x' y') ms = mapM (fun m => loss m x y) ms) by (rewrite E; reflexivity).
    induction IH as [|m ms Hm _ IHs]; [reflexivity|]. cbn [fold_right] in C. destruct C as (C & CS). cbn [mapM]. rewrite (Hm x y x' y' C (conj Tx Fx) (conj Ty Fy)), (IHs CS). reflexivity.
Qed.

Lemma geo_of_elsewhere d Q c x x' : geom_elsewhere d Q c x x' -> geo_elsewhere d Q c (geo_of x) (geo_of x').
Proof. destruct x as [|p l], x' as [|p' l']; try contradiction. intros (T & ->). destruct l; split; try exact T; reflexivity. Qed.

(** ** Deformed objects *)
Lemma deformed_elsewhere d Q c o o' q q' x x' : alike_objects o o' -> teq q' (place_rows d Q c q) -> to_deformed o q = Ok x -> to_deformed o' q' = Ok x' -> geom_elsewhere d Q c x x'.
Proof.
  intros K T E E'. destruct o, o'. all: unfold alike_objects in K; cbn beta iota in K. all: try (exfalso; exact K). all: cbn [to_deformed] in E, E'. all: match type of E with Ok ?l = _ => assert (Ex : x = l) by congruence end; match type of E' with Ok ?l = _ => assert (Ex' : x' = l) by congruence end; clear E E'; subst x x'; (split; [exact T|]); congruence.
Qed.

Lemma attached_same d Q c defs att ts defs' att' ts' : attached_elsewhere d Q c defs att ts defs' att' ts' -> forall ms ms' xs xs',
  Forall2 (fun o m => exists dim nb q0 p0 q p, df_man o = GLm dim nb q0 p0 /\ mod_manifold m = GLm dim nb q p /\ shape q = shape q0) defs ms ->
  Forall2 (fun m m' => same_values (mod_manifold m') (placed_man d Q c (mod_manifold m))) ms ms' ->
  deformed_list defs ms = Ok xs -> deformed_list defs' ms' = Ok xs' ->
  attachment_costs att' xs' ts' = attachment_costs att xs ts /\ Forall2 (geom_elsewhere d Q c) xs xs'.
Proof.
  induction 1 as [|o a y defs att ts o' a' y' defs' att' ts' SK GE IN _ IH]; intros ms ms' xs xs' F P D D'.
  - inversion F; subst. inversion P; subst. cbn in D, D'. injection D as <-. injection D' as <-. split; [reflexivity|constructor].
  - inversion F as [|? m ? msr Hm Fr]; subst. inversion P as [|? m' ? msr' Hv Pr]; subst. cbn [deformed_list] in D, D'.
    destruct Hm as (dim & nb & q0 & p0 & q & p & Eo & Em & S). rewrite Em in D, Hv. cbn [lm_gd bind] in D. bok D x Hx. bok D xsr Hxs. injection D as <-.
    bok D' q' Hq'. bok D' x' Hx'. bok D' xsr' Hxs'. injection D' as <-.
    assert (T : teq q' (place_rows d Q c q)).
    { destruct Hv as ((K & V) & _). destruct (mod_manifold m'); try discriminate K. cbn [lm_gd] in Hq'. injection Hq' as <-. cbn in V. inversion V; subst. assumption. }
    destruct (IH msr msr' xsr xsr' Fr Pr Hxs Hxs') as (C & G). split; [|constructor; [exact (deformed_elsewhere d Q c o o' q q' x x' SK T Hx Hx')|exact G]].
    cbn [attachment_costs]. rewrite C, (IN q0 q q' x x'); [reflexivity|rewrite Eo; reflexivity|assumption..].
Qed.

(** The members of the compounds after shooting. *)
Lemma split_teq : forall (a b a' b' : list tensor), length a = length a' -> Forall2 teq (a ++ b) (a' ++ b') -> Forall2 teq a a' /\ Forall2 teq b b'.
Proof.
  induction a as [|x a IH]; intros b [|y a'] b' L E; try discriminate L; [split; [constructor|exact E]|]. cbn [app] in E. inversion E; subst.
  destruct (IH b a' b') as (A & B); [injection L; auto|assumption|]. split; [constructor; assumption|exact B].
Qed.
Lemma skel_g_gd_len g g' : skel g = skel g' -> length (g_gd g) = length (g_gd g') /\ length (g_cotan g) = length (g_cotan g').
Proof. intros K. rewrite !g_gd_len, !g_cotan_len. split; apply skel_len; exact K. Qed.
Lemma members_elsewhere d Q c ms : forall ms', same_values (GComp (map mod_manifold ms')) (placed_man d Q c (GComp (map mod_manifold ms))) ->
  Forall2 (fun m m' => same_values (mod_manifold m') (placed_man d Q c (mod_manifold m))) ms ms'.
Proof.
  induction ms as [|m ms IH]; intros [|m' ms'] ((K & G) & (_ & C)); cbn [placed_man skel map] in K; try discriminate K; constructor.
  - injection K as K _. cbn [placed_man g_gd g_cotan map flat_map] in G, C. destruct (skel_g_gd_len _ _ K) as (L1 & L2).
    apply split_teq in G; [|exact L1]. apply split_teq in C; [|exact L2]. split; split; try exact K; [apply G|apply C].
  - injection K as K KS. apply IH. cbn [placed_man g_gd g_cotan map flat_map] in G, C. destruct (skel_g_gd_len _ _ K) as (L1 & L2).
    apply split_teq in G; [|exact L1]. apply split_teq in C; [|exact L2]. split; split; try (cbn [placed_man skel]; congruence); [apply G|apply C].
Qed.

(** ** Where shooting ends *)
Lemma placed_shapes d Q c g : map shape (g_gd (placed_man d Q c g)) = map shape (g_gd g) /\ map shape (g_cotan (placed_man d Q c g)) = map shape (g_cotan g).
Proof.
  induction g as [| | | | |gs IH] using GeometryFacts.gman_ind'; try (split; reflexivity).
  cbn [placed_man g_gd g_cotan]. induction IH as [|g gs (H1 & H2) _ (I1 & I2)]; [split; reflexivity|]. cbn [map flat_map]. rewrite !map_app, H1, H2, I1, I2. split; reflexivity.
Qed.
Lemma values_shapes g g' : same_values g g' -> map shape (g_gd g) = map shape (g_gd g') /\ map shape (g_cotan g) = map shape (g_cotan g').
Proof.
  assert (F : forall l l' : list tensor, Forall2 teq l l' -> map shape l = map shape l').
  { induction 1 as [|x y l l' (E & _) _ IH]; [reflexivity|]. cbn [map]. rewrite E, IH. reflexivity. }
  intros ((_ & G) & (_ & C)). split; apply F; assumption.
Qed.

(** A shot leaves the structure, the shapes and what is frozen. *)
Definition landed (sh : shot) (m : dmod) : Prop :=
  skel (mod_manifold (sh_mod sh)) = skel (mod_manifold m) /\ frozen (sh_mod sh) = frozen m /\
  map shape (g_gd (mod_manifold (sh_mod sh))) = map shape (g_gd (mod_manifold m)) /\ map shape (g_cotan (mod_manifold (sh_mod sh))) = map shape (g_cotan (mod_manifold m)).

Lemma landed_elsewhere d Q c m m' sh sh' : elsewhere d Q c m m' -> same_values (mod_manifold (sh_mod sh')) (placed_man d Q c (mod_manifold (sh_mod sh))) ->
  landed sh m -> skel (mod_manifold (sh_mod sh')) = skel (mod_manifold m') -> frozen (sh_mod sh') = frozen m' -> landed sh' m'.
Proof.
  intros (_ & V0) V (_ & _ & G & C) K F. split; [exact K|]. split; [exact F|].
  destruct (values_shapes _ _ V) as (A1 & A2). destruct (values_shapes _ _ V0) as (B1 & B2).
  destruct (placed_shapes d Q c (mod_manifold (sh_mod sh))) as (P1 & P2). destruct (placed_shapes d Q c (mod_manifold m)) as (Q1 & Q2). split; congruence.
Qed.

Lemma previous_same d Q c sv sv' b0 b0' m m' sh sh' m1 m1' x x' : rigid d Q -> exact_solver sv -> exact_solver sv' ->
  wf_mod d m -> wf_mod d m' -> locals_total d m -> locals_total d m' -> elsewhere d Q c m m' -> landed sh m -> landed sh' m' ->
  same_values (mod_manifold (sh_mod sh')) (placed_man d Q c (mod_manifold (sh_mod sh))) ->
  geodesic_controls sv b0 (sh_mod sh) = Ok m1 -> geodesic_controls sv' b0' (sh_mod sh') = Ok m1' -> cost m1 = Ok x -> cost m1' = Ok x' -> x' = x.
Proof.
  intros HQ HS HS' W W' LT LT' (TW & _) (K & F & SG & SC) (K' & F' & SG' & SC') V G G' C C'.
  destruct (set_ok m _ K) as (n & E & M & FN & _). destruct (set_ok m' _ K') as (n' & E' & M' & FN' & _).
  pose proof (wf_set d m _ n W LT K SG SC E) as WN. pose proof (wf_set d m' _ n' W' LT' K' SG' SC' E') as WN'.
  rewrite (geodesic_determined sv b0 (sh_mod sh) n) in G by congruence. rewrite (geodesic_determined sv' b0' (sh_mod sh') n') in G' by congruence.
  assert (EW : elsewhere d Q c n n') by (split; [exact (twin_set d Q c m m' _ _ n n' TW E E')|rewrite M, M'; exact V]).
  destruct (C79_geodesic_controls sv sv' b0 b0' d Q c n n' m1 m1' HQ HS HS' WN WN' EW G G') as (_ & EC & _). rewrite C, C' in EC. injection EC as ->. reflexivity.
Qed.

(** The silent modules at the head of the compound. *)
Lemma heads defs : forall rest ms, skel (GComp (map mod_manifold ms)) = skel (GComp (map df_man defs ++ rest)) ->
  map shape (g_gd (GComp (map mod_manifold ms))) = map shape (g_gd (GComp (map df_man defs ++ rest))) -> is_ok (deformed_list defs (firstn (length defs) ms)) ->
  Forall2 (fun o m => exists dim nb q0 p0 q p, df_man o = GLm dim nb q0 p0 /\ mod_manifold m = GLm dim nb q p /\ shape q = shape q0) defs (firstn (length defs) ms).
Proof.
  induction defs as [|o defs IH]; intros rest ms K G (xs & D); [constructor|]. destruct ms as [|m ms]; [discriminate K|]. cbn [length firstn map app skel] in *.
  injection K as K KS. cbn [deformed_list] in D. bok D q Hq. bok D x Hx. bok D xsr Hxs.
  destruct (mod_manifold m) eqn:Em; try discriminate Hq. destruct (df_man o) eqn:Eo; try discriminate K. cbn [g_gd map flat_map app] in G. injection G as GS G. cbn [skel] in K. injection K as <- <-.
  constructor; [|apply (IH rest); [cbn [skel]; rewrite KS; reflexivity|exact G|eexists; exact Hxs]]. do 6 eexists. split; [exact Eo|]. split; [exact Em|exact GS].
Qed.
Lemma start_man defs mods : mod_manifold (start defs mods) = GComp (map df_man defs ++ map mod_manifold mods).
Proof. unfold start. cbn [mod_manifold]. rewrite map_app, map_map. reflexivity. Qed.
Lemma attached_len d Q c defs att ts defs' att' ts' : attached_elsewhere d Q c defs att ts defs' att' ts' -> length defs' = length defs.
Proof. induction 1; cbn; congruence. Qed.
Lemma forall2_first {A B} (P : A -> B -> Prop) n : forall l l', Forall2 P l l' -> Forall2 P (firstn n l) (firstn n l').
Proof. induction n as [|n IH]; intros l l' F; [constructor|]. destruct F; [constructor|]. cbn [firstn]. constructor; auto. Qed.

Lemma attachments_elsewhere d Q c defs mods att ts defs' att' ts' sh sh' ms ms' xs xs' :
  attached_elsewhere d Q c defs att ts defs' att' ts' -> landed sh (start defs mods) ->
  same_values (mod_manifold (sh_mod sh')) (placed_man d Q c (mod_manifold (sh_mod sh))) ->
  sh_mod sh = MComp ms -> sh_mod sh' = MComp ms' ->
  deformed_list defs (firstn (length defs) ms) = Ok xs -> deformed_list defs' (firstn (length defs') ms') = Ok xs' ->
  attachment_costs att' xs' ts' = attachment_costs att xs ts /\ Forall2 (geom_elsewhere d Q c) xs xs'.
Proof.
  intros AE (K & _ & G & _) V M M' D D'. rewrite M, start_man in K, G. rewrite M, M' in V. cbn [mod_manifold] in K, G, V.
  rewrite (attached_len _ _ _ _ _ _ _ _ _ AE) in D'.
  refine (attached_same d Q c defs att ts defs' att' ts' AE _ _ xs xs' (heads defs _ ms K G (ex_intro _ xs D)) _ D D'). apply forall2_first, members_elsewhere. exact V.
Qed.
Lemma wf_shapes_skel d g : forall h0, wf_gman d g -> wf_gman d h0 -> skel g = skel h0 ->
  map shape (g_gd g) = map shape (g_gd h0) /\ map shape (g_cotan g) = map shape (g_cotan h0).
Proof.
  induction g as [| | | | |gs IH] using GeometryFacts.gman_ind'; intros h0 W W0 K; destruct h0 as [| | | | |hs0]; try discriminate K.
  1-3: cbn [wf_gman skel g_gd g_cotan map] in *; injection K; intros; subst; repeat match goal with H : _ /\ _ |- _ => destruct H end; split; congruence.
  - contradiction W.
  - split; reflexivity.
  - cbn [skel] in K. injection K as K. cbn [wf_gman] in W, W0. cbn [g_gd g_cotan]. revert hs0 W0 K.
    induction IH as [|g gs Hg _ IHs]; intros [|h0 hs0] W0 K; try discriminate K; [split; reflexivity|]. cbn [map fold_right flat_map] in *. injection K as K KS.
    destruct (Hg h0 (proj1 W) (proj1 W0) K) as (A & B). destruct (IHs (proj2 W) hs0 (proj2 W0) KS) as (C & D). rewrite !map_app, A, B, C, D. split; reflexivity.
Qed.
