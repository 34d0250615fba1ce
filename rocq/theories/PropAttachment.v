(** Property theorems about attachments (C11, C42, C43, C44, C51, C65). *)
From Coq Require Import Reals String List Arith Lia Lra Permutation Bool.
From Verif Require Import Py RSum Tensor TensorFacts SpecKernel KernelModel KernelFacts FieldModel Fl MeshModel AttachmentModel SpecAttachment VarifoldFacts VarifoldZero AttachmentFacts VarifoldMoves.
Import ListNotations.
Open Scope string_scope.
Open Scope list_scope.
Open Scope R_scope.

Definition curve (x : tensor) : geo := mkGeo x None.
Definition mesh (m : tensor * list face) : geo := mkGeo (fst m) (Some (snd m)).
Definition is_curve (x : tensor) : Prop := exists N, (0 < N)%nat /\ shape x = [N; 2%nat].
(** (V, 3) vertices, faces made of vertices. *)
Definition is_mesh (m : tensor * list face) : Prop := (exists n, shape (fst m) = [n; 3%nat]) /\ valid_faces (fst m) (snd m).
Definition scales (sigmas : list R) : Prop := Forall (fun s => s <> 0) sigmas.
Definition faces_of (m : tensor * list face) : list piece := map (face_piece (fst m)) (snd m).
(** Every face has a positive area. *)
Definition non_degenerate (m : tensor * list face) : Prop := Forall (fun f => 0 < area (fst m) f) (snd m).

(** ** C42 *)

(** C42, curves: the loss is the sum over the scales of the squared varifold distances;
    non-negative, symmetric, zero exactly when the two curves have the same length tensor
    at every point (in particular when they are the same). *)
Theorem C42_curves : forall w sigmas x y, scales sigmas -> is_curve x -> is_curve y ->
  exists r, loss (AVar2 w Torch sigmas) (curve x) (curve y) = Ok (Fin r) /\
    r = sumof (fun s => shape_dist2 2 s (edges x) (edges y)) sigmas /\
    0 <= r /\
    loss (AVar2 w Torch sigmas) (curve y) (curve x) = Ok (Fin r) /\
    loss (AVar2 w Torch sigmas) (curve x) (curve x) = Ok (Fin 0) /\
    (sigmas <> [] ->
     (r = 0 <-> forall z a b, (a < 2)%nat -> (b < 2)%nat -> length_tensor 2 (edges x) z a b = length_tensor 2 (edges y) z a b)).
Proof.
  intros w sigmas x y Hs (N & LN & Hx) (M & LM & Hy). eexists. unfold curve.
  rewrite (loss2_ok w sigmas x y N M), (loss2_ok w sigmas y x M N), (loss2_ok w sigmas x x N N) by assumption.
  split; [reflexivity|]. split; [reflexivity|].
  assert (NN : forall l, scales l -> 0 <= sumof (fun s => shape_dist2 2 s (edges x) (edges y)) l).
  { induction l as [|s l IH]; intros H; [unfold sumof; cbn; lra|]. inversion H; subst. rewrite sumof_cons. pose proof (shape_dist2_nonneg 2 s (edges x) (edges y) ltac:(assumption)). specialize (IH ltac:(assumption)). lra. }
  split; [apply NN; exact Hs|]. split; [do 2 f_equal; apply sumof_ext; intros; apply shape_dist2_sym|]. split.
  - do 2 f_equal. rewrite (sumof_ext _ (fun _ => 0)) by (intros; apply shape_dist2_same). apply sumof_zero. reflexivity.
  - intros NE. split.
    + intros E. destruct sigmas as [|s l]; [congruence|]. inversion Hs; subst. rewrite sumof_cons in E.
      apply (proj1 (shape_dist2_zero 2 s (edges x) (edges y) ltac:(assumption))).
      pose proof (shape_dist2_nonneg 2 s (edges x) (edges y) ltac:(assumption)). specialize (NN l ltac:(assumption)). lra.
    + intros E. rewrite (sumof_ext _ (fun _ => 0)); [apply sumof_zero; reflexivity|]. intros s I. unfold scales in Hs. rewrite Forall_forall in Hs. apply (shape_dist2_zero 2 s); auto.
Qed.
Print Assumptions C42_curves.

Definition tlist2 (n d : nat) (l : list R) : tensor := mk2 n d (fun i c => nth (i * d + c) l 0).
Definition square : tensor := tlist2 4 2 [0; 0; 1; 0; 1; 1; 0; 1].
Definition triangle : tensor := tlist2 3 2 [0; 0; 2; 0; 0; 1].
Example C42_curves_hypotheses : scales [1; 1/2] /\ is_curve square /\ is_curve triangle.
Proof. split; [repeat constructor; lra|]. split; [exists 4%nat|exists 3%nat]; split; try reflexivity; lia. Qed.

(** The other outcomes: no vertex, KeOps. *)
Theorem C42_curves_errors : forall w sigmas x y, sigmas <> [] ->
  (nrows x = 0%nat -> loss (AVar2 w Torch sigmas) (curve x) (curve y) = Err IndexError) /\
  (nrows y = 0%nat -> loss (AVar2 w Torch sigmas) (curve x) (curve y) = Err IndexError) /\
  loss (AVar2 w Keops sigmas) (curve x) (curve y) = Err NotImplementedError.
Proof.
  intros w sigmas x y NE. destruct sigmas as [|s l]; [congruence|]. cbn [loss mapM]. unfold cost_varifold2, dot_varifold, close_shape, curve. cbn [g_points].
  split; [|split].
  - intros E. rewrite E. reflexivity.
  - intros E. rewrite E. cbn [Nat.eqb]. destruct (Nat.eqb (nrows x) 0); reflexivity.
  - reflexivity.
Qed.
Print Assumptions C42_curves_errors.

Lemma cost_value_sym s P Q : cost_value s P Q = cost_value s Q P.
Proof. unfold cost_value. rewrite orb_comm, shape_dist2_sym. reflexivity. Qed.
Lemma losses_sym l P Q : losses l P Q = losses l Q P.
Proof. unfold losses. f_equal. apply map_ext. intros. apply cost_value_sym. Qed.
Lemma losses_self l P : losses l P P = NaN \/ losses l P P = Fin 0.
Proof.
  destruct (flat P) eqn:E.
  - destruct l as [|s l]; [right; reflexivity|left]. apply losses_nan; [discriminate|]. rewrite E. reflexivity.
  - right. rewrite losses_fin by exact E. f_equal. rewrite (sumof_ext _ (fun _ => 0)) by (intros; apply shape_dist2_same). apply sumof_zero. reflexivity.
Qed.
Lemma sum_dist2_nonneg l P Q : scales l -> 0 <= sumof (fun s => shape_dist2 3 s P Q) l.
Proof.
  induction l as [|s l IH]; intros H; [unfold sumof; cbn; lra|]. inversion H; subst. rewrite sumof_cons. pose proof (shape_dist2_nonneg 3 s P Q ltac:(assumption)). specialize (IH ltac:(assumption)). lra.
Qed.
Lemma losses_nonneg l P Q : scales l -> losses l P Q = NaN \/ exists r, losses l P Q = Fin r /\ 0 <= r.
Proof.
  intros H. destruct (flat P || flat Q)%bool eqn:E.
  - destruct l as [|s l]; [right; exists 0; split; [reflexivity|lra]|left]. apply losses_nan; [discriminate|exact E].
  - right. apply orb_false_iff in E. destruct E as (E1 & E2). eexists. split; [apply losses_fin; assumption|]. apply sum_dist2_nonneg. exact H.
Qed.

(** C42, meshes: whatever the meshes (any number of faces, degenerate or not) the loss
    does not depend on the order of its arguments, and is NaN or a non-negative number;
    the loss of a mesh and itself is zero or NaN. *)
Theorem C42_meshes_any : forall w b sigmas m m', scales sigmas -> is_mesh m -> is_mesh m' ->
  exists l, loss (AVar3 w b sigmas) (mesh m) (mesh m') = Ok l /\
    loss (AVar3 w b sigmas) (mesh m') (mesh m) = Ok l /\
    (l = NaN \/ exists r, l = Fin r /\ 0 <= r) /\
    (loss (AVar3 w b sigmas) (mesh m) (mesh m) = Ok (Fin 0) \/ loss (AVar3 w b sigmas) (mesh m) (mesh m) = Ok NaN).
Proof.
  intros w b sigmas (v & fs) (v' & fs') Hs ((n & Hv) & V) ((n' & Hv') & V'). unfold mesh. cbn [fst snd] in *.
  destruct (loss3_general w b sigmas v n fs v' n' fs') as (C & N & L & C' & N' & L' & E & E' & H); try assumption.
  destruct (loss3_general w b sigmas v' n' fs' v n fs) as (C1 & N1 & L1 & C2 & N2 & L2 & F & F' & K); try assumption.
  destruct (loss3_general w b sigmas v n fs v n fs) as (C3 & N3 & L3 & C4 & N4 & L4 & X & X' & Y); try assumption.
  assert (C1 = C' /\ N1 = N' /\ C2 = C /\ N2 = N /\ C3 = C /\ N3 = N /\ C4 = C /\ N4 = N) as (-> & -> & -> & -> & -> & -> & -> & ->) by (repeat split; congruence).
  exists (losses sigmas (pieces C N) (pieces C' N')). split; [exact H|]. split; [rewrite K; f_equal; apply losses_sym|]. split; [apply losses_nonneg; exact Hs|].
  rewrite Y. destruct (losses_self sigmas (pieces C N)) as [Q|Q]; rewrite Q; auto.
Qed.
Print Assumptions C42_meshes_any.

Lemma area_flat m : non_degenerate m -> flat (faces_of m) = false.
Proof.
  intros H. apply flat_false. unfold faces_of. apply Forall_forall. intros p I. apply in_map_iff in I. destruct I as (f & <- & I). unfold non_degenerate in H. rewrite Forall_forall in H.
  specialize (H f I). unfold area in H. cbn [vec face_piece]. lra.
Qed.
Lemma scales_map l : scales l -> scales (map (Rmult (2 / 3)) l).
Proof. intros H. unfold scales in *. apply Forall_forall. intros s I. apply in_map_iff in I. destruct I as (t & <- & I). rewrite Forall_forall in H. specialize (H t I). lra. Qed.

(** C42, meshes without degenerate face, not made of three faces: the loss is the sum of
    the squared varifold distances between the faces (barycentre, area and direction of
    the normal), with the scales multiplied by 2/3 since the centres the code computes are
    3/2 of the barycentres (C51). *)
Theorem C42_meshes : forall w b sigmas m m', scales sigmas -> is_mesh m -> is_mesh m' ->
  length (snd m) <> 3%nat -> length (snd m') <> 3%nat -> non_degenerate m -> non_degenerate m' ->
  exists r, loss (AVar3 w b sigmas) (mesh m) (mesh m') = Ok (Fin r) /\
    r = sumof (fun s => shape_dist2 3 (2 / 3 * s) (faces_of m) (faces_of m')) sigmas /\
    0 <= r /\
    loss (AVar3 w b sigmas) (mesh m') (mesh m) = Ok (Fin r) /\
    loss (AVar3 w b sigmas) (mesh m) (mesh m) = Ok (Fin 0) /\
    (sigmas <> [] ->
     (r = 0 <-> forall z a b, (a < 3)%nat -> (b < 3)%nat -> length_tensor 3 (faces_of m) z a b = length_tensor 3 (faces_of m') z a b)).
Proof.
  intros w b sigmas (v & fs) (v' & fs') Hs ((n & Hv) & V) ((n' & Hv') & V') L L' D D'. unfold mesh. cbn [fst snd] in *.
  rewrite (loss3_ok w b sigmas v n fs v' n' fs'), (loss3_ok w b sigmas v' n' fs' v n fs), (loss3_ok w b sigmas v n fs v n fs) by assumption.
  apply area_flat in D, D'. unfold faces_of in *. cbn [fst snd] in *. rewrite !losses_fin by assumption.
  eexists. split; [reflexivity|]. split; [apply sumof_map|]. split; [apply sum_dist2_nonneg, scales_map; exact Hs|].
  split; [do 2 f_equal; apply sumof_ext; intros; apply shape_dist2_sym|]. split.
  - do 2 f_equal. rewrite (sumof_ext _ (fun _ => 0)) by (intros; apply shape_dist2_same). apply sumof_zero. reflexivity.
  - intros NE. split.
    + intros E. destruct sigmas as [|s l]; [congruence|]. inversion Hs; subst. cbn [map] in E. rewrite sumof_cons in E.
      apply (proj1 (shape_dist2_zero 3 (2 / 3 * s) _ _ ltac:(lra))).
      pose proof (shape_dist2_nonneg 3 (2 / 3 * s) (map (face_piece v) fs) (map (face_piece v') fs') ltac:(lra)).
      pose proof (sum_dist2_nonneg (map (Rmult (2 / 3)) l) (map (face_piece v) fs) (map (face_piece v') fs') (scales_map l ltac:(assumption))). lra.
    + intros E. rewrite (sumof_ext _ (fun _ => 0)); [apply sumof_zero; reflexivity|]. intros s I. apply scales_map in Hs. unfold scales in Hs. rewrite Forall_forall in Hs. apply (shape_dist2_zero 3 s); auto.
Qed.
Print Assumptions C42_meshes.

(** Two triangles of a square; a tetrahedron would do as well. *)
Definition vertices4 : tensor := tlist2 4 3 [0; 0; 0; 1; 0; 0; 0; 1; 0; 1; 1; 0].
Definition two_faces : list face := [(0, 1, 2)%nat; (1, 3, 2)%nat].
Lemma vertices4_at i c : vertices4 @2 i c = nth (i * 3 + c) [0; 0; 0; 1; 0; 0; 0; 1; 0; 1; 1; 0] 0.
Proof. reflexivity. Qed.
Lemma valid_b v fs : forallb (fun f => ((corner 0 f <? nrows v) && (corner 1 f <? nrows v) && (corner 2 f <? nrows v))%nat%bool) fs = true -> valid_faces v fs.
Proof.
  intros H. apply Forall_forall. rewrite forallb_forall in H. intros f I k K. specialize (H f I). apply andb_true_iff in H. destruct H as (H & H2). apply andb_true_iff in H. destruct H as (H0 & H1).
  apply Nat.ltb_lt in H0, H1, H2. destruct k as [|[|[|k]]]; [assumption|assumption|assumption|lia].
Qed.
Lemma two_faces_mesh : is_mesh (vertices4, two_faces).
Proof. split; [exists 4%nat; reflexivity|]. apply valid_b; reflexivity. Qed.
Lemma area_pos v f : area_normal v f (2%nat) <> 0 -> 0 < area v f.
Proof.
  intros H. unfold area. destruct (normv_nonneg 3 (area_normal v f)) as [P|Z]; [exact P|]. exfalso. apply H. symmetry in Z. apply (proj1 (normv_zero 3 _) Z). lia.
Qed.
Example C42_meshes_hypotheses : scales [1; 2] /\ is_mesh (vertices4, two_faces) /\ length two_faces <> 3%nat /\ non_degenerate (vertices4, two_faces).
Proof.
  split; [repeat constructor; lra|]. split; [exact two_faces_mesh|]. split; [discriminate|].
  unfold non_degenerate, two_faces. cbn [fst snd]. repeat (apply Forall_cons; [|]); try apply Forall_nil; apply area_pos; unfold area_normal, cross3, vsub, at_corner; cbn [corner]; rewrite !vertices4_at; cbn; lra.
Qed.

(** C42 is false of meshes with a degenerate face: the loss is not a number. *)
Theorem C42_degenerate_faces_refuted : forall w b sigmas m m', scales sigmas -> sigmas <> [] -> is_mesh m -> is_mesh m' ->
  length (snd m) <> 3%nat -> length (snd m') <> 3%nat ->
  (exists f, In f (snd m ) /\ area (fst m) f = 0) ->
  loss (AVar3 w b sigmas) (mesh m) (mesh m') = Ok NaN /\ loss (AVar3 w b sigmas) (mesh m) (mesh m) = Ok NaN.
Proof.
  intros w b sigmas (v & fs) (v' & fs') Hs NE ((n & Hv) & V) ((n' & Hv') & V') L L' (f & I & Z). unfold mesh. cbn [fst snd] in *.
  rewrite (loss3_ok w b sigmas v n fs v' n' fs'), (loss3_ok w b sigmas v n fs v n fs) by assumption.
  assert (F : flat (map (face_piece v) fs) = true).
  { apply existsb_exists. exists (face_piece v f). split; [apply in_map; exact I|]. apply Reqb_true. exact Z. }
  split; f_equal; apply losses_nan; try (rewrite F; reflexivity); destruct sigmas; try congruence; discriminate.
Qed.
Print Assumptions C42_degenerate_faces_refuted.
Example C42_degenerate_hypotheses : exists m, is_mesh m /\ length (snd m) <> 3%nat /\ exists f, In f (snd m) /\ area (fst m) f = 0.
Proof.
  exists (vertices4, [(0, 1, 2)%nat; (1, 1, 2)%nat]). split; [split; [exists 4%nat; reflexivity|apply valid_b; reflexivity]|].
  split; [discriminate|]. exists (1, 1, 2)%nat. split; [right; left; reflexivity|]. apply normv_zero. intros c L. unfold area_normal, cross3, vsub, at_corner. cbn [fst corner].
  destruct c as [|[|[|c]]]; [| | |lia]; rewrite !vertices4_at; cbn; ring.
Qed.

(** Faces that are not made of vertices, or no face at all. *)
Theorem C42_meshes_errors : forall w b sigmas v fs t, sigmas <> [] ->
  (~ valid_faces v fs -> g_faces t <> None -> loss (AVar3 w b sigmas) (mesh (v, fs)) t = Err IndexError) /\
  loss (AVar3 w b sigmas) (curve v) t = Err ValueError.
Proof.
  intros w b sigmas v fs t NE. split; [intros NV G; apply loss3_invalid; assumption|]. destruct sigmas as [|s l]; [congruence|]. reflexivity.
Qed.
Print Assumptions C42_meshes_errors.

(** ** C11: the varifold terms *)

(** Both back ends give the same loss, for any meshes. *)
Theorem C11_varifold_backends : forall w b b' sigmas m m', scales sigmas -> is_mesh m -> is_mesh m' ->
  call (AVar3 w b sigmas) (mesh m) (mesh m') = call (AVar3 w b' sigmas) (mesh m) (mesh m').
Proof.
  intros w b b' sigmas (v & fs) (v' & fs') Hs ((n & Hv) & V) ((n' & Hv') & V'). unfold mesh, call. cbn [fst snd] in *.
  destruct (loss3_general w b sigmas v n fs v' n' fs') as (C & N & L & C' & N' & L' & E & E' & H); try assumption.
  destruct (loss3_general w b' sigmas v n fs v' n' fs') as (C1 & N1 & L1 & C2 & N2 & L2 & F & F' & K); try assumption.
  rewrite H, K. assert (C1 = C /\ N1 = N /\ C2 = C' /\ N2 = N') as (-> & -> & -> & ->) by (repeat split; congruence). reflexivity.
Qed.
Print Assumptions C11_varifold_backends.

(** Curves are only offered by torch: asking for KeOps is accepted by the factory, and
    each evaluation raises. *)
Theorem C11_curves_keops_not_offered : forall default sigmas w a, varifold_attachment default 2 sigmas w (Some "keops") = Ok a -> sigmas <> [] ->
  forall s t, call a s t = Err NotImplementedError.
Proof.
  intros default sigmas w a E NE s t. cbn in E. injection E as <-. destruct sigmas as [|x l]; [congruence|]. reflexivity.
Qed.
Print Assumptions C11_curves_keops_not_offered.

(** ** C43 *)

(** C43, curves: first vertex and direction, of both arguments. *)
Theorem C43_curves : forall w sigmas x x' y y', scales sigmas -> is_curve x -> is_curve y -> same_curve x x' -> same_curve y y' ->
  call (AVar2 w Torch sigmas) (curve x') (curve y') = call (AVar2 w Torch sigmas) (curve x) (curve y).
Proof.
  intros w sigmas x x' y y' Hs (N & LN & Hx) (M & LM & Hy) Sx Sy. destruct (same_curve_edges 2 x x' Sx) as (Ex & Hx'). destruct (same_curve_edges 2 y y' Sy) as (Ey & Hy').
  unfold call, curve. rewrite (loss2_ok w sigmas x y N M), (loss2_ok w sigmas x' y' N M) by auto. cbn [bind]. do 3 f_equal. apply sumof_ext. intros s _.
  rewrite (same_dist2 2 s _ _ _ Ex), shape_dist2_sym, (same_dist2 2 s _ _ _ Ey). apply shape_dist2_sym.
Qed.
Print Assumptions C43_curves.
Example C43_curves_hypotheses : is_curve square /\ same_curve square (from_vertex 2 (backward square)) /\ (backward square) @2 (0%nat) (1%nat) = 1 /\ square @2 (0%nat) (1%nat) = 0.
Proof.
  split; [apply C42_curves_hypotheses|]. split; [eapply sc_trans; [apply sc_back|apply sc_start]|]. split; reflexivity.
Qed.

(** C43, curves: the same rigid motion (rotation or reflection, then translation). *)
Theorem C43_curves_motion : forall w sigmas x y Q t, scales sigmas -> is_curve x -> is_curve y -> orthogonal 2 Q ->
  call (AVar2 w Torch sigmas) (curve (moved 2 Q t x)) (curve (moved 2 Q t y)) = call (AVar2 w Torch sigmas) (curve x) (curve y).
Proof.
  intros w sigmas x y Q t Hs (N & LN & Hx) (M & LM & Hy) H. unfold call, curve.
  rewrite (loss2_ok w sigmas x y N M), (loss2_ok w sigmas (moved 2 Q t x) (moved 2 Q t y) N M); auto.
  - cbn [bind]. do 3 f_equal. apply sumof_ext. intros s _. symmetry. apply moved_dist2. exists Q, t. split; [exact H|]. split; apply edges_moved.
  - cbn. unfold nrows. rewrite Hx. reflexivity.
  - cbn. unfold nrows. rewrite Hy. reflexivity.
Qed.
Print Assumptions C43_curves_motion.

(** A quarter turn, and a reflection of space. *)
Definition quarter (i j : nat) : R := match i, j with 0%nat, 1%nat => -1 | 1%nat, 0%nat => 1 | _, _ => 0 end.
Definition mirror (i j : nat) : R := if Nat.eqb i j then (if Nat.eqb i 0 then -1 else 1) else 0.
Example C43_motion_hypotheses : orthogonal 2 quarter /\ orthogonal 3 mirror.
Proof.
  split; intros i j Li Lj; destruct i as [|[|[|i]]]; try lia; destruct j as [|[|[|j]]]; try lia; unfold delta, quarter, mirror; cbn; ring.
Qed.

(** C43, meshes (not of three faces): faces reordered, flipped, rotated, vertices
    renumbered, of both arguments; also when the loss is NaN. *)
Theorem C43_meshes : forall w b sigmas m m1 m' m1', scales sigmas -> is_mesh m -> is_mesh m' ->
  length (snd m) <> 3%nat -> length (snd m') <> 3%nat -> same_mesh m m1 -> same_mesh m' m1' ->
  call (AVar3 w b sigmas) (mesh m1) (mesh m1') = call (AVar3 w b sigmas) (mesh m) (mesh m').
Proof.
  intros w b sigmas m m1 m' m1' Hs Wm Wm' L L' S S'.
  destruct (same_mesh_pieces m m1 S Wm) as (((n1 & H1) & V1) & L1 & E1). destruct (same_mesh_pieces m' m1' S' Wm') as (((n2 & H2) & V2) & L2 & E2).
  destruct Wm as ((n & Hv) & V). destruct Wm' as ((n' & Hv') & V'). unfold call, mesh.
  rewrite (loss3_ok w b sigmas _ n1 _ _ n2 _), (loss3_ok w b sigmas (fst m) n _ _ n' _) by (try assumption; congruence). cbn [bind]. do 2 f_equal.
  unfold losses. f_equal. apply map_ext. intros s. symmetry. apply cost_value_same; assumption.
Qed.
Print Assumptions C43_meshes.
Example C43_meshes_hypotheses :
  is_mesh (vertices4, two_faces) /\ length two_faces <> 3%nat /\
  same_mesh (vertices4, two_faces) (vertices4, [(3, 2, 1)%nat; (0, 2, 1)%nat]).
Proof.
  split; [exact two_faces_mesh|]. split; [discriminate|]. apply sm_faces. exists [(1, 3, 2)%nat; (0, 1, 2)%nat]. split; [apply perm_swap|].
  repeat (apply Forall2_cons; [cbn; auto 10|]); apply Forall2_nil.
Qed.

(** C43, meshes (not of three faces): the same rigid motion. *)
Theorem C43_meshes_motion : forall w b sigmas m m' Q t, scales sigmas -> is_mesh m -> is_mesh m' ->
  length (snd m) <> 3%nat -> length (snd m') <> 3%nat -> orthogonal 3 Q ->
  call (AVar3 w b sigmas) (mesh (moved 3 Q t (fst m), snd m)) (mesh (moved 3 Q t (fst m'), snd m')) = call (AVar3 w b sigmas) (mesh m) (mesh m').
Proof.
  intros w b sigmas (v & fs) (v' & fs') Q t Hs ((n & Hv) & V) ((n' & Hv') & V') L L' H. unfold call, mesh. cbn [fst snd] in *.
  rewrite (loss3_ok w b sigmas _ n _ _ n' _), (loss3_ok w b sigmas v n _ _ n' _); try assumption.
  - cbn [bind]. do 2 f_equal. unfold losses. f_equal. apply map_ext. intros s. apply mesh_moved. exact H.
  - cbn. unfold nrows. rewrite Hv. reflexivity.
  - cbn. unfold nrows. rewrite Hv'. reflexivity.
Qed.
Print Assumptions C43_meshes_motion.

(** C43 is false of meshes of three faces: the loss of a mesh and itself is zero, but
    flipping one of its faces makes it NaN. *)
Definition three_faces : list face := [(0, 3, 2)%nat; (0, 1, 2)%nat; (0, 2, 1)%nat].
Definition three_flipped : list face := [(0, 3, 2)%nat; (0, 2, 1)%nat; (0, 2, 1)%nat].
Theorem C43_three_faces_refuted :
  is_mesh (vertices4, three_faces) /\ non_degenerate (vertices4, three_faces) /\ same_mesh (vertices4, three_faces) (vertices4, three_flipped) /\
  forall w b s, s <> 0 ->
    loss (AVar3 w b [s]) (mesh (vertices4, three_faces)) (mesh (vertices4, three_faces)) = Ok (Fin 0) /\
    loss (AVar3 w b [s]) (mesh (vertices4, three_flipped)) (mesh (vertices4, three_faces)) = Ok NaN.
Proof.
  assert (V1 : valid_faces vertices4 three_faces) by (apply valid_b; reflexivity).
  assert (V2 : valid_faces vertices4 three_flipped) by (apply valid_b; reflexivity).
  split; [split; [exists 4%nat; reflexivity|exact V1]|]. split.
  { unfold non_degenerate, three_faces. cbn [fst snd]. repeat (apply Forall_cons; [|]); try apply Forall_nil; apply area_pos; unfold area_normal, cross3, vsub, at_corner; cbn [corner]; rewrite !vertices4_at; cbn; lra. }
  split.
  { apply sm_faces. exists three_faces. split; [apply Permutation_refl|]. repeat (apply Forall2_cons; [cbn; auto 10|]); apply Forall2_nil. }
  intros w b s Hs. assert (SC : scales [s]) by (repeat constructor; exact Hs).
  destruct (loss3_general w b [s] vertices4 4 three_faces vertices4 4 three_faces) as (C & N & L & C' & N' & L' & E & E' & H); try assumption; try reflexivity.
  assert (C' = C /\ N' = N) as (-> & ->) by (split; congruence).
  destruct (loss3_general w b [s] vertices4 4 three_flipped vertices4 4 three_faces) as (C1 & N1 & L1 & C2 & N2 & L2 & F & F' & K); try assumption; try reflexivity.
  assert (C2 = C /\ N2 = N) as (-> & ->) by (split; congruence).
  unfold mesh. cbn [fst snd]. rewrite H, K. split.
  - f_equal. assert (FL : flat (pieces C N) = false).
    { apply flat_false. unfold compute_centers_normals_lengths in E. cbn [select_corner three_faces forallb corner Nat.ltb Nat.leb nrows vertices4 tlist2 shape tnth nth andb bind] in E.
      injection E as _ <- _. apply Forall_forall. intros p I. unfold pieces in I. apply in_map_iff in I. destruct I as (i & <- & I). cbn [vec]. intros Z.
      pose proof (proj1 (normv_zero 3 _) Z 1%nat ltac:(lia)) as Z1. apply in_seq in I.
      assert (Hi : i = 0%nat \/ i = 1%nat \/ i = 2%nat) by (cbn in I; lia).
      destruct Hi as [->|[->| ->]]; cbn in Z1; lra. }
    rewrite losses_fin by exact FL. f_equal. unfold sumof. cbn. rewrite shape_dist2_same. ring.
  - f_equal. apply losses_nan; [discriminate|]. apply orb_true_iff. left. unfold compute_centers_normals_lengths in F.
    cbn [select_corner three_flipped forallb corner Nat.ltb Nat.leb nrows vertices4 tlist2 shape tnth nth andb bind] in F. injection F as _ <- _.
    apply existsb_exists. eexists. split; [left; reflexivity|]. apply Reqb_true. apply normv_zero. intros c Lc. destruct c as [|[|[|c]]]; [| | |lia]; cbn; ring.
Qed.
Print Assumptions C43_three_faces_refuted.

(** ** C44 *)

(** C44: calling an attachment returns its weight times its loss; the weight is the
    constructor's argument (zero for NullLoss). *)
Theorem C44_call : forall a s t,
  (forall l, loss a s t = Ok l -> call a s t = Ok (fmul (Fin (att_weight a)) l)) /\
  (forall e, loss a s t = Err e -> call a s t = Err e) /\
  (forall r, loss a s t = Ok (Fin r) -> call a s t = Ok (Fin (att_weight a * r))).
Proof. intros a s t. unfold call. repeat split; intros ? ->; reflexivity. Qed.
Print Assumptions C44_call.

(** C44: the factory of varifold attachments gives one carrying the weight, the scales and
    the back end asked for (the global one when none is), in dimensions 2 and 3 with the
    back ends torch and keops, and RuntimeError otherwise. *)
Theorem C44_varifold_factory : forall default dim sigmas w backend,
  let name := match backend with Some b => b | None => default end in
  (forall a, varifold_attachment default dim sigmas w backend = Ok a <->
     exists b, (b = Torch /\ name = "torch"%string \/ b = Keops /\ name = "keops"%string) /\
       (dim = 2%nat /\ a = AVar2 w b sigmas \/ dim = 3%nat /\ a = AVar3 w b sigmas)) /\
  (forall a, varifold_attachment default dim sigmas w backend = Ok a -> att_weight a = w) /\
  (forall e, varifold_attachment default dim sigmas w backend = Err e <->
     e = RuntimeError /\ ((dim <> 2%nat /\ dim <> 3%nat) \/ (name <> "torch"%string /\ name <> "keops"%string))).
Proof.
  intros default dim sigmas w backend name. unfold varifold_attachment. fold name.
  destruct (String.eqb_spec name "torch") as [T|T]; [|destruct (String.eqb_spec name "keops") as [K|K]];
    (destruct (Nat.eqb_spec dim 2) as [D|D]; [|destruct (Nat.eqb_spec dim 3) as [D3|D3]]);
    (split; [|split]); intro x; cbn;
    try (split; [intros H; try discriminate H; try injection H as <-|intros H]);
    try (intros H; try discriminate H; injection H as <-; reflexivity);
    try (destruct H as [b [[[-> N]|[-> N]] [[E ->]|[E ->]]]]; (reflexivity || congruence));
    try (destruct H as [-> [[? ?]|[? ?]]]; congruence);
    try (split; [reflexivity|tauto]); try (eexists; split; [tauto|tauto]).
  all: try (exists Torch; tauto); try (exists Keops; tauto); try congruence.
Qed.
Print Assumptions C44_varifold_factory.
Example C44_varifold_factory_case : varifold_attachment "keops" 3 [1; 2] 5 (Some "torch"%string) = Ok (AVar3 5 Torch [1; 2]) /\
  varifold_attachment "keops" 2 [1] 5 None = Ok (AVar2 5 Keops [1]) /\ varifold_attachment "keops" 4 [1] 5 None = Err RuntimeError /\
  varifold_attachment "numpy" 2 [1] 5 None = Err RuntimeError.
Proof. repeat split; reflexivity. Qed.

(** C44 is false of CompoundAttachment: the weights of its members are ignored (at any
    depth: the value does not change when they do). *)
Fixpoint reweighted (a a' : att) : Prop :=
  match a, a' with
  | ACustom _ f, ACustom _ f' => f = f'
  | ANull, ANull => True
  | AEuclid _, AEuclid _ => True
  | AL2 _ t h, AL2 _ t' h' => t = t' /\ h = h'
  | AVar2 _ b l, AVar2 _ b' l' => b = b' /\ l = l'
  | AVar3 _ b l, AVar3 _ b' l' => b = b' /\ l = l'
  | ACompound _ l, ACompound _ l' =>
      (fix all l l' := match l, l' with [], [] => True | x :: r, x' :: r' => reweighted x x' /\ all r r' | _, _ => False end) l l'
  | _, _ => False
  end.

Lemma reweighted_loss a : forall a' s t, reweighted a a' -> loss a s t = loss a' s t.
Proof.
  revert a. fix IH 1. intros a a' s t H. destruct a as [? f| |?|? tr h|? b l|? b l|? l]; destruct a' as [? f'| |?|? tr' h'|? b' l'|? b' l'|? l']; cbn [reweighted] in H; try contradiction.
  - subst. reflexivity.
  - reflexivity.
  - reflexivity.
  - destruct H as (-> & ->). reflexivity.
  - destruct H as (-> & ->). reflexivity.
  - destruct H as (-> & ->). reflexivity.
  - cbn [loss]. assert (E : mapM (fun m => loss m s t) l = mapM (fun m => loss m s t) l'); [|rewrite E; reflexivity].
    revert l' H. induction l as [|x l IHl]; intros [|x' l'] H; try contradiction; [reflexivity|]. destruct H as (Hx & Hl). cbn [mapM]. rewrite (IH x x' s t Hx), (IHl l' Hl). reflexivity.
Qed.

Theorem C44_compound : forall w l l' s t,
  Forall2 reweighted l l' -> call (ACompound w l) s t = call (ACompound w l') s t.
Proof.
  intros w l l' s t F. unfold call. rewrite (reweighted_loss (ACompound w l) (ACompound w l')); [reflexivity|].
  cbn [reweighted]. induction F; [exact I|]. split; assumption.
Qed.
Print Assumptions C44_compound.

(** ... where the value is the weight times the sum of the losses. *)
Theorem C44_compound_value : forall w ms s t rs, Forall2 (fun m r => loss m s t = Ok (Fin r)) ms rs ->
  call (ACompound w ms) s t = Ok (Fin (w * sumof (fun r => r) rs)).
Proof.
  intros w ms s t rs F. unfold call. cbn [loss att_weight].
  assert (E : mapM (fun m => loss m s t) ms = Ok (map (fun r => Fin r) rs)).
  { induction F as [|m r ms rs H F IH]; [reflexivity|]. cbn [mapM map]. rewrite H. cbn [bind]. rewrite IH. reflexivity. }
  rewrite E. cbn [bind]. rewrite (fl_sum_fin (fun r => r)). reflexivity.
Qed.
Print Assumptions C44_compound_value.

(** ... which is the sum of the weighted members when these all weigh 1. *)
Theorem C44_compound_unit_weights : forall w ms s t rs, Forall (fun m => att_weight m = 1) ms -> Forall2 (fun m r => call m s t = Ok (Fin r)) ms rs ->
  call (ACompound w ms) s t = Ok (Fin (w * sumof (fun r => r) rs)).
Proof.
  intros w ms s t rs W F. apply C44_compound_value. induction F as [|m r ms rs H F IH]; constructor; inversion W as [|? ? W1 W2]; subst; [|apply IH; assumption].
  unfold call in H. destruct (loss m s t) as [l|e]; [|discriminate H]. cbn [bind] in H. rewrite W1 in H. destruct l as [x| | |]; cbn in H.
  - injection H as H. rewrite Rmult_1_l in H. congruence.
  - unfold fmul in H. destruct (Reqb 1 0); [discriminate H|]. destruct (Rltb 1 0); discriminate H.
  - unfold fmul in H. destruct (Reqb 1 0); [discriminate H|]. destruct (Rltb 1 0); discriminate H.
  - discriminate H.
Qed.
Print Assumptions C44_compound_unit_weights.

Definition line_a : tensor := tlist2 1 2 [0; 0].
Definition line_b : tensor := tlist2 1 2 [3; 0].
Theorem C44_compound_refuted :
  let m1 := AEuclid 1 in let m2 := AEuclid 10 in
  call m1 (curve line_a) (curve line_b) = Ok (Fin 3) /\
  call m2 (curve line_a) (curve line_b) = Ok (Fin 30) /\
  call (ACompound 1 [m1; m2]) (curve line_a) (curve line_b) = Ok (Fin 6).
Proof.
  assert (E : euclid_loss line_a line_b = 3).
  { unfold euclid_loss. cbn. replace ((0 - 3) * ((0 - 3) * 1)) with (3 * 3) by ring. replace (0 + 3 * 3 + (0 - 0) * ((0 - 0) * 1)) with (3 * 3) by ring. rewrite sqrt_square by lra. ring. }
  cbn zeta. unfold call, curve. cbn [loss g_points att_weight mapM bind]. rewrite E. unfold fl_sum. cbn [fold_left fadd fmul]. split; [|split]; apply f_equal, f_equal; ring.
Qed.
Print Assumptions C44_compound_refuted.

(** ** C51 *)

(** C51: the normals and the areas (meshes that do not have three faces). *)
Theorem C51_normals_and_areas : forall m, is_mesh m -> length (snd m) <> 3%nat ->
  exists C N L, compute_centers_normals_lengths (fst m) (snd m) = Ok (C, N, L) /\
    shape C = [length (snd m); 3%nat] /\ shape N = [length (snd m); 3%nat] /\ shape L = [length (snd m); 1%nat] /\
    forall i f, nth_error (snd m) i = Some f ->
      (forall c, (c < 3)%nat -> N @2 i c = area_normal (fst m) f c) /\ L @2 i (0%nat) = area (fst m) f /\
      (forall c, C @2 i c = 3 / 2 * barycentre (fst m) f c).
Proof.
  intros (v & fs) ((n & Hv) & V) NE. cbn [fst snd] in *. destruct (compute_ok v n fs Hv V) as (C & N & L & E & (SC & SN & SL & HL) & HC & HN).
  exists C, N, L. split; [exact E|]. split; [exact SC|]. split; [exact SN|]. split; [exact SL|]. intros i f Hf.
  assert (Li : (i < length fs)%nat) by (apply nth_error_Some; congruence). apply (nth_error_nth _ _ no_face) in Hf. specialize (HN NE i).
  split; [intros c Lc; rewrite HN, Hf by exact Lc; reflexivity|]. split; [|intros c; rewrite HC, Hf; reflexivity].
  rewrite (HL i Li). unfold area. apply normv_ext. intros c Lc. unfold vrow. rewrite <- Hf. apply HN. exact Lc.
Qed.
Print Assumptions C51_normals_and_areas.

(** The specification: [area_normal] is orthogonal to the edges and its norm is the area
    of the triangle, half the root of |a|^2 |b|^2 - (a.b)^2. *)
Theorem C51_area_normal : forall v f,
  let a := vsub (at_corner v 1 f) (at_corner v 0 f) in
  let b := vsub (at_corner v 2 f) (at_corner v 0 f) in
  dotv 3 (area_normal v f) a = 0 /\ dotv 3 (area_normal v f) b = 0 /\
  area v f = 1 / 2 * sqrt (sqn 3 a * sqn 3 b - dotv 3 a b ^ 2).
Proof.
  intros v f a b. fold (edge1 v f) in a. fold (edge2 v f) in b. split; [|split].
  - unfold area_normal. fold (edge1 v f) (edge2 v f). fold a b. unfold dotv. cbn [rsum cross3]. ring.
  - unfold area_normal. fold (edge1 v f) (edge2 v f). fold a b. unfold dotv. cbn [rsum cross3]. ring.
  - unfold area, normv. rewrite sqn_dotv, normal_dot. fold a b.
    replace (1 / 4 * (dotv 3 a a * dotv 3 b b - dotv 3 a b * dotv 3 b a)) with ((1 / 2) * (1 / 2) * (sqn 3 a * sqn 3 b - dotv 3 a b ^ 2)).
    + assert (P : 0 <= sqn 3 a * sqn 3 b - dotv 3 a b ^ 2).
      { replace (sqn 3 a * sqn 3 b - dotv 3 a b ^ 2) with (sqn 3 (cross3 a b)); [apply sqn_nonneg|]. unfold sqn, dotv. cbn [rsum cross3]. ring. }
      rewrite sqrt_mult by lra. rewrite sqrt_square by lra. reflexivity.
    + rewrite !sqn_dotv, (dotv_sym 3 b a). field.
Qed.
Print Assumptions C51_area_normal.


(** C51: translations move the centres (by 3/2 of the translation: see below) and keep
    normals and areas, whatever the number of faces. *)
Definition translated (t : nat -> R) (v : tensor) : tensor := mk2 (nrows v) 3 (fun i c => v @2 i c + t c).
Theorem C51_translations : forall m t C N L, is_mesh m -> compute_centers_normals_lengths (fst m) (snd m) = Ok (C, N, L) ->
  exists C' N' L', compute_centers_normals_lengths (translated t (fst m)) (snd m) = Ok (C', N', L') /\
    shape C' = shape C /\ (forall i c, C' @2 i c = C @2 i c + 3 / 2 * t c) /\ teq N' N /\ teq L' L.
Proof.
  intros (v & fs) t C N L ((n & Hv) & V) E. cbn [fst snd] in *.
  assert (H' : shape (translated t v) = [n; 3%nat]) by (cbn; unfold nrows; rewrite Hv; reflexivity).
  assert (V' : valid_faces (translated t v) fs) by exact V.
  unfold compute_centers_normals_lengths in *. rewrite !(select_ok v n) in E by (try assumption; lia). rewrite !(select_ok (translated t v) n) by (try assumption; lia). cbn [bind] in *. cbv zeta in *.
  set (A k := mk2 (length fs) 3 (fun i c => at_corner v k (nth i fs no_face) c)) in *. set (B k := mk2 (length fs) 3 (fun i c => at_corner (translated t v) k (nth i fs no_face) c)).
  change (mk2 (length fs) 3 (fun i c => at_corner v 0 (nth i fs no_face) c)) with (A 0%nat) in E. change (mk2 (length fs) 3 (fun i c => at_corner v 1 (nth i fs no_face) c)) with (A 1%nat) in E.
  change (mk2 (length fs) 3 (fun i c => at_corner v 2 (nth i fs no_face) c)) with (A 2%nat) in E.
  injection E as <- <- <-.
  assert (NE : forall i c, (tscal (1 / 2) (cross (tsub (B 1%nat) (B 0%nat)) (tsub (B 2%nat) (B 0%nat)))) @2 i c = (tscal (1 / 2) (cross (tsub (A 1%nat) (A 0%nat)) (tsub (A 2%nat) (A 0%nat)))) @2 i c).
  { intros i c. unfold tscal, tmap. cbn [get]. f_equal. unfold cross. change (nrows (tsub (B 1%nat) (B 0%nat))) with (length fs). change (nrows (tsub (A 1%nat) (A 0%nat))) with (length fs).
    destruct (Nat.eqb (length fs) 3); cbn [get mk2 A B tsub tmap2]; unfold at_corner, translated; cbn [get mk2]; ring. }
  assert (SE : shape (tscal (1 / 2) (cross (tsub (B 1%nat) (B 0%nat)) (tsub (B 2%nat) (B 0%nat)))) = shape (tscal (1 / 2) (cross (tsub (A 1%nat) (A 0%nat)) (tsub (A 2%nat) (A 0%nat))))).
  { cbn [tscal tmap shape]. unfold cross. change (nrows (tsub (B 1%nat) (B 0%nat))) with (length fs). change (nrows (tsub (A 1%nat) (A 0%nat))) with (length fs). destruct (Nat.eqb (length fs) 3); reflexivity. }
  set (NB := tscal (1 / 2) (cross (tsub (B 1%nat) (B 0%nat)) (tsub (B 2%nat) (B 0%nat)))) in *. set (NA := tscal (1 / 2) (cross (tsub (A 1%nat) (A 0%nat)) (tsub (A 2%nat) (A 0%nat)))) in *.
  exists (tscal (1 / 2) (tadd (tadd (B 0%nat) (B 1%nat)) (B 2%nat))), NB, (mk2 (nrows NB) 1 (fun i _ => sqrt (rsum (ncols NB) (fun c => NB @2 i c ^ 2)))). split; [reflexivity|]. split; [reflexivity|]. split; [|split].
  - intros i c. unfold tscal, tadd, tmap, tmap2. cbn [get A B mk2]. unfold at_corner, translated. cbn [get mk2]. lra.
  - split; [exact SE|]. intros idx I. destruct idx as [|i [|c [|x r]]]; try (exfalso; revert I; unfold NB, tscal, tmap, cross; cbn [shape]; match goal with |- context [Nat.eqb ?a 3] => destruct (Nat.eqb a 3) end; cbn; tauto).
    apply NE.
  - split; [cbn [shape mk2]; unfold nrows; rewrite SE; reflexivity|]. intros idx I. destruct idx as [|i [|c [|x r]]]; try (exfalso; revert I; cbn; tauto). cbn [get mk2]. f_equal.
    unfold ncols. rewrite SE. apply rsum_ext. intros k _. rewrite NE. reflexivity.
Qed.
Print Assumptions C51_translations.

(** C51: flipping a face negates its normal and keeps its area (meshes that do not have
    three faces). *)
Theorem C51_flip : forall v f, let '(a, b, c) := f in
  (forall k, (k < 3)%nat -> area_normal v (a, c, b) k = - area_normal v (a, b, c) k) /\ area v (a, c, b) = area v (a, b, c).
Proof.
  intros v ((a & b) & c). assert (N : forall k, (k < 3)%nat -> area_normal v (a, c, b) k = - area_normal v (a, b, c) k).
  { intros k K. unfold area_normal, cross3, vsub, at_corner. cbn [corner]. destruct k as [|[|[|k]]]; [| | |lia]; ring. }
  split; [exact N|]. unfold area, normv. f_equal. unfold sqn. apply rsum_ext. intros k K. rewrite N by exact K. ring.
Qed.
Print Assumptions C51_flip.

(** C51 is false of the centres: they are 3/2 times the barycentres. *)
Theorem C51_centres_refuted : forall m C N L, is_mesh m -> compute_centers_normals_lengths (fst m) (snd m) = Ok (C, N, L) ->
  (forall i f c, nth_error (snd m) i = Some f -> C @2 i c = 3 / 2 * barycentre (fst m) f c) /\
  exists i f c, nth_error two_faces i = Some f /\ (c < 3)%nat /\ 3 / 2 * barycentre vertices4 f c <> barycentre vertices4 f c.
Proof.
  intros (v & fs) C N L ((n & Hv) & V) E. cbn [fst snd] in *. split.
  - intros i f c Hf. destruct (compute_ok v n fs Hv V) as (C0 & N0 & L0 & E0 & _ & HC & _). rewrite E0 in E. injection E as -> -> ->. rewrite HC. apply (nth_error_nth _ _ no_face) in Hf. rewrite Hf. reflexivity.
  - exists 0%nat, (0, 1, 2)%nat, 0%nat. split; [reflexivity|]. split; [lia|]. unfold barycentre, at_corner. cbn [corner]. rewrite !vertices4_at. cbn. lra.
Qed.
Print Assumptions C51_centres_refuted.

(** C51 is false of the normals of meshes of three faces: the cross products mix the faces. *)
Theorem C51_three_faces_refuted : exists C N L, is_mesh (vertices4, three_faces) /\ compute_centers_normals_lengths vertices4 three_faces = Ok (C, N, L) /\
  (N @2 (0%nat) (0%nat) = 1 / 2 /\ N @2 (0%nat) (1%nat) = - (1 / 2) /\ N @2 (0%nat) (2%nat) = 0) /\
  (forall f, nth_error three_faces 0 = Some f ->
     area_normal vertices4 f (0%nat) = 0 /\ area_normal vertices4 f (1%nat) = 0 /\ area_normal vertices4 f (2%nat) = 1 / 2).
Proof.
  eexists _, _, _. split; [apply C43_three_faces_refuted|]. split; [reflexivity|]. split.
  - repeat split; cbn; field.
  - intros f Hf. injection Hf as <-. unfold area_normal, cross3, vsub, at_corner. cbn [corner]. rewrite !vertices4_at. cbn. repeat split; field.
Qed.
Print Assumptions C51_three_faces_refuted.
Theorem C51_invalid_faces : forall v fs, ~ valid_faces v fs -> compute_centers_normals_lengths v fs = Err IndexError.
Proof. exact compute_invalid. Qed.
Print Assumptions C51_invalid_faces.

(** ** C65 *)

(** C65: the pointwise attachment sums the distances between corresponding points. *)
Definition same_rows (x y : tensor) : Prop := forall i c, (i < nrows x)%nat -> (c < ncols x)%nat -> x @2 i c = y @2 i c.
Theorem C65_pointwise : forall w x y, shape y = shape x ->
  exists r, loss (AEuclid w) (curve x) (curve y) = Ok (Fin r) /\
    r = rsum (nrows x) (fun i => normv (ncols x) (vsub (vrow x i) (vrow y i))) /\
    0 <= r /\ loss (AEuclid w) (curve y) (curve x) = Ok (Fin r) /\ (r = 0 <-> same_rows x y).
Proof.
  intros w x y H. exists (euclid_loss x y). split; [reflexivity|]. split; [reflexivity|]. split; [apply rsum_nonneg; intros; apply sqrt_pos|]. split.
  - cbn [loss curve g_points]. do 2 f_equal. unfold euclid_loss, nrows, ncols. rewrite H. apply rsum_ext. intros i _. f_equal. apply rsum_ext. intros c _. ring.
  - split.
    + intros E i c Li Lc. pose proof (rsum_nonneg_zero (nrows x) _ (fun i _ => sqrt_pos _) E i Li) as Z. cbn beta in Z.
      pose proof (proj1 (normv_zero (ncols x) (vsub (vrow x i) (vrow y i))) Z c Lc) as Z'. unfold vsub, vrow in Z'. lra.
    + intros E. apply rsum_zero. intros i Li. apply (proj2 (normv_zero (ncols x) (vsub (vrow x i) (vrow y i)))). intros c Lc. unfold vsub, vrow. rewrite (E i c Li Lc). ring.
Qed.
Print Assumptions C65_pointwise.
Example C65_hypotheses : shape line_b = shape line_a /\ ~ same_rows line_a line_b.
Proof. split; [reflexivity|]. intros H. specialize (H 0%nat 0%nat). cbn in H. specialize (H ltac:(lia) ltac:(lia)). lra. Qed.

(** C65: the triangle inequality of the pointwise attachment. *)
Theorem C65_pointwise_triangle : forall x y z, shape y = shape x -> euclid_loss x z <= euclid_loss x y + euclid_loss y z.
Proof.
  intros x y z H. unfold euclid_loss, nrows, ncols. rewrite H, <- rsum_plus. apply rsum_le. intros i _. fold (ncols x).
  pose proof (normv_triangle (ncols x) (vsub (vrow x i) (vrow y i)) (vsub (vrow y i) (vrow z i))) as T. unfold normv, sqn, vsub, vrow in T.
  rewrite (rsum_ext (ncols x) (fun c => (x @2 i c - z @2 i c) ^ 2) (fun c => (x @2 i c - y @2 i c + (y @2 i c - z @2 i c)) ^ 2)) by (intros; f_equal; ring). exact T.
Qed.
Print Assumptions C65_pointwise_triangle.

(** C65: images of the same shape. *)
Lemma sum_idx_nonneg sh : forall f, (forall idx, 0 <= f idx) -> 0 <= sum_idx sh f.
Proof. induction sh as [|n sh IH]; intros f H; cbn [sum_idx]; [apply H|]. apply rsum_nonneg. intros i _. apply IH. intros; apply H. Qed.
Lemma sum_idx_zero sh : forall f, (forall idx, 0 <= f idx) -> (sum_idx sh f = 0 <-> forall idx, valid sh idx -> f idx = 0).
Proof.
  induction sh as [|n sh IH]; intros f H; cbn [sum_idx].
  - split; [intros E [|i r]; cbn [valid]; [intros _; exact E|intros []]|]. intros E. apply E. exact I.
  - split.
    + intros E [|i idx]; cbn [valid]; [intros []|]. intros (L & V).
      pose proof (rsum_nonneg_zero n _ (fun i _ => sum_idx_nonneg sh (fun r => f (i :: r)) (fun r => H _)) E i L) as Z. cbn beta in Z.
      rewrite (IH (fun r => f (i :: r)) (fun r => H _)) in Z. apply Z. exact V.
    + intros E. apply rsum_zero. intros i L. apply (IH (fun r => f (i :: r)) (fun r => H _)). intros idx V. apply E. split; assumption.
Qed.
Lemma l2_value x y : shape y = shape x -> l2_loss x y = sum_idx (shape x) (fun idx => (get x idx - get y idx) ^ 2).
Proof.
  intros H. unfold l2_loss. rewrite tdot_sum by reflexivity. cbn [tsub tmap2 shape get].
  rewrite (sum_idx_ext (shape x) _ (fun idx => (get x idx - get y idx) ^ 2)) by (intros; ring).
  apply pow2_sqrt. apply sum_idx_nonneg. intros; apply pow2_ge_0.
Qed.
Theorem C65_images : forall w transform x y, shape y = shape x -> transform = None \/ transform = Some "l2" ->
  exists a r, l2_attachment transform w None = Ok a /\ loss a (curve x) (curve y) = Ok (Fin r) /\
    r = sum_idx (shape x) (fun idx => (get x idx - get y idx) ^ 2) /\
    0 <= r /\ loss a (curve y) (curve x) = Ok (Fin r) /\ (r = 0 <-> teq x y).
Proof.
  intros w transform x y H T. exists (AL2 w "l2" None), (l2_loss x y).
  split; [destruct T as [->| ->]; reflexivity|]. split; [reflexivity|]. rewrite (l2_value x y H). split; [reflexivity|].
  split; [apply sum_idx_nonneg; intros; apply pow2_ge_0|]. split.
  - change (Ok (Fin (l2_loss y x)) = Ok (Fin (sum_idx (shape x) (fun idx => (get x idx - get y idx) ^ 2)))). do 2 f_equal. rewrite (l2_value y x (eq_sym H)), H. apply sum_idx_ext. intros; ring.
  - rewrite sum_idx_zero by (intros; apply pow2_ge_0). split.
    + intros E. split; [symmetry; exact H|]. intros idx V. specialize (E idx V). destruct (Req_dec (get x idx - get y idx) 0) as [Z|N]; [lra|]. apply (pow_nonzero _ 2) in N. contradiction.
    + intros (_ & E) idx V. rewrite (E idx V). ring.
Qed.
Print Assumptions C65_images.

(** The other transforms: unknown names are refused; 'radon' cannot be evaluated;
    'smooth' needs a bandwidth, and does not separate images (an image and its negative
    are at distance zero: it compares the norms of the rows). *)
Theorem C65_transforms : forall w x y h, 
  (forall t, ~ In t ["l2"; "fft"; "radon"; "smooth"] -> l2_attachment (Some t) w h = Err NotImplementedError) /\
  (forall a, l2_attachment (Some "radon") w h = Ok a -> call a (curve x) (curve y) = Err TypeError) /\
  (forall a, l2_attachment (Some "smooth") w None = Ok a -> call a (curve x) (curve y) = Err RuntimeError).
Proof.
  intros w x y h. split; [|split].
  - intros t N. unfold l2_attachment. cbn [In] in N. destruct (String.eqb_spec t "l2") as [->|]; [tauto|]. destruct (String.eqb_spec t "fft") as [->|]; [tauto|].
    destruct (String.eqb_spec t "radon") as [->|]; [tauto|]. destruct (String.eqb_spec t "smooth") as [->|]; [tauto|]. reflexivity.
  - intros a E. cbn in E. injection E as <-. reflexivity.
  - intros a E. cbn in E. injection E as <-. reflexivity.
Qed.
Print Assumptions C65_transforms.
Theorem C65_smooth_refuted : forall w h n d (f : nat -> nat -> R), let x := mk2 n d f in let y := mk2 n d (fun i c => - f i c) in
  loss (AL2 w "smooth" (Some h)) (curve x) (curve y) = Ok (Fin 0).
Proof.
  intros w h n d f x y.
  change (Ok (Fin (l2_loss (mk1 n (fun i => exp (- rsum d (fun c => f i c ^ 2) / 2 / (h * h)))) (mk1 n (fun i => exp (- rsum d (fun c => (- f i c) ^ 2) / 2 / (h * h)))))) = Ok (Fin 0)).
  do 2 f_equal. rewrite l2_value by reflexivity. apply sum_idx_zero; [intros; apply pow2_ge_0|].
  intros [|i [|j r]]; cbn [shape mk1 valid]; try tauto. intros _. cbn [get mk1].
  replace (rsum d (fun c => (- f i c) ^ 2)) with (rsum d (fun c => f i c ^ 2)) by (apply rsum_ext; intros; ring). ring.
Qed.
Print Assumptions C65_smooth_refuted.
