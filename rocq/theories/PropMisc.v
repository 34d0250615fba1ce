(** Property theorems about deformation grids, object factories, affine voxel maps and files of
    points with fields (C73-C76). *)
From Coq Require Import Reals String List Arith ZArith Lia Lra FunctionalExtensionality.
From Verif Require Import Py RSum Tensor TensorFacts KernelModel FieldModel Fl UtilModel AabbModel MeshgenModel GeometryModel ModuleModel MiscModel
  SpecBox SpecUtil AttachmentFacts MeshAreas AabbFacts PropUtil PropMeshgen.
Import ListNotations.
Open Scope R_scope.

(** ** C73 *)

(** [back] holds, at the grid position idx, the coordinates of the point number ravel idx
    (the last axis of the grid varies fastest). *)
Definition grids_of_points (sh : list nat) (gd : tensor) (back : list tensor) : Prop :=
  length back = length sh /\ forall k, (k < length sh)%nat ->
    shape (nth k back (tzeros [])) = sh /\
    forall idx, valid sh idx -> get (nth k back (tzeros [])) idx = gd @2 (ravel sh idx) k.

Lemma vec2grid_points sh gd : shape gd = [prod sh; length sh] -> exists back, vec2grid gd sh = Ok back /\ grids_of_points sh gd back.
Proof.
  intros S. assert (Nr : nrows gd = prod sh) by (unfold nrows; rewrite S; reflexivity). assert (Nc : ncols gd = length sh) by (unfold ncols; rewrite S; reflexivity).
  set (col := fun i => reshape sh (mk1 (nrows gd) (fun r => gd @2 r i))). exists (map col (seq 0 (length sh))). split.
  - apply mapM_map. intros i I. apply in_seq in I. replace (Nat.ltb i (ncols gd)) with true by (symmetry; apply Nat.ltb_lt; lia). rewrite Nr, Nat.eqb_refl. unfold col. rewrite Nr. reflexivity.
  - split; [rewrite map_length, seq_length; reflexivity|]. intros k K.
    rewrite (nth_map_seq col (length sh) k (tzeros [])) by exact K. split; [reflexivity|]. intros idx V. unfold col.
    rewrite (get_reshape sh (mk1 (nrows gd) (fun r => gd @2 r k)) idx [ravel sh idx]); [reflexivity|cbn; lia|cbn; rewrite Nr; split; [apply ravel_lt, V|exact Logic.I]].
Qed.

Definition zsizes (resolution : list Z) : list nat := map Z.to_nat resolution.

(** Building: the points of the landmarks are the points of the mesh grid, one per grid
    position, and [togrid] gives the mesh grid back. *)
Theorem C73_grid_is_reproduced : forall b resolution, valid_box b -> (0 < a_dim b)%nat -> length resolution = a_dim b -> Forall (fun n => (0 <= n)%Z) resolution ->
  exists g gs back points, generate_mesh_grid b resolution = Ok gs /\ deformation_grid b resolution = Ok g /\
    mod_manifold (dg_module g) = GLm (a_dim b) (prod (zsizes resolution)) points (tzeros [prod (zsizes resolution); a_dim b]) /\
    shape points = [prod (zsizes resolution); a_dim b] /\
    grids_of_points (zsizes resolution) points gs /\ togrid g = Ok back /\ Forall2 teq back gs.
Proof.
  intros b l V P E F. destruct (C62_mesh_grid b l V P E F) as (gs & G & L & H). unfold deformation_grid. rewrite G. cbn [bind].
  assert (Hs : forall h, In h gs -> shape h = zsizes l).
  { intros h I. destruct (In_nth _ _ (tzeros []) I) as (c & Lc & <-). rewrite L in Lc. exact (proj1 (H c Lc)). }
  assert (Lz : length (zsizes l) = a_dim b) by (unfold zsizes; rewrite map_length; exact E).
  destruct (grid2vec_spec (zsizes l) gs) as (v & Ev & Sv & Gv); [intros ->; cbn in L; lia|exact Hs|]. rewrite Ev. cbn [bind].
  rewrite L in Sv. assert (Sv' : shape v = [prod (zsizes l); length (zsizes l)]) by (rewrite Lz; exact Sv).
  destruct (C59_grids_to_points_and_back (zsizes l) gs) as (v' & back & Ev' & _ & B & T); [destruct (zsizes l); [cbn in Lz; lia|discriminate]|lia|exact Hs|].
  rewrite Ev in Ev'. injection Ev' as <-.
  eexists. exists gs, back, v. split; [reflexivity|]. split; [reflexivity|]. cbn [dg_module mod_manifold]. unfold nrows at 1. rewrite Sv.
  split; [reflexivity|]. split; [reflexivity|]. split; [|split; [|exact T]].
  - split; [lia|]. intros k K. rewrite Lz in K. split; [exact (proj1 (H k K))|]. intros idx Vi. symmetry. apply Gv; [exact Vi|lia].
  - unfold togrid. cbn [dg_module dg_resolution mod_manifold]. replace (forallb _ l) with true; [exact B|]. symmetry. apply forallb_forall. intros n I.
    apply Z.leb_le. rewrite Forall_forall in F. exact (F n I).
Qed.
Print Assumptions C73_grid_is_reproduced.

(** Later: whatever happened to the descriptors (shooting, fills), the grid shows, at each
    position, the current place of the point that was there at first. *)
Theorem C73_grid_follows_its_points : forall g dim n gd ct, mod_manifold (dg_module g) = GLm dim n gd ct -> Forall (fun n => (0 <= n)%Z) (dg_resolution g) ->
  shape gd = [prod (zsizes (dg_resolution g)); length (dg_resolution g)] ->
  exists back, togrid g = Ok back /\ grids_of_points (zsizes (dg_resolution g)) gd back.
Proof.
  intros g dim n gd ct M F S. unfold togrid. rewrite M. replace (forallb _ _) with true.
  - apply vec2grid_points. unfold zsizes at 2. rewrite map_length. exact S.
  - symmetry. apply forallb_forall. intros k I. apply Z.leb_le. rewrite Forall_forall in F. exact (F k I).
Qed.
Print Assumptions C73_grid_follows_its_points.

(** Finding: the other class of this name can never be built. *)
Theorem C73_unexported_class_refuted : forall b resolution,
  (exists e, deformation_grid_other b resolution = Err e) /\
  (forall e, generate_mesh_grid b resolution = Err e -> deformation_grid_other b resolution = Err e) /\
  (is_ok (generate_mesh_grid b resolution) -> deformation_grid_other b resolution = Err AttributeError).
Proof.
  intros b r. unfold deformation_grid_other. destruct (generate_mesh_grid b r) as [g|e]; (split; [eexists; reflexivity|]); split.
  - intros e X. discriminate X.
  - reflexivity.
  - intros e' X. injection X as ->. reflexivity.
  - intros (x & X). discriminate X.
Qed.
Print Assumptions C73_unexported_class_refuted.

(** Finding: the deformed geometry of a DeformableGrid never has the form of its geometry. *)
Theorem C73_deformed_geometry_refuted : forall g geometry gd, grid_geometry g = Ok geometry -> grid_to_deformed gd <> geometry.
Proof. intros g geo gd E. unfold grid_geometry in E. destruct (togrid g); [|discriminate E]. cbn in E. injection E as <-. discriminate. Qed.
Print Assumptions C73_deformed_geometry_refuted.

(** Finding: a resolution with fewer numbers than the box has axes is accepted; the points
    then have fewer coordinates than the manifold claims. *)
Definition box3 : box := mkAABB 3 [0; 0; 0] [1; 1; 1].
Theorem C73_short_resolution_refuted : exists b resolution g dim n gd ct, valid_box b /\ deformation_grid b resolution = Ok g /\
  mod_manifold (dg_module g) = GLm dim n gd ct /\ dim = 3%nat /\ shape gd = [4; 2]%nat.
Proof.
  exists box3, [2; 2]%Z. do 5 eexists. split.
  - split; [split; reflexivity|]. intros c C. cbn in C. destruct c as [|[|[|c]]]; [cbn; lra|cbn; lra|cbn; lra|lia].
  - split; [reflexivity|]. cbn [dg_module mod_manifold]. split; [reflexivity|]. split; reflexivity.
Qed.
Print Assumptions C73_short_resolution_refuted.
Example C73_case : valid_box box3 /\ (0 < a_dim box3)%nat /\ length [2; 3; 4]%Z = a_dim box3 /\ Forall (fun n => (0 <= n)%Z) [2; 3; 4]%Z.
Proof.
  split; [split; [split; reflexivity|]; intros c C; cbn in C; destruct c as [|[|[|c]]]; [cbn; lra|cbn; lra|cbn; lra|lia]|].
  split; [cbn; lia|]. split; [reflexivity|repeat constructor; lia].
Qed.

(** ** C74 *)
Section C74.
Variables (kwargs object : Type).
Notation builder := (builder kwargs object).

(** The builder last given for a key: first those of the constructor, then the registered
    ones. *)
Definition last_given (l : list (string * builder)) (k : string) (b : builder) : Prop :=
  exists l1 l2, l = l1 ++ (k, b) :: l2 /\ forall b', ~ In (k, b') l2.

Lemma dget_dset (d : list (string * builder)) k x k' : dget (dset d k x) k' = if String.eqb k k' then Some x else dget d k'.
Proof.
  induction d as [|(k0 & y) d IH]; cbn [dset dget]; [destruct (String.eqb_spec k k'); reflexivity|].
  destruct (String.eqb_spec k0 k) as [->|N]; cbn [dget].
  - destruct (String.eqb_spec k k'); reflexivity.
  - rewrite IH. destruct (String.eqb_spec k0 k') as [->|N']; [|reflexivity]. destruct (String.eqb_spec k k'); [congruence|reflexivity].
Qed.

Lemma dget_history l : forall d k, dget (fold_left (fun f (kb : string * builder) => dset f (fst kb) (snd kb)) l d) k =
  match find (fun kb => String.eqb (fst kb) k) (rev l) with Some kb => Some (snd kb) | None => dget d k end.
Proof.
  induction l as [|(k0 & b0) l IH]; intros d k; [reflexivity|]. cbn [fold_left rev fst snd]. rewrite IH, dget_dset.
  assert (FA : forall (p : string * builder -> bool) a b, find p (a ++ b) = match find p a with Some x => Some x | None => find p b end).
  { intros p a b. induction a as [|x a IHa]; [reflexivity|]. cbn. destruct (p x); [reflexivity|exact IHa]. }
  rewrite FA. destruct (find _ (rev l)); [reflexivity|]. cbn. destruct (String.eqb k0 k); reflexivity.
Qed.

Lemma last_find l k b : last_given l k b -> find (fun kb => String.eqb (fst kb) k) (rev l) = Some (k, b).
Proof.
  intros (l1 & l2 & -> & N). rewrite rev_app_distr. cbn [rev]. rewrite <- app_assoc.
  induction (rev l2) as [|(k' & b') l' IH] eqn:E in l2, N |- *.
  - cbn. rewrite String.eqb_refl. reflexivity.
  - cbn. destruct (String.eqb_spec k' k) as [->|Ne].
    + elim (N b'). apply in_rev. rewrite E. left. reflexivity.
    + apply (IH (rev l')); [|apply rev_involutive]. intros b0 I. apply (N b0). apply in_rev. rewrite E. right. apply in_rev in I. exact I.
Qed.
End C74.
Arguments last_given {kwargs object}.

(** A factory after any history of registrations. *)
Definition after {kwargs object} (initial : option (factory kwargs object)) (l : list (string * builder kwargs object)) : factory kwargs object :=
  fold_left (fun f kb => register_builder f (fst kb) (snd kb)) l (new_factory initial).
Definition given {kwargs object} (initial : option (factory kwargs object)) (l : list (string * builder kwargs object)) :=
  match initial with Some i => i | None => [] end ++ l.

Lemma after_given {kwargs object} (initial : option (factory kwargs object)) l : after initial l = fold_left (fun f kb => dset f (fst kb) (snd kb)) (given initial l) [].
Proof. unfold after, given, new_factory. destruct initial; [rewrite fold_left_app; reflexivity|reflexivity]. Qed.

(** [spawn] calls the builder last given for the key. *)
Theorem C74_spawn : forall (kwargs object : Type) (initial : option (factory kwargs object)) l k b args,
  last_given (given initial l) k b -> b_true b = true -> spawn (after initial l) k args = b_call b args.
Proof.
  intros kwargs object initial l k b args L T. unfold spawn. rewrite after_given, dget_history, (last_find _ _ _ _ _ L). cbn [snd]. rewrite T. reflexivity.
Qed.
Print Assumptions C74_spawn.
(** A key that was never given raises KeyError; so does an object counting as false. *)
Theorem C74_unknown_keys : forall (kwargs object : Type) (initial : option (factory kwargs object)) l k args,
  (forall b, ~ In (k, b) (given initial l)) \/ (exists b, last_given (given initial l) k b /\ b_true b = false) ->
  spawn (after initial l) k args = Err KeyError.
Proof.
  intros kwargs object initial l k args [N|(b & L & T)]; unfold spawn; rewrite after_given, dget_history.
  - destruct (find _ _) as [(k' & b)|] eqn:E; [|reflexivity]. apply find_some in E. destruct E as [I E]. cbn in E. apply String.eqb_eq in E. subst k'.
    elim (N b). apply in_rev. exact I.
  - rewrite (last_find _ _ _ _ _ L). cbn [snd]. rewrite T. reflexivity.
Qed.
Print Assumptions C74_unknown_keys.
(** Finding: calling the factory itself raises NameError, whatever was registered. *)
Theorem C74_call_refuted : forall (kwargs object : Type) (f : factory kwargs object) k args, call_factory f k args = Err NameError.
Proof. reflexivity. Qed.
Print Assumptions C74_call_refuted.
Example C74_case : let b n := mkB true (fun _ : unit => Ok n) in
  last_given (given (Some [("a"%string, b 0%nat)]) [("b"%string, b 1%nat); ("a"%string, b 2%nat)]) "a" (b 2%nat) /\
  spawn (after (Some [("a"%string, b 0%nat)]) [("b"%string, b 1%nat); ("a"%string, b 2%nat)]) "a" tt = Ok 2%nat.
Proof. intros b. split; [|reflexivity]. exists [("a"%string, b 0%nat); ("b"%string, b 1%nat)], []. split; [reflexivity|]. intros b' []. Qed.

(** ** C75 *)
Theorem C75_growth_round_trip : forall points growth n d, shape points = [n; d] -> shape growth = [n; d; 1%nat] -> (0 < n)%nat -> (0 < d)%nat ->
  exists f growth', export_implicit1_growth points growth = Ok f /\ import_implicit1_growth f "growth" = Ok (points, growth') /\ teq growth' growth.
Proof.
  intros points growth n d S G N D. unfold export_implicit1_growth, reshape_rows, write_points. rewrite G. unfold ncols. rewrite S. cbn [tnth nth].
  change (py_assert (Nat.eqb 1 1)) with (Ok tt). cbn [bind].
  replace (prod [n; d; 1%nat]) with (n * d)%nat by (cbn; lia). change (tnth [n; d] 1) with d.
  destruct (Nat.eqb_spec d 0) as [|_]; [lia|]. rewrite Nat.mod_mul, Nat.div_mul by lia. cbn [Nat.eqb bind]. unfold nrows at 2. rewrite S.
  change (tnth [n; d] 0) with n. cbn [forallb snd]. unfold nrows. cbn [reshape shape tnth nth]. rewrite Nat.eqb_refl. cbn [andb].
  eexists. eexists. split; [reflexivity|]. unfold import_implicit1_growth. cbn [mf_data mf_points dget String.eqb Ascii.eqb Bool.eqb].
  unfold nrows. rewrite S. change (tnth [n; d] 0) with n. destruct (Nat.eqb_spec n 0) as [|_]; [lia|]. cbn [reshape shape].
  replace (prod [n; d]) with (d * n)%nat by (cbn; lia). rewrite Nat.mod_mul, Nat.div_mul by lia. cbn [Nat.eqb]. split; [reflexivity|].
  split; [cbn; congruence|]. cbn [shape]. intros idx V.
  rewrite (get_reshape [n; d; 1%nat] _ idx (unravel [n; d] (ravel [n; d; 1%nat] idx))).
  - rewrite (get_reshape [n; d] growth _ idx); [reflexivity| |rewrite G; exact V].
    rewrite ravel_unravel, G; [reflexivity|]. apply ravel_lt in V. cbn in *. lia.
  - cbn [shape]. rewrite ravel_unravel; [reflexivity|]. apply ravel_lt in V. cbn in *. lia.
  - cbn [shape]. apply valid_unravel. apply ravel_lt in V. cbn in *. lia.
Qed.
Print Assumptions C75_growth_round_trip.
(** Growths of several dimensions are refused; so are unknown field names. *)
Theorem C75_growth_errors : forall points growth n d k f name, shape growth = [n; d; k] -> k <> 1%nat ->
  export_implicit1_growth points growth = Err AssertionError /\
  ((forall t, ~ In (name, t) (mf_data f)) -> import_implicit1_growth f name = Err RuntimeError).
Proof.
  intros points growth n d k f name S K. split.
  - unfold export_implicit1_growth. rewrite S. cbn [nth]. destruct (Nat.eqb_spec k 1); [contradiction|reflexivity].
  - intros N. unfold import_implicit1_growth. destruct (dget (mf_data f) name) as [t|] eqn:E; [|reflexivity]. exfalso.
    induction (mf_data f) as [|(k' & y) l IH]; [discriminate E|]. cbn in E. destruct (String.eqb_spec k' name) as [->|Ne].
    + apply (N y). left. reflexivity.
    + apply IH; [intros t0 I; apply (N t0); right; exact I|exact E].
Qed.
Print Assumptions C75_growth_errors.
(** Finding: no file can be read by import_point_basis, not even those written by
    export_point_basis. *)
Theorem C75_basis_refuted : forall f name, exists e, import_point_basis f name = Err e.
Proof.
  intros f name. unfold import_point_basis. cbn zeta. destruct (dget _ _); [|eexists; reflexivity]. cbn [bind]. destruct (dget _ _); [|eexists; reflexivity].
  cbn [bind]. destruct (dget _ _); eexists; reflexivity.
Qed.
Print Assumptions C75_basis_refuted.
Theorem C75_basis_exported : forall points basis n d, shape points = [n; d] -> shape basis = [n; d; 3%nat] ->
  exists f, export_point_basis points basis = Ok f /\ mf_points f = points /\ import_point_basis f "basis" = Err TypeError /\
    forall k s, In (k, s) [(0%nat, "basis_x"%string); (1%nat, "basis_y"%string); (2%nat, "basis_z"%string)] ->
      exists t, dget (mf_data f) s = Some t /\ shape t = [n; d] /\ forall i a, t @2 i a = basis @3 i a k.
Proof.
  intros points basis n d S B. unfold export_point_basis, write_points, basis_column. rewrite B. cbn [nth Nat.leb forallb snd].
  unfold nrows, ncols. rewrite B, S. change (tnth [n; d; 3%nat] 0) with n. change (tnth [n; d; 3%nat] 1) with d. change (tnth [n; d] 0) with n.
  cbn [mk2 shape]. change (tnth [n; d] 0) with n. rewrite Nat.eqb_refl. cbn [andb]. eexists. split; [reflexivity|]. split; [reflexivity|]. split; [reflexivity|].
  intros k s [E|[E|[E|[]]]]; injection E as <- <-; eexists; (split; [reflexivity|]); (split; [reflexivity|]); reflexivity.
Qed.
Print Assumptions C75_basis_exported.
Example C75_case : shape (mk2 2 3 (fun i a => INR (i + a))) = [2; 3]%nat /\ shape (mk3 2 3 1 (fun i a _ => INR (i * a))) = [2; 3; 1]%nat /\
  shape (mk3 2 3 2 (fun i a _ => INR (i * a))) = [2; 3; 2]%nat.
Proof. repeat split. Qed.

(** ** C76 *)
(** The affine map of a 4x4 matrix: linear part and translation. *)
Definition affine_point (A : tensor) (x : nat -> R) (a : nat) : R := rsum 3 (fun k => A @2 a k * x k) + A @2 a (3%nat).
(** The last row is (0, 0, 0, 1). *)
Definition is_affine (A : tensor) : Prop := shape A = [4; 4]%nat /\ (forall k, (k < 3)%nat -> A @2 (3%nat) k = 0) /\ A @2 (3%nat) (3%nat) = 1.

Theorem C76_affine : forall p s A n, shape p = [n; 3%nat] -> shape A = [4; 4]%nat ->
  exists q, voxels2points_affine p s A = Ok q /\ points2voxels_affine p s A = Ok q /\ shape q = [n; 3%nat] /\
    (forall i a, q @2 i a = affine_point A (fun k => p @2 i k) a) /\
    exists z, points2voxels_indices p s A = Ok z /\ forall i a, IZR (z i a) <= q @2 i a < IZR (z i a) + 1.
Proof.
  intros p s A n S SA.
  assert (E : affine_map p A = Ok (mk2 n 3 (fun i a => affine_point A (fun k => p @2 i k) a))).
  { unfold affine_map, nrows, ncols. rewrite S, SA. change (tnth [4; 4]%nat 0) with 4%nat. change (tnth [4; 4]%nat 1) with 4%nat.
    change (tnth [n; 3%nat] 1) with 3%nat. change (tnth [n; 3%nat] 0) with n. change (Nat.eqb 4 (3 + 1) && Nat.eqb 4 4)%bool with true. cbn iota. f_equal. unfold mk2. f_equal. apply functional_extensionality.
    intros [|i [|a [|]]]; try reflexivity. unfold affine_point, homogeneous, ncols. rewrite S. cbn. ring. }
  unfold points2voxels_indices, voxels2points_affine, points2voxels_affine. rewrite E. eexists. split; [reflexivity|]. split; [reflexivity|]. split; [reflexivity|]. split; [reflexivity|].
  cbn [bind]. eexists. split; [reflexivity|]. intros i a. cbn beta. match goal with |- IZR (Int_part ?x) <= _ < _ => pose proof (base_Int_part x) as [B1 B2]; change (IZR (Int_part x) <= x < IZR (Int_part x) + 1) end. lra.
Qed.
Print Assumptions C76_affine.

(** Going back needs the inverse matrix: with it, voxels and points are converted back and
    forth. *)
Theorem C76_inverse_matrix : forall p s A B n, shape p = [n; 3%nat] -> is_affine A -> is_affine B ->
  (forall i j, (i < 4)%nat -> (j < 4)%nat -> rsum 4 (fun k => B @2 i k * A @2 k j) = delta i j) ->
  exists q r, voxels2points_affine p s A = Ok q /\ points2voxels_affine q s B = Ok r /\ teq r p.
Proof.
  intros p s A B n S (SA & A0 & A1) (SB & B0 & B1) I.
  destruct (C76_affine p s A n S SA) as (q & Eq & _ & Sq & Q & _). destruct (C76_affine q s B n Sq SB) as (r & _ & Er & Sr & Rr & _).
  exists q, r. split; [exact Eq|]. split; [exact Er|]. split; [congruence|]. rewrite Sr. intros [|i [|a [|]]] V; cbn in V; try tauto. destruct V as (Vi & Va & _).
  rewrite Rr. unfold affine_point. rewrite (rsum_ext 3 _ (fun k => B @2 a k * affine_point A (fun l => p @2 i l) k)) by (intros; rewrite Q; reflexivity).
  pose proof (I a 0%nat ltac:(lia) ltac:(lia)) as I0. pose proof (I a 1%nat ltac:(lia) ltac:(lia)) as I1. pose proof (I a 2%nat ltac:(lia) ltac:(lia)) as I2. pose proof (I a 3%nat ltac:(lia) ltac:(lia)) as I3.
  cbn in I0, I1, I2, I3. rewrite !A0 in I0, I1, I2 by lia. rewrite A1 in I3. unfold affine_point. cbn.
  transitivity (delta a 0 * p @2 i 0%nat + delta a 1 * p @2 i 1%nat + delta a 2 * p @2 i 2%nat + delta a 3); [rewrite <- I0, <- I1, <- I2, <- I3; ring|].
  destruct a as [|[|[|a]]]; [| | |lia]; unfold delta; cbn; ring.
Qed.
Print Assumptions C76_inverse_matrix.
(** Finding: the two functions are the same, so that with the same matrix they undo each other
    only when the matrix is its own inverse. *)
Theorem C76_same_matrix_refuted : exists p s A q r, shape p = [1; 3]%nat /\ is_affine A /\ (exists B, is_affine B /\ forall i j, (i < 4)%nat -> (j < 4)%nat -> rsum 4 (fun k => B @2 i k * A @2 k j) = delta i j) /\
  voxels2points_affine p s A = Ok q /\ points2voxels_affine q s A = Ok r /\ ~ teq r p.
Proof.
  set (T := fun t : R => of_rows 4 4 [[1; 0; 0; t]; [0; 1; 0; 0]; [0; 0; 1; 0]; [0; 0; 0; 1]]).
  assert (AT : forall t, is_affine (T t)). { intros t. split; [reflexivity|]. split; [intros k K; destruct k as [|[|[|k]]]; [reflexivity|reflexivity|reflexivity|lia]|reflexivity]. }
  destruct (C76_affine (tzeros [1; 3]%nat) [] (T 1) 1 eq_refl eq_refl) as (q & Eq & _ & Sq & Q & _). destruct (C76_affine q [] (T 1) 1 Sq eq_refl) as (r & _ & Er & Sr & Rr & _).
  exists (tzeros [1; 3]%nat), [], (T 1), q, r. split; [reflexivity|]. split; [apply AT|]. split.
  - exists (T (-1)). split; [apply AT|]. intros i j Hi Hj. destruct i as [|[|[|[|i]]]]; try lia; destruct j as [|[|[|[|j]]]]; try lia; unfold T, delta; cbn; ring.
  - split; [exact Eq|]. split; [exact Er|]. intros (_ & E). specialize (E [0; 0]%nat). rewrite Sr in E. specialize (E ltac:(cbn; repeat split; lia)). rewrite Rr in E. unfold affine_point in E. cbn in E. rewrite !Q in E. unfold affine_point in E. cbn in E. lra.
Qed.
Print Assumptions C76_same_matrix_refuted.
Theorem C76_refused : forall p s A, ncols A <> (ncols p + 1)%nat -> voxels2points_affine p s A = Err RuntimeError /\ points2voxels_affine p s A = Err RuntimeError.
Proof. intros p s A N. unfold voxels2points_affine, points2voxels_affine, affine_map. destruct (Nat.eqb_spec (ncols A) (ncols p + 1)); [contradiction|]. split; reflexivity. Qed.
Print Assumptions C76_refused.
Example C76_case : let A := of_rows 4 4 [[2; 0; 0; 5]; [0; 1; 0; 0]; [0; 0; 1; 0]; [0; 0; 0; 1]] in
  let B := of_rows 4 4 [[1/2; 0; 0; -(5/2)]; [0; 1; 0; 0]; [0; 0; 1; 0]; [0; 0; 0; 1]] in
  is_affine A /\ is_affine B /\ (forall i j, (i < 4)%nat -> (j < 4)%nat -> rsum 4 (fun k => B @2 i k * A @2 k j) = delta i j) /\
  shape (mk2 7 3 (fun i a => INR (i * a))) = [7; 3]%nat.
Proof.
  cbn zeta. split; [|split; [|split; [|reflexivity]]].
  - split; [reflexivity|]. split; [intros [|[|[|k]]] K; [reflexivity|reflexivity|reflexivity|lia]|reflexivity].
  - split; [reflexivity|]. split; [intros [|[|[|k]]] K; [reflexivity|reflexivity|reflexivity|lia]|reflexivity].
  - intros [|[|[|[|i]]]] [|[|[|[|j]]]] Hi Hj; try lia; unfold delta; cbn; lra.
Qed.
