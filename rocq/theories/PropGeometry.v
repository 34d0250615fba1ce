(** Property theorems about the geometry of manifolds (C15, C16, C17). *)
From Coq Require Import Reals String List Arith Lia Lra.
From Verif Require Import Py Tensor KernelModel FieldModel SpecKernel SpecField GeometryModel SpecGeometry
  GeometryFacts.
Import ListNotations.
Open Scope R_scope.

(** A nested compound with every kind of manifold, in the plane. *)
Definition ex_pts : tensor := mk2 2 2 (fun n c => INR (n + 3 * c)).
Definition ex_vec : tensor := mk2 2 2 (fun n c => INR n - 2 * INR c).
Definition ex_frames : tensor := mk3 2 2 2 (fun n i j => INR (n + i) - INR j).
Definition ex_man : gman :=
  GComp [GLm 2 2 ex_pts ex_vec;
         GComp [GDir Vector 2 2 ex_pts ex_vec ex_vec ex_pts; GEmpty 2];
         GDir Orthogonal 2 2 ex_vec ex_pts ex_pts ex_vec;
         GFrame 2 2 ex_pts ex_frames ex_vec ex_frames].
Definition ex_fld : sfield :=
  SF_sum [SF_0 Torch ex_pts ex_vec 2; SF_affine (eye 2) (mk1 2 INR) (mk1 2 INR);
          SF_p Keops ex_pts ex_frames 3].

Ltac shapes := cbn; repeat split; try discriminate; try lra; try (exists 2%nat; repeat split; reflexivity).

(** C15: for every manifold tree and every kernel field generated by (y, mom) with
    scale sigma, [inner_prod_field] of that field is the sum over j of mom_j . V_j where
    V = cot_to_vs(sigma)(y); for every choice of back ends. *)
Theorem C15_cot_to_vs_is_dual : forall d m sigma b b0 bf y mom M,
  wf_gman d m -> no_empty_comp m -> sigma <> 0 -> shape y = [M; d] -> shape mom = [M; d] ->
  exists vs V, cot_to_vs m sigma b b0 = Ok vs /\ feval vs y 0%nat = Ok V /\ shape V = [M; d] /\
    inner_prod_field m (feval (SF_0 bf y mom sigma)) =
    Ok (rsum M (fun j => rsum d (fun a => mom @2 j a * V @2 j a))).
Proof. exact duality. Qed.
Print Assumptions C15_cot_to_vs_is_dual.

Example C15_hypotheses :
  wf_gman 2 ex_man /\ no_empty_comp ex_man /\ 3 <> 0 /\ shape ex_pts = [2; 2]%nat /\ shape ex_vec = [2; 2]%nat.
Proof. shapes. Qed.

(** C15 (limit of the API): the field returned by [cot_to_vs] can be differentiated
    exactly when no landmarks with directions are involved; otherwise its Jacobian
    raises NotImplementedError. *)
Theorem C15_jacobian_of_dual_field : forall d m sigma b b0 p N,
  wf_gman d m -> no_empty_comp m -> sigma <> 0 -> shape p = [N; d] ->
  exists vs, cot_to_vs m sigma b b0 = Ok vs /\
    (~ has_dir m -> is_ok (feval vs p 1%nat)) /\
    (has_dir m -> feval vs p 1%nat = Err NotImplementedError).
Proof. exact cot_to_vs_jac_iff. Qed.
Print Assumptions C15_jacobian_of_dual_field.

Example C15_jacobian_cases : has_dir ex_man /\ ~ has_dir (GComp [GLm 2 2 ex_pts ex_vec]).
Proof. cbn. tauto. Qed.

(** C16: the inner product is the sum over all descriptors of cotangent . action. *)
Theorem C16_inner_is_cotan_dot_action : forall d m F,
  wf_gman d m -> answers d F ->
  exists t, infinitesimal_action m F = Ok t /\ inner_prod_field m F = Ok (tree_dot (cotans m) t).
Proof. exact inner_is_tree_dot. Qed.
Print Assumptions C16_inner_is_cotan_dot_action.

Lemma ex_fld_answers : answers 2 (feval ex_fld).
Proof. apply answers_field; shapes. Qed.

Example C16_hypotheses : wf_gman 2 ex_man /\ answers 2 (feval ex_fld).
Proof. split; [shapes|exact ex_fld_answers]. Qed.

(** C16: in formulas: points pair with v, directions with D u or - D^T u, frames with
    the skew part of D. *)
Theorem C16_inner_formula : forall d m f,
  wf_gman d m -> wf_field d f -> has0 f -> (needs_jac m -> has1 f) ->
  inner_prod_field m (feval f) = Ok (pairing d m (fval d f) (fjac d f)).
Proof. exact inner_pairing_field. Qed.
Print Assumptions C16_inner_formula.

Example C16_formula_hypotheses : wf_gman 2 ex_man /\ wf_field 2 ex_fld /\ has0 ex_fld /\ has1 ex_fld.
Proof. shapes. Qed.

(** C16: linear in the field, for arbitrary callable fields. *)
Theorem C16_inner_linear : forall d m F G H a b,
  wf_gman d m -> is_lincomb d a b F G H ->
  exists x y, inner_prod_field m F = Ok x /\ inner_prod_field m G = Ok y /\
    inner_prod_field m H = Ok (a * x + b * y).
Proof. exact inner_linear. Qed.
Print Assumptions C16_inner_linear.

Example C16_linear_hypotheses :
  is_lincomb 2 2 (-1) (fun p k => Ok (mkT (nrows p :: repeat 2 (k + 1))%nat (fun _ => 1)))
    (fun p k => Ok (mkT (nrows p :: repeat 2 (k + 1))%nat (fun idx => INR (hd 0 idx)%nat)))
    (fun p k => Ok (mkT (nrows p :: repeat 2 (k + 1))%nat (fun idx => 2 - INR (hd 0 idx)%nat))).
Proof.
  intros p N k Sp Hk. do 3 eexists. do 3 (split; [reflexivity|]). unfold nrows. rewrite Sp.
  repeat split. intros idx _. cbn. ring.
Qed.

(** C16: zero for the null field. *)
Theorem C16_inner_null_field : forall d m, wf_gman d m -> inner_prod_field m (feval (SF_null d)) = Ok 0.
Proof. exact inner_null. Qed.
Print Assumptions C16_inner_null_field.

(** C16: the value of a compound is the sum of the values of its members. *)
Theorem C16_inner_compound : forall ms F rs,
  Forall2 (fun m r => inner_prod_field m F = Ok r) ms rs ->
  inner_prod_field (GComp ms) F = Ok (fold_right Rplus 0 rs).
Proof. exact inner_comp. Qed.
Print Assumptions C16_inner_compound.

Example C16_compound_hypotheses :
  Forall2 (fun m r => inner_prod_field m (feval (SF_null 2)) = Ok r) [ex_man; ex_man] [0; 0].
Proof. repeat constructor; apply inner_null; shapes. Qed.

(** C16: a direction u at a point of a manifold made with transport='vector' moves with
    D u, one made with transport='orthogonal' with - D^T u, and no other value of transport
    is accepted. *)
Theorem C16_directions : forall d nb gd0 gd1 c0 c1 F v D,
  F gd0 0%nat = Ok v -> F gd0 1%nat = Ok D -> shape v = [nb; d] -> shape D = [nb; d; d] -> shape gd1 = [nb; d] ->
  (exists tr tan, parse_transport "vector" = Ok tr /\
     infinitesimal_action (GDir tr d nb gd0 gd1 c0 c1) F = Ok (TPair v tan) /\ shape tan = [nb; d; 1%nat] /\
     forall n a, tan @3 n a 0%nat = rsum d (fun l => D @3 n a l * gd1 @2 n l)) /\
  (exists tr tan, parse_transport "orthogonal" = Ok tr /\
     infinitesimal_action (GDir tr d nb gd0 gd1 c0 c1) F = Ok (TPair v tan) /\ shape tan = [nb; d; 1%nat] /\
     forall n a, tan @3 n a 0%nat = - rsum d (fun l => D @3 n l a * gd1 @2 n l)) /\
  (forall s, s <> "vector"%string -> s <> "orthogonal"%string -> parse_transport s = Err RuntimeError).
Proof.
  intros d nb gd0 gd1 c0 c1 F v D E0 E1 S0 S1 Sg.
  split; [|split].
  - exists Vector, (dir_tan Vector d nb D gd1). split; [reflexivity|]. cbn [infinitesimal_action].
    rewrite (dir_action_ok Vector d nb gd0 gd1 F v D) by assumption. split; [reflexivity|].
    split; [apply dir_tan_shape; assumption|]. intros n a. rewrite dir_tan_get by assumption. reflexivity.
  - exists Orthogonal, (dir_tan Orthogonal d nb D gd1). split; [reflexivity|]. cbn [infinitesimal_action].
    rewrite (dir_action_ok Orthogonal d nb gd0 gd1 F v D) by assumption. split; [reflexivity|].
    split; [apply dir_tan_shape; assumption|]. intros n a. rewrite dir_tan_get by assumption. reflexivity.
  - intros s N0 N1. unfold parse_transport. apply String.eqb_neq in N0, N1. rewrite N0, N1. reflexivity.
Qed.
Print Assumptions C16_directions.

(** C16: so a direction transported as 'orthogonal' keeps its product with every direction
    transported as 'vector' at the same point: the two variations cancel. *)
Theorem C16_normals_follow_tangents : forall d nb gd0 normal tangent c0 c1 c2 c3 F v D,
  F gd0 0%nat = Ok v -> F gd0 1%nat = Ok D -> shape v = [nb; d] -> shape D = [nb; d; d] ->
  shape normal = [nb; d] -> shape tangent = [nb; d] ->
  exists vn vt,
    infinitesimal_action (GDir Orthogonal d nb gd0 normal c0 c1) F = Ok (TPair v vn) /\
    infinitesimal_action (GDir Vector d nb gd0 tangent c2 c3) F = Ok (TPair v vt) /\
    forall n, rsum d (fun a => vn @3 n a 0%nat * tangent @2 n a + normal @2 n a * vt @3 n a 0%nat) = 0.
Proof.
  intros d nb gd0 u w c0 c1 c2 c3 F v D E0 E1 S0 S1 Su Sw.
  exists (dir_tan Orthogonal d nb D u), (dir_tan Vector d nb D w). cbn [infinitesimal_action].
  rewrite (dir_action_ok Orthogonal d nb gd0 u F v D), (dir_action_ok Vector d nb gd0 w F v D) by assumption.
  split; [reflexivity|]. split; [reflexivity|]. intros n.
  rewrite (rsum_ext d _ (fun a => - rsum d (fun l => D @3 n l a * u @2 n l * w @2 n a) + rsum d (fun l => D @3 n a l * u @2 n a * w @2 n l))).
  - rewrite rsum_plus, rsum_opp, (rsum_swap d d (fun a l => D @3 n l a * u @2 n l * w @2 n a)). ring.
  - intros a _. rewrite !dir_tan_get by assumption. unfold dir_vel.
    rewrite <- rsum_opp, <- rsum_scal_r, <- rsum_scal, <- rsum_opp. f_equal; apply rsum_ext; intros l _; ring.
Qed.
Print Assumptions C16_normals_follow_tangents.

Example C16_directions_hypotheses : exists v D, feval ex_fld ex_pts 0%nat = Ok v /\ feval ex_fld ex_pts 1%nat = Ok D /\
  shape v = [2; 2]%nat /\ shape D = [2; 2; 2]%nat /\ shape ex_vec = [2; 2]%nat.
Proof.
  destruct (ex_fld_answers ex_pts 2%nat eq_refl) as ((v & E0 & S0) & D & E1 & S1). exists v, D. repeat split; assumption.
Qed.

(** C16 fails for [CompoundLandmarks]: whatever its positions, its cotangents and
    the field, the inner product is 0, and the action raises. *)
Theorem C16_compound_landmarks_refuted : forall d n0 n1 gd0 gd1 c0 c1 F,
  answers d F ->
  inner_prod_field (compound_landmarks d n0 n1 gd0 gd1 c0 c1) F = Ok 0 /\
  infinitesimal_action (compound_landmarks d n0 n1 gd0 gd1 c0 c1) F = Err AttributeError.
Proof.
  exact (fun d n0 n1 gd0 gd1 c0 c1 F H => conj (compound_landmarks_inner d n0 n1 gd0 gd1 c0 c1 F H) eq_refl).
Qed.
Print Assumptions C16_compound_landmarks_refuted.

(** C17: the velocity of frame n is S R with S the skew part of the Jacobian of the field. *)
Theorem C17_frame_velocity_skew : forall d nb gd0 gd1 c0 c1 F,
  wf_gman d (GFrame d nb gd0 gd1 c0 c1) -> answers d F ->
  exists J vx vr, F gd0 1%nat = Ok J /\
    infinitesimal_action (GFrame d nb gd0 gd1 c0 c1) F = Ok (TPair vx vr) /\
    F gd0 0%nat = Ok vx /\ shape vr = [nb; d; d] /\
    forall n, (n < nb)%nat ->
      let S := fun i k => (J @3 n i k - J @3 n k i) / 2 in
      skew d S /\ meq d (slice vr n) (mprod d S (slice gd1 n)).
Proof. exact frame_velocity. Qed.
Print Assumptions C17_frame_velocity_skew.

Example C17_hypotheses :
  wf_gman 2 (GFrame 2 2 ex_pts ex_frames ex_vec ex_frames) /\ answers 2 (feval ex_fld).
Proof. split; [shapes|exact ex_fld_answers]. Qed.

(** C17: along any curve of frames that passes through the frame with the returned
    velocity, R^T R has derivative zero. *)
Theorem C17_gram_derivative_zero : forall d nb gd0 gd1 c0 c1 F vx vr n (Rt : R -> mat) t0,
  wf_gman d (GFrame d nb gd0 gd1 c0 c1) -> answers d F -> (n < nb)%nat ->
  infinitesimal_action (GFrame d nb gd0 gd1 c0 c1) F = Ok (TPair vx vr) ->
  meq d (Rt t0) (slice gd1 n) ->
  (forall i j, (i < d)%nat -> (j < d)%nat -> derivable_pt_lim (fun t => Rt t i j) t0 (vr @3 n i j)) ->
  forall i j, (i < d)%nat -> (j < d)%nat ->
    derivable_pt_lim (fun t => mprod d (mtr (Rt t)) (Rt t) i j) t0 0.
Proof. exact frame_gram_first_order. Qed.
Print Assumptions C17_gram_derivative_zero.

(** The straight line through the frame with the returned velocity is such a curve. *)
Example C17_gram_hypotheses : forall (vr : tensor) (n : nat) i j,
  derivable_pt_lim (fun t => ex_frames @3 n i j + t * vr @3 n i j) 0 (vr @3 n i j).
Proof.
  intros vr n i j.
  generalize (ex_frames @3 n i j) (vr @3 n i j). intros u v.
  assert (H : derivable_pt_lim (fun t => u + t * v) 0 (0 + (1 * v + 0 * 0))).
  2:{ replace (0 + (1 * v + 0 * 0)) with v in H by ring. exact H. }
  apply (derivable_pt_lim_plus (fun _ => u) (fun t => t * v)).
  - apply derivable_pt_lim_const.
  - apply (derivable_pt_lim_mult (fun t => t) (fun _ => v));
      [apply derivable_pt_lim_id|apply derivable_pt_lim_const].
Qed.

(** C17: hence frames that follow the flow of any time-dependent field stay
    orthonormal for all times. *)
Theorem C17_frames_stay_orthonormal : forall d nb (x r : R -> tensor) c0 c1 (F : R -> vfield) n,
  (forall t, wf_gman d (GFrame d nb (x t) (r t) c0 c1)) -> (forall t, answers d (F t)) -> (n < nb)%nat ->
  (forall t, exists vx vr, infinitesimal_action (GFrame d nb (x t) (r t) c0 c1) (F t) = Ok (TPair vx vr) /\
     forall i j, (i < d)%nat -> (j < d)%nat -> derivable_pt_lim (fun s => (r s) @3 n i j) t (vr @3 n i j)) ->
  orthonormal d (slice (r 0) n) -> forall t, orthonormal d (slice (r t) n).
Proof. exact frame_orthonormal_forever. Qed.
Print Assumptions C17_frames_stay_orthonormal.

(** C17: the field of a rigid motion (x -> A (x - x0) + u with A skew) rotates the
    frames with the points: their velocity is A R. *)
Theorem C17_rigid_motion_rotates_frames : forall d nb gd0 gd1 c0 c1 A x0 u,
  wf_gman d (GFrame d nb gd0 gd1 c0 c1) -> wf_field d (SF_affine A x0 u) -> skew d (entries A) ->
  exists vx vr, infinitesimal_action (GFrame d nb gd0 gd1 c0 c1) (feval (SF_affine A x0 u)) = Ok (TPair vx vr) /\
    (forall n a, (n < nb)%nat -> (a < d)%nat ->
       vx @2 n a = rsum d (fun c => A @2 a c * (gd0 @2 n c - x0 @1 c)) + u @1 a) /\
    (forall n, (n < nb)%nat -> meq d (slice vr n) (mprod d (entries A) (slice gd1 n))).
Proof. exact frame_rigid. Qed.
Print Assumptions C17_rigid_motion_rotates_frames.

Example C17_rigid_hypotheses :
  let A := mk2 2 2 (fun i j => INR i - INR j) in
  wf_field 2 (SF_affine A (mk1 2 INR) (mk1 2 INR)) /\ skew 2 (entries A).
Proof. split; [shapes|]. intros i j _ _. cbn. ring. Qed.

(** A rotating orthonormal frame that follows a rotation field: hypotheses of
    [C17_frames_stay_orthonormal] for a non-constant trajectory. *)
Example C17_trajectory_hypotheses :
  let r := fun t => mk3 1 2 2 (fun _ i j => if Nat.eqb i 0 then (if Nat.eqb j 0 then cos t else - sin t)
                                            else (if Nat.eqb j 0 then sin t else cos t)) in
  let x := fun _ : R => mk2 1 2 (fun _ _ => 0) in
  let A := mk2 2 2 (fun i j => INR i - INR j) in
  let z := mk1 2 (fun _ => 0) in
  (forall t, exists vx vr,
     infinitesimal_action (GFrame 2 1 (x t) (r t) (x t) (r t)) (feval (SF_affine A z z)) = Ok (TPair vx vr) /\
     forall i j, (i < 2)%nat -> (j < 2)%nat -> derivable_pt_lim (fun s => (r s) @3 0%nat i j) t (vr @3 0%nat i j)) /\
  orthonormal 2 (slice (r 0) 0).
Proof.
  intros r x A z. split.
  - intros t.
    destruct (frame_rigid 2 1 (x t) (r t) (x t) (r t) A z z) as (vx & vr & E & _ & H).
    + shapes.
    + shapes.
    + intros i j _ _. cbn. ring.
    + exists vx, vr. split; [exact E|]. intros i j Hi Hj.
      specialize (H 0%nat ltac:(lia) i j Hi Hj). unfold slice in H. rewrite H.
      unfold mprod, entries. destruct i as [|[|i]]; [| |lia]; destruct j as [|[|j]]; try lia; cbn.
      * replace (0 + (0 - 0) * cos t + (0 - 1) * sin t) with (- sin t) by ring. apply derivable_pt_lim_cos.
      * replace (0 + (0 - 0) * - sin t + (0 - 1) * cos t) with (- cos t) by ring.
        apply (derivable_pt_lim_opp sin). apply derivable_pt_lim_sin.
      * replace (0 + (1 - 0) * cos t + (1 - 1) * sin t) with (cos t) by ring. apply derivable_pt_lim_sin.
      * replace (0 + (1 - 0) * - sin t + (1 - 1) * cos t) with (- sin t) by ring. apply derivable_pt_lim_cos.
  - intros i j Hi Hj. unfold mprod, mtr, slice, mid, delta.
    destruct i as [|[|i]]; [| |lia]; destruct j as [|[|j]]; try lia; cbn; rewrite ?cos_0, ?sin_0; ring.
Qed.
