(** Property theorems about what local scalings and local rotations do around their centre (C109). *)
From Coq Require Import Reals String List Arith Lia Lra.
From Verif Require Import Py RSum Tensor TensorFacts KernelModel FieldModel GeometryModel ModuleModel ShootingModel
  SpecKernel SpecField SpecGeometry SpecModule SpecShooting SpecMotion SpecTransport SpecRigid SpecSmooth SpecLocal FieldFacts ShootingDyn MotionShoot PropRigid DiffBuild PropSmooth MotionExample SolverExists PropTransport.
Import ListNotations.
Open Scope R_scope.

(** ** The fields *)

Definition planar_support (sg : R) (gd : tensor) : tensor := mk2 3 2 (fun i c => gd @2 0%nat c + sg / 3 * circle3 @2 i c).
Definition planar_field (sg : R) (gd V : tensor) (r : R) : sfield := SF_0 Torch (planar_support sg gd) (tscal r V) sg.

Lemma item_value h r : control_value h r -> item h = r.
Proof. intros [(S & G)|(S & G)]; unfold item; rewrite S; exact G. Qed.

Lemma circle_all : (circle3 @2 0%nat 0%nat = 1 /\ circle3 @2 0%nat 1%nat = 0) /\
  (circle3 @2 1%nat 0%nat = - (1 / 2) /\ circle3 @2 1%nat 1%nat = sqrt 3 / 2) /\
  (circle3 @2 2%nat 0%nat = - (1 / 2) /\ circle3 @2 2%nat 1%nat = - (sqrt 3 / 2)).
Proof.
  destruct circle_cos as (A & B & C). destruct circle_sin as (D & E). repeat split; auto.
  cbn. rewrite Rmult_0_r. apply sin_0.
Qed.
Lemma tangent_all i : circle3_tangent @2 i 0%nat = - circle3 @2 i 1%nat /\ circle3_tangent @2 i 1%nat = circle3 @2 i 0%nat.
Proof. split; reflexivity. Qed.
Lemma sqrt3 : sqrt 3 * sqrt 3 = 3.
Proof. apply sqrt_sqrt. lra. Qed.

Lemma planar_wf sg gd V r : sg <> 0 -> shape V = [3%nat; 2%nat] -> wf_field 2 (planar_field sg gd V r).
Proof. intros H S. cbn. split; [exact H|]. exists 3%nat. auto. Qed.

Lemma planar_value sg gd V r q a : fval 2 (planar_field sg gd V r) q a =
  gaussian 2 sg (vsub q (vrow (planar_support sg gd) 0)) * (r * V @2 0%nat a) +
  gaussian 2 sg (vsub q (vrow (planar_support sg gd) 1)) * (r * V @2 1%nat a) +
  gaussian 2 sg (vsub q (vrow (planar_support sg gd) 2)) * (r * V @2 2%nat a).
Proof. cbn [planar_field fval]. change (nrows (planar_support sg gd)) with 3%nat. cbn [rsum]. rewrite Rplus_0_l. reflexivity. Qed.

Lemma planar_jac sg gd V r q a l : fjac 2 (planar_field sg gd V r) q a l =
  dgauss 2 sg (vsub q (vrow (planar_support sg gd) 0)) l * (r * V @2 0%nat a) +
  dgauss 2 sg (vsub q (vrow (planar_support sg gd) 1)) l * (r * V @2 1%nat a) +
  dgauss 2 sg (vsub q (vrow (planar_support sg gd) 2)) l * (r * V @2 2%nat a).
Proof. cbn [planar_field fjac]. change (nrows (planar_support sg gd)) with 3%nat. cbn [rsum]. rewrite Rplus_0_l. reflexivity. Qed.

Lemma centre_gauss sg gd i : sg <> 0 -> gaussian 2 sg (vsub (vrow gd 0) (vrow (planar_support sg gd) i)) = exp (- (1 / 18)).
Proof.
  intros H. unfold gaussian. f_equal. unfold sqn. cbn [rsum]. unfold vsub, vrow. cbn [planar_support mk2 get].
  pose proof (circle_unit i) as U. set (a := circle3 @2 i 0%nat) in *. set (b := circle3 @2 i 1%nat) in *.
  replace (0 + (gd @2 0%nat 0%nat - (gd @2 0%nat 0%nat + sg / 3 * a)) ^ 2 + (gd @2 0%nat 1%nat - (gd @2 0%nat 1%nat + sg / 3 * b)) ^ 2)
    with (sg ^ 2 / 9 * (a ^ 2 + b ^ 2)) by field.
  rewrite U. field. exact H.
Qed.
Lemma centre_dgauss sg gd i l : sg <> 0 -> dgauss 2 sg (vsub (vrow gd 0) (vrow (planar_support sg gd) i)) l = exp (- (1 / 18)) / (3 * sg) * circle3 @2 i l.
Proof.
  intros H. unfold dgauss. rewrite (centre_gauss sg gd i H). unfold vsub, vrow. cbn [planar_support mk2 get]. 
  set (a := circle3 @2 i l). change (get gd [0%nat; l]) with (gd @2 0%nat l). field. exact H.
Qed.

Definition planar_vectors (V : tensor) : Prop := V = circle3 \/ V = circle3_tangent.
Lemma planar_shape V : planar_vectors V -> shape V = [3%nat; 2%nat].
Proof. intros [->| ->]; reflexivity. Qed.
Lemma planar_sum V a : planar_vectors V -> (a < 2)%nat -> V @2 0%nat a + V @2 1%nat a + V @2 2%nat a = 0.
Proof.
  destruct circle_all as ((A & B) & (C & D) & (E & F)).
  intros [->| ->] I; destruct a as [|[|a]]; try lia; rewrite ?(proj1 (tangent_all _)), ?(proj2 (tangent_all _)), ?A, ?B, ?C, ?D, ?E, ?F; lra.
Qed.
Lemma planar_centre sg gd V r a : sg <> 0 -> planar_vectors V -> (a < 2)%nat -> fval 2 (planar_field sg gd V r) (vrow gd 0) a = 0.
Proof.
  intros H P I. rewrite planar_value, !centre_gauss by exact H. pose proof (planar_sum V a P I) as Z.
  replace (V @2 2%nat a) with (- V @2 0%nat a - V @2 1%nat a) by lra. ring.
Qed.

(** The velocities of a planar module with its control. *)
Lemma planar_run sv sg co gd ct h r V (m := MLocal sg co (circle_support sg) (fun _ => Ok V) 2 1 gd ct (mk0 0)) :
  shape gd = [1%nat; 2%nat] -> control_value h r ->
  exists m1, fill_controls sv m (CLeaf h) = Ok m1 /\ field_generator m1 = Ok (planar_field sg gd V r).
Proof.
  intros S C. eexists. split; [reflexivity|]. cbn [m field_generator]. unfold circle_support. rewrite S. cbn [bind]. rewrite (item_value h r C). reflexivity.
Qed.

Lemma value_at f m1 p N d : wf_field d f -> has0 f -> field_generator m1 = Ok f -> shape p = [N; d] ->
  exists v, velocity m1 p 0 = Ok v /\ shape v = [N; d] /\ forall i a, (i < N)%nat -> (a < d)%nat -> v @2 i a = fval d f (vrow p i) a.
Proof.
  intros W H F S. destruct (feval_0 d f p N W H S) as (v & E & SV & G). exists v. unfold velocity. rewrite F. split; [exact E|]. split; [exact SV|].
  intros i a I A. rewrite (G [i; a]); [reflexivity|]. cbn. auto.
Qed.
Lemma jac_at f m1 p N d : wf_field d f -> has1 f -> field_generator m1 = Ok f -> shape p = [N; d] ->
  exists v, velocity m1 p 1 = Ok v /\ shape v = [N; d; d] /\ forall i a l, (i < N)%nat -> (a < d)%nat -> (l < d)%nat -> v @3 i a l = fjac d f (vrow p i) a l.
Proof.
  intros W H F S. destruct (feval_1 d f p N W H S) as (v & E & SV & G). exists v. unfold velocity. rewrite F. split; [exact E|]. split; [exact SV|].
  intros i a l I A L. rewrite (G [i; a; l]); [reflexivity|]. cbn. auto.
Qed.

(** ** C109 *)

(** LocalScaling: at its centre the field vanishes, and to first order it is the dilation by
    h e^(-1/18) / (2 sigma): positive controls expand. *)
Theorem C109_scaling : forall sv sg co gd ct h r,
  sg <> 0 -> shape gd = [1%nat; 2%nat] -> control_value h r ->
  exists m1 v D,
    fill_controls sv (LocalScaling 2 sg co gd ct) (CLeaf h) = Ok m1 /\
    velocity m1 gd 0 = Ok v /\ velocity m1 gd 1 = Ok D /\ shape v = [1%nat; 2%nat] /\ shape D = [1%nat; 2%nat; 2%nat] /\
    (forall a, (a < 2)%nat -> v @2 0%nat a = 0) /\
    (forall x a, (a < 2)%nat -> rsum 2 (fun l => D @3 0%nat a l * x l) = r * exp (- (1 / 18)) / (2 * sg) * x a).
Proof.
  intros sv sg co gd ct h r H S C. destruct (planar_run sv sg co gd ct h r circle3 S C) as (m1 & E & F).
  pose proof (planar_wf sg gd circle3 r H eq_refl) as W.
  destruct (value_at _ m1 gd 1 2 W Logic.I F S) as (v & EV & SV & GV). destruct (jac_at _ m1 gd 1 2 W Logic.I F S) as (D & ED & SD & GD).
  exists m1, v, D. split; [exact E|]. split; [exact EV|]. split; [exact ED|]. split; [exact SV|]. split; [exact SD|]. split.
  - intros a I. rewrite GV by lia. apply planar_centre; [exact H|left; reflexivity|exact I].
  - intros x a I. cbn [rsum]. rewrite !GD, !planar_jac, !centre_dgauss by (lia || exact H).
    destruct circle_all as ((A0 & B0) & (A1 & B1) & (A2 & B2)). pose proof sqrt3 as Q.
    destruct a as [|[|a]]; [| |lia]; rewrite A0, A1, A2, B0, B1, B2; [field; exact H|].
    transitivity (r * exp (- (1 / 18)) / (3 * sg) * ((sqrt 3 * sqrt 3) / 2) * x 1%nat); [field; exact H|rewrite Q; field; exact H].
Qed.
Print Assumptions C109_scaling.

(** LocalRotation in the plane: the field vanishes at the centre, and to first order it is the
    infinitesimal counterclockwise rotation of angular speed h e^(-1/18) / (2 sigma). *)
Theorem C109_rotation : forall sv sg co gd ct h r,
  sg <> 0 -> shape gd = [1%nat; 2%nat] -> control_value h r ->
  exists m1 v D,
    fill_controls sv (LocalRotation 2 sg co gd ct) (CLeaf h) = Ok m1 /\
    velocity m1 gd 0 = Ok v /\ velocity m1 gd 1 = Ok D /\ shape v = [1%nat; 2%nat] /\ shape D = [1%nat; 2%nat; 2%nat] /\
    (forall a, (a < 2)%nat -> v @2 0%nat a = 0) /\
    (forall x a, (a < 2)%nat -> rsum 2 (fun l => D @3 0%nat a l * x l) = r * exp (- (1 / 18)) / (2 * sg) * quarter_turn x a).
Proof.
  intros sv sg co gd ct h r H S C. destruct (planar_run sv sg co gd ct h r circle3_tangent S C) as (m1 & E & F).
  pose proof (planar_wf sg gd circle3_tangent r H eq_refl) as W.
  destruct (value_at _ m1 gd 1 2 W Logic.I F S) as (v & EV & SV & GV). destruct (jac_at _ m1 gd 1 2 W Logic.I F S) as (D & ED & SD & GD).
  exists m1, v, D. split; [exact E|]. split; [exact EV|]. split; [exact ED|]. split; [exact SV|]. split; [exact SD|]. split.
  - intros a I. rewrite GV by lia. apply planar_centre; [exact H|right; reflexivity|exact I].
  - intros x a I. cbn [rsum]. rewrite !GD, !planar_jac, !centre_dgauss by (lia || exact H).
    destruct circle_all as ((A0 & B0) & (A1 & B1) & (A2 & B2)). pose proof sqrt3 as Q. unfold quarter_turn.
    destruct a as [|[|a]]; [| |lia]; rewrite ?(proj1 (tangent_all _)), ?(proj2 (tangent_all _)), A0, A1, A2, B0, B1, B2.
    + transitivity (r * exp (- (1 / 18)) / (3 * sg) * ((sqrt 3 * sqrt 3) / 2) * - x 1%nat); [field; exact H|rewrite Q; field; exact H].
    + field; exact H.
Qed.
Print Assumptions C109_rotation.

(** Both planar modules commute with a third of a turn around their centre. *)
Theorem C109_third_turn : forall sv sg co gd ct h r m N p p',
  sg <> 0 -> shape gd = [1%nat; 2%nat] -> control_value h r ->
  m = LocalScaling 2 sg co gd ct \/ m = LocalRotation 2 sg co gd ct ->
  shape p = [N; 2%nat] -> shape p' = [N; 2%nat] ->
  (forall i a, (i < N)%nat -> (a < 2)%nat -> p' @2 i a = gd @2 0%nat a + third_turn (fun b => p @2 i b - gd @2 0%nat b) a) ->
  exists m1 v v', fill_controls sv m (CLeaf h) = Ok m1 /\ velocity m1 p 0 = Ok v /\ velocity m1 p' 0 = Ok v' /\
    forall i a, (i < N)%nat -> (a < 2)%nat -> v' @2 i a = third_turn (fun b => v @2 i b) a.
Proof.
  intros sv sg co gd ct h r m N p p' H S C K Sp Sp' T.
  assert (exists V, planar_vectors V /\ m = MLocal sg co (circle_support sg) (fun _ => Ok V) 2 1 gd ct (mk0 0)) as (V & PV & Em)
    by (destruct K as [->| ->]; [exists circle3; split; [left|]|exists circle3_tangent; split; [right|]]; reflexivity).
  subst m. destruct (planar_run sv sg co gd ct h r V S C) as (m1 & E & F). exists m1.
  pose proof (planar_wf sg gd V r H (planar_shape V PV)) as W.
  destruct (value_at _ m1 p N 2 W Logic.I F Sp) as (v & EV & SV & GV). destruct (value_at _ m1 p' N 2 W Logic.I F Sp') as (v' & EV' & SV' & GV').
  exists v, v'. split; [exact E|]. split; [exact EV|]. split; [exact EV'|].
  intros i a I A. rewrite GV' by assumption.
  destruct circle_all as ((A0 & B0) & (A1 & B1) & (A2 & B2)). pose proof sqrt3 as Q.
  assert (X : forall j k, j = 0%nat /\ k = 2%nat \/ j = 1%nat /\ k = 0%nat \/ j = 2%nat /\ k = 1%nat ->
    gaussian 2 sg (vsub (vrow p' i) (vrow (planar_support sg gd) j)) = gaussian 2 sg (vsub (vrow p i) (vrow (planar_support sg gd) k))).
  { intros j k J. unfold gaussian. f_equal. f_equal. f_equal. unfold sqn. cbn [rsum]. unfold vsub, vrow. 
    rewrite (T i 0%nat I ltac:(lia)), (T i 1%nat I ltac:(lia)). cbn [planar_support mk2 get third_turn].
    set (x := p @2 i 0%nat). set (y := p @2 i 1%nat). set (c := gd @2 0%nat 0%nat). set (e := gd @2 0%nat 1%nat).
    destruct J as [(-> & ->)|[(-> & ->)|(-> & ->)]]; rewrite ?A0, ?A1, ?A2, ?B0, ?B1, ?B2;
      field_simplify; replace (sqrt 3 ^ 2) with 3 by (transitivity (sqrt 3 * sqrt 3); [symmetry; exact Q|ring]); field. }
  assert (VV : forall j k, j = 0%nat /\ k = 2%nat \/ j = 1%nat /\ k = 0%nat \/ j = 2%nat /\ k = 1%nat ->
    V @2 j a = third_turn (fun b => V @2 k b) a).
  { intros j k J. destruct PV as [->| ->]; destruct J as [(-> & ->)|[(-> & ->)|(-> & ->)]]; destruct a as [|[|a]]; try lia; cbn [third_turn];
      rewrite ?(proj1 (tangent_all _)), ?(proj2 (tangent_all _)), ?A0, ?A1, ?A2, ?B0, ?B1, ?B2; lra. }
  rewrite planar_value, (X 0%nat 2%nat), (X 1%nat 0%nat), (X 2%nat 1%nat) by tauto.
  rewrite (VV 0%nat 2%nat), (VV 1%nat 0%nat), (VV 2%nat 1%nat) by tauto.
  unfold third_turn. destruct a as [|[|a]]; try lia; rewrite !GV, !planar_value by lia; ring.
Qed.
Print Assumptions C109_third_turn.

(** The vectors: unit vectors, radial and pointing away from the centre for the scaling,
    orthogonal to the radius, counterclockwise, for the rotation. *)
Theorem C109_vectors : forall sv sg co gd ct m,
  shape gd = [1%nat; 2%nat] -> m = LocalScaling 2 sg co gd ct \/ m = LocalRotation 2 sg co gd ct ->
  exists m1 s w, fill_controls sv m (CLeaf (mk0 1)) = Ok m1 /\ field_generator m1 = Ok (SF_0 Torch s w sg) /\
    shape s = [3%nat; 2%nat] /\ shape w = [3%nat; 2%nat] /\
    forall j, (j < 3)%nat ->
      dot2 (vsub (vrow s j) (vrow gd 0)) (vsub (vrow s j) (vrow gd 0)) = (sg / 3) ^ 2 /\ dot2 (vrow w j) (vrow w j) = 1 /\
      (m = LocalScaling 2 sg co gd ct -> dot2 (vsub (vrow s j) (vrow gd 0)) (vrow w j) = sg / 3) /\
      (m = LocalRotation 2 sg co gd ct -> dot2 (vsub (vrow s j) (vrow gd 0)) (vrow w j) = 0 /\
         dot2 (quarter_turn (vsub (vrow s j) (vrow gd 0))) (vrow w j) = sg / 3).
Proof.
  intros sv sg co gd ct m S K.
  assert (NE : LocalScaling 2 sg co gd ct <> LocalRotation 2 sg co gd ct).
  { intros Z. injection Z as Z. pose proof (f_equal (fun f => match f gd with Ok t => t @2 0%nat 0%nat | Err _ => 0 end) Z) as X. cbv beta iota in X.
    destruct circle_all as ((A0 & B0) & _). rewrite (proj1 (tangent_all _)), A0, B0 in X. lra. }
  assert (exists V, planar_vectors V /\ m = MLocal sg co (circle_support sg) (fun _ => Ok V) 2 1 gd ct (mk0 0) /\
    (m = LocalScaling 2 sg co gd ct -> V = circle3) /\ (m = LocalRotation 2 sg co gd ct -> V = circle3_tangent)) as (V & PV & Em & ES & ER).
  { destruct K as [->| ->]; [exists circle3; split; [left; reflexivity|]|exists circle3_tangent; split; [right; reflexivity|]]; split; try reflexivity; split; auto; intros Z; elim NE; auto. }
  destruct (planar_run sv sg co gd ct (mk0 1) 1 V S (or_introl (conj eq_refl eq_refl))) as (m1 & E & F). rewrite <- Em in E.
  exists m1, (planar_support sg gd), (tscal 1 V). split; [exact E|]. split; [exact F|]. split; [reflexivity|]. split; [exact (planar_shape V PV)|].
  intros j J. pose proof (circle_unit j) as U. unfold dot2, vsub, vrow. cbn [planar_support mk2 get quarter_turn]. change (get gd [0%nat; 0%nat]) with (gd @2 0%nat 0%nat).
  change (get gd [0%nat; 1%nat]) with (gd @2 0%nat 1%nat).
  change (get (tscal 1 V) [j; 0%nat]) with (1 * V @2 j 0%nat). change (get (tscal 1 V) [j; 1%nat]) with (1 * V @2 j 1%nat).
  split; [|split; [|split]].
  - set (a := circle3 @2 j 0%nat) in *. set (b := circle3 @2 j 1%nat) in *. transitivity ((sg / 3) ^ 2 * (a ^ 2 + b ^ 2)); [ring|rewrite U; ring].
  - destruct PV as [->| ->]; rewrite ?(proj1 (tangent_all _)), ?(proj2 (tangent_all _)); set (a := circle3 @2 j 0%nat) in *; set (b := circle3 @2 j 1%nat) in *;
      (transitivity (a ^ 2 + b ^ 2); [ring|exact U]).
  - intros Z. rewrite (ES Z). set (a := circle3 @2 j 0%nat) in *. set (b := circle3 @2 j 1%nat) in *. transitivity (sg / 3 * (a ^ 2 + b ^ 2)); [ring|rewrite U; ring].
  - intros Z. rewrite (ER Z). rewrite ?(proj1 (tangent_all _)), ?(proj2 (tangent_all _)). set (a := circle3 @2 j 0%nat) in *. set (b := circle3 @2 j 1%nat) in *.
    split; [ring|]. transitivity (sg / 3 * (a ^ 2 + b ^ 2)); [ring|rewrite U; ring].
Qed.
Print Assumptions C109_vectors.

(** The documentation says that the vectors of LocalScaling point inwards: they never do. *)
Theorem C109_inwards_refuted : forall sv,
  ~ forall sg co gd ct m1 s w j, 0 < sg -> shape gd = [1%nat; 2%nat] ->
      fill_controls sv (LocalScaling 2 sg co gd ct) (CLeaf (mk0 1)) = Ok m1 -> field_generator m1 = Ok (SF_0 Torch s w sg) -> (j < 3)%nat ->
      dot2 (vsub (vrow s j) (vrow gd 0)) (vrow w j) < 0.
Proof.
  intros sv A. destruct (C109_vectors sv 1 1 (tzeros [1%nat; 2%nat]) (tzeros [1%nat; 2%nat]) _ eq_refl (or_introl eq_refl)) as (m1 & s & w & E & F & _ & _ & G).
  destruct (G 0%nat ltac:(lia)) as (_ & _ & B & _). specialize (A 1 1 (tzeros [1%nat; 2%nat]) (tzeros [1%nat; 2%nat]) m1 s w 0%nat Rlt_0_1 eq_refl E F ltac:(lia)). rewrite (B eq_refl) in A. lra.
Qed.
Print Assumptions C109_inwards_refuted.

(** ** In space *)

Definition space_support (sg : R) (gd : tensor) : tensor := mk2 4 3 (fun i c => gd @2 0%nat c + sg / 3 * tetra @2 i c).

Lemma space_gauss sg gd i : sg <> 0 -> (i < 4)%nat -> gaussian 3 sg (vsub (vrow gd 0) (vrow (space_support sg gd) i)) = exp (- (1 / 6)).
Proof.
  intros H I. unfold gaussian. f_equal. unfold sqn. cbn [rsum]. unfold vsub, vrow. cbn [space_support mk2 get].
  destruct i as [|[|[|[|i]]]]; [| | | |lia]; cbn [tetra mk2 get]; field; exact H.
Qed.
Lemma space_dgauss sg gd i l : sg <> 0 -> (i < 4)%nat -> dgauss 3 sg (vsub (vrow gd 0) (vrow (space_support sg gd) i)) l = exp (- (1 / 6)) / (3 * sg) * tetra @2 i l.
Proof.
  intros H I. unfold dgauss. rewrite (space_gauss sg gd i H I). unfold vsub, vrow. cbn [space_support mk2 get].
  set (a := tetra @2 i l). change (get gd [0%nat; l]) with (gd @2 0%nat l). field. exact H.
Qed.

Lemma space_centre sg gd w r a : sg <> 0 -> shape gd = [2%nat; 3%nat] -> rot3_vectors gd = Ok w -> (a < 3)%nat ->
  fval 3 (SF_0 Torch (space_support sg gd) (tscal r w) sg) (vrow gd 0) a = 0.
Proof.
  intros H S E A. unfold rot3_vectors in E. rewrite S in E. cbv zeta in E. injection E as <-. cbn [fval]. change (nrows (space_support sg gd)) with 4%nat. cbn [rsum].
  rewrite !space_gauss by (lia || exact H). cbn [tscal tmap mk2 get shape]. destruct a as [|[|[|a]]]; [| | |lia]; cbn [tetra mk2 get]; ring.
Qed.

(** LocalRotation in space turns around the axis from its first point to its second:
    its field vanishes at the first point, and to first order it is x |-> x cross (gd1 - gd0),
    up to the factor 4 h e^(-1/6) / (3 sigma). *)
Theorem C109_rotation_space : forall sv sg co gd ct h r,
  sg <> 0 -> shape gd = [2%nat; 3%nat] -> control_value h r ->
  exists m1 v D,
    fill_controls sv (LocalRotation 3 sg co gd ct) (CLeaf h) = Ok m1 /\
    velocity m1 gd 0 = Ok v /\ velocity m1 gd 1 = Ok D /\ shape v = [2%nat; 3%nat] /\ shape D = [2%nat; 3%nat; 3%nat] /\
    (forall a, (a < 3)%nat -> v @2 0%nat a = 0) /\
    (forall x a, (a < 3)%nat ->
       rsum 3 (fun l => D @3 0%nat a l * x l) = 4 * r * exp (- (1 / 6)) / (3 * sg) * cross x (fun c => gd @2 1%nat c - gd @2 0%nat c) a).
Proof.
  intros sv sg co gd ct h r H S C. 
  assert (exists w, rot3_vectors gd = Ok w /\ shape w = [4%nat; 3%nat]) as (w & EW & SW) by (unfold rot3_vectors; rewrite S; eexists; split; reflexivity).
  set (f := SF_0 Torch (space_support sg gd) (tscal r w) sg).
  assert (W : wf_field 3 f) by (cbn; split; [exact H|]; exists 4%nat; auto).
  assert (exists m1, fill_controls sv (LocalRotation 3 sg co gd ct) (CLeaf h) = Ok m1 /\ field_generator m1 = Ok f) as (m1 & E & F).
  { eexists. split; [reflexivity|]. cbn [field_generator]. unfold rot3_support. rewrite S, EW. cbn [bind]. rewrite (item_value h r C). reflexivity. }
  destruct (value_at _ m1 gd 2 3 W Logic.I F S) as (v & EV & SV & GV). destruct (jac_at _ m1 gd 2 3 W Logic.I F S) as (D & ED & SD & GD).
  exists m1, v, D. split; [exact E|]. split; [exact EV|]. split; [exact ED|]. split; [exact SV|]. split; [exact SD|]. split.
  - intros a I. rewrite GV by lia. exact (space_centre sg gd w r a H S EW I).
  - intros x a I. cbn [rsum]. rewrite !GD by lia. unfold f. cbn [fjac]. change (nrows (space_support sg gd)) with 4%nat. cbn [rsum].
    rewrite !space_dgauss by (lia || exact H). unfold rot3_vectors in EW. rewrite S in EW. cbv zeta in EW. injection EW as <-.
    cbn [tscal tmap mk2 get shape]. unfold cross. destruct a as [|[|[|a]]]; [| | |lia]; cbn [tetra mk2 get]; field; exact H.
Qed.
Print Assumptions C109_rotation_space.

(** ** Shot alone *)

Lemma alone_form sv b0 cs n sg co fs fv d nb gd ct h0 x c mn (m := MComp [MLocal sg co fs fv d nb gd ct h0]) :
  (forall l k, cs = Some l -> In k l -> exists h, k = CList [CLeaf h]) ->
  at_state m (step_controls sv b0 cs n) (phase (GComp [GLm d nb x c])) = Ok mn ->
  exists h, mn = MComp [MLocal sg co fs fv d nb x c h].
Proof.
  intros CO E. unfold at_state in E. rewrite write_phase in E by reflexivity. cbn [m set_manifold bind List.length Nat.eqb py_assert] in E.
  unfold step_controls in E. destruct cs as [l|].
  - destruct (nth_error l n) as [k|] eqn:Ek; [|discriminate E]. destruct (CO l k eq_refl (nth_error_In l n Ek)) as (h & ->).
    injection E as <-. exists h. reflexivity.
  - unfold geodesic_controls in E. cbn [compute_geodesic_control] in E.
    destruct (fs x) as [s|]; [|discriminate E]. cbn [bind] in E. destruct (fv x) as [v|]; [|discriminate E]. cbn [bind] in E.
    destruct (inner_prod_field _ _) as [y|]; [|discriminate E]. cbn [bind] in E. destruct (tdiv _ _) as [z|]; [|discriminate E]. cbn [bind] in E.
    injection E as <-. exists (mk0 z). reflexivity.
Qed.

(** At the first row of the descriptor the field vanishes. *)
Definition vanishes (d nb : nat) (sg : R) (fs fv : tensor -> res tensor) : Prop :=
  forall x r, shape x = [nb; d] -> exists s v M, fs x = Ok s /\ fv x = Ok v /\ shape s = [M; d] /\ shape v = [M; d] /\
    forall a, (a < d)%nat -> fval d (SF_0 Torch s (tscal r v) sg) (vrow x 0) a = 0.
Lemma planar_vanishes sg V : sg <> 0 -> planar_vectors V -> vanishes 2 1 sg (circle_support sg) (fun _ => Ok V).
Proof.
  intros H P x r S. exists (planar_support sg x), V, 3%nat. unfold circle_support. rewrite S. repeat split; auto.
  - exact (planar_shape V P).
  - intros a A. exact (planar_centre sg x V r a H P A).
Qed.
Lemma space_vanishes sg : sg <> 0 -> vanishes 3 2 sg (rot3_support sg) rot3_vectors.
Proof.
  intros H x r S. unfold rot3_support. rewrite S.
  assert (exists w, rot3_vectors x = Ok w /\ shape w = [4%nat; 3%nat]) as (w & EW & SW) by (unfold rot3_vectors; rewrite S; eexists; split; reflexivity).
  exists (space_support sg x), w, 4%nat. repeat split; auto. intros a A. exact (space_centre sg x w r a H S EW A).
Qed.

Lemma vanishing_stays ck others sv b0 ag it t1 cs keep costs0 d nb sg co fs fv gd ct h0 sh (m := MComp [MLocal sg co fs fv d nb gd ct h0]) :
  exact_grad ag -> exact_solver sv -> wf_mod d m -> locals_total d m -> vanishes d nb sg fs fv -> sg <> 0 -> (0 < nb)%nat -> shape gd = [nb; d] ->
  (forall l c, cs = Some l -> In c l -> exists h, c = CList [CLeaf h] /\ (shape h = [] \/ shape h = [1%nat])) ->
  shoot ck others sv b0 ag "torch_euler" it t1 cs keep costs0 m = Ok sh ->
  exists x c, mod_manifold (sh_mod sh) = GComp [GLm d nb x c] /\ shape x = [nb; d] /\ forall a, (a < d)%nat -> x @2 0%nat a = gd @2 0%nat a.
Proof.
  intros EX HS W LT VA Hs Hn Sg CO E.
  destruct (C77_points ck others sv b0 ag it t1 cs keep costs0 d m sh EX HS W LT) as (states & mods & L1 & L2 & S0 & SN & AT & FA & ST); [|exact E|].
  { intros l c El I. destruct (CO l c El I) as (h & -> & Sh). cbn. auto. }
  assert (P : forall n, (n <= it)%nat -> exists x c, nth_error states n = Some (GComp [GLm d nb x c]) /\ shape x = [nb; d] /\ forall a, (a < d)%nat -> x @2 0%nat a = gd @2 0%nat a).
  { induction n as [|n IH]; intros I.
    - exists gd, ct. split; [exact S0|]. auto.
    - destruct (IH ltac:(lia)) as (x & c & Ex & Sx & Gx).
      destruct (nth_error states (S n)) as [g'|] eqn:Eg; [|apply nth_error_None in Eg; lia].
      destruct (nth_error mods n) as [mn|] eqn:Em; [|apply nth_error_None in Em; lia].
      destruct (proj1 (Forall_forall _ _) FA g' (nth_error_In _ _ Eg)) as (K' & PS).
      destruct g' as [| | | | |gs']; try discriminate K'. destruct gs' as [|g1 gs']; try discriminate K'. destruct gs' as [|? ?]; try discriminate K'.
      destruct g1 as [dim' nb' x' c'| | | | |]; try discriminate K'. injection K' as -> ->.
      destruct (alone_form sv b0 cs n sg co fs fv d nb gd ct h0 x c mn) as (h & ->); [|exact (AT n _ _ Ex Em)|].
      { intros l k El Il. destruct (CO l k El Il) as (h & -> & _). exists h. reflexivity. }
      destruct (ST n _ _ _ 0%nat d nb x c d nb x' c' Em Ex Eg eq_refl eq_refl) as (f & v & Ef & Ev & Sv & Q).
      destruct (VA x (item h) Sx) as (s & w & M & Es & Ew & Ss & Sw & Z). cbn [field_generator] in Ef. rewrite Es, Ew in Ef. cbn [bind sum_ctor] in Ef. injection Ef as <-.
      assert (Wf : wf_field d (SF_sum [SF_0 Torch s (tscal (item h) w) sg])).
      { cbn [wf_field]. split; [discriminate|]. cbn [fold_right]. split; [|exact Logic.I]. split; [exact Hs|]. exists M. auto. }
      destruct (feval_0 d _ x nb Wf (conj Logic.I Logic.I) Sx) as (v1 & E1 & S1 & G1). rewrite E1 in Ev. injection Ev as ->.
      destruct Q as (Q1 & Q2). exists x', c'. split; [reflexivity|].
      assert (Sx' : shape x' = [nb; d]) by (rewrite Q1; exact Sx). split; [exact Sx'|].
      intros a A. rewrite <- (Gx a A). rewrite (Q2 [0%nat; a]) by (rewrite Sx'; cbn; auto).
      change (get (tadd x (tscal (1 / INR it) v)) [0%nat; a]) with (x @2 0%nat a + 1 / INR it * v @2 0%nat a).
      rewrite (G1 [0%nat; a]) by (cbn; auto). cbn [V0 fval fold_right]. specialize (Z a A). cbn [fval] in Z. rewrite Z. ring. }
  destruct (P it (le_n it)) as (x & c & Ex & R1). rewrite SN in Ex. injection Ex as Ex. exists x, c. auto.
Qed.

(** A local scaling or rotation shot alone leaves its centre where it is, whatever its
    moments or its controls. *)
Theorem C109_alone : forall ck others sv b0 ag it t1 cs keep costs0 d m sg co gd ct sh,
  exact_grad ag -> exact_solver sv -> 
  m = LocalScaling 2 sg co gd ct /\ d = 2%nat \/ m = LocalRotation 2 sg co gd ct /\ d = 2%nat \/ m = LocalRotation 3 sg co gd ct /\ d = 3%nat ->
  wf_mod d m -> (forall l c, cs = Some l -> In c l -> exists h, c = CList [CLeaf h] /\ (shape h = [] \/ shape h = [1%nat])) ->
  shoot ck others sv b0 ag "torch_euler" it t1 cs keep costs0 (MComp [m]) = Ok sh ->
  exists nb x c, mod_manifold (sh_mod sh) = GComp [GLm d nb x c] /\ shape x = shape gd /\ forall a, (a < d)%nat -> x @2 0%nat a = gd @2 0%nat a.
Proof.
  intros ck others sv b0 ag it t1 cs keep costs0 d m sg co gd ct sh EX HS K W CO E.
  assert (LT : locals_total d (MComp [m])).
  { apply smooth_total. destruct (C81_local_modules sg co gd ct) as (A & B & C). cbn [locals_smooth fold_right]. split; [|exact Logic.I].
    destruct K as [(-> & ->)|[(-> & ->)|(-> & ->)]]; assumption. }
  assert (WC : wf_mod d (MComp [m])) by (cbn; split; [discriminate|auto]).
  destruct K as [(-> & ->)|[(-> & ->)|(-> & ->)]]; cbn [LocalRotation LocalScaling Nat.eqb] in *;
    (assert (sg <> 0 /\ shape gd = shape gd) as (Hs & _) by (cbn in W; tauto)).
  - exists 1%nat. assert (Sg : shape gd = [1%nat; 2%nat]) by (cbn in W; tauto). rewrite Sg. 
    exact (vanishing_stays _ _ _ _ _ _ _ _ _ _ _ _ _ _ _ _ _ _ _ _ EX HS WC LT (planar_vanishes sg circle3 Hs (or_introl eq_refl)) Hs Nat.lt_0_1 Sg CO E).
  - exists 1%nat. assert (Sg : shape gd = [1%nat; 2%nat]) by (cbn in W; tauto). rewrite Sg. 
    exact (vanishing_stays _ _ _ _ _ _ _ _ _ _ _ _ _ _ _ _ _ _ _ _ EX HS WC LT (planar_vanishes sg circle3_tangent Hs (or_intror eq_refl)) Hs Nat.lt_0_1 Sg CO E).
  - exists 2%nat. assert (Sg : shape gd = [2%nat; 3%nat]) by (cbn in W; tauto). rewrite Sg. 
    exact (vanishing_stays _ _ _ _ _ _ _ _ _ _ _ _ _ _ _ _ _ _ _ _ EX HS WC LT (space_vanishes sg Hs) Hs Nat.lt_0_2 Sg CO E).
Qed.
Print Assumptions C109_alone.

(** The hypotheses hold for concrete modules, which can be shot. *)
Definition origin : tensor := tzeros [1%nat; 2%nat].
Definition axis : tensor := mk2 2 3 (fun i c => match i, c with 1%nat, 2%nat => 1 | _, _ => 0 end).
Lemma scaling_everywhere : everywhere (regular 2) (MComp [LocalScaling 2 3 1 origin origin]).
Proof.
  intros g m1 K SP E. destruct g as [| | | | |gs]; try discriminate K. cbn [mod_manifold map skel] in K. injection K as K.
  destruct gs as [|g0 [|]]; try discriminate K. cbn [map] in K. injection K as K0. destruct g0; try discriminate K0.
  cbn in E. injection E as <-. cbn in SP. injection SP as P1 P2. split; [|exact Logic.I]. apply scaling_regular. exact P1.
Qed.

Example C109_hypotheses : forall ck others b0 it t1, (0 < it)%nat ->
  shape origin = [1%nat; 2%nat] /\ shape axis = [2%nat; 3%nat] /\ control_value (mk0 2) 2 /\ control_value (mk1 1 (fun _ => 2)) 2 /\
  wf_mod 2 (LocalScaling 2 3 1 origin origin) /\ wf_mod 2 (LocalRotation 2 3 1 origin origin) /\ wf_mod 3 (LocalRotation 3 3 1 axis axis) /\
  exact_grad std_ag /\ exact_solver exact_sv /\
  exists sh, shoot ck others exact_sv b0 std_ag "torch_euler" it t1 None false None (MComp [LocalScaling 2 3 1 origin origin]) = Ok sh.
Proof.
  intros ck others b0 it t1 IT. assert (W : wf_mod 2 (LocalScaling 2 3 1 origin origin)).
  { cbn. repeat (split; [first [reflexivity|lra]|]). exists 3%nat. do 2 eexists. repeat split. }
  split; [reflexivity|]. split; [reflexivity|]. split; [left; split; reflexivity|]. split; [right; split; reflexivity|]. split; [exact W|].
  split. { cbn. repeat (split; [first [reflexivity|lra]|]). exists 3%nat. do 2 eexists. repeat split. }
  split. { cbn. repeat (split; [first [reflexivity|lra]|]). exists 4%nat. do 2 eexists. repeat split. }
  split; [exact std_exact|]. split; [exact exact_sv_exact|].
  assert (WC : wf_mod 2 (MComp [LocalScaling 2 3 1 origin origin])) by (split; [discriminate|split; [exact W|exact Logic.I]]).
  assert (LS : locals_smooth 2 (MComp [LocalScaling 2 3 1 origin origin])) by (split; [exact (proj1 (C81_local_modules 3 1 origin origin))|exact Logic.I]).
  apply (C82_torch_euler ck others exact_sv b0 std_ag it t1 None false None 2 _ std_exact std_differentiates exact_sv_exact WC LS scaling_everywhere);
    [intros _ _; cbn; tauto|discriminate|discriminate|exact IT|left; reflexivity].
Qed.
