(** The winding order is the total angle of the shape seen from the point. *)
From Coq Require Import Reals List Arith ZArith Lia Lra Permutation Bool.
From Verif Require Import Py RSum Tensor KernelModel FieldModel Fl MeshModel SpecMesh MeshFacts.
Import ListNotations.
Open Scope R_scope.

Lemma norm2_pos u : u <> (0, 0) -> 0 < norm2 u.
Proof.
  intros H. apply sqrt_lt_R0. destruct u as [x y]. cbn [fst snd]. destruct (Req_dec x 0) as [->|NX]; [destruct (Req_dec y 0) as [->|NY]; [exfalso; apply H; reflexivity|]|]; nra.
Qed.
Lemma norm2_sq u : norm2 u * norm2 u = fst u * fst u + snd u * snd u.
Proof. apply sqrt_sqrt. nra. Qed.

(** Angle in (0, 2 PI]. *)
Definition arg (u : pt) : R := if Rltb 0 (snd u) then acos (fst u / norm2 u) else 2 * PI - acos (fst u / norm2 u).

Lemma ratio_bound x y r : 0 < r -> r * r = x * x + y * y -> -1 <= x / r <= 1.
Proof.
  intros Hr E. assert (-r <= x <= r) by nra. split.
  - apply (Rmult_le_reg_r r); [exact Hr|]. replace (x / r * r) with x by (field; lra). lra.
  - apply (Rmult_le_reg_r r); [exact Hr|]. replace (x / r * r) with x by (field; lra). lra.
Qed.
Lemma ratio_sin x y r : 0 < r -> r * r = x * x + y * y -> r * sin (acos (x / r)) = Rabs y.
Proof.
  intros Hr E. pose proof (ratio_bound x y r Hr E) as B. rewrite sin_acos by exact B.
  replace (1 - (x / r)²) with ((Rabs y / r)²).
  - rewrite sqrt_Rsqr; [field; lra|]. apply Rmult_le_pos; [apply Rabs_pos|left; apply Rinv_0_lt_compat; exact Hr].
  - unfold Rsqr. replace (Rabs y / r * (Rabs y / r)) with (Rabs y * Rabs y / (r * r)) by (field; lra).
    rewrite <- Rabs_mult, (Rabs_pos_eq (y * y)) by nra. replace (x / r * (x / r)) with (x * x / (r * r)) by (field; lra).
    apply (Rmult_eq_reg_r (r * r)); [|nra]. field_simplify; [|lra|lra]. nra.
Qed.

Lemma arg_spec u : u <> (0, 0) -> norm2 u * cos (arg u) = fst u /\ norm2 u * sin (arg u) = snd u.
Proof.
  intros H. pose proof (norm2_pos u H) as P. pose proof (norm2_sq u) as Q. pose proof (ratio_bound _ _ _ P Q) as B. pose proof (ratio_sin _ _ _ P Q) as S.
  unfold arg. destruct (Rltb 0 (snd u)) eqn:E.
  - apply Rltb_true in E. rewrite cos_acos by exact B. rewrite S, Rabs_pos_eq by lra. split; [field; lra|reflexivity].
  - apply Rltb_false in E. replace (2 * PI - acos (fst u / norm2 u)) with (- acos (fst u / norm2 u) + 2 * INR 1 * PI) by (cbn; ring).
    rewrite cos_period, sin_period, cos_neg, sin_neg, cos_acos by exact B. rewrite Ropp_mult_distr_r_reverse, S, Rabs_left1 by lra. split; [field; lra|ring].
Qed.

Lemma arg_low u : u <> (0, 0) -> snd u <= 0 -> PI <= arg u <= 2 * PI.
Proof.
  intros H L. unfold arg. destruct (Rltb 0 (snd u)) eqn:E; [apply Rltb_true in E; lra|]. pose proof (acos_bound (fst u / norm2 u)). lra.
Qed.
Lemma arg_high u : u <> (0, 0) -> 0 < snd u -> 0 < arg u < PI.
Proof.
  intros H L. unfold arg. rewrite (proj2 (Rltb_true 0 (snd u)) L). pose proof (norm2_pos u H) as P. pose proof (norm2_sq u) as Q. apply acos_bound_lt.
  assert (- norm2 u < fst u < norm2 u) by nra. split; apply (Rmult_lt_reg_r (norm2 u)); try exact P; replace (fst u / norm2 u * norm2 u) with (fst u) by (field; lra); lra.
Qed.

Lemma cos_one_turns d : cos d = 1 -> exists k : Z, d = 2 * IZR k * PI.
Proof.
  intros H. assert (S : sin (d / 2) = 0).
  { replace d with (2 * (d / 2)) in H by field. rewrite cos_2a_sin in H. assert (sin (d / 2) * sin (d / 2) = 0) by lra. nra. }
  apply sin_eq_0_0 in S. destruct S as (k & E). exists k. lra.
Qed.

Lemma cos_one_small d : cos d = 1 -> - (3 * PI) < d < 3 * PI -> d = - (2 * PI) \/ d = 0 \/ d = 2 * PI.
Proof.
  intros C B. destruct (cos_one_turns d C) as (k & ->). pose proof PI_RGT_0.
  assert (K : (-2 < k < 2)%Z).
  { split; apply lt_IZR.
    - apply (Rmult_lt_reg_r (2 * PI)); nra.
    - apply (Rmult_lt_reg_r (2 * PI)); nra. }
  assert (k = -1 \/ k = 0 \/ k = 1)%Z as [->|[->| ->]] by lia; [left|right; left|right; right]; ring.
Qed.

Lemma cross_orient q a b : fst (ray q a) * snd (ray q b) - snd (ray q a) * fst (ray q b) = orient a b q.
Proof. unfold ray, orient. cbn [fst snd]. ring. Qed.

(** The sign of the cross product is the sign of the angle. *)
Lemma angle_sign u v t : u <> (0, 0) -> v <> (0, 0) -> angle u v t ->
  (0 < fst u * snd v - snd u * fst v -> 0 < t) /\ (fst u * snd v - snd u * fst v < 0 -> t < 0) /\ (fst u * snd v - snd u * fst v = 0 -> t = 0).
Proof.
  intros Hu Hv (B & _ & S). rewrite <- S. pose proof (norm2_pos u Hu) as Pu. pose proof (norm2_pos v Hv) as Pv. assert (P : 0 < norm2 u * norm2 v) by nra. clear S.
  destruct (Rtotal_order t 0) as [L|[E|G]].
  - assert (sin t < 0) by (apply sin_lt_0_var; lra). repeat split; intros; nra.
  - rewrite E, sin_0. repeat split; intros; lra.
  - assert (0 < sin t) by (apply sin_gt_0; lra). repeat split; intros; nra.
Qed.

Lemma angle_arg u v t : u <> (0, 0) -> v <> (0, 0) -> angle u v t -> cos (t - (arg v - arg u)) = 1.
Proof.
  intros Hu Hv (B & C & S). pose proof (norm2_pos u Hu) as Pu. pose proof (norm2_pos v Hv) as Pv.
  destruct (arg_spec u Hu) as (Cu & Su). destruct (arg_spec v Hv) as (Cv & Sv).
  rewrite cos_minus, cos_minus, sin_minus.
  assert (P : 0 < norm2 u * norm2 v) by nra.
  apply (Rmult_eq_reg_l ((norm2 u * norm2 v) * (norm2 u * norm2 v))); [|nra].
  replace (norm2 u * norm2 v * (norm2 u * norm2 v) *
     (cos t * (cos (arg v) * cos (arg u) + sin (arg v) * sin (arg u)) + sin t * (sin (arg v) * cos (arg u) - cos (arg v) * sin (arg u))))
   with ((norm2 u * norm2 v * cos t) * ((norm2 v * cos (arg v)) * (norm2 u * cos (arg u)) + (norm2 v * sin (arg v)) * (norm2 u * sin (arg u))) +
         (norm2 u * norm2 v * sin t) * ((norm2 v * sin (arg v)) * (norm2 u * cos (arg u)) - (norm2 v * cos (arg v)) * (norm2 u * sin (arg u)))) by ring.
  rewrite C, S, Cu, Su, Cv, Sv. rewrite Rmult_1_r.
  replace (norm2 u * norm2 v * (norm2 u * norm2 v)) with ((norm2 u * norm2 u) * (norm2 v * norm2 v)) by ring. rewrite !norm2_sq. ring.
Qed.

Lemma edge_angle q a b t : ~ on_segment a b q -> angle (ray q a) (ray q b) t ->
  t = arg (ray q b) - arg (ray q a) + 2 * PI * IZR (contrib 1 q a b).
Proof.
  intros NS A.
  assert (Ha : ray q a <> (0, 0)).
  { intros E. apply NS. exists 0. split; [lra|]. unfold ray in E. injection E as E1 E2. unfold along. destruct q; cbn [fst snd] in *. f_equal; lra. }
  assert (Hb : ray q b <> (0, 0)).
  { intros E. apply NS. exists 1. split; [lra|]. unfold ray in E. injection E as E1 E2. unfold along. destruct q; cbn [fst snd] in *. f_equal; lra. }
  pose proof (angle_arg _ _ _ Ha Hb A) as C1. pose proof (angle_sign _ _ _ Ha Hb A) as (S1 & S2 & S3). rewrite cross_orient in S1, S2, S3.
  pose proof A as A'. destruct A' as (B & Cc & _). pose proof PI_RGT_0 as PP.
  assert (la : forall c, (Rleb (snd c) (snd q) = true -> snd (ray q c) <= 0) /\ (Rleb (snd c) (snd q) = false -> 0 < snd (ray q c))).
  { intros c. cbn. split; intros E; [apply Rleb_true in E|apply Rleb_false in E]; lra. }
  rewrite contrib_cases. unfold crossing, low. destruct (Rleb (snd a) (snd q)) eqn:Ea; destruct (Rleb (snd b) (snd q)) eqn:Eb; cbn [Z.sub Z.opp Z.add Z.pos_sub].
  - (* both low *)
    pose proof (arg_low _ Ha (proj1 (la a) Ea)) as Ra. pose proof (arg_low _ Hb (proj1 (la b) Eb)) as Rb.
    destruct (cos_one_small _ C1 ltac:(lra)) as [D|[D|D]]; cbn; lra.
  - (* upward *)
    pose proof (arg_low _ Ha (proj1 (la a) Ea)) as Ra. pose proof (arg_high _ Hb (proj2 (la b) Eb)) as Rb.
    assert (CR : crossing q a b <> 0%Z) by (unfold crossing, low; rewrite Ea, Eb; discriminate).
    assert (O : orient a b q <> 0) by (intros O; apply NS, crossing_on; assumption).
    destruct (Rdichotomy _ _ O) as [L|G].
    + rewrite (proj2 (rsign_m1 _) L). cbn [Z.eqb]. specialize (S2 L). destruct (cos_one_small _ C1 ltac:(lra)) as [D|[D|D]]; cbn; lra.
    + rewrite (proj2 (rsign_1 _) G). cbn [Z.eqb Pos.eqb]. specialize (S1 G). destruct (cos_one_small _ C1 ltac:(lra)) as [D|[D|D]]; lra.
  - pose proof (arg_high _ Ha (proj2 (la a) Ea)) as Ra. pose proof (arg_low _ Hb (proj1 (la b) Eb)) as Rb.
    assert (CR : crossing q a b <> 0%Z) by (unfold crossing, low; rewrite Ea, Eb; discriminate).
    assert (O : orient a b q <> 0) by (intros O; apply NS, crossing_on; assumption).
    destruct (Rdichotomy _ _ O) as [L|G].
    + rewrite (proj2 (rsign_m1 _) L). cbn [Z.eqb Pos.eqb Z.opp]. specialize (S2 L). destruct (cos_one_small _ C1 ltac:(lra)) as [D|[D|D]]; lra.
    + rewrite (proj2 (rsign_1 _) G). cbn [Z.eqb Pos.eqb Z.opp]. specialize (S1 G). destruct (cos_one_small _ C1 ltac:(lra)) as [D|[D|D]]; cbn; lra.
  - pose proof (arg_high _ Ha (proj2 (la a) Ea)) as Ra. pose proof (arg_high _ Hb (proj2 (la b) Eb)) as Rb.
    destruct (cos_one_small _ C1 ltac:(lra)) as [D|[D|D]]; cbn; lra.
Qed.

Lemma zsum_rsum n (f : nat -> Z) : IZR (zsum (map f (seq 0 n))) = rsum n (fun i => IZR (f i)).
Proof.
  induction n as [|n IH]; [reflexivity|]. rewrite seq_S, map_app, zsum_app, plus_IZR, IH. cbn. rewrite plus_IZR. ring.
Qed.

Lemma rsum_cycle n (f : nat -> R) : rsum n (fun i => f ((i + 1) mod n)%nat) = rsum n f.
Proof.
  destruct n as [|n]; [reflexivity|]. cbn [rsum]. replace (n + 1)%nat with (S n) by lia. rewrite Nat.mod_same by lia.
  rewrite (rsum_ext n _ (fun i => f (S i))).
  - clear. induction n as [|n IH]; [reflexivity|]. cbn [rsum] in *. lra.
  - intros i L. rewrite Nat.mod_small by lia. f_equal. lia.
Qed.

Theorem total_angle s q theta : ~ outline s q ->
  (forall i, (i < nrows s)%nat -> angle (ray q (edge_from s i)) (ray q (edge_to s i)) (theta i)) ->
  rsum (nrows s) theta = 2 * PI * IZR (turns 1 q s).
Proof.
  intros NO A. unfold turns. rewrite zsum_rsum, <- rsum_scal.
  transitivity (rsum (nrows s) (fun i => arg (ray q (edge_to s i)) - arg (ray q (edge_from s i)) + 2 * PI * IZR (contrib 1 q (edge_from s i) (edge_to s i)))).
  - apply rsum_ext. intros i L. apply edge_angle; [intros S; apply NO; exists i; split; assumption|apply A; exact L].
  - rewrite rsum_plus, rsum_minus. unfold edge_to, edge_from. rewrite (rsum_cycle (nrows s) (fun i => arg (ray q (vtx s i)))). ring.
Qed.

(** Such angles exist off the outline, and only one at each edge. *)
Lemma angle_exists q a b : ~ on_segment a b q -> exists t, angle (ray q a) (ray q b) t.
Proof.
  intros NS.
  assert (Ha : ray q a <> (0, 0)).
  { intros E. apply NS. exists 0. split; [lra|]. unfold ray in E. injection E as E1 E2. unfold along. destruct q; cbn [fst snd] in *. f_equal; lra. }
  assert (Hb : ray q b <> (0, 0)).
  { intros E. apply NS. exists 1. split; [lra|]. unfold ray in E. injection E as E1 E2. unfold along. destruct q; cbn [fst snd] in *. f_equal; lra. }
  set (u := ray q a) in *. set (v := ray q b) in *. pose proof (norm2_pos u Ha) as Pu. pose proof (norm2_pos v Hb) as Pv.
  set (r := norm2 u * norm2 v). assert (Pr : 0 < r) by (unfold r; nra).
  set (x := fst u * fst v + snd u * snd v). set (y := fst u * snd v - snd u * fst v).
  assert (Q : r * r = x * x + y * y).
  { unfold r, x, y. replace (norm2 u * norm2 v * (norm2 u * norm2 v)) with ((norm2 u * norm2 u) * (norm2 v * norm2 v)) by ring. rewrite !norm2_sq. ring. }
  pose proof (ratio_bound x y r Pr Q) as B. pose proof (ratio_sin x y r Pr Q) as S. pose proof PI_RGT_0 as PP. pose proof (acos_bound (x / r)) as AB.
  assert (CA : r * cos (acos (x / r)) = x) by (rewrite cos_acos by exact B; field; lra).
  destruct (Rtotal_order y 0) as [L|[E|G]].
  - assert (LT : -1 < x / r < 1).
    { assert (- r < x < r) by nra. split; apply (Rmult_lt_reg_r r); try exact Pr; replace (x / r * r) with x by (field; lra); lra. }
    exists (- acos (x / r)). pose proof (acos_bound_lt _ LT). split; [lra|]. rewrite cos_neg, sin_neg. fold r x y. split; [exact CA|]. rewrite Ropp_mult_distr_r_reverse, S, Rabs_left by exact L. ring.
  - exists 0. split; [lra|]. rewrite cos_0, sin_0. fold r x y. rewrite E, Rmult_0_r, Rmult_1_r. split; [|reflexivity].
    assert (x = r \/ x = - r) as [X|X]; [|symmetry; exact X|].
    { rewrite E in Q. assert ((x - r) * (x + r) = 0) by lra. apply Rmult_integral in H. destruct H; [left|right]; lra. }
    exfalso. apply NS.
    (* u and v are opposite: q is between a and b *)
    exists (norm2 u / (norm2 u + norm2 v)). split.
    + split; [apply Rmult_le_pos; [lra|left; apply Rinv_0_lt_compat; lra]|]. apply (Rmult_le_reg_r (norm2 u + norm2 v)); [lra|]. replace (norm2 u / (norm2 u + norm2 v) * (norm2 u + norm2 v)) with (norm2 u) by (field; lra). lra.
    + assert (Z : norm2 v * fst u + norm2 u * fst v = 0 /\ norm2 v * snd u + norm2 u * snd v = 0).
      { pose proof (norm2_sq u) as Nu. pose proof (norm2_sq v) as Nv. unfold x, r in X.
        assert (SQ : (norm2 v * fst u + norm2 u * fst v) * (norm2 v * fst u + norm2 u * fst v) + (norm2 v * snd u + norm2 u * snd v) * (norm2 v * snd u + norm2 u * snd v) = 0).
        { replace ((norm2 v * fst u + norm2 u * fst v) * (norm2 v * fst u + norm2 u * fst v) + (norm2 v * snd u + norm2 u * snd v) * (norm2 v * snd u + norm2 u * snd v))
            with ((norm2 v * norm2 v) * (fst u * fst u + snd u * snd u) + (norm2 u * norm2 u) * (fst v * fst v + snd v * snd v) + 2 * (norm2 u * norm2 v) * (fst u * fst v + snd u * snd v)) by ring.
          rewrite X, <- Nu, <- Nv. ring. }
        apply Rplus_sqr_eq_0. exact SQ. }
      destruct Z as (Z1 & Z2). clearbody r x y. clear - Pu Pv Z1 Z2. unfold along. remember (norm2 u) as m eqn:Em. remember (norm2 v) as k eqn:Ek. clear Em Ek.
      destruct q as [qx qy]. unfold u, v, ray in Z1, Z2. cbn [fst snd] in *.
      f_equal; apply (Rmult_eq_reg_r (m + k)); try lra.
      * replace ((fst a + m / (m + k) * (fst b - fst a)) * (m + k)) with (fst a * (m + k) + m * (fst b - fst a)) by (field; lra). lra.
      * replace ((snd a + m / (m + k) * (snd b - snd a)) * (m + k)) with (snd a * (m + k) + m * (snd b - snd a)) by (field; lra). lra.
  - assert (LT : -1 < x / r < 1).
    { assert (- r < x < r) by nra. split; apply (Rmult_lt_reg_r r); try exact Pr; replace (x / r * r) with x by (field; lra); lra. }
    exists (acos (x / r)). pose proof (acos_bound_lt _ LT). split; [lra|]. fold r x y. split; [exact CA|]. rewrite S, Rabs_pos_eq by lra. reflexivity.
Qed.

(** Loops with the same first vertex. *)
Lemma turns_followed side q s1 s2 : (0 < nrows s1)%nat -> (0 < nrows s2)%nat -> vtx s1 0 = vtx s2 0 ->
  turns side q (followed_by s1 s2) = (turns side q s1 + turns side q s2)%Z.
Proof.
  intros L1 L2 E. unfold turns. change (nrows (followed_by s1 s2)) with (nrows s1 + nrows s2)%nat. rewrite seq_app, map_app, zsum_app. cbn [Nat.add].
  assert (V1 : forall i, (i < nrows s1)%nat -> vtx (followed_by s1 s2) i = vtx s1 i).
  { intros i L. unfold vtx, followed_by. cbn [get mk2]. rewrite (proj2 (Nat.ltb_lt i (nrows s1)) L). reflexivity. }
  assert (V2 : forall i, (nrows s1 <= i)%nat -> vtx (followed_by s1 s2) i = vtx s2 (i - nrows s1)%nat).
  { intros i L. unfold vtx, followed_by. cbn [get mk2]. rewrite (proj2 (Nat.ltb_ge i (nrows s1)) L). reflexivity. }
  f_equal.
  - f_equal. apply map_ext_in. intros i I. apply in_seq in I. unfold edge_from, edge_to. change (nrows (followed_by s1 s2)) with (nrows s1 + nrows s2)%nat. rewrite V1 by lia. f_equal.
    rewrite Nat.mod_small by lia. destruct (Nat.eq_dec (i + 1) (nrows s1)) as [Q|NQ].
    + rewrite Q, Nat.mod_same by lia. rewrite V2 by lia. rewrite Nat.sub_diag. symmetry. exact E.
    + rewrite Nat.mod_small by lia. apply V1. lia.
  - f_equal. rewrite <- (Nat.add_0_r (nrows s1)) at 1. clear V1.
    assert (G : forall n k, map (fun i => contrib side q (edge_from (followed_by s1 s2) i) (edge_to (followed_by s1 s2) i)) (seq (nrows s1 + k) n) =
                            map (fun i => contrib side q (edge_from (followed_by s1 s2) (nrows s1 + i)) (edge_to (followed_by s1 s2) (nrows s1 + i))) (seq k n)).
    { induction n as [|n IH]; intros k; cbn [seq map]; [reflexivity|]. f_equal. rewrite <- (IH (S k)). do 2 f_equal. lia. }
    rewrite G. apply map_ext_in. intros i I. apply in_seq in I. unfold edge_from, edge_to. change (nrows (followed_by s1 s2)) with (nrows s1 + nrows s2)%nat. rewrite V2 by lia.
    replace (nrows s1 + i - nrows s1)%nat with i by lia. f_equal. destruct (Nat.eq_dec (i + 1) (nrows s2)) as [Q|NQ].
    + replace (nrows s1 + i + 1)%nat with (nrows s1 + nrows s2)%nat by lia. rewrite Q, !Nat.mod_same by lia. rewrite <- E. unfold vtx, followed_by. cbn [get mk2]. rewrite (proj2 (Nat.ltb_lt 0 (nrows s1)) L1). reflexivity.
    + rewrite !Nat.mod_small by lia. rewrite V2 by lia. f_equal. lia.
Qed.

Lemma box_separated s q : outside_box s q -> separated s q.
Proof.
  intros [H|[H|[H|H]]]; [exists (-1, 0)|exists (1, 0)|exists (0, -1)|exists (0, 1)]; intros i L; specialize (H i L); cbn [fst snd]; lra.
Qed.
