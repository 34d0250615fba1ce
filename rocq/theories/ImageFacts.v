(** Interpolation along one axis, and the points of a grid over a rectangle. *)
From Coq Require Import Reals String List Arith ZArith Lia Lra Bool.
From Verif Require Import Py RSum Tensor TensorFacts KernelModel FieldModel Fl UtilModel AabbModel ImageModel SpecBox SpecImage AttachmentFacts MeshAreas AabbFacts PropBox PropUtil.
Import ListNotations.
Open Scope R_scope.
Open Scope list_scope.

Lemma Int_part_unique x z : IZR z <= x < IZR z + 1 -> Int_part x = z.
Proof.
  intros (H1 & H2). destruct (base_Int_part x) as (B1 & B2). apply Z.le_antisymm; apply Z.lt_succ_r, lt_IZR; rewrite succ_IZR; lra.
Qed.
Lemma Int_part_INR n : Int_part (INR n) = Z.of_nat n.
Proof. apply Int_part_unique. rewrite INR_IZR_INZ. lra. Qed.

Definition lin (n : nat) (f : nat -> R) (u : R) : R :=
  let u1 := clamp (Int_part u) 0 (Z.of_nat n - 1) in
  let u2 := clamp (u1 + 1) 0 (Z.of_nat n - 1) in
  f (Z.to_nat u1) * (IZR (u1 + 1) - u) + f (Z.to_nat u2) * (u - IZR u1).
Lemma bilinear_lin I u v : bilinear I u v = lin (nrows I) (fun a => lin (ncols I) (fun b => I @2 a b) v) u.
Proof. unfold bilinear, lin. cbv zeta. ring. Qed.
Lemma trilinear_lin I u v w : trilinear I u v w =
  lin (tnth (shape I) 0) (fun a => lin (tnth (shape I) 1) (fun b => lin (tnth (shape I) 2) (fun c => I @3 a b c) w) v) u.
Proof. unfold trilinear, lin. cbv zeta. ring. Qed.

Lemma lin_ext n f g u : (0 < n)%nat -> (forall a, (a < n)%nat -> f a = g a) -> lin n f u = lin n g u.
Proof. intros P H. unfold lin, clamp. cbv zeta. rewrite !H by lia. reflexivity. Qed.
Lemma lin_const n c u : lin n (fun _ => c) u = c.
Proof. unfold lin. cbv zeta. rewrite plus_IZR. ring. Qed.
Lemma lin_int n f a : (a < n)%nat -> lin n f (INR a) = f a.
Proof.
  intros L. unfold lin. cbv zeta. rewrite Int_part_INR. replace (clamp (Z.of_nat a) 0 (Z.of_nat n - 1)) with (Z.of_nat a) by (unfold clamp; lia).
  rewrite Nat2Z.id, plus_IZR, <- INR_IZR_INZ. ring.
Qed.
Lemma lin_cell n f a s : (a + 1 < n)%nat -> 0 <= s <= 1 -> lin n f (INR a + s) = mix s (f a) (f (S a)).
Proof.
  intros L (H1 & H2). unfold mix. destruct (Req_dec s 1) as [->|N].
  - replace (INR a + 1) with (INR (S a)) by (rewrite S_INR; ring). rewrite lin_int by lia. ring.
  - unfold lin. cbv zeta. rewrite (Int_part_unique (INR a + s) (Z.of_nat a)) by (rewrite <- INR_IZR_INZ; lra). replace (clamp (Z.of_nat a) 0 (Z.of_nat n - 1)) with (Z.of_nat a) by (unfold clamp; lia).
    replace (clamp (Z.of_nat a + 1) 0 (Z.of_nat n - 1)) with (Z.of_nat (S a)) by (unfold clamp; lia). rewrite !Nat2Z.id, plus_IZR, <- INR_IZR_INZ. ring.
Qed.
Lemma lin_above n f u : (0 < n)%nat -> INR n - 1 <= u -> lin n f u = f (n - 1)%nat.
Proof.
  intros P H. unfold lin. cbv zeta. destruct (base_Int_part u) as (B1 & B2). assert (L : (Z.of_nat n - 1 <= Int_part u)%Z). { apply Z.lt_succ_r, lt_IZR. rewrite succ_IZR, minus_IZR, <- INR_IZR_INZ. lra. }
  replace (clamp (Int_part u) 0 (Z.of_nat n - 1)) with (Z.of_nat n - 1)%Z by (unfold clamp; lia). replace (clamp (Z.of_nat n - 1 + 1) 0 (Z.of_nat n - 1)) with (Z.of_nat n - 1)%Z by (unfold clamp; lia).
  replace (Z.to_nat (Z.of_nat n - 1)) with (n - 1)%nat by lia. rewrite plus_IZR. ring.
Qed.
Lemma lin_below n f u : (1 < n)%nat -> u <= 0 -> lin n f u = mix u (f 0%nat) (f 1%nat).
Proof.
  intros P H. unfold lin. cbv zeta. destruct (base_Int_part u) as (B1 & B2). assert (L : (Int_part u <= 0)%Z). { apply Z.lt_succ_r, lt_IZR. rewrite succ_IZR. lra. }
  replace (clamp (Int_part u) 0 (Z.of_nat n - 1)) with 0%Z by (unfold clamp; lia). replace (clamp (0 + 1) 0 (Z.of_nat n - 1)) with 1%Z by (unfold clamp; lia). unfold mix. change (Z.to_nat 0) with 0%nat. change (Z.to_nat 1) with 1%nat. change (0 + 1)%Z with 1%Z. ring.
Qed.
Lemma lin_single f u : lin 1 f u = f 0%nat.
Proof. unfold lin. cbv zeta. replace (clamp (Int_part u) 0 (Z.of_nat 1 - 1)) with 0%Z by (unfold clamp; lia). replace (clamp (0 + 1) 0 (Z.of_nat 1 - 1)) with 0%Z by (unfold clamp; lia). cbn. ring. Qed.
(** A coordinate inside the axis is in a cell, or at its last point. *)
Lemma in_cell n u : (0 < n)%nat -> 0 <= u <= INR n - 1 -> u = INR n - 1 \/ exists a s, (a + 1 < n)%nat /\ 0 <= s <= 1 /\ u = INR a + s.
Proof.
  intros P (H1 & H2). destruct (Req_dec u (INR n - 1)) as [E|N]; [left; exact E|right]. destruct (base_Int_part u) as (B1 & B2).
  assert (L0 : (0 <= Int_part u)%Z). { apply Z.lt_succ_r, lt_IZR. rewrite succ_IZR. lra. }
  assert (E : INR (Z.to_nat (Int_part u)) = IZR (Int_part u)) by (rewrite INR_IZR_INZ, Z2Nat.id by exact L0; reflexivity).
  exists (Z.to_nat (Int_part u)), (u - IZR (Int_part u)). rewrite E. split; [|lra]. apply INR_lt. rewrite plus_INR, E. cbn.
  assert (Q : (Int_part u < Z.of_nat n - 1)%Z). { apply lt_IZR. rewrite minus_IZR, <- INR_IZR_INZ. lra. } assert (Q' : (Int_part u + 1 + 1 <= Z.of_nat n)%Z) by lia. apply IZR_le in Q'. rewrite !plus_IZR, <- INR_IZR_INZ in Q'. lra.
Qed.
Lemma lin_range n f u m M : (0 < n)%nat -> 0 <= u <= INR n - 1 -> (forall a, (a < n)%nat -> m <= f a <= M) -> m <= lin n f u <= M.
Proof.
  intros P H B. destruct (in_cell n u P H) as [->|(a & s & L & Hs & ->)]; [rewrite lin_above by (assumption || lra); apply B; lia|].
  rewrite lin_cell by assumption. unfold mix. pose proof (B a ltac:(lia)). pose proof (B (S a) ltac:(lia)). nra.
Qed.

(** The grid of h by w points over a box. *)
Lemma grid2 b h w : valid_box b -> a_dim b = 2%nat -> (2 <= h)%nat -> (2 <= w)%nat ->
  exists v, fill_count b (CList [Z.of_nat h; Z.of_nat w]) = Ok v /\ shape v = [(h * w)%nat; 2%nat] /\
  forall i j, (i < h)%nat -> (j < w)%nat -> v @2 (i * w + j)%nat (0%nat) = lo b 0 + INR i * (side b 0 / (INR h - 1)) /\ v @2 (i * w + j)%nat (1%nat) = lo b 1 + INR j * (side b 1 / (INR w - 1)).
Proof.
  intros V D H W. destruct (C46_count_grid b [Z.of_nat h; Z.of_nat w] V ltac:(lia) ltac:(cbn; lia)) as (v & E & S & _ & Val & _); [constructor; [lia|constructor; [lia|constructor]]|].
  exists v. split; [exact E|]. cbn [map prod fold_right] in S, Val. rewrite !Nat2Z.id, ?Nat.mul_1_r in *. split; [rewrite S, D; reflexivity|]. intros i j Li Lj.
  assert (R : ravel [h; w] [i; j] = (i * w + j)%nat) by (cbn; lia). rewrite <- R. rewrite (Val [i; j] 0%nat), (Val [i; j] 1%nat) by (cbn; lia). cbn [nth tnth]. unfold grid_value.
  replace (Z.eqb (Z.of_nat h) 1) with false by (symmetry; apply Z.eqb_neq; lia). replace (Z.eqb (Z.of_nat w) 1) with false by (symmetry; apply Z.eqb_neq; lia).
  rewrite !minus_IZR, <- !INR_IZR_INZ. split; reflexivity.
Qed.
Lemma cell_rows h w r : (r < h * w)%nat -> (r / w < h)%nat /\ (r mod w < w)%nat /\ r = (r / w * w + r mod w)%nat.
Proof.
  intros L. assert (w <> 0)%nat by lia. split; [apply Nat.div_lt_upper_bound; lia|]. split; [apply Nat.mod_upper_bound; assumption|]. rewrite Nat.mul_comm. apply Nat.div_mod. assumption.
Qed.
Lemma cell_divmod w i j : (j < w)%nat -> ((i * w + j) / w = i)%nat /\ ((i * w + j) mod w = j)%nat.
Proof. intros L. split; [rewrite Nat.div_add_l by lia; rewrite Nat.div_small by exact L; lia|rewrite Nat.add_comm, Nat.mod_add by lia; apply Nat.mod_small; exact L]. Qed.
