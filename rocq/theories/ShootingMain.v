(** Shooting with exact times: trajectories, costs and controls. *)
From Coq Require Import Reals String List Arith ZArith Lia Lra.
From Verif Require Import Py RSum Tensor TensorFacts KernelModel FieldModel GeometryModel ModuleModel ShootingModel
  SpecGeometry SpecModule SpecShooting ModuleAlg ModuleMain ModuleLeaves ModuleHistory GeometryFacts ShootingPack ShootingDyn ShootingRun ShootingScheme.
Import ListNotations.
Open Scope R_scope.

(** ** Which evaluations enter a cell *)
Section Tag.
  Variables (A : Type) (sch : scheme) (it : nat).
  Fixpoint tag (off : nat) (l : list A) : list (Z * bool * A) :=
    match l with [] => [] | a :: l' => (Z.of_nat (cell sch it off), Nat.eqb off 0, a) :: tag (S off) l' end.

  Lemma tag_nth l : forall off j a, nth_error l j = Some a -> nth_error (tag off l) j = Some (Z.of_nat (cell sch it (off + j)), Nat.eqb (off + j) 0, a).
  Proof.
    induction l as [|x l IH]; intros off j a H; [destruct j; discriminate|]. destruct j as [|j].
    - injection H as <-. cbn. rewrite Nat.add_0_r. reflexivity.
    - cbn [tag nth_error] in *. rewrite (IH (S off) j a H). rewrite Nat.add_succ_r. reflexivity.
  Qed.
  Lemma tag_length l : forall off, length (tag off l) = length l.
  Proof. induction l; intros off; cbn; auto. Qed.
End Tag.

Lemma tag_eq {A B} sch it (f : B -> Z * bool * A) (h : B -> A) : forall (l : list B) off,
  (forall j e, nth_error l j = Some e -> f e = (Z.of_nat (cell sch it (off + j)), Nat.eqb (off + j) 0, h e)) ->
  map f l = tag A sch it off (map h l).
Proof.
  induction l as [|b l IH]; intros off H; [reflexivity|]. cbn [map tag]. f_equal.
  - rewrite (H 0%nat b eq_refl), Nat.add_0_r. reflexivity.
  - apply IH. intros j e He. rewrite (H (S j) e He). rewrite Nat.add_succ_r. reflexivity.
Qed.

Lemma split1 {A} n (l : list A) : length l = (S n * 1)%nat -> exists a l', l = a :: l' /\ length l' = (n * 1)%nat.
Proof. destruct l as [|a l]; cbn; intros; [lia|]. exists a, l. split; [reflexivity|lia]. Qed.
Lemma split2 {A} n (l : list A) : length l = (S n * 2)%nat -> exists a b l', l = a :: b :: l' /\ length l' = (n * 2)%nat.
Proof. destruct l as [|a [|b l]]; cbn; intros; try lia. exists a, b, l. split; [reflexivity|lia]. Qed.
Lemma split4 {A} n (l : list A) : length l = (S n * 4)%nat -> exists a b c d l', l = a :: b :: c :: d :: l' /\ length l' = (n * 4)%nat.
Proof. destruct l as [|a [|b [|c [|d l]]]]; cbn; intros; try lia. exists a, b, c, d, l. split; [reflexivity|lia]. Qed.

Lemma cell_e it k : cell SEuler it k = k.
Proof. pose proof (cell_euler it k). rewrite Nat.mul_1_r, Nat.add_0_r in H. assumption. Qed.

Lemma entering_euler {A} it n : forall k prev (l : list A), length l = (n * 1)%nat -> (k = 0%nat \/ prev = Z.of_nat k - 1)%Z ->
  entering prev (tag A SEuler it k l) = l.
Proof.
  induction n as [|n IH]; intros k prev l L H; [destruct l; [reflexivity|cbn in L; lia]|]. destruct (split1 n l L) as (a & l' & -> & L').
  cbn [tag entering]. rewrite cell_e. rewrite IH; [|assumption|right; lia].
  destruct H as [->| ->].
  - rewrite Bool.orb_true_r. reflexivity.
  - destruct (Z.eqb_spec (Z.of_nat k - 1) (Z.of_nat k)); [lia|]. reflexivity.
Qed.

Lemma off2 it k : cell SMidpoint it (k * 2) = k /\ cell SMidpoint it (S (k * 2)) = k /\ Nat.eqb (k * 2) 0 = Nat.eqb k 0.
Proof.
  pose proof (cell_mid it k 0 ltac:(lia)) as A. pose proof (cell_mid it k 1 ltac:(lia)) as B. rewrite Nat.add_0_r in A. rewrite Nat.add_1_r in B.
  split; [assumption|]. split; [assumption|]. destruct k; reflexivity.
Qed.
Lemma off4 it k : cell SRk4 it (k * 4) = k /\ cell SRk4 it (S (k * 4)) = k /\ cell SRk4 it (S (S (k * 4))) = k /\
  cell SRk4 it (S (S (S (k * 4)))) = Nat.min (k + 1) (it - 1) /\ Nat.eqb (k * 4) 0 = Nat.eqb k 0.
Proof.
  pose proof (cell_rk it k 0 ltac:(lia)) as A. pose proof (cell_rk it k 1 ltac:(lia)) as B. pose proof (cell_rk it k 2 ltac:(lia)) as C. pose proof (cell_rk3 it k) as D.
  rewrite Nat.add_0_r in A. replace (k * 4 + 1)%nat with (S (k * 4)) in B by lia. replace (k * 4 + 2)%nat with (S (S (k * 4))) in C by lia.
  replace (k * 4 + 3)%nat with (S (S (S (k * 4)))) in D by lia. repeat (split; [assumption|]). destruct k; reflexivity.
Qed.

Lemma entering_mid {A} it n : forall k prev (l : list A), length l = (n * 2)%nat -> (k = 0%nat \/ prev = Z.of_nat k - 1)%Z ->
  length (entering prev (tag A SMidpoint it (k * 2) l)) = n /\
  forall i, nth_error (entering prev (tag A SMidpoint it (k * 2) l)) i = nth_error l (2 * i).
Proof.
  induction n as [|n IH]; intros k prev l L H.
  - destruct l; [|cbn in L; lia]. split; [reflexivity|]. intros i. destruct i; reflexivity.
  - destruct (split2 n l L) as (a & b & l' & -> & L'). cbn [tag entering]. destruct (off2 it k) as (C0 & C1 & Z0). rewrite C0, C1, Z0, Z.eqb_refl. cbn [Nat.eqb negb orb].
    destruct (IH (S k) (Z.of_nat k) l' L') as (I1 & I2); [right; lia|]. cbn [Nat.mul Nat.add] in I1, I2.
    assert (X : (negb (prev =? Z.of_nat k)%Z || Nat.eqb k 0)%bool = true).
    { destruct H as [->| ->]; [apply Bool.orb_true_r|]. destruct (Z.eqb_spec (Z.of_nat k - 1) (Z.of_nat k)); [lia|]. reflexivity. }
    rewrite X. cbn [app]. split; [cbn [length]; rewrite I1; reflexivity|]. intros [|i]; [reflexivity|]. cbn [app nth_error]. rewrite I2.
    replace (2 * S i)%nat with (S (S (2 * i))) by lia. reflexivity.
Qed.

Lemma entering_rk {A} it n : forall k (l : list A), length l = (n * 4)%nat -> (k + n = it)%nat -> (0 < k)%nat ->
  length (entering (Z.of_nat k) (tag A SRk4 it (k * 4) l)) = (n - 1)%nat /\
  forall i, (i < n - 1)%nat -> nth_error (entering (Z.of_nat k) (tag A SRk4 it (k * 4) l)) i = nth_error l (4 * i + 3).
Proof.
  induction n as [|n IH]; intros k l L K P.
  - destruct l; [|cbn in L; lia]. split; [reflexivity|]. intros i Hi; lia.
  - destruct (split4 n l L) as (a & b & c & d & l' & -> & L'). cbn [tag entering]. destruct (off4 it k) as (C0 & C1 & C2 & C3 & Z0). rewrite C0, C1, C2, C3, Z0, !Z.eqb_refl.
    replace (Nat.eqb k 0) with false by (symmetry; apply Nat.eqb_neq; lia). cbn [Nat.eqb negb orb app].
    destruct n as [|n].
    + replace (Nat.min (k + 1) (it - 1)) with k by lia. destruct l'; [|cbn in L'; lia]. cbn [tag entering]. rewrite Z.eqb_refl. cbn. split; [reflexivity|]. intros i Hi; lia.
    + replace (Nat.min (k + 1) (it - 1)) with (S k) by lia. destruct (Z.eqb_spec (Z.of_nat k) (Z.of_nat (S k))); [lia|]. cbn [negb orb app].
      destruct (IH (S k) l' L') as (I1 & I2); [lia|lia|]. replace (S k * 4)%nat with (S (S (S (S (k * 4))))) in I1, I2 by lia.
      split; [cbn [length]; rewrite I1; lia|]. intros [|i] Hi; [reflexivity|]. cbn [nth_error]. rewrite I2 by lia.
      replace (4 * S i + 3)%nat with (S (S (S (S (4 * i + 3))))) by lia. reflexivity.
Qed.

Lemma entering_all {A} sch it (l : list A) : (0 < it)%nat -> length l = (it * evaluations sch)%nat ->
  length (entering 0 (tag A sch it 0 l)) = it /\
  forall k, (k < it)%nat -> nth_error (entering 0 (tag A sch it 0 l)) k = nth_error l (recorded_at sch k).
Proof.
  intros IT L. destruct sch; cbn [evaluations recorded_at] in *.
  - rewrite (entering_euler it it 0 0 l L) by (left; reflexivity). split; [lia|]. intros; reflexivity.
  - destruct (entering_mid it it 0 0 l L) as (A1 & A2); [left; reflexivity|]. split; [exact A1|]. intros k _. apply A2.
  - destruct it as [|n]; [lia|]. destruct (split4 n l L) as (a & b & c & d & l' & -> & L'). cbn [tag entering].
    destruct (off4 (S n) 0) as (C0 & C1 & C2 & C3 & _). cbn [Nat.mul] in C0, C1, C2, C3. rewrite C0, C1, C2, C3. cbn [Nat.eqb Z.of_nat Z.eqb negb orb app].
    destruct n as [|n].
    + destruct l'; [|cbn in L'; lia]. cbn. split; [reflexivity|]. intros [|k] Hk; [reflexivity|lia].
    + replace (Nat.min (0 + 1) (S (S n) - 1)) with 1%nat by lia. cbn [Z.of_nat Z.eqb Pos.of_succ_nat negb orb app].
      destruct (entering_rk (S (S n)) (S n) 1 l' L') as (I1 & I2); [lia|lia|]. change (1 * 4)%nat with 4%nat in I1, I2. cbn [Z.of_nat Pos.of_succ_nat] in I1, I2.
      split; [cbn [length]; rewrite I1; lia|]. intros [|[|k]] Hk; [reflexivity|reflexivity|]. cbn [nth_error]. rewrite I2 by lia.
      replace (4 * S k + 3)%nat with (S (S (S (S (4 * k + 3))))) by lia. reflexivity.
Qed.
