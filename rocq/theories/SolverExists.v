(** There is a linear solver working in exact arithmetic ([exact_solver] is not an
    empty hypothesis): injective square matrices are surjective, by elimination.
    Choosing the solution uses Coq.Logic.ClassicalEpsilon; only the examples
    beside the theorems depend on it. *)
From Coq Require Import Reals List Arith Lia Lra ClassicalEpsilon.
From Verif Require Import Py RSum Tensor KernelModel FieldModel ModuleModel SpecLinAlg SpecKernel SpecModule.
Import ListNotations.
Open Scope R_scope.

Lemma first_nonzero n (f : nat -> R) : (forall i, (i < n)%nat -> f i = 0) \/ exists i, (i < n)%nat /\ f i <> 0.
Proof.
  induction n as [|n [H|(i & Hi & H)]].
  - left. intros. lia.
  - destruct (Req_EM_T (f n) 0) as [E|E].
    + left. intros i Hi. destruct (Nat.eq_dec i n) as [->|]; [assumption|]. apply H. lia.
    + right. exists n. auto.
  - right. exists i. auto.
Qed.

Lemma elimination n : forall A : nat -> nat -> R,
  (exists y, solves n A y (fun _ => 0) /\ exists j, (j < n)%nat /\ y j <> 0) \/ forall b, exists x, solves n A x b.
Proof.
  induction n as [|n IH]; intros A.
  - right. intros b. exists (fun _ => 0). intros i Hi. lia.
  - destruct (first_nonzero (S n) (fun i => A i 0%nat)) as [Z|(r & Hr & Hp)].
    + left. exists (fun j => delta 0 j). split.
      * intros i Hi. rewrite (rsum_ext _ _ (fun j => delta 0 j * A i j)) by (intros; ring). rewrite rsum_delta_r by lia. apply Z. assumption.
      * exists 0%nat. split; [lia|]. rewrite delta_same. lra.
    + set (sw := fun i => if Nat.eqb i 0 then r else if Nat.eqb i r then 0%nat else i).
      assert (SW : forall i, (i < S n)%nat -> (sw i < S n)%nat /\ sw (sw i) = i).
      { intros i Hi. unfold sw. destruct (Nat.eqb_spec i 0) as [->|N0].
        - split; [assumption|]. destruct (Nat.eqb_spec r 0) as [->|]; [reflexivity|]. rewrite Nat.eqb_refl. reflexivity.
        - destruct (Nat.eqb_spec i r) as [->|Nr]; [split; [lia|reflexivity]|]. split; [assumption|].
          destruct (Nat.eqb_spec i 0); [lia|]. destruct (Nat.eqb_spec i r); [lia|reflexivity]. }
      set (B := fun i j => A (sw i) j). set (p := B 0%nat 0%nat).
      assert (Hp' : p <> 0) by exact Hp.
      set (C := fun i j => B (S i) (S j) - B (S i) 0%nat * B 0%nat (S j) / p).
      assert (EQ : forall x b, (forall i, (i < n)%nat -> rsum n (fun j => C i j * x (S j)) = b (sw (S i)) - B (S i) 0%nat * b (sw 0%nat) / p) ->
                     x 0%nat = (b (sw 0%nat) - rsum n (fun j => B 0%nat (S j) * x (S j))) / p -> solves (S n) A x b).
      { intros x b H H0.
        assert (HB : forall i, (i < S n)%nat -> rsum (S n) (fun j => B i j * x j) = b (sw i)).
        { intros i Hi. rewrite rsum_first. destruct i as [|i].
          - fold p. rewrite H0. field. assumption.
          - specialize (H i ltac:(lia)). unfold C in H.
            rewrite (rsum_ext _ _ (fun j => B (S i) (S j) * x (S j) - B (S i) 0%nat / p * (B 0%nat (S j) * x (S j)))) in H
              by (intros; field; assumption).
            rewrite rsum_minus, rsum_scal in H. rewrite H0.
            replace (rsum n (fun j => B (S i) (S j) * x (S j))) with
              (b (sw (S i)) - B (S i) 0%nat * b (sw 0%nat) / p + B (S i) 0%nat / p * rsum n (fun j => B 0%nat (S j) * x (S j))) by lra.
            field. assumption. }
        intros i Hi. destruct (SW i Hi) as (Hs & HSS). specialize (HB (sw i) Hs). unfold B in HB. rewrite HSS in HB. exact HB. }
      destruct (IH C) as [(y & Hy & j & Hj & Hyj)|H].
      * left. exists (fun k => match k with O => - rsum n (fun j => B 0%nat (S j) * y j) / p | S k => y k end). split.
        -- apply EQ; [|cbv beta iota; f_equal; ring]. intros i Hi. cbv beta iota. rewrite (Hy i Hi). field. assumption.
        -- exists (S j). split; [lia|assumption].
      * right. intros b. destruct (H (fun i => b (sw (S i)) - B (S i) 0%nat * b (sw 0%nat) / p)) as (x & Hx).
        exists (fun k => match k with O => (b (sw 0%nat) - rsum n (fun j => B 0%nat (S j) * x j)) / p | S k => x k end).
        apply EQ; [|reflexivity]. intros i Hi. exact (Hx i Hi).
Qed.

Lemma nonsingular_solvable n A : nonsingular n A -> forall b, exists x, solves n A x b.
Proof.
  intros HN. destruct (elimination n A) as [(y & Hy & j & Hj & H)|H]; [|assumption].
  elim H. exact (HN y Hy j Hj).
Qed.

Definition solve1 (n : nat) (A : nat -> nat -> R) (b : nat -> R) : nat -> R :=
  epsilon (inhabits (fun _ => 0)) (fun x => solves n A x b).

Definition exact_sv : solver := fun A B =>
  let n := nrows A in
  if excluded_middle_informative (nonsingular n (entries A)) then
    match shape B with
    | [_] => Ok (mk1 n (solve1 n (entries A) (fun k => B @1 k)))
    | _ => Ok (mk2 n (ncols B) (fun k j => solve1 n (entries A) (fun k => B @2 k j) k))
    end
  else Err RuntimeError.

Lemma solve1_ok n A b : nonsingular n A -> solves n A (solve1 n A b) b.
Proof. intros H. unfold solve1. apply epsilon_spec. apply nonsingular_solvable. assumption. Qed.

Lemma exact_sv_exact : exact_solver exact_sv.
Proof.
  intros n A B SA SB. unfold exact_sv. replace (nrows A) with n by (unfold nrows; rewrite SA; reflexivity).
  destruct (excluded_middle_informative (nonsingular n (entries A))) as [H|H].
  - destruct SB as [SB|(m & SB)]; rewrite SB.
    + split; [intros _; eexists; reflexivity|]. intros X E. injection E as <-. split; [assumption|]. split; [reflexivity|].
      split; [|discriminate]. intros _. exact (solve1_ok n (entries A) (fun k => B @1 k) H).
    + split; [intros _; eexists; reflexivity|]. intros X E. injection E as <-. split; [assumption|].
      replace (ncols B) with m by (unfold ncols; rewrite SB; reflexivity). split; [reflexivity|]. split; [discriminate|].
      intros m' E j Hj. exact (solve1_ok n (entries A) (fun k => B @2 k j) H).
  - split; [intros H'; elim (H H')|]. discriminate.
Qed.
