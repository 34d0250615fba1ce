(** Functions of one real variable per direction, differentiable at 0 with a derivative that
    is linear in the direction: closure under the field operations, exp and the solution of
    linear systems with a positive definite matrix. *)
From Coq Require Import Reals List Arith Lia Lra.
From Verif Require Import RSum TensorFacts SpecLinAlg LinAlg.
Import ListNotations.
Open Scope R_scope.

Section Diff.
  Variables (U : Type) (Lin : (U -> R) -> Prop).
  Hypothesis lin_zero : Lin (fun _ => 0).
  Hypothesis lin_comb : forall a b L L', Lin L -> Lin L' -> Lin (fun u => a * L u + b * L' u).

  (** Differentiable at 0, with a value that does not depend on the direction. *)
  Definition D (f : U -> R -> R) : Prop :=
    exists x L, Lin L /\ (forall u, f u 0 = x) /\ forall u, derivable_pt_lim (f u) 0 (L u).

  (** For all small s, along each direction. *)
  Definition Near (P : U -> R -> Prop) : Prop :=
    forall u, exists eps, 0 < eps /\ forall s, Rabs s < eps -> P u s.

  Lemma near_all (P : U -> R -> Prop) : (forall u s, P u s) -> Near P.
  Proof. intros H u. exists 1. split; [lra|auto]. Qed.

  Lemma near_and P Q : Near P -> Near Q -> Near (fun u s => P u s /\ Q u s).
  Proof.
    intros HP HQ u. destruct (HP u) as (e1 & E1 & H1). destruct (HQ u) as (e2 & E2 & H2).
    exists (Rmin e1 e2). split; [apply Rmin_pos; assumption|]. intros s Hs.
    split; [apply H1|apply H2]; eapply Rlt_le_trans; eauto; [apply Rmin_l|apply Rmin_r].
  Qed.

  Lemma near_imp (P Q : U -> R -> Prop) : (forall u s, P u s -> Q u s) -> Near P -> Near Q.
  Proof. intros H HP u. destruct (HP u) as (e & E & H1). exists e. split; [assumption|]. auto. Qed.

  Lemma near_0 (P : U -> R -> Prop) u : Near P -> P u 0.
  Proof. intros H. destruct (H u) as (e & E & H1). apply H1. rewrite Rabs_R0. assumption. Qed.

  Lemma near_lt n (P : nat -> U -> R -> Prop) : (forall i, (i < n)%nat -> Near (P i)) ->
    Near (fun u s => forall i, (i < n)%nat -> P i u s).
  Proof.
    induction n as [|n IH]; intros H; [apply near_all; intros; lia|].
    apply (near_imp (fun u s => (forall i, (i < n)%nat -> P i u s) /\ P n u s)).
    - intros u s (H1 & H2) i Hi. destruct (Nat.eq_dec i n) as [->|]; [assumption|apply H1; lia].
    - apply near_and; [apply IH; intros; apply H; lia|apply H; lia].
  Qed.

  Lemma D_near f g : D f -> Near (fun u s => g u s = f u s) -> D g.
  Proof.
    intros (x & L & HL & Hx & HD) HN. exists x, L. split; [assumption|]. split.
    - intros u. rewrite (near_0 _ u HN). apply Hx.
    - intros u e He. destruct (HD u e He) as (del & Hdel). destruct (HN u) as (ep & Hep & E).
      exists (mkposreal (Rmin del ep) (Rmin_pos _ _ (cond_pos del) Hep)). cbn [pos]. intros h Hh Hs.
      rewrite (E (0 + h)), (E 0).
      + apply Hdel; [assumption|]. eapply Rlt_le_trans; [exact Hs|apply Rmin_l].
      + rewrite Rabs_R0; assumption.
      + rewrite Rplus_0_l. eapply Rlt_le_trans; [exact Hs|apply Rmin_r].
  Qed.

  Lemma D_ext f g : (forall u s, g u s = f u s) -> D f -> D g.
  Proof. intros H HD. apply (D_near f); [assumption|]. apply near_all. assumption. Qed.

  Lemma D_const c : D (fun _ _ => c).
  Proof. exists c, (fun _ => 0). split; [assumption|]. split; [reflexivity|]. intros u. apply derivable_pt_lim_const. Qed.

  Lemma D_plus f g : D f -> D g -> D (fun u s => f u s + g u s).
  Proof.
    intros (x & L & HL & Hx & HD) (y & L' & HL' & Hy & HD'). exists (x + y), (fun u => 1 * L u + 1 * L' u).
    split; [apply lin_comb; assumption|]. split; [intros u; rewrite Hx, Hy; reflexivity|]. intros u.
    replace (1 * L u + 1 * L' u) with (L u + L' u) by ring. apply derivable_pt_lim_plus; auto.
  Qed.

  Lemma D_mult f g : D f -> D g -> D (fun u s => f u s * g u s).
  Proof.
    intros (x & L & HL & Hx & HD) (y & L' & HL' & Hy & HD'). exists (x * y), (fun u => y * L u + x * L' u).
    split; [apply lin_comb; assumption|]. split; [intros u; rewrite Hx, Hy; reflexivity|]. intros u.
    replace (y * L u + x * L' u) with (L u * g u 0 + f u 0 * L' u) by (rewrite Hx, Hy; ring).
    apply derivable_pt_lim_mult; auto.
  Qed.

  Lemma D_scal c f : D f -> D (fun u s => c * f u s).
  Proof. intros H. apply (D_mult (fun _ _ => c)); [apply D_const|assumption]. Qed.
  Lemma D_opp f : D f -> D (fun u s => - f u s).
  Proof. intros H. apply (D_ext (fun u s => -1 * f u s)); [intros; ring|]. apply D_scal. assumption. Qed.
  Lemma D_minus f g : D f -> D g -> D (fun u s => f u s - g u s).
  Proof. intros H H'. apply (D_plus f (fun u s => - g u s)); [assumption|]. apply D_opp. assumption. Qed.
  Lemma D_pow f n : D f -> D (fun u s => f u s ^ n).
  Proof. intros H. induction n as [|n IH]; [exact (D_const 1)|]. cbn [pow]. apply D_mult; assumption. Qed.
  Lemma D_divc f c : D f -> D (fun u s => f u s / c).
  Proof. intros H. apply (D_mult f (fun _ _ => / c)); [assumption|apply D_const]. Qed.

  Lemma D_rsum n f : (forall i, (i < n)%nat -> D (f i)) -> D (fun u s => rsum n (fun i => f i u s)).
  Proof.
    induction n as [|n IH]; intros H; [apply (D_ext (fun _ _ => 0)); [reflexivity|apply D_const]|].
    apply (D_ext (fun u s => rsum n (fun i => f i u s) + f n u s)).
    - intros u s. exact (rsum_S n (fun i => f i u s)).
    - apply D_plus; [apply IH; intros; apply H; lia|apply H; lia].
  Qed.

  Lemma D_comp (g : R -> R) f : D f -> (forall u, derivable_pt g (f u 0)) -> D (fun u s => g (f u s)).
  Proof.
    intros (x & L & HL & Hx & HD) Hg.
    destruct (Classical_Prop.classic (inhabited U)) as [[u0]|NU].
    - destruct (Hg u0) as (l & Hl). rewrite Hx in Hl.
      exists (g x), (fun u => l * L u + 0 * L u). split; [apply lin_comb; assumption|].
      split; [intros u; rewrite Hx; reflexivity|]. intros u.
      replace (l * L u + 0 * L u) with (l * L u) by ring.
      apply (derivable_pt_lim_comp (f u) g 0 (L u) l); [apply HD|]. rewrite Hx. exact Hl.
    - exists 0, (fun _ => 0). split; [assumption|]. split; intros u; elim NU; constructor; exact u.
  Qed.

  Lemma D_exp f : D f -> D (fun u s => exp (f u s)).
  Proof. intros H. apply (D_comp exp); [assumption|]. intros u. exists (exp (f u 0)). apply derivable_pt_lim_exp. Qed.

  Lemma D_inv f : D f -> (forall u, f u 0 <> 0) -> D (fun u s => / f u s).
  Proof.
    intros H Hn. apply (D_comp Rinv); [assumption|]. intros u.
    apply (derivable_pt_inv id); [apply Hn|]. exists 1. apply derivable_pt_lim_id.
  Qed.

  Lemma D_div f g : D f -> D g -> (forall u, g u 0 <> 0) -> D (fun u s => f u s / g u s).
  Proof. intros H H' Hn. apply D_mult; [assumption|]. apply D_inv; assumption. Qed.

  Lemma D_sqrt f : D f -> (forall u, 0 < f u 0) -> D (fun u s => sqrt (f u s)).
  Proof.
    intros H Hn. apply (D_comp sqrt); [assumption|]. intros u. exists (/ (2 * sqrt (f u 0))).
    apply derivable_pt_lim_sqrt. apply Hn.
  Qed.

  Lemma D_pos f : D f -> (forall u, 0 < f u 0) -> Near (fun u s => 0 < f u s).
  Proof.
    intros (x & L & HL & Hx & HD) Hp u.
    assert (C : continuity_pt (f u) 0) by (apply derivable_continuous_pt; exists (L u); apply HD).
    destruct (C (f u 0) (Hp u)) as (e & He & H). exists e. split; [assumption|]. intros s Hs.
    destruct (Req_dec s 0) as [->|Hn]; [apply Hp|].
    specialize (H s). cbn in H. unfold R_dist in H.
    assert (K : Rabs (f u s - f u 0) < f u 0).
    { apply H. split; [split; [exact Logic.I|auto]|]. rewrite Rminus_0_r. assumption. }
    apply Rabs_def2 in K. lra.
  Qed.

  Lemma D_nz f : D f -> (forall u, f u 0 <> 0) -> Near (fun u s => f u s <> 0).
  Proof.
    intros H Hn. apply (near_imp (fun u s => 0 < f u s * f u s)).
    - intros u s Hp E. rewrite E in Hp. lra.
    - apply D_pos; [apply D_mult; assumption|]. intros u. specialize (Hn u). nra.
  Qed.

  (** ** Linear systems *)
  Definition schur (n : nat) (M : nat -> nat -> R) (i j : nat) : R := M i j - M i n * M n j / M n n.

  Lemma pd_corner n M : pd (S n) M -> 0 < M n n.
  Proof.
    intros H. specialize (H (fun i => if Nat.eqb i n then 1 else 0)).
    assert (E : quad (S n) M (fun i => if Nat.eqb i n then 1 else 0) = M n n).
    { unfold quad. rewrite (rsum_S n (fun i => _)), rsum_zero.
      - rewrite (rsum_S n (fun j => _)), rsum_zero; [rewrite Nat.eqb_refl; ring|].
        intros j Hj. rewrite (proj2 (Nat.eqb_neq j n)) by lia. ring.
      - intros i Hi. apply rsum_zero. intros j Hj. rewrite (proj2 (Nat.eqb_neq i n)) by lia. ring. }
    rewrite E in H. apply H. exists n. split; [lia|]. rewrite Nat.eqb_refl. lra.
  Qed.

  (** the vector completed so that the last row vanishes *)
  Definition completed (n : nat) (M : nat -> nat -> R) (f : nat -> R) (i : nat) : R :=
    if Nat.eqb i n then - rsum n (fun j => M n j * f j) / M n n else f i.

  Lemma schur_quad n M f : M n n <> 0 -> quad (S n) M (completed n M f) = quad n (schur n M) f.
  Proof.
    intros Hp. set (y := completed n M f). set (a := rsum n (fun j => M n j * f j)).
    assert (Yn : y n = - a / M n n) by (unfold y, completed; rewrite Nat.eqb_refl; reflexivity).
    assert (Yi : forall i, (i < n)%nat -> y i = f i).
    { intros i Hi. unfold y, completed. rewrite (proj2 (Nat.eqb_neq i n)) by lia. reflexivity. }
    unfold quad. rewrite (rsum_S n (fun i => rsum (S n) (fun j => y i * y j * M i j))).
    assert (E0 : rsum (S n) (fun j => y n * y j * M n j) = 0).
    { rewrite (rsum_S n (fun j => y n * y j * M n j)).
      rewrite (rsum_ext n _ (fun j => y n * (M n j * f j))) by (intros j Hj; rewrite (Yi j Hj); ring).
      rewrite rsum_scal. fold a. rewrite Yn. field. assumption. }
    rewrite E0, Rplus_0_r. apply rsum_ext. intros i Hi.
    rewrite (rsum_S n (fun j => y i * y j * M i j)). rewrite (Yi i Hi), Yn.
    rewrite (rsum_ext n (fun j => f i * y j * M i j) (fun j => f i * f j * M i j)) by (intros j Hj; rewrite (Yi j Hj); reflexivity).
    unfold schur.
    rewrite (rsum_ext n (fun j => f i * f j * (M i j - M i n * M n j / M n n))
                        (fun j => f i * f j * M i j + (- f i * M i n / M n n) * (M n j * f j))) by (intros; field; assumption).
    rewrite rsum_plus, rsum_scal. fold a. field. assumption.
  Qed.

  Lemma schur_pd n M : pd (S n) M -> pd n (schur n M).
  Proof.
    intros H f (i & Hi & Hf). pose proof (pd_corner n M H). rewrite <- schur_quad by lra. apply H.
    exists i. split; [lia|]. unfold completed. rewrite (proj2 (Nat.eqb_neq i n)) by lia. assumption.
  Qed.

  Lemma schur_solves n M x b : M n n <> 0 -> solves (S n) M x b ->
    solves n (schur n M) x (fun i => b i - M i n * b n / M n n).
  Proof.
    intros Hp H i Hi. pose proof (H i ltac:(lia)) as Hi'. pose proof (H n ltac:(lia)) as Hn'.
    rewrite (rsum_S n (fun j => M i j * x j)) in Hi'. rewrite (rsum_S n (fun j => M n j * x j)) in Hn'.
    unfold schur.
    rewrite (rsum_ext n _ (fun j => M i j * x j + (- M i n / M n n) * (M n j * x j))) by (intros; field; assumption).
    rewrite rsum_plus, rsum_scal.
    replace (rsum n (fun j => M i j * x j)) with (b i - M i n * x n) by lra.
    replace (rsum n (fun j => M n j * x j)) with (b n - M n n * x n) by lra.
    field. assumption.
  Qed.

  (** The solution of a positive definite system is differentiable. *)
  Lemma D_solve n : forall (M : nat -> nat -> U -> R -> R) (b x : nat -> U -> R -> R),
    (forall i j, (i < n)%nat -> (j < n)%nat -> D (M i j)) -> (forall i, (i < n)%nat -> D (b i)) ->
    (forall u, pd n (fun i j => M i j u 0)) ->
    Near (fun u s => solves n (fun i j => M i j u s) (fun i => x i u s) (fun i => b i u s)) ->
    forall i, (i < n)%nat -> D (x i).
  Proof.
    induction n as [|n IH]; intros M b x HM Hb HP HS i Hi; [lia|].
    assert (Hc : forall u, M n n u 0 <> 0) by (intros u; pose proof (pd_corner n _ (HP u)); cbn beta in *; lra).
    assert (NZ : Near (fun u s => M n n u s <> 0)) by (apply D_nz; [apply HM; lia|assumption]).
    pose proof (near_and _ _ NZ HS) as NN.
    assert (Hx : forall j, (j < n)%nat -> D (x j)).
    { apply (IH (fun i j u s => schur n (fun i j => M i j u s) i j)
                (fun i u s => b i u s - M i n u s * b n u s / M n n u s)).
      - intros j k Hj Hk. unfold schur. apply D_minus; [apply HM; lia|].
        apply D_div; [apply D_mult; apply HM; lia|apply HM; lia|assumption].
      - intros j Hj. apply D_minus; [apply Hb; lia|].
        apply D_div; [apply D_mult; [apply HM|apply Hb]; lia|apply HM; lia|assumption].
      - intros u. apply (schur_pd n (fun i j => M i j u 0)). apply HP.
      - revert NN. apply near_imp. intros u s (H1 & H2).
        exact (schur_solves n (fun i j => M i j u s) (fun i => x i u s) (fun i => b i u s) H1 H2). }
    destruct (Nat.eq_dec i n) as [->|Hne]; [|apply Hx; lia].
    apply (D_near (fun u s => (b n u s - rsum n (fun j => M n j u s * x j u s)) / M n n u s)).
    - apply D_div; [|apply HM; lia|assumption]. apply D_minus; [apply Hb; lia|].
      apply (D_rsum n (fun j u s => M n j u s * x j u s)). intros j Hj. apply D_mult; [apply HM; lia|apply Hx; assumption].
    - revert NN. apply near_imp. intros u s (H1 & H2). pose proof (H2 n ltac:(lia)) as E. cbn beta in E.
      rewrite (rsum_S n (fun j => M n j u s * x j u s)) in E. rewrite <- E. field. assumption.
  Qed.

  (** Positive definiteness is open. *)
  Lemma square_quad n M f : symmetric (S n) M -> M n n <> 0 ->
    quad (S n) M f = quad n (schur n M) f + M n n * (f n + rsum n (fun j => M n j * f j) / M n n) ^ 2.
  Proof.
    intros HS Hp. set (a := rsum n (fun j => M n j * f j)). unfold quad.
    rewrite (rsum_S n (fun i => rsum (S n) (fun j => f i * f j * M i j))).
    rewrite (rsum_S n (fun j => f n * f j * M n j)).
    rewrite (rsum_ext n (fun j => f n * f j * M n j) (fun j => f n * (M n j * f j))) by (intros; ring). rewrite rsum_scal. fold a.
    rewrite (rsum_ext n (fun i => rsum (S n) (fun j => f i * f j * M i j))
              (fun i => rsum n (fun j => f i * f j * schur n M i j) + (f n + a / M n n) * (M n i * f i))).
    - rewrite rsum_plus, rsum_scal. fold a. field. assumption.
    - intros i Hi. rewrite (rsum_S n (fun j => f i * f j * M i j)). unfold schur.
      rewrite (rsum_ext n (fun j => f i * f j * (M i j - M i n * M n j / M n n))
                        (fun j => f i * f j * M i j + (- f i * M i n / M n n) * (M n j * f j))) by (intros; field; assumption).
      rewrite rsum_plus, rsum_scal. fold a. rewrite (HS i n) by lia. field. assumption.
  Qed.

  Lemma schur_sym n M : symmetric (S n) M -> symmetric n (schur n M).
  Proof.
    intros HS i j Hi Hj. unfold schur. rewrite (HS i j), (HS i n), (HS n j) by lia. unfold Rdiv. ring.
  Qed.

  Lemma pd_of_schur n M : symmetric (S n) M -> 0 < M n n -> pd n (schur n M) -> pd (S n) M.
  Proof.
    intros HS Hp HP f (i & Hi & Hf). rewrite square_quad by (assumption || lra).
    destruct (Classical_Prop.classic (exists j, (j < n)%nat /\ f j <> 0)) as [E|NE].
    - pose proof (HP f E) as P. pose proof (pow2_ge_0 (f n + rsum n (fun j => M n j * f j) / M n n)) as Q. nra.
    - assert (Z : forall j, (j < n)%nat -> f j = 0).
      { intros j Hj. destruct (Req_dec (f j) 0) as [E|E]; [assumption|]. elim NE. exists j. auto. }
      assert (Fn : f n <> 0).
      { destruct (Nat.eq_dec i n) as [<-|]; [assumption|]. elim Hf. apply Z. lia. }
      replace (quad n (schur n M) f) with 0.
      + rewrite (rsum_zero n (fun j => M n j * f j)) by (intros j Hj; rewrite Z by assumption; ring).
        replace (f n + 0 / M n n) with (f n) by (field; lra). assert (0 < f n ^ 2) by (cbn [pow]; nra). nra.
      + symmetry. unfold quad. apply rsum_zero. intros j Hj. apply rsum_zero. intros k Hk. rewrite Z by assumption. ring.
  Qed.

  Lemma D_pd n : forall (M : nat -> nat -> U -> R -> R),
    (forall i j, (i < n)%nat -> (j < n)%nat -> D (M i j)) ->
    (forall u s, symmetric n (fun i j => M i j u s)) ->
    (forall u, pd n (fun i j => M i j u 0)) -> Near (fun u s => pd n (fun i j => M i j u s)).
  Proof.
    induction n as [|n IH]; intros M HM HS HP.
    - apply near_all. intros u s f (i & Hi & _). lia.
    - assert (P0 : Near (fun u s => 0 < M n n u s)).
      { apply D_pos; [apply HM; lia|]. intros u. exact (pd_corner n _ (HP u)). }
      assert (Hc : forall u, M n n u 0 <> 0) by (intros u; pose proof (pd_corner n _ (HP u)); cbn beta in *; lra).
      assert (P1 : Near (fun u s => pd n (fun i j => schur n (fun i j => M i j u s) i j))).
      { apply IH.
        - intros j k Hj Hk. unfold schur. apply D_minus; [apply HM; lia|].
          apply D_div; [apply D_mult; apply HM; lia|apply HM; lia|assumption].
        - intros u s. exact (schur_sym n _ (HS u s)).
        - intros u. apply (schur_pd n (fun i j => M i j u 0)). apply HP. }
      generalize (near_and _ _ P0 P1). apply near_imp. intros u s (H0 & H1).
      exact (pd_of_schur n (fun i j => M i j u s) (HS u s) H0 H1).
  Qed.
End Diff.
