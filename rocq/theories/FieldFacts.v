(** The model of the structured fields computes the specified values and
    Jacobians; the Jacobian is the derivative of the value. *)
From Coq Require Import Reals String List Arith Lia Lra FunctionalExtensionality.
From Verif Require Import Py Tensor TensorFacts KernelModel FieldModel SpecKernel SpecField KernelFacts.
Import ListNotations.
Open Scope R_scope.

(** Induction principle for nested sums. *)
Section sfield_ind.
  Variable P : sfield -> Prop.
  Hypothesis H0 : forall b s m sg, P (SF_0 b s m sg).
  Hypothesis H0u : forall b s m u sg, P (SF_0_u b s m u sg).
  Hypothesis H1 : forall b s m sg, P (SF_1 b s m sg).
  Hypothesis Hp : forall b s m sg, P (SF_p b s m sg).
  Hypothesis Hm : forall b s m sg, P (SF_m b s m sg).
  Hypothesis Ha : forall A x0 u, P (SF_affine A x0 u).
  Hypothesis Hc : forall m, P (SF_const m).
  Hypothesis Hn : forall d, P (SF_null d).
  Hypothesis Hs : forall fs, Forall P fs -> P (SF_sum fs).
  Fixpoint sfield_ind' (f : sfield) : P f :=
    match f with
    | SF_0 b s m sg => H0 b s m sg
    | SF_0_u b s m u sg => H0u b s m u sg
    | SF_1 b s m sg => H1 b s m sg
    | SF_p b s m sg => Hp b s m sg
    | SF_m b s m sg => Hm b s m sg
    | SF_affine A x0 u => Ha A x0 u
    | SF_const m => Hc m
    | SF_null d => Hn d
    | SF_sum fs =>
        Hs fs ((fix go (l : list sfield) : Forall P l :=
                  match l with
                  | [] => Forall_nil P
                  | g :: l' => Forall_cons g (sfield_ind' g) (go l')
                  end) fs)
    end.
End sfield_ind.

(** ** Contractions *)

Lemma contract_k1 KV mom N M d n a l :
  shape KV = [N; M; d] -> shape mom = [M; d] -> (a < d)%nat ->
  get (tensordot (transpose 0 2 (outer (eye d) KV)) mom [2; 3]%nat [1; 0]%nat) [n; a; l] =
  rsum M (fun j => KV @3 n j l * mom @2 j a).
Proof.
  destruct KV as [shK K], mom as [shM m]. cbn [shape get]. intros -> -> Ha.
  cbn -[delta].
  rewrite (rsum_ext d _ (fun i => delta i a * rsum M (fun j => K [n; j; l] * m [j; i]))).
  - apply rsum_delta_l. assumption.
  - intros i _. rewrite <- rsum_scal. apply rsum_ext. intros j _. ring.
Qed.

Lemma contract_k2 KV mom N M d n a l l' :
  shape KV = [N; M; d; d] -> shape mom = [M; d] -> (a < d)%nat ->
  get (tensordot (transpose 0 2 (outer (eye d) KV)) mom [2; 3]%nat [1; 0]%nat) [n; a; l; l'] =
  rsum M (fun j => KV @4 n j l l' * mom @2 j a).
Proof.
  destruct KV as [shK K], mom as [shM m]. cbn [shape get]. intros -> -> Ha.
  cbn -[delta].
  rewrite (rsum_ext d _ (fun i => delta i a * rsum M (fun j => K [n; j; l; l'] * m [j; i]))).
  - apply rsum_delta_l. assumption.
  - intros i _. rewrite <- rsum_scal. apply rsum_ext. intros j _. ring.
Qed.

Lemma contract_pm0 KV P N M d n a :
  shape KV = [N; M; d] -> shape P = [M; d; d] -> (a < d)%nat ->
  get (tensordot (transpose 0 2 (outer (eye d) KV)) P [2; 3; 4]%nat [1; 0; 2]%nat) [n; a] =
  rsum M (fun j => rsum d (fun c => P @3 j a c * KV @3 n j c)).
Proof.
  destruct KV as [shK K], P as [shM m]. cbn [shape get]. intros -> -> Ha.
  cbn -[delta].
  rewrite (rsum_ext d _ (fun i => delta i a * rsum M (fun j => rsum d (fun c => m [j; i; c] * K [n; j; c])))).
  - apply rsum_delta_l. assumption.
  - intros i _. rewrite <- rsum_scal. apply rsum_ext. intros j _. rewrite <- rsum_scal.
    apply rsum_ext. intros c _. ring.
Qed.

Lemma contract_pm1 KV P N M d n a l :
  shape KV = [N; M; d; d] -> shape P = [M; d; d] -> (a < d)%nat ->
  get (tensordot (transpose 0 2 (outer (eye d) KV)) P [2; 3; 4]%nat [1; 0; 2]%nat) [n; a; l] =
  rsum M (fun j => rsum d (fun c => P @3 j a c * KV @4 n j c l)).
Proof.
  destruct KV as [shK K], P as [shM m]. cbn [shape get]. intros -> -> Ha.
  cbn -[delta].
  rewrite (rsum_ext d _ (fun i => delta i a * rsum M (fun j => rsum d (fun c => m [j; i; c] * K [n; j; c; l])))).
  - apply rsum_delta_l. assumption.
  - intros i _. rewrite <- rsum_scal. apply rsum_ext. intros j _. rewrite <- rsum_scal.
    apply rsum_ext. intros c _. ring.
Qed.

Lemma contract_shape KV mom N M d r :
  shape KV = N :: M :: r -> shape mom = [M; d] -> (length r <= 2)%nat ->
  shape (tensordot (transpose 0 2 (outer (eye d) KV)) mom [2; 3]%nat [1; 0]%nat) = N :: d :: r.
Proof.
  destruct KV as [shK K], mom as [shM m]. cbn [shape get]. intros -> -> Hr.
  destruct r as [|r0 [|r1 [|r2 r]]]; cbn in Hr; try lia; reflexivity.
Qed.

(** Pair-indexed kernels. *)
Lemma ker_pair1 x y N M d sg :
  sg <> 0 -> shape x = [N; d] -> shape y = [M; d] ->
  exists ker, gauss_kernel (rel_differences x y) 1 sg = Ok (Some ker) /\
    shape ker = [(N * M)%nat; d] /\
    forall i j c, (i < N)%nat -> (j < M)%nat -> (c < d)%nat ->
      (reshape [N; M; d] ker) @3 i j c = dgauss d sg (vsub (vrow x i) (vrow y j)) c.
Proof.
  intros Hs Hx Hy.
  destruct (gauss_kernel_1 (rel_differences x y) (N * M) d sg Hs
              (rel_differences_shape x y N M d Hx Hy)) as (ker & E & Hk & Hg).
  exists ker. split; [exact E|]. split; [exact Hk|].
  intros i j c Hi Hj Hc.
  rewrite (get_reshape_split N M [d] ker i j [c] Hk Hi Hj) by (cbn; auto).
  rewrite Hg. apply dgauss_ext; [assumption|].
  intros c' Hc'. apply (vrow_rel x y N M d); assumption.
Qed.

Lemma ker_pair2 x y N M d sg :
  sg <> 0 -> shape x = [N; d] -> shape y = [M; d] ->
  exists ker, gauss_kernel (rel_differences x y) 2 sg = Ok (Some ker) /\
    shape ker = [(N * M)%nat; d; d] /\
    forall i j c e, (i < N)%nat -> (j < M)%nat -> (c < d)%nat -> (e < d)%nat ->
      (reshape [N; M; d; d] ker) @4 i j c e = d2gauss d sg (vsub (vrow x i) (vrow y j)) c e.
Proof.
  intros Hs Hx Hy.
  destruct (gauss_kernel_2 (rel_differences x y) (N * M) d sg Hs
              (rel_differences_shape x y N M d Hx Hy)) as (ker & E & Hk & Hg).
  exists ker. split; [exact E|]. split; [exact Hk|].
  intros i j c e Hi Hj Hc He.
  rewrite (get_reshape_split N M [d; d] ker i j [c; e] Hk Hi Hj) by (cbn; auto).
  rewrite Hg. apply d2gauss_ext; [assumption..|].
  intros c' Hc'. apply (vrow_rel x y N M d); assumption.
Qed.

(** Reshaping commutes with negation and scaling. *)
Lemma get_reshape_topp sh t idx : get (reshape sh (topp t)) idx = - get (reshape sh t) idx.
Proof. reflexivity. Qed.

Lemma get_reshape_tscal sh c t idx : get (reshape sh (tscal c t)) idx = c * get (reshape sh t) idx.
Proof. reflexivity. Qed.

(** ** StructuredField_0 *)

Lemma sf0_torch_0 s m sg p M N d :
  sg <> 0 -> shape s = [M; d] -> shape m = [M; d] -> shape p = [N; d] ->
  exists t, sf0_torch s m sg p 0 = Ok t /\ shape t = [N; d] /\
    forall n a, (n < N)%nat -> (a < d)%nat ->
     t @2 n a = rsum M (fun j => gaussian d sg (vsub (vrow p n) (vrow s j)) * m @2 j a).
Proof.
  intros Hs Hsu Hm Hp. eexists. split; [reflexivity|].
  unfold mm. rewrite (K_xy_shape p s N M d sg Hp Hsu), Hm. cbn [tnth nth]. split; [reflexivity|].
  intros n a Hn Ha. cbn [mk2 get]. apply rsum_ext. intros j Hj.
  rewrite (K_xy_get p s N M d) by assumption. reflexivity.
Qed.

Lemma sf0_torch_1 s m sg p M N d :
  sg <> 0 -> shape s = [M; d] -> shape m = [M; d] -> shape p = [N; d] ->
  exists t, sf0_torch s m sg p 1 = Ok t /\ shape t = [N; d; d] /\
    forall n a l, (n < N)%nat -> (a < d)%nat -> (l < d)%nat ->
     t @3 n a l = rsum M (fun j => dgauss d sg (vsub (vrow p n) (vrow s j)) l * m @2 j a).
Proof.
  intros Hs Hsu Hm Hp. unfold sf0_torch.
  destruct (ker_pair1 p s N M d sg Hs Hp Hsu) as (ker & E & Hk & Hg).
  rewrite E. cbn [bind unwrap].
  eexists. split; [reflexivity|].
  unfold pair_shape, nrows, ncols. rewrite Hp, Hsu, Hk. cbn [tnth nth tl]. split.
  - apply (contract_shape _ _ N M d [d]); [reflexivity | assumption | cbn; lia].
  - intros n a l Hn Ha Hl.
    rewrite (contract_k1 _ _ N M d) by (reflexivity || assumption).
    apply rsum_ext. intros j Hj. rewrite Hg by assumption. reflexivity.
Qed.

Lemma sf0_torch_2 s m sg p M N d :
  sg <> 0 -> shape s = [M; d] -> shape m = [M; d] -> shape p = [N; d] ->
  exists t, sf0_torch s m sg p 2 = Ok t /\ shape t = [N; d; d; d] /\
    forall n a l l', (n < N)%nat -> (a < d)%nat -> (l < d)%nat -> (l' < d)%nat ->
     t @4 n a l l' = rsum M (fun j => d2gauss d sg (vsub (vrow p n) (vrow s j)) l l' * m @2 j a).
Proof.
  intros Hs Hsu Hm Hp. unfold sf0_torch.
  destruct (ker_pair2 p s N M d sg Hs Hp Hsu) as (ker & E & Hk & Hg).
  rewrite E. cbn [bind unwrap].
  eexists. split; [reflexivity|].
  unfold pair_shape, nrows, ncols. rewrite Hp, Hsu, Hk. cbn [tnth nth tl]. split.
  - apply (contract_shape _ _ N M d [d; d]); [reflexivity | assumption | cbn; lia].
  - intros n a l l' Hn Ha Hl Hl'.
    rewrite (contract_k2 _ _ N M d) by (reflexivity || assumption).
    apply rsum_ext. intros j Hj. rewrite Hg by assumption. reflexivity.
Qed.

Lemma keops_gauss p s sg N M d i j :
  sg <> 0 -> shape p = [N; d] -> shape s = [M; d] ->
  exp (- keops_S sg * sqnorm2 (tsub (row p i) (row s j)) / 2)
  = gaussian d sg (vsub (vrow p i) (vrow s j)).
Proof.
  intros Hs Hp Hsu. unfold gaussian, keops_S, sqnorm2. cbn [tsub tmap2 row mk1 shape get].
  unfold ncols. rewrite Hp. cbn [tnth nth]. f_equal. unfold sqn, vsub, vrow. field. assumption.
Qed.

Lemma sf0_keops_0 s m sg p M N d :
  sg <> 0 -> shape s = [M; d] -> shape m = [M; d] -> shape p = [N; d] ->
  exists t, sf0_keops s m sg p 0 = Ok t /\ shape t = [N; d] /\
    forall n a, (n < N)%nat -> (a < d)%nat ->
     t @2 n a = rsum M (fun j => gaussian d sg (vsub (vrow p n) (vrow s j)) * m @2 j a).
Proof.
  intros Hs Hsu Hm Hp. eexists. split; [reflexivity|].
  unfold nrows, ncols. rewrite Hsu, Hp. cbn [tnth nth]. split; [reflexivity|].
  intros n a Hn Ha.
  rewrite (get_reshape [N; d] (genred N M d _) [n; a] [n; a]); [|reflexivity|cbn; auto].
  cbn [genred mk2 get]. apply rsum_ext. intros j Hj.
  cbn [tscal tmap get]. rewrite (keops_gauss p s sg N M d) by assumption. reflexivity.
Qed.

Lemma get_tensorprod u v n m i j :
  shape u = [n] -> shape v = [m] -> (i < n)%nat -> (j < m)%nat ->
  (k_tensorprod u v) @1 (i * m + j)%nat = u @1 i * v @1 j.
Proof.
  intros Hu Hv Hi Hj. unfold k_tensorprod.
  assert (Hsh : shape (outer u v) = [n; m]) by (cbn; rewrite Hu, Hv; reflexivity).
  replace (i * m + j)%nat with (ravel (shape (outer u v)) [i; j]) by (rewrite Hsh; cbn; lia).
  rewrite get_flatten by (rewrite Hsh; cbn; auto).
  cbn. rewrite Hu. reflexivity.
Qed.

Lemma get_transpose12 t N n m a b : shape t = [N; n; m] -> forall i, (transpose 1 2 t) @3 i a b = t @3 i b a.
Proof. intros H i. cbn. reflexivity. Qed.

Lemma sf0_keops_1 s m sg p M N d :
  sg <> 0 -> shape s = [M; d] -> shape m = [M; d] -> shape p = [N; d] ->
  exists t, sf0_keops s m sg p 1 = Ok t /\ shape t = [N; d; d] /\
    forall n a l, (n < N)%nat -> (a < d)%nat -> (l < d)%nat ->
     t @3 n a l = rsum M (fun j => dgauss d sg (vsub (vrow p n) (vrow s j)) l * m @2 j a).
Proof.
  intros Hs Hsu Hm Hp. eexists. split; [reflexivity|].
  unfold nrows. rewrite Hsu, Hp.
  replace (ncols s) with d by (unfold ncols; rewrite Hsu; reflexivity). cbn [tnth nth]. split; [reflexivity|].
  intros n a l Hn Ha Hl.
  rewrite (get_transpose12 _ N d d) by reflexivity.
  rewrite (get_reshape [N; d; d] (genred N M (d * d) _) [n; l; a] [n; (l * d + a)%nat]);
    [|cbn; lia|cbn; split; [assumption|split; [nia|exact I]]].
  cbn [genred mk2 get]. apply rsum_ext. intros j Hj.
  rewrite (get_tensorprod _ _ d d); [| | |assumption..].
  - cbn [tscal tmap get]. rewrite (keops_gauss p s sg N M d) by assumption.
    cbn [tsub tmap2 row mk1 get]. unfold keops_S, dgauss, vsub, vrow. field. assumption.
  - cbn. unfold ncols. rewrite Hp. reflexivity.
  - cbn. unfold ncols. rewrite Hm. reflexivity.
Qed.

(** ** StructuredField_0_u *)

Lemma sf0u_torch_0 s m u sg p M N d :
  sg <> 0 -> shape s = [M; d] -> shape m = [M; d] -> shape u = [M; d] -> shape p = [N; d] ->
  exists t, sf0u_torch s m u sg p 0 = Ok t /\ shape t = [N; d] /\
    forall n a, (n < N)%nat -> (a < d)%nat ->
     t @2 n a = rsum M (fun j =>
        rsum d (fun c => - dgauss d sg (vsub (vrow p n) (vrow s j)) c * u @2 j c) * m @2 j a).
Proof.
  intros Hs Hsu Hm Hu Hp. unfold sf0u_torch.
  destruct (ker_pair1 p s N M d sg Hs Hp Hsu) as (ker & E & Hk & Hg).
  rewrite E. cbn [bind unwrap]. eexists. split; [reflexivity|].
  unfold pair_shape, nrows. rewrite Hp, Hsu, Hk. cbn [tnth nth tl].
  assert (Hes : shape (einsum "ijk, jk->ij" [topp (reshape [N; M; d] ker); u]) = [N; M])
    by reflexivity.
  unfold mm. rewrite Hes, Hm. cbn [tnth nth]. split; [reflexivity|].
  intros n a Hn Ha. cbn [mk2 get]. apply rsum_ext. intros j Hj. f_equal.
  unfold einsum. cbn -[reshape rsum].
  apply rsum_ext. intros c Hc. rewrite Hg by assumption. ring.
Qed.

(** ** StructuredField_1 *)

Lemma sf1_torch_0 s m sg p M N d :
  sg <> 0 -> shape s = [M; d] -> shape m = [M] -> shape p = [N; d] ->
  exists t, sf1_torch s m sg p 0 = Ok t /\ shape t = [N; d] /\
    forall n a, (n < N)%nat -> (a < d)%nat ->
     t @2 n a = rsum M (fun j => dgauss d sg (vsub (vrow s j) (vrow p n)) a * m @1 j).
Proof.
  intros Hs Hsu Hm Hp. unfold sf1_torch.
  destruct (ker_pair1 s p M N d sg Hs Hsu Hp) as (ker & E & Hk & Hg).
  rewrite E. cbn [bind unwrap]. eexists. split; [reflexivity|].
  unfold nrows, ncols. rewrite Hp, Hsu. cbn [tnth nth]. split; [reflexivity|].
  intros n a Hn Ha. unfold einsum. cbn -[reshape rsum].
  apply rsum_ext. intros j Hj. rewrite Hg by assumption. ring.
Qed.

Lemma sf1_torch_1 s m sg p M N d :
  sg <> 0 -> shape s = [M; d] -> shape m = [M] -> shape p = [N; d] ->
  exists t, sf1_torch s m sg p 1 = Ok t /\ shape t = [N; d; d] /\
    forall n a l, (n < N)%nat -> (a < d)%nat -> (l < d)%nat ->
     t @3 n a l = rsum M (fun j => - d2gauss d sg (vsub (vrow s j) (vrow p n)) a l * m @1 j).
Proof.
  intros Hs Hsu Hm Hp. unfold sf1_torch. cbn [Nat.add].
  destruct (ker_pair2 s p M N d sg Hs Hsu Hp) as (ker & E & Hk & Hg).
  rewrite E. cbn [bind unwrap]. eexists. split; [reflexivity|].
  unfold nrows, ncols. cbn [shape tscal tmap]. rewrite Hp, Hsu, Hk. cbn [tnth nth tl].
  split; [reflexivity|].
  intros n a l Hn Ha Hl. unfold einsum. cbn -[reshape rsum pow].
  apply rsum_ext. intros j Hj. fold (tscal ((-1) ^ 1) ker).
  rewrite get_reshape_tscal, Hg by assumption. ring.
Qed.

(** ** StructuredField_p and StructuredField_m *)

Lemma sfpm_torch_0 s P sg p M N d :
  sg <> 0 -> shape s = [M; d] -> shape P = [M; d; d] -> shape p = [N; d] ->
  exists t, sfpm_torch s P sg p 0 = Ok t /\ shape t = [N; d] /\
    forall n a, (n < N)%nat -> (a < d)%nat ->
     t @2 n a = rsum M (fun j => rsum d (fun c =>
                  P @3 j a c * - dgauss d sg (vsub (vrow p n) (vrow s j)) c)).
Proof.
  intros Hs Hsu HP Hp. unfold sfpm_torch. cbn [Nat.add].
  destruct (ker_pair1 p s N M d sg Hs Hp Hsu) as (ker & E & Hk & Hg).
  rewrite E. cbn [bind unwrap]. eexists. split; [reflexivity|].
  unfold pair_shape, nrows, ncols. cbn [shape topp tmap]. rewrite Hp, Hsu, Hk. cbn [tnth nth tl].
  split.
  - unfold tensordot. rewrite HP. reflexivity.
  - intros n a Hn Ha. rewrite (contract_pm0 _ _ N M d) by (reflexivity || assumption).
    apply rsum_ext. intros j Hj. apply rsum_ext. intros c Hc.
    fold (topp ker). rewrite get_reshape_topp, Hg by assumption. reflexivity.
Qed.

Lemma sfpm_torch_1 s P sg p M N d :
  sg <> 0 -> shape s = [M; d] -> shape P = [M; d; d] -> shape p = [N; d] ->
  exists t, sfpm_torch s P sg p 1 = Ok t /\ shape t = [N; d; d] /\
    forall n a l, (n < N)%nat -> (a < d)%nat -> (l < d)%nat ->
     t @3 n a l = rsum M (fun j => rsum d (fun c =>
                  P @3 j a c * - d2gauss d sg (vsub (vrow p n) (vrow s j)) c l)).
Proof.
  intros Hs Hsu HP Hp. unfold sfpm_torch. cbn [Nat.add].
  destruct (ker_pair2 p s N M d sg Hs Hp Hsu) as (ker & E & Hk & Hg).
  rewrite E. cbn [bind unwrap]. eexists. split; [reflexivity|].
  unfold pair_shape, nrows, ncols. cbn [shape topp tmap]. rewrite Hp, Hsu, Hk. cbn [tnth nth tl].
  split.
  - unfold tensordot. rewrite HP. reflexivity.
  - intros n a l Hn Ha Hl. rewrite (contract_pm1 _ _ N M d) by (reflexivity || assumption).
    apply rsum_ext. intros j Hj. apply rsum_ext. intros c Hc.
    fold (topp ker). rewrite get_reshape_topp, Hg by assumption. reflexivity.
Qed.

Lemma row_reshape_P P M d j a c :
  shape P = [M; d; d] -> (j < M)%nat -> (a < d)%nat -> (c < d)%nat ->
  (reshape [d; d] (row (reshape [M; (d * d)%nat] P) j)) @2 a c = P @3 j a c.
Proof.
  intros HP Hj Ha Hc.
  rewrite (get_reshape [d; d] _ [a; c] [(a * d + c)%nat]); [| cbn; lia | cbn; split; [nia|exact I]].
  cbn [row mk1 get].
  rewrite (get_reshape [M; (d * d)%nat] P [j; (a * d + c)%nat] [j; a; c]);
    rewrite ?HP; cbn; auto; nia.
Qed.

Lemma contract_vm V Q d a :
  shape V = [d] -> shape Q = [d; d] ->
  get (tensordot V Q [0]%nat [1]%nat) [a] = rsum d (fun c => V @1 c * Q @2 a c).
Proof. destruct V as [shV V], Q as [shQ Q]. cbn [shape get]. intros -> ->. reflexivity. Qed.

Lemma contract_mm V Q d a b :
  shape V = [d; d] -> shape Q = [d; d] ->
  get (tensordot V Q [1]%nat [1]%nat) [a; b] = rsum d (fun c => V @2 a c * Q @2 b c).
Proof. destruct V as [shV V], Q as [shQ Q]. cbn [shape get]. intros -> ->. reflexivity. Qed.

Lemma contract_vv V W d e a b :
  shape V = [d] -> shape W = [e] ->
  get (tensordot V W [] []) [a; b] = V @1 a * W @1 b.
Proof. destruct V as [shV V], W as [shQ Q]. cbn [shape get]. intros -> ->. reflexivity. Qed.

Lemma sfpm_keops_0 s P sg p M N d :
  sg <> 0 -> shape s = [M; d] -> shape P = [M; d; d] -> shape p = [N; d] ->
  exists t, sfpm_keops s P sg p 0 = Ok t /\ shape t = [N; d] /\
    forall n a, (n < N)%nat -> (a < d)%nat ->
     t @2 n a = rsum M (fun j => rsum d (fun c =>
                  P @3 j a c * - dgauss d sg (vsub (vrow p n) (vrow s j)) c)).
Proof.
  intros Hs Hsu HP Hp. eexists. split; [reflexivity|].
  unfold nrows. rewrite Hsu, Hp.
  replace (ncols s) with d by (unfold ncols; rewrite Hsu; reflexivity). cbn [tnth nth]. split; [reflexivity|].
  intros n a Hn Ha.
  rewrite (get_reshape [N; d] (genred N M d _) [n; a] [n; a]); [|reflexivity|cbn; auto].
  cbn [genred mk2 get]. apply rsum_ext. intros j Hj.
  unfold k_tensordot.
  match goal with |- get (tflatten ?T) [a] = _ => set (T0 := T) end.
  assert (HT : shape T0 = [d]) by reflexivity.
  replace [a] with [ravel (shape T0) [a]] by (rewrite HT; cbn; f_equal; lia).
  rewrite get_flatten by (rewrite HT; cbn; auto).
  unfold T0. rewrite (contract_vm _ _ d) by reflexivity.
  apply rsum_ext. intros c Hc.
  rewrite (row_reshape_P P M d) by assumption.
  rewrite (get_reshape [d] _ [c] [c]).
  2: { cbn [shape tscal tmap tsub tmap2 row mk1]. unfold ncols. rewrite Hp. reflexivity. }
  2: { cbn [shape tscal tmap tsub tmap2 row mk1]. unfold ncols. rewrite Hp. cbn; auto. }
  cbn [tscal tmap get]. rewrite (keops_gauss p s sg N M d) by assumption.
  cbn [tsub tmap2 row mk1 get]. unfold keops_S, dgauss, vsub, vrow. field. assumption.
Qed.

Lemma sfpm_keops_1 s P sg p M N d :
  sg <> 0 -> shape s = [M; d] -> shape P = [M; d; d] -> shape p = [N; d] ->
  exists t, sfpm_keops s P sg p 1 = Ok t /\ shape t = [N; d; d] /\
    forall n a l, (n < N)%nat -> (a < d)%nat -> (l < d)%nat ->
     t @3 n a l = rsum M (fun j => rsum d (fun c =>
                  P @3 j a c * - d2gauss d sg (vsub (vrow p n) (vrow s j)) c l)).
Proof.
  intros Hs Hsu HP Hp. eexists. split; [reflexivity|].
  unfold nrows. rewrite Hsu, Hp.
  replace (ncols s) with d by (unfold ncols; rewrite Hsu; reflexivity). cbn [tnth nth]. split; [reflexivity|].
  intros n a l Hn Ha Hl.
  rewrite (get_transpose12 _ N d d) by reflexivity.
  rewrite (get_reshape [N; d; d] (genred N M (d * d) _) [n; l; a] [n; (l * d + a)%nat]);
    [|cbn; lia|cbn; split; [assumption|split; [nia|exact I]]].
  cbn [genred mk2 get]. apply rsum_ext. intros j Hj.
  unfold k_tensordot at 1.
  match goal with |- get (tflatten ?T) _ = _ => set (T0 := T) end.
  assert (HT : shape T0 = [d; d]) by reflexivity.
  replace (l * d + a)%nat with (ravel (shape T0) [l; a]) by (rewrite HT; cbn; lia).
  rewrite get_flatten by (rewrite HT; cbn; auto).
  unfold T0. rewrite (contract_mm _ _ d) by reflexivity.
  apply rsum_ext. intros c Hc.
  rewrite (row_reshape_P P M d) by assumption.
  match goal with |- get (reshape [d; d] ?K) _ * _ = _ => set (K0 := K) end.
  assert (HD : shape (tsub (row p n) (row s j)) = [d])
    by (cbn; unfold ncols; rewrite Hp; reflexivity).
  set (D := tsub (row p n) (row s j)) in *.
  assert (HO : shape (tensordot (reshape [d] D) (reshape [d] D) [] []) = [d; d]) by reflexivity.
  assert (HK : shape K0 = [(d * d)%nat]) by (cbn; f_equal; lia).
  rewrite (get_reshape [d; d] K0 [l; c] [(l * d + c)%nat]);
    [|rewrite HK; cbn; lia | rewrite HK; cbn; split; [nia|exact I]].
  unfold K0. cbn [tscal tmap get tsub tmap2]. unfold k_tensordot.
  replace (l * d + c)%nat
    with (ravel (shape (tensordot (reshape [d] D) (reshape [d] D) [] [])) [l; c]) at 1
    by (rewrite HO; cbn; lia).
  rewrite get_flatten by (rewrite HO; cbn; auto).
  replace (l * d + c)%nat with (ravel (shape (eye d)) [l; c]) by (cbn; lia).
  rewrite get_flatten by (cbn; auto).
  rewrite (contract_vv _ _ d d) by reflexivity.
  change (get (eye d) [l; c]) with (delta l c).
  rewrite !(get_reshape [d] D [l] [l]), !(get_reshape [d] D [c] [c]);
    try (rewrite HD; cbn; auto); try reflexivity.
  unfold D. rewrite (keops_gauss p s sg N M d) by assumption.
  cbn [tsub tmap2 row mk1 get].
  rewrite d2gauss_sym. unfold keops_S, d2gauss, vsub, vrow. field. assumption.
Qed.

Lemma p_matrix_get m M d j a c :
  shape m = [M; d; d] -> (p_matrix m) @3 j a c = symP m j a c.
Proof. intros H. reflexivity. Qed.

Lemma m_matrix_get m M d j a c :
  shape m = [M; d; d] -> (m_matrix m) @3 j a c = skewP m j a c.
Proof. intros H. reflexivity. Qed.

(** ** The other fields *)

Lemma affine_0 A x0 u p N d :
  shape A = [d; d] -> shape x0 = [d] -> shape u = [d] -> shape p = [N; d] ->
  exists t, affine_call A x0 u p 0 = Ok t /\ shape t = [N; d] /\
    forall n a, (n < N)%nat -> (a < d)%nat ->
      t @2 n a = rsum d (fun c => A @2 a c * (vrow p n c - x0 @1 c)) + u @1 a.
Proof.
  intros HA Hx Hu Hp. eexists. split; [reflexivity|].
  unfold nrows, ncols. rewrite Hp. cbn [tnth nth]. split; [reflexivity|].
  intros n a Hn Ha. cbn [mk2 get]. f_equal.
  match goal with |- get (reshape _ ?B) _ = _ => set (B0 := B) end.
  assert (HB : shape B0 = [N; 1%nat; d]) by reflexivity.
  rewrite (get_reshape [N; d] B0 [n; a] [n; 0%nat; a]); [|rewrite HB; cbn; lia|rewrite HB; cbn; auto].
  unfold B0. cbn. apply rsum_ext. intros c Hc. unfold vrow. ring.
Qed.

Lemma affine_1 A x0 u p N d :
  shape A = [d; d] -> shape p = [N; d] ->
  exists t, affine_call A x0 u p 1 = Ok t /\ shape t = [N; d; d] /\
    forall n a l, t @3 n a l = A @2 a l.
Proof.
  intros HA Hp. eexists. split; [reflexivity|].
  unfold nrows, ncols. rewrite Hp, HA. cbn [tnth nth]. split; reflexivity.
Qed.

Lemma zeros_k_shape p k N d : shape p = [N; d] -> shape (zeros_k p k) = N :: repeat d (k + 1).
Proof. intros H. cbn. unfold nrows, ncols. rewrite H. reflexivity. Qed.

(** ** Sums *)

Lemma feval_sum fs p k :
  feval (SF_sum fs) p k =
  (ts <- mapM (fun f => feval f p k) fs ;; Ok (tsum ts)).
Proof.
  cbn [feval]. match goal with |- bind ?A _ = bind ?B _ => replace A with B; [reflexivity|] end.
  induction fs as [|f fs IH]; [reflexivity|]. cbn [mapM]. rewrite IH. reflexivity.
Qed.

(** Generic statement of "order k is computed with shape sh and entries given by V". *)
Definition computes (f : sfield) (p : tensor) (k : nat) (sh : list nat)
    (V : sfield -> list nat -> R) : Prop :=
  exists t, feval f p k = Ok t /\ shape t = sh /\ forall idx, valid sh idx -> get t idx = V f idx.

Lemma computes_sum fs p k sh V :
  fs <> [] ->
  (forall idx, V (SF_sum fs) idx = fold_right (fun g acc => V g idx + acc) 0 fs) ->
  Forall (fun f => computes f p k sh V) fs -> computes (SF_sum fs) p k sh V.
Proof.
  intros Hne HV Hall. unfold computes. rewrite feval_sum.
  assert (H : exists ts, mapM (fun f => feval f p k) fs = Ok ts /\ length ts = length fs /\
            Forall (fun t => shape t = sh) ts /\
            forall idx, valid sh idx ->
              fold_right (fun t acc => get t idx + acc) 0 ts =
              fold_right (fun g acc => V g idx + acc) 0 fs).
  { clear HV Hne. induction Hall as [|f fs (t & E & Hsh & Hg) Hall IH].
    - exists []. repeat split; auto.
    - destruct IH as (ts & Ets & Hl & Hs & Hts).
      exists (t :: ts). cbn [mapM]. rewrite E. cbn [bind]. rewrite Ets. cbn [bind].
      split; [reflexivity|]. split; [cbn; lia|]. split; [constructor; assumption|].
      intros idx Hv. cbn [fold_right]. rewrite Hg, Hts by assumption. reflexivity. }
  destruct H as (ts & Ets & Hl & Hs & Hts). rewrite Ets. cbn [bind].
  destruct ts as [|t ts]; [destruct fs; [congruence|discriminate]|].
  eexists. split; [reflexivity|]. rewrite tsum_shape. split.
  - inversion Hs; assumption.
  - intros idx Hv. rewrite tsum_get by discriminate. rewrite Hts, HV by assumption. reflexivity.
Qed.

Lemma fr_and {A} (Q : A -> Prop) l : fold_right (fun g acc => Q g /\ acc) True l <-> Forall Q l.
Proof.
  induction l as [|x l IH]; cbn; split; intros H; auto.
  - destruct H. constructor; [assumption|]. apply IH. assumption.
  - inversion H; subst. split; [assumption|]. apply IH. assumption.
Qed.

Lemma Forall_mp3 {A} (P Q S : A -> Prop) l :
  Forall (fun x => P x -> Q x -> S x) l -> Forall P l -> Forall Q l -> Forall S l.
Proof.
  induction 1 as [|x l H _ IH]; intros HP HQ; [constructor|].
  inversion HP; inversion HQ; subst. constructor; auto.
Qed.

Definition V0 (d : nat) (p : tensor) (f : sfield) (idx : list nat) : R :=
  match idx with [n; a] => fval d f (vrow p n) a | _ => 0 end.
Definition V1 (d : nat) (p : tensor) (f : sfield) (idx : list nat) : R :=
  match idx with [n; a; l] => fjac d f (vrow p n) a l | _ => 0 end.
Definition V2 (d : nat) (p : tensor) (f : sfield) (idx : list nat) : R :=
  match idx with [n; a; l; l'] => fhess d f (vrow p n) a l l' | _ => 0 end.

Lemma valid_cons_inv n sh idx :
  valid (n :: sh) idx -> exists i idx', idx = i :: idx' /\ (i < n)%nat /\ valid sh idx'.
Proof. destruct idx as [|i idx']; cbn [valid]; [tauto|]. intros [H1 H2]. exists i, idx'. auto. Qed.

Lemma valid_nil_inv idx : valid [] idx -> idx = [].
Proof. destruct idx; [reflexivity|intros []]. Qed.

Ltac inv_valid H :=
  repeat (let i := fresh "i" in let r := fresh "r" in let E := fresh "E" in let L := fresh "L" in
          apply valid_cons_inv in H; destruct H as (i & r & E & L & H); subst);
  apply valid_nil_inv in H; subst.

Lemma rsum_nrows s M (d : nat) f : shape s = [M; d] -> rsum (nrows s) f = rsum M f.
Proof. intros H. unfold nrows. rewrite H. reflexivity. Qed.

Lemma fr_zero {A} (l : list A) : fold_right (fun _ acc => 0 + acc) 0 l = 0.
Proof. induction l; cbn; lra. Qed.

Lemma feval_0 d f p N :
  wf_field d f -> has0 f -> shape p = [N; d] -> computes f p 0 [N; d] (V0 d p).
Proof.
  intros Hwf Hh Hp. revert Hwf Hh.
  induction f as [b s m sg|b s m u sg|b s m sg|b s m sg|b s m sg|A x0 u|m|d'|fs IH] using sfield_ind';
    intros Hwf Hh; cbn [wf_field has0] in Hwf, Hh.
  - destruct Hwf as (Hs & M & Hsu & Hm). unfold computes. destruct b; cbn [feval].
    + destruct (sf0_torch_0 s m sg p M N d Hs Hsu Hm Hp) as (t & E & Hsh & Hg).
      exists t. repeat split; [assumption..|]. intros idx Hv. inv_valid Hv.
      rewrite Hg by assumption. cbn. rewrite (rsum_nrows _ M d) by assumption. reflexivity.
    + destruct (sf0_keops_0 s m sg p M N d Hs Hsu Hm Hp) as (t & E & Hsh & Hg).
      exists t. repeat split; [assumption..|]. intros idx Hv. inv_valid Hv.
      rewrite Hg by assumption. cbn. rewrite (rsum_nrows _ M d) by assumption. reflexivity.
  - destruct Hwf as (Hs & M & Hsu & Hm & Hu). unfold computes. cbn [feval].
    destruct (sf0u_torch_0 s m u sg p M N d Hs Hsu Hm Hu Hp) as (t & E & Hsh & Hg).
    exists t. repeat split; [assumption..|]. intros idx Hv. inv_valid Hv.
    rewrite Hg by assumption. cbn. rewrite (rsum_nrows _ M d) by assumption. reflexivity.
  - destruct Hwf as (Hs & M & Hsu & Hm). unfold computes. destruct b; [|destruct Hh]. cbn [feval].
    destruct (sf1_torch_0 s m sg p M N d Hs Hsu Hm Hp) as (t & E & Hsh & Hg).
    exists t. repeat split; [assumption..|]. intros idx Hv. inv_valid Hv.
    rewrite Hg by assumption. cbn. rewrite (rsum_nrows _ M d) by assumption. reflexivity.
  - destruct Hwf as (Hs & M & Hsu & Hm). unfold computes. destruct b; cbn [feval].
    + destruct (sfpm_torch_0 s (p_matrix m) sg p M N d Hs Hsu Hm Hp) as (t & E & Hsh & Hg).
      exists t. repeat split; [assumption..|]. intros idx Hv. inv_valid Hv.
      rewrite Hg by assumption. cbn [V0 fval]. rewrite (rsum_nrows _ M d) by assumption. reflexivity.
    + destruct (sfpm_keops_0 s (p_matrix m) sg p M N d Hs Hsu Hm Hp) as (t & E & Hsh & Hg).
      exists t. repeat split; [assumption..|]. intros idx Hv. inv_valid Hv.
      rewrite Hg by assumption. cbn [V0 fval]. rewrite (rsum_nrows _ M d) by assumption. reflexivity.
  - destruct Hwf as (Hs & M & Hsu & Hm). unfold computes. destruct b; cbn [feval].
    + destruct (sfpm_torch_0 s (m_matrix m) sg p M N d Hs Hsu Hm Hp) as (t & E & Hsh & Hg).
      exists t. repeat split; [assumption..|]. intros idx Hv. inv_valid Hv.
      rewrite Hg by assumption. cbn [V0 fval]. rewrite (rsum_nrows _ M d) by assumption. reflexivity.
    + destruct (sfpm_keops_0 s (m_matrix m) sg p M N d Hs Hsu Hm Hp) as (t & E & Hsh & Hg).
      exists t. repeat split; [assumption..|]. intros idx Hv. inv_valid Hv.
      rewrite Hg by assumption. cbn [V0 fval]. rewrite (rsum_nrows _ M d) by assumption. reflexivity.
  - destruct Hwf as (HA & Hx & Hu). unfold computes. cbn [feval].
    destruct (affine_0 A x0 u p N d HA Hx Hu Hp) as (t & E & Hsh & Hg).
    exists t. repeat split; [assumption..|]. intros idx Hv. inv_valid Hv.
    rewrite Hg by assumption. reflexivity.
  - unfold computes. cbn [feval]. unfold const_call, ncols. rewrite Hwf, Hp. cbn [tnth nth].
    rewrite Nat.eqb_refl. cbn [py_assert bind]. eexists. split; [reflexivity|].
    split; [unfold nrows; rewrite Hp; reflexivity|]. intros idx Hv. inv_valid Hv. reflexivity.
  - subst d'. unfold computes. cbn [feval]. unfold null_call, ncols. rewrite Hp. cbn [tnth nth].
    rewrite Nat.eqb_refl. cbn [py_assert bind]. eexists. split; [reflexivity|].
    split; [apply (zeros_k_shape p 0 N d Hp)|]. intros idx Hv. inv_valid Hv. reflexivity.
  - destruct Hwf as (Hne & Hwf). apply fr_and in Hwf. apply fr_and in Hh.
    apply computes_sum; [assumption| |].
    + intros idx. destruct idx as [|n [|a [|? ?]]]; cbn [V0]; try (symmetry; apply fr_zero). reflexivity.
    + apply (Forall_mp3 _ _ _ _ IH Hwf Hh).
Qed.

Lemma feval_1 d f p N :
  wf_field d f -> has1 f -> shape p = [N; d] -> computes f p 1 [N; d; d] (V1 d p).
Proof.
  intros Hwf Hh Hp. revert Hwf Hh.
  induction f as [b s m sg|b s m u sg|b s m sg|b s m sg|b s m sg|A x0 u|m|d'|fs IH] using sfield_ind';
    intros Hwf Hh; cbn [wf_field has1] in Hwf, Hh.
  - destruct Hwf as (Hs & M & Hsu & Hm). unfold computes. destruct b; cbn [feval].
    + destruct (sf0_torch_1 s m sg p M N d Hs Hsu Hm Hp) as (t & E & Hsh & Hg).
      exists t. repeat split; [assumption..|]. intros idx Hv. inv_valid Hv.
      rewrite Hg by assumption. cbn. rewrite (rsum_nrows _ M d) by assumption. reflexivity.
    + destruct (sf0_keops_1 s m sg p M N d Hs Hsu Hm Hp) as (t & E & Hsh & Hg).
      exists t. repeat split; [assumption..|]. intros idx Hv. inv_valid Hv.
      rewrite Hg by assumption. cbn. rewrite (rsum_nrows _ M d) by assumption. reflexivity.
  - destruct Hh.
  - destruct Hwf as (Hs & M & Hsu & Hm). unfold computes. destruct b; [|destruct Hh]. cbn [feval].
    destruct (sf1_torch_1 s m sg p M N d Hs Hsu Hm Hp) as (t & E & Hsh & Hg).
    exists t. repeat split; [assumption..|]. intros idx Hv. inv_valid Hv.
    rewrite Hg by assumption. cbn. rewrite (rsum_nrows _ M d) by assumption. reflexivity.
  - destruct Hwf as (Hs & M & Hsu & Hm). unfold computes. destruct b; cbn [feval].
    + destruct (sfpm_torch_1 s (p_matrix m) sg p M N d Hs Hsu Hm Hp) as (t & E & Hsh & Hg).
      exists t. repeat split; [assumption..|]. intros idx Hv. inv_valid Hv.
      rewrite Hg by assumption. cbn [V1 fjac]. rewrite (rsum_nrows _ M d) by assumption. reflexivity.
    + destruct (sfpm_keops_1 s (p_matrix m) sg p M N d Hs Hsu Hm Hp) as (t & E & Hsh & Hg).
      exists t. repeat split; [assumption..|]. intros idx Hv. inv_valid Hv.
      rewrite Hg by assumption. cbn [V1 fjac]. rewrite (rsum_nrows _ M d) by assumption. reflexivity.
  - destruct Hwf as (Hs & M & Hsu & Hm). unfold computes. destruct b; cbn [feval].
    + destruct (sfpm_torch_1 s (m_matrix m) sg p M N d Hs Hsu Hm Hp) as (t & E & Hsh & Hg).
      exists t. repeat split; [assumption..|]. intros idx Hv. inv_valid Hv.
      rewrite Hg by assumption. cbn [V1 fjac]. rewrite (rsum_nrows _ M d) by assumption. reflexivity.
    + destruct (sfpm_keops_1 s (m_matrix m) sg p M N d Hs Hsu Hm Hp) as (t & E & Hsh & Hg).
      exists t. repeat split; [assumption..|]. intros idx Hv. inv_valid Hv.
      rewrite Hg by assumption. cbn [V1 fjac]. rewrite (rsum_nrows _ M d) by assumption. reflexivity.
  - destruct Hwf as (HA & Hx & Hu). unfold computes. cbn [feval].
    destruct (affine_1 A x0 u p N d HA Hp) as (t & E & Hsh & Hg).
    exists t. repeat split; [assumption..|]. intros idx Hv. inv_valid Hv.
    rewrite Hg by assumption. reflexivity.
  - unfold computes. cbn [feval]. unfold const_call, ncols. rewrite Hwf, Hp. cbn [tnth nth].
    rewrite Nat.eqb_refl. cbn [py_assert bind]. eexists. split; [reflexivity|].
    split; [apply (zeros_k_shape p 1 N d Hp)|]. intros idx Hv. inv_valid Hv. reflexivity.
  - subst d'. unfold computes. cbn [feval]. unfold null_call, ncols. rewrite Hp. cbn [tnth nth].
    rewrite Nat.eqb_refl. cbn [py_assert bind]. eexists. split; [reflexivity|].
    split; [apply (zeros_k_shape p 1 N d Hp)|]. intros idx Hv. inv_valid Hv. reflexivity.
  - destruct Hwf as (Hne & Hwf). apply fr_and in Hwf. apply fr_and in Hh.
    apply computes_sum; [assumption| |].
    + intros idx. destruct idx as [|n [|a [|l [|? ?]]]]; cbn [V1]; try (symmetry; apply fr_zero). reflexivity.
    + apply (Forall_mp3 _ _ _ _ IH Hwf Hh).
Qed.

Lemma feval_2 d f p N :
  wf_field d f -> has2 f -> shape p = [N; d] -> computes f p 2 [N; d; d; d] (V2 d p).
Proof.
  intros Hwf Hh Hp. revert Hwf Hh.
  induction f as [b s m sg|b s m u sg|b s m sg|b s m sg|b s m sg|A x0 u|m|d'|fs IH] using sfield_ind';
    intros Hwf Hh; cbn [wf_field has2] in Hwf, Hh; try (destruct Hh; fail).
  - destruct Hwf as (Hs & M & Hsu & Hm). unfold computes. destruct b; [|destruct Hh]. cbn [feval].
    destruct (sf0_torch_2 s m sg p M N d Hs Hsu Hm Hp) as (t & E & Hsh & Hg).
    exists t. repeat split; [assumption..|]. intros idx Hv. inv_valid Hv.
    rewrite Hg by assumption. cbn. rewrite (rsum_nrows _ M d) by assumption. reflexivity.
  - unfold computes. cbn [feval affine_call]. eexists. split; [reflexivity|].
    split; [apply (zeros_k_shape p 2 N d Hp)|]. intros idx Hv. inv_valid Hv. reflexivity.
  - unfold computes. cbn [feval]. unfold const_call, ncols. rewrite Hwf, Hp. cbn [tnth nth].
    rewrite Nat.eqb_refl. cbn [py_assert bind]. eexists. split; [reflexivity|].
    split; [apply (zeros_k_shape p 2 N d Hp)|]. intros idx Hv. inv_valid Hv. reflexivity.
  - subst d'. unfold computes. cbn [feval]. unfold null_call, ncols. rewrite Hp. cbn [tnth nth].
    rewrite Nat.eqb_refl. cbn [py_assert bind]. eexists. split; [reflexivity|].
    split; [apply (zeros_k_shape p 2 N d Hp)|]. intros idx Hv. inv_valid Hv. reflexivity.
  - destruct Hwf as (Hne & Hwf). apply fr_and in Hwf. apply fr_and in Hh.
    apply computes_sum; [assumption| |].
    + intros idx. destruct idx as [|n [|a [|l [|l' [|? ?]]]]]; cbn [V2]; try (symmetry; apply fr_zero). reflexivity.
    + apply (Forall_mp3 _ _ _ _ IH Hwf Hh).
Qed.

(** The unimplemented orders raise NotImplementedError. *)
Lemma feval_1_u b s m u sg p : feval (SF_0_u b s m u sg) p 1 = Err NotImplementedError.
Proof. reflexivity. Qed.

(** ** The Jacobian is the derivative of the value *)

Lemma partial_ext F G z l D :
  (forall w, F w = G w) -> is_partial F z l D -> is_partial G z l D.
Proof. intros H HF. unfold is_partial. apply (derivable_ext (fun t => F (upd z l t))); auto. Qed.

Lemma partial_shift F x p l D :
  is_partial F (vsub p x) l D -> is_partial (fun q => F (vsub q x)) p l D.
Proof.
  unfold is_partial. intros H.
  apply (derivable_ext (fun t => F (upd (vsub p x) l (t - x l)))).
  { intros t. f_equal. apply functional_extensionality. intros c. unfold upd, vsub.
    destruct (Nat.eqb_spec c l); subst; reflexivity. }
  replace D with (D * (1 - 0)) by ring.
  apply (derivable_pt_lim_comp (fun t => t - x l) (fun t => F (upd (vsub p x) l t))).
  - apply (derivable_pt_lim_minus (fun t => t) (fun _ => x l)).
    + apply derivable_pt_lim_id.
    + apply derivable_pt_lim_const.
  - exact H.
Qed.

Lemma partial_shift_neg F x p l D :
  is_partial F (vsub x p) l D -> is_partial (fun q => F (vsub x q)) p l (- D).
Proof.
  unfold is_partial. intros H.
  apply (derivable_ext (fun t => F (upd (vsub x p) l (x l - t)))).
  { intros t. f_equal. apply functional_extensionality. intros c. unfold upd, vsub.
    destruct (Nat.eqb_spec c l); subst; reflexivity. }
  replace (- D) with (D * (0 - 1)) by ring.
  apply (derivable_pt_lim_comp (fun t => x l - t) (fun t => F (upd (vsub x p) l t))).
  - apply (derivable_pt_lim_minus (fun _ => x l) (fun t => t)).
    + apply derivable_pt_lim_const.
    + apply derivable_pt_lim_id.
  - exact H.
Qed.

Lemma partial_rsum n (F : nat -> (nat -> R) -> R) z l D :
  (forall i, (i < n)%nat -> is_partial (F i) z l (D i)) ->
  is_partial (fun w => rsum n (fun i => F i w)) z l (rsum n D).
Proof. intros H. apply (derivable_rsum n (fun i t => F i (upd z l t))). exact H. Qed.

Lemma partial_scal_r c F z l D : is_partial F z l D -> is_partial (fun w => F w * c) z l (D * c).
Proof. intros H. apply (derivable_scal_r c (fun t => F (upd z l t))). exact H. Qed.

Lemma partial_scal c F z l D : is_partial F z l D -> is_partial (fun w => c * F w) z l (c * D).
Proof. intros H. apply (derivable_scal c (fun t => F (upd z l t))). exact H. Qed.

Lemma partial_opp F z l D : is_partial F z l D -> is_partial (fun w => - F w) z l (- D).
Proof. intros H. apply (derivable_pt_lim_opp (fun t => F (upd z l t))). exact H. Qed.

Lemma partial_plus F G z l D E :
  is_partial F z l D -> is_partial G z l E -> is_partial (fun w => F w + G w) z l (D + E).
Proof.
  intros H1 H2. apply (derivable_pt_lim_plus (fun t => F (upd z l t)) (fun t => G (upd z l t))); assumption.
Qed.

Lemma partial_const c z l : is_partial (fun _ => c) z l 0.
Proof. apply derivable_pt_lim_const. Qed.

Lemma partial_coord c z l : is_partial (fun w => w c) z l (delta c l).
Proof.
  unfold is_partial, delta. destruct (Nat.eqb_spec c l) as [->|Hne].
  - apply (derivable_ext (fun t => t)); [intros t; rewrite upd_same; reflexivity|].
    apply derivable_pt_lim_id.
  - apply (derivable_ext (fun _ => z c)); [intros t; rewrite upd_other by assumption; reflexivity|].
    apply derivable_pt_lim_const.
Qed.

Lemma fval_partial d f p a l :
  wf_field d f -> (a < d)%nat -> (l < d)%nat ->
  is_partial (fun q => fval d f q a) p l (fjac d f p a l).
Proof.
  intros Hwf Ha Hl. revert Hwf.
  induction f as [b s m sg|b s m u sg|b s m sg|b s m sg|b s m sg|A x0 u|m|d'|fs IH] using sfield_ind';
    intros Hwf; cbn [wf_field fval fjac] in *.
  - destruct Hwf as (Hs & _). apply partial_rsum. intros j Hj. apply partial_scal_r.
    apply partial_shift. apply partial_gaussian; assumption.
  - destruct Hwf as (Hs & _). apply partial_rsum. intros j Hj. apply partial_scal_r.
    apply partial_rsum. intros c Hc. apply partial_scal_r. apply partial_opp.
    apply (partial_shift (fun w => dgauss d sg w c)). apply partial_dgauss; assumption.
  - destruct Hwf as (Hs & _). apply partial_rsum. intros j Hj. apply partial_scal_r.
    apply (partial_shift_neg (fun w => dgauss d sg w a)). apply partial_dgauss; assumption.
  - destruct Hwf as (Hs & _). apply partial_rsum. intros j Hj.
    apply partial_rsum. intros c Hc. apply partial_scal. apply partial_opp.
    apply (partial_shift (fun w => dgauss d sg w c)). apply partial_dgauss; assumption.
  - destruct Hwf as (Hs & _). apply partial_rsum. intros j Hj.
    apply partial_rsum. intros c Hc. apply partial_scal. apply partial_opp.
    apply (partial_shift (fun w => dgauss d sg w c)). apply partial_dgauss; assumption.
  - replace (A @2 a l) with (rsum d (fun c => A @2 a c * (delta c l - 0)) + 0).
    + apply partial_plus; [|apply partial_const].
      apply partial_rsum. intros c Hc. apply partial_scal.
      apply (partial_ext (fun w => w c + - x0 @1 c)); [intros; ring|].
      replace (delta c l - 0) with (delta c l + 0) by ring.
      apply partial_plus; [apply partial_coord | apply partial_const].
    + rewrite Rplus_0_r.
      rewrite (rsum_ext d _ (fun c => delta c l * A @2 a c)) by (intros; ring).
      apply rsum_delta_l. assumption.
  - apply partial_const.
  - apply partial_const.
  - destruct Hwf as (_ & Hwf). apply fr_and in Hwf.
    induction IH as [|f fs Hf _ IHf]; cbn [fold_right].
    + apply partial_const.
    + inversion Hwf; subst. apply partial_plus; auto.
Qed.

Lemma fjac_partial d f p a l l' :
  wf_field d f -> has2 f -> (a < d)%nat -> (l < d)%nat -> (l' < d)%nat ->
  is_partial (fun q => fjac d f q a l) p l' (fhess d f p a l l').
Proof.
  intros Hwf Hh Ha Hl Hl'. revert Hwf Hh.
  induction f as [b s m sg|b s m u sg|b s m sg|b s m sg|b s m sg|A x0 u|m|d'|fs IH] using sfield_ind';
    intros Hwf Hh; cbn [wf_field fjac fhess has2] in *; try (destruct Hh; fail); try apply partial_const.
  - destruct Hwf as (Hs & _). apply partial_rsum. intros j Hj. apply partial_scal_r.
    apply (partial_shift (fun w => dgauss d sg w l)). apply partial_dgauss; assumption.
  - destruct Hwf as (_ & Hwf). apply fr_and in Hwf. apply fr_and in Hh.
    induction IH as [|f fs Hf _ IHf]; cbn [fold_right].
    + apply partial_const.
    + inversion Hwf; inversion Hh; subst. apply partial_plus; auto.
Qed.

(** The value depends only on the first [d] coordinates of the point. *)
Lemma fval_ext d f p q a :
  (a < d)%nat -> (forall c, (c < d)%nat -> p c = q c) -> fval d f p a = fval d f q a.
Proof.
  intros Ha H.
  induction f as [b s m sg|b s m u sg|b s m sg|b s m sg|b s m sg|A x0 u|m|d'|fs IH] using sfield_ind';
    cbn [fval].
  - apply rsum_ext. intros j _. f_equal. apply gaussian_ext. intros c Hc. unfold vsub. rewrite H by assumption. reflexivity.
  - apply rsum_ext. intros j _. f_equal. apply rsum_ext. intros c Hc. do 2 f_equal.
    apply dgauss_ext; [assumption|]. intros c' Hc'. unfold vsub. rewrite H by assumption. reflexivity.
  - apply rsum_ext. intros j _. f_equal. apply dgauss_ext; [assumption|]. intros c Hc. unfold vsub. rewrite H by assumption. reflexivity.
  - apply rsum_ext. intros j _. apply rsum_ext. intros c Hc. do 2 f_equal.
    apply dgauss_ext; [assumption|]. intros c' Hc'. unfold vsub. rewrite H by assumption. reflexivity.
  - apply rsum_ext. intros j _. apply rsum_ext. intros c Hc. do 2 f_equal.
    apply dgauss_ext; [assumption|]. intros c' Hc'. unfold vsub. rewrite H by assumption. reflexivity.
  - f_equal. apply rsum_ext. intros c Hc. rewrite H by assumption. reflexivity.
  - reflexivity.
  - reflexivity.
  - induction IH as [|f fs Hf _ IHf]; cbn [fold_right]; [reflexivity|]. rewrite Hf, IHf. reflexivity.
Qed.

(** ** Independence of the back end *)

Lemma fval_backend d b f p a : fval d (with_backend b f) p a = fval d f p a.
Proof.
  induction f as [| | | | | | | |fs IH] using sfield_ind'; cbn [with_backend fval]; try reflexivity.
  induction IH as [|f fs Hf _ IHf]; cbn [map fold_right]; [reflexivity|]. rewrite Hf, IHf. reflexivity.
Qed.

Lemma fjac_backend d b f p a l : fjac d (with_backend b f) p a l = fjac d f p a l.
Proof.
  induction f as [| | | | | | | |fs IH] using sfield_ind'; cbn [with_backend fjac]; try reflexivity.
  induction IH as [|f fs Hf _ IHf]; cbn [map fold_right]; [reflexivity|]. rewrite Hf, IHf. reflexivity.
Qed.

Lemma wf_backend d b f : wf_field d f -> wf_field d (with_backend b f).
Proof.
  induction f as [| | | | | | | |fs IH] using sfield_ind'; cbn [with_backend wf_field]; auto.
  intros (Hne & H). split; [destruct fs; [congruence|discriminate]|].
  apply fr_and in H. apply fr_and. apply Forall_map.
  clear Hne. induction IH as [|f fs Hf _ IHf]; inversion H; subst; constructor; auto.
Qed.
