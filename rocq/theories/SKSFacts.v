(** Facts about eta and the SKS matrices. *)
From Coq Require Import Reals String List Arith Lia Lra.
From Verif Require Import Py RSum Tensor TensorFacts KernelModel SpecKernel KernelFacts SpecLinAlg LinAlg
  GaussPSD GaussHermite FieldModel SpecField FieldFacts SpecSKS.
Import ListNotations.
Open Scope R_scope.

(** ** eta *)

Lemma cst_sq : cst * cst = 1 / 2.
Proof.
  unfold cst. replace (1 / sqrt 2 * (1 / sqrt 2)) with (1 / (sqrt 2 * sqrt 2)).
  - rewrite sqrt_sqrt by lra. reflexivity.
  - field. apply Rgt_not_eq. apply sqrt_lt_R0. lra.
Qed.

(** What is used of the basis. *)
Definition basis (d s : nat) (e : tensor) : Prop :=
  shape e = [d; d; s] /\
  (forall i j t, (i < d)%nat -> (j < d)%nat -> (t < s)%nat -> e @3 i j t = e @3 j i t) /\
  (forall t u, (t < s)%nat -> (u < s)%nat -> frob d (bmat e t) (bmat e u) = delta t u) /\
  (forall i j k l, (i < d)%nat -> (j < d)%nat -> (k < d)%nat -> (l < d)%nat ->
     rsum s (fun t => e @3 i j t * e @3 k l t) = (delta i k * delta j l + delta i l * delta j k) / 2).

Ltac small i := destruct i as [|i]; [|try lia].

Lemma eta_basis d e : eta d = Ok e -> basis d (sym_dim d) e.
Proof.
  destruct d as [|[|[|[|d]]]]; try discriminate; intros H; injection H as <-.
  - pose proof cst_sq as Hc. split; [reflexivity|]. split; [|split].
    + intros i j t Hi Hj Ht. change (sym_dim 2) with 3%nat in Ht.
      destruct i as [|[|i]]; try lia; destruct j as [|[|j]]; try lia; destruct t as [|[|[|t]]]; try lia; reflexivity.
    + intros t u Ht Hu. change (sym_dim 2) with 3%nat in *.
      destruct t as [|[|[|t]]]; try lia; destruct u as [|[|[|u]]]; try lia; unfold frob, bmat, delta; cbn -[cst]; nra.
    + intros i j k l Hi Hj Hk Hl. change (sym_dim 2) with 3%nat.
      destruct i as [|[|i]]; try lia; destruct j as [|[|j]]; try lia;
      destruct k as [|[|k]]; try lia; destruct l as [|[|l]]; try lia; unfold delta; cbn -[cst]; nra.
  - pose proof cst_sq as Hc. split; [reflexivity|]. split; [|split].
    + intros i j t Hi Hj Ht. change (sym_dim 3) with 6%nat in Ht.
      destruct i as [|[|[|i]]]; try lia; destruct j as [|[|[|j]]]; try lia;
      destruct t as [|[|[|[|[|[|t]]]]]]; try lia; reflexivity.
    + intros t u Ht Hu. change (sym_dim 3) with 6%nat in *.
      destruct t as [|[|[|[|[|[|t]]]]]]; try lia; destruct u as [|[|[|[|[|[|u]]]]]]; try lia;
      unfold frob, bmat, delta; cbn -[cst]; lra.
    + intros i j k l Hi Hj Hk Hl. change (sym_dim 3) with 6%nat.
      destruct i as [|[|[|i]]]; try lia; destruct j as [|[|[|j]]]; try lia;
      destruct k as [|[|[|k]]]; try lia; destruct l as [|[|[|l]]]; try lia; unfold delta; cbn -[cst]; lra.
Qed.

Lemma eta_ok d : (exists e, eta d = Ok e) <-> d = 2%nat \/ d = 3%nat.
Proof.
  split.
  - intros (e & H). destruct d as [|[|[|[|d]]]]; try discriminate; auto.
  - intros [-> | ->]; eexists; reflexivity.
Qed.

Lemma eta_err d : d <> 2%nat -> d <> 3%nat -> eta d = Err NotImplementedError.
Proof. intros H2 H3. destruct d as [|[|[|[|d]]]]; try reflexivity; lia. Qed.

Section Basis.
  Variables (d s : nat) (e : tensor).
  Hypothesis HB : basis d s e.

  Lemma b_sym i j t : (i < d)%nat -> (j < d)%nat -> (t < s)%nat -> e @3 i j t = e @3 j i t.
  Proof. apply HB. Qed.

  Lemma from_coords_sym lam : sym_mat d (from_coords s e lam).
  Proof. intros i j Hi Hj. unfold from_coords. apply rsum_ext. intros t Ht. rewrite b_sym by assumption. reflexivity. Qed.

  Lemma coords_from_coords lam t : (t < s)%nat -> coords d e (from_coords s e lam) t = lam t.
  Proof.
    intros Ht. unfold coords, frob, from_coords, bmat.
    transitivity (rsum s (fun u => lam u * frob d (bmat e u) (bmat e t))).
    - unfold frob, bmat.
      rewrite (rsum_ext d _ (fun i => rsum s (fun u => rsum d (fun j => lam u * (e @3 i j u * e @3 i j t))))).
      + rewrite rsum_swap. apply rsum_ext. intros u _. rewrite <- rsum_scal. apply rsum_ext. intros i _.
        rewrite <- rsum_scal. reflexivity.
      + intros i _. rewrite rsum_swap. apply rsum_ext. intros j _. rewrite <- rsum_scal_r. apply rsum_ext. intros; ring.
    - rewrite (rsum_ext s _ (fun u => delta u t * lam u)).
      + apply rsum_delta_l. assumption.
      + intros u Hu. destruct HB as (_ & _ & Ho & _). rewrite Ho by assumption. ring.
  Qed.

  Lemma from_coords_coords M i j : (i < d)%nat -> (j < d)%nat ->
    from_coords s e (coords d e M) i j = sym_part M i j.
  Proof.
    intros Hi Hj. unfold from_coords, coords, frob, bmat, sym_part.
    transitivity (rsum d (fun k => rsum d (fun l => M k l * rsum s (fun t => e @3 k l t * e @3 i j t)))).
    - rewrite (rsum_ext s _ (fun t => rsum d (fun k => rsum d (fun l => M k l * (e @3 k l t * e @3 i j t))))).
      + rewrite rsum_swap. apply rsum_ext. intros k _. rewrite rsum_swap. apply rsum_ext. intros l _.
        rewrite <- rsum_scal. reflexivity.
      + intros t _. rewrite <- rsum_scal_r. apply rsum_ext. intros k _. rewrite <- rsum_scal_r. apply rsum_ext. intros; ring.
    - transitivity (rsum d (fun k => delta k i * (M k j / 2) + delta k j * (M k i / 2))).
      + apply rsum_ext. intros k Hk.
        rewrite (rsum_ext d _ (fun l => delta l j * (M k l * delta k i / 2) + delta l i * (M k l * delta k j / 2))).
        * rewrite rsum_plus, !rsum_delta_l by assumption. field.
        * intros l Hl. destruct HB as (_ & _ & _ & Hc). rewrite Hc by assumption.
          field.
      + rewrite rsum_plus, !rsum_delta_l by assumption. field.
  Qed.

  Lemma coords_sym_part M t : (t < s)%nat -> coords d e (sym_part M) t = coords d e M t.
  Proof.
    intros Ht. unfold coords, frob, sym_part, bmat.
    transitivity ((rsum d (fun i => rsum d (fun j => M i j * e @3 i j t))
                 + rsum d (fun i => rsum d (fun j => M j i * e @3 i j t))) / 2).
    - unfold Rdiv. rewrite <- rsum_plus, <- rsum_scal_r. apply rsum_ext. intros i _.
      rewrite <- rsum_plus, <- rsum_scal_r. apply rsum_ext. intros; field.
    - rewrite (rsum_swap d d (fun i j => M j i * e @3 i j t)).
      rewrite (rsum_ext d (fun j => rsum d (fun i => M j i * e @3 i j t)) (fun i => rsum d (fun j => M i j * e @3 i j t))).
      + lra.
      + intros i Hi. apply rsum_ext. intros j Hj. rewrite (b_sym j i) by assumption. reflexivity.
  Qed.
End Basis.

(** ** The order-1 matrix *)

Definition sks_entry (d : nat) (e : tensor) (sigma : R) (z : nat -> R) (t w : nat) : R :=
  - rsum d (fun a => rsum d (fun b => rsum d (fun r => e @3 b r t * e @3 a r w) * d2gauss d sigma z a b)).

Lemma u_tensor_get d s e t u m n : shape e = [d; d; s] ->
  (t < s)%nat -> (u < s)%nat -> (m < d)%nat -> (n < d)%nat ->
  (u_tensor d e) @4 t u m n = rsum d (fun r => e @3 n r t * e @3 m r u).
Proof.
  destruct e as [se e]. cbn [shape]. intros -> Ht Hu Hm Hn.
  unfold u_tensor, einsum. cbn -[rsum delta].
  match goal with |- rsum d ?F = _ => rewrite (rsum_ext d F (fun r => e [n; r; t] * e [m; r; u])) end; [reflexivity|].
  intros r Hr.
  first [ rewrite (rsum_ext d _ (fun q => delta q r * (e [n; q; t] * e [m; r; u])));
          [rewrite rsum_delta_l by assumption; reflexivity|intros q Hq; rewrite ?(delta_sym r q); ring]
        | rewrite (rsum_ext d _ (fun q => delta q r * (e [n; r; t] * e [m; q; u])));
          [rewrite rsum_delta_l by assumption; reflexivity|intros q Hq; rewrite ?(delta_sym r q); ring] ].
Qed.

Lemma u_tensor_shape d s e : shape e = [d; d; s] -> shape (u_tensor d e) = [s; s; d; d].
Proof. destruct e as [se e]. cbn [shape]. intros ->. reflexivity. Qed.

Lemma einsum_sks u g s d M n o p : shape u = [s; s; d; d] -> shape g = [M; d; d] ->
  get (einsum "opij, nij -> nop" [u; g]) [n; o; p] =
  rsum d (fun i => rsum d (fun j => u @4 o p i j * g @3 n i j)).
Proof.
  destruct u as [su u], g as [sg g]. cbn [shape]. intros -> ->. unfold einsum. cbn -[rsum].
  first [ apply rsum_ext; intros i _; apply rsum_ext; intros j _; ring
        | rewrite rsum_swap; apply rsum_ext; intros i _; apply rsum_ext; intros j _; ring ].
Qed.

Lemma einsum_sks_shape u g s d M : shape u = [s; s; d; d] -> shape g = [M; d; d] ->
  shape (einsum "opij, nij -> nop" [u; g]) = [M; s; s].
Proof. destruct u as [su u], g as [sg g]. cbn [shape]. intros -> ->. reflexivity. Qed.

Lemma sks_get x N d e sigma : sigma <> 0 -> shape x = [N; d] -> basis d (sym_dim d) e ->
  let s := sym_dim d in
  exists S, compute_sks x sigma 1 (u_tensor d e) = Ok S /\ shape S = [(s * N)%nat; (s * N)%nat] /\
    forall i j t w, (i < N)%nat -> (j < N)%nat -> (t < s)%nat -> (w < s)%nat ->
      S @2 (i * s + t)%nat (j * s + w)%nat = sks_entry d e sigma (vsub (vrow x i) (vrow x j)) t w.
Proof.
  intros Hs Hx HB s. pose proof HB as (He & _).
  destruct (ker_pair2 x x N N d sigma Hs Hx Hx) as (ker & E & Hk & Hg).
  unfold compute_sks. rewrite E. cbn [bind].
  unfold nrows, ncols. rewrite Hx. cbn [tnth nth]. fold s.
  eexists. split; [reflexivity|]. split; [reflexivity|].
  intros i j t w Hi Hj Ht Hw.
  pose proof (u_tensor_shape d s e He) as Hu.
  set (Kt := einsum "opij, nij -> nop" [u_tensor d e; topp ker]).
  assert (HK : shape Kt = [(N * N)%nat; s; s]) by (apply einsum_sks_shape with (d := d); [assumption|exact Hk]).
  rewrite (get_reshape _ _ [(i * s + t)%nat; (j * s + w)%nat] [i; t; j; w]).
  - cbn [permute get map seq List.length index_of Nat.eqb tnth nth].
    rewrite (get_reshape [N; N; s; s] Kt [i; j; t; w] [(i * N + j)%nat; t; w]).
    + unfold Kt. rewrite (einsum_sks _ _ s d (N * N)) by assumption.
      unfold sks_entry. rewrite <- rsum_opp. apply rsum_ext. intros a Ha. rewrite <- rsum_opp. apply rsum_ext. intros b Hb.
      rewrite (u_tensor_get d s e) by assumption.
      cbn [topp tmap get].
      specialize (Hg i j a b Hi Hj Ha Hb). rewrite <- Hg.
      rewrite (get_reshape [N; N; d; d] ker [i; j; a; b] [(i * N + j)%nat; a; b]).
      * ring.
      * rewrite Hk. cbn. nia.
      * rewrite Hk. cbn. repeat split; try assumption. nia.
    + rewrite HK. cbn. nia.
    + rewrite HK. cbn. repeat split; try assumption. nia.
  - cbn [permute shape map tnth nth reshape]. cbn. rewrite !Nat.mul_1_r. nia.
  - cbn [permute shape map tnth nth reshape]. cbn. tauto.
Qed.

Lemma sks_entry_sym d e sigma x y t w : basis d (sym_dim d) e ->
  sks_entry d e sigma (vsub x y) t w = sks_entry d e sigma (vsub y x) w t.
Proof.
  intros HB. unfold sks_entry. f_equal. rewrite rsum_swap. apply rsum_ext. intros b _. apply rsum_ext. intros a _.
  rewrite (d2gauss_vsub_even d sigma x y), (d2gauss_sym d sigma _ a b). f_equal. apply rsum_ext. intros; ring.
Qed.

(** A square matrix of size s * N has rows (i, t). *)
Lemma row_split s N r : (r < s * N)%nat -> exists i t, (i < N)%nat /\ (t < s)%nat /\ r = (i * s + t)%nat.
Proof.
  intros H. destruct (Nat.eq_dec s 0) as [->|Hs]; [lia|].
  exists (r / s)%nat, (r mod s)%nat. split; [|split].
  - apply Nat.div_lt_upper_bound; lia.
  - apply Nat.mod_upper_bound. assumption.
  - rewrite (Nat.div_mod r s) at 1 by assumption. lia.
Qed.

Lemma quad_pairs s N S (L : nat -> nat -> nat -> nat -> R) f :
  (forall i j t w, (i < N)%nat -> (j < N)%nat -> (t < s)%nat -> (w < s)%nat ->
     S (i * s + t)%nat (j * s + w)%nat = L i j t w) ->
  quad (s * N) S f = rsum N (fun i => rsum N (fun j => rsum s (fun t => rsum s (fun w =>
     f (i * s + t)%nat * f (j * s + w)%nat * L i j t w)))).
Proof.
  intros H. unfold quad. rewrite (Nat.mul_comm s N). rewrite rsum_flat.
  apply rsum_ext. intros i Hi.
  rewrite (rsum_ext s _ (fun t => rsum N (fun j => rsum s (fun w => f (i * s + t)%nat * f (j * s + w)%nat * L i j t w)))).
  - rewrite rsum_swap. reflexivity.
  - intros t Ht. rewrite rsum_flat. apply rsum_ext. intros j Hj. apply rsum_ext. intros w Hw.
    rewrite H by assumption. reflexivity.
Qed.

Lemma mixed_ext d sg x y al be a b al' be' a' b' :
  al = al' -> be = be' -> (forall c, (c < d)%nat -> a c = a' c) -> (forall c, (c < d)%nat -> b c = b' c) ->
  mixed d sg x y al be a b = mixed d sg x y al' be' a' b'.
Proof.
  intros -> -> Ha Hb. unfold mixed. f_equal; [f_equal; [f_equal|]|].
  - f_equal. apply rsum_ext. intros c Hc. rewrite Ha by assumption. reflexivity.
  - f_equal. apply rsum_ext. intros c Hc. rewrite Hb by assumption. reflexivity.
  - apply rsum_ext. intros c Hc. apply rsum_ext. intros c' Hc'. rewrite Ha, Hb by assumption. reflexivity.
Qed.

(** The quadratic form of the SKS matrix is a sum of forms of gradients. *)
Lemma sks_quad_gen d s e sigma N x S lam :
  (forall i j t w, (i < N)%nat -> (j < N)%nat -> (t < s)%nat -> (w < s)%nat ->
     S (i * s + t)%nat (j * s + w)%nat = sks_entry d e sigma (vsub (x i) (x j)) t w) ->
  quad (s * N) S lam =
  rsum d (fun r => mixed_form d sigma N x (fun _ => 0)
     (fun i c => from_coords s e (fun t => lam (i * s + t)%nat) c r)).
Proof.
  intros H. rewrite (quad_pairs s N S (fun i j t w => sks_entry d e sigma (vsub (x i) (x j)) t w)) by exact H.
  unfold mixed_form. symmetry. rewrite rsum_swap. 
  apply rsum_ext. intros i Hi. rewrite rsum_swap. apply rsum_ext. intros j Hj. symmetry.
  unfold sks_entry, mixed. set (H2 := d2gauss d sigma (vsub (x i) (x j))).
  transitivity (rsum d (fun r => - rsum d (fun c => rsum d (fun c' =>
      from_coords s e (fun t => lam (i * s + t)%nat) c r * from_coords s e (fun t => lam (j * s + t)%nat) c' r * H2 c c')))).
  2: { apply rsum_ext. intros r _. ring. }
  rewrite rsum_opp.
  transitivity (rsum s (fun t => rsum s (fun w => - rsum d (fun r => rsum d (fun b => rsum d (fun a =>
     (lam (i * s + t)%nat * e @3 b r t) * (lam (j * s + w)%nat * e @3 a r w) * H2 b a)))))).
  { apply rsum_ext. intros t _. apply rsum_ext. intros w _.
    rewrite Ropp_mult_distr_r_reverse. f_equal. rewrite <- rsum_scal.
    rewrite (rsum_ext d _ (fun a => rsum d (fun b => rsum d (fun r =>
       (lam (i * s + t)%nat * e @3 b r t) * (lam (j * s + w)%nat * e @3 a r w) * H2 b a)))).
    - rewrite rsum_swap. rewrite (rsum_ext d _ (fun b => rsum d (fun r => rsum d (fun a =>
       (lam (i * s + t)%nat * e @3 b r t) * (lam (j * s + w)%nat * e @3 a r w) * H2 b a)))) by (intros; apply rsum_swap).
      rewrite rsum_swap. reflexivity.
    - intros a _. rewrite <- rsum_scal. apply rsum_ext. intros b _. rewrite <- rsum_scal_r, <- rsum_scal.
      apply rsum_ext. intros r _. unfold H2. rewrite (d2gauss_sym d sigma _ a b). ring. }
  rewrite (rsum_ext s _ (fun t => - rsum s (fun w => rsum d (fun r => rsum d (fun b => rsum d (fun a =>
     (lam (i * s + t)%nat * e @3 b r t) * (lam (j * s + w)%nat * e @3 a r w) * H2 b a)))))) by (intros; apply rsum_opp).
  rewrite rsum_opp. f_equal.
  (* bring r, b, a outside *)
  rewrite (rsum_ext s _ (fun t => rsum d (fun r => rsum s (fun w => rsum d (fun b => rsum d (fun a =>
     (lam (i * s + t)%nat * e @3 b r t) * (lam (j * s + w)%nat * e @3 a r w) * H2 b a)))))) by (intros; apply rsum_swap).
  rewrite rsum_swap. apply rsum_ext. intros r _.
  rewrite (rsum_ext s _ (fun t => rsum d (fun b => rsum s (fun w => rsum d (fun a =>
     (lam (i * s + t)%nat * e @3 b r t) * (lam (j * s + w)%nat * e @3 a r w) * H2 b a))))) by (intros; apply rsum_swap).
  rewrite rsum_swap. apply rsum_ext. intros b _.
  rewrite (rsum_ext s _ (fun t => rsum d (fun a => rsum s (fun w =>
     (lam (i * s + t)%nat * e @3 b r t) * (lam (j * s + w)%nat * e @3 a r w) * H2 b a)))) by (intros; apply rsum_swap).
  rewrite rsum_swap. apply rsum_ext. intros a _.
  unfold from_coords. rewrite rsum_mult, <- rsum_scal_r. apply rsum_ext. intros t _.
  rewrite <- rsum_scal_r. reflexivity.
Qed.

Lemma sks_quad d e sigma N x S lam : basis d (sym_dim d) e ->
  let s := sym_dim d in
  (forall i j t w, (i < N)%nat -> (j < N)%nat -> (t < s)%nat -> (w < s)%nat ->
     S (i * s + t)%nat (j * s + w)%nat = sks_entry d e sigma (vsub (x i) (x j)) t w) ->
  quad (s * N) S lam =
  rsum d (fun r => mixed_form d sigma N x (fun _ => 0)
     (fun i c => from_coords s e (fun t => lam (i * s + t)%nat) c r)).
Proof. intros _ s H. apply sks_quad_gen. exact H. Qed.

Lemma sks_properties x N d e sigma : sigma <> 0 -> shape x = [N; d] -> eta d = Ok e ->
  let s := sym_dim d in
  exists S, compute_sks x sigma 1 (u_tensor d e) = Ok S /\ shape S = [(s * N)%nat; (s * N)%nat] /\
    symmetric (s * N) (entries S) /\ psd (s * N) (entries S) /\
    (distinct d N (vrow x) -> pd (s * N) (entries S)).
Proof.
  intros Hs Hx He s. pose proof (eta_basis d e He) as HB.
  destruct (sks_get x N d e sigma Hs Hx HB) as (S & E & Hsh & Hg). fold s in Hsh, Hg.
  exists S. split; [assumption|]. split; [assumption|]. split; [|split].
  - intros r q Hr Hq.
    destruct (row_split s N r Hr) as (i & t & Hi & Ht & ->).
    destruct (row_split s N q Hq) as (j & w & Hj & Hw & ->).
    unfold entries. rewrite !Hg by assumption. apply sks_entry_sym. assumption.
  - intros f. unfold s. rewrite (sks_quad d e sigma N (vrow x) (entries S) f HB Hg).
    apply rsum_nonneg. intros r _. apply mixed_form_nonneg. assumption.
  - intros Hd f (k & Hk & Hf).
    assert (Hq := sks_quad d e sigma N (vrow x) (entries S) f HB Hg). fold s in Hq. rewrite Hq.
    match goal with |- 0 < rsum d ?F =>
      assert (Hnn : forall r, (r < d)%nat -> 0 <= F r) by (intros r _; apply mixed_form_nonneg; assumption);
      destruct (rsum_nonneg d F Hnn) as [Hpos|Hz]; [exact Hpos|exfalso] end.
    apply Hf. destruct (row_split s N k Hk) as (i & t & Hi & Ht & ->).
    rewrite <- (coords_from_coords d s e HB (fun t => f (i * s + t)%nat) t Ht).
    unfold coords, frob. apply rsum_zero. intros c Hc. apply rsum_zero. intros r Hr.
    symmetry in Hz. pose proof (rsum_nonneg_zero d _ Hnn Hz r Hr) as Hzr. cbn beta in Hzr.
    destruct (mixed_form_zero d N sigma (vrow x) Hs _ _ Hd Hzr i Hi) as (_ & Ha).
    specialize (Ha c Hc). cbn beta in Ha. rewrite Ha. ring.
Qed.

(** ** The matrix computes strains *)

Definition sym_tensor (d s : nat) (e : tensor) : Prop :=
  forall i j t, (i < d)%nat -> (j < d)%nat -> (t < s)%nat -> e @3 i j t = e @3 j i t.

Lemma jac_coords x N d s e sigma b lam p t : shape x = [N; d] -> sym_tensor d s e -> (t < s)%nat ->
  coords d e (fjac d (SF_p b x (moments_of N d s e lam) sigma) p) t =
  rsum N (fun j => rsum s (fun w => sks_entry d e sigma (vsub p (vrow x j)) t w * lam (j * s + w)%nat)).
Proof.
  intros Hx HB Ht. unfold coords, frob, bmat. cbn [fjac]. rewrite (rsum_ext d _ (fun a => rsum N (fun j => rsum d (fun l => rsum d (fun c =>
     - (from_coords s e (fun w => lam (j * s + w)%nat) a c * e @3 a l t * d2gauss d sigma (vsub p (vrow x j)) c l)))))).
  - rewrite rsum_swap. apply rsum_ext. intros j Hj.
    unfold sks_entry. set (H2 := d2gauss d sigma (vsub p (vrow x j))).
    transitivity (rsum s (fun w => rsum d (fun a => rsum d (fun l => rsum d (fun c =>
        - (lam (j * s + w)%nat * e @3 a c w * e @3 a l t * H2 c l)))))).
    + symmetry. rewrite rsum_swap. apply rsum_ext. intros a _. rewrite rsum_swap. apply rsum_ext. intros l _.
      rewrite rsum_swap. apply rsum_ext. intros c _. rewrite rsum_opp. f_equal. unfold from_coords.
      rewrite !rsum_scal_r. reflexivity.
    + apply rsum_ext. intros w Hw. rewrite Ropp_mult_distr_l_reverse.
      rewrite <- rsum_scal_r. rewrite <- rsum_opp.
      (* sum over a, l, c  =  sum over c, l, a *)
      rewrite (rsum_ext d _ (fun a => rsum d (fun c => rsum d (fun l =>
        - (lam (j * s + w)%nat * e @3 a c w * e @3 a l t * H2 c l))))) by (intros; apply rsum_swap).
      rewrite rsum_swap. apply rsum_ext. intros c Hc. rewrite <- rsum_scal_r, <- rsum_opp. rewrite rsum_swap.
      apply rsum_ext. intros l Hl. rewrite <- !rsum_scal_r, <- rsum_opp. apply rsum_ext. intros r Hr.
      rewrite (HB l r t), (HB c r w) by assumption. ring.
  - intros a Ha.
    rewrite (rsum_ext d _ (fun l => rsum N (fun j => rsum d (fun c =>
      - (from_coords s e (fun w => lam (j * s + w)%nat) a c * e @3 a l t * d2gauss d sigma (vsub p (vrow x j)) c l))))).
    + apply rsum_swap.
    + intros l Hl. rewrite (rsum_nrows x N d) by assumption.
      rewrite <- rsum_scal_r. apply rsum_ext. intros j Hj. rewrite <- rsum_scal_r. apply rsum_ext. intros c Hc.
      unfold symP. cbn [moments_of mk3 get].
      replace (from_coords s e (fun t => lam (j * s + t)%nat) c a) with (from_coords s e (fun t => lam (j * s + t)%nat) a c).
      2:{ unfold from_coords. apply rsum_ext. intros w Hw. rewrite HB by assumption. reflexivity. }
      field.
Qed.

Lemma strain_coords x N d e sigma b lam i t : shape x = [N; d] -> basis d (sym_dim d) e ->
  let s := sym_dim d in (i < N)%nat -> (t < s)%nat ->
  coords d e (strain d (SF_p b x (moments_of N d s e lam) sigma) (vrow x i)) t =
  rsum N (fun j => rsum s (fun w => sks_entry d e sigma (vsub (vrow x i) (vrow x j)) t w * lam (j * s + w)%nat)).
Proof.
  intros Hx HB s Hi Ht. unfold strain. rewrite (coords_sym_part d s e HB) by assumption.
  apply jac_coords; [assumption| |assumption]. intros a c u. apply (b_sym d s e HB).
Qed.

Lemma sks_strain x N d e sigma : sigma <> 0 -> shape x = [N; d] -> eta d = Ok e ->
  let s := sym_dim d in
  exists S, compute_sks x sigma 1 (u_tensor d e) = Ok S /\
    forall b lam i, (i < N)%nat ->
      let f := SF_p b x (moments_of N d s e lam) sigma in
      wf_field d f /\
      (forall t, (t < s)%nat ->
        rsum (s * N) (fun q => S @2 (i * s + t)%nat q * lam q) = coords d e (strain d f (vrow x i)) t) /\
      (forall a c, (a < d)%nat -> (c < d)%nat ->
        strain d f (vrow x i) a c =
        from_coords s e (fun t => rsum (s * N) (fun q => S @2 (i * s + t)%nat q * lam q)) a c).
Proof.
  intros Hs Hx He s. pose proof (eta_basis d e He) as HB.
  destruct (sks_get x N d e sigma Hs Hx HB) as (S & E & Hsh & Hg). fold s in Hg.
  exists S. split; [assumption|]. intros b lam i Hi f.
  assert (H : forall t, (t < s)%nat ->
        rsum (s * N) (fun q => S @2 (i * s + t)%nat q * lam q) = coords d e (strain d f (vrow x i)) t).
  { intros t Ht. unfold f, s. rewrite (strain_coords x N d e sigma b lam i t Hx HB Hi Ht).
    fold s. rewrite (Nat.mul_comm s N), rsum_flat. apply rsum_ext. intros j Hj. apply rsum_ext. intros w Hw.
    rewrite Hg by assumption. reflexivity. }
  split; [|split].
  - split; [assumption|]. exists N. split; [assumption|reflexivity].
  - exact H.
  - intros a c Ha Hc. transitivity (from_coords s e (coords d e (strain d f (vrow x i))) a c).
    + rewrite (from_coords_coords d s e HB) by assumption. unfold strain, sym_part. field.
    + unfold from_coords. apply rsum_ext. intros t Ht. rewrite H by assumption. reflexivity.
Qed.

(** ** Order 0 and refused orders *)

Lemma sks_order0 x N d sigma u : sigma <> 0 -> shape x = [N; d] ->
  exists S, compute_sks x sigma 0 u = Ok S /\ shape S = [(d * N)%nat; (d * N)%nat] /\
    forall i j a b, (i < N)%nat -> (j < N)%nat -> (a < d)%nat -> (b < d)%nat ->
      S @2 (i * d + a)%nat (j * d + b)%nat = entries (K_xx x sigma) i j * delta a b.
Proof.
  intros Hs Hx. unfold compute_sks.
  assert (Hr : shape (rel_differences x x) = [(N * N)%nat; d]).
  { unfold rel_differences. cbn. unfold nrows, ncols. rewrite Hx. reflexivity. }
  destruct (gauss_kernel_0 _ _ _ sigma Hs Hr) as (g & E & Hg0 & Hg). rewrite E. cbn [bind].
  unfold nrows, ncols. rewrite Hx. cbn [tnth nth]. eexists. split; [reflexivity|]. split; [reflexivity|].
  intros i j a b Hi Hj Ha Hb.
  set (T := einsum "ij, kl -> ijkl" [reshape [N; N] g; eye d]).
  assert (HT : shape T = [N; N; d; d]) by reflexivity.
  rewrite (get_reshape _ _ [(i * d + a)%nat; (j * d + b)%nat] [i; a; j; b]).
  - cbn [permute get map seq List.length index_of Nat.eqb tnth nth].
    replace (get T [i; j; a; b]) with (get (reshape [N; N] g) [i; j] * delta a b)
      by (unfold T, einsum; cbn -[delta reshape]; ring).
    f_equal. rewrite (get_reshape [N; N] g [i; j] [(i * N + j)%nat]).
    + rewrite Hg. rewrite (K_xx_entries x N d sigma) by assumption. unfold G.
      apply gaussian_ext. intros c Hc. unfold vrow.
      rewrite (rel_differences_get x x N N d) by assumption. reflexivity.
    + rewrite Hg0. cbn. lia.
    + rewrite Hg0. cbn. split; [nia|exact I].
  - cbn [permute shape map tnth nth reshape]. rewrite HT. cbn. rewrite !Nat.mul_1_r. nia.
  - cbn [permute shape map tnth nth reshape]. rewrite HT. cbn. tauto.
Qed.

Lemma sks_refused x sigma k u : (2 <= k)%nat -> compute_sks x sigma k u = Err NotImplementedError.
Proof. intros H. destruct k as [|[|k]]; try lia. reflexivity. Qed.

(** ** KeOps version *)

Lemma rep_rows_get x N d s i t c : shape x = [N; d] -> (i < N)%nat -> (t < s)%nat -> (c < d)%nat ->
  (rep_rows x s) @2 (i * s + t)%nat c = x @2 i c.
Proof.
  intros Hx Hi Ht Hc. unfold rep_rows, nrows, ncols. rewrite Hx. cbn [tnth nth].
  rewrite (get_reshape [(N * s)%nat; d] _ [(i * s + t)%nat; c] [i; (t * d + c)%nat]).
  - cbn [mk2 get]. rewrite mod_pair by assumption. reflexivity.
  - cbn. nia.
  - cbn. repeat split; try assumption. nia.
Qed.

Lemma contract_ohot s r c o p : (o < s)%nat -> (p < s)%nat ->
  (reshape [s; s] (k_tensordot (one_hot r s) (one_hot c s) [s] [s] [] [])) @2 o p
  = delta (r mod s) o * delta (c mod s) p.
Proof.
  intros Ho Hp. unfold k_tensordot.
  set (T := tensordot _ _ _ _).
  assert (HT : shape T = [s; s]) by reflexivity.
  rewrite (get_reshape [s; s] (tflatten T) [o; p] [(o * s + p)%nat]).
  - replace (o * s + p)%nat with (ravel (shape T) [o; p]) by (rewrite HT; cbn; lia).
    rewrite get_flatten by (rewrite HT; cbn; auto).
    unfold T. rewrite (contract_vv _ _ s s) by reflexivity.
    rewrite (get_reshape [s] (one_hot r s) [o] [o]) by (cbn; auto).
    rewrite (get_reshape [s] (one_hot c s) [p] [p]) by (cbn; auto). reflexivity.
  - cbn [tflatten reshape shape]. rewrite ?HT. cbn. nia.
  - cbn [tflatten reshape shape]. rewrite ?HT. cbn. split; [nia|exact I].
Qed.

Lemma contract_22 V Q n m p q : shape V = [n; m] -> shape Q = [n; m; p; q] -> forall a b,
  get (tensordot V Q [0; 1]%nat [0; 1]%nat) [a; b] = rsum n (fun i => rsum m (fun j => V @2 i j * Q @4 i j a b)).
Proof. destruct V as [sv V], Q as [sq Q]. cbn [shape]. intros -> -> a b. reflexivity. Qed.

Lemma contract_2 V Q n m : shape V = [n; m] -> shape Q = [n; m] ->
  get (tensordot V Q [0; 1]%nat [0; 1]%nat) [] = rsum n (fun i => rsum m (fun j => V @2 i j * Q @2 i j)).
Proof. destruct V as [sv V], Q as [sq Q]. cbn [shape]. intros -> ->. reflexivity. Qed.

Lemma sks_keops_get x N d e sigma : sigma <> 0 -> shape x = [N; d] -> basis d (sym_dim d) e ->
  let s := sym_dim d in
  exists S, compute_sks_keops x sigma 1 (u_tensor d e) = Ok S /\ shape S = [(N * s)%nat; (N * s)%nat] /\
    forall i j t w, (i < N)%nat -> (j < N)%nat -> (t < s)%nat -> (w < s)%nat ->
      S @2 (i * s + t)%nat (j * s + w)%nat = sks_entry d e sigma (vsub (vrow x i) (vrow x j)) t w.
Proof.
  intros Hs Hx HB s. pose proof HB as (He & _).
  unfold compute_sks_keops.
  replace (ncols x) with d by (unfold ncols; rewrite Hx; reflexivity).
  replace (nrows x) with N by (unfold nrows; rewrite Hx; reflexivity).
  fold s. eexists. split; [reflexivity|]. split; [reflexivity|].
  intros i j t w Hi Hj Ht Hw. cbn [mk2 get].
  pose proof (u_tensor_shape d s e He) as Hu.
  set (r := (i * s + t)%nat). set (c := (j * s + w)%nat).
  assert (Hrm : (r mod s)%nat = t) by (apply mod_pair; assumption).
  assert (Hcm : (c mod s)%nat = w) by (apply mod_pair; assumption).
  set (D := mk1 d (fun k => (rep_rows x s) @2 r k - (rep_rows x s) @2 c k)).
  set (Gs := exp (- (1 / sigma / sigma) * rsum d (fun k => D @1 k ^ 2) / 2)).
  set (V0 := k_tensordot (one_hot r s) (one_hot c s) [s] [s] [] []).
  set (V := k_tensordot V0 (tflatten (u_tensor d e)) [s; s] [s; s; d; d] [0; 1]%nat [0; 1]%nat).
  set (Rm := mk1 (d * d) _).
  assert (HD : forall k, (k < d)%nat -> D @1 k = vsub (vrow x i) (vrow x j) k).
  { intros k Hk. unfold D. cbn [mk1 get]. unfold r, c.
    rewrite !(rep_rows_get x N d s) by assumption. reflexivity. }
  assert (HG : Gs = gaussian d sigma (vsub (vrow x i) (vrow x j))).
  { unfold Gs, gaussian. f_equal. unfold sqn.
    rewrite (rsum_ext d (fun k => D @1 k ^ 2) (fun k => vsub (vrow x i) (vrow x j) k ^ 2)).
    - field. assumption.
    - intros k Hk. rewrite HD by assumption. reflexivity. }
  assert (HV : forall a b, (a < d)%nat -> (b < d)%nat ->
            (reshape [d; d] V) @2 a b = rsum d (fun r => e @3 b r t * e @3 a r w)).
  { intros a b Ha Hb. unfold V. unfold k_tensordot at 1.
    set (T := tensordot _ _ _ _).
    assert (HT : shape T = [d; d]) by reflexivity.
    rewrite (get_reshape [d; d] (tflatten T) [a; b] [(a * d + b)%nat]).
    - replace (a * d + b)%nat with (ravel (shape T) [a; b]) by (rewrite HT; cbn; lia).
      rewrite get_flatten by (rewrite HT; cbn; auto).
      unfold T. rewrite (contract_22 _ _ s s d d) by reflexivity.
      rewrite (rsum_ext s _ (fun o => delta o t * rsum s (fun p => delta p w *
         (reshape [s; s; d; d] (tflatten (u_tensor d e))) @4 o p a b))).
      + rewrite rsum_delta_l by assumption. rewrite rsum_delta_l by assumption.
        rewrite <- (u_tensor_get d s e t w a b He Ht Hw Ha Hb).
        assert (Hv : valid (shape (u_tensor d e)) [t; w; a; b]) by (rewrite Hu; cbn; auto).
        rewrite <- (get_flatten (u_tensor d e) [t; w; a; b] Hv).
        apply get_reshape.
        * cbn [ravel]. rewrite Hu. cbn. lia.
        * cbn [tflatten reshape shape]. split; [|exact I]. apply ravel_lt. exact Hv.
      + intros o Ho. rewrite <- rsum_scal. apply rsum_ext. intros p Hp. unfold V0.
        rewrite contract_ohot by assumption. rewrite Hrm, Hcm, (delta_sym t o), (delta_sym w p). ring.
    - cbn [tflatten reshape shape]. rewrite ?HT. cbn. nia.
    - cbn [tflatten reshape shape]. rewrite ?HT. cbn. split; [nia|exact I]. }
  unfold k_tensordot at 1. set (T := tensordot _ _ _ _).
  assert (HT : shape T = []) by reflexivity.
  change 0%nat with (ravel (shape T) []) at 1. rewrite get_flatten by exact I.
  unfold T. rewrite (contract_2 _ _ d d) by reflexivity.
  unfold sks_entry. rewrite <- rsum_opp. apply rsum_ext. intros a Ha. rewrite <- rsum_opp. apply rsum_ext. intros b Hb.
  rewrite HV by assumption.
  rewrite (get_reshape [d; d] Rm [a; b] [(a * d + b)%nat]); [| cbn; lia | cbn; split; [nia|exact I]].
  unfold Rm. cbn [mk1 get].
  pose proof (get_tensorprod D D d d a b eq_refl eq_refl Ha Hb) as HTP. rewrite HTP.
  rewrite !HD by assumption.
  assert (HE : get (tflatten (eye d)) [(a * d + b)%nat] = delta a b).
  { replace (a * d + b)%nat with (ravel (shape (eye d)) [a; b]) by (cbn; lia).
    rewrite get_flatten by (cbn; auto). reflexivity. }
  rewrite HE. fold Gs. rewrite HG. unfold d2gauss. field. assumption.
Qed.

Lemma sks_backends x N d e sigma : sigma <> 0 -> shape x = [N; d] -> eta d = Ok e ->
  let s := sym_dim d in
  exists S S', compute_sks x sigma 1 (u_tensor d e) = Ok S /\ compute_sks_keops x sigma 1 (u_tensor d e) = Ok S' /\
    teq S S'.
Proof.
  intros Hs Hx He s. pose proof (eta_basis d e He) as HB.
  destruct (sks_get x N d e sigma Hs Hx HB) as (S & E & Hsh & Hg). fold s in Hg, Hsh.
  destruct (sks_keops_get x N d e sigma Hs Hx HB) as (S' & E' & Hsh' & Hg'). fold s in Hg', Hsh'.
  exists S, S'. split; [assumption|]. split; [assumption|]. split.
  - rewrite Hsh, Hsh', Nat.mul_comm. reflexivity.
  - intros idx Hv. rewrite Hsh in Hv. inv_valid Hv.
    destruct (row_split s N _ L) as (a & t & Ha & Ht & ->).
    destruct (row_split s N _ L0) as (b & w & Hb & Hw & ->).
    rewrite Hg, Hg' by assumption. reflexivity.
Qed.

Lemma eta_round_trips d e : eta d = Ok e ->
  let s := sym_dim d in
  (forall lam, sym_mat d (from_coords s e lam) /\
     forall t, (t < s)%nat -> coords d e (from_coords s e lam) t = lam t) /\
  (forall M i j, (i < d)%nat -> (j < d)%nat ->
     from_coords s e (coords d e M) i j = (M i j + M j i) / 2) /\
  (forall M, sym_mat d M -> forall i j, (i < d)%nat -> (j < d)%nat ->
     from_coords s e (coords d e M) i j = M i j).
Proof.
  intros He s. pose proof (eta_basis d e He) as HB. split; [|split].
  - intros lam. split; [apply from_coords_sym; assumption|]. intros t Ht. apply coords_from_coords; assumption.
  - intros M i j Hi Hj. apply (from_coords_coords d s e HB); assumption.
  - intros M HM i j Hi Hj. rewrite (from_coords_coords d s e HB) by assumption.
    unfold sym_part. rewrite (HM j i) by assumption. field.
Qed.
