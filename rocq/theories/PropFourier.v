(** Property theorems: comparing images through their Fourier transforms, or after resizing
    them (C89). *)
From Coq Require Import Reals String List Arith Lia Lra.
From Verif Require Import Py RSum Tensor TensorFacts KernelModel Fl AttachmentModel FourierModel PropAttachment FourierFacts.
Import ListNotations.
Open Scope string_scope.
Open Scope R_scope.

(** The squared distance of two tensors. *)
Definition apart (x y : tensor) : R := sum_idx (shape x) (fun idx => (get x idx - get y idx) ^ 2).
Lemma apart_zero x y : shape y = shape x -> 0 <= apart x y /\ (apart x y = 0 <-> teq x y).
Proof.
  intros H. unfold apart. split; [apply sum_idx_nonneg; intros; apply pow2_ge_0|]. rewrite sum_idx_zero by (intros; apply pow2_ge_0). split.
  - intros E. split; [symmetry; exact H|]. intros idx V. specialize (E idx V). destruct (Req_dec (get x idx - get y idx) 0) as [Z|N]; [lra|]. apply (pow_nonzero _ 2) in N. contradiction.
  - intros (_ & E) idx V. rewrite (E idx V). ring.
Qed.

(** Without 'fft' and without resizing this is the loss of C65. *)
Theorem C89_plain : forall c n w t h x y, t <> "fft" ->
  image_loss c n t h None x y = loss (AL2 w t h) (mkGeo x None) (mkGeo y None).
Proof. intros c n w t h x y N. unfold image_loss. cbn [scale_function bind fst snd]. destruct (String.eqb_spec t "fft") as [E|_]; [contradiction|reflexivity]. Qed.
Print Assumptions C89_plain.

(** 'fft' on pictures: the number of pixels times the squared distance of the pictures,
    or the squared distance itself when the transform is normalised; zero for equal
    pictures only. *)
Theorem C89_fft : forall normalized h x y H W, shape x = [H; W] -> shape y = [H; W] ->
  exists r, image_loss true normalized "fft" h None x y = Ok (Fin r) /\
    r = (if normalized then 1 else INR (H * W)) * apart x y /\ 0 <= r /\ (r = 0 <-> teq x y).
Proof.
  intros normalized h x y H W Ex Ey. eexists. unfold image_loss. cbn [scale_function bind fst snd String.eqb Ascii.eqb Bool.eqb]. rewrite (fft_loss_plane x y H W normalized Ex Ey). cbn [bind].
  split; [reflexivity|]. destruct (apart_zero x y ltac:(congruence)) as (P & Z). unfold apart in P, Z |- *. rewrite Ex in P, Z |- *. split; [reflexivity|].
  assert (F : 0 <= (if normalized then 1 else INR (H * W))) by (destruct normalized; [lra|apply pos_INR]). split; [apply Rmult_le_pos; assumption|]. rewrite <- Z. split; [|intros ->; ring].
  intros E. apply Rmult_integral in E. destruct E as [E|E]; [|exact E]. destruct normalized; [lra|]. apply (sum_zero_dim [H; W]). cbn. apply (INR_eq _ 0). rewrite Nat.mul_1_r. exact E.
Qed.
Print Assumptions C89_fft.

(** Signals and volumes of depth one are refused after the transform, numbers and tensors of
    more than three dimensions by it; and everything with a torch whose fft is a module. *)
Theorem C89_fft_refused : forall normalized h x y,
  image_loss false normalized "fft" h None x y = Err TypeError /\
  (shape y = shape x -> length (shape x) = 1%nat -> image_loss true normalized "fft" h None x y = Err IndexError) /\
  (shape y = shape x -> (exists a b, shape x = [a; b; 1%nat]) -> image_loss true normalized "fft" h None x y = Err IndexError) /\
  (length (shape x) = 0%nat \/ (3 < length (shape x))%nat -> image_loss true normalized "fft" h None x y = Err RuntimeError).
Proof.
  intros normalized h x y. split; [reflexivity|]. split; [|split].
  - intros E L. destruct x as [sx gx], y as [sy gy]. cbn [shape] in *. subst sy. destruct sx as [|a [|? ?]]; try discriminate L. reflexivity.
  - intros E (a & b & L). destruct x as [sx gx], y as [sy gy]. cbn [shape] in *. subst sy sx. reflexivity.
  - intros L. unfold image_loss. cbn [scale_function bind fst snd String.eqb Ascii.eqb Bool.eqb]. unfold loss_fft, torch_fft. destruct (length (shape x)) as [|[|[|[|n]]]]; try lia; reflexivity.
Qed.
Print Assumptions C89_fft_refused.

(** Volumes: two volumes that are as far apart as one likes can be at distance zero.  The
    slices [:, :, 0] and [:, :, 1] of the transform, meant for the real and imaginary parts,
    are then the first two frequencies of the last dimension. *)
Theorem C89_fft_volumes_refuted : forall normalized h a b x s, shape x = [a; b; 4%nat] ->
  let y := mkT [a; b; 4%nat] (fun n => get x n + s * (-1) ^ nth 2 n 0%nat) in
  image_loss true normalized "fft" h None x y = Ok (Fin 0) /\ apart x y = INR (a * b * 4) * s ^ 2.
Proof.
  intros normalized h a b x s Ex y. assert (Ey : shape y = [a; b; 4%nat]) by reflexivity.
  destruct (fft_volume x a b 4 normalized Ex ltac:(lia)) as (fx & u & v & T & A & B & Su & Sv & V). destruct (fft_volume y a b 4 normalized Ey ltac:(lia)) as (fy & u' & v' & T' & A' & B' & Su' & Sv' & V').
  split.
  - unfold image_loss. cbn [scale_function bind fst snd String.eqb Ascii.eqb Bool.eqb]. unfold loss_fft. rewrite T, T'. cbn [bind]. rewrite A, A', B, B'. cbn [bind]. do 2 f_equal. rewrite !l2_value by congruence. rewrite Su, Sv.
    assert (D : forall l i j, (l < 2)%nat -> dft_re [a; b; 4%nat] (get x) (fun _ => 0) [i; j; l] = dft_re [a; b; 4%nat] (get y) (fun _ => 0) [i; j; l] /\ dft_im [a; b; 4%nat] (get x) (fun _ => 0) [i; j; l] = dft_im [a; b; 4%nat] (get y) (fun _ => 0) [i; j; l]).
    { intros l i j L. destruct (dft_diff [a; b; 4%nat] (get y) (fun _ => 0) (get x) (fun _ => 0) [i; j; l]) as (DR & DI). destruct (alternating_invisible a b s l i j L) as (R0 & I0).
      assert (Q : forall F : list nat -> (list nat -> R) -> (list nat -> R) -> list nat -> R, (forall f g f' g' k, (forall n, f n = f' n) -> (forall n, g n = g' n) -> F [a; b; 4%nat] f g k = F [a; b; 4%nat] f' g' k) ->
        F [a; b; 4%nat] (fun n => get y n - get x n) (fun _ => 0 - 0) [i; j; l] = F [a; b; 4%nat] (fun n => s * (-1) ^ nth 2 n 0%nat) (fun _ => 0) [i; j; l]) by (intros F X; apply X; intros n; unfold y; cbn [get]; ring).
      rewrite (Q dft_re) in DR by (intros; unfold dft_re; apply sum_idx_all; intros; congruence). rewrite (Q dft_im) in DI by (intros; unfold dft_im; apply sum_idx_all; intros; congruence). lra. }
    assert (Z : forall p q, shape p = [a; b; 2%nat] -> (forall i j, p @3 i j 0%nat = q @3 i j 0%nat /\ p @3 i j 1%nat = q @3 i j 1%nat) -> sum_idx [a; b; 2%nat] (fun idx => (get p idx - get q idx) ^ 2) = 0).
    { intros p q _ E. cbn [sum_idx]. apply rsum_zero. intros i _. apply rsum_zero. intros j _. cbn [rsum]. destruct (E i j) as (-> & ->). ring. }
    rewrite (Z u u' Su), (Z v v' Sv); [ring| |]; intros i j; destruct (V i j) as (X1 & X2 & X3 & X4); destruct (V' i j) as (Y1 & Y2 & Y3 & Y4); destruct (D 0%nat i j ltac:(lia)) as (D1 & D2); destruct (D 1%nat i j ltac:(lia)) as (D3 & D4); split; congruence.
  - unfold apart. rewrite Ex. cbn [sum_idx].
    rewrite (rsum_ext a _ (fun _ => INR (b * 4) * s ^ 2)); [rewrite rsum_const, !mult_INR; ring|]. intros i _.
    rewrite (rsum_ext b _ (fun _ => INR 4 * s ^ 2)); [rewrite rsum_const, mult_INR; ring|]. intros j _. cbn [rsum get y nth pow]. cbn. ring.
Qed.
Print Assumptions C89_fft_volumes_refuted.

(** Enlarging both images k times multiplies the squared distance by k at the power of the
    number of dimensions, so that it is still zero for equal images only. *)
Theorem C89_enlarged : forall c n h k x y, shape y = shape x -> (0 < k)%nat -> (1 <= length (shape x) <= 3)%nat -> ~ In 0%nat (shape x) ->
  exists r, image_loss c n "l2" h (Some (Nearest None (Some k))) x y = Ok (Fin r) /\ r = INR k ^ length (shape x) * apart x y /\ (r = 0 <-> teq x y).
Proof.
  intros c n h k x y E K L NZ. eexists.
  assert (NZ' : ~ In 0%nat (map (fun n => n * k)%nat (shape x))) by (intros X; apply in_map_iff in X; destruct X as (m & Z & I); assert (m = 0%nat) by nia; subst m; exact (NZ I)).
  unfold image_loss, scale_function, interpolate_image. rewrite !resized_ok; rewrite ?E, ?map_length; try assumption; try reflexivity.
  cbn [bind fst snd String.eqb Ascii.eqb Bool.eqb]. unfold l2_call. cbn [String.eqb Ascii.eqb Bool.eqb]. split; [reflexivity|]. rewrite l2_value by reflexivity. cbn [shape get].
  rewrite (enlarged_sum k K (shape x) (fun idx => (get x idx - get y idx) ^ 2) NZ). split; [reflexivity|]. destruct (apart_zero x y E) as (_ & Z). rewrite <- Z. unfold apart. split; [|intros ->; ring].
  intros X. apply Rmult_integral in X. destruct X as [X|X]; [|exact X]. assert (0 < INR k) by (apply lt_0_INR; exact K). elim (pow_nonzero (INR k) (length (shape x))); [lra|exact X].
Qed.
Print Assumptions C89_enlarged.

(** Given sizes: the sizes of the images change nothing, smaller ones compare some of the
    pixels only. *)
Lemma sources_same : forall sh idx, valid sh idx -> sources sh sh idx = idx.
Proof. induction sh as [|n sh IH]; intros [|i idx] V; cbn in V; try tauto. destruct V as (Hi & V). cbn [sources]. rewrite (IH idx V), Nat.div_mul by lia. reflexivity. Qed.
Theorem C89_sizes : forall c n h size x y, shape y = shape x -> (1 <= length (shape x) <= 3)%nat ->
  Forall2 (fun n m => (0 < m <= n)%nat) (shape x) size ->
  exists r, image_loss c n "l2" h (Some (Nearest (Some size) None)) x y = Ok (Fin r) /\ 0 <= r <= apart x y /\ (size = shape x -> r = apart x y).
Proof.
  intros c n h size x y E L F. eexists.
  assert (LS : length size = length (shape x)) by (clear - F; induction F; cbn; congruence).
  assert (N1 : ~ In 0%nat size) by (clear - F; induction F as [|a b l l' Q F IH]; [tauto|]; intros [X|X]; [lia|tauto]).
  assert (N2 : ~ In 0%nat (shape x)) by (clear - F; induction F as [|a b l l' Q F IH]; [tauto|]; intros [X|X]; [lia|tauto]).
  unfold image_loss, scale_function, interpolate_image. rewrite !resized_ok; rewrite ?E, ?LS; try assumption; try reflexivity.
  cbn [bind fst snd String.eqb Ascii.eqb Bool.eqb]. unfold l2_call. cbn [String.eqb Ascii.eqb Bool.eqb]. split; [reflexivity|]. rewrite l2_value by reflexivity. cbn [shape get].
  split; [split|].
  - apply sum_idx_nonneg. intros. apply pow2_ge_0.
  - apply (shrunk_sum (shape x) size (fun idx => (get x idx - get y idx) ^ 2) F). intros. apply pow2_ge_0.
  - intros ->. apply sum_idx_ext. intros idx V. rewrite (sources_same _ _ V). reflexivity.
Qed.
Print Assumptions C89_sizes.

(** Exactly one of the size and the factor, one size per dimension, no empty image. *)
Theorem C89_resizing_refused : forall c n t h x y,
  image_loss c n t h (Some (Nearest None None)) x y = Err ValueError /\
  (forall s k, image_loss c n t h (Some (Nearest (Some s) (Some k))) x y = Err ValueError) /\
  (forall s, length s <> length (shape x) -> image_loss c n t h (Some (Nearest (Some s) None)) x y = Err ValueError) /\
  (forall s, (1 <= length (shape x) <= 3)%nat -> length s = length (shape x) -> In 0%nat s -> image_loss c n t h (Some (Nearest (Some s) None)) x y = Err RuntimeError).
Proof.
  intros c n t h x y. split; [reflexivity|]. split; [reflexivity|]. split; intros s.
  - intros N. apply Nat.eqb_neq in N. unfold image_loss, scale_function, interpolate_image, resized. rewrite N. reflexivity.
  - intros L E I. assert (X : existsb (Nat.eqb 0) s = true) by (apply existsb_exists; exists 0%nat; split; [exact I|reflexivity]).
    unfold image_loss, scale_function, interpolate_image, resized. rewrite X, E, Nat.eqb_refl. cbn [negb orb]. destruct (length (shape x)) as [|[|[|[|k]]]]; try lia; reflexivity.
Qed.
Print Assumptions C89_resizing_refused.

(** A picture of 2 by 3 pixels and its negative. *)
Example C89_hypotheses : let x := mk2 2 3 (fun i j => INR (i + j)) in let y := mk2 2 3 (fun i j => - INR (i + j)) in
  shape x = [2%nat; 3%nat] /\ shape y = [2%nat; 3%nat] /\ ~ teq x y /\ (1 <= length (shape x) <= 3)%nat /\ ~ In 0%nat (shape x) /\
  Forall2 (fun n m => (0 < m <= n)%nat) (shape x) [2%nat; 1%nat] /\
  exists r, image_loss true false "fft" None None x y = Ok (Fin r) /\ r = 456.
Proof.
  intros x y. split; [reflexivity|]. split; [reflexivity|]. split; [intros (_ & E); specialize (E [1%nat; 2%nat] ltac:(cbn; lia)); cbn in E; lra|]. split; [cbn; lia|]. split; [cbn; lia|].
  split; [repeat constructor|]. destruct (C89_fft false None x y 2 3 eq_refl eq_refl) as (r & E & V & _). exists r. split; [exact E|]. rewrite V. unfold apart. cbn. ring.
Qed.
