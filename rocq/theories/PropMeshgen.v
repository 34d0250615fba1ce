(** Properties of generated outlines, circles, grids and discs: C62. *)
From Coq Require Import Reals List Arith ZArith Lia Lra Bool.
From Verif Require Import Py RSum Tensor TensorFacts KernelModel FieldModel Fl UtilModel AabbModel MeshgenModel SpecBox SpecMeshgen AttachmentFacts MeshAreas AabbFacts PropBox.
Import ListNotations.
Open Scope R_scope.
Open Scope list_scope.

(** ** Walking round a rectangle *)
Definition walk (x0 x1 y0 y1 : R) (p q r c : nat) : R :=
  if Nat.ltb r p then match c with 0%nat => x0 + INR (S r) * ((x1 - x0) / INR p) | _ => y0 end
  else if Nat.ltb r (p + q) then match c with 0%nat => x1 | _ => y0 + INR (S (r - p)) * ((y1 - y0) / INR q) end
  else if Nat.ltb r (2 * p + q) then match c with 0%nat => x1 + INR (S (r - (p + q))) * ((x0 - x1) / INR p) | _ => y1 end
  else match c with 0%nat => x0 | _ => y1 + INR (S (r - (2 * p + q))) * ((y0 - y1) / INR q) end.

Lemma part (i p : nat) (d : R) : (i < p)%nat -> 0 <= d -> d / INR p <= INR (S i) * (d / INR p) <= d.
Proof.
  intros L D. assert (P : 0 < INR p) by (apply lt_0_INR; lia). assert (Q : 1 <= INR (S i)) by (rewrite S_INR; pose proof (pos_INR i); lra). assert (Q' : INR (S i) <= INR p) by (apply le_INR; lia).
  assert (E : 0 <= d / INR p) by (apply Rmult_le_pos; [exact D|apply Rlt_le, Rinv_0_lt_compat, P]). split; [nra|]. apply (Rle_trans _ (INR p * (d / INR p))); [apply Rmult_le_compat_r; assumption|]. apply Req_le. field. lra.
Qed.
Lemma part_pos (p : nat) (d : R) : (0 < p)%nat -> 0 < d -> 0 < d / INR p.
Proof. intros L D. apply Rdiv_lt_0_compat; [exact D|apply lt_0_INR, L]. Qed.

Lemma walk_outline x0 x1 y0 y1 p q r : x0 <= x1 -> y0 <= y1 -> (r < 2 * (p + q))%nat -> on_outline x0 x1 y0 y1 (walk x0 x1 y0 y1 p q r 0) (walk x0 x1 y0 y1 p q r 1).
Proof.
  intros X Y L. unfold walk, on_outline. assert (N : forall a b n, (a - b) / INR n = - ((b - a) / INR n)) by (intros; unfold Rdiv; ring).
  assert (E : forall a b i n, (i < n)%nat -> a <= b -> 0 <= INR (S i) * ((b - a) / INR n) <= b - a). { intros a b i n Li Ab. pose proof (part i n (b - a) Li ltac:(lra)). assert (0 <= (b - a) / INR n) by (apply Rmult_le_pos; [lra|apply Rlt_le, Rinv_0_lt_compat, lt_0_INR; lia]). lra. }
  destruct (Nat.ltb_spec r p) as [C1|C1]; [left; pose proof (E x0 x1 r p C1 X); split; [lra|tauto]|].
  destruct (Nat.ltb_spec r (p + q)) as [C2|C2]; [right; pose proof (E y0 y1 (r - p)%nat q ltac:(lia) Y); split; [lra|tauto]|].
  destruct (Nat.ltb_spec r (2 * p + q)) as [C3|C3]; [left; pose proof (E x0 x1 (r - (p + q))%nat p ltac:(lia) X); rewrite (N x0 x1); split; [lra|tauto]|].
  right. pose proof (E y0 y1 (r - (2 * p + q))%nat q ltac:(lia) Y). rewrite (N y0 y1). split; [lra|tauto].
Qed.
Lemma walk_apart x0 x1 y0 y1 p q i j : x0 < x1 -> y0 < y1 -> (i < 2 * (p + q))%nat -> (j < 2 * (p + q))%nat -> walk x0 x1 y0 y1 p q i 0 = walk x0 x1 y0 y1 p q j 0 -> walk x0 x1 y0 y1 p q i 1 = walk x0 x1 y0 y1 p q j 1 -> i = j.
Proof.
  intros X Y Li Lj. unfold walk. assert (N : forall a b n, (a - b) / INR n = - ((b - a) / INR n)) by (intros; unfold Rdiv; ring). rewrite (N x0 x1), (N y0 y1).
  assert (E : forall a b k n, (k < n)%nat -> a < b -> 0 < INR (S k) * ((b - a) / INR n)). { intros a b k n Lk Ab. apply Rmult_lt_0_compat; [apply lt_0_INR; lia|apply part_pos; [lia|lra]]. }
  assert (U : forall a b k l n, (k < n)%nat -> a < b -> INR (S k) * ((b - a) / INR n) = INR (S l) * ((b - a) / INR n) -> k = l).
  { intros a b k l n Lk Ab H. apply Rmult_eq_reg_r in H; [|pose proof (part_pos n (b - a) ltac:(lia) ltac:(lra)); lra]. apply INR_eq in H. lia. }
  destruct (Nat.ltb_spec i p) as [C1|C1]; [|destruct (Nat.ltb_spec i (p + q)) as [C2|C2]; [|destruct (Nat.ltb_spec i (2 * p + q)) as [C3|C3]]];
  (destruct (Nat.ltb_spec j p) as [D1|D1]; [|destruct (Nat.ltb_spec j (p + q)) as [D2|D2]; [|destruct (Nat.ltb_spec j (2 * p + q)) as [D3|D3]]]); intros H0 H1; try lra.
  - apply (U x0 x1 i j p); [lia|lra|lra].
  - pose proof (E y0 y1 (j - p)%nat q ltac:(lia) Y). lra.
  - pose proof (E x0 x1 i p ltac:(lia) X). lra.
  - pose proof (E y0 y1 (i - p)%nat q ltac:(lia) Y). lra.
  - assert ((i - p)%nat = (j - p)%nat); [|lia]. apply (U y0 y1 _ _ q); [lia|lra|lra].
  - pose proof (E x0 x1 (j - (p + q))%nat p ltac:(lia) X). lra.
  - pose proof (E x0 x1 (i - (p + q))%nat p ltac:(lia) X). lra.
  - assert ((i - (p + q))%nat = (j - (p + q))%nat); [|lia]. apply (U x0 x1 _ _ p); [lia|lra|lra].
  - pose proof (E y0 y1 (j - (2 * p + q))%nat q ltac:(lia) Y). lra.
  - pose proof (E x0 x1 j p ltac:(lia) X). lra.
  - pose proof (E y0 y1 (i - (2 * p + q))%nat q ltac:(lia) Y). lra.
  - assert ((i - (2 * p + q))%nat = (j - (2 * p + q))%nat); [|lia]. apply (U y0 y1 _ _ q); [lia|lra|lra].
Qed.
(** Length of the step to the next point: one p-th of the horizontal side when the next point
    is on a horizontal side, one q-th of the vertical side otherwise. *)
Definition horizontal (p q r : nat) : bool := (Nat.ltb r p || (Nat.leb (p + q) r && Nat.ltb r (2 * p + q)))%bool.
Lemma walk_start x0 x1 y0 y1 p q : (0 < p)%nat -> (0 < q)%nat -> walk x0 x1 y0 y1 p q (2 * (p + q) - 1) 0 = x0 /\ walk x0 x1 y0 y1 p q (2 * (p + q) - 1) 1 = y0.
Proof.
  intros P Q. unfold walk. replace (Nat.ltb _ p) with false by (symmetry; apply Nat.ltb_ge; lia). replace (Nat.ltb _ (p + q)) with false by (symmetry; apply Nat.ltb_ge; lia). replace (Nat.ltb _ (2 * p + q)) with false by (symmetry; apply Nat.ltb_ge; lia).
  split; [reflexivity|]. replace (S (2 * (p + q) - 1 - (2 * p + q))) with q by lia. field. apply not_0_INR. lia.
Qed.
Lemma walk_step x0 x1 y0 y1 p q r : (0 < p)%nat -> (0 < q)%nat -> (r < 2 * (p + q))%nat -> let n := next (2 * (p + q)) r in
  (walk x0 x1 y0 y1 p q n 0 - walk x0 x1 y0 y1 p q r 0) ^ 2 + (walk x0 x1 y0 y1 p q n 1 - walk x0 x1 y0 y1 p q r 1) ^ 2 = (if horizontal p q n then (x1 - x0) / INR p else (y1 - y0) / INR q) ^ 2.
Proof.
  intros P Q L. cbv zeta. assert (Pp : INR p <> 0) by (apply not_0_INR; lia). assert (Pq : INR q <> 0) by (apply not_0_INR; lia). unfold next. destruct (Nat.eqb_spec (S r) (2 * (p + q))) as [E|E].
  - replace r with (2 * (p + q) - 1)%nat by lia. destruct (walk_start x0 x1 y0 y1 p q P Q) as (-> & ->). unfold walk, horizontal. replace (Nat.ltb 0 p) with true by (symmetry; apply Nat.ltb_lt; lia). cbn [orb INR]. field. exact Pp.
  - unfold walk, horizontal.
    destruct (Nat.ltb_spec r p) as [C1|C1]; [|destruct (Nat.ltb_spec r (p + q)) as [C2|C2]; [|destruct (Nat.ltb_spec r (2 * p + q)) as [C3|C3]]];
    (destruct (Nat.ltb_spec (S r) p) as [D1|D1]; [|destruct (Nat.ltb_spec (S r) (p + q)) as [D2|D2]; [|destruct (Nat.ltb_spec (S r) (2 * p + q)) as [D3|D3]]]); try lia;
    (destruct (Nat.leb_spec (p + q) (S r)) as [F|F]; try lia); cbn [orb andb].
    + rewrite (S_INR (S r)). field. exact Pp.
    + replace (S (S r - p)) with 1%nat by lia. replace (S r) with p by lia. cbn [INR]. field. split; assumption.
    + replace (S r - p)%nat with (S (r - p)) by lia. rewrite (S_INR (S (r - p))). field. exact Pq.
    + replace (S (S r - (p + q))) with 1%nat by lia. replace (S (r - p)) with q by lia. cbn [INR]. field. split; assumption.
    + replace (S r - (p + q))%nat with (S (r - (p + q))) by lia. rewrite (S_INR (S (r - (p + q)))). field. exact Pp.
    + replace (S (S r - (2 * p + q))) with 1%nat by lia. replace (S (r - (p + q))) with p by lia. cbn [INR]. field. split; assumption.
    + replace (S r - (2 * p + q))%nat with (S (r - (2 * p + q))) by lia. rewrite (S_INR (S (r - (2 * p + q)))). field. exact Pq.
Qed.
Lemma walk_corners x0 x1 y0 y1 p q : (0 < p)%nat -> (0 < q)%nat ->
  (walk x0 x1 y0 y1 p q (p - 1) 0 = x1 /\ walk x0 x1 y0 y1 p q (p - 1) 1 = y0) /\
  (walk x0 x1 y0 y1 p q (p + q - 1) 0 = x1 /\ walk x0 x1 y0 y1 p q (p + q - 1) 1 = y1) /\
  (walk x0 x1 y0 y1 p q (2 * p + q - 1) 0 = x0 /\ walk x0 x1 y0 y1 p q (2 * p + q - 1) 1 = y1).
Proof.
  intros P Q. assert (Pp : INR p <> 0) by (apply not_0_INR; lia). assert (Pq : INR q <> 0) by (apply not_0_INR; lia). unfold walk.
  replace (Nat.ltb (p - 1) p) with true by (symmetry; apply Nat.ltb_lt; lia). replace (Nat.ltb (p + q - 1) p) with false by (symmetry; apply Nat.ltb_ge; lia). replace (Nat.ltb (p + q - 1) (p + q)) with true by (symmetry; apply Nat.ltb_lt; lia).
  replace (Nat.ltb (2 * p + q - 1) p) with false by (symmetry; apply Nat.ltb_ge; lia). replace (Nat.ltb (2 * p + q - 1) (p + q)) with false by (symmetry; apply Nat.ltb_ge; lia). replace (Nat.ltb (2 * p + q - 1) (2 * p + q)) with true by (symmetry; apply Nat.ltb_lt; lia).
  replace (S (p - 1)) with p by lia. replace (S (p + q - 1 - p)) with q by lia. replace (S (2 * p + q - 1 - (p + q))) with p by lia. repeat split; field; assumption.
Qed.

(** ** Slices *)
Lemma bound_nat n k : (k <= n)%nat -> slice_bound n (Z.of_nat k) = k.
Proof. intros L. unfold slice_bound. replace (Z.ltb _ 0) with false by (symmetry; apply Z.ltb_ge; lia). rewrite Z.min_l by lia. apply Nat2Z.id. Qed.
Lemma set_slice_ok t N a b c v s e (f : nat -> R) : shape t = [N; 2]%nat -> slice_bound N a = s -> slice_bound N b = e -> nrows v = (e - s)%nat \/ nrows v = 1%nat ->
  (forall r, (s <= r)%nat -> (r < e)%nat -> v @1 (if Nat.eqb (nrows v) 1 then 0%nat else (r - s)%nat) = f r) ->
  exists t', set_slice t a b c v = Ok t' /\ shape t' = [N; 2]%nat /\ forall r k, t' @2 r k = if (Nat.eqb k c && Nat.leb s r && Nat.ltb r e)%bool then f r else t @2 r k.
Proof.
  intros S Ea Eb Nv F. unfold set_slice. assert (Nt : nrows t = N) by (unfold nrows; rewrite S; reflexivity). assert (Nc : ncols t = 2%nat) by (unfold ncols; rewrite S; reflexivity). rewrite Nt, Nc, Ea, Eb.
  replace (Nat.eqb (nrows v) (e - s) || Nat.eqb (nrows v) 1)%bool with true by (symmetry; apply orb_true_iff; rewrite !Nat.eqb_eq; exact Nv). eexists. split; [reflexivity|]. split; [reflexivity|].
  intros r k. cbn [get mk2]. destruct (Nat.eqb k c) eqn:K; [|reflexivity]. cbn [andb]. destruct (Nat.leb_spec s r) as [L1|L1]; [|reflexivity]. destruct (Nat.ltb_spec r e) as [L2|L2]; [|reflexivity]. cbn [andb]. apply F; assumption.
Qed.
Lemma tail_lin a b n : exists l, linspace a b (Z.of_nat n + 1) = Ok l /\ nrows (tail1 l) = n /\ forall i, (i < n)%nat -> (tail1 l) @1 i = a + INR (S i) * ((b - a) / INR n).
Proof.
  unfold linspace. replace (Z.ltb _ 0) with false by (symmetry; apply Z.ltb_ge; lia). eexists. split; [reflexivity|]. split; [cbn; unfold tnth; cbn; lia|]. intros i L. cbn [get tail1 mk1]. replace (Z.eqb _ 1) with false by (symmetry; apply Z.eqb_neq; lia).
  replace (Z.of_nat n + 1 - 1)%Z with (Z.of_nat n) by lia. rewrite <- INR_IZR_INZ. reflexivity.
Qed.
Lemma consts_ok n x : exists l, consts (Z.of_nat n) x = Ok l /\ nrows l = n /\ forall i, l @1 i = x.
Proof. unfold consts. replace (Z.ltb _ 0) with false by (symmetry; apply Z.ltb_ge; lia). rewrite Nat2Z.id. eexists. split; [reflexivity|]. split; reflexivity. Qed.
Lemma zeros_ok n : exists t, zeros2 (Z.of_nat n) = Ok t /\ shape t = [n; 2]%nat /\ forall r k, t @2 r k = 0.
Proof. unfold zeros2. replace (Z.ltb _ 0) with false by (symmetry; apply Z.ltb_ge; lia). rewrite Nat2Z.id. eexists. split; [reflexivity|]. split; reflexivity. Qed.
Lemma slice_vec t N a b c v s n (f : nat -> R) : shape t = [N; 2]%nat -> slice_bound N a = s -> slice_bound N b = (s + n)%nat -> nrows v = n -> (forall i, (i < n)%nat -> v @1 i = f (s + i)%nat) ->
  exists t', set_slice t a b c v = Ok t' /\ shape t' = [N; 2]%nat /\ forall r k, t' @2 r k = if (Nat.eqb k c && Nat.leb s r && Nat.ltb r (s + n))%bool then f r else t @2 r k.
Proof.
  intros S Ea Eb Nv F. apply set_slice_ok; [exact S|exact Ea|exact Eb|left; lia|]. intros r L1 L2. rewrite Nv. destruct (Nat.eqb_spec n 1) as [E|E]; [rewrite F by lia; f_equal; lia|rewrite F by lia; f_equal; lia].
Qed.

(** The rows are the walk. *)
Lemma square_rows n : exists v, generate_unit_square (Z.of_nat n) = Ok v /\ shape v = [(2 * (n + n))%nat; 2%nat] /\ forall r c, (r < 2 * (n + n))%nat -> (c < 2)%nat -> v @2 r c = walk (-1/2) (1/2) (-1/2) (1/2) n n r c.
Proof.
  unfold generate_unit_square. replace (4 * Z.of_nat n)%Z with (Z.of_nat (4 * n)) by lia. destruct (zeros_ok (4 * n)) as (t0 & -> & S0 & V0). cbn [bind].
  destruct (tail_lin 0 1 n) as (l1 & -> & N1 & L1). cbn [bind]. destruct (slice_vec t0 (4 * n) 0 (Z.of_nat n) 0 (tail1 l1) 0 n (fun r => 0 + INR (S r) * ((1 - 0) / INR n)) S0 (bound_nat (4 * n) 0 ltac:(lia)) ltac:(rewrite bound_nat; lia) N1 ltac:(intros; rewrite L1 by assumption; reflexivity)) as (t1 & -> & S1 & V1). cbn [bind].
  replace (2 * Z.of_nat n)%Z with (Z.of_nat (2 * n)) by lia. replace (3 * Z.of_nat n)%Z with (Z.of_nat (3 * n)) by lia.
  destruct (slice_vec t1 (4 * n) (Z.of_nat n) (Z.of_nat (2 * n)) 1 (tail1 l1) n n (fun r => 0 + INR (S (r - n)) * ((1 - 0) / INR n)) S1 ltac:(apply bound_nat; lia) ltac:(rewrite bound_nat; lia) N1) as (t2 & -> & S2 & V2). { intros i Li. rewrite L1 by exact Li. do 3 f_equal. lia. } cbn [bind].
  destruct (set_slice_ok t2 (4 * n) (Z.of_nat n - 1) (Z.of_nat (2 * n)) 0 (scalar 1) (n - 1) (2 * n) (fun _ => 1) S2) as (t3 & -> & S3 & V3). { destruct n as [|n]; [reflexivity|]. replace (Z.of_nat (S n) - 1)%Z with (Z.of_nat n) by lia. rewrite bound_nat; lia. } { apply bound_nat. lia. } { right. reflexivity. } { reflexivity. } cbn [bind].
  destruct (tail_lin 1 0 n) as (l2 & -> & N2 & L2). cbn [bind]. destruct (slice_vec t3 (4 * n) (Z.of_nat (2 * n)) (Z.of_nat (3 * n)) 0 (tail1 l2) (2 * n) n (fun r => 1 + INR (S (r - 2 * n)) * ((0 - 1) / INR n)) S3 ltac:(apply bound_nat; lia) ltac:(rewrite bound_nat; lia) N2) as (t4 & -> & S4 & V4). { intros i Li. rewrite L2 by exact Li. do 3 f_equal. lia. } cbn [bind].
  destruct (set_slice_ok t4 (4 * n) (Z.of_nat (2 * n)) (Z.of_nat (3 * n)) 1 (scalar 1) (2 * n) (3 * n) (fun _ => 1) S4) as (t5 & -> & S5 & V5). { apply bound_nat. lia. } { apply bound_nat. lia. } { right. reflexivity. } { reflexivity. } cbn [bind].
  replace (4 * Z.of_nat n)%Z with (Z.of_nat (4 * n)) by lia.
  destruct (slice_vec t5 (4 * n) (Z.of_nat (3 * n)) (Z.of_nat (4 * n)) 1 (tail1 l2) (3 * n) n (fun r => 1 + INR (S (r - 3 * n)) * ((0 - 1) / INR n)) S5 ltac:(apply bound_nat; lia) ltac:(rewrite bound_nat; lia) N2) as (t6 & -> & S6 & V6). { intros i Li. rewrite L2 by exact Li. do 3 f_equal. lia. } cbn [bind].
  eexists. split; [reflexivity|]. split; [cbn; unfold nrows; rewrite S6; unfold tnth; cbn [nth]; f_equal; lia|]. intros r c Lr Lc. cbn [get mk2]. rewrite V6, V5, V4, V3, V2, V1, V0. unfold walk. assert (Pn : INR n <> 0) by (apply not_0_INR; lia).
  destruct c as [|[|c]]; [| |lia]; cbn [Nat.eqb andb];
  (destruct (Nat.ltb_spec r n) as [C1|C1]; [|destruct (Nat.ltb_spec r (n + n)) as [C2|C2]; [|destruct (Nat.ltb_spec r (2 * n + n)) as [C3|C3]]]);
  repeat match goal with
  | |- context[Nat.leb ?a ?b] => first [replace (Nat.leb a b) with true by (symmetry; apply Nat.leb_le; lia) | replace (Nat.leb a b) with false by (symmetry; apply Nat.leb_gt; lia) | destruct (Nat.leb_spec a b)]
  | |- context[Nat.ltb ?a ?b] => first [replace (Nat.ltb a b) with true by (symmetry; apply Nat.ltb_lt; lia) | replace (Nat.ltb a b) with false by (symmetry; apply Nat.ltb_ge; lia) | destruct (Nat.ltb_spec a b)]
  end; cbn [andb]; try lia.
  1: { replace (S r) with n by lia. field. exact Pn. }
  all: try (field; exact Pn); try lra.
  - replace (r - 2 * n)%nat with (r - (n + n))%nat by lia. field. exact Pn.
  - replace (r - 3 * n)%nat with (r - (2 * n + n))%nat by lia. field. exact Pn.
Qed.
Lemma rectangle_rows b density p q : a_dim b = 2%nat -> ceil (side b 0 * density) = Z.of_nat p -> ceil (side b 1 * density) = Z.of_nat q ->
  exists v, generate_rectangle b density = Ok v /\ shape v = [(2 * (p + q))%nat; 2%nat] /\ forall r c, (r < 2 * (p + q))%nat -> (c < 2)%nat -> v @2 r c = walk (lo b 0) (hi b 0) (lo b 1) (hi b 1) p q r c.
Proof.
  intros D Ep Eq. unfold generate_rectangle. rewrite D. cbn [Nat.eqb negb]. fold (lo b 0) (hi b 0) (lo b 1) (hi b 1).
  replace (nth 0 (lengths b) 0) with (side b 0) by (unfold lengths; rewrite D; reflexivity). replace (nth 1 (lengths b) 0) with (side b 1) by (unfold lengths; rewrite D; reflexivity). rewrite Ep, Eq.
  set (N := (2 * (p + q))%nat). replace (2 * (Z.of_nat p + Z.of_nat q))%Z with (Z.of_nat N) by lia. replace (Z.of_nat p + Z.of_nat q)%Z with (Z.of_nat (p + q)) by lia. replace (2 * Z.of_nat p + Z.of_nat q)%Z with (Z.of_nat (2 * p + q)) by lia.
  destruct (zeros_ok N) as (t0 & -> & S0 & V0). cbn [bind].
  destruct (tail_lin (lo b 0) (hi b 0) p) as (l1 & -> & N1 & L1). cbn [bind]. destruct (slice_vec t0 N 0 (Z.of_nat p) 0 (tail1 l1) 0 p (fun r => lo b 0 + INR (S r) * ((hi b 0 - lo b 0) / INR p)) S0 (bound_nat N 0 ltac:(lia)) ltac:(rewrite bound_nat; lia) N1 ltac:(intros; rewrite L1 by assumption; reflexivity)) as (t1 & -> & S1 & V1). cbn [bind].
  destruct (consts_ok p (lo b 1)) as (l2 & -> & N2 & L2). cbn [bind]. destruct (slice_vec t1 N 0 (Z.of_nat p) 1 l2 0 p (fun r => lo b 1) S1 (bound_nat N 0 ltac:(lia)) ltac:(rewrite bound_nat; lia) N2 ltac:(intros; apply L2)) as (t2 & -> & S2 & V2). cbn [bind].
  destruct (consts_ok q (hi b 0)) as (l3 & -> & N3 & L3). cbn [bind]. destruct (slice_vec t2 N (Z.of_nat p) (Z.of_nat (p + q)) 0 l3 p q (fun r => hi b 0) S2 ltac:(apply bound_nat; lia) ltac:(rewrite bound_nat; lia) N3 ltac:(intros; apply L3)) as (t3 & -> & S3 & V3). cbn [bind].
  destruct (tail_lin (lo b 1) (hi b 1) q) as (l4 & -> & N4 & L4). cbn [bind]. destruct (slice_vec t3 N (Z.of_nat p) (Z.of_nat (p + q)) 1 (tail1 l4) p q (fun r => lo b 1 + INR (S (r - p)) * ((hi b 1 - lo b 1) / INR q)) S3 ltac:(apply bound_nat; lia) ltac:(rewrite bound_nat; lia) N4) as (t4 & -> & S4 & V4). { intros i Li. rewrite L4 by exact Li. do 3 f_equal. lia. } cbn [bind].
  destruct (tail_lin (hi b 0) (lo b 0) p) as (l5 & -> & N5 & L5). cbn [bind]. destruct (slice_vec t4 N (Z.of_nat (p + q)) (Z.of_nat (2 * p + q)) 0 (tail1 l5) (p + q) p (fun r => hi b 0 + INR (S (r - (p + q))) * ((lo b 0 - hi b 0) / INR p)) S4 ltac:(apply bound_nat; lia) ltac:(rewrite bound_nat; lia) N5) as (t5 & -> & S5 & V5). { intros i Li. rewrite L5 by exact Li. do 3 f_equal. lia. } cbn [bind].
  destruct (consts_ok p (hi b 1)) as (l6 & -> & N6 & L6). cbn [bind]. destruct (slice_vec t5 N (Z.of_nat (p + q)) (Z.of_nat (2 * p + q)) 1 l6 (p + q) p (fun r => hi b 1) S5 ltac:(apply bound_nat; lia) ltac:(rewrite bound_nat; lia) N6 ltac:(intros; apply L6)) as (t6 & -> & S6 & V6). cbn [bind].
  destruct (consts_ok q (lo b 0)) as (l7 & -> & N7 & L7). cbn [bind]. replace (nrows t6) with N by (unfold nrows; rewrite S6; reflexivity). destruct (slice_vec t6 N (Z.of_nat (2 * p + q)) (Z.of_nat N) 0 l7 (2 * p + q) q (fun r => lo b 0) S6 ltac:(apply bound_nat; lia) ltac:(rewrite bound_nat; lia) N7 ltac:(intros; apply L7)) as (t7 & -> & S7 & V7). cbn [bind].
  destruct (tail_lin (hi b 1) (lo b 1) q) as (l8 & -> & N8 & L8). cbn [bind]. replace (nrows t7) with N by (unfold nrows; rewrite S7; reflexivity). destruct (slice_vec t7 N (Z.of_nat (2 * p + q)) (Z.of_nat N) 1 (tail1 l8) (2 * p + q) q (fun r => hi b 1 + INR (S (r - (2 * p + q))) * ((lo b 1 - hi b 1) / INR q)) S7 ltac:(apply bound_nat; lia) ltac:(rewrite bound_nat; lia) N8) as (t8 & -> & S8 & V8). { intros i Li. rewrite L8 by exact Li. do 3 f_equal. lia. } cbn [bind].
  exists t8. split; [reflexivity|]. split; [exact S8|]. intros r c Lr Lc. rewrite V8, V7, V6, V5, V4, V3, V2, V1, V0. unfold walk. fold N in Lr.
  destruct c as [|[|c]]; [| |lia]; cbn [Nat.eqb andb];
  (destruct (Nat.ltb_spec r p) as [C1|C1]; [|destruct (Nat.ltb_spec r (p + q)) as [C2|C2]; [|destruct (Nat.ltb_spec r (2 * p + q)) as [C3|C3]]]);
  repeat match goal with
  | |- context[Nat.leb ?a ?b] => first [replace (Nat.leb a b) with true by (symmetry; apply Nat.leb_le; lia) | replace (Nat.leb a b) with false by (symmetry; apply Nat.leb_gt; lia) | destruct (Nat.leb_spec a b)]
  | |- context[Nat.ltb ?a ?b] => first [replace (Nat.ltb a b) with true by (symmetry; apply Nat.ltb_lt; lia) | replace (Nat.ltb a b) with false by (symmetry; apply Nat.ltb_ge; lia) | destruct (Nat.ltb_spec a b)]
  end; cbn [andb]; try lia; reflexivity.
Qed.
Lemma ceil_bounds x : x <= IZR (ceil x) < x + 1.
Proof. unfold ceil. destruct (base_Int_part (- x)) as (H1 & H2). rewrite opp_IZR. lra. Qed.
Lemma ceil_nat x : -1 < x -> exists n, ceil x = Z.of_nat n /\ x <= INR n < x + 1.
Proof.
  intros H. pose proof (ceil_bounds x) as B. assert (-1 < ceil x)%Z by (apply lt_IZR; lra). exists (Z.to_nat (ceil x)). rewrite Z2Nat.id by lia. split; [reflexivity|]. rewrite INR_IZR_INZ, Z2Nat.id by lia. exact B.
Qed.

Lemma squares_zero a b : a ^ 2 + b ^ 2 = 0 -> a = 0 /\ b = 0.
Proof. intros H. pose proof (pow2_ge_0 a). pose proof (pow2_ge_0 b). split; apply Rsqr_0_uniq; unfold Rsqr; lra. Qed.

(** ** C62: unit squares *)

(** 4 n different points of the outline, one n-th apart, with the four corners. *)
Theorem C62_unit_square : forall n : nat, exists v, generate_unit_square (Z.of_nat n) = Ok v /\ shape v = [(4 * n)%nat; 2%nat] /\
  (forall r, (r < 4 * n)%nat -> on_outline (-1/2) (1/2) (-1/2) (1/2) (v @2 r (0%nat)) (v @2 r (1%nat))) /\ distinct_rows v /\
  (forall r, (r < 4 * n)%nat -> gap2 v (next (4 * n) r) r = (1 / INR n) ^ 2) /\
  ((0 < n)%nat -> forall sx sy, (sx = 1/2 \/ sx = -1/2) -> (sy = 1/2 \/ sy = -1/2) -> has_row v sx sy).
Proof.
  intros n. destruct (square_rows n) as (v & E & S & V). exists v. split; [exact E|]. replace (2 * (n + n))%nat with (4 * n)%nat in * by lia. split; [exact S|]. assert (Nv : nrows v = (4 * n)%nat) by (unfold nrows; rewrite S; reflexivity).
  split; [|split; [|split]].
  - intros r L. rewrite !V by lia. apply walk_outline; try lra; lia.
  - intros i j Li Lj N G. rewrite Nv in Li, Lj. unfold gap2 in G. rewrite !V in G by lia. apply squares_zero in G. destruct G as (G0 & G1). apply N. apply (walk_apart (-1/2) (1/2) (-1/2) (1/2) n n); try lra; try lia; apply Rminus_diag_uniq; assumption.
  - intros r L. unfold gap2. rewrite !V by (try lia; unfold next; destruct (Nat.eqb_spec (Datatypes.S r) (4 * n)); lia). pose proof (walk_step (-1/2) (1/2) (-1/2) (1/2) n n r ltac:(lia) ltac:(lia) ltac:(lia)) as W. cbv zeta in W. replace (2 * (n + n))%nat with (4 * n)%nat in W by lia. rewrite W. assert (INR n <> 0) by (apply not_0_INR; lia). destruct (horizontal _ _ _); f_equal; field; assumption.
  - intros Hn sx sy Hx Hy. unfold has_row. rewrite Nv. destruct (walk_corners (-1/2) (1/2) (-1/2) (1/2) n n Hn Hn) as ((A1 & A2) & (B1 & B2) & (C1 & C2)). destruct (walk_start (-1/2) (1/2) (-1/2) (1/2) n n Hn Hn) as (D1 & D2).
    destruct Hx as [-> | ->], Hy as [-> | ->]; [exists (n + n - 1)%nat|exists (n - 1)%nat|exists (2 * n + n - 1)%nat|exists (2 * (n + n) - 1)%nat]; rewrite !V by lia; (split; [lia|]); split; assumption.
Qed.
Print Assumptions C62_unit_square.
Theorem C62_unit_square_negative : forall n, (n < 0)%Z -> generate_unit_square n = Err RuntimeError.
Proof. intros n H. unfold generate_unit_square, zeros2. replace (Z.ltb (4 * n) 0) with true by (symmetry; apply Z.ltb_lt; lia). reflexivity. Qed.
Print Assumptions C62_unit_square_negative.

(** ** C62: rectangles *)
Lemma div_le d x m : 0 < d -> 0 < m -> x * d <= m -> x / m <= 1 / d.
Proof. intros Hd Hm H. apply (Rmult_le_reg_r (m * d)); [apply Rmult_lt_0_compat; assumption|]. replace (x / m * (m * d)) with (x * d) by (field; lra). replace (1 / d * (m * d)) with m by (field; lra). exact H. Qed.
Theorem C62_rectangle : forall b density, valid_box b -> a_dim b = 2%nat -> 0 <= density ->
  exists v p q, generate_rectangle b density = Ok v /\ shape v = [(2 * (p + q))%nat; 2%nat] /\ side b 0 * density <= INR p < side b 0 * density + 1 /\ side b 1 * density <= INR q < side b 1 * density + 1 /\
  (forall r, (r < nrows v)%nat -> on_outline (lo b 0) (hi b 0) (lo b 1) (hi b 1) (v @2 r (0%nat)) (v @2 r (1%nat))) /\
  (0 < density -> lo b 0 < hi b 0 -> lo b 1 < hi b 1 -> distinct_rows v /\
    (forall r, (r < nrows v)%nat -> 0 < gap2 v (next (nrows v) r) r <= (1 / density) ^ 2) /\
    (forall sx sy, (sx = lo b 0 \/ sx = hi b 0) -> (sy = lo b 1 \/ sy = hi b 1) -> has_row v sx sy)).
Proof.
  intros b density V D H. pose proof (proj2 V 0%nat ltac:(lia)) as V0. pose proof (proj2 V 1%nat ltac:(lia)) as V1.
  assert (P0 : 0 <= side b 0 * density) by (apply Rmult_le_pos; [unfold side; lra|exact H]). assert (P1 : 0 <= side b 1 * density) by (apply Rmult_le_pos; [unfold side; lra|exact H]).
  destruct (ceil_nat (side b 0 * density) ltac:(lra)) as (p & Ep & Bp). destruct (ceil_nat (side b 1 * density) ltac:(lra)) as (q & Eq & Bq). destruct (rectangle_rows b density p q D Ep Eq) as (v & E & S & W).
  exists v, p, q. split; [exact E|]. split; [exact S|]. split; [exact Bp|]. split; [exact Bq|]. assert (Nv : nrows v = (2 * (p + q))%nat) by (unfold nrows; rewrite S; reflexivity). rewrite Nv. split.
  - intros r L. rewrite !W by lia. apply walk_outline; assumption.
  - intros Hd H0 H1. assert (Sp : 0 < side b 0 * density) by (apply Rmult_lt_0_compat; [unfold side; lra|exact Hd]). assert (Sq : 0 < side b 1 * density) by (apply Rmult_lt_0_compat; [unfold side; lra|exact Hd]).
    assert (Hp : (0 < p)%nat) by (apply INR_lt; cbn; lra). assert (Hq : (0 < q)%nat) by (apply INR_lt; cbn; lra). split; [|split].
    + intros i j Li Lj N G. rewrite Nv in Li, Lj. unfold gap2 in G. rewrite !W in G by lia. apply squares_zero in G. destruct G as (G0 & G1). apply N. apply (walk_apart (lo b 0) (hi b 0) (lo b 1) (hi b 1) p q); try lra; try lia; apply Rminus_diag_uniq; assumption.
    + intros r L. unfold gap2. rewrite !W by (try lia; unfold next; destruct (Nat.eqb_spec (Datatypes.S r) (2 * (p + q))); lia). pose proof (walk_step (lo b 0) (hi b 0) (lo b 1) (hi b 1) p q r Hp Hq L) as St. cbv zeta in St. rewrite St. fold (side b 0) (side b 1).
      assert (Dp : 0 < side b 0 / INR p) by (apply part_pos; [exact Hp|unfold side; lra]). assert (Dq : 0 < side b 1 / INR q) by (apply part_pos; [exact Hq|unfold side; lra]). pose proof (div_le density (side b 0) (INR p) Hd ltac:(lra) ltac:(lra)). pose proof (div_le density (side b 1) (INR q) Hd ltac:(lra) ltac:(lra)).
      destruct (horizontal _ _ _); (split; [apply pow_lt; assumption|apply pow_incr; lra]).
    + intros sx sy Hx Hy. unfold has_row. rewrite Nv. destruct (walk_corners (lo b 0) (hi b 0) (lo b 1) (hi b 1) p q Hp Hq) as ((A1 & A2) & (B1 & B2) & (C1 & C2)). destruct (walk_start (lo b 0) (hi b 0) (lo b 1) (hi b 1) p q Hp Hq) as (D1 & D2).
      destruct Hx as [-> | ->], Hy as [-> | ->]; [exists (2 * (p + q) - 1)%nat|exists (2 * p + q - 1)%nat|exists (p - 1)%nat|exists (p + q - 1)%nat]; rewrite !W by lia; (split; [lia|]); split; assumption.
Qed.
Print Assumptions C62_rectangle.
Theorem C62_rectangle_errors : forall b density,
  (a_dim b <> 2%nat -> generate_rectangle b density = Err NotImplementedError) /\
  (valid_box b -> a_dim b = 2%nat -> density < 0 -> (side b 0 * density <= -1 \/ side b 1 * density <= -1) -> generate_rectangle b density = Err RuntimeError) /\
  (valid_box b -> a_dim b = 2%nat -> density < 0 -> -1 < side b 0 * density -> -1 < side b 1 * density -> exists v, generate_rectangle b density = Ok v /\ shape v = [0; 2]%nat).
Proof.
  intros b density. split; [|split].
  - intros D. unfold generate_rectangle. apply Nat.eqb_neq in D. rewrite D. reflexivity.
  - intros V D H C. pose proof (proj2 V 0%nat ltac:(lia)) as V0. pose proof (proj2 V 1%nat ltac:(lia)) as V1. unfold generate_rectangle. rewrite D. cbn [Nat.eqb negb].
    replace (nth 0 (lengths b) 0) with (side b 0) by (unfold lengths; rewrite D; reflexivity). replace (nth 1 (lengths b) 0) with (side b 1) by (unfold lengths; rewrite D; reflexivity).
    pose proof (ceil_bounds (side b 0 * density)) as B0. pose proof (ceil_bounds (side b 1 * density)) as B1. assert (N0 : side b 0 * density <= 0) by (unfold side; nra). assert (N1 : side b 1 * density <= 0) by (unfold side; nra).
    assert (Z0 : (ceil (side b 0 * density) < 1)%Z) by (apply lt_IZR; lra). assert (Z1 : (ceil (side b 1 * density) < 1)%Z) by (apply lt_IZR; lra).
    unfold zeros2. replace (Z.ltb _ 0) with true; [reflexivity|]. symmetry. apply Z.ltb_lt. destruct C as [C|C]; [assert (ceil (side b 0 * density) < 0)%Z by (apply lt_IZR; lra)|assert (ceil (side b 1 * density) < 0)%Z by (apply lt_IZR; lra)]; lia.
  - intros V D H C0 C1. pose proof (proj2 V 0%nat ltac:(lia)) as V0. pose proof (proj2 V 1%nat ltac:(lia)) as V1.
    assert (N0 : side b 0 * density <= 0) by (unfold side; nra). assert (N1 : side b 1 * density <= 0) by (unfold side; nra).
    pose proof (ceil_bounds (side b 0 * density)) as B0. pose proof (ceil_bounds (side b 1 * density)) as B1. assert (-1 < ceil (side b 0 * density) < 1)%Z by (split; apply lt_IZR; lra). assert (-1 < ceil (side b 1 * density) < 1)%Z by (split; apply lt_IZR; lra).
    destruct (rectangle_rows b density 0 0 D ltac:(cbn; lia) ltac:(cbn; lia)) as (v & E & S & _). exists v. split; [exact E|exact S].
Qed.
Print Assumptions C62_rectangle_errors.

(** ** C62: circles *)
Lemma cos_lt_1 x : 0 < x < 2 * PI -> cos x < 1.
Proof.
  intros H. replace x with (2 * (x / 2)) by field. rewrite cos_2a_sin. assert (0 < sin (x / 2)) by (apply sin_gt_0; lra). nra.
Qed.
Lemma chord a b : (cos a - cos b) ^ 2 + (sin a - sin b) ^ 2 = 2 - 2 * cos (a - b).
Proof. rewrite cos_minus. pose proof (sin2_cos2 a) as H1. pose proof (sin2_cos2 b) as H2. unfold Rsqr in H1, H2. nra. Qed.
(** n different points of the unit circle; two neighbours (also the last and the first one)
    are seen under the angle 2 pi / n. *)
Theorem C62_unit_circle : forall n : nat, exists v, generate_unit_circle (Z.of_nat n) = Ok v /\ shape v = [n; 2]%nat /\
  (forall r, (r < n)%nat -> (v @2 r (0%nat)) ^ 2 + (v @2 r (1%nat)) ^ 2 = 1) /\ distinct_rows v /\
  (forall r, (r < n)%nat -> gap2 v (next n r) r = 2 - 2 * cos (2 * PI / INR n)) /\
  ((0 < n)%nat -> v @2 (0%nat) (0%nat) = 1 /\ v @2 (0%nat) (1%nat) = 0).
Proof.
  intros n. unfold generate_unit_circle, linspace. replace (Z.ltb _ 0) with false by (symmetry; apply Z.ltb_ge; lia). cbn [bind]. eexists. split; [reflexivity|].
  set (a := init1 _). assert (Na : nrows a = n) by (unfold a; cbn; unfold tnth; cbn; lia).
  assert (Va : forall i, (i < n)%nat -> a @1 i = INR i * (2 * PI / INR n)).
  { intros i L. unfold a. cbn [get init1 mk1]. replace (Z.eqb _ 1) with false by (symmetry; apply Z.eqb_neq; lia). replace (Z.of_nat n + 1 - 1)%Z with (Z.of_nat n) by lia. rewrite <- INR_IZR_INZ, Rminus_0_r. ring. }
  clearbody a. rewrite Na. split; [reflexivity|]. pose proof PI_RGT_0 as Pi. split; [|split; [|split]].
  - intros r L. cbn [get mk2]. pose proof (sin2_cos2 (a @1 r)) as H. unfold Rsqr in H. lra.
  - assert (G : forall i j, (i < j)%nat -> (j < n)%nat -> 2 - 2 * cos (a @1 j - a @1 i) <> 0).
    { intros i j Lij Lj. rewrite !Va by lia. assert (Pn : 0 < INR n) by (apply lt_0_INR; lia). assert (D1 : 0 < INR j - INR i) by (apply lt_INR in Lij; lra). assert (D2 : INR j - INR i < INR n) by (apply lt_INR in Lj; pose proof (pos_INR i); lra).
      assert (Q : cos (INR j * (2 * PI / INR n) - INR i * (2 * PI / INR n)) < 1); [|lra]. apply cos_lt_1. replace (INR j * (2 * PI / INR n) - INR i * (2 * PI / INR n)) with ((INR j - INR i) / INR n * (2 * PI)) by (field; lra).
      assert (0 < (INR j - INR i) / INR n < 1). { split; [apply Rdiv_lt_0_compat; assumption|]. apply (Rmult_lt_reg_r (INR n)); [exact Pn|]. unfold Rdiv. rewrite Rmult_assoc, Rinv_l by lra. lra. } split; nra. }
    intros i j Li Lj N. cbn in Li, Lj. unfold tnth in Li, Lj. cbn in Li, Lj. unfold gap2. cbn [get mk2]. rewrite chord. destruct (Nat.lt_total i j) as [L|[L|L]]; [|contradiction|apply G; assumption]. replace (a @1 i - a @1 j) with (- (a @1 j - a @1 i)) by ring. rewrite cos_neg. apply G; assumption.
  - intros r L. assert (Pn : INR n <> 0) by (apply not_0_INR; lia). unfold gap2, next. cbn [get mk2]. rewrite chord. destruct (Nat.eqb_spec (S r) n) as [E|E].
    + rewrite !Va by lia. assert (Er : INR r = INR n - 1) by (rewrite <- E, S_INR; ring). rewrite Er. cbn [INR]. replace (0 * (2 * PI / INR n) - (INR n - 1) * (2 * PI / INR n)) with (2 * PI / INR n - 2 * PI) by (field; exact Pn). rewrite <- (cos_neg (_ - _)). replace (- (2 * PI / INR n - 2 * PI)) with (- (2 * PI / INR n) + 2 * INR 1 * PI) by (cbn; ring). rewrite cos_period, cos_neg. reflexivity.
    + rewrite !Va by lia. rewrite S_INR. do 3 f_equal. ring.
  - intros Hn. cbn [get mk2]. rewrite Va by exact Hn. cbn [INR]. rewrite Rmult_0_l. split; [apply cos_0|apply sin_0].
Qed.
Print Assumptions C62_unit_circle.

(** ** C62: grids and discs *)
Theorem C62_mesh_grid : forall b resolution, valid_box b -> (0 < a_dim b)%nat -> length resolution = a_dim b -> Forall (fun n => (0 <= n)%Z) resolution ->
  exists g, generate_mesh_grid b resolution = Ok g /\ length g = a_dim b /\
  forall c, (c < a_dim b)%nat -> shape (nth c g (tzeros [])) = map Z.to_nat resolution /\
    forall idx, get (nth c g (tzeros [])) idx = (let n := nth c resolution 0%Z in if Z.eqb n 1 then lo b c else lo b c + INR (tnth idx c) * (side b c / IZR (n - 1))).
Proof.
  intros b l ((H1 & H2) & _) P E F. unfold generate_mesh_grid. rewrite count_axes by exact F. cbn [bind]. set (axes := map axis_of _). assert (La : length axes = a_dim b) by (unfold axes; rewrite map_length, !combine_length; lia).
  unfold meshgrid. destruct axes as [|a0 axes'] eqn:A; [cbn in La; lia|]. rewrite <- A in *. clear A a0 axes'. eexists. split; [reflexivity|]. split; [rewrite map_length, seq_length; exact La|].
  intros c Lc. rewrite (nth_map_seq (fun k => mkT (map nrows axes) (fun idx => (nth k axes (tzeros [])) @1 (tnth idx k))) (length axes) c (tzeros [])) by lia. split.
  - cbn [shape]. unfold axes. apply count_sizes; lia.
  - intros idx. cbn [get]. unfold axes. rewrite (nth_indep _ _ (axis_of (0, 0, 0%Z))) by (rewrite map_length, !combine_length; lia). rewrite map_nth.
    rewrite (combine_nth (combine (a_kmin b) (a_kmax b)) l c (0, 0) 0%Z) by (rewrite combine_length; lia). rewrite (combine_nth (a_kmin b) (a_kmax b) c 0 0) by lia. unfold axis_of. cbn [fst snd get mk1]. reflexivity.
Qed.
Print Assumptions C62_mesh_grid.

(** Points of a disc have one of the radii between the inner and the outer one. *)
Lemma ring_ok density r : 0 <= r -> 0 <= density -> exists n l, ceil (2 * PI * r * density) = Z.of_nat n /\ 2 * PI * r * density <= INR n < 2 * PI * r * density + 1 /\ ring density r = Ok l /\ length l = n /\
  (forall x, In x l -> (fst x) ^ 2 + (snd x) ^ 2 = r ^ 2) /\ ((1 < n)%nat -> nth 0 l (0, 0) = (r, 0) /\ nth (n - 1) l (0, 0) = (r, 0)).
Proof.
  intros Hr Hd. pose proof PI_RGT_0 as Pi. destruct (ceil_nat (2 * PI * r * density)) as (n & En & Bn). { assert (0 <= 2 * PI * r * density); [|lra]. apply Rmult_le_pos; [|exact Hd]. apply Rmult_le_pos; [lra|exact Hr]. }
  unfold ring, linspace. rewrite En. replace (Z.ltb _ 0) with false by (symmetry; apply Z.ltb_ge; lia). cbn [bind]. do 2 eexists. split; [reflexivity|]. split; [exact Bn|]. split; [reflexivity|]. unfold entries. rewrite map_map. cbn [nrows mk1 shape tnth nth]. change (tnth [Z.to_nat (Z.of_nat n)] 0) with (Z.to_nat (Z.of_nat n)). rewrite Nat2Z.id. split; [rewrite map_length, seq_length; reflexivity|]. split.
  - intros x I. apply in_map_iff in I. destruct I as (k & <- & _). cbn [fst snd]. match goal with |- (r * cos ?t) ^ 2 + _ = _ => pose proof (sin2_cos2 t) as H; unfold Rsqr in H; set (c := cos t) in *; set (s := sin t) in * end. replace ((r * c) ^ 2 + (r * s) ^ 2) with (r ^ 2 * (s * s + c * c)) by ring. rewrite H. ring.
  - intros L. assert (Pn : IZR (Z.of_nat n - 1) <> 0) by (intros H; apply eq_IZR in H; lia). split.
    + rewrite (nth_map_seq (fun x => (r * cos ((mk1 n (fun i => if (Z.of_nat n =? 1)%Z then 0 else 0 + INR i * ((2 * PI - 0) / IZR (Z.of_nat n - 1)))) @1 x), r * sin ((mk1 n (fun i => if (Z.of_nat n =? 1)%Z then 0 else 0 + INR i * ((2 * PI - 0) / IZR (Z.of_nat n - 1)))) @1 x))) n 0 (0, 0)) by lia.
      cbn [get mk1]. replace (Z.eqb _ 1) with false by (symmetry; apply Z.eqb_neq; lia). cbn [INR]. rewrite Rmult_0_l, Rplus_0_l, cos_0, sin_0. f_equal; ring.
    + rewrite (nth_map_seq (fun x => (r * cos ((mk1 n (fun i => if (Z.of_nat n =? 1)%Z then 0 else 0 + INR i * ((2 * PI - 0) / IZR (Z.of_nat n - 1)))) @1 x), r * sin ((mk1 n (fun i => if (Z.of_nat n =? 1)%Z then 0 else 0 + INR i * ((2 * PI - 0) / IZR (Z.of_nat n - 1)))) @1 x))) n (n - 1) (0, 0)) by lia.
      cbn [get mk1]. replace (Z.eqb _ 1) with false by (symmetry; apply Z.eqb_neq; lia). replace (INR (n - 1)) with (IZR (Z.of_nat n - 1)) by (rewrite INR_IZR_INZ; f_equal; lia). replace (0 + _ * _) with (2 * PI) by (field; exact Pn). rewrite cos_2PI, sin_2PI. f_equal; ring.
Qed.
Lemma radials_ok density outer inner : inner < outer -> 0 < density ->
  exists n l, ceil ((outer - inner) * density) = Z.of_nat n /\ (0 < n)%nat /\ linspace inner outer (Z.of_nat n) = Ok l /\ length (entries l) = n /\
  (forall r, In r (entries l) -> inner <= r <= outer) /\ (n = 1%nat -> entries l = [inner]) /\ ((1 < n)%nat -> exists l', entries l = l' ++ [outer]).
Proof.
  intros H D. assert (P : 0 < (outer - inner) * density) by (apply Rmult_lt_0_compat; lra). destruct (ceil_nat ((outer - inner) * density) ltac:(lra)) as (n & En & Bn). assert (Hn : (0 < n)%nat) by (apply INR_lt; cbn; lra).
  exists n. unfold linspace. replace (Z.ltb (Z.of_nat n) 0) with false by (symmetry; apply Z.ltb_ge; lia). rewrite Nat2Z.id. eexists. split; [exact En|]. split; [exact Hn|]. split; [reflexivity|]. unfold entries. cbn [nrows mk1 shape]. change (tnth [n] 0) with n.
  split; [rewrite map_length, seq_length; reflexivity|]. split; [|split].
  - intros r I. apply in_map_iff in I. destruct I as (k & <- & I). apply in_seq in I. unfold nrows, tnth in I. cbn in I. cbn [get mk1]. destruct (Z.eqb_spec (Z.of_nat n) 1) as [E|E]; [lra|]. apply between_axis; [lra|lia|rewrite Nat2Z.id; lia].
  - intros ->. reflexivity.
  - intros L. replace (nrows _) with (n - 1 + 1)%nat by (unfold nrows, tnth; cbn; lia). rewrite seq_app, map_app. eexists. f_equal. cbn [seq map Nat.add get mk1]. replace (Z.eqb _ 1) with false by (symmetry; apply Z.eqb_neq; lia). f_equal. replace (INR (n - 1)) with (IZR (Z.of_nat n - 1)) by (rewrite INR_IZR_INZ; f_equal; lia). assert (Pn : IZR (Z.of_nat n - 1) <> 0) by (intros E; apply eq_IZR in E; lia). field. exact Pn.
Qed.
Lemma same_length {A B} (P : A -> B -> Prop) l l' : Forall2 P l l' -> length l = length l'.
Proof. intros F. induction F; cbn; congruence. Qed.
Arguments same_length {A B P l l'}.
Lemma rings_ok density l : 0 <= density -> Forall (fun r => 0 <= r) l -> exists rings, mapM (ring density) l = Ok rings /\ Forall2 (fun r p => ring density r = Ok p) l rings.
Proof.
  intros D F. induction F as [|r l Hr F IH]; [exists []; split; [reflexivity|constructor]|]. destruct IH as (rings & E & F2). destruct (ring_ok density r Hr D) as (n & p & _ & _ & Er & _). exists (p :: rings). split; [cbn [mapM]; rewrite Er; cbn [bind]; rewrite E; reflexivity|constructor; assumption].
Qed.
Theorem C62_disc : forall density outer inner, 0 <= inner < outer -> 0 < density ->
  exists v, generate_disc_density density outer inner = Ok v /\ ncols v = 2%nat /\ forall r, (r < nrows v)%nat -> inner ^ 2 <= (v @2 r (0%nat)) ^ 2 + (v @2 r (1%nat)) ^ 2 <= outer ^ 2.
Proof.
  intros density outer inner H D. unfold generate_disc_density. replace (Rltb inner outer) with true by (symmetry; apply Rltb_true; lra). cbn [py_assert bind]. destruct (radials_ok density outer inner ltac:(lra) D) as (n & l & En & Hn & El & Ln & R & _). rewrite En, El. cbn [bind].
  destruct (rings_ok density (entries l) ltac:(lra)) as (rings & E & F2); [apply Forall_forall; intros r I; apply R in I; lra|]. rewrite E. cbn [bind]. pose proof (same_length F2) as Lr. destruct rings as [|r0 rings'] eqn:Q; [cbn in Lr; lia|]. rewrite <- Q in *. clear Q r0 rings' Lr.
  eexists. split; [reflexivity|]. split; [reflexivity|]. cbn [nrows of_points mk2 shape]. change (tnth [length (List.concat rings); 2%nat] 0) with (length (List.concat rings)). intros r L. cbn [get of_points mk2]. pose proof (nth_In (List.concat rings) (0, 0) L) as I. apply in_concat in I. destruct I as (p & Ip & I).
  assert (X : exists rad, In rad (entries l) /\ ring density rad = Ok p). { clear - F2 Ip. induction F2 as [|a b la lb Hab F2 IH]; [destruct Ip|]. destruct Ip as [<- | Ip]; [exists a; split; [left; reflexivity|exact Hab]|]. destruct (IH Ip) as (rad & I & Er). exists rad. split; [right; exact I|exact Er]. }
  destruct X as (rad & Ir & Er). apply R in Ir. destruct (ring_ok density rad ltac:(lra) ltac:(lra)) as (m & p' & _ & _ & Er' & _ & No & _). rewrite Er in Er'. injection Er' as <-. rewrite (No _ I). split; apply pow_incr; lra.
Qed.
Print Assumptions C62_disc.
(** Finding: the last point of each ring repeats its first one. *)
Theorem C62_disc_repeats_refuted : forall density outer inner, 0 <= inner < outer -> 0 < density -> 1 < (outer - inner) * density ->
  exists v, generate_disc_density density outer inner = Ok v /\ ~ distinct_rows v.
Proof.
  intros density outer inner H D B. unfold generate_disc_density. replace (Rltb inner outer) with true by (symmetry; apply Rltb_true; lra). cbn [py_assert bind]. destruct (radials_ok density outer inner ltac:(lra) D) as (n & l & En & Hn & El & Ln & R & _ & La). rewrite En, El. cbn [bind].
  assert (N1 : (1 < n)%nat). { pose proof (ceil_bounds ((outer - inner) * density)) as C. rewrite En, <- INR_IZR_INZ in C. apply INR_lt. cbn. lra. } destruct (La N1) as (l' & El'). clear La.
  destruct (rings_ok density (entries l) ltac:(lra)) as (rings & E & F2); [apply Forall_forall; intros r I; apply R in I; lra|]. rewrite E. cbn [bind]. pose proof (same_length F2) as Lr. destruct rings as [|r0 rings'] eqn:Q; [cbn in Lr; lia|]. rewrite <- Q in *. clear Q r0 rings' Lr.
  eexists. split; [reflexivity|]. rewrite El' in F2. apply Forall2_app_inv_l in F2. destruct F2 as (pre & last & F2 & F3 & ->). inversion F3 as [|? p ? ? Er F4]; subst. inversion F4; subst. rewrite concat_app. cbn [List.concat]. rewrite app_nil_r.
  destruct (ring_ok density outer ltac:(lra) ltac:(lra)) as (m & p' & _ & Bm & Er' & Lm & _ & Rep). rewrite Er in Er'. injection Er' as <-. assert (M1 : (1 < m)%nat). { apply INR_lt. cbn. pose proof PI2_1 as P2. assert (1 <= outer * density) by nra. nra. }
  destruct (Rep M1) as (P0 & P1). intros Di. set (k := length (List.concat pre)). apply (Di (k + 0)%nat (k + (m - 1))%nat).
  - cbn. unfold tnth. cbn [nth]. rewrite app_length. fold k. lia.
  - cbn. unfold tnth. cbn [nth]. rewrite app_length. fold k. lia.
  - lia.
  - unfold gap2. cbn [get of_points mk2]. rewrite !app_nth2 by (unfold k; lia). replace (k + 0 - length (List.concat pre))%nat with 0%nat by (unfold k; lia). replace (k + (m - 1) - length (List.concat pre))%nat with (m - 1)%nat by (unfold k; lia). rewrite P0, P1. cbn [fst snd]. ring.
Qed.
Print Assumptions C62_disc_repeats_refuted.
(** Finding: up to a density of one over the width of the disc, only the inner circle is made;
    without hole it has no point. *)
Theorem C62_sparse_disc_refuted : forall density outer inner, 0 <= inner < outer -> 0 < density -> (outer - inner) * density <= 1 ->
  exists v, generate_disc_density density outer inner = Ok v /\ (forall r, (r < nrows v)%nat -> (v @2 r (0%nat)) ^ 2 + (v @2 r (1%nat)) ^ 2 = inner ^ 2) /\ (inner = 0 -> shape v = [0; 2]%nat).
Proof.
  intros density outer inner H D B. unfold generate_disc_density. replace (Rltb inner outer) with true by (symmetry; apply Rltb_true; lra). cbn [py_assert bind]. destruct (radials_ok density outer inner ltac:(lra) D) as (n & l & En & Hn & El & Ln & R & One & _). rewrite En, El. cbn [bind].
  assert (N1 : n = 1%nat). { pose proof (ceil_bounds ((outer - inner) * density)) as C. rewrite En, <- INR_IZR_INZ in C. assert (n < 2)%nat by (apply INR_lt; cbn; lra). lia. } rewrite (One N1). destruct (ring_ok density inner ltac:(lra) ltac:(lra)) as (m & p & Em & Bm & Er & Lm & No & _). cbn [mapM]. rewrite Er. cbn [bind]. eexists. split; [reflexivity|]. cbn [List.concat]. rewrite app_nil_r. split.
  - cbn [nrows of_points mk2 shape]. change (tnth [length p; 2%nat] 0) with (length p). intros r L. cbn [get of_points mk2]. apply No, nth_In, L.
  - intros ->. assert (m = 0)%nat. { assert (m < 1)%nat; [|lia]. apply INR_lt. cbn. replace (2 * PI * 0 * density) with 0 in Bm by ring. lra. } subst m. destruct p; [reflexivity|discriminate].
Qed.
Print Assumptions C62_sparse_disc_refuted.
Theorem C62_disc_errors : forall density outer inner,
  (outer <= inner -> generate_disc_density density outer inner = Err AssertionError) /\
  (inner < outer -> density <= 0 -> generate_disc_density density outer inner = Err RuntimeError).
Proof.
  intros density outer inner. split.
  - intros H. unfold generate_disc_density. replace (Rltb inner outer) with false by (symmetry; apply Rltb_false; exact H). reflexivity.
  - intros H D. unfold generate_disc_density. replace (Rltb inner outer) with true by (symmetry; apply Rltb_true; exact H). cbn [py_assert bind]. pose proof (ceil_bounds ((outer - inner) * density)) as C. assert (N : (outer - inner) * density <= 0) by nra. assert (Z : (ceil ((outer - inner) * density) < 1)%Z) by (apply lt_IZR; lra).
    unfold linspace. destruct (Z.ltb_spec (ceil ((outer - inner) * density)) 0) as [L|L]; [reflexivity|]. replace (ceil ((outer - inner) * density)) with 0%Z by lia. reflexivity.
Qed.
Print Assumptions C62_disc_errors.
Definition wide_box : box := mkAABB 2 [0; 0] [2; 1].
Example C62_case : valid_box wide_box /\ a_dim wide_box = 2%nat /\ lo wide_box 0 < hi wide_box 0 /\ lo wide_box 1 < hi wide_box 1 /\ 1 < (2 - 0) * 3.
Proof. split; [split; [split; reflexivity|]|]; [intros [|[|c]] L; cbn in L; try lia; unfold lo, hi; cbn; lra|]. split; [reflexivity|]. unfold lo, hi. cbn. lra. Qed.
