(** The implicit modules of order 1: cost and geodesic controls through the linear
    system M lam = A h of the module. *)
From Coq Require Import Reals String List Arith Lia Lra.
From Verif Require Import Py Tensor TensorFacts KernelModel FieldModel SpecKernel SpecField KernelFacts
  FieldFacts FieldLinear GeometryModel SpecGeometry GeometryFacts SpecLinAlg LinAlg GaussPSD GaussHermite
  SpecSKS SKSFacts ModuleModel SpecModule ModuleDual ModuleAlg ModuleLeaves.
Import ListNotations.
Open Scope R_scope.

Lemma solves_sym_dot n M y z u w : symmetric n M -> solves n M y u -> solves n M z w ->
  rsum n (fun k => u k * z k) = rsum n (fun k => y k * w k).
Proof.
  intros HS Hy Hz. transitivity (bil n M z y).
  - rewrite (bil_solves n M y u z Hy). apply rsum_ext. intros; ring.
  - rewrite bil_sym by assumption. apply (bil_solves n M z w y Hz).
Qed.

Lemma leaf_implicit sv b0 d m n r co sg M A (bvs : sfield -> nat -> R) :
  exact_solver sv -> 0 < co -> symmetric n M -> psd n M -> nonsingular n M ->
  (forall f f', (forall k, (k < r)%nat -> f k = f' k) -> forall k, (k < n)%nat -> A f k = A f' k) ->
  (forall a b f f' k, (k < n)%nat -> A (fun k => a * f k + b * f' k) k = a * A f k + b * A f' k) ->
  (forall c, ctrl_ok d m c -> exists t, c = CLeaf t /\ prod (shape t) = r) ->
  (forall t t', shape t' = shape t -> ctrl_ok d m (CLeaf t) -> ctrl_ok d m (CLeaf t')) ->
  (forall t, ctrl_ok d m (CLeaf t) -> exists m1 f lam, fill_controls sv m (CLeaf t) = Ok m1 /\
     solves n M lam (A (fvec t)) /\ cost m1 = Ok (1 / 2 * (co * rsum n (fun k => A (fvec t) k * lam k))) /\
     field_generator m1 = Ok f /\ good d f /\
     forall man vs, represents d man sg vs ->
       pairing d man (fval d f) (fjac d f) = rsum n (fun k => lam k * bvs vs k)) ->
  (forall man m', wf_gman d man -> no_empty_comp man -> compute_geodesic_control sv b0 m man = Ok m' ->
     exists h vs, represents d man sg vs /\ ctrl_ok d m (CLeaf h) /\ fill_controls sv m (CLeaf h) = Ok m' /\
       controls m' = CLeaf h /\
       forall f y z, solves n M y (A f) -> solves n M z (A (fvec h)) ->
         co * rsum n (fun k => A f k * z k) = rsum n (fun k => y k * bvs vs k)) ->
  exists Q, vb r Q /\ leaf sv b0 d m (Qc Q).
Proof.
  intros HSV Hco HS HP HN AE AL HL HSH HF HG.
  set (Lam := fun f : nat -> R => match sv (mk2 n n M) (mk1 n (A f)) with Ok X => fun k => X @1 k | Err _ => fun _ => 0 end).
  assert (HLam : forall f, solves n M (Lam f) (A f)).
  { intros f. destruct (solver_total sv n (mk2 n n M) (mk1 n (A f)) M HSV eq_refl (or_introl eq_refl)) as (X & EX).
    - reflexivity.
    - assumption.
    - unfold Lam. rewrite EX. apply (solver_vec sv n (mk2 n n M) (mk1 n (A f)) X M HSV eq_refl eq_refl EX). reflexivity. }
  assert (V : vb r (fun f g => co * rsum n (fun k => A f k * Lam g k))) by (apply (vb_implicit r n co M A Lam); try assumption; lra).
  exists (fun f g => co * rsum n (fun k => A f k * Lam g k)). split; [exact V|]. split.
  - apply (leaf_pack sv d m r).
    + exact V.
    + assumption.
    + assumption.
    + intros t Ht. destruct (HF t Ht) as (m1 & f & lam & F & SL & C & FG & GD & _).
      exists m1, f. split; [assumption|]. split; [|split; assumption].
      rewrite C. do 3 f_equal. apply rsum_ext. intros k Hk. f_equal.
      apply (solves_unique n M _ _ _ HN SL (HLam _)); assumption.
  - intros man m' W NE E c m1 f Hc F FG. destruct (HL c Hc) as (t & -> & _).
    destruct (HF t Hc) as (m1' & f' & lam & F' & SL & _ & FG' & _ & PR).
    rewrite F in F'. injection F' as <-. rewrite FG in FG'. injection FG' as <-.
    destruct (HG man m' W NE E) as (h & vs & RP & _ & _ & CT & HD). rewrite CT. cbn [Qc].
    rewrite (HD (fvec t) lam (Lam (fvec h)) SL (HLam _)). apply PR. assumption.
  - intros man m' W NE E. destruct (HG man m' W NE E) as (h & vs & RP & CO & FI & CT & HD). rewrite CT. auto.
Qed.

(** Geodesic control of ImplicitModule1, in matrix form: L_i solves M L_i = A_i. *)
Lemma imp1_dual n r M co B tl b L c : co <> 0 -> symmetric n M -> nonsingular n M ->
  solves n M (fun q => co * tl q) b ->
  (forall i, (i < r)%nat -> solves n M (L i) (fun q => B q i)) ->
  solves r (fun i j => rsum n (fun q => L i q * B q j)) c (fun i => rsum n (fun q => B q i * tl q)) ->
  let A f q := rsum r (fun i => f i * B q i) in
  forall f y z, solves n M y (A f) -> solves n M z (A c) ->
    co * rsum n (fun k => A f k * z k) = rsum n (fun k => y k * b k).
Proof.
  intros Hco HS HN Ht HL Hc A f y z Hy Hz.
  rewrite <- (solves_sym_dot n M y (fun q => co * tl q) (A f) b HS Hy Ht).
  rewrite <- rsum_scal.
  transitivity (co * rsum r (fun i => f i * rsum n (fun q => B q i * tl q))).
  - rewrite rsum_scal. f_equal.
    transitivity (rsum r (fun i => f i * rsum n (fun q => B q i * z q))).
    + unfold A. rewrite (rsum_ext n _ (fun q => rsum r (fun i => f i * (B q i * z q)))).
      * rewrite rsum_swap. apply rsum_ext. intros i _. apply rsum_scal.
      * intros q _. rewrite <- rsum_scal_r. apply rsum_ext. intros; ring.
    + apply rsum_ext. intros i Hi. f_equal. rewrite <- (Hc i Hi).
      rewrite (solves_sym_dot n M (L i) z _ _ HS (HL i Hi) Hz). unfold A.
      rewrite (rsum_ext n _ (fun q => rsum r (fun j => L i q * B q j * c j))).
      * rewrite rsum_swap. apply rsum_ext. intros j _. apply rsum_scal_r.
      * intros q _. rewrite <- rsum_scal. apply rsum_ext. intros; ring.
  - unfold A. rewrite <- rsum_scal.
    rewrite (rsum_ext n (fun k => rsum r (fun i => f i * B k i) * (co * tl k))
               (fun k => rsum r (fun i => co * (f i * (B k i * tl k))))).
    + rewrite rsum_swap. apply rsum_ext. intros i _. rewrite !rsum_scal. reflexivity.
    + intros k _. rewrite <- rsum_scal_r. apply rsum_ext. intros; ring.
Qed.

(** Geodesic control of the constrained modules: M = ((M11, M12), (M21, M22)),
    A f = (0, f), b = (b1, b2), M11 x = b1 and co h = b2 - M21 x. *)
Definition pad (N : nat) (f : nat -> R) (q : nat) : R := if Nat.ltb q N then 0 else f (q - N)%nat.

Lemma pad_lo N f q : (q < N)%nat -> pad N f q = 0.
Proof. intros H. unfold pad. apply Nat.ltb_lt in H. rewrite H. reflexivity. Qed.
Lemma pad_hi N f q : pad N f (N + q)%nat = f q.
Proof. unfold pad. destruct (Nat.ltb_spec (N + q) N); [lia|]. f_equal. lia. Qed.

Lemma pad_dual N p M co x b h : co <> 0 -> symmetric (N + p) M ->
  solves N M x b ->
  (forall k, (k < p)%nat -> co * h k = b (N + k)%nat - rsum N (fun j => M (N + k)%nat j * x j)) ->
  forall f y z, solves (N + p) M y (pad N f) -> solves (N + p) M z (pad N h) ->
    co * rsum (N + p) (fun k => pad N f k * z k) = rsum (N + p) (fun k => y k * b k).
Proof.
  intros Hco HS Hx Hh f y z Hy Hz.
  rewrite (solves_sym_dot (N + p) M y z _ _ HS Hy Hz).
  rewrite !rsum_split.
  rewrite (rsum_zero N (fun k => y k * pad N h k)) by (intros k Hk; rewrite pad_lo by assumption; ring).
  rewrite (rsum_ext p (fun i => y (N + i)%nat * pad N h (N + i)) (fun i => y (N + i)%nat * h i)) by (intros; rewrite pad_hi; reflexivity).
  assert (H1 : rsum N (fun k => y k * b k) = - rsum p (fun k => y (N + k)%nat * rsum N (fun j => M (N + k)%nat j * x j))).
  { transitivity (rsum N (fun j => x j * rsum N (fun k => M j k * y k))).
    - rewrite (rsum_ext N (fun k => y k * b k) (fun k => rsum N (fun j => y k * (M k j * x j)))).
      + rewrite rsum_swap. apply rsum_ext. intros j Hj. rewrite <- rsum_scal. apply rsum_ext. intros k Hk.
        rewrite (HS k j) by lia. ring.
      + intros k Hk. rewrite <- (Hx k Hk), <- rsum_scal. reflexivity.
    - rewrite (rsum_ext N _ (fun j => x j * - rsum p (fun k => M j (N + k)%nat * y (N + k)%nat))).
      + rewrite <- rsum_opp.
        rewrite (rsum_ext N _ (fun j => rsum p (fun k => - (y (N + k)%nat * (M (N + k)%nat j * x j))))).
        * rewrite rsum_swap. apply rsum_ext. intros k Hk. rewrite rsum_opp, rsum_scal. reflexivity.
        * intros j Hj. rewrite <- rsum_opp, <- rsum_scal. apply rsum_ext. intros k Hk.
          rewrite (HS j (N + k)%nat) by lia. ring.
      + intros j Hj. f_equal. pose proof (Hy j ltac:(lia)) as E. rewrite rsum_split, pad_lo in E by assumption. lra. }
  rewrite H1, Rplus_0_l, <- rsum_scal, <- rsum_opp, <- rsum_plus.
  apply rsum_ext. intros k Hk. specialize (Hh k Hk).
  transitivity (y (N + k)%nat * (co * h k)); [ring|]. rewrite Hh. ring.
Qed.

(** ** The block matrix of the constrained modules *)
Section Block.
  Variables (d s n0 n1 : nat) (e : tensor) (ka sg : R) (x : nat -> nat -> R).
  Let N := (n0 * s)%nat.
  Let y j := x (n0 + j)%nat.

  Definition bT (i t j r : nat) : R := ka * rsum d (fun c => dgauss d sg (vsub (x i) (y j)) c * e @3 c r t).

  Definition bmatrix (q q' : nat) : R :=
    if Nat.ltb q N
    then if Nat.ltb q' N
         then ka ^ 2 * sks_entry d e sg (vsub (x (q / s)) (x (q' / s))) (q mod s) (q' mod s)
         else bT (q / s) (q mod s) ((q' - N) / d) ((q' - N) mod d)
    else if Nat.ltb q' N
         then bT (q' / s) (q' mod s) ((q - N) / d) ((q - N) mod d)
         else gaussian d sg (vsub (y ((q - N) / d)) (y ((q' - N) / d))) * delta ((q - N) mod d) ((q' - N) mod d).

  Lemma bm_11 i t j w : (i < n0)%nat -> (t < s)%nat -> (j < n0)%nat -> (w < s)%nat ->
    bmatrix (i * s + t)%nat (j * s + w)%nat = ka ^ 2 * sks_entry d e sg (vsub (x i) (x j)) t w.
  Proof.
    intros Hi Ht Hj Hw. unfold bmatrix. pose proof (pair_lt n0 s i t Hi Ht). pose proof (pair_lt n0 s j w Hj Hw).
    rewrite (proj2 (Nat.ltb_lt _ _)), (proj2 (Nat.ltb_lt (j * s + w) N)) by assumption.
    rewrite !div_pair, !mod_pair by assumption. reflexivity.
  Qed.
  Lemma bm_12 i t j r : (i < n0)%nat -> (t < s)%nat -> (r < d)%nat ->
    bmatrix (i * s + t)%nat (N + (j * d + r))%nat = bT i t j r.
  Proof.
    intros Hi Ht Hr. unfold bmatrix. pose proof (pair_lt n0 s i t Hi Ht).
    rewrite (proj2 (Nat.ltb_lt (i * s + t) N)), (proj2 (Nat.ltb_ge (N + (j * d + r)) N)) by (assumption || lia).
    replace (N + (j * d + r) - N)%nat with (j * d + r)%nat by lia.
    rewrite !div_pair, !mod_pair by assumption. reflexivity.
  Qed.
  Lemma bm_21 i t j r : (i < n0)%nat -> (t < s)%nat -> (r < d)%nat ->
    bmatrix (N + (j * d + r))%nat (i * s + t)%nat = bT i t j r.
  Proof.
    intros Hi Ht Hr. unfold bmatrix. pose proof (pair_lt n0 s i t Hi Ht).
    rewrite (proj2 (Nat.ltb_lt (i * s + t) N)), (proj2 (Nat.ltb_ge (N + (j * d + r)) N)) by (assumption || lia).
    replace (N + (j * d + r) - N)%nat with (j * d + r)%nat by lia.
    rewrite !div_pair, !mod_pair by assumption. reflexivity.
  Qed.
  Lemma bm_22 i r j r' : (r < d)%nat -> (r' < d)%nat ->
    bmatrix (N + (i * d + r))%nat (N + (j * d + r'))%nat = gaussian d sg (vsub (y i) (y j)) * delta r r'.
  Proof.
    intros Hr Hr'. unfold bmatrix.
    rewrite (proj2 (Nat.ltb_ge (N + (i * d + r)) N)), (proj2 (Nat.ltb_ge (N + (j * d + r')) N)) by lia.
    replace (N + (j * d + r') - N)%nat with (j * d + r')%nat by lia.
    replace (N + (i * d + r) - N)%nat with (i * d + r)%nat by lia.
    rewrite !div_pair, !mod_pair by assumption. reflexivity.
  Qed.

  (** Sums over the rows. *)
  Lemma sum_rows f : rsum (N + n1 * d) f =
    rsum n0 (fun i => rsum s (fun t => f (i * s + t)%nat)) +
    rsum n1 (fun j => rsum d (fun r => f (N + (j * d + r))%nat)).
  Proof.
    rewrite rsum_split. unfold N. rewrite rsum_flat. f_equal.
    apply (rsum_flat n1 d (fun i => f (n0 * s + i)%nat)).
  Qed.

  Lemma split_row q : (q < N + n1 * d)%nat ->
    (exists i t, (i < n0)%nat /\ (t < s)%nat /\ q = (i * s + t)%nat) \/
    (exists j r, (j < n1)%nat /\ (r < d)%nat /\ q = (N + (j * d + r))%nat).
  Proof.
    intros H. destruct (Nat.ltb_spec q N) as [L|L].
    - left. destruct (row_split s n0 q ltac:(unfold N in L; lia)) as (i & t & Hi & Ht & E). exists i, t. auto.
    - right. destruct (row_split d n1 (q - N) ltac:(lia)) as (j & r & Hj & Hr & E). exists j, r. split; [assumption|].
      split; [assumption|]. lia.
  Qed.

  Lemma sks_entry_symm a b t w :
    sks_entry d e sg (vsub a b) t w = sks_entry d e sg (vsub b a) w t.
  Proof.
    unfold sks_entry. f_equal. rewrite rsum_swap. apply rsum_ext. intros c _. apply rsum_ext. intros c' _.
    rewrite (d2gauss_vsub_even d sg a b), (d2gauss_sym d sg _ c' c). f_equal. apply rsum_ext. intros; ring.
  Qed.

  Lemma bm_sym : symmetric (N + n1 * d) bmatrix.
  Proof.
    intros q q' Hq Hq'.
    destruct (split_row q Hq) as [(i & t & Hi & Ht & ->)|(i & t & Hi & Ht & ->)];
    destruct (split_row q' Hq') as [(j & r & Hj & Hr & ->)|(j & r & Hj & Hr & ->)].
    - rewrite !bm_11 by assumption. f_equal. apply sks_entry_symm.
    - rewrite bm_12, bm_21 by assumption. reflexivity.
    - rewrite bm_12, bm_21 by assumption. reflexivity.
    - rewrite !bm_22 by assumption. rewrite gaussian_vsub_sym, delta_sym. reflexivity.
  Qed.

  (** Coefficients of the mixed form over the union of the points. *)
  Definition b_al (lam : nat -> R) (r k : nat) : R :=
    if Nat.ltb k n0 then 0 else lam (N + ((k - n0) * d + r))%nat.
  Definition b_a (lam : nat -> R) (r k c : nat) : R :=
    if Nat.ltb k n0 then ka * from_coords s e (fun t => lam (k * s + t)%nat) c r else 0.

  Lemma al_lo lam r k : (k < n0)%nat -> b_al lam r k = 0.
  Proof. intros H. unfold b_al. rewrite (proj2 (Nat.ltb_lt _ _) H). reflexivity. Qed.
  Lemma al_hi lam r j : b_al lam r (n0 + j) = lam (N + (j * d + r))%nat.
  Proof. unfold b_al. rewrite (proj2 (Nat.ltb_ge (n0 + j) n0)) by lia. replace (n0 + j - n0)%nat with j by lia. reflexivity. Qed.
  Lemma a_lo lam r k c : (k < n0)%nat -> b_a lam r k c = ka * from_coords s e (fun t => lam (k * s + t)%nat) c r.
  Proof. intros H. unfold b_a. rewrite (proj2 (Nat.ltb_lt _ _) H). reflexivity. Qed.
  Lemma a_hi lam r j c : b_a lam r (n0 + j) c = 0.
  Proof. unfold b_a. rewrite (proj2 (Nat.ltb_ge (n0 + j) n0)) by lia. reflexivity. Qed.

  Lemma cross_term lam i j (g : nat -> R) :
    rsum d (fun r => lam (N + (j * d + r))%nat * rsum d (fun c => ka * from_coords s e (fun t => lam (i * s + t)%nat) c r * g c)) =
    rsum s (fun t => rsum d (fun r => lam (i * s + t)%nat * lam (N + (j * d + r))%nat * (ka * rsum d (fun c => g c * e @3 c r t)))).
  Proof.
    rewrite (rsum_swap s d). apply rsum_ext. intros r _. rewrite <- rsum_scal.
    rewrite (rsum_ext d _ (fun c => rsum s (fun t => lam (i * s + t)%nat * lam (N + (j * d + r))%nat * (ka * (g c * e @3 c r t))))).
    - rewrite rsum_swap. apply rsum_ext. intros t _. rewrite <- !rsum_scal. reflexivity.
    - intros c _. unfold from_coords. rewrite <- !rsum_scal, <- rsum_scal_r, <- rsum_scal. apply rsum_ext. intros; ring.
  Qed.

  Lemma bm_quad lam : quad (N + n1 * d) bmatrix lam =
    rsum d (fun r => mixed_form d sg (n0 + n1) x (b_al lam r) (b_a lam r)).
  Proof.
    (* left: four blocks *)
    set (XX := rsum n0 (fun i => rsum s (fun t => rsum n0 (fun j => rsum s (fun w =>
                 lam (i * s + t)%nat * lam (j * s + w)%nat * (ka ^ 2 * sks_entry d e sg (vsub (x i) (x j)) t w)))))).
    set (XY := rsum n0 (fun i => rsum s (fun t => rsum n1 (fun j => rsum d (fun r =>
                 lam (i * s + t)%nat * lam (N + (j * d + r))%nat * bT i t j r))))).
    set (YY := rsum n1 (fun i => rsum d (fun r => rsum n1 (fun j => 
                 lam (N + (i * d + r))%nat * lam (N + (j * d + r))%nat * gaussian d sg (vsub (y i) (y j)))))).
    transitivity (XX + XY + (XY + YY)).
    - unfold quad. rewrite sum_rows. f_equal.
      + unfold XX, XY. rewrite <- rsum_plus. apply rsum_ext. intros i Hi. rewrite <- rsum_plus. apply rsum_ext. intros t Ht.
        rewrite sum_rows. f_equal; apply rsum_ext; intros j Hj; apply rsum_ext; intros w Hw.
        * rewrite bm_11 by assumption. reflexivity.
        * rewrite bm_12 by assumption. reflexivity.
      + unfold XY, YY.
        rewrite (rsum_ext n1 _ (fun j => rsum d (fun r => rsum n0 (fun i => rsum s (fun t => lam (i * s + t)%nat * lam (N + (j * d + r))%nat * bT i t j r)))
                 + rsum d (fun r => rsum n1 (fun j' => lam (N + (j * d + r))%nat * lam (N + (j' * d + r))%nat * gaussian d sg (vsub (y j) (y j')))))).
        * rewrite rsum_plus. f_equal.
          rewrite (rsum_ext n1 _ (fun j => rsum n0 (fun i => rsum d (fun r => rsum s (fun t => lam (i * s + t)%nat * lam (N + (j * d + r))%nat * bT i t j r))))) by (intros; apply rsum_swap).
          rewrite rsum_swap. apply rsum_ext. intros i Hi. rewrite (rsum_swap s n1). apply rsum_ext. intros j Hj. apply rsum_swap.
        * intros j Hj. rewrite <- rsum_plus. apply rsum_ext. intros r Hr. rewrite sum_rows. f_equal.
          -- apply rsum_ext. intros i Hi. apply rsum_ext. intros t Ht. rewrite bm_21 by assumption. ring.
          -- apply rsum_ext. intros j' Hj'.
             rewrite (rsum_ext d _ (fun r' => delta r r' * (lam (N + (j * d + r))%nat * lam (N + (j' * d + r'))%nat * gaussian d sg (vsub (y j) (y j'))))).
             ++ rewrite rsum_delta_r by assumption. reflexivity.
             ++ intros r' Hr'. rewrite bm_22 by assumption. ring.
    - unfold mixed_form. symmetry.
      rewrite (rsum_ext d _ (fun r =>
          (rsum n0 (fun i => rsum n0 (fun j => mixed d sg (x i) (x j) 0 0 (b_a lam r i) (b_a lam r j))) +
           rsum n0 (fun i => rsum n1 (fun j => lam (N + (j * d + r))%nat * rsum d (fun c => b_a lam r i c * dgauss d sg (vsub (x i) (y j)) c)))) +
          (rsum n0 (fun i => rsum n1 (fun j => lam (N + (j * d + r))%nat * rsum d (fun c => b_a lam r i c * dgauss d sg (vsub (x i) (y j)) c))) +
           rsum n1 (fun i => rsum n1 (fun j => lam (N + (i * d + r))%nat * lam (N + (j * d + r))%nat * gaussian d sg (vsub (y i) (y j))))))).
      + rewrite !rsum_plus.
        assert (EXX : rsum d (fun r => rsum n0 (fun i => rsum n0 (fun j => mixed d sg (x i) (x j) 0 0 (b_a lam r i) (b_a lam r j)))) = XX).
        { transitivity (quad (s * n0) (fun q q' => sks_entry d e sg (vsub (x (q / s)) (x (q' / s))) (q mod s) (q' mod s)) (fun q => ka * lam q)).
          - rewrite (sks_quad_gen d s e sg n0 x).
            + apply rsum_ext. intros r Hr. unfold mixed_form. apply rsum_ext. intros i Hi. apply rsum_ext. intros j Hj.
              apply mixed_ext; [reflexivity|reflexivity| |]; intros c Hc; rewrite a_lo by assumption; unfold from_coords;
                rewrite <- rsum_scal; apply rsum_ext; intros; ring.
            + intros i j t w Hi Hj Ht Hw. rewrite !div_pair, !mod_pair by assumption. reflexivity.
          - rewrite (quad_pairs s n0 _ (fun i j t w => sks_entry d e sg (vsub (x i) (x j)) t w)).
            + unfold XX. apply rsum_ext. intros i Hi. rewrite rsum_swap. apply rsum_ext. intros t Ht.
              apply rsum_ext. intros j Hj. apply rsum_ext. intros w Hw. ring.
            + intros i j t w Hi Hj Ht Hw. rewrite !div_pair, !mod_pair by assumption. reflexivity. }
        assert (EXY : rsum d (fun r => rsum n0 (fun i => rsum n1 (fun j => lam (N + (j * d + r))%nat * rsum d (fun c => b_a lam r i c * dgauss d sg (vsub (x i) (y j)) c)))) = XY).
        { rewrite rsum_swap. unfold XY. apply rsum_ext. intros i Hi. rewrite rsum_swap, (rsum_swap s n1).
          apply rsum_ext. intros j Hj.
          etransitivity; [|exact (cross_term lam i j (fun c => dgauss d sg (vsub (x i) (y j)) c))].
          apply rsum_ext. intros r Hr. f_equal. apply rsum_ext. intros c Hc. rewrite a_lo by assumption. reflexivity. }
        assert (EYY : rsum d (fun r => rsum n1 (fun i => rsum n1 (fun j => lam (N + (i * d + r))%nat * lam (N + (j * d + r))%nat * gaussian d sg (vsub (y i) (y j))))) = YY).
        { rewrite rsum_swap. reflexivity. }
        rewrite EXX, EXY, EYY. reflexivity.
      + intros r Hr. rewrite rsum_split. f_equal.
        * rewrite <- rsum_plus. apply rsum_ext. intros i Hi. rewrite rsum_split. f_equal; apply rsum_ext; intros j Hj.
          -- rewrite !al_lo by assumption. reflexivity.
          -- rewrite (al_lo lam r i), (al_hi lam r j) by assumption. unfold mixed. fold (y j).
             rewrite (rsum_zero d (fun c => rsum d (fun c' => b_a lam r i c * b_a lam r (n0 + j)%nat c' * d2gauss d sg (vsub (x i) (y j)) c c'))).
             ++ ring.
             ++ intros c Hc. apply rsum_zero. intros c' Hc'. rewrite a_hi. ring.
        * rewrite (rsum_swap n0 n1), <- rsum_plus. apply rsum_ext. intros j Hj. rewrite rsum_split. f_equal; apply rsum_ext; intros i Hi.
          -- rewrite (al_lo lam r i), (al_hi lam r j) by assumption. unfold mixed. fold (y j).
             rewrite (rsum_zero d (fun c => rsum d (fun c' => b_a lam r (n0 + j)%nat c * b_a lam r i c' * d2gauss d sg (vsub (y j) (x i)) c c'))).
             ++ rewrite (rsum_ext d (fun c => b_a lam r i c * dgauss d sg (vsub (y j) (x i)) c) (fun c => - (b_a lam r i c * dgauss d sg (vsub (x i) (y j)) c)))
                 by (intros; rewrite (dgauss_vsub_odd d sg (y j)); ring).
                rewrite rsum_opp. ring.
             ++ intros c Hc. apply rsum_zero. intros c' Hc'. rewrite a_hi. ring.
          -- rewrite !al_hi. unfold mixed. fold (y j) (y i).
             rewrite (rsum_zero d (fun c => b_a lam r (n0 + j)%nat c * dgauss d sg (vsub (y j) (y i)) c)) by (intros; rewrite a_hi; ring).
             rewrite (rsum_zero d (fun c => b_a lam r (n0 + i)%nat c * dgauss d sg (vsub (y j) (y i)) c)) by (intros; rewrite a_hi; ring).
             rewrite (rsum_zero d (fun c => rsum d (fun c' => b_a lam r (n0 + j)%nat c * b_a lam r (n0 + i)%nat c' * d2gauss d sg (vsub (y j) (y i)) c c'))).
             ++ ring.
             ++ intros c Hc. apply rsum_zero. intros c' Hc'. rewrite a_hi. ring.
  Qed.

  Hypothesis Hsg : sg <> 0.

  Lemma bm_psd : psd (N + n1 * d) bmatrix.
  Proof. intros lam. rewrite bm_quad. apply rsum_nonneg. intros r _. apply mixed_form_nonneg. assumption. Qed.

  (** Definite when the points are distinct and the matrices e_t are independent. *)
  Lemma bm_pd : ka <> 0 -> distinct d (n0 + n1) x ->
    (forall l, (forall c r, (c < d)%nat -> (r < d)%nat -> from_coords s e l c r = 0) -> forall t, (t < s)%nat -> l t = 0) ->
    pd (N + n1 * d) bmatrix.
  Proof.
    intros Hka HD HE lam (q & Hq & Hne). rewrite bm_quad.
    set (F := fun r => mixed_form d sg (n0 + n1) x (b_al lam r) (b_a lam r)).
    assert (Hnn : forall r, (r < d)%nat -> 0 <= F r) by (intros r _; apply mixed_form_nonneg; assumption).
    destruct (rsum_nonneg d F Hnn) as [Hpos|Hz]; [exact Hpos|exfalso]. symmetry in Hz.
    assert (Z : forall r, (r < d)%nat -> forall k, (k < n0 + n1)%nat -> b_al lam r k = 0 /\ forall c, (c < d)%nat -> b_a lam r k c = 0).
    { intros r Hr. apply (mixed_form_zero d (n0 + n1) sg x Hsg _ _ HD). exact (rsum_nonneg_zero d F Hnn Hz r Hr). }
    apply Hne. destruct (split_row q Hq) as [(i & t & Hi & Ht & ->)|(j & r & Hj & Hr & ->)].
    - apply (HE (fun t => lam (i * s + t)%nat)); [|assumption]. intros c r Hc Hr.
      destruct (Z r Hr i ltac:(lia)) as (_ & Za). specialize (Za c Hc). rewrite a_lo in Za by assumption.
      apply Rmult_integral in Za. destruct Za; [contradiction|assumption].
    - destruct (Z r Hr (n0 + j)%nat ltac:(lia)) as (Zl & _). rewrite al_hi in Zl. assumption.
  Qed.

End Block.

(** The field of the coefficients lam: values at Y and strains at X. *)
Definition b_field (d s n0 n1 : nat) (e : tensor) (ka sg : R) (gd : tensor) (lam : nat -> R) : sfield :=
  SF_sum [SF_0 Torch (last_rows n0 gd) (mk2 n1 d (fun j r => lam (n0 * s + (j * d + r))%nat)) sg;
          SF_p Torch (first_rows n0 gd) (moments_of n0 d s e (fun q => ka * lam q)) sg].

Lemma first_shape gd n0 n1 d : shape gd = [(n0 + n1)%nat; d] -> shape (first_rows n0 gd) = [n0; d].
Proof. intros S. unfold first_rows, rows_from. cbn [shape]. rewrite S. reflexivity. Qed.
Lemma last_shape gd n0 n1 d : shape gd = [(n0 + n1)%nat; d] -> shape (last_rows n0 gd) = [n1; d].
Proof. intros S. unfold last_rows, rows_from, nrows. cbn [shape]. rewrite S. cbn [tl tnth nth]. f_equal. lia. Qed.

Lemma symP_moments n0 d s e lam j a c : sym_tensor d s e -> (a < d)%nat -> (c < d)%nat ->
  symP (moments_of n0 d s e lam) j a c = from_coords s e (fun t => lam (j * s + t)%nat) a c.
Proof.
  intros HS Ha Hc. unfold symP, moments_of, mk3. cbn [get].
  assert (E : from_coords s e (fun t => lam (j * s + t)%nat) c a = from_coords s e (fun t => lam (j * s + t)%nat) a c).
  { unfold from_coords. apply rsum_ext. intros t Ht. rewrite (HS c a t) by assumption. reflexivity. }
  rewrite E. lra.
Qed.

Section BField.
  Variables (d s n0 n1 : nat) (e : tensor) (ka sg : R) (gd : tensor).
  Hypothesis Sgd : shape gd = [(n0 + n1)%nat; d].
  Hypothesis HE : sym_tensor d s e.
  Let M := bmatrix d s n0 e ka sg (vrow gd).
  Let F := b_field d s n0 n1 e ka sg gd.
  Let n := (n0 * s + n1 * d)%nat.

  Lemma b_value lam j r : (j < n1)%nat -> (r < d)%nat ->
    fval d (F lam) (vrow gd (n0 + j)) r = rsum n (fun q => M (n0 * s + (j * d + r))%nat q * lam q).
  Proof.
    intros Hj Hr. unfold n. rewrite sum_rows. unfold F, b_field. cbn [fval fold_right].
    unfold nrows. rewrite (first_shape gd n0 n1 d Sgd), (last_shape gd n0 n1 d Sgd). cbn [tnth nth].
    rewrite Rplus_0_r, Rplus_comm. f_equal.
    - apply rsum_ext. intros i Hi.
      rewrite (rsum_ext s _ (fun t => rsum d (fun c => ka * (dgauss d sg (vsub (vrow gd i) (vrow gd (n0 + j))) c * e @3 c r t * lam (i * s + t)%nat)))).
      + rewrite rsum_swap. apply rsum_ext. intros c Hc.
        rewrite symP_moments by assumption. rewrite (dgauss_vsub_odd d sg).
        change (vrow (first_rows n0 gd) i) with (vrow gd i). unfold from_coords. rewrite <- rsum_scal_r. apply rsum_ext. intros t Ht.
        rewrite (HE r c t) by assumption. ring.
      + intros t Ht. unfold M. rewrite bm_21 by assumption. unfold bT. rewrite <- rsum_scal, <- rsum_scal_r.
        apply rsum_ext. intros; ring.
    - apply rsum_ext. intros i Hi.
      rewrite (rsum_ext d _ (fun r' => delta r r' * (gaussian d sg (vsub (vrow gd (n0 + j)) (vrow gd (n0 + i))) * lam (n0 * s + (i * d + r'))%nat))).
      + rewrite rsum_delta_r by assumption. reflexivity.
      + intros r' Hr'. unfold M. rewrite bm_22 by assumption. ring.
  Qed.

  Lemma b_strain lam i t : (i < n0)%nat -> (t < s)%nat ->
    ka * coords d e (fjac d (F lam) (vrow gd i)) t = rsum n (fun q => M (i * s + t)%nat q * lam q).
  Proof.
    intros Hi Ht. unfold n. rewrite sum_rows.
    pose proof (first_shape gd n0 n1 d Sgd) as SX. pose proof (last_shape gd n0 n1 d Sgd) as SY.
    transitivity (ka * coords d e (fjac d (SF_p Torch (first_rows n0 gd) (moments_of n0 d s e (fun q => ka * lam q)) sg) (vrow gd i)) t
      + ka * coords d e (fjac d (SF_0 Torch (last_rows n0 gd) (mk2 n1 d (fun j r => lam (n0 * s + (j * d + r))%nat)) sg) (vrow gd i)) t).
    - rewrite <- Rmult_plus_distr_l. f_equal. unfold coords, frob. rewrite <- rsum_plus. apply rsum_ext. intros a Ha.
      rewrite <- rsum_plus. apply rsum_ext. intros c Hc. unfold F, b_field. cbn [fjac fold_right]. ring.
    - rewrite (jac_coords _ n0) by assumption. f_equal.
      + rewrite <- rsum_scal. apply rsum_ext. intros j Hj. rewrite <- rsum_scal. apply rsum_ext. intros w Hw.
        unfold M. rewrite bm_11 by assumption. change (vrow (first_rows n0 gd) j) with (vrow gd j). ring.
      + unfold coords, frob, bmat. cbn [fjac]. unfold nrows. rewrite SY. cbn [tnth nth].
        rewrite (rsum_swap n1 d), <- rsum_scal. apply rsum_ext. intros a Ha.
        rewrite (rsum_ext d _ (fun l => rsum n1 (fun j => dgauss d sg (vsub (vrow gd i) (vrow gd (n0 + j))) l * lam (n0 * s + (j * d + a))%nat * e @3 a l t))).
        * rewrite rsum_swap, <- rsum_scal. apply rsum_ext. intros j Hj. unfold M. rewrite bm_12 by assumption. unfold bT.
          rewrite <- !rsum_scal, <- rsum_scal_r. apply rsum_ext. intros c Hc. rewrite (HE a c t) by assumption. ring.
        * intros l Hl. rewrite <- rsum_scal_r. reflexivity.
  Qed.

  (** Right-hand side of the dual system. *)
  Definition b_rhs (vs : sfield) (q : nat) : R :=
    if Nat.ltb q (n0 * s) then ka * coords d e (fjac d vs (vrow gd (q / s))) (q mod s)
    else fval d vs (vrow gd (n0 + (q - n0 * s) / d)) ((q - n0 * s) mod d).

  Lemma rhs_lo vs i t : (i < n0)%nat -> (t < s)%nat -> b_rhs vs (i * s + t)%nat = ka * coords d e (fjac d vs (vrow gd i)) t.
  Proof.
    intros Hi Ht. unfold b_rhs. rewrite (proj2 (Nat.ltb_lt _ _) (pair_lt n0 s i t Hi Ht)).
    rewrite div_pair, mod_pair by assumption. reflexivity.
  Qed.
  Lemma rhs_hi vs j r : (r < d)%nat -> b_rhs vs (n0 * s + (j * d + r))%nat = fval d vs (vrow gd (n0 + j)) r.
  Proof.
    intros Hr. unfold b_rhs. rewrite (proj2 (Nat.ltb_ge (n0 * s + (j * d + r)) (n0 * s))) by lia.
    replace (n0 * s + (j * d + r) - n0 * s)%nat with (j * d + r)%nat by lia.
    rewrite div_pair, mod_pair by assumption. reflexivity.
  Qed.

  Lemma b_pairing lam man vs : represents d man sg vs ->
    pairing d man (fval d (F lam)) (fjac d (F lam)) = rsum n (fun q => lam q * b_rhs vs q).
  Proof.
    intros HR. unfold n. rewrite sum_rows. unfold F, b_field.
    set (f0 := SF_0 _ _ _ _). set (f1 := SF_p _ _ _ _).
    transitivity (pairing d man (fval d f0) (fjac d f0) + pairing d man (fval d f1) (fjac d f1)).
    { rewrite <- pairing_plus. apply pairing_ext; intros; cbn [fval fjac fold_right]; ring. }
    unfold f0, f1.
    rewrite (pair_SF0 d man sg vs _ _ _ n1 (last_shape gd n0 n1 d Sgd) HR).
    rewrite (pair_SFp d man sg vs _ _ _ n0 (first_shape gd n0 n1 d Sgd) HR).
    rewrite Rplus_comm. f_equal.
    - apply rsum_ext. intros i Hi.
      rewrite (rsum_ext s _ (fun t => rsum d (fun a => rsum d (fun c => ka * lam (i * s + t)%nat * (fjac d vs (vrow gd i) a c * e @3 a c t))))).
      + rewrite (rsum_swap s d), rsum_swap. apply rsum_ext. intros a Ha. rewrite (rsum_swap s d). apply rsum_ext. intros c Hc.
        rewrite symP_moments by assumption. unfold from_coords. rewrite <- rsum_scal_r.
        apply rsum_ext. intros t Ht. change (vrow (first_rows n0 gd) i) with (vrow gd i). ring.
      + intros t Ht. rewrite rhs_lo by assumption. unfold coords, frob, bmat.
        rewrite <- !rsum_scal. apply rsum_ext. intros a Ha. rewrite <- !rsum_scal. apply rsum_ext. intros; ring.
    - apply rsum_ext. intros j Hj. apply rsum_ext. intros a Ha. rewrite rhs_hi by assumption. reflexivity.
  Qed.
End BField.

(** ** Entries of the matrices of the code *)
Lemma block_entries d s n0 n1 e ka sg x nu k S1 T S2 :
  nrows S1 = (n0 * s)%nat ->
  (forall i t j w, (i < n0)%nat -> (t < s)%nat -> (j < n0)%nat -> (w < s)%nat ->
     S1 @2 (i * s + t)%nat (j * s + w)%nat = ka ^ 2 * sks_entry d e sg (vsub (x i) (x j)) t w) ->
  (forall i t j r, (i < n0)%nat -> (t < s)%nat -> (j < n1)%nat -> (r < d)%nat ->
     T @2 (i * s + t)%nat (j * d + r)%nat = bT d n0 e ka sg x i t j r) ->
  (forall i r j r', (i < n1)%nat -> (r < d)%nat -> (j < n1)%nat -> (r' < d)%nat ->
     S2 @2 (i * d + r)%nat (j * d + r')%nat = gaussian d sg (vsub (x (n0 + i)%nat) (x (n0 + j)%nat)) * delta r r') ->
  forall q q', (q < n0 * s + n1 * d)%nat -> (q' < n0 * s + n1 * d)%nat ->
    entries (add_diag (cat_blocks S1 T S2) nu k) q q' = bmatrix d s n0 e ka sg x q q' + nu * delta q q'.
Proof.
  intros HN H1 HT H2 q q' Hq Hq'.
  unfold entries, add_diag, tadd, tmap2, cat_blocks, mk2, eye, tscal, tmap. cbn [get]. rewrite HN. f_equal.
  assert (HTT : forall a b, (transpose 1 0 T) @2 a b = T @2 b a) by reflexivity.
  destruct (split_row d s n0 n1 q Hq) as [(i & t & Hi & Ht & ->)|(i & t & Hi & Ht & ->)];
  destruct (split_row d s n0 n1 q' Hq') as [(j & r & Hj & Hr & ->)|(j & r & Hj & Hr & ->)].
  - rewrite !(proj2 (Nat.ltb_lt _ _)) by (apply pair_lt; assumption). rewrite bm_11 by assumption. apply H1; assumption.
  - rewrite (proj2 (Nat.ltb_lt _ _)) by (apply pair_lt; assumption). rewrite (proj2 (Nat.ltb_ge _ _)) by lia.
    rewrite bm_12 by assumption. replace (n0 * s + (j * d + r) - n0 * s)%nat with (j * d + r)%nat by lia. apply HT; assumption.
  - rewrite (proj2 (Nat.ltb_ge _ _)) by lia. rewrite (proj2 (Nat.ltb_lt _ _)) by (apply pair_lt; assumption).
    rewrite bm_21 by assumption. replace (n0 * s + (i * d + t) - n0 * s)%nat with (i * d + t)%nat by lia. rewrite HTT. apply HT; assumption.
  - rewrite !(proj2 (Nat.ltb_ge _ _)) by lia. rewrite bm_22 by assumption.
    replace (n0 * s + (i * d + t) - n0 * s)%nat with (i * d + t)%nat by lia.
    replace (n0 * s + (j * d + r) - n0 * s)%nat with (j * d + r)%nat by lia. apply H2; assumption.
Qed.

Lemma kron_get Y n1 d sg i r j r' : sg <> 0 -> shape Y = [n1; d] ->
  (i < n1)%nat -> (r < d)%nat -> (j < n1)%nat -> (r' < d)%nat ->
  (reshape [(d * n1)%nat; (d * n1)%nat] (einsum "ij,kl->ikjl" [K_xx Y sg; eye d])) @2 (i * d + r)%nat (j * d + r')%nat =
  kmat d sg Y i j * delta r r'.
Proof.
  intros Hs SY Hi Hr Hj Hr'.
  pose proof (K_xx_kmat Y n1 d sg i j Hs SY) as HK. pose proof (K_xx_sh Y n1 d sg SY) as SK.
  assert (SE : shape (einsum "ij,kl->ikjl" [K_xx Y sg; eye d]) = [n1; d; n1; d]).
  { destruct (K_xx Y sg) as [sk k]. cbn [shape] in SK. subst sk. reflexivity. }
  rewrite (get_reshape _ _ [(i * d + r)%nat; (j * d + r')%nat] [i; r; j; r']).
  - rewrite <- HK. destruct (K_xx Y sg) as [sk k]. cbn [shape] in SK. subst sk. unfold einsum. cbn -[rsum delta]. ring.
  - rewrite SE. cbn. rewrite !Nat.mul_1_r. nia.
  - rewrite SE. cbn. tauto.
Qed.

(** *** Divergence: s = 1, the basis is the identity matrix *)
Definition e_div (d : nat) : tensor := mk3 d d 1 (fun i j _ => delta i j).

Lemma e_div_sym d : sym_tensor d 1 (e_div d).
Proof. intros i j t _ _ _. apply delta_sym. Qed.

Lemma coords_div d A t : coords d (e_div d) A t = rsum d (fun a => A a a).
Proof.
  unfold coords, frob, bmat, e_div, mk3. cbn [get]. apply rsum_ext. intros a Ha.
  rewrite (rsum_ext d _ (fun j => delta a j * A a j)) by (intros; ring). apply rsum_delta_r. assumption.
Qed.

Lemma sks_entry_div d sg z : sks_entry d (e_div d) sg z 0 0 = - rsum d (fun a => d2gauss d sg z a a).
Proof.
  unfold sks_entry, e_div, mk3. cbn [get]. f_equal. apply rsum_ext. intros a Ha.
  rewrite (rsum_ext d _ (fun b => delta a b * d2gauss d sg z a b)).
  - apply rsum_delta_r. assumption.
  - intros b Hb. f_equal. exact (rsum_delta_r d (fun r => delta a r) b Hb).
Qed.

Lemma einsum_trace4 a N M d i j : shape a = [N; M; d; d] ->
  (einsum "ijkk->ij" [a]) @2 i j = rsum d (fun c => a @4 i j c c).
Proof.
  intros Sa. destruct a as [sa a]. cbn [shape] in Sa. subst sa. unfold einsum. cbn -[rsum].
  apply rsum_ext. intros; ring.
Qed.
Lemma einsum_trace3 a N d i : shape a = [N; d; d] ->
  (einsum "ijj->i" [a]) @1 i = rsum d (fun c => a @3 i c c).
Proof.
  intros Sa. destruct a as [sa a]. cbn [shape] in Sa. subst sa. unfold einsum. cbn -[rsum].
  apply rsum_ext. intros; ring.
Qed.

Lemma div_sks_ok sg cd nu d n0 n1 gd : sg <> 0 -> shape gd = [(n0 + n1)%nat; d] ->
  let n := (n0 * 1 + n1 * d)%nat in
  exists S, div_sks sg cd nu d n0 gd = Ok S /\ shape S = [n; n] /\
    forall q q', (q < n)%nat -> (q' < n)%nat ->
      entries S q q' = bmatrix d 1 n0 (e_div d) cd sg (vrow gd) q q' + nu * delta q q'.
Proof.
  intros Hs Sgd n.
  pose proof (first_shape gd n0 n1 d Sgd) as SX. pose proof (last_shape gd n0 n1 d Sgd) as SY.
  unfold div_sks. set (X := first_rows n0 gd) in *. set (Y := last_rows n0 gd) in *.
  destruct (ker_pair2 X X n0 n0 d sg Hs SX SX) as (k2 & E2 & Sk2 & G2). rewrite E2. cbn [bind unwrap].
  destruct (ker_pair1 X Y n0 n1 d sg Hs SX SY) as (k1 & E1 & Sk1 & G1). rewrite E1. cbn [bind unwrap].
  assert (RX : nrows X = n0) by (unfold nrows; rewrite SX; reflexivity).
  assert (CX : ncols X = d) by (unfold ncols; rewrite SX; reflexivity).
  assert (RY : nrows Y = n1) by (unfold nrows; rewrite SY; reflexivity).
  rewrite RX, CX, RY.
  eexists. split; [reflexivity|]. split.
  - cbn. unfold n. f_equal; [|f_equal]; lia.
  - apply block_entries.
    + cbn. lia.
    + intros i t j w Hi Ht Hj Hw. assert (t = 0%nat) by lia. assert (w = 0%nat) by lia. subst t w.
      rewrite !Nat.mul_1_r, !Nat.add_0_r, sks_entry_div.
      unfold tscal at 1, tmap at 1. cbn [get]. rewrite (einsum_trace4 _ n0 n0 d) by reflexivity. f_equal. rewrite <- rsum_opp. apply rsum_ext. intros a Ha.
      change (vrow gd i) with (vrow X i). change (vrow gd j) with (vrow X j). rewrite <- (G2 i j a a) by assumption. reflexivity.
    + intros i t j r Hi Ht Hj Hr. assert (t = 0%nat) by lia. subst t. rewrite Nat.mul_1_r, Nat.add_0_r.
      unfold bT. change (vrow gd (n0 + j)) with (vrow Y j). change (vrow gd i) with (vrow X i).
      rewrite (rsum_ext d _ (fun c => delta c r * dgauss d sg (vsub (vrow X i) (vrow Y j)) c))
        by (intros; unfold e_div, mk3; cbn [get]; ring).
      rewrite rsum_delta_l by assumption. rewrite <- (G1 i j r) by assumption.
      unfold tscal, tmap. cbn [get]. f_equal.
      rewrite (get_reshape _ _ [i; (j * d + r)%nat] [(i * (d * n1) + (j * d + r))%nat]).
      * rewrite (get_reshape _ _ [i; j; r] [(i * n1 + j)%nat; r]).
        -- rewrite get_flatten_k, Sk1. cbn [unravel prod fold_right].
           rewrite !Nat.mul_1_r, Nat.div_1_r.
           replace (i * (d * n1) + (j * d + r))%nat with ((i * n1 + j) * d + r)%nat by ring.
           rewrite div_pair, mod_pair by assumption. reflexivity.
        -- rewrite Sk1. cbn. nia.
        -- rewrite Sk1. cbn. split; [apply pair_lt; assumption|auto].
      * cbn [tflatten reshape shape]. rewrite Sk1. cbn. nia.
      * cbn [tflatten reshape shape]. rewrite Sk1. cbn. split; [|exact I].
        replace (n0 * n1 * (d * 1))%nat with (n0 * (n1 * d))%nat by ring.
        replace (i * (d * n1) + (j * d + r))%nat with (i * (n1 * d) + (j * d + r))%nat by ring.
        apply pair_lt; [assumption|apply pair_lt; assumption].
    + intros i r j r' Hi Hr Hj Hr'. apply kron_get; assumption.
Qed.

(** *** As rigid as possible: the basis of symmetric matrices *)
Lemma arap_T Dk e d s n0 n1 i j u t : shape Dk = [n0; n1; d] -> shape e = [d; d; s] ->
  sym_tensor d s e -> (u < d)%nat -> (t < s)%nat ->
  let T := einsum "ijk,ul->ijukl" [Dk; eye d] in
  let T := tensordot (tscal (1 / 2) (tadd T (transpose 3 4 T))) e [3; 4]%nat [0; 1]%nat in
  let T := transpose 2 3 (transpose 1 3 T) in
  shape T = [n0; s; n1; d] /\
  T @4 i t j u = rsum d (fun c => Dk @3 i j c * e @3 c u t).
Proof.
  intros SD Se HE Hu Ht. destruct Dk as [sd D]. destruct e as [se e]. cbn [shape] in SD, Se. subst sd se.
  unfold einsum. cbn -[rsum delta]. split; [reflexivity|].
transitivity (rsum d (fun k => 1 / 2 * (D [i; j; k] * e [k; u; t])) + rsum d (fun l => 1 / 2 * (D [i; j; l] * e [u; l; t]))).
  - transitivity (rsum d (fun k => rsum d (fun l => delta u l * (1 / 2 * (D [i; j; k] * e [k; l; t])))) +
                  rsum d (fun k => delta u k * rsum d (fun l => 1 / 2 * (D [i; j; l] * e [k; l; t])))).
    + rewrite <- rsum_plus. apply rsum_ext. intros k Hk. rewrite <- rsum_scal, <- rsum_plus. apply rsum_ext. intros; ring.
    + f_equal.
      * apply rsum_ext. intros k Hk. rewrite rsum_delta_r by assumption. reflexivity.
      * rewrite rsum_delta_r by assumption. reflexivity.
  - rewrite <- rsum_plus. apply rsum_ext. intros c Hc.
    assert (E : e [u; c; t] = e [c; u; t]) by exact (HE u c t Hu Hc Ht). rewrite E. lra.
Qed.

Lemma arap_sks_ok sg ca nu d e n0 n1 gd : sg <> 0 -> eta d = Ok e -> shape gd = [(n0 + n1)%nat; d] ->
  let s := sym_dim d in
  let n := (n0 * s + n1 * d)%nat in
  exists S, arap_sks sg ca nu d n0 n1 gd = Ok S /\ shape S = [n; n] /\
    forall q q', (q < n)%nat -> (q' < n)%nat ->
      entries S q q' = bmatrix d s n0 e ca sg (vrow gd) q q' + nu * delta q q'.
Proof.
  intros Hs He Sgd s n. pose proof (eta_basis d e He) as HB. pose proof HB as (Se & HE & _).
  pose proof (first_shape gd n0 n1 d Sgd) as SX. pose proof (last_shape gd n0 n1 d Sgd) as SY.
  unfold arap_sks. rewrite He. cbn [bind]. set (X := first_rows n0 gd) in *. set (Y := last_rows n0 gd) in *.
  destruct (sks_get X n0 d e sg Hs SX HB) as (S1 & E1 & SS1 & G1). rewrite E1. cbn [bind].
  destruct (ker_pair1 X Y n0 n1 d sg Hs SX SY) as (k1 & Ek & Sk1 & Gk). rewrite Ek. cbn [bind unwrap].
  assert (RX : nrows X = n0) by (unfold nrows; rewrite SX; reflexivity).
  assert (RY : nrows Y = n1) by (unfold nrows; rewrite SY; reflexivity).
  rewrite RX, RY. fold s.
  eexists. split; [reflexivity|]. split.
  - cbn [add_diag tadd tmap2 cat_blocks mk2 shape]. unfold nrows, tscal, tmap, reshape. cbn [shape tnth nth].
    rewrite SS1. cbn [nth]. fold s. unfold n. f_equal; [|f_equal]; lia.
  - apply block_entries.
    + unfold nrows, tscal, tmap. cbn [shape]. rewrite SS1. cbn [tnth nth]. fold s. lia.
    + intros i t j w Hi Ht Hj Hw. unfold tscal, tmap. cbn [get]. f_equal. apply G1; assumption.
    + intros i t j r Hi Ht Hj Hr. unfold tscal at 1, tmap at 1. cbn [get]. unfold bT. f_equal.
      destruct (arap_T (reshape [n0; n1; d] k1) e d s n0 n1 i j r t eq_refl Se HE Hr Ht) as (ST & GT).
      cbv zeta in ST, GT. rewrite (get_reshape _ _ [(i * s + t)%nat; (j * d + r)%nat] [i; t; j; r]).
      * rewrite GT. apply rsum_ext. intros c Hc. rewrite Gk by assumption. reflexivity.
      * rewrite ST. cbn. rewrite !Nat.mul_1_r. nia.
      * rewrite ST. cbn. tauto.
    + intros i r j r' Hi Hr Hj Hr'. apply kron_get; assumption.
Qed.

(** ** The constrained modules *)
Lemma pad_controls_get N t q : (pad_controls N t) @1 q = pad N (fvec t) q.
Proof. reflexivity. Qed.
Lemma pad_controls_shape N t : shape (pad_controls N t) = [(N + prod (shape t))%nat].
Proof. reflexivity. Qed.

Lemma tdot_1 a b n : shape a = [n] -> shape b = [n] -> tdot a b = rsum n (fun k => a @1 k * b @1 k).
Proof. intros Ha Hb. rewrite tdot_sum by congruence. rewrite Ha. reflexivity. Qed.

Lemma lam_moments_get nb s e lam d i a c : shape e = [d; d; s] -> sym_tensor d s e -> prod (shape lam) = (nb * s)%nat ->
  (i < nb)%nat -> (a < d)%nat -> (c < d)%nat ->
  (lam_moments nb s e lam) @3 i a c = from_coords s e (fun t => fvec lam (i * s + t)%nat) a c.
Proof.
  intros Se HE Sl Hi Ha Hc.
  assert (G : forall t, (t < s)%nat -> (reshape [nb; s] lam) @2 i t = fvec lam (i * s + t)%nat).
  { intros t Ht. unfold fvec. rewrite get_flatten_k. cbn [reshape get ravel prod fold_right].
    f_equal. f_equal. ring. }
  unfold lam_moments. set (l2 := reshape [nb; s] lam) in *. assert (S2 : shape l2 = [nb; s]) by reflexivity. clearbody l2.
  destruct l2 as [sl l]. cbn [shape] in S2. subst sl. destruct e as [se e]. cbn [shape] in Se. subst se.
  cbn -[rsum fvec from_coords]. unfold from_coords. apply rsum_ext. intros t Ht. rewrite <- G by assumption. cbn [get].
  f_equal. exact (HE c a t Hc Ha Ht).
Qed.
Lemma lam_moments_shape nb s e lam d : shape e = [d; d; s] -> shape (lam_moments nb s e lam) = [nb; d; d].
Proof. intros Se. destruct e as [se e]. cbn [shape] in Se. subst se. reflexivity. Qed.

Lemma coords_tensordot A e N d s i t : shape A = [N; d; d] -> shape e = [d; d; s] ->
  (tensordot A e [1; 2]%nat [0; 1]%nat) @2 i t = coords d e (fun a c => A @3 i a c) t /\
  shape (tensordot A e [1; 2]%nat [0; 1]%nat) = [N; s].
Proof.
  intros SA Se. destruct A as [sa A]. destruct e as [se e]. cbn [shape] in SA, Se. subst sa se. split; reflexivity.
Qed.

Lemma coords_ext d e A B t : (forall a c, (a < d)%nat -> (c < d)%nat -> A a c = B a c) -> coords d e A t = coords d e B t.
Proof. intros H. unfold coords, frob. apply rsum_ext. intros a Ha. apply rsum_ext. intros c Hc. rewrite H by assumption. reflexivity. Qed.

Lemma coords_scal d e k A t : coords d e (fun a c => k * A a c) t = k * coords d e A t.
Proof. unfold coords, frob. rewrite <- rsum_scal. apply rsum_ext. intros a Ha. rewrite <- rsum_scal. apply rsum_ext. intros; ring. Qed.

(** The coordinates of the symmetric part are those of the matrix. *)
Lemma coords_symm d s e A t : sym_tensor d s e -> (t < s)%nat ->
  coords d e (fun a c => 1 / 2 * (A a c + A c a)) t = coords d e A t.
Proof.
  intros HE Ht. unfold coords, frob, bmat.
  transitivity (1 / 2 * rsum d (fun a => rsum d (fun c => A a c * e @3 a c t)) + 1 / 2 * rsum d (fun a => rsum d (fun c => A c a * e @3 a c t))).
  - rewrite <- !rsum_scal, <- rsum_plus. apply rsum_ext. intros a Ha. rewrite <- !rsum_scal, <- rsum_plus. apply rsum_ext. intros; ring.
  - rewrite (rsum_swap d d (fun a c => A c a * e @3 a c t)).
    rewrite (rsum_ext d (fun j => rsum d (fun i => A j i * e @3 i j t)) (fun a => rsum d (fun c => A a c * e @3 a c t))).
    + lra.
    + intros a Ha. apply rsum_ext. intros c Hc. rewrite (HE c a t) by assumption. reflexivity.
Qed.

Definition pad_shape (d n1 : nat) (t : tensor) : Prop := shape t = [n1; d] \/ shape t = [(n1 * d)%nat].

Lemma leaf_block sv b0 d m s n0 n1 e ka sg nu co gd (mk : tensor -> tensor -> dmod) (S : tensor) (geo : sfield -> res tensor) :
  let N := (n0 * s)%nat in
  let n := (N + n1 * d)%nat in
  let M q q' := bmatrix d s n0 e ka sg (vrow gd) q q' + nu * delta q q' in
  exact_solver sv -> sg <> 0 -> 0 <= nu -> 0 < co -> sym_tensor d s e -> shape gd = [(n0 + n1)%nat; d] ->
  (forall t, ctrl_ok d m (CLeaf t) <-> pad_shape d n1 t) ->
  (forall l, ~ ctrl_ok d m (CList l)) ->
  shape S = [n; n] -> (forall q q', (q < n)%nat -> (q' < n)%nat -> entries S q q' = M q q') ->
  (forall t, fill_controls sv m (CLeaf t) = (l <- sv S (pad_controls N t) ;; Ok (mk t l))) ->
  (forall t l, controls (mk t l) = CLeaf t) ->
  (forall t l, cost (mk t l) = Ok (1 / 2 * co * tdot (pad_controls N t) l)) ->
  (forall t l, pad_shape d n1 t -> shape l = [n] -> exists f, field_generator (mk t l) = Ok f /\ good d f /\
     (forall p a, (a < d)%nat -> fval d f p a = fval d (b_field d s n0 n1 e ka sg gd (fun q => l @1 q)) p a) /\
     (forall p a c, (a < d)%nat -> (c < d)%nat -> fjac d f p a c = fjac d (b_field d s n0 n1 e ka sg gd (fun q => l @1 q)) p a c)) ->
  (forall man, compute_geodesic_control sv b0 m man =
     (vs <- cot_to_vs man sg Torch b0 ;; h <- geo vs ;; fill_controls sv m (CLeaf h))) ->
  (forall vs h, wf_field d vs -> has0 vs -> geo vs = Ok h -> shape h = [(n1 * d)%nat] /\
     exists x, solves N M x (b_rhs d s n0 e ka gd vs) /\
       forall k, (k < n1 * d)%nat -> co * h @1 k = b_rhs d s n0 e ka gd vs (N + k)%nat - rsum N (fun j => M (N + k)%nat j * x j)) ->
  (exists c m1, ctrl_ok d m c /\ fill_controls sv m c = Ok m1) ->
  exists Q, vb (n1 * d) Q /\ leaf sv b0 d m (Qc Q).
Proof.
  intros N n M HSV Hs Hnu Hco HE Sgd HC HCL SS SE HF HCT HCO HFG HG HGE (c0 & m0 & Hc0 & F0).
  assert (HP : forall t, pad_shape d n1 t -> prod (shape t) = (n1 * d)%nat).
  { intros t [E|E]; rewrite E; cbn; lia. }
  assert (HSOL : forall t l, pad_shape d n1 t -> sv S (pad_controls N t) = Ok l ->
     nonsingular n M /\ shape l = [n] /\ solves n M (fun k => l @1 k) (pad N (fvec t))).
  { intros t l Ht El. assert (SP : shape (pad_controls N t) = [n]) by (rewrite pad_controls_shape, HP by assumption; reflexivity).
    exact (solver_vec sv n S (pad_controls N t) l M HSV SS SP El SE). }
  assert (HNS : nonsingular n M).
  { destruct c0 as [t|l]; [|elim (HCL l Hc0)]. rewrite HF in F0. bok F0 l El.
    apply (HSOL t l); [apply HC; assumption|assumption]. }
  apply (leaf_implicit sv b0 d m n (n1 * d) co sg M (pad N) (b_rhs d s n0 e ka gd)).
  - assumption.
  - assumption.
  - apply symmetric_diag. apply bm_sym.
  - apply psd_diag; [assumption|]. apply bm_psd. assumption.
  - assumption.
  - intros f f' Hff k Hk. unfold pad. destruct (Nat.ltb_spec k N); [reflexivity|]. apply Hff. unfold n in Hk. lia.
  - intros a b f f' k Hk. unfold pad. destruct (Nat.ltb k N); ring.
  - intros [t|l] Hc; [|elim (HCL l Hc)]. exists t. split; [reflexivity|]. apply HP, HC. assumption.
  - intros t t' E Ht. apply HC. apply HC in Ht. unfold pad_shape. rewrite E. assumption.
  - intros t Ht. apply HC in Ht.
    assert (SP : shape (pad_controls N t) = [n]) by (rewrite pad_controls_shape, HP by assumption; reflexivity).
    destruct (solver_total sv n S (pad_controls N t) M HSV SS (or_introl SP) SE HNS) as (l & El).
    destruct (HSOL t l Ht El) as (_ & Sl & Hl).
    destruct (HFG t l Ht Sl) as (f & Ef & GD & FV & FJ).
    exists (mk t l), f, (fun k => l @1 k). rewrite HF, El. split; [reflexivity|]. split; [assumption|]. split; [|split; [assumption|split; [assumption|]]].
    + rewrite HCO, (tdot_1 _ _ n) by assumption. f_equal. rewrite Rmult_assoc. reflexivity.
    + intros man vs RP. etransitivity; [|exact (b_pairing d s n0 n1 e ka sg gd Sgd HE (fun k => l @1 k) man vs RP)].
      apply pairing_ext; auto.
  - intros man m' W NE E. rewrite HG in E. bok E vs Evs. bok E h Eh.
    destruct (cot_to_vs_represents d man sg Torch b0 vs W NE Hs Evs) as (Wvs & Zvs & Dvs & RP).
    destruct (HGE vs h Wvs Zvs Eh) as (Sh & x & Hx & Hk).
    assert (HPH : pad_shape d n1 h) by (right; assumption).
    exists h, vs. split; [assumption|]. split; [apply HC; assumption|]. split; [assumption|]. split.
    + rewrite HF in E. bok E l El. injection E as <-. apply HCT.
    + intros f y z Hy Hz. apply (pad_dual N (n1 * d) M co x (b_rhs d s n0 e ka gd vs) (fvec h)); try assumption.
      * lra.
      * apply symmetric_diag. apply bm_sym.
      * intros k Hkk. rewrite (fvec_1 h (n1 * d)) by assumption. apply Hk. assumption.
Qed.

Lemma mv_get A b n k i : shape A = [n; k] -> (mv A b) @1 i = rsum k (fun j => A @2 i j * b @1 j).
Proof. intros SA. unfold mv, mk1. cbn [get]. rewrite SA. reflexivity. Qed.

(** Controls computed from the dual system. *)
Lemma block_geo sv d s n0 n1 e ka gd nu sg co S vs b1 v0 xx h :
  let N := (n0 * s)%nat in
  let n := (N + n1 * d)%nat in
  let M q q' := bmatrix d s n0 e ka sg (vrow gd) q q' + nu * delta q q' in
  exact_solver sv -> 0 < co -> shape gd = [(n0 + n1)%nat; d] -> wf_field d vs -> has0 vs ->
  shape S = [n; n] -> (forall q q', (q < n)%nat -> (q' < n)%nat -> entries S q q' = M q q') ->
  shape b1 = [N] -> (forall i t, (i < n0)%nat -> (t < s)%nat -> b1 @1 (i * s + t)%nat = ka * coords d e (fjac d vs (vrow gd i)) t) ->
  feval vs (last_rows n0 gd) 0 = Ok v0 ->
  sv (block11 N S) b1 = Ok xx ->
  h = tscal (1 / co) (tadd (topp (mv (block21 N S) xx)) (tflatten v0)) ->
  shape h = [(n1 * d)%nat] /\
     exists x, solves N M x (b_rhs d s n0 e ka gd vs) /\
       forall k, (k < n1 * d)%nat -> co * h @1 k = b_rhs d s n0 e ka gd vs (N + k)%nat - rsum N (fun j => M (N + k)%nat j * x j).
Proof.
  intros N n M HSV Hco Sgd Wvs Zvs SS SE Sb1 Gb1 Ev0 Exx ->.
  pose proof (last_shape gd n0 n1 d Sgd) as SY.
  destruct (feval_vs d vs _ n1 v0 Wvs Zvs SY Ev0) as (Sv0 & Gv0).
  assert (RS : nrows S = n) by (unfold nrows; rewrite SS; reflexivity).
  split.
  - cbn [tscal tmap tadd tmap2 topp mv mk1 shape block21 mk2]. cbn [nrows shape tnth nth block21 mk2]. rewrite RS. f_equal. unfold n. lia.
  - destruct (solver_vec sv N (block11 N S) b1 xx M HSV eq_refl Sb1 Exx) as (_ & Sxx & Hxx).
    { intros q q' Hq Hq'. unfold entries, block11, mk2. cbn [get]. apply SE; unfold n; lia. }
    exists (fun k => xx @1 k). split.
    + intros q Hq. rewrite (Hxx q Hq). destruct (row_split s n0 q) as (i & t & Hi & Ht & ->); [unfold N in Hq; lia|].
      rewrite rhs_lo, Gb1 by assumption. reflexivity.
    + intros k Hk. destruct (row_split d n1 k) as (j & r & Hj & Hr & ->); [lia|].
      rewrite rhs_hi by assumption.
      unfold tscal, tmap, tadd, tmap2, topp, tmap. cbn [get]. rewrite (mv_get _ _ (nrows S - N) N) by reflexivity.
      change ((tflatten v0) @1 (j * d + r)%nat) with (fvec v0 (j * d + r)%nat).
      rewrite (fvec_2 v0 n1 d) by assumption. rewrite Gv0 by assumption.
      change (vrow (last_rows n0 gd) j) with (vrow gd (n0 + j)).
      rewrite (rsum_ext N (fun j0 => M _ j0 * _) (fun j0 => (block21 N S) @2 (j * d + r)%nat j0 * xx @1 j0)).
      * field. lra.
      * intros q Hq. f_equal. symmetry. apply SE; unfold n; [apply Nat.add_lt_mono_l, Hk|lia].
Qed.

Lemma arap_field_b sg ca d e n0 n1 gd l : sg <> 0 -> eta d = Ok e -> shape gd = [(n0 + n1)%nat; d] ->
  shape l = [(n0 * sym_dim d + n1 * d)%nat] ->
  exists f, arap_field sg ca d n0 gd l = Ok f /\ good d f /\
     (forall p a, (a < d)%nat -> fval d f p a = fval d (b_field d (sym_dim d) n0 n1 e ca sg gd (fun q => l @1 q)) p a) /\
     (forall p a c, (a < d)%nat -> (c < d)%nat -> fjac d f p a c = fjac d (b_field d (sym_dim d) n0 n1 e ca sg gd (fun q => l @1 q)) p a c).
Proof.
  intros Hs He Sgd Sl. pose proof (eta_basis d e He) as (Se & HE & _). unfold arap_field. rewrite He. cbn [bind sum_ctor].
  pose proof (first_shape gd n0 n1 d Sgd) as SX. pose proof (last_shape gd n0 n1 d Sgd) as SY.
  assert (SD : Nat.eqb (ncols (first_rows n0 gd)) (ncols (last_rows n0 gd)) = true).
  { unfold ncols. rewrite SX, SY. apply Nat.eqb_refl. }
  cbn [forallb fdim]. rewrite SD. cbn [andb]. eexists. split; [reflexivity|].
  pose proof (lam_moments_shape n0 (sym_dim d) e (first_rows (n0 * sym_dim d) l) d Se) as SM.
  assert (GM : forall i a c, (i < n0)%nat -> (a < d)%nat -> (c < d)%nat ->
    (tscal ca (lam_moments n0 (sym_dim d) e (first_rows (n0 * sym_dim d) l))) @3 i a c =
    (moments_of n0 d (sym_dim d) e (fun q => ca * l @1 q)) @3 i a c).
  { intros i a c Hi Ha Hc. unfold tscal, tmap, moments_of, mk3. cbn [get].
    rewrite (lam_moments_get n0 (sym_dim d) e _ d) by (try assumption; cbn; rewrite Sl; cbn; lia).
    unfold from_coords. rewrite <- rsum_scal. apply rsum_ext. intros t0 Ht0.
    rewrite (fvec_1 _ (n0 * sym_dim d)).
    - unfold first_rows, rows_from. cbn [get Nat.add]. ring.
    - unfold first_rows, rows_from. cbn [shape]. rewrite Sl. reflexivity.
    - apply pair_lt; assumption. }
  assert (GY : forall j r, (j < n1)%nat -> (r < d)%nat ->
    (reshape [n1; d] (last_rows (sym_dim d * n0) l)) @2 j r = l @1 (n0 * sym_dim d + (j * d + r))%nat).
  { intros j r Hj Hr. rewrite (get_reshape _ _ [j; r] [(j * d + r)%nat]).
    - unfold last_rows, rows_from. cbn [get]. f_equal. f_equal. lia.
    - cbn. rewrite Sl. cbn. nia.
    - unfold last_rows, rows_from, nrows. cbn [shape]. rewrite Sl. cbn [tnth nth valid]. split; [|exact I].
      pose proof (pair_lt n1 d j r Hj Hr). lia. }
  split; [|split].
  + split; [|split; [cbn; tauto|split; [cbn; tauto|cbn [fdim]; unfold ncols; rewrite SY; reflexivity]]].
    cbn [wf_field fold_right]. split; [discriminate|]. split; [|split; [|exact I]].
    * split; [assumption|]. exists n1. split; assumption.
    * split; [assumption|]. exists n0. split; assumption.
  + intros p a Ha. unfold b_field. cbn [fval fold_right]. unfold nrows. rewrite SX, SY. cbn [tnth nth]. f_equal; [|f_equal].
    * apply rsum_ext. intros j Hj. rewrite GY by assumption. reflexivity.
    * apply rsum_ext. intros i Hi. apply rsum_ext. intros c Hc. unfold symP. rewrite !GM by assumption. reflexivity.
  + intros p a c Ha Hc. unfold b_field. cbn [fjac fold_right]. unfold nrows. rewrite SX, SY. cbn [tnth nth]. f_equal; [|f_equal].
    * apply rsum_ext. intros j Hj. rewrite GY by assumption. reflexivity.
    * apply rsum_ext. intros i Hi. apply rsum_ext. intros c' Hc'. unfold symP. rewrite !GM by assumption. reflexivity.
Qed.

Lemma arap_leaf sv b0 d sg ca nu co dim n0 n1 gd ct h lam : exact_solver sv ->
  let m := MArap sg ca nu co dim n0 n1 gd ct h lam in
  wf_mod d m -> (exists c m1, ctrl_ok d m c /\ fill_controls sv m c = Ok m1) ->
  exists Q, vb (n1 * d) Q /\ leaf sv b0 d m (Qc Q).
Proof.
  intros HSV m (-> & (e & He) & Hs & Hnu & Hco & Sgd & Sct) HX.
  pose proof (eta_basis d e He) as (Se & HE & _).
  destruct (arap_sks_ok sg ca nu d e n0 n1 gd Hs He Sgd) as (S & ES & SS & GS).
  apply (leaf_block sv b0 d m (sym_dim d) n0 n1 e ca sg nu co gd
           (fun t l => MArap sg ca nu co d n0 n1 gd ct t (Some l)) S (arap_geodesic sv sg ca nu co d n0 n1 gd)); try assumption.
  - intros t. reflexivity.
  - intros l. exact (fun x => x).
  - intros t. cbn [fill_controls m]. unfold arap_moments. rewrite ES. reflexivity.
  - reflexivity.
  - reflexivity.
  - intros t l Ht Sl. exact (arap_field_b sg ca d e n0 n1 gd l Hs He Sgd Sl).
  - reflexivity.
  - intros vs h' Wvs Zvs E. unfold arap_geodesic in E. rewrite ES in E. cbn [bind] in E. rewrite He in E. cbn [bind] in E.
    bok E dv Edv. bok E v0 Ev0. bok E xx Exx. injection E as E. symmetry in E.
    pose proof (first_shape gd n0 n1 d Sgd) as SX.
    destruct (feval_vs1 d vs _ n0 dv Wvs SX Edv) as (Sdv & Gdv).
    refine (block_geo sv d (sym_dim d) n0 n1 e ca gd nu sg co S vs _ v0 xx h' HSV Hco Sgd Wvs Zvs SS GS _ _ Ev0 Exx E).
    + cbn [tflatten reshape shape].
      match goal with |- context [tensordot ?A e _ _] => rewrite (proj2 (coords_tensordot A e n0 d (sym_dim d) 0 0 Sdv Se)) end.
      cbn. f_equal. lia.
    + intros i t Hi Ht.
      match goal with |- (tflatten ?T) @1 _ = _ => change (fvec T (i * sym_dim d + t)%nat = ca * coords d e (fjac d vs (vrow gd i)) t) end.
      match goal with |- fvec (tensordot ?A e _ _) _ = _ => destruct (coords_tensordot A e n0 d (sym_dim d) i t Sdv Se) as (G & SG) end.
      rewrite (fvec_2 _ n0 (sym_dim d)), G by assumption.
      rewrite (coords_ext d e _ (fun a c => ca * (1 / 2 * (fjac d vs (vrow gd i) a c + fjac d vs (vrow gd i) c a)))).
      * rewrite coords_scal, (coords_symm d (sym_dim d)) by assumption. reflexivity.
      * intros a c Ha Hc. unfold tscal, tmap, tadd, tmap2. cbn [get]. cbn [transpose get].
        change (vrow gd i) with (vrow (first_rows n0 gd) i). rewrite <- !Gdv by assumption.
        unfold transpose; cbn. ring.
Qed.

Lemma div_field_b sg cd d n0 n1 gd l : sg <> 0 -> shape gd = [(n0 + n1)%nat; d] ->
  shape l = [(n0 * 1 + n1 * d)%nat] ->
  exists f, div_field sg cd n0 gd l = Ok f /\ good d f /\
     (forall p a, (a < d)%nat -> fval d f p a = fval d (b_field d 1 n0 n1 (e_div d) cd sg gd (fun q => l @1 q)) p a) /\
     (forall p a c, (a < d)%nat -> (c < d)%nat -> fjac d f p a c = fjac d (b_field d 1 n0 n1 (e_div d) cd sg gd (fun q => l @1 q)) p a c).
Proof.
  intros Hs Sgd Sl. pose proof (e_div_sym d) as HE. rewrite Nat.mul_1_r in Sl. unfold div_field.
  pose proof (first_shape gd n0 n1 d Sgd) as SX. pose proof (last_shape gd n0 n1 d Sgd) as SY.
  assert (SD : Nat.eqb (ncols (first_rows n0 gd)) (ncols (last_rows n0 gd)) = true).
  { unfold ncols. rewrite SX, SY. apply Nat.eqb_refl. }
  cbn [sum_ctor forallb fdim]. rewrite SD. cbn [andb]. eexists. split; [reflexivity|].
  assert (GM : forall i a c, (i < n0)%nat -> (a < d)%nat -> (c < d)%nat ->
    symP (moments_of n0 d 1 (e_div d) (fun q => cd * l @1 q)) i a c = (tscal cd (first_rows n0 l)) @1 i * delta a c).
  { intros i a c Hi Ha Hc. rewrite symP_moments by assumption. unfold from_coords. rewrite rsum_S, rsum_0.
    rewrite Nat.mul_1_r, Nat.add_0_r. unfold e_div, mk3, tscal, tmap, first_rows, rows_from. cbn [get Nat.add]. ring. }
  assert (GY : forall j r, (j < n1)%nat -> (r < d)%nat ->
    (reshape [n1; d] (last_rows n0 l)) @2 j r = l @1 (n0 * 1 + (j * d + r))%nat).
  { intros j r Hj Hr. rewrite (get_reshape _ _ [j; r] [(j * d + r)%nat]).
    - unfold last_rows, rows_from. cbn [get]. f_equal. f_equal. lia.
    - cbn. rewrite Sl. cbn. nia.
    - unfold last_rows, rows_from, nrows. cbn [shape]. rewrite Sl. cbn [tnth nth valid]. split; [|exact I].
      pose proof (pair_lt n1 d j r Hj Hr). lia. }
  split; [|split].
  + split; [|split; [cbn; tauto|split; [cbn; tauto|cbn [fdim]; unfold ncols; rewrite SY; reflexivity]]].
    cbn [wf_field fold_right]. split; [discriminate|]. split; [|split; [|exact I]].
    * split; [assumption|]. exists n1. split; assumption.
    * split; [assumption|]. exists n0. split; [assumption|]. cbn. rewrite Sl. reflexivity.
  + intros p a Ha. unfold b_field. cbn [fval fold_right]. unfold nrows. rewrite SX, SY. cbn [tnth nth]. f_equal; [|f_equal].
    * apply rsum_ext. intros j Hj. rewrite GY by assumption. reflexivity.
    * apply rsum_ext. intros i Hi.
      rewrite (rsum_ext d _ (fun c => delta a c * ((tscal cd (first_rows n0 l)) @1 i * - dgauss d sg (vsub p (vrow (first_rows n0 gd) i)) c))).
      -- rewrite rsum_delta_r by assumption. rewrite (dgauss_vsub_odd d sg p). ring.
      -- intros c Hc. rewrite GM by assumption. ring.
  + intros p a c Ha Hc. unfold b_field. cbn [fjac fold_right]. unfold nrows. rewrite SX, SY. cbn [tnth nth]. f_equal; [|f_equal].
    * apply rsum_ext. intros j Hj. rewrite GY by assumption. reflexivity.
    * apply rsum_ext. intros i Hi.
      rewrite (rsum_ext d _ (fun c' => delta a c' * ((tscal cd (first_rows n0 l)) @1 i * - d2gauss d sg (vsub p (vrow (first_rows n0 gd) i)) c' c))).
      -- rewrite rsum_delta_r by assumption. rewrite (d2gauss_vsub_even d sg p). ring.
      -- intros c' Hc'. rewrite GM by assumption. ring.
Qed.

Lemma div_leaf sv b0 d sg cd nu co dim n0 n1 gd ct h lam : exact_solver sv ->
  let m := MDivFree sg cd nu co dim n0 n1 gd ct h lam in
  wf_mod d m -> (exists c m1, ctrl_ok d m c /\ fill_controls sv m c = Ok m1) ->
  exists Q, vb (n1 * d) Q /\ leaf sv b0 d m (Qc Q).
Proof.
  intros HSV m (-> & Hs & Hnu & Hco & Sgd & Sct) HX.
  pose proof (e_div_sym d) as HE.
  destruct (div_sks_ok sg cd nu d n0 n1 gd Hs Sgd) as (S & ES & SS & GS).
  apply (leaf_block sv b0 d m 1 n0 n1 (e_div d) cd sg nu co gd
           (fun t l => MDivFree sg cd nu co d n0 n1 gd ct t (Some l)) S (div_geodesic sv sg cd nu co d n0 gd)); try assumption.
  - intros t. reflexivity.
  - intros l. exact (fun x => x).
  - intros t. cbn [fill_controls m]. unfold div_moments. rewrite ES, Nat.mul_1_r. reflexivity.
  - reflexivity.
  - intros t l. rewrite Nat.mul_1_r. reflexivity.
  - intros t l Ht Sl. exact (div_field_b sg cd d n0 n1 gd l Hs Sgd Sl).
  - reflexivity.
  - intros vs h' Wvs Zvs E. unfold div_geodesic in E. rewrite ES in E. cbn [bind] in E.
    bok E dv Edv. bok E v0 Ev0. bok E xx Exx. injection E as E. symmetry in E.
    pose proof (first_shape gd n0 n1 d Sgd) as SX.
    destruct (feval_vs1 d vs _ n0 dv Wvs SX Edv) as (Sdv & Gdv).
    rewrite <- (Nat.mul_1_r n0) in Exx, E at 1.
    refine (block_geo sv d 1 n0 n1 (e_div d) cd gd nu sg co S vs _ v0 xx h' HSV Hco Sgd Wvs Zvs SS GS _ _ Ev0 Exx E).
    + unfold tscal, tmap. cbn [shape]. rewrite Nat.mul_1_r. destruct dv as [sd dv]. cbn [shape] in Sdv. subst sd. reflexivity.
    + intros i t Hi Ht. rewrite coords_div. assert (t = 0%nat) by lia. subst t. rewrite Nat.mul_1_r, Nat.add_0_r.
      unfold tscal, tmap. cbn [get]. f_equal. rewrite (einsum_trace3 dv n0 d) by assumption. apply rsum_ext. intros c Hc.
      rewrite Gdv by assumption. reflexivity.
Qed.

(** ** ImplicitModule1 *)
Lemma fvec_col X n k : shape X = [n; 1%nat] -> (k < n)%nat -> fvec X k = X @2 k 0%nat.
Proof.
  intros SX Hk. replace k with (k * 1 + 0)%nat at 1 by lia. apply (fvec_2 X n 1); [assumption|assumption|lia].
Qed.

Lemma fvec_reshape sh t k : fvec (reshape sh t) k = (if Nat.ltb k (prod sh) then fvec t k else fvec (reshape sh t) k).
Proof.
  destruct (Nat.ltb_spec k (prod sh)) as [H|H]; [|reflexivity].
  unfold fvec. rewrite !get_flatten_k. cbn [reshape get shape]. rewrite ravel_unravel by assumption. reflexivity.
Qed.

Lemma fvec_reshape_lt sh t k : (k < prod sh)%nat -> fvec (reshape sh t) k = fvec t k.
Proof. intros H. rewrite fvec_reshape. apply Nat.ltb_lt in H. rewrite H. reflexivity. Qed.

Lemma solver_any sv n A B X M : exact_solver sv -> shape A = [n; n] -> (shape B = [n] \/ shape B = [n; 1%nat]) ->
  sv A B = Ok X -> (forall i j, (i < n)%nat -> (j < n)%nat -> entries A i j = M i j) ->
  nonsingular n M /\ shape X = shape B /\ solves n M (fvec X) (fvec B).
Proof.
  intros HS SA [SB|SB] E HM.
  - destruct (solver_vec sv n A B X M HS SA SB E HM) as (HN & SX & HX). split; [assumption|]. split; [congruence|].
    apply (solves_ext n M M (fun k => X @1 k) _ (fun k => B @1 k)); auto; intros i Hi; symmetry; apply (fvec_1 _ n); assumption.
  - destruct (solver_mat sv n 1 A B X M HS SA SB E HM) as (HN & SX & HX). split; [assumption|]. split; [congruence|].
    apply (solves_ext n M M (fun k => X @2 k 0%nat) _ (fun k => B @2 k 0%nat)); auto; try (intros i Hi; symmetry; apply (fvec_col _ n); assumption).
Qed.

(** The matrix of h |-> A_q h. *)
Definition growth_of (d : nat) (C gd1 : tensor) (n k a b : nat) : R :=
  rsum d (fun i => gd1 @3 n a i * C @3 n i k * gd1 @3 n b i).

Lemma aqh_get d nb r s e C gd1 h n t : shape gd1 = [nb; d; d] -> shape C = [nb; d; r] -> shape h = [r] -> shape e = [d; d; s] ->
  shape (imp1_aqh d nb e C gd1 h) = [nb; s] /\
  (imp1_aqh d nb e C gd1 h) @2 n t = rsum r (fun k => h @1 k * coords d e (growth_of d C gd1 n k) t).
Proof.
  intros Sg SC Sh Se. destruct gd1 as [sg g], C as [sC C], h as [sh h], e as [se e]. cbn [shape] in *. subst.
  unfold imp1_aqh, einsum. cbn -[rsum delta coords growth_of]. split; [reflexivity|].
  apply rsum_ext. intros k Hk. unfold coords, frob, bmat, growth_of. cbn [get].
  rewrite rsum_swap.
  transitivity (rsum d (fun i => rsum d (fun a => rsum d (fun b => h [k] * (g [n; a; i] * C [n; i; k] * g [n; b; i] * e [a; b; t]))))).
  - apply rsum_ext. intros i Hi.
    rewrite (rsum_ext d _ (fun u => delta u i * rsum d (fun a => rsum d (fun b => h [k] * (g [n; a; i] * C [n; i; k] * g [n; b; i] * e [a; b; t]))))).
    + rewrite (rsum_delta_l d (fun _ => rsum d (fun a => rsum d (fun b => h [k] * (g [n; a; i] * C [n; i; k] * g [n; b; i] * e [a; b; t])))) i Hi). reflexivity.
    + intros u Hu. rewrite <- rsum_scal. apply rsum_ext. intros a Ha. rewrite <- rsum_scal. apply rsum_ext. intros b Hb. ring.
  - rewrite rsum_swap, <- rsum_scal. apply rsum_ext. intros a Ha. rewrite rsum_swap, <- rsum_scal. apply rsum_ext. intros b Hb.
    rewrite <- rsum_scal_r, <- rsum_scal. reflexivity.
Qed.

(** The prescribed strains, as a spec: R diag(C h) R^T. *)
Lemma aqh_growth d nb r s e C gd1 h n t : shape gd1 = [nb; d; d] -> shape C = [nb; d; r] -> shape h = [r] -> shape e = [d; d; s] ->
  (imp1_aqh d nb e C gd1 h) @2 n t = coords d e (growth d r C gd1 h n) t.
Proof.
  intros Sg SC Sh Se. rewrite (proj2 (aqh_get d nb r s e C gd1 h n t Sg SC Sh Se)).
  unfold coords, frob, bmat, growth, growth_of.
  rewrite (rsum_ext r _ (fun k => rsum d (fun a => rsum d (fun b => h @1 k * (rsum d (fun i => gd1 @3 n a i * C @3 n i k * gd1 @3 n b i) * e @3 a b t))))).
  - rewrite rsum_swap. apply rsum_ext. intros a Ha. rewrite rsum_swap. apply rsum_ext. intros b Hb.
    rewrite (rsum_ext r _ (fun k => rsum d (fun i => h @1 k * (gd1 @3 n a i * C @3 n i k * gd1 @3 n b i)) * e @3 a b t)) by (intros; rewrite rsum_scal; ring).
    rewrite rsum_scal_r. f_equal. rewrite rsum_swap. apply rsum_ext. intros i Hi.
    rewrite <- rsum_scal, <- rsum_scal_r. apply rsum_ext. intros; ring.
  - intros k Hk. rewrite <- rsum_scal. apply rsum_ext. intros a Ha. rewrite <- rsum_scal. reflexivity.
Qed.

Lemma imp1_sks_ok b sg nu d e nb gd0 : sg <> 0 -> eta d = Ok e -> shape gd0 = [nb; d] ->
  let s := sym_dim d in
  let n := (nb * s)%nat in
  exists S, imp1_sks b sg nu d nb e gd0 = Ok S /\ shape S = [n; n] /\
    forall q q', (q < n)%nat -> (q' < n)%nat ->
      entries S q q' = bmatrix d s nb e 1 sg (vrow gd0) q q' + nu * delta q q'.
Proof.
  intros Hs He Sg s n. pose proof (eta_basis d e He) as HB.
  assert (HS : exists S, match b with Torch => compute_sks gd0 sg 1 (u_tensor d e) | Keops => compute_sks_keops gd0 sg 1 (u_tensor d e) end = Ok S /\
     shape S = [n; n] /\ forall i j t w, (i < nb)%nat -> (j < nb)%nat -> (t < s)%nat -> (w < s)%nat ->
      S @2 (i * s + t)%nat (j * s + w)%nat = sks_entry d e sg (vsub (vrow gd0 i) (vrow gd0 j)) t w).
  { destruct b.
    - destruct (sks_get gd0 nb d e sg Hs Sg HB) as (S & E & SS & G). exists S. split; [assumption|]. split; [|exact G].
      rewrite SS. unfold n, s. f_equal; [|f_equal]; lia.
    - destruct (sks_keops_get gd0 nb d e sg Hs Sg HB) as (S & E & SS & G). exists S. split; [assumption|]. split; [assumption|exact G]. }
  destruct HS as (S & E & SS & G). unfold imp1_sks. rewrite E. cbn [bind]. eexists. split; [reflexivity|]. split.
  - unfold add_diag, tadd, tmap2. cbn [shape]. assumption.
  - intros q q' Hq Hq'. unfold entries, add_diag, tadd, tmap2, tscal, tmap, eye, mk2. cbn [get]. f_equal.
    destruct (row_split s nb q) as (i & t & Hi & Ht & ->); [unfold n in Hq; lia|].
    destruct (row_split s nb q') as (j & w & Hj & Hw & ->); [unfold n in Hq'; lia|].
    rewrite bm_11, G by assumption. ring.
Qed.

Lemma fvec_aqh d nb r s e C gd1 h q : shape gd1 = [nb; d; d] -> shape C = [nb; d; r] -> shape h = [r] -> shape e = [d; d; s] ->
  (q < nb * s)%nat ->
  fvec (imp1_aqh d nb e C gd1 h) q = rsum r (fun k => fvec h k * coords d e (growth_of d C gd1 (q / s) k) (q mod s)).
Proof.
  intros Sg SC Sh Se Hq. destruct (row_split s nb q) as (i & t & Hi & Ht & ->); [lia|].
  destruct (aqh_get d nb r s e C gd1 h i t Sg SC Sh Se) as (S & G).
  rewrite (fvec_2 _ nb s) by assumption. rewrite G, div_pair, mod_pair by assumption.
  apply rsum_ext. intros k Hk. rewrite (fvec_1 h r) by assumption. reflexivity.
Qed.

Lemma imp1_leaf sv b0 d b sg nu co C dim nb gd0 gd1 c0 c1 h ca : exact_solver sv ->
  let m := MImp1 b sg nu co C dim nb gd0 gd1 c0 c1 h ca in
  wf_mod d m -> (exists c m1, ctrl_ok d m c /\ fill_controls sv m c = Ok m1) ->
  exists Q, vb (tnth (shape C) 2) Q /\ leaf sv b0 d m (Qc Q).
Proof.
  intros HSV m (-> & (e & He) & Hs & Hnu & Hco & (r & SC) & Sg0 & Sg1 & Sc0 & Sc1) HX.
  pose proof (eta_basis d e He) as (Se & HE & _). set (s := sym_dim d) in *.
  set (n := (nb * s)%nat).
  set (M := fun q q' => bmatrix d s nb e 1 sg (vrow gd0) q q' + nu * delta q q').
  destruct (imp1_sks_ok b sg nu d e nb gd0 Hs He Sg0) as (S & ES & SS & GS). fold s in SS, GS. fold n in SS, GS.
  assert (RC : tnth (shape C) 2 = r) by (rewrite SC; reflexivity).
  set (B := fun q k => coords d e (growth_of d C gd1 (q / s) k) (q mod s)).
  set (A := fun f q => rsum r (fun k => f k * B q k)).
  assert (HA : forall t q, shape t = [r] -> (q < n)%nat -> fvec (imp1_aqh d nb e C gd1 t) q = A (fvec t) q).
  { intros t q St Hq. apply fvec_aqh; assumption. }
  assert (SA : forall t, shape t = [r] -> shape (imp1_aqh d nb e C gd1 t) = [nb; s]).
  { intros t St. apply (aqh_get d nb r s e C gd1 t 0 0); assumption. }
  set (rhs := fun t => match b with Torch => tflatten (imp1_aqh d nb e C gd1 t) | Keops => reshape [n; 1%nat] (imp1_aqh d nb e C gd1 t) end).
  assert (SR : forall t, shape t = [r] -> shape (rhs t) = [n] \/ shape (rhs t) = [n; 1%nat]).
  { intros t St. unfold rhs. destruct b; [left|right; reflexivity]. cbn [tflatten reshape shape]. rewrite SA by assumption.
    cbn [prod fold_right]. unfold n. f_equal. lia. }
  assert (FR : forall t q, shape t = [r] -> (q < n)%nat -> fvec (rhs t) q = A (fvec t) q).
  { intros t q St Hq. rewrite <- HA by assumption. unfold rhs. destruct b.
    - unfold tflatten. apply fvec_reshape_lt. rewrite SA by assumption. cbn [prod fold_right]. unfold n in Hq. lia.
    - apply fvec_reshape_lt. cbn [prod fold_right]. lia. }
  assert (HF : forall t, fill_controls sv m (CLeaf t) = (l <- sv S (rhs t) ;;
     Ok (MImp1 b sg nu co C d nb gd0 gd1 c0 c1 t (Some (mkC1 (imp1_aqh d nb e C gd1 t) l (lam_moments nb s e l)))))).
  { intros t. cbn [fill_controls m]. unfold imp1_moments. rewrite He. cbn [bind]. rewrite ES. cbn [bind]. fold s. fold n.
    unfold rhs. destruct b.
    - destruct (sv S (tflatten (imp1_aqh d nb e C gd1 t))); reflexivity.
    - destruct (sv S (reshape [n; 1%nat] (imp1_aqh d nb e C gd1 t))); reflexivity. }
  assert (HSOL : forall t l, shape t = [r] -> sv S (rhs t) = Ok l ->
     nonsingular n M /\ shape l = shape (rhs t) /\ solves n M (fvec l) (A (fvec t))).
  { intros t l St El. destruct (solver_any sv n S (rhs t) l M HSV SS (SR t St) El GS) as (HN & Sl & Hl).
    split; [assumption|]. split; [assumption|].
    apply (solves_ext n M M (fvec l) (fvec l) (fvec (rhs t))); auto. }
  assert (HNS : nonsingular n M).
  { destruct HX as ([t|l] & m1 & Hc & F); [|destruct Hc]. rewrite HF in F. bok F l El.
    cbn [ctrl_ok m] in Hc. rewrite RC in Hc. apply (HSOL t l); assumption. }
  assert (MS : symmetric n M).
  { apply symmetric_diag. pose proof (bm_sym d s nb 0 e 1 sg (vrow gd0)) as H. rewrite Nat.mul_0_l, Nat.add_0_r in H. exact H. }
  assert (MP : psd n M).
  { apply psd_diag; [assumption|]. pose proof (bm_psd d s nb 0 e 1 sg (vrow gd0) Hs) as H. rewrite Nat.mul_0_l, Nat.add_0_r in H. exact H. }
  rewrite RC. apply (leaf_implicit sv b0 d m n r co sg M A (b_rhs d s nb e 1 gd0)); try assumption.
  - intros f f' Hf k Hk. apply rsum_ext. intros i Hi. rewrite Hf by assumption. reflexivity.
  - intros a a' f f' k Hk. unfold A. rewrite <- !rsum_scal, <- rsum_plus. apply rsum_ext. intros; ring.
  - intros [t|l] Hc; [|destruct Hc]. exists t. split; [reflexivity|]. cbn [ctrl_ok m] in Hc. rewrite Hc, RC. cbn. lia.
  - intros t t' E Hc. cbn [ctrl_ok m] in *. congruence.
  - intros t Hc. cbn [ctrl_ok m] in Hc. rewrite RC in Hc.
    assert (SR' : shape (rhs t) = [n] \/ exists k, shape (rhs t) = [n; k]).
    { destruct (SR t Hc) as [E|E]; [left|right; exists 1%nat]; assumption. }
    destruct (solver_total sv n S (rhs t) M HSV SS SR' GS HNS) as (l & El).
    destruct (HSOL t l Hc El) as (_ & Sl & Hl).
    assert (Pl : prod (shape l) = n) by (rewrite Sl; destruct (SR t Hc) as [E|E]; rewrite E; cbn [prod fold_right]; lia).
    pose proof (lam_moments_shape nb s e l d Se) as SM.
    eexists. exists (SF_p b gd0 (lam_moments nb s e l) sg), (fvec l). rewrite HF, El. split; [reflexivity|].
    split; [assumption|]. split; [|split; [reflexivity|split]].
    + cbn [cost c_aqh c_lam]. f_equal. rewrite !Rmult_assoc. f_equal. f_equal. unfold tdot. rewrite SA by assumption.
      replace (prod [nb; s]) with n by (cbn [prod fold_right]; unfold n; lia). apply rsum_ext. intros k Hk.
      rewrite <- HA by assumption. reflexivity.
    + split; [|split; [exact I|split; [exact I|]]].
      * cbn. split; [assumption|]. exists nb. auto.
      * cbn [fdim]. unfold ncols. rewrite Sg0. reflexivity.
    + intros man vs RP.
      assert (Sg0' : shape gd0 = [(nb + 0)%nat; d]) by (rewrite Nat.add_0_r; assumption).
      pose proof (b_pairing d s nb 0 e 1 sg gd0 Sg0' HE (fvec l) man vs RP) as H.
      rewrite Nat.mul_0_l, Nat.add_0_r in H. etransitivity; [|exact H].
      assert (Q0 : nrows (last_rows nb gd0) = 0%nat).
      { unfold last_rows, rows_from, nrows. cbn [shape tnth nth]. rewrite Sg0. cbn. lia. }
      assert (GM : forall i a c, (i < nb)%nat -> (a < d)%nat -> (c < d)%nat ->
        (lam_moments nb s e l) @3 i a c = (moments_of nb d s e (fun q => 1 * fvec l q)) @3 i a c).
      { intros i a c Hi Ha Hc'. rewrite (lam_moments_get nb s e l d) by assumption. unfold moments_of, mk3, from_coords. cbn [get].
        apply rsum_ext. intros; ring. }
      assert (SX : shape (first_rows nb gd0) = [nb; d]) by (apply (first_shape gd0 nb 0); assumption).
      apply pairing_ext.
      * intros p a Ha. unfold b_field. cbn [fval fold_right]. rewrite Q0, rsum_0. unfold nrows. rewrite Sg0, SX. cbn [tnth nth].
        rewrite Rplus_0_l, Rplus_0_r. apply rsum_ext. intros i Hi. apply rsum_ext. intros c Hc'. unfold symP. rewrite !GM by assumption. reflexivity.
      * intros p a c Ha Hc'. unfold b_field. cbn [fjac fold_right]. rewrite Q0, rsum_0. unfold nrows. rewrite Sg0, SX. cbn [tnth nth].
        rewrite Rplus_0_l, Rplus_0_r. apply rsum_ext. intros i Hi. apply rsum_ext. intros c' Hc''. unfold symP. rewrite !GM by assumption. reflexivity.
  - intros man m' W NE E. cbn [compute_geodesic_control m] in E. bok E vs Evs. bok E h' Eh.
    destruct (cot_to_vs_represents d man sg b b0 vs W NE Hs Evs) as (Wvs & Zvs & Dvs & RP).
    unfold imp1_geodesic in Eh. rewrite He in Eh. cbn [bind] in Eh. bok Eh dv Edv. rewrite ES in Eh. cbn [bind] in Eh.
    bok Eh tl0 Etl. bok Eh p Ep. bok Eh c Ec. injection Eh as <-. fold s in Etl. fold n in Etl.
    destruct (feval_vs1 d vs _ nb dv Wvs Sg0 Edv) as (Sdv & Gdv).
    (* tl0 *)
    destruct (fun SY => solver_any sv n S _ tl0 M HSV SS SY Etl GS) as (_ & Stl & Htl); [right; reflexivity|].
    set (bb := b_rhs d s nb e 1 gd0 vs).
    assert (Htl' : solves n M (fvec tl0) bb).
    { revert Htl. apply solves_ext; auto. intros q Hq. rewrite fvec_reshape_lt by (cbn [prod fold_right]; lia).
      destruct (row_split s nb q) as (i & t & Hi & Ht & ->); [unfold n in Hq; lia|].
      match goal with |- fvec (tensordot ?X e _ _) _ = _ => destruct (coords_tensordot X e nb d s i t Sdv Se) as (G & SG) end.
      rewrite (fvec_2 _ nb s), G by assumption. unfold bb. rewrite rhs_lo, Rmult_1_l by assumption.
      rewrite (coords_ext d e _ (fun a c => 1 / 2 * (fjac d vs (vrow gd0 i) a c + fjac d vs (vrow gd0 i) c a))).
      - apply (coords_symm d s); assumption.
      - intros a c' Ha Hc'. unfold tscal, tmap, tadd, tmap2. cbn [get]. rewrite <- !Gdv by assumption. reflexivity. }
    (* aqkiaq *)
    unfold imp1_aqkiaq in Ep. rewrite RC in Ep. fold s in Ep. bok Ep ls Els. injection Ep as <-. cbn [fst snd] in Ec.
    replace (s * nb)%nat with n in * by (unfold n; lia).
    set (L := fun i => fvec (nth i ls (tzeros []))).
    assert (SB : forall i, shape (basis_vec r i) = [r]) by reflexivity.
    assert (AB : forall i q, (i < r)%nat -> A (fvec (basis_vec r i)) q = B q i).
    { intros i q Hi. unfold A. rewrite (rsum_ext r _ (fun k => delta i k * B q k)).
      - apply rsum_delta_r. assumption.
      - intros k Hk. rewrite (fvec_1 _ r) by (assumption || reflexivity). reflexivity. }
    assert (HL : forall i, (i < r)%nat -> solves n M (L i) (fun q => B q i)).
    { intros i Hi. pose proof (mapM_nth _ r ls (tzeros []) Els i Hi) as Ei. cbv beta in Ei.
      destruct (fun SY => solver_any sv n S _ _ M HSV SS SY Ei GS) as (_ & SLi & HLi); [right; reflexivity|].
      revert HLi. apply solves_ext; auto. intros q Hq. rewrite fvec_reshape_lt by (cbn [prod fold_right]; lia).
      unfold tflatten. rewrite fvec_reshape_lt.
      - rewrite HA by (reflexivity || assumption). apply AB. assumption.
      - rewrite SA by reflexivity. cbn [prod fold_right]. unfold n in Hq. lia. }
    destruct (fun SX SY => solver_any sv r _ _ c (fun i j => rsum n (fun q => L i q * B q j)) HSV SX SY Ec) as (_ & Sc & Hc).
    { reflexivity. }
    { right. reflexivity. }
    { intros i j Hi Hj. unfold entries, mm, mk2. cbn [get tnth nth shape]. apply rsum_ext. intros q Hq. unfold L. f_equal.
      change (fvec (imp1_aqh d nb e C gd1 (basis_vec r j)) q = B q j).
      rewrite HA by (reflexivity || assumption). apply AB. assumption. }
    assert (Sc' : shape (tflatten c) = [r]).
    { cbn [tflatten reshape shape]. rewrite Sc. cbn. f_equal. lia. }
    exists (tflatten c), vs. split; [assumption|]. split; [cbn [ctrl_ok m]; rewrite RC; assumption|]. split; [exact E|].
    split.
    + fold m in E. change (fill_controls sv m (CLeaf (tflatten c)) = Ok m') in E. rewrite HF in E. bok E l El. injection E as <-. reflexivity.
    + assert (Hcc : solves r (fun i j => rsum n (fun q => L i q * B q j)) (fvec (tflatten c)) (fun i => rsum n (fun q => B q i * (fvec tl0 q / co)))).
      { revert Hc. apply solves_ext; auto.
        - intros i Hi. symmetry. unfold tflatten. apply fvec_reshape_lt. rewrite Sc. cbn. lia.
        - intros i Hi. rewrite (fvec_col _ r) by (assumption || reflexivity).
          unfold mm, mk2. cbn [get]. unfold transpose at 1. cbn [shape tnth nth map]. cbn [get].
          apply rsum_ext. intros q Hq. f_equal.
          + change (fvec (imp1_aqh d nb e C gd1 (basis_vec r i)) q = B q i).
            rewrite HA by (reflexivity || assumption). apply AB. assumption. }
      intros f y z Hy Hz.
      apply (imp1_dual n r M co B (fun q => fvec tl0 q / co) bb L (fvec (tflatten c))); try assumption.
      * lra.
      * revert Htl'. apply solves_ext; auto. intros q Hq. field. lra.
Qed.
