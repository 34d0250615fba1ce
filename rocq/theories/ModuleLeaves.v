(** The explicit modules: each is described by a positive bilinear form. *)
From Coq Require Import Reals String List Arith Lia Lra.
From Verif Require Import Py Tensor TensorFacts KernelModel FieldModel SpecKernel SpecField KernelFacts
  FieldFacts FieldLinear GeometryModel SpecGeometry GeometryFacts SpecLinAlg LinAlg GaussPSD ModuleModel SpecModule
  ModuleDual ModuleAlg.
Import ListNotations.
Open Scope R_scope.

Lemma bind_ok {A B} (x : res A) (f : A -> res B) y : bind x f = Ok y -> exists a, x = Ok a /\ f a = Ok y.
Proof. destruct x; [|discriminate]. intros H. exists a. auto. Qed.

Ltac bok H x E := apply bind_ok in H; destruct H as (x & E & H).

Record leaf (sv : solver) (b0 : backend) (d : nat) (m : dmod) (Q : ctrl -> ctrl -> R) : Prop := {
  lf_pack : pack sv d m Q;
  lf_dual : dual sv b0 d m Q;
  lf_geo : forall man m', wf_gman d man -> no_empty_comp man -> compute_geodesic_control sv b0 m man = Ok m' ->
     ctrl_ok d m (controls m') /\ fill_controls sv m (controls m') = Ok m' }.

(** ** Kernel matrices *)
Definition kmat (d : nat) (sg : R) (x : tensor) (i j : nat) : R := gaussian d sg (vsub (vrow x i) (vrow x j)).

Lemma kmat_sym N d sg x : symmetric N (kmat d sg x).
Proof. intros i j _ _. apply gaussian_vsub_sym. Qed.

Lemma kmat_psd N d sg x : sg <> 0 -> shape x = [N; d] -> psd N (kmat d sg x).
Proof. intros Hs Hx. apply (psd_ext N (entries (K_xx x sg))); [|apply (K_xx_psd x N d); assumption].
  intros. apply (K_xx_entries x N d); assumption. Qed.

Lemma kmat_pd N d sg x : sg <> 0 -> shape x = [N; d] -> distinct d N (vrow x) -> pd N (kmat d sg x).
Proof. intros Hs Hx Hd. apply (pd_ext N (entries (K_xx x sg))); [|apply (K_xx_pd x N d); assumption].
  intros. apply (K_xx_entries x N d); assumption. Qed.

Lemma K_xx_kmat x N d sg i j : sg <> 0 -> shape x = [N; d] -> (K_xx x sg) @2 i j = kmat d sg x i j.
Proof. intros. apply (K_xy_get x x N N d); assumption. Qed.

Lemma K_xx_sh x N d sg : shape x = [N; d] -> shape (K_xx x sg) = [N; N].
Proof. intros. apply (K_xy_shape x x N N d); assumption. Qed.

Lemma keops_trans_kmat x N d sg i j : sg <> 0 -> shape x = [N; d] ->
  exp (- (1 / sg / sg) * sqnorm2 (tsub (row x i) (row x j)) / 2) = kmat d sg x i j.
Proof. intros Hs Hx. apply (keops_gauss x x sg N N d); assumption. Qed.

Lemma keops_imp0_kmat x N d sg i j : sg <> 0 -> shape x = [N; d] ->
  exp (- ((1 / 2) / sg / sg) * sqnorm2 (tsub (row x i) (row x j))) = kmat d sg x i j.
Proof.
  intros Hs Hx. rewrite <- (keops_trans_kmat x N d sg i j Hs Hx). f_equal. field. assumption.
Qed.

(** ** Quadratic forms of (N, d) arrays *)
Lemma mm_form K h h' N d M : shape K = [N; N] -> shape h = [N; d] -> shape h' = [N; d] ->
  (forall i j, (i < N)%nat -> (j < N)%nat -> K @2 i j = M i j) ->
  tdot (mm K h) h' = rsum d (fun a => bil N M (fun i => h' @2 i a) (fun i => h @2 i a)).
Proof.
  intros SK Sh Sh' HM. rewrite (tdot2 _ _ N d).
  2:{ cbn. rewrite SK, Sh. reflexivity. } 2: assumption.
  rewrite rsum_swap. apply rsum_ext. intros a Ha. unfold bil. apply rsum_ext. intros i Hi.
  cbn [mm mk2 get]. rewrite SK. cbn [tnth nth].
  rewrite Rmult_comm, <- rsum_scal. apply rsum_ext. intros k Hk. rewrite HM by assumption. ring.
Qed.

Lemma cols_fvec N d M t t' : shape t = [N; d] -> shape t' = [N; d] ->
  rsum d (fun a => bil N M (fun i => fvec t (i * d + a)%nat) (fun i => fvec t' (i * d + a)%nat)) =
  rsum d (fun a => bil N M (fun i => t @2 i a) (fun i => t' @2 i a)).
Proof.
  intros St St'. apply rsum_ext. intros a Ha. apply bil_ext; [reflexivity| |]; intros i Hi.
  - apply (fvec_2 t N d); assumption.
  - apply (fvec_2 t' N d); assumption.
Qed.

Lemma cols_dual N d M (t h : tensor) (w : nat -> nat -> R) :
  (forall a, (a < d)%nat -> solves N M (fun i => h @2 i a) (fun i => w i a)) ->
  rsum d (fun a => bil N M (fun i => t @2 i a) (fun i => h @2 i a)) =
  rsum N (fun j => rsum d (fun a => t @2 j a * w j a)).
Proof.
  intros H. rewrite (rsum_swap N d). apply rsum_ext. intros a Ha. rewrite (bil_solves N M _ _ _ (H a Ha)). reflexivity.
Qed.

Lemma keops_cost_form formula gd h N d M : shape gd = [N; d] -> shape h = [N; d] ->
  (forall i j p, (i < N)%nat -> (j < N)%nat -> formula (sqnorm2 (tsub (row gd i) (row gd j))) p = M i j * p) ->
  keops_cost formula gd h = rsum d (fun a => bil N M (fun i => h @2 i a) (fun i => h @2 i a)).
Proof.
  intros Sg Sh HM. unfold keops_cost, nrows, ncols. rewrite Sg, Sh. cbn [tnth nth].
  rewrite (rsum_swap N N).
  transitivity (rsum N (fun i => rsum N (fun j => rsum d (fun a => h @2 i a * h @2 j a * M i j)))).
  - apply rsum_ext. intros i Hi. apply rsum_ext. intros j Hj. rewrite HM by assumption. rewrite <- rsum_scal.
    apply rsum_ext. intros; ring.
  - unfold bil. rewrite (rsum_swap d N). apply rsum_ext. intros i Hi. apply rsum_swap.
Qed.

Lemma good_SF0 d b s m sg M : sg <> 0 -> shape s = [M; d] -> shape m = [M; d] -> good d (SF_0 b s m sg).
Proof.
  intros Hs Ss Sm. split; [split; [assumption|exists M; auto]|]. split; [exact I|]. split; [exact I|].
  cbn. unfold ncols. rewrite Ss. reflexivity.
Qed.

Lemma feval_vs d vs p N v : wf_field d vs -> has0 vs -> shape p = [N; d] -> feval vs p 0 = Ok v ->
  shape v = [N; d] /\ forall i a, (i < N)%nat -> (a < d)%nat -> v @2 i a = fval d vs (vrow p i) a.
Proof.
  intros W Z Sp E. destruct (feval_0 d vs p N W Z Sp) as (t & E' & S & G). rewrite E in E'. injection E' as <-.
  split; [assumption|]. intros i a Hi Ha. rewrite (G [i; a]) by (cbn; auto). reflexivity.
Qed.

Lemma feval_vs1 d vs p N v : wf_field d vs -> shape p = [N; d] -> feval vs p 1 = Ok v ->
  shape v = [N; d; d] /\ forall i a l, (i < N)%nat -> (a < d)%nat -> (l < d)%nat -> v @3 i a l = fjac d vs (vrow p i) a l.
Proof.
  intros W Sp E. destruct (feval_1_total d vs p N W Sp) as [(H & _)|(_ & H)]; [|congruence].
  destruct (feval_1 d vs p N W H Sp) as (t & E' & S & G). rewrite E in E'. injection E' as <-.
  split; [assumption|]. intros i a l Hi Ha Hl. rewrite (G [i; a; l]) by (cbn; auto). reflexivity.
Qed.

(** ** GlobalTranslation *)
Definition Q_global d co (f g : nat -> R) := co * rsum d (fun k => f k * g k).

Lemma vb_dot d : vb d (fun f g => rsum d (fun k => f k * g k)).
Proof.
  apply (vb_sum d d (fun k f g => f k * g k)). intros i Hi. split; intros.
  - rewrite H, H0 by assumption. reflexivity.
  - ring.
  - ring.
  - nra.
Qed.

Lemma mapM_nth {A} (f : nat -> res A) n l d0 : mapM f (seq 0 n) = Ok l ->
  forall i, (i < n)%nat -> f i = Ok (nth i l d0).
Proof.
  assert (H : forall n s l, mapM f (seq s n) = Ok l -> forall i, (i < n)%nat -> f (s + i)%nat = Ok (nth i l d0)).
  { induction n0 as [|n0 IH]; intros s l0 E i Hi; [lia|]. cbn [seq mapM] in E. bok E x Ex. bok E xs Exs.
    injection E as <-. destruct i as [|i]; [rewrite Nat.add_0_r; exact Ex|]. cbn [nth].
    rewrite <- (IH (S s) xs Exs i) by lia. f_equal. lia. }
  intros E i Hi. apply (H n 0%nat l E i Hi).
Qed.

Lemma leaf_global sv b0 d dim co h : wf_mod d (MGlobal dim co h) ->
  leaf sv b0 d (MGlobal dim co h) (Qc (Q_global d co)).
Proof.
  intros (-> & Hco & Sh). split.
  - apply (leaf_pack sv d _ d).
    + apply vb_mul; [lra|apply vb_dot].
    + intros [t|l] Hc; [|destruct Hc]. exists t. split; [reflexivity|]. cbn in Hc. rewrite Hc. cbn. lia.
    + intros t t' E Hc. cbn in *. congruence.
    + intros t Hc. cbn in Hc. do 2 eexists. split; [reflexivity|]. split; [|split; [reflexivity|]].
      * cbn [cost]. f_equal. unfold Q_global, tdot. rewrite Hc. cbn [prod fold_right]. rewrite Nat.mul_1_r. unfold fvec. ring.
      * split; [exact Hc|]. split; [exact I|]. split; [exact I|]. cbn. rewrite Hc. reflexivity.
  - intros man m' W NE E c m1 f Hc F FG. cbn [compute_geodesic_control] in E. bok E h' Eh. injection E as <-.
    destruct c as [t|l]; [|destruct Hc]. cbn in Hc, F. injection F as <-. cbn in FG. injection FG as <-.
    unfold global_geodesic in Eh. rewrite Sh in Eh. cbn [tnth nth] in Eh. bok Eh xs Ex. injection Eh as <-.
    cbn [controls Qc]. unfold Q_global. cbn [fval fjac].
    transitivity (rsum d (fun k => pairing d man (fun _ a => delta k a * t @1 k) (fun _ _ _ => 0))).
    + rewrite <- (pairing_rsum d man d (fun k _ a => delta k a * t @1 k) (fun _ _ _ _ => 0)).
      apply pairing_ext; intros.
      * rewrite (rsum_delta_l d (fun k => t @1 k) a) by assumption. reflexivity.
      * rewrite rsum_zero; reflexivity.
    + rewrite <- rsum_scal. apply rsum_ext. intros k Hk.
      rewrite (fvec_1 t d), (fvec_1 _ d) by (assumption || reflexivity). cbn [mk1 get].
      pose proof (mapM_nth _ d xs 0 Ex k Hk) as Ek. cbn beta in Ek.
      rewrite (inner_pairing_field d) in Ek; [|assumption|reflexivity|exact I|intros; exact I].
      injection Ek as Ek. rewrite <- Ek. cbn [fval fjac basis_vec mk1 get].
      transitivity (t @1 k * pairing d man (fun _ a => delta k a) (fun _ _ _ => 0)); [|field; lra].
      rewrite <- pairing_scal. apply pairing_ext; intros; ring.
  - intros man m' W NE E. cbn [compute_geodesic_control] in E. bok E h' Eh. injection E as <-.
    unfold global_geodesic in Eh. rewrite Sh in Eh. cbn [tnth nth] in Eh. bok Eh xs Ex. injection Eh as <-.
    split; reflexivity.
Qed.

(** ** Translations *)
Definition Q_cols N d M (f g : nat -> R) :=
  rsum d (fun a => bil N M (fun i => f (i * d + a)%nat) (fun i => g (i * d + a)%nat)).

Lemma trans_cost_form b sg gd h N d : sg <> 0 -> shape gd = [N; d] -> shape h = [N; d] ->
  trans_cost b sg gd h = 1 / 2 * rsum d (fun a => bil N (kmat d sg gd) (fun i => h @2 i a) (fun i => h @2 i a)).
Proof.
  intros Hs Sg Sh. destruct b; unfold trans_cost.
  - f_equal. apply mm_form; [apply (K_xx_sh gd N d); assumption|assumption|assumption|].
    intros. apply (K_xx_kmat gd N d); assumption.
  - rewrite (keops_cost_form _ gd h N d (fun i j => 1 / 2 * kmat d sg gd i j) Sg Sh).
    + rewrite <- rsum_scal. apply rsum_ext. intros a Ha. unfold bil. rewrite <- rsum_scal. apply rsum_ext. intros i Hi.
      rewrite <- rsum_scal. apply rsum_ext. intros j Hj. ring.
    + intros. rewrite (keops_trans_kmat gd N d) by assumption. field.
Qed.

Lemma leaf_trans sv b0 d b sg dim nb gd ct h : exact_solver sv -> wf_mod d (MTrans b sg dim nb gd ct h) ->
  leaf sv b0 d (MTrans b sg dim nb gd ct h) (Qc (Q_cols nb d (kmat d sg gd))).
Proof.
  intros HS (-> & Hs & Sg & Sc).
  assert (HG : forall v x, shape v = [nb; d] -> trans_geodesic sv b sg gd v = Ok x ->
     nonsingular nb (kmat d sg gd) /\ shape x = [nb; d] /\
     forall a, (a < d)%nat -> solves nb (kmat d sg gd) (fun k => x @2 k a) (fun k => v @2 k a)).
  { intros v x Sv E. destruct b; unfold trans_geodesic in E.
    - apply (solver_mat sv nb d (K_xx gd sg) v x _ HS); [apply (K_xx_sh gd nb d); assumption|assumption|assumption|].
      intros. apply (K_xx_kmat gd nb d); assumption.
    - eapply (solver_mat sv nb d _ v x _ HS); [|assumption|exact E|].
      + cbn. unfold nrows. rewrite Sg. reflexivity.
      + intros i j Hi Hj. unfold entries, add_diag, tadd, tmap2, keops_kernel, mk2. cbn [get].
        rewrite (keops_trans_kmat gd nb d) by assumption. cbn. ring. }
  split.
  - apply (leaf_pack sv d _ (nb * d)).
    + apply vb_cols; [apply kmat_sym|apply kmat_psd; assumption].
    + intros [t|l] Hc; [|destruct Hc]. exists t. split; [reflexivity|]. cbn in Hc. rewrite Hc. cbn. lia.
    + intros t t' E Hc. cbn in *. congruence.
    + intros t Hc. cbn in Hc. do 2 eexists. split; [reflexivity|]. split; [|split; [reflexivity|]].
      * cbn [cost]. f_equal. rewrite (trans_cost_form b sg gd t nb d) by assumption. f_equal.
        symmetry. apply cols_fvec; assumption.
      * apply (good_SF0 d b gd t sg nb); assumption.
  - intros man m' W NE E c m1 f Hc F FG. cbn [compute_geodesic_control] in E. bok E vs Evs. bok E v Ev. bok E x Ex.
    injection E as <-.
    destruct (cot_to_vs_represents d man sg b b0 vs W NE Hs Evs) as (Wvs & Zvs & _ & RP).
    destruct (feval_vs d vs gd nb v Wvs Zvs Sg Ev) as (Sv & Gv).
    destruct (HG v x Sv Ex) as (_ & Sx & Hx).
    destruct c as [t|l]; [|destruct Hc]. cbn in Hc, F. injection F as <-. cbn in FG. injection FG as <-.
    cbn [controls Qc]. unfold Q_cols. rewrite cols_fvec by assumption.
    rewrite (pair_SF0 d man sg vs b gd t nb Sg RP).
    rewrite (cols_dual nb d _ t x (fun i a => v @2 i a) Hx).
    apply rsum_ext. intros j Hj. apply rsum_ext. intros a Ha. rewrite Gv by assumption. reflexivity.
  - intros man m' W NE E. cbn [compute_geodesic_control] in E. bok E vs Evs. bok E v Ev. bok E x Ex.
    injection E as <-.
    destruct (cot_to_vs_represents d man sg b b0 vs W NE Hs Evs) as (Wvs & Zvs & _ & RP).
    destruct (feval_vs d vs gd nb v Wvs Zvs Sg Ev) as (Sv & Gv).
    destruct (HG v x Sv Ex) as (_ & Sx & Hx).
    split; [exact Sx|reflexivity].
Qed.

(** ** ImplicitModule0 *)
Lemma imp0_cost_form b sg nu co gd h N d : sg <> 0 -> shape gd = [N; d] -> shape h = [N; d] ->
  imp0_cost b sg nu co gd h =
  1 / 2 * (co * rsum d (fun a => bil N (fun i j => kmat d sg gd i j + nu * delta i j) (fun i => h @2 i a) (fun i => h @2 i a))).
Proof.
  intros Hs Sg Sh.
  assert (HD : rsum d (fun a => bil N (fun i j => kmat d sg gd i j + nu * delta i j) (fun i => h @2 i a) (fun i => h @2 i a)) =
    rsum d (fun a => bil N (kmat d sg gd) (fun i => h @2 i a) (fun i => h @2 i a)) +
    nu * rsum N (fun i => rsum d (fun a => h @2 i a * h @2 i a))).
  { rewrite (rsum_swap N d), <- rsum_scal, <- rsum_plus. apply rsum_ext. intros a Ha. apply bil_diag. }
  rewrite HD. destruct b; unfold imp0_cost.
  - rewrite Rmult_assoc. f_equal. f_equal.
    rewrite (tdot2 _ _ N d).
    2:{ cbn. unfold nrows. rewrite Sg, Sh. reflexivity. } 2: assumption.
    rewrite <- (mm_form (K_xx gd sg) h h N d (kmat d sg gd)); try assumption.
    2:{ apply (K_xx_sh gd N d); assumption. } 2:{ intros. apply (K_xx_kmat gd N d); assumption. }
    rewrite (tdot2 (mm (K_xx gd sg) h) h N d).
    2:{ cbn. unfold nrows. rewrite Sg, Sh. reflexivity. } 2: assumption.
    rewrite <- rsum_scal, <- rsum_plus. apply rsum_ext. intros i Hi. rewrite <- rsum_scal, <- rsum_plus. apply rsum_ext.
    intros a Ha. unfold tadd, tmap2 at 1. cbn [get tscal tmap]. ring.
  - rewrite Rmult_assoc. f_equal. f_equal. f_equal.
    + apply keops_cost_form; try assumption. intros. rewrite (keops_imp0_kmat gd N d) by assumption. reflexivity.
    + f_equal. rewrite Sh. cbn [prod fold_right]. rewrite Nat.mul_1_r, rsum_flat.
      apply rsum_ext. intros i Hi. apply rsum_ext. intros a Ha. fold (fvec h (i * d + a)%nat).
      rewrite (fvec_2 h N d) by assumption. ring.
Qed.

Lemma reshape_id2 t N d i a : shape t = [N; d] -> (i < N)%nat -> (a < d)%nat ->
  (reshape [N; d] t) @2 i a = t @2 i a.
Proof. intros St Hi Ha. rewrite <- St. apply get_reshape_id. rewrite St. cbn. auto. Qed.

Lemma leaf_imp0 sv b0 d b sg nu co dim nb gd ct h : exact_solver sv -> wf_mod d (MImp0 b sg nu co dim nb gd ct h) ->
  leaf sv b0 d (MImp0 b sg nu co dim nb gd ct h)
    (Qc (fun f g => co * Q_cols nb d (fun i j => kmat d sg gd i j + nu * delta i j) f g)).
Proof.
  intros HS (-> & Hs & Hn & Hco & Sg & Sc). set (M := fun i j => kmat d sg gd i j + nu * delta i j).
  assert (HG : forall v x, shape v = [nb; d] -> imp0_geodesic sv b sg nu co nb d gd v = Ok x ->
     nonsingular nb M /\ shape x = [nb; d] /\
     forall a, (a < d)%nat -> solves nb M (fun k => co * x @2 k a) (fun k => v @2 k a)).
  { intros v x Sv E. destruct b; unfold imp0_geodesic in E; bok E y Ey; injection E as <-.
    - destruct (fun SA SB => solver_mat sv nb d _ v y M HS SA SB Ey) as (NS & Sy & Hy).
      + cbn. unfold nrows. rewrite Sg. reflexivity.
      + assumption.
      + intros i j Hi Hj. change (entries (add_diag (K_xx gd sg) nu nb) i j) with ((K_xx gd sg) @2 i j + nu * delta i j).
        rewrite (K_xx_kmat gd nb d) by assumption. reflexivity.
      + split; [assumption|]. split; [assumption|]. intros a Ha.
        apply (solves_ext nb M M (fun k => y @2 k a) _ (fun k => v @2 k a) (fun k => v @2 k a)); auto.
        intros i Hi. cbn. field. lra.
    - destruct (fun SA SB => solver_mat sv nb d _ v y M HS SA SB Ey) as (NS & Sy & Hy).
      + cbn. unfold nrows. rewrite Sg. reflexivity.
      + assumption.
      + intros i j Hi Hj. unfold entries, add_diag, tadd, tmap2, keops_kernel, mk2. cbn [get].
        rewrite (keops_imp0_kmat gd nb d) by assumption. reflexivity.
      + split; [assumption|]. split; [reflexivity|]. intros a Ha.
        apply (solves_ext nb M M (fun k => y @2 k a) _ (fun k => v @2 k a) (fun k => v @2 k a)); auto.
        intros i Hi. unfold tmap. cbn [get]. rewrite reshape_id2 by assumption. field. lra. }
  split.
  - apply (leaf_pack sv d _ (nb * d)).
    + apply vb_mul; [lra|]. apply vb_cols; [apply symmetric_diag, kmat_sym|apply psd_diag; [assumption|apply kmat_psd; assumption]].
    + intros [t|l] Hc; [|destruct Hc]. exists t. split; [reflexivity|]. cbn in Hc. rewrite Hc. cbn. lia.
    + intros t t' E Hc. cbn in *. congruence.
    + intros t Hc. cbn in Hc. do 2 eexists. split; [reflexivity|]. split; [|split; [reflexivity|]].
      * cbn [cost]. f_equal. rewrite (imp0_cost_form b sg nu co gd t nb d) by assumption. do 2 f_equal.
        symmetry. apply cols_fvec; assumption.
      * apply (good_SF0 d b gd t sg nb); assumption.
  - intros man m' W NE E c m1 f Hc F FG. cbn [compute_geodesic_control] in E. bok E vs Evs. bok E v Ev. bok E x Ex.
    injection E as <-.
    destruct (cot_to_vs_represents d man sg b b0 vs W NE Hs Evs) as (Wvs & Zvs & _ & RP).
    destruct (feval_vs d vs gd nb v Wvs Zvs Sg Ev) as (Sv & Gv).
    destruct (HG v x Sv Ex) as (_ & Sx & Hx).
    destruct c as [t|l]; [|destruct Hc]. cbn in Hc, F. injection F as <-. cbn in FG. injection FG as <-.
    cbn [controls Qc]. unfold Q_cols. rewrite cols_fvec by assumption.
    rewrite (pair_SF0 d man sg vs b gd t nb Sg RP).
    transitivity (rsum d (fun a => bil nb M (fun i => t @2 i a) (fun i => (tscal co x) @2 i a))).
    + rewrite (cols_dual nb d _ t (tscal co x) (fun i a => v @2 i a) Hx).
      apply rsum_ext. intros j Hj. apply rsum_ext. intros a Ha. rewrite Gv by assumption. reflexivity.
    + rewrite <- rsum_scal. apply rsum_ext. intros a Ha. cbn [tscal tmap get]. apply bil_scal_r.
  - intros man m' W NE E. cbn [compute_geodesic_control] in E. bok E vs Evs. bok E v Ev. bok E x Ex.
    injection E as <-.
    destruct (cot_to_vs_represents d man sg b b0 vs W NE Hs Evs) as (Wvs & Zvs & _ & RP).
    destruct (feval_vs d vs gd nb v Wvs Zvs Sg Ev) as (Sv & Gv).
    destruct (HG v x Sv Ex) as (_ & Sx & Hx).
    split; [exact Sx|reflexivity].
Qed.

(** ** OrientedTranslation *)
Definition omat d sg (gd0 gd1 : tensor) i j := kmat d sg gd0 i j * rsum d (fun c => gd1 @2 i c * gd1 @2 j c).

Lemma omat_form N d sg gd0 gd1 f g :
  rsum d (fun a => bil N (kmat d sg gd0) (fun i => f i * gd1 @2 i a) (fun i => g i * gd1 @2 i a)) =
  bil N (omat d sg gd0 gd1) f g.
Proof.
  unfold bil. rewrite (rsum_swap d N). apply rsum_ext. intros i Hi. rewrite (rsum_swap d N). apply rsum_ext. intros j Hj.
  unfold omat. rewrite <- !rsum_scal. apply rsum_ext. intros; ring.
Qed.

Lemma omat_sym N d sg gd0 gd1 : symmetric N (omat d sg gd0 gd1).
Proof.
  intros i j Hi Hj. unfold omat. rewrite (kmat_sym N d sg gd0 i j) by assumption. f_equal. apply rsum_ext. intros; ring.
Qed.

Lemma omat_psd N d sg gd0 gd1 : sg <> 0 -> shape gd0 = [N; d] -> psd N (omat d sg gd0 gd1).
Proof.
  intros Hs Sg f. rewrite quad_bil, <- omat_form. apply rsum_nonneg. intros a Ha.
  apply (kmat_psd N d sg gd0 Hs Sg).
Qed.

Lemma leaf_oriented sv b0 d sg co tr dim nb gd0 gd1 c0 c1 h : exact_solver sv ->
  wf_mod d (MOriented sg co tr dim nb gd0 gd1 c0 c1 h) ->
  leaf sv b0 d (MOriented sg co tr dim nb gd0 gd1 c0 c1 h) (Qc (fun f g => co * bil nb (omat d sg gd0 gd1) f g)).
Proof.
  intros HS (-> & Hs & Hco & Sg0 & Sg1 & Sc0 & Sc1).
  assert (HG : forall v x, shape v = [nb; d] -> oriented_geodesic sv sg co gd0 gd1 v = Ok x ->
     nonsingular nb (omat d sg gd0 gd1) /\ shape x = [nb] /\
     solves nb (omat d sg gd0 gd1) (fun k => co * x @1 k) (fun k => rsum d (fun c => v @2 k c * gd1 @2 k c))).
  { intros v x Sv E. unfold oriented_geodesic in E. bok E y Ey. injection E as <-.
    set (rhs := einsum "ni, ni->n"%string [v; gd1]) in *.
    assert (Sr : shape rhs = [nb]) by (unfold rhs; cbn; rewrite Sv; reflexivity).
    assert (Gr : forall k, rhs @1 k = rsum d (fun c => v @2 k c * gd1 @2 k c)).
    { intros k. unfold rhs. destruct v as [sv0 v]; cbn [shape] in Sv; subst sv0. unfold einsum; cbn -[rsum].
      apply rsum_ext. intros; ring. }
    destruct (fun SA SB => solver_mat sv nb 1 _ _ y (omat d sg gd0 gd1) HS SA SB Ey) as (NS & Sy & Hy).
    - cbn. unfold nrows. rewrite Sg0. reflexivity.
    - cbn [reshape shape]. rewrite Sr. reflexivity.
    - intros i j Hi Hj. unfold entries, tmul, tmap2. cbn [get]. rewrite (K_xx_kmat gd0 nb d) by assumption.
      unfold omat. f_equal. cbn. rewrite Sg1. reflexivity.
    - assert (Sf : prod (shape y) = nb) by (rewrite Sy; cbn; lia).
      split; [assumption|]. split; [cbn; rewrite Sf; reflexivity|].
      apply (solves_ext nb _ _ (fun k => y @2 k 0%nat) _ (fun k => (reshape [tnth (shape rhs) 0; 1%nat] rhs) @2 k 0%nat) _ (fun i j _ _ => eq_refl)).
      + intros k Hk. unfold tmap. cbn [get]. fold (fvec y k). replace k with (k * 1 + 0)%nat at 2 by lia.
        rewrite (fvec_2 y nb 1) by (assumption || lia). field. lra.
      + intros k Hk. rewrite <- Gr. rewrite Sr. cbn [tnth nth]. apply get_reshape; rewrite Sr; cbn; lia.
      + apply Hy. lia. }
  assert (CF : forall t, shape t = [nb] ->
     oriented_cost sg co d gd0 gd1 t = 1 / 2 * (co * bil nb (omat d sg gd0 gd1) (fvec t) (fvec t))).
  { intros t Hc. unfold oriented_cost. rewrite Rmult_assoc. f_equal. f_equal.
    assert (Sm : shape (oriented_moments d gd1 t) = [nb; d]) by (cbn; unfold nrows; rewrite Sg1; reflexivity).
    rewrite (mm_form (K_xx gd0 sg) _ _ nb d (kmat d sg gd0)) by
      (assumption || (apply (K_xx_sh gd0 nb d); assumption) || (intros; apply (K_xx_kmat gd0 nb d); assumption)).
    cbn [oriented_moments mk2 get]. rewrite omat_form.
    apply bil_ext; [reflexivity| |]; intros i Hi; symmetry; apply (fvec_1 t nb); assumption. }
  split.
  - apply (leaf_pack sv d _ nb).
    + apply vb_mul; [lra|]. apply vb_bil; [apply omat_sym|apply omat_psd; assumption].
    + intros [t|l] Hc; [|destruct Hc]. exists t. split; [reflexivity|]. cbn in Hc. rewrite Hc. cbn. lia.
    + intros t t' E Hc. cbn in *. congruence.
    + intros t Hc. cbn in Hc. do 2 eexists. split; [reflexivity|]. split; [|split; [reflexivity|]].
      * cbn [cost]. f_equal. apply CF; assumption.
      * apply (good_SF0 d Torch gd0 _ sg nb); [assumption|assumption|]. cbn. unfold nrows. rewrite Sg1. reflexivity.
  - intros man m' W NE E c m1 f Hc F FG. cbn [compute_geodesic_control] in E. bok E vs Evs. bok E v Ev. bok E x Ex.
    injection E as <-.
    destruct (cot_to_vs_represents d man sg Torch b0 vs W NE Hs Evs) as (Wvs & Zvs & _ & RP).
    destruct (feval_vs d vs gd0 nb v Wvs Zvs Sg0 Ev) as (Sv & Gv).
    destruct (HG v x Sv Ex) as (_ & Sx & Hx).
    destruct c as [t|l]; [|destruct Hc]. cbn in Hc, F. injection F as <-. cbn in FG. injection FG as <-.
    cbn [controls Qc].
    rewrite (pair_SF0 d man sg vs Torch gd0 _ nb Sg0 RP).
    rewrite <- bil_scal_r.
    rewrite (bil_ext nb _ (omat d sg gd0 gd1) _ (fun i => t @1 i) _ (fun i => co * x @1 i)).
    2: reflexivity. 2:{ intros i Hi. apply (fvec_1 t nb); assumption. }
    2:{ intros i Hi. rewrite (fvec_1 x nb) by assumption. reflexivity. }
    rewrite (bil_solves _ _ _ _ _ Hx). apply rsum_ext. intros j Hj. rewrite <- rsum_scal. apply rsum_ext. intros a Ha.
    rewrite Gv by assumption. cbn [oriented_moments mk2 get]. ring.
  - intros man m' W NE E. cbn [compute_geodesic_control] in E. bok E vs Evs. bok E v Ev. bok E x Ex.
    injection E as <-.
    destruct (cot_to_vs_represents d man sg Torch b0 vs W NE Hs Evs) as (Wvs & Zvs & _ & RP).
    destruct (feval_vs d vs gd0 nb v Wvs Zvs Sg0 Ev) as (Sv & Gv).
    destruct (HG v x Sv Ex) as (_ & Sx & Hx).
    split; [exact Sx|reflexivity].
Qed.

(** ** Scalar controls *)
Lemma vb_scalar n c : (0 < n)%nat -> 0 <= c -> vb n (fun f g => c * (f 0%nat * g 0%nat)).
Proof.
  intros Hn Hc. split; intros.
  - rewrite (H 0%nat), (H0 0%nat) by assumption. reflexivity.
  - ring.
  - ring.
  - apply Rmult_le_pos; [assumption|nra].
Qed.

Lemma local_norm_nonneg d sg s v M : sg <> 0 -> shape s = [M; d] -> shape v = [M; d] -> 0 <= local_norm sg s v.
Proof.
  intros Hs Ss Sv. unfold local_norm.
  rewrite (mm_form (K_xx s sg) v v M d (kmat d sg s)) by
      (assumption || (apply (K_xx_sh s M d); assumption) || (intros; apply (K_xx_kmat s M d); assumption)).
  apply rsum_nonneg. intros a Ha. apply (kmat_psd M d sg s Hs Ss).
Qed.

Lemma leaf_local sv b0 d sg co fs fv dim nb gd ct h : wf_mod d (MLocal sg co fs fv dim nb gd ct h) ->
  exists Q, vb 1 Q /\ leaf sv b0 d (MLocal sg co fs fv dim nb gd ct h) (Qc Q).
Proof.
  intros (-> & Hs & Hco & Sg & Sc & M & s & v & Es & Ev & Ss & Sv).
  pose proof (local_norm_nonneg d sg s v M Hs Ss Sv) as Hq. set (q := local_norm sg s v) in *.
  assert (V : vb 1 (fun f g => (co * q) * (f 0%nat * g 0%nat))) by (apply vb_scalar; [lia|]; apply Rmult_le_pos; [lra|assumption]).
  exists (fun f g => (co * q) * (f 0%nat * g 0%nat)). split; [exact V|]. split.
  - apply (leaf_pack sv d _ 1).
    + exact V.
    + intros [t|l] Hc; [|destruct Hc]. exists t. split; [reflexivity|]. destruct Hc as [Hc|Hc]; rewrite Hc; reflexivity.
    + intros t t' E Hc. cbn in *. rewrite E. assumption.
    + intros t Hc. cbn in Hc. exists (MLocal sg co fs fv d nb gd ct t), (SF_0 Torch s (tscal (item t) v) sg).
      split; [reflexivity|]. split; [|split].
      * cbn [cost]. rewrite Es, Ev. cbn [bind]. fold q. f_equal. rewrite fvec_item by assumption. ring.
      * cbn [field_generator]. rewrite Es, Ev. reflexivity.
      * apply (good_SF0 d Torch s _ sg M); assumption.
  - intros man m' W NE E c m1 f Hc F FG. cbn [compute_geodesic_control] in E. rewrite Es, Ev in E. cbn [bind] in E.
    bok E x Ex. bok E y Ey. injection E as <-.
    destruct c as [t|l]; [|destruct Hc]. cbn in Hc, F. injection F as <-. cbn in FG. rewrite Es, Ev in FG. cbn in FG. injection FG as <-.
    cbn [controls Qc]. rewrite fvec_item by assumption.
    replace (fvec (mk0 y) 0) with y by reflexivity.
    fold q in Ey. unfold tdiv in Ey. destruct (Req_EM_T (co * q) 0) as [Z|Z]; [discriminate|]. injection Ey as <-.
    destruct (good_SF0 d Torch s v sg M Hs Ss Sv) as (G1 & G2 & G3 & _).
    rewrite (inner_pairing_field d) in Ex by auto. injection Ex as <-.
    rewrite (pairing_ext d man _ (fun p a => item t * fval d (SF_0 Torch s v sg) p a) _
                                 (fun p a l => item t * fjac d (SF_0 Torch s v sg) p a l)).
    + rewrite pairing_scal. set (P := pairing _ _ _ _). field. split; [intros Hz; apply Z; rewrite Hz; ring|lra].
    + intros p a Ha. cbn [fval]. rewrite <- rsum_scal. apply rsum_ext. intros. cbn. ring.
    + intros p a l Ha Hl. cbn [fjac]. rewrite <- rsum_scal. apply rsum_ext. intros. cbn. ring.
  - intros man m' W NE E. cbn [compute_geodesic_control] in E. rewrite Es, Ev in E. cbn [bind] in E.
    bok E x Ex. bok E y Ey. injection E as <-. split; [left; reflexivity|reflexivity].
Qed.

Lemma leaf_linear sv b0 d A co gd ct h : wf_mod d (MLinear A co gd ct h) ->
  leaf sv b0 d (MLinear A co gd ct h) (Qc (fun f g => co * (f 0%nat * g 0%nat))).
Proof.
  intros (SA & Hco & Sg & Sc & Sh).
  assert (Sp : prod (shape gd) = d) by (rewrite Sg; cbn; lia).
  assert (GD : forall A', shape A' = [d; d] -> good d (SF_affine A' (tflatten gd) (tzeros [prod (shape gd)]))).
  { intros A' SA'. rewrite Sp. split; [|split; [exact I|split; [exact I|]]].
    - split; [assumption|]. split; [cbn; rewrite Sp; reflexivity|reflexivity].
    - cbn. unfold nrows. rewrite SA'. reflexivity. }
  split.
  - apply (leaf_pack sv d _ 1).
    + apply vb_scalar; [lia|lra].
    + intros [t|l] Hc; [|destruct Hc]. exists t. split; [reflexivity|]. cbn in Hc; rewrite Hc; reflexivity.
    + intros t t' E Hc. cbn in *. congruence.
    + intros t Hc. cbn in Hc. do 2 eexists. cbn [fill_controls]. rewrite Hc. split; [reflexivity|]. split; [|split; [reflexivity|]].
      * cbn [cost]. f_equal. rewrite fvec_item by auto. ring.
      * apply GD. assumption.
  - intros man m' W NE E c m1 f Hc F FG. cbn [compute_geodesic_control] in E.
    bok E x Ex. injection E as <-.
    destruct c as [t|l]; [|destruct Hc]. cbn in Hc. cbn [fill_controls] in F. rewrite Hc in F. injection F as <-. cbn in FG. injection FG as <-.
    cbn [controls Qc]. rewrite fvec_item by auto.
    replace (fvec (mk0 (x / co)) 0) with (x / co) by reflexivity.
    destruct (GD A SA) as (G1 & G2 & G3 & _).
    rewrite (inner_pairing_field d) in Ex by auto. injection Ex as <-.
    set (f0 := SF_affine A (tflatten gd) (tzeros [prod (shape gd)])) in *.
    rewrite (pairing_ext d man _ (fun p a => item t * fval d f0 p a) _ (fun p a l => item t * fjac d f0 p a l)).
    + rewrite pairing_scal. set (P := pairing _ _ _ _). field. lra.
    + intros p a Ha. unfold f0. cbn [fval]. rewrite Rmult_plus_distr_l, <- rsum_scal. f_equal; [|cbn; ring].
      apply rsum_ext. intros. cbn. ring.
    + intros p a l Ha Hl. reflexivity.
  - intros man m' W NE E. cbn [compute_geodesic_control] in E. bok E x Ex. injection E as <-.
    split; [reflexivity|reflexivity].
Qed.

(** ** SilentLandmark *)
Lemma gdim_wf d man : wf_gman d man -> no_empty_comp man -> gdim man = d.
Proof.
  induction man as [dim nb gd ct|tr dim nb gd0 gd1 c0 c1|dim nb gd0 gd1 c0 c1|dim n0 n1 gd0 gd1 c0 c1 i0 i1|dim|ms IH]
    using gman_ind'; cbn [wf_gman no_empty_comp gdim]; intros W NE; try tauto.
  destruct NE as (NE & NE'). destruct ms as [|m ms]; [congruence|]. cbn [gdim].
  inversion IH; subst. apply H1; [apply W|apply NE'].
Qed.

Lemma leaf_silent sv b0 d man0 : wf_mod d (MSilent man0) -> leaf sv b0 d (MSilent man0) (Qc (fun _ _ => 0)).
Proof.
  intros (W0 & NE0). split.
  - apply (leaf_pack sv d _ 0).
    + apply vb_zero.
    + intros [t|l] Hc; [|destruct Hc]. exists t. split; [reflexivity|]. cbn in Hc; rewrite Hc; reflexivity.
    + intros t t' E Hc. cbn in *. congruence.
    + intros t Hc. do 2 eexists. split; [reflexivity|]. split; [|split; [reflexivity|]].
      * cbn. f_equal. ring.
      * pose proof (gdim_wf d man0 W0 NE0) as GD. split; [exact GD|]. split; [exact I|]. split; [exact I|exact GD].
  - intros man m' W NE E c m1 f Hc F FG. injection E as <-. cbn in F.
    destruct c as [t|l]; [|destruct Hc]. injection F as <-. injection FG as <-. cbn [controls Qc].
    apply pairing_zero; reflexivity.
  - intros man m' W NE E. injection E as <-. split; reflexivity.
Qed.
