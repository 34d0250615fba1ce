(** Regular modules: the linear systems are solvable and the cost is definite. *)
From Coq Require Import Reals String List Arith Lia Lra.
From Verif Require Import Py RSum Tensor TensorFacts KernelModel FieldModel GeometryModel ModuleModel
  SpecLinAlg SpecKernel SpecField SpecGeometry SpecSKS SpecModule LinAlg KernelFacts FieldFacts GeometryFacts SKSFacts
  GaussPSD ModuleDual ModuleAlg ModuleLeaves ModuleImplicit ModuleMain.
Import ListNotations.
Open Scope R_scope.

Lemma rsum_pos1 n f i : (i < n)%nat -> (forall k, (k < n)%nat -> 0 <= f k) -> 0 < f i -> 0 < rsum n f.
Proof.
  intros Hi H Hp. destruct (rsum_nonneg n f H) as [P|Z]; [assumption|].
  pose proof (rsum_nonneg_zero n f H (eq_sym Z) i Hi). lra.
Qed.

Lemma pd_principal n N M : (N <= n)%nat -> pd n M -> pd N M.
Proof.
  intros Hle H f (i & Hi & Hf).
  assert (E : quad n M (fun k => if Nat.ltb k N then f k else 0) = quad N M f).
  { unfold quad. replace n with (N + (n - N))%nat by lia. rewrite rsum_split.
    rewrite (rsum_zero (n - N)).
    - rewrite Rplus_0_r. apply rsum_ext. intros a Ha. rewrite rsum_split, (rsum_zero (n - N)).
      + rewrite Rplus_0_r. apply rsum_ext. intros b Hb. destruct (Nat.ltb_spec a N); [|lia]. destruct (Nat.ltb_spec b N); [|lia]. reflexivity.
      + intros b Hb. destruct (Nat.ltb_spec (N + b) N); [lia|]. ring.
    - intros a Ha. apply rsum_zero. intros b Hb. destruct (Nat.ltb_spec (N + a) N); [lia|]. ring. }
  rewrite <- E. apply H. exists i. split; [lia|]. destruct (Nat.ltb_spec i N); [assumption|lia].
Qed.

Lemma eta_free d e l : eta d = Ok e ->
  (forall c r, (c < d)%nat -> (r < d)%nat -> from_coords (sym_dim d) e l c r = 0) -> forall t, (t < sym_dim d)%nat -> l t = 0.
Proof.
  intros He H t Ht. destruct (eta_basis d e He) as (Se & HE & HO & _).
  rewrite <- (proj2 (proj1 (eta_round_trips d e He) l) t Ht).
  unfold coords, frob. apply rsum_zero. intros i Hi. apply rsum_zero. intros j Hj. rewrite H by assumption. ring.
Qed.

Lemma div_free d l : (0 < d)%nat ->
  (forall c r, (c < d)%nat -> (r < d)%nat -> from_coords 1 (e_div d) l c r = 0) -> forall t, (t < 1)%nat -> l t = 0.
Proof.
  intros Hd H t Ht. specialize (H 0%nat 0%nat Hd Hd). unfold from_coords, e_div, mk3 in H. cbn [get] in H.
  rewrite rsum_S, rsum_0, delta_same in H. assert (t = 0%nat) by lia. subst t. lra.
Qed.

Lemma omat_pd N d sg gd0 gd1 : sg <> 0 -> shape gd0 = [N; d] -> distinct d N (vrow gd0) ->
  (forall i, (i < N)%nat -> exists a, (a < d)%nat /\ gd1 @2 i a <> 0) -> pd N (omat d sg gd0 gd1).
Proof.
  intros Hs Sg HD HN f (i & Hi & Hf). rewrite quad_bil, <- omat_form. destruct (HN i Hi) as (a & Ha & Hne).
  apply (rsum_pos1 d _ a Ha).
  - intros b Hb. apply (kmat_psd N d sg gd0 Hs Sg).
  - rewrite <- quad_bil. apply (kmat_pd N d sg gd0 Hs Sg HD). exists i. split; [assumption|]. apply Rmult_integral_contrapositive_currified; assumption.
Qed.

Lemma local_norm_pos d sg s v M i a : sg <> 0 -> shape s = [M; d] -> shape v = [M; d] -> distinct d M (vrow s) ->
  (i < M)%nat -> (a < d)%nat -> v @2 i a <> 0 -> 0 < local_norm sg s v.
Proof.
  intros Hs Ss Sv HD Hi Ha Hne. unfold local_norm.
  rewrite (mm_form (K_xx s sg) v v M d (kmat d sg s)) by
      (assumption || (apply (K_xx_sh s M d); assumption) || (intros; apply (K_xx_kmat s M d); assumption)).
  apply (rsum_pos1 d _ a Ha).
  - intros b Hb. apply (kmat_psd M d sg s Hs Ss).
  - rewrite <- quad_bil. apply (kmat_pd M d sg s Hs Ss HD). exists i. auto.
Qed.

Section Blocks.
  Variables (d : nat) (sg nu : R).
  Hypothesis Hs : sg <> 0.
  Hypothesis Hnu : 0 <= nu.

  Definition bM s n0 e ka gd q q' := bmatrix d s n0 e ka sg (vrow gd) q q' + nu * delta q q'.

  Lemma bM_pd s n0 n1 e ka gd :
    0 < nu \/ (ka <> 0 /\ distinct d (n0 + n1) (vrow gd) /\
      forall l, (forall c r, (c < d)%nat -> (r < d)%nat -> from_coords s e l c r = 0) -> forall t, (t < s)%nat -> l t = 0) ->
    pd (n0 * s + n1 * d) (bM s n0 e ka gd).
  Proof.
    intros [H|(Hk & HD & HE)].
    - apply pd_diag; [assumption|]. apply bm_psd. assumption.
    - intros f Hf. unfold bM. rewrite quad_diag.
      pose proof (bm_pd d s n0 n1 e ka sg (vrow gd) Hs Hk HD HE f Hf).
      assert (0 <= nu * rsum (n0 * s + n1 * d) (fun i => f i ^ 2)); [|lra].
      apply Rmult_le_pos; [assumption|]. apply rsum_nonneg. intros; apply pow2_ge_0.
  Qed.

  Lemma div_pd cd n0 n1 gd : 0 < nu \/ (cd <> 0 /\ (0 < d)%nat /\ distinct d (n0 + n1) (vrow gd)) ->
    pd (n0 * 1 + n1 * d) (bM 1 n0 (e_div d) cd gd).
  Proof.
    intros [H|(Hc & Hd & HD)]; apply bM_pd; [left; assumption|right]. split; [assumption|]. split; [assumption|].
    intros l. apply div_free. assumption.
  Qed.

  Lemma arap_pd e ca n0 n1 gd : eta d = Ok e -> 0 < nu \/ (ca <> 0 /\ distinct d (n0 + n1) (vrow gd)) ->
    pd (n0 * sym_dim d + n1 * d) (bM (sym_dim d) n0 e ca gd).
  Proof.
    intros He [H|(Hc & HD)]; apply bM_pd; [left; assumption|right]. split; [assumption|]. split; [assumption|].
    intros l. apply eta_free. assumption.
  Qed.

  Lemma imp1_pd e nb gd : eta d = Ok e -> 0 < nu \/ distinct d nb (vrow gd) ->
    pd (nb * sym_dim d) (bM (sym_dim d) nb e 1 gd).
  Proof.
    intros He H. pose proof (arap_pd e 1 nb 0 gd He) as P. rewrite !Nat.add_0_r in P.
    apply P. destruct H as [H|H]; [left; assumption|right]. split; [lra|assumption].
  Qed.
End Blocks.

(** The matrices of the linear systems solved by fill_controls are definite. *)
Fixpoint solvable (d : nat) (m : dmod) : Prop :=
  match m with
  | MImp1 _ sg nu _ _ _ nb gd0 _ _ _ _ _ => forall e, eta d = Ok e -> pd (nb * sym_dim d) (bM d sg nu (sym_dim d) nb e 1 gd0)
  | MDivFree sg cd nu _ _ n0 n1 gd _ _ _ => pd (n0 * 1 + n1 * d) (bM d sg nu 1 n0 (e_div d) cd gd)
  | MArap sg ca nu _ _ n0 n1 gd _ _ _ => forall e, eta d = Ok e -> pd (n0 * sym_dim d + n1 * d) (bM d sg nu (sym_dim d) n0 e ca gd)
  | MComp ms => fold_right (fun m acc => solvable d m /\ acc) True ms
  | _ => True
  end.

(** So are those of compute_geodesic_control. *)
Fixpoint posed (d : nat) (m : dmod) : Prop :=
  match m with
  | MGlobal _ _ _ | MLinear _ _ _ _ _ | MSilent _ => True
  | MTrans _ sg _ nb gd _ _ => pd nb (kmat d sg gd)
  | MImp0 _ sg nu _ _ nb gd _ _ => pd nb (fun i j => kmat d sg gd i j + nu * delta i j)
  | MOriented sg _ _ _ nb gd0 gd1 _ _ _ => pd nb (omat d sg gd0 gd1)
  | MLocal sg _ fs fv _ _ gd _ _ => forall s v, fs gd = Ok s -> fv gd = Ok v -> 0 < local_norm sg s v
  | MImp1 _ _ _ _ C _ nb _ gd1 _ _ _ _ =>
      let r := tnth (shape C) 2 in
      solvable d m /\
      forall h, shape h = [r] ->
        (forall n a b, (n < nb)%nat -> (a < d)%nat -> (b < d)%nat -> growth d r C gd1 h n a b = 0) ->
        forall k, (k < r)%nat -> h @1 k = 0
  | MDivFree _ _ _ _ _ _ _ _ _ _ _ | MArap _ _ _ _ _ _ _ _ _ _ _ => solvable d m
  | MComp ms => fold_right (fun m acc => posed d m /\ acc) True ms
  end.

Lemma regular_posed d m : wf_mod d m -> regular d m -> posed d m.
Proof.
  induction m as [m NC|ms IH] using dmod_ind'; intros W G.
  - destruct m as [dim co h|b sg dim nb gd ct h|b sg nu co dim nb gd ct h|sg co tr dim nb gd0 gd1 c0 c1 h|
       sg co fs fv dim nb gd ct h|A co gd ct h|man0|b sg nu co C dim nb gd0 gd1 c0 c1 h ca|
       sg cd nu co dim n0 n1 gd ct h lm|sg ca nu co dim n0 n1 gd ct h lm|ms]; try exact I.
    + destruct W as (-> & Hs & Sg & Sc). apply kmat_pd; assumption.
    + destruct W as (-> & Hs & Hnu & Hco & Sg & Sc). cbn [posed].
      destruct G as [G|G]; [apply pd_diag; [assumption|apply kmat_psd; assumption]|].
      intros f Hf. rewrite quad_diag. pose proof (kmat_pd nb d sg gd Hs Sg G f Hf).
      assert (0 <= nu * rsum nb (fun i => f i ^ 2)); [|lra].
      apply Rmult_le_pos; [assumption|]. apply rsum_nonneg. intros; apply pow2_ge_0.
    + destruct W as (-> & Hs & Hco & Sg0 & Sg1 & _). destruct G as (G & GN). apply omat_pd; assumption.
    + destruct W as (-> & Hs & Hco & Sg & Sc & M & s' & v' & Es' & Ev' & Ss & Sv). intros s v Es Ev.
      rewrite Es in Es'. injection Es' as <-. rewrite Ev in Ev'. injection Ev' as <-.
      destruct (G s v Es Ev) as (HD & i & a & Hi & Ha & Hne). unfold nrows in HD, Hi. rewrite Ss in HD, Hi. cbn [tnth nth] in HD, Hi.
      exact (local_norm_pos d sg s v M i a Hs Ss Sv HD Hi Ha Hne).
    + destruct W as (-> & _ & Hs & Hnu & _). destruct G as (G & GI). split; [|exact GI]. intros e He. apply imp1_pd; assumption.
    + destruct W as (-> & Hs & Hnu & _). apply div_pd; assumption.
    + destruct W as (-> & _ & Hs & Hnu & _). intros e He. apply arap_pd; assumption.
    + elim (NC ms eq_refl).
  - destruct W as (_ & W). cbn [regular posed] in *. revert W G. induction IH as [|m ms Hm _ IHs]; intros W G; [exact I|].
    cbn [fold_right] in *. destruct W as (Wm & Ws). destruct G as (Gm & Gs). split; [apply Hm|apply IHs]; assumption.
Qed.

Lemma posed_solvable d m : posed d m -> solvable d m.
Proof.
  induction m as [m NC|ms IH] using dmod_ind'.
  - destruct m; cbn [solvable posed]; try (intros; exact I); try (intros H; exact H); [intros (H & _); exact H|elim (NC ms eq_refl)].
  - cbn [posed solvable]. induction IH as [|m ms Hm _ IHs]; [intros; exact I|]. cbn [fold_right]. intros (A & B). auto.
Qed.

Section Reg.
  Variables (sv : solver) (b0 : backend) (d : nat).
  Hypothesis HSV : exact_solver sv.

  (** ** fill_controls succeeds *)
  Lemma fill_posed m c : wf_mod d m -> solvable d m -> ctrl_ok d m c -> is_ok (fill_controls sv m c).
  Proof.
    revert c. induction m as [m NC|ms IH] using dmod_ind'; intros c W G Hc.
    - destruct c as [t|l]; [|destruct m; try destruct Hc; elim (NC ms eq_refl)].
      destruct m as [dim co h|b sg dim nb gd ct h|b sg nu co dim nb gd ct h|sg co tr dim nb gd0 gd1 c0 c1 h|
       sg co fs fv dim nb gd ct h|A co gd ct h|man0|b sg nu co C dim nb gd0 gd1 c0 c1 h ca|
       sg cd nu co dim n0 n1 gd ct h lm|sg ca nu co dim n0 n1 gd ct h lm|ms];
      try (eexists; reflexivity).
      + cbn [ctrl_ok] in Hc. cbn [fill_controls]. rewrite Hc. eexists. reflexivity.
      + destruct W as (-> & (e & He) & Hs & Hnu & Hco & (r & SC) & Sg0 & Sg1 & Sc0 & Sc1). 
        cbn [ctrl_ok] in Hc. rewrite SC in Hc. cbn [tnth nth] in Hc.
        pose proof (eta_basis d e He) as (Se & _).
        destruct (imp1_sks_ok b sg nu d e nb gd0 Hs He Sg0) as (S & ES & SS & GS).
        pose proof (pd_nonsingular _ _ (G e He)) as HN.
        destruct (aqh_get d nb r (sym_dim d) e C gd1 t 0 0 Sg1 SC Hc Se) as (SA & _).
        cbn [fill_controls]. unfold imp1_moments. rewrite He. cbn [bind]. rewrite ES. cbn [bind].
        destruct b.
        * destruct (fun SB => solver_total sv _ S (tflatten (imp1_aqh d nb e C gd1 t)) _ HSV SS SB GS HN) as (l & El).
          { left. cbn [tflatten reshape shape]. rewrite SA. cbn [prod fold_right]. f_equal. lia. }
          rewrite El. eexists. reflexivity.
        * destruct (fun SB => solver_total sv _ S (reshape [(nb * sym_dim d)%nat; 1%nat] (imp1_aqh d nb e C gd1 t)) _ HSV SS SB GS HN) as (l & El).
          { right. exists 1%nat. reflexivity. }
          rewrite El. eexists. reflexivity.
      + destruct W as (-> & Hs & Hnu & Hco & Sgd & Sct). cbn [ctrl_ok] in Hc.
        destruct (div_sks_ok sg cd nu d n0 n1 gd Hs Sgd) as (S & ES & SS & GS).
        pose proof (pd_nonsingular _ _ G) as HN.
        cbn [fill_controls]. unfold div_moments. rewrite ES. cbn [bind].
        destruct (fun SB => solver_total sv _ S (pad_controls n0 t) _ HSV SS SB GS HN) as (l & El).
        { left. rewrite pad_controls_shape. f_equal. destruct Hc as [E|E]; rewrite E; cbn [prod fold_right]; lia. }
        rewrite El. eexists. reflexivity.
      + destruct W as (-> & (e & He) & Hs & Hnu & Hco & Sgd & Sct). cbn [ctrl_ok] in Hc.
        destruct (arap_sks_ok sg ca nu d e n0 n1 gd Hs He Sgd) as (S & ES & SS & GS).
        pose proof (pd_nonsingular _ _ (G e He)) as HN.
        cbn [fill_controls]. unfold arap_moments. rewrite ES. cbn [bind].
        destruct (fun SB => solver_total sv _ S (pad_controls (n0 * sym_dim d) t) _ HSV SS SB GS HN) as (l & El).
        { left. rewrite pad_controls_shape. f_equal. destruct Hc as [E|E]; rewrite E; cbn [prod fold_right]; lia. }
        rewrite El. eexists. reflexivity.
      + elim (NC ms eq_refl).
    - destruct c as [t|cs]; [destruct Hc|]. change (ctrls_ok d ms cs) in Hc. destruct W as (_ & W).
      rewrite fill_comp, (ctrls_ok_length d ms cs Hc), Nat.eqb_refl.
      assert (H : is_ok (fills sv ms cs)).
      { revert cs Hc W G. induction IH as [|m ms Hm _ IHs]; intros cs Hc W G; [eexists; reflexivity|].
        destruct cs as [|c cs]; [destruct Hc|]. destruct Hc as (Hc & Hcs). destruct W as (Wm & Wms). destruct G as (Gm & Gms).
        destruct (Hm c Wm Gm Hc) as (m1 & F). destruct (IHs cs Hcs Wms Gms) as (r & Fr).
        cbn [fills]. fold (fills sv). rewrite F. cbn [bind]. rewrite Fr. eexists. reflexivity. }
      destruct H as (r & Fr). rewrite Fr. eexists. reflexivity.
  Qed.

  (** ** The cost is definite *)
  Lemma cols_definite N e M (t : tensor) : pd N M -> shape t = [N; e] ->
    rsum e (fun a => bil N M (fun i => t @2 i a) (fun i => t @2 i a)) = 0 ->
    forall idx, valid (shape t) idx -> get t idx = 0.
  Proof.
    intros P St Z. rewrite St. intros idx Hv. destruct idx as [|i [|a [|? ?]]]; try (cbn in Hv; tauto).
    destruct Hv as (Hi & Ha & _).
    assert (Za : bil N M (fun i => t @2 i a) (fun i => t @2 i a) = 0).
    { apply (rsum_nonneg_zero e (fun a => bil N M (fun i => t @2 i a) (fun i => t @2 i a))); auto.
      intros k _. rewrite <- quad_bil. apply (pd_psd N M P). }
    destruct (Req_dec (t @2 i a) 0) as [E|NE]; [exact E|]. rewrite <- quad_bil in Za.
    assert (0 < quad N M (fun i => t @2 i a)) by (apply P; exists i; auto). lra.
  Qed.

  Lemma form_definite n co M (a lam : nat -> R) : 0 < co -> pd n M -> solves n M lam a ->
    1 / 2 * co * rsum n (fun k => a k * lam k) = 0 -> forall k, (k < n)%nat -> a k = 0.
  Proof.
    intros Hco P HS Z k Hk.
    assert (Z' : bil n M lam lam = 0).
    { rewrite (bil_solves n M lam a lam HS). rewrite (rsum_ext n _ (fun k => a k * lam k)) by (intros; ring).
      assert (1 / 2 * co <> 0) by lra. apply Rmult_integral in Z. tauto. }
    assert (HL : forall i, (i < n)%nat -> lam i = 0).
    { intros i Hi. destruct (Req_dec (lam i) 0) as [E|NE]; [exact E|]. rewrite <- quad_bil in Z'.
      assert (0 < quad n M lam) by (apply P; exists i; auto). lra. }
    rewrite <- (HS k Hk). apply rsum_zero. intros j Hj. rewrite HL by assumption. ring.
  Qed.

  Lemma coords_zero e A : eta d = Ok e -> sym_mat d A -> (forall t, (t < sym_dim d)%nat -> coords d e A t = 0) ->
    forall i j, (i < d)%nat -> (j < d)%nat -> A i j = 0.
  Proof.
    intros He HA H i j Hi Hj. rewrite <- (proj2 (proj2 (eta_round_trips d e He)) A HA i j Hi Hj).
    unfold from_coords. apply rsum_zero. intros t Ht. fold (sym_dim d) in Ht. rewrite H by assumption. ring.
  Qed.

  Lemma growth_sym r C gd1 h n : sym_mat d (growth d r C gd1 h n).
  Proof. intros a b _ _. apply rsum_ext. intros; ring. Qed.

  Lemma cost_nonneg m c m1 : wf_mod d m -> ctrl_ok d m c -> fill_controls sv m c = Ok m1 -> exists x, cost m1 = Ok x /\ 0 <= x.
  Proof. intros W Hc F. destruct (cost_form sv b0 d HSV m c m1 W Hc F) as (x & C & P & _). eauto. Qed.

  Lemma pad_null n1 t N (H : shape t = [n1; d] \/ shape t = [(n1 * d)%nat]) :
    (forall k, (k < N + n1 * d)%nat -> (pad_controls N t) @1 k = 0) -> forall idx, valid (shape t) idx -> get t idx = 0.
  Proof.
    intros Z. apply fvec_null_inv. intros k Hk.
    assert (HP : prod (shape t) = (n1 * d)%nat) by (destruct H as [E|E]; rewrite E; cbn [prod fold_right]; lia).
    specialize (Z (N + k)%nat ltac:(lia)). rewrite pad_controls_get in Z. unfold pad in Z.
    destruct (Nat.ltb_spec (N + k) N); [lia|]. replace (N + k - N)%nat with k in Z by lia. exact Z.
  Qed.

  Lemma definite_posed m c m1 : wf_mod d m -> posed d m -> ctrl_ok d m c -> fill_controls sv m c = Ok m1 ->
    cost m1 = Ok 0 -> cnull c.
  Proof.
    revert c m1. induction m as [m NC|ms IH] using dmod_ind'; intros c m1 W G Hc F C.
    - destruct c as [t|l]; [|destruct m; try destruct Hc; elim (NC ms eq_refl)]. cbn [cnull].
      destruct m as [dim co h|b sg dim nb gd ct h|b sg nu co dim nb gd ct h|sg co tr dim nb gd0 gd1 c0 c1 h|
       sg co fs fv dim nb gd ct h|A co gd ct h|man0|b sg nu co K dim nb gd0 gd1 c0 c1 h ca|
       sg cd nu co dim n0 n1 gd ct h lm|sg ca nu co dim n0 n1 gd ct h lm|ms]; cbn [ctrl_ok] in Hc.
      + injection F as <-. cbn [cost] in C. injection C as C. destruct W as (-> & Hco & Sh).
        unfold tdot in C. rewrite Hc in C. cbn [prod fold_right] in C. rewrite Nat.mul_1_r in C.
        assert (Z : rsum d (fun k => fvec t k * fvec t k) = 0).
        { apply Rmult_integral in C. destruct C as [C|C]; [lra|exact C]. }
        apply fvec_null_inv. intros k Hk. rewrite Hc in Hk. cbn [prod fold_right] in Hk. rewrite Nat.mul_1_r in Hk.
        pose proof (rsum_nonneg_zero d _ (fun k _ => Rle_0_sqr (fvec t k)) Z k Hk) as E. unfold Rsqr in E.
        apply Rmult_integral in E. tauto.
      + injection F as <-. cbn [cost] in C. injection C as C. destruct W as (-> & Hs & Sg & Sc).
        rewrite (trans_cost_form b sg gd t nb d) in C by assumption.
        apply (cols_definite nb d (kmat d sg gd)); [exact G|assumption|lra].
      + injection F as <-. cbn [cost] in C. injection C as C. destruct W as (-> & Hs & Hnu & Hco & Sg & Sc).
        rewrite (imp0_cost_form b sg nu co gd t nb d) in C by assumption.
        apply (cols_definite nb d (fun i j => kmat d sg gd i j + nu * delta i j)); [|assumption|].
        * exact G.
        * apply Rmult_integral in C. destruct C as [C|C]; [lra|]. apply Rmult_integral in C. destruct C as [C|C]; [lra|exact C].
      + injection F as <-. cbn [cost] in C. injection C as C. destruct W as (-> & Hs & Hco & Sg0 & Sg1 & _).
        pose proof G as P. cbn [posed] in P.
        unfold oriented_cost in C.
        assert (Sm : shape (oriented_moments d gd1 t) = [nb; d]) by (cbn; unfold nrows; rewrite Sg1; reflexivity).
        rewrite (mm_form (K_xx gd0 sg) _ _ nb d (kmat d sg gd0)) in C by
          (assumption || (apply (K_xx_sh gd0 nb d); assumption) || (intros; apply (K_xx_kmat gd0 nb d); assumption)).
        cbn [oriented_moments mk2 get] in C. rewrite omat_form in C.
        assert (Z : quad nb (omat d sg gd0 gd1) (fun i => t @1 i) = 0).
        { rewrite quad_bil. apply Rmult_integral in C. destruct C as [C|C]; [lra|exact C]. }
        intros idx Hv. rewrite Hc in Hv. destruct idx as [|i [|? ?]]; cbn in Hv; try tauto. destruct Hv as (Hi & _).
        destruct (Req_dec (t @1 i) 0) as [E|NE]; [exact E|].
        assert (0 < quad nb (omat d sg gd0 gd1) (fun i => t @1 i)) by (apply P; exists i; auto). lra.
      + injection F as <-. cbn [cost] in C. destruct W as (-> & Hs & Hco & Sg & Sc & M & s & v & Es & Ev & Ss & Sv).
        rewrite Es in C. cbn [bind] in C. rewrite Ev in C. cbn [bind] in C. injection C as C.
        pose proof (G s v Es Ev) as HP.
        assert (Z : item t = 0).
        { apply Rmult_integral in C. destruct C as [C|C]; [|exact C]. apply Rmult_integral in C. destruct C as [C|C]; [|exact C].
          exfalso. assert (0 < 1 / 2 * co * local_norm sg s v) by (apply Rmult_lt_0_compat; lra). lra. }
        apply fvec_null_inv. intros k Hk. assert (k = 0%nat) by (destruct Hc as [E|E]; rewrite E in Hk; cbn in Hk; lia). subst k.
        rewrite fvec_item by assumption. assumption.
      + cbn [fill_controls] in F. rewrite Hc in F. injection F as <-. cbn [cost] in C. injection C as C. destruct W as (SA & Hco & _).
        assert (Z : item t = 0) by (apply Rmult_integral in C; destruct C as [C|C]; [lra|nra]).
        apply fvec_null_inv. intros k Hk. rewrite Hc in Hk. cbn in Hk. assert (k = 0%nat) by lia. subst k.
        rewrite fvec_item by (left; assumption). assumption.
      + intros idx Hv. rewrite Hc in Hv. destruct idx as [|i [|? ?]]; cbn in Hv; try tauto. lia.
      + destruct W as (-> & (e & He) & Hs & Hnu & Hco & (r & SC) & Sg0 & Sg1 & Sc0 & Sc1). destruct G as (G & GI).
        rewrite SC in Hc, GI. cbn [tnth nth] in Hc, GI. pose proof (eta_basis d e He) as (Se & _).
        destruct (imp1_sks_ok b sg nu d e nb gd0 Hs He Sg0) as (S & ES & SS & GS).
        pose proof (G e He) as P. cbn [posed solvable] in P; unfold bM in P.
        destruct (aqh_get d nb r (sym_dim d) e K gd1 t 0 0 Sg1 SC Hc Se) as (SA & _).
        cbn [fill_controls] in F. unfold imp1_moments in F. rewrite He in F. cbn [bind] in F. rewrite ES in F. cbn [bind] in F.
        bok F x Ex. bok Ex l El. injection Ex as <-. injection F as <-. cbn [cost c_aqh c_lam] in C. injection C as C.
        assert (HL : solves (nb * sym_dim d) (fun q q' => bmatrix d (sym_dim d) nb e 1 sg (vrow gd0) q q' + nu * delta q q') (fvec l) (fvec (imp1_aqh d nb e K gd1 t))).
        { destruct b.
          - destruct (fun SB => solver_any sv _ S _ l _ HSV SS SB El GS) as (_ & _ & H).
            + left. cbn [tflatten reshape shape]. rewrite SA. cbn [prod fold_right]. f_equal. lia.
            + revert H. apply solves_ext; auto. intros q Hq. unfold tflatten. apply fvec_reshape_lt. rewrite SA. cbn [prod fold_right]. lia.
          - destruct (fun SB => solver_any sv _ S _ l _ HSV SS SB El GS) as (_ & _ & H); [right; reflexivity|].
            revert H. apply solves_ext; auto. intros q Hq. apply fvec_reshape_lt. cbn [prod fold_right]. lia. }
        unfold tdot in C. rewrite SA in C. replace (prod [nb; sym_dim d]) with (nb * sym_dim d)%nat in C by (cbn [prod fold_right]; lia).
        pose proof (form_definite _ co _ _ _ Hco P HL C) as Z.
        assert (ZH : forall k, (k < r)%nat -> t @1 k = 0).
        { apply (GI t Hc). intros n a b' Hn Ha Hb. apply (coords_zero e _ He (growth_sym r K gd1 t n)); [|assumption|assumption].
          intros u Hu. rewrite <- (aqh_growth d nb r (sym_dim d)) by assumption.
          rewrite <- (fvec_2 _ nb (sym_dim d)) by assumption. apply Z. apply pair_lt; assumption. }
        intros idx Hv. rewrite Hc in Hv. destruct idx as [|i [|? ?]]; cbn in Hv; try tauto. apply ZH. tauto.
      + destruct W as (-> & Hs & Hnu & Hco & Sgd & Sct).
        destruct (div_sks_ok sg cd nu d n0 n1 gd Hs Sgd) as (S & ES & SS & GS).
        pose proof G as P. cbn [posed solvable] in P; unfold bM in P.
        cbn [fill_controls] in F. unfold div_moments in F. rewrite ES in F. cbn [bind] in F. bok F l El. injection F as <-.
        assert (SP : shape (pad_controls n0 t) = [(n0 * 1 + n1 * d)%nat]).
        { rewrite pad_controls_shape. f_equal. destruct Hc as [E|E]; rewrite E; cbn [prod fold_right]; lia. }
        destruct (solver_vec sv _ S _ l _ HSV SS SP El GS) as (_ & Sl & HL).
        cbn [cost] in C. injection C as C. rewrite (tdot_1 _ _ (n0 * 1 + n1 * d)) in C by assumption.
        apply (pad_null n1 t n0 Hc). rewrite Nat.mul_1_r in *. exact (form_definite _ co _ _ _ Hco P HL C).
      + destruct W as (-> & (e & He) & Hs & Hnu & Hco & Sgd & Sct).
        destruct (arap_sks_ok sg ca nu d e n0 n1 gd Hs He Sgd) as (S & ES & SS & GS).
        pose proof (G e He) as P. cbn [posed solvable] in P; unfold bM in P.
        cbn [fill_controls] in F. unfold arap_moments in F. rewrite ES in F. cbn [bind] in F. bok F l El. injection F as <-.
        assert (SP : shape (pad_controls (n0 * sym_dim d) t) = [(n0 * sym_dim d + n1 * d)%nat]).
        { rewrite pad_controls_shape. f_equal. destruct Hc as [E|E]; rewrite E; cbn [prod fold_right]; lia. }
        destruct (solver_vec sv _ S _ l _ HSV SS SP El GS) as (_ & Sl & HL).
        cbn [cost] in C. injection C as C. rewrite (tdot_1 _ _ (n0 * sym_dim d + n1 * d)) in C by assumption.
        apply (pad_null n1 t (n0 * sym_dim d) Hc). exact (form_definite _ co _ _ _ Hco P HL C).
      + elim (NC ms eq_refl).
    - destruct c as [t|cs]; [destruct Hc|]. change (ctrls_ok d ms cs) in Hc. destruct W as (_ & W).
      rewrite fill_comp, (ctrls_ok_length d ms cs Hc), Nat.eqb_refl in F. bok F ms1 F1. injection F as <-.
      change (costs ms1 = Ok 0) in C. change (fold_right (fun c acc => cnull c /\ acc) True cs).
      revert cs ms1 Hc W G F1 C. induction IH as [|m ms Hm _ IHs]; intros cs ms1 Hc W G F1 C.
      + destruct cs; [exact I|destruct Hc].
      + destruct cs as [|c cs]; [destruct Hc|]. destruct Hc as (Hc & Hcs). destruct W as (Wm & Wms). destruct G as (Gm & Gms).
        cbn [fills] in F1. fold (fills sv) in F1. bok F1 m1 Em. bok F1 r Er. injection F1 as <-.
        cbn [costs] in C. fold costs in C. bok C x Ex. bok C y Ey. injection C as C.
        destruct (cost_nonneg m c m1 Wm Hc Em) as (x' & Ex' & Px). rewrite Ex in Ex'. injection Ex' as <-.
        assert (Py : 0 <= y).
        { clear - Hcs Wms Er Ey HSV b0. revert cs r y Hcs Er Ey. induction ms as [|m ms IH]; intros cs r y Hcs Er Ey.
          - destruct cs; injection Er as <-; injection Ey as <-; lra.
          - destruct cs as [|c cs]; [destruct Hcs|]. destruct Hcs as (Hc & Hcs). destruct Wms as (Wm & Wms).
            cbn [fills] in Er. fold (fills sv) in Er. bok Er m1 Em. bok Er r' Er'. injection Er as <-.
            cbn [costs] in Ey. fold costs in Ey. bok Ey x Ex. bok Ey y' Ey'. injection Ey as <-.
            destruct (cost_nonneg m c m1 Wm Hc Em) as (x' & Ex' & Px). rewrite Ex in Ex'. injection Ex' as <-.
            specialize (IH Wms cs r' y' Hcs Er' Ey'). lra. }
        assert (x = 0 /\ y = 0) as (-> & ->) by lra.
        split; [exact (Hm c m1 Wm Gm Hc Em Ex)|]. exact (IHs cs r Hcs Wms Gms Er Ey).
  Qed.

  (** ** compute_geodesic_control succeeds *)
  Lemma kernel_total b sg gd nb v : sg <> 0 -> shape gd = [nb; d] -> shape v = [nb; d] -> pd nb (kmat d sg gd) ->
    is_ok (trans_geodesic sv b sg gd v).
  Proof.
    intros Hs Sg Sv HD. pose proof (pd_nonsingular _ _ HD) as HN.
    destruct b; unfold trans_geodesic.
    - apply (solver_total sv nb _ _ (kmat d sg gd) HSV); [apply (K_xx_sh gd nb d); assumption|right; eauto| |assumption].
      intros. apply (K_xx_kmat gd nb d); assumption.
    - apply (solver_total sv nb _ _ (kmat d sg gd) HSV); [|right; eauto| |assumption].
      + cbn. unfold nrows. rewrite Sg. reflexivity.
      + intros i j Hi Hj. unfold entries, add_diag, tadd, tmap2, keops_kernel, mk2. cbn [get].
        rewrite (keops_trans_kmat gd nb d) by assumption. cbn. ring.
  Qed.

  Lemma imp0_total b sg nu co gd nb v : sg <> 0 -> 0 <= nu -> shape gd = [nb; d] -> shape v = [nb; d] ->
    pd nb (fun i j => kmat d sg gd i j + nu * delta i j) -> is_ok (imp0_geodesic sv b sg nu co nb d gd v).
  Proof.
    intros Hs Hnu Sg Sv HD. set (M := fun i j => kmat d sg gd i j + nu * delta i j).
    assert (HN : nonsingular nb M).
    { apply pd_nonsingular. exact HD. }
    destruct b; unfold imp0_geodesic.
    - destruct (fun SA SB GA => solver_total sv nb (add_diag (K_xx gd sg) nu nb) v M HSV SA SB GA HN) as (x & Ex).
      + cbn. unfold nrows. rewrite Sg. reflexivity.
      + right; eauto.
      + intros i j Hi Hj. unfold entries, add_diag, tadd, tmap2. cbn [get]. rewrite (K_xx_kmat gd nb d) by assumption. reflexivity.
      + rewrite Ex. eexists. reflexivity.
    - match goal with |- is_ok (bind (sv ?A v) _) => destruct (fun SA SB GA => solver_total sv nb A v M HSV SA SB GA HN) as (x & Ex) end.
      + cbn. unfold nrows. rewrite Sg. reflexivity.
      + right; eauto.
      + intros i j Hi Hj. unfold entries, add_diag, tadd, tmap2, keops_kernel, mk2. cbn [get].
        rewrite (keops_imp0_kmat gd nb d) by assumption. reflexivity.
      + rewrite Ex. eexists. reflexivity.
  Qed.

  Lemma oriented_total sg co gd0 gd1 nb v : sg <> 0 -> shape gd0 = [nb; d] -> shape gd1 = [nb; d] -> shape v = [nb; d] ->
    pd nb (omat d sg gd0 gd1) ->
    is_ok (oriented_geodesic sv sg co gd0 gd1 v).
  Proof.
    intros Hs Sg0 Sg1 Sv HD. pose proof (pd_nonsingular _ _ HD) as HN.
    unfold oriented_geodesic.
    match goal with |- is_ok (bind (sv ?A ?B) _) => destruct (fun SA SB GA => solver_total sv nb A B _ HSV SA SB GA HN) as (x & Ex) end.
    - cbn. unfold nrows. rewrite Sg0. reflexivity.
    - right. exists 1%nat. cbn. rewrite Sv. reflexivity.
    - intros i j Hi Hj. unfold entries, tmul, tmap2. cbn [get]. rewrite (K_xx_kmat gd0 nb d) by assumption.
      unfold omat. f_equal. cbn. rewrite Sg1. reflexivity.
    - rewrite Ex. eexists. reflexivity.
  Qed.

  Lemma mapM_ok {A B} (f : A -> res B) l : (forall x, In x l -> is_ok (f x)) -> is_ok (mapM f l).
  Proof.
    induction l as [|x l IH]; intros H; [eexists; reflexivity|]. cbn [mapM].
    destruct (H x (or_introl eq_refl)) as (y & Ey). rewrite Ey. cbn [bind].
    destruct IH as (ys & Eys); [intros; apply H; right; assumption|]. rewrite Eys. eexists. reflexivity.
  Qed.

  Lemma geo_posed m man : wf_mod d m -> posed d m -> wf_gman d man -> no_empty_comp man ->
    (first_order m -> ~ has_dir man) -> is_ok (compute_geodesic_control sv b0 m man).
  Proof.
    intros W G WG NE. revert W G. induction m as [m NC|ms IH] using dmod_ind'; intros W G HF.
    - destruct m as [dim co h|b sg dim nb gd ct h|b sg nu co dim nb gd ct h|sg co tr dim nb gd0 gd1 c0 c1 h|
       sg co fs fv dim nb gd ct h|A co gd ct h|man0|b sg nu co K dim nb gd0 gd1 c0 c1 h ca|
       sg cd nu co dim n0 n1 gd ct h lm|sg ca nu co dim n0 n1 gd ct h lm|ms]; cbn [compute_geodesic_control].
      + destruct W as (-> & Hco & Sh). unfold global_geodesic. rewrite Sh. cbn [tnth nth].
        destruct (mapM_ok (fun i => inner_prod_field man (feval (SF_const (basis_vec d i)))) (seq 0 d)) as (xs & Ex).
        * intros i _. rewrite (inner_pairing_field d); [eexists; reflexivity|assumption|reflexivity|exact I|intros; exact I].
        * rewrite Ex. eexists. reflexivity.
      + destruct W as (-> & Hs & Sg & Sc). destruct (cot_to_vs_wf d man sg b b0 WG NE Hs) as (vs & Evs & Wvs & Zvs & _).
        rewrite Evs. cbn [bind]. destruct (feval_0 d vs gd nb Wvs Zvs Sg) as (v & Ev & Sv & _). rewrite Ev. cbn [bind].
        destruct (kernel_total b sg gd nb v Hs Sg Sv G) as (x & Ex). rewrite Ex. eexists. reflexivity.
      + destruct W as (-> & Hs & Hnu & Hco & Sg & Sc). destruct (cot_to_vs_wf d man sg b b0 WG NE Hs) as (vs & Evs & Wvs & Zvs & _).
        rewrite Evs. cbn [bind]. destruct (feval_0 d vs gd nb Wvs Zvs Sg) as (v & Ev & Sv & _). rewrite Ev. cbn [bind].
        destruct (imp0_total b sg nu co gd nb v Hs Hnu Sg Sv G) as (x & Ex). rewrite Ex. eexists. reflexivity.
      + destruct W as (-> & Hs & Hco & Sg0 & Sg1 & _). destruct (cot_to_vs_wf d man sg Torch b0 WG NE Hs) as (vs & Evs & Wvs & Zvs & _).
        rewrite Evs. cbn [bind]. destruct (feval_0 d vs gd0 nb Wvs Zvs Sg0) as (v & Ev & Sv & _). rewrite Ev. cbn [bind].
        destruct (oriented_total sg co gd0 gd1 nb v Hs Sg0 Sg1 Sv G) as (x & Ex). rewrite Ex. eexists. reflexivity.
      + destruct W as (-> & Hs & Hco & Sg & Sc & M & s & v & Es & Ev & Ss & Sv).
        rewrite Es. cbn [bind]. rewrite Ev. cbn [bind].
        destruct (good_SF0 d Torch s v sg M Hs Ss Sv) as (Wf & H0 & H1 & _).
        rewrite (inner_pairing_field d man _ WG Wf H0 (fun _ => H1)). cbn [bind].
        pose proof (G s v Es Ev) as HP.
        unfold tdiv. destruct (Req_EM_T (co * local_norm sg s v) 0) as [E|E]; [|eexists; reflexivity].
        apply Rmult_integral in E. lra.
      + destruct W as (SA & Hco & Sg & Sc & Sh).
        rewrite (inner_pairing_field d man); [eexists; reflexivity|assumption| |exact I|intros; exact I].
        assert (Sp : prod (shape gd) = d) by (rewrite Sg; cbn; lia).
        split; [assumption|]. split; [cbn; rewrite Sp; reflexivity|cbn; rewrite Sp; reflexivity].
      + eexists. reflexivity.
      + pose proof W as W0. pose proof G as G0. destruct W as (-> & (e & He) & Hs & Hnu & Hco & (r & SC) & Sg0 & Sg1 & Sc0 & Sc1). destruct G as (G & GI).
        destruct (cot_to_vs_wf d man sg b b0 WG NE Hs) as (vs & Evs & Wvs & Zvs & _ & J & _). specialize (J (HF I)).
        rewrite Evs. cbn [bind].
        rewrite SC in GI. cbn [tnth nth] in GI. pose proof (eta_basis d e He) as (Se & _).
        destruct (imp1_sks_ok b sg nu d e nb gd0 Hs He Sg0) as (S & ES & SS & GS).
        pose proof (G e He) as P. cbn [posed solvable] in P; unfold bM in P.
        set (M := fun q q' => bmatrix d (sym_dim d) nb e 1 sg (vrow gd0) q q' + nu * delta q q') in *.
        pose proof (pd_nonsingular _ _ P) as HN.
        destruct (feval_1 d vs gd0 nb Wvs J Sg0) as (dv & Edv & _).
        assert (HT : forall B, is_ok (sv S (reshape [(nb * sym_dim d)%nat; 1%nat] B))).
        { intros B. apply (solver_total sv _ S _ M HSV SS); [right; exists 1%nat; reflexivity|exact GS|exact HN]. }
        assert (EG : exists h', imp1_geodesic sv b sg nu co K d nb gd0 gd1 vs = Ok h' /\ shape h' = [r]).
        { unfold imp1_geodesic. rewrite He. cbn [bind]. rewrite Edv. cbn [bind]. rewrite ES. cbn [bind].
          match goal with |- context [sv S (reshape ?s ?B)] => destruct (HT B) as (tl0 & Etl) end. rewrite Etl. cbn [bind].
          rewrite SC. cbn [tnth nth]. unfold imp1_aqkiaq. replace (sym_dim d * nb)%nat with (nb * sym_dim d)%nat by lia.
          match goal with |- context [mapM ?f ?l] => destruct (mapM_ok f l) as (ls & Els); [intros i _; apply HT|] end.
          rewrite Els. cbn [bind fst snd].
          match goal with |- context [sv ?A ?B] => assert (HX : is_ok (sv A B)) end.
          { apply (solver_total sv r _ _ (fun i j => rsum (nb * sym_dim d) (fun q => fvec (nth i ls (tzeros [])) q *
               fvec (imp1_aqh d nb e K gd1 (basis_vec r j)) q)) HSV).
            - reflexivity.
            - right. exists 1%nat. reflexivity.
            - intros i j Hi Hj. reflexivity.
            - set (n := (nb * sym_dim d)%nat) in *. set (L := fun i => fvec (nth i ls (tzeros []))).
              set (B := fun q j => fvec (imp1_aqh d nb e K gd1 (basis_vec r j)) q).
              assert (SA : forall i, shape (imp1_aqh d nb e K gd1 (basis_vec r i)) = [nb; sym_dim d]).
              { intros i. apply (aqh_get d nb r (sym_dim d) e K gd1 _ 0 0); auto. }
              assert (HL : forall i, (i < r)%nat -> solves n M (L i) (fun q => B q i)).
              { intros i Hi. pose proof (mapM_nth _ r ls (tzeros []) Els i Hi) as Ei. cbv beta in Ei.
                destruct (fun SY => solver_any sv n S _ _ M HSV SS SY Ei GS) as (_ & SLi & HLi); [right; reflexivity|].
                revert HLi. apply solves_ext; auto. intros q Hq. rewrite fvec_reshape_lt by (cbn [prod fold_right]; lia).
                unfold tflatten. apply fvec_reshape_lt. rewrite SA. cbn [prod fold_right]. unfold n in Hq. lia. }
              intros y Hy. set (hy := mk1 r y).
              assert (HBy : forall q, (q < n)%nat -> fvec (imp1_aqh d nb e K gd1 hy) q = rsum r (fun j => y j * B q j)).
              { intros q Hq. unfold B. rewrite (fvec_aqh d nb r (sym_dim d) e K gd1 hy q Sg1 SC eq_refl Se Hq). apply rsum_ext. intros j Hj.
                rewrite (fvec_1 hy r) by (reflexivity || assumption). cbn [hy mk1 get].
                rewrite (fvec_aqh d nb r (sym_dim d) e K gd1 _ q Sg1 SC (eq_refl : shape (basis_vec r j) = [r]) Se Hq). f_equal.
                rewrite (rsum_ext r _ (fun k => delta j k * coords d e (growth_of d K gd1 (q / sym_dim d) k) (q mod sym_dim d))).
                - rewrite (rsum_delta_r r (fun k => coords d e (growth_of d K gd1 (q / sym_dim d) k) (q mod sym_dim d)) j Hj). reflexivity.
                - intros k Hk. rewrite (fvec_1 _ r) by (reflexivity || assumption). reflexivity. }
              set (z := fun q => rsum r (fun j => y j * L j q)).
              assert (Hz : solves n M z (fvec (imp1_aqh d nb e K gd1 hy))).
              { intros q Hq. rewrite HBy by assumption. unfold z.
                rewrite (rsum_ext n _ (fun q' => rsum r (fun j => y j * (M q q' * L j q')))).
                - rewrite rsum_swap. apply rsum_ext. intros j Hj. rewrite rsum_scal. f_equal. apply (HL j Hj q Hq).
                - intros q' Hq'. rewrite <- rsum_scal. apply rsum_ext. intros; ring. }
              assert (Z : 1 / 2 * 1 * rsum n (fun q => fvec (imp1_aqh d nb e K gd1 hy) q * z q) = 0).
              { rewrite (rsum_ext n _ (fun q => rsum r (fun j => rsum r (fun i => y i * (y j * (L i q * B q j)))))).
                - rewrite rsum_swap. rewrite (rsum_ext r _ (fun j => rsum r (fun i => y i * (y j * rsum n (fun q => L i q * B q j))))).
                  + rewrite rsum_swap. rewrite (rsum_ext r _ (fun _ => 0)); [rewrite rsum_zero by reflexivity; ring|].
                    intros i Hi. rewrite rsum_scal. rewrite (rsum_ext r _ (fun j => rsum n (fun q => L i q * B q j) * y j)) by (intros; ring).
                    pose proof (Hy i Hi) as Hyi. cbv beta in Hyi. etransitivity; [apply f_equal; exact Hyi|ring].
                  + intros j Hj. rewrite rsum_swap. apply rsum_ext. intros i Hi. rewrite !rsum_scal. reflexivity.
                - intros q Hq. rewrite HBy by assumption. rewrite <- rsum_scal_r. apply rsum_ext. intros j Hj. unfold z.
                  rewrite <- rsum_scal. apply rsum_ext. intros; ring. }
              pose proof (form_definite n 1 M _ z Rlt_0_1 P Hz Z) as Z1.
              intros j Hj. change (hy @1 j = 0). apply (GI hy eq_refl); [|assumption].
              intros n' a b' Hn Ha Hb. apply (coords_zero e _ He (growth_sym r K gd1 hy n')); [|assumption|assumption].
              intros u Hu. rewrite <- (aqh_growth d nb r (sym_dim d)) by (assumption || reflexivity).
              assert (SAh : shape (imp1_aqh d nb e K gd1 hy) = [nb; sym_dim d]) by (apply (aqh_get d nb r (sym_dim d) e K gd1 _ 0 0); auto).
              rewrite <- (fvec_2 _ nb (sym_dim d)) by assumption. apply Z1. apply pair_lt; assumption. }
          destruct HX as (c & Ec). rewrite Ec. cbn [bind]. eexists. split; [reflexivity|].
          match type of Ec with sv ?A ?B = _ => destruct (fun SX SY => solver_any sv r A B c (entries A) HSV SX SY Ec (fun _ _ _ _ => eq_refl)) as (_ & Sc & _) end.
          - reflexivity.
          - right. reflexivity.
          - cbn [tflatten reshape shape]. rewrite Sc. cbn. f_equal. lia. }
        destruct EG as (h' & Eh & Sh'). rewrite Eh. cbn [bind].
        apply (fill_posed (MImp1 b sg nu co K d nb gd0 gd1 c0 c1 h ca) (CLeaf h') W0 (proj1 G0)).
        cbn [ctrl_ok]. rewrite SC. exact Sh'.
      + pose proof W as W0. destruct W as (-> & Hs & Hnu & Hco & Sgd & Sct).
        destruct (cot_to_vs_wf d man sg Torch b0 WG NE Hs) as (vs & Evs & Wvs & Zvs & _ & J & _). specialize (J (HF I)).
        rewrite Evs. cbn [bind].
        destruct (div_sks_ok sg cd nu d n0 n1 gd Hs Sgd) as (S & ES & SS & GS).
        pose proof G as P. cbn [posed solvable] in P; unfold bM in P. rewrite Nat.mul_1_r in *.
        pose proof (pd_nonsingular _ _ (pd_principal _ n0 _ (Nat.le_add_r _ _) P)) as HN.
        destruct (feval_1 d vs _ n0 Wvs J (first_shape gd n0 n1 d Sgd)) as (dv & Edv & Sdv & _).
        destruct (feval_0 d vs _ n1 Wvs Zvs (last_shape gd n0 n1 d Sgd)) as (v0 & Ev0 & Sv0 & _).
        assert (EG : exists h', div_geodesic sv sg cd nu co d n0 gd vs = Ok h' /\ shape h' = [(n1 * d)%nat]).
        { unfold div_geodesic. rewrite ES. cbn [bind]. rewrite Edv. cbn [bind]. rewrite Ev0. cbn [bind].
          match goal with |- context [sv ?A ?B] => destruct (fun SA SB GA => solver_total sv n0 A B _ HSV SA SB GA HN) as (x & Ex) end.
          - reflexivity.
          - left. cbn. rewrite Sdv. reflexivity.
          - intros i j Hi Hj. cbn [block11 mk2 entries get]. apply GS; lia.
          - rewrite Ex. cbn [bind]. eexists. split; [reflexivity|].
            cbn [tscal tmap tadd tmap2 topp mv mk1 shape block21 mk2]. unfold nrows, tnth. cbn [shape nth block21 mk2]. rewrite SS. cbn [nth]. f_equal. lia. }
        destruct EG as (h' & Eh & Sh'). rewrite Eh. cbn [bind].
        apply (fill_posed (MDivFree sg cd nu co d n0 n1 gd ct h lm) (CLeaf h') W0 G). right. exact Sh'.
      + pose proof W as W0. destruct W as (-> & (e & He) & Hs & Hnu & Hco & Sgd & Sct).
        destruct (cot_to_vs_wf d man sg Torch b0 WG NE Hs) as (vs & Evs & Wvs & Zvs & _ & J & _). specialize (J (HF I)).
        rewrite Evs. cbn [bind]. pose proof (eta_basis d e He) as (Se & _).
        destruct (arap_sks_ok sg ca nu d e n0 n1 gd Hs He Sgd) as (S & ES & SS & GS).
        pose proof (G e He) as P. cbn [posed solvable] in P; unfold bM in P.
        pose proof (pd_nonsingular _ _ (pd_principal _ (n0 * sym_dim d) _ (Nat.le_add_r _ _) P)) as HN.
        destruct (feval_1 d vs _ n0 Wvs J (first_shape gd n0 n1 d Sgd)) as (dv & Edv & Sdv & _).
        destruct (feval_0 d vs _ n1 Wvs Zvs (last_shape gd n0 n1 d Sgd)) as (v0 & Ev0 & Sv0 & _).
        assert (EG : exists h', arap_geodesic sv sg ca nu co d n0 n1 gd vs = Ok h' /\ shape h' = [(n1 * d)%nat]).
        { unfold arap_geodesic. rewrite ES. cbn [bind]. rewrite He. cbn [bind]. rewrite Edv. cbn [bind]. rewrite Ev0. cbn [bind].
          match goal with |- context [sv ?A ?B] => destruct (fun SA SB GA => solver_total sv (n0 * sym_dim d) A B _ HSV SA SB GA HN) as (x & Ex) end.
          - reflexivity.
          - left. cbn [tflatten reshape shape].
            match goal with |- context [tensordot ?X e _ _] => destruct (coords_tensordot X e n0 d (sym_dim d) 0 0) as (_ & SG); [exact Sdv|exact Se|] end.
            rewrite SG. cbn [prod fold_right]. f_equal. lia.
          - intros i j Hi Hj. cbn [block11 mk2 entries get]. apply GS; lia.
          - rewrite Ex. cbn [bind]. eexists. split; [reflexivity|].
            cbn [tscal tmap tadd tmap2 topp mv mk1 shape block21 mk2]. unfold nrows, tnth. cbn [shape nth block21 mk2]. rewrite SS. cbn [nth]. f_equal. lia. }
        destruct EG as (h' & Eh & Sh'). rewrite Eh. cbn [bind].
        apply (fill_posed (MArap sg ca nu co d n0 n1 gd ct h lm) (CLeaf h') W0 G). right. exact Sh'.
      + elim (NC ms eq_refl).
    - destruct W as (_ & W). cbn [first_order] in HF.
      change (compute_geodesic_control sv b0 (MComp ms) man) with (ms' <- geos sv b0 man ms ;; Ok (MComp ms')).
      assert (H : is_ok (geos sv b0 man ms)).
      { revert W G HF. induction IH as [|m ms Hm _ IHs]; intros W G HF; [eexists; reflexivity|].
        destruct W as (Wm & Wms). destruct G as (Gm & Gms).
        destruct (Hm Wm Gm (fun H => HF (or_introl H))) as (m1 & F). destruct (IHs Wms Gms (fun H => HF (or_intror H))) as (r & Fr).
        cbn [geos]. fold (geos sv b0 man). rewrite F. cbn [bind]. rewrite Fr. eexists. reflexivity. }
      destruct H as (r & Fr). rewrite Fr. eexists. reflexivity.
  Qed.

  Lemma fill_regular m c : wf_mod d m -> regular d m -> ctrl_ok d m c -> is_ok (fill_controls sv m c).
  Proof. intros W G. apply fill_posed; [assumption|]. apply posed_solvable, regular_posed; assumption. Qed.
  Lemma definite_regular m c m1 : wf_mod d m -> regular d m -> ctrl_ok d m c -> fill_controls sv m c = Ok m1 ->
    cost m1 = Ok 0 -> cnull c.
  Proof. intros W G. apply definite_posed; [assumption|]. apply regular_posed; assumption. Qed.
  Lemma geo_regular m man : wf_mod d m -> regular d m -> wf_gman d man -> no_empty_comp man ->
    (first_order m -> ~ has_dir man) -> is_ok (compute_geodesic_control sv b0 m man).
  Proof. intros W G. apply geo_posed; [assumption|]. apply regular_posed; assumption. Qed.

  (** With a manifold holding directions, the order-1 modules cannot compute their
      geodesic controls. *)
  Lemma geo_no_dir m man : wf_mod d m -> wf_gman d man -> no_empty_comp man -> first_order m -> has_dir man ->
    ~ is_ok (compute_geodesic_control sv b0 m man).
  Proof.
    intros W WG NE. revert W. induction m as [m NC|ms IH] using dmod_ind'; intros W HF HD (m' & E).
    - destruct m as [dim co h|b sg dim nb gd ct h|b sg nu co dim nb gd ct h|sg co tr dim nb gd0 gd1 c0 c1 h|
       sg co fs fv dim nb gd ct h|A co gd ct h|man0|b sg nu co K dim nb gd0 gd1 c0 c1 h ca|
       sg cd nu co dim n0 n1 gd ct h lm|sg ca nu co dim n0 n1 gd ct h lm|ms]; try destruct HF; cbn [compute_geodesic_control] in E.
      + destruct W as (-> & (e & He) & Hs & Hnu & Hco & (r & SC) & Sg0 & Sg1 & Sc0 & Sc1).
        destruct (cot_to_vs_jac_iff d man sg b b0 gd0 nb WG NE Hs Sg0) as (vs & Evs & _ & J). specialize (J HD).
        rewrite Evs in E. cbn [bind] in E. unfold imp1_geodesic in E. rewrite He in E. cbn [bind] in E. rewrite J in E. discriminate.
      + destruct W as (-> & Hs & Hnu & Hco & Sgd & Sct).
        destruct (cot_to_vs_jac_iff d man sg Torch b0 _ n0 WG NE Hs (first_shape gd n0 n1 d Sgd)) as (vs & Evs & _ & J). specialize (J HD).
        destruct (div_sks_ok sg cd nu d n0 n1 gd Hs Sgd) as (S & ES & _).
        rewrite Evs in E. cbn [bind] in E. unfold div_geodesic in E. rewrite ES in E. cbn [bind] in E. rewrite J in E. discriminate.
      + destruct W as (-> & (e & He) & Hs & Hnu & Hco & Sgd & Sct).
        destruct (cot_to_vs_jac_iff d man sg Torch b0 _ n0 WG NE Hs (first_shape gd n0 n1 d Sgd)) as (vs & Evs & _ & J). specialize (J HD).
        destruct (arap_sks_ok sg ca nu d e n0 n1 gd Hs He Sgd) as (S & ES & _).
        rewrite Evs in E. cbn [bind] in E. unfold arap_geodesic in E. rewrite ES in E. cbn [bind] in E. rewrite He in E. cbn [bind] in E. rewrite J in E. discriminate.
      + elim (NC ms eq_refl).
    - change (compute_geodesic_control sv b0 (MComp ms) man) with (ms' <- geos sv b0 man ms ;; Ok (MComp ms')) in E.
      bok E ms' Es. destruct W as (_ & W). cbn [first_order] in HF. clear E m'.
      revert ms' Es W HF. induction IH as [|m ms Hm _ IHs]; intros ms' Es W HF; [destruct HF|].
      cbn [geos] in Es. fold (geos sv b0 man) in Es. bok Es m1 Em. bok Es r Er. destruct W as (Wm & Wms).
      destruct HF as [HF|HF]; [apply (Hm Wm HF HD); exists m1; assumption|]. exact (IHs r Er Wms HF).
  Qed.
End Reg.
