(** Fields of the implicit modules: prescribed strains, divergence and values. *)
From Coq Require Import Reals String List Arith Lia Lra.
From Verif Require Import Py RSum Tensor TensorFacts KernelModel FieldModel GeometryModel ModuleModel
  SpecLinAlg SpecKernel SpecField SpecGeometry SpecSKS SpecModule LinAlg KernelFacts FieldFacts GeometryFacts SKSFacts
  GaussPSD ModuleDual ModuleAlg ModuleLeaves ModuleImplicit ModuleMain ModuleRegular.
Import ListNotations.
Open Scope R_scope.

Section Strain.
  Variables (sv : solver) (d : nat).
  Hypothesis HSV : exact_solver sv.

  Lemma coords_strain e f p t : eta d = Ok e -> (t < sym_dim d)%nat -> coords d e (strain d f p) t = coords d e (fjac d f p) t.
  Proof. intros He Ht. unfold strain. apply (coords_sym_part d (sym_dim d) e (eta_basis d e He)). assumption. Qed.

  Lemma strain_sym f p : sym_mat d (strain d f p).
  Proof. intros i j _ _. unfold strain, sym_part. lra. Qed.

  Lemma coords_eq e A B : eta d = Ok e -> sym_mat d A -> sym_mat d B ->
    (forall t, (t < sym_dim d)%nat -> coords d e A t = coords d e B t) ->
    forall i j, (i < d)%nat -> (j < d)%nat -> A i j = B i j.
  Proof.
    intros He HA HB H i j Hi Hj.
    rewrite <- (proj2 (proj2 (eta_round_trips d e He)) A HA i j Hi Hj), <- (proj2 (proj2 (eta_round_trips d e He)) B HB i j Hi Hj).
    unfold from_coords. apply rsum_ext. intros t Ht. fold (sym_dim d) in Ht. rewrite H by assumption. reflexivity.
  Qed.

  (** The matrix is singular when the coefficient vanishes and nu = 0. *)
  Lemma ka_nonzero s n0 n1 e ka sg x : (0 < n0)%nat -> (0 < s)%nat ->
    nonsingular (n0 * s + n1 * d) (fun q q' => bmatrix d s n0 e ka sg x q q' + 0 * delta q q') -> ka <> 0.
  Proof.
    intros Hn Hs HN ->.
    assert (H : solves (n0 * s + n1 * d) (fun q q' => bmatrix d s n0 e 0 sg x q q' + 0 * delta q q') (fun k => delta 0 k) (fun _ => 0)).
    { intros q Hq. rewrite (rsum_ext _ _ (fun k => delta 0 k * (bmatrix d s n0 e 0 sg x q k + 0 * delta q k))) by (intros; ring).
      rewrite rsum_delta_r by nia. destruct (Nat.lt_ge_cases q (n0 * s)) as [L|L].
      - destruct (row_split s n0 q) as (i & t & Hi & Ht & ->); [lia|].
        pose proof (bm_11 d s n0 e 0 sg x i t 0 0 Hi Ht Hn Hs) as E. cbn [Nat.mul Nat.add] in E. rewrite E. ring.
      - destruct (row_split d n1 (q - n0 * s)) as (j & r & Hj & Hr & E); [lia|].
        replace q with (n0 * s + (j * d + r))%nat by lia.
        pose proof (bm_21 d s n0 e 0 sg x 0 0 j r Hn Hs Hr) as E'. cbn [Nat.mul Nat.add] in E'. rewrite E'. unfold bT. ring. }
    specialize (HN _ H 0%nat ltac:(nia)). cbn beta in HN. rewrite delta_same in HN. lra.
  Qed.

  Lemma feval_strain f p N : good d f -> shape p = [N; d] ->
    exists V J, feval f p 0 = Ok V /\ shape V = [N; d] /\ feval f p 1 = Ok J /\ shape J = [N; d; d] /\
      (forall i a, (i < N)%nat -> (a < d)%nat -> V @2 i a = fval d f (vrow p i) a) /\
      (forall i a b, (i < N)%nat -> (a < d)%nat -> (b < d)%nat -> J @3 i a b = fjac d f (vrow p i) a b).
  Proof.
    intros (W & H0 & H1 & _) Sp.
    destruct (feval_0 d f p N W H0 Sp) as (V & EV & SV & GV). destruct (feval_1 d f p N W H1 Sp) as (J & EJ & SJ & GJ).
    exists V, J. split; [assumption|]. split; [assumption|]. split; [assumption|]. split; [assumption|]. split.
    - intros i a Hi Ha. rewrite GV; [reflexivity|]. cbn. auto.
    - intros i a b Hi Ha Hb. rewrite GJ; [reflexivity|]. cbn. auto.
  Qed.

  (** ** ImplicitModule1 *)
  Lemma imp1_field_b b sg e nb gd0 l : sg <> 0 -> eta d = Ok e -> shape gd0 = [nb; d] -> prod (shape l) = (nb * sym_dim d)%nat ->
    good d (SF_p b gd0 (lam_moments nb (sym_dim d) e l) sg) /\
    forall p a c, (a < d)%nat -> (c < d)%nat ->
      fjac d (SF_p b gd0 (lam_moments nb (sym_dim d) e l) sg) p a c = fjac d (b_field d (sym_dim d) nb 0 e 1 sg gd0 (fvec l)) p a c.
  Proof.
    intros Hs He Sg0 Pl. pose proof (eta_basis d e He) as (Se & HE & _).
    pose proof (lam_moments_shape nb (sym_dim d) e l d Se) as SM. split.
    - split; [|split; [exact I|split; [exact I|]]].
      * cbn. split; [assumption|]. exists nb. auto.
      * cbn [fdim]. unfold ncols. rewrite Sg0. reflexivity.
    - intros p a c Ha Hc'.
      assert (Sg0' : shape gd0 = [(nb + 0)%nat; d]) by (rewrite Nat.add_0_r; assumption).
      assert (Q0 : nrows (last_rows nb gd0) = 0%nat).
      { unfold last_rows, rows_from, nrows. cbn [shape tnth nth]. rewrite Sg0. cbn. lia. }
      assert (GM : forall i a c, (i < nb)%nat -> (a < d)%nat -> (c < d)%nat ->
        (lam_moments nb (sym_dim d) e l) @3 i a c = (moments_of nb d (sym_dim d) e (fun q => 1 * fvec l q)) @3 i a c).
      { intros i a' c' Hi Ha' Hc''. rewrite (lam_moments_get nb (sym_dim d) e l d) by assumption. unfold moments_of, mk3, from_coords. cbn [get].
        apply rsum_ext. intros; ring. }
      assert (SX : shape (first_rows nb gd0) = [nb; d]) by (apply (first_shape gd0 nb 0); assumption).
      unfold b_field. cbn [fjac fold_right]. rewrite Q0, rsum_0. unfold nrows. rewrite Sg0, SX. cbn [tnth nth].
      rewrite Rplus_0_l, Rplus_0_r. apply rsum_ext. intros i Hi. apply rsum_ext. intros c' Hc''. unfold symP. rewrite !GM by assumption. reflexivity.
  Qed.

  Lemma imp1_strain b sg co C dim nb gd0 gd1 c0 c1 h0 ca r h m1 :
    wf_mod d (MImp1 b sg 0 co C dim nb gd0 gd1 c0 c1 h0 ca) -> shape C = [nb; d; r] -> shape h = [r] ->
    fill_controls sv (MImp1 b sg 0 co C dim nb gd0 gd1 c0 c1 h0 ca) (CLeaf h) = Ok m1 ->
    exists f J, field_generator m1 = Ok f /\ feval f gd0 1 = Ok J /\ shape J = [nb; d; d] /\
      forall n i j, (n < nb)%nat -> (i < d)%nat -> (j < d)%nat ->
        (J @3 n i j + J @3 n j i) / 2 = growth d r C gd1 h n i j.
  Proof.
    intros (-> & (e & He) & Hs & Hnu & Hco & (r' & SC) & Sg0 & Sg1 & Sc0 & Sc1) SC' Sh F.
    assert (r' = r) by congruence. subst r'.
    pose proof (eta_basis d e He) as (Se & HE & _).
    destruct (imp1_sks_ok b sg 0 d e nb gd0 Hs He Sg0) as (S & ES & SS & GS).
    destruct (aqh_get d nb r (sym_dim d) e C gd1 h 0 0 Sg1 SC Sh Se) as (SA & _).
    cbn [fill_controls] in F. unfold imp1_moments in F. rewrite He in F. cbn [bind] in F. rewrite ES in F. cbn [bind] in F.
    bok F x Ex. bok Ex l El. injection Ex as <-. injection F as <-.
    assert (HL : (shape l = [(nb * sym_dim d)%nat] \/ shape l = [(nb * sym_dim d)%nat; 1%nat]) /\
       solves (nb * sym_dim d) (fun q q' => bmatrix d (sym_dim d) nb e 1 sg (vrow gd0) q q' + 0 * delta q q') (fvec l) (fvec (imp1_aqh d nb e C gd1 h))).
    { destruct b.
      - assert (SF : shape (tflatten (imp1_aqh d nb e C gd1 h)) = [(nb * sym_dim d)%nat]).
        { cbn [tflatten reshape shape]. rewrite SA. cbn [prod fold_right]. f_equal. lia. }
        destruct (solver_any sv _ S _ l _ HSV SS (or_introl SF) El GS) as (_ & Sl & H). split; [left; congruence|].
        revert H. apply solves_ext; auto. intros q Hq. unfold tflatten. apply fvec_reshape_lt. rewrite SA. cbn [prod fold_right]. lia.
      - destruct (fun SB => solver_any sv _ S _ l _ HSV SS SB El GS) as (_ & Sl & H); [right; reflexivity|]. split; [right; exact Sl|].
        revert H. apply solves_ext; auto. intros q Hq. apply fvec_reshape_lt. cbn [prod fold_right]. lia. }
    destruct HL as (Sl & HL).
    assert (Pl : prod (shape l) = (nb * sym_dim d)%nat) by (destruct Sl as [E|E]; rewrite E; cbn [prod fold_right]; lia).
    destruct (imp1_field_b b sg e nb gd0 l Hs He Sg0 Pl) as (GD & FJ).
    destruct (feval_strain _ gd0 nb GD Sg0) as (V & J & _ & _ & EJ & SJ & _ & GJ).
    exists (SF_p b gd0 (lam_moments nb (sym_dim d) e l) sg), J. split; [reflexivity|]. split; [assumption|]. split; [assumption|].
    intros n i j Hn Hi Hj. rewrite !GJ by assumption.
    change (strain d (SF_p b gd0 (lam_moments nb (sym_dim d) e l) sg) (vrow gd0 n) i j = growth d r C gd1 h n i j).
    apply (coords_eq e _ _ He (strain_sym _ _) (growth_sym d r C gd1 h n)); [|assumption|assumption].
    intros t Ht. rewrite coords_strain by assumption. rewrite (coords_ext d e _ _ t (fun a c Ha Hc => FJ (vrow gd0 n) a c Ha Hc)).
    rewrite <- (aqh_growth d nb r (sym_dim d)) by assumption. rewrite <- (fvec_2 _ nb (sym_dim d)) by assumption.
    rewrite <- (HL (n * sym_dim d + t)%nat (pair_lt _ _ _ _ Hn Ht)).
    assert (Sg0' : shape gd0 = [(nb + 0)%nat; d]) by (rewrite Nat.add_0_r; assumption).
    pose proof (b_strain d (sym_dim d) nb 0 e 1 sg gd0 Sg0' HE (fvec l) n t Hn Ht) as B. rewrite Rmult_1_l in B. rewrite B.
    rewrite Nat.mul_0_l, Nat.add_0_r. apply rsum_ext. intros; ring.
  Qed.

  (** ** ImplicitDivFree *)
  Lemma div_strain sg cd co dim n0 n1 gd ct h0 l0 h m1 :
    let m := MDivFree sg cd 0 co dim n0 n1 gd ct h0 l0 in
    wf_mod d m -> ctrl_ok d m (CLeaf h) -> fill_controls sv m (CLeaf h) = Ok m1 ->
    exists f V J, field_generator m1 = Ok f /\
      feval f (last_rows n0 gd) 0 = Ok V /\ shape V = [n1; d] /\
      feval f (first_rows n0 gd) 1 = Ok J /\ shape J = [n0; d; d] /\
      (forall j a, (j < n1)%nat -> (a < d)%nat -> V @2 j a = (tflatten h) @1 (j * d + a)%nat) /\
      (forall i, (i < n0)%nat -> rsum d (fun a => J @3 i a a) = 0).
  Proof.
    intros m (-> & Hs & Hnu & Hco & Sgd & Sct) Hc F. cbn [ctrl_ok m] in Hc.
    destruct (div_sks_ok sg cd 0 d n0 n1 gd Hs Sgd) as (S & ES & SS & GS).
    cbn [fill_controls m] in F. unfold div_moments in F. rewrite ES in F. cbn [bind] in F. bok F l El. injection F as <-.
    assert (SP : shape (pad_controls n0 h) = [(n0 * 1 + n1 * d)%nat]).
    { rewrite pad_controls_shape. f_equal. destruct Hc as [E|E]; rewrite E; cbn [prod fold_right]; lia. }
    destruct (solver_vec sv _ S _ l _ HSV SS SP El GS) as (HN & Sl & HL).
    destruct (div_field_b sg cd d n0 n1 gd l Hs Sgd Sl) as (f & Ef & GD & FV & FJ).
    destruct (feval_strain f _ n1 GD (last_shape gd n0 n1 d Sgd)) as (V & J' & EV & SV & _ & _ & GV & _).
    destruct (feval_strain f _ n0 GD (first_shape gd n0 n1 d Sgd)) as (V' & J & _ & _ & EJ & SJ & _ & GJ).
    exists f, V, J. split; [exact Ef|]. split; [assumption|]. split; [assumption|]. split; [assumption|]. split; [assumption|]. split.
    - intros j a Hj Ha. rewrite GV by assumption. change (vrow (last_rows n0 gd) j) with (vrow gd (n0 + j)).
      rewrite FV by assumption. rewrite (b_value d 1 n0 n1 (e_div d) cd sg gd Sgd (e_div_sym d)) by assumption.
      pose proof (pair_lt n1 d j a Hj Ha) as HJ.
      pose proof (HL (n0 * 1 + (j * d + a))%nat ltac:(lia)) as E.
      cbv beta in E. rewrite pad_controls_get in E. unfold pad in E. destruct (Nat.ltb_spec (n0 * 1 + (j * d + a)) n0); [lia|].
      replace (n0 * 1 + (j * d + a) - n0)%nat with (j * d + a)%nat in E by lia. unfold fvec in E. rewrite <- E.
      apply rsum_ext. intros; ring.
    - intros i Hi. assert (Hk : cd <> 0) by (apply (ka_nonzero 1 n0 n1 (e_div d) cd sg (vrow gd)); [lia|lia|exact HN]).
      rewrite (rsum_ext d _ (fun a => fjac d (b_field d 1 n0 n1 (e_div d) cd sg gd (fun q => l @1 q)) (vrow gd i) a a)).
      + rewrite <- (coords_div d _ 0). apply (Rmult_eq_reg_l cd); [|assumption].
        rewrite (b_strain d 1 n0 n1 (e_div d) cd sg gd Sgd (e_div_sym d)) by (assumption || lia).
        pose proof (HL (i * 1 + 0)%nat ltac:(lia)) as E. cbv beta in E. rewrite pad_controls_get in E. unfold pad in E.
        destruct (Nat.ltb_spec (i * 1 + 0) n0); [|lia]. rewrite Rmult_0_r, <- E. apply rsum_ext. intros; ring.
      + intros a Ha. rewrite GJ by assumption. apply FJ; assumption.
  Qed.

  (** ** ImplicitARAP *)
  Lemma arap_strain sg ca co dim n0 n1 gd ct h0 l0 h m1 :
    let m := MArap sg ca 0 co dim n0 n1 gd ct h0 l0 in
    wf_mod d m -> ctrl_ok d m (CLeaf h) -> fill_controls sv m (CLeaf h) = Ok m1 ->
    exists f V J, field_generator m1 = Ok f /\
      feval f (last_rows n0 gd) 0 = Ok V /\ shape V = [n1; d] /\
      feval f (first_rows n0 gd) 1 = Ok J /\ shape J = [n0; d; d] /\
      (forall j a, (j < n1)%nat -> (a < d)%nat -> V @2 j a = (tflatten h) @1 (j * d + a)%nat) /\
      (forall i a b, (i < n0)%nat -> (a < d)%nat -> (b < d)%nat -> (J @3 i a b + J @3 i b a) / 2 = 0).
  Proof.
    intros m (-> & (e & He) & Hs & Hnu & Hco & Sgd & Sct) Hc F. cbn [ctrl_ok m] in Hc.
    pose proof (eta_basis d e He) as (Se & HE & _).
    destruct (arap_sks_ok sg ca 0 d e n0 n1 gd Hs He Sgd) as (S & ES & SS & GS).
    cbn [fill_controls m] in F. unfold arap_moments in F. rewrite ES in F. cbn [bind] in F. bok F l El. injection F as <-.
    assert (SP : shape (pad_controls (n0 * sym_dim d) h) = [(n0 * sym_dim d + n1 * d)%nat]).
    { rewrite pad_controls_shape. f_equal. destruct Hc as [E|E]; rewrite E; cbn [prod fold_right]; lia. }
    destruct (solver_vec sv _ S _ l _ HSV SS SP El GS) as (HN & Sl & HL).
    destruct (arap_field_b sg ca d e n0 n1 gd l Hs He Sgd Sl) as (f & Ef & GD & FV & FJ).
    destruct (feval_strain f _ n1 GD (last_shape gd n0 n1 d Sgd)) as (V & J' & EV & SV & _ & _ & GV & _).
    destruct (feval_strain f _ n0 GD (first_shape gd n0 n1 d Sgd)) as (V' & J & _ & _ & EJ & SJ & _ & GJ).
    exists f, V, J. split; [exact Ef|]. split; [assumption|]. split; [assumption|]. split; [assumption|]. split; [assumption|]. split.
    - intros j a Hj Ha. rewrite GV by assumption. change (vrow (last_rows n0 gd) j) with (vrow gd (n0 + j)).
      rewrite FV by assumption. rewrite (b_value d (sym_dim d) n0 n1 e ca sg gd Sgd HE) by assumption.
      pose proof (pair_lt n1 d j a Hj Ha) as HJ.
      pose proof (HL (n0 * sym_dim d + (j * d + a))%nat ltac:(lia)) as E.
      cbv beta in E. rewrite pad_controls_get in E. unfold pad in E. destruct (Nat.ltb_spec (n0 * sym_dim d + (j * d + a)) (n0 * sym_dim d)); [lia|].
      replace (n0 * sym_dim d + (j * d + a) - n0 * sym_dim d)%nat with (j * d + a)%nat in E by lia. unfold fvec in E. rewrite <- E.
      apply rsum_ext. intros; ring.
    - intros i a b Hi Ha Hb. rewrite !GJ by assumption. change (strain d f (vrow gd i) a b = 0).
      apply (coords_zero d e _ He (strain_sym _ _)); [|assumption|assumption].
      intros t Ht. assert (Hk : ca <> 0) by (apply (ka_nonzero (sym_dim d) n0 n1 e ca sg (vrow gd)); [lia|lia|exact HN]).
      rewrite coords_strain by assumption. rewrite (coords_ext d e _ _ t (fun a c Ha Hc => FJ (vrow gd i) a c Ha Hc)).
      apply (Rmult_eq_reg_l ca); [|assumption].
      rewrite (b_strain d (sym_dim d) n0 n1 e ca sg gd Sgd HE) by assumption.
      pose proof (HL (i * sym_dim d + t)%nat ltac:(pose proof (pair_lt n0 (sym_dim d) i t Hi Ht); lia)) as E. cbv beta in E. rewrite pad_controls_get in E. unfold pad in E.
      destruct (Nat.ltb_spec (i * sym_dim d + t) (n0 * sym_dim d)); [|pose proof (pair_lt n0 (sym_dim d) i t Hi Ht); lia].
      rewrite Rmult_0_r, <- E. apply rsum_ext. intros; ring.
  Qed.
End Strain.
