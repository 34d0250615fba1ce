(** Two points moved by the same field over one step; the bounds read from given controls. *)
From Coq Require Import Reals String List Arith Lia Lra Psatz.
From Verif Require Import Py RSum Tensor TensorFacts KernelModel FieldModel GeometryModel ModuleModel ShootingModel
  SpecField SpecGeometry SpecModule SpecShooting SpecTransport FieldFacts FieldLinear GeometryFacts ModuleAlg ModuleMain ModuleHistory
  ShootingPack ShootingDyn ShootingInst MotionFacts MotionShoot MotionMomentum TransportFacts LipschitzFacts.
Import ListNotations.
Open Scope R_scope.

Lemma dist1_zero d u v : dist1 d u v <= 0 -> forall a, (a < d)%nat -> u a = v a.
Proof.
  intros H a Ha. assert (Z : Rabs (u a - v a) = 0).
  { apply (rsum_nonneg_zero d (fun a => Rabs (u a - v a))); [intros; apply Rabs_pos| |exact Ha]. apply Rle_antisym; [exact H|]. apply rsum_nonneg. intros. apply Rabs_pos. }
  destruct (Req_dec (u a - v a) 0) as [E|E]; [lra|]. elim (Rabs_no_R0 _ E Z).
Qed.
Lemma dist1_pos d u v a : (a < d)%nat -> u a <> v a -> 0 < dist1 d u v.
Proof. intros Ha N. destruct (Rlt_le_dec 0 (dist1 d u v)) as [|H]; [assumption|]. elim (N (dist1_zero d u v H a Ha)). Qed.

Lemma sum_over_nneg x y : 0 <= x -> 0 < y -> 0 <= x / y.
Proof. intros X Y. unfold Rdiv. apply Rmult_le_pos; [exact X|]. apply Rlt_le, Rinv_0_lt_compat, Y. Qed.
Lemma rate_nneg d f : wf_field d f -> 0 <= rate d f.
Proof.
  induction f as [b s m sg|b s m u sg|b s m sg|b s m sg|b s m sg|A x0 u|m|d'|fs IH] using sfield_ind'; intros W; cbn [wf_field] in W; cbn [rate].
  1-5: destruct W as (Hs & _); assert (0 < sg ^ 2) by (pose proof (Rsqr_pos_lt sg Hs) as Q; unfold Rsqr in Q; nra).
  1-5: apply sum_over_nneg; [|first [apply Rabs_pos_lt; exact Hs|assumption]].
  3: apply Rmult_le_pos; [apply pos_INR|].
  1-5: apply rsum_nonneg; intros; try apply Rmult_le_pos; repeat (apply rsum_nonneg; intros); apply Rabs_pos.
  - repeat (apply rsum_nonneg; intros). apply Rabs_pos.
  - lra.
  - lra.
  - destruct W as (_ & W). induction IH as [|f fs Hf _ IHs]; cbn [fold_right] in *; [lra|]. specialize (Hf (proj1 W)). specialize (IHs (proj2 W)). lra.
Qed.

(** u' = u + h f(u), v' = v + h f(v). *)
Lemma step_dist d f h L u v u' v' : wf_field d f -> 0 <= h -> rate d f <= L ->
  (forall a, (a < d)%nat -> u' a = u a + h * fval d f u a) -> (forall a, (a < d)%nat -> v' a = v a + h * fval d f v a) ->
  (1 - h * L) * dist1 d u v <= dist1 d u' v' <= (1 + h * L) * dist1 d u v.
Proof.
  intros W Hh HL Hu Hv. pose proof (field_lip d f W u v) as F. pose proof (dist1_nneg d u v) as D.
  assert (G : dist1 d (fval d f u) (fval d f v) <= L * dist1 d u v) by nra.
  assert (A : dist1 d u' v' <= dist1 d u v + h * dist1 d (fval d f u) (fval d f v)).
  { unfold dist1. rewrite <- rsum_scal, <- rsum_plus. apply rsum_le. intros a Ha. rewrite (Hu a Ha), (Hv a Ha).
    replace (u a + h * fval d f u a - (v a + h * fval d f v a)) with ((u a - v a) + h * (fval d f u a - fval d f v a)) by ring.
    eapply Rle_trans; [apply Rabs_triang|]. rewrite Rabs_mult, (Rabs_pos_eq h Hh). lra. }
  assert (B : dist1 d u v <= dist1 d u' v' + h * dist1 d (fval d f u) (fval d f v)).
  { unfold dist1. rewrite <- rsum_scal, <- rsum_plus. apply rsum_le. intros a Ha. rewrite (Hu a Ha), (Hv a Ha).
    replace (u a - v a) with ((u a + h * fval d f u a - (v a + h * fval d f v a)) + - (h * (fval d f u a - fval d f v a))) at 1 by ring.
    eapply Rle_trans; [apply Rabs_triang|]. rewrite Rabs_Ropp, Rabs_mult, (Rabs_pos_eq h Hh). lra. }
  nra.
Qed.

Lemma point_skel g g' j i u : skel g = skel g' -> point_at g j i u -> exists u', point_at g' j i u'.
Proof.
  intros K (gs & dim & nb & x & c & -> & E & I & _). destruct g' as [| | | | |gs']; try discriminate K. cbn [skel] in K. injection K as K.
  assert (E' : nth_error (map skel gs) j = Some (GLm dim nb (mk0 0) (mk0 0))) by (rewrite nth_error_map, E; reflexivity).
  rewrite K, nth_error_map in E'. destruct (nth_error gs' j) as [g|] eqn:G; [|discriminate E']. cbn in E'. destruct g; try discriminate E'. cbn in E'. injection E' as -> ->.
  eexists. exists gs', dim, nb, gd, cotan. repeat (split; [eassumption || reflexivity|]). reflexivity.
Qed.
Lemma wf_members d gs : forall j g, wf_gman d (GComp gs) -> nth_error gs j = Some g -> wf_gman d g.
Proof.
  induction gs as [|g0 gs IH]; intros j g W E; [destruct j; discriminate E|]. cbn in W. destruct j as [|j]; [injection E as <-; exact (proj1 W)|]. exact (IH j g (proj2 W) E).
Qed.

Definition drives (d : nat) : list dmod -> list ctrl -> option R :=
  fix go (ms : list dmod) (cs : list ctrl) : option R :=
    match ms, cs with
    | [], [] => Some 0
    | m :: ms', c :: cs' => match drive d m c, go ms' cs' with Some r, Some r' => Some (r + r') | _, _ => None end
    | _, _ => None
    end.

Lemma drive_rate sv d m : forall m1 c r mn f, params m1 = params m -> wf_mod d m1 -> drive d m c = Some r -> fill_controls sv m1 c = Ok mn ->
  field_generator mn = Ok f -> rate d f = r.
Proof.
  induction m as [m NC|ms IH] using dmod_ind'; intros m1 c r mn f P W D F G.
  - destruct m; try (elim (NC ms eq_refl)); destruct c as [t|l]; try discriminate D; destruct m1; try discriminate P; try discriminate F;
      cbn [params] in P; cbn [drive] in D; injection D as <-; cbn [fill_controls] in F; cbn [wf_mod] in W; try injection P; intros; subst.
    + injection F as <-. injection G as <-. reflexivity.
    + injection F as <-. injection G as <-. destruct W as (_ & _ & S & _). cbn [rate]. unfold nrows. rewrite S. reflexivity.
    + injection F as <-. injection G as <-. destruct W as (_ & _ & _ & _ & S & _). cbn [rate]. unfold nrows. rewrite S. reflexivity.
    + destruct (shape t); [|discriminate F]. injection F as <-. injection G as <-. cbn [rate]. rewrite <- rsum_scal. apply rsum_ext. intros a _.
      rewrite <- rsum_scal. apply rsum_ext. intros b _. cbn [tscal tmap get]. apply Rabs_mult.
    + injection F as <-. injection G as <-. reflexivity.
    + injection F as <-. injection G as <-. reflexivity.
  - destruct c as [t|cs]; [discriminate D|]. destruct m1 as [| | | | | | | | | |ms1]; try discriminate P. cbn [params] in P. injection P as P.
    change (drives d ms cs = Some r) in D. rewrite fill_comp in F. destruct (Nat.eqb (length cs) (length ms1)); [|discriminate F].
    destruct (fills sv ms1 cs) as [ms'|] eqn:Fs; [|discriminate F]. injection F as <-.
    change ((fs <- fields ms' ;; sum_ctor fs) = Ok f) in G. destruct (fields ms') as [fs|] eqn:Es; [|discriminate G]. cbn [bind] in G.
    assert (X : rate d (SF_sum fs) = r).
    { destruct W as (_ & W). clear G. revert ms1 cs r ms' fs P W D Fs Es. induction IH as [|m ms Hm _ IHs]; intros ms1 cs r ms' fs P W D Fs Es.
      - destruct ms1; [|discriminate P]. destruct cs; [|discriminate D]. injection Fs as <-. injection Es as <-. injection D as <-. reflexivity.
      - destruct ms1 as [|m1 ms1]; [discriminate P|]. destruct cs as [|c cs]; [discriminate D|]. cbn [map] in P. injection P as P1 P2. cbn [fold_right] in W. destruct W as (W1 & W2).
        cbn [drives] in D. destruct (drive d m c) as [r1|] eqn:D1; [|discriminate D]. fold (drives d) in D. destruct (drives d ms cs) as [r2|] eqn:D2; [|discriminate D]. injection D as <-.
        cbn [fills] in Fs. destruct (fill_controls sv m1 c) as [m'|] eqn:F1; [|discriminate Fs]. cbn [bind] in Fs. fold (fills sv) in Fs. destruct (fills sv ms1 cs) as [ms2|] eqn:F2; [|discriminate Fs]. injection Fs as <-.
        cbn [fields] in Es. destruct (field_generator m') as [f1|] eqn:G1; [|discriminate Es]. cbn [bind] in Es. fold fields in Es. destruct (fields ms2) as [fs2|] eqn:G2; [|discriminate Es]. injection Es as <-.
        cbn [rate fold_right]. rewrite (Hm m1 c r1 m' f1 P1 W1 D1 F1 G1). f_equal. exact (IHs ms1 cs r2 ms2 fs2 P2 W2 D2 F2 G2). }
    unfold sum_ctor in G. destruct fs as [|g fs]; [discriminate G|]. destruct (forallb _ fs); [|discriminate G]. injection G as <-. exact X.
Qed.

Lemma state_rate sv b0 d l n m g mn c r f : wf_mod d m -> locals_total d m -> skel g = skel (mod_manifold m) -> map shape (phase g) = map shape (phase (mod_manifold m)) ->
  at_state m (step_controls sv b0 (Some l) n) (phase g) = Ok mn -> nth_error l n = Some c -> drive d m c = Some r -> field_generator mn = Ok f -> rate d f = r.
Proof.
  intros W LT K S A E D G. unfold phase in S. apply app_shapes in S; [|rewrite !g_gd_len; apply skel_len; exact K]. destruct S as (S1 & S2).
  unfold at_state in A. rewrite (write_phase m g K) in A. destruct (set_ok m g K) as (m1 & E1 & M1 & P1 & _). rewrite E1 in A. cbn [bind] in A.
  pose proof (wf_set d m g m1 W LT K S1 S2 E1) as W1. unfold step_controls in A. rewrite E in A.
  exact (drive_rate sv d m m1 c r mn f (frozen_params _ _ P1) W1 D A G).
Qed.
