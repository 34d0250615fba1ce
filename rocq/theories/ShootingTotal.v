(** When does a shooting succeed. *)
From Coq Require Import Reals String List Arith ZArith Lia Lra.
From Verif Require Import Py RSum Tensor TensorFacts KernelModel FieldModel GeometryModel ModuleModel ShootingModel
  SpecField SpecGeometry SpecModule SpecShooting FieldFacts ModuleAlg ModuleMain ModuleLeaves ModuleHistory GeometryFacts
  ShootingPack ShootingDyn ShootingRun ShootingScheme ShootingMain ShootingInst ShootingFinal.
Import ListNotations.
Open Scope R_scope.

Section Total.
  Variables (sv : solver) (b0 : backend) (ag : autograd) (t1 : R) (it : nat) (controls : option (list ctrl)) (keep : bool) (m0 : dmod).
  Hypotheses (T1 : 0 < t1) (IT : (0 < it)%nat).
  Notation forward := (forward real_clock sv b0 ag t1 it controls keep).
  Notation run_strat := (run_strat real_clock sv b0 ag t1 it controls keep).
  Notation g := (g t1 it).
  Notation dt := (dt t1 it).
  Notation g0 := (mod_manifold m0).
  Notation wm := (with_mom controls).
  Variables (sch : scheme) (Inv : fstate -> Prop) (sx : list nat) (conv : tensor -> gman).
  Hypothesis fwdT : forall n t x s, Inv s -> shape x = sx -> f_it s = n -> (n < it * evaluations sch)%nat ->
    t_to_it real_clock t1 it t = Ok (Z.of_nat (cell sch it n)) ->
    exists y s', forward t x s = Ok (y, s') /\ Inv s' /\ shape y = sx.
  Hypothesis Inv0 : Inv (mkF m0 0 0 [] []).
  Hypothesis InvK : forall s, Inv s -> skel (mod_manifold (f_mod s)) = skel g0.
  Hypothesis conv_ok : forall s, Inv s -> exists gs, member_manifolds (f_mod s) = Ok gs /\ forall x, shape x = sx ->
    unpack_into gs (mod_manifold (f_mod s)) x wm = Ok (conv x) /\ unpack_into gs g0 x wm = Ok (conv x) /\ skel (conv x) = skel g0.

  Lemma eval_total n t x s k : Inv s -> shape x = sx -> f_it s = n -> (n < it * evaluations sch)%nat ->
    t_to_it real_clock t1 it t = Ok (Z.of_nat (cell sch it n)) ->
    exists y s', run_strat (Ask t x k) s = run_strat (k y) s' /\ Inv s' /\ shape y = sx /\ f_it s' = S n.
  Proof.
    intros I S N B C. destruct (fwdT n t x s I S N B C) as (y & s' & E & I' & S'). exists y, s'. cbn [ShootingModel.run_strat]. rewrite E. cbn [bind].
    split; [reflexivity|]. split; [assumption|]. split; [assumption|]. destruct (forward_book _ _ _ _ _ _ _ _ _ _ _ _ _ E) as (i & _ & _ & Ni & _). lia.
  Qed.

  Lemma step_total k rest y0 s : (k < it)%nat -> Inv s -> shape y0 = sx -> f_it s = (k * evaluations sch)%nat ->
    exists dy s1, run_strat (inc_of sch (g k) (g (S k)) y0 rest) s = run_strat (rest dy) s1 /\ Inv s1 /\ shape dy = sx /\ f_it s1 = (S k * evaluations sch)%nat.
  Proof.
    intros K I S0 N.
    assert (TA : forall c, 0 <= c -> c < 1 -> t_to_it real_clock t1 it (g k + c * dt) = Ok (Z.of_nat k)) by (intros; apply cell_time; assumption).
    assert (T0 : t_to_it real_clock t1 it (g k) = Ok (Z.of_nat k)) by (replace (g k) with (g k + 0 * dt) by ring; apply TA; lra).
    assert (GS : g (S k) - g k = dt) by (apply g_step; assumption).
    pose proof eval_total as ET. clear fwdT.
    destruct sch; cbn [inc_of evaluations] in *.
    - unfold euler_inc. destruct (ET (k * 1 + 0)%nat (g k) y0 s (fun f0 => rest (tscal (toR real_clock (t_sub real_clock (g (S k)) (g k))) f0))) as (y & s1 & E & I1 & S1 & N1); try assumption; [lia|lia| |].
      { rewrite cell_euler. exact T0. }
      rewrite E. do 2 eexists. split; [reflexivity|]. split; [assumption|]. split; [exact S1|lia].
    - unfold midpoint_inc. cbn [toR t_sub t_half t_add real_clock]. rewrite GS.
      match goal with |- context [ShootingModel.run_strat _ _ _ _ _ _ _ _ (Ask ?t ?x ?kk) s] => destruct (ET (k * 2 + 0)%nat t x s kk) as (y & s1 & E & I1 & S1 & N1); try assumption; [lia|lia| |] end.
      { rewrite cell_mid by lia. exact T0. }
      rewrite E. cbn beta.
      match goal with |- context [ShootingModel.run_strat _ _ _ _ _ _ _ _ (Ask ?t ?x ?kk) s1] => destruct (ET (k * 2 + 1)%nat t x s1 kk) as (y2 & s2 & E2 & I2 & S2 & N2); try assumption; [lia|nia| |] end.
      { rewrite cell_mid by lia. apply TA; lra. }
      rewrite E2. do 2 eexists. split; [reflexivity|]. split; [assumption|]. split; [exact S2|lia].
    - unfold rk4_inc. cbn [toR t_sub t_third t_two_thirds t_add real_clock]. rewrite GS.
      match goal with |- context [ShootingModel.run_strat _ _ _ _ _ _ _ _ (Ask ?t ?x ?kk) s] => destruct (ET (k * 4 + 0)%nat t x s kk) as (y & s1 & E & I1 & S1 & N1); try assumption; [lia|lia| |] end.
      { rewrite cell_rk by lia. exact T0. }
      rewrite E. cbn beta.
      match goal with |- context [ShootingModel.run_strat _ _ _ _ _ _ _ _ (Ask ?t ?x ?kk) s1] => destruct (ET (k * 4 + 1)%nat t x s1 kk) as (y2 & s2 & E2 & I2 & S2 & N2); try assumption; [lia|nia| |] end.
      { rewrite cell_rk by lia. rewrite (Rmult_comm dt). apply TA; lra. }
      rewrite E2. cbn beta.
      match goal with |- context [ShootingModel.run_strat _ _ _ _ _ _ _ _ (Ask ?t ?x ?kk) s2] => destruct (ET (k * 4 + 2)%nat t x s2 kk) as (y3 & s3 & E3 & I3 & S3 & N3); try assumption; [lia|nia| |] end.
      { rewrite cell_rk by lia. rewrite (Rmult_comm dt). apply TA; lra. }
      rewrite E3. cbn beta.
      match goal with |- context [ShootingModel.run_strat _ _ _ _ _ _ _ _ (Ask ?t ?x ?kk) s3] => destruct (ET (k * 4 + 3)%nat t x s3 kk) as (y4 & s4 & E4 & I4 & S4 & N4); try assumption; [lia|nia| |] end.
      { rewrite cell_rk3. apply cell_next; assumption. }
      rewrite E4. do 2 eexists. split; [reflexivity|]. split; [assumption|]. split; [exact S1|lia].
  Qed.

  Lemma grid_total n : forall k y0 acc s, (k + n = it)%nat -> Inv s -> shape y0 = sx -> f_it s = (k * evaluations sch)%nat ->
    exists ys s', run_strat (fixed_grid real_clock (inc_of sch) (g k) (map g (seq (S k) n)) y0 acc) s = Ok (acc ++ ys, s') /\
      length ys = n /\ Forall (fun y => shape y = sx) ys /\ Inv s'.
  Proof.
    induction n as [|n IH]; intros k y0 acc s K I S0 N; cbn [seq map fixed_grid].
    - exists [], s. rewrite app_nil_r. split; [reflexivity|]. split; [reflexivity|]. split; [constructor|assumption].
    - match goal with |- context [inc_of sch ?a ?b y0 ?r] => destruct (step_total k r y0 s ltac:(lia) I S0 N) as (dy & s1 & E & I1 & S1 & N1) end.
      match goal with |- context [ShootingModel.run_strat _ _ _ _ _ _ _ _ ?p ?z] => replace (run_strat p z) with (run_strat (fixed_grid real_clock (inc_of sch) (g (S k)) (map g (seq (S (S k)) n)) (tadd y0 dy) (acc ++ [tadd y0 dy])) s1) by (symmetry; exact E) end.
      destruct (IH (S k) (tadd y0 dy) (acc ++ [tadd y0 dy]) s1 ltac:(lia) I1 S0 N1) as (ys & s' & R & L & F & I').
      exists (tadd y0 dy :: ys), s'. rewrite R, <- app_assoc. split; [reflexivity|]. split; [cbn; lia|]. split; [constructor; assumption|assumption].
  Qed.

  Lemma shoot_total x0 others costs0 : initial_state g0 wm = Ok x0 -> shape x0 = sx ->
    is_ok (shoot real_clock others sv b0 ag (scheme_name sch) it t1 controls keep costs0 m0).
  Proof.
    intros X0 SX. unfold shoot. replace (String.eqb (scheme_name sch) "torch_euler") with false by (destruct sch; reflexivity). rewrite find_scheme.
    unfold shoot_torchdiffeq. rewrite X0. cbn [bind].
    assert (GR : linspace real_clock t1 (it + 1) = g 0 :: map g (seq 1 it)).
    { cbn [linspace real_clock]. rewrite Nat.add_1_r. cbn [seq map]. unfold ShootingScheme.g. replace (S it - 1)%nat with it by lia. reflexivity. }
    rewrite GR. cbn [fixed_solver].
    destruct (grid_total it 0 x0 [x0] _ eq_refl Inv0 SX eq_refl) as (ys & s & R & L & F & I).
    match goal with |- context [ShootingModel.run_strat _ _ _ _ _ _ _ _ ?p ?z] => replace (run_strat p z) with (Ok ([x0] ++ ys, s)) by (symmetry; exact R) end.
    cbn [bind app]. destruct (conv_ok s I) as (gs & Eg & CO). rewrite Eg. cbn [bind].
    assert (SXS : Forall (fun x => shape x = sx) (x0 :: ys)) by (constructor; assumption).
    destruct (rev (x0 :: ys)) as [|xl r] eqn:RV; [apply (f_equal (@length _)) in RV; rewrite rev_length in RV; discriminate|]. cbn [bind].
    assert (XL : shape xl = sx).
    { rewrite Forall_forall in SXS. apply SXS. apply in_rev. rewrite RV. left. reflexivity. }
    destruct (CO xl XL) as (U1 & _ & K1). rewrite U1. cbn [bind].
    destruct (set_ok (f_mod s) (conv xl)) as (m1 & E1 & _); [rewrite K1; symmetry; apply InvK; assumption|]. rewrite E1. cbn [bind].
    destruct keep; [|eexists; reflexivity].
    rewrite (mapM_seq (fun x => unpack_into gs g0 x wm) _ (x0 :: ys)); [|cbn; lia|].
    - rewrite (mapM_pure _ conv); [eexists; reflexivity|]. eapply Forall_impl; [|exact SXS]. intros x Sx. exact (proj1 (proj2 (CO x Sx))).
    - intros i a Ha. cbn [Nat.add]. rewrite Ha. reflexivity.
  Qed.
End Total.

Lemma clone_simple ms : Forall simple (map mod_manifold ms) -> is_ok (clone_controls (controls (MComp ms))).
Proof.
  intros F. cbn [controls clone_controls]. induction ms as [|m ms IH]; [eexists; reflexivity|]. cbn [map] in F. inversion F as [|? ? F1 F2]; subst.
  destruct (IH F2) as (r & Er). cbn [map mapM]. destruct m; try (elim F1); cbn [controls bind]; rewrite Er; eexists; reflexivity.
Qed.

Lemma cat_rows_total r N l : numel l = (r * N)%nat -> (0 < r)%nat -> (0 < N)%nat -> exists v y, cat_flat l = Ok v /\ view_rows r v = Ok y.
Proof.
  intros NL R P. destruct l as [|t l]; [cbn in NL; lia|]. eexists. destruct (view_rows r (mk1 (numel (t :: l)) (cat_get (t :: l)))) as [y|e] eqn:E.
  - exists y. split; [reflexivity|exact E].
  - exfalso. unfold view_rows in E. cbn [shape mk1] in E. unfold tnth in E. cbn [nth] in E. rewrite NL in E.
    destruct (Nat.eqb_spec (r * N) 0); [nia|]. replace ((r * N) mod r)%nat with 0%nat in E by (rewrite Nat.mul_comm, Nat.mod_mul; lia). discriminate.
Qed.

Section Whole.
  Variables (sv : solver) (b0 : backend) (ag : autograd) (t1 : R) (it : nat) (keep : bool) (ms : list dmod).
  Hypotheses (T1 : 0 < t1) (IT : (0 < it)%nat).
  Notation m0 := (MComp ms).
  Notation g0 := (mod_manifold m0).
  Notation geo := (geodesic_controls sv b0).
  Hypotheses (SI : Forall simple (map mod_manifold ms)) (SP : shaped g0) (NP : (0 < numel (g_gd g0))%nat).

  Lemma NPs : (0 < N ms)%nat.
  Proof. destruct (gd_shapes ms SI SP) as (A & _). rewrite <- (numel_shs _ _ A). exact NP. Qed.

  Lemma kept_total m acc : skel (mod_manifold m) = skel g0 -> (exists ms', m = MComp ms') -> is_ok (kept keep m acc).
  Proof.
    intros K (ms' & ->). unfold kept. destruct keep; [|eexists; reflexivity]. destruct (clone_simple ms') as (c & Ec).
    - cbn [mod_manifold skel] in K. injection K as K. exact (simple_skels _ _ (eq_sym K) SI).
    - rewrite Ec. eexists. reflexivity.
  Qed.

  Theorem moments_total others sch costs0 : exact_grad ag ->
    (forall m, frozen m = frozen m0 -> skel (mod_manifold m) = skel g0 ->
       map shape (g_gd (mod_manifold m)) = map shape (g_gd g0) -> map shape (g_cotan (mod_manifold m)) = map shape (g_gd g0) ->
       exists m2, geo m = Ok m2 /\ is_ok (cost m2) /\ is_ok (ag (ham_of m2 geo) (phase (mod_manifold m2)))) ->
    is_ok (shoot real_clock others sv b0 ag (scheme_name sch) it t1 None keep costs0 m0).
  Proof.
    intros EX TOT. destruct (gd_shapes ms SI SP) as (GA & GB). pose proof NPs as NP'.
    destruct (initial_state_ok g0 (N ms) (numel_shs _ _ GA) (numel_shs _ _ GB) NP') as (x0 & Ex0 & SX & _ & _).
    apply (shoot_total sv b0 ag t1 it None keep m0 T1 IT sch (Inv2 ms) [2%nat; N ms] (conv ms true)) with (x0 := x0); try assumption.
    - intros n t x s I S Nn B C.
      assert (X : exists y s', forward real_clock sv b0 ag t1 it None keep t x s = Ok (y, s')).
      { destruct I as (IF & IK). unfold forward. rewrite C. cbn [bind]. destruct (member_ok ms (f_mod s) IK (frozen_comp ms _ IF)) as (gs & Eg & EM & KS). rewrite Eg. cbn [bind].
        destruct (unpack_state ms SI (f_mod s) gs x IK EM KS S (mod_manifold (f_mod s)) IK) as (h & U & PH & Kg & Sq & Sp). rewrite U. cbn [bind].
        destruct (set_ok (f_mod s) h) as (m1 & E1 & M1 & F1 & _); [congruence|]. rewrite E1. cbn [bind].
        destruct (TOT m1) as (m2 & E2 & (c & Ec) & (G & EG)); try (rewrite M1); try congruence. rewrite E2. cbn [bind].
        destruct (geo_frozen sv b0 _ _ _ E2) as (F2 & M2).
        destruct (kept_total m2 (f_controls s)) as (ks & Ek); [congruence|apply (frozen_comp ms); congruence|]. rewrite Ek. cbn [bind].
        destruct (delta_ok ag EX _ _ _ EG) as (delta & En & Sd & _).
        assert (GR : exists dq dp, gradients ag m2 geo = Ok (dq, dp)) by (unfold gradients; fold (phase (mod_manifold m2)); rewrite EG; cbn [bind]; rewrite En; cbn [bind]; eauto).
        destruct GR as (dq & dp & EGR). rewrite EGR. cbn [bind].
        assert (GM : mod_manifold m2 = h) by congruence.
        destruct (gradients_ok ag EX m2 geo dq dp (length (shs ms)) EGR) as (Sdq & Sdp & _); rewrite ?GM; try (rewrite <- (map_length shape)); try congruence.
        rewrite GM in Sdq, Sdp.
        match goal with |- context [bind (if ?b then _ else _) _] => assert (CC : exists c', (if b then (z <- cost m2 ;; Ok (f_costs s ++ [z])) else Ok (f_costs s)) = Ok c') by (destruct b; rewrite ?Ec; eexists; reflexivity) end.
        destruct CC as (c' & ->). cbn [bind].
        assert (NK : numel (dp ++ map topp dq) = (2 * N ms)%nat).
        { rewrite (numel_shapes_of _ (shs ms ++ shs ms)); [rewrite shapes_numel_app; fold (N ms); lia|].
          rewrite map_app, map_map. cbn [shape topp tmap]. change (map (fun z => shape z) dq) with (map shape dq). congruence. }
        destruct (cat_rows_total 2 (N ms) _ NK ltac:(lia) NP') as (v & y & Ev & Ey). rewrite Ev. cbn [bind]. rewrite Ey. cbn [bind]. eauto. }
      destruct X as (y & s' & E). exists y, s'. split; [exact E|]. destruct (fwd2 sv b0 ag ms SI real_clock t1 it keep EX t x s y s' I S E) as (A & B' & _). auto.
    - split; reflexivity.
    - intros s I. exact (proj2 I).
    - intros s I. destruct I as (IF & IK). destruct (member_ok ms (f_mod s) IK (frozen_comp ms _ IF)) as (gs & Eg & EM & KS). exists gs. split; [assumption|]. intros x S.
      destruct (conv2 ms SI gs (mod_manifold (f_mod s)) x KS IK S) as (U1 & _ & K1 & _). destruct (conv2 ms SI gs g0 x KS eq_refl S) as (U2 & _). auto.
  Qed.

  Theorem controls_total others sch costs0 d cs : exact_solver sv ->
    (forall q m1 c, map shape q = map shape (g_gd g0) -> write_manifold m0 (q ++ g_cotan g0) = Ok m1 -> In c cs ->
       wf_mod d m1 /\ ctrl_ok d m1 c /\ is_ok (fill_controls sv m1 c)) ->
    (forall n, (n < it * evaluations sch)%nat -> is_ok (py_nth cs (control_index it (length cs) (Z.of_nat (cell sch it n)) n))) ->
    is_ok (shoot real_clock others sv b0 ag (scheme_name sch) it t1 (Some cs) keep costs0 m0).
  Proof.
    intros HS RD IN. destruct (gd_shapes ms SI SP) as (GA & GB). pose proof NPs as NP'.
    destruct (initial_state1_ok g0 (N ms) (numel_shs _ _ GA) (numel_shs _ _ GB) NP') as (x0 & Ex0 & SX & _).
    apply (shoot_total sv b0 ag t1 it (Some cs) keep m0 T1 IT sch (Inv1 ms) [1%nat; N ms] (conv ms false)) with (x0 := x0); try assumption.
    - intros n t x s I S Nn B C.
      assert (X : exists y s', forward real_clock sv b0 ag t1 it (Some cs) keep t x s = Ok (y, s')).
      { destruct I as (IP & IK & IC). unfold forward. rewrite C. cbn [bind]. destruct (member_ok ms (f_mod s) IK (params_comp ms _ IP)) as (gs & Eg & EM & KS). rewrite Eg. cbn [bind].
        destruct (unpack_state1 ms SI (f_mod s) gs x IK EM KS S (mod_manifold (f_mod s)) IK) as (h & U & PH & GC & Kg & Sq). rewrite U. cbn [bind].
        destruct (set_ok (f_mod s) h) as (m1 & E1 & M1 & F1 & _); [congruence|]. rewrite E1. cbn [bind].
        destruct (IN n B) as (c & Ec).
        assert (CO : choose_control it cs (Z.of_nat (cell sch it n)) (f_it s) = Ok c).
        { rewrite Nn. unfold choose_control. unfold control_index in Ec. destruct (Nat.eqb (length cs) it); [exact Ec|]. destruct (Nat.ltb it (length cs)); exact Ec. }
        rewrite CO. cbn [bind]. pose proof (py_nth_In _ _ _ Ec) as INC.
        assert (Lq : length (g_gd h) = length (shs ms)) by (rewrite <- Sq, map_length; reflexivity).
        assert (Lp : length (g_cotan g0) = length (shs ms)) by (rewrite <- GB, map_length; reflexivity).
        destruct (write_ok m0 (g_gd h) (g_cotan g0)) as (w & W & G1 & C1 & K1 & FW); [rewrite (gd_len ms SI); assumption|rewrite (gd_len ms SI); assumption|].
        destruct (RD (g_gd h) w c ltac:(congruence) W INC) as (WF & OKC & (m2 & FIL)).
        assert (E2 : fill_controls sv m1 c = Ok m2).
        { rewrite <- (fill_determined sv w m1 c); [exact FIL|rewrite (frozen_params _ _ F1), (frozen_params _ _ FW); symmetry; assumption|rewrite M1; apply g_ext; congruence]. }
        rewrite E2. cbn [bind].
        assert (M2 : mod_manifold m2 = h) by (rewrite (fill_manifold _ _ _ _ E2); assumption).
        assert (P2 : params m2 = params m0) by (rewrite (fill_params _ _ _ _ E2); rewrite (frozen_params _ _ F1); assumption).
        destruct (kept_total m2 (f_controls s)) as (ks & Ek); [congruence|apply (params_comp ms); assumption|]. rewrite Ek. cbn [bind].
        destruct (module_leaf sv b0 d w HS WF (ex_intro _ c (ex_intro _ m2 (conj OKC FIL)))) as (QQ & LF).
        destruct (pk_fill _ _ _ _ (lf_pack _ _ _ _ _ LF) c OKC) as (m2' & f' & A1 & A2 & A3 & (A4 & A5 & A6 & _)). rewrite FIL in A1. injection A1 as <-.
        match goal with |- context [bind (if ?b then _ else _) _] => assert (CC : exists c', (if b then (z <- cost m2 ;; Ok (f_costs s ++ [z])) else Ok (f_costs s)) = Ok c') by (destruct b; rewrite ?A2; eexists; reflexivity) end.
        destruct CC as (c' & ->). cbn [bind]. rewrite A3. cbn [bind].
        assert (WG : wf_gman d (mod_manifold m2)) by (rewrite (fill_manifold _ _ _ _ FIL); exact (proj1 (wf_mod_manifold d w WF))).
        destruct (inner_is_tree_dot d (mod_manifold m2) (feval f')) as (tn & Et & _); [assumption| |].
        { apply answers_field; assumption. }
        rewrite Et. cbn [bind].
        assert (NT : numel (g_tan tn) = (1 * N ms)%nat).
        { rewrite (action_numel d (feval f') (mod_manifold m2)) with (tn := tn); [rewrite M2, (numel_shs _ _ Sq); lia|assumption|apply answers_field; assumption|assumption]. }
        destruct (cat_rows_total 1 (N ms) _ NT ltac:(lia) NP') as (v & y & Ev & Ey). rewrite Ev. cbn [bind]. rewrite Ey. cbn [bind]. eauto. }
      destruct X as (y & s' & E). exists y, s'. split; [exact E|].
      destruct (fwd1 sv b0 ag ms SI SP real_clock t1 it keep d cs HS) with (t := t) (x := x) (s := s) (y := y) (s' := s') as (A & B' & _); try assumption; [|auto].
      intros q w c Sq W INC. destruct (RD q w c ltac:(congruence) W INC) as (R1 & R2 & _). auto.
    - split; [reflexivity|]. split; reflexivity.
    - intros s I. exact (proj1 (proj2 I)).
    - intros s I. destruct I as (IF & IK & IC). destruct (member_ok ms (f_mod s) IK (params_comp ms _ IF)) as (gs & Eg & EM & KS). exists gs. split; [assumption|]. intros x S.
      destruct (conv1 ms SI gs (mod_manifold (f_mod s)) x KS IK IC S) as (U1 & _ & _ & K1). destruct (conv1 ms SI gs g0 x KS eq_refl eq_refl S) as (U2 & _). auto.
  Qed.
End Whole.

(** ** torch_euler *)
Section EulerTotal.
  Variables (sv : solver) (b0 : backend) (ag : autograd) (m0 : dmod).
  Hypothesis EX : exact_grad ag.
  Notation g0 := (mod_manifold m0).
  Notation geo := (geodesic_controls sv b0).
  Hypothesis TOT : forall m, frozen m = frozen m0 -> skel (mod_manifold m) = skel g0 ->
     map shape (g_gd (mod_manifold m)) = map shape (g_gd g0) -> map shape (g_cotan (mod_manifold m)) = map shape (g_gd g0) ->
     exists m2, geo m = Ok m2 /\ is_ok (ag (ham_of m2 geo) (phase (mod_manifold m2))).

  Lemma euler_step_total dt i m : frozen m = frozen m0 -> skel (mod_manifold m) = skel g0 ->
    map shape (g_gd (mod_manifold m)) = map shape (g_gd g0) -> map shape (g_cotan (mod_manifold m)) = map shape (g_gd g0) ->
    exists m', euler_step sv b0 ag dt None i m = Ok m' /\ frozen m' = frozen m0 /\ skel (mod_manifold m') = skel g0 /\
      map shape (g_gd (mod_manifold m')) = map shape (g_gd g0) /\ map shape (g_cotan (mod_manifold m')) = map shape (g_gd g0).
  Proof.
    intros F K SG SC. unfold euler_step. cbn [step_controls]. destruct (TOT m F K SG SC) as (m1 & E1 & (G & EG)).
    change (step_controls sv b0 None i) with geo. change (step_controls sv b0 None i m) with (geo m). rewrite E1. cbn [bind].
    destruct (geo_frozen sv b0 _ _ _ E1) as (F1 & M1). destruct (delta_ok ag EX _ _ _ EG) as (delta & En & Sd & _).
    assert (GR : exists dq dp, gradients ag m1 geo = Ok (dq, dp)) by (unfold gradients; fold (phase (mod_manifold m1)); rewrite EG; cbn [bind]; rewrite En; cbn [bind]; eauto).
    destruct GR as (dq & dp & EGR). rewrite EGR. cbn [bind]. set (g := mod_manifold m) in *.
    destruct (gradients_ok ag EX m1 geo dq dp (g_len g) EGR) as (Sq & Sp & _); [rewrite M1; apply g_gd_len|rewrite M1; apply g_cotan_len|rewrite M1; unfold g in *; congruence|].
    rewrite M1 in *. fold g in Sq, Sp |- *.
    assert (Lq : length dq = g_len g) by (rewrite <- (map_length shape), Sq, map_length; apply g_gd_len).
    assert (Lp : length dp = g_len g) by (rewrite <- (map_length shape), Sp, map_length; apply g_gd_len).
    destruct (put_gd_ok g (map (tscal (- dt)) dq) []) as (a1 & P1 & _); [rewrite map_length; assumption|]. rewrite app_nil_r in P1. rewrite P1. cbn [bind].
    destruct (put_cotan_ok g (map (tscal dt) dp) []) as (a2 & P2 & _); [rewrite map_length; assumption|]. rewrite app_nil_r in P2. rewrite P2. cbn [bind].
    assert (X1 : length (g_gd g) = length (map (tscal dt) dp)) by (rewrite map_length, g_gd_len; auto).
    assert (X2 : length (g_cotan g) = length (map (tscal (- dt)) dq)) by (rewrite map_length, g_cotan_len; auto).
    assert (AL : forall a b : list tensor, length a = length b -> length (add_lists a b) = length a) by (intros; unfold add_lists; rewrite map_length, combine_length; lia).
    assert (AS : forall a b, length a = length b -> map shape (add_lists a b) = map shape a).
    { clear. induction a as [|x a IH]; intros b L; destruct b as [|y b]; try discriminate L; [reflexivity|]. cbn. f_equal. apply IH. cbn in L. lia. }
    destruct (put_gd_ok g (add_lists (g_gd g) (map (tscal dt) dp)) []) as (h1 & P3 & G1 & C1 & K1); [rewrite (AL _ _ X1); apply g_gd_len|].
    rewrite app_nil_r in P3. rewrite P3. cbn [bind]. rewrite C1.
    destruct (put_cotan_ok h1 (add_lists (g_cotan g) (map (tscal (- dt)) dq)) []) as (h2 & P4 & C2 & G2 & K2);
      [rewrite (AL _ _ X2), g_cotan_len; symmetry; apply skel_len; assumption|].
    rewrite app_nil_r in P4. rewrite P4. cbn [bind].
    destruct (set_ok m1 h2) as (m2 & E2 & M2 & F2 & _); [unfold g in *; congruence|]. exists m2. rewrite M2, C2, G2, G1, !AS by assumption.
    split; [assumption|]. split; [congruence|]. split; [congruence|]. auto.
  Qed.

  Lemma euler_total ck others it t1 costs0 : (0 < it)%nat -> map shape (g_cotan g0) = map shape (g_gd g0) ->
    is_ok (shoot ck others sv b0 ag "torch_euler" it t1 None false costs0 m0).
  Proof.
    intros IT B. unfold shoot. change (String.eqb "torch_euler" "torch_euler") with true. cbn iota. unfold shoot_euler. destruct (Nat.eqb_spec it 0); [lia|].
    assert (L : forall n i m acc, frozen m = frozen m0 -> skel (mod_manifold m) = skel g0 ->
       map shape (g_gd (mod_manifold m)) = map shape (g_gd g0) -> map shape (g_cotan (mod_manifold m)) = map shape (g_gd g0) ->
       is_ok (euler_loop sv b0 ag (1 / INR it) None false n i m acc)).
    { induction n0 as [|k IH]; intros i m acc F K SG SC; cbn [euler_loop]; [eexists; reflexivity|].
      destruct (euler_step_total (1 / INR it) i m F K SG SC) as (m' & E & F' & K' & SG' & SC'). rewrite E. cbn [bind]. apply IH; assumption. }
    destruct (L it 0%nat m0 (mkInter [g0] []) eq_refl eq_refl eq_refl B) as ((m' & acc') & E). rewrite E. eexists. reflexivity.
  Qed.
End EulerTotal.

(** ** Nested compounds *)
Lemma shaped_balanced g : shaped g -> map shape (g_cotan g) = map shape (g_gd g).
Proof.
  induction g as [g S|gs IH] using ShootingPack.gman_ind'; intros W.
  - destruct g; try (elim S); cbn [shaped] in W; try (exact (proj2 W)); reflexivity.
  - cbn [shaped] in W. cbn [g_gd g_cotan]. induction IH as [|g gs Hg _ IHs]; [reflexivity|]. destruct W as (W1 & W2). cbn [flat_map]. rewrite !map_app, (Hg W1), (IHs W2). reflexivity.
Qed.

Lemma nested_refused sv b0 ag others sch it t1 controls keep costs0 ms1 m ms2 : (0 < it)%nat -> 0 < t1 ->
  Forall simple (map mod_manifold ms1) -> ~ simple (mod_manifold m) -> (0 < numel (g_gd (mod_manifold m)))%nat ->
  shaped (mod_manifold (MComp (ms1 ++ m :: ms2))) ->
  shoot real_clock others sv b0 ag (scheme_name sch) it t1 controls keep costs0 (MComp (ms1 ++ m :: ms2)) = Err AttributeError.
Proof.
  intros IT T1 SI NS NP SP. set (g0 := mod_manifold (MComp (ms1 ++ m :: ms2))) in *. pose proof (shaped_balanced _ SP) as BA.
  pose proof (numel_shapes _ _ BA) as NB.
  assert (NL : numel (g_gd g0) = (shapes_numel (all_shapes (map mod_manifold ms1)) + (numel (g_gd (mod_manifold m)) + numel (flat_map g_gd (map mod_manifold ms2))))%nat).
  { unfold g0. cbn [mod_manifold g_gd]. rewrite map_app, flat_map_app. cbn [map flat_map]. rewrite !numel_app. f_equal.
    apply numel_shapes_of. apply (shaped_comp (map mod_manifold ms1) SI). unfold g0 in SP. cbn [mod_manifold shaped] in SP |- *. rewrite map_app in SP. clear -SP.
    induction ms1 as [|a l IH]; [exact I|]. cbn [map app fold_right] in *. destruct SP as (A & B). split; [assumption|]. apply IH. exact B. }
  unfold shoot. replace (String.eqb (scheme_name sch) "torch_euler") with false by (destruct sch; reflexivity). rewrite find_scheme. unfold shoot_torchdiffeq. cbn zeta. fold g0.
  assert (X : exists x r, initial_state g0 (with_mom controls) = Ok x /\ shape x = [r; numel (g_gd g0)]).
  { destruct controls; cbn [with_mom].
    - destruct (initial_state1_ok g0 (numel (g_gd g0)) eq_refl NB ltac:(lia)) as (x & E & S & _). eauto.
    - destruct (initial_state_ok g0 (numel (g_gd g0)) eq_refl NB ltac:(lia)) as (x & E & S & _). eauto. }
  destruct X as (x & r & Ex & Sx). rewrite Ex. cbn [bind].
  destruct it as [|n]; [lia|].
  assert (GR : linspace real_clock t1 (S n + 1) = g t1 (S n) 0 :: map (g t1 (S n)) (seq 1 (S n))).
  { cbn [linspace real_clock]. rewrite Nat.add_1_r. cbn [seq map]. unfold g. replace (S (S n) - 1)%nat with (S n) by lia. reflexivity. }
  rewrite GR. cbn [fixed_solver seq map fixed_grid].
  assert (FW : forward real_clock sv b0 ag t1 (S n) controls keep (g t1 (S n) 0) x (mkF (MComp (ms1 ++ m :: ms2)) 0 0 [] []) = Err AttributeError).
  { unfold forward. replace (g t1 (S n) 0) with (g t1 (S n) 0 + 0 * dt t1 (S n)) by ring.
    rewrite (cell_time t1 (S n) T1 IT 0%nat 0) by (try lra; lia). cbn [bind f_mod member_manifolds members mod_manifold].
    assert (U : forall k, unpack (map mod_manifold (ms1 ++ m :: ms2)) (row k x) 0 = Err AttributeError).
    { intros k. rewrite map_app. cbn [map]. apply (unpack_nested _ _ _ _ (numel (g_gd g0))); [assumption|assumption| |unfold row, ncols, tnth; cbn [shape mk1]; rewrite Sx; reflexivity|lia].
      intros Z. rewrite <- g_gd_len in Z. destruct (g_gd (mod_manifold m)); [cbn in NP; lia|discriminate]. }
    destruct controls; unfold unpack_into; rewrite U; reflexivity. }
  destruct sch; cbn [inc_of euler_inc midpoint_inc rk4_inc run_strat]; unfold euler_inc, midpoint_inc, rk4_inc; cbn [run_strat]; 
    match goal with |- context [forward ?a ?b ?c ?d ?e ?f ?h ?i ?j ?k ?l] => replace (forward a b c d e f h i j k l) with (@Err (tensor * fstate) AttributeError) by (symmetry; exact FW) end; reflexivity.
Qed.
