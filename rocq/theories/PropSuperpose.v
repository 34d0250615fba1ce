(** Fields of modules and their controls: superposition and bounds by the cost (C97). *)
From Coq Require Import Reals String List Arith Lia Lra Psatz.
From Verif Require Import Py RSum Tensor TensorFacts KernelModel FieldModel GeometryModel ModuleModel ShootingModel SpecShooting SpecKernel SpecField SpecGeometry SpecModule
  KernelFacts FieldFacts GeometryFacts ModuleDual ModuleAlg ModuleLeaves ModuleMain ModulePosed ModuleRegular ModuleHistory SolverExists PropModule ShootingPack ShootingDyn TransportFacts ReverseFacts.
Import ListNotations.
Open Scope R_scope.

(** The landmark at p with the a-th unit vector as moment. *)
Definition probe (d : nat) (p : nat -> R) (a : nat) : gman := GLm d 1 (mk2 1 d (fun _ => p)) (mk2 1 d (fun _ b => delta a b)).

Lemma probe_value d p a v D : (a < d)%nat -> pairing d (probe d p a) v D = v p a.
Proof.
  intros Ha. cbn [pairing probe]. rewrite rsum_S, rsum_0, Rplus_0_l. transitivity (rsum d (fun b => delta a b * v p b)); [reflexivity|]. apply (rsum_delta_r d (fun b => v p b)). exact Ha.
Qed.
Lemma probe_wf d p a : wf_gman d (probe d p a) /\ no_empty_comp (probe d p a) /\ ~ has_dir (probe d p a).
Proof. cbn. tauto. Qed.

Section Field.
  Variables (sv : solver) (b0 : backend) (d : nat) (m : dmod).
  Hypothesis HS : exact_solver sv.
  Hypothesis W : wf_mod d m.
  Hypothesis RG : regular d m.

  (** One bilinear form gives all costs and all fields. *)
  Lemma form c0 : ctrl_ok d m c0 -> exists Q, pack sv d m Q /\
    (forall c m1 f, ctrl_ok d m c -> fill_controls sv m c = Ok m1 -> field_generator m1 = Ok f -> good d f) /\
    forall p a, (a < d)%nat -> exists mg, compute_geodesic_control sv b0 m (probe d p a) = Ok mg /\ ctrl_ok d m (controls mg) /\ cost mg = Ok (1 / 2 * Q (controls mg) (controls mg)) /\
      forall c m1 f, ctrl_ok d m c -> fill_controls sv m c = Ok m1 -> field_generator m1 = Ok f -> fval d f p a = Q c (controls mg).
  Proof.
    intros C0. destruct (fill_regular sv d HS m c0 W RG C0) as (m0 & E0).
    destruct (module_leaf sv b0 d m HS W (ex_intro _ c0 (ex_intro _ m0 (conj C0 E0)))) as (Q & [PK DU GE]). exists Q. split; [exact PK|]. split.
    - intros c m1 f C E F. destruct (pk_fill _ _ _ _ PK c C) as (m2 & f2 & E2 & _ & F2 & G). rewrite E in E2. injection E2 as <-. rewrite F in F2. injection F2 as <-. exact G.
    - intros p a Ha. destruct (probe_wf d p a) as (WG & NE & ND). destruct (geo_regular sv b0 d HS m (probe d p a) W RG WG NE (fun _ => ND)) as (mg & EG).
      destruct (GE _ _ WG NE EG) as (CG & FG). exists mg. split; [exact EG|]. split; [exact CG|]. split.
      + destruct (pk_fill _ _ _ _ PK _ CG) as (m2 & f2 & E2 & X & _). rewrite FG in E2. injection E2 as <-. exact X.
      + intros c m1 f C E F. rewrite <- (DU _ _ WG NE EG c m1 f C E F). symmetry. apply probe_value. exact Ha.
  Qed.

  Lemma superpose c c' s m1 m2 f f' : ctrl_ok d m c -> ctrl_ok d m c' -> fill_controls sv m c = Ok m1 -> fill_controls sv m c' = Ok m2 ->
    field_generator m1 = Ok f -> field_generator m2 = Ok f' ->
    ctrl_ok d m (csub c (cscal s c')) /\ exists m3 g, fill_controls sv m (csub c (cscal s c')) = Ok m3 /\ field_generator m3 = Ok g /\ good d f /\ good d f' /\ good d g /\
      (forall p a, (a < d)%nat -> fval d g p a = fval d f p a - s * fval d f' p a) /\
      (forall p a l, (a < d)%nat -> (l < d)%nat -> fjac d g p a l = fjac d f p a l - s * fjac d f' p a l).
  Proof.
    intros C C' E1 E2 F1 F2. destruct (form c C) as (Q & PK & GD & VA). pose proof (proj1 (pk_scal _ _ _ _ PK s c' C')) as CS. pose proof (proj1 (pk_sub _ _ _ _ PK c _ C CS)) as CC.
    split; [exact CC|]. destruct (pk_fill _ _ _ _ PK _ CC) as (m3 & g & E3 & _ & F3 & G3). exists m3, g. split; [exact E3|]. split; [exact F3|].
    pose proof (GD c m1 f C E1 F1) as G1. pose proof (GD c' m2 f' C' E2 F2) as G2. split; [exact G1|]. split; [exact G2|]. split; [exact G3|].
    assert (V : forall p a, (a < d)%nat -> fval d g p a = fval d f p a - s * fval d f' p a).
    { intros p a Ha. destruct (VA p a Ha) as (mg & _ & CG & _ & V). rewrite (V _ _ _ CC E3 F3), (V _ _ _ C E1 F1), (V _ _ _ C' E2 F2).
      rewrite (pk_diff _ _ _ _ PK) by assumption. rewrite (pk_lin _ _ _ _ PK) by assumption. reflexivity. }
    split; [exact V|]. intros p a l Ha Hl. apply (ModuleDual.partial_unique (fun w => fval d g w a) p l).
    - apply fval_partial; [apply G3|exact Ha|exact Hl].
    - apply (partial_ext (fun w => fval d f w a + - s * fval d f' w a)); [intros w; rewrite (V w a Ha); ring|].
      replace (fjac d f p a l - s * fjac d f' p a l) with (fjac d f p a l + - s * fjac d f' p a l) by ring.
      apply (partial_plus (fun w => fval d f w a) (fun w => - s * fval d f' w a)); [apply fval_partial; [apply G1|exact Ha|exact Hl]|].
      apply partial_scal. apply fval_partial; [apply G2|exact Ha|exact Hl].
  Qed.

  Lemma bounded c m1 f x p a mg y : ctrl_ok d m c -> (a < d)%nat -> fill_controls sv m c = Ok m1 -> field_generator m1 = Ok f -> cost m1 = Ok x ->
    compute_geodesic_control sv b0 m (probe d p a) = Ok mg -> cost mg = Ok y -> good d f /\ (fval d f p a) ^ 2 <= 4 * y * x.
  Proof.
    intros C Ha E F CX EG CY. destruct (form c C) as (Q & PK & GD & VA). split; [exact (GD c m1 f C E F)|].
    destruct (VA p a Ha) as (mg' & EG' & CG & CY' & V). rewrite EG in EG'. injection EG' as <-. rewrite CY in CY'. injection CY' as ->. rewrite (V _ _ _ C E F).
    destruct (pk_fill _ _ _ _ PK _ C) as (m2 & f2 & E2 & X & _). rewrite E in E2. injection E2 as <-. rewrite CX in X. injection X as ->.
    set (g := controls mg) in *. set (A := Q c c). set (B := Q c g). set (D := Q g g).
    assert (P : forall t, 0 <= A - 2 * t * B + t ^ 2 * D).
    { intros t. pose proof (pk_scal _ _ _ _ PK t g CG) as (CS & QS). pose proof (pk_sub _ _ _ _ PK c _ C CS) as (CC & QQ). pose proof (pk_psd _ _ _ _ PK _ CC) as P.
      rewrite QQ, QS in P. rewrite (pk_sym _ _ _ _ PK c _ C CS), (pk_lin _ _ _ _ PK t g c CG C), (pk_sym _ _ _ _ PK g c CG C) in P. fold A B D in P. lra. }
    assert (PD : 0 <= D) by exact (pk_psd _ _ _ _ PK g CG). replace (4 * (1 / 2 * D) * (1 / 2 * A)) with (A * D) by field.
    destruct (Rle_lt_or_eq_dec 0 D PD) as [H|H].
    - pose proof (P (B / D)) as X. apply (Rmult_le_compat_r D) in X; [|lra]. replace ((A - 2 * (B / D) * B + (B / D) ^ 2 * D) * D) with (A * D - B ^ 2) in X by (field; lra). lra.
    - rewrite <- H in P |- *. destruct (Req_dec B 0) as [Z|Z]; [rewrite Z; lra|]. pose proof (P ((A + 1) / (2 * B))) as X.
      replace (A - 2 * ((A + 1) / (2 * B)) * B + ((A + 1) / (2 * B)) ^ 2 * 0) with (- 1) in X by (field; exact Z). lra.
  Qed.
End Field.

(** The field of the controls c - s c' is the field of c minus s times that of c', for the
    values and for the first derivatives, at any points. *)
Theorem C97_superposition : forall sv d m c c' s m1 m2 f f', exact_solver sv -> wf_mod d m -> regular d m -> ctrl_ok d m c -> ctrl_ok d m c' ->
  fill_controls sv m c = Ok m1 -> fill_controls sv m c' = Ok m2 -> field_generator m1 = Ok f -> field_generator m2 = Ok f' ->
  exists m3 g, fill_controls sv m (csub c (cscal s c')) = Ok m3 /\ field_generator m3 = Ok g /\
    forall points N k, shape points = [N; d] -> (k <= 1)%nat -> exists v v' w,
      feval f points k = Ok v /\ feval f' points k = Ok v' /\ feval g points k = Ok w /\ teq w (tsub v (tscal s v')).
Proof.
  intros sv d m c c' s m1 m2 f f' HS W RG C C' E1 E2 F1 F2.
  destruct (superpose sv Torch d m HS W RG c c' s m1 m2 f f' C C' E1 E2 F1 F2) as (_ & m3 & g & E3 & F3 & (W1 & Z1 & O1 & _) & (W2 & Z2 & O2 & _) & (W3 & Z3 & O3 & _) & V & J).
  exists m3, g. split; [exact E3|]. split; [exact F3|]. intros p N k Sp Hk. destruct k as [|[|k]]; [| |lia].
  - destruct (feval_0 d f p N W1 Z1 Sp) as (v & Ev & Sv & Gv). destruct (feval_0 d f' p N W2 Z2 Sp) as (v' & Ev' & Sv' & Gv'). destruct (feval_0 d g p N W3 Z3 Sp) as (w & Ew & Sw & Gw).
    exists v, v', w. split; [exact Ev|]. split; [exact Ev'|]. split; [exact Ew|]. split; [cbn; congruence|]. intros idx VI. rewrite Sw in VI. cbn. rewrite (Gw idx VI), (Gv idx VI), (Gv' idx VI).
    destruct idx as [|n [|a [|]]]; cbn in VI; try tauto. cbn [V0]. apply V. tauto.
  - destruct (feval_1 d f p N W1 O1 Sp) as (v & Ev & Sv & Gv). destruct (feval_1 d f' p N W2 O2 Sp) as (v' & Ev' & Sv' & Gv'). destruct (feval_1 d g p N W3 O3 Sp) as (w & Ew & Sw & Gw).
    exists v, v', w. split; [exact Ev|]. split; [exact Ev'|]. split; [exact Ew|]. split; [cbn; congruence|]. intros idx VI. rewrite Sw in VI. cbn. rewrite (Gw idx VI), (Gv idx VI), (Gv' idx VI).
    destruct idx as [|n [|a [|l [|]]]]; cbn in VI; try tauto. cbn [V1]. apply J; tauto.
Qed.
Print Assumptions C97_superposition.

(** The speed that controls can give to a point is bounded by their cost: its square is at
    most 4 y times the cost, where y is the cost of the geodesic controls for a single
    landmark at that point with a unit moment.  These controls reach the bound. *)
Theorem C97_cost_bounds_speed : forall sv b0 d m q n a N, exact_solver sv -> wf_mod d m -> regular d m -> shape q = [N; d] -> (n < N)%nat -> (a < d)%nat ->
  exists mg y, compute_geodesic_control sv b0 m (probe d (vrow q n) a) = Ok mg /\ cost mg = Ok y /\ 0 <= y /\
    (forall c m1 f x v, ctrl_ok d m c -> fill_controls sv m c = Ok m1 -> cost m1 = Ok x -> field_generator m1 = Ok f -> feval f q 0 = Ok v ->
       (v @2 n a) ^ 2 <= 4 * y * x) /\
    (forall f v, field_generator mg = Ok f -> feval f q 0 = Ok v -> (v @2 n a) ^ 2 = 4 * y * y).
Proof.
  intros sv b0 d m q n a N HS W RG Sq Hn Ha. destruct (probe_wf d (vrow q n) a) as (WG & NE & ND).
  destruct (geo_regular sv b0 d HS m _ W RG WG NE (fun _ => ND)) as (mg & EG).
  destruct (module_leaf sv b0 d m HS W (geo_fillable sv b0 d HS m _ mg W WG NE EG)) as (Q0 & [_ _ GE]). destruct (GE _ _ WG NE EG) as (CG & FG).
  destruct (form sv b0 d m HS W RG _ CG) as (Q & PK & GD & VA). destruct (VA (vrow q n) a Ha) as (mg' & EG' & _ & CY & V). rewrite EG in EG'. injection EG' as <-.
  exists mg. eexists. split; [exact EG|]. split; [exact CY|]. split; [pose proof (pk_psd _ _ _ _ PK _ CG); lra|].
  assert (X : forall f v, good d f -> feval f q 0 = Ok v -> v @2 n a = fval d f (vrow q n) a).
  { intros f v (Wf & Zf & _) Ev. destruct (feval_0 d f q N Wf Zf Sq) as (v' & Ev' & Sv & Gv). rewrite Ev in Ev'. injection Ev' as <-. rewrite Gv by (cbn; tauto). reflexivity. }
  split.
  - intros c m1 f x v C E CX F Ev. destruct (bounded sv b0 d m HS W RG c m1 f x (vrow q n) a mg _ C Ha E F CX EG CY) as (G & B). rewrite (X f v G Ev). exact B.
  - intros f v F Ev. rewrite (X f v (GD _ _ _ CG FG F) Ev), (V _ _ _ CG FG F). field.
Qed.
Print Assumptions C97_cost_bounds_speed.

(** Zero controls, and more generally controls that cost nothing, move nothing. *)
Theorem C97_zero_controls_move_nothing : forall sv d m c m1 f, exact_solver sv -> wf_mod d m -> regular d m -> ctrl_ok d m c -> fill_controls sv m c = Ok m1 ->
  cnull c \/ cost m1 = Ok 0 -> field_generator m1 = Ok f ->
  forall points N v, shape points = [N; d] -> feval f points 0 = Ok v -> forall n a, (n < N)%nat -> (a < d)%nat -> v @2 n a = 0.
Proof.
  intros sv d m c m1 f HS W RG C E Z F p N v Sp Ev n a Hn Ha.
  assert (CX : cost m1 = Ok 0).
  { destruct Z as [Z|Z]; [|exact Z]. destruct (C18_cost_is_quadratic sv d m c m1 HS W C E) as (x & X & _ & X0 & _). rewrite (X0 Z) in X. exact X. }
  destruct (C97_cost_bounds_speed sv Torch d m p n a N HS W RG Sp Hn Ha) as (mg & y & _ & _ & _ & B & _). specialize (B c m1 f 0 v C E CX F Ev).
  assert (X : v @2 n a * v @2 n a = 0) by (pose proof (Rle_0_sqr (v @2 n a)) as S; unfold Rsqr in S; lra). apply Rmult_integral in X. tauto.
Qed.
Print Assumptions C97_zero_controls_move_nothing.

(** The compound of all kinds of modules of C18 meets the hypotheses. *)
Example C97_hypotheses : exists m1 f, exact_solver exact_sv /\ wf_mod 2 ex_all /\ regular 2 ex_all /\
  ctrl_ok 2 ex_all (controls ex_all) /\ ~ cnull (controls ex_all) /\ fill_controls exact_sv ex_all (controls ex_all) = Ok m1 /\ field_generator m1 = Ok f.
Proof.
  destruct (form exact_sv Torch 2 ex_all exact_sv_exact ex_all_wf ex_all_regular _ ex_all_ctrl) as (Q & PK & _).
  destruct (pk_fill _ _ _ _ PK _ ex_all_ctrl) as (m1 & f & E & _ & F & _). exists m1, f. split; [exact exact_sv_exact|]. split; [exact ex_all_wf|]. split; [exact ex_all_regular|]. split; [exact ex_all_ctrl|].
  split; [|split; assumption]. intros (N & _). specialize (N [1%nat]). cbn in N. assert (1 = 0) by (apply N; split; [lia|exact Logic.I]). lra.
Qed.

(** ** Moments *)

Lemma ladd_app' a a' b b' : length a = length b -> ladd (a ++ a') (b ++ b') = ladd a b ++ ladd a' b'.
Proof. revert b. induction a as [|x a IH]; intros [|y b] L; try discriminate L; [reflexivity|]. unfold ladd in *. cbn [app combine map]. f_equal. apply IH. injection L; auto. Qed.
Lemma mix_pairing d s g v D : forall g' k, skel g' = skel g -> skel k = skel g -> g_gd g' = g_gd g -> g_gd k = g_gd g -> g_cotan k = ladd (g_cotan g) (lscal s (g_cotan g')) ->
  pairing d k v D = pairing d g v D + s * pairing d g' v D.
Proof.
  assert (P : forall nb gd c c', rsum nb (fun n => rsum d (fun a => (tadd c (tscal s c')) @2 n a * v (vrow gd n) a)) =
    rsum nb (fun n => rsum d (fun a => c @2 n a * v (vrow gd n) a)) + s * rsum nb (fun n => rsum d (fun a => c' @2 n a * v (vrow gd n) a))).
  { intros. rewrite <- rsum_scal, <- rsum_plus. apply rsum_ext; intros n _. rewrite <- rsum_scal, <- rsum_plus. apply rsum_ext; intros a _. cbn. ring. }
  induction g as [g S|gs IH] using ShootingPack.gman_ind'; intros g' k K' K G' G C.
  - destruct g as [dim nb gd c|tr dim nb gd0 gd1 c0 c1|dim nb gd0 gd1 c0 c1|dim n0 n1 gd0 gd1 c0 c1 i0 i1|dim|]; try (elim S); destruct g'; try discriminate K'; destruct k; try discriminate K;
      cbn in K', K, G', G, C; try (injection K'); try (injection K); try (injection G'); try (injection G); try (injection C); intros; subst; cbn [pairing].
    + apply P.
    + destruct tr; rewrite P; match goal with |- (?a + s * ?b) + ?x = (?a + ?y) + s * (?b + ?z) => enough (X : x = y + s * z) by (rewrite X; ring) end;
        rewrite <- rsum_scal, <- rsum_plus; apply rsum_ext; intros n _; rewrite <- rsum_scal, <- rsum_plus; apply rsum_ext; intros a _; cbn; ring.
    + rewrite P. match goal with |- (?a + s * ?b) + ?x = (?a + ?y) + s * (?b + ?z) => enough (X : x = y + s * z) by (rewrite X; ring) end.
      rewrite <- rsum_scal, <- rsum_plus; apply rsum_ext; intros n _; rewrite <- rsum_scal, <- rsum_plus; apply rsum_ext; intros a _; rewrite <- rsum_scal, <- rsum_plus; apply rsum_ext; intros j _; cbn; ring.
    + ring.
    + ring.
  - destruct g' as [| | | | |gs']; try discriminate K'. destruct k as [| | | | |ks]; try discriminate K. cbn [skel g_gd g_cotan pairing] in *. injection K' as K'. injection K as K.
    revert gs' ks K' K G' G C. induction IH as [|g gs Hg _ IHs]; intros gs' ks K' K G' G C; destruct gs' as [|g' gs']; try discriminate K'; destruct ks as [|k ks]; try discriminate K; cbn [fold_right]; [ring|].
    cbn [map flat_map] in *. injection K' as K1' K2'. injection K as K1 K2.
    apply TransportFacts.app_inj_len in G'; [|rewrite !g_gd_len; apply skel_len; exact K1']. apply TransportFacts.app_inj_len in G; [|rewrite !g_gd_len; apply skel_len; exact K1]. destruct G' as (G1' & G2'). destruct G as (G1 & G2).
    assert (L : length (g_cotan g) = length (lscal s (g_cotan g'))) by (unfold lscal; rewrite map_length, !g_cotan_len; symmetry; apply skel_len; exact K1').
    unfold lscal in C, L. rewrite map_app, (ladd_app' _ _ _ _ L) in C.
    apply TransportFacts.app_inj_len in C; [|unfold ladd; rewrite map_length, combine_length, <- L, Nat.min_id, !g_cotan_len; apply skel_len; exact K1]. destruct C as (C1 & C2).
    rewrite (Hg g' k K1' K1 G1' G1 C1), (IHs gs' ks K2' K2 G2' G2 C2). ring.
Qed.

Lemma mix_shapes s (l l' : list tensor) : length l = length l' -> map shape (ladd l (lscal s l')) = map shape l.
Proof. revert l'. induction l as [|x l IH]; intros [|y l'] L; try discriminate L; [reflexivity|]. unfold ladd, lscal in *. cbn [map combine]. f_equal. apply IH. injection L; auto. Qed.

(** The geodesic controls are linear in the moments. *)
Theorem C97_controls_linear_in_moments : forall sv b0 d m g g' k s m1 m2, exact_solver sv -> wf_mod d m -> wf_gman d g -> wf_gman d g' -> no_empty_comp g ->
  skel g' = skel g -> skel k = skel g -> g_gd g' = g_gd g -> g_gd k = g_gd g -> g_cotan k = ladd (g_cotan g) (lscal s (g_cotan g')) ->
  compute_geodesic_control sv b0 m g = Ok m1 -> compute_geodesic_control sv b0 m g' = Ok m2 ->
  exists m3, compute_geodesic_control sv b0 m k = Ok m3 /\ ceq (controls m3) (csub (controls m1) (cscal (- s) (controls m2))).
Proof.
  intros sv b0 d m g g' k s m1 m2 HS W WG WG' NE K' K G' G C E1 E2.
  assert (SC : map shape (g_cotan k) = map shape (g_cotan g)).
  { rewrite C. apply mix_shapes. rewrite !g_cotan_len. symmetry. apply skel_len. exact K'. }
  assert (WK : wf_gman d k) by (apply (wf_gman_same d g k WG K); [rewrite G; reflexivity|exact SC]).
  assert (NE' : no_empty_comp g') by exact (nonempty_same g g' K' NE). assert (NK : no_empty_comp k) by exact (nonempty_same g k K NE).
  pose proof (geo_posed_conv sv b0 d HS m g WG NE m1 W E1) as PO.
  destruct (geo_posed sv b0 d HS m k W PO WK NK) as (m3 & E3).
  { intros FO DR. apply (geo_no_dir sv b0 d m g W WG NE FO); [apply (skel_dir g k K DR)|exists m1; exact E1]. }
  exists m3. split; [exact E3|].
  destruct (module_leaf sv b0 d m HS W (geo_fillable sv b0 d HS m g m1 W WG NE E1)) as (Q & [P D GE]).
  destruct (GE g m1 WG NE E1) as (O1 & F1). destruct (GE g' m2 WG' NE' E2) as (O2 & F2). destruct (GE k m3 WK NK E3) as (O3 & F3).
  set (h1 := controls m1) in *. set (h2 := controls m2) in *. set (h3 := controls m3) in *.
  assert (X : forall c, ctrl_ok d m c -> Q c h3 = Q c h1 + s * Q c h2).
  { intros c Hc. destruct (pk_fill _ _ _ _ P c Hc) as (mc & f & Fc & _ & FG & _).
    unfold h1, h2, h3. rewrite <- (D g m1 WG NE E1 c mc f Hc Fc FG), <- (D g' m2 WG' NE' E2 c mc f Hc Fc FG), <- (D k m3 WK NK E3 c mc f Hc Fc FG). apply mix_pairing; assumption. }
  destruct (pk_scal _ _ _ _ P (- s) h2 O2) as (OS & _). destruct (pk_sub _ _ _ _ P h1 _ O1 OS) as (OC & _).
  set (hc := csub h1 (cscal (- s) h2)) in *.
  assert (Y : forall c, ctrl_ok d m c -> Q hc c = Q h3 c).
  { intros c Hc. unfold hc. rewrite (pk_diff _ _ _ _ P h1 _ c O1 OS Hc), (pk_lin _ _ _ _ P _ h2 c O2 Hc).
    rewrite (pk_sym _ _ _ _ P h1 c O1 Hc), (pk_sym _ _ _ _ P h2 c O2 Hc), (pk_sym _ _ _ _ P h3 c O3 Hc), (X c Hc). ring. }
  destruct (pk_sub _ _ _ _ P h3 hc O3 OC) as (OD & ED). apply (csub_null_ceq d m h3 hc O3 OC).
  destruct (pk_fill _ _ _ _ P _ OD) as (m4 & f4 & F4 & C4 & _). apply (definite_posed sv b0 d HS m _ m4 W PO OD F4).
  rewrite C4. f_equal. rewrite ED, (pk_sym _ _ _ _ P h3 hc O3 OC), (Y h3 O3), (Y hc OC), (pk_sym _ _ _ _ P h3 hc O3 OC), (Y h3 O3). lra.
Qed.
Print Assumptions C97_controls_linear_in_moments.

(** Two manifolds of points and frames with other moments. *)
Example C97_moments_case : let g := GComp [probe 2 (fun _ => 1) 0; GFrame 2 1 (mk2 1 2 (fun _ _ => 1)) (mk3 1 2 2 (fun _ => delta)) (mk2 1 2 (fun _ _ => 1)) (mk3 1 2 2 (fun _ _ _ => 1))] in
  let g' := GComp [probe 2 (fun _ => 1) 1; GFrame 2 1 (mk2 1 2 (fun _ _ => 1)) (mk3 1 2 2 (fun _ => delta)) (mk2 1 2 (fun _ _ => 2)) (mk3 1 2 2 (fun _ _ _ => 0))] in
  wf_gman 2 g /\ wf_gman 2 g' /\ no_empty_comp g /\ skel g' = skel g /\ g_gd g' = g_gd g /\
  is_ok (compute_geodesic_control exact_sv Torch ex_all g) /\ is_ok (compute_geodesic_control exact_sv Torch ex_all g').
Proof.
  intros g g'. assert (A : wf_gman 2 g) by (cbn; repeat split). assert (B : wf_gman 2 g') by (cbn; repeat split). assert (NE : no_empty_comp g) by (cbn; repeat split; discriminate).
  assert (NE' : no_empty_comp g') by (cbn; repeat split; discriminate). split; [exact A|]. split; [exact B|]. split; [exact NE|]. split; [reflexivity|]. split; [reflexivity|].
  split; apply (geo_regular exact_sv Torch 2 exact_sv_exact ex_all _ ex_all_wf ex_all_regular); auto; cbn; tauto.
Qed.
