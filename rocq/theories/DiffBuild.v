(** The Hamiltonian as a function of the descriptors and the moments is differentiable. *)
From Coq Require Import Reals String List Arith Lia Lra FunctionalExtensionality.
From Verif Require Import Py RSum Tensor TensorFacts KernelModel FieldModel GeometryModel ModuleModel ShootingModel
  SpecLinAlg SpecKernel SpecField SpecGeometry SpecModule SpecShooting SpecMotion SpecSmooth SpecTransport
  ShootingPack FieldFacts GeometryFacts ModuleDual ModuleAlg ModuleLeaves ModuleMain ModuleRegular ShootingDyn MotionFacts MotionShoot MotionMomentum
  TransportFacts ModuleHistory ModulePosed DiffFacts DiffField DiffLeaf DiffModule.
Import ListNotations.
Open Scope R_scope.

Section Build.
  Variables (U : Type) (Lin : (U -> R) -> Prop) (u0 : U).
  Hypothesis lin_zero : Lin (fun _ => 0).
  Hypothesis lin_comb : forall a b L L', Lin L -> Lin L' -> Lin (fun u => a * L u + b * L' u).
  Variable d : nat.
  Notation DD := (D U Lin).
  Notation NN := (Near U).

  (** Curves through t. *)
  Definition AT (t : tensor) (T : U -> R -> tensor) : Prop :=
    exists V, (forall idx, valid (shape t) idx -> Lin (fun u => get (V u) idx)) /\ forall u, passes (T u) t (V u).

  Lemma AT_0 t T u : AT t T -> T u 0 = t.
  Proof. intros (V & _ & E). apply E. Qed.

  Lemma AT_DT t T sh : shape t = sh -> AT t T -> DT U Lin sh T.
  Proof.
    intros <- (V & HL & E). split; [intros u s; apply (proj1 (proj2 (E u)))|]. intros idx Hv.
    exists (get t idx), (fun u => get (V u) idx). split; [apply HL; assumption|]. split; [intros u; rewrite (proj1 (E u)); reflexivity|]. intros u. apply E. exact Hv.
  Qed.

  Lemma lin_ext L L' : (forall u, L u = L' u) -> Lin L -> Lin L'.
  Proof. intros E. replace L' with L by (apply functional_extensionality; assumption). exact (fun x => x). Qed.

  Lemma lin_sum n (c : nat -> R) (L : nat -> U -> R) : (forall k, (k < n)%nat -> Lin (L k)) -> Lin (fun u => rsum n (fun k => c k * L k u)).
  Proof.
    induction n as [|n IH]; intros H.
    - apply (lin_ext (fun _ => 0)); [intros; rewrite rsum_0; reflexivity|assumption].
    - apply (lin_ext (fun u => 1 * rsum n (fun k => c k * L k u) + c n * L n u)); [intros; rewrite rsum_S; ring|].
      apply lin_comb; [apply IH; intros; apply H; lia|apply H; lia].
  Qed.

  Lemma AT_closure f t T sh : closure_differentiable f t sh -> AT t T ->
    exists S, DT U Lin sh S /\ NN (fun u s => f (T u s) = Ok (S u s)).
  Proof.
    intros (J & SJ & HJ) HT. pose proof HT as (V & HL & E). assert (SV : forall u, shape (V u) = shape t) by (intros u; apply E).
    set (S := fun u s => match f (T u s) with Ok x => if list_eq_dec Nat.eq_dec (shape x) sh then x else tzeros sh | Err _ => tzeros sh end).
    assert (N : forall u, exists eps S', 0 < eps /\ (forall s, Rabs s < eps -> f (T u s) = Ok (S' s) /\ S u s = S' s) /\
       forall idx, valid sh idx -> derivable_pt_lim (fun s => get (S' s) idx) 0 (tdot (J idx) (V u))).
    { intros u. destruct (HJ (T u) (V u) (E u)) as (eps & S' & He & H1 & H2). exists eps, S'. split; [assumption|]. split; [|assumption].
      intros s Hs. destruct (H1 s Hs) as (F & SS). split; [assumption|]. unfold S. rewrite F.
      destruct (list_eq_dec Nat.eq_dec (shape (S' s)) sh); [reflexivity|contradiction]. }
    exists S. split; [split|].
    - intros u s. unfold S. destruct (f (T u s)) as [x|]; [|reflexivity]. destruct (list_eq_dec Nat.eq_dec (shape x) sh); [assumption|reflexivity].
    - intros idx Hv. exists (get (S u0 0) idx), (fun u => tdot (J idx) (V u)). split; [|split].
      + apply (lin_ext (fun u => rsum (prod (shape t)) (fun k => get (tflatten (J idx)) [k] * get (V u) (unravel (shape t) k)))).
        * intros u. unfold tdot. rewrite SJ. apply rsum_ext. intros k Hk. f_equal. rewrite <- (SV u). symmetry. apply get_flatten_k.
        * apply lin_sum. intros k Hk. apply HL. apply valid_unravel. assumption.
      + intros u. unfold S. rewrite !(AT_0 t T) by assumption. reflexivity.
      + intros u. destruct (N u) as (eps & S' & He & H1 & H2). intros e Hpe. destruct (H2 idx Hv e Hpe) as (del & Hdel).
        exists (mkposreal (Rmin del eps) (Rmin_pos _ _ (cond_pos del) He)). cbn [pos]. intros h Hh Hs.
        rewrite (proj2 (H1 (0 + h) ltac:(rewrite Rplus_0_l; eapply Rlt_le_trans; [exact Hs|apply Rmin_r]))), (proj2 (H1 0 ltac:(rewrite Rabs_R0; assumption))).
        apply Hdel; [assumption|]. eapply Rlt_le_trans; [exact Hs|apply Rmin_l].
    - intros u. destruct (N u) as (eps & S' & He & H1 & _). exists eps. split; [assumption|]. intros s Hs. destruct (H1 s Hs) as (A & B). congruence.
  Qed.

  Ltac at_dt := match goal with H : AT ?t ?T |- _ => solve [apply (AT_DT t T); [assumption|exact H]] end.
  Notation at_ u s := (map (fun T : U -> R -> tensor => T u s)).

  Lemma build_man g : wf_gman d g -> forall Ts Ps, Forall2 AT (g_gd g) Ts -> Forall2 AT (g_cotan g) Ps ->
    exists G, DM U Lin d G /\ (forall u, G u 0 = g) /\
      forall u s, skel (G u s) = skel g /\ g_gd (G u s) = at_ u s Ts /\ g_cotan (G u s) = at_ u s Ps.
  Proof.
    induction g as [dim nb gd ct|tr dim nb gd0 gd1 c0 c1|dim nb gd0 gd1 c0 c1|dim nb0 nb1 gd0 gd1 c0 c1 i0 i1|dim|gs IH] using gman_ind';
      intros W Ts Ps HT HP; cbn [g_gd g_cotan wf_gman] in *.
    - destruct W as (-> & Sg & Sc). inversion HT as [|? T ? ? A1 X1]; subst. inversion X1; subst. inversion HP as [|? P ? ? B1 Y1]; subst. inversion Y1; subst.
      exists (fun u s => GLm d nb (T u s) (P u s)). split; [apply DM_lm; at_dt|].
      split; [intros; rewrite (AT_0 gd T), (AT_0 ct P) by assumption; reflexivity|]. intros; repeat split.
    - destruct W as (-> & Sg0 & Sg1 & Sc0 & Sc1). inversion HT as [|? T ? ? A1 X1]; subst. inversion X1 as [|? T' ? ? A2 X2]; subst. inversion X2; subst.
      inversion HP as [|? P ? ? B1 Y1]; subst. inversion Y1 as [|? P' ? ? B2 Y2]; subst. inversion Y2; subst.
      exists (fun u s => GDir tr d nb (T u s) (T' u s) (P u s) (P' u s)). split; [apply DM_dir; at_dt|].
      split; [intros; rewrite (AT_0 gd0 T), (AT_0 gd1 T'), (AT_0 c0 P), (AT_0 c1 P') by assumption; reflexivity|]. intros; repeat split.
    - destruct W as (-> & Sg0 & Sg1 & Sc0 & Sc1). inversion HT as [|? T ? ? A1 X1]; subst. inversion X1 as [|? T' ? ? A2 X2]; subst. inversion X2; subst.
      inversion HP as [|? P ? ? B1 Y1]; subst. inversion Y1 as [|? P' ? ? B2 Y2]; subst. inversion Y2; subst.
      exists (fun u s => GFrame d nb (T u s) (T' u s) (P u s) (P' u s)). split; [apply DM_frame; at_dt|].
      split; [intros; rewrite (AT_0 gd0 T), (AT_0 gd1 T'), (AT_0 c0 P), (AT_0 c1 P') by assumption; reflexivity|]. intros; repeat split.
    - destruct W.
    - subst dim. inversion HT; subst. inversion HP; subst. exists (fun _ _ => GEmpty d). split; [apply DM_empty|]. split; [reflexivity|]. intros; repeat split.
    - assert (H : exists Gs, DMs U Lin d Gs /\ (forall u, Gs u 0 = gs) /\
        forall u s, map skel (Gs u s) = map skel gs /\ flat_map g_gd (Gs u s) = at_ u s Ts /\ flat_map g_cotan (Gs u s) = at_ u s Ps).
      { revert W Ts Ps HT HP. induction IH as [|g gs Hg _ IHs]; intros W Ts Ps HT HP; cbn [flat_map fold_right] in *.
        - inversion HT; subst. inversion HP; subst. exists (fun _ _ => []). split; [apply DMs_nil|]. split; [reflexivity|]. intros; repeat split.
        - destruct W as (W & Ws). apply Forall2_app_inv_l in HT as (T1 & T2 & A1 & A2 & ->). apply Forall2_app_inv_l in HP as (P1 & P2 & B1 & B2 & ->).
          destruct (Hg W T1 P1 A1 B1) as (G & DG & G0 & HG). destruct (IHs Ws T2 P2 A2 B2) as (Gs & DGs & Gs0 & HGs).
          exists (fun u s => G u s :: Gs u s). split; [apply DMs_cons; assumption|]. split; [intros; rewrite G0, Gs0; reflexivity|].
          intros u s. destruct (HG u s) as (K & E1 & E2). destruct (HGs u s) as (Ks & E1s & E2s). cbn [map flat_map]. rewrite !map_app. repeat split; congruence. }
      destruct H as (Gs & DGs & Gs0 & HGs). exists (fun u s => GComp (Gs u s)). split; [apply DM_comp; assumption|]. split; [intros; rewrite Gs0; reflexivity|].
      intros u s. destruct (HGs u s) as (K & E1 & E2). cbn [skel g_gd g_cotan]. repeat split; congruence.
  Qed.

  Lemma build m : wf_mod d m -> locals_differentiable d m -> forall Ts Ps, Forall2 AT (g_gd (mod_manifold m)) Ts -> Forall2 AT (g_cotan (mod_manifold m)) Ps ->
    exists M G, DMod U Lin d M /\ DM U Lin d G /\ (forall u, M u 0 = m) /\
      forall u s, skel (G u s) = skel (mod_manifold m) /\ g_gd (G u s) = at_ u s Ts /\ g_cotan (G u s) = at_ u s Ps /\
        set_manifold m (G u s) = Ok (M u s).
  Proof.
    induction m as [m NC|ms IH] using dmod_ind'; intros W LD Ts Ps HT HP.
    - destruct m as [dim co h|b sg dim nb gd ct h|b sg nu co dim nb gd ct h|sg co tr dim nb gd0 gd1 c0 c1 h|
       sg co fs fv dim nb gd ct h|A co gd ct h|man0|b sg nu co K dim nb gd0 gd1 c0 c1 h ca|
       sg cd nu co dim n0 n1 gd ct h lm|sg ca nu co dim n0 n1 gd ct h lm|ms]; cbn [mod_manifold g_gd g_cotan] in HT, HP; [..|elim (NC ms eq_refl)].
      + destruct W as (-> & _). inversion HT; subst. inversion HP; subst. exists (fun _ _ => MGlobal d co h), (fun _ _ => GEmpty d).
        split; [apply DMod_leaf; apply DL_global|]. split; [apply DM_empty|]. split; [reflexivity|]. intros; repeat split.
      + destruct W as (-> & _ & Sg & Sc). inversion HT as [|? T ? ? A1 X1]; subst. inversion X1; subst. inversion HP as [|? P ? ? B1 Y1]; subst. inversion Y1; subst.
        exists (fun u s => MTrans b sg d nb (T u s) (P u s) h), (fun u s => GLm d nb (T u s) (P u s)).
        split; [apply DMod_leaf; apply DL_trans; at_dt|]. split; [apply DM_lm; at_dt|].
        split; [intros; rewrite (AT_0 gd T), (AT_0 ct P) by assumption; reflexivity|]. intros; repeat split.
      + destruct W as (-> & _ & _ & _ & Sg & Sc). inversion HT as [|? T ? ? A1 X1]; subst. inversion X1; subst. inversion HP as [|? P ? ? B1 Y1]; subst. inversion Y1; subst.
        exists (fun u s => MImp0 b sg nu co d nb (T u s) (P u s) h), (fun u s => GLm d nb (T u s) (P u s)).
        split; [apply DMod_leaf; apply DL_imp0; at_dt|]. split; [apply DM_lm; at_dt|].
        split; [intros; rewrite (AT_0 gd T), (AT_0 ct P) by assumption; reflexivity|]. intros; repeat split.
      + destruct W as (-> & _ & _ & Sg0 & Sg1 & Sc0 & Sc1). inversion HT as [|? T ? ? A1 X1]; subst. inversion X1 as [|? T' ? ? A2 X2]; subst. inversion X2; subst.
        inversion HP as [|? P ? ? B1 Y1]; subst. inversion Y1 as [|? P' ? ? B2 Y2]; subst. inversion Y2; subst.
        exists (fun u s => MOriented sg co tr d nb (T u s) (T' u s) (P u s) (P' u s) h), (fun u s => GDir tr d nb (T u s) (T' u s) (P u s) (P' u s)).
        split; [apply DMod_leaf; apply DL_oriented; at_dt|]. split; [apply DM_dir; at_dt|].
        split; [intros; rewrite (AT_0 gd0 T), (AT_0 gd1 T'), (AT_0 c0 P), (AT_0 c1 P') by assumption; reflexivity|]. intros; repeat split.
      + destruct W as (-> & _ & _ & Sg & Sc & _). destruct LD as (M & LS & LV). inversion HT as [|? T ? ? A1 X1]; subst. inversion X1; subst. inversion HP as [|? P ? ? B1 Y1]; subst. inversion Y1; subst.
        destruct (AT_closure fs gd T _ LS A1) as (S & DS & NS). destruct (AT_closure fv gd T _ LV A1) as (V & DV' & NV).
        exists (fun u s => MLocal sg co fs fv d nb (T u s) (P u s) h), (fun u s => GLm d nb (T u s) (P u s)).
        split; [constructor; apply (DL_local U Lin d sg co fs fv nb T P h M S V); try assumption; try at_dt; apply near_and; assumption|].
        split; [apply DM_lm; at_dt|].
        split; [intros; rewrite (AT_0 gd T), (AT_0 ct P) by assumption; reflexivity|]. intros; repeat split.
      + destruct W as (SA & _ & Sg & Sc & _). inversion HT as [|? T ? ? A1 X1]; subst. inversion X1; subst. inversion HP as [|? P ? ? B1 Y1]; subst. inversion Y1; subst.
        assert (NA : nrows A = d) by (unfold nrows; rewrite SA; reflexivity).
        exists (fun u s => MLinear A co (T u s) (P u s) h), (fun u s => GLm d 1 (T u s) (P u s)).
        split; [apply DMod_leaf; apply DL_linear; at_dt|]. split; [apply DM_lm; at_dt|].
        split; [intros; rewrite (AT_0 gd T), (AT_0 ct P) by assumption; reflexivity|]. intros; cbn [mod_manifold skel]; rewrite NA; repeat split.
      + destruct W as (W & _). destruct (build_man man0 W Ts Ps HT HP) as (G & DG & G0 & HG). exists (fun u s => MSilent (G u s)), G.
        split; [apply DMod_leaf; apply DL_silent; assumption|]. split; [assumption|]. split; [intros; rewrite G0; reflexivity|].
        intros u s. destruct (HG u s) as (E1 & E2 & E3). cbn [mod_manifold set_manifold]. repeat split; assumption.
      + destruct W as (-> & _ & _ & _ & _ & _ & Sg0 & Sg1 & Sc0 & Sc1). inversion HT as [|? T ? ? A1 X1]; subst. inversion X1 as [|? T' ? ? A2 X2]; subst. inversion X2; subst.
        inversion HP as [|? P ? ? B1 Y1]; subst. inversion Y1 as [|? P' ? ? B2 Y2]; subst. inversion Y2; subst.
        exists (fun u s => MImp1 b sg nu co K d nb (T u s) (T' u s) (P u s) (P' u s) h ca), (fun u s => GFrame d nb (T u s) (T' u s) (P u s) (P' u s)).
        split; [apply DMod_leaf; apply DL_imp1; at_dt|]. split; [apply DM_frame; at_dt|].
        split; [intros; rewrite (AT_0 gd0 T), (AT_0 gd1 T'), (AT_0 c0 P), (AT_0 c1 P') by assumption; reflexivity|]. intros; repeat split.
      + destruct W as (-> & _ & _ & _ & Sg & Sc). inversion HT as [|? T ? ? A1 X1]; subst. inversion X1; subst. inversion HP as [|? P ? ? B1 Y1]; subst. inversion Y1; subst.
        exists (fun u s => MDivFree sg cd nu co d n0 n1 (T u s) (P u s) h lm), (fun u s => GLm d (n0 + n1) (T u s) (P u s)).
        split; [apply DMod_leaf; apply DL_div; at_dt|]. split; [apply DM_lm; at_dt|].
        split; [intros; rewrite (AT_0 gd T), (AT_0 ct P) by assumption; reflexivity|]. intros; repeat split.
      + destruct W as (-> & _ & _ & _ & _ & Sg & Sc). inversion HT as [|? T ? ? A1 X1]; subst. inversion X1; subst. inversion HP as [|? P ? ? B1 Y1]; subst. inversion Y1; subst.
        exists (fun u s => MArap sg ca nu co d n0 n1 (T u s) (P u s) h lm), (fun u s => GLm d (n0 + n1) (T u s) (P u s)).
        split; [apply DMod_leaf; apply DL_arap; at_dt|]. split; [apply DM_lm; at_dt|].
        split; [intros; rewrite (AT_0 gd T), (AT_0 ct P) by assumption; reflexivity|]. intros; repeat split.
    - destruct W as (_ & W). cbn [mod_manifold g_gd g_cotan] in HT, HP.
      assert (H : exists Ms Gs, DMods U Lin d Ms /\ DMs U Lin d Gs /\ (forall u, Ms u 0 = ms) /\
        forall u s, map skel (Gs u s) = map skel (map mod_manifold ms) /\ flat_map g_gd (Gs u s) = at_ u s Ts /\ flat_map g_cotan (Gs u s) = at_ u s Ps /\
          sets ms (Gs u s) = Ok (Ms u s)).
      { revert W LD Ts Ps HT HP. cbn [locals_differentiable]. induction IH as [|m ms Hm _ IHs]; intros W LD Ts Ps HT HP; cbn [map flat_map fold_right] in *.
        - inversion HT; subst. inversion HP; subst. exists (fun _ _ => []), (fun _ _ => []). split; [apply DMods_nil|]. split; [apply DMs_nil|]. split; [reflexivity|]. intros; repeat split.
        - destruct W as (W & Ws). destruct LD as (LD & LDs). apply Forall2_app_inv_l in HT as (T1 & T2 & A1 & A2 & ->). apply Forall2_app_inv_l in HP as (P1 & P2 & B1 & B2 & ->).
          destruct (Hm W LD T1 P1 A1 B1) as (M & G & DM' & DG & M0 & HM). destruct (IHs Ws LDs T2 P2 A2 B2) as (Ms & Gs & DMs' & DGs & Ms0 & HMs).
          exists (fun u s => M u s :: Ms u s), (fun u s => G u s :: Gs u s). split; [apply DMods_cons; assumption|]. split; [apply DMs_cons; assumption|].
          split; [intros; rewrite M0, Ms0; reflexivity|].
          intros u s. destruct (HM u s) as (K & E1 & E2 & E3). destruct (HMs u s) as (Ks & E1s & E2s & E3s). cbn [map flat_map sets]. fold sets. rewrite !map_app, E3. cbn [bind]. rewrite E3s.
          repeat split; congruence. }
      destruct H as (Ms & Gs & DMs' & DGs & Ms0 & H). exists (fun u s => MComp (Ms u s)), (fun u s => GComp (Gs u s)).
      split; [apply DMod_comp; assumption|]. split; [apply DM_comp; assumption|]. split; [intros; rewrite Ms0; reflexivity|].
      intros u s. destruct (H u s) as (K & E1 & E2 & E3). cbn [mod_manifold skel g_gd g_cotan]. rewrite set_comp, E3. repeat split; congruence.
  Qed.

  Lemma mod_ctrl u s u' s' M : DMod U Lin d M -> forall c, ctrl_ok d (M u s) c -> ctrl_ok d (M u' s') c.
  Proof.
    revert M. apply (DMod_rec' U Lin d (fun M _ => forall c, ctrl_ok d (M u s) c -> ctrl_ok d (M u' s') c)
      (fun Ms _ => forall cs, ctrl_ok d (MComp (Ms u s)) (CList cs) -> ctrl_ok d (MComp (Ms u' s')) (CList cs))).
    - intros M HM c. apply (leaf_ctrl U Lin). assumption.
    - intros Ms _ H [t|cs]; [exact (fun x => x)|]. apply H.
    - intros cs H. exact H.
    - intros M Ms _ H _ Hs [|c cs]; [exact (fun x => x)|]. intros (A & B). split; [apply H; exact A|]. exact (Hs cs B).
  Qed.
  Lemma mod_first u s u' s' M : DMod U Lin d M -> first_order (M u s) -> first_order (M u' s').
  Proof.
    revert M. apply (DMod_rec' U Lin d (fun M _ => first_order (M u s) -> first_order (M u' s'))
      (fun Ms _ => fold_right (fun m acc => first_order m \/ acc) False (Ms u s) -> fold_right (fun m acc => first_order m \/ acc) False (Ms u' s')));
      intros; cbn [first_order fold_right] in *; try tauto. revert H. apply (leaf_first U Lin d). assumption.
  Qed.
End Build.

(** ** Directions *)
Lemma tdot_comm a b : shape a = shape b -> tdot a b = tdot b a.
Proof. intros E. unfold tdot. rewrite E. apply rsum_ext. intros. ring. Qed.
Lemma ldot_comm a : forall b, map shape a = map shape b -> ldot a b = ldot b a.
Proof.
  induction a as [|x a IH]; intros [|y b] E; try discriminate; [reflexivity|]. cbn [map] in E. injection E as E1 E2.
  unfold ldot in *. cbn [combine map fold_right fst snd]. rewrite IH, tdot_comm by assumption. reflexivity.
Qed.
Lemma ldot_lin a b G : forall G' u, map shape G = map shape u -> map shape G' = map shape u ->
  ldot (ladd (lscal a G) (lscal b G')) u = a * ldot G u + b * ldot G' u.
Proof.
  induction G as [|x G IH]; intros [|y G'] [|z u] E E'; try discriminate; [cbn; ring|]. cbn [map] in E, E'. injection E as E1 E2. injection E' as E1' E2'.
  unfold ldot, ladd, lscal in *. cbn [combine map fold_right fst snd]. rewrite IH by assumption.
  replace (tdot (tadd (tscal a x) (tscal b y)) z) with (a * tdot x z + b * tdot y z); [ring|].
  unfold tdot. cbn [shape tadd tscal tmap tmap2]. rewrite E1, E1'. rewrite <- !rsum_scal, <- rsum_plus. apply rsum_ext. intros. rewrite !get_flatten_k. cbn [shape tadd tscal tmap tmap2 get]. rewrite E1, E1'. ring.
Qed.
Lemma ladd_shape a : forall b, map shape a = map shape b -> map shape (ladd a b) = map shape a.
Proof.
  induction a as [|x a IH]; intros [|y b] E; try discriminate; [reflexivity|]. cbn [map] in E. injection E as E1 E2. unfold ladd in *. cbn [combine map fst snd shape tadd tmap2]. rewrite IH by assumption. reflexivity.
Qed.
Lemma lscal_shape s a : map shape (lscal s a) = map shape a.
Proof. unfold lscal. rewrite map_map. apply map_ext. reflexivity. Qed.

Lemma line_derivative a b : derivable_pt_lim (fun s => a + s * b) 0 b.
Proof.
  intros e He. exists (mkposreal 1 Rlt_0_1). intros h Hh _. match goal with |- Rabs ?x < _ => replace x with 0 by (field; assumption) end. rewrite Rabs_R0. assumption.
Qed.

Lemma rsum_derivative n (f : nat -> R -> R) g x : (forall i, (i < n)%nat -> derivable_pt_lim (f i) x (g i)) -> derivable_pt_lim (fun s => rsum n (fun i => f i s)) x (rsum n g).
Proof.
  induction n as [|n IH]; intros H.
  - replace (fun s => rsum 0 (fun i => f i s)) with (fun _ : R => 0) by (apply functional_extensionality; intros; rewrite rsum_0; reflexivity). rewrite rsum_0. apply derivable_pt_lim_const.
  - replace (fun s => rsum (S n) (fun i => f i s)) with (fun s => rsum n (fun i => f i s) + f n s) by (apply functional_extensionality; intros; rewrite rsum_S; reflexivity). rewrite rsum_S.
    apply (derivable_pt_lim_plus (fun s => rsum n (fun i => f i s)) (f n)); [apply IH; intros; apply H; lia|apply H; lia].
Qed.
Lemma sum_idx_derivative sh (f : list nat -> R -> R) g x : (forall k, valid sh k -> derivable_pt_lim (f k) x (g k)) -> derivable_pt_lim (fun s => sum_idx sh (fun k => f k s)) x (sum_idx sh g).
Proof.
  intros H. rewrite sum_idx_flat. replace (fun s => sum_idx sh (fun k => f k s)) with (fun s => rsum (prod sh) (fun i => f (unravel sh i) s)) by (apply functional_extensionality; intros; rewrite sum_idx_flat; reflexivity).
  apply (rsum_derivative _ (fun i => f (unravel sh i))). intros i Hi. apply H. apply valid_unravel. exact Hi.
Qed.

Lemma forall2_nth {A B} (P : A -> B -> Prop) l : forall f : nat -> B, (forall k x, nth_error l k = Some x -> P x (f k)) -> Forall2 P l (map f (seq 0 (length l))).
Proof.
  induction l as [|x l IH]; intros f H; cbn [length seq map]; [constructor|]. constructor; [apply (H 0%nat); reflexivity|].
  rewrite <- seq_shift, map_map. apply IH. intros k y E. exact (H (S k) y E).
Qed.
Lemma map_nth_seq {A} (x0 : A) l : map (fun k => nth k l x0) (seq 0 (length l)) = l.
Proof. induction l as [|x l IH]; [reflexivity|]. cbn [length seq map nth]. rewrite <- seq_shift, map_map. f_equal. exact IH. Qed.

(** A straight line is a curve. *)
Lemma line_passes l v : map shape v = map shape l -> lpasses (fun s => ladd l (lscal s v)) l v.
Proof.
  intros S.
  assert (E : forall i t, nth_error l i = Some t -> exists w, nth_error v i = Some w /\ shape w = shape t /\ forall s, nth_error (ladd l (lscal s v)) i = Some (tadd t (tscal s w))).
  { clear - S. revert v S. induction l as [|x l IH]; intros [|y v] S i t E; try discriminate S; [destruct i; discriminate E|]. cbn [map] in S. injection S as S1 S2. destruct i as [|i].
    - injection E as <-. exists y. split; [reflexivity|]. split; [exact S1|]. intros s. reflexivity.
    - destruct (IH v S2 i t E) as (w & A & B & C). exists w. split; [exact A|]. split; [exact B|]. intros s. exact (C s). }
  split; [|split; [intros s; apply ladd_shape; rewrite lscal_shape; symmetry; exact S|split; [exact S|]]].
  - clear E. revert v S. induction l as [|x l IH]; intros [|y v] S; try discriminate S; [reflexivity|]. cbn [map] in S. injection S as S1 S2. unfold ladd, lscal in *. cbn [map combine fst snd].
    f_equal; [|exact (IH v S2)]. rewrite <- (tensor_eta x) at 2. unfold tadd, tmap2. apply mkT_ext. intros idx. cbn. ring.
  - intros i t idx Et Hv. destruct (E i t Et) as (w & A & B & C). unfold entry. rewrite A.
    replace (fun s => match nth_error (ladd l (lscal s v)) i with Some t0 => get t0 idx | None => 0 end) with (fun s => get t idx + s * get w idx); [apply line_derivative|].
    apply functional_extensionality. intros s. rewrite C. reflexivity.
Qed.

Section Dir.
  Variable l : list tensor.
  (** The curves through l with their velocities. *)
  Definition dir := { u : (R -> list tensor) * list tensor | lpasses (fst u) l (snd u) }.
  Definition along (u : dir) : R -> list tensor := fst (proj1_sig u).
  Definition vel (u : dir) : list tensor := snd (proj1_sig u).
  Definition lin (L : dir -> R) : Prop := exists G, map shape G = map shape l /\ forall u, L u = ldot G (vel u).
  Lemma vel_shape u : map shape (vel u) = map shape l.
  Proof. apply (proj2_sig u). Qed.

  Lemma lin_zero : lin (fun _ => 0).
  Proof.
    exists (map (fun t => tzeros (shape t)) l). split; [rewrite map_map; reflexivity|]. intros u. pose proof (vel_shape u) as S.
    rewrite ldot_comm by (rewrite map_map; symmetry; assumption). symmetry. apply ldot_zeros.
  Qed.
  Lemma lin_comb a b L L' : lin L -> lin L' -> lin (fun u => a * L u + b * L' u).
  Proof.
    intros (G & S & H) (G' & S' & H'). exists (ladd (lscal a G) (lscal b G')). split.
    - rewrite ladd_shape; rewrite !lscal_shape; congruence.
    - intros u. rewrite H, H'. symmetry. apply ldot_lin; rewrite (vel_shape u); assumption.
  Qed.
  Definition dir0 : dir := exist _ ((fun s => ladd l (lscal s l)), l) (line_passes l l eq_refl).

  Lemma lines : exists Ts, Forall2 (AT dir lin) l Ts /\ forall u s, map (fun T => T u s) Ts = along u s.
  Proof.
    set (T := fun k (u : dir) s => nth k (along u s) (mk0 0)). exists (map T (seq 0 (length l))). split.
    - apply forall2_nth. intros k t Et.
      assert (NE : forall x : list tensor, map shape x = map shape l -> exists y, nth_error x k = Some y /\ shape y = shape t).
      { intros x S. pose proof (map_nth_error shape k l Et) as X. rewrite <- S, nth_error_map in X. destruct (nth_error x k) as [y|]; [|discriminate]. injection X as X. exists y. auto. }
      exists (fun u => nth k (vel u) (mk0 0)). split.
      + intros idx Hv. exists (unit_at l k idx). split; [apply unit_shape|]. intros u.
        rewrite ldot_comm by (rewrite unit_shape, (vel_shape u); reflexivity).
        rewrite (ldot_unit (vel u) l k idx t (vel_shape u) Et Hv). unfold entry. destruct (NE _ (vel_shape u)) as (y & E & _). rewrite E. rewrite (nth_error_nth _ _ _ E). reflexivity.
      + intros u. destruct (proj2_sig u) as (C0 & CS & VS & CD). fold (along u) in C0, CS, CD. fold (vel u) in VS, CD. unfold T. split; [rewrite C0; apply nth_error_nth; exact Et|]. split; [|split].
        * intros s. destruct (NE _ (CS s)) as (y & E & S). rewrite (nth_error_nth _ _ _ E). exact S.
        * destruct (NE _ VS) as (y & E & S). rewrite (nth_error_nth _ _ _ E). exact S.
        * intros idx Hv. specialize (CD k t idx Et Hv). destruct (NE _ VS) as (y & E & S). rewrite (nth_error_nth _ _ _ E). unfold entry in CD. rewrite E in CD.
          replace (fun s => get (nth k (along u s) (mk0 0)) idx) with (fun s => match nth_error (along u s) k with Some t0 => get t0 idx | None => 0 end); [exact CD|].
          apply functional_extensionality. intros s. destruct (NE _ (CS s)) as (z & Ez & _). rewrite Ez, (nth_error_nth _ _ _ Ez). reflexivity.
    - intros u s. rewrite map_map. unfold T. assert (L : length l = length (along u s)).
      { rewrite <- (map_length shape l), <- (map_length shape (along u s)). f_equal. symmetry. apply (proj1 (proj2 (proj2_sig u))). }
      rewrite L. apply map_nth_seq.
  Qed.
End Dir.

(** ** The Hamiltonian *)
Section Ham.
  Variables (sv : solver) (b0 : backend) (d : nat).
  Hypothesis HSV : exact_solver sv.

  Lemma family m : wf_mod d m -> locals_differentiable d m ->
    let l := phase (mod_manifold m) in
    exists M, DMod (dir l) (lin l) d M /\ DM (dir l) (lin l) d (fun u s => mod_manifold (M u s)) /\ (forall u, M u 0 = m) /\
      (forall u s, skel (mod_manifold (M u s)) = skel (mod_manifold m)) /\
      forall u s, write_manifold m (along l u s) = Ok (M u s).
  Proof.
    intros W LD l. destruct (lines l) as (Ts & HT & ET).
    unfold l, phase in HT. apply Forall2_app_inv_l in HT as (T1 & T2 & A1 & A2 & ->).
    destruct (build (dir l) (lin l) (dir0 l) (lin_zero l) (lin_comb l) d m W LD T1 T2 A1 A2) as (M & G & HM & HG & M0 & H).
    assert (EG : forall u s, mod_manifold (M u s) = G u s).
    { intros u s. destruct (H u s) as (K & _ & _ & ES). destruct (set_ok m (G u s) K) as (m1 & E1 & EM & _). congruence. }
    exists M. split; [assumption|]. split.
    - replace (fun u s => mod_manifold (M u s)) with G; [assumption|]. apply functional_extensionality. intros u. apply functional_extensionality. intros s. symmetry. apply EG.
    - split; [assumption|]. split; [intros u s; rewrite EG; apply H|]. intros u s. destruct (H u s) as (K & E1 & E2 & ES).
      assert (EP : phase (G u s) = along l u s) by (unfold phase; rewrite E1, E2, <- map_app; exact (ET u s)).
      rewrite <- EP, (write_phase m (G u s) K). exact ES.
  Qed.

  Lemma D_differentiable (F : list tensor -> res R) l (f : dir l -> R -> R) : D (dir l) (lin l) f ->
    Near (dir l) (fun u s => F (along l u s) = Ok (f u s)) -> differentiable_along F l.
  Proof.
    intros (x & L & (G & SG & HL) & _ & HD) N. exists G. split; [assumption|]. intros c v P. set (u := exist _ (c, v) P : dir l).
    destruct (N u) as (eps & He & H). exists eps, (f u). split; [assumption|]. split; [exact H|]. pose proof (HD u) as X. rewrite HL in X. exact X.
  Qed.

  Lemma ham_given m c : wf_mod d m -> solvable d m -> locals_differentiable d m -> ctrl_ok d m c ->
    differentiable_along (ham_of m (fun m => fill_controls sv m c)) (phase (mod_manifold m)).
  Proof.
    intros W SO LD Hc. set (l := phase (mod_manifold m)). destruct (family m W LD) as (M & HM & HG & M0 & HK & HWr).
    assert (Hcs : forall u s, ctrl_ok d (M u s) c).
    { intros u s. apply (mod_ctrl (dir l) (lin l) d u 0 u s M HM). rewrite M0. assumption. }
    destruct (mod_DA (dir l) (lin l) (dir0 l) (lin_zero l) (lin_comb l) sv d HSV M HM) with (G := fun u s => mod_manifold (M u s)) (c := c)
      as (cf & pf & D1 & D2 & N); [intros; rewrite M0; assumption|intros; rewrite M0; assumption|assumption|assumption|].
    apply (D_differentiable _ l (fun u s => pf u s - cf u s)).
    - apply (D_minus (dir l) (lin l) (lin_zero l) (lin_comb l)); assumption.
    - eapply near_imp; [|exact N]. cbn beta. intros u s (m1 & f & F & C & FG & (Wf & H0 & H1 & _) & PF).
      unfold ham_of. rewrite HWr. cbn [bind]. rewrite F. cbn [bind]. unfold hamiltonian, apply_mom. rewrite FG. cbn [bind].
      rewrite (fill_manifold sv _ c m1 F).
      rewrite (inner_pairing_field d _ f (DM_wf _ _ d _ HG u s) Wf H0 (fun _ => H1)). cbn [bind]. rewrite C, PF. reflexivity.
  Qed.

  Lemma ham_geodesic m : wf_mod d m -> posed d m -> locals_differentiable d m -> (first_order m -> ~ has_dir (mod_manifold m)) ->
    differentiable_along (ham_of m (geodesic_controls sv b0)) (phase (mod_manifold m)).
  Proof.
    intros W RG LD HF. set (l := phase (mod_manifold m)). destruct (family m W LD) as (M & HM & HG & M0 & HK & HWr).
    assert (HF' : forall u s, first_order (M u s) -> first_order m).
    { intros u s. rewrite <- (M0 u). apply (mod_first (dir l) (lin l) d u s u 0 M HM). }
    destruct (wf_mod_manifold d m W) as (WG & NE).
    assert (NEs : forall u s, no_empty_comp (mod_manifold (M u s))).
    { intros u s. apply (nec_same (dir l) (lin l) d (fun u s => mod_manifold (M u s)) u 0 u s HG). rewrite M0. assumption. }
    assert (HFs : forall u s, first_order (M u s) -> ~ has_dir (mod_manifold (M u s))).
    { intros u s H1 H2. apply (HF (HF' u s H1)). rewrite <- (M0 u). apply (dir_same (dir l) (lin l) d (fun u s => mod_manifold (M u s)) u s u 0 HG). assumption. }
    destruct (mod_DB (dir l) (lin l) (dir0 l) (lin_zero l) (lin_comb l) sv b0 d HSV M HM) with (G := fun u s => mod_manifold (M u s))
      as (cf & D1 & N); [intros; rewrite M0; assumption|intros; rewrite M0; assumption|assumption|assumption|assumption|].
    apply (D_differentiable _ l cf D1).
    assert (NW := near_wf (dir l) (lin l) d M HM (fun u => eq_ind_r (wf_mod d) W (M0 u))).
    eapply near_imp; [|exact (near_and _ _ _ N NW)]. cbn beta. intros u s ((m' & E & C) & Wm).
    unfold ham_of. rewrite HWr. cbn [bind]. change (geodesic_controls sv b0 (M u s)) with (compute_geodesic_control sv b0 (M u s) (mod_manifold (M u s))).
    rewrite E. cbn [bind]. destruct (hamiltonian_cost sv b0 d HSV (M u s) m' Wm E) as (x & Cx & Hx & _). rewrite Hx, <- C, Cx. reflexivity.
  Qed.

  (** ** Wherever the descriptors and the moments are *)

  Lemma smooth_total m : locals_smooth d m -> locals_total d m.
  Proof.
    induction m as [m NC|ms IH] using dmod_ind'.
    - destruct m; try exact (fun _ => Logic.I); [|elim (NC ms eq_refl)]. cbn [locals_smooth locals_total]. intros H gd' Sg.
      destruct (H gd' Sg) as (M & (J1 & SJ1 & H1) & (J2 & SJ2 & H2)).
      assert (P : passes (fun _ => gd') gd' (tzeros (shape gd'))).
      { split; [reflexivity|]. split; [reflexivity|]. split; [reflexivity|]. intros idx _. apply derivable_pt_lim_const. }
      destruct (H1 _ _ P) as (e1 & S1 & P1 & Q1 & _). destruct (H2 _ _ P) as (e2 & S2 & P2 & Q2 & _).
      destruct (Q1 0) as (A1 & B1); [rewrite Rabs_R0; assumption|]. destruct (Q2 0) as (A2 & B2); [rewrite Rabs_R0; assumption|].
      exists M, (S1 0), (S2 0). auto.
    - cbn [locals_smooth locals_total]. induction IH as [|m ms Hm _ IHs]; cbn [fold_right]; [auto|]. intros (A & B). auto.
  Qed.

  Lemma smooth_there m : forall g m1, wf_mod d m1 -> locals_smooth d m -> set_manifold m g = Ok m1 -> locals_differentiable d m1.
  Proof.
    induction m as [m NC|ms IH] using dmod_ind'; intros g m1 W L E.
    - destruct m; try (elim (NC ms eq_refl)); destruct g; try discriminate E; cbn [set_manifold] in E; injection E as <-; try exact Logic.I.
      cbn [locals_smooth locals_differentiable wf_mod] in *. apply L. tauto.
    - destruct g as [| | | | |gs]; try discriminate E. rewrite set_comp in E. destruct (sets ms gs) as [r|] eqn:Er; [|discriminate E]. injection E as <-.
      cbn [wf_mod locals_smooth locals_differentiable] in *. destruct W as (_ & W).
      revert gs r W L Er. induction IH as [|m ms Hm _ IHs]; intros gs r W L Er; destruct gs as [|g gs]; try discriminate Er; [injection Er as <-; exact Logic.I|].
      cbn [fold_right sets] in *. fold sets in Er. destruct (set_manifold m g) as [m1|] eqn:Em; [|discriminate Er]. cbn [bind] in Er.
      destruct (sets ms gs) as [r'|] eqn:Er'; [|discriminate Er]. injection Er as <-. cbn [fold_right] in *. split; [apply (Hm g m1); tauto|apply (IHs gs r'); tauto].
  Qed.

  (** The module written with a list of descriptors and moments. *)
  Lemma written m l : wf_mod d m -> locals_smooth d m -> map shape l = map shape (phase (mod_manifold m)) ->
    exists m1, write_manifold m l = Ok m1 /\ wf_mod d m1 /\ locals_differentiable d m1 /\ phase (mod_manifold m1) = l /\
      skel (mod_manifold m) = skel (mod_manifold m1) /\ frozen m = frozen m1 /\ (forall c, ctrl_ok d m1 c <-> ctrl_ok d m c).
  Proof.
    intros W L SL. destruct (phase_fill (mod_manifold m) l) as (g & Pg & Kg).
    { rewrite <- phase_len, <- (map_length shape l), SL, map_length. reflexivity. }
    destruct (set_ok m g Kg) as (m1 & E & Mg & Fz & _). rewrite <- Pg, (write_phase m g Kg). exists m1. rewrite Mg.
    assert (SP : map shape (g_gd g) = map shape (g_gd (mod_manifold m)) /\ map shape (g_cotan g) = map shape (g_cotan (mod_manifold m))).
    { apply app_shapes; [rewrite !g_gd_len; apply skel_len; exact Kg|]. unfold phase in Pg. rewrite Pg. exact SL. }
    assert (W1 : wf_mod d m1) by (exact (wf_set d m g m1 W (smooth_total m L) Kg (proj1 SP) (proj2 SP) E)).
    split; [exact E|]. split; [exact W1|]. split; [exact (smooth_there m g m1 W1 L E)|]. split; [reflexivity|]. split; [symmetry; exact Kg|]. split; [symmetry; exact Fz|].
    intros k. exact (ctrl_set d m g m1 k E).
  Qed.

  Lemma differentiable_ext F F' l : (forall l', map shape l' = map shape l -> F l' = F' l') -> differentiable_along F' l -> differentiable_along F l.
  Proof.
    intros E (G & SG & H). exists G. split; [exact SG|]. intros c v P. destruct (H c v P) as (eps & f & He & Hf & Df). exists eps, f.
    split; [exact He|]. split; [|exact Df]. intros s Hs. rewrite E; [exact (Hf s Hs)|]. apply P.
  Qed.

  Lemma directional_ext F F' l : (forall l', map shape l' = map shape l -> F l' = F' l') -> differentiable F' l -> differentiable F l.
  Proof.
    intros E (G & SG & H). exists G. split; [exact SG|]. intros u Su. destruct (H u Su) as (eps & f & He & Hf & Df). exists eps, f.
    split; [exact He|]. split; [|exact Df]. intros s Hs. rewrite E; [exact (Hf s Hs)|]. rewrite ladd_shape; [reflexivity|]. rewrite lscal_shape. symmetry. exact Su.
  Qed.

  Lemma along_differentiable F l : differentiable_along F l -> differentiable F l.
  Proof. intros (G & SG & H). exists G. split; [exact SG|]. intros u Su. exact (H _ u (line_passes l u Su)). Qed.
  Lemma along_smooth shapes F : smooth_along shapes F -> smooth_on shapes F.
  Proof. intros H l x S E. exact (along_differentiable F l (H l x S E)). Qed.

  Lemma along_geodesic m : wf_mod d m -> locals_smooth d m ->
    smooth_along (map shape (phase (mod_manifold m))) (ham_of m (geodesic_controls sv b0)).
  Proof.
    intros W L l x SL HX. destruct (written m l W L SL) as (m1 & E & W1 & LD & Pl & K & Fz & _).
    apply (differentiable_ext _ (ham_of m1 (geodesic_controls sv b0))).
    - intros l' S'. apply ham_determined; [exact Fz|exact K| |].
      + intros n n' A B. apply geodesic_determined; assumption.
      + rewrite <- (map_length shape l'), S', SL, map_length, phase_len. lia.
    - rewrite <- Pl. unfold ham_of in HX. rewrite E in HX. cbn [bind] in HX. bok HX m2 EG. destruct (wf_mod_manifold d m1 W1) as (WG & NE). apply ham_geodesic; [exact W1| |exact LD|].
      + exact (geo_posed_conv sv b0 d HSV m1 _ WG NE m2 W1 EG).
      + intros FO HD. exact (geo_no_dir sv b0 d m1 _ W1 WG NE FO HD (ex_intro _ m2 EG)).
  Qed.

  Lemma along_given m c : wf_mod d m -> locals_smooth d m -> ctrl_ok d m c ->
    smooth_along (map shape (phase (mod_manifold m))) (ham_of m (fun m => fill_controls sv m c)).
  Proof.
    intros W L Hc l x SL HX. destruct (written m l W L SL) as (m1 & E & W1 & LD & Pl & K & Fz & HC).
    apply (differentiable_ext _ (ham_of m1 (fun m => fill_controls sv m c))).
    - intros l' S'. apply ham_determined; [exact Fz|exact K| |].
      + intros n n' A B. apply fill_determined; [apply frozen_params; exact A|exact B].
      + rewrite <- (map_length shape l'), S', SL, map_length, phase_len. lia.
    - rewrite <- Pl. unfold ham_of in HX. rewrite E in HX. cbn [bind] in HX. bok HX m2 EG. apply HC in Hc.
      apply ham_given; [exact W1| |exact LD|exact Hc]. exact (fill_solvable sv d HSV m1 c m2 W1 Hc EG).
  Qed.

  Lemma along_step m cs i : wf_mod d m -> locals_smooth d m -> (forall l c, cs = Some l -> In c l -> ctrl_ok d m c) ->
    smooth_along (map shape (phase (mod_manifold m))) (ham_of m (step_controls sv b0 cs i)).
  Proof.
    intros W L Hc. destruct cs as [k|]; [|exact (along_geodesic m W L)]. unfold step_controls. destruct (nth_error k i) as [c|] eqn:Ek.
    - apply (along_given m c W L). apply (Hc k c eq_refl). exact (nth_error_In _ _ Ek).
    - intros l x _ HX. unfold ham_of in HX. destruct (write_manifold m l); discriminate HX.
  Qed.

  Lemma smooth_geodesic m : wf_mod d m -> locals_smooth d m -> smooth_on (map shape (phase (mod_manifold m))) (ham_of m (geodesic_controls sv b0)).
  Proof. intros W L. apply along_smooth. exact (along_geodesic m W L). Qed.
  Lemma smooth_given m c : wf_mod d m -> locals_smooth d m -> ctrl_ok d m c -> smooth_on (map shape (phase (mod_manifold m))) (ham_of m (fun m => fill_controls sv m c)).
  Proof. intros W L C. apply along_smooth. exact (along_given m c W L C). Qed.
  Lemma smooth_step m cs i : wf_mod d m -> locals_smooth d m -> (forall l c, cs = Some l -> In c l -> ctrl_ok d m c) ->
    smooth_on (map shape (phase (mod_manifold m))) (ham_of m (step_controls sv b0 cs i)).
  Proof. intros W L C. apply along_smooth. exact (along_step m cs i W L C). Qed.
End Ham.
