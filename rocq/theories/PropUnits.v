(** Property theorems about the unit of length (C103). *)
From Coq Require Import Reals String List Arith Lia Lra Psatz FunctionalExtensionality.
From Coquelicot Require Import Coquelicot.
From Verif Require Import Py RSum Tensor TensorFacts LinAlg SpecLinAlg KernelModel FieldModel GeometryModel ModuleModel ShootingModel
  SpecKernel SpecField SpecGeometry SpecModule SpecShooting SpecMotion SpecTransport SpecSmooth FieldFacts GeometryFacts ModuleDual ModuleLeaves ModuleMain ModuleRegular ShootingPack ShootingDyn ShootingInst ShootingFinal ShootingTotal ShootingEuler PropModule PropShooting MotionFacts MotionShoot MotionMomentum
  TransportFacts SpecRigid RigidShoot SolverExists MotionExample SmoothRun PropRigid PropSmooth SpecEnergy EnergyFacts PropEnergy SpecConverge ConvergeFacts PropConverge ReverseShoot PropReverse
  ScaleFlow SpecUnits UnitsField UnitsModule UnitsControl UnitsShoot.
Import ListNotations.
Open Scope R_scope.

(** ** Modules *)

Lemma scaled_values d u a b : (exists x, hamiltonian a = Ok x /\ hamiltonian b = Ok (u * u * x)) -> scaled_to d u a b -> same_in_units d u a b.
Proof.
  intros HE (x & f & f' & C & C' & FG & FG' & (Wf & H0 & H1 & _) & (Wf' & H0' & H1' & _) & CA). split; [exists x; auto|]. split; [exact HE|].
  intros p N Sp. unfold velocity. rewrite FG, FG'. cbn [bind]. assert (Sp' : shape (tscal u p) = [N; d]) by exact Sp.
  assert (XP : forall n a, (a < d)%nat -> vrow (tscal u p) n a = u * vrow p n a) by reflexivity. split.
  - destruct (feval_0 d f p N Wf H0 Sp) as (V & E & SV & GV). destruct (feval_0 d f' _ N Wf' H0' Sp') as (V' & E' & SV' & GV').
    exists V, V'. split; [exact E|]. split; [exact E'|]. split; [cbn; congruence|]. intros idx Hv. rewrite SV' in Hv. rewrite GV' by exact Hv.
    destruct idx as [|i [|k [|? ?]]]; try (cbn in Hv; tauto). pose proof Hv as Hv'. cbn in Hv'. cbn [V0 tscal tmap get]. rewrite (proj1 (CA _ _ (XP i)) k) by tauto.
    rewrite GV by exact Hv. reflexivity.
  - destruct (feval_1 d f p N Wf H1 Sp) as (V & E & SV & GV). destruct (feval_1 d f' _ N Wf' H1' Sp') as (V' & E' & SV' & GV').
    exists V, V'. split; [exact E|]. split; [exact E'|]. split; [cbn; congruence|]. intros idx Hv. rewrite SV' in Hv. rewrite GV' by exact Hv.
    destruct idx as [|i [|k [|l [|? ?]]]]; try (cbn in Hv; tauto). pose proof Hv as Hv'. cbn in Hv'. cbn [V1 get]. rewrite (proj2 (CA _ _ (XP i)) k l) by tauto.
    rewrite GV by exact Hv. reflexivity.
Qed.

(** A module in another unit of length, given the same controls in that unit. *)
Theorem C103_given_controls : forall sv sv' d u m m' k k' m1 m1',
  0 < u -> exact_solver sv -> exact_solver sv' -> wf_mod d m -> wf_mod d m' -> other_unit d u m m' ->
  ctrl_ok d m k -> ctrl_ok d m' k' -> ctrl_units u m m' k k' ->
  fill_controls sv m k = Ok m1 -> fill_controls sv' m' k' = Ok m1' ->
  same_in_units d u m1 m1'.
Proof.
  intros sv sv' d u m m' k k' m1 m1' U HS HS' W W' EW O O' T F F'. assert (U0 : u <> 0) by lra. apply scaled_values.
  - exact (given_units d u U0 sv sv' HS HS' m m' k k' m1 m1' W W' EW O O' T F F').
  - exact (module_grows d u U0 sv sv' HS HS' m m' k k' m1 m1' W W' EW O O' T F F').
Qed.
Print Assumptions C103_given_controls.

(** Its geodesic controls. *)
Theorem C103_geodesic_controls : forall sv sv' b0 b0' d u m m' m1 m1',
  0 < u -> exact_solver sv -> exact_solver sv' -> wf_mod d m -> wf_mod d m' -> other_unit d u m m' ->
  geodesic_controls sv b0 m = Ok m1 -> geodesic_controls sv' b0' m' = Ok m1' ->
  (exists x, hamiltonian m1 = Ok x /\ hamiltonian m1' = Ok (u * u * x) /\ cost m1 = Ok x /\ cost m1' = Ok (u * u * x)) /\
  (regular d m -> ctrl_units u m m' (controls m1) (controls m1') /\ same_in_units d u m1 m1').
Proof.
  intros sv sv' b0 b0' d u m m' m1 m1' U HS HS' W W' EW A A'. assert (U0 : u <> 0) by lra.
  destruct (geodesic_units d u U0 sv sv' b0 b0' HS HS' m m' m1 m1' W W' EW A A') as ((v & H1 & H2) & TT).
  destruct (hamiltonian_cost sv b0 d HS m m1 W A) as (y & C1 & C2 & _). destruct (hamiltonian_cost sv' b0' d HS' m' m1' W' A') as (y' & C1' & C2' & _).
  split; [exists v; split; [exact H1|]; split; [exact H2|]; split; congruence|]. intros RG.
  unfold geodesic_controls in A, A'. destruct (wf_mod_manifold d m W) as (WM & NE). destruct (wf_mod_manifold d m' W') as (WM' & NE').
  destruct (geodesic_max sv b0 d HS m _ m1 W WM NE A) as (O & F & _). destruct (geodesic_max sv' b0' d HS' m' _ m1' W' WM' NE' A') as (O' & F' & _).
  specialize (TT (regular_units d u U0 m m' W W' EW RG)). split; [exact TT|].
  apply scaled_values; [exists v; auto|]. exact (module_grows d u U0 sv sv' HS HS' m m' _ _ m1 m1' W W' EW O O' TT F F').
Qed.
Print Assumptions C103_geodesic_controls.

Lemma first_order_resized d u m : forall m', resized d u m m' -> first_order m' -> first_order m.
Proof.
  induction m as [m NC|ms IH] using dmod_ind'; intros m' T F.
  - destruct m; try (elim (NC ms eq_refl)); destruct m'; try contradiction T; exact F.
  - destruct m' as [| | | | | | | | | |ms']; try contradiction T. cbn [resized first_order] in *. revert ms' T F.
    induction IH as [|m ms Hm _ IHs]; intros [|m' ms'] T F; try contradiction. destruct T as (T & TS). destruct F as [F|F]; [left; eapply Hm; eassumption|right; eapply IHs; eassumption].
Qed.

(** In regular configurations both modules take controls and find geodesic controls. *)
Theorem C103_computable : forall sv sv' b0 b0' d u m m',
  0 < u -> exact_solver sv -> exact_solver sv' -> wf_mod d m -> wf_mod d m' -> other_unit d u m m' -> regular d m ->
  regular d m' /\
  (forall k, ctrl_ok d m k -> exists k', ctrl_ok d m' k' /\ ctrl_units u m m' k k' /\ is_ok (fill_controls sv m k) /\ is_ok (fill_controls sv' m' k')) /\
  ((first_order m -> ~ has_dir (mod_manifold m)) -> is_ok (geodesic_controls sv b0 m) /\ is_ok (geodesic_controls sv' b0' m')).
Proof.
  intros sv sv' b0 b0' d u m m' U HS HS' W W' EW RG. assert (U0 : u <> 0) by lra. pose proof (regular_units d u U0 m m' W W' EW RG) as RG'.
  destruct (wf_mod_manifold d m W) as (WM & NE). destruct (wf_mod_manifold d m' W') as (WM' & NE').
  split; [exact RG'|]. split.
  - intros k O. destruct (units_exists d u m m' k W' (proj1 EW) O) as (k' & O' & T). exists k'. split; [exact O'|]. split; [exact T|].
    split; [exact (fill_regular sv d HS m k W RG O)|exact (fill_regular sv' d HS' m' k' W' RG' O')].
  - intros FO. split; [apply C19_geodesic_controls_computable with (d := d); assumption|]. apply C19_geodesic_controls_computable with (d := d); try assumption.
    intros FO' HD. apply FO; [exact (first_order_resized d u m m' (proj1 EW) FO')|]. apply (has_dir_same (mod_manifold m')); [|exact HD].
    destruct EW as (_ & ((K & _) & _)). rewrite units_skel in K. exact K.
Qed.
Print Assumptions C103_computable.

(** The local modules of the library in another unit: the scale sigma places the supports. *)
Lemma circle_units u sg gd gd' s s' : teq gd' (tscal u gd) -> circle_support sg gd = Ok s -> circle_support (u * sg) gd' = Ok s' -> teq s' (tscal u s).
Proof.
  unfold circle_support. intros (S & V). cbn in S. rewrite S in *. destruct (shape gd) as [|[|[|a]] [|[|[|[|b]]] [|? ?]]]; try discriminate. intros E E'. injection E as <-. injection E' as <-.
  split; [reflexivity|]. intros idx Hv. cbn in Hv. destruct idx as [|i [|c [|? ?]]]; try tauto. cbn [mk2 get tscal tmap]. rewrite (V [0%nat; c]) by (cbn; intuition lia).
  change (get (tscal u gd) [0%nat; c]) with (u * gd @2 0%nat c). unfold Rdiv. ring.
Qed.
Lemma rot3_support_units u sg gd gd' s s' : teq gd' (tscal u gd) -> rot3_support sg gd = Ok s -> rot3_support (u * sg) gd' = Ok s' -> teq s' (tscal u s).
Proof.
  unfold rot3_support. intros (S & V). cbn in S. rewrite S in *. destruct (shape gd) as [|[|[|[|a]]] [|[|[|[|[|b]]]] [|? ?]]]; try discriminate. intros E E'. injection E as <-. injection E' as <-.
  split; [reflexivity|]. intros idx Hv. cbn in Hv. destruct idx as [|i [|c [|? ?]]]; try tauto. cbn [mk2 get tscal tmap]. rewrite (V [0%nat; c]) by (cbn; intuition lia).
  change (get (tscal u gd) [0%nat; c]) with (u * gd @2 0%nat c). unfold Rdiv. ring.
Qed.
Lemma rot3_vectors_units u gd gd' v v' : teq gd' (tscal u gd) -> rot3_vectors gd = Ok v -> rot3_vectors gd' = Ok v' -> teq v' (tscal u v).
Proof.
  unfold rot3_vectors. intros (S & V). cbn in S. rewrite S in *. destruct (shape gd) as [|[|[|[|a]]] [|[|[|[|[|b]]]] [|? ?]]]; try discriminate. intros E E'. injection E as <-. injection E' as <-.
  split; [reflexivity|]. intros idx Hv. cbn in Hv. destruct idx as [|i [|c [|? ?]]]; try tauto. cbn [mk2 get tscal tmap].
  assert (X : forall j c, (j < 2)%nat -> (c < 3)%nat -> gd' @2 j c = u * gd @2 j c) by (intros j e J C; apply (V [j; e]); cbn; auto).
  rewrite !X by lia. destruct c as [|[|c]]; ring.
Qed.

Theorem C103_local_modules : forall u dim sg co gd ct, 0 < u ->
  other_unit dim u (LocalScaling dim sg co gd ct) (LocalScaling dim (u * sg) co (tscal u gd) (tscal u ct)) /\
  other_unit dim u (LocalRotation dim sg co gd ct) (LocalRotation dim (u * sg) co (tscal u gd) (tscal u ct)).
Proof.
  intros u dim sg co gd ct U.
  assert (SV : forall g, same_values g g) by (intros g; split; split; try reflexivity; apply leq_refl').
  assert (VC : forall c3, vectors_by u 1 (fun _ => Ok c3) (fun _ => Ok c3)).
  { intros c3. split; [lra|]. intros g g' v v' _ E E'. injection E as <-. injection E' as <-. apply teq_one. }
  split.
  - split; [|apply SV]. cbn. repeat (split; [reflexivity|]). split; [|exists 1; apply VC]. intros g g' s s' T. apply circle_units. exact T.
  - unfold LocalRotation. destruct (Nat.eqb dim 3).
    + split; [|apply SV]. cbn. repeat (split; [reflexivity|]). split; [intros g g' s s' T; apply rot3_support_units; exact T|]. exists u. split; [lra|]. intros g g' v v'. apply rot3_vectors_units.
    + split; [|apply SV]. cbn. repeat (split; [reflexivity|]). split; [|exists 1; apply VC]. intros g g' s s' T. apply circle_units. exact T.
Qed.
Print Assumptions C103_local_modules.

(** ** Motions *)

Lemma tscal_id t : tscal 1 t = t.
Proof. destruct t as [s g]. unfold tscal, tmap. cbn [shape get]. f_equal. apply functional_extensionality. intros i. ring. Qed.
Lemma units_gd_eq u g : g_gd (in_units u g) = times (gd_weights u g) (g_gd g).
Proof.
  induction g as [g S|gs IH] using gman_ind'.
  - destruct g; try (elim S); cbn [in_units g_gd gd_weights times]; rewrite ?tscal_id; reflexivity.
  - cbn [in_units g_gd gd_weights]. induction IH as [|g gs A _ B]; [reflexivity|]. cbn [map flat_map]. rewrite times_app by apply gd_weights_len. rewrite A, B. reflexivity.
Qed.
Lemma units_cotan_eq u g : g_cotan (in_units u g) = times (ct_weights u g) (g_cotan g).
Proof.
  induction g as [g S|gs IH] using gman_ind'; [destruct g; try (elim S); reflexivity|].
  cbn [in_units g_cotan ct_weights]. induction IH as [|g gs A _ B]; [reflexivity|]. cbn [map flat_map]. rewrite times_app by apply ct_weights_len. rewrite A, B. reflexivity.
Qed.
Lemma units_phase_eq u g : phase (in_units u g) = times (weights u g) (phase g).
Proof. unfold phase, weights. rewrite times_app by apply gd_weights_len. rewrite units_gd_eq, units_cotan_eq. reflexivity. Qed.

Section Exact.
Variables (d : nat) (u : R) (sv sv' : solver) (b0 b0' : backend) (m m' : dmod).
Hypothesis U0 : u <> 0.
Hypothesis HS : exact_solver sv.
Hypothesis HS' : exact_solver sv'.
Hypothesis W : wf_mod d m.
Hypothesis W' : wf_mod d m'.
Hypothesis LT : locals_total d m.
Hypothesis LT' : locals_total d m'.
Hypothesis EW : other_unit d u m m'.
Hypothesis RG : everywhere (regular d) m.
Hypothesis FO : first_order m -> ~ has_dir (mod_manifold m).
Notation shs := (map shape (phase (mod_manifold m))).

Lemma first_order_set m0 : forall g m1, set_manifold m0 g = Ok m1 -> first_order m1 -> first_order m0.
Proof.
  induction m0 as [m0 NC|ms IH] using dmod_ind'; intros g m1 E F.
  - destruct m0; try (elim (NC ms eq_refl)); destruct g; try discriminate E; cbn [set_manifold] in E; injection E as <-; exact F.
  - destruct g as [| | | | |gs]; try discriminate E. rewrite set_comp in E. destruct (sets ms gs) as [r|] eqn:Er; [|discriminate E]. injection E as <-. cbn [first_order] in *. revert gs r Er F.
    induction IH as [|m0 ms Hm _ IHs]; intros gs r Er F; destruct gs as [|g gs]; try discriminate Er; [injection Er as <-; exact F|].
    cbn [sets] in Er. fold sets in Er. destruct (set_manifold m0 g) as [m1|] eqn:Em; [|discriminate Er]. cbn [bind] in Er. destruct (sets ms gs) as [q|] eqn:Eq; [|discriminate Er]. injection Er as <-.
    destruct F as [F|F]; [left; exact (Hm g m1 Em F)|right; exact (IHs gs q Eq F)].
Qed.

Lemma units_hamiltonian l v : map shape l = shs -> ham_of m (geodesic_controls sv b0) l = Ok v ->
  ham_of m' (geodesic_controls sv' b0') (times (weights u (mod_manifold m)) l) = Ok (u * u * v).
Proof.
  intros SL H. set (ws := weights u (mod_manifold m)). assert (LW : length ws = length l).
  { unfold ws. rewrite weights_len, <- (map_length shape l), SL, map_length. reflexivity. }
  assert (R : rel_by shs (factor u (mod_manifold m)) l (times ws l)) by (split; [exact SL|apply times_weighed; exact LW]).
  assert (SL' : map shape (times ws l) = map shape (phase (mod_manifold m'))) by (rewrite times_shape by exact LW; rewrite SL; symmetry; exact (ushs0' d u m m' EW)).
  destruct (state_of m' (times ws l) SL') as (g' & Pg' & Kg' & _). destruct (set_ok m' g' Kg') as (m1' & Em1' & _).
  assert (EW1' : write_manifold m' (times ws l) = Ok m1') by (rewrite <- Pg', (write_phase m' g' Kg'); exact Em1').
  pose proof H as H0. unfold ham_of in H0. bok H0 m1 Em1. bok H0 m2 Em2.
  destruct (ustate_pair d u m m' W W' LT LT' EW l (times ws l) m1 m1' R Em1 EW1') as (W1 & W1' & EW1 & g & g2 & Pg & Pg2 & Kg & Kg2 & S1 & S1').
  assert (RG1 : regular d m1) by (apply (RG g m1 Kg); [rewrite Pg; exact SL|exact S1]).
  assert (FO1 : first_order m1 -> ~ has_dir (mod_manifold m1)).
  { intros F D. destruct (set_ok m g Kg) as (y & Ey & My & _). rewrite S1 in Ey. injection Ey as <-. rewrite My in D. apply FO; [exact (first_order_set m g m1 S1 F)|exact (has_dir_same g _ Kg D)]. }
  assert (U2 : 0 < Rabs u) by (apply Rabs_pos_lt; exact U0).
  pose proof (regular_units d u U0 m1 m1' W1 W1' EW1 RG1) as RG1'. destruct (wf_mod_manifold d m1' W1') as (WM' & NE').
  destruct (C19_geodesic_controls_computable sv' b0' d m1' (mod_manifold m1') HS' W1' RG1' WM' NE') as (m2' & Em2').
  { intros F D. apply FO1; [exact (first_order_resized d u m1 m1' (proj1 EW1) F)|]. apply (has_dir_same (mod_manifold m1')); [|exact D]. destruct EW1 as (_ & ((K & _) & _)). rewrite units_skel in K. exact K. }
  destruct (geodesic_units d u U0 sv sv' b0 b0' HS HS' m1 m1' m2 m2' W1 W1' EW1 Em2 Em2') as ((x & H1 & H2) & _).
  unfold ham_of. rewrite EW1'. cbn [bind]. unfold geodesic_controls. rewrite Em2'. cbn [bind]. congruence.
Qed.
End Exact.

(** An exact motion expressed in the other unit is an exact motion there. *)
Theorem C103_motion : forall d u sv sv' b0 b0' m m' (g : R -> gman) a b,
  0 < u -> exact_solver sv -> exact_solver sv' -> wf_mod d m -> wf_mod d m' -> locals_total d m -> locals_total d m' -> other_unit d u m m' ->
  everywhere (regular d) m -> (first_order m -> ~ has_dir (mod_manifold m)) ->
  (forall t, skel (g t) = skel (mod_manifold m)) -> (forall t, map shape (phase (g t)) = map shape (phase (mod_manifold m))) ->
  solution (ham_of m (geodesic_controls sv b0)) (fun t => phase (g t)) a b ->
  solution (ham_of m' (geodesic_controls sv' b0')) (fun t => phase (in_units u (g t))) a b.
Proof.
  intros d u sv sv' b0 b0' m m' g a b U HS HS' W W' LT LT' EW RG FO K SG SO. assert (U0 : u <> 0) by lra. assert (U2 : u * u <> 0) by (apply Rmult_integral_contrapositive_currified; assumption).
  set (ws := weights u (mod_manifold m)). assert (LW : forall l, map shape l = map shape (phase (mod_manifold m)) -> length ws = length l).
  { intros l E. unfold ws. rewrite weights_len, <- (map_length shape l), E, map_length. reflexivity. }
  assert (KO : u * u / (u * u) = 1) by (field; exact U0).
  enough (X : solution (ham_of m' (geodesic_controls sv' b0')) (fun t => times ws (phase (g (u * u / (u * u) * t)))) a b).
  { assert (FE : (fun t => times ws (phase (g (u * u / (u * u) * t)))) = (fun t => phase (in_units u (g t)))).
    { apply functional_extensionality. intros t. rewrite KO, Rmult_1_l, units_phase_eq. unfold ws. rewrite (weights_same u (g t) _ (K t)). reflexivity. }
    rewrite FE in X. exact X. }
  apply (solution_image (ham_of m (geodesic_controls sv b0)) (ham_of m' (geodesic_controls sv' b0')) (map shape (phase (mod_manifold m))) (factor u (mod_manifold m)) (u * u) (u * u) (times ws)) with (c := fun t => phase (g t)) (a := a) (b := b); try assumption.
  - intros l E. rewrite times_shape by (apply LW; exact E). exact E.
  - intros l i idx E I. apply times_entry; [apply LW; exact E|exact I].
  - intros l i idx x E I. apply times_upd; [apply LW; exact E|exact I].
  - intros l v. exact (units_hamiltonian d u sv sv' b0 b0' m m' U0 HS HS' W W' LT LT' EW RG FO l v).
  - intros i _. apply factor_nonzero. exact U0.
  - intros n i E I. apply factor_product; [rewrite map_length in E; exact E|exact I].
  - intros t Ht. rewrite KO, Rmult_1_l. exact Ht.
Qed.
Print Assumptions C103_motion.

(** ** Shooting *)

(** torch_euler, with geodesic or with given controls. *)
Theorem C103_torch_euler : forall ck ck' others others' sv sv' b0 b0' ag ag' it t1 t1' cs cs' keep costs0 d u m m' sh sh',
  0 < u -> exact_grad ag -> exact_grad ag' -> exact_solver sv -> exact_solver sv' ->
  wf_mod d m -> wf_mod d m' -> locals_total d m -> locals_total d m' -> other_unit d u m m' ->
  ctrls_units u m m' cs cs' ->
  (forall l x, cs = Some l -> In x l -> ctrl_ok d m x) -> (forall l x, cs' = Some l -> In x l -> ctrl_ok d m' x) ->
  shoot ck others sv b0 ag "torch_euler" it t1 cs keep costs0 m = Ok sh ->
  shoot ck' others' sv' b0' ag' "torch_euler" it t1' cs' keep (option_map (map (fun x => u * u * x)) costs0) m' = Ok sh' ->
  shot_units u sh sh' /\ kept_units d u m m' (cs <> None) sh sh'.
Proof.
  intros ck ck' others others' sv sv' b0 b0' ag ag' it t1 t1' cs cs' keep costs0 d u m m' sh sh' U EX EX' HS HS' W W' LT LT' EW TC CO CO' E E'. assert (U0 : u <> 0) by lra.
  destruct (wf_mod_manifold d m W) as (WG & _). destruct (wf_mod_manifold d m' W') as (WG' & _).
  destruct (C25_torch_euler_steps ck others sv b0 ag it t1 cs keep costs0 m sh EX (wf_shapes d _ WG) E)
    as (IT & states & mods & L & LM & E0 & E1 & T & AT & K & CS & KE).
  destruct (C25_torch_euler_steps ck' others' sv' b0' ag' it t1' cs' keep _ m' sh' EX' (wf_shapes d _ WG') E')
    as (_ & states' & mods' & L' & LM' & E0' & E1' & T' & AT' & K' & CS' & KE').
  rewrite Forall_forall in K, K'. set (shs := map shape (phase (mod_manifold m))). set (w := factor u (mod_manifold m)).
  assert (R : forall i g g', nth_error states i = Some g -> nth_error states' i = Some g' -> rel_by shs w (phase g) (phase g')).
  { intros i g g' Eg Eg'.
    eapply (urun_pair d u U0 sv sv' b0 b0' HS HS' m m' cs cs' W W' LT LT' EW TC CO CO' SEuler (1 / INR it) _ _ _ _ _ _ T T'); 
      [rewrite !map_length, !firstn_length; lia|rewrite nth_error_map, E0; reflexivity|rewrite nth_error_map, E0'; reflexivity|apply (urelated0 d); assumption|rewrite nth_error_map, Eg; reflexivity|rewrite nth_error_map, Eg'; reflexivity]. }
  assert (P : forall i g g', nth_error states i = Some g -> nth_error states' i = Some g' -> same_values g' (in_units u g)).
  { intros i g g' Eg Eg'. apply (ustates_pair d u m m' EW); [exact (K g (nth_error_In _ _ Eg))|exact (K' g' (nth_error_In _ _ Eg'))|exact (R i g g' Eg Eg')]. }
  split; [split; [exact (P it _ _ E1 E1')|split; [rewrite CS, CS'; reflexivity|]]|].
  - destruct keep; [|rewrite KE, KE'; exact Logic.I]. destruct KE as (ks & _ & ->). destruct KE' as (ks' & _ & ->). cbn [in_states]. apply PropRigid.forall2_nth; [congruence|exact P].
  - intros i i' n g mg k k' Ei Ei' Eg SG RG Ek Ek'. destruct keep; [|congruence]. destruct KE as (ks & KM & KE). destruct KE' as (ks' & KM' & KE').
    rewrite KE in Ei. injection Ei as <-. rewrite KE' in Ei'. injection Ei' as <-. cbn [in_states in_controls] in *.
    destruct (mapM_back _ _ _ _ _ KM Ek) as (mn & Em & Ec). destruct (mapM_back _ _ _ _ _ KM' Ek') as (mn' & Em' & Ec').
    apply clone_same in Ec. apply clone_same in Ec'. rewrite <- Ec, <- Ec'.
    assert (N : (n < it)%nat) by (rewrite <- LM; apply nth_error_Some; congruence). destruct (nth_error states' n) as [g'|] eqn:Eg'; [|apply nth_error_None in Eg'; lia].
    exact (ucontrol_pair d u U0 sv sv' b0 b0' HS HS' m m' cs cs' W W' LT LT' EW TC CO CO' n g g' mn mn' mg (K g (nth_error_In _ _ Eg)) (K' g' (nth_error_In _ _ Eg')) (R n g g' Eg Eg') (AT n g mn Eg Em) (AT' n g' mn' Eg' Em') SG RG).
Qed.
Print Assumptions C103_torch_euler.

(** euler, midpoint and rk4 of torchdiffeq, with geodesic controls. *)
Theorem C103_fixed_step : forall others others' sv sv' b0 b0' ag ag' sch it t1 keep costs0 costs0' d u m m' sh sh',
  0 < u -> exact_grad ag -> exact_grad ag' -> exact_solver sv -> exact_solver sv' ->
  wf_mod d m -> wf_mod d m' -> locals_total d m -> locals_total d m' -> other_unit d u m m' ->
  shootable m -> shootable m' -> 0 < t1 -> (0 < it)%nat ->
  shoot real_clock others sv b0 ag (scheme_name sch) it t1 None keep costs0 m = Ok sh ->
  shoot real_clock others' sv' b0' ag' (scheme_name sch) it t1 None keep costs0' m' = Ok sh' ->
  shot_units u sh sh'.
Proof.
  intros others others' sv sv' b0 b0' ag ag' sch it t1 keep costs0 costs0' d u m m' sh sh' U EX EX' HS HS' W W' LT LT' EW SH SH' T1 IT E E'. assert (U0 : u <> 0) by lra.
  assert (X : forall sv b0 ag others costs0 m sh, shootable m -> exact_grad ag ->
    shoot real_clock others sv b0 ag (scheme_name sch) it t1 None keep costs0 m = Ok sh ->
    exists states stages mods costs,
      length states = S it /\ length stages = it /\ Forall (fun ss => length ss = evaluations sch) stages /\
      trajectory sch (fun n => hamilton (ham_of m (step_controls sv b0 None n))) (t1 / INR it) (map phase states) stages /\
      (exists g, nth_error states 0 = Some g /\ same_values g (mod_manifold m)) /\
      nth_error states it = Some (mod_manifold (sh_mod sh)) /\
      Forall (fun g => skel g = skel (mod_manifold m)) states /\
      mapM (at_state m (geodesic_controls sv b0)) (List.concat stages) = Ok mods /\
      sh_costs sh = Some costs /\ length costs = it /\
      (forall k, (k < it)%nat -> exists mk c, nth_error mods (recorded_at sch k) = Some mk /\ cost mk = Ok c /\ nth_error costs k = Some c) /\
      (if keep then exists cs, mapM (fun m => clone_controls (controls m)) mods = Ok cs /\ sh_inter sh = Some (mkInter states cs)
       else sh_inter sh = None)).
  { intros sv1 b1 ag1 oth1 co1 m1 sh1 (ms & -> & SI1 & SP1) EX1 E1. exact (whole_moments sv1 b1 ag1 t1 it keep ms T1 IT SI1 SP1 EX1 oth1 sch co1 sh1 E1). }
  destruct (X sv b0 ag others costs0 m sh SH EX E) as (states & stages & mods & costs & L & LS & LE & T & (g0 & E0 & V0) & E1 & K & AT & CS & CL & CR & KE).
  destruct (X sv' b0' ag' others' costs0' m' sh' SH' EX' E') as (states' & stages' & mods' & costs' & L' & LS' & LE' & T' & (g0' & E0' & V0') & E1' & K' & AT' & CS' & CL' & CR' & KE').
  clear X E E' SH SH'. rewrite Forall_forall in K, K'. set (shs := map shape (phase (mod_manifold m))). set (w := factor u (mod_manifold m)).
  assert (TC : ctrls_units u m m' None None) by exact Logic.I.
  assert (CO : forall m l x, @None (list ctrl) = Some l -> In x l -> ctrl_ok d m x) by discriminate.
  assert (R0 : rel_by shs w (phase g0) (phase g0')).
  { pose proof (values_phase _ _ V0) as P0. pose proof (values_phase _ _ V0') as P0'. split; [exact (leq_shape _ _ P0)|].
    apply (weighed_leq _ _ _ _ _ P0 P0'). exact (proj2 (urelated0 d u m m' EW)). }
  assert (R : forall i g g', nth_error states i = Some g -> nth_error states' i = Some g' -> rel_by shs w (phase g) (phase g') /\
    forall ss ss', nth_error stages i = Some ss -> nth_error stages' i = Some ss' -> Forall2 (rel_by shs w) ss ss').
  { intros i g g' Eg Eg'.
    eapply (urun_pair d u U0 sv sv' b0 b0' HS HS' m m' None None W W' LT LT' EW TC (CO m) (CO m') sch (t1 / INR it) _ _ _ _ _ _ T T');
      [congruence|rewrite nth_error_map, E0; reflexivity|rewrite nth_error_map, E0'; reflexivity|exact R0|rewrite nth_error_map, Eg; reflexivity|rewrite nth_error_map, Eg'; reflexivity]. }
  assert (P : forall i g g', nth_error states i = Some g -> nth_error states' i = Some g' -> same_values g' (in_units u g)).
  { intros i g g' Eg Eg'. apply (ustates_pair d u m m' EW); [exact (K g (nth_error_In _ _ Eg))|exact (K' g' (nth_error_In _ _ Eg'))|exact (proj1 (R i g g' Eg Eg'))]. }
  split; [exact (P it _ _ E1 E1')|]. split.
  - rewrite CS, CS'. cbn [option_map]. f_equal. apply costs_eq; [rewrite map_length; congruence|]. intros k x' x Ex' Ex. rewrite nth_error_map in Ex. destruct (nth_error costs k) as [y|] eqn:Ey; [|discriminate Ex]. cbn [option_map] in Ex. injection Ex as <-.
    assert (Kt : (k < it)%nat) by (rewrite <- CL; apply nth_error_Some; congruence).
    destruct (CR k Kt) as (mk & z & Em & Cm & Ez). destruct (CR' k Kt) as (mk' & z' & Em' & Cm' & Ez'). rewrite Ey in Ez. injection Ez as <-. rewrite Ex' in Ez'. injection Ez' as <-.
    destruct (mapM_back _ _ _ _ _ AT Em) as (l & El & Al). destruct (mapM_back _ _ _ _ _ AT' Em') as (l' & El' & Al').
    assert (RS : Forall2 (Forall2 (rel_by shs w)) stages stages').
    { apply PropRigid.forall2_nth; [congruence|]. intros i ss ss' Es Es'. assert (Ii : (i < it)%nat) by (rewrite <- LS; apply nth_error_Some; congruence).
      destruct (nth_error states i) as [g|] eqn:Eg; [|apply nth_error_None in Eg; lia]. destruct (nth_error states' i) as [g'|] eqn:Eg'; [|apply nth_error_None in Eg'; lia].
      exact (proj2 (R i g g' Eg Eg') ss ss' Es Es'). }
    pose proof (forall2_at _ _ _ (forall2_concat _ _ _ RS) _ _ _ El El') as RL.
    destruct (umods_pair d u U0 sv sv' b0 b0' HS HS' m m' None None W W' LT LT' EW TC (CO m) (CO m') 0 l l' mk mk' RL Al Al') as (_ & (v & C1 & C2) & _). congruence.
  - destruct keep; [|rewrite KE, KE'; exact Logic.I]. destruct KE as (ks & _ & ->). destruct KE' as (ks' & _ & ->). cbn [in_states]. apply PropRigid.forall2_nth; [congruence|exact P].
Qed.
Print Assumptions C103_fixed_step.

(** ** Examples *)

(** Translations and a constrained module, one of them in a length twice as small. *)
Definition scene2 : dmod :=
  MComp [MTrans Keops 2 2 2 (tscal 2 (plane2 0 0 1 0)) (tscal 2 (plane2 1 2 3 4)) (tzeros [2%nat; 2%nat]);
         MDivFree 2 2 1 1 2 1 1 (tscal 2 (plane2 2 0 0 1)) (tscal 2 (plane2 0 1 1 0)) (tzeros [1%nat; 2%nat]) None].

Example C103_hypotheses :
  wf_mod 2 scene0 /\ wf_mod 2 scene2 /\ other_unit 2 2 scene0 scene2 /\ regular 2 scene0 /\ (first_order scene0 -> ~ has_dir (mod_manifold scene0)) /\
  (forall b0 b0', exists m1 m1', geodesic_controls exact_sv b0 scene0 = Ok m1 /\ geodesic_controls exact_sv b0' scene2 = Ok m1' /\ same_in_units 2 2 m1 m1') /\
  exists k k' m1 m1', k = scene_ctrl (plane2 1 0 0 1) (mk2 1 2 (fun _ a => INR a)) /\ ctrl_ok 2 scene0 k /\ ctrl_ok 2 scene2 k' /\ ctrl_units 2 scene0 scene2 k k' /\
    fill_controls exact_sv scene0 k = Ok m1 /\ fill_controls exact_sv scene2 k' = Ok m1'.
Proof.
  destruct C79_hypotheses as (_ & _ & W & _ & _ & RG & FO & _).
  assert (W' : wf_mod 2 scene2) by (cbn; repeat split; (lra || discriminate)).
  assert (EW : other_unit 2 2 scene0 scene2).
  { split; [cbn; repeat split; lra|]. split; (split; [reflexivity|]); repeat constructor. }
  assert (U : 0 < 2) by lra. do 5 (split; [assumption|]).
  split.
  - intros b0 b0'. destruct (C103_computable exact_sv exact_sv b0 b0' 2 2 scene0 scene2 U exact_sv_exact exact_sv_exact W W' EW RG) as (_ & _ & G).
    destruct (G FO) as ((m1 & E) & (m1' & E')). exists m1, m1'. split; [exact E|]. split; [exact E'|].
    exact (proj2 (proj2 (C103_geodesic_controls exact_sv exact_sv b0 b0' 2 2 scene0 scene2 m1 m1' U exact_sv_exact exact_sv_exact W W' EW E E') RG)).
  - destruct (C103_computable exact_sv exact_sv Torch Torch 2 2 scene0 scene2 U exact_sv_exact exact_sv_exact W W' EW RG) as (_ & G & _).
    destruct (G (scene_ctrl (plane2 1 0 0 1) (mk2 1 2 (fun _ a => INR a)))) as (k' & A & B & (m1 & C) & (m1' & D)); [cbn; auto|]. do 2 eexists. exists m1, m1'. split; [reflexivity|]. split; [cbn; auto|]. split; [exact A|]. split; [exact B|]. split; [exact C|exact D].
Qed.

(** A linear module and a point carried along: the coefficient becomes 2 * 2 * 1. *)
Definition spin4 (co : R) : dmod :=
  MComp [MSilent (GLm 2 1 (tscal 2 (pt 1 0)) (tscal 2 (pt 1 1))); MLinear (mk2 2 2 delta) co (tscal 2 (pt 0 0)) (tscal 2 (pt 0 0)) (mk0 0)].
Lemma spin4_fit co : 0 < co -> wf_mod 2 (spin4 co) /\ locals_smooth 2 (spin4 co) /\ everywhere (regular 2) (spin4 co) /\ shootable (spin4 co).
Proof.
  intros P. split; [cbn; repeat split; (lra || discriminate)|]. split; [cbn; tauto|]. split.
  - intros g m1 K _ E. destruct g as [| | | | |gs]; try discriminate K. cbn [spin4 mod_manifold map skel] in K. injection K as K. destruct gs as [|g0 [|g1 [|]]]; try discriminate K.
    cbn [map] in K. injection K as K0 K1. destruct g0; try discriminate K0. destruct g1; try discriminate K1. cbn in E. injection E as <-. cbn. tauto.
  - eexists. split; [reflexivity|]. split; [repeat constructor|cbn; auto 10].
Qed.

Example C103_shot_hypotheses : forall b0,
  wf_mod 2 spin0 /\ wf_mod 2 (spin4 4) /\ locals_total 2 spin0 /\ locals_total 2 (spin4 4) /\ other_unit 2 2 spin0 (spin4 4) /\ shootable spin0 /\ shootable (spin4 4) /\
  everywhere (regular 2) spin0 /\ (first_order spin0 -> ~ has_dir (mod_manifold spin0)) /\
  solution (ham_of spin0 (geodesic_controls exact_sv b0)) (fun t => phase (spin_path t)) 0 1 /\
  (forall it, (0 < it)%nat -> exists sh sh',
    shoot real_clock (fun _ => None) exact_sv b0 std_ag "torch_euler" it 1 None true None spin0 = Ok sh /\
    shoot real_clock (fun _ => None) exact_sv b0 std_ag "torch_euler" it 1 None true None (spin4 4) = Ok sh') /\
  forall sch it, (0 < it)%nat -> exists sh sh',
    shoot real_clock (fun _ => None) exact_sv b0 std_ag (scheme_name sch) it 1 None true None spin0 = Ok sh /\
    shoot real_clock (fun _ => None) exact_sv b0 std_ag (scheme_name sch) it 1 None true None (spin4 4) = Ok sh'.
Proof.
  intros b0. destruct (C96_hypotheses b0) as (W & LT & L & SH & RG & _). destruct (spin4_fit 4 ltac:(lra)) as (W' & L' & RG' & SH').
  split; [exact W|]. split; [exact W'|]. split; [exact LT|]. split; [cbn; tauto|].
  split; [split; [cbn; repeat split; lra|split; (split; [reflexivity|]); repeat constructor]|]. split; [exact SH|]. split; [exact SH'|]. split; [exact RG|]. split; [cbn; tauto|]. split; [apply spin_solution|].
  assert (KP : forall m, shootable m -> true = false \/ (exists ms, m = MComp ms /\ Forall simple (map mod_manifold ms))) by (intros m (ms & Es & SI & _); right; exists ms; auto).
  split.
  - intros it IT.
    destruct (C82_torch_euler real_clock (fun _ => None) exact_sv b0 std_ag it 1 None true None 2 spin0 std_exact std_differentiates exact_sv_exact W L RG) as (sh & E); try discriminate; [intros _; cbn; tauto|exact IT|exact (KP _ SH)|].
    destruct (C82_torch_euler real_clock (fun _ => None) exact_sv b0 std_ag it 1 None true None 2 (spin4 4) std_exact std_differentiates exact_sv_exact W' L' RG') as (sh' & E'); try discriminate; [intros _; cbn; tauto|exact IT|exact (KP _ SH')|].
    exists sh, sh'. auto.
  - intros sch it IT.
    destruct (C82_fixed_step_schemes (fun _ => None) exact_sv b0 std_ag sch it 1 true None 2 spin0 std_exact std_differentiates exact_sv_exact W L RG) as (sh & E); [cbn; tauto|exact SH|cbn; lia|lra|exact IT|].
    destruct (C82_fixed_step_schemes (fun _ => None) exact_sv b0 std_ag sch it 1 true None 2 (spin4 4) std_exact std_differentiates exact_sv_exact W' L' RG') as (sh' & E'); [cbn; tauto|exact SH'|cbn; lia|lra|exact IT|].
    exists sh, sh'. auto.
Qed.

(** The local modules of the library, in two dimensions and in three. *)
Example C103_local_hypotheses :
  wf_mod 2 (LocalScaling 2 1 1 (mk2 1 2 (fun _ a => INR a)) (mk2 1 2 (fun _ _ => 1))) /\ wf_mod 2 (LocalScaling 2 (2 * 1) 1 (tscal 2 (mk2 1 2 (fun _ a => INR a))) (tscal 2 (mk2 1 2 (fun _ _ => 1)))).
Proof. split; (split; [reflexivity|]); (split; [lra|]); (split; [lra|]); (split; [reflexivity|]); (split; [reflexivity|]); do 3 eexists; (split; [reflexivity|]); (split; [reflexivity|]); split; reflexivity. Qed.

(** A finding: coefficients are not all numbers without a unit.  Positions, moments and scales
    in a unit twice as small with the coefficient of a linear module left alone is not the
    same motion: after one step of torch_euler the point is at 10 where it should be at 4. *)
Theorem C103_same_coefficient_refuted : exists ag sv b0 d m m' sh sh', exact_grad ag /\ exact_solver sv /\ wf_mod d m /\ wf_mod d m' /\
  set_manifold m (in_units 2 (mod_manifold m)) = Ok m' /\
  shoot real_clock (fun _ => None) sv b0 ag "torch_euler" 1 1 None false None m = Ok sh /\
  shoot real_clock (fun _ => None) sv b0 ag "torch_euler" 1 1 None false None m' = Ok sh' /\
  entry (phase (mod_manifold (sh_mod sh))) 0 [0%nat; 0%nat] = 2 /\ entry (phase (mod_manifold (sh_mod sh'))) 0 [0%nat; 0%nat] = 10.
Proof.
  destruct (C96_hypotheses Torch) as (W & LT & L & SH & RG & _). set (m' := spin (tscal 2 (pt 1 0)) (tscal 2 (pt 0 0)) (tscal 2 (pt 1 1)) (tscal 2 (pt 0 0)) (mk0 0)).
  assert (ES : set_manifold spin0 (in_units 2 (mod_manifold spin0)) = Ok m') by reflexivity.
  assert (W' : wf_mod 2 m') by (apply spin_wf; reflexivity). destruct (spin4_fit 1 ltac:(lra)) as (_ & L' & RG' & _).
  destruct (C82_torch_euler real_clock (fun _ => None) exact_sv Torch std_ag 1 1 None false None 2 spin0 std_exact std_differentiates exact_sv_exact W L RG) as (sh & E);
    [intros _ _; cbn; tauto|discriminate|discriminate|lia|left; reflexivity|].
  destruct (C82_torch_euler real_clock (fun _ => None) exact_sv Torch std_ag 1 1 None false None 2 m' std_exact std_differentiates exact_sv_exact W' L' RG') as (sh' & E');
    [intros _ _; cbn; tauto|discriminate|discriminate|lia|left; reflexivity|].
  exists std_ag, exact_sv, Torch, 2%nat, spin0, m', sh, sh'. split; [exact std_exact|]. split; [exact exact_sv_exact|]. split; [exact W|]. split; [exact W'|]. split; [exact ES|]. split; [exact E|]. split; [exact E'|].
  assert (X : forall q c p pc sh t1, shape q = row -> shape c = row -> shape p = row -> shape pc = row -> let m := spin q c p pc (mk0 0) in
    shoot real_clock (fun _ => None) exact_sv Torch std_ag "torch_euler" 1 t1 None false None m = Ok sh ->
    entry (phase (mod_manifold (sh_mod sh))) 0 [0%nat; 0%nat] = q @2 0%nat 0%nat + reach q c p * (q @2 0%nat 0%nat - c @2 0%nat 0%nat)).
  { intros q c p pc shx t1 Sq Sc Sp Spc m Ex. destruct (wf_mod_manifold 2 m (spin_wf q c p pc Sq Sc Sp Spc)) as (WG & _).
    destruct (C25_torch_euler_steps _ _ _ _ _ _ _ _ _ _ _ _ std_exact (wf_shapes 2 _ WG) Ex) as (_ & states & mods & LS & LM & E0 & E1 & T & _).
    destruct states as [|s0 [|s1 [|]]]; try discriminate LS. cbn [nth_error] in E0, E1. injection E0 as ->. injection E1 as ->.
    replace (1 / INR 1) with 1 in T by (cbn; field). pose proof (proj2 T 0%nat _ _ _ eq_refl eq_refl eq_refl) as Y.
    change (phase (mod_manifold m)) with [q; c; p; pc] in Y.
    assert (Z : euler_scheme (fun _ => hamilton (ham_of spin0 (geodesic_controls exact_sv Torch))) 1 [q; c; p; pc] [[q; c; p; pc]] (phase (mod_manifold (sh_mod shx)))).
    { destruct Y as (k & A & B & C). exists k. split; [exact A|]. split; [|exact C]. revert B. apply hamilton_more. intros l x. apply ham_any; reflexivity. }
    apply spin_one_step in Z; try assumption. rewrite (leq_entry _ _ 0 row [0%nat; 0%nat] Z); [|cbn; rewrite Sq; reflexivity|cbn; lia].
    unfold entry. cbn. ring. }
  split.
  - rewrite (X (pt 1 0) (pt 0 0) (pt 1 1) (pt 0 0) sh 1 eq_refl eq_refl eq_refl eq_refl E). unfold reach. cbn. ring.
  - rewrite (X (tscal 2 (pt 1 0)) (tscal 2 (pt 0 0)) (tscal 2 (pt 1 1)) (tscal 2 (pt 0 0)) sh' 1 eq_refl eq_refl eq_refl eq_refl E'). unfold reach. cbn. ring.
Qed.
Print Assumptions C103_same_coefficient_refuted.
