(** Property theorems about scenes placed elsewhere by a rotation, a reflection and a
    translation (C79, C80). *)
From Coq Require Import Reals String List Arith Lia Lra.
From Verif Require Import Py RSum Tensor TensorFacts KernelModel FieldModel GeometryModel ModuleModel ShootingModel
  SpecLinAlg SpecKernel SpecField SpecGeometry SpecModule SpecShooting SpecTransport SpecMotion FieldFacts GeometryFacts ModuleDual ModuleLeaves ModuleMain ModuleRegular ModuleHistory
  ShootingPack ShootingDyn ShootingScheme ShootingFinal ShootingInst ShootingTotal ShootingExample PropModule PropShooting
  MotionFacts MotionShoot MotionMomentum MotionExample PropMomentum SolverExists TransportFacts PropTransport
  SpecRigid RigidField RigidBlock RigidModule RigidControl RigidRegular RigidShoot.
Import ListNotations.
Open Scope R_scope.

(** ** C79 *)

Lemma moved_values d Q c a b : hamiltonian b = hamiltonian a -> moved_to d Q c a b -> same_elsewhere d Q c a b.
Proof.
  intros HE (x & f & f' & C & C' & FG & FG' & (Wf & H0 & H1 & _) & (Wf' & H0' & H1' & _) & CA). split; [exists x; auto|]. split; [exact HE|].
  intros p N Sp. unfold velocity. rewrite FG, FG'. cbn [bind]. assert (Sp' : shape (place_rows d Q c p) = [N; d]) by exact Sp.
  assert (XP : forall n a, (a < d)%nat -> vrow (place_rows d Q c p) n a = placed d Q c (vrow p n) a) by reflexivity. split.
  - destruct (feval_0 d f p N Wf H0 Sp) as (V & E & SV & GV). destruct (feval_0 d f' _ N Wf' H0' Sp') as (V' & E' & SV' & GV').
    exists V, V'. split; [exact E|]. split; [exact E'|]. split; [cbn; congruence|]. intros idx Hv. rewrite SV' in Hv. rewrite GV' by exact Hv.
    destruct idx as [|i [|k [|? ?]]]; try (cbn in Hv; tauto). cbn in Hv. cbn [V0 turn_rows get]. rewrite (proj1 (CA _ _ (XP i)) k) by tauto.
    apply turned_ext. intros e He. unfold vrow at 2. rewrite GV; [reflexivity|]. cbn. tauto.
  - destruct (feval_1 d f p N Wf H1 Sp) as (V & E & SV & GV). destruct (feval_1 d f' _ N Wf' H1' Sp') as (V' & E' & SV' & GV').
    exists V, V'. split; [exact E|]. split; [exact E'|]. split; [cbn; congruence|]. intros idx Hv. rewrite SV' in Hv. rewrite GV' by exact Hv.
    destruct idx as [|i [|k [|l [|? ?]]]]; try (cbn in Hv; tauto). cbn in Hv. cbn [V1 turn_mats get]. rewrite (proj2 (CA _ _ (XP i)) k l) by tauto.
    apply conj_ext. intros e e' He He'. unfold slice. rewrite GV; [reflexivity|]. cbn. tauto.
Qed.

(** The module placed elsewhere, given the turned controls. *)
Theorem C79_given_controls : forall sv sv' d Q c m m' k k' m1 m1',
  rigid d Q -> exact_solver sv -> exact_solver sv' -> wf_mod d m -> wf_mod d m' -> elsewhere d Q c m m' ->
  ctrl_ok d m k -> ctrl_ok d m' k' -> turned_ctrl d Q m k k' ->
  fill_controls sv m k = Ok m1 -> fill_controls sv' m' k' = Ok m1' ->
  same_elsewhere d Q c m1 m1'.
Proof.
  intros sv sv' d Q c m m' k k' m1 m1' HQ HS HS' W W' EW O O' T F F'. apply moved_values.
  - exact (given_ham d Q HQ c sv sv' HS HS' m m' k k' m1 m1' W W' EW O O' T F F').
  - exact (module_goes d Q HQ c sv sv' HS HS' m m' k k' m1 m1' W W' EW O O' T F F').
Qed.
Print Assumptions C79_given_controls.

(** The geodesic controls of the module placed elsewhere. *)
Theorem C79_geodesic_controls : forall sv sv' b0 b0' d Q c m m' m1 m1',
  rigid d Q -> exact_solver sv -> exact_solver sv' -> wf_mod d m -> wf_mod d m' -> elsewhere d Q c m m' ->
  geodesic_controls sv b0 m = Ok m1 -> geodesic_controls sv' b0' m' = Ok m1' ->
  hamiltonian m1' = hamiltonian m1 /\ cost m1' = cost m1 /\
  (regular d m -> turned_ctrl d Q m (controls m1) (controls m1') /\ same_elsewhere d Q c m1 m1').
Proof.
  intros sv sv' b0 b0' d Q c m m' m1 m1' HQ HS HS' W W' EW A A'.
  destruct (geodesic_ham d Q HQ c sv sv' b0 b0' HS HS' m m' m1 m1' W W' EW A A') as (HE & TT).
  destruct (hamiltonian_cost sv b0 d HS m m1 W A) as (y & C1 & C2 & _). destruct (hamiltonian_cost sv' b0' d HS' m' m1' W' A') as (y' & C1' & C2' & _).
  split; [exact HE|]. split; [congruence|]. intros RG.
  unfold geodesic_controls in A, A'. destruct (wf_mod_manifold d m W) as (WM & NE). destruct (wf_mod_manifold d m' W') as (WM' & NE').
  destruct (geodesic_max sv b0 d HS m _ m1 W WM NE A) as (O & F & _). destruct (geodesic_max sv' b0' d HS' m' _ m1' W' WM' NE' A') as (O' & F' & _).
  specialize (TT (regular_there d Q HQ c m m' W W' EW RG)). split; [exact TT|].
  apply moved_values; [exact HE|]. exact (module_goes d Q HQ c sv sv' HS HS' m m' _ _ m1 m1' W W' EW O O' TT F F').
Qed.
Print Assumptions C79_geodesic_controls.

Lemma first_order_twin d Q c m : forall m', twin d Q c m m' -> first_order m' -> first_order m.
Proof.
  induction m as [m NC|ms IH] using dmod_ind'; intros m' T F.
  - destruct m; try (elim (NC ms eq_refl)); destruct m'; try contradiction T; exact F.
  - destruct m' as [| | | | | | | | | |ms']; try contradiction T. cbn [twin first_order] in *. revert ms' T F.
    induction IH as [|m ms Hm _ IHs]; intros [|m' ms'] T F; try contradiction. destruct T as (T & TS). destruct F as [F|F]; [left; eapply Hm; eassumption|right; eapply IHs; eassumption].
Qed.
Lemma has_dir_skel g : has_dir (skel g) <-> has_dir g.
Proof.
  induction g as [g S|gs IH] using gman_ind'; [destruct g; try (elim S); reflexivity|]. cbn [has_dir skel].
  induction IH as [|g gs A _ B]; [reflexivity|]. cbn [map fold_right]. rewrite A, B. reflexivity.
Qed.
Lemma has_dir_same g g' : skel g = skel g' -> has_dir g -> has_dir g'.
Proof. intros K H. apply has_dir_skel. rewrite <- K. apply has_dir_skel. exact H. Qed.

(** In regular configurations both modules take controls and find geodesic controls. *)
Theorem C79_computable : forall sv sv' b0 b0' d Q c m m',
  rigid d Q -> exact_solver sv -> exact_solver sv' -> wf_mod d m -> wf_mod d m' -> elsewhere d Q c m m' -> regular d m ->
  regular d m' /\
  (forall k, ctrl_ok d m k -> exists k', ctrl_ok d m' k' /\ turned_ctrl d Q m k k' /\ is_ok (fill_controls sv m k) /\ is_ok (fill_controls sv' m' k')) /\
  ((first_order m -> ~ has_dir (mod_manifold m)) -> is_ok (geodesic_controls sv b0 m) /\ is_ok (geodesic_controls sv' b0' m')).
Proof.
  intros sv sv' b0 b0' d Q c m m' HQ HS HS' W W' EW RG. pose proof (regular_there d Q HQ c m m' W W' EW RG) as RG'.
  destruct (wf_mod_manifold d m W) as (WM & NE). destruct (wf_mod_manifold d m' W') as (WM' & NE').
  split; [exact RG'|]. split.
  - intros k O. destruct (turn_exists d Q c m m' k W' (proj1 EW) O) as (k' & O' & T). exists k'. split; [exact O'|]. split; [exact T|].
    split; [exact (fill_regular sv d HS m k W RG O)|exact (fill_regular sv' d HS' m' k' W' RG' O')].
  - intros FO. split; [apply C19_geodesic_controls_computable with (d := d); assumption|]. apply C19_geodesic_controls_computable with (d := d); try assumption.
    intros FO' HD. apply FO; [exact (first_order_twin d Q c m m' (proj1 EW) FO')|]. apply (has_dir_same (mod_manifold m')); [|exact HD].
    destruct EW as (_ & ((K & _) & _)). rewrite skel_placed in K. exact K.
Qed.
Print Assumptions C79_computable.

(** ** C80 *)

Lemma forall2_nth {A B} (P : A -> B -> Prop) : forall l l', length l = length l' ->
  (forall i x y, nth_error l i = Some x -> nth_error l' i = Some y -> P x y) -> Forall2 P l l'.
Proof.
  induction l as [|x l IH]; intros [|y l'] L H; try discriminate L; constructor; [exact (H 0%nat x y eq_refl eq_refl)|].
  apply IH; [injection L as L; exact L|]. intros i. exact (H (S i)).
Qed.
Lemma mapM_back {A B} (f : A -> res B) : forall l r n b, mapM f l = Ok r -> nth_error r n = Some b -> exists a, nth_error l n = Some a /\ f a = Ok b.
Proof.
  induction l as [|x l IH]; intros r n b E H; cbn [mapM] in E; [injection E as <-; destruct n; discriminate H|]. bok E y Ey. bok E ys Eys. injection E as <-.
  destruct n as [|n]; [injection H as <-; exists x; auto|]. exact (IH ys n b Eys H).
Qed.

Lemma clone_same c ks : clone_controls c = Ok ks -> c = CList ks.
Proof.
  destruct c as [t|l]; [discriminate|]. cbn [clone_controls]. revert ks. induction l as [|c l IH]; intros ks E; [injection E as <-; reflexivity|].
  cbn [mapM] in E. bok E x Ex. bok E xs Exs. injection E as <-. specialize (IH xs Exs). injection IH as <-. destruct c; [injection Ex as <-; reflexivity|discriminate Ex].
Qed.

Definition wf_shot (d : nat) (sh : shot) : Prop :=
  wf_gman d (mod_manifold (sh_mod sh)) /\ forall i g, sh_inter sh = Some i -> In g (in_states i) -> wf_gman d g.

Section Runs.
Variables (sv sv' : solver) (b0 b0' : backend) (d : nat) (Q : mat) (c : nat -> R) (m m' : dmod) (cs cs' : option (list ctrl)).
Hypothesis HQ : rigid d Q.
Hypothesis HS : exact_solver sv.
Hypothesis HS' : exact_solver sv'.
Hypothesis W : wf_mod d m.
Hypothesis W' : wf_mod d m'.
Hypothesis LT : locals_total d m.
Hypothesis LT' : locals_total d m'.
Hypothesis EW : elsewhere d Q c m m'.
Hypothesis TC : turned_ctrls d Q m cs cs'.
Hypothesis CO : forall l x, cs = Some l -> In x l -> ctrl_ok d m x.
Hypothesis CO' : forall l x, cs' = Some l -> In x l -> ctrl_ok d m' x.
Hypothesis smooth : forall i, smooth_on (map shape (phase (mod_manifold m))) (ham_of m (step_controls sv b0 cs i)).
Notation rel := (related d Q c (kinds (mod_manifold m)) (map shape (phase (mod_manifold m)))).

Lemma run_pair sch dt states stages states' stages' l0 l0' :
  trajectory sch (fun n => hamilton (ham_of m (step_controls sv b0 cs n))) dt states stages ->
  trajectory sch (fun n => hamilton (ham_of m' (step_controls sv' b0' cs' n))) dt states' stages' -> length stages' = length stages ->
  nth_error states 0 = Some l0 -> nth_error states' 0 = Some l0' -> rel l0 l0' ->
  forall i l l', nth_error states i = Some l -> nth_error states' i = Some l' ->
    rel l l' /\ forall ss ss', nth_error stages i = Some ss -> nth_error stages' i = Some ss' -> Forall2 rel ss ss'.
Proof.
  intros T T' LL E0 E0' R0. eapply trajectory_placed; [| |exact T|exact T'|exact LL|exact E0|exact E0'|exact R0].
  - apply KS0. exact W.
  - intros j l l' k k' SL E HK HK'. eapply (hams_pair d Q HQ c sv sv' b0 b0' HS HS' m m' cs cs' W W' LT LT' EW TC CO CO' smooth j l l' k k'); try eassumption. split; assumption.
Qed.

Lemma state_wf g : skel g = skel (mod_manifold m) -> map shape (phase g) = map shape (phase (mod_manifold m)) -> wf_gman d g.
Proof.
  intros K S. destruct (set_ok m g K) as (m1 & E & M & _). rewrite <- M. apply wf_mod_manifold.
  assert (SP : map shape (g_gd g) = map shape (g_gd (mod_manifold m)) /\ map shape (g_cotan g) = map shape (g_cotan (mod_manifold m))) by (apply app_shapes; [rewrite !g_gd_len; apply skel_len; exact K|exact S]).
  destruct SP as (A & B).
  exact (wf_set d m g m1 W LT K A B E).
Qed.

Lemma states_pair g g' : skel g = skel (mod_manifold m) -> skel g' = skel (mod_manifold m') -> rel (phase g) (phase g') -> same_values g' (placed_man d Q c g).
Proof.
  intros K K' (S & E). apply placed_values; [exact (state_wf g K S)| |].
  - rewrite K', K. apply (skel0 d Q c m m' EW).
  - rewrite (kinds_same g _ K). exact E.
Qed.

(** Controls of corresponding modules. *)
Lemma control_pair i g g' m2 m2' mg : skel g = skel (mod_manifold m) -> skel g' = skel (mod_manifold m') -> rel (phase g) (phase g') ->
  at_state m (step_controls sv b0 cs i) (phase g) = Ok m2 -> at_state m' (step_controls sv' b0' cs' i) (phase g') = Ok m2' ->
  set_manifold m g = Ok mg -> cs <> None \/ regular d mg -> turned_ctrl d Q m (controls m2) (controls m2').
Proof.
  intros K K' R A A' SM RG. apply (mods_pair d Q HQ c sv sv' b0 b0' HS HS' m m' cs cs' W W' LT LT' EW TC CO CO' i _ _ m2 m2' R A A').
  destruct RG as [N|RG]; [left; exact N|right]. unfold at_state in A, A'. bok A m1 Ew. bok A' m1' Ew'. 
  destruct (state_pair d Q c m m' W W' LT LT' EW _ _ m1 m1' R Ew Ew') as (W1 & W1' & EW1 & _). rewrite (write_phase m g K), SM in Ew. injection Ew as <-.
  pose proof (regular_there d Q HQ c mg m1' W1 W1' EW1 RG) as RG'. unfold step_controls in A'. destruct cs' as [x'|].
  - destruct (nth_error x' i) as [k'|]; [|discriminate A']. apply (regular_fill sv' d m1' k' m2' A'). exact RG'.
  - unfold geodesic_controls in A'. destruct (wf_mod_manifold d m1' W1') as (WM' & NE'). destruct (geodesic_max sv' b0' d HS' m1' _ m2' W1' WM' NE' A') as (_ & F' & _).
    apply (regular_fill sv' d m1' _ m2' F'). exact RG'.
Qed.
End Runs.

Lemma shot_wf d m states sh keep : wf_mod d m -> locals_total d m ->
  (forall g, In g states -> skel g = skel (mod_manifold m)) -> (forall g, In g states -> map shape (phase g) = map shape (phase (mod_manifold m))) ->
  In (mod_manifold (sh_mod sh)) states -> option_map in_states (sh_inter sh) = (if keep : bool then Some states else None) -> wf_shot d sh.
Proof.
  intros W LT K SS IF KE. split; [apply (state_wf d m W LT); auto|]. intros i g Ei Ig. rewrite Ei in KE. destruct keep; [|discriminate KE]. injection KE as KE. rewrite KE in Ig. apply (state_wf d m W LT); auto.
Qed.

Lemma euler_runs : forall ck ck' others others' sv sv' b0 b0' ag ag' it t1 t1' cs cs' keep costs0 d Q c m m' sh sh',
  rigid d Q -> exact_grad ag -> exact_grad ag' -> exact_solver sv -> exact_solver sv' ->
  wf_mod d m -> wf_mod d m' -> locals_total d m -> locals_total d m' -> elsewhere d Q c m m' ->
  turned_ctrls d Q m cs cs' ->
  (forall l x, cs = Some l -> In x l -> ctrl_ok d m x) -> (forall l x, cs' = Some l -> In x l -> ctrl_ok d m' x) ->
  (forall i, smooth_on (map shape (phase (mod_manifold m))) (ham_of m (step_controls sv b0 cs i))) ->
  shoot ck others sv b0 ag "torch_euler" it t1 cs keep costs0 m = Ok sh ->
  shoot ck' others' sv' b0' ag' "torch_euler" it t1' cs' keep costs0 m' = Ok sh' ->
  (shot_elsewhere d Q c sh sh' /\ kept_turned d Q m (cs <> None) sh sh') /\ wf_shot d sh.
Proof.
  intros ck ck' others others' sv sv' b0 b0' ag ag' it t1 t1' cs cs' keep costs0 d Q c m m' sh sh' HQ EX EX' HS HS' W W' LT LT' EW TC CO CO' SM E E'.
  destruct (wf_mod_manifold d m W) as (WG & _). destruct (wf_mod_manifold d m' W') as (WG' & _).
  destruct (C25_torch_euler_steps ck others sv b0 ag it t1 cs keep costs0 m sh EX (wf_shapes d _ WG) E)
    as (IT & states & mods & L & LM & E0 & E1 & T & AT & K & CS & KE).
  destruct (C25_torch_euler_steps ck' others' sv' b0' ag' it t1' cs' keep costs0 m' sh' EX' (wf_shapes d _ WG') E')
    as (_ & states' & mods' & L' & LM' & E0' & E1' & T' & AT' & K' & CS' & KE').
  rewrite Forall_forall in K, K'.
  assert (R : forall i g g', nth_error states i = Some g -> nth_error states' i = Some g' -> related d Q c (kinds (mod_manifold m)) (map shape (phase (mod_manifold m))) (phase g) (phase g')).
  { intros i g g' Eg Eg'.
    eapply (run_pair sv sv' b0 b0' d Q c m m' cs cs' HQ HS HS' W W' LT LT' EW TC CO CO' SM SEuler (1 / INR it) _ _ _ _ _ _ T T'); 
      [rewrite !map_length, !firstn_length; lia|rewrite nth_error_map, E0; reflexivity|rewrite nth_error_map, E0'; reflexivity|apply related0; assumption|rewrite nth_error_map, Eg; reflexivity|rewrite nth_error_map, Eg'; reflexivity]. }
  assert (P : forall i g g', nth_error states i = Some g -> nth_error states' i = Some g' -> same_values g' (placed_man d Q c g)).
  { intros i g g' Eg Eg'. apply (states_pair d Q c m m' W LT EW); [exact (K g (nth_error_In _ _ Eg))|exact (K' g' (nth_error_In _ _ Eg'))|exact (R i g g' Eg Eg')]. }
  split; [|apply (shot_wf d m states sh keep W LT); [exact K| |exact (nth_error_In _ _ E1)|destruct keep; [destruct KE as (ks & _ & ->)|rewrite KE]; reflexivity]].
  2: { intros g Ig. apply In_nth_error in Ig. destruct Ig as (i & Eg). destruct (nth_error states' i) as [g'|] eqn:Eg'; [exact (proj1 (R i g g' Eg Eg'))|].
       apply nth_error_None in Eg'. assert (i < length states)%nat by (apply nth_error_Some; congruence). lia. }
  split; [split; [exact (P it _ _ E1 E1')|split; [congruence|]]|].
  - destruct keep; [|rewrite KE, KE'; exact Logic.I]. destruct KE as (ks & _ & ->). destruct KE' as (ks' & _ & ->). cbn [in_states]. apply forall2_nth; [congruence|exact P].
  - intros i i' n g mg k k' Ei Ei' Eg SG RG Ek Ek'. destruct keep; [|congruence]. destruct KE as (ks & KM & KE). destruct KE' as (ks' & KM' & KE').
    rewrite KE in Ei. injection Ei as <-. rewrite KE' in Ei'. injection Ei' as <-. cbn [in_states in_controls] in *.
    destruct (mapM_back _ _ _ _ _ KM Ek) as (mn & Em & Ec). destruct (mapM_back _ _ _ _ _ KM' Ek') as (mn' & Em' & Ec').
    apply clone_same in Ec. apply clone_same in Ec'. rewrite <- Ec, <- Ec'.
    assert (N : (n < it)%nat) by (rewrite <- LM; apply nth_error_Some; congruence). destruct (nth_error states' n) as [g'|] eqn:Eg'; [|apply nth_error_None in Eg'; lia].
    exact (control_pair sv sv' b0 b0' d Q c m m' cs cs' HQ HS HS' W W' LT LT' EW TC CO CO' n g g' mn mn' mg (K g (nth_error_In _ _ Eg)) (K' g' (nth_error_In _ _ Eg')) (R n g g' Eg Eg') (AT n g mn Eg Em) (AT' n g' mn' Eg' Em') SG RG).
Qed.

(** torch_euler, with geodesic or with given controls. *)
Theorem C80_torch_euler : forall ck ck' others others' sv sv' b0 b0' ag ag' it t1 t1' cs cs' keep costs0 d Q c m m' sh sh',
  rigid d Q -> exact_grad ag -> exact_grad ag' -> exact_solver sv -> exact_solver sv' ->
  wf_mod d m -> wf_mod d m' -> locals_total d m -> locals_total d m' -> elsewhere d Q c m m' ->
  turned_ctrls d Q m cs cs' ->
  (forall l x, cs = Some l -> In x l -> ctrl_ok d m x) -> (forall l x, cs' = Some l -> In x l -> ctrl_ok d m' x) ->
  (forall i, smooth_on (map shape (phase (mod_manifold m))) (ham_of m (step_controls sv b0 cs i))) ->
  shoot ck others sv b0 ag "torch_euler" it t1 cs keep costs0 m = Ok sh ->
  shoot ck' others' sv' b0' ag' "torch_euler" it t1' cs' keep costs0 m' = Ok sh' ->
  shot_elsewhere d Q c sh sh' /\ kept_turned d Q m (cs <> None) sh sh'.
Proof.
  intros ck ck' others others' sv sv' b0 b0' ag ag' it t1 t1' cs cs' keep costs0 d Q c m m' sh sh' HQ EX EX' HS HS' W W' LT LT' EW TC CO CO' SM E E'.
  exact (proj1 (euler_runs ck ck' others others' sv sv' b0 b0' ag ag' it t1 t1' cs cs' keep costs0 d Q c m m' sh sh' HQ EX EX' HS HS' W W' LT LT' EW TC CO CO' SM E E')).
Qed.
Print Assumptions C80_torch_euler.

Lemma forall2_concat {A} (P : A -> A -> Prop) : forall l l', Forall2 (Forall2 P) l l' -> Forall2 P (List.concat l) (List.concat l').
Proof. intros l l' H. induction H as [|x y l l' X _ IH]; [constructor|]. cbn [List.concat]. apply Forall2_app; assumption. Qed.
Lemma forall2_at {A B} (P : A -> B -> Prop) l l' : Forall2 P l l' -> forall i x y, nth_error l i = Some x -> nth_error l' i = Some y -> P x y.
Proof. intros H. induction H as [|a b l l' X _ IH]; intros [|i] x y E E'; try discriminate; [injection E as <-; injection E' as <-; exact X|exact (IH i x y E E')]. Qed.
Lemma costs_eq (l l' : list R) : length l = length l' -> (forall k x y, nth_error l k = Some x -> nth_error l' k = Some y -> x = y) -> l = l'.
Proof.
  revert l'. induction l as [|x l IH]; intros [|y l'] L H; try discriminate L; [reflexivity|]. f_equal; [exact (H 0%nat x y eq_refl eq_refl)|].
  apply IH; [injection L as L; exact L|]. intros k. exact (H (S k)).
Qed.
Lemma values_phase g g' : same_values g g' -> leq (phase g) (phase g').
Proof. intros ((_ & A) & (_ & B)). apply Forall2_app; [exact A|exact B]. Qed.

Lemma scheme_runs : forall others others' sv sv' b0 b0' ag ag' sch it t1 keep costs0 costs0' d Q c m m' sh sh',
  rigid d Q -> exact_grad ag -> exact_grad ag' -> exact_solver sv -> exact_solver sv' ->
  wf_mod d m -> wf_mod d m' -> locals_total d m -> locals_total d m' -> elsewhere d Q c m m' ->
  shootable m -> shootable m' -> 0 < t1 -> (0 < it)%nat ->
  smooth_on (map shape (phase (mod_manifold m))) (ham_of m (geodesic_controls sv b0)) ->
  shoot real_clock others sv b0 ag (scheme_name sch) it t1 None keep costs0 m = Ok sh ->
  shoot real_clock others' sv' b0' ag' (scheme_name sch) it t1 None keep costs0' m' = Ok sh' ->
  shot_elsewhere d Q c sh sh' /\ wf_shot d sh.
Proof.
  intros others others' sv sv' b0 b0' ag ag' sch it t1 keep costs0 costs0' d Q c m m' sh sh' HQ EX EX' HS HS' W W' LT LT' EW SH SH' T1 IT SM E E'.
  destruct SH as (ms & EQm & SI & SP). destruct SH' as (ms' & EQm' & SI' & SP').
  assert (X : forall sv b0 ag keep ms others costs0 sh, Forall simple (map mod_manifold ms) -> shaped (mod_manifold (MComp ms)) -> exact_grad ag ->
    shoot real_clock others sv b0 ag (scheme_name sch) it t1 None keep costs0 (MComp ms) = Ok sh ->
    exists states stages mods costs,
      length states = S it /\ length stages = it /\ Forall (fun ss => length ss = evaluations sch) stages /\
      trajectory sch (fun n => hamilton (ham_of (MComp ms) (step_controls sv b0 None n))) (t1 / INR it) (map phase states) stages /\
      (exists g, nth_error states 0 = Some g /\ same_values g (mod_manifold (MComp ms))) /\
      nth_error states it = Some (mod_manifold (sh_mod sh)) /\
      Forall (fun g => skel g = skel (mod_manifold (MComp ms))) states /\
      mapM (at_state (MComp ms) (geodesic_controls sv b0)) (List.concat stages) = Ok mods /\
      sh_costs sh = Some costs /\ length costs = it /\
      (forall k, (k < it)%nat -> exists mk c, nth_error mods (recorded_at sch k) = Some mk /\ cost mk = Ok c /\ nth_error costs k = Some c) /\
      (if keep then exists cs, mapM (fun m => clone_controls (controls m)) mods = Ok cs /\ sh_inter sh = Some (mkInter states cs)
       else sh_inter sh = None)).
  { intros sv1 b1 ag1 keep1 ms1 oth1 co1 sh1 SI1 SP1 EX1 E1. exact (whole_moments sv1 b1 ag1 t1 it keep1 ms1 T1 IT SI1 SP1 EX1 oth1 sch co1 sh1 E1). }
  rewrite EQm in E. rewrite EQm' in E'.
  destruct (X sv b0 ag keep ms others costs0 sh SI ltac:(rewrite EQm in *; assumption) EX E) as (states & stages & mods & costs & L & LS & LE & T & (g0 & E0 & V0) & E1 & K & AT & CS & CL & CR & KE).
  destruct (X sv' b0' ag' keep ms' others' costs0' sh' SI' ltac:(rewrite EQm' in *; assumption) EX' E') as (states' & stages' & mods' & costs' & L' & LS' & LE' & T' & (g0' & E0' & V0') & E1' & K' & AT' & CS' & CL' & CR' & KE').
  rewrite <- EQm in *. rewrite <- EQm' in *. clear X E E' EQm EQm' SI SI'.
  rewrite Forall_forall in K, K'.
  assert (TC : turned_ctrls d Q m None None) by exact Logic.I.
  assert (CO : forall m l x, @None (list ctrl) = Some l -> In x l -> ctrl_ok d m x) by discriminate.
  assert (R0 : related d Q c (kinds (mod_manifold m)) (map shape (phase (mod_manifold m))) (phase g0) (phase g0')).
  { pose proof (values_phase _ _ V0) as P0. pose proof (values_phase _ _ V0') as P0'. split; [exact (leq_shape _ _ P0)|].
    apply (leq_trans' _ _ _ P0'). apply (leq_trans' _ _ _ (proj2 (related0 d Q c m m' W EW))).
    apply (lplace_leq d Q c _ _ _ (map shape (phase (mod_manifold m)))); [apply KS0; exact W|exact (leq_shape _ _ P0)|].
    clear - P0. induction P0 as [|x y l l' A _ IH]; constructor; [apply teq_sym; exact A|exact IH]. }
  assert (R : forall i g g', nth_error states i = Some g -> nth_error states' i = Some g' -> 
    related d Q c (kinds (mod_manifold m)) (map shape (phase (mod_manifold m))) (phase g) (phase g') /\
    forall ss ss', nth_error stages i = Some ss -> nth_error stages' i = Some ss' -> Forall2 (related d Q c (kinds (mod_manifold m)) (map shape (phase (mod_manifold m)))) ss ss').
  { intros i g g' Eg Eg'.
    eapply (run_pair sv sv' b0 b0' d Q c m m' None None HQ HS HS' W W' LT LT' EW TC (CO m) (CO m') (fun _ => SM) sch (t1 / INR it) _ _ _ _ _ _ T T');
      [congruence|rewrite nth_error_map, E0; reflexivity|rewrite nth_error_map, E0'; reflexivity|exact R0|rewrite nth_error_map, Eg; reflexivity|rewrite nth_error_map, Eg'; reflexivity]. }
  assert (P : forall i g g', nth_error states i = Some g -> nth_error states' i = Some g' -> same_values g' (placed_man d Q c g)).
  { intros i g g' Eg Eg'. apply (states_pair d Q c m m' W LT EW); [exact (K g (nth_error_In _ _ Eg))|exact (K' g' (nth_error_In _ _ Eg'))|exact (proj1 (R i g g' Eg Eg'))]. }
  split; [|apply (shot_wf d m states sh keep W LT); [exact K| |exact (nth_error_In _ _ E1)|destruct keep; [destruct KE as (ks & _ & ->)|rewrite KE]; reflexivity]].
  2: { intros g Ig. apply In_nth_error in Ig. destruct Ig as (i & Eg). destruct (nth_error states' i) as [g'|] eqn:Eg'; [exact (proj1 (proj1 (R i g g' Eg Eg')))|].
       apply nth_error_None in Eg'. assert (i < length states)%nat by (apply nth_error_Some; congruence). lia. }
  split; [exact (P it _ _ E1 E1')|]. split.
  - rewrite CS, CS'. f_equal. apply costs_eq; [congruence|]. intros k x' x Ex' Ex.
    assert (Kt : (k < it)%nat) by (rewrite <- CL; apply nth_error_Some; congruence).
    destruct (CR k Kt) as (mk & y & Em & Cm & Ey). destruct (CR' k Kt) as (mk' & y' & Em' & Cm' & Ey'). rewrite Ex in Ey. injection Ey as <-. rewrite Ex' in Ey'. injection Ey' as <-.
    destruct (mapM_back _ _ _ _ _ AT Em) as (l & El & Al). destruct (mapM_back _ _ _ _ _ AT' Em') as (l' & El' & Al').
    assert (RS : Forall2 (Forall2 (related d Q c (kinds (mod_manifold m)) (map shape (phase (mod_manifold m))))) stages stages').
    { apply forall2_nth; [congruence|]. intros i ss ss' Es Es'. assert (Ii : (i < it)%nat) by (rewrite <- LS; apply nth_error_Some; congruence).
      destruct (nth_error states i) as [g|] eqn:Eg; [|apply nth_error_None in Eg; lia]. destruct (nth_error states' i) as [g'|] eqn:Eg'; [|apply nth_error_None in Eg'; lia].
      exact (proj2 (R i g g' Eg Eg') ss ss' Es Es'). }
    pose proof (forall2_at _ _ _ (forall2_concat _ _ _ RS) _ _ _ El El') as RL.
    destruct (mods_pair d Q HQ c sv sv' b0 b0' HS HS' m m' None None W W' LT LT' EW TC (CO m) (CO m') 0 l l' mk mk' RL Al Al') as (_ & CC & _). congruence.
  - destruct keep; [|rewrite KE, KE'; exact Logic.I]. destruct KE as (ks & _ & ->). destruct KE' as (ks' & _ & ->). cbn [in_states]. apply forall2_nth; [congruence|exact P].
Qed.

(** euler, midpoint and rk4 of torchdiffeq, with geodesic controls. *)
Theorem C80_fixed_step_schemes : forall others others' sv sv' b0 b0' ag ag' sch it t1 keep costs0 costs0' d Q c m m' sh sh',
  rigid d Q -> exact_grad ag -> exact_grad ag' -> exact_solver sv -> exact_solver sv' ->
  wf_mod d m -> wf_mod d m' -> locals_total d m -> locals_total d m' -> elsewhere d Q c m m' ->
  shootable m -> shootable m' -> 0 < t1 -> (0 < it)%nat ->
  smooth_on (map shape (phase (mod_manifold m))) (ham_of m (geodesic_controls sv b0)) ->
  shoot real_clock others sv b0 ag (scheme_name sch) it t1 None keep costs0 m = Ok sh ->
  shoot real_clock others' sv' b0' ag' (scheme_name sch) it t1 None keep costs0' m' = Ok sh' ->
  shot_elsewhere d Q c sh sh'.
Proof.
  intros others others' sv sv' b0 b0' ag ag' sch it t1 keep costs0 costs0' d Q c m m' sh sh' HQ EX EX' HS HS' W W' LT LT' EW SH SH' T1 IT SM E E'.
  exact (proj1 (scheme_runs others others' sv sv' b0 b0' ag ag' sch it t1 keep costs0 costs0' d Q c m m' sh sh' HQ EX EX' HS HS' W W' LT LT' EW SH SH' T1 IT SM E E')).
Qed.
Print Assumptions C80_fixed_step_schemes.

(** Not moving: the identity matrix and no translation.  What shooting gives does not
    depend on the back ends, on the linear solver, on the automatic differentiation, nor on
    the entries of tensors outside their shapes. *)
Lemma rigid_delta d : rigid d delta.
Proof.
  assert (X : forall i j, delta i j = delta j i) by (intros i j; unfold delta; destruct (Nat.eqb_spec i j), (Nat.eqb_spec j i); congruence).
  split; intros i j I J; unfold mprod, mtr, mid.
  - rewrite (rsum_ext d _ (fun k => delta i k * delta k j)) by (intros k _; first [rewrite (X k i); reflexivity|rewrite (X j k); reflexivity]). exact (rsum_delta_r d (fun k => delta k j) i I).
  - rewrite (rsum_ext d _ (fun k => delta i k * delta k j)) by (intros k _; first [rewrite (X k i); reflexivity|rewrite (X j k); reflexivity]). exact (rsum_delta_r d (fun k => delta k j) i I).
Qed.
Definition still (_ : nat) : R := 0.
Lemma turned_delta d u a : (a < d)%nat -> turned d delta u a = u a.
Proof. intros A. apply rsum_delta_r. exact A. Qed.
Lemma rows_still d t N : shape t = [N; d] -> teq (place_rows d delta still t) t /\ teq (turn_rows d delta t) t.
Proof.
  intros S. split; (split; [reflexivity|]); intros idx V; cbn in V; rewrite S in V; destruct idx as [|i [|a [|? ?]]]; try (cbn in V; tauto); cbn in V;
    cbn [place_rows turn_rows get]; unfold placed, still; rewrite turned_delta by tauto; unfold vrow; ring.
Qed.
Lemma frames_still d t N : shape t = [N; d; d] -> teq (turn_frames d delta t) t.
Proof.
  intros S. split; [reflexivity|]; intros idx V; cbn in V; rewrite S in V; destruct idx as [|i [|a [|l [|? ?]]]]; try (cbn in V; tauto); cbn in V;
    cbn [turn_frames get]; rewrite turned_delta by tauto; reflexivity.
Qed.
Lemma placed_still d g : wf_gman d g -> same_values (placed_man d delta still g) g.
Proof.
  intros W. assert (X : Forall2 teq (g_gd (placed_man d delta still g)) (g_gd g) /\ Forall2 teq (g_cotan (placed_man d delta still g)) (g_cotan g)).
  { revert W. induction g as [g S|gs IH] using gman_ind'.
    - destruct g; try (elim S); cbn [wf_gman]; intros W; cbn [placed_man g_gd g_cotan].
      + destruct W as (_ & A & B). split; repeat constructor; [apply (rows_still d _ nb A)|apply (rows_still d _ nb B)].
      + destruct W as (_ & A & B & C & D). split; repeat constructor; first [apply (rows_still d _ nb A)|apply (rows_still d _ nb B)|apply (rows_still d _ nb C)|apply (rows_still d _ nb D)].
      + destruct W as (_ & A & B & C & D). split; repeat constructor; first [apply (rows_still d _ nb A)|apply (frames_still d _ nb B)|apply (rows_still d _ nb C)|apply (frames_still d _ nb D)].
      + elim W.
      + split; constructor.
    - cbn [wf_gman placed_man g_gd g_cotan]. intros W. induction IH as [|g gs Hg _ IHs]; [split; constructor|]. destruct W as (W1 & W2). destruct (Hg W1), (IHs W2).
      cbn [map flat_map]. split; apply Forall2_app; assumption. }
  destruct X. split; (split; [apply skel_placed|assumption]).
Qed.
Lemma same_values_trans a b e : same_values a b -> same_values b e -> same_values a e.
Proof.
  assert (T : forall x y z, Forall2 teq x y -> Forall2 teq y z -> Forall2 teq x z).
  { intros x y z A. revert z. induction A as [|u v x y U _ IH]; intros z B; inversion B; subst; constructor; [eapply teq_trans; eassumption|apply IH; assumption]. }
  intros ((A1 & A2) & (_ & A4)) ((B1 & B2) & (_ & B4)). split; (split; [congruence|eapply T; eassumption]).
Qed.
Lemma same_values_sym a b : same_values a b -> same_values b a.
Proof.
  assert (T : forall x y, Forall2 teq x y -> Forall2 teq y x) by (intros x y A; induction A; constructor; [apply teq_sym; assumption|assumption]).
  intros ((A1 & A2) & (_ & A4)). split; (split; [congruence|apply T; assumption]).
Qed.
Lemma still_shot d sh sh' : wf_shot d sh -> shot_elsewhere d delta still sh sh' -> same_shot sh sh'.
Proof.
  intros (WF & WI) (A & B & C). split; [exact (same_values_trans _ _ _ A (placed_still d _ WF))|]. split; [exact B|].
  destruct (sh_inter sh) as [i|], (sh_inter sh') as [j|]; try exact C. assert (WI' : forall g, In g (in_states i) -> wf_gman d g) by (intros g; exact (WI i g eq_refl)).
  clear - C WI'. induction C as [|x y l l' X _ IH]; constructor; [exact (same_values_trans _ _ _ X (placed_still d _ (WI' x (or_introl eq_refl))))|].
  apply IH. intros g Ig. apply WI'. right. exact Ig.
Qed.

Theorem C80_same_scene : forall others others' sv sv' b0 b0' ag ag' sch it t1 keep costs0 d m m' sh sh',
  exact_grad ag -> exact_grad ag' -> exact_solver sv -> exact_solver sv' ->
  wf_mod d m -> wf_mod d m' -> locals_total d m -> locals_total d m' ->
  twin d delta still m m' -> same_values (mod_manifold m') (mod_manifold m) ->
  smooth_on (map shape (phase (mod_manifold m))) (ham_of m (geodesic_controls sv b0)) ->
  (shoot real_clock others sv b0 ag "torch_euler" it t1 None keep costs0 m = Ok sh ->
   shoot real_clock others' sv' b0' ag' "torch_euler" it t1 None keep costs0 m' = Ok sh' -> same_shot sh sh') /\
  (shootable m -> shootable m' -> 0 < t1 -> (0 < it)%nat ->
   shoot real_clock others sv b0 ag (scheme_name sch) it t1 None keep costs0 m = Ok sh ->
   shoot real_clock others' sv' b0' ag' (scheme_name sch) it t1 None keep costs0 m' = Ok sh' -> same_shot sh sh').
Proof.
  intros others others' sv sv' b0 b0' ag ag' sch it t1 keep costs0 d m m' sh sh' EX EX' HS HS' W W' LT LT' TW SV SM.
  assert (EW : elsewhere d delta still m m').
  { split; [exact TW|]. apply (same_values_trans _ (mod_manifold m) _ SV). apply same_values_sym. apply placed_still. apply wf_mod_manifold. exact W. }
  split.
  - intros E E'. destruct (euler_runs real_clock real_clock others others' sv sv' b0 b0' ag ag' it t1 t1 None None keep costs0 d delta still m m' sh sh'
      (rigid_delta d) EX EX' HS HS' W W' LT LT' EW Logic.I ltac:(discriminate) ltac:(discriminate) (fun _ => SM) E E') as ((A & _) & B). exact (still_shot d sh sh' B A).
  - intros SH SH' T1 IT E E'. destruct (scheme_runs others others' sv sv' b0 b0' ag ag' sch it t1 keep costs0 costs0 d delta still m m' sh sh'
      (rigid_delta d) EX EX' HS HS' W W' LT LT' EW SH SH' T1 IT SM E E') as (A & B). exact (still_shot d sh sh' B A).
Qed.
Print Assumptions C80_same_scene.

(** The modules LocalScaling and LocalRotation put three points at fixed angles around
    their descriptor: turned by half a turn around its descriptor, LocalScaling does not
    generate the turned field. *)
Definition half_turn : mat := fun i j => - delta i j.
Lemma rigid_half d : rigid d half_turn.
Proof.
  destruct (rigid_delta d) as (A & B). split; intros i j I J; [rewrite <- (A i j I J)|rewrite <- (B i j I J)]; apply rsum_ext; intros k _; unfold mtr, half_turn; ring.
Qed.
Definition far_point : tensor := mk2 1 2 (fun _ a => match a with O => 18 | _ => 0 end).

Lemma circle_cos : circle3 @2 0%nat 0%nat = 1 /\ circle3 @2 1%nat 0%nat = - (1 / 2) /\ circle3 @2 2%nat 0%nat = - (1 / 2).
Proof.
  cbn. rewrite Rmult_0_r, cos_0, Rmult_1_r. replace (2 * PI / 3) with (2 * (PI / 3)) by field. rewrite cos_2PI3.
  replace (2 * (PI / 3) * (1 + 1)) with (PI / 3 + PI) by field. rewrite neg_cos, cos_PI3. repeat split; field.
Qed.
Lemma circle_unit i : circle3 @2 i 0%nat ^ 2 + circle3 @2 i 1%nat ^ 2 = 1.
Proof. cbn [circle3 mk2 get]. pose proof (sin2_cos2 (2 * PI / 3 * INR i)) as H. unfold Rsqr in H. nra. Qed.

Theorem C79_local_scaling_refuted :
  let m := LocalScaling 2 3 1 (tzeros [1%nat; 2%nat]) (tzeros [1%nat; 2%nat]) in
  wf_mod 2 m /\ rigid 2 half_turn /\ same_values (mod_manifold m) (placed_man 2 half_turn still (mod_manifold m)) /\
  forall sv, exists m1 v v', fill_controls sv m (CLeaf (mk0 1)) = Ok m1 /\
    velocity m1 far_point 0 = Ok v /\ velocity m1 (place_rows 2 half_turn still far_point) 0 = Ok v' /\
    ~ teq v' (turn_rows 2 half_turn v).
Proof.
  cbn zeta. set (z := tzeros [1%nat; 2%nat]).
  split. { cbn. repeat (split; [first [reflexivity|lra]|]). exists 3%nat. do 2 eexists. repeat split. }
  split; [apply rigid_half|]. split.
  { split; (split; [reflexivity|]); (constructor; [|constructor]); (split; [reflexivity|]); intros idx V; destruct idx as [|i [|a [|? ?]]]; try (cbn in V; tauto);
      cbn; unfold placed, turned, still, half_turn; cbn; ring. }
  intros sv. set (s := mk2 3 2 (fun i c => z @2 0%nat c + 3 / 3 * circle3 @2 i c)).
  set (f := SF_0 Torch s (tscal (item (mk0 1)) circle3) 3).
  assert (Wf : wf_field 2 f) by (cbn; split; [lra|]; exists 3%nat; auto).
  assert (V : forall p, shape p = [1%nat; 2%nat] -> exists v, feval f p 0 = Ok v /\ shape v = [1%nat; 2%nat] /\
    v @2 0%nat 0%nat = exp (- ((p @2 0%nat 0%nat) ^ 2 + (p @2 0%nat 1%nat) ^ 2 + 1 - 2 * p @2 0%nat 0%nat - 2 * p @2 0%nat 1%nat * circle3 @2 0%nat 1%nat) / 18)
      - 1 / 2 * exp (- ((p @2 0%nat 0%nat) ^ 2 + (p @2 0%nat 1%nat) ^ 2 + 1 + p @2 0%nat 0%nat - 2 * p @2 0%nat 1%nat * circle3 @2 1%nat 1%nat) / 18)
      - 1 / 2 * exp (- ((p @2 0%nat 0%nat) ^ 2 + (p @2 0%nat 1%nat) ^ 2 + 1 + p @2 0%nat 0%nat - 2 * p @2 0%nat 1%nat * circle3 @2 2%nat 1%nat) / 18)).
  { intros p Sp. destruct (feval_0 2 f p 1 Wf Logic.I Sp) as (v & E & SV & GV). exists v. split; [exact E|]. split; [exact SV|].
    rewrite GV by (cbn; lia). cbn [V0 f fval nrows s shape mk2 tnth nth rsum]. destruct circle_cos as (C0 & C1 & C2).
    pose proof (circle_unit 0) as U0. pose proof (circle_unit 1) as U1. pose proof (circle_unit 2) as U2. rewrite C0 in U0. rewrite C1 in U1. rewrite C2 in U2.
    assert (G : forall i, gaussian 2 3 (vsub (vrow p 0) (vrow s i)) =
      exp (- ((p @2 0%nat 0%nat) ^ 2 + (p @2 0%nat 1%nat) ^ 2 + 1 - 2 * p @2 0%nat 0%nat * circle3 @2 i 0%nat - 2 * p @2 0%nat 1%nat * circle3 @2 i 1%nat) / 18)).
    { intros i. unfold gaussian. f_equal. unfold sqn. cbn [rsum]. unfold vsub, vrow. change (s @2 i 0%nat) with (0 + 3 / 3 * circle3 @2 i 0%nat). change (s @2 i 1%nat) with (0 + 3 / 3 * circle3 @2 i 1%nat).
      pose proof (circle_unit i) as U. set (a := circle3 @2 i 0%nat) in *. set (b := circle3 @2 i 1%nat) in *.
      replace (0 + 3 / 3 * a) with a by field. replace (0 + 3 / 3 * b) with b by field. set (x := p @2 0%nat 0%nat). set (y := p @2 0%nat 1%nat). replace (2 * 3 ^ 2) with 18 by ring. f_equal. nra. }
    rewrite !G.
    change ((tscal (item (mk0 1)) circle3) @2 0%nat 0%nat) with (1 * circle3 @2 0%nat 0%nat). change ((tscal (item (mk0 1)) circle3) @2 1%nat 0%nat) with (1 * circle3 @2 1%nat 0%nat).
    change ((tscal (item (mk0 1)) circle3) @2 2%nat 0%nat) with (1 * circle3 @2 2%nat 0%nat). rewrite C0, C1, C2.
    match goal with |- 0 + exp ?a * _ + exp ?b * _ + exp ?e * _ = exp ?a' - 1 / 2 * exp ?b' - 1 / 2 * exp ?e' => 
      replace a with a' by field; replace b with b' by field; replace e with e' by field; ring end. }
  destruct (V far_point eq_refl) as (v & E & SV & GV). destruct (V (place_rows 2 half_turn still far_point) eq_refl) as (v' & E' & SV' & GV').
  exists (MLocal 3 1 (circle_support 3) (fun _ => Ok circle3) 2 1 z z (mk0 1)), v, v'. split; [reflexivity|]. split; [exact E|]. split; [exact E'|].
  intros (_ & T). specialize (T [0%nat; 0%nat] ltac:(rewrite SV'; cbn; lia)). cbn [turn_rows get] in T. rewrite GV' in T.
  replace (turned 2 half_turn (vrow v 0) 0) with (- v @2 0%nat 0%nat) in T by (unfold turned, half_turn, vrow; cbn; ring). rewrite GV in T.
  replace ((place_rows 2 half_turn still far_point) @2 0%nat 0%nat) with (-18) in T by (cbn; unfold placed, turned, still, half_turn; cbn; ring).
  replace ((place_rows 2 half_turn still far_point) @2 0%nat 1%nat) with 0 in T by (cbn; unfold placed, turned, still, half_turn; cbn; ring).
  change (far_point @2 0%nat 0%nat) with 18 in T. change (far_point @2 0%nat 1%nat) with 0 in T.
  set (u := exp 1). assert (U : u > 1) by (unfold u; pose proof (exp_ineq1 1); lra). set (k := exp (- (325 / 18))). assert (KP : 0 < k) by apply exp_pos.
  assert (UU : exp (-1) = / u) by (unfold u; rewrite <- exp_Ropp; f_equal; lra).
  replace (exp (- ((-18) ^ 2 + 0 ^ 2 + 1 - 2 * -18 - 2 * 0 * circle3 @2 0%nat 1%nat) / 18)) with (k * (/ u * / u)) in T by (rewrite <- UU; unfold k; rewrite <- !exp_plus; f_equal; field).
  replace (exp (- ((-18) ^ 2 + 0 ^ 2 + 1 + -18 - 2 * 0 * circle3 @2 1%nat 1%nat) / 18)) with (k * u) in T by (unfold k, u; rewrite <- !exp_plus; f_equal; field).
  replace (exp (- ((-18) ^ 2 + 0 ^ 2 + 1 + -18 - 2 * 0 * circle3 @2 2%nat 1%nat) / 18)) with (k * u) in T by (unfold k, u; rewrite <- !exp_plus; f_equal; field).
  replace (exp (- (18 ^ 2 + 0 ^ 2 + 1 - 2 * 18 - 2 * 0 * circle3 @2 0%nat 1%nat) / 18)) with (k * (u * u)) in T by (unfold k, u; rewrite <- !exp_plus; f_equal; field).
  replace (exp (- (18 ^ 2 + 0 ^ 2 + 1 + 18 - 2 * 0 * circle3 @2 1%nat 1%nat) / 18)) with (k * / u) in T by (rewrite <- UU; unfold k; rewrite <- !exp_plus; f_equal; field).
  replace (exp (- (18 ^ 2 + 0 ^ 2 + 1 + 18 - 2 * 0 * circle3 @2 2%nat 1%nat) / 18)) with (k * / u) in T by (rewrite <- UU; unfold k; rewrite <- !exp_plus; f_equal; field).
  clear - T U KP. assert (T' : / u * / u - u = - (u * u - / u)) by (apply (Rmult_eq_reg_l k); [lra|lra]).
  set (w := / u) in *. assert (WU : u * w = 1) by (unfold w; apply Rinv_r; lra). assert (0 < w) by (unfold w; apply Rinv_0_lt_compat; lra).
  assert (Z : (u + w - 2) * (u + w + 1) = 0) by (replace ((u + w - 2) * (u + w + 1)) with (u * u + w * w - u - w + 2 * (u * w) - 2) by ring; rewrite WU; lra).
  apply Rmult_integral in Z. destruct Z as [Z|Z]; [|lra]. assert (Y : (u - 1) * (u - 1) = 0) by (replace w with (2 - u) in WU by lra; lra). apply Rmult_integral in Y. destruct Y; lra.
Qed.
Print Assumptions C79_local_scaling_refuted.

(** ** Examples *)

(** A quarter turn of the plane followed by a translation; translations and a module
    without divergence at two points, and the same placed elsewhere with another back end. *)
Definition quarter : mat := fun i j => match i, j with O, S O => -1 | S O, O => 1 | _, _ => 0 end.
Definition shift12 (a : nat) : R := INR a + 1.
Definition plane2 (a b e f : R) : tensor := mk2 2 2 (fun i k => match i, k with O, O => a | O, _ => b | _, O => e | _, _ => f end).
Definition scene (bk : backend) (q p q' p' : tensor) : dmod :=
  MComp [MTrans bk 1 2 2 q p (tzeros [2%nat; 2%nat]); MDivFree 1 1 1 1 2 1 1 q' p' (tzeros [1%nat; 2%nat]) None].
Definition scene0 : dmod := scene Torch (plane2 0 0 1 0) (plane2 1 2 3 4) (plane2 2 0 0 1) (plane2 0 1 1 0).
Definition scene1 : dmod :=
  let P := place_rows 2 quarter shift12 in let T := turn_rows 2 quarter in
  scene Keops (P (plane2 0 0 1 0)) (T (plane2 1 2 3 4)) (P (plane2 2 0 0 1)) (T (plane2 0 1 1 0)).
Definition scene_ctrl (h h' : tensor) : ctrl := CList [CLeaf h; CLeaf h'].

Example C79_hypotheses :
  rigid 2 quarter /\ exact_solver exact_sv /\ wf_mod 2 scene0 /\ wf_mod 2 scene1 /\ elsewhere 2 quarter shift12 scene0 scene1 /\
  regular 2 scene0 /\ (first_order scene0 -> ~ has_dir (mod_manifold scene0)) /\
  (forall b0 b0', exists m1 m1', geodesic_controls exact_sv b0 scene0 = Ok m1 /\ geodesic_controls exact_sv b0' scene1 = Ok m1' /\ same_elsewhere 2 quarter shift12 m1 m1') /\
  exists k k' m1 m1', k = scene_ctrl (plane2 1 0 0 1) (mk2 1 2 (fun _ a => INR a)) /\ ctrl_ok 2 scene0 k /\ ctrl_ok 2 scene1 k' /\ turned_ctrl 2 quarter scene0 k k' /\
    fill_controls exact_sv scene0 k = Ok m1 /\ fill_controls exact_sv scene1 k' = Ok m1'.
Proof.
  assert (HQ : rigid 2 quarter). { split; intros i j I J; unfold mprod, mtr, mid; destruct i as [|[|i]]; try lia; destruct j as [|[|j]]; try lia; cbn; ring. }
  assert (W : wf_mod 2 scene0) by (cbn; repeat split; (lra || discriminate)).
  assert (W' : wf_mod 2 scene1) by (cbn; repeat split; (lra || discriminate)).
  assert (EW : elsewhere 2 quarter shift12 scene0 scene1).
  { split; [cbn; repeat split|]. split; (split; [reflexivity|]); repeat constructor. }
  assert (RG : regular 2 scene0).
  { cbn. split; [|split; [left; lra|exact Logic.I]]. intros i j I J N. destruct i as [|[|i]], j as [|[|j]]; try lia; exists 0%nat; (split; [lia|]); cbn; lra. }
  assert (FO : first_order scene0 -> ~ has_dir (mod_manifold scene0)) by (cbn; tauto).
  split; [exact HQ|]. split; [exact exact_sv_exact|]. do 5 (split; [assumption|]). split.
  - intros b0 b0'. destruct (C79_computable exact_sv exact_sv b0 b0' 2 quarter shift12 scene0 scene1 HQ exact_sv_exact exact_sv_exact W W' EW RG) as (_ & _ & G).
    destruct (G FO) as ((m1 & E) & (m1' & E')). exists m1, m1'. split; [exact E|]. split; [exact E'|].
    exact (proj2 (proj2 (proj2 (C79_geodesic_controls exact_sv exact_sv b0 b0' 2 quarter shift12 scene0 scene1 m1 m1' HQ exact_sv_exact exact_sv_exact W W' EW E E')) RG)).
  - destruct (C79_computable exact_sv exact_sv Torch Torch 2 quarter shift12 scene0 scene1 HQ exact_sv_exact exact_sv_exact W W' EW RG) as (_ & G & _).
    destruct (G (scene_ctrl (plane2 1 0 0 1) (mk2 1 2 (fun _ a => INR a)))) as (k' & A & B & (m1 & C) & (m1' & D)); [cbn; auto|]. do 2 eexists. exists m1, m1'. split; [reflexivity|]. split; [cbn; auto|]. split; [exact A|]. split; [exact B|]. split; [exact C|exact D].
Qed.

(** The line reflected and moved: x |-> 5 - x; a point and a global translation. *)
Definition mirror : mat := half_turn.
Definition to5 (_ : nat) : R := 5.
Definition ex1 : dmod := ex_mod (place_rows 1 mirror to5 one11) (turn_rows 1 mirror one11) (tzeros [1%nat]).
Lemma ex1_shootable : shootable ex1.
Proof. eexists. split; [reflexivity|]. split; [repeat constructor|cbn; auto 10]. Qed.

Example C80_hypotheses : forall ck others sv b0 it t1, (0 < it)%nat -> exact_solver sv ->
  rigid 1 mirror /\ exact_grad exact_ag /\ wf_mod 1 ex0 /\ wf_mod 1 ex1 /\ locals_total 1 ex0 /\ locals_total 1 ex1 /\ elsewhere 1 mirror to5 ex0 ex1 /\
  shootable ex0 /\ shootable ex1 /\
  smooth_on (map shape (phase (mod_manifold ex0))) (ham_of ex0 (geodesic_controls sv b0)) /\
  (exists sh sh', shoot ck others sv b0 exact_ag "torch_euler" it t1 None false None ex0 = Ok sh /\
     shoot ck others sv b0 exact_ag "torch_euler" it t1 None false None ex1 = Ok sh' /\ shot_elsewhere 1 mirror to5 sh sh') /\
  forall oth sch t, 0 < t -> exists sh sh', shoot real_clock oth sv b0 exact_ag (scheme_name sch) it t None true None ex0 = Ok sh /\
     shoot real_clock oth sv b0 exact_ag (scheme_name sch) it t None true None ex1 = Ok sh' /\ shot_elsewhere 1 mirror to5 sh sh'.
Proof.
  intros ck others sv b0 it t1 IT HS. pose proof (rigid_half 1) as HQ. fold mirror in HQ. pose proof exact_ag_exact as EX.
  assert (W : wf_mod 1 ex0) by (cbn; repeat split; try lra; discriminate). assert (W' : wf_mod 1 ex1) by (cbn; repeat split; try lra; discriminate).
  assert (LT : locals_total 1 ex0) by (cbn; tauto). assert (LT' : locals_total 1 ex1) by (cbn; tauto).
  assert (EW : elsewhere 1 mirror to5 ex0 ex1) by (split; [cbn; repeat split|]; split; (split; [reflexivity|]); repeat constructor).
  pose proof ex_shootable as SH. pose proof ex1_shootable as SH'.
  destruct (C72_hypotheses ck others sv b0 it t1 IT) as (_ & _ & _ & _ & _ & _ & _ & _ & _ & SM).
  destruct (C25_hypotheses ck others sv b0 it t1 IT) as (_ & _ & (sh & E) & _ & G).
  do 9 (split; [assumption|]). split; [exact SM|]. split.
  - assert (X : is_ok (shoot ck others sv b0 exact_ag "torch_euler" it t1 None false None ex1)).
    { apply euler_total; [exact EX| |assumption|reflexivity]. intros m F K A B. destruct (ex_total sv b0 m F K A B) as (m2 & E2 & _ & G2). eauto. }
    destruct X as (sh' & E'). exists sh, sh'. split; [exact E|]. split; [exact E'|].
    exact (proj1 (C80_torch_euler ck ck others others sv sv b0 b0 exact_ag exact_ag it t1 t1 None None false None 1 mirror to5 ex0 ex1 sh sh'
      HQ EX EX HS HS W W' LT LT' EW Logic.I ltac:(discriminate) ltac:(discriminate) (fun _ => SM) E E')).
  - intros oth sch t T. destruct (G oth sch t T) as (sa & Ea).
    assert (X : is_ok (shoot real_clock oth sv b0 exact_ag (scheme_name sch) it t None true None ex1)).
    { destruct ex1_shootable as (ms & EQ & SI & SP). unfold ex1, ex_mod in EQ. injection EQ as <-.
      apply moments_total; [assumption|assumption|exact SI|exact SP|cbn; lia|exact EX|]. intros m. apply ex_total. }
    destruct X as (sb & Eb). exists sa, sb. split; [exact Ea|]. split; [exact Eb|].
    exact (C80_fixed_step_schemes oth oth sv sv b0 b0 exact_ag exact_ag sch it t true None None 1 mirror to5 ex0 ex1 sa sb
      HQ EX EX HS HS W W' LT LT' EW SH SH' T IT SM Ea Eb).
Qed.
