(** Property theorems about the deformation modules (C11, C18 - C24). *)
From Coq Require Import Reals String List Arith Lia Lra.
From Verif Require Import Py RSum Tensor TensorFacts KernelModel FieldModel GeometryModel ModuleModel
  SpecLinAlg SpecKernel SpecField SpecGeometry SpecSKS SpecModule SpecHistory KernelFacts
  ModuleMain ModuleRegular ModulePosed ModuleStrain ModuleHistory ModuleLoops ModuleStale ModuleBackend SolverExists.
Import ListNotations.
Open Scope R_scope.

(** ** Concrete modules used to illustrate the hypotheses: two points of the plane. *)
Definition ex_pts : tensor := mk2 2 2 (fun n c => INR (n + 3 * c)).
Definition ex_vec : tensor := mk2 2 2 (fun n c => INR n - 2 * INR c + 1).
Definition ex_frames : tensor := mk3 2 2 2 (fun n i j => delta i j).
Definition ex_C : tensor := mk3 2 2 1 (fun n i k => 1).
Definition ex_global : dmod := MGlobal 2 3 (mk1 2 INR).
Definition ex_trans : dmod := MTrans Keops 2 2 2 ex_pts ex_vec ex_vec.
Definition ex_imp0 : dmod := MImp0 Torch 2 (1 / 2) 3 2 2 ex_pts ex_vec ex_vec.
Definition ex_oriented : dmod := MOriented 2 1 Vector 2 2 ex_pts ex_vec ex_vec ex_vec (mk1 2 INR).
Definition ex_linear : dmod := MLinear (eye 2) 1 (mk2 1 2 (fun _ _ => 1)) (mk2 1 2 (fun _ _ => 2)) (mk0 3).
Definition ex_imp1 : dmod := MImp1 Torch 2 0 1 ex_C 2 2 ex_pts ex_frames ex_vec ex_frames (mk1 1 INR) None.
Definition ex_div : dmod := MDivFree 2 1 0 1 2 1 1 ex_pts ex_vec (mk1 2 INR) None.
Definition ex_arap : dmod := MArap 2 1 0 1 2 1 1 ex_pts ex_vec (mk1 2 INR) None.

(** One module of each class, with a nested compound. *)
Definition ex_all : dmod :=
  MComp [ex_global; ex_trans; MComp [ex_imp0; ex_imp1; ex_div]; ex_oriented; ex_linear;
         MSilent (GLm 2 2 ex_pts ex_vec); ex_arap].
(** The same without landmarks carrying directions. *)
Definition ex_geo : dmod :=
  MComp [ex_global; ex_trans; MComp [ex_imp0; ex_imp1; ex_div]; ex_linear; ex_arap].

Ltac wfm := cbn; repeat split; try discriminate; try lra; try (eexists; reflexivity).

Lemma ex_distinct : distinct 2 2 (vrow ex_pts).
Proof.
  intros i j Hi Hj Hij. exists 0%nat. split; [lia|]. unfold vrow, ex_pts. cbn [mk2 get]. intros E. apply INR_eq in E. lia.
Qed.

Lemma ex_imp1_regular : regular 2 ex_imp1.
Proof.
  cbn [regular ex_imp1]. split; [right; exact ex_distinct|]. intros h Sh H k Hk. cbn in Hk.
  assert (k = 0%nat) as -> by lia. specialize (H 0%nat 0%nat 0%nat ltac:(lia) ltac:(lia) ltac:(lia)).
  unfold growth in H. rewrite !rsum_S, !rsum_0 in H. unfold ex_frames, ex_C, mk3 in H. cbn -[rsum delta INR] in H.
  rewrite !rsum_S, !rsum_0, delta_same, (delta_diff 0 1) in H by lia. lra.
Qed.

Lemma ex_all_wf : wf_mod 2 ex_all.
Proof. wfm. Qed.
Lemma ex_geo_wf : wf_mod 2 ex_geo.
Proof. wfm. Qed.

Lemma ex_all_regular : regular 2 ex_all.
Proof.
  pose proof ex_distinct as D. pose proof ex_imp1_regular as R1.
  change (regular 2 ex_global /\ regular 2 ex_trans /\ (regular 2 ex_imp0 /\ regular 2 ex_imp1 /\ regular 2 ex_div /\ True) /\
    regular 2 ex_oriented /\ regular 2 ex_linear /\ True /\ regular 2 ex_arap /\ True).
  split; [exact I|]. split; [exact D|]. split; [split; [left; lra|split; [exact R1|split; [|exact I]]]|].
  { right. split; [lra|]. split; [lia|exact D]. }
  split; [|split; [exact I|split; [exact I|split; [|exact I]]]].
  - split; [exact D|]. intros i Hi. exists 0%nat. split; [lia|]. unfold ex_vec, mk2. cbn [get]. pose proof (pos_INR i). cbn [INR]. lra.
  - right. split; [lra|exact D].
Qed.
Lemma ex_geo_regular : regular 2 ex_geo.
Proof.
  pose proof ex_all_regular as (A & B & C & D & E & F & G & _).
  change (regular 2 ex_global /\ regular 2 ex_trans /\ (regular 2 ex_imp0 /\ regular 2 ex_imp1 /\ regular 2 ex_div /\ True) /\
    regular 2 ex_linear /\ regular 2 ex_arap /\ True). tauto.
Qed.

(** Zero controls and the controls currently stored are well-shaped. *)
Lemma ex_all_ctrl : ctrl_ok 2 ex_all (controls ex_all).
Proof. cbn. tauto. Qed.

(** ** C18 *)
(** The cost of a module (any class, any nesting of compounds) whose controls were
    filled is non-negative, zero for zero controls, and multiplied by s^2 when the
    controls are multiplied by s. *)
Theorem C18_cost_is_quadratic : forall sv d m c m1,
  exact_solver sv -> wf_mod d m -> ctrl_ok d m c -> fill_controls sv m c = Ok m1 ->
  exists x, cost m1 = Ok x /\ 0 <= x /\ (cnull c -> x = 0) /\
    forall s, exists m2, fill_controls sv m (cscal s c) = Ok m2 /\ cost m2 = Ok (s ^ 2 * x).
Proof. intros sv d m c m1 H. exact (cost_form sv Torch d H m c m1). Qed.
Print Assumptions C18_cost_is_quadratic.

Theorem C18_fill_zero_costs_nothing : forall sv d m m1,
  exact_solver sv -> wf_mod d m -> fill_controls_zero sv m = Ok m1 -> cost m1 = Ok 0.
Proof. intros sv d m m1 H. exact (cost_zero sv Torch d H m m1). Qed.
Print Assumptions C18_fill_zero_costs_nothing.

(** The cost of a compound is the sum of the costs of its members (and raises the
    exception of the first member that raises). *)
Theorem C18_compound_cost_is_sum : forall ms, cost (MComp ms) =
  match mapM cost ms with Ok xs => Ok (fold_right Rplus 0 xs) | Err e => Err e end.
Proof. exact cost_comp. Qed.
Print Assumptions C18_compound_cost_is_sum.

(** Well-shaped controls are accepted by modules with distinct points (or nu > 0). *)
Theorem C18_controls_accepted : forall sv d m c,
  exact_solver sv -> wf_mod d m -> regular d m -> ctrl_ok d m c -> is_ok (fill_controls sv m c).
Proof. intros sv d m c H. exact (fill_regular sv d H m c). Qed.
Print Assumptions C18_controls_accepted.

(** ... and then only zero controls cost nothing. *)
Theorem C18_cost_definite : forall sv d m c m1,
  exact_solver sv -> wf_mod d m -> regular d m -> ctrl_ok d m c -> fill_controls sv m c = Ok m1 ->
  cost m1 = Ok 0 -> cnull c.
Proof. intros sv d m c m1 H. exact (definite_regular sv Torch d H m c m1). Qed.
Print Assumptions C18_cost_definite.

Example C18_hypotheses : exists sv m1 m2, exact_solver sv /\ wf_mod 2 ex_all /\ regular 2 ex_all /\
  ctrl_ok 2 ex_all (controls ex_all) /\ ~ cnull (controls ex_all) /\
  fill_controls sv ex_all (controls ex_all) = Ok m1 /\ fill_controls_zero sv ex_all = Ok m2.
Proof.
  exists exact_sv. pose proof exact_sv_exact as H.
  destruct (fill_regular exact_sv 2 H ex_all _ ex_all_wf ex_all_regular ex_all_ctrl) as (m1 & E1).
  destruct (fill_regular exact_sv 2 H ex_all _ ex_all_wf ex_all_regular (proj1 (zero_ctrl_ok 2 ex_all ex_all_wf))) as (m2 & E2).
  exists m1, m2. split; [exact H|]. split; [exact ex_all_wf|]. split; [exact ex_all_regular|]. split; [exact ex_all_ctrl|].
  split; [|split; assumption]. intros (N & _). specialize (N [1%nat]). cbn in N. assert (1 = 0) by (apply N; split; [lia|exact I]). lra.
Qed.

(** ** C19 *)
(** After [compute_geodesic_control(man)] the controls of the module are well-shaped
    and filled, and no other controls (of the whole compound jointly) give a larger
    value of inner_prod_field(field) - cost. *)
Theorem C19_geodesic_controls_maximise : forall sv b0 d m man m',
  exact_solver sv -> wf_mod d m -> wf_gman d man -> no_empty_comp man ->
  compute_geodesic_control sv b0 m man = Ok m' ->
  ctrl_ok d m (controls m') /\ fill_controls sv m (controls m') = Ok m' /\
  exists best, gain m' man = Ok best /\
    forall c, ctrl_ok d m c -> exists m1 g, fill_controls sv m c = Ok m1 /\ gain m1 man = Ok g /\ g <= best.
Proof.
  intros sv b0 d m man m' H W WG NE E. destruct (geodesic_max sv b0 d H m man m' W WG NE E) as (O & F & g' & G & HM).
  split; [exact O|]. split; [exact F|]. exists g'. split; [exact G|]. intros c Hc.
  destruct (HM c Hc) as (m1 & g & _ & e & F1 & G1 & _ & _ & _ & P & EQ). exists m1, g. split; [exact F1|]. split; [exact G1|]. lra.
Qed.
Print Assumptions C19_geodesic_controls_maximise.

(** When only zero controls cost nothing, they are the only maximiser. *)
Theorem C19_maximiser_unique : forall sv b0 d m man m' c m1 g,
  exact_solver sv -> wf_mod d m -> wf_gman d man -> no_empty_comp man ->
  compute_geodesic_control sv b0 m man = Ok m' ->
  (forall c m1, ctrl_ok d m c -> fill_controls sv m c = Ok m1 -> cost m1 = Ok 0 -> cnull c) ->
  ctrl_ok d m c -> fill_controls sv m c = Ok m1 -> gain m1 man = Ok g -> gain m' man = Ok g ->
  ceq c (controls m').
Proof. intros sv b0 d m man m' c m1 g H. exact (geodesic_unique sv b0 d H m man m' c m1 g). Qed.
Print Assumptions C19_maximiser_unique.

(** In fact that is so whenever geodesic controls can be computed: only zero controls cost
    nothing, and the geodesic controls are the only maximiser. *)
Theorem C19_computable_definite : forall sv b0 d m man m' c m1,
  exact_solver sv -> wf_mod d m -> wf_gman d man -> no_empty_comp man ->
  compute_geodesic_control sv b0 m man = Ok m' ->
  ctrl_ok d m c -> fill_controls sv m c = Ok m1 -> cost m1 = Ok 0 -> cnull c.
Proof.
  intros sv b0 d m man m' c m1 H W WG NE E. apply (definite_posed sv b0 d H m c m1 W). exact (geo_posed_conv sv b0 d H m man WG NE m' W E).
Qed.
Print Assumptions C19_computable_definite.

Theorem C19_only_maximiser : forall sv b0 d m man m' c m1 g,
  exact_solver sv -> wf_mod d m -> wf_gman d man -> no_empty_comp man ->
  compute_geodesic_control sv b0 m man = Ok m' ->
  ctrl_ok d m c -> fill_controls sv m c = Ok m1 -> gain m1 man = Ok g -> gain m' man = Ok g ->
  ceq c (controls m').
Proof.
  intros sv b0 d m man m' c m1 g H W WG NE E. apply (geodesic_unique sv b0 d H m man m' c m1 g W WG NE E).
  intros c2 m2. exact (C19_computable_definite sv b0 d m man m' c2 m2 H W WG NE E).
Qed.
Print Assumptions C19_only_maximiser.

(** The geodesic controls can be computed when points are distinct (or nu > 0), for
    every manifold, except that modules of order 1 need a manifold without
    directions. *)
Theorem C19_geodesic_controls_computable : forall sv b0 d m man,
  exact_solver sv -> wf_mod d m -> regular d m -> wf_gman d man -> no_empty_comp man ->
  (first_order m -> ~ has_dir man) -> is_ok (compute_geodesic_control sv b0 m man).
Proof. intros sv b0 d m man H. exact (geo_regular sv b0 d H m man). Qed.
Print Assumptions C19_geodesic_controls_computable.

(** Finding: a module of order 1 never computes geodesic controls against a manifold
    with directions. *)
Theorem C19_directions_refused : forall sv b0 d m man,
  wf_mod d m -> wf_gman d man -> no_empty_comp man -> first_order m -> has_dir man ->
  ~ is_ok (compute_geodesic_control sv b0 m man).
Proof. exact geo_no_dir. Qed.
Print Assumptions C19_directions_refused.

Lemma ex_geo_nodir : ~ has_dir (mod_manifold ex_geo).
Proof. cbn. tauto. Qed.

Example C19_hypotheses : exists sv m', exact_solver sv /\ wf_mod 2 ex_geo /\ regular 2 ex_geo /\
  wf_gman 2 (mod_manifold ex_geo) /\ no_empty_comp (mod_manifold ex_geo) /\
  compute_geodesic_control sv Torch ex_geo (mod_manifold ex_geo) = Ok m'.
Proof.
  exists exact_sv. pose proof exact_sv_exact as H. destruct (wf_mod_manifold 2 ex_geo ex_geo_wf) as (WG & NE).
  destruct (geo_regular exact_sv Torch 2 H ex_geo _ ex_geo_wf ex_geo_regular WG NE (fun _ => ex_geo_nodir)) as (m' & E).
  exists m'. split; [exact H|]. split; [exact ex_geo_wf|]. split; [exact ex_geo_regular|]. auto.
Qed.

Example C19_refused_hypotheses : first_order ex_all /\ has_dir (mod_manifold ex_all) /\ wf_gman 2 (mod_manifold ex_all).
Proof. split; [cbn; tauto|]. split; [cbn; tauto|]. apply (wf_mod_manifold 2 ex_all ex_all_wf). Qed.

(** ** C20 *)
Theorem C20_hamiltonian_is_cost : forall sv b0 d m m',
  exact_solver sv -> wf_mod d m -> geodesic_controls sv b0 m = Ok m' ->
  exists x, cost m' = Ok x /\ hamiltonian m' = Ok x /\ 0 <= x.
Proof. intros sv b0 d m m' H. exact (hamiltonian_cost sv b0 d H m m'). Qed.
Print Assumptions C20_hamiltonian_is_cost.

Example C20_hypotheses : exists sv m', exact_solver sv /\ wf_mod 2 ex_geo /\ geodesic_controls sv Torch ex_geo = Ok m'.
Proof. destruct C19_hypotheses as (sv & m' & H & W & _ & _ & _ & E). exists sv, m'. auto. Qed.

(** Finding: the constructor of Hamiltonian accepts a compound or a list of modules,
    but not a module of another class, although it is documented to. *)
Theorem C20_single_module_refused : forall m,
  is_ok (hamiltonian_of_module m) <-> exists ms, m = MComp ms.
Proof.
  intros m. split.
  - intros (x & E). destruct m; try discriminate. eexists. reflexivity.
  - intros (ms & ->). eexists. reflexivity.
Qed.
Print Assumptions C20_single_module_refused.

(** ** C21 *)
(** With nu = 0 the field of ImplicitModule1 has at each of its points the symmetric
    strain R diag(C h) R^T ([J] is the Jacobian returned by the field). *)
Theorem C21_strain_is_prescribed : forall sv d b sg co C dim nb gd0 gd1 c0 c1 h0 ca r h m1,
  exact_solver sv ->
  let m := MImp1 b sg 0 co C dim nb gd0 gd1 c0 c1 h0 ca in
  wf_mod d m -> shape C = [nb; d; r] -> shape h = [r] -> fill_controls sv m (CLeaf h) = Ok m1 ->
  exists f J, field_generator m1 = Ok f /\ feval f gd0 1 = Ok J /\ shape J = [nb; d; d] /\
    forall n i j, (n < nb)%nat -> (i < d)%nat -> (j < d)%nat ->
      (J @3 n i j + J @3 n j i) / 2 = growth d r C gd1 h n i j.
Proof. intros sv d b sg co C dim nb gd0 gd1 c0 c1 h0 ca r h m1 H m. exact (imp1_strain sv d H b sg co C dim nb gd0 gd1 c0 c1 h0 ca r h m1). Qed.
Print Assumptions C21_strain_is_prescribed.

Example C21_hypotheses : exists sv m1, exact_solver sv /\ wf_mod 2 ex_imp1 /\
  fill_controls sv ex_imp1 (CLeaf (mk1 1 (fun _ => 5))) = Ok m1.
Proof.
  exists exact_sv. pose proof exact_sv_exact as H.
  destruct (fill_regular exact_sv 2 H ex_imp1 (CLeaf (mk1 1 (fun _ => 5))) ltac:(wfm) ex_imp1_regular eq_refl) as (m1 & E).
  exists m1. split; [exact H|]. split; [wfm|exact E].
Qed.

(** ** C22 *)
(** With nu = 0 the field takes the prescribed values at the value points (the last
    n1 points) and has zero divergence / zero symmetric strain at the first n0. *)
Theorem C22_divfree : forall sv d sg cd co dim n0 n1 gd ct h0 l0 h m1,
  exact_solver sv ->
  let m := MDivFree sg cd 0 co dim n0 n1 gd ct h0 l0 in
  wf_mod d m -> ctrl_ok d m (CLeaf h) -> fill_controls sv m (CLeaf h) = Ok m1 ->
  exists f V J, field_generator m1 = Ok f /\
    feval f (last_rows n0 gd) 0 = Ok V /\ shape V = [n1; d] /\
    feval f (first_rows n0 gd) 1 = Ok J /\ shape J = [n0; d; d] /\
    (forall j a, (j < n1)%nat -> (a < d)%nat -> V @2 j a = (tflatten h) @1 (j * d + a)%nat) /\
    (forall i, (i < n0)%nat -> rsum d (fun a => J @3 i a a) = 0).
Proof. intros sv d sg cd co dim n0 n1 gd ct h0 l0 h m1 H. exact (div_strain sv d H sg cd co dim n0 n1 gd ct h0 l0 h m1). Qed.
Print Assumptions C22_divfree.

Theorem C22_arap : forall sv d sg ca co dim n0 n1 gd ct h0 l0 h m1,
  exact_solver sv ->
  let m := MArap sg ca 0 co dim n0 n1 gd ct h0 l0 in
  wf_mod d m -> ctrl_ok d m (CLeaf h) -> fill_controls sv m (CLeaf h) = Ok m1 ->
  exists f V J, field_generator m1 = Ok f /\
    feval f (last_rows n0 gd) 0 = Ok V /\ shape V = [n1; d] /\
    feval f (first_rows n0 gd) 1 = Ok J /\ shape J = [n0; d; d] /\
    (forall j a, (j < n1)%nat -> (a < d)%nat -> V @2 j a = (tflatten h) @1 (j * d + a)%nat) /\
    (forall i a c, (i < n0)%nat -> (a < d)%nat -> (c < d)%nat -> (J @3 i a c + J @3 i c a) / 2 = 0).
Proof. intros sv d sg ca co dim n0 n1 gd ct h0 l0 h m1 H. exact (arap_strain sv d H sg ca co dim n0 n1 gd ct h0 l0 h m1). Qed.
Print Assumptions C22_arap.

Example C22_hypotheses : exists sv m1 m2, exact_solver sv /\ wf_mod 2 ex_div /\ wf_mod 2 ex_arap /\
  fill_controls sv ex_div (CLeaf (mk2 1 2 (fun _ c => INR c))) = Ok m1 /\
  fill_controls sv ex_arap (CLeaf (mk1 2 INR)) = Ok m2.
Proof.
  exists exact_sv. pose proof exact_sv_exact as H. pose proof ex_all_regular as (_ & _ & (_ & _ & RD & _) & _ & _ & _ & RA & _).
  destruct (fill_regular exact_sv 2 H ex_div (CLeaf (mk2 1 2 (fun _ c => INR c))) ltac:(wfm) RD (or_introl eq_refl)) as (m1 & E1).
  destruct (fill_regular exact_sv 2 H ex_arap (CLeaf (mk1 2 INR)) ltac:(wfm) RA (or_intror eq_refl)) as (m2 & E2).
  exists m1, m2. split; [exact H|]. split; [wfm|]. split; [wfm|]. auto.
Qed.

(** ** C23 *)
(** False in general: an implicit module of order 1 keeps what it computed from its
    controls when its geometrical descriptor is modified afterwards.  After the two
    histories (controls then descriptor / descriptor then controls) the descriptor
    and the controls are the same but neither the costs nor the fields are. *)
Theorem C23_depends_on_fill_order_refuted : forall sv, exact_solver sv ->
  exists m1 m2 x1 x2 f1 f2 V1 V2,
    run_ops sv Torch st_mod st_ops1 = Ok m1 /\ run_ops sv Torch st_mod st_ops2 = Ok m2 /\
    mod_manifold m1 = mod_manifold m2 /\ controls m1 = controls m2 /\
    cost m1 = Ok x1 /\ cost m2 = Ok x2 /\ x1 < x2 /\
    field_generator m1 = Ok f1 /\ field_generator m2 = Ok f2 /\
    feval f1 st_B 0 = Ok V1 /\ feval f2 st_B 0 = Ok V2 /\ V1 @2 0%nat 0%nat < V2 @2 0%nat 0%nat.
Proof. exact stale_history. Qed.
Print Assumptions C23_depends_on_fill_order_refuted.

(** And a freshly built one (alone or in a compound) raises. *)
Theorem C23_fresh_module_raises_refuted : forall m, fresh m -> first_order m ->
  ~ is_ok (cost m) /\ ~ is_ok (field_generator m).
Proof. exact fresh_raises. Qed.
Print Assumptions C23_fresh_module_raises_refuted.

Example C23_fresh_hypotheses : fresh ex_all /\ first_order ex_all /\ fresh st_mod.
Proof. cbn. tauto. Qed.

(** True of the other classes: for every pair of histories ending with the same
    manifold and the same controls, the cost and the field are the same... *)
Theorem C23_explicit_modules : forall sv b0 m ops1 ops2 m1 m2, ~ first_order m ->
  run_ops sv b0 m ops1 = Ok m1 -> run_ops sv b0 m ops2 = Ok m2 ->
  mod_manifold m1 = mod_manifold m2 -> controls m1 = controls m2 ->
  cost m1 = cost m2 /\ field_generator m1 = field_generator m2.
Proof. exact history_explicit. Qed.
Print Assumptions C23_explicit_modules.

(** ... and are available at any time. *)
Theorem C23_explicit_never_raise : forall d m, wf_mod d m -> ~ first_order m ->
  is_ok (cost m) /\ exists f, field_generator m = Ok f /\ fdim f = d.
Proof. exact explicit_ok. Qed.
Print Assumptions C23_explicit_never_raise.

(** True of every class when the last thing done is to give controls or to compute
    geodesic ones: nothing else of the history remains. *)
Theorem C23_after_controls : forall sv b0 m ops1 ops2 o1 o2 m1 m2,
  (forall g, o1 <> OpManifold g) -> (forall g, o2 <> OpManifold g) ->
  run_ops sv b0 m (ops1 ++ [o1]) = Ok m1 -> run_ops sv b0 m (ops2 ++ [o2]) = Ok m2 ->
  mod_manifold m1 = mod_manifold m2 -> controls m1 = controls m2 -> m1 = m2.
Proof. exact history_filled. Qed.
Print Assumptions C23_after_controls.

Example C23_explicit_hypotheses : ~ first_order (MComp [ex_trans; ex_oriented]) /\ wf_mod 2 (MComp [ex_trans; ex_oriented]).
Proof. split; [cbn; tauto|wfm]. Qed.

(** ** C24 *)
(** A loop over a compound whose body does not itself loop over it visits all members
    in order, whatever the state left by earlier (finished or interrupted) loops. *)
Theorem C24_loop_visits_all : forall (A : Type) (body : nat -> citer -> A -> option (citer * A)) (g : nat -> A -> A) s fuel acc,
  (forall i s a, body i s a = Some (s, g i a)) -> (it_len s < fuel)%nat ->
  for_in fuel body s acc =
  Some (mkIter (it_len s) (it_len s), fold_left (fun a i => g i a) (seq 0 (it_len s)) acc).
Proof. intros A. exact for_in_visit. Qed.
Print Assumptions C24_loop_visits_all.

Example C24_visit_case : for_in 10 (fun i s l => Some (s, l ++ [i])) (mkIter 4 3) [] = Some (mkIter 4 4, [0; 1; 2; 3]%nat).
Proof. reflexivity. Qed.

(** False when the loops are nested: of the n^2 pairs only those of the first member
    are visited... *)
Theorem C24_nested_loops_refuted : forall fuel s, (it_len s < fuel)%nat -> (0 < it_len s)%nat ->
  nested_full fuel s = Some (mkIter (it_len s) (it_len s), map (pair 0%nat) (seq 0 (it_len s))).
Proof. exact nested_full_result. Qed.
Print Assumptions C24_nested_loops_refuted.

(** ... and when the inner loop is interrupted at its first member the outer loop
    never ends (no amount of fuel is enough). *)
Theorem C24_interrupted_inner_loop_refuted : forall fuel s, (1 < it_len s)%nat -> nested_break fuel s = None.
Proof. exact nested_break_loops. Qed.
Print Assumptions C24_interrupted_inner_loop_refuted.

Example C24_nested_case : nested_full 10 (mkIter 2 0) = Some (mkIter 2 2, [(0, 0); (0, 1)]%nat).
Proof. reflexivity. Qed.

(** ** C11 *)
(** The back end changes neither the cost of a module, nor the values and Jacobians
    of its field, nor its geodesic controls. *)
Theorem C11_module_backend_independent : forall sv d b m c m1 m2,
  exact_solver sv -> wf_mod d m -> ctrl_ok d m c ->
  fill_controls sv m c = Ok m1 -> fill_controls sv (mod_backend b m) c = Ok m2 ->
  (exists x, cost m1 = Ok x /\ cost m2 = Ok x) /\
  exists f f', field_generator m1 = Ok f /\ field_generator m2 = Ok f' /\
    forall p N k, shape p = [N; d] -> (k < 2)%nat ->
      exists V V', feval f p k = Ok V /\ feval f' p k = Ok V' /\ teq V V'.
Proof. intros sv d b m c m1 m2 H. exact (backend_values sv d H b m c m1 m2). Qed.
Print Assumptions C11_module_backend_independent.

Theorem C11_geodesic_controls_backend_independent : forall sv d b0 b0' b m man m1 m2,
  exact_solver sv -> wf_mod d m -> regular d m -> wf_gman d man -> no_empty_comp man ->
  compute_geodesic_control sv b0 m man = Ok m1 ->
  compute_geodesic_control sv b0' (mod_backend b m) man = Ok m2 ->
  ceq (controls m2) (controls m1).
Proof. intros sv d b0 b0' b m man m1 m2 H. exact (backend_geodesic sv d H b0 b0' b m man m1 m2). Qed.
Print Assumptions C11_geodesic_controls_backend_independent.

Example C11_module_hypotheses : exists sv m1 m2, exact_solver sv /\ wf_mod 2 ex_geo /\ regular 2 ex_geo /\
  mod_backend Keops ex_geo <> ex_geo /\
  compute_geodesic_control sv Torch ex_geo (mod_manifold ex_geo) = Ok m1 /\
  compute_geodesic_control sv Torch (mod_backend Keops ex_geo) (mod_manifold ex_geo) = Ok m2.
Proof.
  exists exact_sv. pose proof exact_sv_exact as H. destruct (wf_mod_manifold 2 ex_geo ex_geo_wf) as (WG & NE).
  assert (RK : regular 2 (mod_backend Keops ex_geo)) by exact ex_geo_regular.
  destruct (geo_regular exact_sv Torch 2 H ex_geo _ ex_geo_wf ex_geo_regular WG NE (fun _ => ex_geo_nodir)) as (m1 & E1).
  destruct (geo_regular exact_sv Torch 2 H (mod_backend Keops ex_geo) _ (proj2 (wf_mod_backend 2 Keops ex_geo) ex_geo_wf) RK WG NE (fun _ => ex_geo_nodir)) as (m2 & E2).
  exists m1, m2. split; [exact H|]. split; [exact ex_geo_wf|]. split; [exact ex_geo_regular|].
  split; [|split; assumption]. unfold ex_geo, ex_imp0. cbn. discriminate.
Qed.
