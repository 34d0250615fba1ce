(** The controls of a module placed elsewhere correspond to those of the module: the
    Hamiltonians have the same value, with given and with geodesic controls. *)
From Coq Require Import Reals String List Arith Lia Lra.
From Verif Require Import Py RSum Tensor TensorFacts KernelModel FieldModel GeometryModel ModuleModel
  SpecLinAlg SpecKernel SpecField SpecGeometry SpecSKS SpecModule SpecShooting SpecHistory LinAlg KernelFacts FieldFacts GeometryFacts SKSFacts
  GaussPSD ModuleDual ModuleAlg ModuleLeaves ModuleImplicit ModuleMain ModuleRegular ModuleStrain ModuleBackend
  ShootingModel SpecMotion TransportFacts SpecRigid RigidField RigidBlock RigidModule.
Import ListNotations.
Open Scope R_scope.

(** ** Blocks *)
Lemma block_mk1 d n1 f k a : (k < n1)%nat -> (a < d)%nat -> block d (mk1 (n1 * d) f) k a = f (k * d + a)%nat.
Proof. intros K A. unfold block. change ((tflatten (mk1 (n1 * d) f)) @1 (k * d + a)%nat) with (fvec (mk1 (n1 * d) f) (k * d + a)%nat). rewrite (fvec_1 _ (n1 * d)); [reflexivity|reflexivity|nia]. Qed.
Definition turn_blocks d Q n1 t : tensor := mk1 (n1 * d) (fun q => turned d Q (block d t (q / d)) (q mod d)%nat).
Lemma block_turn d Q n1 t k a : (k < n1)%nat -> (a < d)%nat -> block d (turn_blocks d Q n1 t) k a = turned d Q (block d t k) a.
Proof. intros K A. unfold turn_blocks. rewrite block_mk1 by assumption. rewrite div_pair, mod_pair by exact A. reflexivity. Qed.

(** ** Turning there and back *)
Section There.
Variables (d : nat) (Q : mat) (c : nat -> R).


Lemma turn_exists m : forall m' k, wf_mod d m' -> twin d Q c m m' -> ctrl_ok d m k -> exists k', ctrl_ok d m' k' /\ turned_ctrl d Q m k k'.
Proof.
  induction m as [m NC|ms IH] using dmod_ind'; intros m' k W' T H.
  - destruct m; try (elim (NC ms eq_refl)); destruct m'; try contradiction T; destruct k as [t|l]; try contradiction H; cbn [twin ctrl_ok wf_mod] in T, H, W'.
    + destruct T as (-> & ->). exists (CLeaf (mk1 d (turned d Q (fun b => t @1 b)))). split; [reflexivity|]. intros a A. reflexivity.
    + destruct T as (-> & -> & ->). exists (CLeaf (turn_rows d Q t)). split; [exact H|apply teq_refl].
    + destruct T as (-> & -> & -> & -> & ->). exists (CLeaf (turn_rows d Q t)). split; [exact H|apply teq_refl].
    + destruct T as (-> & -> & -> & -> & ->). exists (CLeaf t). split; [exact H|apply teq_refl].
    + exists (CLeaf t). split; [exact H|reflexivity].
    + exists (CLeaf t). split; [exact H|reflexivity].
    + exists (CLeaf t). split; [exact H|exact Logic.I].
    + destruct T as (-> & -> & -> & TC & -> & ->). exists (CLeaf t). split; [|apply teq_refl]. cbn [ctrl_ok]. rewrite (proj1 TC). exact H.
    + destruct T as (-> & -> & -> & -> & -> & -> & ->). exists (CLeaf (turn_blocks d Q n1 t)). split; [right; reflexivity|]. intros k a K A. apply block_turn; assumption.
    + destruct T as (-> & -> & -> & -> & -> & -> & ->). exists (CLeaf (turn_blocks d Q n1 t)). split; [right; reflexivity|]. intros k a K A. apply block_turn; assumption.
  - destruct m' as [| | | | | | | | | |ms']; try contradiction T. destruct k as [t|cs]; [contradiction H|]. destruct W' as (_ & W').
    cbn [twin ctrl_ok] in T, H.
    assert (X : exists cs', (fix go (ms : list dmod) (cs : list ctrl) : Prop := match ms, cs with [], [] => True | m :: ms', c :: cs' => ctrl_ok d m c /\ go ms' cs' | _, _ => False end) ms' cs' /\
      (fix go (ms : list dmod) (cs cs' : list ctrl) : Prop := match ms, cs, cs' with [], [], [] => True | m :: r, x :: xs, x' :: xs' => turned_ctrl d Q m x x' /\ go r xs xs' | _, _, _ => False end) ms cs cs').
    { revert ms' cs W' T H. induction IH as [|m ms Hm _ IHs]; intros [|m' ms'] [|k cs] W' T H; try contradiction T; try contradiction H.
      - exists []. auto.
      - destruct W' as (W' & Ws). destruct T as (T & Ts). destruct H as (H & Hs). destruct (Hm m' k W' T H) as (k' & O & E). destruct (IHs ms' cs Ws Ts Hs) as (ks & Os & Es).
        exists (k' :: ks). auto. }
    destruct X as (cs' & O & E). exists (CList cs'). split; [exact O|exact E].
Qed.

Hypothesis HQ : rigid d Q.

Lemma turn_rows_back t N : shape t = [N; d] -> teq t (turn_rows d Q (turn_rows d (mtr Q) t)).
Proof.
  intros SS. split; [reflexivity|]. intros idx V. rewrite SS in V. destruct idx as [|i [|a [|? ?]]]; cbn [valid] in V; try tauto.
  symmetry. exact (turned_back d Q HQ (vrow t i) a (proj1 (proj2 V))).
Qed.

Lemma back_exists m : forall m' k', wf_mod d m' -> twin d Q c m m' -> ctrl_ok d m' k' -> exists k, ctrl_ok d m k /\ turned_ctrl d Q m k k'.
Proof.
  induction m as [m NC|ms IH] using dmod_ind'; intros m' k W' T H.
  - destruct m; try (elim (NC ms eq_refl)); destruct m'; try contradiction T; destruct k as [t|l]; try contradiction H; cbn [twin ctrl_ok wf_mod] in T, H, W'.
    + destruct T as (-> & ->). exists (CLeaf (mk1 d (turned d (mtr Q) (fun b => t @1 b)))). split; [reflexivity|]. intros a A. symmetry. exact (turned_back d Q HQ (fun b => t @1 b) a A).
    + destruct T as (-> & -> & ->). exists (CLeaf (turn_rows d (mtr Q) t)). split; [exact H|]. exact (turn_rows_back _ _ H).
    + destruct T as (-> & -> & -> & -> & ->). exists (CLeaf (turn_rows d (mtr Q) t)). split; [exact H|]. exact (turn_rows_back _ _ H).
    + destruct T as (-> & -> & -> & -> & ->). exists (CLeaf t). split; [exact H|apply teq_refl].
    + exists (CLeaf t). split; [exact H|reflexivity].
    + exists (CLeaf t). split; [exact H|reflexivity].
    + exists (CLeaf t). split; [exact H|exact Logic.I].
    + destruct T as (-> & -> & -> & TC & -> & ->). exists (CLeaf t). split; [|apply teq_refl]. cbn [ctrl_ok]. rewrite <- (proj1 TC). exact H.
    + destruct T as (-> & -> & -> & -> & -> & -> & ->). exists (CLeaf (turn_blocks d (mtr Q) n1 t)). split; [right; reflexivity|]. intros k a K A.
      rewrite (turned_ext d Q (block d (turn_blocks d (mtr Q) n1 t) k) (turned d (mtr Q) (block d t k))) by (intros b B; apply block_turn; assumption).
      symmetry. exact (turned_back d Q HQ _ a A).
    + destruct T as (-> & -> & -> & -> & -> & -> & ->). exists (CLeaf (turn_blocks d (mtr Q) n1 t)). split; [right; reflexivity|]. intros k a K A.
      rewrite (turned_ext d Q (block d (turn_blocks d (mtr Q) n1 t) k) (turned d (mtr Q) (block d t k))) by (intros b B; apply block_turn; assumption).
      symmetry. exact (turned_back d Q HQ _ a A).
  - destruct m' as [| | | | | | | | | |ms']; try contradiction T. destruct k as [t|cs]; [contradiction H|]. destruct W' as (_ & W').
    cbn [twin ctrl_ok] in T, H.
    assert (X : exists cs0, (fix go (ms : list dmod) (cs : list ctrl) : Prop := match ms, cs with [], [] => True | m :: ms', c :: cs' => ctrl_ok d m c /\ go ms' cs' | _, _ => False end) ms cs0 /\
      (fix go (ms : list dmod) (cs cs' : list ctrl) : Prop := match ms, cs, cs' with [], [], [] => True | m :: r, x :: xs, x' :: xs' => turned_ctrl d Q m x x' /\ go r xs xs' | _, _, _ => False end) ms cs0 cs).
    { revert ms' cs W' T H. induction IH as [|m ms Hm _ IHs]; intros [|m' ms'] [|k cs] W' T H; try contradiction T; try contradiction H.
      - exists []. auto.
      - destruct W' as (W' & Ws). destruct T as (T & Ts). destruct H as (H & Hs). destruct (Hm m' k W' T H) as (k' & O & E). destruct (IHs ms' cs Ws Ts Hs) as (ks & Os & Es).
        exists (k' :: ks). auto. }
    destruct X as (cs' & O & E). exists (CList cs'). split; [exact O|exact E].
Qed.

(** Controls with the same values as turned ones are turned. *)
Lemma fvec_teq t t' : shape t = shape t' -> (forall k, (k < prod (shape t))%nat -> fvec t k = fvec t' k) -> teq t t'.
Proof.
  intros SS E. split; [exact SS|]. intros idx V. pose proof (get_flatten t idx V) as G. pose proof V as V'. rewrite SS in V'.
  pose proof (get_flatten t' idx V') as G'. rewrite <- G, <- G', SS. rewrite <- SS. apply E. apply ravel_lt. exact V.
Qed.

Lemma turned_ceq m : forall m' k k1 k2, twin d Q c m m' -> turned_ctrl d Q m k k1 -> ctrl_ok d m k -> ctrl_ok d m' k1 -> ctrl_ok d m' k2 -> ceq k1 k2 -> turned_ctrl d Q m k k2.
Proof.
  induction m as [m NC|ms IH] using dmod_ind'; intros m' k k1 k2 T E O O1 O2 EQ.
  - destruct m; try (elim (NC ms eq_refl)); destruct m'; try contradiction T; destruct k as [t|l]; try contradiction O; destruct k1 as [t1|l1]; try contradiction O1;
      destruct k2 as [t2|l2]; try contradiction O2; destruct EQ as (EP & EV); cbn [twin ctrl_ok turned_ctrl] in *;
      change (forall k, (k < prod (shape t1))%nat -> fvec t1 k = fvec t2 k) in EV.
    + intros a A. rewrite <- E by exact A. rewrite O1 in EV. specialize (EV a ltac:(cbn; lia)). rewrite (fvec_1 _ d), (fvec_1 _ d) in EV by assumption. symmetry. exact EV.
    + destruct T as (-> & -> & ->). apply teq_trans with t1; [|exact E]. apply teq_sym. apply fvec_teq; [congruence|exact EV].
    + destruct T as (-> & -> & -> & -> & ->). apply teq_trans with t1; [|exact E]. apply teq_sym. apply fvec_teq; [congruence|exact EV].
    + destruct T as (-> & -> & -> & -> & ->). apply teq_trans with t1; [|exact E]. apply teq_sym. apply fvec_teq; [congruence|exact EV].
    + rewrite <- E, <- (fvec_item t1 O1), <- (fvec_item t2 O2). symmetry. apply EV. destruct O1 as [-> | ->]; cbn; lia.
    + rewrite <- E, <- (fvec_item t1 (or_introl O1)), <- (fvec_item t2 (or_introl O2)). symmetry. apply EV. rewrite O1; cbn; lia.
    + exact Logic.I.
    + destruct T as (-> & -> & -> & TC & -> & ->). apply teq_trans with t1; [|exact E]. apply teq_sym. apply fvec_teq; [congruence|exact EV].
    + destruct T as (-> & -> & -> & -> & -> & -> & ->). intros k a K A. rewrite <- E by assumption. symmetry. apply (EV (k * d + a)%nat).
      destruct O1 as [-> | ->]; cbn [prod fold_right]; nia.
    + destruct T as (-> & -> & -> & -> & -> & -> & ->). intros k a K A. rewrite <- E by assumption. symmetry. apply (EV (k * d + a)%nat).
      destruct O1 as [-> | ->]; cbn [prod fold_right]; nia.
  - destruct m' as [| | | | | | | | | |ms']; try contradiction T. destruct k as [t|cs]; [contradiction O|]. destruct k1 as [t|cs1]; [contradiction O1|]. destruct k2 as [t|cs2]; [contradiction O2|].
    cbn [twin ctrl_ok turned_ctrl ceq] in *. revert ms' cs cs1 cs2 T E O O1 O2 EQ.
    induction IH as [|m ms Hm _ IHs]; intros [|m' ms'] [|k cs] [|k1 cs1] [|k2 cs2] T E O O1 O2 EQ; try contradiction; [exact Logic.I|].
    destruct T, E, O, O1, O2, EQ. split; [eapply Hm; eassumption|eapply IHs; eassumption].
Qed.
End There.

(** ** Hamiltonians *)
Section Ham.
Variables (d : nat) (Q : mat).
Hypothesis HQ : rigid d Q.
Variable c : nat -> R.
Variables (sv sv' : solver) (b0 b0' : backend).
Hypothesis HSV : exact_solver sv.
Hypothesis HSV' : exact_solver sv'.

Lemma gain_moved m1 m1' man man' : wf_gman d man -> wf_gman d man' -> same_values man' (placed_man d Q c man) -> moved_to d Q c m1 m1' -> gain m1' man' = gain m1 man.
Proof.
  intros W W' V (x & f & f' & C & C' & FG & FG' & (Wf & H0 & H1 & _) & (Wf' & H0' & H1' & _) & S). unfold gain. rewrite FG, FG'. cbn [bind].
  rewrite (inner_pairing_field d man f W Wf H0 (fun _ => H1)), (inner_pairing_field d man' f' W' Wf' H0' (fun _ => H1')). cbn [bind].
  rewrite C, C'. rewrite (pairing_placed d Q HQ c man man' (fval d f) (fval d f') (fjac d f) (fjac d f')); [reflexivity|exact W|exact V|]. exact S.
Qed.

(** With given controls. *)
Lemma given_ham m m' k k' m1 m1' : wf_mod d m -> wf_mod d m' -> elsewhere d Q c m m' -> ctrl_ok d m k -> ctrl_ok d m' k' -> turned_ctrl d Q m k k' ->
  fill_controls sv m k = Ok m1 -> fill_controls sv' m' k' = Ok m1' -> hamiltonian m1' = hamiltonian m1.
Proof.
  intros W W' EW O O' T F F'. rewrite !ham_gain. rewrite (fill_manifold sv m k m1 F), (fill_manifold sv' m' k' m1' F').
  apply gain_moved; [apply wf_mod_manifold; exact W|apply wf_mod_manifold; exact W'|exact (proj2 EW)|].
  exact (module_goes d Q HQ c sv sv' HSV HSV' m m' k k' m1 m1' W W' EW O O' T F F').
Qed.

(** With geodesic controls. *)
Lemma geodesic_best m m' man man' m1 m1' : wf_mod d m -> wf_mod d m' -> elsewhere d Q c m m' ->
  wf_gman d man -> wf_gman d man' -> no_empty_comp man -> no_empty_comp man' -> same_values man' (placed_man d Q c man) ->
  compute_geodesic_control sv b0 m man = Ok m1 -> compute_geodesic_control sv' b0' m' man' = Ok m1' ->
  gain m1' man' = gain m1 man /\ (regular d m' -> turned_ctrl d Q m (controls m1) (controls m1')).
Proof.
  intros W W' EW WM WM' NE NE' V E1 E2.
  destruct (geodesic_max sv b0 d HSV m man m1 W WM NE E1) as (O1 & F1 & g1 & GA1 & H1).
  destruct (geodesic_max sv' b0' d HSV' m' man' m1' W' WM' NE' E2) as (O2 & F2 & g2 & GA2 & H2).
  destruct (turn_exists d Q c m m' (controls m1) W' (proj1 EW) O1) as (k' & Ok' & Tk').
  destruct (back_exists d Q c HQ m m' (controls m1') W' (proj1 EW) O2) as (k & Okk & Tk).
  destruct (H1 k Okk) as (n1 & x1 & _ & e1 & N1 & X1 & _ & _ & _ & P1 & Q1).
  destruct (H2 k' Ok') as (n2 & x2 & _ & e2 & N2 & X2 & _ & _ & _ & P2 & Q2).
  pose proof (gain_moved _ _ man man' WM WM' V (module_goes d Q HQ c sv sv' HSV HSV' m m' _ _ _ _ W W' EW Okk O2 Tk N1 F2)) as A2. rewrite X1, GA2 in A2. injection A2 as A2.
  pose proof (gain_moved _ _ man man' WM WM' V (module_goes d Q HQ c sv sv' HSV HSV' m m' _ _ _ _ W W' EW O1 Ok' Tk' F1 N2)) as A1. rewrite GA1, X2 in A1. injection A1 as A1.
  split; [rewrite GA1, GA2; f_equal; lra|]. intros G.
  apply (turned_ceq d Q c m m' _ k'); try assumption; [exact (proj1 EW)|].
  apply (geodesic_unique sv' b0' d HSV' m' man' m1' k' n2 g2 W' WM' NE' E2); try assumption.
  - intros x n Hc Fc Cc. exact (definite_regular sv' b0' d HSV' m' x n W' G Hc Fc Cc).
  - rewrite X2. f_equal. lra.
Qed.

Lemma geodesic_ham m m' m1 m1' : wf_mod d m -> wf_mod d m' -> elsewhere d Q c m m' ->
  geodesic_controls sv b0 m = Ok m1 -> geodesic_controls sv' b0' m' = Ok m1' ->
  hamiltonian m1' = hamiltonian m1 /\ (regular d m' -> turned_ctrl d Q m (controls m1) (controls m1')).
Proof.
  intros W W' EW E E'. unfold geodesic_controls in E, E'. destruct (wf_mod_manifold d m W) as (WM & NE). destruct (wf_mod_manifold d m' W') as (WM' & NE').
  destruct (geodesic_best m m' _ _ m1 m1' W W' EW WM WM' NE NE' (proj2 EW) E E') as (G & T). split; [|exact T].
  destruct (geodesic_max sv b0 d HSV m _ m1 W WM NE E) as (_ & F & _). destruct (geodesic_max sv' b0' d HSV' m' _ m1' W' WM' NE' E') as (_ & F' & _).
  rewrite !ham_gain, (fill_manifold sv m _ m1 F), (fill_manifold sv' m' _ m1' F'). exact G.
Qed.
End Ham.
