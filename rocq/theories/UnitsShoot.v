(** Shooting in another unit of length: states and modules along the way. *)
From Coq Require Import Reals String List Arith Lia Lra.
From Coquelicot Require Import Coquelicot.
From Verif Require Import Py RSum Tensor TensorFacts KernelModel FieldModel GeometryModel ModuleModel ShootingModel
  SpecLinAlg SpecKernel SpecField SpecGeometry SpecSKS SpecModule SpecShooting SpecHistory SpecTransport SpecMotion GeometryFacts ModuleDual ModuleAlg ModuleLeaves ModuleMain ModuleRegular
  ShootingPack ShootingDyn ShootingInst MotionMomentum MotionShoot TransportFacts RigidShoot SpecEnergy EnergyFacts SpecConverge ConvergeFacts ScaleFlow
  SpecUnits UnitsField UnitsModule UnitsControl.
Import ListNotations.
Open Scope R_scope.

(** ** Factors *)

Fixpoint gd_weights (u : R) (g : gman) : list R :=
  match g with
  | GLm _ _ _ _ => [u]
  | GDir _ _ _ _ _ _ _ | GFrame _ _ _ _ _ _ => [u; 1]
  | GCLm _ _ _ _ _ _ _ _ _ => [u; u]
  | GEmpty _ => []
  | GComp gs => flat_map (gd_weights u) gs
  end.
Fixpoint ct_weights (u : R) (g : gman) : list R :=
  match g with
  | GLm _ _ _ _ => [u]
  | GDir _ _ _ _ _ _ _ | GFrame _ _ _ _ _ _ => [u; u * u]
  | GCLm _ _ _ _ _ _ _ _ _ => [u; u]
  | GEmpty _ => []
  | GComp gs => flat_map (ct_weights u) gs
  end.
Definition weights (u : R) (g : gman) : list R := gd_weights u g ++ ct_weights u g.
Definition factor (u : R) (g : gman) (i : nat) : R := nth i (weights u g) 1.

Fixpoint times (ws : list R) (l : list tensor) : list tensor :=
  match ws, l with w :: ws', t :: l' => tscal w t :: times ws' l' | _, _ => [] end.

Lemma times_app : forall a b l l', length a = length l -> times (a ++ b) (l ++ l') = times a l ++ times b l'.
Proof. induction a as [|x a IH]; intros b [|t l] l' L; try discriminate L; [reflexivity|]. cbn [app times]. f_equal. apply IH. injection L as L. exact L. Qed.

Lemma gd_weights_len u g : length (gd_weights u g) = length (g_gd g).
Proof.
  induction g as [g S|gs IH] using gman_ind'; [destruct g; try (elim S); reflexivity|]. cbn [gd_weights g_gd].
  induction IH as [|g gs A _ B]; [reflexivity|]. cbn [flat_map]. rewrite !app_length, A, B. reflexivity.
Qed.
Lemma ct_weights_len u g : length (ct_weights u g) = length (g_cotan g).
Proof.
  induction g as [g S|gs IH] using gman_ind'; [destruct g; try (elim S); reflexivity|]. cbn [ct_weights g_cotan].
  induction IH as [|g gs A _ B]; [reflexivity|]. cbn [flat_map]. rewrite !app_length, A, B. reflexivity.
Qed.
Lemma units_skel u g : skel (in_units u g) = skel g.
Proof.
  induction g as [g S|gs IH] using gman_ind'; [destruct g; try (elim S); reflexivity|]. cbn [in_units skel]. f_equal.
  induction IH as [|g gs A _ B]; [reflexivity|]. cbn [map]. rewrite A, B. reflexivity.
Qed.
Lemma gd_weights_skel u g : gd_weights u (skel g) = gd_weights u g.
Proof.
  induction g as [g S|gs IH] using gman_ind'; [destruct g; try (elim S); reflexivity|]. cbn [gd_weights skel].
  induction IH as [|g gs A _ B]; [reflexivity|]. cbn [map flat_map]. rewrite A, B. reflexivity.
Qed.
Lemma ct_weights_skel u g : ct_weights u (skel g) = ct_weights u g.
Proof.
  induction g as [g S|gs IH] using gman_ind'; [destruct g; try (elim S); reflexivity|]. cbn [ct_weights skel].
  induction IH as [|g gs A _ B]; [reflexivity|]. cbn [map flat_map]. rewrite A, B. reflexivity.
Qed.
Lemma weights_same u g g' : skel g = skel g' -> weights u g = weights u g'.
Proof. intros K. unfold weights. rewrite <- (gd_weights_skel u g), <- (ct_weights_skel u g), K, gd_weights_skel, ct_weights_skel. reflexivity. Qed.
Lemma weights_len u g : length (weights u g) = length (phase g).
Proof. unfold weights, phase. rewrite !app_length, gd_weights_len, ct_weights_len. reflexivity. Qed.

Lemma leq_app a b a' b' : leq a a' -> leq b b' -> leq (a ++ b) (a' ++ b').
Proof. intros A B. apply Forall2_app; assumption. Qed.
Lemma units_gd u g : leq (g_gd (in_units u g)) (times (gd_weights u g) (g_gd g)).
Proof.
  induction g as [g S|gs IH] using gman_ind'.
  - destruct g; try (elim S); cbn [in_units g_gd gd_weights times]; repeat (apply Forall2_cons; [first [apply teq_refl|apply teq_one]|]); constructor.
  - cbn [in_units g_gd gd_weights]. induction IH as [|g gs A _ B]; [constructor|]. cbn [map flat_map]. rewrite times_app by apply gd_weights_len. apply leq_app; assumption.
Qed.
Lemma units_cotan u g : leq (g_cotan (in_units u g)) (times (ct_weights u g) (g_cotan g)).
Proof.
  induction g as [g S|gs IH] using gman_ind'.
  - destruct g; try (elim S); cbn [in_units g_cotan ct_weights times]; repeat (apply Forall2_cons; [apply teq_refl|]); constructor.
  - cbn [in_units g_cotan ct_weights]. induction IH as [|g gs A _ B]; [constructor|]. cbn [map flat_map]. rewrite times_app by apply ct_weights_len. apply leq_app; assumption.
Qed.
Lemma units_phase u g : leq (phase (in_units u g)) (times (weights u g) (phase g)).
Proof. unfold phase, weights. rewrite times_app by apply gd_weights_len. apply leq_app; [apply units_gd|apply units_cotan]. Qed.

Lemma times_shape : forall ws l, length ws = length l -> map shape (times ws l) = map shape l.
Proof. induction ws as [|w ws IH]; intros [|t l] L; try discriminate L; [reflexivity|]. cbn [times map]. f_equal. apply IH. injection L as L. exact L. Qed.
Lemma times_entry : forall ws l i idx, length ws = length l -> (i < length l)%nat -> entry (times ws l) i idx = nth i ws 1 * entry l i idx.
Proof.
  induction ws as [|w ws IH]; intros [|t l] i idx L I; try discriminate L; [cbn in I; lia|]. destruct i as [|i]; [reflexivity|].
  apply (IH l i idx); [injection L as L; exact L|cbn in I; lia].
Qed.
Lemma times_weighed ws l : length ws = length l -> weighed (fun i => nth i ws 1) l (times ws l).
Proof. intros L. split; [apply times_shape; exact L|]. intros i s idx N _. apply times_entry; [exact L|]. rewrite <- (map_length shape). apply nth_error_Some. congruence. Qed.
Lemma weighed_times ws l l' : length ws = length l -> weighed (fun i => nth i ws 1) l l' -> leq l' (times ws l).
Proof.
  intros L (S & E). apply leq_entries; [rewrite times_shape; assumption|]. intros i t idx N V.
  pose proof (map_nth_error shape _ _ N) as M. rewrite times_shape in M by exact L.
  rewrite (E i (shape t) idx M V). symmetry. apply times_entry; [exact L|]. rewrite <- (map_length shape). apply nth_error_Some. congruence.
Qed.
Lemma times_upd : forall ws l i idx x, length ws = length l -> (i < length l)%nat -> upd (times ws l) i idx (nth i ws 1 * x) = times ws (upd l i idx x).
Proof.
  induction ws as [|w ws IH]; intros [|t l] i idx x L I; try discriminate L; [cbn in I; lia|]. destruct i as [|i].
  - cbn [times upd nth]. f_equal. unfold tset, tscal, tmap. cbn [shape get]. f_equal. apply FunctionalExtensionality.functional_extensionality. intros jdx. destruct (idx_eqb jdx idx); reflexivity.
  - cbn [times upd nth]. f_equal. apply IH; [injection L as L; exact L|cbn in I; lia].
Qed.

Lemma factor_pairs u g : Forall2 (fun a b => a * b = u * u) (gd_weights u g) (ct_weights u g).
Proof.
  induction g as [g S|gs IH] using gman_ind'.
  - destruct g; try (elim S); cbn [gd_weights ct_weights]; repeat (apply Forall2_cons; [ring|]); constructor.
  - cbn [gd_weights ct_weights]. induction IH as [|g gs A _ B]; [constructor|]. cbn [flat_map]. apply Forall2_app; assumption.
Qed.
Lemma weights_nonzero u g : u <> 0 -> Forall (fun w => w <> 0) (weights u g).
Proof.
  intros U0. assert (U2 : u * u <> 0) by (apply Rmult_integral_contrapositive_currified; assumption). unfold weights. apply Forall_app. split.
  - induction g as [g S|gs IH] using gman_ind'; [destruct g; try (elim S); cbn [gd_weights]; repeat constructor; auto with real|].
    cbn [gd_weights]. induction IH as [|g gs A _ B]; [constructor|]. cbn [flat_map]. apply Forall_app. split; assumption.
  - induction g as [g S|gs IH] using gman_ind'; [destruct g; try (elim S); cbn [ct_weights]; repeat constructor; auto with real|].
    cbn [ct_weights]. induction IH as [|g gs A _ B]; [constructor|]. cbn [flat_map]. apply Forall_app. split; assumption.
Qed.
Lemma factor_nonzero u g i : u <> 0 -> factor u g i <> 0.
Proof.
  intros U0. unfold factor. destruct (le_lt_dec (length (weights u g)) i) as [L|L]; [rewrite nth_overflow by exact L; lra|].
  pose proof (weights_nonzero u g U0) as F. rewrite Forall_forall in F. apply F. apply nth_In. exact L.
Qed.
Lemma factor_product u g n i : length (phase g) = (n + n)%nat -> (i < n)%nat -> factor u g i * factor u g (n + i)%nat = u * u.
Proof.
  intros L I. pose proof (factor_pairs u g) as P. rewrite phase_len in L.
  assert (LG : length (gd_weights u g) = n) by (rewrite gd_weights_len, g_gd_len; lia).
  assert (LC : length (ct_weights u g) = n) by (rewrite ct_weights_len, g_cotan_len; lia).
  unfold factor, weights. rewrite app_nth1 by lia. rewrite app_nth2 by lia. replace (n + i - length (gd_weights u g))%nat with i by lia.
  assert (I' : (i < length (gd_weights u g))%nat) by lia. clear - P I'.
  revert i I'. induction P as [|a b l l' E _ IH]; intros i I'; [cbn in I'; lia|]. destruct i as [|i]; [exact E|]. apply IH. cbn in I'. lia.
Qed.

(** ** States *)

Lemma units_values u g g' : skel g' = skel g -> weighed (factor u g) (phase g) (phase g') -> same_values g' (in_units u g).
Proof.
  intros K E. apply (weighed_times _ _ _ (weights_len u g)) in E.
  assert (E' : leq (phase g') (phase (in_units u g))).
  { apply (leq_trans' _ _ _ E). clear. pose proof (units_phase u g) as X. induction X as [|x y l l' A _ IH]; constructor; [apply teq_sym; exact A|exact IH]. }
  unfold phase in E'.
  assert (X : forall (a b a' b' : list tensor), length a = length a' -> leq (a ++ b) (a' ++ b') -> leq a a' /\ leq b b').
  { clear. induction a as [|x a IH]; intros b [|y a'] b' L E; try discriminate L; [split; [constructor|exact E]|]. inversion E; subst.
    destruct (IH b a' b') as (A & B); [injection L; auto|assumption|]. split; [constructor; assumption|exact B]. }
  apply X in E'; [|rewrite !g_gd_len; apply skel_len; rewrite units_skel; exact K]. split; split; try (rewrite units_skel; exact K); apply E'.
Qed.
Lemma values_units u g g' : same_values g' (in_units u g) -> weighed (factor u g) (phase g) (phase g').
Proof.
  intros ((_ & A) & (_ & B)). assert (E : leq (phase g') (phase (in_units u g))) by (apply Forall2_app; assumption).
  refine (weighed_leq _ _ _ _ _ _ (leq_trans' _ _ _ E (units_phase u g)) (times_weighed _ _ (weights_len u g))). apply leq_refl'.
Qed.

(** ** Modules at other states *)
Lemma resized_set d u m : forall m' g g' m1 m1', resized d u m m' -> set_manifold m g = Ok m1 -> set_manifold m' g' = Ok m1' -> resized d u m1 m1'.
Proof.
  induction m as [m NC|ms IH] using dmod_ind'; intros m' g g' m1 m1' T E E'.
  - destruct m; try (elim (NC ms eq_refl)); destruct m'; try contradiction T; destruct g; try discriminate E; destruct g'; try discriminate E';
      cbn [set_manifold] in E, E'; injection E as <-; injection E' as <-; exact T.
  - destruct m' as [| | | | | | | | | |ms']; try contradiction T. destruct g as [| | | | |gs]; try discriminate E. destruct g' as [| | | | |gs']; try discriminate E'.
    rewrite set_comp in E, E'. destruct (sets ms gs) as [r|] eqn:Er; [|discriminate E]. injection E as <-. destruct (sets ms' gs') as [r'|] eqn:Er'; [|discriminate E']. injection E' as <-.
    cbn [resized] in *. revert ms' gs gs' r r' T Er Er'.
    induction IH as [|m ms Hm _ IHs]; intros [|m' ms'] [|g gs] [|g' gs'] r r' T Er Er'; try contradiction T; try discriminate Er; try discriminate Er';
      try (injection Er as <-); try (injection Er' as <-); try exact Logic.I.
    destruct T as (T & TS). cbn [sets] in Er, Er'. fold sets in Er, Er'. destruct (set_manifold m g) as [m1|] eqn:Em; [|discriminate Er]. cbn [bind] in Er.
    destruct (sets ms gs) as [q|] eqn:Eq; [|discriminate Er]. injection Er as <-. destruct (set_manifold m' g') as [m1'|] eqn:Em'; [|discriminate Er']. cbn [bind] in Er'.
    destruct (sets ms' gs') as [q'|] eqn:Eq'; [|discriminate Er']. injection Er' as <-. split; [eapply Hm; eassumption|eapply IHs; eassumption].
Qed.
Lemma units_set u m : forall m' g g' m1 m1' k k', set_manifold m g = Ok m1 -> set_manifold m' g' = Ok m1' -> (ctrl_units u m1 m1' k k' <-> ctrl_units u m m' k k').
Proof.
  induction m as [m NC|ms IH] using dmod_ind'; intros m' g g' m1 m1' k k' E E'.
  - destruct m; try (elim (NC ms eq_refl)); destruct g; try discriminate E; cbn [set_manifold] in E; injection E as <-;
    (destruct m'; destruct g'; try discriminate E'; cbn [set_manifold] in E'; try (injection E' as <-); try reflexivity;
     match goal with H : context [MComp] |- _ => idtac end || idtac); try (bok E' r' Er'; injection E' as <-); destruct k, k'; reflexivity.
  - destruct g as [| | | | |gs]; try discriminate E. rewrite set_comp in E. destruct (sets ms gs) as [r|] eqn:Er; [|discriminate E]. injection E as <-.
    destruct m' as [| | | | | | | | | |ms']; try (destruct g'; try discriminate E'; cbn [set_manifold] in E'; injection E' as <-; destruct k, k'; reflexivity).
    destruct g' as [| | | | |gs']; try discriminate E'. rewrite set_comp in E'. destruct (sets ms' gs') as [r'|] eqn:Er'; [|discriminate E']. injection E' as <-.
    destruct k as [h|l]; [reflexivity|]. destruct k' as [h|l']; [reflexivity|]. cbn [ctrl_units]. revert gs r l l' ms' gs' r' Er Er'.
    induction IH as [|m ms Hm _ IHs]; intros gs r l l' ms' gs' r' Er Er'; destruct gs as [|g gs]; try discriminate Er.
    + injection Er as <-. destruct ms' as [|m' ms'], gs' as [|g' gs']; try discriminate Er'; [injection Er' as <-; reflexivity|].
      cbn [sets] in Er'. fold sets in Er'. destruct (set_manifold m' g') as [m1'|]; [|discriminate Er']. cbn [bind] in Er'. destruct (sets ms' gs'); [|discriminate Er']. injection Er' as <-. reflexivity.
    + cbn [sets] in Er. fold sets in Er. destruct (set_manifold m g) as [m1|] eqn:Em; [|discriminate Er]. cbn [bind] in Er. destruct (sets ms gs) as [q|] eqn:Eq; [|discriminate Er]. injection Er as <-.
      destruct ms' as [|m' ms'], gs' as [|g' gs']; try discriminate Er'; [injection Er' as <-; reflexivity|].
      cbn [sets] in Er'. fold sets in Er'. destruct (set_manifold m' g') as [m1'|] eqn:Em'; [|discriminate Er']. cbn [bind] in Er'. destruct (sets ms' gs') as [q'|] eqn:Eq'; [|discriminate Er']. injection Er' as <-.
      destruct l as [|x l]; [reflexivity|]. destruct l' as [|x' l']; [reflexivity|]. rewrite (Hm m' g g' m1 m1' x x' Em Em'), (IHs gs q l l' ms' gs' q' Eq Eq'). reflexivity.
Qed.
Lemma units_fill d u sv sv' m : forall m' k k' m1 m1', resized d u m m' -> ctrl_units u m m' k k' -> fill_controls sv m k = Ok m1 -> fill_controls sv' m' k' = Ok m1' ->
  ctrl_units u m m' (controls m1) (controls m1').
Proof.
  induction m as [m NC|ms IH] using dmod_ind'; intros m' k k' m1 m1' T E F F'.
  - destruct m; try (elim (NC ms eq_refl)); destruct m'; try contradiction T; destruct k as [t|l], k' as [t'|l']; try contradiction E; cbn [fill_controls] in F, F';
      try (destruct (shape t); [|discriminate F]; destruct (shape t'); [|discriminate F']); try (bok F x1 Ex1; bok F' x2 Ex2); injection F as <-; injection F' as <-; exact E.
  - destruct m' as [| | | | | | | | | |ms']; try contradiction T. destruct k as [t|l], k' as [t'|l']; try contradiction E. rewrite fill_comp in F, F'.
    destruct (Nat.eqb (length l) (length ms)); [|discriminate F]. destruct (Nat.eqb (length l') (length ms')); [|discriminate F']. bok F r F1. injection F as <-. bok F' r' F1'. injection F' as <-.
    cbn [ctrl_units resized controls] in *. revert ms' l l' r r' T E F1 F1'.
    induction IH as [|m ms Hm _ IHs]; intros [|m' ms'] [|k l] [|k' l'] r r' T E F F'; try contradiction T; try contradiction E; [injection F as <-; injection F' as <-; exact Logic.I|].
    cbn [fills] in F, F'. fold (fills sv) in F. fold (fills sv') in F'. bok F x Ex. bok F q Eqq. injection F as <-. bok F' x' Ex'. bok F' q' Eqq'. injection F' as <-.
    destruct T as (T & TS). destruct E as (E & ES). cbn [map]. split; [eapply Hm; eassumption|eapply IHs; eassumption].
Qed.

Section Modules.
Variables (d : nat) (u : R).
Hypothesis U0 : u <> 0.
Variables (sv sv' : solver) (b0 b0' : backend).
Hypothesis HSV : exact_solver sv.
Hypothesis HSV' : exact_solver sv'.
Variables (m m' : dmod) (cs cs' : option (list ctrl)).
Hypothesis W : wf_mod d m.
Hypothesis W' : wf_mod d m'.
Hypothesis LT : locals_total d m.
Hypothesis LT' : locals_total d m'.
Hypothesis EW : other_unit d u m m'.
Hypothesis TC : ctrls_units u m m' cs cs'.
Hypothesis CO : forall l x, cs = Some l -> In x l -> ctrl_ok d m x.
Hypothesis CO' : forall l x, cs' = Some l -> In x l -> ctrl_ok d m' x.
Notation g0 := (mod_manifold m).
Notation g0' := (mod_manifold m').
Notation shs := (map shape (phase g0)).
Notation w := (factor u g0).

Lemma uskel0 : skel g0' = skel g0.
Proof. destruct EW as (_ & ((K & _) & _)). rewrite units_skel in K. exact K. Qed.
Lemma urelated0 : rel_by shs w (phase g0) (phase g0').
Proof. split; [reflexivity|]. apply values_units. exact (proj2 EW). Qed.
Lemma ushs0' : map shape (phase g0') = shs.
Proof. exact (proj1 (proj2 urelated0)). Qed.

Lemma ustate_pair l l' m1 m1' : rel_by shs w l l' -> write_manifold m l = Ok m1 -> write_manifold m' l' = Ok m1' ->
  wf_mod d m1 /\ wf_mod d m1' /\ other_unit d u m1 m1' /\ exists g g', phase g = l /\ phase g' = l' /\ skel g = skel g0 /\ skel g' = skel g0' /\
    set_manifold m g = Ok m1 /\ set_manifold m' g' = Ok m1'.
Proof.
  intros (SL & E) A A'. assert (SL' : map shape l' = shs) by (rewrite (proj1 E); exact SL).
  destruct (phase_fill g0 l) as (g & Pg & Kg). { rewrite <- phase_len, <- (map_length shape l), SL, map_length. reflexivity. }
  destruct (phase_fill g0' l') as (g' & Pg' & Kg'). { rewrite <- phase_len, <- (map_length shape l'), SL', <- ushs0', map_length. reflexivity. }
  rewrite <- Pg, (write_phase m g Kg) in A. rewrite <- Pg', (write_phase m' g' Kg') in A'.
  destruct (set_ok m g Kg) as (x & Ex & Mx & _). rewrite A in Ex. injection Ex as <-. destruct (set_ok m' g' Kg') as (x' & Ex' & Mx' & _). rewrite A' in Ex'. injection Ex' as <-.
  assert (SP : map shape (g_gd g) = map shape (g_gd g0) /\ map shape (g_cotan g) = map shape (g_cotan g0)).
  { apply app_shapes; [rewrite !g_gd_len; apply skel_len; exact Kg|]. unfold phase in Pg. rewrite Pg. exact SL. }
  assert (SP' : map shape (g_gd g') = map shape (g_gd g0') /\ map shape (g_cotan g') = map shape (g_cotan g0')).
  { apply app_shapes; [rewrite !g_gd_len; apply skel_len; exact Kg'|]. unfold phase in Pg'. rewrite Pg'. fold (phase g0'). rewrite ushs0'. exact SL'. }
  pose proof (wf_set d m g m1 W LT Kg (proj1 SP) (proj2 SP) A) as W1. pose proof (wf_set d m' g' m1' W' LT' Kg' (proj1 SP') (proj2 SP') A') as W1'.
  split; [exact W1|]. split; [exact W1'|]. split; [|exists g, g'; auto 10]. split; [exact (resized_set d u m m' g g' m1 m1' (proj1 EW) A A')|].
  rewrite Mx, Mx'. apply units_values; [pose proof uskel0; congruence|]. rewrite Pg, Pg'. unfold factor. rewrite (weights_same u g g0 Kg). exact E.
Qed.

(** Corresponding modules at corresponding states. *)
Lemma umods_pair i l l' m2 m2' : rel_by shs w l l' ->
  at_state m (step_controls sv b0 cs i) l = Ok m2 -> at_state m' (step_controls sv' b0' cs' i) l' = Ok m2' ->
  (exists x, hamiltonian m2 = Ok x /\ hamiltonian m2' = Ok (u * u * x)) /\ (exists x, cost m2 = Ok x /\ cost m2' = Ok (u * u * x)) /\
  same_values (mod_manifold m2') (in_units u (mod_manifold m2)) /\
  (cs <> None \/ regular d m2' -> scaled_to d u m2 m2' /\ ctrl_units u m m' (controls m2) (controls m2')).
Proof.
  intros R A A'. unfold at_state in A, A'. bok A m1 Ew. bok A' m1' Ew'. destruct (ustate_pair l l' m1 m1' R Ew Ew') as (W1 & W1' & EW1 & g & g' & Pg & Pg' & Kg & Kg' & S1 & S1').
  unfold step_controls in A, A'. destruct cs as [x|], cs' as [x'|]; try contradiction TC; cbn [ctrls_units] in TC.
  - destruct (nth_error x i) as [k|] eqn:Ek; [|discriminate A]. destruct (nth_error x' i) as [k'|] eqn:Ek'; [|discriminate A'].
    assert (T : ctrl_units u m m' k k').
    { clear - TC Ek Ek'. pose proof TC as TC0. clear TC. revert i Ek Ek'. induction TC0 as [|y y' a b T _ IH]; intros [|i] Ek Ek'; try discriminate Ek; cbn [nth_error] in Ek, Ek'; [congruence|exact (IH i Ek Ek')]. }
    apply (units_set u m m' g g' m1 m1' k k' S1 S1') in T.
    pose proof (proj2 (ctrl_set d m g m1 k S1) (CO x k eq_refl (nth_error_In _ _ Ek))) as O. pose proof (proj2 (ctrl_set d m' g' m1' k' S1') (CO' x' k' eq_refl (nth_error_In _ _ Ek'))) as O'.
    pose proof (module_grows d u U0 sv sv' HSV HSV' m1 m1' k k' m2 m2' W1 W1' EW1 O O' T A A') as MV.
    split; [exact (given_units d u U0 sv sv' HSV HSV' m1 m1' k k' m2 m2' W1 W1' EW1 O O' T A A')|].
    split; [destruct MV as (v & f & f' & C1 & C2 & _); exists v; auto|].
    split; [rewrite (fill_manifold sv m1 k m2 A), (fill_manifold sv' m1' k' m2' A'); exact (proj2 EW1)|]. intros _. split; [exact MV|].
    apply (units_set u m m' g g' m1 m1' _ _ S1 S1'). exact (units_fill d u sv sv' m1 m1' k k' m2 m2' (proj1 EW1) T A A').
  - destruct (geodesic_units d u U0 sv sv' b0 b0' HSV HSV' m1 m1' m2 m2' W1 W1' EW1 A A') as ((v & H1 & H2) & TT).
    destruct (hamiltonian_cost sv b0 d HSV m1 m2 W1 A) as (y & C1 & C2 & _). destruct (hamiltonian_cost sv' b0' d HSV' m1' m2' W1' A') as (y' & C1' & C2' & _).
    unfold geodesic_controls in A, A'. destruct (wf_mod_manifold d m1 W1) as (WM & NE). destruct (wf_mod_manifold d m1' W1') as (WM' & NE').
    destruct (geodesic_max sv b0 d HSV m1 _ m2 W1 WM NE A) as (O & F & _). destruct (geodesic_max sv' b0' d HSV' m1' _ m2' W1' WM' NE' A') as (O' & F' & _).
    split; [exists v; auto|]. split; [exists v; split; congruence|]. split; [rewrite (fill_manifold sv m1 _ m2 F), (fill_manifold sv' m1' _ m2' F'); exact (proj2 EW1)|].
    intros [N|RG]; [congruence|]. assert (RG1 : regular d m1') by (apply (regular_fill sv' d m1' _ m2' F'); exact RG). specialize (TT RG1).
    split; [|apply (units_set u m m' g g' m1 m1' _ _ S1 S1'); exact TT].
    exact (module_grows d u U0 sv sv' HSV HSV' m1 m1' _ _ m2 m2' W1 W1' EW1 O O' TT F F').
Qed.

Lemma uhams_pair i l l' k k' : map shape l = shs -> weighed w l l' -> hamilton (ham_of m (step_controls sv b0 cs i)) l k -> hamilton (ham_of m' (step_controls sv' b0' cs' i)) l' k' ->
  map shape k = shs /\ weighed (fun j => 1 * w j) k k'.
Proof.
  intros SL WL HK HK'. split; [destruct HK as (S & _); rewrite S; exact SL|].
  assert (U2 : u * u <> 0) by (apply Rmult_integral_contrapositive_currified; assumption).
  assert (KO : u * u / (u * u) = 1) by (field; exact U0). rewrite <- KO.
  apply (hamilton_weighed (ham_of m (step_controls sv b0 cs i)) (ham_of m' (step_controls sv' b0' cs' i)) shs w (u * u) (u * u)) with (l := l) (l' := l'); try assumption.
  - intros x x' v v' S E V V'. unfold ham_of in V, V'. bok V y1 Ew. bok V y2 Ex. bok V' y1' Ew'. bok V' y2' Ex'.
    destruct (umods_pair i x x' y2 y2') as ((z & H1 & H2) & _); [split; assumption|unfold at_state; rewrite Ew; exact Ex|unfold at_state; rewrite Ew'; exact Ex'|]. congruence.
  - intros j _. apply factor_nonzero. exact U0.
  - intros n j E J. apply factor_product; [rewrite map_length in E; exact E|exact J].
Qed.

Lemma urun_pair sch dt states stages states' stages' l0 l0' :
  trajectory sch (fun n => hamilton (ham_of m (step_controls sv b0 cs n))) dt states stages ->
  trajectory sch (fun n => hamilton (ham_of m' (step_controls sv' b0' cs' n))) dt states' stages' -> length stages' = length stages ->
  nth_error states 0 = Some l0 -> nth_error states' 0 = Some l0' -> rel_by shs w l0 l0' ->
  forall i l l', nth_error states i = Some l -> nth_error states' i = Some l' ->
    rel_by shs w l l' /\ forall ss ss', nth_error stages i = Some ss -> nth_error stages' i = Some ss' -> Forall2 (rel_by shs w) ss ss'.
Proof.
  intros T T' LL E0 E0' R0. eapply (trajectory_weighed shs w 1); [|apply eq_sym, Rmult_1_r|exact T|exact T'|exact LL|exact E0|exact E0'|exact R0].
  intros j l l' k k' SL E HK HK'. exact (uhams_pair j l l' k k' SL E HK HK').
Qed.

Lemma ustates_pair g g' : skel g = skel (mod_manifold m) -> skel g' = skel (mod_manifold m') -> rel_by shs w (phase g) (phase g') -> same_values g' (in_units u g).
Proof.
  intros K K' (S & E). apply units_values; [rewrite K', K; apply uskel0|]. unfold factor. rewrite (weights_same u g _ K). exact E.
Qed.

(** Controls of corresponding modules. *)
Lemma ucontrol_pair i g g' m2 m2' mg : skel g = skel (mod_manifold m) -> skel g' = skel (mod_manifold m') -> rel_by shs w (phase g) (phase g') ->
  at_state m (step_controls sv b0 cs i) (phase g) = Ok m2 -> at_state m' (step_controls sv' b0' cs' i) (phase g') = Ok m2' ->
  set_manifold m g = Ok mg -> cs <> None \/ regular d mg -> ctrl_units u m m' (controls m2) (controls m2').
Proof.
  intros K K' R A A' SM RG. apply (umods_pair i _ _ m2 m2' R A A').
  destruct RG as [N|RG]; [left; exact N|right]. unfold at_state in A, A'. bok A m1 Ew. bok A' m1' Ew'. 
  destruct (ustate_pair _ _ m1 m1' R Ew Ew') as (W1 & W1' & EW1 & _). rewrite (write_phase m g K), SM in Ew. injection Ew as <-.
  pose proof (regular_units d u U0 mg m1' W1 W1' EW1 RG) as RG'. unfold step_controls in A'. destruct cs' as [x'|].
  - destruct (nth_error x' i) as [k'|]; [|discriminate A']. apply (regular_fill sv' d m1' k' m2' A'). exact RG'.
  - unfold geodesic_controls in A'. destruct (wf_mod_manifold d m1' W1') as (WM' & NE'). destruct (geodesic_max sv' b0' d HSV' m1' _ m2' W1' WM' NE' A') as (_ & F' & _).
    apply (regular_fill sv' d m1' _ m2' F'). exact RG'.
Qed.
End Modules.
