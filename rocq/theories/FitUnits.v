(** Facts about the moments of a registration model in another unit. *)
From Coq Require Import Reals String List Arith Lia Lra.
From Verif Require Import Py RSum Tensor TensorFacts Fl OptimModel FitModel SpecOptim SpecGeometry SpecRigid SpecSimilar SimilarFacts
  KernelModel FieldModel GeometryModel ModuleModel ShootingModel RegistrationModel
  SpecKernel SpecModule SpecShooting SpecRegistration SpecTransport SpecSmooth SpecElsewhere SpecFitElsewhere SpecUnits SpecUnitsReg SpecFitUnits
  GeometryFacts ModuleLeaves ModuleMain ShootingPack ShootingDyn RigidField RigidShoot RegistrationHeap RegistrationParams RegistrationLife ElsewhereFacts UnitsShoot FitElsewhere.
From Verif Require Import SpecSimilar.
Import ListNotations.
Open Scope list_scope.
Open Scope R_scope.

Definition lscale (fs : list R) (ts : list tensor) : list tensor := map (fun p => tscal (fst p) (snd p)) (combine fs ts).

Lemma lscale_app f1 : forall t1 f2 t2, length f1 = length t1 -> lscale (f1 ++ f2) (t1 ++ t2) = lscale f1 t1 ++ lscale f2 t2.
Proof. induction f1 as [|a f1 IH]; intros [|t t1] f2 t2 L; try discriminate L; [reflexivity|]. cbn [app]. unfold lscale in *. cbn [combine map app]. f_equal. apply IH. cbn in L. lia. Qed.

Lemma factors_len u g : length (factors u g) = length (g_cotan g).
Proof.
  induction g as [g S|gs IH] using ShootingPack.gman_ind'; [destruct g; try (elim S); reflexivity|]. cbn [factors g_cotan]. induction IH as [|g gs A _ B]; [reflexivity|]. cbn [flat_map]. rewrite !app_length, A, B. reflexivity.
Qed.
Lemma cotan_units u g : g_cotan (in_units u g) = lscale (factors u g) (g_cotan g).
Proof.
  induction g as [g S|gs IH] using ShootingPack.gman_ind'; [destruct g; try (elim S); reflexivity|]. cbn [in_units factors g_cotan]. induction IH as [|g gs A _ B]; [reflexivity|].
  cbn [map flat_map]. rewrite lscale_app by apply factors_len. rewrite A, B. reflexivity.
Qed.
Lemma factors_skel u g g' : skel g' = skel g -> factors u g' = factors u g.
Proof.
  revert g'. induction g as [g S|gs IH] using ShootingPack.gman_ind'; intros g' K; [destruct g; try (elim S); destruct g'; try discriminate K; reflexivity|].
  destruct g' as [| | | | |gs']; try discriminate K. cbn [skel] in K. injection K as K. cbn [factors]. revert gs' K. induction IH as [|g gs A _ B]; intros [|g' gs'] K; try discriminate K; [reflexivity|].
  cbn [map] in K. injection K as K1 K2. cbn [flat_map]. rewrite (A g' K1), (B gs' K2). reflexivity.
Qed.
Lemma gd_units u g g1 : skel g1 = skel g -> g_gd g1 = g_gd g -> g_gd (in_units u g1) = g_gd (in_units u g).
Proof.
  revert g1. induction g as [g S|gs IH] using ShootingPack.gman_ind'; intros g1 K E.
  - destruct g; try (elim S); destruct g1; try discriminate K; cbn in E |- *; try (injection E as E1 E2; rewrite ?E1, ?E2); try (injection E as E1; rewrite ?E1); reflexivity.
  - destruct g1 as [| | | | |gs1]; try discriminate K. cbn [skel] in K. injection K as K. cbn [in_units g_gd] in *. revert gs1 K E. induction IH as [|g gs A _ B]; intros [|g1 gs1] K E; try discriminate K; [reflexivity|].
    cbn [map] in K. injection K as K1 K2. cbn [flat_map map] in *. apply app_eq_len in E; [|rewrite !g_gd_len; apply skel_len; exact K1]. destruct E as (E1 & E2). rewrite (A g1 K1 E1), (B gs1 K2 E2). reflexivity.
Qed.
Lemma skel_units u g : skel (in_units u g) = skel g.
Proof.
  induction g as [g S|gs IH] using ShootingPack.gman_ind'; [destruct g; try (elim S); reflexivity|]. cbn [in_units skel]. f_equal. rewrite map_map. apply map_ext_Forall. exact IH.
Qed.

Lemma points_factors u g : points_only g -> Forall (eq u) (factors u g).
Proof.
  induction g as [g S|gs IH] using ShootingPack.gman_ind'; intros P; [destruct g; try (elim S); try contradiction P; repeat constructor|]. cbn [factors points_only] in *. induction IH as [|g gs A _ B]; [constructor|].
  cbn [fold_right flat_map] in *. apply Forall_app. split; [apply A|apply B]; apply P.
Qed.

Lemma times_similarity n u : u <> 0 -> similarity n u (times u) (times u).
Proof.
  intros U. split.
  - intros x L. rewrite times_len. auto.
  - intros s x e Lx Le. unfold times, away. clear - Lx Le. revert e n Lx Le. induction x as [|a x IH]; intros [|b e] n Lx Le; cbn in *; subst; try discriminate Le; [reflexivity|]. f_equal; [ring|]. apply (IH e (length x)); [reflexivity|congruence].
  - intros a b La Lb. unfold times, dotl. clear - La Lb. revert b n La Lb. induction a as [|x a IH]; intros [|y b] n La Lb; cbn in *; subst; try discriminate Lb; [cbn; ring|]. specialize (IH b (length a) eq_refl ltac:(congruence)). cbn in *. rewrite IH. ring.
  - intros e Le. exists (times (/ u) e). split; [rewrite times_len; exact Le|]. unfold times. rewrite map_map. rewrite <- (map_id e) at 2. apply map_ext. intros a. field. exact U.
Qed.

(** The tensors made of scaled entries. *)
Lemma of_times sh f x : length x = prod sh -> teq (of_entries sh (times f x)) (tscal f (of_entries sh x)).
Proof.
  intros L. split; [reflexivity|]. intros idx V. cbn [of_entries get tscal tmap shape] in *. unfold times. rewrite (nth_indep _ 0 (f * 0)) by (rewrite map_length, L; apply ravel_lt; exact V). rewrite (map_nth (Rmult f)). reflexivity.
Qed.
Lemma entries_scal f t : entries (tscal f t) = times f (entries t).
Proof. unfold entries, times. rewrite map_map. apply map_ext. intros k. reflexivity. Qed.

Lemma scaled_tensors cs : forall cs' xs fs j (p : nat -> list R -> list R), map shape cs' = map shape cs -> map (@length R) xs = map (fun t => prod (shape t)) cs -> length fs = length cs ->
  (forall i, p (j + i)%nat = times (nth i fs 1)) ->
  leq (map (fun p => of_entries (shape (fst p)) (snd p)) (combine cs' (mapi p j xs))) (lscale fs (map (fun p => of_entries (shape (fst p)) (snd p)) (combine cs xs))).
Proof.
  induction cs as [|t cs IH]; intros [|t' cs'] [|x xs] [|f fs] j p S L LF P; try discriminate S; try discriminate L; try discriminate LF; [constructor|].
  cbn [map] in S, L. injection S as S1 S2. injection L as L1 L2. unfold lscale in *. cbn [mapi combine map fst snd]. constructor.
  - pose proof (P 0%nat) as P0. rewrite Nat.add_0_r in P0. rewrite P0, S1. cbn [nth]. apply of_times. exact L1.
  - apply (IH cs' xs fs (Datatypes.S j) p S2 L2); [cbn in LF; lia|]. intros i. rewrite Nat.add_succ_comm. exact (P (Datatypes.S i)).
Qed.

Lemma refilled_units d u defs mods defs' mods' vs vs' dx mx dx' mx' : other_unit d u (start defs mods) (start defs' mods') ->
  refilled defs mods vs dx mx -> refilled defs' mods' vs' dx' mx' -> leq vs' (lscale (factors u (mod_manifold (start defs mods))) vs) ->
  other_unit d u (start dx mx) (start dx' mx').
Proof.
  intros (TW & SV) (ST & (K & G) & C & _) (ST' & (K' & G') & C' & _) LE. split; [exact (resized_set d u _ _ _ _ _ _ TW ST ST')|].
  set (g := mod_manifold (start defs mods)) in *. set (g' := mod_manifold (start defs' mods')) in *. set (gx := mod_manifold (start dx mx)) in *. set (gx' := mod_manifold (start dx' mx')) in *.
  destruct SV as ((KS & A) & _). assert (SK : skel gx' = skel (in_units u gx)) by (rewrite skel_units; rewrite skel_units in KS; congruence).
  split; split; try exact SK.
  - rewrite G', (gd_units u g gx K G). exact A.
  - rewrite cotan_units, C', C, (factors_skel u g gx K). exact LE.
Qed.

Lemma attached_units_refilled u k defs att ts defs' att' ts' : attached_units u k defs att ts defs' att' ts' -> forall dx dx',
  Forall2 same_object defs dx -> Forall2 same_object defs' dx' -> attached_units u k dx att ts dx' att' ts'.
Proof.
  induction 1 as [|o a y defs att ts o' a' y' defs' att' ts' AO GE IN _ IH]; intros dx dx' F F'; inversion F as [|? ox ? dx1 (E & K & G) F1]; inversion F' as [|? ox' ? dx1' (E' & K' & G') F1']; subst; [constructor|].
  constructor; [|exact GE| |apply IH; assumption].
  - rewrite E, E'. destruct o, o'; cbn in AO |- *; try contradiction AO; exact AO.
  - intros q0 q q' x x' H0 S T D D'. apply (IN q0 q q' x x'); [|exact S|exact T| |].
    + rewrite <- H0. clear - K G. destruct (df_man o), (df_man ox); try discriminate K; cbn in G |- *; congruence.
    + rewrite <- D, E. destruct o, o'; try contradiction AO; reflexivity.
    + rewrite <- D', E'. destruct o, o'; try contradiction AO; reflexivity.
Qed.
