(** Fitting an atlas and fitting its subjects one by one (C113). *)
From Coq Require Import Reals String List Arith ZArith Lia Lra Bool.
From Verif Require Import Py RSum Tensor TensorFacts Fl OptimModel FitModel SpecOptim SpecSimilar SimilarFacts PropSimilar
  KernelModel FieldModel GeometryModel ModuleModel ShootingModel SpecKernel SpecField
  RegistrationModel AtlasModel SpecModule SpecShooting SpecRegistration SpecAtlas ModuleMain ModuleLeaves ShootingDyn ShootingExample
  RegistrationRun RegistrationHeap RegistrationParams RegistrationLife RegistrationAtlas RegistrationShoot PropRegistration AtlasFacts PropAtlas SpecSmooth DiffBuild PropSmooth
  SpecFitElsewhere FitElsewhere ReduceFacts AttachmentFacts PropReduce SolverExists MotionExample PropFitElsewhere PropSubjects SpecJoint JointFacts.
Import ListNotations.
Open Scope string_scope.
Open Scope list_scope.
Open Scope R_scope.

(** ** The part of one subject in the gradient of the whole *)

Theorem C113_gradient : forall la lb lc F f gradF gradf a b c,
  alone la lb lc F f -> sizes a = la -> sizes b = lb -> sizes c = lc ->
  exact_gradient F gradF [a ++ b ++ c] -> exact_gradient f gradf [b] ->
  exists ga gb gc, gradF [a ++ b ++ c] = [ga ++ gb ++ gc] /\ sizes ga = la /\ sizes gb = lb /\ sizes gc = lc /\ gradf [b] = [gb].
Proof.
  intros la lb lc F f gradF gradf a b c AL Ea Eb Ec EF Ef. destruct (EF [a ++ b ++ c] eq_refl) as (u & D). destruct (Ef [b] eq_refl) as (v & D').
  destruct (gradient_part _ _ _ _ _ _ _ _ _ _ AL Ea Eb Ec D) as (ga & gb & gc & v' & E & Ga & Gb & Gc & DG). exists ga, gb, gc. rewrite (gradient_unique _ _ _ _ _ _ DG D'). auto.
Qed.
Print Assumptions C113_gradient.

(** ** Fits with a fixed step *)

(** n iterations of torch's SGD, stopping criterion not in force: the tensors b of the joint
    fit are those of the fit of b alone. *)
Theorem C113_sgd : forall la lb lc F f gradF gradf a b c lr cb cb' tol tol' n o o',
  alone la lb lc (fun x => FitModel.total (F x)) (fun x => FitModel.total (f x)) -> sizes a = la -> sizes b = lb -> sizes c = lc ->
  exact_gradient (fun x => FitModel.total (F x)) gradF [a ++ b ++ c] -> exact_gradient (fun x => FitModel.total (f x)) gradf [b] ->
  (forall k, cb k = None) -> (forall k, cb' k = None) ->
  optimize (sgd_strat [lr]) F gradF cb n tol n [a ++ b ++ c] tt = Some o ->
  optimize (sgd_strat [lr]) f gradf cb' n tol' n [b] tt = Some o' ->
  exists a' b' c', o_left o = [a' ++ b' ++ c'] /\ o_left o' = [b'] /\ sizes a' = la /\ sizes b' = lb /\ sizes c' = lc.
Proof.
  intros la lb lc F f gradF gradf a b c lr cb cb' tol tol' n o o' AL Ea Eb Ec EF Ef NC NC' E E'. unfold optimize in E, E'.
  eapply (fits_part la lb lc F f gradF gradf AL a b c Ea Eb Ec EF Ef lr cb cb' _ _ n NC NC' n 0 a b c); [|exact Ea|exact Eb|exact Ec|exact E|exact E']. apply le_n.
Qed.
Print Assumptions C113_sgd.

(** ** The cost of an atlas *)

Lemma total_fin c : FitModel.total (map (fun kv => (fst kv, Fin (snd kv))) c) = Fin (SpecRegistration.total (map snd c)).
Proof.
  unfold FitModel.total, SpecRegistration.total. assert (G : forall l s, fold_left fadd (map snd (map (fun kv : string * R => (fst kv, Fin (snd kv))) l)) (Fin s) = Fin (s + fold_right Rplus 0 (map snd l))).
  { induction l as [|x l IH]; intros s; cbn; [f_equal; lra|]. rewrite IH. f_equal. lra. }
  rewrite G. f_equal. lra.
Qed.

Lemma write_all_app h u v : write_all h (u ++ v) = write_all (write_all h u) v. Proof. apply fold_left_app. Qed.
Lemma write_all_stores vs : forall h k, store (write_all h vs) k = store h k.
Proof. induction vs as [|(j & v) vs IH]; intros h k; [reflexivity|]. change (write_all h ((j, v) :: vs)) with (write_all (write h j v) vs). rewrite IH. apply write_store. Qed.
Lemma write_all_exists vs : forall h k, exists_in (write_all h vs) k <-> exists_in h k.
Proof. induction vs as [|(j & v) vs IH]; intros h k; [reflexivity|]. change (write_all h ((j, v) :: vs)) with (write_all (write h j v) vs). rewrite IH. apply write_exists. Qed.
Lemma write_same h k j v : exists_in h j -> store h j = store h k -> deref (write h j v) k = v.
Proof. intros EX E. rewrite <- (write_seen h j v EX) at 2. unfold deref. fold (store (write h j v) k) (store (write h j v) j). rewrite !write_store, E. reflexivity. Qed.
Lemma write_all_cong vs : forall h h' k, (forall j, store h j = store h' j) -> Forall (fun w => exists_in h (fst w) /\ exists_in h' (fst w)) vs ->
  deref h k = deref h' k -> deref (write_all h vs) k = deref (write_all h' vs) k.
Proof.
  induction vs as [|(j & v) vs IH]; intros h h' k ST EX E; [exact E|]. change (deref (write_all (write h j v) vs) k = deref (write_all (write h' j v) vs) k). inversion EX as [|? ? (X1 & X2) EX']; subst. cbn [fst] in X1, X2. apply IH.
  - intros i. rewrite !write_store. apply ST.
  - eapply Forall_impl; [|exact EX']. intros w (Y1 & Y2). split; apply write_exists; assumption.
  - destruct (Nat.eq_dec (store h j) (store h k)) as [Q|Q].
    + rewrite !write_same; auto. rewrite <- !ST. exact Q.
    + assert (N : store h k <> store h j) by (intros Z; apply Q; symmetry; exact Z). assert (N' : store h' k <> store h' j) by (rewrite <- !ST; exact N). rewrite (write_unseen h j v k N), (write_unseen h' j v k N'). exact E.
Qed.

Lemma apart_left {A} (f : A -> nat) l l' : NoDup (map f (l ++ l')) -> forall i j, In i l -> In j l' -> f i <> f j.
Proof.
  induction l as [|a l IH]; intros ND i j I J; [destruct I|]. cbn in ND. inversion ND as [|? ? N1 N2]; subst. destruct I as [->|I]; [|exact (IH N2 i j I J)].
  intros E. apply N1. rewrite E. apply in_map. apply in_or_app. right. exact J.
Qed.
Lemma cotan_in r k : In k (init_cotan r) -> In k (tensors_of r).
Proof. unfold init_cotan, tensors_of. intros I. apply in_or_app. left. apply in_flat_map in I. destruct I as (m & Im & Ik). apply in_flat_map. exists m. split; [exact Im|]. apply in_or_app. right. exact Ik. Qed.
Lemma cotans_in rs k : In k (flat_map init_cotan rs) -> In k (rs_tensors rs).
Proof. intros I. apply in_flat_map in I. destruct I as (r & Ir & Ik). apply in_flat_map. exists r. split; [exact Ir|apply cotan_in; exact Ik]. Qed.

Definition puts (h : heap) (ks : list ref) (x : list (list R)) : list (ref * tensor) := map (fun q => (fst q, of_entries (shape (deref h (fst q))) (snd q))) (combine ks x).
Lemma puts_key h ks x w : In w (puts h ks x) -> In (fst w) ks.
Proof. unfold puts. intros I. apply in_map_iff in I. destruct I as ((k & t) & <- & I). apply in_combine_l in I. exact I. Qed.
Lemma puts_app h ks ks' x x' : length ks = length x -> puts h (ks ++ ks') (x ++ x') = puts h ks x ++ puts h ks' x'.
Proof. intros L. unfold puts. rewrite combine_app, map_app by exact L. reflexivity. Qed.
Lemma entries_length h ks : length (entries_of h ks) = length ks. Proof. apply map_length. Qed.

Lemma puts_frame h0 h ks x k : ~ In (store h k) (map (store h) ks) -> deref (write_all h (puts h0 ks x)) k = deref h k.
Proof.
  intros N. apply write_all_frame. intros I. apply N. apply in_map_iff in I. destruct I as (w & Ew & Iw). apply in_map_iff. exists (fst w). split; [exact Ew|exact (puts_key _ _ _ _ Iw)].
Qed.

Section Subject.
  Variables (h : heap) (x : full_atlas) (pre post : list reg) (r : reg).
  Hypothesis EM : a_models (x_atlas x) = pre ++ r :: post.
  Hypothesis DI : NoDup (map (store h) (rs_tensors (a_models (x_atlas x)))).
  Hypothesis EX : Forall (exists_in h) (rs_tensors (a_models (x_atlas x))).
  Variables (a b c : list (list R)).
  Hypotheses (La : length (flat_map init_cotan pre) = length a) (Lb : length (init_cotan r) = length b).

  Let A := puts h (flat_map init_cotan pre) a.
  Let B := puts h (init_cotan r) b.
  Let C := puts h (flat_map init_cotan post) c.

  Lemma writes_parts : with_all_moments h x [a ++ b ++ c] = write_all (write_all (write_all h A) B) C.
  Proof.
    unfold with_all_moments, all_moments. rewrite EM, flat_map_app. cbn [flat_map List.concat]. rewrite app_nil_r. fold (puts h (flat_map init_cotan pre ++ init_cotan r ++ flat_map init_cotan post) (a ++ b ++ c)).
    rewrite !puts_app by assumption. rewrite !write_all_app. reflexivity.
  Qed.
  Lemma in_parts k : In k (rs_tensors (a_models (x_atlas x))) <-> In k (rs_tensors pre) \/ In k (tensors_of r) \/ In k (rs_tensors post).
  Proof. rewrite EM. unfold rs_tensors. rewrite flat_map_app. cbn [flat_map]. rewrite !in_app_iff. tauto. Qed.
  Lemma parts_apart k j : (In k (tensors_of r) -> In j (rs_tensors pre) \/ In j (rs_tensors post) -> store h k <> store h j).
  Proof.
    pose proof DI as D. rewrite EM in D. unfold rs_tensors in D. rewrite flat_map_app in D. cbn [flat_map] in D. intros I [J|J].
    - intros E. symmetry in E. revert E. apply (apart_left (store h) _ _ D); [exact J|]. apply in_or_app. left. exact I.
    - rewrite map_app in D. assert (D' : NoDup (map (store h) (tensors_of r ++ flat_map tensors_of post))). { clear - D. induction (map (store h) (flat_map tensors_of pre)) as [|z l IH]; [exact D|]. cbn in D. inversion D; subst. auto. }
      exact (apart_left (store h) _ _ D' k j I J).
  Qed.

  (** The tensors of the subject: as after writing b alone. *)
  Lemma own_tensors k : In k (tensors_of r) -> deref (with_all_moments h x [a ++ b ++ c]) k = deref (with_moments h r [b]) k.
  Proof.
    intros I. rewrite writes_parts. unfold with_moments. cbn [List.concat]. rewrite app_nil_r. fold (puts h (init_cotan r) b). fold B. unfold C. rewrite puts_frame.
    - apply write_all_cong; [intros j; apply write_all_stores| |].
      + apply Forall_forall. intros w Iw. rewrite write_all_exists. apply puts_key in Iw. rewrite Forall_forall in EX. split; apply EX, in_parts; right; left; apply cotan_in; exact Iw.
      + unfold A. apply puts_frame. intros J. apply in_map_iff in J. destruct J as (j & Ej & Ij). symmetry in Ej. revert Ej. apply parts_apart; [exact I|left; apply cotans_in; exact Ij].
    - intros J. apply in_map_iff in J. destruct J as (j & Ej & Ij). rewrite !write_all_stores in Ej. symmetry in Ej. revert Ej. apply parts_apart; [exact I|right; apply cotans_in; exact Ij].
  Qed.
  (** The tensors of the other subjects: as without writing b. *)
  Lemma others_tensors k : In k (rs_tensors pre) \/ In k (rs_tensors post) -> deref (with_all_moments h x [a ++ b ++ c]) k = deref (write_all (write_all h A) C) k.
  Proof.
    intros I. rewrite writes_parts. apply write_all_cong; [intros j; rewrite !write_all_stores; reflexivity| |].
    - apply Forall_forall. intros w Iw. rewrite !write_all_exists. apply puts_key in Iw. rewrite Forall_forall in EX. split; apply EX, in_parts; right; right; apply cotans_in; exact Iw.
    - unfold B. apply puts_frame. intros J. apply in_map_iff in J. destruct J as (j & Ej & Ij). rewrite !write_all_stores in Ej. revert Ej. apply parts_apart; [apply cotan_in; exact Ij|exact I].
  Qed.
End Subject.

(** The moments of subject i in the cost of an atlas (built without optimise_template) are
    the moments b in the cost of the registration of that subject on its target. *)
Theorem C113_atlas_costs : forall ck others sv b0 ag h0 template mods att population lam fit_gd sigma nu coeff htgd settings other mode h x targets name it t1 i r t,
  NoDup (map fst other) ->
  new_atlas h0 template mods att population lam fit_gd false sigma nu coeff htgd settings other mode = Ok (h, x) ->
  nth_error (a_models (x_atlas x)) i = Some r -> nth_error targets i = Some t ->
  (forall p, sizes p = sizes (entries_of h (all_moments x)) -> is_ok (evaluate_atlas ck others sv b0 ag None None (with_all_moments h x [p]) x targets name it t1)) ->
  alone (sizes (entries_of h (flat_map init_cotan (firstn i (a_models (x_atlas x)))))) (sizes (entries_of h (init_cotan r))) (sizes (entries_of h (flat_map init_cotan (skipn (S i) (a_models (x_atlas x))))))
    (fun p => FitModel.total (atlas_fit_costs ck others sv b0 ag h x targets name it t1 p))
    (fun p => FitModel.total (fit_costs ck others sv b0 ag h r [t] name it t1 p)).
Proof.
  intros ck others sv b0 ag h0 template mods att population lam fit_gd sigma nu coeff htgd settings other mode h x targets name it t1 i r t ND EN ER ET OK.
  destruct (new_atlas_ok _ _ _ _ _ _ _ _ _ _ _ _ _ _ _ _ _ ND EN) as (h1 & at0 & EI & EM0 & _ & _ & _ & _ & (-> & NH & _)).
  destruct (atlas_init_ok _ _ _ _ _ _ _ _ _ _ _ _ ND EI) as (AB & _ & _ & _). pose proof (ab_distinct _ _ _ _ _ _ AB) as DI. pose proof (ab_exist _ _ _ _ _ _ AB) as EX. rewrite <- EM0 in DI, EX. clear AB EI EN EM0 at0 h0.
  set (pre := firstn i (a_models (x_atlas x))). set (post := skipn (S i) (a_models (x_atlas x))).
  assert (EM : a_models (x_atlas x) = pre ++ r :: post).
  { unfold pre, post. clear - ER. revert i ER. induction (a_models (x_atlas x)) as [|z l IH]; intros [|i] E; try discriminate E; [injection E as ->; reflexivity|]. cbn. f_equal. apply IH. exact E. }
  assert (LP : length pre = i) by (unfold pre; apply firstn_length_le; apply Nat.lt_le_incl, nth_error_Some; congruence).
  clearbody pre post. intros a b b' c Ea Eb Eb' Ec.
  assert (SZ : forall z, sizes z = sizes b -> sizes (a ++ z ++ c) = sizes (entries_of h1 (all_moments x))).
  { intros z Ez. unfold all_moments. rewrite EM, flat_map_app. cbn [flat_map]. unfold entries_of. rewrite !map_app, !sizes_app. unfold entries_of in *. congruence. }
  destruct (OK _ (SZ b eq_refl)) as (((c1 & k1) & y1) & E1). destruct (OK _ (SZ b' ltac:(congruence))) as (((c2 & k2) & y2) & E2).
  assert (La : length (flat_map init_cotan pre) = length a) by (rewrite <- (entries_length h1), <- (sizes_length _ _ Ea); reflexivity).
  assert (Lb : length (init_cotan r) = length b) by (rewrite <- (entries_length h1), <- (sizes_length _ _ Eb); reflexivity).
  assert (Lb' : length (init_cotan r) = length b') by (rewrite <- (entries_length h1), <- (sizes_length _ _ Eb'); reflexivity).
  destruct (C112_one_subject ck others sv b0 ag None None (with_all_moments h1 x [a ++ b ++ c]) (with_all_moments h1 x [a ++ b' ++ c]) x targets name it t1 c1 k1 y1 c2 k2 y2 i r t NH ER ET) as (d & r1 & d' & r1' & D & D' & DF); [|exact E1|exact E2|].
  { intros j rj k NJ EJ Ik. assert (I : In k (rs_tensors pre) \/ In k (rs_tensors post)).
    { assert (IJ : In rj pre \/ In rj post). { rewrite EM in EJ. destruct (Nat.lt_ge_cases j i) as [J|J]; [left; rewrite nth_error_app1 in EJ by lia; exact (nth_error_In _ _ EJ)|]. right. rewrite nth_error_app2 in EJ by lia. rewrite LP in EJ.
        destruct (j - i)%nat as [|q] eqn:Q; [lia|]. cbn in EJ. exact (nth_error_In _ _ EJ). }
      destruct IJ as [IJ|IJ]; [left|right]; apply in_flat_map; exists rj; auto. }
    rewrite (others_tensors h1 x pre post r EM DI EX a b' c La Lb' k I), (others_tensors h1 x pre post r EM DI EX a b c La Lb k I). reflexivity. }
  exists (SpecRegistration.total (map snd c1)), (SpecRegistration.total (map snd c2)), (SpecRegistration.total (map snd d)), (SpecRegistration.total (map snd d')).
  unfold atlas_fit_costs, fit_costs. cbv beta. rewrite E1, E2. rewrite !total_fin.
  rewrite (proj1 (C30_evaluations_read_the_tensors ck others sv b0 ag (with_moments h1 r [b]) (with_all_moments h1 x [a ++ b ++ c]) r (own_tensors h1 x pre post r EM DI EX a b c La Lb))) in D.
  rewrite (proj1 (C30_evaluations_read_the_tensors ck others sv b0 ag (with_moments h1 r [b']) (with_all_moments h1 x [a ++ b' ++ c]) r (own_tensors h1 x pre post r EM DI EX a b' c La Lb'))) in D'.
  rewrite D, D', !total_fin. auto.
Qed.
Print Assumptions C113_atlas_costs.

(** n iterations of a fit of the atlas and n iterations of the fit of subject i alone, with
    the same fixed step. *)
Theorem C113_atlas_fit : forall ck others sv b0 ag h0 template mods att population lam fit_gd sigma nu coeff htgd settings other mode h x targets name it t1 i r t gradF gradf lr cb cb' tol tol' n o o',
  NoDup (map fst other) ->
  new_atlas h0 template mods att population lam fit_gd false sigma nu coeff htgd settings other mode = Ok (h, x) ->
  nth_error (a_models (x_atlas x)) i = Some r -> nth_error targets i = Some t ->
  (forall p, sizes p = sizes (entries_of h (all_moments x)) -> is_ok (evaluate_atlas ck others sv b0 ag None None (with_all_moments h x [p]) x targets name it t1)) ->
  exact_gradient (fun p => FitModel.total (atlas_fit_costs ck others sv b0 ag h x targets name it t1 p)) gradF [entries_of h (all_moments x)] ->
  exact_gradient (fun p => FitModel.total (fit_costs ck others sv b0 ag h r [t] name it t1 p)) gradf (moments h r) ->
  (forall k, cb k = None) -> (forall k, cb' k = None) ->
  optimize (sgd_strat [lr]) (atlas_fit_costs ck others sv b0 ag h x targets name it t1) gradF cb n tol n [entries_of h (all_moments x)] tt = Some o ->
  optimize (sgd_strat [lr]) (fit_costs ck others sv b0 ag h r [t] name it t1) gradf cb' n tol' n (moments h r) tt = Some o' ->
  exists a' b' c', o_left o = [a' ++ b' ++ c'] /\ o_left o' = [b'] /\
    length a' = length (flat_map init_cotan (firstn i (a_models (x_atlas x)))) /\ length b' = length (init_cotan r).
Proof.
  intros ck others sv b0 ag h0 template mods att population lam fit_gd sigma nu coeff htgd settings other mode h x targets name it t1 i r t gradF gradf lr cb cb' tol tol' n o o' ND EN ER ET OK EF Ef NC NC' E E'.
  pose proof (C113_atlas_costs ck others sv b0 ag _ _ _ _ _ _ _ _ _ _ _ _ _ _ _ _ _ _ _ _ _ _ _ ND EN ER ET OK) as AL.
  assert (EM : all_moments x = flat_map init_cotan (firstn i (a_models (x_atlas x))) ++ init_cotan r ++ flat_map init_cotan (skipn (S i) (a_models (x_atlas x)))).
  { unfold all_moments. clear - ER. revert i ER. induction (a_models (x_atlas x)) as [|z l IH]; intros [|i] E; try discriminate E; [injection E as ->; reflexivity|]. cbn. rewrite <- app_assoc. f_equal. apply IH. exact E. }
  assert (EE : entries_of h (all_moments x) = entries_of h (flat_map init_cotan (firstn i (a_models (x_atlas x)))) ++ entries_of h (init_cotan r) ++ entries_of h (flat_map init_cotan (skipn (S i) (a_models (x_atlas x))))) by (rewrite EM; unfold entries_of; rewrite !map_app; reflexivity).
  rewrite EE in EF, E. change (moments h r) with [entries_of h (init_cotan r)] in Ef, E'.
  destruct (C113_sgd _ _ _ _ _ _ _ _ _ _ _ _ _ _ _ _ _ _ AL eq_refl eq_refl eq_refl EF Ef NC NC' E E') as (a' & b' & c' & L1 & L2 & S1 & S2 & _).
  exists a', b', c'. split; [exact L1|]. split; [exact L2|]. rewrite (sizes_length _ _ S1), (sizes_length _ _ S2), !entries_length. auto.
Qed.
Print Assumptions C113_atlas_fit.

(** ** The line search of OptimizerGradientDescent is common to all subjects *)

Definition stiff_pair (p : params) : FitModel.costs := [("attach", Fin (16 * (SpecOptim.entry p 0 0 0 * SpecOptim.entry p 0 0 0) + SpecOptim.entry p 0 1 0 * SpecOptim.entry p 0 1 0))].
Definition stiff_slope (p : params) : params := [[[32 * SpecOptim.entry p 0 0 0]; [2 * SpecOptim.entry p 0 1 0]]].
Lemma one_size x : sizes x = [1%nat] -> exists a, x = [[a]].
Proof. destruct x as [|[|a [|? ?]] [|? ?]]; intros E; try discriminate E. eauto. Qed.
Lemma stiff_total a b : FitModel.total (stiff_pair [[[a]; [b]]]) = Fin (16 * (a * a) + b * b).
Proof. unfold FitModel.total, stiff_pair, SpecOptim.entry. cbn. f_equal. lra. Qed.
Lemma slope_total b : FitModel.total (parabola 1 [[[b]]]) = Fin (b * b).
Proof. unfold FitModel.total, parabola, SpecOptim.entry. cbn. f_equal. lra. Qed.
Lemma stiff_alone : alone [1%nat] [1%nat] [] (fun p => FitModel.total (stiff_pair p)) (fun p => FitModel.total (parabola 1 p)).
Proof.
  intros a b b' c Ea Eb Eb' Ec. destruct (one_size a Ea) as (u & ->). destruct (one_size b Eb) as (v & ->). destruct (one_size b' Eb') as (w & ->). destruct c; [|discriminate Ec]. cbn [app].
  rewrite !stiff_total, !slope_total. eexists _, _, _, _. do 4 (split; [reflexivity|]). lra.
Qed.
Lemma Rabs_mult_self z : Rabs z * Rabs z = z * z.
Proof. rewrite <- Rabs_mult. apply Rabs_pos_eq. nra. Qed.
Lemma stiff_exact : exact_gradient (fun p => FitModel.total (stiff_pair p)) stiff_slope [[[1]; [1]]].
Proof.
  intros p E. destruct (shape1_inv _ _ E) as (l & -> & E'). destruct l as [|[|a [|? ?]] [|[|b [|? ?]] [|? ?]]]; try discriminate E'. exists (16 * (a * a) + b * b). split; [apply stiff_total|]. split; [reflexivity|].
  intros eps PE. exists (eps / 16). split; [lra|]. intros y Ey D. destruct (shape1_inv _ _ Ey) as (l & -> & Ey'). destruct l as [|[|c [|? ?]] [|[|d [|? ?]] [|? ?]]]; try discriminate Ey'.
  exists (16 * (c * c) + d * d). split; [apply stiff_total|]. unfold dist1, pairing, flat_params, stiff_slope, SpecOptim.entry in *. cbn in *.
  replace (_ - _ - _) with (16 * ((c - a) * (c - a)) + (d - b) * (d - b)) by ring. rewrite Rplus_0_r in D. rewrite Rplus_0_r.
  rewrite <- (Rabs_mult_self (c - a)), <- (Rabs_mult_self (d - b)). pose proof (Rabs_pos (c - a)) as P1. pose proof (Rabs_pos (d - b)) as P2. set (u := Rabs (c - a)) in *. set (v := Rabs (d - b)) in *.
  rewrite Rabs_pos_eq by nra. nra.
Qed.

Theorem C113_gd_refuted : exists la lb lc F f gradF gradf a b c conf o o' a' b' c' b'',
  alone la lb lc (fun x => FitModel.total (F x)) (fun x => FitModel.total (f x)) /\ sizes a = la /\ sizes b = lb /\ sizes c = lc /\
  exact_gradient (fun x => FitModel.total (F x)) gradF [a ++ b ++ c] /\ exact_gradient (fun x => FitModel.total (f x)) gradf [b] /\
  optimize (gd_strat conf 2) F gradF (fun _ => None) 1 None 1 [a ++ b ++ c] (ctl_reset conf) = Some o /\
  optimize (gd_strat conf 2) f gradf (fun _ => None) 1 None 1 [b] (ctl_reset conf) = Some o' /\
  o_left o = [a' ++ b' ++ c'] /\ sizes a' = la /\ sizes b' = lb /\ o_left o' = [b''] /\ b' <> b''.
Proof.
  set (conf := mkConf (1 / 2) (1 / 8) 1 [mkGroup None None None]).
  eexists [1%nat], [1%nat], [], stiff_pair, (parabola 1), stiff_slope, (slope 1), [[1]], [[1]], [], conf, _, _, _, _, [], _.
  split; [exact stiff_alone|]. do 3 (split; [reflexivity|]). split; [exact stiff_exact|]. split; [apply parabola_exact; lra|].
  assert (M : forall s u v, move [s] [[[u]; [v]]] (stiff_slope [[[u]; [v]]]) = [[[u - s * (32 * u)]; [v - s * (2 * v)]]]) by reflexivity.
  assert (M1 : forall s v, move [s] [[[v]]] (slope 1 [[[v]]]) = [[[v - s * (2 * 1 * v)]]]) by reflexivity.
  assert (I0 : forall b tl, fle (fdiv (fsub PInf (Fin b)) (fmax (fmax (Fin b) PInf) (Fin 1))) (Fin tl) = false) by reflexivity.
  split; [|split].
  - unfold optimize. cbn [optimize_loop]. unfold gd_strat, conf, ctl_reset, gd_reset. cbn [c_steps c_count c_min map groups g_step init_step run gd_tries app].
    rewrite !M, !stiff_total. cbn [flt isfinite].
    replace (Rltb (16 * ((1 - 1 / 2 * (32 * 1)) * (1 - 1 / 2 * (32 * 1))) + (1 - 1 / 2 * (2 * 1)) * (1 - 1 / 2 * (2 * 1))) (16 * (1 * 1) + 1 * 1)) with false by (symmetry; apply Rltb_false; lra).
    cbn [andb].
    match goal with |- context [feq (Fin ?u) (Fin ?v)] => replace (feq (Fin u) (Fin v)) with false by (symmetry; apply not_true_is_false; intros X; apply Reqb_true in X; lra) end.
    unfold update1. cbn [combine map fst snd groups g_gamma1 gamma1 run]. rewrite !M, !stiff_total. cbn [flt isfinite].
    match goal with |- context [Rltb ?u ?v] => replace (Rltb u v) with true by (symmetry; apply Rltb_true; lra) end. cbn [andb Nat.eqb run last_costs rev app]. rewrite !stiff_total. cbn [isnan]. rewrite I0. cbn [andb option_map]. reflexivity.
  - unfold optimize. cbn [optimize_loop]. unfold gd_strat, conf, ctl_reset, gd_reset. cbn [c_steps c_count c_min map groups g_step init_step run gd_tries app].
    rewrite !M1, !slope_total. cbn [flt isfinite].
    match goal with |- context [Rltb ?u ?v] => replace (Rltb u v) with true by (symmetry; apply Rltb_true; lra) end. cbn [andb Nat.eqb run last_costs rev app]. rewrite !slope_total. cbn [isnan]. rewrite I0. cbn [andb option_map]. reflexivity.
  - cbn [before o_left]. split; [instantiate (2 := [[_]]); instantiate (1 := [[_]]); reflexivity|]. split; [reflexivity|]. split; [reflexivity|]. split; [reflexivity|]. intros Q. injection Q as Q. lra.
Qed.
Print Assumptions C113_gd_refuted.

(** ** A concrete atlas *)

Lemma sgd_runs lrs f grad tol mi : forall rem last i x ne lc bd, exists o, optimize_loop (sgd_strat lrs) f grad (fun _ => None) tol mi last i rem x tt ne lc bd = Some o.
Proof.
  induction rem as [|rem IH]; intros last i x ne lc bd; cbn [optimize_loop]; [eauto|]. cbn [run sgd_strat last_costs rev app]. destruct (isnan _); [eauto|]. destruct (_ && _)%bool; [eauto|].
  match goal with |- exists o, option_map _ (optimize_loop _ _ _ _ _ _ ?l ?j _ ?y _ ?n ?c ?b) = _ => destruct (IH l j y n c b) as (o & ->) end. cbn. eauto.
Qed.

Lemma shot_any b0 q p : shape q = [1%nat; 1%nat] -> shape p = [1%nat; 1%nat] ->
  is_ok (shoot real_clock no_others exact_sv b0 std_ag "euler" 1 1 None true None (start [DPoints (GLm 1 1 q p)] [gt1])).
Proof.
  intros Sq Sp. apply (C82_fixed_step_schemes no_others exact_sv b0 std_ag SEuler 1 1 true None 1); auto using exact_sv_exact, std_exact, std_differentiates.
  - cbn. repeat split; auto; (lra || discriminate).
  - cbn. tauto.
  - apply line_everywhere.
  - cbn. tauto.
  - eexists. split; [reflexivity|]. split; [repeat constructor|]. cbn. rewrite Sq, Sp. auto.
  - change (0 < prod (shape q) + 0)%nat. rewrite Sq. cbn. lia.
  - lra.
Qed.

Lemma coordinate_cost b0 h r a : filled h r = Ok ([DPoints (GLm 1 1 one11 (of_entries [1%nat; 1%nat] [a]))], [gt1]) ->
  r_fit_controls r = false -> r_reduce r = "sum" -> r_lam r = 1 -> r_att r = [coordinate] -> length (r_defs r) = 1%nat ->
  exists d r1, evaluate real_clock no_others exact_sv b0 std_ag h r [[one11]] "euler" 1 1 [] = Ok (d, r1) /\ SpecRegistration.total (map snd d) = a * a / 2 + (1 + a).
Proof.
  intros F RF RR RL RA RD. destruct (shot_any b0 one11 (of_entries [1%nat; 1%nat] [a]) eq_refl eq_refl) as (sh0 & ES).
  assert (OR : Forall ordinary [DPoints (GLm 1 1 one11 (of_entries [1%nat; 1%nat] [a]))]) by (constructor; [|constructor]; split; [reflexivity|]; split; [cbn; eauto 10|]; intros z; eexists; reflexivity).
  assert (AO : forall a x y, In a (r_att r) -> is_ok (a x y)) by (rewrite RA; intros a0 x y [<-|[]]; destruct x; eexists; reflexivity).
  destruct (C32_solvers_evaluate real_clock no_others exact_sv b0 std_ag h r [[one11]] "euler" 1 1 _ _ sh0 ltac:(discriminate) RR F OR) as (cs & xs & ats & r' & _ & _ & V); auto.
  { unfold steps_of, controls_of. rewrite RF. exact ES. }
  eexists _, r'. split; [exact V|]. destruct (evaluate_inv real_clock no_others exact_sv b0 std_ag _ _ _ _ _ _ _ _ V) as (defs & mods & o & atts & F' & CD & AC & _ & EC). rewrite EC. clear EC V ats cs xs ES sh0.
  rewrite F in F'. injection F' as <- <-. unfold steps_of, controls_of in CD. rewrite RF in CD. destruct (compute_inv real_clock no_others exact_sv b0 std_ag _ _ _ _ _ _ _ _ CD) as (sh & ms & m' & SH & MM & _ & RDU & DL & _).
  cbn [given] in SH, RDU. destruct (line_shot no_others exact_sv b0 exact_sv_exact one11 a sh eq_refl SH) as (CO & q1 & p1 & g2 & M1 & Sq1 & E1). rewrite MM in M1. cbn [mod_manifold] in M1. injection M1 as M1. destruct ms as [|m1 ms]; [discriminate M1|]. cbn [map] in M1. injection M1 as M1 _.
  unfold reduction in RDU. rewrite RR, CO in RDU. cbn in RDU. injection RDU as RDU _. rewrite <- RDU. cbn [length firstn deformed_list] in DL. rewrite M1 in DL. cbn in DL. injection DL as DL. rewrite <- DL, RA in AC.
  cbn in AC. injection AC as <-. rewrite RL. cbn. cbn in E1. rewrite E1. unfold SpecRegistration.total. cbn. field.
Qed.

Definition soft_pair (p : params) : params := map (map (map (fun a => a + 1))) p.
Example C113_hypotheses : forall b0 lr n, exists h x ra rb o o',
  line_atlas false "sequential" = Ok (h, x) /\ a_models (x_atlas x) = [ra; rb] /\ NoDup (map fst (@nil (string * list ref))) /\
  nth_error (a_models (x_atlas x)) 1 = Some rb /\ nth_error [[one11]; [one11]] 1 = Some [one11] /\
  (forall p, sizes p = sizes (entries_of h (all_moments x)) -> is_ok (evaluate_atlas real_clock no_others exact_sv b0 std_ag None None (with_all_moments h x [p]) x [[one11]; [one11]] "euler" 1 1)) /\
  exact_gradient (fun p => FitModel.total (atlas_fit_costs real_clock no_others exact_sv b0 std_ag h x [[one11]; [one11]] "euler" 1 1 p)) soft_pair [entries_of h (all_moments x)] /\
  exact_gradient (fun p => FitModel.total (fit_costs real_clock no_others exact_sv b0 std_ag h rb [[one11]] "euler" 1 1 p)) soft_pair (moments h rb) /\
  optimize (sgd_strat [lr]) (atlas_fit_costs real_clock no_others exact_sv b0 std_ag h x [[one11]; [one11]] "euler" 1 1) soft_pair (fun _ => None) n None n [entries_of h (all_moments x)] tt = Some o /\
  optimize (sgd_strat [lr]) (fit_costs real_clock no_others exact_sv b0 std_ag h rb [[one11]] "euler" 1 1) soft_pair (fun _ => None) n None n (moments h rb) tt = Some o' /\
  entries_of h (all_moments x) = [[1]; [1]] /\ moments h rb = [[[1]]].
Proof.
  intros b0 lr n. set (h := fst two_subjects). set (x := snd two_subjects).
  assert (A : exists ra rb, a_models (x_atlas x) = [ra; rb] /\ entries_of h (all_moments x) = [[1]; [1]] /\ moments h rb = [[[1]]] /\
    (forall a b, filled (with_all_moments h x [[[a]; [b]]]) ra = Ok ([DPoints (GLm 1 1 one11 (of_entries [1%nat; 1%nat] [a]))], [gt1])) /\
    (forall a b, filled (with_all_moments h x [[[a]; [b]]]) rb = Ok ([DPoints (GLm 1 1 one11 (of_entries [1%nat; 1%nat] [b]))], [gt1])) /\
    (forall b, filled (with_moments h rb [[[b]]]) rb = Ok ([DPoints (GLm 1 1 one11 (of_entries [1%nat; 1%nat] [b]))], [gt1])) /\
    forall r, In r [ra; rb] -> r_fit_controls r = false /\ r_reduce r = "sum" /\ r_lam r = 1 /\ r_att r = [coordinate] /\ length (r_defs r) = 1%nat).
  { eexists _, _. split; [reflexivity|]. split; [reflexivity|]. split; [reflexivity|]. do 3 (split; [intros; reflexivity|]). intros r [<-|[<-|[]]]; repeat split. }
  destruct A as (ra & rb & EM & EE & EMo & Fa & Fb & Fb1 & A). destruct (A ra (or_introl eq_refl)) as (A1 & A2 & A3 & A4 & A5). destruct (A rb (or_intror (or_introl eq_refl))) as (B1 & B2 & B3 & B4 & B5).
  assert (NH : x_ht x = None) by reflexivity. assert (E0 : line_atlas false "sequential" = Ok (h, x)) by exact two_subjects_ok. clearbody h x.
  assert (EV : forall a b, exists costs k1 y1, evaluate_atlas real_clock no_others exact_sv b0 std_ag None None (with_all_moments h x [[[a]; [b]]]) x [[one11]; [one11]] "euler" 1 1 = Ok (costs, k1, y1) /\
    SpecRegistration.total (map snd costs) = a * a / 2 + (1 + a) + (b * b / 2 + (1 + b))).
  { intros a b. destruct (coordinate_cost b0 _ ra a (Fa a b) A1 A2 A3 A4 A5) as (da & ra' & Ea & Ta). destruct (coordinate_cost b0 _ rb b (Fb a b) B1 B2 B3 B4 B5) as (db & rb' & Eb & Tb).
    assert (T : in_turn real_clock no_others exact_sv b0 std_ag None "euler" 1 1 (with_all_moments h x [[[a]; [b]]]) (a_models (x_atlas x)) [[one11]; [one11]] [da; db] (with_all_moments h x [[[a]; [b]]])).
    { rewrite EM. apply each_turn. cbn [combine]. constructor; [exists ra'; exact Ea|]. constructor; [exists rb'; exact Eb|constructor]. }
    destruct (C84_atlas_costs real_clock no_others exact_sv b0 std_ag None None _ x _ "euler" 1 1 [da; db] _ NH ltac:(discriminate) T) as (costs & x'' & EA & _).
    eexists _, _, _. split; [exact EA|]. destruct (atlas_each _ _ _ _ _ _ _ _ _ _ _ _ _ _ _ NH EA) as (ds & FF & ->). rewrite EM in FF. cbn [combine] in FF.
    inversion FF as [|? d1 ? ds1 (s1 & D1) F1]; subst. inversion F1 as [|? d2 ? ds2 (s2 & D2) F2]; subst. inversion F2; subst. cbn [fst snd] in D1, D2. pose proof (eq_trans (eq_sym D1) Ea) as Q1. pose proof (eq_trans (eq_sym D2) Eb) as Q2. injection Q1 as -> _. injection Q2 as -> _.
    unfold SpecRegistration.total at 1. cbn [map fold_right]. rewrite Ta, Tb. lra. }
  assert (TF : forall a b, FitModel.total (atlas_fit_costs real_clock no_others exact_sv b0 std_ag h x [[one11]; [one11]] "euler" 1 1 [[[a]; [b]]]) = Fin (a * a / 2 + (1 + a) + (b * b / 2 + (1 + b)))).
  { intros a b. destruct (EV a b) as (co & k1 & y1 & E1 & T1). unfold atlas_fit_costs. rewrite E1, total_fin, T1. reflexivity. }
  assert (Tf : forall b, FitModel.total (fit_costs real_clock no_others exact_sv b0 std_ag h rb [[one11]] "euler" 1 1 [[[b]]]) = Fin (b * b / 2 + (1 + b))).
  { intros b. destruct (coordinate_cost b0 _ rb b (Fb1 b) B1 B2 B3 B4 B5) as (db & rb' & Eb & Tb). unfold fit_costs. rewrite Eb, total_fin, Tb. reflexivity. }
  destruct (sgd_runs [lr] (atlas_fit_costs real_clock no_others exact_sv b0 std_ag h x [[one11]; [one11]] "euler" 1 1) soft_pair (/ 10 ^ 10) n n PInf 0 [entries_of h (all_moments x)] 0 None None) as (o & RO).
  destruct (sgd_runs [lr] (fit_costs real_clock no_others exact_sv b0 std_ag h rb [[one11]] "euler" 1 1) soft_pair (/ 10 ^ 10) n n PInf 0 (moments h rb) 0 None None) as (o' & RO').
  exists h, x, ra, rb, o, o'. split; [exact E0|]. split; [exact EM|]. split; [constructor|]. split; [rewrite EM; reflexivity|]. split; [reflexivity|]. rewrite EE, EMo in *.
  assert (Q : forall u, u * u = Rabs u * Rabs u) by (intros u; symmetry; apply Rabs_mult_self).
  split.
  { intros p E. destruct p as [|[|a [|? ?]] [|[|b [|? ?]] [|? ?]]]; try discriminate E. destruct (EV a b) as (co & k1 & y1 & E1 & _). eexists. exact E1. }
  split; [|split; [|auto]].
  - intros p E. destruct (shape1_inv _ _ E) as (l & -> & E'). destruct l as [|[|a [|? ?]] [|[|b [|? ?]] [|? ?]]]; try discriminate E'. eexists. split; [apply TF|]. split; [reflexivity|].
    intros eps PE. exists eps. split; [lra|]. intros y Ey D. destruct (shape1_inv _ _ Ey) as (l & -> & Ey'). destruct l as [|[|c [|? ?]] [|[|d [|? ?]] [|? ?]]]; try discriminate Ey'.
    eexists. split; [apply TF|]. unfold dist1, pairing, flat_params, soft_pair in *. cbn in *. rewrite Rplus_0_r in D. rewrite Rplus_0_r.
    replace (_ - _ - _) with (/ 2 * ((c - a) * (c - a) + (d - b) * (d - b))) by field. rewrite (Q (c - a)), (Q (d - b)). pose proof (Rabs_pos (c - a)) as P1. pose proof (Rabs_pos (d - b)) as P2. set (u := Rabs (c - a)) in *. set (v := Rabs (d - b)) in *.
    rewrite Rabs_pos_eq by nra. nra.
  - intros p E. destruct (one_shape p E) as (b & ->). eexists. split; [apply Tf|]. split; [reflexivity|].
    intros eps PE. exists eps. split; [lra|]. intros y Ey D. destruct (one_shape y Ey) as (d & ->). eexists. split; [apply Tf|]. unfold dist1, pairing, flat_params, soft_pair in *. cbn in *. rewrite Rplus_0_r in D. rewrite Rplus_0_r.
    replace (_ - _ - _) with (/ 2 * ((d - b) * (d - b))) by field. rewrite (Q (d - b)). pose proof (Rabs_pos (d - b)) as P2. set (v := Rabs (d - b)) in *. rewrite Rabs_pos_eq by nra. nra.
Qed.
