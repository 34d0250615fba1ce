(** Properties of atlases placed elsewhere or measured in another unit (C111). *)
From Coq Require Import Reals String List Arith ZArith Lia Lra.
From Verif Require Import Py RSum Tensor TensorFacts KernelModel FieldModel Fl MeshModel AttachmentModel GeometryModel ModuleModel ShootingModel RegistrationModel AtlasModel
  SpecKernel SpecAttachment SpecGeometry SpecModule SpecShooting SpecRegistration SpecTransport SpecRigid SpecSmooth SpecReduce SpecAtlas SpecElsewhere SpecUnits SpecUnitsReg SpecAtlasElsewhere
  ModuleMain ModuleLeaves ShootingDyn ShootingInst ShootingExample DiffBuild RegistrationRun RegistrationHeap RegistrationParams RegistrationLife RegistrationAtlas RegistrationShoot PropRegistration AtlasFacts PropAtlas
  ShootingTotal PropAttachment PropShooting PropReduce PropRigid PropSmooth ElsewhereFacts PropElsewhere PropUnits UnitsShoot UnitsReg PropUnitsReg.
Import ListNotations.
Open Scope string_scope.
Open Scope list_scope.
Open Scope R_scope.

(** Lists of costs multiplied by k. *)
Definition times_lists (k : R) (c : list (string * list R)) : list (string * list R) := map (fun e => (fst e, map (fun x => k * x) (snd e))) c.

Lemma get_times k c key : dict_get (times_lists k c) key = option_map (map (fun x => k * x)) (dict_get c key).
Proof. induction c as [|(a, v) c IH]; [reflexivity|]. cbn [times_lists map fst snd dict_get]. destruct (a =? key); [reflexivity|exact IH]. Qed.
Lemma set_times k c key v : dict_set (times_lists k c) key (map (fun x => k * x) v) = times_lists k (dict_set c key v).
Proof. induction c as [|(a, w) c IH]; [reflexivity|]. cbn [times_lists map fst snd dict_set]. destruct (a =? key); [reflexivity|]. cbn [map fst snd]. f_equal. exact IH. Qed.
Lemma append_times k d : forall base, append_in_dict (times_lists k base) (times_costs k d) = times_lists k (append_in_dict base d).
Proof.
  induction d as [|(key, v) d IH]; intros base; [reflexivity|]. unfold append_in_dict in *. cbn [times_costs map fold_left fst snd]. rewrite <- IH. f_equal. rewrite <- set_times. f_equal.
  rewrite get_times. destruct (dict_get base key); cbn [option_map]; [rewrite map_app|]; reflexivity.
Qed.
Lemma sums_times k c : map (fun kv => (fst kv, py_sum (snd kv))) (times_lists k c) = times_costs k (map (fun kv => (fst kv, py_sum (snd kv))) c).
Proof. unfold times_lists, times_costs. rewrite !map_map. apply map_ext. intros (a, v). cbn [fst snd]. rewrite !py_sum_total, total_times. reflexivity. Qed.
Lemma times_costs_1 c : times_costs 1 c = c.
Proof. unfold times_costs. rewrite <- map_id. apply map_ext. intros (a, v). cbn [fst snd]. rewrite Rmult_1_l. reflexivity. Qed.

(** When every subject has its costs multiplied by k, so has the atlas. *)
Lemma subjects_times k ck ck' others others' sv sv' b0 b0' ag ag' h h' tp tp' name name' it it' t1 t1' (P : reg * geom -> reg * geom -> Prop) :
  (forall s s' c c' r1 r1', P s s' -> evaluate ck others sv b0 ag h (fst s) [snd s] name it t1 [] = Ok (c, r1) ->
     evaluate ck' others' sv' b0' ag' h' (fst s') [snd s'] name' it' t1' [] = Ok (c', r1') -> c' = times_costs k c) ->
  forall rs ts rs' ts' base cc hh xs cc' hh' xs', Forall2 P (combine rs ts) (combine rs' ts') ->
  evaluate_subjects ck others sv b0 ag None h tp None rs ts name it t1 base = Ok (cc, hh, xs) ->
  evaluate_subjects ck' others' sv' b0' ag' None h' tp' None rs' ts' name' it' t1' (times_lists k base) = Ok (cc', hh', xs') ->
  cc' = times_lists k cc.
Proof.
  intros HP. induction rs as [|r rs IH]; intros ts rs' ts' base cc hh xs cc' hh' xs' F E E'.
  - cbn [combine] in F. assert (Q : combine rs' ts' = []) by (inversion F; reflexivity). destruct rs' as [|r' rs']; [|destruct ts' as [|t' ts']; [|discriminate Q]]; cbn [evaluate_subjects] in E, E'; injection E as <- _ _; injection E' as <- _ _; reflexivity.
  - destruct ts as [|t ts].
    + cbn [combine] in F. assert (Q : combine rs' ts' = []) by (inversion F; reflexivity). destruct rs' as [|r' rs']; [|destruct ts' as [|t' ts']; [|discriminate Q]]; cbn [evaluate_subjects] in E, E'; injection E as <- _ _; injection E' as <- _ _; reflexivity.
    + destruct rs' as [|r' rs']; [inversion F|]. destruct ts' as [|t' ts']; [inversion F|]. cbn [combine] in F. inversion F as [|? ? ? ? PH FT]; subst.
      cbn [evaluate_subjects bind] in E, E'. rewrite C84_without_callback in E, E'.
      bok E y HE1. bok HE1 z HE2. destruct z as (c & r1). injection HE1 as <-. bok E w HE3. destruct w as ((cc1 & h2) & rs1). injection E as <- <- <-.
      bok E' y' HE1'. bok HE1' z' HE2'. destruct z' as (c' & r1'). injection HE1' as <-. bok E' w' HE3'. destruct w' as ((cc1' & h2') & rs1'). injection E' as <- <- <-.
      rewrite (HP _ _ _ _ _ _ PH HE2 HE2'), append_times in HE3'. exact (IH _ _ _ _ _ _ _ _ _ _ FT HE3 HE3').
Qed.
Lemma atlas_times k ck ck' others others' sv sv' b0 b0' ag ag' own own' h h' x x' ts ts' name name' it it' t1 t1' (P : reg * geom -> reg * geom -> Prop) costs h1 x1 costs' h1' x1' :
  (forall s s' c c' r1 r1', P s s' -> evaluate ck others sv b0 ag h (fst s) [snd s] name it t1 [] = Ok (c, r1) ->
     evaluate ck' others' sv' b0' ag' h' (fst s') [snd s'] name' it' t1' [] = Ok (c', r1') -> c' = times_costs k c) ->
  x_ht x = None -> x_ht x' = None -> Forall2 P (combine (a_models (x_atlas x)) ts) (combine (a_models (x_atlas x')) ts') ->
  evaluate_atlas ck others sv b0 ag own None h x ts name it t1 = Ok (costs, h1, x1) ->
  evaluate_atlas ck' others' sv' b0' ag' own' None h' x' ts' name' it' t1' = Ok (costs', h1', x1') ->
  costs' = times_costs k costs.
Proof.
  intros HP NH NH' F E E'. unfold evaluate_atlas in E, E'. rewrite NH in E. rewrite NH' in E'. bok E y HE. destruct y as ((cc & h2) & rs). bok E' y' HE'. destruct y' as ((cc' & h2') & rs').
  pose proof (subjects_times k _ _ _ _ _ _ _ _ _ _ _ _ _ _ _ _ _ _ _ _ P HP _ _ _ _ [] _ _ _ _ _ _ F HE HE') as X.
  assert (K : costs = map (fun kv => (fst kv, py_sum (snd kv))) cc) by (destruct cc; [discriminate E|injection E as <- _ _; reflexivity]).
  assert (K' : costs' = map (fun kv => (fst kv, py_sum (snd kv))) cc') by (destruct cc'; [discriminate E'|injection E' as <- _ _; reflexivity]).
  rewrite K', K, X. apply sums_times.
Qed.

(** An atlas without hypertemplate placed elsewhere by a rigid motion (the template, the
    modules and the moments of every subject, and every target) has the same costs: fixed step
    schemes, geodesic controls, whatever the moments of the subjects are. *)
Theorem C111_elsewhere : forall others others' sv sv' b0 b0' ag ag' own own' h h' x x' targets targets' sch it t1 d Q c costs h1 x1 costs' h1' x1',
  rigid d Q -> exact_grad ag -> exact_grad ag' -> exact_solver sv -> exact_solver sv' -> 0 < t1 -> (0 < it)%nat ->
  x_ht x = None -> x_ht x' = None ->
  Forall2 (subject_elsewhere d Q c h h') (combine (a_models (x_atlas x)) targets) (combine (a_models (x_atlas x')) targets') ->
  evaluate_atlas real_clock others sv b0 ag own None h x targets (scheme_name sch) it t1 = Ok (costs, h1, x1) ->
  evaluate_atlas real_clock others' sv' b0' ag' own' None h' x' targets' (scheme_name sch) it t1 = Ok (costs', h1', x1') ->
  costs' = costs.
Proof.
  intros others others' sv sv' b0 b0' ag ag' own own' h h' x x' targets targets' sch it t1 d Q c costs h1 x1 costs' h1' x1' HQ EX EX' HS HS' T1 IT NH NH' F E E'.
  rewrite <- (times_costs_1 costs). refine (atlas_times 1 real_clock real_clock others others' _ _ _ _ _ _ own own' h h' x x' _ _ _ _ _ _ _ _ _ _ _ _ _ _ _ _ NH NH' F E E').
  intros s s' co co' r1 r1' (defs & mods & defs' & mods' & FI & FI' & (FC & FC' & EL & ER & ER') & (W & W' & LS & LT & SH & SH') & EW & AE) A A'. rewrite times_costs_1.
  exact (C102_fixed_step others others' sv sv' b0 b0' ag ag' h h' _ _ _ _ sch it t1 co co' r1 r1' d Q c defs mods defs' mods' HQ EX EX' HS HS' FI FI' FC FC' EL (eq_trans ER' (eq_sym ER)) (or_introl ER) W W' LS LT SH SH' T1 IT EW AE A A').
Qed.
Print Assumptions C111_elsewhere.

(** In another unit of length all its costs are multiplied by u^2. *)
Theorem C111_units : forall others others' sv sv' b0 b0' ag ag' own own' h h' x x' targets targets' sch it t1 d u k costs h1 x1 costs' h1' x1',
  0 < u -> exact_grad ag -> exact_grad ag' -> exact_solver sv -> exact_solver sv' -> 0 < t1 -> (0 < it)%nat ->
  x_ht x = None -> x_ht x' = None ->
  Forall2 (subject_in_units d u k h h') (combine (a_models (x_atlas x)) targets) (combine (a_models (x_atlas x')) targets') ->
  evaluate_atlas real_clock others sv b0 ag own None h x targets (scheme_name sch) it t1 = Ok (costs, h1, x1) ->
  evaluate_atlas real_clock others' sv' b0' ag' own' None h' x' targets' (scheme_name sch) it t1 = Ok (costs', h1', x1') ->
  costs' = times_costs (u * u) costs.
Proof.
  intros others others' sv sv' b0 b0' ag ag' own own' h h' x x' targets targets' sch it t1 d u k costs h1 x1 costs' h1' x1' U EX EX' HS HS' T1 IT NH NH' F E E'.
  refine (atlas_times (u * u) real_clock real_clock others others' _ _ _ _ _ _ own own' h h' x x' _ _ _ _ _ _ _ _ _ _ _ _ _ _ _ _ NH NH' F E E').
  intros s s' co co' r1 r1' (defs & mods & defs' & mods' & FI & FI' & (FC & FC' & EL & ER & ER') & (W & W' & LT & LT' & SH & SH') & EW & AE) A A'.
  exact (C105_fixed_step others others' sv sv' b0 b0' ag ag' h h' _ _ _ _ sch it t1 co co' r1 r1' d u k defs mods defs' mods' U EX EX' HS HS' FI FI' FC FC' EL (eq_trans ER' (eq_sym ER)) (or_introl ER) W W' LT LT' SH SH' T1 IT EW AE A A').
Qed.
Print Assumptions C111_units.

(** ** Atlases just built *)
Lemma set_self m : set_manifold m (mod_manifold m) = Ok m.
Proof.
  revert m. fix IH 1. intros m. destruct m; try reflexivity. cbn [mod_manifold set_manifold].
  match goal with |- bind (?f _ _) _ = _ => set (go := f) end.
  assert (E : go ms (map mod_manifold ms) = Ok ms).
  { induction ms as [|m ms IHm]; [reflexivity|]. cbn [map]. unfold go; fold go. rewrite IH. cbn [bind]. rewrite IHm. reflexivity. }
  rewrite E. reflexivity.
Qed.
Lemma fill_self h mods : forall init, map (man_value h) init = map (@Ok _) (map mod_manifold mods) -> fill_mods h mods init = Ok mods.
Proof.
  induction mods as [|m mods IH]; intros [|o init] E; try discriminate E; [reflexivity|]. cbn [map] in E. injection E as E1 E2. cbn [fill_mods]. rewrite E1. cbn [bind]. rewrite set_self. cbn [bind]. rewrite (IH init E2). reflexivity.
Qed.
(** The subjects of an atlas just built start from the template and the modules given. *)
Lemma built_subjects h0 template mods att population lam fit_gd sigma nu coeff htgd settings other mode h x :
  NoDup (map fst other) -> new_atlas h0 template mods att population lam fit_gd false sigma nu coeff htgd settings other mode = Ok (h, x) ->
  x_ht x = None /\ length (a_models (x_atlas x)) = population /\
  Forall (fun r => filled h r = Ok ([template], mods) /\ r_fit_controls r = false /\ r_lam r = lam /\ r_reduce r = "sum" /\ r_att r = [att] /\ r_defs r = [template]) (a_models (x_atlas x)).
Proof.
  intros ND EN. destruct (new_atlas_ok _ _ _ _ _ _ _ _ _ _ _ _ _ _ _ _ _ ND EN) as (h1 & a & EI & EM & _ & _ & _ & _ & (-> & NH & _)).
  destruct (atlas_init_ok _ _ _ _ _ _ _ _ _ _ _ _ ND EI) as (AB & _ & _ & KA). pose proof (ab_length _ _ _ _ _ _ AB) as LP. pose proof (ab_values _ _ _ _ _ _ AB) as V.
  rewrite EM. split; [exact NH|]. split; [exact LP|]. rewrite Forall_forall in *. intros r I. specialize (KA r I). specialize (V r I). cbv beta in KA, V. destruct KA as (_ & FC & ED & EMo & ER & EA & EL).
  split; [|auto 8]. unfold filled. rewrite ED, EMo. destruct (r_init r) as [|o init]; [discriminate V|]. cbn [map] in V. injection V as V1 V2. cbn [length skipn]. rewrite (fill_self h1 mods init V2). cbn [bind fill_defs]. rewrite V1. cbn [bind]. rewrite df_set_same. reflexivity.
Qed.
Lemma pair_subjects (A A' B B' : Type) (P : A -> Prop) (P' : A' -> Prop) (G : B -> B' -> Prop) (W : A * B -> A' * B' -> Prop) :
  (forall a b a' b', P a -> P' a' -> G b b' -> W (a, b) (a', b')) ->
  forall l l' m m', Forall P l -> Forall P' l' -> length l = length l' -> Forall2 G m m' -> Forall2 W (combine l m) (combine l' m').
Proof.
  intros H. induction l as [|a l IH]; intros [|a' l'] m m' F F' L M; try discriminate L; [constructor|]. inversion M as [|b b' n n' Gb Gn]; subst; [constructor|]. cbn [combine].
  inversion F as [|? ? Pa Pl]; subst. inversion F' as [|? ? Pa' Pl']; subst. constructor; [apply H; assumption|]. apply IH; auto.
Qed.

(** Building an atlas from a template, modules and targets placed elsewhere by a rigid motion
    and evaluating it gives the same costs. *)
Theorem C111_built_elsewhere : forall others others' sv sv' b0 b0' ag ag' own own' h0 h0' template template' mods mods' att att' population lam fit_gd fit_gd'
    sigma sigma' nu nu' coeff coeff' htgd htgd' settings settings' other other' mode mode' h h' x x' targets targets' sch it t1 d Q c costs h1 x1 costs' h1' x1',
  rigid d Q -> exact_grad ag -> exact_grad ag' -> exact_solver sv -> exact_solver sv' -> 0 < t1 -> (0 < it)%nat ->
  NoDup (map fst other) -> NoDup (map fst other') ->
  new_atlas h0 template mods att population lam fit_gd false sigma nu coeff htgd settings other mode = Ok (h, x) ->
  new_atlas h0' template' mods' att' population lam fit_gd' false sigma' nu' coeff' htgd' settings' other' mode' = Ok (h', x') ->
  wf_mod d (start [template] mods) -> wf_mod d (start [template'] mods') -> locals_smooth d (start [template] mods) -> locals_total d (start [template'] mods') ->
  shootable (start [template] mods) -> shootable (start [template'] mods') ->
  elsewhere d Q c (start [template] mods) (start [template'] mods') -> alike_objects template template' ->
  Forall2 (fun y y' => geom_elsewhere d Q c y y' /\ indifferent d Q c template template' att att' y y') targets targets' ->
  evaluate_atlas real_clock others sv b0 ag own None h x targets (scheme_name sch) it t1 = Ok (costs, h1, x1) ->
  evaluate_atlas real_clock others' sv' b0' ag' own' None h' x' targets' (scheme_name sch) it t1 = Ok (costs', h1', x1') ->
  costs' = costs.
Proof.
  intros others others' sv sv' b0 b0' ag ag' own own' h0 h0' template template' mods mods' att att' population lam fit_gd fit_gd'
    sigma sigma' nu nu' coeff coeff' htgd htgd' settings settings' other other' mode mode' h h' x x' targets targets' sch it t1 d Q c costs h1 x1 costs' h1' x1'
    HQ EX EX' HS HS' T1 IT ND ND' EN EN' W W' LS LT SH SH' EW AL FT E E'.
  destruct (built_subjects _ _ _ _ _ _ _ _ _ _ _ _ _ _ _ _ ND EN) as (NH & L & F). destruct (built_subjects _ _ _ _ _ _ _ _ _ _ _ _ _ _ _ _ ND' EN') as (NH' & L' & F').
  refine (C111_elsewhere others others' sv sv' b0 b0' ag ag' own own' h h' x x' _ _ sch it t1 d Q c _ _ _ _ _ _ HQ EX EX' HS HS' T1 IT NH NH' _ E E').
  refine (pair_subjects _ _ _ _ _ _ _ _ _ _ _ _ _ F F' ltac:(congruence) FT). cbv beta. intros r y r' y' (A1 & A2 & A3 & A4 & A5 & A6) (B1 & B2 & B3 & B4 & B5 & B6) (GE & IN).
  exists [template], mods, [template'], mods'. cbn [fst snd]. split; [exact A1|]. split; [exact B1|]. split; [repeat split; congruence|]. split; [auto 8|]. split; [exact EW|].
  rewrite A5, B5. apply ae_cons; [exact AL|exact GE|exact IN|apply ae_nil].
Qed.
Print Assumptions C111_built_elsewhere.

Theorem C111_built_units : forall others others' sv sv' b0 b0' ag ag' own own' h0 h0' template template' mods mods' att att' population lam lam' fit_gd fit_gd'
    sigma sigma' nu nu' coeff coeff' htgd htgd' settings settings' other other' mode mode' h h' x x' targets targets' sch it t1 d u k costs h1 x1 costs' h1' x1',
  0 < u -> exact_grad ag -> exact_grad ag' -> exact_solver sv -> exact_solver sv' -> 0 < t1 -> (0 < it)%nat -> lam' * k = u * u * lam ->
  NoDup (map fst other) -> NoDup (map fst other') ->
  new_atlas h0 template mods att population lam fit_gd false sigma nu coeff htgd settings other mode = Ok (h, x) ->
  new_atlas h0' template' mods' att' population lam' fit_gd' false sigma' nu' coeff' htgd' settings' other' mode' = Ok (h', x') ->
  wf_mod d (start [template] mods) -> wf_mod d (start [template'] mods') -> locals_total d (start [template] mods) -> locals_total d (start [template'] mods') ->
  shootable (start [template] mods) -> shootable (start [template'] mods') ->
  other_unit d u (start [template] mods) (start [template'] mods') -> alike_objects template template' ->
  Forall2 (fun y y' => geom_units u y y' /\ measured u k template template' att att' y y') targets targets' ->
  evaluate_atlas real_clock others sv b0 ag own None h x targets (scheme_name sch) it t1 = Ok (costs, h1, x1) ->
  evaluate_atlas real_clock others' sv' b0' ag' own' None h' x' targets' (scheme_name sch) it t1 = Ok (costs', h1', x1') ->
  costs' = times_costs (u * u) costs.
Proof.
  intros others others' sv sv' b0 b0' ag ag' own own' h0 h0' template template' mods mods' att att' population lam lam' fit_gd fit_gd'
    sigma sigma' nu nu' coeff coeff' htgd htgd' settings settings' other other' mode mode' h h' x x' targets targets' sch it t1 d u k costs h1 x1 costs' h1' x1'
    U EX EX' HS HS' T1 IT EL ND ND' EN EN' W W' LS LT SH SH' EW AL FT E E'.
  destruct (built_subjects _ _ _ _ _ _ _ _ _ _ _ _ _ _ _ _ ND EN) as (NH & L & F). destruct (built_subjects _ _ _ _ _ _ _ _ _ _ _ _ _ _ _ _ ND' EN') as (NH' & L' & F').
  refine (C111_units others others' sv sv' b0 b0' ag ag' own own' h h' x x' _ _ sch it t1 d u k _ _ _ _ _ _ U EX EX' HS HS' T1 IT NH NH' _ E E').
  refine (pair_subjects _ _ _ _ _ _ _ _ _ _ _ _ _ F F' ltac:(congruence) FT). cbv beta. intros r y r' y' (A1 & A2 & A3 & A4 & A5 & A6) (B1 & B2 & B3 & B4 & B5 & B6) (GE & IN).
  exists [template], mods, [template'], mods'. cbn [fst snd]. split; [exact A1|]. split; [exact B1|]. split; [repeat split; congruence|]. split; [auto 8|]. split; [exact EW|].
  rewrite A5, B5. apply au_cons; [exact AL|exact GE|exact IN|apply au_nil].
Qed.
Print Assumptions C111_built_units.

(** A concrete atlas: two subjects with different targets; the template is a point of the
    line with a moment, the module a global translation.  Placed elsewhere (reflected and moved
    by 5), and in a unit twice as small. *)
Definition goal1 : tensor := mk2 1 1 (fun _ _ => 9).
Definition line_atlas2 (o : deformable) (lam : R) : res (heap * full_atlas) :=
  new_atlas (mkHeap [] []) o [gt1] eu 2 lam None false (Some 1) 1 1 true (Some ["sigma"]) [] "sequential".
Lemma line_atlas2_built dim nb q p lam : is_ok (line_atlas2 (DPoints (GLm dim nb q p)) lam).
Proof. eexists. cbv -[IZR tzeros eu]. reflexivity. Qed.

Lemma line2_subjects o lam h x : line_atlas2 o lam = Ok (h, x) ->
  x_ht x = None /\ length (a_models (x_atlas x)) = 2%nat /\
  Forall (fun r => filled h r = Ok ([o], [gt1]) /\ r_fit_controls r = false /\ r_lam r = lam /\ r_reduce r = "sum" /\ r_att r = [eu] /\ r_defs r = [o]) (a_models (x_atlas x)).
Proof. intros E. unfold line_atlas2 in E. exact (built_subjects _ _ _ _ _ _ _ _ _ _ _ _ [] _ _ _ (NoDup_nil _) E). Qed.

Lemma atlas_evaluates others sv b0 sch it o lam h x g0 g1 : line_atlas2 o lam = Ok (h, x) -> ordinary o ->
  is_ok (shoot real_clock others sv b0 exact_ag (scheme_name sch) it 1 None true None (start [o] [gt1])) ->
  exists costs h1 x1, evaluate_atlas real_clock others sv b0 exact_ag None None h x [[g0]; [g1]] (scheme_name sch) it 1 = Ok (costs, h1, x1).
Proof.
  intros EN OR (sh & SH). destruct (line2_subjects _ _ _ _ EN) as (NH & L & F).
  assert (NE : scheme_name sch <> "torch_euler") by (destruct sch; discriminate).
  assert (B : forall r g, filled h r = Ok ([o], [gt1]) /\ r_fit_controls r = false /\ r_lam r = lam /\ r_reduce r = "sum" /\ r_att r = [eu] /\ r_defs r = [o] ->
    exists d r1, evaluate_with real_clock others sv b0 exact_ag None h r [[g]] (scheme_name sch) it 1 [] = Ok (d, h, r1)).
  { intros r g (A1 & A2 & A3 & A4 & A5 & A6).
    assert (AO : forall a x y, In a (r_att r) -> is_ok (a x y)) by (rewrite A5; intros a y z [<-|[]]; unfold eu, as_attachment, call; cbn [loss bind att_weight]; eexists; reflexivity).
    destruct (C32_solvers_evaluate real_clock others sv b0 exact_ag h r [[g]] (scheme_name sch) it 1 [o] [gt1] sh NE A4 A1 (Forall_cons _ OR (Forall_nil _))) as (co & xs & atts & r1 & _ & _ & E); auto.
    { unfold steps_of, controls_of. rewrite A2. exact SH. }
    { rewrite A6. reflexivity. }
    eexists _, r1. rewrite C84_without_callback, E. reflexivity. }
  destruct (a_models (x_atlas x)) as [|ra [|rb [|rc rs]]] eqn:EM; try discriminate L. inversion F as [|? ? Fa F1]; subst. inversion F1 as [|? ? Fb _]; subst.
  destruct (B ra g0 Fa) as (da & ra' & Ea). destruct (B rb g1 Fb) as (db & rb' & Eb).
  assert (IN : in_turn real_clock others sv b0 exact_ag None (scheme_name sch) it 1 h (a_models (x_atlas x)) [[g0]; [g1]] [da; db] h).
  { rewrite EM. eapply turn_next; [exact Ea|]. eapply turn_next; [exact Eb|]. apply turn_end. auto. }
  destruct (C84_atlas_costs real_clock others sv b0 exact_ag None None h x _ (scheme_name sch) it 1 [da; db] h NH ltac:(discriminate) IN) as (costs & x'' & EA & _). eauto.
Qed.

Example C111_hypotheses : forall sv b0 sch it, exact_solver sv -> (0 < it)%nat ->
  exists h x h5 x5 h2 x2 costs k1 y1 k5 y5 k2 y2,
    line_atlas2 pt1 2 = Ok (h, x) /\ line_atlas2 pt5 2 = Ok (h5, x5) /\ line_atlas2 pt2 4 = Ok (h2, x2) /\ goal1 <> goal0 /\
    rigid 1 mirror /\ exact_grad exact_ag /\ x_ht x = None /\ x_ht x5 = None /\ x_ht x2 = None /\
    Forall2 (subject_elsewhere 1 mirror to5 h h5) (combine (a_models (x_atlas x)) [[goal0]; [goal1]]) (combine (a_models (x_atlas x5)) [[goal5]; [place_rows 1 mirror to5 goal1]]) /\
    Forall2 (subject_in_units 1 2 2 h h2) (combine (a_models (x_atlas x)) [[goal0]; [goal1]]) (combine (a_models (x_atlas x2)) [[goal2 goal0]; [goal2 goal1]]) /\
    length (combine (a_models (x_atlas x)) [[goal0]; [goal1]]) = 2%nat /\
    evaluate_atlas real_clock no_others sv b0 exact_ag None None h x [[goal0]; [goal1]] (scheme_name sch) it 1 = Ok (costs, k1, y1) /\
    evaluate_atlas real_clock no_others sv b0 exact_ag None None h5 x5 [[goal5]; [place_rows 1 mirror to5 goal1]] (scheme_name sch) it 1 = Ok (costs, k5, y5) /\
    evaluate_atlas real_clock no_others sv b0 exact_ag None None h2 x2 [[goal2 goal0]; [goal2 goal1]] (scheme_name sch) it 1 = Ok (times_costs (2 * 2) costs, k2, y2).
Proof.
  intros sv b0 sch it HS IT. pose proof (rigid_half 1) as HQ. fold mirror in HQ. pose proof exact_ag_exact as EX.
  destruct (line_atlas2_built 1 1 one11 one11 2) as ((h & x) & E1). destruct (line_atlas2_built 1 1 q5 p5 2) as ((h5 & x5) & E5). destruct (line_atlas2_built 1 1 two11 two11 4) as ((h2 & x2) & E2).
  change (DPoints (GLm 1 1 one11 one11)) with pt1 in E1. change (DPoints (GLm 1 1 q5 p5)) with pt5 in E5. change (DPoints (GLm 1 1 two11 two11)) with pt2 in E2.
  destruct (C80_hypotheses real_clock no_others sv b0 it 1 IT HS) as (_ & _ & W & W' & LT & LT' & EW & SH & SH' & _ & _ & RUN).
  destruct small_facts as (_ & W2 & _ & LT2 & _ & SH2 & EU).
  change ex0 with (start [pt1] [gt1]) in *. change ex1 with (start [pt5] [gt1]) in *. change ex2 with (start [pt2] [gt1]) in *.
  assert (LS : locals_smooth 1 (start [pt1] [gt1])) by (cbn; tauto).
  assert (OR : ordinary pt1 /\ ordinary pt5 /\ ordinary pt2).
  { repeat split; try (cbn; eauto 10); intros q; eexists; reflexivity. }
  destruct (RUN no_others sch 1 ltac:(lra)) as (sh & sh' & S & S' & _).
  assert (S2 : is_ok (shoot real_clock no_others sv b0 exact_ag (scheme_name sch) it 1 None true None (start [pt2] [gt1]))).
  { destruct ex2_shootable as (ms & EQ & SI & SP). unfold ex2, ex_mod in EQ. injection EQ as <-.
    apply moments_total; [lra|assumption|exact SI|exact SP|cbn; lia|exact EX|]. intros m. apply ex_total. }
  destruct (atlas_evaluates no_others sv b0 sch it pt1 2 h x goal0 goal1 E1 (proj1 OR) (ex_intro _ _ S)) as (c1 & k1 & y1 & A1).
  destruct (atlas_evaluates no_others sv b0 sch it pt5 2 h5 x5 goal5 (place_rows 1 mirror to5 goal1) E5 (proj1 (proj2 OR)) (ex_intro _ _ S')) as (c5 & k5 & y5 & A5).
  destruct (atlas_evaluates no_others sv b0 sch it pt2 4 h2 x2 (goal2 goal0) (goal2 goal1) E2 (proj2 (proj2 OR)) S2) as (c2 & k2 & y2 & A2).
  destruct (line2_subjects _ _ _ _ E1) as (NH & L & F). destruct (line2_subjects _ _ _ _ E5) as (NH5 & L5 & F5).
  destruct (line2_subjects _ _ _ _ E2) as (NH2 & L2 & F2).
  assert (AE : forall g, shape g = [1%nat; 1%nat] -> attached_elsewhere 1 mirror to5 [pt1] [eu] [[g]] [pt5] [eu] [[place_rows 1 mirror to5 g]]).
  { intros g Sg. assert (GE : geom_elsewhere 1 mirror to5 [g] [place_rows 1 mirror to5 g]) by (split; [split; reflexivity|reflexivity]).
    apply ae_cons; [exact Logic.I|exact GE| |apply ae_nil]. apply C102_attachments_in_models; [exact HQ|exact Logic.I|exact GE|].
    intros q0 q z E0 Sq D. cbn in E0, D. injection E0 as <-. injection D as <-. exists 1%nat. split; [exact Sq|exact Sg]. }
  assert (P5 : Forall2 (subject_elsewhere 1 mirror to5 h h5) (combine (a_models (x_atlas x)) [[goal0]; [goal1]]) (combine (a_models (x_atlas x5)) [[goal5]; [place_rows 1 mirror to5 goal1]])).
  { refine (pair_subjects _ _ _ _ _ _ (fun y y' => exists g, y = [g] /\ y' = [place_rows 1 mirror to5 g] /\ shape g = [1%nat; 1%nat]) _ _ _ _ _ _ F F5 ltac:(congruence) _).
    - cbv beta. intros r y r' y' (Q1 & Q2 & Q3 & Q4 & Q5 & Q6) (B1 & B2 & B3 & B4 & B5 & B6) (g & -> & -> & Sg). exists [pt1], [gt1], [pt5], [gt1]. cbn [fst snd].
      split; [exact Q1|]. split; [exact B1|]. split; [repeat split; congruence|]. split; [auto 8|]. split; [exact EW|]. rewrite Q5, B5. apply AE. exact Sg.
    - constructor; [exists goal0; repeat split|]. constructor; [exists goal1; repeat split|constructor]. }
  assert (P2 : Forall2 (subject_in_units 1 2 2 h h2) (combine (a_models (x_atlas x)) [[goal0]; [goal1]]) (combine (a_models (x_atlas x2)) [[goal2 goal0]; [goal2 goal1]])).
  { refine (pair_subjects _ _ _ _ _ _ (fun y y' => exists g, y = [g] /\ y' = [goal2 g] /\ shape g = [1%nat; 1%nat]) _ _ _ _ _ _ F F2 ltac:(congruence) _).
    - cbv beta. intros r y r' y' (Q1 & Q2 & Q3 & Q4 & Q5 & Q6) (B1 & B2 & B3 & B4 & B5 & B6) (g & -> & -> & Sg). exists [pt1], [gt1], [pt2], [gt1]. cbn [fst snd].
      split; [exact Q1|]. split; [exact B1|]. split; [rewrite Q3, B3; repeat split; try congruence; lra|]. split; [auto 8|]. split; [exact EU|]. rewrite Q5, B5. apply small_attached. exact Sg.
    - constructor; [exists goal0; repeat split|]. constructor; [exists goal1; repeat split|constructor]. }
  pose proof (C111_elsewhere no_others no_others sv sv b0 b0 exact_ag exact_ag None None h h5 x x5 _ _ sch it 1 1%nat mirror to5 _ _ _ _ _ _ HQ EX EX HS HS ltac:(lra) IT NH NH5 P5 A1 A5) as C5.
  pose proof (C111_units no_others no_others sv sv b0 b0 exact_ag exact_ag None None h h2 x x2 _ _ sch it 1 1%nat 2 2 _ _ _ _ _ _ ltac:(lra) EX EX HS HS ltac:(lra) IT NH NH2 P2 A1 A2) as C2.
  subst c5 c2. exists h, x, h5, x5, h2, x2, c1, k1, y1, k5, y5, k2, y2. split; [exact E1|]. split; [exact E5|]. split; [exact E2|]. split.
  { intros Q. apply (f_equal (fun t => t @2 0%nat 0%nat)) in Q. cbn in Q. lra. }
  split; [exact HQ|]. split; [exact EX|]. split; [exact NH|]. split; [exact NH5|]. split; [exact NH2|]. split; [exact P5|]. split; [exact P2|]. split; [rewrite combine_length, L; reflexivity|]. auto.
Qed.
