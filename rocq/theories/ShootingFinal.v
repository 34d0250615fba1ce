(** Whole shootings with the fixed step schemes. *)
From Coq Require Import Reals String List Arith ZArith Lia Lra.
From Verif Require Import Py RSum Tensor TensorFacts KernelModel FieldModel GeometryModel ModuleModel ShootingModel
  SpecField SpecGeometry SpecModule SpecShooting FieldFacts ModuleAlg ModuleMain ModuleLeaves ModuleHistory GeometryFacts
  ShootingPack ShootingDyn ShootingRun ShootingScheme ShootingMain ShootingInst.
Import ListNotations.
Open Scope R_scope.

Lemma nth_last {A} (l : list A) n x r : length l = S n -> rev l = x :: r -> nth_error l n = Some x.
Proof.
  intros L E. assert (l = rev r ++ [x]) by (rewrite <- (rev_involutive l), E; reflexivity). subst l. rewrite app_length in L. cbn in L.
  rewrite nth_error_app2 by lia. replace (n - length (rev r))%nat with 0%nat by lia. reflexivity.
Qed.
Lemma mapM_nth {A B} (f : A -> res B) : forall l r n a, mapM f l = Ok r -> nth_error l n = Some a -> exists b, nth_error r n = Some b /\ f a = Ok b.
Proof.
  induction l as [|x l IH]; intros r n a E H; [destruct n; discriminate|]. cbn [mapM] in E. bok E b Eb. bok E rs Er. injection E as <-.
  destruct n as [|n]; [injection H as <-; exists b; auto|]. cbn. eapply IH; eassumption.
Qed.
Lemma mapM_len {A B} (f : A -> res B) : forall l r, mapM f l = Ok r -> length r = length l.
Proof. induction l as [|x l IH]; intros r E; cbn [mapM] in E; [injection E as <-; reflexivity|]. bok E b Eb. bok E rs Er. injection E as <-. cbn. rewrite (IH _ Er). reflexivity. Qed.
Lemma mapM_map {A B C} (f : B -> res C) (h : A -> B) l : mapM f (map h l) = mapM (fun a => f (h a)) l.
Proof. induction l as [|a l IH]; [reflexivity|]. cbn [map mapM]. rewrite IH. reflexivity. Qed.
Lemma mapM_pure {A B} (f : A -> res B) (h : A -> B) l : Forall (fun a => f a = Ok (h a)) l -> mapM f l = Ok (map h l).
Proof. induction 1 as [|a l E _ IH]; [reflexivity|]. cbn [mapM map]. rewrite E, IH. reflexivity. Qed.
Lemma mapM_seq {A B} (f : A -> res B) (g : nat -> res B) : forall (l : list A) k n, length l = n ->
  (forall i a, nth_error l i = Some a -> g (k + i)%nat = f a) -> mapM g (seq k n) = mapM f l.
Proof.
  induction l as [|a l IH]; intros k n L H; cbn in L; subst n; [reflexivity|]. cbn [seq mapM]. rewrite <- (H 0%nat a eq_refl), Nat.add_0_r.
  rewrite (IH (S k) (length l) eq_refl); [reflexivity|]. intros i b Hb. rewrite <- (H (S i) b Hb). f_equal. lia.
Qed.

Section Final.
  Variables (sv : solver) (b0 : backend) (ag : autograd) (t1 : R) (it : nat) (controls : option (list ctrl)) (keep : bool) (m0 : dmod).
  Hypotheses (T1 : 0 < t1) (IT : (0 < it)%nat).
  Notation forward := (forward real_clock sv b0 ag t1 it controls keep).
  Notation g0 := (mod_manifold m0).
  Notation wm := (with_mom controls).
  Variables (Inv : fstate -> Prop) (sx : list nat) (L : tensor -> list tensor) (SH : list (list nat)) (vi : nat -> list nat)
            (D : nat -> Z -> list tensor -> list tensor -> Prop) (P : nat -> Z -> list tensor -> dmod -> Prop) (conv : tensor -> gman).
  Hypothesis L_shape : forall x, shape x = sx -> map shape (L x) = SH.
  Hypothesis L_val : forall x j, shape x = sx -> (j < shapes_numel SH)%nat -> cat_get (L x) j = get x (vi j).
  Hypothesis fwd : forall t x s y s', Inv s -> shape x = sx -> forward t x s = Ok (y, s') ->
    Inv s' /\ shape y = sx /\ D (f_it s) (f_true s') (L x) (L y) /\ P (f_it s) (f_true s') (L x) (f_mod s').
  Hypothesis Inv0 : Inv (mkF m0 0 0 [] []).
  Hypothesis InvK : forall s, Inv s -> skel (mod_manifold (f_mod s)) = skel g0.
  Hypothesis conv_ok : forall s gs x, Inv s -> shape x = sx -> member_manifolds (f_mod s) = Ok gs ->
    unpack_into gs (mod_manifold (f_mod s)) x wm = Ok (conv x) /\ unpack_into gs g0 x wm = Ok (conv x) /\ skel (conv x) = skel g0.

  Lemma final sch x0 m1 costs i : initial_state g0 wm = Ok x0 -> shape x0 = sx ->
    shoot_torchdiffeq real_clock sv b0 ag t1 it controls keep (fixed_solver real_clock (inc_of sch)) m0 = Ok (m1, costs, i) ->
    exists xs stages evs,
      length xs = S it /\ nth_error xs 0 = Some x0 /\ Forall (fun x => shape x = sx) xs /\
      length stages = it /\ Forall (fun ss => length ss = evaluations sch) stages /\
      trajectory sch (fun n => D n (Z.of_nat (cell sch it n))) (t1 / INR it) (map L xs) stages /\
      map (fun e => L (ev_state e)) evs = List.concat stages /\ length evs = (it * evaluations sch)%nat /\
      (forall n e, nth_error evs n = Some e -> P n (Z.of_nat (cell sch it n)) (L (ev_state e)) (ev_mod real_clock e)) /\
      (exists x, nth_error xs it = Some x /\ mod_manifold m1 = conv x) /\
      length costs = it /\
      (forall k, (k < it)%nat -> exists e c, nth_error evs (recorded_at sch k) = Some e /\ cost (ev_mod real_clock e) = Ok c /\ nth_error costs k = Some c) /\
      in_states i = (if keep then map conv xs else []) /\
      (if keep then mapM (fun e => clone_controls (ModuleModel.controls (ev_mod real_clock e))) evs = Ok (in_controls i) else in_controls i = []).
  Proof.
    intros X0 SX E. unfold shoot_torchdiffeq in E. rewrite X0 in E. cbn [bind] in E. bok E xss Exss. destruct xss as (xs & s). bok E gs Egs.
    bok E xl Exl. bok E gl Egl. bok E m1' Em1. bok E sts Ests. injection E as <- <- <-.
    destruct (run_steps _ _ _ _ _ _ _ _ _ _ _ _ Exss) as (evs & ST). pose proof (steps_book _ _ _ _ _ _ _ _ _ _ _ _ _ ST) as (_ & _ & (csts & CM & CE) & KE).
    cbn [f_it f_costs f_controls f_true app] in *.
    assert (GR : linspace real_clock t1 (it + 1) = g t1 it 0 :: map (g t1 it) (seq 1 it)).
    { cbn [linspace real_clock]. rewrite Nat.add_1_r. cbn [seq map]. unfold g. replace (S it - 1)%nat with it by lia. reflexivity. }
    rewrite GR in ST. cbn [fixed_solver] in ST.
    destruct (all_steps sv b0 ag t1 it controls keep T1 IT Inv sx L SH vi D P L_shape L_val fwd sch it 0 x0 [x0] _ evs xs s eq_refl Inv0 SX eq_refl ST)
      as (ys & stages & -> & Ly & Ls & Sys & IS & Le & TR & CC & FS & EV).
    cbn [Nat.mul Nat.add] in TR, EV. cbn [app] in *.
    assert (SXS : Forall (fun x => shape x = sx) (x0 :: ys)) by (constructor; assumption).
    assert (XL : nth_error (x0 :: ys) it = Some xl).
    { destruct (rev (x0 :: ys)) as [|z r] eqn:RV; [discriminate|]. injection Exl as ->. apply (nth_last _ _ _ r); [cbn; lia|assumption]. }
    exists (x0 :: ys), stages, evs.
    split; [cbn; lia|]. split; [reflexivity|]. split; [assumption|]. split; [assumption|]. split; [assumption|].
    split. { split; [rewrite map_length; cbn; lia|]. intros k l ss l' A B C. exact (TR k l ss l' A B C). }
    split; [assumption|]. split; [assumption|]. split. { intros n e H. exact (proj2 (proj2 (EV n e H))). }
    assert (XLS : shape xl = sx) by (rewrite Forall_forall in SXS; apply SXS; eapply nth_error_In; eassumption).
    split.
    { exists xl. split; [assumption|]. destruct (conv_ok s gs xl IS XLS Egs) as (U & _ & K). rewrite U in Egl. injection Egl as <-.
      destruct (set_ok (f_mod s) (conv xl)) as (m1'' & A & B & _); [rewrite K; symmetry; apply InvK; assumption|]. congruence. }
    assert (TG : map (ev_info real_clock) evs = tag dmod sch it 0 (map (ev_mod real_clock) evs)).
    { apply tag_eq. intros j e H. destruct (EV j e H) as (A & B & _). unfold ev_info. rewrite A, B. reflexivity. }
    destruct (entering_all sch it (map (ev_mod real_clock) evs) IT) as (EL & EN); [rewrite map_length; assumption|]. rewrite <- TG in EL, EN.
    split; [rewrite CE, (mapM_len _ _ _ CM); exact EL|]. split.
    { intros k Hk. destruct (nth_error (entering 0 (map (ev_info real_clock) evs)) k) as [mk|] eqn:NE; [|apply nth_error_None in NE; lia].
      destruct (mapM_nth _ _ _ _ _ CM NE) as (c & Nc & Cc). rewrite EN, nth_error_map in NE by assumption.
      destruct (nth_error evs (recorded_at sch k)) as [e|] eqn:Ne; [|discriminate]. injection NE as <-. exists e, c. rewrite CE. auto. }
    split.
    { cbn [in_states]. destruct keep; [|injection Ests as <-; reflexivity].
      rewrite (mapM_seq (fun x => unpack_into gs g0 x wm) _ (x0 :: ys)) in Ests; [|cbn; lia|].
      - rewrite (mapM_pure _ conv) in Ests; [injection Ests as <-; reflexivity|]. eapply Forall_impl; [|exact SXS]. intros x Sx. exact (proj1 (proj2 (conv_ok s gs x IS Sx Egs))).
      - intros i a Ha. cbn [Nat.add]. rewrite Ha. reflexivity. }
    cbn [in_controls]. destruct keep; [|assumption]. destruct KE as (ks & A & B). rewrite B. exact A.
  Qed.
End Final.

Section Whole.
  Variables (sv : solver) (b0 : backend) (ag : autograd) (t1 : R) (it : nat) (keep : bool) (ms : list dmod).
  Hypotheses (T1 : 0 < t1) (IT : (0 < it)%nat).
  Notation m0 := (MComp ms).
  Notation g0 := (mod_manifold m0).
  Notation geo := (geodesic_controls sv b0).
  Hypotheses (SI : Forall simple (map mod_manifold ms)) (SP : shaped g0).

  Lemma init_pos wm x : initial_state g0 wm = Ok x -> (0 < N ms)%nat.
  Proof.
    intros E. destruct (gd_shapes ms SI SP) as (A & B). unfold initial_state in E. bok E v Ev. bok E x1 Ex.
    assert (NL : numel (g_gd g0 ++ g_cotan g0) = (2 * N ms)%nat) by (rewrite numel_app, (numel_shs _ _ A), (numel_shs _ _ B); lia).
    exact (proj1 (proj2 (rows_ok 2 (N ms) _ v x1 NL ltac:(lia) Ev Ex))).
  Qed.
  Definition conv (wm : bool) (x : tensor) : gman := match unpack_into (gs0 ms) g0 x wm with Ok g => g | Err _ => g0 end.

  Lemma conv2 gs g x : map skel gs = map skel (gs0 ms) -> skel g = skel g0 -> shape x = [2%nat; N ms] ->
    unpack_into gs g x true = Ok (conv true x) /\ phase (conv true x) = L2 ms x /\ skel (conv true x) = skel g0 /\
    g_gd (conv true x) = Q ms x.
  Proof.
    intros KS K S.
    assert (A : forall gs g, map skel gs = map skel (gs0 ms) -> skel g = skel g0 -> exists g', unpack_into gs g x true = Ok g' /\ phase g' = L2 ms x /\ skel g' = skel g0 /\
       map shape (g_gd g') = shs ms /\ map shape (g_cotan g') = shs ms).
    { clear gs g KS K. intros gs g KS K. apply (unpack_state ms SI (MComp (map MSilent gs)) gs x); [| |assumption|assumption|assumption].
      - cbn [mod_manifold skel]. rewrite !map_map. f_equal. unfold gs0 in KS. rewrite map_map in KS. exact KS.
      - cbn [mod_manifold]. rewrite map_map. f_equal. exact (map_id gs). }
    destruct (A (gs0 ms) g0 eq_refl eq_refl) as (c & C1 & C2 & C3 & C4 & C5). unfold conv. rewrite C1.
    destruct (A gs g KS K) as (c' & C1' & C2' & C3' & C4' & _).
    assert (LG : length (g_gd c') = length (g_gd c)) by (rewrite <- (map_length shape (g_gd c')), C4', <- C4, map_length; reflexivity).
    destruct (phase_split c (g_gd c') (g_cotan c') ltac:(unfold phase in *; congruence) LG) as (G1 & G2).
    split; [rewrite C1'; f_equal; apply g_ext; congruence|]. split; [assumption|]. split; [assumption|].
    destruct (unpack_any ms SI x _ 0 S) as (q & U & Sq & _).
    destruct (phase_split c (Q ms x) (match unpack (gs0 ms) (row 1 x) 0 with Ok q => q | Err _ => [] end)) as (W & _); [exact C2| |exact W].
    unfold Q. rewrite U. rewrite <- (map_length shape q), Sq, <- C4, map_length. reflexivity.
  Qed.

  Lemma conv1 gs g x : map skel gs = map skel (gs0 ms) -> skel g = skel g0 -> g_cotan g = g_cotan g0 -> shape x = [1%nat; N ms] ->
    unpack_into gs g x false = Ok (conv false x) /\ g_gd (conv false x) = Q ms x /\ g_cotan (conv false x) = g_cotan g0 /\ skel (conv false x) = skel g0.
  Proof.
    intros KS K CT S.
    assert (A : forall gs g, map skel gs = map skel (gs0 ms) -> skel g = skel g0 -> exists g', unpack_into gs g x false = Ok g' /\ g_gd g' = Q ms x /\ g_cotan g' = g_cotan g /\ skel g' = skel g0 /\
       map shape (g_gd g') = shs ms).
    { clear gs g KS K CT. intros gs g KS K. apply (unpack_state1 ms SI (MComp (map MSilent gs)) gs x); [| |assumption|assumption|assumption].
      - cbn [mod_manifold skel]. rewrite !map_map. f_equal. unfold gs0 in KS. rewrite map_map in KS. exact KS.
      - cbn [mod_manifold]. rewrite map_map. f_equal. exact (map_id gs). }
    destruct (A (gs0 ms) g0 eq_refl eq_refl) as (c & C1 & C2 & C3 & C4 & C5). unfold conv. rewrite C1.
    destruct (A gs g KS K) as (c' & C1' & C2' & C3' & C4' & _). split; [rewrite C1'; f_equal; apply g_ext; congruence|]. auto.
  Qed.

  Lemma row_leq x r l l' : row_is x r l -> row_is x r l' -> map shape l = map shape l' -> leq l l'.
  Proof. intros A B C. eapply row_is_inj; eassumption. Qed.

  (** *** Moments *)
  Section Moments.
  Hypothesis EX : exact_grad ag.

  Theorem whole_moments others sch costs0 sh :
    shoot real_clock others sv b0 ag (scheme_name sch) it t1 None keep costs0 m0 = Ok sh ->
    exists states stages mods costs,
      length states = S it /\ length stages = it /\ Forall (fun ss => length ss = evaluations sch) stages /\
      trajectory sch (fun _ => hamilton (ham_of m0 geo)) (t1 / INR it) (map phase states) stages /\
      (exists g, nth_error states 0 = Some g /\ same_values g g0) /\
      nth_error states it = Some (mod_manifold (sh_mod sh)) /\
      Forall (fun g => skel g = skel g0) states /\
      mapM (at_state m0 geo) (List.concat stages) = Ok mods /\
      sh_costs sh = Some costs /\ length costs = it /\
      (forall k, (k < it)%nat -> exists mk c, nth_error mods (recorded_at sch k) = Some mk /\ cost mk = Ok c /\ nth_error costs k = Some c) /\
      (if keep then exists cs, mapM (fun m => clone_controls (controls m)) mods = Ok cs /\ sh_inter sh = Some (mkInter states cs)
       else sh_inter sh = None).
  Proof.
    intros E. unfold shoot in E. replace (String.eqb (scheme_name sch) "torch_euler") with false in E by (destruct sch; reflexivity).
    rewrite find_scheme in E. bok E r Er. destruct r as ((m1 & csts) & i). cbn [fst snd] in E. injection E as <-. cbn [sh_mod sh_costs sh_inter].
    pose proof Er as Er0. unfold shoot_torchdiffeq in Er0. cbn [with_mom] in Er0. bok Er0 x0 Ex0. clear Er0.
    pose proof (init_pos true x0 Ex0) as NP. destruct (gd_shapes ms SI SP) as (GA & GB).
    destruct (initial_state_ok g0 (N ms) (numel_shs _ _ GA) (numel_shs _ _ GB) NP) as (x0' & Ex0' & SX & R0 & R1). rewrite Ex0 in Ex0'. injection Ex0' as <-.
    destruct (final sv b0 ag t1 it None keep m0 T1 IT (Inv2 ms) [2%nat; N ms] (L2 ms) (shs ms ++ shs ms) (vi ms)
        (fun _ _ => hamilton (ham_of m0 geo)) (fun _ _ l m => at_state m0 geo l = Ok m) (conv true)) with (sch := sch) (x0 := x0) (m1 := m1) (costs := csts) (i := i)
      as (xs & stages & evs & A1 & A2 & A3 & A4 & A5 & A6 & A7 & A8 & A9 & A10 & A11 & A12 & A13 & A14); try assumption.
    - intros x S. apply L2_shape; assumption.
    - intros x j S. apply L2_val; assumption.
    - intros t x s y s' I S F. exact (fwd2 sv b0 ag ms SI real_clock t1 it keep EX t x s y s' I S F).
    - split; reflexivity.
    - intros s I. exact (proj2 I).
    - intros s gs x I S MM. destruct I as (IF & IK). destruct (member_ok ms (f_mod s) IK (frozen_comp ms _ IF)) as (gs' & Eg & EM & KS). rewrite MM in Eg. injection Eg as <-.
      destruct (conv2 gs (mod_manifold (f_mod s)) x KS IK S) as (U1 & _ & K1 & _). destruct (conv2 gs g0 x KS eq_refl S) as (U2 & _). auto.
    - assert (PH : map phase (map (conv true) xs) = map (L2 ms) xs).
      { rewrite map_map. apply map_ext_in. intros x Hx. rewrite Forall_forall in A3. exact (proj1 (proj2 (conv2 (gs0 ms) g0 x eq_refl eq_refl (A3 x Hx)))). }
      exists (map (conv true) xs), stages, (map (ev_mod real_clock) evs), csts.
      split; [rewrite map_length; assumption|]. split; [assumption|]. split; [assumption|]. split; [rewrite PH; exact A6|].
      split. { exists (conv true x0). rewrite nth_error_map, A2. split; [reflexivity|]. destruct (conv2 (gs0 ms) g0 x0 eq_refl eq_refl SX) as (_ & PX & KX & GX).
        destruct (unpack_any ms SI x0 _ 0 SX) as (q & U & Sq & RQ). destruct (unpack_any ms SI x0 _ 1 SX) as (p & U' & Sp & RP).
        unfold Q in GX. rewrite U in GX. destruct (phase_split _ q p ltac:(rewrite PX; unfold L2, Q; rewrite U, U'; reflexivity) ltac:(rewrite GX; reflexivity)) as (G1 & G2).
        split; (split; [assumption|]); rewrite ?G1, ?G2; eapply row_leq; try eassumption; congruence. }
      split. { destruct A10 as (x & NX & MX). rewrite nth_error_map, NX, MX. reflexivity. }
      split. { rewrite Forall_map. eapply Forall_impl; [|exact A3]. intros x Sx. exact (proj1 (proj2 (proj2 (conv2 (gs0 ms) g0 x eq_refl eq_refl Sx)))). }
      split. { rewrite <- A7. rewrite mapM_map. apply mapM_pure. apply Forall_forall. intros e He. destruct (In_nth_error _ _ He) as (n & Hn). exact (A9 n e Hn). }
      split; [reflexivity|]. split; [assumption|].
      split. { intros k Hk. destruct (A12 k Hk) as (e & c & B1 & B2 & B3). exists (ev_mod real_clock e), c. pose proof (map_nth_error (ev_mod real_clock) _ _ B1). auto. }
      destruct keep; [|reflexivity]. exists (in_controls i). rewrite mapM_map. split; [assumption|]. destruct i as (st & ct). cbn [in_states in_controls] in *. subst st. reflexivity.
  Qed.
  End Moments.

  (** *** Given controls *)
  Section Given.
  Variables (d : nat) (cs : list ctrl).
  Hypothesis HS : exact_solver sv.
  Hypothesis RD : forall q m1 c, map shape q = map shape (g_gd g0) -> write_manifold m0 (q ++ g_cotan g0) = Ok m1 -> In c cs -> wf_mod d m1 /\ ctrl_ok d m1 c.

  Theorem whole_controls others sch costs0 sh :
    shoot real_clock others sv b0 ag (scheme_name sch) it t1 (Some cs) keep costs0 m0 = Ok sh ->
    exists states stages mods costs,
      length states = S it /\ length stages = it /\ Forall (fun ss => length ss = evaluations sch) stages /\
      trajectory sch (fun n q k => exists c, py_nth cs (control_index it (length cs) (Z.of_nat (cell sch it n)) n) = Ok c /\ driven sv m0 c q k)
        (t1 / INR it) (map g_gd states) stages /\
      (exists g, nth_error states 0 = Some g /\ same_gd g g0) /\
      nth_error states it = Some (mod_manifold (sh_mod sh)) /\
      Forall (fun g => skel g = skel g0 /\ g_cotan g = g_cotan g0) states /\
      length mods = (it * evaluations sch)%nat /\
      (forall n mn q, nth_error mods n = Some mn -> nth_error (List.concat stages) n = Some q ->
         exists c, py_nth cs (control_index it (length cs) (Z.of_nat (cell sch it n)) n) = Ok c /\
           at_state m0 (fun m => fill_controls sv m c) (q ++ g_cotan g0) = Ok mn) /\
      sh_costs sh = Some costs /\ length costs = it /\
      (forall k, (k < it)%nat -> exists mk c, nth_error mods (recorded_at sch k) = Some mk /\ cost mk = Ok c /\ nth_error costs k = Some c) /\
      (if keep then exists cs, mapM (fun m => clone_controls (controls m)) mods = Ok cs /\ sh_inter sh = Some (mkInter states cs)
       else sh_inter sh = None).
  Proof.
    intros E. unfold shoot in E. replace (String.eqb (scheme_name sch) "torch_euler") with false in E by (destruct sch; reflexivity).
    rewrite find_scheme in E. bok E r Er. destruct r as ((m1 & csts) & i). cbn [fst snd] in E. injection E as <-. cbn [sh_mod sh_costs sh_inter].
    pose proof Er as Er0. unfold shoot_torchdiffeq in Er0. cbn [with_mom] in Er0. bok Er0 x0 Ex0. clear Er0.
    pose proof (init_pos false x0 Ex0) as NP. destruct (gd_shapes ms SI SP) as (GA & GB).
    destruct (initial_state1_ok g0 (N ms) (numel_shs _ _ GA) (numel_shs _ _ GB) NP) as (x0' & Ex0' & SX & R0). rewrite Ex0 in Ex0'. injection Ex0' as <-.
    destruct (final sv b0 ag t1 it (Some cs) keep m0 T1 IT (Inv1 ms) [1%nat; N ms] (Q ms) (shs ms) (fun j => [0%nat; j])
        (fun n i q k => exists c, control_of it cs i n c /\ driven sv m0 c q k)
        (fun n i q m => exists c, control_of it cs i n c /\ at_state m0 (fun m => fill_controls sv m c) (q ++ g_cotan g0) = Ok m) (conv false)) with (sch := sch) (x0 := x0) (m1 := m1) (costs := csts) (i := i)
      as (xs & stages & evs & A1 & A2 & A3 & A4 & A5 & A6 & A7 & A8 & A9 & A10 & A11 & A12 & A13 & A14); try assumption.
    - intros x S. apply Q_shape; assumption.
    - intros x j S. apply Q_val; assumption.
    - intros t x s y s' I S F. refine (fwd1 sv b0 ag ms SI SP real_clock t1 it keep d cs HS _ t x s y s' I S F).
      intros q m2 c Sq. apply RD. rewrite GA. exact Sq.
    - split; [reflexivity|]. split; reflexivity.
    - intros s I. exact (proj1 (proj2 I)).
    - intros s gs x I S MM. destruct I as (IF & IK & IC). destruct (member_ok ms (f_mod s) IK (params_comp ms _ IF)) as (gs' & Eg & EM & KS). rewrite MM in Eg. injection Eg as <-.
      destruct (conv1 gs (mod_manifold (f_mod s)) x KS IK IC S) as (U1 & _ & _ & K1). destruct (conv1 gs g0 x KS eq_refl eq_refl S) as (U2 & _). auto.
    - assert (PH : map g_gd (map (conv false) xs) = map (Q ms) xs).
      { rewrite map_map. apply map_ext_in. intros x Hx. rewrite Forall_forall in A3. exact (proj1 (proj2 (conv1 (gs0 ms) g0 x eq_refl eq_refl eq_refl (A3 x Hx)))). }
      exists (map (conv false) xs), stages, (map (ev_mod real_clock) evs), csts.
      split; [rewrite map_length; assumption|]. split; [assumption|]. split; [assumption|]. split; [rewrite PH; exact A6|].
      split. { exists (conv false x0). rewrite nth_error_map, A2. split; [reflexivity|]. destruct (conv1 (gs0 ms) g0 x0 eq_refl eq_refl eq_refl SX) as (_ & GX & _ & KX).
        destruct (unpack_any ms SI x0 _ 0 SX) as (q & U & Sq & RQ). unfold Q in GX. rewrite U in GX.
        split; [assumption|]. rewrite GX. eapply row_leq; try eassumption; congruence. }
      split. { destruct A10 as (x & NX & MX). rewrite nth_error_map, NX, MX. reflexivity. }
      split. { rewrite Forall_map. eapply Forall_impl; [|exact A3]. intros x Sx. destruct (conv1 (gs0 ms) g0 x eq_refl eq_refl eq_refl Sx) as (_ & _ & B & C). auto. }
      split; [rewrite map_length; assumption|].
      split. { intros n mn q Hn Hq. rewrite nth_error_map in Hn. match type of Hn with option_map _ ?o = _ => destruct o as [e|] eqn:En end; [|discriminate]. injection Hn as <-.
        rewrite <- A7 in Hq. rewrite (map_nth_error (fun e => Q ms (ev_state e)) n evs En) in Hq. injection Hq as <-. exact (A9 n e En). }
      split; [reflexivity|]. split; [assumption|].
      split. { intros k Hk. destruct (A12 k Hk) as (e & c & B1 & B2 & B3). exists (ev_mod real_clock e), c. pose proof (map_nth_error (ev_mod real_clock) _ _ B1). auto. }
      destruct keep; [|reflexivity]. exists (in_controls i). rewrite mapM_map. split; [assumption|]. destruct i as (st & ct). cbn [in_states in_controls] in *. subst st. reflexivity.
  Qed.
  End Given.
End Whole.
