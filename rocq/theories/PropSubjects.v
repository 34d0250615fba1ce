(** The subjects of an atlas are independent of each other and of their order (C112). *)
From Coq Require Import Reals String List Arith Lia Lra Permutation.
From Verif Require Import Py RSum Tensor KernelModel FieldModel GeometryModel ModuleModel ShootingModel SpecKernel SpecField
  RegistrationModel AtlasModel SpecModule SpecShooting SpecRegistration SpecAtlas ModuleMain ModuleLeaves ShootingDyn ShootingExample
  RegistrationRun RegistrationHeap RegistrationParams RegistrationLife RegistrationAtlas RegistrationShoot PropRegistration AtlasFacts PropAtlas SpecSmooth DiffBuild PropSmooth.
Import ListNotations.
Open Scope string_scope.
Open Scope list_scope.
Open Scope R_scope.

Section Subjects.
  Variable ck : clock.
  Variable others : string -> option (list (time ck) -> tensor -> strat (time ck)).
  Variables (sv : solver) (b0 : backend) (ag : autograd).
  Notation eval := (evaluate ck others sv b0 ag).

  Definition subject_costs h name it t1 (s : reg * geom) (d : list (string * R)) : Prop := exists r1, eval h (fst s) [snd s] name it t1 [] = Ok (d, r1).

  Lemma subjects_each h tp name it t1 : forall rs ts base cc hh xs,
    evaluate_subjects ck others sv b0 ag None h tp None rs ts name it t1 base = Ok (cc, hh, xs) ->
    exists ds, Forall2 (subject_costs h name it t1) (combine rs ts) ds /\ cc = fold_left append_in_dict ds base /\ hh = h.
  Proof.
    induction rs as [|r rs IH]; intros ts base cc hh xs E; cbn [evaluate_subjects] in E; [injection E as <- <- <-; exists []; repeat split; constructor|].
    destruct ts as [|t ts]; [injection E as <- <- <-; exists []; repeat split; constructor|]. cbn [bind] in E. rewrite C84_without_callback in E.
    bok E y HE1. bok HE1 z HE2. destruct z as (d & r1). injection HE1 as <-. bok E w HE3. destruct w as ((cc1 & h2) & rs1). injection E as <- <- <-.
    destruct (IH _ _ _ _ _ HE3) as (ds & F & EC & EH). exists (d :: ds). split; [constructor; [exists r1; exact HE2|exact F]|]. split; [exact EC|exact EH].
  Qed.
  Lemma each_turn h name it t1 : forall rs ts ds, Forall2 (subject_costs h name it t1) (combine rs ts) ds -> in_turn ck others sv b0 ag None name it t1 h rs ts ds h.
  Proof.
    induction rs as [|r rs IH]; intros ts ds F; [inversion F; apply turn_end; auto|]. destruct ts as [|t ts]; [inversion F; apply turn_end; auto|].
    cbn [combine] in F. inversion F as [|? d ? ds' (r1 & E) F']; subst. cbn [fst snd] in E. eapply turn_next; [|apply IH; exact F']. rewrite C84_without_callback, E. reflexivity.
  Qed.
  Lemma forall2_permuted {A B} (P : A -> B -> Prop) l l' : Permutation l l' -> forall m, Forall2 P l m -> exists m', Forall2 P l' m' /\ Permutation m m'.
  Proof.
    induction 1 as [|x l l' _ IH|x y l|l1 l2 l3 _ IH1 _ IH2]; intros m F.
    - inversion F; subst. exists []. split; constructor.
    - inversion F as [|? b ? n Pb Fn]; subst. destruct (IH n Fn) as (m' & F' & P'). exists (b :: m'). split; constructor; assumption.
    - inversion F as [|? b ? n Pb Fn]; subst. inversion Fn as [|? c ? o Pc Fo]; subst. exists (c :: b :: o). split; [repeat constructor; assumption|apply perm_swap].
    - destruct (IH1 m F) as (m1 & F1 & P1). destruct (IH2 m1 F1) as (m2 & F2 & P2). exists m2. split; [exact F2|eapply perm_trans; eassumption].
  Qed.
  Lemma total_permuted l l' : Permutation l l' -> total l = total l'.
  Proof. induction 1; cbn [total fold_right] in *; fold total in *; unfold total in *; cbn [fold_right] in *; lra. Qed.
  Lemma under_permuted k ds ds' : Permutation ds ds' -> Permutation (under k ds) (under k ds').
  Proof. intros P. unfold under. apply Permutation_flat_map. exact P. Qed.
End Subjects.

(** The subjects of an atlas and their targets may be given in any order: each entry of the
    costs is the same (and evaluating succeeds as well). *)
Theorem C112_any_order : forall ck others sv b0 ag own h x rs' targets targets' name it t1 costs h1 x1,
  x_ht x = None -> Permutation (combine (a_models (x_atlas x)) targets) (combine rs' targets') ->
  evaluate_atlas ck others sv b0 ag own None h x targets name it t1 = Ok (costs, h1, x1) ->
  exists costs' x1', evaluate_atlas ck others sv b0 ag own None h (with_models x rs') targets' name it t1 = Ok (costs', h1, x1') /\
    forall k, dict_get costs' k = dict_get costs k.
Proof.
  intros ck others sv b0 ag own h x rs' targets targets' name it t1 costs h1 x1 NH P E. pose proof E as E0. unfold evaluate_atlas in E. rewrite NH in E. bok E y HE. destruct y as ((cc & h2) & rs).
  destruct (subjects_each ck others sv b0 ag _ _ _ _ _ _ _ _ _ _ _ HE) as (ds & F & EC & ->).
  assert (NE : ds <> []) by (intros ->; cbn in EC; subst cc; discriminate E).
  assert (EH : h1 = h) by (destruct cc; [discriminate E|injection E as _ <- _; reflexivity]). subst h1.
  destruct (forall2_permuted _ _ _ P _ F) as (ds' & F' & PD).
  assert (NE' : ds' <> []) by (intros ->; apply Permutation_sym, Permutation_nil in PD; contradiction).
  destruct (C84_atlas_costs ck others sv b0 ag own None h x targets name it t1 ds h NH NE (each_turn ck others sv b0 ag _ _ _ _ _ _ _ F)) as (c2 & x2 & E2 & G). rewrite E0 in E2. injection E2 as <- <-.
  destruct (C84_atlas_costs ck others sv b0 ag own None h (with_models x rs') targets' name it t1 ds' h NH NE' (each_turn ck others sv b0 ag _ _ _ _ _ _ _ F')) as (c3 & x3 & E3 & G3).
  exists c3, x3. split; [exact E3|]. intros k. rewrite G, G3. pose proof (under_permuted k _ _ PD) as PU. 
  destruct (under k ds) as [|a l]; [apply Permutation_nil in PU; rewrite PU; reflexivity|]. destruct (under k ds') as [|b m]; [apply Permutation_sym, Permutation_nil in PU; discriminate PU|].
  rewrite (total_permuted _ _ PU). reflexivity.
Qed.
Print Assumptions C112_any_order.

(** ** The sum of the costs *)
Definition all_lists (c : list (string * list R)) : R := total (map (fun kv => total (snd kv)) c).
Lemma all_set c k l : all_lists (dict_set c k l) = all_lists c - total (opt_list (dict_get c k)) + total l.
Proof.
  induction c as [|(a, w) c IH]; [unfold all_lists, total; cbn [dict_set dict_get map fold_right opt_list snd]; lra|]. cbn [dict_set dict_get]. unfold all_lists, total in *. cbn [map fold_right snd]. destruct (a =? k); cbn [map fold_right snd opt_list]; [lra|]. rewrite IH. lra.
Qed.
Lemma all_append d : forall base, all_lists (append_in_dict base d) = all_lists base + total (map snd d).
Proof.
  induction d as [|(k, v) d IH]; intros base; [unfold total; cbn [append_in_dict fold_left map fold_right]; symmetry; apply Rplus_0_r|]. unfold append_in_dict in *. cbn [fold_left fst snd]. rewrite IH, all_set. unfold total. cbn [map fold_right snd].
  destruct (dict_get base k) as [l|]; cbn [opt_list fold_right]; [|lra]. change (fold_right Rplus 0 (l ++ [v])) with (total (l ++ [v])). change (fold_right Rplus 0 l) with (total l).
  assert (X : total (l ++ [v]) = total l + v) by (unfold total; induction l as [|a l IHl]; cbn [app fold_right]; [lra|]; rewrite IHl; lra). rewrite X. lra.
Qed.
Lemma all_each ds : forall base, all_lists (fold_left append_in_dict ds base) = all_lists base + total (map (fun d => total (map snd d)) ds).
Proof. induction ds as [|d ds IH]; intros base; [unfold total; cbn [fold_left map fold_right]; symmetry; apply Rplus_0_r|]. cbn [fold_left]. rewrite IH, all_append. unfold total. cbn [map fold_right]. lra. Qed.

Lemma atlas_each ck others sv b0 ag own h x targets name it t1 costs h1 x1 : x_ht x = None ->
  evaluate_atlas ck others sv b0 ag own None h x targets name it t1 = Ok (costs, h1, x1) ->
  exists ds, Forall2 (subject_costs ck others sv b0 ag h name it t1) (combine (a_models (x_atlas x)) targets) ds /\
    total (map snd costs) = total (map (fun d => total (map snd d)) ds).
Proof.
  intros NH E. unfold evaluate_atlas in E. rewrite NH in E. bok E y HE. destruct y as ((cc & h2) & rs). destruct (subjects_each ck others sv b0 ag _ _ _ _ _ _ _ _ _ _ _ HE) as (ds & F & EC & ->).
  exists ds. split; [exact F|].
  assert (K : costs = map (fun kv => (fst kv, py_sum (snd kv))) cc) by (destruct cc; [discriminate E|injection E as <- _ _; reflexivity]).
  pose proof (all_each ds []) as A. rewrite <- EC in A. unfold all_lists at 2 in A. cbn [map] in A. rewrite K, map_map. cbn [snd].
  rewrite (map_ext (fun kv : string * list R => py_sum (snd kv)) (fun kv => total (snd kv))) by (intros; apply py_sum_total). fold (all_lists cc). rewrite A. unfold total at 1. cbn [fold_right]. lra.
Qed.

(** What the moments of one subject (and its other tensors that no other subject uses) do to
    the cost of the atlas is what they do to the cost of the registration of this subject. *)
Theorem C112_one_subject : forall ck others sv b0 ag own own' h h' x targets name it t1 costs h1 x1 costs' h1' x1' i r t,
  x_ht x = None -> nth_error (a_models (x_atlas x)) i = Some r -> nth_error targets i = Some t ->
  (forall j rj k, j <> i -> nth_error (a_models (x_atlas x)) j = Some rj -> In k (tensors_of rj) -> deref h' k = deref h k) ->
  evaluate_atlas ck others sv b0 ag own None h x targets name it t1 = Ok (costs, h1, x1) ->
  evaluate_atlas ck others sv b0 ag own' None h' x targets name it t1 = Ok (costs', h1', x1') ->
  exists d r1 d' r1', evaluate ck others sv b0 ag h r [t] name it t1 [] = Ok (d, r1) /\ evaluate ck others sv b0 ag h' r [t] name it t1 [] = Ok (d', r1') /\
    total (map snd costs') - total (map snd costs) = total (map snd d') - total (map snd d).
Proof.
  intros ck others sv b0 ag own own' h h' x targets name it t1 costs h1 x1 costs' h1' x1' i r t NH ER ET AG E E'.
  destruct (atlas_each _ _ _ _ _ _ _ _ _ _ _ _ _ _ _ NH E) as (ds & F & ->). destruct (atlas_each _ _ _ _ _ _ _ _ _ _ _ _ _ _ _ NH E') as (ds' & F' & ->).
  clear E E'. revert AG ER ET F F'. generalize (a_models (x_atlas x)) as rs. intros rs. revert rs targets ds ds'.
  assert (S : forall rs ts ds ds', (forall rj k, In rj rs -> In k (tensors_of rj) -> deref h' k = deref h k) ->
    Forall2 (subject_costs ck others sv b0 ag h name it t1) (combine rs ts) ds -> Forall2 (subject_costs ck others sv b0 ag h' name it t1) (combine rs ts) ds' -> ds' = ds).
  { induction rs as [|ra rs IH]; intros ts ds ds' A F F'; [inversion F; inversion F'; reflexivity|]. destruct ts as [|ta ts]; [inversion F; inversion F'; reflexivity|]. cbn [combine] in F, F'.
    inversion F as [|? d ? e (r1 & D) FT]; subst. inversion F' as [|? d' ? e' (r1' & D') FT']; subst. cbn [fst snd] in D, D'. f_equal; [|apply (IH ts); [intros; eapply A; [right|]; eassumption| |]; assumption].
    destruct (C30_evaluations_read_the_tensors ck others sv b0 ag h h' ra (fun k I => A ra k (or_introl eq_refl) I)) as (X & _). rewrite X in D'. rewrite D in D'. injection D' as <- _. reflexivity. }
  induction i as [|i IH]; intros rs ts ds ds' AG ER ET F F'; (destruct rs as [|ra rs]; [discriminate ER|]); (destruct ts as [|ta ts]; [discriminate ET|]); cbn [combine] in F, F';
    inversion F as [|? d ? e (r1 & D) FT]; subst; inversion F' as [|? d' ? e' (r1' & D') FT']; subst; cbn [fst snd] in D, D'; unfold total at 1 3; cbn [map fold_right].
  - cbn [nth_error] in ER, ET. injection ER as ->. injection ET as ->. exists d, r1, d', r1'. split; [exact D|]. split; [exact D'|].
    rewrite (S rs ts e e'); [lra| |exact FT|exact FT']. intros rj k I J. destruct (In_nth_error _ _ I) as (n & N). apply (AG (Datatypes.S n) rj k); [discriminate|exact N|exact J].
  - cbn [nth_error] in ER, ET. destruct (IH rs ts e e') as (a & ra1 & a' & ra1' & A & A' & Q); [intros j rj k NJ; apply (AG (Datatypes.S j)); congruence|exact ER|exact ET|exact FT|exact FT'|].
    exists a, ra1, a', ra1'. split; [exact A|]. split; [exact A'|]. unfold total in Q at 1 2. 
    destruct (C30_evaluations_read_the_tensors ck others sv b0 ag h h' ra (fun k I => AG 0%nat ra k ltac:(discriminate) eq_refl I)) as (X & _). rewrite X in D'. rewrite D in D'. injection D' as <- _. unfold total in *. lra.
Qed.
Print Assumptions C112_one_subject.

(** The atlas of two subjects of C83: in the other order, and with the point of the second
    subject moved. *)
Example C112_hypotheses : forall others sv b0 ag sch it, exact_solver sv -> exact_grad ag -> differentiates ag -> (0 < it)%nat ->
  exists h x ra rb k costs h1 x1 costs' h1' x1', line_atlas false "sequential" = Ok (h, x) /\ a_models (x_atlas x) = [ra; rb] /\ x_ht x = None /\
    Permutation (combine [ra; rb] [[one11]; [one11]]) (combine [rb; ra] [[one11]; [one11]]) /\ ra <> rb /\
    In k (tensors_of rb) /\ deref (write h k two11) k <> deref h k /\
    (forall j rj k', j <> 1%nat -> nth_error (a_models (x_atlas x)) j = Some rj -> In k' (tensors_of rj) -> deref (write h k two11) k' = deref h k') /\
    evaluate_atlas real_clock others sv b0 ag None None h x [[one11]; [one11]] (scheme_name sch) it 1 = Ok (costs, h1, x1) /\
    evaluate_atlas real_clock others sv b0 ag None None (write h k two11) x [[one11]; [one11]] (scheme_name sch) it 1 = Ok (costs', h1', x1').
Proof.
  intros others sv b0 ag sch it HS EX DF IT. set (h := fst two_subjects). set (x := snd two_subjects).
  assert (A : exists ra rb k, a_models (x_atlas x) = [ra; rb] /\ ra <> rb /\ In k (tensors_of rb) /\ puts2 h rb = Ok (write h k two11, rb, None) /\ (forall k', In k' (tensors_of ra) -> deref (write h k two11) k' = deref h k') /\
    filled h ra = Ok ([pt1], [gt1]) /\ filled h rb = Ok ([pt1], [gt1]) /\ filled (write h k two11) ra = Ok ([pt1], [gt1]) /\ filled (write h k two11) rb = Ok ([DPoints (GLm 1 1 two11 one11)], [gt1]) /\
    deref (write h k two11) k = two11 /\ deref h k = one11 /\
    forall r, In r [ra; rb] -> r_reduce r = "sum" /\ r_fit_controls r = false /\ length (r_defs r) = 1%nat /\ r_att r = [coordinate]).
  { eexists _, _, _. split; [reflexivity|]. split; [discriminate|]. split; [|split; [reflexivity|]]; [cbn; auto 10|]. split; [cbn; intros k' I; repeat (destruct I as [<-|I]; [reflexivity|]); destruct I|].
    do 6 (split; [reflexivity|]). intros r [<-|[<-|[]]]; repeat split. }
  destruct A as (ra & rb & k & EM & NR & IK & _ & AG & Fa & Fb & Fa' & Fb' & D1 & D2 & A). destruct (A ra (or_introl eq_refl)) as (A1 & A3 & A4 & A5). destruct (A rb (or_intror (or_introl eq_refl))) as (B1 & B3 & B4 & B5).
  destruct (line_evaluates others sv b0 ag sch it _ ra one11 HS EX DF IT eq_refl A1 Fa A3 A4 A5) as (da & ra' & Ea & _).
  destruct (line_evaluates others sv b0 ag sch it _ rb one11 HS EX DF IT eq_refl B1 Fb B3 B4 B5) as (db & rb' & Eb & _).
  destruct (line_evaluates others sv b0 ag sch it _ ra one11 HS EX DF IT eq_refl A1 Fa' A3 A4 A5) as (dc & rc' & Ec & _).
  destruct (line_evaluates others sv b0 ag sch it _ rb two11 HS EX DF IT eq_refl B1 Fb' B3 B4 B5) as (dd & rd' & Ed & _).
  assert (IN : forall h da ra' db rb', evaluate real_clock others sv b0 ag h ra [[one11]] (scheme_name sch) it 1 [] = Ok (da, ra') -> evaluate real_clock others sv b0 ag h rb [[one11]] (scheme_name sch) it 1 [] = Ok (db, rb') ->
    exists costs h1 x1, evaluate_atlas real_clock others sv b0 ag None None h x [[one11]; [one11]] (scheme_name sch) it 1 = Ok (costs, h1, x1)).
  { clear - EM. intros h da ra' db rb' Ea Eb.
    assert (T : in_turn real_clock others sv b0 ag None (scheme_name sch) it 1 h (a_models (x_atlas x)) [[one11]; [one11]] [da; db] h).
    { rewrite EM. apply each_turn. cbn [combine]. constructor; [exists ra'; exact Ea|]. constructor; [exists rb'; exact Eb|constructor]. }
    destruct (C84_atlas_costs real_clock others sv b0 ag None None h x _ (scheme_name sch) it 1 [da; db] h eq_refl ltac:(discriminate) T) as (costs & x'' & EA & _). eauto. }
  destruct (IN _ _ _ _ _ Ea Eb) as (c1 & h1 & x1 & E1). destruct (IN _ _ _ _ _ Ec Ed) as (c2 & h2 & x2 & E2).
  exists h, x, ra, rb, k, c1, h1, x1, c2, h2, x2. split; [exact two_subjects_ok|]. split; [exact EM|]. split; [reflexivity|]. split; [cbn [combine]; apply perm_swap|]. split; [exact NR|]. split; [exact IK|]. split.
  { rewrite D1, D2. intros Q. apply (f_equal (fun t => t @2 0%nat 0%nat)) in Q. cbn in Q. lra. }
  split; [|auto]. rewrite EM. intros [|[|j]] rj k' NJ ER I; [injection ER as <-; apply AG; exact I|congruence|destruct j; discriminate ER].
Qed.
