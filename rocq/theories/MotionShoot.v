(** Shooting in a translated scene. *)
From Coq Require Import Reals String List Arith Lia FunctionalExtensionality.
From Verif Require Import Py RSum Tensor TensorFacts KernelModel FieldModel GeometryModel ModuleModel ShootingModel SpecShooting
  SpecMotion ModuleMain ShootingPack ShootingDyn MotionFacts.
Import ListNotations.
Open Scope R_scope.

(** Which tensors of a manifold are points. *)
Fixpoint marks (g : gman) : list bool :=
  match g with
  | GLm _ _ _ _ => [true]
  | GDir _ _ _ _ _ _ _ | GFrame _ _ _ _ _ _ => [true; false]
  | GCLm _ _ _ _ _ _ _ _ _ => [true; true]
  | GEmpty _ => []
  | GComp gs => flat_map marks gs
  end.

Definition mshift (c : nat -> R) (bs : list bool) (l : list tensor) : list tensor :=
  map (fun p : bool * tensor => if fst p then shift c (snd p) else snd p) (combine bs l).

Lemma marks_len g : length (marks g) = g_len g.
Proof.
  induction g as [g S|gs IH] using gman_ind'; [destruct g; try reflexivity; elim S|].
  cbn [marks g_len]. induction IH as [|g gs Hg _ IHs]; [reflexivity|]. cbn [flat_map map list_sum]. rewrite app_length, Hg, IHs. reflexivity.
Qed.

Lemma marks_skel g : marks (skel g) = marks g.
Proof.
  induction g as [g S|gs IH] using gman_ind'; [destruct g; try reflexivity; elim S|].
  cbn [marks skel]. induction IH as [|g gs Hg _ IHs]; [reflexivity|]. cbn [flat_map map]. rewrite Hg, IHs. reflexivity.
Qed.
Lemma marks_same g g' : skel g = skel g' -> marks g = marks g'.
Proof. intros E. rewrite <- (marks_skel g), E, marks_skel. reflexivity. Qed.

Lemma combine_app {A B} (a a' : list A) (b b' : list B) : length a = length b -> combine (a ++ a') (b ++ b') = combine a b ++ combine a' b'.
Proof.
  revert b. induction a as [|x a IH]; intros b L; destruct b as [|y b]; try discriminate L; [reflexivity|]. cbn. f_equal. apply IH. injection L. auto.
Qed.

Lemma mshift_app c a a' b b' : length a = length b -> mshift c (a ++ a') (b ++ b') = mshift c a b ++ mshift c a' b'.
Proof. intros L. unfold mshift. rewrite combine_app by exact L. apply map_app. Qed.

Lemma gd_moved c g : g_gd (moved c g) = mshift c (marks g) (g_gd g).
Proof.
  induction g as [g S|gs IH] using gman_ind'; [destruct g; try reflexivity; elim S|].
  cbn [moved g_gd marks]. induction IH as [|g gs Hg _ IHs]; [reflexivity|]. cbn [flat_map map].
  rewrite mshift_app by (rewrite marks_len, g_gd_len; reflexivity). rewrite Hg, IHs. reflexivity.
Qed.
Lemma cotan_moved c g : g_cotan (moved c g) = g_cotan g.
Proof.
  induction g as [g S|gs IH] using gman_ind'; [destruct g; try reflexivity; elim S|].
  cbn [moved g_cotan]. induction IH as [|g gs Hg _ IHs]; [reflexivity|]. cbn [flat_map map]. rewrite Hg, IHs. reflexivity.
Qed.
Lemma skel_moved c g : skel (moved c g) = skel g.
Proof.
  induction g as [g S|gs IH] using gman_ind'; [destruct g; try reflexivity; elim S|].
  cbn [moved skel]. f_equal. induction IH as [|g gs Hg _ IHs]; [reflexivity|]. cbn [map]. rewrite Hg, IHs. reflexivity.
Qed.
Lemma len_moved c g : g_len (moved c g) = g_len g.
Proof. apply skel_len, skel_moved. Qed.

Lemma mshift_shape c bs : forall l, length bs = length l -> map shape (mshift c bs l) = map shape l.
Proof.
  induction bs as [|b bs IH]; intros l L; destruct l as [|t l]; try discriminate L; [reflexivity|].
  unfold mshift in *. cbn [combine map fst snd]. rewrite IH by (injection L; auto). destruct b; reflexivity.
Qed.
Lemma mshift_len c bs l : length bs = length l -> length (mshift c bs l) = length l.
Proof. intros L. rewrite <- (map_length shape), mshift_shape by exact L. apply map_length. Qed.
Lemma gd_moved_shape c g : map shape (g_gd (moved c g)) = map shape (g_gd g).
Proof. rewrite gd_moved. apply mshift_shape. rewrite marks_len, g_gd_len. reflexivity. Qed.
Lemma phase_moved_shape c g : map shape (phase (moved c g)) = map shape (phase g).
Proof. unfold phase. rewrite !map_app, gd_moved_shape, cotan_moved. reflexivity. Qed.

Lemma ordinary_skel g : ordinary_man (skel g) <-> ordinary_man g.
Proof.
  induction g as [g S|gs IH] using gman_ind'; [destruct g; try reflexivity; elim S|].
  cbn [ordinary_man skel]. induction IH as [|g gs Hg _ IHs]; [reflexivity|]. cbn [map fold_right]. rewrite Hg, IHs. reflexivity.
Qed.

(** ** Writing flat lists *)

Lemma write_phase m g : skel g = skel (mod_manifold m) -> write_manifold m (phase g) = set_manifold m g.
Proof.
  intros K. unfold write_manifold, phase.
  destruct (put_gd_ok (mod_manifold m) (g_gd g) (g_cotan g)) as (g1 & P1 & G1 & C1 & K1); [rewrite g_gd_len; apply skel_len; exact K|].
  rewrite P1. cbn [bind].
  destruct (put_cotan_ok g1 (g_cotan g) []) as (g2 & P2 & C2 & G2 & K2); [rewrite g_cotan_len; apply skel_len; congruence|].
  rewrite app_nil_r in P2. rewrite P2. cbn [bind]. f_equal. apply g_ext; congruence.
Qed.

Lemma set_moved c m g : set_manifold (moved_mod c m) (moved c g) = (m1 <- set_manifold m g ;; Ok (moved_mod c m1)).
Proof.
  revert g. induction m as [m NC|ms IH] using dmod_ind'; intros g.
  - destruct m; try (elim (NC ms eq_refl)); destruct g; reflexivity.
  - destruct g as [| | | | |gs]; try reflexivity. cbn [moved moved_mod]. rewrite !set_comp.
    assert (E : sets (map (moved_mod c) ms) (map (moved c) gs) = (r <- sets ms gs ;; Ok (map (moved_mod c) r))).
    { revert gs. induction IH as [|m ms Hm _ IHs]; intros gs; destruct gs as [|g gs]; try reflexivity.
      cbn [map sets]. fold sets. rewrite Hm. destruct (set_manifold m g); [|reflexivity]. cbn [bind]. rewrite IHs.
      destruct (sets ms gs); reflexivity. }
    rewrite E. destruct (sets ms gs); reflexivity.
Qed.

Lemma app_shapes (a a' b b' : list tensor) : length a = length a' -> map shape (a ++ b) = map shape (a' ++ b') ->
  map shape a = map shape a' /\ map shape b = map shape b'.
Proof.
  revert a'. induction a as [|x a IH]; intros a' L E; destruct a' as [|y a']; try discriminate L; [split; [reflexivity|exact E]|].
  cbn [map app] in *. injection E as E1 E2. destruct (IH a' ltac:(injection L; auto) E2) as [-> ->]. rewrite E1. split; reflexivity.
Qed.

Lemma follows_set d c m : forall g m1, follows d c m -> skel g = skel (mod_manifold m) ->
  map shape (g_gd g) = map shape (g_gd (mod_manifold m)) -> set_manifold m g = Ok m1 -> follows d c m1.
Proof.
  induction m as [m NC|ms IH] using dmod_ind'; intros g m1 F K E H.
  - destruct m; try (elim (NC ms eq_refl)); destruct g; try discriminate K; try discriminate H; injection H as <-; try exact F.
    + cbn [follows] in *. cbn in E. injection E as E. congruence.
    + cbn [follows] in *. cbn [mod_manifold] in *. apply ordinary_skel. rewrite K. apply ordinary_skel. exact F.
    + cbn [follows] in *. cbn [mod_manifold] in *. apply ordinary_skel. rewrite K. apply ordinary_skel. exact F.
    + cbn [follows] in *. cbn [mod_manifold] in *. apply ordinary_skel. rewrite K. apply ordinary_skel. exact F.
    + cbn [follows] in *. cbn [mod_manifold] in *. apply ordinary_skel. rewrite K. apply ordinary_skel. exact F.
    + cbn [follows] in *. cbn [mod_manifold] in *. apply ordinary_skel. rewrite K. apply ordinary_skel. exact F.
    + cbn [follows] in *. cbn [mod_manifold] in *. apply ordinary_skel. rewrite K. apply ordinary_skel. exact F.
  - destruct g as [| | | | |gs]; try discriminate K. cbn [mod_manifold skel g_gd follows] in *. injection K as K. rewrite set_comp in H.
    destruct (sets ms gs) as [r|] eqn:Er; [|discriminate H]. injection H as <-. cbn [follows].
    revert gs r F K E Er. induction IH as [|m ms Hm _ IHs]; intros gs r F K E Er; destruct gs as [|g gs]; try discriminate K.
    + injection Er as <-. exact Logic.I.
    + cbn [map flat_map sets] in *. fold sets in Er. injection K as K1 K2. destruct F as [F1 F2].
      apply app_shapes in E; [|rewrite !g_gd_len; apply skel_len; exact K1]. destruct E as [E1 E2].
      destruct (set_manifold m g) as [m1|] eqn:Em; [|discriminate Er]. cbn [bind] in Er.
      destruct (sets ms gs) as [r'|] eqn:Er'; [|discriminate Er]. injection Er as <-. cbn [fold_right].
      split; [exact (Hm g m1 F1 K1 E1 Em)|exact (IHs gs r' F2 K2 E2 Er')].
Qed.

Lemma no_none_shapes dl : forall l l', map shape l = map shape l' -> no_none dl l = no_none dl l'.
Proof.
  induction dl as [|o dl IH]; intros l l' E; [reflexivity|]. destruct l as [|x l], l' as [|y l']; try discriminate E; [reflexivity|].
  cbn [map] in E. injection E as E1 E2. destruct o; cbn [no_none tl]; rewrite (IH l l' E2); [|rewrite E1]; reflexivity.
Qed.

Lemma put_gd_res c g l : (exists e, put_gd (moved c g) l = Err e /\ put_gd g l = Err e) \/
  ((g_len g <= length l)%nat /\ is_ok (put_gd (moved c g) l) /\ is_ok (put_gd g l)).
Proof.
  destruct (le_lt_dec (g_len g) (length l)) as [L|L].
  - right. split; [exact L|]. rewrite <- (firstn_skipn (g_len g) l).
    destruct (put_gd_ok g (firstn (g_len g) l) (skipn (g_len g) l)) as (g1 & P1 & _); [rewrite firstn_length; lia|].
    destruct (put_gd_ok (moved c g) (firstn (g_len g) l) (skipn (g_len g) l)) as (g2 & P2 & _); [rewrite len_moved, firstn_length; lia|].
    rewrite P1, P2. split; eexists; reflexivity.
  - left. exists IndexError. rewrite !put_gd_short; [auto|assumption|rewrite len_moved; assumption].
Qed.
Lemma put_cotan_res c g l : (exists e, put_cotan (moved c g) l = Err e /\ put_cotan g l = Err e) \/
  ((g_len g <= length l)%nat /\ is_ok (put_cotan (moved c g) l) /\ is_ok (put_cotan g l)).
Proof.
  destruct (le_lt_dec (g_len g) (length l)) as [L|L].
  - right. split; [exact L|]. rewrite <- (firstn_skipn (g_len g) l).
    destruct (put_cotan_ok g (firstn (g_len g) l) (skipn (g_len g) l)) as (g1 & P1 & _); [rewrite firstn_length; lia|].
    destruct (put_cotan_ok (moved c g) (firstn (g_len g) l) (skipn (g_len g) l)) as (g2 & P2 & _); [rewrite len_moved, firstn_length; lia|].
    rewrite P1, P2. split; eexists; reflexivity.
  - left. exists IndexError. rewrite !put_cotan_short; [auto|assumption|rewrite len_moved; assumption].
Qed.

Lemma tadd_shift c t u : tadd (shift c t) u = shift c (tadd t u).
Proof.
  unfold tadd, tmap2, shift. cbn [shape get]. apply mkT_ext. intros idx. destruct idx as [|i [|a [|]]]; try reflexivity. cbn. ring.
Qed.

Lemma add_lists_mshift c bs : forall l k, length bs = length l -> add_lists (mshift c bs l) k = mshift c bs (add_lists l k).
Proof.
  induction bs as [|b bs IH]; intros l k L; destruct l as [|t l]; try discriminate L; [reflexivity|].
  destruct k as [|u k].
  - unfold add_lists, mshift. cbn [combine map]. reflexivity.
  - unfold add_lists, mshift in *. cbn [combine map fst snd]. rewrite IH by (injection L; auto). f_equal.
    destruct b; [apply tadd_shift|reflexivity].
Qed.

Lemma add_lists_len l k : (length l <= length k)%nat -> length (add_lists l k) = length l.
Proof. intros L. unfold add_lists. rewrite map_length, combine_length. lia. Qed.
Lemma add_lists_shape l : forall k, (length l <= length k)%nat -> map shape (add_lists l k) = map shape l.
Proof.
  induction l as [|t l IH]; intros k L; destruct k as [|u k]; cbn in L; try lia; [reflexivity|reflexivity|].
  unfold add_lists in *. cbn [combine map fst snd]. rewrite IH by lia. reflexivity.
Qed.

(** ** torch_euler *)
Section Euler.
Variable d : nat.
Variable c : nat -> R.
Hypothesis periodic : forall a, c (a mod d)%nat = c a.
Variables (sv : solver) (b0 : backend) (ag : autograd).
Hypothesis natural : translation_natural c ag.
Variable cs : option (list ctrl).

Notation step := (step_controls sv b0 cs).

Lemma step_moved i m : follows d c m -> step i (moved_mod c m) = (m1 <- step i m ;; Ok (moved_mod c m1)).
Proof.
  intros F. unfold step_controls. destruct cs as [l|].
  - destruct (nth_error l i); [|reflexivity]. apply (fill_controls_moved c).
  - unfold geodesic_controls. rewrite mod_manifold_moved. apply (geodesic_moved d c periodic); [|exact F].
    exact (follows_ordinary d c m F).
Qed.
Lemma follows_step i m m1 : follows d c m -> step i m = Ok m1 -> follows d c m1.
Proof.
  intros F H. unfold step_controls in H. destruct cs as [l|].
  - destruct (nth_error l i); [|discriminate H]. exact (follows_fill d c sv m _ m1 F H).
  - exact (follows_geodesic d c sv b0 _ m m1 F H).
Qed.

Lemma ham_moved i m g : follows d c m -> skel g = skel (mod_manifold m) -> map shape (g_gd g) = map shape (g_gd (mod_manifold m)) ->
  ham_of (moved_mod c m) (step i) (phase (moved c g)) = ham_of m (step i) (phase g).
Proof.
  intros F K E. unfold ham_of. rewrite write_phase by (rewrite skel_moved, mod_manifold_moved, skel_moved; exact K).
  rewrite (write_phase m g K), set_moved. destruct (set_ok m g K) as (m1 & S1 & M1 & _). rewrite S1. cbn [bind].
  pose proof (follows_set d c m g m1 F K E S1) as F1. rewrite (step_moved i m1 F1).
  destruct (step i m1) as [m2|e] eqn:E2; [|reflexivity]. cbn [bind].
  apply (hamiltonian_moved d c periodic). exact (follows_step i m1 m2 F1 E2).
Qed.

Lemma gradients_moved i m : follows d c m -> gradients ag (moved_mod c m) (step i) = gradients ag m (step i).
Proof.
  intros F. unfold gradients. rewrite mod_manifold_moved.
  change (g_gd (moved c (mod_manifold m)) ++ g_cotan (moved c (mod_manifold m))) with (phase (moved c (mod_manifold m))).
  change (g_gd (mod_manifold m) ++ g_cotan (mod_manifold m)) with (phase (mod_manifold m)).
  rewrite (natural (ham_of m (step i)) (ham_of (moved_mod c m) (step i)) (mod_manifold m)).
  - destruct (ag _ _) as [dl|]; [|reflexivity]. cbn [bind].
    rewrite (no_none_shapes dl _ _ (phase_moved_shape c (mod_manifold m))). reflexivity.
  - intros g' K E. apply ham_moved; [exact F|exact K|]. unfold phase in E. apply app_shapes in E; [exact (proj1 E)|].
    rewrite !g_gd_len. apply skel_len. exact K.
Qed.

Lemma euler_step_moved dt i m : follows d c m ->
  euler_step sv b0 ag dt cs i (moved_mod c m) = (m1 <- euler_step sv b0 ag dt cs i m ;; Ok (moved_mod c m1)) /\
  forall m1, euler_step sv b0 ag dt cs i m = Ok m1 -> follows d c m1.
Proof.
  intros F. unfold euler_step. rewrite (step_moved i m F). destruct (step i m) as [m1|e] eqn:E1; [|split; [reflexivity|discriminate]].
  cbn [bind]. pose proof (follows_step i m m1 F E1) as F1. rewrite (gradients_moved i m1 F1).
  destruct (gradients ag m1 (step i)) as [[dq dp]|e]; [|split; [reflexivity|discriminate]]. cbn [bind]. rewrite mod_manifold_moved.
  set (g := mod_manifold m1). set (u := map (tscal (- dt)) dq). set (v := map (tscal dt) dp).
  destruct (put_gd_res c g u) as [(e & A & B)|(Lu & (x & A) & (y & B))]; rewrite A, B; [split; [reflexivity|discriminate]|]. cbn [bind]. clear x y A B.
  destruct (put_cotan_res c g v) as [(e & A & B)|(Lv & (x & A) & (y & B))]; rewrite A, B; [split; [reflexivity|discriminate]|]. cbn [bind]. clear x y A B.
  destruct (put_gd_ok g (add_lists (g_gd g) v) []) as (g1 & P1 & G1 & C1 & K1); [rewrite add_lists_len, g_gd_len; [reflexivity|rewrite g_gd_len; exact Lv]|].
  rewrite app_nil_r in P1. rewrite P1. cbn [bind].
  destruct (put_gd_ok (moved c g) (add_lists (g_gd (moved c g)) v) []) as (g1' & P1' & G1' & C1' & K1');
    [rewrite add_lists_len, g_gd_len; [reflexivity|rewrite g_gd_len, len_moved; exact Lv]|].
  rewrite app_nil_r in P1'. rewrite P1'. cbn [bind].
  assert (E : g1' = moved c g1).
  { apply g_ext; [rewrite K1', !skel_moved; congruence| |rewrite C1', !cotan_moved; congruence].
    rewrite G1', !gd_moved, G1, (marks_same g1 g K1). apply add_lists_mshift. rewrite marks_len, g_gd_len. reflexivity. }
  subst g1'. rewrite cotan_moved.
  destruct (put_cotan_ok g1 (add_lists (g_cotan g1) u) []) as (g2 & P2 & C2 & G2 & K2);
    [rewrite add_lists_len, g_cotan_len; [reflexivity|rewrite g_cotan_len, (skel_len _ _ K1); exact Lu]|].
  rewrite app_nil_r in P2. rewrite P2. cbn [bind].
  destruct (put_cotan_ok (moved c g1) (add_lists (g_cotan g1) u) []) as (g2' & P2' & C2' & G2' & K2');
    [rewrite len_moved, add_lists_len, g_cotan_len; [reflexivity|rewrite g_cotan_len, (skel_len _ _ K1); exact Lu]|].
  rewrite app_nil_r in P2'. rewrite P2'. cbn [bind].
  assert (E : g2' = moved c g2).
  { apply g_ext; [rewrite K2', !skel_moved; congruence| |rewrite C2', cotan_moved; congruence].
    rewrite G2', !gd_moved, G2, (marks_same g2 g1 K2). reflexivity. }
  subst g2'. split; [apply set_moved|]. intros m2 S2. refine (follows_set d c m1 g2 m2 F1 _ _ S2); [fold g; congruence|].
  fold g. rewrite G2, G1. apply add_lists_shape. rewrite g_gd_len. exact Lv.
Qed.

Lemma euler_loop_moved dt keep n : forall i m acc, follows d c m ->
  euler_loop sv b0 ag dt cs keep n i (moved_mod c m) (mkInter (map (moved c) (in_states acc)) (in_controls acc))
  = (r <- euler_loop sv b0 ag dt cs keep n i m acc ;;
     Ok (moved_mod c (fst r), mkInter (map (moved c) (in_states (snd r))) (in_controls (snd r)))) /\
  forall r, euler_loop sv b0 ag dt cs keep n i m acc = Ok r -> follows d c (fst r).
Proof.
  induction n as [|n IH]; intros i m acc F; [split; [reflexivity|]; intros r H; injection H as <-; exact F|]. cbn [euler_loop].
  destruct (euler_step_moved dt i m F) as [E1 F1]. rewrite E1. destruct (euler_step sv b0 ag dt cs i m) as [m1|e]; [|split; [reflexivity|discriminate]].
  cbn [bind]. specialize (F1 m1 eq_refl). rewrite controls_moved, mod_manifold_moved.
  destruct keep.
  - destruct (clone_controls (controls m1)) as [k|e]; [|split; [reflexivity|discriminate]]. cbn [bind in_states in_controls].
    destruct (IH (S i) m1 (mkInter (in_states acc ++ [mod_manifold m1]) (in_controls acc ++ [k])) F1) as [A B]. cbn [in_states in_controls] in A.
    rewrite map_app in A. cbn [map] in A. split; [exact A|exact B].
  - cbn [bind]. apply IH. exact F1.
Qed.

Lemma shoot_euler_moved ck others it t1 keep costs0 m : follows d c m ->
  same_result (same_shot_in_moved_scene c)
    (shoot ck others sv b0 ag "torch_euler" it t1 cs keep costs0 m)
    (shoot ck others sv b0 ag "torch_euler" it t1 cs keep costs0 (moved_mod c m)).
Proof.
  intros F. unfold shoot. change (String.eqb "torch_euler" "torch_euler") with true. cbv iota. unfold shoot_euler.
  destruct (Nat.eqb it 0); [reflexivity|].
  destruct (euler_loop_moved (1 / INR it) keep it 0 m (mkInter [mod_manifold m] []) F) as [A B]. cbn [in_states in_controls map] in A.
  rewrite mod_manifold_moved, A. clear A. destruct (euler_loop sv b0 ag (1 / INR it) cs keep it 0 m (mkInter [mod_manifold m] [])) as [[m1 i]|e]; [|exact eq_refl]. specialize (B _ eq_refl).
  cbn [bind fst snd same_result]. unfold same_shot_in_moved_scene. cbn [sh_mod sh_costs sh_inter]. split; [|split; [reflexivity|]].
  - apply (moved_same_scene d c periodic). exact B.
  - destruct keep; cbn [in_states in_controls]; [split; reflexivity|exact Logic.I].
Qed.
End Euler.
