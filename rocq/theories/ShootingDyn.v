(** What the dynamics depends on, and the gradients. *)
From Coq Require Import Reals String List Arith ZArith Lia Lra.
From Verif Require Import Py RSum Tensor TensorFacts KernelModel FieldModel GeometryModel ModuleModel ShootingModel
  SpecModule SpecShooting ModuleMain ModuleLeaves ModuleHistory GeometryFacts ShootingPack.
Import ListNotations.
Open Scope R_scope.

(** The arguments of the constructor, and the number of controls of global translations
    (which their geodesic controls keep). *)
Fixpoint frozen (m : dmod) : dmod :=
  match m with
  | MGlobal dim co h => MGlobal dim co (tzeros [tnth (shape h) 0])
  | MComp ms => MComp (map frozen ms)
  | _ => params m
  end.

Lemma frozen_params m : forall m', frozen m = frozen m' -> params m = params m'.
Proof.
  induction m as [m NC|ms IH] using dmod_ind'; intros m' E.
  - destruct m; destruct m'; try discriminate E; cbn [frozen params] in *; try exact E; try (elim (NC ms eq_refl)).
    injection E as -> -> _. reflexivity.
  - destruct m' as [| | | | | | | | | |ms']; try discriminate E. cbn [frozen params] in *. injection E as E. f_equal.
    revert ms' E. induction IH as [|m ms Hm _ IHs]; intros ms' E; destruct ms' as [|m' ms']; try discriminate E; [reflexivity|].
    cbn [map] in *. injection E as E1 E2. f_equal; auto.
Qed.

Section Dyn.
  Variables (sv : solver) (b0 : backend).

  Definition sets := fix go (ms : list dmod) (gs : list gman) : res (list dmod) :=
    match ms, gs with
    | [], [] => Ok []
    | m :: ms', g :: gs' => m' <- set_manifold m g ;; r <- go ms' gs' ;; Ok (m' :: r)
    | _, _ => Err AssertionError
    end.

  Lemma set_comp ms gs : set_manifold (MComp ms) (GComp gs) = (ms' <- sets ms gs ;; Ok (MComp ms')).
  Proof. reflexivity. Qed.

  Lemma set_ok m : forall g, skel g = skel (mod_manifold m) ->
    exists m1, set_manifold m g = Ok m1 /\ mod_manifold m1 = g /\ frozen m1 = frozen m /\ controls m1 = controls m.
  Proof.
    induction m as [m NC|ms IH] using dmod_ind'; intros g K.
    - destruct m; try (elim (NC ms eq_refl)); destruct g; try discriminate K; cbn [mod_manifold skel] in K;
        (eexists; split; [reflexivity|]; split; [|split; reflexivity]; cbn [mod_manifold]; try injection K; intros; subst; reflexivity).
    - destruct g as [| | | | |gs]; try discriminate K. cbn [mod_manifold skel] in K. injection K as K. rewrite set_comp.
      assert (H : exists ms1, sets ms gs = Ok ms1 /\ map mod_manifold ms1 = gs /\ map frozen ms1 = map frozen ms /\ map controls ms1 = map controls ms).
      { revert gs K. induction IH as [|m ms Hm _ IHs]; intros gs K; destruct gs as [|g gs]; try discriminate K.
        - exists []. repeat split.
        - cbn [map] in K. injection K as K1 K2. destruct (Hm g K1) as (m1 & E & M & P & C). destruct (IHs gs K2) as (ms1 & Es & Ms & Ps & Cs).
          exists (m1 :: ms1). cbn [sets]. fold sets. rewrite E. cbn [bind]. rewrite Es. cbn [bind map]. rewrite M, Ms, P, Ps, C, Cs. repeat split. }
      destruct H as (ms1 & E & M & P & C). rewrite E. cbn [bind]. exists (MComp ms1). cbn [mod_manifold frozen controls]. rewrite M, P, C. repeat split.
  Qed.

  Lemma fill_nonglobal m c m1 : (forall dim co h, m <> MGlobal dim co h) -> (forall ms, m <> MComp ms) ->
    fill_controls sv m c = Ok m1 -> frozen m1 = frozen m.
  Proof.
    intros NG NC F. pose proof (fill_params sv m c m1 F) as P.
    destruct m; try (elim (NG _ _ _ eq_refl)); try (elim (NC _ eq_refl)); destruct m1; try discriminate P; exact P.
  Qed.

  Lemma geo_frozen m man : forall m1, compute_geodesic_control sv b0 m man = Ok m1 ->
    frozen m1 = frozen m /\ mod_manifold m1 = mod_manifold m.
  Proof.
    induction m as [m NC|ms IH] using dmod_ind'; intros m1 F.
    - destruct m; cbn [compute_geodesic_control] in F; try (elim (NC ms eq_refl));
        try (repeat (match type of F with bind _ _ = _ => let x := fresh "x" in let E := fresh "E" in bok F x E end); injection F as <-; split; reflexivity).
      + bok F x E. injection F as <-. split; [|reflexivity]. cbn [frozen]. unfold global_geodesic in E. bok E xs Exs. injection E as <-. reflexivity.
      + bok F x E. bok F y E'. split; [refine (fill_nonglobal _ _ _ _ _ F); discriminate|exact (fill_manifold _ _ _ _ F)].
      + bok F x E. bok F y E'. split; [refine (fill_nonglobal _ _ _ _ _ F); discriminate|exact (fill_manifold _ _ _ _ F)].
      + bok F x E. bok F y E'. split; [refine (fill_nonglobal _ _ _ _ _ F); discriminate|exact (fill_manifold _ _ _ _ F)].
    - change (compute_geodesic_control sv b0 (MComp ms) man) with (ms' <- geos sv b0 man ms ;; Ok (MComp ms')) in F.
      bok F ms1 F1. injection F as <-. cbn [frozen mod_manifold].
      assert (H : map frozen ms1 = map frozen ms /\ map mod_manifold ms1 = map mod_manifold ms).
      { revert ms1 F1. induction IH as [|m ms Hm _ IHs]; intros ms1 F1.
        - injection F1 as <-. split; reflexivity.
        - cbn [geos] in F1. fold (geos sv b0 man) in F1. bok F1 m1 Em. bok F1 r Er. injection F1 as <-. cbn [map].
          destruct (Hm m1 Em) as (-> & ->). destruct (IHs r Er) as (-> & ->). split; reflexivity. }
      destruct H as (-> & ->). split; reflexivity.
  Qed.

  (** The result of compute_geodesic_control depends on the frozen part and the manifolds only. *)
  Lemma geo_determined man m : forall m', frozen m = frozen m' -> mod_manifold m = mod_manifold m' ->
    compute_geodesic_control sv b0 m man = compute_geodesic_control sv b0 m' man.
  Proof.
    induction m as [m NC|ms IH] using dmod_ind'; intros m' EP EM.
    - destruct m; destruct m'; try discriminate EP; cbn [frozen params mod_manifold] in EP, EM; try (elim (NC ms eq_refl));
        try (injection EP); try (injection EM); intros; subst; try reflexivity.
      cbn [compute_geodesic_control]. unfold global_geodesic. replace (tnth (shape h0) 0) with (tnth (shape h) 0) by assumption. reflexivity.
    - destruct m' as [| | | | | | | | | |ms']; try discriminate EP. cbn [frozen mod_manifold] in EP, EM.
      injection EP as EP. injection EM as EM.
      change (compute_geodesic_control sv b0 (MComp ms) man) with (ms' <- geos sv b0 man ms ;; Ok (MComp ms')).
      change (compute_geodesic_control sv b0 (MComp ms') man) with (x <- geos sv b0 man ms' ;; Ok (MComp x)). f_equal.
      revert ms' EP EM. induction IH as [|m ms Hm _ IHs]; intros ms' EP EM; destruct ms' as [|m' ms']; try discriminate EP; [reflexivity|].
      cbn [map] in *. injection EP as EP1 EP2. injection EM as EM1 EM2. cbn [geos]. fold (geos sv b0 man).
      rewrite (Hm m' EP1 EM1), (IHs ms' EP2 EM2). reflexivity.
  Qed.

  Lemma geodesic_determined m m' : frozen m = frozen m' -> mod_manifold m = mod_manifold m' ->
    geodesic_controls sv b0 m = geodesic_controls sv b0 m'.
  Proof. intros P M. unfold geodesic_controls. rewrite <- M. apply geo_determined; assumption. Qed.

  (** Writing flat lists in the manifold. *)
  Lemma write_ok m q p : length q = g_len (mod_manifold m) -> length p = g_len (mod_manifold m) ->
    exists m1, write_manifold m (q ++ p) = Ok m1 /\ g_gd (mod_manifold m1) = q /\ g_cotan (mod_manifold m1) = p /\
      skel (mod_manifold m1) = skel (mod_manifold m) /\ frozen m1 = frozen m.
  Proof.
    intros Lq Lp. unfold write_manifold. destruct (put_gd_ok (mod_manifold m) q p Lq) as (g1 & P1 & G1 & C1 & K1). rewrite P1. cbn [bind].
    destruct (put_cotan_ok g1 p []) as (g2 & P2 & C2 & G2 & K2); [rewrite (skel_len _ _ K1); assumption|]. rewrite app_nil_r in P2. rewrite P2. cbn [bind].
    destruct (set_ok m g2) as (m1 & E & M & F & _); [congruence|]. exists m1. rewrite M. split; [exact E|]. split; [congruence|]. split; [assumption|]. split; [congruence|assumption].
  Qed.

  Lemma write_short m l : (length l < 2 * g_len (mod_manifold m))%nat -> exists e, write_manifold m l = Err e.
  Proof.
    intros L. unfold write_manifold. destruct (le_lt_dec (g_len (mod_manifold m)) (length l)) as [Q|Q].
    - rewrite <- (firstn_skipn (g_len (mod_manifold m)) l).
      destruct (put_gd_ok (mod_manifold m) (firstn (g_len (mod_manifold m)) l) (skipn (g_len (mod_manifold m)) l)) as (g1 & P1 & _ & _ & K1);
        [rewrite firstn_length; lia|]. rewrite P1. cbn [bind]. rewrite put_cotan_short; [eexists; reflexivity|].
      rewrite skipn_length, (skel_len _ _ K1). lia.
    - rewrite put_gd_short by assumption. eexists. reflexivity.
  Qed.

  (** The value of H as a function of the flat list depends on the frozen part and the structure. *)
  Lemma ham_determined m m' ctl l : frozen m = frozen m' -> skel (mod_manifold m) = skel (mod_manifold m') ->
    (forall n n', frozen n = frozen n' -> mod_manifold n = mod_manifold n' -> ctl n = ctl n') ->
    length l = (2 * g_len (mod_manifold m))%nat -> ham_of m ctl l = ham_of m' ctl l.
  Proof.
    intros P K D L. unfold ham_of. set (n := g_len (mod_manifold m)) in *. rewrite <- (firstn_skipn n l).
    assert (Lq : length (firstn n l) = n) by (rewrite firstn_length; lia). assert (Lp : length (skipn n l) = n) by (rewrite skipn_length; lia).
    destruct (write_ok m _ _ Lq Lp) as (m1 & E & G & C & K1 & F).
    pose proof (skel_len _ _ K) as Kn. fold n in Kn.
    destruct (write_ok m' (firstn n l) (skipn n l)) as (m1' & E' & G' & C' & K1' & F'); [lia|lia|].
    rewrite E, E'. cbn [bind]. rewrite (D m1 m1'); [reflexivity|congruence|apply g_ext; congruence].
  Qed.

  (** ** Gradients *)
  Variables (ag : autograd) (EX : exact_grad ag).

  Lemma no_none_ok d : forall l, length d = length l -> exists delta, no_none d l = Ok delta /\ length delta = length l /\
    forall i, nth_error delta i = match nth_error d i with
      | Some (Some g) => Some g
      | Some None => option_map (fun t => tzeros (shape t)) (nth_error l i)
      | None => None end.
  Proof.
    induction d as [|o d IH]; intros l L; destruct l as [|x l]; try discriminate L.
    - exists []. split; [reflexivity|]. split; [reflexivity|]. intros [|i]; reflexivity.
    - destruct (IH l ltac:(cbn in L; lia)) as (delta & E & LD & N). destruct o as [g|]; cbn [no_none tl]; rewrite E; cbn [bind];
        (eexists; split; [reflexivity|]; split; [cbn; lia|]; intros [|i]; [reflexivity|exact (N i)]).
  Qed.

  Lemma nth_entry l i t idx : nth_error l i = Some t -> entry l i idx = get t idx.
  Proof. intros E. unfold entry. rewrite E. reflexivity. Qed.

  Lemma nth_skipn {A} (l : list A) n i : nth_error (skipn n l) i = nth_error l (n + i).
  Proof. revert l. induction n as [|n IH]; intros l; [reflexivity|]. destruct l; [destruct i; reflexivity|]. apply IH. Qed.
  Lemma nth_firstn {A} (l : list A) n i : (i < n)%nat -> nth_error (firstn n l) i = nth_error l i.
  Proof. revert l i. induction n as [|n IH]; intros l i H; [lia|]. destruct l; [reflexivity|]. destruct i; [reflexivity|]. cbn [firstn nth_error]. apply IH. lia. Qed.

  Lemma delta_ok F l d : ag F l = Ok d -> exists delta, no_none d l = Ok delta /\ map shape delta = map shape l /\
    forall i t idx, nth_error l i = Some t -> valid (shape t) idx -> partial_derivative F l i idx (entry delta i idx).
  Proof.
    intros E. destruct (EX F l d E) as (L & H). destruct (no_none_ok d l L) as (delta & E' & LD & N). exists delta. split; [assumption|].
    assert (Q : forall i t, nth_error l i = Some t -> exists g, nth_error delta i = Some g /\ shape g = shape t /\
              forall idx, valid (shape t) idx -> partial_derivative F l i idx (get g idx)).
    { intros i t Et. specialize (H i t Et). specialize (N i). destruct (nth_error d i) as [[g|]|] eqn:Ed.
      - exists g. split; [assumption|]. assumption.
      - rewrite Et in N. cbn in N. eexists. split; [exact N|]. split; [reflexivity|]. exact H.
      - apply nth_error_None in Ed. assert (nth_error l i <> None) by congruence. apply nth_error_Some in H0. lia. }
    split.
    - apply (nth_ext _ _ [] []); [rewrite !map_length; assumption|]. intros i Hi. rewrite map_length in Hi.
      destruct (nth_error l i) as [t|] eqn:Et; [|apply nth_error_None in Et; lia]. destruct (Q i t Et) as (g & Eg & S & _).
      pose proof (map_nth_error shape _ _ Eg) as A. pose proof (map_nth_error shape _ _ Et) as B.
      rewrite (nth_error_nth _ _ _ A), (nth_error_nth _ _ _ B). assumption.
    - intros i t idx Et V. destruct (Q i t Et) as (g & Eg & _ & P). rewrite (nth_entry _ _ _ _ Eg). apply P. assumption.
  Qed.

  Lemma gradients_ok m ctl dq dp n : gradients ag m ctl = Ok (dq, dp) ->
    length (g_gd (mod_manifold m)) = n -> length (g_cotan (mod_manifold m)) = n ->
    map shape (g_cotan (mod_manifold m)) = map shape (g_gd (mod_manifold m)) ->
    map shape dq = map shape (g_gd (mod_manifold m)) /\ map shape dp = map shape (g_gd (mod_manifold m)) /\
    hamilton (ham_of m ctl) (phase (mod_manifold m)) (dp ++ map topp dq).
  Proof.
    intros E L1 L2 SH. unfold gradients in E. set (g := mod_manifold m) in *. bok E d Ed. fold (phase g) in Ed.
    destruct (delta_ok _ _ _ Ed) as (delta & En & S & D). fold (phase g) in E. rewrite En in E. cbn [bind] in E.
    assert (LP : length (phase g) = (n + n)%nat) by (unfold phase; rewrite app_length; lia).
    assert (LD : length delta = (n + n)%nat) by (rewrite <- (map_length shape), S, map_length; assumption).
    replace (Nat.div (length delta) 2) with n in E by (rewrite LD; replace (n + n)%nat with (n * 2)%nat by lia; symmetry; apply Nat.div_mul; lia).
    injection E as <- <-.
    assert (Sq : map shape (firstn n delta) = map shape (g_gd g)).
    { rewrite <- firstn_map, S. unfold phase. rewrite map_app. rewrite firstn_app, map_length, L1, Nat.sub_diag. cbn [firstn]. rewrite app_nil_r. apply firstn_all2. rewrite map_length; lia. }
    assert (Sp : map shape (skipn n delta) = map shape (g_gd g)).
    { rewrite <- skipn_map, S. unfold phase. rewrite map_app. rewrite skipn_app, map_length, L1, Nat.sub_diag, skipn_all2 by (rewrite map_length; lia). cbn [skipn app]. assumption. }
    split; [assumption|]. split; [assumption|]. split.
    - unfold phase. rewrite !map_app. f_equal; [assumption|]. rewrite map_map. cbn [shape topp tmap]. change (map (fun x => shape x) (firstn n delta)) with (map shape (firstn n delta)). congruence.
    - exists n. split; [assumption|]. split.
      { unfold phase. rewrite firstn_app, skipn_app, L1, Nat.sub_diag. cbn [firstn skipn]. rewrite app_nil_r, firstn_all2, skipn_all2 by lia. cbn [app]. congruence. }
      intros i t idx Hi Et V.
      assert (Li : (i < length (skipn n delta))%nat) by (rewrite skipn_length; lia).
      destruct (nth_error (phase g) (n + i)) as [u|] eqn:Eu; [|apply nth_error_None in Eu; lia].
      assert (Su : shape u = shape t).
      { unfold phase in Et, Eu. rewrite nth_error_app1 in Et by lia. rewrite nth_error_app2 in Eu by lia. rewrite L1 in Eu. replace (n + i - n)%nat with i in Eu by lia.
        pose proof (map_nth_error shape _ _ Et) as A. pose proof (map_nth_error shape _ _ Eu) as B. rewrite SH, A in B. injection B as ->. reflexivity. }
      split.
      + pose proof (D (n + i)%nat u idx Eu ltac:(rewrite Su; assumption)) as Q. unfold entry in Q at 1. rewrite <- nth_skipn in Q.
        unfold entry at 1. rewrite nth_error_app1 by assumption. exact Q.
      + pose proof (D i t idx Et V) as Q. unfold entry in Q at 1. unfold entry at 1. rewrite nth_error_app2 by (rewrite skipn_length; lia).
        rewrite skipn_length, LD. replace (n + i - (n + n - n))%nat with i by lia. rewrite nth_error_map, nth_firstn by assumption.
        destruct (nth_error delta i) as [x|] eqn:Ex; [|apply nth_error_None in Ex; lia]. cbn [option_map].
        replace (- get (topp x) idx) with (get x idx); [exact Q|]. cbn. ring.
  Qed.
End Dyn.
