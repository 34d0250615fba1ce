(** Lemmas for C115: registrations. *)
From Coq Require Import Reals String List Arith Lia Lra Permutation.
From Verif Require Import Py RSum Tensor TensorFacts Fl OptimModel FitModel SpecOptim KernelModel FieldModel GeometryModel ModuleModel ShootingModel RegistrationModel
  SpecModule SpecShooting SpecRegistration SpecOrder SpecShuffle SpecFitElsewhere SpecReorder SpecReorderReg
  ModuleLeaves ModuleMain ShootingPack ShootingDyn OrderFacts ElsewhereFacts FitElsewhere PropShuffle ReorderFacts.
Import ListNotations.
Open Scope list_scope.
Open Scope R_scope.

Definition order_of (p pm : list nat) (defs : list deformable) : list nat := p ++ map (fun i => (length defs + i)%nat) pm.
Definition counts (gs : list gman) : list nat := map (fun g => length (g_cotan g)) gs.
Lemma ranges_blocks n l : ranges n l = blocks n l.
Proof. revert n. induction l as [|k l IH]; intros n; [reflexivity|]. cbn. rewrite IH. reflexivity. Qed.
Lemma moment_spread p pm defs mods : moment_order p pm defs mods = spread (order_of p pm defs) (counts (map df_man defs ++ map mod_manifold mods)).
Proof. unfold moment_order, spread. rewrite ranges_blocks. reflexivity. Qed.
Lemma pick_order {A} p pm defs (a b : list A) : length a = length defs -> Permutation p (seq 0 (length defs)) -> pick (order_of p pm defs) (a ++ b) = pick p a ++ pick pm b.
Proof. intros L P. unfold order_of. rewrite pick_app, <- L, pick_shift, pick_left by (rewrite L; apply pick_bound; exact P). reflexivity. Qed.
Lemma order_perm p pm defs n : Permutation p (seq 0 (length defs)) -> Permutation pm (seq 0 n) -> Permutation (order_of p pm defs) (seq 0 (length defs + n)).
Proof.
  intros P Q. unfold order_of. rewrite seq_app. apply Permutation_app; [exact P|]. replace (seq (0 + length defs) n) with (map (fun i => (length defs + i)%nat) (seq 0 n)); [apply Permutation_map; exact Q|].
  assert (H : forall k m j, map (fun i => (k + i)%nat) (seq j m) = seq (k + j) m) by (intros k m; induction m as [|m IH]; intros j; [reflexivity|]; cbn; rewrite IH, Nat.add_succ_r; reflexivity). rewrite H, Nat.add_0_r. reflexivity.
Qed.
Lemma order_start p pm defs mods : Permutation p (seq 0 (length defs)) ->
  start (pick p defs) (pick pm mods) = MComp (pick (order_of p pm defs) (map silent_module defs ++ mods)).
Proof. intros P. unfold start. rewrite (pick_order p pm defs) by (rewrite ?map_length; auto). rewrite pick_map. reflexivity. Qed.

Lemma sets_each ms : forall gs ms', sets ms gs = Ok ms' <-> length ms = length gs /\ Forall2 (fun q m' => set_manifold (fst q) (snd q) = Ok m') (combine ms gs) ms'.
Proof.
  induction ms as [|m ms IH]; intros [|g gs] ms'; cbn [sets]; fold sets; cbn [combine length].
  - split; [intros E; injection E as <-; auto|intros (_ & F); inversion F; reflexivity].
  - split; [discriminate|intros (L & _); discriminate L].
  - split; [discriminate|intros (L & _); discriminate L].
  - split.
    + intros E. destruct (set_manifold m g) as [m'|] eqn:E1; [|discriminate E]. cbn [bind] in E. destruct (sets ms gs) as [r|] eqn:E2; [|discriminate E]. injection E as <-. destruct (proj1 (IH gs r) E2) as (L & F). split; [congruence|]. constructor; assumption.
    + intros (L & F). inversion F as [|? m' ? r E1 F1]; subst. cbn [fst snd] in E1. rewrite E1. cbn [bind]. rewrite (proj2 (IH gs r)); [reflexivity|]. split; [congruence|exact F1].
Qed.
Lemma pick_forall2 {A B} (P : A -> B -> Prop) q l l' : Forall2 P l l' -> Forall2 P (pick q l) (pick q l').
Proof.
  intros F. induction q as [|i q IH]; [constructor|]. rewrite !pick_cons. apply Forall2_app; [|exact IH]. clear IH. revert i. induction F as [|a b l l' H F IH]; intros [|i]; cbn [nth_error]; [constructor..| |apply IH]. constructor; [exact H|constructor].
Qed.
Lemma pick_len {A B} q (l : list A) (l' : list B) : length l = length l' -> length (pick q l) = length (pick q l').
Proof.
  intros L. induction q as [|i q IH]; [reflexivity|]. rewrite !pick_cons, !app_length, IH. f_equal.
  destruct (nth_error l i) eqn:E, (nth_error l' i) eqn:E'; try reflexivity; exfalso; apply nth_error_None in E || apply nth_error_None in E'; [assert (i < length l)%nat by (apply nth_error_Some; congruence)|assert (i < length l')%nat by (apply nth_error_Some; congruence)]; lia.
Qed.
Lemma counts_skel gs gs' : map skel gs = map skel gs' -> counts gs = counts gs' /\ map (fun g => length (g_gd g)) gs = map (fun g => length (g_gd g)) gs'.
Proof.
  revert gs'. induction gs as [|g gs IH]; intros [|g' gs'] E; try discriminate E; [split; reflexivity|]. cbn in E |- *. injection E as E1 E2. destruct (IH gs' E2) as (A & B). destruct (skel_g_gd_len g g' E1) as (C & D). unfold counts in *. cbn [map]. split; f_equal; assumption.
Qed.
Lemma flat_concat {A B} (f : A -> list B) l : flat_map f l = concat (map f l). Proof. apply flat_map_concat_map. Qed.

(** The moments of the relisted model. *)
Lemma order_cotan p pm defs mods : Permutation p (seq 0 (length defs)) ->
  g_cotan (mod_manifold (start (pick p defs) (pick pm mods))) = pick (moment_order p pm defs mods) (g_cotan (mod_manifold (start defs mods))).
Proof.
  intros P. rewrite !start_manifold, moment_spread. change (flat_map g_cotan (map df_man (pick p defs) ++ map mod_manifold (pick pm mods)) = pick (spread (order_of p pm defs) (counts (map df_man defs ++ map mod_manifold mods))) (flat_map g_cotan (map df_man defs ++ map mod_manifold mods))).
  rewrite !flat_concat, pick_spread by (rewrite map_map; reflexivity). f_equal. rewrite pick_map. f_equal. rewrite (pick_order p pm defs) by (rewrite ?map_length; auto). rewrite !pick_map. reflexivity.
Qed.
Lemma refilled_order p pm defs mods vs dx mx : Permutation p (seq 0 (length defs)) ->
  refilled defs mods vs dx mx -> refilled (pick p defs) (pick pm mods) (pick (moment_order p pm defs mods) vs) (pick p dx) (pick pm mx).
Proof.
  intros P (ST & (K & G) & C & SO). assert (LD : length dx = length defs) by (clear - SO; induction SO; cbn; congruence). assert (PX : Permutation p (seq 0 (length dx))) by (rewrite LD; exact P).
  assert (OO : order_of p pm dx = order_of p pm defs) by (unfold order_of; rewrite LD; reflexivity).
  rewrite start_manifold in K, G. rewrite (start_manifold defs) in K, G. cbn [skel] in K. injection K as K. destruct (counts_skel _ _ K) as (KC & KG).
  assert (MM : map df_man (pick p defs) ++ map mod_manifold (pick pm mods) = pick (order_of p pm defs) (map df_man defs ++ map mod_manifold mods)) by (rewrite (pick_order p pm defs) by (rewrite ?map_length; auto); rewrite !pick_map; reflexivity).
  assert (MX : map df_man (pick p dx) ++ map mod_manifold (pick pm mx) = pick (order_of p pm defs) (map df_man dx ++ map mod_manifold mx)) by (rewrite <- OO, (pick_order p pm dx) by (rewrite ?map_length; auto); rewrite !pick_map; reflexivity).
  split; [|split; [split|split]].
  - rewrite start_manifold, MX. rewrite start_manifold in ST. rewrite (order_start p pm defs mods P), (order_start p pm dx mx PX), OO. unfold start in ST. cbn [set_manifold] in ST |- *. fold sets in ST |- *. 
    destruct (sets (map silent_module defs ++ mods) (map df_man dx ++ map mod_manifold mx)) as [ms'|] eqn:E; [|discriminate ST]. cbn [bind] in ST. injection ST as ->.
    apply sets_each in E. destruct E as (L & F). rewrite (proj2 (sets_each _ _ (pick (order_of p pm defs) (map silent_module dx ++ mx)))); [reflexivity|].
    split; [apply pick_len; exact L|]. rewrite <- pick_combine by exact L. apply pick_forall2. exact F.
  - rewrite !start_manifold, MM, MX. cbn [skel]. f_equal. rewrite <- !pick_map. f_equal. exact K.
  - rewrite !start_manifold, MM, MX. change (flat_map g_gd (pick (order_of p pm defs) (map df_man dx ++ map mod_manifold mx)) = flat_map g_gd (pick (order_of p pm defs) (map df_man defs ++ map mod_manifold mods))).
    rewrite !flat_concat, <- !pick_map. rewrite <- (pick_spread _ _ (map g_gd (map df_man dx ++ map mod_manifold mx)) eq_refl), <- (pick_spread _ _ (map g_gd (map df_man defs ++ map mod_manifold mods)) eq_refl). rewrite !map_map in *. cbn [g_gd] in G. rewrite !flat_concat in G. rewrite G, KG. reflexivity.
  - rewrite (order_cotan p pm dx mx PX), C. f_equal. rewrite !moment_spread, OO, KC. reflexivity.
  - apply pick_forall2. exact SO.
Qed.

Lemma refilled_unique defs mods vs dx mx dy my : refilled defs mods vs dx mx -> refilled defs mods vs dy my -> dx = dy /\ mx = my.
Proof.
  intros (ST & (K & G) & C & SO) (ST' & (K' & G') & C' & SO').
  assert (E : mod_manifold (start dx mx) = mod_manifold (start dy my)) by (apply g_ext; congruence). rewrite E in ST. rewrite ST in ST'. injection ST' as ST'.
  assert (LX : length dx = length defs) by (clear - SO; induction SO; cbn; congruence). assert (LY : length dy = length defs) by (clear - SO'; induction SO'; cbn; congruence).
  assert (Q : map silent_module dx = map silent_module dy /\ mx = my).
  { clear - ST' LX LY. assert (L : length dx = length dy) by congruence. clear LX LY. revert dy ST' L. induction dx as [|o dx IH]; intros [|o' dy] E L; try discriminate L; [split; [reflexivity|exact E]|]. cbn in E, L. injection E as E1 E2. destruct (IH dy E2 ltac:(lia)) as (A & B). split; [|exact B]. cbn. unfold silent_module at 1 3. rewrite E1, A. reflexivity. }
  destruct Q as (Q & ->). split; [|reflexivity]. clear - SO SO' Q. revert dx dy SO SO' Q. induction defs as [|o defs IH]; intros dx dy SO SO' Q; inversion SO as [|? ox ? dx1 (E & _) F]; subst; inversion SO' as [|? oy ? dy1 (E' & _) F']; subst; [reflexivity|].
  cbn [map] in Q. unfold silent_module in Q at 1 3. injection Q as Q1 Q2. f_equal; [rewrite E, E', Q1; reflexivity|]. apply IH; assumption.
Qed.

Lemma reads_same o ox a y : same_object o ox -> reads_values o a y -> reads_values ox a y.
Proof.
  intros (E & K & G) RV q0 q q' x x' E0 SQ T X X'.
  assert (E1 : lm_gd (df_man o) = Ok q0). { destruct (df_man ox) as [dim nb q1 p1| | | | |] eqn:M; try discriminate E0. cbn in E0. injection E0 as ->. destruct (df_man o); try discriminate K. cbn in G. injection G as ->. reflexivity. }
  assert (TD : forall z, to_deformed ox z = to_deformed o z) by (intros z; rewrite E; destruct o; reflexivity). rewrite TD in X, X'. exact (RV q0 q q' x x' E1 SQ T X X').
Qed.
