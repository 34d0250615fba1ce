(** Along shooting, descriptors are carried by the field that the module generates. *)
From Coq Require Import Reals String List Arith Lia Lra.
From Verif Require Import Py RSum Tensor TensorFacts KernelModel FieldModel GeometryModel ModuleModel ShootingModel
  SpecField SpecGeometry SpecModule SpecShooting SpecTransport FieldFacts GeometryFacts ModuleAlg ModuleDual ModuleLeaves ModuleImplicit ModuleMain ModuleHistory
  ShootingPack ShootingDyn ShootingInst MotionFacts MotionShoot MotionMomentum.
Import ListNotations.
Open Scope R_scope.

(** ** Forgetting the values of the moments *)

Definition blank (t : tensor) : tensor := tzeros (shape t).
Fixpoint uncot_g (g : gman) : gman :=
  match g with
  | GLm dim nb gd c => GLm dim nb gd (blank c)
  | GDir tr dim nb gd0 gd1 c0 c1 => GDir tr dim nb gd0 gd1 (blank c0) (blank c1)
  | GFrame dim nb gd0 gd1 c0 c1 => GFrame dim nb gd0 gd1 (blank c0) (blank c1)
  | GCLm dim nb0 nb1 gd0 gd1 c0 c1 i0 i1 => GCLm dim nb0 nb1 gd0 gd1 (blank c0) (blank c1) i0 i1
  | GEmpty dim => GEmpty dim
  | GComp gs => GComp (map uncot_g gs)
  end.
Fixpoint uncot (m : dmod) : dmod :=
  match m with
  | MGlobal dim co h => MGlobal dim co h
  | MTrans b sg dim nb gd c h => MTrans b sg dim nb gd (blank c) h
  | MImp0 b sg nu co dim nb gd c h => MImp0 b sg nu co dim nb gd (blank c) h
  | MOriented sg co tr dim nb gd0 gd1 c0 c1 h => MOriented sg co tr dim nb gd0 gd1 (blank c0) (blank c1) h
  | MLocal sg co fs fv dim nb gd c h => MLocal sg co fs fv dim nb gd (blank c) h
  | MLinear A co gd c h => MLinear A co gd (blank c) h
  | MSilent man => MSilent (uncot_g man)
  | MImp1 b sg nu co C dim nb gd0 gd1 c0 c1 h ca => MImp1 b sg nu co C dim nb gd0 gd1 (blank c0) (blank c1) h ca
  | MDivFree sg cd nu co dim n0 n1 gd c h l => MDivFree sg cd nu co dim n0 n1 gd (blank c) h l
  | MArap sg ca nu co dim n0 n1 gd c h l => MArap sg ca nu co dim n0 n1 gd (blank c) h l
  | MComp ms => MComp (map uncot ms)
  end.

Lemma uncot_gd g : g_gd (uncot_g g) = g_gd g.
Proof.
  induction g as [g S|gs IH] using gman_ind'; [destruct g; try (elim S); reflexivity|]. cbn [uncot_g g_gd].
  induction IH as [|g gs Hg _ IHs]; [reflexivity|]. cbn [map flat_map]. rewrite Hg, IHs. reflexivity.
Qed.
Lemma uncot_cotan g : g_cotan (uncot_g g) = map blank (g_cotan g).
Proof.
  induction g as [g S|gs IH] using gman_ind'; [destruct g; try (elim S); reflexivity|]. cbn [uncot_g g_cotan].
  induction IH as [|g gs Hg _ IHs]; [reflexivity|]. cbn [map flat_map]. rewrite Hg, IHs, map_app. reflexivity.
Qed.
Lemma uncot_skel g : skel (uncot_g g) = skel g.
Proof.
  induction g as [g S|gs IH] using gman_ind'; [destruct g; try (elim S); reflexivity|]. cbn [uncot_g skel]. f_equal.
  induction IH as [|g gs Hg _ IHs]; [reflexivity|]. cbn [map]. rewrite Hg, IHs. reflexivity.
Qed.
Lemma uncot_eq g g' : skel g = skel g' -> g_gd g = g_gd g' -> map shape (g_cotan g) = map shape (g_cotan g') -> uncot_g g = uncot_g g'.
Proof.
  intros K G C. apply g_ext; [rewrite !uncot_skel; exact K|rewrite !uncot_gd; exact G|]. rewrite !uncot_cotan.
  unfold blank. rewrite <- !(map_map shape tzeros), C. reflexivity.
Qed.
Lemma uncot_man m : mod_manifold (uncot m) = uncot_g (mod_manifold m).
Proof.
  induction m as [m NC|ms IH] using dmod_ind'; [destruct m; try (elim (NC ms eq_refl)); reflexivity|]. cbn [uncot mod_manifold uncot_g]. f_equal.
  induction IH as [|m ms Hm _ IHs]; [reflexivity|]. cbn [map]. rewrite Hm, IHs. reflexivity.
Qed.
Lemma uncot_gdim g : gdim (uncot_g g) = gdim g.
Proof.
  induction g as [g S|gs IH] using gman_ind'; [destruct g; try (elim S); reflexivity|]. destruct IH as [|g gs Hg _]; [reflexivity|exact Hg].
Qed.
Lemma uncot_field m : field_generator (uncot m) = field_generator m.
Proof.
  induction m as [m NC|ms IH] using dmod_ind'.
  - destruct m; try (elim (NC ms eq_refl)); try reflexivity. cbn [uncot field_generator]. rewrite uncot_gdim. reflexivity.
  - cbn [uncot field_generator]. fold fields.
    assert (E : fields (map uncot ms) = fields ms); [|rewrite E; reflexivity].
    induction IH as [|m ms Hm _ IHs]; [reflexivity|]. cbn [map fields]. fold fields. rewrite Hm, IHs. reflexivity.
Qed.
Lemma uncot_cost m : cost (uncot m) = cost m.
Proof.
  induction m as [m NC|ms IH] using dmod_ind'; [destruct m; try (elim (NC ms eq_refl)); reflexivity|].
  cbn [uncot cost]. fold costs. induction IH as [|m ms Hm _ IHs]; [reflexivity|]. cbn [map costs]. fold costs. rewrite Hm, IHs. reflexivity.
Qed.
Lemma uncot_action g F : infinitesimal_action (uncot_g g) F = infinitesimal_action g F.
Proof.
  induction g as [g S|gs IH] using gman_ind'; [destruct g; try (elim S); reflexivity|]. cbn [uncot_g]. rewrite !action_comp.
  assert (E : mapM (fun m => infinitesimal_action m F) (map uncot_g gs) = mapM (fun m => infinitesimal_action m F) gs); [|rewrite E; reflexivity].
  induction IH as [|g gs Hg _ IHs]; [reflexivity|]. cbn [map mapM]. rewrite Hg, IHs. reflexivity.
Qed.
Lemma uncot_fill sv m : forall c, fill_controls sv (uncot m) c = (m' <- fill_controls sv m c ;; Ok (uncot m')).
Proof.
  induction m as [m NC|ms IH] using dmod_ind'; intros c.
  - destruct m; try (elim (NC ms eq_refl)); destruct c as [hh|ll]; try reflexivity; cbn [uncot fill_controls].
    + destruct (shape hh); reflexivity.
    + destruct (imp1_moments _ _ _ _ _ _ _ _ _ _); reflexivity.
    + destruct (div_moments _ _ _ _ _ _ _ _); reflexivity.
    + destruct (arap_moments _ _ _ _ _ _ _ _ _); reflexivity.
  - destruct c as [h|l]; [reflexivity|]. cbn [uncot]. rewrite !fill_comp, map_length. destruct (Nat.eqb (length l) (length ms)); [cbn [py_assert bind]|reflexivity].
    assert (E : fills sv (map uncot ms) l = (r <- fills sv ms l ;; Ok (map uncot r))).
    { revert l. induction IH as [|m ms Hm _ IHs]; intros l; [destruct l; reflexivity|]. destruct l as [|c l]; [reflexivity|].
      cbn [map fills]. fold (fills sv). rewrite Hm, IHs. destruct (fill_controls sv m c); [cbn [bind]|reflexivity]. destruct (fills sv ms l); reflexivity. }
    rewrite E. destruct (fills sv ms l); reflexivity.
Qed.
Lemma uncot_set m : forall g, set_manifold (uncot m) (uncot_g g) = (m' <- set_manifold m g ;; Ok (uncot m')).
Proof.
  induction m as [m NC|ms IH] using dmod_ind'; intros g.
  - destruct m; try (elim (NC ms eq_refl)); destruct g; reflexivity.
  - destruct g as [| | | | |gs]; try reflexivity. cbn [uncot uncot_g]. rewrite !set_comp.
    assert (E : sets (map uncot ms) (map uncot_g gs) = (r <- sets ms gs ;; Ok (map uncot r))).
    { revert gs. induction IH as [|m ms Hm _ IHs]; intros gs; destruct gs as [|g gs]; try reflexivity.
      cbn [map sets]. fold sets. rewrite Hm, IHs. destruct (set_manifold m g); [cbn [bind]|reflexivity]. destruct (sets ms gs); reflexivity. }
    rewrite E. destruct (sets ms gs); reflexivity.
Qed.
Lemma uncot_wf_g d g : wf_gman d (uncot_g g) <-> wf_gman d g.
Proof.
  induction g as [g S|gs IH] using gman_ind'; [destruct g; try (elim S); reflexivity|]. cbn [uncot_g wf_gman].
  induction IH as [|g gs Hg _ IHs]; [reflexivity|]. cbn [map fold_right]. rewrite Hg, IHs. reflexivity.
Qed.
Lemma uncot_nonempty g : no_empty_comp (uncot_g g) <-> no_empty_comp g.
Proof.
  induction g as [g S|gs IH] using gman_ind'; [destruct g; try (elim S); reflexivity|]. cbn [uncot_g no_empty_comp].
  assert (A : map uncot_g gs <> [] <-> gs <> []) by (destruct gs; cbn; split; intros H Q; try discriminate Q; elim (H eq_refl)). rewrite A. clear A.
  assert (B : fold_right (fun m acc => no_empty_comp m /\ acc) True (map uncot_g gs) <-> fold_right (fun m acc => no_empty_comp m /\ acc) True gs); [|rewrite B; reflexivity].
  induction IH as [|g gs Hg _ IHs]; [reflexivity|]. cbn [map fold_right]. rewrite Hg, IHs. reflexivity.
Qed.
Lemma uncot_wf d m : wf_mod d (uncot m) <-> wf_mod d m.
Proof.
  induction m as [m NC|ms IH] using dmod_ind'.
  - destruct m; try (elim (NC ms eq_refl)); try reflexivity. cbn [uncot wf_mod]. rewrite uncot_wf_g, uncot_nonempty. reflexivity.
  - cbn [uncot wf_mod]. assert (A : map uncot ms <> [] <-> ms <> []) by (destruct ms; cbn; split; intros H Q; try discriminate Q; elim (H eq_refl)). rewrite A. clear A.
    assert (B : fold_right (fun m acc => wf_mod d m /\ acc) True (map uncot ms) <-> fold_right (fun m acc => wf_mod d m /\ acc) True ms); [|rewrite B; reflexivity].
    induction IH as [|m ms Hm _ IHs]; [reflexivity|]. cbn [map fold_right]. rewrite Hm, IHs. reflexivity.
Qed.
Lemma uncot_ctrl d m : forall c, ctrl_ok d (uncot m) c <-> ctrl_ok d m c.
Proof.
  induction m as [m NC|ms IH] using dmod_ind'; intros c.
  - destruct m; try (elim (NC ms eq_refl)); destruct c; reflexivity.
  - destruct c as [h|l]; [reflexivity|]. cbn [uncot ctrl_ok]. fold (ctrls_ok d). revert l.
    induction IH as [|m ms Hm _ IHs]; intros l; destruct l as [|c l]; try reflexivity. cbn [map ctrls_ok]. fold (ctrls_ok d). rewrite Hm, IHs. reflexivity.
Qed.

(** ** The pairing as a sum over numbers *)

Definition cat_dot (a b : list tensor) : R := rsum (numel a) (fun j => cat_get a j * cat_get b j).

Lemma cat_dot_app a b a' b' : numel a = numel b -> cat_dot (a ++ a') (b ++ b') = cat_dot a b + cat_dot a' b'.
Proof.
  intros N. unfold cat_dot. rewrite numel_app, rsum_split. f_equal; apply rsum_ext; intros j J.
  - rewrite !cat_get_app by (try rewrite <- N; exact J). reflexivity.
  - rewrite cat_get_app_r, N, cat_get_app_r. reflexivity.
Qed.
Lemma cat_get_1 t j : (j < prod (shape t))%nat -> cat_get [t] j = (tflatten t) @1 j.
Proof. intros J. cbn [cat_get]. cbv zeta. apply Nat.ltb_lt in J. rewrite J. reflexivity. Qed.
Lemma cat_dot_1 a b : prod (shape a) = prod (shape b) -> cat_dot [a] [b] = tdot a b.
Proof.
  intros P. unfold cat_dot, tdot, numel. cbn [map list_sum fold_right]. rewrite Nat.add_0_r. apply rsum_ext. intros j J.
  rewrite !cat_get_1 by lia. reflexivity.
Qed.

Lemma wf_numel d g : wf_gman d g -> numel (g_cotan g) = numel (g_gd g).
Proof. intros W. apply numel_shapes, (wf_shapes d), W. Qed.

Lemma pairing_flat d F g : wf_gman d g -> answers d F -> forall tan, infinitesimal_action g F = Ok tan ->
  inner_prod_field g F = Ok (cat_dot (g_cotan g) (g_tan tan)).
Proof.
  intros W HF tan E. destruct (inner_is_tree_dot d g F W HF) as (t & E' & I). rewrite E in E'. injection E' as <-. rewrite I. f_equal. clear I. revert W tan E.
  induction g as [dim nb gd c|tr dim nb gd0 gd1 c0 c1|dim nb gd0 gd1 c0 c1|dim n0 n1 gd0 gd1 c0 c1 i0 i1|dim|gs IH] using GeometryFacts.gman_ind'; intros W tan E.
  - cbn [wf_gman] in W. destruct W as (-> & Sg & Sc). destruct (HF gd nb Sg) as ((t0 & E0 & S0) & _). cbn [infinitesimal_action] in E. rewrite (lm_action_ok d nb gd F t0 E0 S0) in E. injection E as <-.
    cbn [cotans tree_dot g_cotan g_tan]. symmetry. apply cat_dot_1. congruence.
  - cbn [wf_gman] in W. destruct W as (-> & Sg0 & Sg1 & Sc0 & Sc1). destruct (HF gd0 nb Sg0) as ((t0 & E0 & S0) & (t2 & HE2 & S2)).
    cbn [infinitesimal_action] in E. rewrite (dir_action_ok tr d nb gd0 gd1 F t0 t2) in E by assumption. cbn [bind fst snd] in E. injection E as <-.
    cbn [cotans tree_dot g_cotan g_tan]. change [c0; c1] with ([c0] ++ [c1]). change [t0; ?u] with ([t0] ++ [u]). rewrite cat_dot_app, !cat_dot_1; [reflexivity| | |].
    + rewrite (dir_tan_shape tr d nb t2 gd1 S2 Sg1), Sc1. cbn. lia.
    + congruence.
    + cbn. rewrite S0, Sc0. reflexivity.
  - cbn [wf_gman] in W. destruct W as (-> & Sg0 & Sg1 & Sc0 & Sc1). destruct (HF gd0 nb Sg0) as ((t0 & E0 & S0) & (t2 & HE2 & S2)).
    cbn [infinitesimal_action] in E. rewrite (frame_action_ok d nb gd0 gd1 F t0 t2) in E by assumption. cbn [bind fst snd] in E. injection E as <-.
    cbn [cotans tree_dot g_cotan g_tan]. change [c0; c1] with ([c0] ++ [c1]). change [t0; ?u] with ([t0] ++ [u]). rewrite cat_dot_app, !cat_dot_1; [reflexivity| | |].
    + rewrite (frame_tan_shape d nb t2 gd1) by assumption. rewrite Sc1. reflexivity.
    + congruence.
    + cbn. rewrite S0, Sc0. reflexivity.
  - destruct W.
  - injection E as <-. reflexivity.
  - cbn [wf_gman] in W. apply fr_and in W. rewrite action_comp in E. bok E ts Ets. injection E as <-. cbn [cotans g_tan g_cotan].
    revert ts Ets. clear - IH W HF. induction IH as [|g gs Hg _ IHg]; intros ts Ets.
    + injection Ets as <-. reflexivity.
    + inversion W as [|? ? Wg Wgs]; subst. cbn [mapM] in Ets. bok Ets a Ea. bok Ets r Er. injection Ets as <-. cbn [flat_map map].
      rewrite cat_dot_app.
      * rewrite <- (Hg Wg a Ea), <- (IHg Wgs r Er). reflexivity.
      * rewrite (wf_numel d g Wg). symmetry. apply (action_numel d F g Wg HF a Ea).
Qed.

(** ** Positions in the flat list *)

Definition pos (l : list tensor) (i : nat) (idx : list nat) : nat :=
  (numel (firstn i l) + match nth_error l i with Some t => ravel (shape t) idx | None => 0 end)%nat.

Lemma pos_lt l : forall i t idx, nth_error l i = Some t -> valid (shape t) idx -> (pos l i idx < numel l)%nat.
Proof.
  induction l as [|a l IH]; intros i t idx E V; destruct i as [|i]; try discriminate E.
  - injection E as ->. unfold pos. cbn [firstn nth_error]. pose proof (ravel_lt _ _ V). rewrite numel_cons. change (numel []) with 0%nat. lia.
  - specialize (IH i t idx E V). unfold pos in *. cbn [firstn nth_error]. rewrite !numel_cons. lia.
Qed.
Lemma pos_onto l : forall j, (j < numel l)%nat -> exists i t idx, nth_error l i = Some t /\ valid (shape t) idx /\ j = pos l i idx.
Proof.
  induction l as [|a l IH]; intros j J; [cbn in J; lia|]. rewrite numel_cons in J. destruct (Nat.lt_ge_cases j (prod (shape a))) as [L|L].
  - exists 0%nat, a, (unravel (shape a) j). split; [reflexivity|]. split; [apply valid_unravel; exact L|]. unfold pos. cbn. rewrite ravel_unravel by exact L. reflexivity.
  - destruct (IH (j - prod (shape a))%nat ltac:(lia)) as (i & t & idx & E & V & Q). exists (S i), t, idx. split; [exact E|]. split; [exact V|].
    unfold pos in *. cbn [firstn nth_error]. rewrite numel_cons. lia.
Qed.
Lemma pos_shape l : forall l' i idx, map shape l = map shape l' -> pos l i idx = pos l' i idx.
Proof.
  intros l' i idx S. unfold pos. f_equal; [apply numel_shapes; rewrite !map_firstn, S; reflexivity|].
  pose proof (f_equal (fun x => nth_error x i) S) as N. cbn beta in N. rewrite !nth_error_map in N. destruct (nth_error l i), (nth_error l' i); try discriminate N; [|reflexivity].
  injection N as ->. reflexivity.
Qed.
Lemma cat_pos l : forall i t idx, nth_error l i = Some t -> valid (shape t) idx -> cat_get l (pos l i idx) = entry l i idx.
Proof.
  induction l as [|a l IH]; intros i t idx E V; destruct i as [|i]; try discriminate E.
  - injection E as ->. unfold pos, entry. cbn [firstn numel map list_sum fold_right nth_error Nat.add]. cbn [cat_get]. cbv zeta.
    pose proof (ravel_lt _ _ V) as L. apply Nat.ltb_lt in L. rewrite L. rewrite get_flatten_k, unravel_ravel by exact V. reflexivity.
  - specialize (IH i t idx E V). unfold pos in *. cbn [firstn nth_error]. rewrite numel_cons. cbn [cat_get]. cbv zeta.
    destruct (Nat.ltb_spec (prod (shape a) + numel (firstn i l) + match nth_error l i with Some t0 => ravel (shape t0) idx | None => 0 end) (prod (shape a))); [lia|].
    match goal with |- cat_get l ?k = _ => replace k with (numel (firstn i l) + match nth_error l i with Some t0 => ravel (shape t0) idx | None => 0 end)%nat by lia end. exact IH.
Qed.
Lemma upd_shape l : forall i idx s, map shape (upd l i idx s) = map shape l.
Proof. induction l as [|a l IH]; intros [|i] idx s; cbn; try reflexivity. rewrite IH. reflexivity. Qed.
Lemma upd_app_r a b i idx s : upd (a ++ b) (length a + i) idx s = a ++ upd b i idx s.
Proof. induction a as [|x a IH]; [reflexivity|]. cbn. rewrite IH. reflexivity. Qed.
Lemma entry_app_r a b i idx : entry (a ++ b) (length a + i) idx = entry b i idx.
Proof. unfold entry. rewrite nth_error_app2 by lia. replace (length a + i - length a)%nat with i by lia. reflexivity. Qed.
Lemma cat_upd l : forall i t idx s j, nth_error l i = Some t -> valid (shape t) idx -> (j < numel l)%nat ->
  cat_get (upd l i idx s) j = if Nat.eqb j (pos l i idx) then s else cat_get l j.
Proof.
  induction l as [|a l IH]; intros i t idx s j E V J; destruct i as [|i]; try discriminate E.
  - injection E as ->. unfold pos. cbn [firstn numel map list_sum fold_right nth_error Nat.add upd]. cbn [cat_get shape tset]. cbv zeta.
    destruct (Nat.ltb_spec j (prod (shape t))) as [L|L].
    + rewrite !get_flatten_k. unfold tset. cbn [get shape]. unfold idx_eqb. destruct (list_eq_dec Nat.eq_dec (unravel (shape t) j) idx) as [Q|Q].
      * replace (Nat.eqb j (ravel (shape t) idx)) with true; [reflexivity|]. symmetry. apply Nat.eqb_eq. rewrite <- Q. symmetry. apply ravel_unravel, L.
      * replace (Nat.eqb j (ravel (shape t) idx)) with false; [reflexivity|]. symmetry. apply Nat.eqb_neq. intros ->. apply Q, unravel_ravel, V.
    + pose proof (ravel_lt _ _ V). replace (Nat.eqb j (ravel (shape t) idx)) with false; [reflexivity|]. symmetry. apply Nat.eqb_neq. lia.
  - rewrite numel_cons in J. specialize (IH i t idx s). unfold pos in *. cbn [firstn nth_error upd]. rewrite numel_cons. cbn [cat_get]. cbv zeta.
    destruct (Nat.ltb_spec j (prod (shape a))) as [L|L].
    + match goal with |- context [Nat.eqb j ?k] => replace (Nat.eqb j k) with false; [reflexivity|] end. symmetry. apply Nat.eqb_neq. lia.
    + rewrite IH; [|exact E|exact V|lia].
      match goal with |- (if Nat.eqb ?x ?y then _ else _) = (if Nat.eqb ?x' ?y' then _ else _) => replace (Nat.eqb x' y') with (Nat.eqb x y); [reflexivity|] end.
      match goal with |- Nat.eqb ?x ?y = Nat.eqb ?x' ?y' => destruct (Nat.eqb_spec x y); destruct (Nat.eqb_spec x' y'); [reflexivity|lia|lia|reflexivity] end.
Qed.
Lemma cat_dot_upd l b i t idx s : nth_error l i = Some t -> valid (shape t) idx ->
  cat_dot (upd l i idx s) b = cat_dot l b + (s - entry l i idx) * cat_get b (pos l i idx).
Proof.
  intros E V. unfold cat_dot. rewrite (numel_shapes _ _ (upd_shape l i idx s)).
  rewrite (rsum_ext _ _ (fun j => cat_get l j * cat_get b j + delta j (pos l i idx) * ((s - entry l i idx) * cat_get b j))).
  - rewrite rsum_plus, rsum_delta_l by (exact (pos_lt l i t idx E V)). ring.
  - intros j J. rewrite (cat_upd l i t) by assumption. destruct (Nat.eqb_spec j (pos l i idx)) as [->|N].
    + rewrite delta_same, (cat_pos l i t) by assumption. ring.
    + rewrite delta_diff by exact N. ring.
Qed.

(** A function above an affine one, equal at a point, has its slope there. *)
Lemma touching f x0 g b c eps : 0 < eps -> derivable_pt_lim f x0 g -> (forall s, Rabs (s - x0) < eps -> b + (s - x0) * c <= f s) ->
  f x0 = b -> g = c.
Proof.
  intros P D L E. destruct (Rtotal_order g c) as [H|[H|H]]; [|exact H|].
  - exfalso. destruct (D ((c - g) / 2) ltac:(lra)) as ((dl & Hd) & Q). cbn in Q.
    set (h := Rmin dl eps / 2). assert (M : 0 < Rmin dl eps) by (apply Rmin_pos; assumption).
    assert (Hh : 0 < h /\ h < dl /\ h < eps) by (unfold h; pose proof (Rmin_l dl eps); pose proof (Rmin_r dl eps); lra).
    specialize (Q h ltac:(lra)). rewrite Rabs_right in Q by lra. specialize (Q ltac:(lra)).
    specialize (L (x0 + h)). replace (x0 + h - x0) with h in L by ring. rewrite Rabs_right in L by lra. specialize (L ltac:(lra)).
    assert (K : c <= (f (x0 + h) - f x0) / h). { apply Rmult_le_reg_r with h; [lra|]. unfold Rdiv. rewrite Rmult_assoc, Rinv_l by lra. lra. }
    apply Rabs_def2 in Q. lra.
  - exfalso. destruct (D ((g - c) / 2) ltac:(lra)) as ((dl & Hd) & Q). cbn in Q.
    set (h := Rmin dl eps / 2). assert (M : 0 < Rmin dl eps) by (apply Rmin_pos; assumption).
    assert (Hh : 0 < h /\ h < dl /\ h < eps) by (unfold h; pose proof (Rmin_l dl eps); pose proof (Rmin_r dl eps); lra).
    specialize (Q (- h) ltac:(lra)). rewrite Rabs_Ropp, Rabs_right in Q by lra. specialize (Q ltac:(lra)).
    specialize (L (x0 + - h)). replace (x0 + - h - x0) with (- h) in L by ring. rewrite Rabs_Ropp, Rabs_right in L by lra. specialize (L ltac:(lra)).
    assert (K : (f (x0 + - h) - f x0) / - h <= c).
    { replace ((f (x0 + - h) - f x0) / - h) with ((f x0 - f (x0 + - h)) / h) by (field; lra). apply Rmult_le_reg_r with h; [lra|]. unfold Rdiv. rewrite Rmult_assoc, Rinv_l by lra. lra. }
    apply Rabs_def2 in Q. lra.
Qed.

(** ** The derivative of the Hamiltonian with respect to the moments *)

Lemma app_inj_len {A} (a a' b b' : list A) : length a = length a' -> a ++ b = a' ++ b' -> a = a' /\ b = b'.
Proof. revert a'. induction a as [|x a IH]; intros [|x' a'] L E; try discriminate L; [split; [reflexivity|exact E]|]. injection E as -> E. injection L as L. destruct (IH a' L E) as (-> & ->). split; reflexivity. Qed.
Lemma ham_gain m : hamiltonian m = gain m (mod_manifold m).
Proof. unfold hamiltonian, apply_mom, gain. destruct (field_generator m); reflexivity. Qed.

Section Carried.
Variables (sv : solver) (b0 : backend) (d : nat) (HSV : exact_solver sv) (m : dmod).

Lemma fixed_ham g m1 c m2 : skel g = skel (mod_manifold m) -> set_manifold m g = Ok m1 -> wf_mod d m1 -> ctrl_ok d m1 c -> fill_controls sv m1 c = Ok m2 ->
  exists f tan e, field_generator m2 = Ok f /\ infinitesimal_action (mod_manifold m2) (feval f) = Ok tan /\ numel (g_tan tan) = numel (g_gd g) /\
    forall g', uncot_g g' = uncot_g g -> exists m1' m2', set_manifold m g' = Ok m1' /\ mod_manifold m1' = g' /\ wf_mod d m1' /\ ctrl_ok d m1' c /\ fill_controls sv m1' c = Ok m2' /\
      hamiltonian m2' = Ok (cat_dot (g_cotan g') (g_tan tan) - e).
Proof.
  intros K E W O F. destruct (module_leaf sv b0 d m1 HSV W (ex_intro _ c (ex_intro _ m2 (conj O F)))) as (Q & [P _ _]).
  destruct (pk_fill _ _ _ _ P c O) as (m2' & f & F' & C & FG & (Wf & H0 & H1 & _)). rewrite F in F'. injection F' as <-.
  destruct (set_ok m g K) as (m1' & E' & M1 & _). rewrite E in E'. injection E' as <-. pose proof (fill_manifold sv m1 c m2 F) as M2.
  destruct (wf_mod_manifold d m1 W) as (WG & _). rewrite M1 in WG. pose proof (answers_field d f Wf H1) as A.
  destruct (inner_is_tree_dot d g (feval f) WG A) as (tan & T & _).
  exists f, tan, (1 / 2 * Q c c). split; [exact FG|]. split; [rewrite M2, M1; exact T|]. split; [apply (action_numel d (feval f) g WG A tan T)|].
  intros g' U. assert (K' : skel g' = skel (mod_manifold m)) by (rewrite <- K, <- (uncot_skel g'), U, uncot_skel; reflexivity).
  destruct (set_ok m g' K') as (m1' & E1 & M1' & _). exists m1'.
  assert (UM : uncot m1' = uncot m1). { pose proof (uncot_set m g) as X. pose proof (uncot_set m g') as X'. rewrite E in X. rewrite E1, U, X in X'. cbn [bind] in X'. congruence. }
  pose proof (uncot_fill sv m1 c) as Y. pose proof (uncot_fill sv m1' c) as Y'. rewrite F in Y. rewrite UM, Y in Y'. cbn [bind] in Y'.
  destruct (fill_controls sv m1' c) as [m2'|] eqn:F1; [|discriminate Y']. cbn [bind] in Y'. injection Y' as UM2. exists m2'.
  split; [exact E1|]. split; [exact M1'|]. split; [apply uncot_wf; rewrite UM; apply uncot_wf; exact W|].
  split; [apply uncot_ctrl; rewrite UM; apply uncot_ctrl; exact O|]. split; [reflexivity|].
  unfold hamiltonian, apply_mom. rewrite <- (uncot_field m2'), <- UM2, uncot_field, FG. cbn [bind].
  rewrite (fill_manifold sv m1' c m2' F1), M1'.
  rewrite (pairing_flat d (feval f) g') with (tan := tan); [|apply uncot_wf_g; rewrite U; apply uncot_wf_g; exact WG|exact A|rewrite <- uncot_action, U, uncot_action; exact T].
  cbn [bind]. rewrite <- (uncot_cost m2'), <- UM2, uncot_cost, C. reflexivity.
Qed.

(** The state with one moment changed. *)
Lemma moment_changed g i t idx s : nth_error (g_cotan g) i = Some t -> valid (shape t) idx ->
  exists g', phase g' = upd (phase g) (g_len g + i) idx s /\ skel g' = skel g /\ uncot_g g' = uncot_g g /\ g_cotan g' = upd (g_cotan g) i idx s.
Proof.
  intros E V. destruct (phase_fill g (upd (phase g) (g_len g + i) idx s)) as (g' & P & K).
  { rewrite <- (map_length shape), upd_shape, map_length. apply phase_len. }
  assert (L : g_len g' = g_len g) by (apply skel_len; exact K).
  unfold phase in P. rewrite <- (g_gd_len g), upd_app_r in P.
  assert (G : g_gd g' = g_gd g /\ g_cotan g' = upd (g_cotan g) i idx s).
  { apply app_inj_len; [rewrite !g_gd_len; exact L|exact P]. }
  destruct G as (G & C). exists g'. split; [unfold phase; rewrite G, C, <- (g_gd_len g), upd_app_r; reflexivity|]. split; [exact K|]. split; [|exact C].
  apply uncot_eq; [exact K|exact G|]. rewrite C. apply upd_shape.
Qed.

Lemma moment_same_shape g i t : map shape (g_cotan g) = map shape (g_gd g) -> nth_error (g_gd g) i = Some t -> exists u, nth_error (g_cotan g) i = Some u /\ shape u = shape t.
Proof.
  intros S E. pose proof (f_equal (fun x => nth_error x i) S) as N. cbn beta in N. rewrite !nth_error_map, E in N.
  destruct (nth_error (g_cotan g) i) as [u|]; [|discriminate N]. injection N as N. exists u. split; [reflexivity|exact N].
Qed.

(** From the derivatives with respect to the moments to the velocities. *)
Lemma carried_of m2 g k f tan n : mod_manifold m2 = g -> map shape (g_cotan g) = map shape (g_gd g) -> n = g_len g ->
  field_generator m2 = Ok f -> infinitesimal_action (mod_manifold m2) (feval f) = Ok tan -> numel (g_tan tan) = numel (g_gd g) ->
  map shape k = map shape (phase g) ->
  (forall i t idx, nth_error (g_gd g) i = Some t -> valid (shape t) idx -> entry k i idx = cat_get (g_tan tan) (pos (g_cotan g) i idx)) ->
  carried m2 (g_gd g) (firstn n k).
Proof.
  intros M S -> FG T N SK H. exists f, tan. split; [exact FG|]. split; [exact T|]. split; [rewrite M; reflexivity|].
  assert (SH : map shape (firstn (g_len g) k) = map shape (g_gd g)).
  { rewrite map_firstn, SK. unfold phase. rewrite map_app, <- (g_gd_len g), <- (map_length shape (g_gd g)), firstn_app, Nat.sub_diag, firstn_all. cbn. apply app_nil_r. }
  split; [exact SH|]. split; [exact N|]. intros j J. destruct (pos_onto (g_gd g) j J) as (i & t & idx & E & V & ->).
  rewrite <- (pos_shape (g_cotan g) (g_gd g) i idx S), <- (H i t idx E V).
  rewrite (pos_shape (g_cotan g) (firstn (g_len g) k)) by congruence.
  pose proof (f_equal (fun x => nth_error x i) SH) as Q. cbn beta in Q. rewrite !nth_error_map, E in Q.
  destruct (nth_error (firstn (g_len g) k) i) as [u|] eqn:Eu; [|discriminate Q]. injection Q as Q.
  rewrite (cat_pos _ i u) by (rewrite ?Q; assumption). apply entry_first.
  assert (i < length (g_gd g))%nat by (apply nth_error_Some; congruence). rewrite g_gd_len in *. assumption.
Qed.

Lemma geodesic_carried g m2 k : skel g = skel (mod_manifold m) -> (forall m1, set_manifold m g = Ok m1 -> wf_mod d m1) ->
  at_state m (geodesic_controls sv b0) (phase g) = Ok m2 -> hamilton (ham_of m (geodesic_controls sv b0)) (phase g) k ->
  carried m2 (g_gd g) (firstn (g_len g) k).
Proof.
  intros K WF A (SK & n & LN & _ & HK). unfold at_state in A. rewrite (write_phase m g K) in A. destruct (set_ok m g K) as (m1 & E1 & M1 & _).
  rewrite E1 in A. cbn [bind] in A. specialize (WF m1 E1). destruct (wf_mod_manifold d m1 WF) as (WG & NE).
  destruct (geodesic_max sv b0 d HSV m1 _ m2 WF WG NE A) as (O & F & _). rewrite M1 in WG, NE.
  destruct (fixed_ham g m1 (controls m2) m2 K E1 WF O F) as (f & tan & e & FG & T & NT & H).
  rewrite phase_len in LN. assert (n = g_len g) by lia. subst n. clear LN.
  pose proof (fill_manifold sv m1 _ m2 F) as M2. rewrite M1 in M2. pose proof (wf_shapes d g WG) as SH.
  apply (carried_of m2 g k f tan); try assumption; try reflexivity. intros i t idx Et V.
  destruct (moment_same_shape g i t SH Et) as (u & Eu & Su).
  assert (I : (i < g_len g)%nat) by (rewrite <- g_gd_len; apply nth_error_Some; congruence).
  assert (Et' : nth_error (phase g) i = Some t) by (unfold phase; rewrite nth_error_app1 by (rewrite g_gd_len; exact I); exact Et).
  destruct (HK i t idx I Et' V) as ((eps & ff & P & Q & D) & _).
  assert (EN : entry (phase g) (g_len g + i) idx = entry (g_cotan g) i idx) by (unfold phase; rewrite <- (g_gd_len g); apply entry_app_r).
  rewrite EN in *.
  apply (touching ff (entry (g_cotan g) i idx) _ (cat_dot (g_cotan g) (g_tan tan) - e) _ eps P D).
  - intros s B. specialize (Q s B). destruct (moment_changed g i u idx s Eu ltac:(rewrite Su; exact V)) as (g' & P' & K' & U & C').
    rewrite <- P' in Q. unfold ham_of in Q. rewrite write_phase in Q by congruence.
    destruct (H g' U) as (m1' & m2' & E1' & M1' & W' & O' & F' & HH). rewrite E1' in Q. cbn [bind] in Q.
    unfold geodesic_controls in Q at 1. bok Q m3 E3. destruct (wf_mod_manifold d m1' W') as (WG' & NE').
    destruct (geodesic_max sv b0 d HSV m1' _ m3 W' WG' NE' E3) as (_ & F3 & g3 & G3 & MX).
    destruct (MX _ O') as (m4 & x & _ & e4 & F4 & G4 & _ & _ & _ & P4 & X4). rewrite F' in F4. injection F4 as <-.
    rewrite ham_gain, (fill_manifold sv m1' _ m2' F') in HH. rewrite G4 in HH. rewrite ham_gain, (fill_manifold sv m1' _ m3 F3), G3 in Q.
    injection Q as Q. injection HH as HH. rewrite C', (cat_dot_upd _ _ i u) in HH by (try assumption; rewrite Su; exact V). lra.
  - specialize (Q (entry (g_cotan g) i idx)). rewrite Rminus_diag_eq, Rabs_R0 in Q by reflexivity. specialize (Q P).
    assert (NU : nth_error (phase g) (g_len g + i) = Some u).
    { unfold phase. rewrite nth_error_app2 by (rewrite g_gd_len; lia). rewrite g_gd_len. replace (g_len g + i - g_len g)%nat with i by lia. exact Eu. }
    rewrite <- EN, (upd_same _ _ u idx NU) in Q. unfold ham_of in Q. rewrite (write_phase m g K), E1 in Q. cbn [bind] in Q. rewrite A in Q. cbn [bind] in Q.
    destruct (H g eq_refl) as (m1' & m2' & E1' & _ & _ & _ & F' & HH). rewrite E1 in E1'. injection E1' as <-. rewrite F in F'. injection F' as <-.
    rewrite EN in Q. rewrite HH in Q. injection Q as Q. symmetry. exact Q.
Qed.

Lemma given_carried g c m2 k : skel g = skel (mod_manifold m) -> (forall m1, set_manifold m g = Ok m1 -> wf_mod d m1 /\ ctrl_ok d m1 c) ->
  at_state m (fun m1 => fill_controls sv m1 c) (phase g) = Ok m2 -> hamilton (ham_of m (fun m1 => fill_controls sv m1 c)) (phase g) k ->
  carried m2 (g_gd g) (firstn (g_len g) k).
Proof.
  intros K WF A (SK & n & LN & _ & HK). unfold at_state in A. rewrite (write_phase m g K) in A. destruct (set_ok m g K) as (m1 & E1 & M1 & _).
  rewrite E1 in A. cbn [bind] in A. destruct (WF m1 E1) as (W & O). destruct (wf_mod_manifold d m1 W) as (WG & NE). rewrite M1 in WG, NE.
  destruct (fixed_ham g m1 c m2 K E1 W O A) as (f & tan & e & FG & T & NT & H).
  rewrite phase_len in LN. assert (n = g_len g) by lia. subst n. clear LN.
  pose proof (fill_manifold sv m1 _ m2 A) as M2. rewrite M1 in M2. pose proof (wf_shapes d g WG) as SH.
  apply (carried_of m2 g k f tan); try assumption; try reflexivity. intros i t idx Et V.
  destruct (moment_same_shape g i t SH Et) as (u & Eu & Su).
  assert (I : (i < g_len g)%nat) by (rewrite <- g_gd_len; apply nth_error_Some; congruence).
  assert (Et' : nth_error (phase g) i = Some t) by (unfold phase; rewrite nth_error_app1 by (rewrite g_gd_len; exact I); exact Et).
  destruct (HK i t idx I Et' V) as ((eps & ff & P & Q & D) & _).
  assert (EN : entry (phase g) (g_len g + i) idx = entry (g_cotan g) i idx) by (unfold phase; rewrite <- (g_gd_len g); apply entry_app_r).
  rewrite EN in *.
  assert (L : forall s, Rabs (s - entry (g_cotan g) i idx) < eps ->
    ff s = cat_dot (g_cotan g) (g_tan tan) - e + (s - entry (g_cotan g) i idx) * cat_get (g_tan tan) (pos (g_cotan g) i idx)).
  { intros s B. specialize (Q s B). destruct (moment_changed g i u idx s Eu ltac:(rewrite Su; exact V)) as (g' & P' & K' & U & C').
    rewrite <- P' in Q. unfold ham_of in Q. rewrite write_phase in Q by congruence.
    destruct (H g' U) as (m1' & m2' & E1' & M1' & W' & O' & F' & HH). rewrite E1' in Q. cbn [bind] in Q. rewrite F' in Q. cbn [bind] in Q. rewrite HH in Q.
    injection Q as Q. rewrite C', (cat_dot_upd _ _ i u) in Q by (try assumption; rewrite Su; exact V). lra. }
  apply (touching ff (entry (g_cotan g) i idx) _ (cat_dot (g_cotan g) (g_tan tan) - e) _ eps P D).
  - intros s B. rewrite (L s B). lra.
  - rewrite L; [ring|]. rewrite Rminus_diag_eq, Rabs_R0 by reflexivity. exact P.
Qed.
End Carried.

(** ** Writing other values of the same shapes *)

Lemma wf_gman_same d g : forall g', wf_gman d g -> skel g' = skel g -> map shape (g_gd g') = map shape (g_gd g) -> map shape (g_cotan g') = map shape (g_cotan g) -> wf_gman d g'.
Proof.
  induction g as [g S|gs IH] using gman_ind'; intros g' W K G C.
  - destruct g; try (elim S); destruct g'; try discriminate K; cbn [wf_gman skel g_gd g_cotan map] in *; injection K; intros; subst;
      try (injection G; intros; injection C; intros); intuition congruence.
  - destruct g' as [| | | | |gs']; try discriminate K. cbn [wf_gman skel g_gd g_cotan] in *. injection K as K.
    revert gs' K G C. induction IH as [|g gs Hg _ IHs]; intros gs' K G C; destruct gs' as [|g' gs']; try discriminate K; [exact Logic.I|].
    cbn [map flat_map fold_right] in *. injection K as K1 K2. apply app_shapes in G; [|rewrite !g_gd_len; apply skel_len; exact K1].
    apply app_shapes in C; [|rewrite !g_cotan_len; apply skel_len; exact K1]. split; [apply Hg; tauto|apply IHs; tauto].
Qed.
Lemma nonempty_same g : forall g', skel g' = skel g -> no_empty_comp g -> no_empty_comp g'.
Proof.
  induction g as [g S|gs IH] using gman_ind'; intros g' K N.
  - destruct g; try (elim S); destruct g'; try discriminate K; exact Logic.I.
  - destruct g' as [| | | | |gs']; try discriminate K. cbn [skel no_empty_comp] in *. injection K as K. destruct N as (N & M).
    split; [destruct gs; [elim (N eq_refl)|destruct gs'; [discriminate K|discriminate]]|]. clear N.
    revert gs' K. induction IH as [|g gs Hg _ IHs]; intros gs' K; destruct gs' as [|g' gs']; try discriminate K; [exact Logic.I|].
    cbn [map fold_right] in *. injection K as K1 K2. split; [apply Hg; tauto|apply IHs; tauto].
Qed.
Lemma wf_set d m : forall g m1, wf_mod d m -> locals_total d m -> skel g = skel (mod_manifold m) ->
  map shape (g_gd g) = map shape (g_gd (mod_manifold m)) -> map shape (g_cotan g) = map shape (g_cotan (mod_manifold m)) ->
  set_manifold m g = Ok m1 -> wf_mod d m1.
Proof.
  induction m as [m NC|ms IH] using dmod_ind'; intros g m1 W L K G C E.
  - destruct m; try (elim (NC ms eq_refl)).
    7: { cbn [mod_manifold set_manifold] in *. injection E as <-. cbn [wf_mod] in *. destruct W as (W & N).
      split; [exact (wf_gman_same d _ g W K G C)|exact (nonempty_same _ g K N)]. }
    all: destruct g; try discriminate K; cbn [set_manifold] in E; injection E as <-; cbn [wf_mod locals_total mod_manifold g_gd g_cotan map] in *;
      try (injection G; intros; injection C; intros); try tauto.
    all: try (intuition congruence).
    destruct W as (W1 & W2 & W3 & W4 & W5 & _). repeat (split; [congruence|]). apply L. congruence.
  - destruct g as [| | | | |gs]; try discriminate K. rewrite set_comp in E. destruct (sets ms gs) as [r|] eqn:Er; [|discriminate E]. injection E as <-.
    cbn [wf_mod locals_total mod_manifold skel g_gd g_cotan] in *. injection K as K. destruct W as (N & W). split.
    + destruct ms as [|x ms]; [elim (N eq_refl)|]. destruct gs as [|g gs]; [discriminate K|]. cbn [sets] in Er. fold sets in Er.
      destruct (set_manifold x g); [|discriminate Er]. cbn [bind] in Er. destruct (sets ms gs); [|discriminate Er]. injection Er as <-. discriminate.
    + clear N. revert gs r W L K G C Er. induction IH as [|m ms Hm _ IHs]; intros gs r W L K G C Er; destruct gs as [|g gs]; try discriminate K; [injection Er as <-; exact Logic.I|].
      cbn [map flat_map fold_right sets] in *. fold sets in Er. injection K as K1 K2. apply app_shapes in G; [|rewrite !g_gd_len; apply skel_len; exact K1].
      apply app_shapes in C; [|rewrite !g_cotan_len; apply skel_len; exact K1].
      destruct (set_manifold m g) as [m1|] eqn:Em; [|discriminate Er]. cbn [bind] in Er. destruct (sets ms gs) as [r'|] eqn:Er'; [|discriminate Er]. injection Er as <-.
      cbn [fold_right]. split; [apply (Hm g m1); tauto|apply (IHs gs r'); tauto].
Qed.
Lemma ctrl_set d m : forall g m1 c, set_manifold m g = Ok m1 -> (ctrl_ok d m1 c <-> ctrl_ok d m c).
Proof.
  induction m as [m NC|ms IH] using dmod_ind'; intros g m1 c E.
  - destruct m; try (elim (NC ms eq_refl)); destruct g; try discriminate E; cbn [set_manifold] in E; injection E as <-; destruct c; reflexivity.
  - destruct g as [| | | | |gs]; try discriminate E. rewrite set_comp in E. destruct (sets ms gs) as [r|] eqn:Er; [|discriminate E]. injection E as <-.
    destruct c as [h|l]; [reflexivity|]. cbn [ctrl_ok]. fold (ctrls_ok d). revert gs r l Er.
    induction IH as [|m ms Hm _ IHs]; intros gs r l Er; destruct gs as [|g gs]; try discriminate Er; [injection Er as <-; reflexivity|].
    cbn [sets] in Er. fold sets in Er. destruct (set_manifold m g) as [m1|] eqn:Em; [|discriminate Er]. cbn [bind] in Er. destruct (sets ms gs) as [r'|] eqn:Er'; [|discriminate Er]. injection Er as <-.
    destruct l as [|c l]; [reflexivity|]. cbn [ctrls_ok]. fold (ctrls_ok d). rewrite (Hm g m1 c Em), (IHs gs r' l Er'). reflexivity.
Qed.

(** ** From states to descriptors *)

Lemma firstn_ladd n : forall a b, firstn n (ladd a b) = ladd (firstn n a) (firstn n b).
Proof. intros a b. unfold ladd. rewrite <- combine_firstn, firstn_map. reflexivity. Qed.
Lemma firstn_lscal n c a : firstn n (lscal c a) = lscal c (firstn n a).
Proof. apply firstn_map. Qed.
Lemma firstn_leq n : forall a b, leq a b -> leq (firstn n a) (firstn n b).
Proof. induction n; intros a b H; destruct H; cbn [firstn]; constructor; auto. apply IHn. assumption. Qed.

Lemma halve_step n sch (F G : vfields) dt l ss l' shapes : map shape l = shapes ->
  (forall j l k, nth_error ss j = Some l -> map shape l = shapes -> F j l k -> map shape k = shapes /\ G j (firstn n l) (firstn n k)) ->
  scheme_step sch F dt l ss l' -> map shape l' = shapes /\ scheme_step sch G dt (firstn n l) (map (firstn n) ss) (firstn n l').
Proof.
  assert (LA : forall a b, map shape a = shapes -> map shape b = shapes -> map shape (ladd a b) = shapes).
  { intros a b <-. revert b. induction a as [|x a IH]; intros b E; destruct b as [|y b]; try discriminate E; [reflexivity|]. cbn [map] in *. injection E as E1 E2.
    unfold ladd. cbn [combine map fst snd]. f_equal. exact (IH b E2). }
  assert (LS : forall c a, map shape a = shapes -> map shape (lscal c a) = shapes) by (intros c a <-; unfold lscal; rewrite map_map; reflexivity).
  assert (LE : forall a b, leq a b -> map shape b = shapes -> map shape a = shapes) by (intros a b Q <-; apply leq_shape; exact Q).
  assert (H : forall a b, leq a b -> leq (firstn n a) (firstn n b)) by (intros; apply firstn_leq; assumption).
  intros S Q. destruct sch; cbn [scheme_step].
  - intros (k & -> & K & E). destruct (Q 0%nat l k eq_refl S K) as (S1 & G1). split; [apply (LE _ _ E); auto|].
    exists (firstn n k). split; [reflexivity|]. split; [exact G1|]. apply H in E. rewrite firstn_ladd, firstn_lscal in E. exact E.
  - intros (k1 & l2 & k2 & -> & K1 & E2 & K2 & E). destruct (Q 0%nat l k1 eq_refl S K1) as (S1 & G1). pose proof (LE _ _ E2 ltac:(auto 12)) as SL2.
    destruct (Q 1%nat l2 k2 eq_refl SL2 K2) as (S2 & G2). split; [apply (LE _ _ E); auto|].
    exists (firstn n k1), (firstn n l2), (firstn n k2). split; [reflexivity|]. split; [exact G1|]. apply H in E, E2. rewrite firstn_ladd, firstn_lscal in E, E2. auto.
  - intros (k1 & l2 & k2 & l3 & k3 & l4 & k4 & -> & K1 & E2 & K2 & E3 & K3 & E4 & K4 & E).
    destruct (Q 0%nat l k1 eq_refl S K1) as (S1 & G1). pose proof (LE _ _ E2 ltac:(auto 12)) as SL2.
    destruct (Q 1%nat l2 k2 eq_refl SL2 K2) as (S2 & G2). pose proof (LE _ _ E3 ltac:(auto 12)) as SL3.
    destruct (Q 2%nat l3 k3 eq_refl SL3 K3) as (S3 & G3). pose proof (LE _ _ E4 ltac:(auto 12)) as SL4.
    destruct (Q 3%nat l4 k4 eq_refl SL4 K4) as (S4 & G4). split; [apply (LE _ _ E); auto 14|].
    exists (firstn n k1), (firstn n l2), (firstn n k2), (firstn n l3), (firstn n k3), (firstn n l4), (firstn n k4). split; [reflexivity|]. split; [exact G1|].
    apply H in E, E2, E3, E4. do 4 (rewrite ?firstn_ladd, ?firstn_lscal in E; rewrite ?firstn_ladd, ?firstn_lscal in E2; rewrite ?firstn_ladd, ?firstn_lscal in E3; rewrite ?firstn_ladd, ?firstn_lscal in E4). repeat (split; [assumption|]). assumption.
Qed.

Lemma halve_trajectory n sch (F G : vfields) dt states stages shapes : (forall l, nth_error states 0 = Some l -> map shape l = shapes) ->
  (forall k ss j l v, nth_error stages k = Some ss -> nth_error ss j = Some l -> map shape l = shapes -> F (k * evaluations sch + j)%nat l v ->
     map shape v = shapes /\ G (k * evaluations sch + j)%nat (firstn n l) (firstn n v)) ->
  trajectory sch F dt states stages ->
  (forall k l, nth_error states k = Some l -> map shape l = shapes) /\ trajectory sch G dt (map (firstn n) states) (map (map (firstn n)) stages).
Proof.
  intros S0 Q (L & T).
  assert (SS : forall k l, nth_error states k = Some l -> map shape l = shapes).
  { induction k as [|k IH]; intros l E; [exact (S0 l E)|]. assert (I : (S k < length states)%nat) by (apply nth_error_Some; congruence).
    destruct (nth_error states k) as [x|] eqn:Ex; [|apply nth_error_None in Ex; lia]. destruct (nth_error stages k) as [ss|] eqn:Es; [|apply nth_error_None in Es; lia].
    apply (halve_step n sch (fun j => F (k * evaluations sch + j)%nat) (fun j => G (k * evaluations sch + j)%nat) dt x ss l shapes (IH x eq_refl) (fun j l v => Q k ss j l v Es)). exact (T k x ss l Ex Es E). }
  split; [exact SS|]. split; [rewrite !map_length; exact L|]. intros k l ss l' El Es El'. rewrite nth_error_map in El, Es, El'.
  destruct (nth_error states k) as [x|] eqn:Ex; [|discriminate El]. injection El as <-. destruct (nth_error stages k) as [s|] eqn:Ess; [|discriminate Es]. injection Es as <-.
  destruct (nth_error states (S k)) as [x'|] eqn:Ex'; [|discriminate El']. injection El' as <-.
  apply (halve_step n sch (fun j => F (k * evaluations sch + j)%nat) (fun j => G (k * evaluations sch + j)%nat) dt x s x' shapes (SS k x Ex) (fun j l v => Q k s j l v Ess)). exact (T k x s x' Ex Ess Ex').
Qed.

Lemma nth_concat {A} (e : nat) : forall (stages : list (list A)) k ss j x, Forall (fun ss => length ss = e) stages ->
  nth_error stages k = Some ss -> nth_error ss j = Some x -> nth_error (List.concat stages) (k * e + j) = Some x.
Proof.
  induction stages as [|s stages IH]; intros k ss j x F K J; [destruct k; discriminate K|]. inversion F as [|? ? L F']; subst. cbn [List.concat].
  destruct k as [|k]; cbn [nth_error] in K.
  - injection K as ->. rewrite nth_error_app1; [exact J|]. apply nth_error_Some. cbn. congruence.
  - rewrite nth_error_app2 by (cbn; lia). rewrite <- (IH k ss j x F' K J). f_equal. cbn. lia.
Qed.
Lemma state_of m l : map shape l = map shape (phase (mod_manifold m)) -> exists g, phase g = l /\ skel g = skel (mod_manifold m) /\
  map shape (g_gd g) = map shape (g_gd (mod_manifold m)) /\ map shape (g_cotan g) = map shape (g_cotan (mod_manifold m)).
Proof.
  intros S. destruct (phase_fill (mod_manifold m) l) as (g & P & K). { rewrite <- (map_length shape), S, map_length. apply phase_len. }
  exists g. split; [exact P|]. split; [exact K|]. rewrite <- P in S. unfold phase in S. rewrite !map_app in S. apply app_inj_len in S; [exact S|].
  rewrite !map_length, !g_gd_len. apply skel_len. exact K.
Qed.

Lemma state_carried sv b0 d cs n m l k mn : exact_solver sv -> wf_mod d m -> locals_total d m ->
  (forall x c, cs = Some x -> In c x -> ctrl_ok d m c) -> map shape l = map shape (phase (mod_manifold m)) ->
  at_state m (step_controls sv b0 cs n) l = Ok mn -> hamilton (ham_of m (step_controls sv b0 cs n)) l k ->
  carried mn (firstn (g_len (mod_manifold m)) l) (firstn (g_len (mod_manifold m)) k).
Proof.
  intros HS W LT CO S A H. destruct (state_of m l S) as (g & P & K & G & C). subst l.
  assert (Q : firstn (g_len (mod_manifold m)) (phase g) = g_gd g).
  { unfold phase. rewrite <- (skel_len g _ K), <- g_gd_len, firstn_app, Nat.sub_diag, firstn_all. apply app_nil_r. }
  rewrite Q. rewrite <- (skel_len g _ K). destruct cs as [x|].
  - unfold step_controls in *. destruct (nth_error x n) as [c|] eqn:Ec.
    + apply (given_carried sv b0 d HS m g c); try assumption. intros m1 E. split; [apply (wf_set d m g m1); assumption|].
      apply (ctrl_set d m g m1 c E). exact (CO x c eq_refl (nth_error_In _ _ Ec)).
    + unfold at_state in A. destruct (write_manifold m (phase g)); discriminate A.
  - apply (geodesic_carried sv b0 d HS m g); try assumption. intros m1 E. apply (wf_set d m g m1); assumption.
Qed.

(** ** Points *)

Lemma action_comp gs F : infinitesimal_action (GComp gs) F = (ts <- mapM (fun g => infinitesimal_action g F) gs ;; Ok (TComp ts)).
Proof. reflexivity. Qed.

Lemma ladd_shapes : forall a b, map shape b = map shape a -> map shape (ladd a b) = map shape a.
Proof.
  induction a as [|y a IH]; intros b E; destruct b as [|z b]; try discriminate E; [reflexivity|]. cbn [map] in *. injection E as E1 E2.
  unfold ladd. cbn [combine map fst snd]. f_equal. exact (IH b E2).
Qed.
Lemma stages_shapes sch (F : vfields) dt states stages shapes : (forall l, nth_error states 0 = Some l -> map shape l = shapes) ->
  (forall n l v, map shape l = shapes -> F n l v -> map shape v = shapes) ->
  trajectory sch F dt states stages -> forall ss l, In ss stages -> In l ss -> map shape l = shapes.
Proof.
  intros S0 Q T ss l Is Il.
  destruct (halve_trajectory 0 sch F (fun _ _ _ => True) dt states stages shapes S0) as (SS & _); [intros k ss' j l' v _ _ Sl H; split; [exact (Q _ _ _ Sl H)|exact Logic.I]|exact T|].
  apply In_nth_error in Is. destruct Is as (k & Ek). destruct T as (L & T).
  assert (I : (k < length stages)%nat) by (apply nth_error_Some; congruence).
  destruct (nth_error states k) as [x|] eqn:Ex; [|apply nth_error_None in Ex; lia]. destruct (nth_error states (S k)) as [x'|] eqn:Ex'; [|apply nth_error_None in Ex'; lia].
  specialize (T k x ss x' Ex Ek Ex'). pose proof (SS k x Ex) as Sx. clear - T Sx Q Il.
  assert (LA : forall a b, map shape a = shapes -> map shape b = shapes -> map shape (ladd a b) = shapes).
  { intros a b <- E. apply ladd_shapes. exact E. }
  assert (LS : forall c a, map shape a = shapes -> map shape (lscal c a) = shapes) by (intros c a <-; unfold lscal; rewrite map_map; reflexivity).
  assert (LE : forall a b, leq a b -> map shape b = shapes -> map shape a = shapes) by (intros a b H <-; apply leq_shape; exact H).
  destruct sch; cbn [scheme_step] in T.
  - destruct T as (v & -> & _). destruct Il as [<-|[]]. exact Sx.
  - destruct T as (k1 & l2 & k2 & -> & K1 & E2 & _). pose proof (Q _ _ _ Sx K1) as S1. destruct Il as [<-|[<-|[]]]; [exact Sx|]. apply (LE _ _ E2). auto.
  - destruct T as (k1 & l2 & k2 & l3 & k3 & l4 & k4 & -> & K1 & E2 & K2 & E3 & K3 & E4 & _). pose proof (Q _ _ _ Sx K1) as S1.
    pose proof (LE _ _ E2 ltac:(auto 12)) as S2. pose proof (Q _ _ _ S2 K2) as Sk2. pose proof (LE _ _ E3 ltac:(auto 12)) as S3. pose proof (Q _ _ _ S3 K3) as Sk3.
    pose proof (LE _ _ E4 ltac:(auto 12)) as S4. destruct Il as [<-|[<-|[<-|[<-|[]]]]]; assumption.
Qed.

Lemma fold_right_Forall {A} (P : A -> Prop) l : fold_right (fun x acc => P x /\ acc) True l -> Forall P l.
Proof. induction l as [|a l IH]; intros H; constructor; [exact (proj1 H)|exact (IH (proj2 H))]. Qed.
Lemma acts_split d F : answers d F -> forall l1 g l2 ts, Forall (wf_gman d) l1 ->
  mapM (fun g => infinitesimal_action g F) (l1 ++ g :: l2) = Ok ts ->
  exists t1 t t2, ts = t1 ++ t :: t2 /\ infinitesimal_action g F = Ok t /\ numel (flat_map g_tan t1) = numel (flat_map g_gd l1).
Proof.
  intros A. induction l1 as [|a l1 IH]; intros g l2 ts W E; cbn [app mapM] in E.
  - bok E t Et. bok E t2 E2. injection E as <-. exists [], t, t2. auto.
  - inversion W as [|? ? Wa W']; subst. bok E t Et. bok E ts' E2. injection E as <-. destruct (IH g l2 ts' W' E2) as (t1 & u & t2 & -> & Eu & N).
    exists (t :: t1), u, t2. split; [reflexivity|]. split; [exact Eu|]. cbn [flat_map]. rewrite !numel_app, N, (action_numel d F a Wa A t Et). reflexivity.
Qed.

Lemma skel_lens : forall l l', map skel l' = map skel l -> length (flat_map g_gd l') = length (flat_map g_gd l).
Proof.
  induction l as [|g l IH]; intros l' E; destruct l' as [|g' l']; try discriminate E; [reflexivity|]. cbn [map flat_map] in *. injection E as E1 E2.
  rewrite !app_length, !g_gd_len, (skel_len _ _ E1), (IH l' E2). reflexivity.
Qed.

Lemma carried_point d m2 f l1 dim nb x c l2 k : mod_manifold m2 = GComp (l1 ++ GLm dim nb x c :: l2) -> wf_gman d (GComp (l1 ++ GLm dim nb x c :: l2)) ->
  field_generator m2 = Ok f -> answers d (feval f) -> carried m2 (g_gd (mod_manifold m2)) k ->
  exists y v, feval f x 0 = Ok y /\ nth_error k (length (flat_map g_gd l1)) = Some v /\ shape y = shape x /\ teq v y.
Proof.
  intros M W FG A (f' & tan & FG' & T & _ & SK & N & H). rewrite FG in FG'. injection FG' as <-. rewrite M in *. rewrite action_comp in T. bok T ts Ets. injection T as <-.
  cbn [wf_gman] in W. apply fold_right_Forall in W. apply Forall_app in W. destruct W as (W1 & W2). inversion W2 as [|? ? Wx _]; subst. cbn [wf_gman] in Wx. destruct Wx as (-> & Sx & Sc).
  destruct (acts_split d _ A l1 _ l2 ts W1 Ets) as (t1 & t & t2 & -> & Et & N1). destruct (A x nb Sx) as ((y & Ey & Sy) & _).
  cbn [infinitesimal_action] in Et. rewrite (lm_action_ok d nb x _ y Ey Sy) in Et. injection Et as <-.
  assert (GD : g_gd (GComp (l1 ++ GLm d nb x c :: l2)) = flat_map g_gd l1 ++ [x] ++ flat_map g_gd l2) by (cbn [g_gd]; rewrite flat_map_app; reflexivity).
  assert (GT : g_tan (TComp (t1 ++ TLm y :: t2)) = flat_map g_tan t1 ++ [y] ++ flat_map g_tan t2) by (cbn [g_tan]; rewrite flat_map_app; reflexivity).
  rewrite GD, GT in *. set (i := length (flat_map g_gd l1)) in *.
  assert (Ex : nth_error (flat_map g_gd l1 ++ [x] ++ flat_map g_gd l2) i = Some x) by (rewrite nth_error_app2 by (unfold i; lia); unfold i; rewrite Nat.sub_diag; reflexivity).
  pose proof (f_equal (fun z => nth_error z i) SK) as Q. cbn beta in Q. rewrite !nth_error_map, Ex in Q.
  destruct (nth_error k i) as [v|] eqn:Ev; [|discriminate Q]. injection Q as Q. exists y, v. split; [exact Ey|]. split; [reflexivity|]. split; [congruence|].
  split; [congruence|]. intros idx V. replace (get v idx) with (entry k i idx) by (unfold entry; rewrite Ev; reflexivity). rewrite <- (cat_pos k i v idx Ev V).
  assert (P : (pos k i idx = numel (flat_map g_gd l1) + ravel (shape x) idx)%nat).
  { rewrite (pos_shape k _ i idx SK). unfold pos. rewrite Ex. f_equal. unfold i. rewrite firstn_app, Nat.sub_diag, firstn_all. cbn [firstn]. rewrite app_nil_r. reflexivity. }
  pose proof V as V'. rewrite Q in V'. pose proof (ravel_lt _ _ V') as R.
  assert (NX : forall t, numel [t] = prod (shape t)) by (intros t; unfold numel; cbn [map list_sum fold_right]; lia).
  rewrite H, P; [|rewrite P, !numel_app, NX; lia].
  rewrite <- N1, cat_get_app_r, cat_get_app by (rewrite NX, Sy, <- Sx; exact R).
  rewrite cat_get_1 by (rewrite Sy, <- Sx; exact R). rewrite get_flatten_k, Sy, <- Sx, unravel_ravel by exact V'. reflexivity.
Qed.

Lemma state_field sv b0 d cs n m g mn : exact_solver sv -> wf_mod d m -> locals_total d m ->
  (forall x c, cs = Some x -> In c x -> ctrl_ok d m c) -> skel g = skel (mod_manifold m) -> map shape (phase g) = map shape (phase (mod_manifold m)) ->
  at_state m (step_controls sv b0 cs n) (phase g) = Ok mn ->
  mod_manifold mn = g /\ wf_gman d g /\ exists f, field_generator mn = Ok f /\ wf_field d f /\ has1 f.
Proof.
  intros HS W LT CO K S A. unfold phase in S. apply app_shapes in S; [|rewrite !g_gd_len; apply skel_len; exact K]. destruct S as (S1 & S2).
  unfold at_state in A. rewrite (write_phase m g K) in A. destruct (set_ok m g K) as (m1 & E1 & M1 & _). rewrite E1 in A. cbn [bind] in A.
  pose proof (wf_set d m g m1 W LT K S1 S2 E1) as W1. destruct (wf_mod_manifold d m1 W1) as (WG & NE).
  assert (X : exists c, ctrl_ok d m1 c /\ fill_controls sv m1 c = Ok mn).
  { destruct cs as [x|]; unfold step_controls in A.
    - destruct (nth_error x n) as [c|] eqn:Ec; [|discriminate A]. exists c. split; [|exact A]. apply (ctrl_set d m g m1 c E1). exact (CO x c eq_refl (nth_error_In _ _ Ec)).
    - destruct (geodesic_max sv b0 d HS m1 _ mn W1 WG NE A) as (O & F & _). exists (controls mn). auto. }
  destruct X as (c & O & F). rewrite (fill_manifold sv m1 c mn F), <- M1. split; [reflexivity|]. split; [exact WG|].
  destruct (module_leaf sv b0 d m1 HS W1 (ex_intro _ c (ex_intro _ mn (conj O F)))) as (Q & [P _ _]).
  destruct (pk_fill _ _ _ _ P c O) as (mn' & f & F' & C & FG & (Wf & _ & H1 & _)). rewrite F in F'. injection F' as <-.
  exists f. split; [exact FG|]. split; assumption.
Qed.
Lemma state_answers sv b0 d cs n m g mn : exact_solver sv -> wf_mod d m -> locals_total d m ->
  (forall x c, cs = Some x -> In c x -> ctrl_ok d m c) -> skel g = skel (mod_manifold m) -> map shape (phase g) = map shape (phase (mod_manifold m)) ->
  at_state m (step_controls sv b0 cs n) (phase g) = Ok mn ->
  mod_manifold mn = g /\ wf_gman d g /\ exists f, field_generator mn = Ok f /\ answers d (feval f).
Proof.
  intros HS W LT CO K S A. destruct (state_field sv b0 d cs n m g mn HS W LT CO K S A) as (M & WG & f & FG & Wf & H1).
  split; [exact M|]. split; [exact WG|]. exists f. split; [exact FG|exact (answers_field d f Wf H1)].
Qed.
