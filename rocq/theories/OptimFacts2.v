(** Proofs about OptimizerTorch.optimize, the scipy interface, the fitter, dictionaries
    and registries. *)
From Coq Require Import Reals Lra String List Arith Lia Bool.
From Verif Require Import Py Fl OptimModel SpecOptim OptimFacts.
Import ListNotations.
Open Scope list_scope.
Open Scope R_scope.

(** ** C37 *)
Lemma torch_loop_spec outs tol mi : forall rem i r n,
  torch_loop outs tol mi (total_before outs i) i rem (match i with O => None | S j => Some (total_after outs j) end) = (r, n) ->
  (0 < i + rem)%nat ->
  (forall j, (j < i)%nat -> total_after outs j <> NaN /\
     ~ (converged tol (total_before outs j) (total_after outs j) /\ (mi <= j)%nat)) ->
  exists R, r = Ok R /\ (1 <= n <= i + rem)%nat /\ (i <= n)%nat /\
    (forall j, (S j < n)%nat -> total_after outs j <> NaN /\
       ~ (converged tol (total_before outs j) (total_after outs j) /\ (mi <= j)%nat)) /\
    ((total_after outs (n - 1) = NaN /\ R = mkRes false NaN NaN) \/
     (total_after outs (n - 1) <> NaN /\ (mi <= n - 1)%nat /\
      converged tol (total_before outs (n - 1)) (total_after outs (n - 1)) /\
      R = mkRes true (total_after outs (n - 1)) (Fin (INR (snd (outs (n - 1)%nat))))) \/
     (total_after outs (n - 1) <> NaN /\ n = (i + rem)%nat /\
      ~ (converged tol (total_before outs (n - 1)) (total_after outs (n - 1)) /\ (mi <= n - 1)%nat) /\
      R = mkRes false (total_after outs (n - 1)) (Fin (INR (snd (outs (n - 1)%nat)))))).
Proof.
  induction rem as [|rem IH]; intros i r n E Hi Hprev.
  - cbn in E. injection E as <- <-. destruct i as [|i]; [lia|].
    eexists. split; [reflexivity|]. rewrite Nat.add_0_r. split; [lia|]. split; [lia|].
    split; [intros j Hj; apply Hprev; lia|]. right. right.
    replace (S i - 1)%nat with i by lia. destruct (Hprev i ltac:(lia)). auto.
  - cbn [torch_loop] in E. destruct (outs i) as [total neval] eqn:Eo.
    assert (Et : total_after outs i = total) by (unfold total_after; rewrite Eo; reflexivity).
    destruct (isnan total) eqn:En.
    + injection E as <- <-. destruct total; try discriminate.
      eexists. split; [reflexivity|]. split; [lia|]. split; [lia|]. split; [intros j Hj; apply Hprev; lia|].
      left. replace (S i - 1)%nat with i by lia. auto.
    + assert (Hn : total <> NaN) by (intros ->; discriminate).
      destruct (_ && _)%bool eqn:Ec.
      * injection E as <- <-. apply andb_prop in Ec. destruct Ec as [Ec1 Ec2]. apply Nat.leb_le in Ec2.
        eexists. split; [reflexivity|]. split; [lia|]. split; [lia|]. split; [intros j Hj; apply Hprev; lia|].
        right. left. replace (S i - 1)%nat with i by lia. rewrite Et, Eo. cbn [snd].
        repeat split; auto.
      * assert (Hc : ~ (converged tol (total_before outs i) (total_after outs i) /\ (mi <= i)%nat)).
        { rewrite Et. intros [H1 H2]. unfold converged in H1. rewrite H1 in Ec. apply Nat.leb_le in H2. rewrite H2 in Ec. discriminate. }
        destruct (IH (S i) r n) as [R [HR [H1 [H2 [H3 H4]]]]].
        -- cbn [total_before]. unfold total_after. rewrite Eo. cbn [fst]. exact E.
        -- lia.
        -- intros j Hj. destruct (Nat.eq_dec j i) as [->|]; [split; [congruence|exact Hc]|apply Hprev; lia].
        -- exists R. split; [exact HR|]. split; [lia|]. split; [lia|]. split; [exact H3|].
           replace (i + S rem)%nat with (S i + rem)%nat by lia. exact H4.
Qed.

Theorem torch_optimize_spec outs max_iter tol mi r n :
  (0 < max_iter)%nat -> torch_optimize outs max_iter tol mi = (r, n) ->
  exists R, r = Ok R /\ (1 <= n <= max_iter)%nat /\
    (forall j, (S j < n)%nat -> total_after outs j <> NaN /\
       ~ (converged (the_tol tol) (total_before outs j) (total_after outs j) /\ (mi <= j)%nat)) /\
    ((total_after outs (n - 1) = NaN /\ R = mkRes false NaN NaN) \/
     (total_after outs (n - 1) <> NaN /\ (mi <= n - 1)%nat /\
      converged (the_tol tol) (total_before outs (n - 1)) (total_after outs (n - 1)) /\
      R = mkRes true (total_after outs (n - 1)) (Fin (INR (snd (outs (n - 1)%nat))))) \/
     (total_after outs (n - 1) <> NaN /\ n = max_iter /\
      ~ (converged (the_tol tol) (total_before outs (n - 1)) (total_after outs (n - 1)) /\ (mi <= n - 1)%nat) /\
      R = mkRes false (total_after outs (n - 1)) (Fin (INR (snd (outs (n - 1)%nat)))))).
Proof.
  intros Hm E. destruct (torch_loop_spec outs (the_tol tol) mi max_iter 0 r n) as [R [H1 [H2 [H3 [H4 H5]]]]].
  - exact E.
  - lia.
  - lia.
  - exists R. split; [exact H1|]. split; [lia|]. split; [exact H4|]. exact H5.
Qed.

Lemma fmax_fin a b : fmax (Fin a) (Fin b) = Fin (Rmax a b).
Proof.
  unfold fmax. cbn. destruct (Rltb a b) eqn:E.
  - apply Rltb_true in E. rewrite Rmax_right by lra. reflexivity.
  - apply Rltb_false in E. rewrite Rmax_left by lra. reflexivity.
Qed.

Lemma converged_fin tol a b : converged tol (Fin a) (Fin b) <-> a - b <= tol * Rmax (Rmax b a) 1.
Proof.
  unfold converged. rewrite !fmax_fin. cbn. rewrite fle_fin.
  assert (0 < Rmax (Rmax b a) 1) by (eapply Rlt_le_trans; [apply Rlt_0_1|apply Rmax_r]).
  unfold Rminus. split; intros Hd.
  - apply Rmult_le_reg_r with (/ Rmax (Rmax b a) 1); [apply Rinv_0_lt_compat; assumption|].
    rewrite Rmult_assoc, Rinv_r by lra. rewrite Rmult_1_r. exact Hd.
  - apply Rmult_le_reg_r with (Rmax (Rmax b a) 1); [assumption|].
    unfold Rdiv. rewrite Rmult_assoc, Rinv_l by lra. lra.
Qed.

Lemma converged_first tol b : ~ converged tol PInf b.
Proof. unfold converged. destruct b; cbn; try discriminate. Qed.

(** With finite costs which do not increase (as gradient descent guarantees), success
    means a relative decrease between 0 and tol. *)
Theorem torch_success outs max_iter tol mi r n (cost : nat -> R) :
  torch_optimize outs max_iter tol mi = (Ok r, n) -> r_success r = true ->
  (forall i, total_after outs i = Fin (cost i)) -> (forall i, cost (S i) <= cost i) ->
  (2 <= n <= max_iter)%nat /\ (mi < n)%nat /\ r_final r = Fin (cost (n - 1)%nat) /\
  0 <= cost (n - 2)%nat - cost (n - 1)%nat <= the_tol tol * Rmax (cost (n - 2)%nat) 1.
Proof.
  intros E Hs Hf Hd. destruct max_iter as [|mx]; [cbn in E; discriminate|].
  destruct (torch_optimize_spec _ _ _ _ _ _ (Nat.lt_0_succ mx) E) as [R' [HR [Hn [_ H]]]].
  injection HR as <-. destruct H as [[_ HR]|[[_ [Hmi [Hc HR]]]|[_ [_ [_ HR]]]]]; try (subst r; discriminate).
  subst r. cbn [r_final]. destruct n as [|[|n]]; [lia| |].
  - exfalso. cbn in Hc. apply (converged_first _ _ Hc).
  - replace (S (S n) - 1)%nat with (S n) in * by lia. replace (S (S n) - 2)%nat with n by lia.
    cbn [total_before] in Hc. change (fst (outs n)) with (total_after outs n) in Hc. rewrite !Hf in *.
    apply converged_fin in Hc. rewrite (Rmax_right (cost (S n)) (cost n)) in Hc by apply Hd.
    specialize (Hd n). repeat split; try lia; lra.
Qed.

Theorem torch_success_refuted :
  (* an increase of the cost is reported as success *)
  (exists outs, fst (torch_optimize outs 5 None 0) = Ok (mkRes true (Fin 2) (Fin (INR 2))) /\
     total_after outs 0 = Fin 1 /\ total_after outs 1 = Fin 2) /\
  (* no result at all for max_iter = 0 *)
  (forall outs tol mi, torch_optimize outs 0 tol mi = (Err UnboundLocalError, 0%nat)) /\
  (* the number of evaluations is lost when the cost is NaN *)
  (exists outs, torch_optimize outs 5 None 0 = (Ok (mkRes false NaN NaN), 1%nat) /\ snd (outs 0%nat) = 1%nat).
Proof.
  split; [|split].
  - exists (fun i => (Fin (INR (S i)), S i)). split; [|split; unfold total_after; cbn; f_equal; lra].
    destruct (torch_optimize (fun i => (Fin (INR (S i)), S i)) 5 None 0) as [r n] eqn:E.
    assert (Hc1 : converged (the_tol None) (total_before (fun i => (Fin (INR (S i)), S i)) 1) (total_after (fun i => (Fin (INR (S i)), S i)) 1)).
    { cbn [total_before]. unfold total_after. cbn [fst]. apply converged_fin. cbn [INR]. cbn [the_tol].
      assert (0 < / 10 ^ 10) by (apply Rinv_0_lt_compat; lra).
      assert (1 <= Rmax (Rmax (1 + 1) 1) 1) by apply Rmax_r. nra. }
    destruct (torch_optimize_spec _ 5 _ _ _ _ ltac:(lia) E) as [R [-> [Hn [Hno H]]]]. cbn [fst].
    assert (n = 2%nat) as ->.
    { destruct n as [|[|[|n]]]; try lia.
      - exfalso. destruct H as [[H _]|[[_ [_ [Hc _]]]|[_ [Hn5 _]]]]; [discriminate| |discriminate].
        cbn in Hc. apply (converged_first _ _ Hc).
      - exfalso. destruct (Hno 1%nat ltac:(lia)) as [_ Hc]. apply Hc. split; [exact Hc1|lia]. }
    cbn [Nat.sub] in H. destruct H as [[H _]|[[_ [_ [_ HR]]]|[_ [Hn5 _]]]]; [discriminate| |discriminate].
    rewrite HR. reflexivity.
  - reflexivity.
  - exists (fun i => (NaN, S i)). split; reflexivity.
Qed.

(** ** C38 *)
Lemma firstn_add {A} n m (l : list A) : firstn (n + m) l = firstn n l ++ firstn m (skipn n l).
Proof.
  revert l. induction n as [|n IH]; intros [|a l]; cbn; try reflexivity; [destruct m; reflexivity|].
  f_equal. apply IH.
Qed.
Lemma skipn_skipn {A} n m (l : list A) : skipn n (skipn m l) = skipn (m + n) l.
Proof. revert l. induction m as [|m IH]; intros [|a l]; cbn; try reflexivity; [destruct n; reflexivity|apply IH]. Qed.

Lemma write_params_spec : forall ps x i, (total_numel ps <= length x - i)%nat ->
  exists ps', write_params ps x i = (ps', None, (i + total_numel ps)%nat) /\
    map p_shape ps' = map p_shape ps /\ Forall well_formed ps' /\ Forall (fun p => p_contig p = true) ps' /\
    List.concat (map p_data ps') = firstn (total_numel ps) (skipn i x).
Proof.
  unfold total_numel; change (fun t => numbers_in (p_shape t)) with p_numel in *. induction ps as [|p ps IH]; intros x i H; cbn [write_params map list_sum] in *.
  - exists []. rewrite Nat.add_0_r. repeat split; constructor.
  - change (list_sum (p_numel p :: map p_numel ps)) with (p_numel p + list_sum (map p_numel ps))%nat in *.
    assert (El : length (firstn (p_numel p) (skipn i x)) = p_numel p).
    { rewrite firstn_length, skipn_length. lia. }
    rewrite El, Nat.eqb_refl. destruct (IH x (i + p_numel p)%nat) as [ps' [E [H1 [H2 [H3 H4]]]]]; [lia|].
    rewrite E. eexists. split; [rewrite <- Nat.add_assoc; reflexivity|]. cbn [map p_shape p_data]. split; [f_equal; exact H1|].
    split; [constructor; [exact El|exact H2]|]. split; [constructor; auto|].
    cbn [List.concat]. rewrite H4, firstn_add, skipn_skipn. reflexivity.
Qed.

Lemma write_params_short : forall ps x i, (length x - i < total_numel ps)%nat -> 
  exists ps' j, write_params ps x i = (ps', Some RuntimeError, j).
Proof.
  unfold total_numel; change (fun t => numbers_in (p_shape t)) with p_numel in *. induction ps as [|p ps IH]; intros x i H; [cbn in H; lia|]. cbn [write_params].
  change (list_sum (map p_numel (p :: ps))) with (p_numel p + list_sum (map p_numel ps))%nat in *.
  destruct (Nat.eqb (length (firstn (p_numel p) (skipn i x))) (p_numel p)) eqn:E; [|eauto].
  apply Nat.eqb_eq in E. rewrite firstn_length, skipn_length in E.
  destruct (IH x (i + p_numel p)%nat) as [ps' [j ->]]; [lia|]. eauto.
Qed.

Theorem numpy_to_model_spec ps x : length x = total_numel ps ->
  exists ps', numpy_to_model ps x = (ps', None) /\ map p_shape ps' = map p_shape ps /\
    (ps <> [] -> model_to_numpy ps' = Ok x).
Proof.
  intros H. destruct (write_params_spec ps x 0) as [ps' [E [H1 [H2 [H3 H4]]]]]; [lia|].
  exists ps'. unfold numpy_to_model. rewrite E. cbn [Nat.add]. rewrite H, Nat.eqb_refl.
  split; [reflexivity|]. split; [exact H1|]. intros Hne. unfold model_to_numpy.
  assert (forallb p_contig ps' = true) as ->.
  { apply forallb_forall. intros p Hp. rewrite Forall_forall in H3. auto. }
  rewrite H4. cbn [skipn]. rewrite <- H, firstn_all. destruct ps', ps; auto; discriminate || congruence.
Qed.

Theorem pack_unpack ps x : Forall well_formed ps -> model_to_numpy ps = Ok x ->
  length x = total_numel ps /\ numpy_to_model ps x = (ps, None).
Proof.
  intros Hw E. unfold model_to_numpy in E. destruct (forallb p_contig ps) eqn:Ec; [|discriminate].
  assert (Ex : x = List.concat (map p_data ps)) by (destruct ps; [discriminate|congruence]).
  assert (Hl : forall qs, Forall well_formed qs -> length (List.concat (map p_data qs)) = total_numel qs).
  { unfold total_numel; change (fun t => numbers_in (p_shape t)) with p_numel in *. induction 1 as [|q qs Hq _ IH]; [reflexivity|]. cbn [map List.concat]. rewrite app_length, IH, Hq. reflexivity. }
  subst x. split; [apply Hl, Hw|]. unfold numpy_to_model.
  assert (H : forall qs pre, Forall well_formed qs -> forallb p_contig qs = true ->
     write_params qs (pre ++ List.concat (map p_data qs)) (length pre) = (qs, None, (length pre + total_numel qs)%nat)).
  { clear. unfold total_numel; change (fun t => numbers_in (p_shape t)) with p_numel in *. induction qs as [|q qs IH]; intros pre Hw Hc; cbn [write_params map List.concat].
    - cbn. rewrite Nat.add_0_r. reflexivity.
    - inversion Hw as [|? ? Hq Hqs]; subst. change (length (p_data q) = p_numel q) in Hq. cbn in Hc. apply andb_prop in Hc. destruct Hc as [Hc1 Hc2].
      rewrite skipn_app, skipn_all, Nat.sub_diag. cbn [skipn app].
      assert (firstn (p_numel q) (p_data q ++ List.concat (map p_data qs)) = p_data q) as ->.
      { rewrite firstn_app, <- Hq, firstn_all, Nat.sub_diag. cbn. apply app_nil_r. }
      rewrite Hq, Nat.eqb_refl. rewrite app_assoc. rewrite <- Hq, <- app_length.
      rewrite IH by assumption. rewrite app_length. rewrite Hq.
      change (list_sum (p_numel q :: map p_numel qs)) with (p_numel q + list_sum (map p_numel qs))%nat.
      rewrite Nat.add_assoc. destruct q; cbn in *; subst; reflexivity. }
  specialize (H ps [] Hw Ec). cbn [app length] in H. rewrite H. cbn [Nat.add].
  rewrite Hl by exact Hw. rewrite Nat.eqb_refl. reflexivity.
Qed.

Theorem wrong_length ps x :
  ((length x < total_numel ps)%nat -> snd (numpy_to_model ps x) = Some RuntimeError) /\
  ((total_numel ps < length x)%nat -> snd (numpy_to_model ps x) = Some AssertionError).
Proof.
  split; intros H; unfold numpy_to_model.
  - destruct (write_params_short ps x 0) as [ps' [j ->]]; [lia|reflexivity].
  - destruct (write_params_spec ps x 0) as [ps' [-> _]]; [lia|]. cbn [Nat.add].
    assert (Nat.eqb (total_numel ps) (length x) = false) as -> by (apply Nat.eqb_neq; lia). reflexivity.
Qed.

Theorem not_contiguous ps : Exists (fun p => p_contig p = false) ps -> model_to_numpy ps = Err ValueError.
Proof.
  intros H. unfold model_to_numpy. destruct (forallb p_contig ps) eqn:E; [|reflexivity].
  rewrite forallb_forall in E. apply Exists_exists in H. destruct H as [p [H1 H2]]. rewrite (E p H1) in H2. discriminate.
Qed.

Theorem nan_cost costs : Exists (fun p => snd p = NaN) costs ->
  (forall grad dnan, scipy_cost costs true grad dnan = Err AttributeError) /\
  (forall grad dnan, scipy_cost costs false grad dnan = Err ValueError).
Proof.
  intros H. assert (E : existsb (fun p : string * fl => isnan (snd p)) costs = true).
  { apply existsb_exists. apply Exists_exists in H. destruct H as [p [H1 H2]]. exists p. rewrite H2. auto. }
  unfold scipy_cost. rewrite E. split; intros; [|reflexivity]. rewrite !andb_false_r. reflexivity.
Qed.
Theorem not_nan_cost costs naninf grad dnan : Forall (fun p => snd p <> NaN) costs ->
  (grad && dnan && negb naninf)%bool = false ->
  scipy_cost costs naninf grad dnan = Ok (fold_left fadd (map snd costs) (Fin 0)).
Proof.
  intros H E. unfold scipy_cost. rewrite E.
  assert (existsb (fun p : string * fl => isnan (snd p)) costs = false) as ->; [|reflexivity].
  apply not_true_iff_false. intros Hex. apply existsb_exists in Hex. destruct Hex as [p [H1 H2]].
  rewrite Forall_forall in H. apply (H p H1). destruct (snd p); congruence || discriminate.
Qed.

(** ** Dictionaries *)
Section DictFacts.
  Context {V : Type}.
  Implicit Types d : dict V.
  Lemma dget_dset k k' v d : dget k (dset k' v d) = if String.eqb k k' then Some v else dget k d.
  Proof.
    induction d as [|[k0 v0] d IH]; cbn.
    - reflexivity.
    - destruct (String.eqb k' k0) eqn:E1; cbn.
      + apply String.eqb_eq in E1. subst k0. destruct (String.eqb k k'); reflexivity.
      + destruct (String.eqb k k0) eqn:E2; [|exact IH].
        apply String.eqb_eq in E2. subst k0. rewrite String.eqb_sym, E1. reflexivity.
  Qed.
  Lemma dget_ddel k k' d : dget k (ddel k' d) = if String.eqb k k' then None else dget k d.
  Proof.
    unfold ddel. induction d as [|[k0 v0] d IH]; cbn; [destruct (String.eqb k k'); reflexivity|].
    destruct (String.eqb k' k0) eqn:E1; cbn.
    - rewrite IH. apply String.eqb_eq in E1. subst k0. destruct (String.eqb k k'); reflexivity.
    - rewrite IH. destruct (String.eqb k k0) eqn:E2; [|reflexivity].
      apply String.eqb_eq in E2. subst k0. rewrite String.eqb_sym, E1. reflexivity.
  Qed.
  Lemma ddel_absent k d : dget k d = None -> ddel k d = d.
  Proof.
    unfold ddel. induction d as [|[k0 v0] d IH]; cbn; [reflexivity|].
    destruct (String.eqb k k0); [discriminate|]. intros H. cbn. f_equal. apply IH, H.
  Qed.
  Lemma dmem_keys k d : dmem k d = true <-> In k (dkeys d).
  Proof.
    unfold dmem, dkeys. induction d as [|[k0 v0] d IH]; cbn; [split; [discriminate|tauto]|].
    destruct (String.eqb k k0) eqn:E.
    - apply String.eqb_eq in E. subst. split; auto.
    - rewrite IH. apply String.eqb_neq in E. split; [auto|intros [H|H]; [congruence|exact H]].
  Qed.
  Lemma dget_none_keys k d : dget k d = None <-> ~ In k (dkeys d).
  Proof. rewrite <- dmem_keys. unfold dmem. destruct (dget k d); split; intros H; congruence || (intros E; congruence) || (exfalso; apply H; reflexivity). Qed.
End DictFacts.

(** ** C60 *)
Lemma append_one {A} k (d : dict A) : forall base, unique_keys d ->
  dget k (append_in_dict_of_list base d) =
  appended (dget k base) (match dget k d with Some v => [v] | None => [] end).
Proof.
  unfold append_in_dict_of_list, unique_keys, dkeys.
  induction d as [|[k0 v0] d IH]; intros base H; cbn [fold_left fst snd].
  - cbn. destruct (dget k base); cbn; [rewrite app_nil_r|]; reflexivity.
  - cbn [map fst] in H. inversion H as [|? ? Hni Hnd]; subst. rewrite IH by exact Hnd. clear IH. cbn [dget].
    destruct (String.eqb k k0) eqn:E.
    + apply String.eqb_eq in E. subst k0. apply dget_none_keys in Hni. rewrite Hni.
      destruct (dget k base) eqn:Eb; rewrite dget_dset, String.eqb_refl; cbn; rewrite ?app_nil_r; reflexivity.
    + destruct (dget k0 base); rewrite dget_dset, E; reflexivity.
Qed.

Theorem append_history {A} k (ds : list (dict A)) : forall base, Forall unique_keys ds ->
  dget k (fold_left append_in_dict_of_list ds base) = appended (dget k base) (values_of k ds).
Proof.
  induction ds as [|d ds IH]; intros base H; cbn [fold_left].
  - cbn. destruct (dget k base); cbn; [rewrite app_nil_r|]; reflexivity.
  - inversion H; subst. rewrite IH by assumption. rewrite append_one by assumption.
    unfold values_of. cbn [flat_map]. destruct (dget k base), (dget k d); cbn; rewrite <- ?app_assoc; try reflexivity.
Qed.

Lemma append_nonempty {A} (base : dict (list A)) d : base <> [] -> append_in_dict_of_list base d <> [].
Proof.
  unfold append_in_dict_of_list. revert base. induction d as [|[k v] d IH]; intros base H; cbn; [exact H|].
  apply IH. destruct (dget k base); destruct base as [|[k0 v0] base]; cbn; try congruence; destruct (String.eqb k k0); congruence.
Qed.

Theorem fit_history_spec costs cost0 lasts : cost0 <> [] ->
  fit_history costs cost0 lasts = fold_left append_in_dict_of_list (cost0 :: lasts) costs.
Proof.
  intros H0. unfold fit_history. cbn [fold_left].
  assert (Hne : append_in_dict_of_list costs cost0 <> []).
  { destruct cost0 as [|[k v] cost0]; [congruence|]. unfold append_in_dict_of_list. cbn [fold_left fst snd].
    change (append_in_dict_of_list (match dget k costs with None => dset k [v] costs | Some l => dset k (l ++ [v]) costs end) cost0 <> []).
    apply append_nonempty. destruct (dget k costs); destruct costs as [|[k0 v0] costs]; cbn; try congruence; destruct (String.eqb k k0); congruence. }
  revert Hne. generalize (append_in_dict_of_list costs cost0). induction lasts as [|d lasts IH]; intros b Hb; [reflexivity|].
  cbn [fold_left]. destruct b as [|p b]; [congruence|]. apply IH. apply append_nonempty. congruence.
Qed.

(** ** C39, C40 *)
Definition without (keys : list string) (d : dict optv) : dict optv := fold_left (fun d k => ddel k d) keys d.

Lemma take_spec key (d : dict optv) :
  match dget key d with Some v => (Some v, ddel key d) | None => (None, d) end = (dget key d, ddel key d).
Proof. destruct (dget key d) eqn:E; [reflexivity|]. rewrite ddel_absent by exact E. reflexivity. Qed.

Lemma dget_without k d : dget k (without fit_keys d) = if existsb (String.eqb k) fit_keys then None else dget k d.
Proof.
  unfold without, fit_keys. cbn [fold_left existsb]. rewrite !dget_ddel.
  destruct (String.eqb k "shoot_solver"), (String.eqb k "shoot_it"), (String.eqb k "tol"); reflexivity.
Qed.

Theorem fit_spec k max_iter options mi :
  fit k max_iter options mi =
  match k with
  | ITorch => (without fit_keys options,
      Ok (mkUsage (asked "shoot_solver" (OStr "euler") options) (asked "shoot_it" (ONat 10) options)
            (dget "tol" options) max_iter mi (without fit_keys options)))
  | IScipy => (without fit_keys options, Err TypeError)
  end.
Proof.
  unfold fit. rewrite !take_spec. rewrite !dget_ddel. cbn [String.eqb Ascii.eqb Bool.eqb].
  destruct k; cbn [opt_params]; reflexivity.
Qed.

Theorem fitter_works r name k max_iter options mi :
  dget name (reg r) = Some k ->
  (is_ok (snd (fitter_fit r (Some name) max_iter options mi)) <-> k = ITorch) /\
  (k = IScipy -> snd (fitter_fit r (Some name) max_iter options mi) = Err TypeError).
Proof.
  intros H. unfold fitter_fit, create_optimizer, is_valid_optimizer, dmem. rewrite H. cbn [py_assert bind].
  rewrite fit_spec. destruct k; cbn; split; try (split; [reflexivity || intros [a Ha]; discriminate|]);
    intros; try discriminate; try reflexivity; eexists; reflexivity.
Qed.

Theorem fitter_refuted :
  get_default_optimizer initial_registry = "scipy_l-bfgs-b"%string /\
  (forall max_iter options mi, snd (fitter_fit initial_registry None max_iter options mi) = Err TypeError) /\
  (forall name, In name (list_optimizers initial_registry) ->
     (forall max_iter options mi, is_ok (snd (fitter_fit initial_registry (Some name) max_iter options mi)))
     <-> In name ["torch_sgd"; "torch_lbfgs"; "gd"]%string).
Proof.
  split; [reflexivity|]. split.
  - intros. unfold fitter_fit. cbn [get_default_optimizer]. 
    change (create_optimizer _ initial_registry) with (Ok IScipy). cbv iota. rewrite fit_spec. reflexivity.
  - intros name H. cbn in H.
    repeat (destruct H as [<-|H]; [split; [intros Hok; specialize (Hok 0%nat [] 0%nat); cbn in Hok|
       intros Hin; cbn in Hin]; try (destruct Hok as [a Ha]; discriminate); try (cbn; tauto);
       try (exfalso; repeat (destruct Hin as [Hin|Hin]; [discriminate|]); contradiction);
       intros; unfold fitter_fit; change (create_optimizer _ initial_registry) with (Ok ITorch); cbv iota; rewrite fit_spec; eexists; reflexivity|]).
    contradiction.
Qed.

Theorem options_effect k max_iter options mi :
  forall key, dget key (fst (fit k max_iter options mi)) =
    if existsb (String.eqb key) fit_keys then None else dget key options.
Proof. intros key. rewrite fit_spec. destruct k; apply dget_without. Qed.

Theorem options_refuted :
  let o := [("shoot_solver", OStr "rk4"); ("shoot_it", ONat 20)]%string in
  exists o' u1 u2,
    fit ITorch 100 o 0 = (o', Ok u1) /\ o' = [] /\ snd (fit ITorch 100 o' 0) = Ok u2 /\
    u_solver u1 = OStr "rk4" /\ u_it u1 = ONat 20 /\ u_solver u2 = OStr "euler" /\ u_it u2 = ONat 10.
Proof. do 3 eexists. repeat split; reflexivity. Qed.

Theorem options_kept k max_iter options mi :
  (forall key, In key fit_keys -> dget key options = None) ->
  fst (fit k max_iter options mi) = options.
Proof.
  intros H. rewrite fit_spec. assert (E : without fit_keys options = options).
  { unfold without, fit_keys. cbn [fold_left]. rewrite !ddel_absent; [reflexivity|..];
    rewrite ?dget_ddel; cbn [String.eqb Ascii.eqb Bool.eqb]; try apply H; cbn; auto. }
  destruct k; exact E.
Qed.

Theorem default_options_stay_empty calls : fold_left default_after calls [] = [].
Proof.
  assert (H : forall call, default_after [] call = []).
  { intros [[[k m] mi] [o|]]; cbn [default_after]; [reflexivity|]. rewrite fit_spec. destruct k; reflexivity. }
  induction calls as [|c calls IH]; [reflexivity|]. cbn [fold_left]. rewrite H. exact IH.
Qed.

Theorem scipy_direct_mutates max_iter options :
  dget "maxiter" (scipy_options max_iter options) = Some (ONat max_iter).
Proof. unfold scipy_options. rewrite dget_dset. reflexivity. Qed.

(** ** C41 *)
Lemma rexec_backend ops : forall s, snd (fold_left rstep ops s) = last_backend ops (snd s).
Proof.
  induction ops as [|o ops IH]; intros s; [reflexivity|]. cbn [fold_left]. rewrite IH.
  destruct o; cbn [rstep snd last_backend]; try reflexivity. unfold set_compute_backend.
  destruct (String.eqb b "torch"), (String.eqb b "keops"); reflexivity.
Qed.
Theorem backend_last ops : snd (rexec ops) = last_backend ops "torch".
Proof. apply rexec_backend. Qed.

Theorem backend_unknown b cur : b <> "torch"%string -> b <> "keops"%string ->
  set_compute_backend b cur = (cur, Some RuntimeError) /\ is_valid_backend b = false.
Proof.
  intros H1 H2. apply String.eqb_neq in H1, H2. unfold set_compute_backend, is_valid_backend. cbn [existsb].
  rewrite H1, H2. auto.
Qed.

Lemma rexec_default ops : forall s, default_opt (fst (fold_left rstep ops s)) = default_opt (fst s).
Proof.
  induction ops as [|o ops IH]; intros s; [reflexivity|]. cbn [fold_left]. rewrite IH.
  destruct o; cbn [rstep fst]; try reflexivity. unfold set_default_optimizer. destruct (is_valid_optimizer m (fst s)); reflexivity.
Qed.
Theorem default_never_changes ops : get_default_optimizer (fst (rexec ops)) = "scipy_l-bfgs-b"%string.
Proof. apply rexec_default. Qed.
Theorem default_refuted :
  snd (set_default_optimizer "gd" initial_registry) = None /\
  get_default_optimizer (fst (set_default_optimizer "gd" initial_registry)) <> "gd"%string.
Proof. split; [reflexivity|discriminate]. Qed.

Theorem unknown_rejected m r : ~ In m (list_optimizers r) ->
  set_default_optimizer m r = (r, Some AssertionError) /\ create_optimizer m r = Err AssertionError.
Proof.
  intros H. unfold list_optimizers in H. apply dget_none_keys in H.
  unfold set_default_optimizer, create_optimizer, is_valid_optimizer, dmem. rewrite H. split; reflexivity.
Qed.

Lemma rexec_registered m ops : forall s,
  dget m (reg (fst (fold_left rstep ops s))) = last_registered m ops (dget m (reg (fst s))).
Proof.
  induction ops as [|o ops IH]; intros s; [reflexivity|]. cbn [fold_left]. rewrite IH.
  destruct o; cbn [rstep fst last_registered]; try reflexivity.
  - unfold register_optimizer. cbn [reg]. rewrite dget_dset. reflexivity.
  - unfold set_default_optimizer. destruct (is_valid_optimizer m0 (fst s)); reflexivity.
Qed.
Theorem registered_created m ops :
  create_optimizer m (fst (rexec ops)) =
  match last_registered m ops (dget m (reg initial_registry)) with
  | Some o => Ok o
  | None => Err AssertionError
  end.
Proof.
  unfold create_optimizer, is_valid_optimizer, dmem, rexec. rewrite rexec_registered. cbn [fst].
  destruct (last_registered m ops _); reflexivity.
Qed.

(** ** C64 *)
Theorem create_module_spec {A B} (bt bk : A -> res B) ops requested args :
  create_module bt bk (snd (rexec ops)) requested args =
  match requested with
  | Some b => if String.eqb b "torch" then bt args else if String.eqb b "keops" then bk args else Err NotImplementedError
  | None => if String.eqb (last_backend ops "torch") "torch" then bt args else bk args
  end.
Proof.
  destruct requested as [b|]; [reflexivity|]. rewrite backend_last. unfold create_module.
  assert (H : forall ops cur, cur = "torch"%string \/ cur = "keops"%string ->
     last_backend ops cur = "torch"%string \/ last_backend ops cur = "keops"%string).
  { clear. induction ops as [|o ops IH]; intros cur H; [exact H|]. destruct o; cbn [last_backend]; apply IH; auto.
    destruct (String.eqb b "torch") eqn:E1; [apply String.eqb_eq in E1; subst; auto|].
    destruct (String.eqb b "keops") eqn:E2; [apply String.eqb_eq in E2; subst; auto|]. exact H. }
  destruct (H ops "torch"%string (or_introl eq_refl)) as [-> | ->]; reflexivity.
Qed.
