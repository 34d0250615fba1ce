(** Proofs about translated scenes. *)
From Coq Require Import Reals String List Arith Lia FunctionalExtensionality.
From Verif Require Import Py RSum Tensor TensorFacts KernelModel FieldModel GeometryModel ModuleModel SpecMotion.
Import ListNotations.
Open Scope R_scope.

Section Shift.
Variable d : nat.
Variable c : nat -> R.
Hypothesis periodic : forall a, c (a mod d)%nat = c a.

Lemma shape_shift t : shape (shift c t) = shape t.
Proof. reflexivity. Qed.
Lemma get_shift t i a : (shift c t) @2 i a = t @2 i a + c a.
Proof. reflexivity. Qed.

Lemma mkT_ext sh f g : (forall idx, f idx = g idx) -> mkT sh f = mkT sh g.
Proof. intros H. f_equal. extensionality idx. apply H. Qed.

Lemma unsq_diff_shift x y : unsq_diff (shift c x) (shift c y) = unsq_diff x y.
Proof.
  unfold unsq_diff, mk3. change (nrows (shift c x)) with (nrows x). change (ncols (shift c x)) with (ncols x).
  change (nrows (shift c y)) with (nrows y). apply mkT_ext. intros idx.
  destruct idx as [|i [|j [|a [|]]]]; try reflexivity. rewrite !get_shift. ring.
Qed.
Lemma rel_differences_shift x y : rel_differences (shift c x) (shift c y) = rel_differences x y.
Proof. unfold rel_differences. rewrite unsq_diff_shift. reflexivity. Qed.
Lemma sqdistances_shift x y : sqdistances (shift c x) (shift c y) = sqdistances x y.
Proof. unfold sqdistances. rewrite unsq_diff_shift. reflexivity. Qed.
Lemma K_xx_shift x sigma : K_xx (shift c x) sigma = K_xx x sigma.
Proof. unfold K_xx. rewrite sqdistances_shift. reflexivity. Qed.
Lemma K_xy_shift x y sigma : K_xy (shift c x) (shift c y) sigma = K_xy x y sigma.
Proof. unfold K_xy. rewrite sqdistances_shift. reflexivity. Qed.

Lemma rows_sub_shift x y i j : tsub (row (shift c x) i) (row (shift c y) j) = tsub (row x i) (row y j).
Proof.
  unfold tsub, tmap2, row, mk1. apply mkT_ext. intros idx. cbn [get].
  destruct idx as [|a [|]]; try reflexivity. rewrite !get_shift. ring.
Qed.

Lemma compute_sks_shift x sigma o u : compute_sks (shift c x) sigma o u = compute_sks x sigma o u.
Proof. unfold compute_sks. rewrite rel_differences_shift. reflexivity. Qed.

Lemma mod_mod_mul a s e : ((a mod (s * e)) mod e = a mod e)%nat.
Proof.
  destruct e as [|e]; [rewrite Nat.mul_0_r; reflexivity|].
  destruct s as [|s]; [reflexivity|].
  rewrite Nat.mul_comm. rewrite Nat.mod_mul_r by lia.
  rewrite Nat.mul_comm, Nat.mod_add by lia. apply Nat.mod_mod; lia.
Qed.

Lemma rep_rows_shift x s r i : (rep_rows (shift c x) s) @2 r i = (rep_rows x s) @2 r i + c (i mod ncols x)%nat.
Proof.
  unfold rep_rows. change (ncols (shift c x)) with (ncols x). change (nrows (shift c x)) with (nrows x).
  unfold reshape, mk2. cbn [get shape ravel prod fold_right unravel]. rewrite get_shift. f_equal. f_equal.
  rewrite !Nat.mul_1_r, Nat.div_1_r, mod_mod_mul, Nat.add_0_r. rewrite Nat.add_comm.
  destruct (ncols x) as [|e]; [cbn; lia|]. apply Nat.mod_add. lia.
Qed.

Lemma compute_sks_keops_shift x sigma o u : compute_sks_keops (shift c x) sigma o u = compute_sks_keops x sigma o u.
Proof.
  unfold compute_sks_keops. change (ncols (shift c x)) with (ncols x). change (nrows (shift c x)) with (nrows x).
  destruct o as [|[|o]]; try reflexivity. f_equal. f_equal. extensionality r. extensionality q. cbv zeta.
  assert (E : mk1 (ncols x) (fun i => (rep_rows (shift c x) (sym_dim (ncols x))) @2 r i - (rep_rows (shift c x) (sym_dim (ncols x))) @2 q i)
            = mk1 (ncols x) (fun i => (rep_rows x (sym_dim (ncols x))) @2 r i - (rep_rows x (sym_dim (ncols x))) @2 q i)).
  { f_equal. extensionality i. rewrite !rep_rows_shift. ring. }
  rewrite E. reflexivity.
Qed.

(** ** Fields *)

(** A field in the moved scene. *)
Fixpoint moved_field (f : sfield) : sfield :=
  match f with
  | SF_0 b s m sg => SF_0 b (shift c s) m sg
  | SF_0_u b s m d sg => SF_0_u b (shift c s) m d sg
  | SF_1 b s m sg => SF_1 b (shift c s) m sg
  | SF_p b s m sg => SF_p b (shift c s) m sg
  | SF_m b s m sg => SF_m b (shift c s) m sg
  | SF_affine A x0 u => SF_affine A (mkT (shape x0) (fun idx => get x0 idx + c (nth 0 idx 0%nat))) u
  | SF_const m => SF_const m
  | SF_null d => SF_null d
  | SF_sum fs => SF_sum (map moved_field fs)
  end.

Lemma fdim_moved f : fdim (moved_field f) = fdim f.
Proof.
  revert f. fix IH 1. intros f. destruct f; try reflexivity. destruct fields as [|g fs]; [reflexivity|]. exact (IH g).
Qed.

Lemma genred_ext N M D f g : (forall i j, f i j = g i j) -> genred N M D f = genred N M D g.
Proof. intros H. f_equal. extensionality i. extensionality j. apply H. Qed.

Lemma affine_moved A x0 u points k :
  affine_call A (mkT (shape x0) (fun idx => get x0 idx + c (nth 0 idx 0%nat))) u (shift c points) k = affine_call A x0 u points k.
Proof.
  unfold affine_call. change (nrows (shift c points)) with (nrows points). change (ncols (shift c points)) with (ncols points).
    destruct k as [|[|k]]; try reflexivity. f_equal.
    assert (E : mk3 (nrows points) 1 (ncols points)
        (fun n _ a => (shift c points) @2 n a - (mkT (shape x0) (fun idx => get x0 idx + c (nth 0 idx 0%nat))) @1 a)
      = mk3 (nrows points) 1 (ncols points) (fun n _ a => points @2 n a - x0 @1 a)).
    { f_equal. extensionality n. extensionality z. extensionality a. rewrite get_shift. cbn [get nth]. ring. }
    rewrite E. reflexivity.
Qed.

Lemma feval_moved f points k : feval (moved_field f) (shift c points) k = feval f points k.
Proof.
  revert f points k. fix IH 1. intros f points k. destruct f; cbn [moved_field feval].
  - destruct b.
    + unfold sf0_torch. rewrite K_xy_shift, rel_differences_shift. reflexivity.
    + unfold sf0_keops. change (ncols (shift c support)) with (ncols support).
      change (nrows (shift c support)) with (nrows support). change (nrows (shift c points)) with (nrows points).
      destruct k as [|[|k]]; try reflexivity; do 2 f_equal.
      * apply genred_ext. intros i j. rewrite rows_sub_shift. reflexivity.
      * f_equal. apply genred_ext. intros i j. rewrite rows_sub_shift. reflexivity.
  - unfold sf0u_torch. rewrite rel_differences_shift. reflexivity.
  - destruct b; [|reflexivity]. unfold sf1_torch. rewrite rel_differences_shift. reflexivity.
  - destruct b.
    + unfold sfpm_torch. rewrite rel_differences_shift. reflexivity.
    + unfold sfpm_keops. change (ncols (shift c support)) with (ncols support).
      change (nrows (shift c support)) with (nrows support). change (nrows (shift c points)) with (nrows points).
      destruct k as [|[|k]]; try reflexivity; do 2 f_equal.
      * apply genred_ext. intros i j. rewrite rows_sub_shift. reflexivity.
      * f_equal. apply genred_ext. intros i j. rewrite rows_sub_shift. reflexivity.
  - destruct b.
    + unfold sfpm_torch. rewrite rel_differences_shift. reflexivity.
    + unfold sfpm_keops. change (ncols (shift c support)) with (ncols support).
      change (nrows (shift c support)) with (nrows support). change (nrows (shift c points)) with (nrows points).
      destruct k as [|[|k]]; try reflexivity; do 2 f_equal.
      * apply genred_ext. intros i j. rewrite rows_sub_shift. reflexivity.
      * f_equal. apply genred_ext. intros i j. rewrite rows_sub_shift. reflexivity.
  - apply affine_moved.
  - reflexivity.
  - reflexivity.
  - set (g := fix evals (fs : list sfield) : res (list tensor) :=
               match fs with
               | [] => Ok []
               | f :: fs' => t <- feval f (shift c points) k ;; ts <- evals fs' ;; Ok (t :: ts)
               end).
    set (g' := fix evals (fs : list sfield) : res (list tensor) :=
               match fs with
               | [] => Ok []
               | f :: fs' => t <- feval f points k ;; ts <- evals fs' ;; Ok (t :: ts)
               end).
    assert (E : g (map moved_field fields) = g' fields).
    { induction fields as [|f fs IHf]; [reflexivity|]. cbn. rewrite IH, IHf. reflexivity. }
    rewrite E. reflexivity.
Qed.

Lemma sum_ctor_moved fs : sum_ctor (map moved_field fs) = (f <- sum_ctor fs ;; Ok (moved_field f)).
Proof.
  destruct fs as [|f fs]; [reflexivity|]. unfold sum_ctor at 1. cbn [map]. unfold sum_ctor.
  assert (E : forallb (fun g => Nat.eqb (fdim g) (fdim (moved_field f))) (map moved_field fs)
            = forallb (fun g => Nat.eqb (fdim g) (fdim f)) fs).
  { induction fs as [|g fs IHf]; [reflexivity|]. cbn. rewrite !fdim_moved in *. rewrite IHf. reflexivity. }
  rewrite E. destruct (forallb _ fs); reflexivity.
Qed.

(** ** Manifolds *)

Definition shifted_field (F : vfield) (G : vfield) : Prop := forall points k, F (shift c points) k = G points k.

Lemma lm_action_moved dim nb gd F G : shifted_field F G -> lm_action dim nb (shift c gd) F = lm_action dim nb gd G.
Proof. intros H. unfold lm_action. rewrite H. reflexivity. Qed.
Lemma dir_action_moved tr dim nb gd0 gd1 F G : shifted_field F G ->
  dir_action tr dim nb (shift c gd0) gd1 F = dir_action tr dim nb gd0 gd1 G.
Proof. intros H. unfold dir_action. rewrite !H. reflexivity. Qed.
Lemma frame_action_moved dim nb gd0 gd1 F G : shifted_field F G ->
  frame_action dim nb (shift c gd0) gd1 F = frame_action dim nb gd0 gd1 G.
Proof. intros H. unfold frame_action. rewrite !H. reflexivity. Qed.

Lemma inner_prod_field_moved g F G : ordinary_man g -> shifted_field F G ->
  inner_prod_field (moved c g) F = inner_prod_field g G.
Proof.
  intros O H. revert g O. fix IH 1. intros g O. destruct g; cbn [moved inner_prod_field].
  - unfold lm_inner. rewrite (lm_action_moved _ _ _ F G H). reflexivity.
  - rewrite (dir_action_moved _ _ _ _ _ F G H). reflexivity.
  - rewrite (frame_action_moved _ _ _ _ F G H). reflexivity.
  - destruct O.
  - reflexivity.
  - cbn [ordinary_man] in O.
    induction ms as [|g gs IHg]; [reflexivity|]. destruct O as [O1 O2]. cbn.
    rewrite (IH g O1). rewrite IHg by exact O2. reflexivity.
Qed.

Lemma infinitesimal_action_moved g F G : ordinary_man g -> shifted_field F G ->
  infinitesimal_action (moved c g) F = infinitesimal_action g G.
Proof.
  intros O H. revert g O. fix IH 1. intros g O. destruct g; cbn [moved infinitesimal_action].
  - rewrite (lm_action_moved _ _ _ F G H). reflexivity.
  - rewrite (dir_action_moved _ _ _ _ _ F G H). reflexivity.
  - rewrite (frame_action_moved _ _ _ _ F G H). reflexivity.
  - reflexivity.
  - reflexivity.
  - cbn [ordinary_man] in O. f_equal.
    induction ms as [|g gs IHg]; [reflexivity|]. destruct O as [O1 O2]. cbn.
    rewrite (IH g O1). rewrite IHg by exact O2. reflexivity.
Qed.

Lemma cot_to_vs_moved g sigma b b0 : cot_to_vs (moved c g) sigma b b0 = (f <- cot_to_vs g sigma b b0 ;; Ok (moved_field f)).
Proof.
  revert g. fix IH 1. intros g. destruct g; cbn [moved cot_to_vs].
  - reflexivity.
  - rewrite <- sum_ctor_moved. destruct tr; reflexivity.
  - rewrite <- sum_ctor_moved. reflexivity.
  - rewrite <- sum_ctor_moved. reflexivity.
  - reflexivity.
  - set (h := fix go (ms : list gman) : res (list sfield) :=
               match ms with
               | [] => Ok []
               | m :: ms' => f <- cot_to_vs m sigma b b0 ;; fs <- go ms' ;; Ok (f :: fs)
               end).
    assert (E : h (map (moved c) ms) = (fs <- h ms ;; Ok (map moved_field fs))).
    { induction ms as [|g gs IHg]; [reflexivity|]. cbn [map]. unfold h; fold h. rewrite IH, IHg.
      destruct (cot_to_vs g sigma b b0) as [f|e]; [|reflexivity]. cbn [bind].
      destruct (h gs) as [fs|e]; reflexivity. }
    rewrite E. destruct (h ms) as [fs|e]; [|reflexivity]. cbn [bind]. apply sum_ctor_moved.
Qed.

Lemma gdim_moved g : gdim (moved c g) = gdim g.
Proof. revert g. fix IH 1. intros g. destruct g; try reflexivity. destruct ms as [|g' gs]; [reflexivity|]. exact (IH g'). Qed.

(** ** Modules *)

(** The module in the moved scene, its cached values being kept. *)
Fixpoint moved_mod (m : dmod) : dmod :=
  match m with
  | MGlobal dim co h => MGlobal dim co h
  | MTrans b sg dim nb gd ct h => MTrans b sg dim nb (shift c gd) ct h
  | MImp0 b sg nu co dim nb gd ct h => MImp0 b sg nu co dim nb (shift c gd) ct h
  | MOriented sg co tr dim nb gd0 gd1 c0 c1 h => MOriented sg co tr dim nb (shift c gd0) gd1 c0 c1 h
  | MLocal sg co fs fv dim nb gd ct h => MLocal sg co fs fv dim nb (shift c gd) ct h
  | MLinear A co gd ct h => MLinear A co (shift c gd) ct h
  | MSilent man => MSilent (moved c man)
  | MImp1 b sg nu co C dim nb gd0 gd1 c0 c1 h ca => MImp1 b sg nu co C dim nb (shift c gd0) gd1 c0 c1 h ca
  | MDivFree sg cd nu co dim n0 n1 gd ct h l => MDivFree sg cd nu co dim n0 n1 (shift c gd) ct h l
  | MArap sg ca nu co dim n0 n1 gd ct h l => MArap sg ca nu co dim n0 n1 (shift c gd) ct h l
  | MComp ms => MComp (map moved_mod ms)
  end.

Lemma mod_manifold_moved m : mod_manifold (moved_mod m) = moved c (mod_manifold m).
Proof.
  revert m. fix IH 1. intros m. destruct m; try reflexivity. cbn [moved_mod mod_manifold moved]. f_equal.
  induction ms as [|m ms IHm]; [reflexivity|]. cbn [map]. rewrite IH, IHm. reflexivity.
Qed.
Lemma controls_moved m : controls (moved_mod m) = controls m.
Proof.
  revert m. fix IH 1. intros m. destruct m; try reflexivity. cbn [moved_mod controls]. f_equal.
  induction ms as [|m ms IHm]; [reflexivity|]. cbn [map]. rewrite IH, IHm. reflexivity.
Qed.
Lemma set_manifold_moved m : set_manifold m (moved c (mod_manifold m)) = Ok (moved_mod m).
Proof.
  revert m. fix IH 1. intros m. destruct m; try reflexivity. cbn [mod_manifold moved set_manifold moved_mod].
  set (go := fix go (ms : list dmod) (gs : list gman) : res (list dmod) :=
                match ms, gs with
                | [], [] => Ok []
                | m :: ms', g :: gs' =>
                    m' <- set_manifold m g ;; r <- go ms' gs' ;; Ok (m' :: r)
                | _, _ => Err AssertionError
                end).
  assert (E : go ms (map (moved c) (map mod_manifold ms)) = Ok (map moved_mod ms)).
  { induction ms as [|m ms IHm]; [reflexivity|]. cbn [map]. unfold go; fold go. rewrite IH. cbn [bind]. rewrite IHm. reflexivity. }
  rewrite E. reflexivity.
Qed.

Lemma keops_cost_moved f gd h : keops_cost f (shift c gd) h = keops_cost f gd h.
Proof.
  unfold keops_cost. change (nrows (shift c gd)) with (nrows gd). apply rsum_ext. intros j _. apply rsum_ext. intros i _.
  rewrite rows_sub_shift. reflexivity.
Qed.
Lemma keops_kernel_moved f gd : keops_kernel f (shift c gd) = keops_kernel f gd.
Proof.
  unfold keops_kernel. change (nrows (shift c gd)) with (nrows gd). f_equal. extensionality i. extensionality j.
  rewrite rows_sub_shift. reflexivity.
Qed.

Lemma rows_from_shift lo n t : rows_from lo n (shift c t) = shift c (rows_from lo n t).
Proof.
  unfold rows_from, shift. cbn [shape get]. apply mkT_ext. intros idx. destruct idx as [|i [|a [|]]]; reflexivity.
Qed.
Lemma first_rows_shift n t : first_rows n (shift c t) = shift c (first_rows n t).
Proof. apply rows_from_shift. Qed.
Lemma last_rows_shift n t : last_rows n (shift c t) = shift c (last_rows n t).
Proof. unfold last_rows. rewrite rows_from_shift. reflexivity. Qed.

Lemma cost_moved m : follows d c m -> cost (moved_mod m) = cost m.
Proof.
  revert m. fix IH 1. intros m F. destruct m; try reflexivity; cbn [moved_mod cost].
  - f_equal. unfold trans_cost. destruct b; [rewrite K_xx_shift; reflexivity|apply keops_cost_moved].
  - f_equal. unfold imp0_cost. destruct b; [rewrite K_xx_shift; reflexivity|rewrite keops_cost_moved; reflexivity].
  - f_equal. unfold oriented_cost. rewrite K_xx_shift. reflexivity.
  - cbn [follows] in F. destruct (F gd) as [F1 F2]. rewrite F1, F2. destruct (f_support gd) as [s|e]; [|reflexivity].
    cbn [bind]. destruct (f_vectors gd) as [v|e]; [|reflexivity]. cbn [bind]. unfold local_norm. rewrite K_xx_shift. reflexivity.
  - cbn [follows] in F. induction ms as [|m ms IHm]; [reflexivity|]. destruct F as [F1 F2]. cbn.
    rewrite (IH m F1). rewrite IHm by exact F2. reflexivity.
Qed.

Lemma flatten_centre gd : shape gd = [1%nat; d] ->
  tflatten (shift c gd) = mkT (shape (tflatten gd)) (fun idx => get (tflatten gd) idx + c (nth 0 idx 0%nat)).
Proof.
  intros E. unfold tflatten, reshape. cbn [shape]. apply mkT_ext. intros idx. cbn [get]. 
  change (shape (shift c gd)) with (shape gd). rewrite E. cbn [prod fold_right unravel]. rewrite Nat.mul_1_r, !Nat.div_1_r.
  cbn [shift get]. f_equal. rewrite periodic. f_equal. destruct idx as [|a idx]; [reflexivity|]. cbn. lia.
Qed.

Lemma field_generator_moved m : follows d c m -> field_generator (moved_mod m) = (f <- field_generator m ;; Ok (moved_field f)).
Proof.
  revert m. fix IH 1. intros m F. destruct m; try reflexivity; cbn [moved_mod field_generator].
  - cbn [follows] in F. destruct (F gd) as [F1 F2]. rewrite F1, F2. destruct (f_support gd) as [s|e]; [|reflexivity].
    cbn [bind]. destruct (f_vectors gd) as [v|e]; reflexivity.
  - cbn [follows] in F. rewrite (flatten_centre gd F). reflexivity.
  - cbn [bind moved_field]. rewrite gdim_moved. reflexivity.
  - destruct cache; reflexivity.
  - destruct lam as [l|]; [|reflexivity]. unfold div_field. rewrite last_rows_shift, first_rows_shift.
    rewrite <- sum_ctor_moved. reflexivity.
  - destruct lam as [l|]; [|reflexivity]. unfold arap_field. rewrite last_rows_shift, first_rows_shift.
    destruct (eta dim) as [e|e]; [|reflexivity]. cbn [bind]. rewrite <- sum_ctor_moved. reflexivity.
  - cbn [follows] in F.
    set (h := fix go (ms : list dmod) : res (list sfield) :=
               match ms with
               | [] => Ok []
               | m :: ms' => f <- field_generator m ;; fs <- go ms' ;; Ok (f :: fs)
               end).
    assert (E : h (map moved_mod ms) = (fs <- h ms ;; Ok (map moved_field fs))).
    { induction ms as [|m ms IHm]; [reflexivity|]. destruct F as [F1 F2]. cbn [map]. unfold h; fold h.
      rewrite (IH m F1), (IHm F2).
      destruct (field_generator m) as [f|e]; [|reflexivity]. cbn [bind].
      destruct (h ms) as [fs|e]; reflexivity. }
    rewrite E. destruct (h ms) as [fs|e]; [|reflexivity]. cbn [bind]. apply sum_ctor_moved.
Qed.

Lemma velocity_moved m points k : follows d c m -> velocity (moved_mod m) (shift c points) k = velocity m points k.
Proof.
  intros F. unfold velocity. rewrite (field_generator_moved m F). destruct (field_generator m) as [f|e]; [|reflexivity].
  cbn [bind]. apply feval_moved.
Qed.

Lemma follows_ordinary m : follows d c m -> ordinary_man (mod_manifold m).
Proof.
  revert m. fix IH 1. intros m F. destruct m; try exact Logic.I; cbn [mod_manifold].
  - exact F.
  - cbn [follows ordinary_man] in *. induction ms as [|m ms IHm]; [exact Logic.I|]. destruct F as [F1 F2].
    split; [exact (IH m F1)|exact (IHm F2)].
Qed.

Lemma apply_mom_moved m : follows d c m -> apply_mom (moved_mod m) = apply_mom m.
Proof.
  intros F. unfold apply_mom. rewrite (field_generator_moved m F). destruct (field_generator m) as [f|e]; [|reflexivity].
  cbn [bind]. rewrite mod_manifold_moved. apply inner_prod_field_moved; [apply follows_ordinary; exact F|].
  intros points k. apply feval_moved.
Qed.
Lemma hamiltonian_moved m : follows d c m -> hamiltonian (moved_mod m) = hamiltonian m.
Proof. intros F. unfold hamiltonian. rewrite (apply_mom_moved m F), (cost_moved m F). reflexivity. Qed.

Lemma moved_same_scene m : follows d c m -> same_in_moved_scene c m (moved_mod m).
Proof.
  intros F. split; [apply mod_manifold_moved|]. split; [apply controls_moved|]. split; [apply cost_moved; exact F|].
  split; [apply hamiltonian_moved; exact F|]. intros points k. apply velocity_moved; exact F.
Qed.

(** ** Controls *)

Lemma imp1_sks_moved b sg nu dim nb e gd : imp1_sks b sg nu dim nb e (shift c gd) = imp1_sks b sg nu dim nb e gd.
Proof. unfold imp1_sks. destruct b; [rewrite compute_sks_shift|rewrite compute_sks_keops_shift]; reflexivity. Qed.
Lemma imp1_moments_moved sv b sg nu C dim nb gd0 gd1 h :
  imp1_moments sv b sg nu C dim nb (shift c gd0) gd1 h = imp1_moments sv b sg nu C dim nb gd0 gd1 h.
Proof.
  unfold imp1_moments. destruct (eta dim) as [e|e]; [|reflexivity]. cbn [bind]. rewrite imp1_sks_moved. reflexivity.
Qed.
Lemma div_sks_moved sg cd nu dim n0 gd : div_sks sg cd nu dim n0 (shift c gd) = div_sks sg cd nu dim n0 gd.
Proof.
  unfold div_sks. rewrite first_rows_shift, last_rows_shift, !rel_differences_shift, K_xx_shift. reflexivity.
Qed.
Lemma arap_sks_moved sg ca nu dim n0 n1 gd : arap_sks sg ca nu dim n0 n1 (shift c gd) = arap_sks sg ca nu dim n0 n1 gd.
Proof.
  unfold arap_sks. rewrite first_rows_shift, last_rows_shift, rel_differences_shift, K_xx_shift.
  change (nrows (shift c (first_rows n0 gd))) with (nrows (first_rows n0 gd)).
  change (nrows (shift c (last_rows n0 gd))) with (nrows (last_rows n0 gd)).
  destruct (eta dim) as [e|e]; cbn [bind]; [|exact eq_refl]. rewrite compute_sks_shift. exact eq_refl.
Qed.

Lemma fill_controls_moved sv m x : fill_controls sv (moved_mod m) x = (m' <- fill_controls sv m x ;; Ok (moved_mod m')).
Proof.
  revert m x. fix IH 1. intros m x. destruct m, x; try reflexivity; cbn [moved_mod fill_controls].
  - destruct (shape t); reflexivity.
  - rewrite imp1_moments_moved. destruct (imp1_moments _ _ _ _ _ _ _ _ _ _); reflexivity.
  - unfold div_moments. rewrite div_sks_moved. destruct (div_sks _ _ _ _ _ _); [|reflexivity]. cbn [bind]. destruct (sv _ _); reflexivity.
  - unfold arap_moments. rewrite arap_sks_moved. destruct (arap_sks _ _ _ _ _ _ _); [|reflexivity]. cbn [bind]. destruct (sv _ _); reflexivity.
  - rewrite map_length. destruct (py_assert _); [|reflexivity]. cbn [bind].
    set (go := fix go (ms : list dmod) (cs : list ctrl) : res (list dmod) :=
                match ms, cs with
                | m :: ms', c :: cs' =>
                    m' <- fill_controls sv m c ;; r <- go ms' cs' ;; Ok (m' :: r)
                | _, _ => Ok []
                end).
    assert (E : forall cs, go (map moved_mod ms) cs = (r <- go ms cs ;; Ok (map moved_mod r))).
    { induction ms as [|m ms IHm]; [reflexivity|]. intros [|y cs]; [reflexivity|]. cbn [map]. unfold go; fold go.
      rewrite IH, IHm. destruct (fill_controls sv m y); [|reflexivity]. cbn [bind]. destruct (go ms cs); reflexivity. }
    rewrite E. destruct (go ms _); reflexivity.
Qed.

Lemma mapM_ext {A B} (f g : A -> res B) l : (forall a, f a = g a) -> mapM f l = mapM g l.
Proof. intros H. induction l as [|a l IHl]; [reflexivity|]. cbn. rewrite H, IHl. reflexivity. Qed.

Lemma inner_moved g f : ordinary_man g -> inner_prod_field (moved c g) (feval (moved_field f)) = inner_prod_field g (feval f).
Proof. intros O. apply inner_prod_field_moved; [exact O|]. intros points k. apply feval_moved. Qed.

Lemma global_geodesic_moved dim co h g : ordinary_man g -> global_geodesic dim co h (moved c g) = global_geodesic dim co h g.
Proof.
  intros O. unfold global_geodesic.
  rewrite (mapM_ext _ (fun i => inner_prod_field g (feval (SF_const (basis_vec (tnth (shape h) 0) i))))); [reflexivity|].
  intros i. apply (inner_moved g (SF_const _) O).
Qed.

Lemma geodesic_moved sv b0 g m : ordinary_man g -> follows d c m ->
  compute_geodesic_control sv b0 (moved_mod m) (moved c g)
  = (m' <- compute_geodesic_control sv b0 m g ;; Ok (moved_mod m')).
Proof.
  intros O. revert m. fix IH 1. intros m F. destruct m; cbn [moved_mod compute_geodesic_control].
  - rewrite global_geodesic_moved by exact O. destruct (global_geodesic _ _ _ _); reflexivity.
  - rewrite cot_to_vs_moved. destruct (cot_to_vs _ _ _ _) as [vs|e]; [|reflexivity]. cbn [bind]. rewrite feval_moved.
    destruct (feval vs gd 0) as [v|e]; [|reflexivity]. cbn [bind].
    replace (trans_geodesic sv b sigma (shift c gd) v) with (trans_geodesic sv b sigma gd v)
      by (unfold trans_geodesic; rewrite K_xx_shift, keops_kernel_moved; reflexivity).
    destruct (trans_geodesic _ _ _ _ _); reflexivity.
  - rewrite cot_to_vs_moved. destruct (cot_to_vs _ _ _ _) as [vs|e]; [|reflexivity]. cbn [bind]. rewrite feval_moved.
    destruct (feval vs gd 0) as [v|e]; [|reflexivity]. cbn [bind].
    replace (imp0_geodesic sv b sigma nu coeff nb dim (shift c gd) v) with (imp0_geodesic sv b sigma nu coeff nb dim gd v)
      by (unfold imp0_geodesic; rewrite K_xx_shift, keops_kernel_moved; reflexivity).
    destruct (imp0_geodesic _ _ _ _ _ _ _ _ _); reflexivity.
  - rewrite cot_to_vs_moved. destruct (cot_to_vs _ _ _ _) as [vs|e]; [|reflexivity]. cbn [bind]. rewrite feval_moved.
    destruct (feval vs gd0 0) as [v|e]; [|reflexivity]. cbn [bind].
    replace (oriented_geodesic sv sigma coeff (shift c gd0) gd1 v) with (oriented_geodesic sv sigma coeff gd0 gd1 v)
      by (unfold oriented_geodesic; rewrite K_xx_shift; reflexivity).
    destruct (oriented_geodesic _ _ _ _ _ _); reflexivity.
  - cbn [follows] in F. destruct (F gd) as [F1 F2]. rewrite F1, F2. destruct (f_support gd) as [s|e]; [|reflexivity].
    cbn [bind]. destruct (f_vectors gd) as [v|e]; [|reflexivity]. cbn [bind].
    pose proof (inner_moved g (SF_0 Torch s v sigma) O) as E. cbn [moved_field] in E.
    unfold local_norm. rewrite K_xx_shift.
    destruct (inner_prod_field (moved c g) _); rewrite <- E; [|reflexivity]. cbn [bind]. destruct (tdiv _ _); reflexivity.
  - cbn [follows] in F. rewrite (flatten_centre gd F).
    pose proof (inner_moved g (SF_affine A (tflatten gd) (tzeros [prod (shape gd)])) O) as E. cbn [moved_field] in E.
    change (shape (shift c gd)) with (shape gd). destruct (inner_prod_field (moved c g) _); rewrite <- E; reflexivity.
  - reflexivity.
  - rewrite cot_to_vs_moved. destruct (cot_to_vs _ _ _ _) as [vs|e]; [|reflexivity]. cbn [bind].
    replace (imp1_geodesic sv b sigma nu coeff C dim nb (shift c gd0) gd1 (moved_field vs))
      with (imp1_geodesic sv b sigma nu coeff C dim nb gd0 gd1 vs).
    2:{ unfold imp1_geodesic. destruct (eta dim) as [e|e]; [|reflexivity]. cbn [bind]. rewrite feval_moved, imp1_sks_moved. reflexivity. }
    destruct (imp1_geodesic _ _ _ _ _ _ _ _ _ _ _) as [h'|e]; [|reflexivity]. cbn [bind].
    apply (fill_controls_moved sv (MImp1 b sigma nu coeff C dim nb gd0 gd1 cotan0 cotan1 h cache) (CLeaf h')).
  - rewrite cot_to_vs_moved. destruct (cot_to_vs _ _ _ _) as [vs|e]; [|reflexivity]. cbn [bind].
    replace (div_geodesic sv sigma cdiv nu coeff dim n0 (shift c gd) (moved_field vs))
      with (div_geodesic sv sigma cdiv nu coeff dim n0 gd vs)
      by (unfold div_geodesic; rewrite div_sks_moved, first_rows_shift, last_rows_shift, !feval_moved; reflexivity).
    destruct (div_geodesic _ _ _ _ _ _ _ _ _) as [h'|e]; [|reflexivity]. cbn [bind].
    apply (fill_controls_moved sv (MDivFree sigma cdiv nu coeff dim n0 n1 gd cotan h lam) (CLeaf h')).
  - rewrite cot_to_vs_moved. destruct (cot_to_vs _ _ _ _) as [vs|e]; [|reflexivity]. cbn [bind].
    replace (arap_geodesic sv sigma carap nu coeff dim n0 n1 (shift c gd) (moved_field vs))
      with (arap_geodesic sv sigma carap nu coeff dim n0 n1 gd vs)
      by (unfold arap_geodesic; rewrite arap_sks_moved, first_rows_shift, last_rows_shift, !feval_moved; reflexivity).
    destruct (arap_geodesic _ _ _ _ _ _ _ _ _ _) as [h'|e]; [|reflexivity]. cbn [bind].
    apply (fill_controls_moved sv (MArap sigma carap nu coeff dim n0 n1 gd cotan h lam) (CLeaf h')).
  - cbn [follows] in F.
    set (go := fix go (ms : list dmod) : res (list dmod) :=
                match ms with
                | [] => Ok []
                | m :: ms' =>
                    m' <- compute_geodesic_control sv b0 m g ;; r <- go ms' ;; Ok (m' :: r)
                end).
    set (go' := fix go (ms : list dmod) : res (list dmod) :=
                match ms with
                | [] => Ok []
                | m :: ms' =>
                    m' <- compute_geodesic_control sv b0 m (moved c g) ;; r <- go ms' ;; Ok (m' :: r)
                end).
    assert (E : go' (map moved_mod ms) = (r <- go ms ;; Ok (map moved_mod r))).
    { induction ms as [|m ms IHm]; [reflexivity|]. destruct F as [F1 F2]. cbn [map]. unfold go', go; fold go' go.
      rewrite (IH m F1), (IHm F2). destruct (compute_geodesic_control sv b0 m g); [|reflexivity]. cbn [bind].
      destruct (go ms); reflexivity. }
    rewrite E. destruct (go ms); reflexivity.
Qed.

(** ** Modules keep following the translation *)

Lemma follows_fill sv m x m1 : follows d c m -> fill_controls sv m x = Ok m1 -> follows d c m1.
Proof.
  revert m x m1. fix IH 1. intros m x m1 F H. destruct m, x; cbn [fill_controls] in H; try discriminate H;
    try (injection H as <-; exact F).
  - destruct (shape t); [injection H as <-; exact F|discriminate H].
  - destruct (imp1_moments _ _ _ _ _ _ _ _ _ _); [injection H as <-; exact F|discriminate H].
  - destruct (div_moments _ _ _ _ _ _ _ _); [injection H as <-; exact F|discriminate H].
  - destruct (arap_moments _ _ _ _ _ _ _ _ _); [injection H as <-; exact F|discriminate H].
  - destruct (py_assert _); [cbn [bind] in H|discriminate H].
    set (go := fix go (ms : list dmod) (cs : list ctrl) : res (list dmod) :=
                match ms, cs with
                | m :: ms', c :: cs' =>
                    m' <- fill_controls sv m c ;; r <- go ms' cs' ;; Ok (m' :: r)
                | _, _ => Ok []
                end) in H.
    assert (G : forall cs r, go ms cs = Ok r -> follows d c (MComp r)).
    { cbn [follows] in *. clear H. induction ms as [|m ms IHm]; intros cs r H; [injection H as <-; exact Logic.I|].
      destruct cs as [|x cs]; [injection H as <-; exact Logic.I|]. destruct F as [F1 F2].
      unfold go in H; fold go in H. destruct (fill_controls sv m x) as [m'|] eqn:E; [|discriminate H]. cbn [bind] in H.
      destruct (go ms cs) as [r'|] eqn:Er; [|discriminate H]. injection H as <-. cbn [fold_right].
      split; [exact (IH m x m' F1 E)|exact (IHm F2 cs r' Er)]. }
    destruct (go ms l) as [r|] eqn:E; [|discriminate H]. injection H as <-. exact (G l r E).
Qed.

Lemma follows_geodesic sv b0 g m m1 : follows d c m -> compute_geodesic_control sv b0 m g = Ok m1 -> follows d c m1.
Proof.
  revert m m1. fix IH 1. intros m m1 F H. destruct m; cbn [compute_geodesic_control] in H.
  - destruct (global_geodesic _ _ _ _); [injection H as <-; exact F|discriminate H].
  - repeat match type of H with bind ?x _ = _ => destruct x; [cbn [bind] in H|discriminate H] end. injection H as <-. exact F.
  - repeat match type of H with bind ?x _ = _ => destruct x; [cbn [bind] in H|discriminate H] end. injection H as <-. exact F.
  - repeat match type of H with bind ?x _ = _ => destruct x; [cbn [bind] in H|discriminate H] end. injection H as <-. exact F.
  - repeat match type of H with bind ?x _ = _ => destruct x; [cbn [bind] in H|discriminate H] end. injection H as <-. exact F.
  - repeat match type of H with bind ?x _ = _ => destruct x; [cbn [bind] in H|discriminate H] end. injection H as <-. exact F.
  - injection H as <-. exact F.
  - destruct (cot_to_vs _ _ _ _); [cbn [bind] in H|discriminate H]. destruct (imp1_geodesic _ _ _ _ _ _ _ _ _ _ _); [cbn [bind] in H|discriminate H].
    exact (follows_fill _ _ _ _ F H).
  - destruct (cot_to_vs _ _ _ _); [cbn [bind] in H|discriminate H]. destruct (div_geodesic _ _ _ _ _ _ _ _ _); [cbn [bind] in H|discriminate H].
    exact (follows_fill _ _ _ _ F H).
  - destruct (cot_to_vs _ _ _ _); [cbn [bind] in H|discriminate H]. destruct (arap_geodesic _ _ _ _ _ _ _ _ _ _); [cbn [bind] in H|discriminate H].
    exact (follows_fill _ _ _ _ F H).
  - set (go := fix go (ms : list dmod) : res (list dmod) :=
                match ms with
                | [] => Ok []
                | m :: ms' =>
                    m' <- compute_geodesic_control sv b0 m g ;; r <- go ms' ;; Ok (m' :: r)
                end) in H.
    assert (G : forall r, go ms = Ok r -> follows d c (MComp r)).
    { cbn [follows] in *. clear H. induction ms as [|m ms IHm]; intros r H; [injection H as <-; exact Logic.I|].
      destruct F as [F1 F2].
      unfold go in H; fold go in H. destruct (compute_geodesic_control sv b0 m g) as [m'|] eqn:E; [|discriminate H]. cbn [bind] in H.
      destruct (go ms) as [r'|] eqn:Er; [|discriminate H]. injection H as <-. cbn [fold_right].
      split; [exact (IH m m' F1 E)|exact (IHm F2 r' eq_refl)]. }
    destruct (go ms) as [r|] eqn:E; [|discriminate H]. injection H as <-. exact (G r eq_refl).
Qed.

(** ** LocalScaling and LocalRotation *)

Lemma mk2_shift n k f h : (forall i a, h i a = f i a + c a) -> mk2 n k h = shift c (mk2 n k f).
Proof.
  intros H. unfold mk2, shift. cbn [shape get]. apply mkT_ext. intros idx. destruct idx as [|i [|a [|]]]; try reflexivity. apply H.
Qed.

Lemma circle_support_shift sigma gd : circle_support sigma (shift c gd) = (s <- circle_support sigma gd ;; Ok (shift c s)).
Proof.
  unfold circle_support. change (shape (shift c gd)) with (shape gd).
  destruct (shape gd) as [|[|[|]] [|[|[|[|]]] [|]]]; try reflexivity.
  cbn [bind]. f_equal. apply mk2_shift. intros i a. rewrite get_shift. ring.
Qed.
Lemma rot3_support_shift sigma gd : rot3_support sigma (shift c gd) = (s <- rot3_support sigma gd ;; Ok (shift c s)).
Proof.
  unfold rot3_support. change (shape (shift c gd)) with (shape gd).
  destruct (shape gd) as [|[|[|[|]]] [|[|[|[|[|]]]] [|]]]; try reflexivity.
  cbn [bind]. f_equal. apply mk2_shift. intros i a. rewrite get_shift. ring.
Qed.
Lemma rot3_vectors_shift gd : rot3_vectors (shift c gd) = rot3_vectors gd.
Proof.
  unfold rot3_vectors. change (shape (shift c gd)) with (shape gd).
  destruct (shape gd) as [|[|[|[|]]] [|[|[|[|[|]]]] [|]]]; try reflexivity.
  f_equal. f_equal. extensionality i. extensionality a. rewrite !get_shift. destruct a as [|[|]]; ring.
Qed.

Lemma scaling_follows dim sigma coeff gd ct : follows d c (LocalScaling dim sigma coeff gd ct).
Proof. intros x. split; [apply circle_support_shift|reflexivity]. Qed.
Lemma rotation_follows dim sigma coeff gd ct : follows d c (LocalRotation dim sigma coeff gd ct).
Proof.
  unfold LocalRotation. destruct (Nat.eqb dim 3); intros x.
  - split; [apply rot3_support_shift|apply rot3_vectors_shift].
  - split; [apply circle_support_shift|reflexivity].
Qed.
End Shift.

Lemma vec_periodic d v a : vec d v (a mod d)%nat = vec d v a.
Proof. unfold vec. destruct d as [|d]; [cbn; destruct a; reflexivity|]. rewrite Nat.mod_mod by lia. reflexivity. Qed.
