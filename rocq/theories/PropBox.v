(** Properties of axis-aligned boxes: C45 (validity and representations), C46 (sampling),
    C47 (scale and squared). *)
From Coq Require Import Reals String List Arith ZArith Lia Lra Bool.
From Verif Require Import Py RSum Tensor TensorFacts KernelModel FieldModel Fl UtilModel AabbModel SpecBox AttachmentFacts MeshAreas AabbFacts.
Import ListNotations.
Open Scope R_scope.
Open Scope list_scope.

(** ** C45 *)

(** Whatever the arguments, a constructed box is valid. *)
Theorem C45_constructed_box_valid : forall args kw b, init rgt args kw = Ok b -> valid_box b.
Proof. intros args kw b H. apply valid_wf. exact (init_valid rgt args kw b H). Qed.
Print Assumptions C45_constructed_box_valid.

(** The bounds given are those of the box; out of order, ValueError: two lists, or a flat
    list xmin, xmax, ymin, ... *)
Definition box_of (l m : list R) : box := mkAABB (length l) l m.
Fixpoint flat (l m : list R) : list R := match l, m with a :: l', b :: m' => a :: b :: flat l' m' | _, _ => [] end.
Lemma box_of_valid l m : length l = length m -> (valid_box (box_of l m) <-> ordered rgt l m).
Proof. intros E. rewrite valid_wf. unfold wf, box_of. cbn. intuition. Qed.
Theorem C45_bounds_in_order_or_value_error : forall l m kw, length l = length m ->
  (valid_box (box_of l m) -> init rgt [Iter l; Iter m] kw = Ok (box_of l m) /\ (l <> [] -> init rgt (map Num (flat l m)) kw = Ok (box_of l m))) /\
  (~ valid_box (box_of l m) -> init rgt [Iter l; Iter m] kw = Err ValueError /\ init rgt (map Num (flat l m)) kw = Err ValueError).
Proof.
  intros l m kw E. rewrite box_of_valid by exact E. pose proof (from_two_spec rgt l m E) as T. pose proof (from_iterable_spec rgt l m E) as F.
  assert (I : l <> [] -> init rgt (map Num (flat l m)) kw = from_iterable rgt (map Num (interleave l m))).
  { destruct l as [|a l]; destruct m as [|c m]; try discriminate; [congruence|]. intros _. destruct l; destruct m; try discriminate; reflexivity. }
  change (init rgt [Iter l; Iter m] kw) with (from_two rgt l m). split; intros O.
  - destruct T as [(_ & ->)|(N & _)]; [|contradiction]. split; [reflexivity|]. intros NE. rewrite I by exact NE. destruct F as [(_ & ->)|(N & _)]; [reflexivity|contradiction].
  - destruct T as [(O' & _)|(_ & ->)]; [contradiction|]. split; [reflexivity|]. rewrite I; [|intros ->; apply O; intros c d L; cbn in L; lia].
    destruct F as [(O' & _)|(_ & ->)]; [contradiction|reflexivity].
Qed.
Print Assumptions C45_bounds_in_order_or_value_error.

(** Named bounds: a missing axis ends the box, bounds out of order raise. *)
Theorem C45_named_bounds : forall x0 x1 y0 y1 z0 z1 : R,
  x0 <= x1 -> y0 <= y1 -> z0 <= z1 ->
  init rgt [] [("zmax", z1); ("xmin", x0); ("ymax", y1); ("zmin", z0); ("ymin", y0); ("xmax", x1)]%string = Ok (box_of [x0; y0; z0] [x1; y1; z1]) /\
  init rgt [] [("ymax", y1); ("xmin", x0); ("ymin", y0); ("xmax", x1)]%string = Ok (box_of [x0; y0] [x1; y1]) /\
  init rgt [] [("xmin", x0); ("ymin", y0); ("xmax", x1)]%string = Ok (box_of [x0] [x1]).
Proof.
  intros x0 x1 y0 y1 z0 z1 Hx Hy Hz. apply rgt_false in Hx, Hy, Hz. unfold init, from_kwargs. cbn. rewrite Hx, Hy, Hz. repeat split.
Qed.
Print Assumptions C45_named_bounds.
Theorem C45_named_bounds_out_of_order : forall x0 x1 y0 y1 kw, (y1 < y0 \/ x1 < x0) ->
  init rgt [] (("xmin", x0) :: ("xmax", x1) :: ("ymin", y0) :: ("ymax", y1) :: kw)%string = Err ValueError.
Proof.
  intros x0 x1 y0 y1 kw H. unfold init, from_kwargs. cbn. destruct (rgt x0 x1) eqn:G; [reflexivity|]. apply rgt_false in G. destruct H as [H|H]; [|lra].
  replace (rgt y0 y1) with true by (symmetry; apply Rltb_true; exact H). reflexivity.
Qed.
Print Assumptions C45_named_bounds_out_of_order.

(** Other errors: no argument, one iterable, lists of different lengths. *)
Theorem C45_wrong_arguments :
  init rgt [] [] = Err AssertionError /\
  (forall l kw, init rgt [Iter l] kw = Err AssertionError) /\
  (forall l m kw, length l <> length m -> init rgt [Iter l; Iter m] kw = Err AssertionError) /\
  (forall l kw, Nat.odd (length l) = true -> init rgt (map Num l) kw = Err AssertionError).
Proof.
  split; [reflexivity|]. split; [reflexivity|]. split.
  - intros l m kw N. change (init rgt [Iter l; Iter m] kw) with (from_two rgt l m). unfold from_two. destruct (Nat.eqb_spec (length l) (length m)); [contradiction|reflexivity].
  - intros l kw O. destruct l as [|a l]; [discriminate|]. change (init rgt (map Num (a :: l)) kw) with (from_iterable rgt (map Num (a :: l))). unfold from_iterable. rewrite map_length.
    replace (Nat.eqb (length (a :: l) mod 2) 0) with false; [reflexivity|]. symmetry. apply Nat.eqb_neq. apply Nat.odd_spec in O. destruct O as (k & ->). rewrite Nat.add_comm, Nat.mul_comm, Nat.mod_add by lia. discriminate.
Qed.
Print Assumptions C45_wrong_arguments.

(** Round trips through totuple, (kmin, kmax) and todict. *)
Theorem C45_representations : forall b, valid_box b -> (0 < a_dim b)%nat ->
  init rgt (map Num (totuple b)) [] = Ok b /\
  init rgt [Iter (a_kmin b); Iter (a_kmax b)] [] = Ok b /\
  ((a_dim b <= 3)%nat -> init rgt [] (todict b) = Ok b).
Proof.
  intros b V P. apply valid_wf in V. destruct V as ((H1 & H2) & O). destruct b as [d l m]. cbn [a_dim a_kmin a_kmax] in *. subst d.
  destruct (C45_bounds_in_order_or_value_error l m [] ltac:(congruence)) as (G & _). destruct G as (G1 & G2); [apply box_of_valid; [congruence|exact O]|].
  rewrite totuple_interleave. cbn [a_kmin a_kmax]. split; [apply G2; intros ->; cbn in P; lia|]. split; [exact G1|].
  intros L3. assert (W : wf (mkAABB (length l) l m)) by (split; [reflexivity|exact H2]).
  unfold init. destruct (todict _) as [|kv kw] eqn:E; [destruct l; [cbn in P; lia|discriminate E]|]. cbn [py_assert bind]. rewrite <- E, from_todict by (assumption || exact O). cbn [a_dim a_kmin a_kmax].
  rewrite !firstn_all2 by lia. rewrite Nat.min_r by exact L3. reflexivity.
Qed.
Print Assumptions C45_representations.

(** [todict] forgets the axes after the third. *)
Theorem C45_dict_keeps_three_axes : forall b, valid_box b -> (3 < a_dim b)%nat ->
  init rgt [] (todict b) = Ok (box_of (firstn 3 (a_kmin b)) (firstn 3 (a_kmax b))).
Proof.
  intros b V P. apply valid_wf in V. destruct V as ((H1 & H2) & O). unfold init. destruct (todict b) as [|kv kw] eqn:E; [destruct b as [d [|? ?] m]; cbn in *; [lia|discriminate]|].
  cbn [py_assert bind]. rewrite <- E, from_todict by (split || exact O; assumption). unfold box_of. rewrite firstn_length, H1. reflexivity.
Qed.
Print Assumptions C45_dict_keeps_three_axes.

(** Finding: the couples of [tocouple] are read as (mins, maxs). *)
Definition couples (b : box) : list (arg R) := map (fun c => Iter [fst c; snd c]) (tocouple b).
Theorem C45_couples_are_misread : forall x0 x1 y0 y1,
  init rgt (couples (box_of [x0; y0] [x1; y1])) [] = (if (Rleb x0 y0 && Rleb x1 y1)%bool then Ok (box_of [x0; x1] [y0; y1]) else Err ValueError) /\
  init rgt (couples (box_of [x0] [x1])) [] = Err AssertionError.
Proof.
  intros x0 x1 y0 y1. split; [|reflexivity]. unfold couples, tocouple, init, from_two. cbn. unfold rgt.
  destruct (Rltb y0 x0) eqn:G0; destruct (Rltb y1 x1) eqn:G1; destruct (Rleb x0 y0) eqn:F0; destruct (Rleb x1 y1) eqn:F1; try reflexivity;
    rewrite ?Rltb_true, ?Rltb_false in *; rewrite ?Rleb_true, ?Rleb_false in *; exfalso; lra.
Qed.
Print Assumptions C45_couples_are_misread.
Theorem C45_couples_refuted : exists b b', valid_box b /\ a_dim b = 2%nat /\ init rgt (couples b) [] = Ok b' /\ b' <> b.
Proof.
  exists (box_of [0; 2] [1; 5]), (box_of [0; 1] [2; 5]). split.
  { split; [split; reflexivity|]. intros [|[|c]] L; cbn in *; try lia; unfold lo, hi; cbn; lra. }
  split; [reflexivity|]. split.
  - rewrite (proj1 (C45_couples_are_misread 0 1 2 5)). replace (Rleb 0 2) with true by (symmetry; apply Rleb_true; lra). replace (Rleb 1 5) with true by (symmetry; apply Rleb_true; lra). reflexivity.
  - intros H. injection H as H1 H2. lra.
Qed.
Print Assumptions C45_couples_refuted.

(** Finding: NaN bounds are accepted. *)
Theorem C45_nan_bounds_refuted : exists b, init fgt [Num NaN; Num (Fin 0)] [] = Ok b /\ a_kmin b = [NaN].
Proof. eexists. split; reflexivity. Qed.
Print Assumptions C45_nan_bounds_refuted.
Theorem C45_fl_bounds : forall args kw b c, init fgt args kw = Ok b -> (c < a_dim b)%nat -> flt (nth c (a_kmax b) NaN) (nth c (a_kmin b) NaN) = false.
Proof. intros args kw b c H L. destruct (init_valid fgt args kw b H) as ((H1 & H2) & O). apply O; lia. Qed.
Print Assumptions C45_fl_bounds.

(** The box of a set of points is the smallest one. *)
Theorem C45_box_of_points : forall p, (0 < nrows p)%nat ->
  exists b, build_from_points p = Ok b /\ valid_box b /\ a_dim b = ncols p /\ rows_in b p /\
  forall b', a_dim b' = ncols p -> rows_in b' p -> contains b' b.
Proof.
  intros p P. unfold build_from_points. replace (Nat.eqb (nrows p) 0) with false by (symmetry; apply Nat.eqb_neq; lia).
  set (l := map (fun c => list_min (column p c)) _). set (m := map (fun c => list_max (column p c)) _).
  assert (NE : forall c, column p c <> []) by (intros c; unfold column; destruct (nrows p); [lia|discriminate]).
  assert (Ll : length l = ncols p) by (unfold l; rewrite map_length, seq_length; reflexivity). assert (Lm : length m = ncols p) by (unfold m; rewrite map_length, seq_length; reflexivity).
  assert (Nl : forall c, (c < ncols p)%nat -> nth c l 0 = list_min (column p c)) by (intros c L; apply (nth_map_seq (fun c => list_min (column p c)) _ _ _ L)).
  assert (Nm : forall c, (c < ncols p)%nat -> nth c m 0 = list_max (column p c)) by (intros c L; apply (nth_map_seq (fun c => list_max (column p c)) _ _ _ L)).
  assert (V : valid_box (box_of l m)).
  { split; [split; [reflexivity|cbn; congruence]|]. intros c L. cbn in L. rewrite Ll in L. unfold lo, hi. cbn [box_of a_kmin a_kmax]. rewrite Nl, Nm by exact L.
    destruct (list_min_spec _ (NE c)) as (I & _). apply list_max_spec; [apply NE|exact I]. }
  exists (box_of l m). split; [apply (proj1 (C45_bounds_in_order_or_value_error l m [] ltac:(congruence))); exact V|]. split; [exact V|]. split; [exact Ll|]. split.
  - intros i Li c L. cbn in L. rewrite Ll in L. unfold lo, hi. cbn [box_of a_kmin a_kmax]. rewrite Nl, Nm by exact L.
    assert (I : In (p @2 i c) (column p c)) by (apply in_column; exists i; auto). split; [apply list_min_spec|apply list_max_spec]; auto.
  - intros b' D R. split; [cbn; congruence|]. intros c L. rewrite D in L. unfold lo at 2, hi at 1. cbn [box_of a_kmin a_kmax]. rewrite Nl, Nm by exact L. split.
    + destruct (list_min_spec _ (NE c)) as (I & _). apply in_column in I. destruct I as (i & Li & ->). apply R; [exact Li|lia].
    + destruct (list_max_spec _ (NE c)) as (I & _). apply in_column in I. destruct I as (i & Li & ->). apply R; [exact Li|lia].
Qed.
Print Assumptions C45_box_of_points.
Theorem C45_box_of_no_points : forall p, nrows p = 0%nat -> build_from_points p = Err IndexError.
Proof. intros p E. unfold build_from_points. rewrite E. reflexivity. Qed.
Print Assumptions C45_box_of_no_points.

Definition sample_box : box := box_of [0; 2] [1; 5].
Lemma sample_box_valid : valid_box sample_box.
Proof. split; [split; reflexivity|]. intros [|[|c]] L; cbn in *; try lia; unfold lo, hi; cbn; lra. Qed.
Example C45_box_case : valid_box sample_box /\ (0 < a_dim sample_box <= 3)%nat /\ totuple sample_box = [0; 1; 2; 5].
Proof. split; [exact sample_box_valid|]. split; [cbn; lia|reflexivity]. Qed.
Example C45_points_case : build_from_points (of_rows 3 2 [[1; 5]; [0; 2]; [1; 3]]) = Ok sample_box.
Proof.
  destruct (C45_box_of_points (of_rows 3 2 [[1; 5]; [0; 2]; [1; 3]]) ltac:(cbn; lia)) as (b & -> & V & D & R & M). f_equal. cbn in D.
  assert (HS : contains sample_box b). { apply M; [reflexivity|]. intros i Li c L. cbn in Li, L. unfold lo, hi. destruct i as [|[|[|i]]]; try lia; destruct c as [|[|c]]; try lia; cbn; lra. }
  destruct b as [d [|a [|a' [|? ?]]] [|c [|c' [|? ?]]]]; destruct V as ((V1 & V2) & _); cbn in *; try lia. subst d. destruct HS as (_ & HS). pose proof (HS 0%nat ltac:(cbn; lia)) as S0. pose proof (HS 1%nat ltac:(cbn; lia)) as S1.
  pose proof (R 0%nat ltac:(cbn; lia)) as R0. pose proof (R 1%nat ltac:(cbn; lia)) as R1. pose proof (R0 0%nat ltac:(cbn; lia)). pose proof (R0 1%nat ltac:(cbn; lia)). pose proof (R1 0%nat ltac:(cbn; lia)). pose proof (R1 1%nat ltac:(cbn; lia)).
  unfold lo, hi, sample_box, box_of in *. cbn in *. repeat f_equal; lra.
Qed.

(** ** C46 *)

(** is_inside marks exactly the points of the box. *)
Theorem C46_is_inside : forall b p, (0 < a_dim b)%nat ->
  exists mask, is_inside b p = Ok mask /\ length mask = nrows p /\
  forall i, (i < nrows p)%nat -> (nth i mask false = true <-> in_box b (fun c => p @2 i c)).
Proof.
  intros b p P. unfold is_inside. cbv zeta. set (w := fun (c i : nat) => if (Rleb (nth c (a_kmin b) 0) (p @2 i c) && Rleb (p @2 i c) (nth c (a_kmax b) 0))%bool then 1 else 0). destruct (map w (seq 0 (a_dim b))) as [|f l] eqn:E; [destruct (a_dim b); [lia|discriminate E]|].
  eexists. split; [reflexivity|]. split; [rewrite map_length, seq_length; reflexivity|]. intros i L. rewrite nth_map_seq by exact L. rewrite Bool.negb_true_iff, Reqb_false.
  assert (W : forall g, In g (f :: l) <-> exists c, (c < a_dim b)%nat /\ g = w c).
  { intros g. rewrite <- E, in_map_iff. split; [intros (c & <- & I); apply in_seq in I; exists c; split; [lia|reflexivity]|]. intros (c & Lc & ->). exists c. split; [reflexivity|apply in_seq; lia]. }
  assert (Z : forall g, In g (f :: l) -> g i = 0 \/ g i = 1). { intros g I. apply W in I. destruct I as (c & _ & ->). unfold w. destruct (Rleb _ _ && Rleb _ _)%bool; auto. }
  rewrite accumulate_spec; [|intros g I; apply Z; right; exact I|apply Z; left; reflexivity].
  transitivity (forall g, In g (f :: l) -> g i <> 0); [split; [intros (A & B) g [<-|I]; auto|intros A; split; [apply A; left; reflexivity|intros g I; apply A; right; exact I]]|].
  split.
  - intros A c Lc. specialize (A (w c) ltac:(apply W; exists c; auto)). unfold w in A. destruct (Rleb (nth c (a_kmin b) 0) _ && _)%bool eqn:B; [|lra].
    apply andb_prop in B. rewrite !Rleb_true in B. exact B.
  - intros A g I. apply W in I. destruct I as (c & Lc & ->). unfold w. destruct (A c Lc) as (A1 & A2). unfold lo, hi in *. apply Rleb_true in A1, A2. rewrite A1, A2. cbn. lra.
Qed.
Print Assumptions C46_is_inside.
Theorem C46_is_inside_without_axes : forall b p, a_dim b = 0%nat -> is_inside b p = Err IndexError.
Proof. intros b p E. unfold is_inside. rewrite E. reflexivity. Qed.
Print Assumptions C46_is_inside_without_axes.

(** Random points. *)
Theorem C46_random_points_in_box : forall b N rand, valid_box b -> (forall i c, 0 <= rand i c <= 1) ->
  shape (fill_random b N rand) = [N; a_dim b] /\ rows_in b (fill_random b N rand).
Proof.
  intros b N rand (_ & V) H. split; [reflexivity|]. intros i Li c Lc. cbn. rewrite lo_lengths by exact Lc. specialize (V c Lc). specialize (H i c). fold (lo b c). unfold side. nra.
Qed.
Print Assumptions C46_random_points_in_box.
Theorem C46_random_density : forall b density rand, valid_box b -> 0 <= density -> (forall i c, 0 <= rand i c <= 1) ->
  exists N p, fill_random_density b density rand = Ok p /\ shape p = [N; a_dim b] /\ rows_in b p /\
  INR N <= fold_right Rmult 1 (map (side b) (seq 0 (a_dim b))) * density < INR N + 1.
Proof.
  intros b density rand V D H. unfold fill_random_density. change (lengths b) with (map (side b) (seq 0 (a_dim b))). set (vol := fold_right Rmult 1 _).
  assert (P : 0 <= vol). { unfold vol. clear vol. assert (G : forall l, (forall c, In c l -> (c < a_dim b)%nat) -> 0 <= fold_right Rmult 1 (map (side b) l)).
    { induction l as [|a l IH]; intros A; cbn; [lra|]. apply Rmult_le_pos; [destruct V as (_ & V); specialize (V a (A a (or_introl eq_refl))); unfold side; lra|apply IH; intros c I; apply A; right; exact I]. }
    apply G. intros c I. apply in_seq in I. lia. }
  assert (Q : 0 <= vol * density) by (apply Rmult_le_pos; assumption). replace (Rleb _ (-1)) with false by (symmetry; apply Rleb_false; lra).
  destruct (base_Int_part (vol * density)) as (B1 & B2). assert (Z : (0 <= Int_part (vol * density))%Z). { apply Z.lt_succ_r, lt_IZR. rewrite succ_IZR. lra. }
  exists (Z.to_nat (Int_part (vol * density))), (fill_random b (Z.to_nat (Int_part (vol * density))) rand). split; [reflexivity|]. destruct (C46_random_points_in_box b (Z.to_nat (Int_part (vol * density))) rand V H) as (A1 & A2).
  split; [exact A1|]. split; [exact A2|]. rewrite INR_IZR_INZ, Z2Nat.id by exact Z. lra.
Qed.
Print Assumptions C46_random_density.

(** fill_count: the grid of the given numbers of equally spaced points, from the lower to the
    upper bound of each axis. *)
Definition grid_value (b : box) (n : Z) (c i : nat) : R :=
  if Z.eqb n 1 then lo b c else lo b c + INR i * (side b c / IZR (n - 1)).
Theorem C46_count_grid : forall b l, valid_box b -> (0 < a_dim b)%nat -> length l = a_dim b -> Forall (fun n => (0 <= n)%Z) l ->
  exists v, fill_count b (CList l) = Ok v /\ shape v = [prod (map Z.to_nat l); a_dim b] /\ rows_in b v /\
  (forall idx c, valid (map Z.to_nat l) idx -> (c < a_dim b)%nat -> v @2 (ravel (map Z.to_nat l) idx) c = grid_value b (nth c l 0%Z) c (tnth idx c)) /\
  (forall r, (r < nrows v)%nat -> exists idx, valid (map Z.to_nat l) idx /\ ravel (map Z.to_nat l) idx = r).
Proof.
  intros b l ((H1 & H2) & V) P E F. unfold fill_count. rewrite E, Nat.eqb_refl. cbn [py_assert bind]. rewrite count_axes by exact F. cbn [bind].
  set (axes := map axis_of _).
  assert (La : length axes = a_dim b) by (unfold axes; rewrite map_length, !combine_length; lia).
  destruct (grid_points axes) as (g & v & Eg & Ev & Sh & G); [intros Q; rewrite Q in La; cbn in La; lia|].
  rewrite Eg. cbn [bind]. exists v. split; [exact Ev|].
  assert (Sz : map nrows axes = map Z.to_nat l) by (apply count_sizes; congruence). rewrite Sz, La in *. split; [exact Sh|].
  assert (Val : forall idx c, valid (map Z.to_nat l) idx -> (c < a_dim b)%nat -> v @2 (ravel (map Z.to_nat l) idx) c = grid_value b (nth c l 0%Z) c (tnth idx c)).
  { intros idx c Vi L. rewrite (G idx c Vi L). unfold axes. rewrite (nth_map_combine axis_of _ _ _ (0, 0) 0%Z) by (rewrite combine_length; lia). rewrite combine_nth by congruence. reflexivity. }
  assert (Sur : forall r, (r < nrows v)%nat -> exists idx, valid (map Z.to_nat l) idx /\ ravel (map Z.to_nat l) idx = r).
  { intros r Lr. unfold nrows in Lr. rewrite Sh in Lr. cbn in Lr. exists (unravel (map Z.to_nat l) r). split; [apply valid_unravel; exact Lr|apply ravel_unravel; exact Lr]. }
  split; [|split; [exact Val|exact Sur]].
  intros r Lr c Lc. destruct (Sur r Lr) as (idx & Vi & <-). rewrite Val by assumption. unfold grid_value. specialize (V c Lc).
  destruct (Z.eqb_spec (nth c l 0%Z) 1) as [_|N]; [lra|]. assert (Lt : (tnth idx c < tnth (map Z.to_nat l) c)%nat) by (apply tnth_valid; [exact Vi|rewrite map_length; lia]).
  unfold tnth in Lt at 2. change 0%nat with (Z.to_nat 0) in Lt. rewrite map_nth in Lt. unfold side. replace (lo b c <= _ <= hi b c) with (lo b c <= lo b c + INR (tnth idx c) * ((hi b c - lo b c) / IZR (nth c l 0%Z - 1)) <= hi b c) by reflexivity.
  apply between_axis; [exact V| |exact Lt]. rewrite Forall_forall in F. specialize (F (nth c l 0%Z) (nth_In l 0%Z ltac:(rewrite E; exact Lc))). lia.
Qed.
Print Assumptions C46_count_grid.

(** Consecutive points of an axis are equally spaced, and with at least two points per axis
    all the corners are there. *)
Theorem C46_count_corners : forall b l v, valid_box b -> (0 < a_dim b)%nat -> length l = a_dim b -> Forall (fun n => (2 <= n)%Z) l -> fill_count b (CList l) = Ok v ->
  forall s, exists r, (r < nrows v)%nat /\ forall c, (c < a_dim b)%nat -> v @2 r c = corner_of b s c.
Proof.
  intros b l v V P E F H s. destruct (C46_count_grid b l V P E) as (v' & H' & Sh & _ & Val & _); [apply (Forall_impl _ (fun n (h : (2 <= n)%Z) => ltac:(lia) : (0 <= n)%Z) F)|].
  rewrite H in H'. injection H' as <-. set (sh := map Z.to_nat l) in *. assert (Ls : length sh = a_dim b) by (unfold sh; rewrite map_length; exact E).
  set (f := fun c => if s c then (tnth sh c - 1)%nat else 0%nat).
  assert (Big : forall c, (c < a_dim b)%nat -> (2 <= nth c l 0%Z)%Z). { intros c L. rewrite Forall_forall in F. apply F, nth_In. lia. }
  assert (Nsh : forall c, tnth sh c = Z.to_nat (nth c l 0%Z)). { intros c. unfold tnth, sh. change 0%nat with (Z.to_nat 0). apply map_nth. }
  assert (Vi : valid sh (map f (seq 0 (length sh)))). { apply valid_map. intros c L. specialize (Big c ltac:(lia)). unfold f. rewrite Nsh. destruct (s c); lia. }
  exists (ravel sh (map f (seq 0 (length sh)))). split; [unfold nrows; rewrite Sh; apply ravel_lt, Vi|]. intros c L. rewrite Val by assumption. rewrite tnth_map_seq by lia. specialize (Big c L).
  unfold grid_value, corner_of, f. replace (Z.eqb (nth c l 0%Z) 1) with false by (symmetry; apply Z.eqb_neq; lia). rewrite Nsh. destruct (s c); [|cbn; lra].
  replace (INR (Z.to_nat (nth c l 0%Z) - 1)) with (IZR (nth c l 0%Z - 1)); [|rewrite INR_IZR_INZ; f_equal; lia].
  unfold side. assert (0 < IZR (nth c l 0%Z - 1)) by (apply IZR_lt; lia). field. lra.
Qed.
Print Assumptions C46_count_corners.

(** One number of points is used for every axis. *)
Theorem C46_count_number : forall b n, fill_count b (CInt n) = fill_count b (CList (repeat n (a_dim b))).
Proof. intros b n. unfold fill_count. rewrite repeat_length, Nat.eqb_refl. reflexivity. Qed.
Print Assumptions C46_count_number.

(** Errors: wrong number of counts, a negative count, a box without axes. *)
Theorem C46_count_errors : forall b l, shaped b ->
  (length l <> a_dim b -> fill_count b (CList l) = Err AssertionError) /\
  (length l = a_dim b -> (exists n, In n l /\ (n < 0)%Z) -> fill_count b (CList l) = Err RuntimeError) /\
  (a_dim b = 0%nat -> fill_count b (CList []) = Err RuntimeError).
Proof.
  intros b l (H1 & H2). unfold fill_count. repeat split.
  - intros N. destruct (Nat.eqb_spec (length l) (a_dim b)); [contradiction|reflexivity].
  - intros E (n & I & N). rewrite E, Nat.eqb_refl. cbn [py_assert bind]. rewrite (mapM_fail _ RuntimeError); [reflexivity| |].
    + intros [[a c] k] _. unfold linspace. cbn [fst snd]. destruct (Z.ltb k 0); [left; reflexivity|right; eexists; reflexivity].
    + destruct (In_nth _ _ 0%Z I) as (c & L & En). exists (nth c (combine (combine (a_kmin b) (a_kmax b)) l) (0, 0, 0%Z)). split; [apply nth_In; rewrite !combine_length; lia|].
      rewrite combine_nth by (rewrite combine_length; lia). cbn [fst snd]. rewrite En. unfold linspace. replace (Z.ltb n 0) with true by (symmetry; apply Z.ltb_lt; exact N). reflexivity.
  - intros E. rewrite E. cbn [length Nat.eqb py_assert bind]. destruct (combine (a_kmin b) (a_kmax b)); reflexivity.
Qed.
Print Assumptions C46_count_errors.

(** Finding: with a count of one the upper corner is missing. *)
Theorem C46_corners_refuted : exists b v, valid_box b /\ fill_count b (CList [1%Z]) = Ok v /\ ~ exists r, (r < nrows v)%nat /\ v @2 r (0%nat) = hi b 0.
Proof.
  exists (box_of [0] [1]). eexists. split; [split; [split; reflexivity|]|].
  - intros [|c] L; cbn in *; [unfold lo, hi; cbn; lra|lia].
  - split; [reflexivity|]. intros (r & L & E). cbn in L. assert (r = 0)%nat as -> by lia. cbn in E. unfold hi in E. cbn in E. lra.
Qed.
Print Assumptions C46_corners_refuted.

(** fill_uniform_spacing: exactly the points kmin + k * spacing below the upper bounds. *)
Theorem C46_spacing_grid : forall b s, valid_box b -> (0 < a_dim b)%nat -> 0 < s ->
  exists v, fill_uniform_spacing b s = Ok v /\ ncols v = a_dim b /\ rows_in b v /\
  (forall r, (r < nrows v)%nat -> exists k : nat -> nat, forall c, (c < a_dim b)%nat -> v @2 r c = lo b c + INR (k c) * s /\ v @2 r c < hi b c) /\
  (forall k : nat -> nat, (forall c, (c < a_dim b)%nat -> lo b c + INR (k c) * s < hi b c) ->
     exists r, (r < nrows v)%nat /\ forall c, (c < a_dim b)%nat -> v @2 r c = lo b c + INR (k c) * s).
Proof.
  intros b s ((H1 & H2) & V) P Hs. unfold fill_uniform_spacing, fill_uniform_spacing_grid.
  set (ax := fun x : R * R => mk1 (Z.to_nat (ceil ((snd x - fst x) / s))) (fun i => fst x + INR i * s)).
  rewrite (mapM_map _ ax). 2:{ intros [x y] I. destruct (In_nth _ _ (0, 0) I) as (c & L & En). rewrite combine_length in L. rewrite combine_nth in En by congruence. injection En as Ex Ey. specialize (V c ltac:(lia)). unfold lo, hi in V. rewrite Ex, Ey in V.
    cbn [fst snd]. unfold arange, ax. replace (Reqb s 0) with false by (symmetry; apply Reqb_false; lra). replace (Rltb y x) with false by (symmetry; apply Rltb_false; exact V). replace (Rltb s 0) with false by (symmetry; apply Rltb_false; lra). rewrite andb_false_r. reflexivity. }
  cbn [bind]. set (axes := map ax _).
  assert (La : length axes = a_dim b) by (unfold axes; rewrite map_length, combine_length; lia).
  destruct (grid_points axes) as (g & v & Eg & Ev & Sh & G); [intros Q; rewrite Q in La; cbn in La; lia|].
  rewrite Eg. cbn [bind]. exists v. split; [exact Ev|]. rewrite La in *.
  assert (Nax : forall c, (c < a_dim b)%nat -> nth c axes (tzeros []) = ax (lo b c, hi b c)). { intros c L. unfold axes. apply nth_map_combine; lia. }
  set (sh := map nrows axes) in *. assert (Lsh : length sh = a_dim b) by (unfold sh; rewrite map_length; exact La).
  assert (Nsh : forall c, (c < a_dim b)%nat -> tnth sh c = Z.to_nat (ceil ((hi b c - lo b c) / s))).
  { intros c L. unfold tnth, sh. rewrite (nth_indep _ 0%nat (nrows (tzeros []))) by (rewrite map_length; lia). rewrite map_nth, Nax by exact L. reflexivity. }
  assert (Rows : forall r, (r < nrows v)%nat -> exists k : nat -> nat, forall c, (c < a_dim b)%nat -> v @2 r c = lo b c + INR (k c) * s /\ v @2 r c < hi b c).
  { intros r Lr. unfold nrows in Lr. rewrite Sh in Lr. cbn in Lr. exists (fun c => tnth (unravel sh r) c). intros c L. pose proof (valid_unravel sh r Lr) as Vi. rewrite <- (ravel_unravel sh r Lr) at 1 3. rewrite (G _ c Vi L), Nax by exact L.
    cbn [ax get mk1 tnth nth fst snd]. split; [reflexivity|]. apply arange_count; [exact Hs|]. rewrite <- Nsh by exact L. apply tnth_valid; [exact Vi|lia]. }
  split; [unfold ncols; rewrite Sh; reflexivity|]. split; [|split; [exact Rows|]].
  - intros r Lr c L. destruct (Rows r Lr) as (k & K). destruct (K c L) as (K1 & K2). split; [|lra]. rewrite K1. pose proof (pos_INR (k c)). nra.
  - intros k K. assert (Vi : valid sh (map k (seq 0 (length sh)))). { apply valid_map. intros c L. rewrite Nsh by lia. apply arange_count; [exact Hs|]. apply K. lia. }
    exists (ravel sh (map k (seq 0 (length sh)))). split; [unfold nrows; rewrite Sh; apply ravel_lt, Vi|]. intros c L. rewrite (G _ c Vi L), Nax by exact L. cbn [ax get mk1]. rewrite tnth_map_seq by lia. reflexivity.
Qed.
Print Assumptions C46_spacing_grid.

(** Errors: a zero spacing, or a negative one for a box with a side of positive length. *)
Theorem C46_spacing_errors : forall b s, valid_box b -> (0 < a_dim b)%nat ->
  (s = 0 -> fill_uniform_spacing b s = Err RuntimeError) /\
  (s < 0 -> (exists c, (c < a_dim b)%nat /\ lo b c < hi b c) -> fill_uniform_spacing b s = Err RuntimeError).
Proof.
  intros b s ((H1 & H2) & V) P. unfold fill_uniform_spacing, fill_uniform_spacing_grid.
  assert (A : forall x y, arange x y s = Err RuntimeError \/ exists t, arange x y s = Ok t). { intros x y. unfold arange. destruct (Reqb s 0); [auto|]. destruct (_ || _)%bool; [auto|right; eexists; reflexivity]. }
  assert (C : forall c, (c < a_dim b)%nat -> In (lo b c, hi b c) (combine (a_kmin b) (a_kmax b))). { intros c L. unfold lo, hi. rewrite <- combine_nth by congruence. apply nth_In. rewrite combine_length. lia. }
  split.
  - intros ->. rewrite (mapM_fail _ RuntimeError); [reflexivity|intros [x y] _; apply A|]. exists (lo b 0, hi b 0). split; [apply C; exact P|]. unfold arange. replace (Reqb 0 0) with true by (symmetry; apply Reqb_true; reflexivity). reflexivity.
  - intros N (c & L & W). rewrite (mapM_fail _ RuntimeError); [reflexivity|intros [x y] _; apply A|]. exists (lo b c, hi b c). split; [apply C; exact L|]. unfold arange. cbn [fst snd].
    replace (Reqb s 0) with false by (symmetry; apply Reqb_false; lra). replace (Rltb s 0) with true by (symmetry; apply Rltb_true; exact N). replace (Rltb (lo b c) (hi b c)) with true by (symmetry; apply Rltb_true; exact W). rewrite orb_true_r. reflexivity.
Qed.
Print Assumptions C46_spacing_errors.

(** fill_area_uniform keeps exactly the grid points marked by the area, in order. *)
Theorem C46_area_uniform : forall f b s grid mask, fill_uniform_spacing b s = Ok grid -> f grid = Ok mask ->
  exists v kept, fill_area_uniform f b s = Ok v /\ shape v = [length kept; ncols grid] /\
  (forall j, (j < length kept)%nat -> forall c, v @2 j c = grid @2 (nth j kept 0%nat) c) /\
  (forall i, In i kept <-> (i < nrows grid)%nat /\ nth i mask false = true) /\
  (forall j j', (j < j' < length kept)%nat -> (nth j kept 0 < nth j' kept 0)%nat).
Proof.
  intros f b s grid mask E M. unfold fill_area_uniform. rewrite E. cbn [bind]. rewrite M. cbn [bind]. set (kept := filter (fun i => nth i mask false) (seq 0 (nrows grid))).
  exists (select_rows grid mask), kept. split; [reflexivity|]. split; [reflexivity|]. split; [reflexivity|]. split.
  - intros i. unfold kept. rewrite filter_In, in_seq. intuition lia.
  - unfold kept. generalize (nrows grid) as n. intros n. assert (G : forall n a j j', let k := filter (fun i => nth i mask false) (seq a n) in (j < j' < length k)%nat -> (nth j k 0 < nth j' k 0)%nat); [|apply G].
    clear. induction n as [|n IH]; intros a j j' k L; [cbn in L; lia|]. unfold k in *. cbn [seq filter] in *. destruct (nth a mask false).
    + destruct j' as [|j']; [lia|]. cbn [length nth] in *. destruct j as [|j]; [|apply IH; lia]. assert (I : In (nth j' (filter (fun i => nth i mask false) (seq (S a) n)) 0%nat) (filter (fun i => nth i mask false) (seq (S a) n))) by (apply nth_In; lia).
      apply filter_In in I. destruct I as (I & _). apply in_seq in I. lia.
    + apply IH. exact L.
Qed.
Print Assumptions C46_area_uniform.

(** fill_area_random: when it returns, it returns the asked number of points, in the box
    and in the area. *)
Theorem C46_area_random : forall f b n draws fuel pts, valid_box b -> (forall k c, 0 <= draws k c <= 1) ->
  fill_area_random f b n draws fuel = Some (Ok pts) ->
  length pts = n /\ Forall (fun p => shape p = [1%nat; a_dim b] /\ in_box b (fun c => p @2 (0%nat) c) /\ exists m, f p = Ok m /\ Forall (fun x => x = true) m) pts.
Proof.
  intros f b n draws fuel pts V D. unfold fill_area_random.
  assert (U : forall fuel k p k', draw_until f b draws k fuel = Some (Ok (p, k')) -> shape p = [1%nat; a_dim b] /\ in_box b (fun c => p @2 (0%nat) c) /\ exists m, f p = Ok m /\ Forall (fun x => x = true) m).
  { clear fuel. induction fuel as [|fuel IH]; intros k p k' E; [discriminate|]. cbn [draw_until] in E. set (q := fill_random b 1 (fun _ => draws k)) in *. destruct (f q) as [m|e] eqn:M; [|discriminate].
    destruct (forallb _ m) eqn:A; [|apply (IH _ _ _ E)]. injection E as <- <-. split; [reflexivity|]. split.
    - apply (C46_random_points_in_box b 1 (fun _ => draws k) V (fun _ c => D k c)). cbn. lia.
    - exists m. split; [exact M|]. apply Forall_forall. rewrite forallb_forall in A. exact A. }
  assert (G : forall n pts k, draw_points f b draws k n fuel = Some (Ok pts) ->
    length pts = n /\ Forall (fun p => shape p = [1%nat; a_dim b] /\ in_box b (fun c => p @2 (0%nat) c) /\ exists m, f p = Ok m /\ Forall (fun x => x = true) m) pts); [|apply G].
  clear n pts. induction n as [|n IH]; intros pts k E; cbn [draw_points] in E; [injection E as <-; split; [reflexivity|constructor]|].
  destruct (draw_until f b draws k fuel) as [[[p k']|e]|] eqn:W; try discriminate. destruct (draw_points f b draws k' n fuel) as [[l|e]|] eqn:Q; try discriminate. injection E as <-.
  destruct (IH l k' Q) as (L & F). split; [cbn; congruence|]. constructor; [apply (U _ _ _ _ W)|exact F].
Qed.
Print Assumptions C46_area_random.
(** The points returned are the first n accepted draws, in the order of the draws. *)
Theorem C46_area_random_order : forall f b n draws fuel pts, valid_box b ->
  fill_area_random f b n draws fuel = Some (Ok pts) ->
  exists ks, length ks = n /\ length pts = n /\
    (forall j j', (j < j' < n)%nat -> (nth j ks 0 < nth j' ks 0)%nat) /\
    (forall j, (j < n)%nat -> exists p, nth_error pts j = Some p /\ at_fractions b (draws (nth j ks 0%nat)) p /\ accepts_point f p) /\
    (forall k j, (j < n)%nat -> (k < nth j ks 0)%nat -> ~ In k ks -> exists p, at_fractions b (draws k) p /\ rejects_point f p).
Proof.
  intros f b n draws fuel pts V. unfold fill_area_random.
  assert (FR : forall k, at_fractions b (draws k) (fill_random b 1 (fun _ => draws k))).
  { intros k. split; [reflexivity|]. intros c Hc. cbn [fill_random mk2 get]. unfold side, lo, hi, lengths. rewrite (nth_indep _ 0 (nth 0 (a_kmax b) 0 - nth 0 (a_kmin b) 0)) by (rewrite map_length, seq_length; exact Hc).
    rewrite (map_nth (fun i => nth i (a_kmax b) 0 - nth i (a_kmin b) 0) (seq 0 (a_dim b)) 0%nat c), seq_nth by exact Hc. cbn [Nat.add]. ring. }
  assert (U : forall fuel k p k', draw_until f b draws k fuel = Some (Ok (p, k')) -> (k < k')%nat /\ at_fractions b (draws (k' - 1)%nat) p /\ accepts_point f p /\
     forall i, (k <= i < k' - 1)%nat -> exists q, at_fractions b (draws i) q /\ rejects_point f q).
  { clear fuel. induction fuel as [|fuel IH]; intros k p k' E; [discriminate|]. cbn [draw_until] in E. pose proof (FR k) as Fk. set (q := fill_random b 1 (fun _ => draws k)) in *. destruct (f q) as [m|e] eqn:M; [|discriminate].
    destruct (forallb _ m) eqn:A.
    - injection E as <- <-. replace (S k - 1)%nat with k by lia. split; [lia|]. split; [exact Fk|]. split; [|intros; lia]. exists m. split; [exact M|]. apply Forall_forall. rewrite forallb_forall in A. exact A.
    - destruct (IH _ _ _ E) as (L & P1 & P2 & P3). split; [lia|]. split; [exact P1|]. split; [exact P2|]. intros i Hi. destruct (Nat.eq_dec i k) as [->|N]; [|apply P3; lia].
      exists q. split; [exact Fk|]. exists m. split; [exact M|]. clear -A. induction m as [|x m IH]; [discriminate|]. cbn in A. destruct x; [right; exact (IH A)|left; reflexivity]. }
  assert (G : forall n pts k, draw_points f b draws k n fuel = Some (Ok pts) ->
    exists ks, length ks = n /\ length pts = n /\ (forall j, (j < n)%nat -> (k <= nth j ks 0)%nat) /\
    (forall j j', (j < j' < n)%nat -> (nth j ks 0 < nth j' ks 0)%nat) /\
    (forall j, (j < n)%nat -> exists p, nth_error pts j = Some p /\ at_fractions b (draws (nth j ks 0%nat)) p /\ accepts_point f p) /\
    (forall i j, (j < n)%nat -> (k <= i < nth j ks 0)%nat -> ~ In i ks -> exists p, at_fractions b (draws i) p /\ rejects_point f p)).
  { clear n pts. induction n as [|n IH]; intros pts k E; cbn [draw_points] in E.
    - injection E as <-. exists []. split; [reflexivity|]. split; [reflexivity|]. repeat split; intros; lia.
    - destruct (draw_until f b draws k fuel) as [[[p k']|e]|] eqn:W; try discriminate. destruct (draw_points f b draws k' n fuel) as [[l|e]|] eqn:Q; try discriminate. injection E as <-.
      destruct (IH l k' Q) as (ks & L1 & L2 & B & M & P & RJ). destruct (U _ _ _ _ W) as (L & P1 & P2 & P3). exists ((k' - 1)%nat :: ks).
      split; [cbn; lia|]. split; [cbn; lia|]. split; [intros [|j] Hj; cbn [nth]; [lia|specialize (B j ltac:(lia)); lia]|].
      split; [|split].
      + intros [|j] [|j'] Hj; cbn [nth]; try lia; [specialize (B j' ltac:(lia)); lia|apply M; lia].
      + intros [|j] Hj; cbn [nth nth_error]; [exists p; auto|apply P; lia].
      + intros i j Hj Hi NI. destruct (Nat.lt_ge_cases i (k' - 1)) as [X|X]; [apply P3; lia|]. destruct (Nat.eq_dec i (k' - 1)) as [->|N]; [elim NI; left; reflexivity|].
        destruct j as [|j]; cbn [nth] in Hi; [lia|]. apply (RJ i j); [lia|lia|]. intros I. apply NI. right. exact I. }
  intros E. destruct (G n pts 0%nat E) as (ks & L1 & L2 & _ & M & P & RJ). exists ks. split; [exact L1|]. split; [exact L2|]. split; [exact M|]. split; [exact P|].
  intros k j Hj Hk. apply (RJ k j Hj). lia.
Qed.
Print Assumptions C46_area_random_order.

(** It returns when accepted draws keep coming. *)
Theorem C46_area_random_returns : forall f b n draws,
  (forall k p, at_fractions b (draws k) p -> accepts_point f p \/ rejects_point f p) ->
  (forall k, exists k', (k <= k')%nat /\ forall p, at_fractions b (draws k') p -> accepts_point f p) ->
  exists fuel pts, fill_area_random f b n draws fuel = Some (Ok pts).
Proof.
  intros f b n draws TO AC. unfold fill_area_random.
  assert (FR : forall k, at_fractions b (draws k) (fill_random b 1 (fun _ => draws k))).
  { intros k. split; [reflexivity|]. intros c Hc. cbn [fill_random mk2 get]. unfold side, lo, hi, lengths. rewrite (nth_indep _ 0 (nth 0 (a_kmax b) 0 - nth 0 (a_kmin b) 0)) by (rewrite map_length, seq_length; exact Hc).
    rewrite (map_nth (fun i => nth i (a_kmax b) 0 - nth i (a_kmin b) 0) (seq 0 (a_dim b)) 0%nat c), seq_nth by exact Hc. cbn [Nat.add]. ring. }
  assert (MO : forall fuel k r, draw_until f b draws k fuel = Some r -> forall e, draw_until f b draws k (fuel + e) = Some r).
  { induction fuel as [|fuel IH]; intros k r E e; [discriminate|]. cbn [draw_until Nat.add] in *. destruct (f _) as [m|]; [|exact E]. destruct (forallb _ m); [exact E|]. apply IH. exact E. }
  assert (MP : forall n fuel k r, draw_points f b draws k n fuel = Some r -> forall e, draw_points f b draws k n (fuel + e) = Some r).
  { clear n. induction n as [|n IH]; intros fuel k r E e; [exact E|]. cbn [draw_points] in *. destruct (draw_until f b draws k fuel) as [u|] eqn:W; [|discriminate]. rewrite (MO _ _ _ W e). destruct u as [[p k']|x]; [|exact E].
    destruct (draw_points f b draws k' n fuel) as [v|] eqn:Q; [|discriminate]. rewrite (IH _ _ _ Q e). exact E. }
  assert (U : forall k, exists fuel p k', draw_until f b draws k fuel = Some (Ok (p, k'))).
  { intros k. destruct (AC k) as (k' & L & A). remember (k' - k)%nat as gap eqn:Eg. revert k L Eg. induction gap as [|gap IH]; intros k L Eg.
    - assert (k' = k) as -> by lia. destruct (A _ (FR k)) as (m & M & F). exists 1%nat. cbn [draw_until]. rewrite M. replace (forallb (fun x => x) m) with true; [do 2 eexists; reflexivity|].
      symmetry. apply forallb_forall. rewrite Forall_forall in F. exact F.
    - destruct (IH (S k) ltac:(lia) ltac:(lia)) as (fuel & p & k2 & E). exists (S fuel). cbn [draw_until]. destruct (TO k _ (FR k)) as [(m & M & F)|(m & M & F)]; rewrite M; destruct (forallb _ m); try (do 2 eexists; reflexivity); exists p, k2; exact E. }
  assert (G : forall n k, exists fuel pts, draw_points f b draws k n fuel = Some (Ok pts)); [|apply G].
  clear n. induction n as [|n IH]; intros k; [exists 0%nat, []; reflexivity|]. destruct (U k) as (fu & p & k' & E). destruct (IH k') as (fu' & l & E').
  exists (fu + fu')%nat, (p :: l). cbn [draw_points]. rewrite (MO _ _ _ E fu'). rewrite Nat.add_comm, (MP _ _ _ _ E' fu). reflexivity.
Qed.
Print Assumptions C46_area_random_returns.

(** area: the product of the two sides; boxes of another dimension have none. *)
Theorem C46_area : forall b, valid_box b ->
  (a_dim b = 2%nat -> area b = Ok (side b 0 * side b 1)) /\ (a_dim b <> 2%nat -> area b = Err AssertionError).
Proof.
  intros b (SH & V). unfold area. split; intros D.
  - destruct b as [dm lo0 hi0]. destruct SH as (L0 & L1). cbn in D, L0, L1. rewrite D in L0, L1, V |- *. clear D dm. destruct lo0 as [|x0 [|y0 [|]]]; try discriminate L0. destruct hi0 as [|x1 [|y1 [|]]]; try discriminate L1.
    pose proof (V 0%nat Nat.lt_0_2) as V0. pose proof (V 1%nat Nat.lt_1_2) as V1. unfold lo, hi in V0, V1. cbn in V0, V1.
    cbn. unfold side, lo, hi. cbn. rewrite !Rabs_right by lra. reflexivity.
  - destruct (Nat.eqb_spec (a_dim b) 2); [contradiction|reflexivity].
Qed.
Print Assumptions C46_area.

(** fill_area_uniform_density: one point per square of area 1 / density. *)
Theorem C46_area_uniform_density : forall f b density,
  (density < 0 -> fill_area_uniform_density f b density = Err ValueError) /\
  (density = 0 -> fill_area_uniform_density f b density = Err ZeroDivisionError) /\
  (0 < density -> exists s, 0 < s /\ s * s * density = 1 /\ fill_area_uniform_density f b density = fill_area_uniform f b s).
Proof.
  intros f b density. unfold fill_area_uniform_density. split; [|split]; intros H.
  - rewrite (proj2 (Rltb_true _ _) H). reflexivity.
  - subst. replace (Rltb 0 0) with false by (symmetry; apply Rltb_false; lra). replace (Reqb 0 0) with true by (symmetry; apply Reqb_true; reflexivity). reflexivity.
  - replace (Rltb density 0) with false by (symmetry; apply Rltb_false; lra). replace (Reqb density 0) with false by (symmetry; apply Reqb_false; lra).
    exists (1 / sqrt density). pose proof (sqrt_lt_R0 density H) as P. split; [apply Rdiv_lt_0_compat; lra|]. split; [|reflexivity].
    replace density with (sqrt density * sqrt density) at 3 by (apply sqrt_sqrt; lra). field. lra.
Qed.
Print Assumptions C46_area_uniform_density.

(** ... but an area that never accepts is sampled for ever. *)
Theorem C46_area_random_never_returns : forall f b n draws, (forall p, f p = Ok [false]) -> (0 < n)%nat -> forall fuel, fill_area_random f b n draws fuel = None.
Proof.
  intros f b n draws H P fuel. unfold fill_area_random. destruct n as [|n]; [lia|]. cbn [draw_points]. replace (draw_until f b draws 0 fuel) with (@None (res (tensor * nat))); [reflexivity|].
  generalize 0%nat. induction fuel as [|fuel IH]; intros k; [reflexivity|]. cbn [draw_until]. rewrite H. cbn [forallb andb]. apply IH.
Qed.
Print Assumptions C46_area_random_never_returns.

Example C46_grid_case : valid_box sample_box /\ (0 < a_dim sample_box)%nat /\ length [2%Z; 3%Z] = a_dim sample_box /\ Forall (fun n => (2 <= n)%Z) [2%Z; 3%Z] /\ 0 < 1/2.
Proof. split; [exact sample_box_valid|]. split; [cbn; lia|]. split; [reflexivity|]. split; [constructor; [lia|constructor; [lia|constructor]]|lra]. Qed.
Example C46_area_case : exists grid mask, fill_uniform_spacing sample_box (1/2) = Ok grid /\ is_inside sample_box grid = Ok mask.
Proof.
  destruct (C46_spacing_grid sample_box (1/2) sample_box_valid ltac:(cbn; lia) ltac:(lra)) as (v & E & _). destruct (C46_is_inside sample_box v ltac:(cbn; lia)) as (m & M & _). exists v, m. auto.
Qed.
Example C46_random_case : exists pts, fill_area_random (fun p => is_inside sample_box p) sample_box 2 (fun _ _ => 1/2) 1 = Some (Ok pts).
Proof.
  unfold fill_area_random. cbn [draw_points draw_until]. set (p := fill_random sample_box 1 _). destruct (C46_is_inside sample_box p ltac:(cbn; lia)) as (m & M & L & Q). rewrite M.
  assert (m = [true]) as ->. { destruct m as [|x [|y m]]; cbn in L; try lia. f_equal. apply (Q 0%nat ltac:(cbn; lia)). apply (C46_random_points_in_box sample_box 1 (fun _ _ => 1/2) sample_box_valid); [intros; lra|cbn; lia]. }
  eexists. reflexivity.
Qed.

Example C46_returns_case :
  (forall (k : nat) p, at_fractions sample_box (fun _ => 1/2) p -> accepts_point (fun p => is_inside sample_box p) p \/ rejects_point (fun p => is_inside sample_box p) p) /\
  (forall k : nat, exists k', (k <= k')%nat /\ forall p, at_fractions sample_box (fun _ => 1/2) p -> accepts_point (fun p => is_inside sample_box p) p).
Proof.
  assert (A : forall p, at_fractions sample_box (fun _ => 1/2) p -> accepts_point (fun p => is_inside sample_box p) p).
  { intros p (SH & P).
    destruct (C46_is_inside sample_box p ltac:(cbn; lia)) as (m & M & L & Q). exists m. split; [exact M|].
    unfold nrows in L, Q. rewrite SH in L, Q. destruct m as [|x [|y m]]; cbn in L; try lia. constructor; [|constructor].
    apply (Q 0%nat ltac:(cbn; lia)). intros c Hc. rewrite P by exact Hc. cbn in Hc. destruct c as [|[|c]]; [| |lia]; unfold side, lo, hi; cbn; lra.
  }
  split; [intros _ p H; left; exact (A p H)|]. intros k. exists k. split; [lia|exact A].
Qed.

(** ** C47 *)

Lemma about_box b fs : shaped b -> length fs = a_dim b ->
  let b' := mkAABB (a_dim b) (about fs (a_kmin b) (centers b)) (about fs (a_kmax b) (centers b)) in
  shaped b' /\ forall c, (c < a_dim b)%nat -> lo b' c = nth c fs 0 * (lo b c - centre b c) + centre b c /\ hi b' c = nth c fs 0 * (hi b c - centre b c) + centre b c.
Proof.
  intros S L. pose proof (length_centers b S) as Lc. pose proof S as (H1 & H2). cbn zeta. split; [split; cbn [a_kmin a_kmax a_dim]; apply length_about; assumption|].
  intros c Hc. unfold lo, hi. cbn [a_kmin a_kmax]. rewrite !(nth_about _ _ _ (a_dim b)) by assumption. rewrite nth_centers by assumption. split; reflexivity.
Qed.

(** The factor of axis c. *)
Definition factor_at (f : factor) (c : nat) : R := match f with FNum x => x | FList l => nth c l 0 end.
Definition factor_ok (f : factor) (d : nat) : Prop := match f with FNum _ => True | FList l => length l = d end.

Theorem C47_scale : forall b f, shaped b -> factor_ok f (a_dim b) ->
  exists b', scale_ b f = Ok b' /\ a_dim b' = a_dim b /\ shaped b' /\
  forall c, (c < a_dim b)%nat -> centre b' c = centre b c /\ side b' c = factor_at f c * side b c.
Proof.
  intros b f S F.
  assert (G : exists fs, length fs = a_dim b /\ (forall c, (c < a_dim b)%nat -> nth c fs 0 = factor_at f c) /\
    scale_ b f = Ok (mkAABB (a_dim b) (about fs (a_kmin b) (centers b)) (about fs (a_kmax b) (centers b)))).
  { destruct f as [x|l]; cbn [factor_ok] in F.
    - exists (repeat x (a_dim b)). split; [apply repeat_length|]. split; [|reflexivity]. intros c L. rewrite (nth_indep _ 0 x) by (rewrite repeat_length; exact L). apply nth_repeat.
    - exists l. split; [exact F|]. split; [reflexivity|]. unfold scale_. rewrite F, Nat.eqb_refl. reflexivity. }
  destruct G as (fs & L & N & E). destruct (about_box b fs S L) as (S' & A). eexists. split; [exact E|]. split; [reflexivity|]. split; [exact S'|].
  intros c Hc. destruct (A c Hc) as (A1 & A2). unfold centre at 1, side at 1. rewrite A1, A2, N by exact Hc. unfold side, centre. split; field.
Qed.
Print Assumptions C47_scale.
Theorem C47_scale_wrong_number_of_factors : forall b l, length l <> a_dim b -> scale_ b (FList l) = Err AssertionError.
Proof. intros b l N. unfold scale_. destruct (Nat.eqb_spec (length l) (a_dim b)); [contradiction|reflexivity]. Qed.
Print Assumptions C47_scale_wrong_number_of_factors.

(** Scaling a valid box by nonnegative factors gives a valid box; by factors at least 1 a box
    that contains it; by factors at most 1 a box in it. *)
Theorem C47_scale_valid : forall b f b', valid_box b -> factor_ok f (a_dim b) -> scale_ b f = Ok b' ->
  ((forall c, (c < a_dim b)%nat -> 0 <= factor_at f c) -> valid_box b') /\
  ((forall c, (c < a_dim b)%nat -> 1 <= factor_at f c) -> contains b' b) /\
  ((forall c, (c < a_dim b)%nat -> 0 <= factor_at f c <= 1) -> contains b b').
Proof.
  intros b f b' (S & V) F E. destruct (C47_scale b f S F) as (b'' & E' & D & S' & A). rewrite E in E'. injection E' as <-.
  repeat split; try apply S'; try congruence.
  - intros c L. rewrite D in L. destruct (A c L) as (_ & A2). specialize (H c L). specialize (V c L). unfold side in A2. nra.
  - rewrite D in H0. destruct (A c H0) as (A1 & A2). specialize (H c H0). specialize (V c H0). unfold side, centre in *. nra.
  - rewrite D in H0. destruct (A c H0) as (A1 & A2). specialize (H c H0). specialize (V c H0). unfold side, centre in *. nra.
  - destruct (A c H0) as (A1 & A2). specialize (H c H0). specialize (V c H0). unfold side, centre in *. nra.
  - destruct (A c H0) as (A1 & A2). specialize (H c H0). specialize (V c H0). unfold side, centre in *. nra.
Qed.
Print Assumptions C47_scale_valid.

(** Finding: negative factors are accepted and give boxes with min > max. *)
Theorem C47_scale_negative : forall b x b', valid_box b -> x < 0 -> scale_ b (FNum x) = Ok b' -> (exists c, (c < a_dim b)%nat /\ lo b c < hi b c) -> ~ valid_box b'.
Proof.
  intros b x b' (S & V) N E (c & L & W) (_ & V'). destruct (C47_scale b (FNum x) S Logic.I) as (b'' & E' & D & S' & A). rewrite E in E'. injection E' as <-.
  specialize (V' c ltac:(lia)). destruct (A c L) as (_ & A2). cbn in A2. unfold side in A2. nra.
Qed.
Print Assumptions C47_scale_negative.
Theorem C47_scale_valid_refuted : exists b f b', valid_box b /\ scale_ b (FNum f) = Ok b' /\ ~ valid_box b'.
Proof.
  exists sample_box, (-1). destruct (C47_scale sample_box (FNum (-1)) (proj1 sample_box_valid) Logic.I) as (b' & E & _). exists b'. split; [exact sample_box_valid|]. split; [exact E|].
  apply (C47_scale_negative sample_box (-1) b' sample_box_valid ltac:(lra) E). exists 0%nat. split; [cbn; lia|unfold lo, hi; cbn; lra].
Qed.
Print Assumptions C47_scale_valid_refuted.

(** squared *)
Theorem C47_squared : forall b, shaped b -> (2 <= a_dim b)%nat -> (forall c, (c < a_dim b)%nat -> lo b c < hi b c) ->
  exists b' m, squared_ b = Ok b' /\ a_dim b' = a_dim b /\ valid_box b' /\ contains b' b /\ longest b m /\
  forall c, (c < a_dim b)%nat -> centre b' c = centre b c /\ side b' c = m.
Proof.
  intros b S D V. unfold squared_. replace (Nat.eqb (a_dim b) 1) with false by (symmetry; apply Nat.eqb_neq; lia).
  destruct (lengths b) as [|s0 rest] eqn:EL; [pose proof (length_lengths b) as Q; rewrite EL in Q; cbn in Q; lia|].
  pose proof (length_lengths b) as Ll. rewrite <- EL in *. set (k := argmax rest 1 0 s0). set (m := nth k (lengths b) 0).
  assert (K : (k < a_dim b)%nat /\ forall c, (c < a_dim b)%nat -> nth c (lengths b) 0 <= m).
  { pose proof (argmax_spec (lengths b) rest 1 0) as A. rewrite Ll in A. destruct A as (A1 & A2 & A3).
    - intros j L. rewrite EL. reflexivity.
    - lia.
    - rewrite <- Ll, EL. reflexivity.
    - replace (nth 0 (lengths b) 0) with s0 in * by (rewrite EL; reflexivity). fold k in A1, A2, A3. fold m in A2, A3. split; [exact A1|]. intros [|c] L; [rewrite EL; exact A2|apply A3; lia]. }
  destruct K as (K1 & K2).
  assert (Pos : forall c, (c < a_dim b)%nat -> 0 < nth c (lengths b) 0). { intros c L. rewrite lo_lengths by exact L. specialize (V c L). unfold side. lra. }
  rewrite (mapM_map _ (fun s => m / s)). 2:{ intros s I. destruct (In_nth _ _ 0 I) as (c & L & <-). rewrite Ll in L. specialize (Pos c L). replace (Reqb (nth c (lengths b) 0) 0) with false by (symmetry; apply Reqb_false; lra). reflexivity. }
  cbn [bind]. set (fs := map (fun s => m / s) (lengths b)). assert (Lf : length fs = a_dim b) by (unfold fs; rewrite map_length; exact Ll).
  assert (Nf : forall c, (c < a_dim b)%nat -> nth c fs 0 = m / side b c). { intros c L. unfold fs. rewrite (nth_indep _ 0 (m / 0)) by (rewrite map_length; lia). rewrite (map_nth (fun s => m / s)), lo_lengths by exact L. reflexivity. }
  destruct (about_box b fs S Lf) as (S' & A). set (b' := mkAABB _ _ _) in *. exists b', m.
  assert (Mk : m = side b k) by (unfold m; apply lo_lengths; exact K1).
  assert (Bd : forall c, (c < a_dim b)%nat -> 0 < side b c <= m). { intros c L. rewrite <- lo_lengths by exact L. split; [apply Pos, L|apply K2, L]. }
  assert (Bounds : forall c, (c < a_dim b)%nat -> lo b' c = centre b c - m / 2 /\ hi b' c = centre b c + m / 2).
  { intros c L. destruct (A c L) as (A1 & A2). rewrite A1, A2, Nf by exact L. specialize (Bd c L). split.
    - replace (lo b c - centre b c) with (- (side b c / 2)) by (unfold centre, side; field). field. lra.
    - replace (hi b c - centre b c) with (side b c / 2) by (unfold centre, side; field). field. lra. }
  split; [reflexivity|]. split; [reflexivity|]. split; [split; [exact S'|]; intros c L; destruct (Bounds c L) as (-> & ->); specialize (Bd c L); lra|].
  split; [split; [reflexivity|]; intros c L; destruct (Bounds c L) as (-> & ->); specialize (Bd c L); unfold centre, side in *; lra|].
  split; [split; [exists k; auto|intros c L; apply Bd, L]|].
  intros c L. unfold centre at 1, side at 1. destruct (Bounds c L) as (-> & ->). split; field.
Qed.
Print Assumptions C47_squared.

(** The other cases: one axis, no axis, and (finding) a flat side. *)
Theorem C47_squared_other_cases : forall b, shaped b ->
  (a_dim b = 1%nat -> squared_ b = Ok b) /\
  (a_dim b = 0%nat -> squared_ b = Err ValueError) /\
  ((2 <= a_dim b)%nat -> (exists c, (c < a_dim b)%nat /\ lo b c = hi b c) -> squared_ b = Err ZeroDivisionError).
Proof.
  intros b S. unfold squared_. repeat split.
  - intros ->. reflexivity.
  - intros E. unfold lengths. rewrite E. reflexivity.
  - intros D (c & L & W). replace (Nat.eqb (a_dim b) 1) with false by (symmetry; apply Nat.eqb_neq; lia). pose proof (length_lengths b) as Ll.
    destruct (lengths b) as [|s0 rest] eqn:EL; [cbn in Ll; lia|]. rewrite <- EL in *. rewrite (mapM_fail _ ZeroDivisionError); [reflexivity| |].
    + intros s _. destruct (Reqb s 0); [left; reflexivity|right; eexists; reflexivity].
    + exists (nth c (lengths b) 0). split; [apply nth_In; lia|]. rewrite lo_lengths by exact L. unfold side. replace (Reqb (hi b c - lo b c) 0) with true by (symmetry; apply Reqb_true; lra). reflexivity.
Qed.
Print Assumptions C47_squared_other_cases.
Theorem C47_squared_refuted : exists b, valid_box b /\ a_dim b = 2%nat /\ squared_ b = Err ZeroDivisionError.
Proof.
  exists (box_of [0; 3] [1; 3]). assert (V : valid_box (box_of [0; 3] [1; 3])) by (split; [split; reflexivity|]; intros [|[|c]] L; cbn in *; try lia; unfold lo, hi; cbn; lra).
  split; [exact V|]. split; [reflexivity|]. apply C47_squared_other_cases; [apply V|cbn; lia|]. exists 1%nat. split; [cbn; lia|reflexivity].
Qed.
Print Assumptions C47_squared_refuted.

(** The versions without underscore return a new object and change no existing one; the
    in-place versions change only their object. *)
Lemma at_index_ok {A} (l : list A) i a : at_index l i = Ok a <-> nth_error l i = Some a.
Proof. unfold at_index. destruct (nth_error l i); split; intros H; congruence. Qed.
Theorem C47_copies : forall op st l st' l', on_copy op st l = Ok (st', l') ->
  l' = length st /\ length st' = S (length st) /\
  (forall k, (k < length st)%nat -> nth_error st' k = nth_error st k) /\
  exists b b', nth_error st l = Some b /\ op b = Ok b' /\ nth_error st' l' = Some b'.
Proof.
  intros op st l st' l' H. unfold on_copy in H. destruct (at_index st l) as [b|e] eqn:B; [|discriminate]. cbn [bind] in H. unfold in_place in H.
  assert (Q : at_index (st ++ [b]) (length st) = Ok b). { apply at_index_ok. rewrite nth_error_app2 by lia. rewrite Nat.sub_diag. reflexivity. }
  rewrite Q in H. cbn [bind] in H. destruct (op b) as [b'|e] eqn:O; [|discriminate]. cbn [bind] in H. rewrite firstn_app, Nat.sub_diag, firstn_all, firstn_O, app_nil_r in H.
  rewrite skipn_all2 in H by (rewrite app_length; cbn; lia). injection H as <- <-. split; [reflexivity|]. split; [rewrite app_length; cbn; lia|]. split; [intros k L; apply nth_error_app1; exact L|].
  exists b, b'. split; [apply at_index_ok; exact B|]. split; [exact O|]. rewrite nth_error_app2 by lia. rewrite Nat.sub_diag. reflexivity.
Qed.
Print Assumptions C47_copies.
Theorem C47_in_place : forall op st l st', in_place op st l = Ok st' ->
  length st' = length st /\ (forall k, k <> l -> nth_error st' k = nth_error st k) /\
  exists b b', nth_error st l = Some b /\ op b = Ok b' /\ nth_error st' l = Some b'.
Proof.
  intros op st l st' H. unfold in_place in H. destruct (at_index st l) as [b|e] eqn:B; [|discriminate]. cbn [bind] in H. destruct (op b) as [b'|e] eqn:O; [|discriminate]. cbn [bind] in H. assert (H' : st' = firstn l st ++ b' :: skipn (S l) st) by congruence. clear H. subst st'.
  apply at_index_ok in B. assert (L : (l < length st)%nat) by (apply nth_error_Some; congruence). assert (Lf : length (firstn l st) = l) by (rewrite firstn_length; lia).
  split; [rewrite app_length; cbn [length]; rewrite Lf, skipn_length; lia|]. split.
  - intros k N. destruct (Nat.lt_trichotomy k l) as [C|[C|C]]; [|contradiction|].
    + rewrite nth_error_app1 by lia. rewrite <- (firstn_skipn l st) at 2. rewrite nth_error_app1 by lia. reflexivity.
    + rewrite nth_error_app2 by lia. rewrite Lf. destruct (k - l)%nat as [|j] eqn:J; [lia|]. cbn [nth_error]. rewrite <- (firstn_skipn (S l) st) at 2. rewrite nth_error_app2; rewrite firstn_length; [f_equal; lia|lia].
  - exists b, b'. split; [exact B|]. split; [exact O|]. rewrite nth_error_app2 by lia. rewrite Lf, Nat.sub_diag. reflexivity.
Qed.
Print Assumptions C47_in_place.

Example C47_case : shaped sample_box /\ (2 <= a_dim sample_box)%nat /\ (forall c, (c < a_dim sample_box)%nat -> lo sample_box c < hi sample_box c) /\ factor_ok (FList [2; 3]) (a_dim sample_box).
Proof. split; [exact (proj1 sample_box_valid)|]. split; [cbn; lia|]. split; [|reflexivity]. intros [|[|c]] L; cbn in *; try lia; unfold lo, hi; cbn; lra. Qed.
Example C47_copy_case : exists st' l', on_copy (fun b => scale_ b (FNum 2)) [sample_box] 0 = Ok (st', l').
Proof. eexists. eexists. reflexivity. Qed.
