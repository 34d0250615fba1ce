(** Reading a box: C45 (indexing and named bounds), C46 (volume, random points at a given
    density), C47 (what scale does to lengths, areas and volumes), continued. *)
From Coq Require Import Reals String List Arith ZArith Lia Lra Bool.
From Verif Require Import Py RSum Tensor TensorFacts KernelModel FieldModel Fl UtilModel AabbModel ShootingModel AabbRead SpecBox AttachmentFacts AabbFacts PropBox.
Import ListNotations.
Open Scope R_scope.
Open Scope list_scope.

Lemma totuple_at b c : shaped b -> (c < a_dim b)%nat ->
  nth_error (totuple b) (2 * c) = Some (lo b c) /\ nth_error (totuple b) (2 * c + 1) = Some (hi b c).
Proof.
  intros (H1 & H2) L. unfold totuple, tocouple, lo, hi. rewrite <- H1 in L. assert (E : length (a_kmin b) = length (a_kmax b)) by congruence. clear H1 H2. revert c L E.
  generalize (a_kmax b). induction (a_kmin b) as [|x l IH]; intros [|y m] c L E; cbn in L, E; try lia. destruct c as [|c]; [split; reflexivity|].
  replace (2 * S c)%nat with (S (S (2 * c))) by lia. replace (S (S (2 * c)) + 1)%nat with (S (S (2 * c + 1))) by lia. cbn [combine map List.concat app fst snd nth_error nth]. apply IH; lia.
Qed.
Lemma totuple_len b : shaped b -> length (totuple b) = (2 * a_dim b)%nat.
Proof.
  intros (H1 & H2). unfold totuple, tocouple. rewrite <- H1. assert (E : length (a_kmin b) = length (a_kmax b)) by congruence. clear H1 H2. revert E. generalize (a_kmax b).
  induction (a_kmin b) as [|x l IH]; intros [|y m] E; cbn in E; try lia; [reflexivity|]. cbn [combine map List.concat app length]. rewrite IH by lia. lia.
Qed.

(** box[i]: xmin, xmax, ymin, ... in this order, from the end when i is negative, IndexError
    elsewhere; any key that is neither an integer nor a string is a ValueError. *)
Theorem C45_indexing : forall b, valid_box b ->
  (forall c, (c < a_dim b)%nat ->
    getitem b (KInt (2 * Z.of_nat c)) = Ok (ANum (lo b c)) /\ getitem b (KInt (2 * Z.of_nat c + 1)) = Ok (ANum (hi b c)) /\
    getitem b (KInt (2 * Z.of_nat c - 2 * Z.of_nat (a_dim b))) = Ok (ANum (lo b c)) /\
    getitem b (KInt (2 * Z.of_nat c + 1 - 2 * Z.of_nat (a_dim b))) = Ok (ANum (hi b c))) /\
  (forall i, (i < - 2 * Z.of_nat (a_dim b) \/ 2 * Z.of_nat (a_dim b) <= i)%Z -> getitem b (KInt i) = Err IndexError) /\
  getitem b KOther = Err ValueError.
Proof.
  intros b (SH & _). pose proof (totuple_len b SH) as LN. split; [|split; [|reflexivity]].
  - intros c L. destruct (totuple_at b c SH L) as (A & B). unfold getitem, py_nth. rewrite LN.
    replace (Z.ltb (2 * Z.of_nat c) 0) with false by (symmetry; apply Z.ltb_ge; lia). replace (Z.ltb (2 * Z.of_nat c + 1) 0) with false by (symmetry; apply Z.ltb_ge; lia).
    replace (Z.ltb (2 * Z.of_nat c - 2 * Z.of_nat (a_dim b)) 0) with true by (symmetry; apply Z.ltb_lt; lia).
    replace (Z.ltb (2 * Z.of_nat c + 1 - 2 * Z.of_nat (a_dim b)) 0) with true by (symmetry; apply Z.ltb_lt; lia). cbv zeta.
    replace (Z.of_nat (2 * a_dim b) + (2 * Z.of_nat c - 2 * Z.of_nat (a_dim b)))%Z with (2 * Z.of_nat c)%Z by lia.
    replace (Z.of_nat (2 * a_dim b) + (2 * Z.of_nat c + 1 - 2 * Z.of_nat (a_dim b)))%Z with (2 * Z.of_nat c + 1)%Z by lia.
    replace (Z.ltb (2 * Z.of_nat c) 0) with false by (symmetry; apply Z.ltb_ge; lia). replace (Z.ltb (2 * Z.of_nat c + 1) 0) with false by (symmetry; apply Z.ltb_ge; lia).
    replace (Z.to_nat (2 * Z.of_nat c)) with (2 * c)%nat by lia. replace (Z.to_nat (2 * Z.of_nat c + 1)) with (2 * c + 1)%nat by lia. rewrite A, B. repeat split.
  - intros i H. unfold getitem, py_nth. rewrite LN. destruct (Z.ltb_spec i 0) as [N|N]; cbv zeta.
    + replace (Z.ltb (Z.of_nat (2 * a_dim b) + i) 0) with true by (symmetry; apply Z.ltb_lt; lia). reflexivity.
    + replace (Z.ltb i 0) with false by (symmetry; apply Z.ltb_ge; lia). replace (nth_error (totuple b) (Z.to_nat i)) with (@None R); [reflexivity|]. symmetry. apply nth_error_None. lia.
Qed.
Print Assumptions C45_indexing.

(** The name of a bound of axis c. *)
Definition bound_name (c : nat) (upper : bool) : string := append (nth c prefixes ""%string) (if upper then "max" else "min")%string.

Lemma at_index_nth (l : list R) c : (c < length l)%nat -> at_index l c = Ok (nth c l 0).
Proof. intros L. unfold at_index. rewrite (nth_error_nth' l 0 L). reflexivity. Qed.
Lemma at_index_out (l : list R) c : (length l <= c)%nat -> at_index l c = Err IndexError.
Proof. intros L. unfold at_index. rewrite (proj2 (nth_error_None l c) L). reflexivity. Qed.

(** box['xmin'], ..., box['zmax'] are the bounds; an axis the box does not have raises
    IndexError, and a name that is none of the attributes raises AttributeError. *)
Theorem C45_names : forall b, valid_box b ->
  (forall c, (c < 3)%nat -> (c < a_dim b)%nat ->
    getitem b (KStr (bound_name c false)) = Ok (ANum (lo b c)) /\ getitem b (KStr (bound_name c true)) = Ok (ANum (hi b c)) /\
    getitem b (KStr (nth c ["width"; "height"; "depth"] ""))%string = Ok (ANum (side b c))) /\
  (forall c u, (c < 3)%nat -> (a_dim b <= c)%nat ->
    getitem b (KStr (bound_name c u)) = Err IndexError /\ getitem b (KStr (nth c ["width"; "height"; "depth"] ""))%string = Err IndexError) /\
  (forall s, ~ In s ["dim"; "kmin"; "kmax"; "xmin"; "xmax"; "ymin"; "ymax"; "zmin"; "zmax"; "width"; "height"; "depth"; "shape"; "centers"; "length"; "area"; "volume"]%string ->
    getitem b (KStr s) = Err AttributeError).
Proof.
  intros b ((H1 & H2) & _). split; [|split].
  - intros c C L. unfold lo, hi, side. destruct c as [|[|[|c]]]; try lia; unfold getitem, bound_name, getattr, num, xmin, xmax, ymin, ymax, zmin, zmax, width, height, depth;
      cbn [nth prefixes append String.eqb Ascii.eqb Bool.eqb]; rewrite !at_index_nth by lia; repeat split.
  - intros c u C L. destruct c as [|[|[|c]]]; try lia; destruct u; unfold getitem, bound_name, getattr, num, xmin, xmax, ymin, ymax, zmin, zmax, width, height, depth;
      cbn [nth prefixes append String.eqb Ascii.eqb Bool.eqb]; rewrite !at_index_out by lia; repeat split.
  - intros s NI. cbn [getitem]. unfold getattr. cbn [In] in NI.
    repeat match goal with |- context [String.eqb s ?t] => let E := fresh in destruct (String.eqb_spec s t) as [E|E]; [elim NI; rewrite E; tauto|] end. reflexivity.
Qed.
Print Assumptions C45_names.

(** The names and values of the dictionary of a box are its named bounds. *)
Theorem C45_dictionary_names : forall b k v, valid_box b -> In (k, v) (todict b) -> getitem b (KStr k) = Ok (ANum v).
Proof.
  intros b k v V I. destruct (C45_names b V) as (N & _ & _). destruct V as ((H1 & H2) & _). unfold todict in I. apply in_app_or in I.
  assert (Z : forall (l : list R) w p, In (p, w) (combine prefixes l) -> exists c, (c < 3)%nat /\ (c < length l)%nat /\ p = nth c prefixes ""%string /\ w = nth c l 0).
  { intros l w p J. apply (In_nth _ _ (""%string, 0)) in J. destruct J as (c & L & E). rewrite combine_length in L. exists c.
    assert (c < 3 /\ c < length l)%nat as (L3 & Ll) by (cbn [length prefixes] in L; lia). split; [exact L3|]. split; [exact Ll|].
    assert (A : nth_error (combine prefixes l) c = Some (p, w)) by (rewrite <- E; apply nth_error_nth'; rewrite combine_length; exact L).
    destruct c as [|[|[|c]]]; try lia; destruct l as [|x0 [|x1 [|x2 l]]]; cbn in Ll; try lia; cbn in A; injection A as <- <-; split; reflexivity. }
  destruct I as [I|I]; apply in_map_iff in I; destruct I as ((p & w) & E & J); cbn [fst snd] in E; injection E as <- <-; destruct (Z _ _ _ J) as (c & C & L & -> & ->); destruct (N c C ltac:(lia)) as (A & B & _); [exact A|exact B].
Qed.
Print Assumptions C45_dictionary_names.

(** length, area and volume are the product of the sides, each in its own dimension; the two
    others raise AssertionError. *)
Definition extent (b : box) : R := fold_right Rmult 1 (map (side b) (seq 0 (a_dim b))).
Theorem C46_extent : forall b, valid_box b ->
  box_length b = (if Nat.eqb (a_dim b) 1 then Ok (extent b) else Err AssertionError) /\
  area b = (if Nat.eqb (a_dim b) 2 then Ok (extent b) else Err AssertionError) /\
  volume b = (if Nat.eqb (a_dim b) 3 then Ok (extent b) else Err AssertionError) /\ 0 <= extent b.
Proof.
  intros b ((H1 & H2) & V). split; [|split; [|split]].
  - unfold box_length, width. destruct (Nat.eqb_spec (a_dim b) 1) as [E|E]; [|reflexivity]. cbn [py_assert bind]. rewrite !at_index_nth by lia. unfold extent. rewrite E. cbn. f_equal. unfold side, lo, hi. ring.
  - unfold area. destruct (Nat.eqb_spec (a_dim b) 2) as [E|E]; [|reflexivity]. cbn [py_assert bind]. rewrite !at_index_nth by lia. unfold extent. rewrite E. cbn. f_equal.
    pose proof (V 0%nat ltac:(lia)) as V0. pose proof (V 1%nat ltac:(lia)) as V1. unfold side, lo, hi in *. rewrite !Rabs_right by lra. ring.
  - unfold volume, xmin, xmax, ymin, ymax, zmin, zmax. destruct (Nat.eqb_spec (a_dim b) 3) as [E|E]; [|reflexivity]. cbn [py_assert bind]. rewrite !at_index_nth by lia. unfold extent. rewrite E. cbn. f_equal.
    pose proof (V 0%nat ltac:(lia)) as V0. pose proof (V 1%nat ltac:(lia)) as V1. pose proof (V 2%nat ltac:(lia)) as V2. unfold side, lo, hi in *. rewrite !Rabs_right by lra. ring.
  - unfold extent. assert (G : forall l, (forall c, In c l -> (c < a_dim b)%nat) -> 0 <= fold_right Rmult 1 (map (side b) l)).
    { induction l as [|a l IH]; intros A; cbn; [lra|]. apply Rmult_le_pos; [specialize (V a (A a (or_introl eq_refl))); unfold side; lra|apply IH; intros c I; apply A; right; exact I]. }
    apply G. intros c I. apply in_seq in I. lia.
Qed.
Print Assumptions C46_extent.

(** A box in another one has at most its extent. *)
Theorem C46_extent_monotone : forall b b', valid_box b' -> contains b b' -> extent b' <= extent b.
Proof.
  intros b b' (_ & V) (D & C). unfold extent. rewrite D.
  assert (G : forall l, (forall c, In c l -> (c < a_dim b')%nat) -> 0 <= fold_right Rmult 1 (map (side b') l) <= fold_right Rmult 1 (map (side b) l)); [|apply G; intros c I; apply in_seq in I; lia].
  induction l as [|a l IH]; intros A; cbn; [lra|]. assert (La : (a < a_dim b')%nat) by (apply A; left; reflexivity). specialize (V a La). rewrite <- D in La. destruct (C a La) as (C1 & C2).
  destruct IH as (I1 & I2); [intros c I; apply A; right; exact I|]. assert (S0 : 0 <= side b' a <= side b a) by (unfold side; lra). split; [apply Rmult_le_pos; lra|]. apply Rmult_le_compat; lra.
Qed.
Print Assumptions C46_extent_monotone.

(** Scaling multiplies the extent by the product of the factors. *)
Theorem C47_scale_extent : forall b f b', shaped b -> factor_ok f (a_dim b) -> scale_ b f = Ok b' ->
  extent b' = fold_right Rmult 1 (map (factor_at f) (seq 0 (a_dim b))) * extent b.
Proof.
  intros b f b' SH F E. destruct (C47_scale b f SH F) as (b'' & E' & D & _ & A). rewrite E in E'. injection E' as <-. unfold extent. rewrite D.
  assert (G : forall l, (forall c, In c l -> (c < a_dim b)%nat) -> fold_right Rmult 1 (map (side b') l) = fold_right Rmult 1 (map (factor_at f) l) * fold_right Rmult 1 (map (side b) l)); [|apply G; intros c I; apply in_seq in I; lia].
  induction l as [|a l IH]; intros L; cbn; [ring|]. rewrite IH by (intros c I; apply L; right; exact I). destruct (A a (L a (or_introl eq_refl))) as (_ & ->). ring.
Qed.
Print Assumptions C47_scale_extent.

(** fill_area_random_density: the integer part of area * density points, each in the box and
    in the area; only for boxes of dimension 2. *)
Theorem C46_area_random_density : forall f b density draws fuel, valid_box b -> (forall k c, 0 <= draws k c <= 1) ->
  (a_dim b <> 2%nat -> fill_area_random_density f b density draws fuel = Some (Err AssertionError)) /\
  (a_dim b = 2%nat -> extent b * density <= -1 -> fill_area_random_density f b density draws fuel = Some (Err RuntimeError)) /\
  (a_dim b = 2%nat -> 0 <= density -> forall pts, fill_area_random_density f b density draws fuel = Some (Ok pts) ->
    INR (length pts) <= extent b * density < INR (length pts) + 1 /\
    Forall (fun p => shape p = [1%nat; 2%nat] /\ in_box b (fun c => p @2 (0%nat) c) /\ accepts_point f p) pts).
Proof.
  intros f b density draws fuel V D. destruct (C46_extent b V) as (_ & A & _ & P). unfold fill_area_random_density. rewrite A. split; [|split].
  - intros N. destruct (Nat.eqb_spec (a_dim b) 2); [contradiction|reflexivity].
  - intros -> L. cbn [Nat.eqb]. rewrite (proj2 (Rleb_true _ _) L). reflexivity.
  - intros E Hd pts. rewrite E at 1. cbn [Nat.eqb]. assert (Q : 0 <= extent b * density) by (apply Rmult_le_pos; assumption).
    rewrite (proj2 (Rleb_false _ _)) by lra. intros R. destruct (C46_area_random f b _ draws fuel pts V D R) as (L & F).
    destruct (base_Int_part (extent b * density)) as (B1 & B2). assert (Z : (0 <= Int_part (extent b * density))%Z). { apply Z.lt_succ_r, lt_IZR. rewrite succ_IZR. lra. }
    rewrite L, INR_IZR_INZ, Z2Nat.id by exact Z. split; [lra|]. rewrite E in F. exact F.
Qed.
Print Assumptions C46_area_random_density.

(** fill_uniform_density: the grid whose cells have the volume 1/density, in every dimension. *)
Theorem C46_uniform_density : forall b density, valid_box b -> (0 < a_dim b)%nat ->
  (density = 0 -> fill_uniform_density b density = Err ZeroDivisionError) /\
  (0 < density -> exists s, 0 < s /\ density * s ^ a_dim b = 1 /\
     fill_uniform_density b density = fill_uniform_spacing b s /\ is_ok (fill_uniform_density b density)).
Proof.
  intros b density V P. unfold fill_uniform_density. replace (Nat.eqb (a_dim b) 0) with false by (symmetry; apply Nat.eqb_neq; lia). split.
  - intros ->. replace (Reqb 0 0) with true by (symmetry; apply Reqb_true; reflexivity). reflexivity.
  - intros D. assert (Z : Reqb density 0 = false). { destruct (Reqb density 0) eqn:Q; [apply Reqb_true in Q; lra|reflexivity]. } rewrite Z. set (r := Rpower density (1 / INR (a_dim b))).
    assert (Pr : 0 < r) by apply exp_pos. assert (E : r ^ a_dim b = density).
    { rewrite <- Rpower_pow by exact Pr. unfold r. rewrite Rpower_mult. replace (1 / INR (a_dim b) * INR (a_dim b)) with 1 by (field; apply not_0_INR; lia). apply Rpower_1, D. }
    assert (Ps : 0 < 1 / r) by (apply Rdiv_lt_0_compat; lra). exists (1 / r). split; [exact Ps|]. split.
    + rewrite <- E. unfold Rdiv. rewrite Rmult_1_l, pow_inv. apply Rinv_r. apply pow_nonzero. lra.
    + split; [reflexivity|]. destruct (C46_spacing_grid b (1 / r) V P Ps) as (v & H & _). rewrite H. eexists; reflexivity.
Qed.
Print Assumptions C46_uniform_density.

(** area_AABB marks exactly the points of the box; a missing box is refused. *)
Theorem C46_area_box : forall p, area_AABB p None = Err RuntimeError /\
  forall b, (0 < a_dim b)%nat -> exists mask, area_AABB p (Some b) = Ok mask /\ length mask = nrows p /\
    forall i, (i < nrows p)%nat -> (nth i mask false = true <-> in_box b (fun c => p @2 i c)).
Proof. intros p. split; [reflexivity|]. intros b P. exact (C46_is_inside b p P). Qed.
Print Assumptions C46_area_box.

(** A case: the box [0, 1] x [2, 5]. *)
Example C45_reading_case : valid_box sample_box /\ getitem sample_box (KInt (-1)) = Ok (ANum 5) /\ getitem sample_box (KStr "ymin") = Ok (ANum 2) /\
  getitem sample_box (KStr "zmin") = Err IndexError /\ getitem sample_box (KStr "volume") = Err AssertionError /\ extent sample_box = 3.
Proof. split; [exact sample_box_valid|]. do 4 (split; [reflexivity|]). unfold extent, sample_box, box_of, side, lo, hi. cbn. ring. Qed.
Example C46_density_case : exists pts, fill_area_random_density (fun _ => Ok [true]) sample_box 1 (fun _ _ => 0) 5 = Some (Ok pts).
Proof.
  unfold fill_area_random_density. destruct (C46_extent sample_box sample_box_valid) as (_ & -> & _ & _). cbn [Nat.eqb a_dim sample_box box_of length].
  assert (X : extent sample_box = 3) by apply C45_reading_case. rewrite X. rewrite (proj2 (Rleb_false _ _)) by lra. unfold fill_area_random.
  generalize (Z.to_nat (Int_part (3 * 1))). intros n.
  assert (G : forall n k, exists pts, draw_points (fun _ => Ok [true]) sample_box (fun _ _ => 0) k n 5 = Some (Ok pts)); [|apply G]. clear n.
  induction n as [|n IH]; intros k; [eexists; reflexivity|]. cbn [draw_points draw_until forallb andb]. destruct (IH (S k)) as (l & ->). eexists. reflexivity.
Qed.
