(** Winding orders, convex shapes, segments. *)
From Coq Require Import Reals List Arith ZArith Lia Lra Permutation Bool.
From Verif Require Import Py RSum Tensor KernelModel FieldModel Fl MeshModel SpecMesh SpecAttachment VarifoldFacts AttachmentFacts.
Import ListNotations.
Open Scope R_scope.

(** ** Signs *)
Lemma rsign_1 x : rsign x = 1%Z <-> 0 < x.
Proof. unfold rsign. destruct (Rltb 0 x) eqn:E; [apply Rltb_true in E; tauto|]. apply Rltb_false in E. destruct (Rltb x 0); split; intros; try discriminate; lra. Qed.
Lemma rsign_m1 x : rsign x = (-1)%Z <-> x < 0.
Proof.
  unfold rsign. destruct (Rltb 0 x) eqn:E; [apply Rltb_true in E; split; [discriminate|lra]|]. apply Rltb_false in E.
  destruct (Rltb x 0) eqn:F; [apply Rltb_true in F; tauto|apply Rltb_false in F; split; [discriminate|lra]].
Qed.
Lemma rsign_0 x : rsign x = 0%Z <-> x = 0.
Proof.
  unfold rsign. destruct (Rltb 0 x) eqn:E; [apply Rltb_true in E; split; [discriminate|lra]|]. apply Rltb_false in E.
  destruct (Rltb x 0) eqn:F; [apply Rltb_true in F; split; [discriminate|lra]|apply Rltb_false in F; split; [lra|reflexivity]].
Qed.
Lemma rsign_opp x : rsign (- x) = (- rsign x)%Z.
Proof.
  destruct (Rtotal_order x 0) as [L|[->|G]].
  - rewrite (proj2 (rsign_m1 x) L), (proj2 (rsign_1 (- x))) by lra. reflexivity.
  - rewrite Ropp_0, (proj2 (rsign_0 0)) by reflexivity. reflexivity.
  - rewrite (proj2 (rsign_1 x) G), (proj2 (rsign_m1 (- x))) by lra. reflexivity.
Qed.

Lemma side_sign_orient p0 p1 x y : side_sign p0 p1 x y = rsign (orient (pt_of p0) (pt_of p1) (x, y)).
Proof. reflexivity. Qed.

Lemma area_side_one p p0 p1 sd b : shape p = [2%nat] ->
  the_bool (area_side p (through p0 p1) (Some sd) b) =
  Ok (let r := rsign (orient (pt_of p0) (pt_of p1) (pt_of p)) in
      if match b with Some b => b | None => false end then (Z.eqb r sd || Z.eqb r 0)%bool else Z.eqb r sd).
Proof. intros H. unfold area_side, as_rows. cbn [line_points through ln_origin ln_direction ln_p0 ln_p1 bind]. rewrite H. reflexivity. Qed.

(** ** Winding orders are sums over edges *)
Definition contrib (side : Z) (q a b : pt) : Z :=
  if Rleb (snd a) (snd q) then
    if Rltb (snd q) (snd b) then (if Z.eqb (rsign (orient a b q)) side then 1 else 0)%Z else 0%Z
  else if Rleb (snd b) (snd q) then (if Z.eqb (rsign (orient a b q)) (- side) then -1 else 0)%Z else 0%Z.

Definition zsum (l : list Z) : Z := fold_right Z.add 0%Z l.
Lemma zsum_app l l' : zsum (l ++ l') = (zsum l + zsum l')%Z.
Proof. induction l as [|a l IH]; cbn [app zsum fold_right]; [reflexivity|]. unfold zsum in IH. rewrite IH. unfold zsum. lia. Qed.
Lemma zsum_perm l l' : Permutation l l' -> zsum l = zsum l'.
Proof. unfold zsum. induction 1; cbn [fold_right]; try lia. Qed.
Lemma zsum_opp l : zsum (map Z.opp l) = (- zsum l)%Z.
Proof. unfold zsum. induction l as [|a l IH]; cbn [map fold_right]; [reflexivity|]. rewrite IH. lia. Qed.
Lemma zsum_zero l : (forall z, In z l -> z = 0%Z) -> zsum l = 0%Z.
Proof. unfold zsum. induction l as [|a l IH]; intros H; cbn [fold_right]; [reflexivity|]. rewrite IH, (H a); [reflexivity|left; reflexivity|]. intros; apply H; right; assumption. Qed.
Lemma zsum_plus {A} (f g : A -> Z) l : zsum (map (fun a => (f a + g a)%Z) l) = (zsum (map f l) + zsum (map g l))%Z.
Proof. unfold zsum. induction l as [|a l IH]; cbn [map fold_right]; [reflexivity|]. rewrite IH. lia. Qed.

Definition is_point (q : tensor) : Prop := shape q = [2%nat].

Lemma wn_edge_ok q x side i w : is_point q -> wn_edge q x side i w = Ok (w + contrib side (pt_of q) (vtx x i) (vtx x (i + 1)%nat))%Z.
Proof.
  intros Hq. unfold wn_edge, contrib. change (snd (pt_of q)) with (q @1 (1%nat)). change (snd (vtx x i)) with ((row x i) @1 (1%nat)). change (snd (vtx x (i + 1)%nat)) with ((row x (i + 1)%nat) @1 (1%nat)).
  change (vtx x i) with (pt_of (row x i)). change (vtx x (i + 1)%nat) with (pt_of (row x (i + 1)%nat)).
  rewrite !area_side_one by exact Hq. cbn [bind].
  destruct (Rleb ((row x i) @1 (1%nat)) (q @1 (1%nat))); [destruct (Rltb (q @1 (1%nat)) ((row x (i + 1)%nat) @1 (1%nat)))|destruct (Rleb ((row x (i + 1)%nat) @1 (1%nat)) (q @1 (1%nat)))];
    cbv zeta; try match goal with |- context [Z.eqb ?a ?b] => destruct (Z.eqb a b) end; f_equal; lia.
Qed.
Lemma wn_loop_ok q x side : is_point q -> forall n i w, wn_loop q x side i n w =
  Ok (w + zsum (map (fun k => contrib side (pt_of q) (vtx x k) (vtx x (k + 1)%nat)) (seq i n)))%Z.
Proof.
  intros Hq. induction n as [|n IH]; intros i w; cbn [wn_loop seq map].
  - unfold zsum. cbn. f_equal. lia.
  - rewrite wn_edge_ok by exact Hq. cbn [bind]. rewrite IH. unfold zsum. cbn [fold_right]. f_equal. lia.
Qed.
Lemma winding_ok q x side : is_point q -> winding_order q x side =
  Ok (zsum (map (fun k => contrib side (pt_of q) (vtx x k) (vtx x (k + 1)%nat)) (seq 0 (nrows x - 1)))).
Proof. intros Hq. unfold winding_order. rewrite wn_loop_ok by exact Hq. reflexivity. Qed.

(** The closed polygon. *)
Definition turns (side : Z) (q : pt) (s : tensor) : Z :=
  zsum (map (fun k => contrib side q (edge_from s k) (edge_to s k)) (seq 0 (nrows s))).

Lemma closed_vtx s N d c : shape s = [N; d] -> close_shape s = Ok c -> forall i, (i < N)%nat -> vtx c i = vtx s i /\ vtx c (i + 1)%nat = vtx s ((i + 1) mod N)%nat.
Proof.
  intros H E i L. unfold close_shape, nrows in E. rewrite H in E. cbn [tnth nth] in E. destruct (Nat.eqb_spec N 0); [discriminate E|]. injection E as <-.
  unfold vtx. cbn [get mk2]. rewrite (proj2 (Nat.ltb_lt i N) L). split; [reflexivity|].
  destruct (Nat.ltb_spec (i + 1) N); [rewrite Nat.mod_small by lia; reflexivity|]. replace (i + 1)%nat with N by lia. rewrite Nat.mod_same by lia. reflexivity.
Qed.
Lemma winding_closed s N d c q side : shape s = [N; d] -> close_shape s = Ok c -> is_point q -> winding_order q c side = Ok (turns side (pt_of q) s).
Proof.
  intros H E Hq. rewrite winding_ok by exact Hq. f_equal. unfold turns.
  assert (NC : nrows c = (N + 1)%nat).
  { unfold close_shape, nrows in E. rewrite H in E. cbn [tnth nth] in E. destruct (Nat.eqb_spec N 0); [discriminate E|]. injection E as <-. reflexivity. }
  assert (NS : nrows s = N) by (unfold nrows; rewrite H; reflexivity).
  rewrite NC, NS. replace (N + 1 - 1)%nat with N by lia. f_equal. apply map_ext_in. intros i I. apply in_seq in I.
  destruct (closed_vtx s N d c H E i ltac:(lia)) as (E1 & E2). unfold edge_from, edge_to. rewrite E1, E2, NS. reflexivity.
Qed.

(** ** Contributions *)

(** Below or at the height of q. *)
Definition low (q a : pt) : Z := if Rleb (snd a) (snd q) then 1%Z else 0%Z.

(** Edges crossing the horizontal line upward or downward. *)
Definition crossing (q a b : pt) : Z := (low q a - low q b)%Z.
Lemma contrib_cases q a b side :
  contrib side q a b = match crossing q a b with
                       | 1%Z => if Z.eqb (rsign (orient a b q)) side then 1%Z else 0%Z
                       | (-1)%Z => if Z.eqb (rsign (orient a b q)) (- side) then (-1)%Z else 0%Z
                       | _ => 0%Z
                       end.
Proof.
  unfold contrib, crossing, low. destruct (Rleb (snd a) (snd q)) eqn:E1.
  - destruct (Rltb (snd q) (snd b)) eqn:E2; destruct (Rleb (snd b) (snd q)) eqn:E3; try reflexivity.
    + apply Rltb_true in E2. apply Rleb_true in E3. lra.
    + apply Rltb_false in E2. apply Rleb_false in E3. lra.
  - destruct (Rleb (snd b) (snd q)); reflexivity.
Qed.
Lemma crossing_range q a b : crossing q a b = 0%Z \/ (crossing q a b = 1%Z /\ snd a <= snd q < snd b) \/ (crossing q a b = (-1)%Z /\ snd b <= snd q < snd a).
Proof.
  unfold crossing, low. destruct (Rleb (snd a) (snd q)) eqn:E1; destruct (Rleb (snd b) (snd q)) eqn:E2; rewrite ?Rleb_true, ?Rleb_false in *; cbn; auto.
Qed.

(** A crossing edge whose line goes through q contains q. *)
Lemma crossing_on q a b : crossing q a b <> 0%Z -> orient a b q = 0 -> on_segment a b q.
Proof.
  intros C O. assert (D : snd b - snd a <> 0) by (destruct (crossing_range q a b) as [Z|[(_ & H)|(_ & H)]]; [contradiction|lra|lra]).
  exists ((snd q - snd a) / (snd b - snd a)). unfold orient in O. split.
  - destruct (crossing_range q a b) as [Z|[(_ & H)|(_ & H)]]; [contradiction| |].
    + split; [apply Rmult_le_pos; [lra|left; apply Rinv_0_lt_compat; lra]|]. apply (Rmult_le_reg_r (snd b - snd a)); [lra|]. unfold Rdiv. rewrite Rmult_assoc, Rinv_l by exact D. lra.
    + replace ((snd q - snd a) / (snd b - snd a)) with ((snd a - snd q) / (snd a - snd b)) by (field; lra).
      split; [apply Rmult_le_pos; [lra|left; apply Rinv_0_lt_compat; lra]|]. apply (Rmult_le_reg_r (snd a - snd b)); [lra|]. unfold Rdiv. rewrite Rmult_assoc, Rinv_l by lra. lra.
  - unfold along. destruct q as [qx qy]. cbn [fst snd] in *. f_equal; [|field; exact D].
    apply (Rmult_eq_reg_r (snd b - snd a)); [|exact D]. field_simplify; [|exact D]. lra.
Qed.

Lemma contrib_sides q a b : ~ on_segment a b q -> (contrib 1 q a b + contrib (-1) q a b)%Z = crossing q a b.
Proof.
  intros NS. rewrite !contrib_cases. destruct (crossing_range q a b) as [Z|[(C & _)|(C & _)]]; [rewrite Z; reflexivity| |]; rewrite C.
  - assert (O : orient a b q <> 0) by (intros O; apply NS, crossing_on; [rewrite C; discriminate|exact O]).
    destruct (Rdichotomy _ _ O) as [L|G]; [rewrite (proj2 (rsign_m1 _) L)|rewrite (proj2 (rsign_1 _) G)]; reflexivity.
  - assert (O : orient a b q <> 0) by (intros O; apply NS, crossing_on; [rewrite C; discriminate|exact O]).
    destruct (Rdichotomy _ _ O) as [L|G]; [rewrite (proj2 (rsign_m1 _) L)|rewrite (proj2 (rsign_1 _) G)]; reflexivity.
Qed.

Lemma orient_swap a b q : orient b a q = - orient a b q.
Proof. unfold orient. ring. Qed.
Lemma contrib_reverse side q a b : contrib side q b a = (- contrib side q a b)%Z.
Proof.
  rewrite !contrib_cases, orient_swap, rsign_opp. replace (crossing q b a) with (- crossing q a b)%Z by (unfold crossing; lia).
  destruct (crossing_range q a b) as [Z|[(C & _)|(C & _)]]; [rewrite Z; reflexivity| |]; rewrite C; cbn.
  - destruct (Z.eqb_spec (- rsign (orient a b q)) (- side)), (Z.eqb_spec (rsign (orient a b q)) side); try reflexivity; lia.
  - destruct (Z.eqb_spec (- rsign (orient a b q)) side), (Z.eqb_spec (rsign (orient a b q)) (- side)); try reflexivity; lia.
Qed.

(** ** Closed polygons *)
Lemma map_shift_perm n (f : nat -> Z) : zsum (map (fun i => f ((i + 1) mod n)%nat) (seq 0 n)) = zsum (map f (seq 0 n)).
Proof.
  destruct (Nat.eq_dec n 0) as [->|NZ]; [reflexivity|]. rewrite <- (map_map (fun i => (i + 1) mod n)%nat f). apply zsum_perm, Permutation_map.
  apply (seq_perm _ (fun j => (j + (n - 1)) mod n)%nat). intros i L. split; [apply Nat.mod_upper_bound; exact NZ|].
  rewrite Nat.add_mod_idemp_l by exact NZ. replace (i + 1 + (n - 1))%nat with (i + 1 * n)%nat by lia. rewrite Nat.mod_add by exact NZ. apply Nat.mod_small. exact L.
Qed.

Lemma crossings_cancel q s : zsum (map (fun k => crossing q (edge_from s k) (edge_to s k)) (seq 0 (nrows s))) = 0%Z.
Proof.
  unfold crossing. rewrite (map_ext _ (fun k => (low q (vtx s k) + - low q (vtx s ((k + 1) mod nrows s)%nat))%Z)) by (intros; unfold edge_from, edge_to; lia).
  rewrite zsum_plus. rewrite <- (map_map (fun k => low q (vtx s ((k + 1) mod nrows s)%nat)) Z.opp), zsum_opp.
  rewrite (map_shift_perm (nrows s) (fun k => low q (vtx s k))). lia.
Qed.

Lemma turns_sides q s : ~ outline s q -> turns (-1) q s = (- turns 1 q s)%Z.
Proof.
  intros NO. assert (E : (turns 1 q s + turns (-1) q s)%Z = 0%Z); [|lia]. unfold turns. rewrite <- zsum_plus, <- (crossings_cancel q s).
  f_equal. apply map_ext_in. intros i I. apply in_seq in I. apply contrib_sides. intros S. apply NO. exists i. split; [lia|exact S].
Qed.

(** All edges crossing the horizontal line are seen on the same side. *)
Lemma turns_all_counted side q s :
  (forall i, (i < nrows s)%nat -> contrib side q (edge_from s i) (edge_to s i) = crossing q (edge_from s i) (edge_to s i)) -> turns side q s = 0%Z.
Proof.
  intros H. unfold turns. rewrite <- (crossings_cancel q s). f_equal. apply map_ext_in. intros i I. apply in_seq in I. apply H. lia.
Qed.
Lemma turns_none_counted side q s : (forall i, (i < nrows s)%nat -> contrib side q (edge_from s i) (edge_to s i) = 0%Z) -> turns side q s = 0%Z.
Proof. intros H. apply zsum_zero. intros z I. apply in_map_iff in I. destruct I as (i & <- & I). apply in_seq in I. apply H. lia. Qed.

Lemma next_lt i s : (i < nrows s)%nat -> ((i + 1) mod nrows s < nrows s)%nat.
Proof. intros L. apply Nat.mod_upper_bound. lia. Qed.

(** The half-plane lemma: a point separated from the vertices has order 0. *)
Lemma separated_orient q a b n :
  0 < fst n * (fst a - fst q) + snd n * (snd a - snd q) -> 0 < fst n * (fst b - fst q) + snd n * (snd b - snd q) ->
  (crossing q a b = 1%Z -> 0 < fst n * orient a b q) /\ (crossing q a b = (-1)%Z -> fst n * orient a b q < 0).
Proof.
  intros Ha Hb.
  assert (I : fst n * orient a b q = (snd b - snd q) * (fst n * (fst a - fst q) + snd n * (snd a - snd q)) - (snd a - snd q) * (fst n * (fst b - fst q) + snd n * (snd b - snd q))).
  { unfold orient. ring. }
  split; intros C; destruct (crossing_range q a b) as [Z|[(C' & H)|(C' & H)]]; try congruence; rewrite I; nra.
Qed.

Lemma separated_turns q s side : (side = 1 \/ side = -1)%Z -> separated s q -> turns side q s = 0%Z.
Proof.
  intros Sd (n & H).
  assert (K : forall i, (i < nrows s)%nat -> (crossing q (edge_from s i) (edge_to s i) = 1%Z -> 0 < fst n * orient (edge_from s i) (edge_to s i) q) /\
                                            (crossing q (edge_from s i) (edge_to s i) = (-1)%Z -> fst n * orient (edge_from s i) (edge_to s i) q < 0)).
  { intros i L. apply separated_orient; [apply H; exact L|apply H, next_lt; exact L]. }
  destruct (Rtotal_order (fst n) 0) as [NL|[NE|NG]].
  - (* every crossing is on the left *)
    assert (S : forall i, (i < nrows s)%nat -> (crossing q (edge_from s i) (edge_to s i) = 1%Z -> rsign (orient (edge_from s i) (edge_to s i) q) = (-1)%Z) /\
                                              (crossing q (edge_from s i) (edge_to s i) = (-1)%Z -> rsign (orient (edge_from s i) (edge_to s i) q) = 1%Z)).
    { intros i L. destruct (K i L) as (K1 & K2). split; intros C; [apply rsign_m1; specialize (K1 C)|apply rsign_1; specialize (K2 C)]; nra. }
    destruct Sd as [->| ->]; [apply turns_none_counted|apply turns_all_counted]; intros i L; rewrite contrib_cases; destruct (S i L) as (S1 & S2);
      (destruct (crossing_range q (edge_from s i) (edge_to s i)) as [Z|[(C & _)|(C & _)]]; [rewrite Z; reflexivity| |]); rewrite C; [rewrite (S1 C)|rewrite (S2 C)|rewrite (S1 C)|rewrite (S2 C)]; reflexivity.
  - apply turns_none_counted. intros i L. rewrite contrib_cases. destruct (K i L) as (K1 & K2). rewrite NE in K1, K2.
    destruct (crossing_range q (edge_from s i) (edge_to s i)) as [Z|[(C & _)|(C & _)]]; [rewrite Z; reflexivity|specialize (K1 C); lra|specialize (K2 C); lra].
  - assert (S : forall i, (i < nrows s)%nat -> (crossing q (edge_from s i) (edge_to s i) = 1%Z -> rsign (orient (edge_from s i) (edge_to s i) q) = 1%Z) /\
                                              (crossing q (edge_from s i) (edge_to s i) = (-1)%Z -> rsign (orient (edge_from s i) (edge_to s i) q) = (-1)%Z)).
    { intros i L. destruct (K i L) as (K1 & K2). split; intros C; [apply rsign_1; specialize (K1 C)|apply rsign_m1; specialize (K2 C)]; nra. }
    destruct Sd as [->| ->]; [apply turns_all_counted|apply turns_none_counted]; intros i L; rewrite contrib_cases; destruct (S i L) as (S1 & S2);
      (destruct (crossing_range q (edge_from s i) (edge_to s i)) as [Z|[(C & _)|(C & _)]]; [rewrite Z; reflexivity| |]); rewrite C; [rewrite (S1 C)|rewrite (S2 C)|rewrite (S1 C)|rewrite (S2 C)]; reflexivity.
Qed.

(** Reversed and from another vertex. *)
Lemma turns_from k side q s : turns side q (from_vertex k s) = turns side q s.
Proof.
  destruct (Nat.eq_dec (nrows s) 0) as [Z|NZ]; [unfold turns; change (nrows (from_vertex k s)) with (nrows s); rewrite Z; reflexivity|].
  unfold turns. change (nrows (from_vertex k s)) with (nrows s).
  rewrite (map_ext_in _ (fun i => contrib side q (edge_from s ((i + k) mod nrows s)%nat) (edge_to s ((i + k) mod nrows s)%nat))).
  - rewrite <- (map_map (fun i => (i + k) mod nrows s)%nat (fun j => contrib side q (edge_from s j) (edge_to s j))). apply zsum_perm, Permutation_map.
    apply (seq_perm _ (fun j => (j + (nrows s - k mod nrows s)) mod nrows s)%nat). intros i L. split; [apply Nat.mod_upper_bound; lia|].
    rewrite Nat.add_mod_idemp_l by lia. pose proof (Nat.div_mod k (nrows s) NZ) as D. pose proof (Nat.mod_upper_bound k (nrows s) NZ).
    replace (i + k + (nrows s - k mod nrows s))%nat with (i + (k / nrows s + 1) * nrows s)%nat by nia. rewrite Nat.mod_add by lia. apply Nat.mod_small. exact L.
  - intros i _. unfold edge_from, edge_to. change (nrows (from_vertex k s)) with (nrows s). unfold vtx, from_vertex. cbn [get mk2]. rewrite (mod_shift i k (nrows s)) by lia. reflexivity.
Qed.

Lemma turns_backward side q s : turns side q (backward s) = (- turns side q s)%Z.
Proof.
  unfold turns. change (nrows (backward s)) with (nrows s). destruct (Nat.eq_dec (nrows s) 0) as [Z|NZ]; [rewrite Z; reflexivity|].
  set (n := nrows s) in *. set (f := fun i => ((2 * n - 2 - i) mod n)%nat).
  assert (Hf : forall i, (i < n)%nat -> (f i < n)%nat /\ f (f i) = i).
  { intros i L. unfold f. split; [apply Nat.mod_upper_bound; exact NZ|]. destruct (Nat.eq_dec i (n - 1)) as [->|NE].
    - replace (2 * n - 2 - (n - 1))%nat with (n - 1)%nat by lia. rewrite (Nat.mod_small (n - 1)) by lia. replace (2 * n - 2 - (n - 1))%nat with (n - 1)%nat by lia. apply Nat.mod_small. lia.
    - replace (2 * n - 2 - i)%nat with ((n - 2 - i) + 1 * n)%nat by lia. rewrite Nat.mod_add by exact NZ. rewrite (Nat.mod_small (n - 2 - i)) by lia.
      replace (2 * n - 2 - (n - 2 - i))%nat with (i + 1 * n)%nat by lia. rewrite Nat.mod_add by exact NZ. apply Nat.mod_small. lia. }
  rewrite <- zsum_opp, map_map. transitivity (zsum (map (fun i => contrib side q (edge_from (backward s) (f i)) (edge_to (backward s) (f i))) (seq 0 n))).
  - rewrite <- (map_map f (fun j => contrib side q (edge_from (backward s) j) (edge_to (backward s) j))). symmetry. apply zsum_perm, Permutation_map, (seq_perm f f). exact Hf.
  - f_equal. apply map_ext_in. intros i I. apply in_seq in I. rewrite <- contrib_reverse.
    assert (E1 : vtx (backward s) (f i) = edge_to s i /\ vtx (backward s) ((f i + 1) mod n)%nat = edge_from s i).
    { unfold vtx, backward, edge_to, edge_from, vtx. cbn [get mk2]. fold n.
      assert (A : ((n - 1 - f i) = (i + 1) mod n)%nat).
      { unfold f. destruct (Nat.eq_dec i (n - 1)) as [->|NE].
        - replace (2 * n - 2 - (n - 1))%nat with (n - 1)%nat by lia. rewrite (Nat.mod_small (n - 1)) by lia. replace (n - 1 + 1)%nat with n by lia. rewrite Nat.mod_same by exact NZ. lia.
        - replace (2 * n - 2 - i)%nat with ((n - 2 - i) + 1 * n)%nat by lia. rewrite Nat.mod_add by exact NZ. rewrite (Nat.mod_small (n - 2 - i)) by lia. rewrite (Nat.mod_small (i + 1)) by lia. lia. }
      assert (B : ((n - 1 - (f i + 1) mod n) = i)%nat).
      { unfold f. rewrite Nat.add_mod_idemp_l by exact NZ. replace (2 * n - 2 - i + 1)%nat with ((n - 1 - i) + 1 * n)%nat by lia. rewrite Nat.mod_add by exact NZ. rewrite Nat.mod_small by lia. lia. }
      rewrite A, B. split; reflexivity. }
    destruct E1 as (E1 & E2). unfold edge_from at 1, edge_to at 1. change (nrows (backward s)) with n. rewrite E1, E2. reflexivity.
Qed.

(** ** Points on the left of every edge *)
Lemma sum_positive_cycle (n : nat) (c : nat -> R) : (0 < n)%nat -> ~ forall i, (i < n)%nat -> c ((i + 1) mod n)%nat < c i.
Proof.
  intros Ln H.
  assert (P : forall i, (i < n)%nat -> c i <= c 0%nat).
  { induction i as [|i IH]; intros L; [lra|]. specialize (IH ltac:(lia)). specialize (H i ltac:(lia)). rewrite Nat.mod_small in H by lia. replace (i + 1)%nat with (S i) in H by lia. lra. }
  specialize (H (n - 1)%nat ltac:(lia)). replace (n - 1 + 1)%nat with n in H by lia. rewrite Nat.mod_same in H by lia. specialize (P (n - 1)%nat ltac:(lia)). lra.
Qed.

Lemma inside_turns q s : (0 < nrows s)%nat -> inside 1 s q -> (0 < turns 1 q s)%Z.
Proof.
  intros LN IN. set (n := nrows s) in *.
  assert (CT : forall i, (i < n)%nat -> contrib 1 q (edge_from s i) (edge_to s i) = (if Z.eqb (crossing q (edge_from s i) (edge_to s i)) 1 then 1 else 0)%Z).
  { intros i L. rewrite contrib_cases. specialize (IN i L). rewrite Rmult_1_l in IN. apply rsign_1 in IN. rewrite IN.
    destruct (crossing_range q (edge_from s i) (edge_to s i)) as [Z|[(C & _)|(C & _)]]; [rewrite Z|rewrite C|rewrite C]; reflexivity. }
  assert (P : (0 <= turns 1 q s)%Z /\ (turns 1 q s = 0%Z -> forall i, (i < n)%nat -> crossing q (edge_from s i) (edge_to s i) <> 1%Z)).
  { unfold turns. fold n. rewrite (map_ext_in _ (fun i => if Z.eqb (crossing q (edge_from s i) (edge_to s i)) 1 then 1 else 0)%Z) by (intros i I; apply in_seq in I; apply CT; lia).
    assert (G : forall l, (0 <= zsum (map (fun i => if Z.eqb (crossing q (edge_from s i) (edge_to s i)) 1 then 1 else 0)%Z l))%Z /\
       (zsum (map (fun i => if Z.eqb (crossing q (edge_from s i) (edge_to s i)) 1 then 1 else 0)%Z l) = 0%Z -> forall i, In i l -> crossing q (edge_from s i) (edge_to s i) <> 1%Z)).
    { unfold zsum. induction l as [|j l (IH1 & IH2)]; cbn [map fold_right In]; [split; [lia|intros _ i []]|].
      destruct (Z.eqb_spec (crossing q (edge_from s j) (edge_to s j)) 1) as [E|NE]; split; try lia. intros Z i [<-|I]; [exact NE|apply IH2; [lia|exact I]]. }
    destruct (G (seq 0 n)) as (G1 & G2). split; [exact G1|]. intros Z i L. apply (G2 Z). apply in_seq. lia. }
  destruct P as (P1 & P2). destruct (Z.eq_dec (turns 1 q s) 0) as [Z|NZ]; [|lia]. exfalso. specialize (P2 Z).
  (* no upward crossing: every vertex is low, or none is *)
  assert (M : forall i, (i < n)%nat -> (low q (vtx s i) <= low q (vtx s ((i + 1) mod n)%nat))%Z).
  { intros i L. specialize (P2 i L). unfold crossing, edge_from, edge_to in P2. fold n in P2. unfold low in *. destruct (Rleb (snd (vtx s i)) (snd q)), (Rleb (snd (vtx s ((i + 1) mod n)%nat)) (snd q)); lia. }
  assert (A : forall i, (i < n)%nat -> low q (vtx s i) = low q (vtx s 0%nat)).
  { assert (U : forall i, (i < n)%nat -> (low q (vtx s 0%nat) <= low q (vtx s i))%Z).
    { induction i as [|i IH]; intros L; [lia|]. specialize (IH ltac:(lia)). specialize (M i ltac:(lia)). rewrite Nat.mod_small in M by lia. replace (i + 1)%nat with (S i) in M by lia. lia. }
    assert (D : forall k i, (i + k = n - 1)%nat -> (low q (vtx s i) <= low q (vtx s 0%nat))%Z).
    { induction k as [|k IH]; intros i E.
      - specialize (M i ltac:(lia)). replace (i + 1)%nat with n in M by lia. rewrite Nat.mod_same in M by lia. exact M.
      - specialize (IH (i + 1)%nat ltac:(lia)). specialize (M i ltac:(lia)). rewrite Nat.mod_small in M by lia. lia. }
    intros i L. specialize (U i L). specialize (D (n - 1 - i)%nat i ltac:(lia)). lia. }
  destruct (Rleb (snd (vtx s 0%nat)) (snd q)) eqn:E0.
  - (* all low: heights at most that of q *)
    assert (LO : forall i, (i < n)%nat -> snd (vtx s i) <= snd q).
    { intros i L. specialize (A i L). unfold low in A. rewrite E0 in A. destruct (Rleb (snd (vtx s i)) (snd q)) eqn:E; [apply Rleb_true; exact E|discriminate A]. }
    (* at most one vertex... none can be at the height of q *)
    assert (O : forall i, (i < n)%nat -> 0 < (fst (vtx s i) - fst q) * (snd (vtx s ((i + 1) mod n)%nat) - snd q) - (fst (vtx s ((i + 1) mod n)%nat) - fst q) * (snd (vtx s i) - snd q)).
    { intros i L. specialize (IN i L). unfold edge_from, edge_to, orient in IN. fold n in IN. lra. }
    assert (ST : forall i, (i < n)%nat -> snd (vtx s i) < snd q).
    { intros i L. destruct (LO i L) as [H|H]; [exact H|]. exfalso.
      (* v_i at the height of q: its successor must be on one side, its predecessor on the other *)
      pose proof (O i L) as O1. pose proof (LO ((i + 1) mod n)%nat ltac:(apply Nat.mod_upper_bound; lia)) as L1. rewrite H in O1. replace (snd q - snd q) with 0 in O1 by ring.
      set (j := ((i + (n - 1)) mod n)%nat). assert (Lj : (j < n)%nat) by (apply Nat.mod_upper_bound; lia).
      assert (NJ : ((j + 1) mod n = i)%nat).
      { unfold j. rewrite Nat.add_mod_idemp_l by lia. replace (i + (n - 1) + 1)%nat with (i + 1 * n)%nat by lia. rewrite Nat.mod_add by lia. apply Nat.mod_small. exact L. }
      pose proof (O j Lj) as O2. rewrite NJ, H in O2. replace (snd q - snd q) with 0 in O2 by ring. pose proof (LO j Lj) as L2.
      set (x := fst (vtx s i) - fst q) in *. destruct (Rle_lt_dec 0 x) as [X|X]; nra. }
    (* the cotangents decrease *)
    apply (sum_positive_cycle n (fun i => - ((fst (vtx s i) - fst q) / (snd q - snd (vtx s i)))) LN). intros i L.
    pose proof (O i L) as Oi. pose proof (ST i L) as S1. pose proof (ST ((i + 1) mod n)%nat ltac:(apply Nat.mod_upper_bound; lia)) as S2.
    set (x1 := fst (vtx s i) - fst q) in *. set (y1 := snd q - snd (vtx s i)). set (x2 := fst (vtx s ((i + 1) mod n)%nat) - fst q) in *. set (y2 := snd q - snd (vtx s ((i + 1) mod n)%nat)).
    assert (Y1 : 0 < y1) by (unfold y1; lra). assert (Y2 : 0 < y2) by (unfold y2; lra).
    assert (X : x1 * y2 < x2 * y1) by (unfold y1, y2; nra).
    apply Ropp_lt_contravar. apply (Rmult_lt_reg_r (y1 * y2)); [nra|]. replace (x1 / y1 * (y1 * y2)) with (x1 * y2) by (field; lra). replace (x2 / y2 * (y1 * y2)) with (x2 * y1) by (field; lra). exact X.
  - assert (HI : forall i, (i < n)%nat -> snd q < snd (vtx s i)).
    { intros i L. specialize (A i L). unfold low in A. rewrite E0 in A. destruct (Rleb (snd (vtx s i)) (snd q)) eqn:E; [discriminate A|apply Rleb_false; exact E]. }
    apply (sum_positive_cycle n (fun i => (fst (vtx s i) - fst q) / (snd (vtx s i) - snd q)) LN). intros i L.
    specialize (IN i L). unfold edge_from, edge_to, orient in IN. fold n in IN.
    pose proof (HI i L) as S1. pose proof (HI ((i + 1) mod n)%nat ltac:(apply Nat.mod_upper_bound; lia)) as S2.
    set (x1 := fst (vtx s i) - fst q) in *. set (y1 := snd (vtx s i) - snd q). set (x2 := fst (vtx s ((i + 1) mod n)%nat) - fst q). set (y2 := snd (vtx s ((i + 1) mod n)%nat) - snd q).
    assert (Y1 : 0 < y1) by (unfold y1; lra). assert (Y2 : 0 < y2) by (unfold y2; lra).
    assert (X : x2 * y1 < x1 * y2) by (unfold x1, x2, y1, y2; nra).
    apply (Rmult_lt_reg_r (y1 * y2)); [nra|]. replace (x1 / y1 * (y1 * y2)) with (x1 * y2) by (field; lra). replace (x2 / y2 * (y1 * y2)) with (x2 * y1) by (field; lra). exact X.
Qed.
