(** Reparametrisations and rigid motions of curves and meshes. *)
From Coq Require Import Reals List Arith Lia Lra Permutation Bool.
From Verif Require Import RSum Tensor SpecKernel KernelFacts KernelModel Fl MeshModel SpecAttachment VarifoldFacts AttachmentFacts.
Import ListNotations.
Open Scope R_scope.

Lemma unoriented_trans d p q r : unoriented d p q -> unoriented d q r -> unoriented d p r.
Proof.
  intros (C1 & V1) (C2 & V2). split; [intros c L; rewrite C1, C2 by exact L; reflexivity|].
  destruct V1 as [V1|V1], V2 as [V2|V2]; [left|right|right|left]; intros c L; rewrite V1, V2 by exact L; ring.
Qed.
Lemma Forall2_flip {A B} (R0 : A -> B -> Prop) l l' : Forall2 R0 l l' -> Forall2 (fun b a => R0 a b) l' l.
Proof. induction 1; constructor; assumption. Qed.
Lemma same_shape_trans d P Q S : same_shape d P Q -> same_shape d Q S -> same_shape d P S.
Proof.
  intros (H & PE & F) (H2 & PE2 & F2). destruct (Permutation_Forall2 PE2 (Forall2_flip _ _ _ F)) as (H3 & PE3 & F3).
  exists H3. split; [eapply Permutation_trans; eassumption|]. apply Forall2_flip in F3.
  clear -F3 F2. revert S F2. induction F3 as [|p q A B U _ IH]; intros S F2; inversion F2; subst; constructor; [eapply unoriented_trans; [|eassumption]; exact U|apply IH; assumption].
Qed.

(** ** Motions *)
Definition turned (d : nat) (Q : nat -> nat -> R) (u : nat -> R) (c : nat) : R := rsum d (fun a => Q c a * u a).

Lemma turned_dot d Q u v : orthogonal d Q -> dotv d (turned d Q u) (turned d Q v) = dotv d u v.
Proof.
  intros H. unfold dotv, turned.
  rewrite (rsum_ext d _ (fun c => rsum d (fun a => rsum d (fun b => Q c a * u a * (Q c b * v b))))) by (intros c _; apply rsum_mult).
  rewrite rsum_swap. apply rsum_ext. intros a La. rewrite rsum_swap.
  rewrite (rsum_ext d _ (fun b => delta a b * (u a * v b))).
  - apply (rsum_delta_r d (fun b => u a * v b)). exact La.
  - intros b Lb. rewrite <- (H a b La Lb), <- rsum_scal_r. apply rsum_ext. intros c _. ring.
Qed.

Lemma dotv_ext d u u' v v' : (forall c, (c < d)%nat -> u c = u' c) -> (forall c, (c < d)%nat -> v c = v' c) -> dotv d u v = dotv d u' v'.
Proof. intros H K. apply rsum_ext. intros c L. rewrite H, K by exact L. reflexivity. Qed.
Lemma sqn_ext d u u' : (forall c, (c < d)%nat -> u c = u' c) -> sqn d u = sqn d u'.
Proof. intros H. apply rsum_ext. intros c L. rewrite H by exact L. reflexivity. Qed.
Lemma turned_sqn d Q u : orthogonal d Q -> sqn d (turned d Q u) = sqn d u.
Proof. intros H. rewrite !sqn_dotv. apply turned_dot. exact H. Qed.

(** Each piece moved by the motion (Q, t). *)
Definition moves d Q (t : nat -> R) (p p' : piece) : Prop :=
  forall c, (c < d)%nat -> centre p' c = turned d Q (centre p) c + t c /\ vec p' c = turned d Q (vec p) c.

Lemma turned_sub d Q u v c : turned d Q (vsub u v) c = turned d Q u c - turned d Q v c.
Proof. unfold turned, vsub. rewrite <- rsum_minus. apply rsum_ext. intros; ring. Qed.
Lemma turned_half d Q u v c : turned d Q (fun a => (u a + v a) / 2) c = (turned d Q u c + turned d Q v c) / 2.
Proof. unfold turned. rewrite <- rsum_plus, <- rsum_div. apply rsum_ext. intros; lra. Qed.

Lemma Forall2_combine {A B} (R0 : A -> B -> Prop) l l' a b : Forall2 R0 l l' -> In (a, b) (combine l l') -> R0 a b.
Proof. induction 1 as [|x y l l' H F IH]; cbn [combine]; [intros []|]. intros [E|I]; [injection E as <- <-; exact H|apply IH; exact I]. Qed.
Lemma Forall2_len' {A B} (R0 : A -> B -> Prop) l l' : Forall2 R0 l l' -> length l = length l'.
Proof. induction 1; cbn; congruence. Qed.
Lemma Forall2_map' {A B C} (f : A -> B) (g : A -> C) (R0 : B -> C -> Prop) l : (forall a, In a l -> R0 (f a) (g a)) -> Forall2 R0 (map f l) (map g l).
Proof. induction l as [|a l IH]; intros H; constructor; [apply H; left; reflexivity|]. apply IH. intros b I. apply H. right. exact I. Qed.

(** Distances between moved shapes: the motion of the vectors only has to keep products. *)
Lemma moved_dist2 d s P P' Q0 Q0' :
  (exists M t, orthogonal d M /\ Forall2 (moves d M t) P P' /\ Forall2 (moves d M t) Q0 Q0') ->
  shape_dist2 d s P Q0 = shape_dist2 d s P' Q0'.
Proof.
  intros (M & t & HM & FP & FQ). apply congruent_dot; [exact (Forall2_len' _ _ _ FP)|exact (Forall2_len' _ _ _ FQ)|].
  assert (A : forall p p', In (p, p') (combine P P' ++ combine Q0 Q0') -> moves d M t p p').
  { intros p p' I. apply in_app_or in I. destruct I as [I|I]; [apply (Forall2_combine _ _ _ _ _ FP I)|apply (Forall2_combine _ _ _ _ _ FQ I)]. }
  intros p p' q q' I J. apply A in I, J. split.
  - rewrite <- (turned_sqn d M _ HM). apply sqn_ext. intros c L. rewrite turned_sub. unfold vsub. rewrite (proj1 (I c L)), (proj1 (J c L)). ring.
  - rewrite <- (turned_dot d M _ _ HM). apply dotv_ext; intros c L; symmetry; [apply (proj2 (I c L))|apply (proj2 (J c L))].
Qed.

(** ** Curves *)
Lemma edges_moved d Q t x : Forall2 (moves d Q t) (edges x) (edges (moved d Q t x)).
Proof.
  rewrite !edges_eq. change (nrows (moved d Q t x)) with (nrows x). apply Forall2_map'. intros i _ c L. unfold edge. change (nrows (moved d Q t x)) with (nrows x). cbn [centre vec].
  unfold moved. cbn [get mk2]. split.
  - unfold turned. rewrite (rsum_ext d (fun a => Q c a * ((x @2 i a + x @2 ((i + 1) mod nrows x)%nat a) / 2)) (fun a => (Q c a * x @2 i a + Q c a * x @2 ((i + 1) mod nrows x)%nat a) / 2)) by (intros; lra).
    rewrite rsum_div, rsum_plus. lra.
  - unfold turned. rewrite (rsum_ext d (fun a => Q c a * (x @2 ((i + 1) mod nrows x)%nat a - x @2 i a)) (fun a => Q c a * x @2 ((i + 1) mod nrows x)%nat a - Q c a * x @2 i a)) by (intros; ring).
    rewrite rsum_minus. ring.
Qed.

(** ** Faces *)
Lemma same_face_piece v f g : same_face f g -> unoriented 3 (face_piece v f) (face_piece v g).
Proof.
  destruct f as [[a b] c]. cbn [same_face In]. intros H.
  assert (T : forall k, (k < 3)%nat -> k = 0%nat \/ k = 1%nat \/ k = 2%nat) by (intros; lia).
  repeat (destruct H as [<-|H]; [split; [intros k _; unfold face_piece, barycentre, at_corner; cbn [centre corner]; lra|];
    first [left; intros k K; unfold face_piece, area_normal, cross3, vsub, at_corner; cbn [vec corner]; destruct (T k K) as [->|[->| ->]]; cbn; ring
          |right; intros k K; unfold face_piece, area_normal, cross3, vsub, at_corner; cbn [vec corner]; destruct (T k K) as [->|[->| ->]]; cbn; ring]|]).
  destruct H.
Qed.
Lemma same_faces_pieces v fs gs : same_faces fs gs -> same_shape 3 (map (face_piece v) fs) (map (face_piece v) gs).
Proof.
  intros (hs & PE & F). exists (map (face_piece v) hs). split; [apply Permutation_map; exact PE|]. clear PE. induction F; cbn [map]; constructor; [apply same_face_piece; assumption|assumption].
Qed.
Lemma same_face_valid v f g : same_face f g -> (forall k, (k < 3)%nat -> (corner k f < nrows v)%nat) -> forall k, (k < 3)%nat -> (corner k g < nrows v)%nat.
Proof.
  destruct f as [[a b] c]. cbn [same_face In]. intros H V k K. pose proof (V 0%nat ltac:(lia)) as V0. pose proof (V 1%nat ltac:(lia)) as V1. pose proof (V 2%nat ltac:(lia)) as V2. cbn [corner] in V0, V1, V2.
  repeat (destruct H as [<-|H]; [destruct k as [|[|[|k]]]; [| | |lia]; cbn [corner]; assumption|]). destruct H.
Qed.
Lemma same_faces_valid v fs gs : same_faces fs gs -> valid_faces v fs -> valid_faces v gs.
Proof.
  intros (hs & PE & F) V. unfold valid_faces in *. apply (Permutation_Forall PE) in V. clear PE fs. induction F as [|h g hs gs S F IH]; constructor; inversion V; subst; [|apply IH; assumption].
  apply (same_face_valid v h g S). assumption.
Qed.
Lemma same_faces_length fs gs : same_faces fs gs -> length fs = length gs.
Proof. intros (hs & PE & F). rewrite (Permutation_length PE). exact (Forall2_len' _ _ _ F). Qed.

(** Renumbered vertices. *)
Lemma corner_renumber r k f : corner k (renumber r f) = r (corner k f).
Proof. destruct f as [[a b] c]. destruct k as [|[|k]]; reflexivity. Qed.
Lemma renumber_piece v w r f : (forall k c, (k < 3)%nat -> (c < 3)%nat -> w @2 (r (corner k f)) c = v @2 (corner k f) c) ->
  piece_eq 3 (face_piece v f) (face_piece w (renumber r f)).
Proof.
  intros H c L.
  assert (A : forall k c, (k < 3)%nat -> (c < 3)%nat -> at_corner w k (renumber r f) c = at_corner v k f c).
  { intros k c' K L'. unfold at_corner. rewrite corner_renumber. apply H; assumption. }
  cbn [centre vec face_piece]. split.
  - unfold barycentre. rewrite !A by lia. reflexivity.
  - unfold area_normal, cross3, vsub. destruct c as [|[|[|c]]]; [| | |lia]; rewrite !A by lia; reflexivity.
Qed.

Definition wf_mesh (m : tensor * list face) : Prop := (exists n, shape (fst m) = [n; 3%nat]) /\ valid_faces (fst m) (snd m).

Lemma same_mesh_pieces a b : same_mesh a b -> wf_mesh a ->
  wf_mesh b /\ length (snd a) = length (snd b) /\
  same_shape 3 (map (face_piece (fst a)) (snd a)) (map (face_piece (fst b)) (snd b)).
Proof.
  induction 1 as [v fs gs S|v w m r fs Sw H|a b c _ IH1 _ IH2]; cbn [fst snd]; intros (W1 & W2).
  - cbn [fst snd] in *. split; [split; [exact W1|apply (same_faces_valid v fs gs S W2)]|]. split; [apply same_faces_length; exact S|apply same_faces_pieces; exact S].
  - split; [split; cbn [fst snd]|].
    + exists m. exact Sw.
    + unfold valid_faces. apply Forall_forall. intros g I k K. apply in_map_iff in I. destruct I as (f & <- & I). rewrite corner_renumber. unfold nrows. rewrite Sw. cbn. apply H; assumption.
    + split; [symmetry; apply map_length|]. rewrite map_map. apply eq_same. apply Forall2_map'. intros f I. apply renumber_piece. intros k c K L. apply H; assumption.
  - destruct (IH1 (conj W1 W2)) as (Wb & L1 & S1). destruct (IH2 Wb) as (Wc & L2 & S2). split; [exact Wc|]. split; [congruence|].
    apply (same_shape_trans 3 _ _ _ S1 S2).
Qed.

Lemma same_curve_edges d x y : same_curve x y -> same_shape d (edges y) (edges x) /\ (forall N c, shape x = [N; c] -> shape y = [N; c]).
Proof.
  induction 1 as [x|k x|x|x y z _ (S1 & H1) _ (S2 & H2)].
  - split; [apply same_shape_perm, Permutation_refl|auto].
  - split; [apply from_vertex_same|]. intros N c E. cbn. unfold nrows, ncols. rewrite E. reflexivity.
  - split; [apply backward_same|]. intros N c E. cbn. unfold nrows, ncols. rewrite E. reflexivity.
  - split; [apply (same_shape_trans d _ _ _ S2 S1)|]. intros N c E. apply H2, H1, E.
Qed.

(** ** Rigid motions of meshes *)

(** (a x b).(c x d) = (a.c)(b.d) - (a.d)(b.c) *)
Lemma binet_cauchy a b c d : dotv 3 (cross3 a b) (cross3 c d) = dotv 3 a c * dotv 3 b d - dotv 3 a d * dotv 3 b c.
Proof. unfold dotv. cbn [rsum cross3]. ring. Qed.

Definition edge1 (v : tensor) (f : face) := vsub (at_corner v 1 f) (at_corner v 0 f).
Definition edge2 (v : tensor) (f : face) := vsub (at_corner v 2 f) (at_corner v 0 f).
Lemma normal_dot v f w g : dotv 3 (area_normal v f) (area_normal w g) =
  1 / 4 * (dotv 3 (edge1 v f) (edge1 w g) * dotv 3 (edge2 v f) (edge2 w g) - dotv 3 (edge1 v f) (edge2 w g) * dotv 3 (edge2 v f) (edge1 w g)).
Proof.
  rewrite <- binet_cauchy. unfold area_normal, dotv. fold (edge1 v f) (edge2 v f) (edge1 w g) (edge2 w g). rewrite <- rsum_scal. apply rsum_ext. intros c _. field.
Qed.

Lemma edge1_moved Q t v f c : edge1 (moved 3 Q t v) f c = turned 3 Q (edge1 v f) c.
Proof. unfold edge1. rewrite turned_sub. unfold vsub, at_corner, moved, turned. cbn [get mk2]. ring. Qed.
Lemma edge2_moved Q t v f c : edge2 (moved 3 Q t v) f c = turned 3 Q (edge2 v f) c.
Proof. unfold edge2. rewrite turned_sub. unfold vsub, at_corner, moved, turned. cbn [get mk2]. ring. Qed.
Lemma normal_dot_moved Q t v f w g : orthogonal 3 Q ->
  dotv 3 (area_normal (moved 3 Q t v) f) (area_normal (moved 3 Q t w) g) = dotv 3 (area_normal v f) (area_normal w g).
Proof.
  intros H. rewrite !normal_dot.
  assert (E : forall u u' x x', (forall c, u' c = turned 3 Q u c) -> (forall c, x' c = turned 3 Q x c) -> dotv 3 u' x' = dotv 3 u x).
  { intros u u' x x' A B. rewrite <- (turned_dot 3 Q u x H). apply dotv_ext; auto. }
  rewrite (E (edge1 v f) (edge1 (moved 3 Q t v) f) (edge1 w g) (edge1 (moved 3 Q t w) g)), (E (edge2 v f) (edge2 (moved 3 Q t v) f) (edge2 w g) (edge2 (moved 3 Q t w) g)),
    (E (edge1 v f) (edge1 (moved 3 Q t v) f) (edge2 w g) (edge2 (moved 3 Q t w) g)), (E (edge2 v f) (edge2 (moved 3 Q t v) f) (edge1 w g) (edge1 (moved 3 Q t w) g))
    by (intros; auto using edge1_moved, edge2_moved). reflexivity.
Qed.
Lemma barycentre_moved Q t v f c : barycentre (moved 3 Q t v) f c = turned 3 Q (barycentre v f) c + t c.
Proof.
  unfold barycentre, at_corner, moved, turned. cbn [get mk2].
  rewrite (rsum_ext 3 (fun a => Q c a * ((v @2 (corner 0 f) a + v @2 (corner 1 f) a + v @2 (corner 2 f) a) / 3))
    (fun a => (Q c a * v @2 (corner 0 f) a + Q c a * v @2 (corner 1 f) a + Q c a * v @2 (corner 2 f) a) / 3)) by (intros; lra).
  rewrite rsum_div, !rsum_plus. lra.
Qed.

Lemma mesh_moved s Q t v fs w gs : orthogonal 3 Q ->
  cost_value s (map (face_piece (moved 3 Q t v)) fs) (map (face_piece (moved 3 Q t w)) gs) = cost_value s (map (face_piece v) fs) (map (face_piece w) gs).
Proof.
  intros H.
  assert (F : forall u hs, flat (map (face_piece (moved 3 Q t u)) hs) = flat (map (face_piece u) hs)).
  { intros u hs. unfold flat. induction hs as [|h hs IH]; [reflexivity|]. cbn [map existsb]. rewrite IH. f_equal. f_equal. cbn [vec face_piece].
    unfold normv. f_equal. rewrite !sqn_dotv. apply normal_dot_moved. exact H. }
  unfold cost_value. rewrite !F. destruct (flat (map (face_piece v) fs) || flat (map (face_piece w) gs))%bool; [reflexivity|]. f_equal.
  symmetry. apply congruent_dot; [rewrite !map_length; reflexivity|rewrite !map_length; reflexivity|].
  assert (A : forall p p', In (p, p') (combine (map (face_piece v) fs) (map (face_piece (moved 3 Q t v)) fs) ++ combine (map (face_piece w) gs) (map (face_piece (moved 3 Q t w)) gs)) ->
    exists u f, p = face_piece u f /\ p' = face_piece (moved 3 Q t u) f).
  { intros p p' I. apply in_app_or in I. destruct I as [I|I].
    - exists v. revert I. induction fs as [|f fs IH]; cbn [map combine]; [intros []|]. intros [E|I]; [injection E as <- <-; exists f; split; reflexivity|apply IH; exact I].
    - exists w. revert I. induction gs as [|f gs IH]; cbn [map combine]; [intros []|]. intros [E|I]; [injection E as <- <-; exists f; split; reflexivity|apply IH; exact I]. }
  intros p p' q q' I J. apply A in I, J. destruct I as (u & f & -> & ->). destruct J as (u' & g & -> & ->). split.
  - cbn [centre face_piece]. rewrite <- (turned_sqn 3 Q _ H). apply sqn_ext. intros c L. rewrite turned_sub. unfold vsub. rewrite !barycentre_moved. ring.
  - cbn [vec face_piece]. symmetry. apply normal_dot_moved. exact H.
Qed.
