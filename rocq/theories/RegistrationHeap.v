(** Tensor objects of registration models: storages, flags, parameters. *)
From Coq Require Import Reals String List Arith ZArith Lia.
From Verif Require Import Py Tensor KernelModel FieldModel GeometryModel ModuleModel ShootingModel
  RegistrationModel SpecModule SpecRegistration RegistrationRun.
Import ListNotations.
Open Scope string_scope.
Open Scope list_scope.

(** ** Heaps *)

Definition sound (h : heap) : Prop := forall k, (k < length (h_objs h))%nat -> exists_in h k.
Definition flag (h : heap) (k : ref) : bool := o_rg (the_obj h k).

Definition ext (h h' : heap) : Prop :=
  (exists os, h_objs h' = h_objs h ++ os) /\ (exists vs, h_vals h' = h_vals h ++ vs).

Lemma ext_refl h : ext h h.
Proof. split; exists []; symmetry; apply app_nil_r. Qed.
Lemma ext_trans a b c : ext a b -> ext b c -> ext a c.
Proof.
  intros ((o & E) & (v & F)) ((o' & E') & (v' & F')). rewrite E in E'. rewrite F in F'. rewrite <- app_assoc in E', F'. split; eauto.
Qed.

Lemma ext_obj h h' k : ext h h' -> (k < length (h_objs h))%nat -> the_obj h' k = the_obj h k.
Proof. intros ((o & E) & _) L. unfold the_obj. rewrite E. apply app_nth1. exact L. Qed.
Lemma ext_exists h h' k : ext h h' -> exists_in h k -> exists_in h' k.
Proof.
  intros X (L & S). pose proof (ext_obj _ _ _ X L) as O. destruct X as ((o & E) & (v & F)). unfold exists_in. rewrite O, E, F, !app_length. lia.
Qed.
Lemma ext_store h h' k : ext h h' -> exists_in h k -> store h' k = store h k.
Proof. intros X (L & _). unfold store. rewrite (ext_obj _ _ _ X L). reflexivity. Qed.
Lemma ext_flag h h' k : ext h h' -> exists_in h k -> flag h' k = flag h k.
Proof. intros X (L & _). unfold flag. rewrite (ext_obj _ _ _ X L). reflexivity. Qed.
Lemma ext_vals h h' n : ext h h' -> (n < length (h_vals h))%nat -> nth n (h_vals h') (mk0 0) = nth n (h_vals h) (mk0 0).
Proof. intros (_ & (v & F)) L. rewrite F. apply app_nth1. exact L. Qed.
Lemma ext_deref h h' k : ext h h' -> exists_in h k -> deref h' k = deref h k.
Proof. intros X S. unfold deref. fold (store h' k) (store h k). rewrite (ext_store _ _ _ X S). apply ext_vals; [exact X|apply S]. Qed.
Lemma ext_len_vals h h' : ext h h' -> (length (h_vals h) <= length (h_vals h'))%nat.
Proof. intros (_ & (v & F)). rewrite F, app_length. lia. Qed.

Lemma alloc_ext h v b : ext h (fst (alloc h v b)).
Proof. split; cbn; eauto. Qed.
Lemma alloc_obj h v b : the_obj (fst (alloc h v b)) (snd (alloc h v b)) = mkObj (length (h_vals h)) b.
Proof. unfold the_obj. cbn. rewrite app_nth2, Nat.sub_diag by lia. reflexivity. Qed.
Lemma alloc_exists h v b : exists_in (fst (alloc h v b)) (snd (alloc h v b)).
Proof. unfold exists_in. rewrite alloc_obj. cbn. rewrite !app_length. cbn. lia. Qed.
Lemma alloc_deref h v b : deref (fst (alloc h v b)) (snd (alloc h v b)) = v.
Proof. unfold deref. rewrite alloc_obj. cbn. rewrite app_nth2, Nat.sub_diag by lia. reflexivity. Qed.

Lemma detach_ext h k b : ext h (fst (detach h k b)).
Proof. split; cbn; [eauto|]. exists []. symmetry. apply app_nil_r. Qed.
Lemma detach_obj h k b : the_obj (fst (detach h k b)) (snd (detach h k b)) = mkObj (store h k) b.
Proof. unfold the_obj. cbn. rewrite app_nth2, Nat.sub_diag by lia. reflexivity. Qed.
Lemma detach_exists h k b : exists_in h k -> exists_in (fst (detach h k b)) (snd (detach h k b)).
Proof. intros (_ & S). unfold exists_in. rewrite detach_obj. cbn. rewrite !app_length. cbn. unfold store. lia. Qed.

(** ** New objects for a list of references *)

(** Objects l' of h' with the storages of the objects l of h. *)
Definition relabel (h h' : heap) (l l' : list ref) : Prop :=
  ext h h' /\ Forall (exists_in h') l' /\ map (store h') l' = map (store h) l.

Lemma relabel_refl h l : Forall (exists_in h) l -> relabel h h l l.
Proof. intros F. split; [apply ext_refl|split; [exact F|reflexivity]]. Qed.

Lemma exists_ext h h' l : ext h h' -> Forall (exists_in h) l -> Forall (exists_in h') l.
Proof. intros X. apply Forall_impl. intros k. apply ext_exists. exact X. Qed.
Lemma stores_ext h h' l : ext h h' -> Forall (exists_in h) l -> map (store h') l = map (store h) l.
Proof. intros X F. apply map_ext_in. intros k I. apply ext_store; [exact X|]. rewrite Forall_forall in F. auto. Qed.
Lemma flags_ext h h' l : ext h h' -> Forall (exists_in h) l -> map (flag h') l = map (flag h) l.
Proof. intros X F. apply map_ext_in. intros k I. apply ext_flag; [exact X|]. rewrite Forall_forall in F. auto. Qed.
Lemma derefs_ext h h' l : ext h h' -> Forall (exists_in h) l -> map (deref h') l = map (deref h) l.
Proof. intros X F. apply map_ext_in. intros k I. apply ext_deref; [exact X|]. rewrite Forall_forall in F. auto. Qed.

Lemma relabel_trans h h1 h2 l l1 l2 : relabel h h1 l l1 -> relabel h1 h2 l1 l2 -> relabel h h2 l l2.
Proof.
  intros (X & F & S) (X' & F' & S'). split; [exact (ext_trans _ _ _ X X')|]. split; [exact F'|congruence].
Qed.

Lemma relabel_app h h1 h2 a a' b b' : Forall (exists_in h) b ->
  relabel h h1 a a' -> relabel h1 h2 b b' -> relabel h h2 (a ++ b) (a' ++ b').
Proof.
  intros Fb (X & F & S) (X' & F' & S'). split; [exact (ext_trans _ _ _ X X')|]. split.
  - apply Forall_app. split; [exact (exists_ext _ _ _ X' F)|exact F'].
  - rewrite !map_app, (stores_ext _ _ _ X' F), S, S', (stores_ext _ _ _ X Fb). reflexivity.
Qed.

Lemma relabel_deref h h' l l' : relabel h h' l l' -> Forall (exists_in h) l -> map (deref h') l' = map (deref h) l.
Proof.
  intros (X & F & S) Fl. unfold deref. fold (store h') (store h).
  transitivity (map (fun n => nth n (h_vals h') (mk0 0)) (map (store h') l')); [rewrite map_map; reflexivity|]. rewrite S, map_map.
  apply map_ext_in. intros k I. apply ext_vals; [exact X|]. rewrite Forall_forall in Fl. apply Fl. exact I.
Qed.

Lemma each_app {A} (f : heap -> A -> heap * ref) a b h :
  each_ref f h (a ++ b) = let (h1, x) := each_ref f h a in let (h2, y) := each_ref f h1 b in (h2, x ++ y).
Proof.
  revert h. induction a as [|k a IH]; intros h; cbn [app each_ref].
  - destruct (each_ref f h b). reflexivity.
  - destruct (f h k) as [h1 r]. rewrite IH. destruct (each_ref f h1 a) as [h2 x]. destruct (each_ref f h2 b). reflexivity.
Qed.

(** detach each, with a flag for each. *)
Lemma each_detach (fl : heap -> ref -> bool) l : forall h h' l', Forall (exists_in h) l ->
  each_ref (fun h k => detach h k (fl h k)) h l = (h', l') -> relabel h h' l l' /\ length l' = length l.
Proof.
  induction l as [|k l IH]; intros h h' l' F E.
  - injection E as <- <-. split; [apply relabel_refl; constructor|reflexivity].
  - cbn [each_ref] in E. pose proof (detach_ext h k (fl h k)) as X. pose proof (detach_obj h k (fl h k)) as O.
    inversion F as [|? ? Fk Fl]; subst. pose proof (detach_exists h k (fl h k) Fk) as G.
    destruct (detach h k (fl h k)) as [h1 r1]. cbn [fst snd] in X, O, G.
    destruct (each_ref _ h1 l) as [h2 rs] eqn:E2. injection E as <- <-. destruct (IH _ _ _ (exists_ext _ _ _ X Fl) E2) as (R & L).
    split; [|cbn; congruence]. change (k :: l) with ([k] ++ l). change (r1 :: rs) with ([r1] ++ rs). apply (relabel_app h h1 h2); [exact Fl| |exact R].
    split; [exact X|]. split; [constructor; [exact G|constructor]|]. cbn [map]. unfold store at 1. rewrite O. reflexivity.
Qed.

Lemma each_detach_true l : forall h h' l', Forall (exists_in h) l ->
  each_ref (fun h k => detach h k true) h l = (h', l') -> Forall (fun k => flag h' k = true) l'.
Proof.
  induction l as [|k l IH]; intros h h' l' F E.
  - injection E as <- <-. constructor.
  - cbn [each_ref] in E. pose proof (detach_ext h k true) as X. pose proof (detach_obj h k true) as O.
    inversion F as [|? ? Fk Fl]; subst. pose proof (detach_exists h k true Fk) as G.
    destruct (detach h k true) as [h1 r1]. cbn [fst snd] in X, O, G.
    destruct (each_ref _ h1 l) as [h2 rs] eqn:E2. injection E as <- <-.
    destruct (each_detach (fun _ _ => true) l h1 h2 rs (exists_ext _ _ _ X Fl) E2) as ((X2 & _) & _).
    constructor; [|exact (IH _ _ _ (exists_ext _ _ _ X Fl) E2)]. rewrite (ext_flag _ _ _ X2 G). unfold flag. rewrite O. reflexivity.
Qed.

(** New storages. *)
Definition renew (h h' : heap) (l' : list ref) : Prop :=
  ext h h' /\ Forall (exists_in h') l' /\ NoDup (map (store h') l') /\ Forall (fun k => (length (h_vals h) <= store h' k)%nat) l'.

Lemma renew_nil h : renew h h [].
Proof. split; [apply ext_refl|]. repeat split; constructor. Qed.

Lemma renew_app h h1 h2 a b : renew h h1 a -> renew h1 h2 b -> renew h h2 (a ++ b).
Proof.
  intros (X & F & N & G) (X' & F' & N' & G'). split; [exact (ext_trans _ _ _ X X')|]. split; [|split].
  - apply Forall_app. split; [exact (exists_ext _ _ _ X' F)|exact F'].
  - rewrite map_app, (stores_ext _ _ _ X' F).
    clear - N N' F G'. induction a as [|k a IH]; [exact N'|]. cbn [map app] in *. inversion N as [|? ? NI N1]; subst. inversion F as [|? ? Fk F1]; subst.
    constructor; [|apply IH; assumption]. rewrite in_app_iff. intros [I|I]; [exact (NI I)|]. apply in_map_iff in I. destruct I as (j & E & I).
    rewrite Forall_forall in G'. specialize (G' j I). destruct Fk as (_ & Fk). unfold store in *. lia.
  - apply Forall_app. pose proof (ext_len_vals _ _ X). split.
    + rewrite Forall_forall in *. intros k I. rewrite (ext_store _ _ _ X' (F k I)). apply G. exact I.
    + rewrite Forall_forall in *. intros k I. specialize (G' k I). lia.
Qed.

Lemma alloc_renew h v b : renew h (fst (alloc h v b)) [snd (alloc h v b)].
Proof.
  split; [apply alloc_ext|]. split; [constructor; [apply alloc_exists|constructor]|]. split; [constructor; [intros []|constructor]|].
  constructor; [|constructor]. unfold store. rewrite alloc_obj. reflexivity.
Qed.

Lemma each_alloc {A} (v : heap -> A -> tensor) (fl : heap -> A -> bool) l : forall h h' l',
  each_ref (fun h k => alloc h (v h k) (fl h k)) h l = (h', l') -> renew h h' l' /\ length l' = length l.
Proof.
  induction l as [|k l IH]; intros h h' l' E.
  - injection E as <- <-. split; [apply renew_nil|reflexivity].
  - cbn [each_ref] in E. pose proof (alloc_renew h (v h k) (fl h k)) as R. destruct (alloc h (v h k) (fl h k)) as [h1 r1]. cbn [fst snd] in R.
    destruct (each_ref _ h1 l) as [h2 rs] eqn:E2. injection E as <- <-. destruct (IH _ _ _ E2) as (R2 & L). split; [|cbn; congruence].
    exact (renew_app _ _ _ _ _ R R2).
Qed.

Lemma each_alloc_const (vs : list tensor) : forall b h h' l',
  each_ref (fun h v => alloc h v b) h vs = (h', l') -> map (deref h') l' = vs /\ Forall (fun k => flag h' k = b) l'.
Proof.
  induction vs as [|v vs IH]; intros b h h' l' E.
  - injection E as <- <-. split; [reflexivity|constructor].
  - cbn [each_ref] in E. pose proof (alloc_renew h v b) as R. pose proof (alloc_obj h v b) as O. pose proof (alloc_deref h v b) as D.
    pose proof (alloc_exists h v b) as G. destruct (alloc h v b) as [h1 r1]. cbn [fst snd] in *.
    destruct (each_ref _ h1 vs) as [h2 rs] eqn:E2. injection E as <- <-. destruct (IH _ _ _ _ E2) as (D2 & F2).
    destruct (each_alloc (fun _ v => v) (fun _ _ => b) vs h1 h2 rs E2) as ((X2 & _) & _). cbn [map]. split.
    + rewrite (ext_deref _ _ _ X2 G), D, D2. reflexivity.
    + constructor; [|exact F2]. rewrite (ext_flag _ _ _ X2 G). unfold flag. rewrite O. reflexivity.
Qed.

(** Sending to a device. *)
Lemma each_dev moved l : forall h h' l', Forall (exists_in h) l -> each_ref (to_dev moved) h l = (h', l') ->
  (relabel h h' l l' \/ renew h h' l') /\ map (deref h') l' = map (deref h) l /\ map (flag h') l' = map (flag h) l.
Proof.
  intros h h' l' F E.
  assert (H : relabel h h' l l' \/ renew h h' l').
  { destruct moved; cbn [to_dev] in E.
    - right. exact (proj1 (each_alloc deref (fun h k => o_rg (the_obj h k)) l h h' l' E)).
    - left. exact (proj1 (each_detach flag l h h' l' F E)). }
  split; [exact H|]. clear H. revert h h' l' F E. induction l as [|k l IH]; intros h h' l' F E.
  - injection E as <- <-. split; reflexivity.
  - inversion F as [|? ? Fk Fl]; subst. cbn [each_ref] in E.
    assert (H : let (h1, r) := to_dev moved h k in ext h h1 /\ exists_in h1 r /\ deref h1 r = deref h k /\ flag h1 r = flag h k).
    { destruct moved; cbn [to_dev].
      - pose proof (alloc_renew h (deref h k) (o_rg (the_obj h k))) as R. pose proof (alloc_obj h (deref h k) (o_rg (the_obj h k))) as O.
        pose proof (alloc_deref h (deref h k) (o_rg (the_obj h k))) as D. pose proof (alloc_exists h (deref h k) (o_rg (the_obj h k))) as G.
        destruct (alloc h (deref h k) (o_rg (the_obj h k))) as [h1 r]. cbn [fst snd] in *. repeat split; try apply R; try apply G; [exact D|].
        unfold flag. rewrite O. reflexivity.
      - pose proof (detach_ext h k (o_rg (the_obj h k))) as X. pose proof (detach_obj h k (o_rg (the_obj h k))) as O.
        pose proof (detach_exists h k (o_rg (the_obj h k)) Fk) as G. destruct (detach h k (o_rg (the_obj h k))) as [h1 r]. cbn [fst snd] in *.
        split; [exact X|]. split; [exact G|]. split.
        + unfold deref. rewrite O. cbn [o_store]. apply ext_vals; [exact X|apply Fk].
        + unfold flag. rewrite O. reflexivity. }
    destruct (to_dev moved h k) as [h1 r]. destruct H as (X & G & D & FL). destruct (each_ref (to_dev moved) h1 l) as [h2 rs] eqn:E2. injection E as <- <-.
    destruct (IH _ _ _ (exists_ext _ _ _ X Fl) E2) as (D2 & F2).
    assert (X2 : ext h1 h2).
    { destruct moved; cbn [to_dev] in E2.
      - exact (proj1 (proj1 (each_alloc deref (fun h k => o_rg (the_obj h k)) l h1 h2 rs E2))).
      - exact (proj1 (proj1 (each_detach flag l h1 h2 rs (exists_ext _ _ _ X Fl) E2))). }
    cbn [map]. rewrite (ext_deref _ _ _ X2 G), (ext_flag _ _ _ X2 G), D, FL, D2, F2, (derefs_ext _ _ _ X Fl), (flags_ext _ _ _ X Fl). split; reflexivity.
Qed.
