(** Loops over the members of a compound module (Combination.py:28-38). *)
From Coq Require Import Reals List Arith Lia.
From Verif Require Import Py RSum Tensor KernelModel FieldModel GeometryModel ModuleModel.
Import ListNotations.

Lemma for_loop_visit {A} (body : nat -> citer -> A -> option (citer * A)) (g : nat -> A -> A) :
  (forall i s a, body i s a = Some (s, g i a)) ->
  forall k n fuel acc, (k <= n)%nat -> (n - k < fuel)%nat ->
    for_loop fuel body (mkIter n k) acc = Some (mkIter n n, fold_left (fun a i => g i a) (seq k (n - k)) acc).
Proof.
  intros HB k n fuel. revert k. induction fuel as [|fuel IH]; intros k acc Hk Hf; [lia|].
  cbn [for_loop]. unfold it_next. cbn [it_len it_current]. destruct (Nat.leb_spec n k) as [H|H].
  - assert (k = n) as -> by lia. rewrite Nat.sub_diag. reflexivity.
  - rewrite HB, IH by lia. replace (n - k)%nat with (S (n - S k)) by lia. reflexivity.
Qed.

Lemma for_in_visit {A} (body : nat -> citer -> A -> option (citer * A)) (g : nat -> A -> A) s fuel acc :
  (forall i s a, body i s a = Some (s, g i a)) -> (it_len s < fuel)%nat ->
  for_in fuel body s acc = Some (mkIter (it_len s) (it_len s), fold_left (fun a i => g i a) (seq 0 (it_len s)) acc).
Proof.
  intros HB Hf. unfold for_in, it_iter. rewrite (for_loop_visit body g HB) by lia. rewrite Nat.sub_0_r. reflexivity.
Qed.

Lemma fold_left_snoc {A B} (f : A -> B) l acc : fold_left (fun a i => a ++ [f i]) l acc = acc ++ map f l.
Proof.
  revert acc. induction l as [|x l IH]; intros acc; cbn [fold_left map]; [symmetry; apply app_nil_r|].
  rewrite IH, <- app_assoc. reflexivity.
Qed.

(** [for i in compound: for j in compound: l.append((i, j))] *)
Definition nested_full (fuel : nat) (s : citer) : option (citer * list (nat * nat)) :=
  for_in fuel (fun i s l => for_in fuel (fun j s l => Some (s, l ++ [(i, j)])) s l) s [].

Lemma nested_full_result fuel s : (it_len s < fuel)%nat -> (0 < it_len s)%nat ->
  nested_full fuel s = Some (mkIter (it_len s) (it_len s), map (pair 0%nat) (seq 0 (it_len s))).
Proof.
  intros Hf Hn. unfold nested_full, for_in at 1. destruct fuel as [|fuel]; [lia|]. cbn [for_loop].
  unfold it_next, it_iter. cbn [it_len it_current]. destruct (Nat.leb_spec (it_len s) 0) as [H|H]; [lia|].
  rewrite (for_in_visit _ (fun j l => l ++ [(0%nat, j)])) by (auto || exact Hf). cbn [it_len].
  rewrite fold_left_snoc. cbn [app]. destruct fuel as [|fuel]; [lia|]. cbn [for_loop]. unfold it_next. cbn [it_len it_current].
  rewrite Nat.leb_refl. reflexivity.
Qed.

(** [for i in compound: l.append(i); for j in compound: break] *)
Definition nested_break (fuel : nat) (s : citer) : option (citer * list nat) :=
  for_in fuel (fun i s l => Some (snd (it_next (it_iter s)), l ++ [i])) s [].

Lemma nested_break_loops fuel s : (1 < it_len s)%nat -> nested_break fuel s = None.
Proof.
  intros Hn. unfold nested_break, for_in, it_iter. destruct s as [n c]. cbn [it_len] in *.
  assert (H : forall k l, (k < n)%nat ->
    for_loop fuel (fun i s l => Some (snd (it_next {| it_len := it_len s; it_current := 0 |}), l ++ [i])) (mkIter n k) l = None).
  { induction fuel as [|fuel IH]; intros k l Hk; [reflexivity|]. cbn [for_loop]. unfold it_next at 1. cbn [it_len it_current].
    destruct (Nat.leb_spec n k) as [H|H]; [lia|]. unfold it_next at 2. cbn [it_len it_current].
    destruct (Nat.leb_spec n 0) as [H'|H']; [lia|]. cbn [snd]. apply IH. lia. }
  apply H. lia.
Qed.
