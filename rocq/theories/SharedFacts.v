(** Proofs about tensors_device and tensors_dtype. *)
From Coq Require Import Reals String List Arith Lia Bool.
From Verif Require Import Py Tensor ManifoldModel SpecShared.
Import ListNotations.
Open Scope list_scope.

Definition somes (l : list (option tob)) : list tob := flat_map (fun o => match o with Some t => [t] | None => [] end) l.

Lemma shared_flat {P} (eqb : P -> P -> bool) (prop : tob -> P) l :
  shared_property eqb prop (VL (map pyv_of l)) =
  match map prop (somes l) with
  | [] => Ok None
  | p :: ps => if forallb (fun q => eqb q p) ps then Ok (Some p) else Ok None
  end.
Proof.
  unfold shared_property.
  assert (H : mapM (fun x => match x with VNone => Ok [] | VT t => Ok [prop t] | VL _ => Err AttributeError end) (map pyv_of l)
    = Ok (map (fun o => match o with Some t => [prop t] | None => [] end) l)).
  { induction l as [|[t|] l IH]; cbn; [reflexivity|..]; fold (@mapM pyv (list P)); rewrite IH; reflexivity. }
  rewrite H. cbn [bind].
  assert (E : List.concat (map (fun o => match o with Some t => [prop t] | None => [] end) l) = map prop (somes l)).
  { clear. induction l as [|[t|] l IH]; cbn; [reflexivity|f_equal; exact IH|exact IH]. }
  rewrite E. reflexivity.
Qed.

Theorem shared_spec {P} (eqb : P -> P -> bool) (prop : tob -> P) l :
  (forall a b, eqb a b = true <-> a = b) ->
  (forall p, shared_property eqb prop (VL (map pyv_of l)) = Ok (Some p) <->
     (exists t, In (Some t) l) /\ forall t, In (Some t) l -> prop t = p) /\
  is_ok (shared_property eqb prop (VL (map pyv_of l))).
Proof.
  intros Heq. rewrite shared_flat.
  assert (Hin : forall t, In (Some t) l <-> In t (somes l)).
  { intros t. unfold somes. rewrite in_flat_map. split; [intros H; exists (Some t); cbn; auto|].
    intros [[u|] [H1 H2]]; [destruct H2 as [<-|[]]; exact H1|destruct H2]. }
  assert (Hex : (exists t, In (Some t) l) <-> somes l <> []).
  { split; [intros [t Ht]; apply Hin in Ht; destruct (somes l); [destruct Ht|discriminate]|].
    destruct (somes l) as [|t ts]; [congruence|]. intros _. exists t. apply Hin. left. reflexivity. }
  split.
  - intros p. rewrite Hex. setoid_rewrite Hin. destruct (somes l) as [|t ts]; cbn.
    + split; [discriminate|intros [H _]; congruence].
    + destruct (forallb _ _) eqn:E.
      * rewrite forallb_forall in E. split.
        -- intros H. injection H as <-. split; [discriminate|]. intros u [<-|Hu]; [reflexivity|].
           apply Heq, E. apply in_map, Hu.
        -- intros [_ H]. f_equal. f_equal. apply H. left. reflexivity.
      * split; [discriminate|]. intros [_ H]. exfalso.
        assert (E' : forallb (fun q => eqb q (prop t)) (map prop ts) = true); [|congruence].
        apply forallb_forall. intros q Hq. apply in_map_iff in Hq. destruct Hq as [u [<- Hu]]. apply Heq.
        rewrite (H u), (H t); auto.
  - destruct (map prop (somes l)); [eexists; reflexivity|]. destruct (forallb _ _); eexists; reflexivity.
Qed.

Lemma dtype_eqb_eq a b : dtype_eqb a b = true <-> a = b.
Proof. destruct a, b; cbn; split; congruence. Qed.

(** Nested lists. *)
Theorem nested_refuted {P} (eqb : P -> P -> bool) (prop : tob -> P) l1 l2 l3 :
  shared_property eqb prop (VL (map pyv_of l1 ++ VL l2 :: l3)) = Err AttributeError.
Proof.
  unfold shared_property.
  assert (H : mapM (fun x => match x with VNone => Ok [] | VT t => Ok [prop t] | VL _ => Err AttributeError end) (map pyv_of l1 ++ VL l2 :: l3)
    = Err AttributeError).
  { induction l1 as [|[t|] l IH]; cbn; [reflexivity|..]; fold (@mapM pyv (list P)); rewrite IH; reflexivity. }
  rewrite H. reflexivity.
Qed.

Lemma flatten_in1 t : forall v, In t (flatten_tensors v) -> tensor_in t v.
Proof.
  fix IH 1. intros [|u|l]; cbn [flatten_tensors].
  - intros [].
  - intros [->|[]]. constructor.
  - induction l as [|v l IHl]; intros H; [destruct H|]. cbn in H. apply in_app_iff in H. destruct H as [H|H].
    + apply (ti_list t v); [left; reflexivity|]. apply IH, H.
    + specialize (IHl H). inversion IHl as [|v' l' Hin Ht]; subst. apply (ti_list t v'); [right; exact Hin|exact Ht].
Qed.
Lemma flatten_in t v : In t (flatten_tensors v) <-> tensor_in t v.
Proof.
  split; [apply flatten_in1|]. induction 1 as [|v l Hin _ IH]; cbn; [auto|].
  apply in_flat_map. eauto.
Qed.

Theorem shared_flattened {P} (eqb : P -> P -> bool) (prop : tob -> P) v :
  (forall a b, eqb a b = true <-> a = b) ->
  let flat := VL (map VT (flatten_tensors v)) in
  (forall p, shared_property eqb prop flat = Ok (Some p) <->
     (exists t, tensor_in t v) /\ forall t, tensor_in t v -> prop t = p) /\
  is_ok (shared_property eqb prop flat).
Proof.
  intros Heq flat. assert (E : flat = VL (map pyv_of (map Some (flatten_tensors v)))).
  { unfold flat. rewrite map_map. reflexivity. }
  rewrite E. destruct (shared_spec eqb prop (map Some (flatten_tensors v)) Heq) as [H1 H2]. split; [|exact H2].
  intros p. rewrite H1.
  assert (Hi : forall t, In (Some t) (map Some (flatten_tensors v)) <-> tensor_in t v).
  { intros t. rewrite <- flatten_in, in_map_iff. split; [intros [u [Hu Hin]]; congruence|intros H; eauto]. }
  setoid_rewrite Hi. reflexivity.
Qed.
