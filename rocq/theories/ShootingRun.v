(** Runs of the solvers: bookkeeping for every solver and clock, and the three schemes with
    exact times. *)
From Coq Require Import Reals String List Arith ZArith Lia Lra.
From Verif Require Import Py RSum Tensor TensorFacts KernelModel FieldModel GeometryModel ModuleModel ShootingModel
  SpecModule SpecShooting ModuleMain ModuleLeaves ModuleHistory GeometryFacts ShootingPack ShootingDyn.
Import ListNotations.
Open Scope R_scope.

(** ** Bookkeeping *)
Section Book.
  Variables (ck : clock) (sv : solver) (b0 : backend) (ag : autograd) (t1 : time ck) (it : nat)
            (controls : option (list ctrl)) (keep : bool).
  Notation T := (time ck).
  Notation forward := (forward ck sv b0 ag t1 it controls keep).
  Notation run_strat := (run_strat ck sv b0 ag t1 it controls keep).

  Definition flag (s : fstate) (i : Z) (z : bool) : bool := (negb (Z.eqb (f_true s) i) || z)%bool.

  Lemma forward_book t x s y s' : forward t x s = Ok (y, s') ->
    exists i, t_to_it ck t1 it t = Ok i /\ f_true s' = i /\ f_it s' = S (f_it s) /\
      (if flag s i (is_zero ck t) then exists c, cost (f_mod s') = Ok c /\ f_costs s' = f_costs s ++ [c] else f_costs s' = f_costs s) /\
      kept keep (f_mod s') (f_controls s) = Ok (f_controls s').
  Proof.
    intros F. unfold ShootingModel.forward in F. bok F i Ei. bok F gs Eg. exists i. split; [assumption|].
    fold (flag s i (is_zero ck t)) in F. destruct controls as [cs|].
    - bok F g Egg. bok F m1 Em1. bok F c Ec. bok F m2 Em2. bok F ks Ek. bok F csts Ecs. bok F fg Ef. bok F tn Et. bok F v Ev. bok F y' Ey.
      injection F as <- <-. cbn [f_true f_it f_costs f_mod f_controls]. split; [reflexivity|]. split; [reflexivity|]. split; [|assumption].
      destruct (flag s i (is_zero ck t)); [|congruence]. bok Ecs c' Ec'. injection Ecs as <-. exists c'. auto.
    - bok F g Egg. bok F m1 Em1. bok F m2 Em2. bok F ks Ek. bok F dd Ed. destruct dd as (dq & dp). bok F csts Ecs. bok F v Ev. bok F y' Ey.
      injection F as <- <-. cbn [f_true f_it f_costs f_mod f_controls]. split; [reflexivity|]. split; [reflexivity|]. split; [|assumption].
      destruct (flag s i (is_zero ck t)); [|congruence]. bok Ecs c' Ec'. injection Ecs as <-. exists c'. auto.
  Qed.

  (** The evaluations of a run: time, state, situation after it. *)
  Inductive steps : strat T -> fstate -> list (T * tensor * tensor * fstate) -> list tensor -> fstate -> Prop :=
  | steps_end xs s : steps (Answer xs) s [] xs s
  | steps_ask t x k s y s1 evs xs s' : forward t x s = Ok (y, s1) -> steps (k y) s1 evs xs s' ->
      steps (Ask t x k) s ((t, x, y, s1) :: evs) xs s'.

  Lemma run_steps p : forall s xs s', run_strat p s = Ok (xs, s') -> exists evs, steps p s evs xs s'.
  Proof.
    induction p as [t x k IH|xs0]; intros s xs s' E; cbn [ShootingModel.run_strat] in E.
    - bok E yy Ey. destruct yy as (y & s1). destruct (IH y s1 xs s' E) as (evs & S). exists ((t, x, y, s1) :: evs). econstructor; eassumption.
    - injection E as <- <-. exists []. constructor.
  Qed.

  Definition ev_time (e : T * tensor * tensor * fstate) : T := fst (fst (fst e)).
  Definition ev_mod (e : T * tensor * tensor * fstate) : dmod := f_mod (snd e).
  Definition ev_cell (e : T * tensor * tensor * fstate) : Z := f_true (snd e).
  Definition ev_info (e : T * tensor * tensor * fstate) : Z * bool * dmod := (ev_cell e, is_zero ck (ev_time e), ev_mod e).

  Lemma steps_asks p s evs xs s' : steps p s evs xs s' -> asks p (map ev_time evs).
  Proof. induction 1; [constructor|]. cbn [map]. econstructor. eassumption. Qed.

  Lemma mapM_app {A B} (f : A -> res B) l l' r r' : mapM f l = Ok r -> mapM f l' = Ok r' -> mapM f (l ++ l') = Ok (r ++ r').
  Proof.
    revert r. induction l as [|a l IH]; intros r E E'; cbn [mapM app] in *.
    - injection E as <-. exact E'.
    - bok E b Eb. bok E rs Er. injection E as <-. rewrite Eb, (IH _ Er E'). reflexivity.
  Qed.

  Lemma steps_book p s evs xs s' : steps p s evs xs s' ->
    Forall (fun e => t_to_it ck t1 it (ev_time e) = Ok (ev_cell e)) evs /\
    f_it s' = (f_it s + length evs)%nat /\
    (exists cs, mapM cost (entering (f_true s) (map ev_info evs)) = Ok cs /\ f_costs s' = f_costs s ++ cs) /\
    (if keep then exists ks, mapM (fun e => clone_controls (ModuleModel.controls (ev_mod e))) evs = Ok ks /\ f_controls s' = f_controls s ++ ks
     else f_controls s' = f_controls s).
  Proof.
    induction 1 as [xs s|t x k s y s1 evs xs s' F _ (I1 & I2 & (cs & I3 & I3') & I4)].
    - split; [constructor|]. split; [cbn; lia|]. split; [exists []; split; [reflexivity|rewrite app_nil_r; reflexivity]|].
      destruct keep; [exists []; split; [reflexivity|rewrite app_nil_r; reflexivity]|reflexivity].
    - destruct (forward_book t x s y s1 F) as (i & Ei & Ti & Ni & Ci & Ki). split.
      { constructor; [|assumption]. unfold ev_time, ev_cell. cbn [fst snd]. congruence. }
      split; [cbn [length]; rewrite I2, Ni; lia|]. split.
      + cbn [map entering ev_info]. unfold ev_cell, ev_time, ev_mod. cbn [fst snd]. rewrite Ti in I3 |- *. unfold flag in Ci.
        destruct (negb (f_true s =? i)%Z || is_zero ck t)%bool.
        * destruct Ci as (c & C1 & C2). exists (c :: cs). split; [cbn [app mapM]; rewrite C1, I3; reflexivity|]. rewrite I3', C2, <- app_assoc. reflexivity.
        * exists cs. split; [exact I3|]. rewrite I3', Ci. reflexivity.
      + unfold kept in Ki. destruct keep.
        * bok Ki c Ec. injection Ki as Ki. destruct I4 as (ks & K1 & K2). exists (c :: ks). split; [cbn [mapM]; unfold ev_mod at 1; cbn [snd]; rewrite Ec, K1; reflexivity|].
          rewrite K2, <- Ki, <- app_assoc. reflexivity.
        * injection Ki as Ki. congruence.
  Qed.

  (** Which given controls an evaluation uses. *)
  Lemma forward_control cs t x s y s' : controls = Some cs -> forward t x s = Ok (y, s') ->
    exists c m1, py_nth cs (control_index it (length cs) (f_true s') (f_it s)) = Ok c /\ fill_controls sv m1 c = Ok (f_mod s').
  Proof.
    intros E F. unfold ShootingModel.forward in F. rewrite E in F. bok F i Ei. bok F gs Eg. bok F g Egg. bok F m1 Em1. bok F c Ec. bok F m2 Em2.
    bok F ks Ek. bok F csts Ecs. bok F fg Ef. bok F tn Et. bok F v Ev. bok F y' Ey. injection F as <- <-. cbn [f_true f_it f_mod].
    exists c, m1. split; [|assumption]. unfold choose_control in Ec. unfold control_index.
    destruct (Nat.eqb (length cs) it); [exact Ec|]. destruct (Nat.ltb it (length cs)); exact Ec.
  Qed.

  Lemma steps_control cs p s evs xs s' : controls = Some cs -> steps p s evs xs s' ->
    forall n e, nth_error evs n = Some e ->
    exists c m1, py_nth cs (control_index it (length cs) (ev_cell e) (f_it s + n)) = Ok c /\ fill_controls sv m1 c = Ok (ev_mod e).
  Proof.
    intros E. induction 1 as [xs s|t x k s y s1 evs xs s' F _ IH]; intros n e N.
    - destruct n; discriminate.
    - destruct n as [|n].
      + injection N as <-. rewrite Nat.add_0_r. exact (forward_control cs t x s y s1 E F).
      + cbn [nth_error] in N. destruct (IH n e N) as (c & m1 & A & B). exists c, m1. split; [|assumption].
        destruct (forward_book t x s y s1 F) as (_ & _ & _ & Ni & _). rewrite Ni in A. replace (f_it s + S n)%nat with (S (f_it s) + n)%nat by lia. exact A.
  Qed.
End Book.

(** ** Distinct cells *)
Lemma entering_length {A} (l : list (Z * bool * A)) : forall prev,
  (forall e, In e l -> snd (fst e) = false) ->
  (forall i e, nth_error l i = Some e -> (prev <= fst (fst e))%Z) ->
  (forall i j e e', (i <= j)%nat -> nth_error l i = Some e -> nth_error l j = Some e' -> (fst (fst e) <= fst (fst e'))%Z) ->
  length (entering prev l) = length (nodup Z.eq_dec (filter (fun i => negb (Z.eqb prev i)) (map (fun e => fst (fst e)) l))).
Proof.
  induction l as [|((i & z) & a) l IH]; intros prev NZ LB MON; [reflexivity|].
  assert (Zf : z = false) by exact (NZ (i, z, a) (or_introl eq_refl)). subst z.
  assert (Hi : (prev <= i)%Z) by exact (LB 0%nat (i, false, a) eq_refl).
  assert (NZ' : forall e, In e l -> snd (fst e) = false) by (intros e He; apply NZ; right; assumption).
  assert (LB' : forall k e, nth_error l k = Some e -> (i <= fst (fst e))%Z) by (intros k e He; exact (MON 0%nat (S k) _ _ ltac:(lia) eq_refl He)).
  assert (MON' : forall k j e e', (k <= j)%nat -> nth_error l k = Some e -> nth_error l j = Some e' -> (fst (fst e) <= fst (fst e'))%Z)
    by (intros k j e e' H1 H2 H3; exact (MON (S k) (S j) e e' ltac:(lia) H2 H3)).
  specialize (IH i NZ' LB' MON'). cbn [entering map fst snd filter]. rewrite Bool.orb_false_r.
  destruct (Z.eqb_spec prev i) as [->|NE]; cbn [negb].
  - exact IH.
  - cbn [app length]. rewrite IH. cbn [filter].
    assert (FT : filter (fun j => negb (prev =? j)%Z) (map (fun e => fst (fst e)) l) = map (fun e => fst (fst e)) l).
    { assert (AL : forall j, In j (map (fun e : Z * bool * A => fst (fst e)) l) -> (i <= j)%Z).
      { intros j Hj. apply in_map_iff in Hj. destruct Hj as (e & <- & He). apply In_nth_error in He. destruct He as (k & He). eapply LB'; eassumption. }
      revert AL. generalize (map (fun e : Z * bool * A => fst (fst e)) l) as js. induction js as [|j js IHj]; intros AL; [reflexivity|]. cbn [filter].
      destruct (Z.eqb_spec prev j); [specialize (AL j (or_introl eq_refl)); lia|]. cbn [negb]. f_equal. apply IHj. intros; apply AL; right; assumption. }
    rewrite FT. generalize (map (fun e : Z * bool * A => fst (fst e)) l) as js. intros js.
    cbn [nodup]. destruct (in_dec Z.eq_dec i js) as [IN|NI].
    + assert (forall js, In i js -> length (nodup Z.eq_dec js) = S (length (nodup Z.eq_dec (filter (fun j => negb (i =? j)%Z) js)))) as G; [|rewrite (G js IN); reflexivity].
      clear. intros js IN.
      assert (P : length (nodup Z.eq_dec js) = length (i :: nodup Z.eq_dec (filter (fun j => negb (i =? j)%Z) js))); [|exact P].
      apply Nat.le_antisymm; apply NoDup_incl_length.
      * apply NoDup_nodup.
      * intros j Hj. apply nodup_In in Hj. destruct (Z.eq_dec i j) as [->|N]; [left; reflexivity|right]. apply nodup_In, filter_In. split; [assumption|]. destruct (Z.eqb_spec i j); [contradiction|reflexivity].
      * constructor; [|apply NoDup_nodup]. intros Hi. apply nodup_In, filter_In in Hi. destruct Hi as (_ & Hi). rewrite Z.eqb_refl in Hi. discriminate.
      * intros j [<-|Hj]; [apply nodup_In; assumption|]. apply nodup_In, filter_In in Hj. apply nodup_In. tauto.
    + cbn [length]. f_equal. f_equal. f_equal. revert NI. induction js as [|j js IHj]; intros NI; [reflexivity|]. cbn [filter].
      destruct (Z.eqb_spec i j) as [->|]; [elim NI; left; reflexivity|]. cbn [negb]. f_equal. apply IHj. intros H; apply NI; right; assumption.
Qed.
