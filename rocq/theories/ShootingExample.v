(** A concrete module to shoot: one silent point moved by a global translation, in
    dimension 1; and an autograd that is exact.  Choosing the gradient uses
    Coq.Logic.ClassicalEpsilon: only examples depend on this file. *)
From Coq Require Import Reals String List Arith ZArith Lia Lra ClassicalEpsilon.
From Verif Require Import Py RSum Tensor TensorFacts KernelModel FieldModel GeometryModel ModuleModel ShootingModel
  SpecModule SpecShooting ModuleHistory ShootingPack ShootingDyn.
Import ListNotations.
Open Scope R_scope.

Definition is_gradient (F : list tensor -> res R) (l : list tensor) (G : list (option tensor)) : Prop :=
  length G = length l /\
  forall i t, nth_error l i = Some t ->
    match nth_error G i with
    | Some (Some g) => shape g = shape t /\
        forall idx, valid (shape t) idx -> partial_derivative F l i idx (get g idx)
    | _ => forall idx, valid (shape t) idx -> partial_derivative F l i idx 0
    end.

Definition exact_ag : autograd := fun F l =>
  match excluded_middle_informative (exists G, is_gradient F l G) with
  | left H => Ok (proj1_sig (constructive_indefinite_description _ H))
  | right _ => Err RuntimeError
  end.

Lemma exact_ag_exact : exact_grad exact_ag.
Proof.
  intros F l G E. unfold exact_ag in E. destruct (excluded_middle_informative _) as [H|]; [|discriminate]. injection E as <-.
  exact (proj2_sig (constructive_indefinite_description _ H)).
Qed.
Lemma exact_ag_ok F l : (exists G, is_gradient F l G) -> is_ok (exact_ag F l).
Proof. intros H. unfold exact_ag. destruct (excluded_middle_informative _) as [H'|H']; [eexists; reflexivity|elim (H' H)]. Qed.

Definition ex_mod (q p h : tensor) : dmod := MComp [MSilent (GLm 1 1 q p); MGlobal 1 1 h].
Definition one11 : tensor := mkT [1%nat; 1%nat] (fun _ => 1).
Definition ex0 : dmod := ex_mod one11 one11 (tzeros [1%nat]).

Section Ex.
  Variables (sv : solver) (b0 : backend).
  Notation geo := (geodesic_controls sv b0).

  Lemma ex_geo_ok q p h : shape q = [1%nat; 1%nat] -> shape p = [1%nat; 1%nat] -> tnth (shape h) 0 = 1%nat ->
    exists h', tnth (shape h') 0 = 1%nat /\ geo (ex_mod q p h) = Ok (ex_mod q p h') /\ hamiltonian (ex_mod q p h') = Ok (1 / 2 * (p @2 0%nat 0%nat) ^ 2) /\
      is_ok (cost (ex_mod q p h')).
  Proof.
    destruct q as [sq q]. destruct p as [sp p]. intros A B C. cbn [shape] in A, B. subst.
    unfold geodesic_controls, ex_mod. cbn [mod_manifold map compute_geodesic_control]. unfold global_geodesic. rewrite C. cbn.
    eexists (mk1 1 _). split; [reflexivity|]. split; [reflexivity|]. split; [|eexists; reflexivity].
    unfold hamiltonian, apply_mom. cbn. f_equal. field.
  Qed.

  Lemma ex_ham q p h q' p' : shape q' = [1%nat; 1%nat] -> shape p' = [1%nat; 1%nat] -> tnth (shape h) 0 = 1%nat ->
    ham_of (ex_mod q p h) geo [q'; p'] = Ok (1 / 2 * (p' @2 0%nat 0%nat) ^ 2).
  Proof.
    intros A B C. unfold ham_of. change (write_manifold (ex_mod q p h) [q'; p']) with (Ok (ex_mod q' p' h)). cbn [bind].
    destruct (ex_geo_ok q' p' h A B C) as (h' & _ & E & H & _). rewrite E. exact H.
  Qed.

  Lemma ex_gradient q p h q' p' : shape q' = [1%nat; 1%nat] -> shape p' = [1%nat; 1%nat] -> tnth (shape h) 0 = 1%nat ->
    is_gradient (ham_of (ex_mod q p h) geo) [q'; p'] [None; Some p'].
  Proof.
    intros A B C. split; [reflexivity|]. intros [|[|i]] t Et; [| |destruct i; discriminate]; cbn in Et; injection Et as <-; cbn [nth_error].
    - intros idx V. exists 1, (fun _ => 1 / 2 * (p' @2 0%nat 0%nat) ^ 2). split; [lra|]. split.
      + intros s _. cbn [upd]. apply ex_ham; assumption.
      + apply derivable_pt_lim_const.
    - split; [reflexivity|]. intros idx V. rewrite B in V. destruct idx as [|a [|b [|]]]; cbn in V; try tauto. destruct V as (V1 & V2 & _).
      replace a with 0%nat in * by lia. replace b with 0%nat in * by lia. exists 1, (fun s => 1 / 2 * s ^ 2). split; [lra|]. split.
      + intros s _. cbn [upd]. rewrite ex_ham by assumption. cbn. reflexivity.
      + cbn [entry nth_error]. replace (get p' [0%nat; 0%nat]) with (1 / 2 * (INR 2 * get p' [0%nat; 0%nat] ^ 1)) at 2 by (cbn; field).
        apply derivable_pt_lim_scal. apply derivable_pt_lim_pow.
  Qed.

  Lemma ex_frozen m : frozen m = frozen ex0 -> map shape (g_gd (mod_manifold m)) = [[1%nat; 1%nat]] -> map shape (g_cotan (mod_manifold m)) = [[1%nat; 1%nat]] ->
    skel (mod_manifold m) = skel (mod_manifold ex0) ->
    exists q p h, m = ex_mod q p h /\ shape q = [1%nat; 1%nat] /\ shape p = [1%nat; 1%nat] /\ tnth (shape h) 0 = 1%nat.
  Proof.
    intros F A B K. destruct m as [| | | | | | | | | |[|m1 [|m2 [|]]]]; try discriminate F. destruct m1; try discriminate F. destruct m2; try discriminate F.
    cbn [frozen map ex0 ex_mod params] in F. cbn [mod_manifold map skel ex0 ex_mod] in K. destruct man as [dim1 nb1 gd1 c1| | | | |]; try discriminate K.
    cbn [skel] in K. injection K; intros; subst. injection F; intros; subst. cbn in A, B. injection A as A. injection B as B. exists gd1, c1, h. unfold ex_mod. auto.
  Qed.

  Lemma ex_total m : frozen m = frozen ex0 -> skel (mod_manifold m) = skel (mod_manifold ex0) ->
    map shape (g_gd (mod_manifold m)) = map shape (g_gd (mod_manifold ex0)) -> map shape (g_cotan (mod_manifold m)) = map shape (g_gd (mod_manifold ex0)) ->
    exists m2, geo m = Ok m2 /\ is_ok (cost m2) /\ is_ok (exact_ag (ham_of m2 geo) (phase (mod_manifold m2))).
  Proof.
    intros F K A B. destruct (ex_frozen m F A B K) as (q & p & h & -> & Sq & Sp & Sh). destruct (ex_geo_ok q p h Sq Sp Sh) as (h' & Sh' & E & _ & C).
    exists (ex_mod q p h'). split; [assumption|]. split; [assumption|]. apply exact_ag_ok. exists [None; Some p]. apply ex_gradient; assumption.
  Qed.
End Ex.
