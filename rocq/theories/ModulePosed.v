(** When controls can be computed, the matrices of the linear systems are definite. *)
From Coq Require Import Reals String List Arith Lia Lra.
From Verif Require Import Py RSum Tensor TensorFacts KernelModel FieldModel GeometryModel ModuleModel
  SpecLinAlg SpecKernel SpecField SpecGeometry SpecSKS SpecModule LinAlg KernelFacts FieldFacts GeometryFacts SKSFacts
  GaussPSD ModuleDual ModuleAlg ModuleLeaves ModuleImplicit ModuleMain ModuleRegular.
Import ListNotations.
Open Scope R_scope.

Lemma psd_null n K f g : symmetric n K -> psd n K -> quad n K f = 0 -> bil n K g f = 0.
Proof.
  intros S P Z. set (b := bil n K g f). set (q := quad n K g).
  assert (H : forall t, 0 <= 2 * t * b + t ^ 2 * q).
  { intros t. pose proof (P (fun i => f i + t * g i)) as H. rewrite quad_bil in H.
    rewrite (bil_plus_l n K f (fun i => t * g i)), !bil_plus_r, !bil_scal_l, !bil_scal_r in H.
    rewrite (bil_sym n K f g S) in H. rewrite <- !quad_bil in H. fold q b in H. rewrite Z in H. nra. }
  assert (Q : 0 <= q) by apply P.
  destruct (Req_dec b 0) as [E|N]; [exact E|exfalso].
  specialize (H (- b / (q + 1))). assert (0 < q + 1) by lra.
  assert (0 < b ^ 2) by (assert (0 < Rsqr b) by (apply Rsqr_pos_lt; assumption); unfold Rsqr in *; lra).
  assert (X : 2 * (- b / (q + 1)) * b + (- b / (q + 1)) ^ 2 * q = - (b ^ 2 * (q + 2)) / (q + 1) ^ 2) by (field; lra).
  rewrite X in H. assert (0 < b ^ 2 * (q + 2) / (q + 1) ^ 2) by (apply Rdiv_lt_0_compat; [apply Rmult_lt_0_compat; lra|apply pow_lt; lra]). lra.
Qed.

Lemma psd_pd n K : symmetric n K -> psd n K -> nonsingular n K -> pd n K.
Proof.
  intros S P N f (i & Hi & Hf). destruct (P f) as [X|Z]; [exact X|exfalso]. apply Hf. apply (N f); [|exact Hi].
  intros k Hk. pose proof (psd_null n K f (delta k) S P (eq_sym Z)) as X. unfold bil in X.
  rewrite (rsum_ext n _ (fun a => delta k a * rsum n (fun j => K a j * f j))) in X by
    (intros; rewrite <- rsum_scal; apply rsum_ext; intros; ring).
  rewrite (rsum_delta_r n (fun a => rsum n (fun j => K a j * f j)) k Hk) in X. exact X.
Qed.

Section Conv.
  Variables (sv : solver) (b0 : backend) (d : nat).
  Hypothesis HSV : exact_solver sv.

  Lemma bM_sym s n0 n1 e ka sg nu gd : symmetric (n0 * s + n1 * d) (bM d sg nu s n0 e ka gd).
  Proof. apply (symmetric_diag (n0 * s + n1 * d)). apply bm_sym. Qed.
  Lemma bM_psd s n0 n1 e ka sg nu gd : sg <> 0 -> 0 <= nu -> psd (n0 * s + n1 * d) (bM d sg nu s n0 e ka gd).
  Proof. intros Hs Hnu. apply (psd_diag (n0 * s + n1 * d)); [assumption|]. apply bm_psd. assumption. Qed.

  Lemma fill_solvable m : forall c m1, wf_mod d m -> ctrl_ok d m c -> fill_controls sv m c = Ok m1 -> solvable d m.
  Proof.
    induction m as [m NC|ms IH] using dmod_ind'; intros c m1 W Hc F.
    - destruct m as [dim co h|b sg dim nb gd ct h|b sg nu co dim nb gd ct h|sg co tr dim nb gd0 gd1 c0 c1 h|
       sg co fs fv dim nb gd ct h|A co gd ct h|man0|b sg nu co C dim nb gd0 gd1 c0 c1 h ca|
       sg cd nu co dim n0 n1 gd ct h lm|sg ca nu co dim n0 n1 gd ct h lm|ms]; try exact I; (destruct c as [t|l]; [|destruct Hc] || idtac).
      + destruct W as (-> & (e & He) & Hs & Hnu & Hco & (r & SC) & Sg0 & Sg1 & Sc0 & Sc1).
        cbn [ctrl_ok] in Hc. rewrite SC in Hc. cbn [tnth nth] in Hc. intros e' He'. rewrite He in He'. injection He' as <-.
        pose proof (eta_basis d e He) as (Se & _).
        destruct (imp1_sks_ok b sg nu d e nb gd0 Hs He Sg0) as (S & ES & SS & GS).
        destruct (aqh_get d nb r (sym_dim d) e C gd1 t 0 0 Sg1 SC Hc Se) as (SA & _).
        cbn [fill_controls] in F. unfold imp1_moments in F. rewrite He in F. cbn [bind] in F. rewrite ES in F. cbn [bind] in F.
        bok F x Ex. bok Ex l El.
        assert (HN : nonsingular (nb * sym_dim d) (bM d sg nu (sym_dim d) nb e 1 gd0)).
        { destruct b.
          - destruct (fun SB => solver_any sv _ S _ l (bM d sg nu (sym_dim d) nb e 1 gd0) HSV SS SB El GS) as (H & _); [|exact H].
            left. cbn [tflatten reshape shape]. rewrite SA. cbn [prod fold_right]. f_equal. lia.
          - destruct (fun SB => solver_any sv _ S _ l (bM d sg nu (sym_dim d) nb e 1 gd0) HSV SS SB El GS) as (H & _); [right; reflexivity|exact H]. }
        pose proof (bM_sym (sym_dim d) nb 0 e 1 sg nu gd0) as SY. pose proof (bM_psd (sym_dim d) nb 0 e 1 sg nu gd0 Hs Hnu) as PS.
        cbn [Nat.mul] in SY, PS. rewrite Nat.add_0_r in SY, PS. apply psd_pd; assumption.
      + destruct W as (-> & Hs & Hnu & Hco & Sgd & Sct). cbn [ctrl_ok] in Hc.
        destruct (div_sks_ok sg cd nu d n0 n1 gd Hs Sgd) as (S & ES & SS & GS).
        cbn [fill_controls] in F. unfold div_moments in F. rewrite ES in F. cbn [bind] in F. bok F l El.
        assert (SP : shape (pad_controls n0 t) = [(n0 * 1 + n1 * d)%nat]).
        { rewrite pad_controls_shape. f_equal. destruct Hc as [E|E]; rewrite E; cbn [prod fold_right]; lia. }
        destruct (solver_vec sv _ S _ l (bM d sg nu 1 n0 (e_div d) cd gd) HSV SS SP El GS) as (HN & _).
        apply psd_pd; [apply bM_sym|apply bM_psd; assumption|exact HN].
      + destruct W as (-> & (e & He) & Hs & Hnu & Hco & Sgd & Sct). cbn [ctrl_ok] in Hc. intros e' He'. rewrite He in He'. injection He' as <-.
        destruct (arap_sks_ok sg ca nu d e n0 n1 gd Hs He Sgd) as (S & ES & SS & GS).
        cbn [fill_controls] in F. unfold arap_moments in F. rewrite ES in F. cbn [bind] in F. bok F l El.
        assert (SP : shape (pad_controls (n0 * sym_dim d) t) = [(n0 * sym_dim d + n1 * d)%nat]).
        { rewrite pad_controls_shape. f_equal. destruct Hc as [E|E]; rewrite E; cbn [prod fold_right]; lia. }
        destruct (solver_vec sv _ S _ l (bM d sg nu (sym_dim d) n0 e ca gd) HSV SS SP El GS) as (HN & _).
        apply psd_pd; [apply bM_sym|apply bM_psd; assumption|exact HN].
      + elim (NC ms eq_refl).
    - destruct c as [t|cs]; [destruct Hc|]. change (ctrls_ok d ms cs) in Hc. destruct W as (_ & W).
      rewrite fill_comp, (ctrls_ok_length d ms cs Hc), Nat.eqb_refl in F. bok F ms1 F1. injection F as <-. cbn [solvable].
      revert cs ms1 Hc W F1. induction IH as [|m ms Hm _ IHs]; intros cs ms1 Hc W F1; [exact I|].
      destruct cs as [|c cs]; [destruct Hc|]. destruct Hc as (Hc & Hcs). destruct W as (Wm & Wms).
      cbn [fills] in F1. fold (fills sv) in F1. bok F1 m1 Em. bok F1 r Er. injection F1 as <-. cbn [fold_right].
      split; [exact (Hm c m1 Wm Hc Em)|exact (IHs cs r Hcs Wms Er)].
  Qed.

  Lemma geo_posed_conv m man : wf_gman d man -> no_empty_comp man -> forall m1, wf_mod d m -> compute_geodesic_control sv b0 m man = Ok m1 -> posed d m.
  Proof.
    intros WG NE. induction m as [m NC|ms IH] using dmod_ind'; intros m1 W E.
    - assert (SO : solvable d m).
      { destruct (geodesic_max sv b0 d HSV m man m1 W WG NE E) as (O & F & _). exact (fill_solvable m _ m1 W O F). }
      destruct m as [dim co h|b sg dim nb gd ct h|b sg nu co dim nb gd ct h|sg co tr dim nb gd0 gd1 c0 c1 h|
       sg co fs fv dim nb gd ct h|A co gd ct h|man0|b sg nu co K dim nb gd0 gd1 c0 c1 h ca|
       sg cd nu co dim n0 n1 gd ct h lm|sg ca nu co dim n0 n1 gd ct h lm|ms]; try exact I; try exact SO; cbn [compute_geodesic_control] in E.
      + destruct W as (-> & Hs & Sg & Sc). destruct (cot_to_vs_wf d man sg b b0 WG NE Hs) as (vs & Evs & Wvs & Zvs & _).
        rewrite Evs in E. cbn [bind] in E. destruct (feval_0 d vs gd nb Wvs Zvs Sg) as (v & Ev & Sv & _). rewrite Ev in E. cbn [bind] in E.
        bok E x Ex. cbn [posed]. apply psd_pd; [apply kmat_sym|apply kmat_psd; assumption|].
        destruct b; unfold trans_geodesic in Ex.
        * apply (solver_mat sv nb d (K_xx gd sg) v x _ HSV); [apply (K_xx_sh gd nb d); assumption|assumption|assumption|].
          intros. apply (K_xx_kmat gd nb d); assumption.
        * eapply (solver_mat sv nb d _ v x _ HSV); [|assumption|exact Ex|].
          -- cbn. unfold nrows. rewrite Sg. reflexivity.
          -- intros i j Hi Hj. unfold entries, add_diag, tadd, tmap2, keops_kernel, mk2. cbn [get].
             rewrite (keops_trans_kmat gd nb d) by assumption. cbn. ring.
      + destruct W as (-> & Hs & Hnu & Hco & Sg & Sc). destruct (cot_to_vs_wf d man sg b b0 WG NE Hs) as (vs & Evs & Wvs & Zvs & _).
        rewrite Evs in E. cbn [bind] in E. destruct (feval_0 d vs gd nb Wvs Zvs Sg) as (v & Ev & Sv & _). rewrite Ev in E. cbn [bind] in E.
        bok E x Ex. cbn [posed]. apply psd_pd; [apply symmetric_diag; apply kmat_sym|apply psd_diag; [assumption|apply kmat_psd; assumption]|].
        destruct b; unfold imp0_geodesic in Ex; bok Ex y Ey.
        * eapply (solver_mat sv nb d _ v y _ HSV); [|assumption|exact Ey|].
          -- cbn. unfold nrows. rewrite Sg. reflexivity.
          -- intros i j Hi Hj. unfold entries, add_diag, tadd, tmap2. cbn [get]. rewrite (K_xx_kmat gd nb d) by assumption. reflexivity.
        * eapply (solver_mat sv nb d _ v y _ HSV); [|assumption|exact Ey|].
          -- cbn. unfold nrows. rewrite Sg. reflexivity.
          -- intros i j Hi Hj. unfold entries, add_diag, tadd, tmap2, keops_kernel, mk2. cbn [get].
             rewrite (keops_imp0_kmat gd nb d) by assumption. reflexivity.
      + destruct W as (-> & Hs & Hco & Sg0 & Sg1 & _). destruct (cot_to_vs_wf d man sg Torch b0 WG NE Hs) as (vs & Evs & Wvs & Zvs & _).
        rewrite Evs in E. cbn [bind] in E. destruct (feval_0 d vs gd0 nb Wvs Zvs Sg0) as (v & Ev & Sv & _). rewrite Ev in E. cbn [bind] in E.
        bok E x Ex. cbn [posed]. apply psd_pd; [apply omat_sym|apply omat_psd; assumption|].
        unfold oriented_geodesic in Ex. bok Ex y Ey. eapply (solver_mat sv nb 1 _ _ y _ HSV); [| |exact Ey|].
        * cbn. unfold nrows. rewrite Sg0. reflexivity.
        * cbn. rewrite Sv. reflexivity.
        * intros i j Hi Hj. unfold entries, tmul, tmap2. cbn [get]. rewrite (K_xx_kmat gd0 nb d) by assumption.
          unfold omat. f_equal. cbn. rewrite Sg1. reflexivity.
      + destruct W as (-> & Hs & Hco & Sg & Sc & M & s & v & Es & Ev & Ss & Sv).
        rewrite Es in E. cbn [bind] in E. rewrite Ev in E. cbn [bind] in E. bok E x Ex. bok E h' Eh.
        intros s' v' Es' Ev'. rewrite Es in Es'. injection Es' as <-. rewrite Ev in Ev'. injection Ev' as <-.
        unfold tdiv in Eh. destruct (Req_EM_T (co * local_norm sg s v) 0) as [Z|NZ]; [discriminate|].
        assert (P : 0 <= local_norm sg s v).
        { unfold local_norm. rewrite (mm_form (K_xx s sg) v v M d (kmat d sg s)) by
            (assumption || (apply (K_xx_sh s M d); assumption) || (intros; apply (K_xx_kmat s M d); assumption)).
          apply rsum_nonneg. intros. rewrite <- quad_bil. apply kmat_psd; assumption. }
        destruct P as [P|P]; [exact P|]. elim NZ. rewrite <- P. ring.
      + destruct W as (-> & (e & He) & Hs & Hnu & Hco & (r & SC) & Sg0 & Sg1 & Sc0 & Sc1). split; [exact SO|].
        rewrite SC. cbn [tnth nth]. pose proof (eta_basis d e He) as (Se & _).
        bok E vs Evs. bok E h' Eh. unfold imp1_geodesic in Eh. rewrite He in Eh. cbn [bind] in Eh. bok Eh dv Edv. bok Eh sks Esk. bok Eh tll Etl.
        bok Eh pq Ep. bok Eh c Ec. clear E Eh. rewrite SC in Ep. cbn [tnth nth] in Ep.
        unfold imp1_aqkiaq in Ep. bok Ep ls Els. injection Ep as <-. cbn [fst snd] in Ec.
        intros hh Shh Z. set (n := (sym_dim d * nb)%nat) in *.
        match type of Ec with sv ?A ?B = _ => destruct (fun SX SY => solver_any sv r A B c (fun i j => rsum n (fun q => fvec (nth i ls (tzeros [])) q *
               fvec (imp1_aqh d nb e K gd1 (basis_vec r j)) q)) HSV SX SY Ec (fun _ _ _ _ => eq_refl)) as (HN & _) end.
        * reflexivity.
        * right. reflexivity.
        * apply (HN (fun k => hh @1 k)). intros i Hi.
          set (L := fun q => fvec (nth i ls (tzeros [])) q).
          transitivity (rsum n (fun q => L q * fvec (imp1_aqh d nb e K gd1 hh) q)).
          -- rewrite (rsum_ext r _ (fun j => rsum n (fun q => L q * (hh @1 j * fvec (imp1_aqh d nb e K gd1 (basis_vec r j)) q)))) by
               (intros j Hj; rewrite <- rsum_scal_r; apply rsum_ext; intros; unfold L; ring).
             rewrite rsum_swap. apply rsum_ext. intros q Hq. rewrite rsum_scal. f_equal.
             assert (Hq' : (q < nb * sym_dim d)%nat) by (unfold n in Hq; lia).
             rewrite (fvec_aqh d nb r (sym_dim d) e K gd1 hh q Sg1 SC Shh Se Hq'). apply rsum_ext. intros j Hj.
             rewrite (fvec_1 hh r) by assumption.
             rewrite (fvec_aqh d nb r (sym_dim d) e K gd1 _ q Sg1 SC (eq_refl : shape (basis_vec r j) = [r]) Se Hq'). f_equal.
             rewrite (rsum_ext r _ (fun k => delta j k * coords d e (growth_of d K gd1 (q / sym_dim d) k) (q mod sym_dim d))).
             ++ exact (rsum_delta_r r (fun k => coords d e (growth_of d K gd1 (q / sym_dim d) k) (q mod sym_dim d)) j Hj).
             ++ intros k Hk. rewrite (fvec_1 _ r) by (reflexivity || assumption). reflexivity.
          -- apply rsum_zero. intros q Hq.
             assert (SAh : shape (imp1_aqh d nb e K gd1 hh) = [nb; sym_dim d]) by (apply (aqh_get d nb r (sym_dim d) e K gd1 _ 0 0); auto).
             assert (ND : sym_dim d <> 0%nat) by (intros X; unfold n in Hq; rewrite X in Hq; lia).
             assert (Hd1 : (q / sym_dim d < nb)%nat) by (apply Nat.div_lt_upper_bound; unfold n in Hq; lia).
             assert (Hd2 : (q mod sym_dim d < sym_dim d)%nat) by (apply Nat.mod_upper_bound; assumption).
             replace q with (q / sym_dim d * sym_dim d + q mod sym_dim d)%nat at 2 by (pose proof (Nat.div_mod q (sym_dim d) ND); lia).
             rewrite (fvec_2 _ nb (sym_dim d)) by assumption. rewrite (aqh_growth d nb r (sym_dim d)) by assumption.
             rewrite (coords_ext d e _ (fun _ _ => 0)) by (intros; apply Z; assumption).
             unfold coords, frob. rewrite rsum_zero; [ring|]. intros. apply rsum_zero. intros. ring.
      + elim (NC ms eq_refl).
    - destruct W as (_ & W). change (ms' <- geos sv b0 man ms ;; Ok (MComp ms') = Ok m1) in E. bok E r Er. injection E as <-. cbn [posed].
      revert r W Er. induction IH as [|m ms Hm _ IHs]; intros r W Er; [exact I|]. destruct W as (Wm & Wms).
      cbn [geos] in Er. fold (geos sv b0 man) in Er. bok Er m2 Em. bok Er r' Er'. cbn [fold_right].
      split; [exact (Hm m2 Wm Em)|exact (IHs r' Wms Er')].
  Qed.
End Conv.
