(** Proofs for C51: the stress power integrates to the difference of the stored energy. *)
From Coq Require Import Reals Lra FunctionalExtensionality.
From Coquelicot Require Import Coquelicot.
From Verif Require Import Tensor Py Voigt VoigtProofs Algebra Calc ContR Models Frameworks Spaces Spec WorkSpec VCalc
  SpaceCore PiolaProofs SpaceProofs DistProofs SpecialProofs StrMore.
Local Open Scope R_scope.

Lemma hessian_smooth {SV} (fw : Framework SV) Dom : fw_hessian_of fw Dom -> smooth_gradient fw Dom.
Proof.
  intros H C t0 dC S HC D svt st G HG.
  destruct (H C t0 dC S HC D (svt t0) (st t0)) as (A & _ & X). eexists. exact (X svt st G HG).
Qed.

Section Work.
  Context {SV : Type} (fw : Framework SV) (k : SpaceKind).

  Lemma stress_inv F sv s P svn : returns (sp_gradient k fw default_opts F sv) s (StressFull P, svn) ->
    exists g, outcome (fw_gradient fw (seen k (right_CG F)) sv) (sp_mat s) = Ok (g, svn) /\
    P = mmul F (astensor (kS k (right_CG F) g)).
  Proof.
    intros [s' E]. assert (O : outcome (sp_gradient k fw default_opts F sv) s = Ok (StressFull P, svn)) by (unfold outcome; rewrite E; reflexivity).
    destruct (outcome (fw_gradient fw (seen k (right_CG F)) sv) (sp_mat s)) as [[g svn']|e] eqn:Eg.
    - rewrite (sp_gradient_ok fw default_opts k F sv s g svn' Eg) in O. rewrite piola_stress_eq in O by reflexivity.
      change default_opts with (opts Deformed Undeformed) in O. rewrite pf_stress_push in O by apply detJ_k.
      cbn [leg per_area] in O. rewrite mtr_one, mmul_1_r in O.
      replace (mscal 1 (mmul F (astensor (kS k (right_CG F) g)))) with (mmul F (astensor (kS k (right_CG F) g))) in O
        by (apply T2_ext; intros; unfold mscal; ring).
      exists g. split; [|congruence]. congruence.
    - rewrite (sp_gradient_raise fw default_opts k F sv s e Eg) in O. discriminate.
  Qed.

  Hypothesis (K : k <> KDilatational).
  Context (W : T2 -> R) (Dom : T2 -> Prop) (HG : fw_gradient_of fw W Dom) (HS : smooth_gradient fw Dom).
  Context (F dF P : R -> T2) (svt : R -> SV) (st : R -> SpaceSelf (fw_self fw)) (lo hi : R) (HM : motion F dF lo hi).
  Context (HD : forall t, lo < t < hi -> invertible (F t) /\ Dom (sees k (cauchy_green (F t)))).
  Context (HP : stress_along (sp_gradient k fw default_opts) svt st F P lo hi).

  Lemma seen_sees A : astensor (seen k (right_CG A)) = sees k (cauchy_green A).
  Proof.
    clear - K. destruct k; cbn [sees]; [| |contradiction].
    - cbn [seen]. apply right_CG_full.
    - rewrite dist_part, right_CG_full. reflexivity.
  Qed.
  Lemma seen_path t : lo < t < hi -> exists dC, dcurve2 (fun u => astensor (seen k (right_CG (F u)))) t dC.
  Proof.
    intro I. destruct (HM t I) as [HF _]. pose proof (right_CG_D F t (dF t) HF) as HC.
    destruct k; [| |contradiction].
    - eexists. apply dcurve_tensor. exact HC.
    - eexists. apply dcurve_tensor. apply seen_D; [exact HC|]. apply pos_right_CG. exact (proj1 (HD t I)).
  Qed.
  Lemma interval_locally t (Q : R -> Prop) : lo < t < hi -> (forall u, lo < u < hi -> Q u) -> locally t Q.
  Proof.
    intros I H. assert (D : 0 < Rmin (t - lo) (hi - t)) by (apply Rmin_pos; lra). exists (mkposreal _ D). intros u Hu.
    change (Rabs (u - t) < Rmin (t - lo) (hi - t)) in Hu. pose proof (Rmin_l (t - lo) (hi - t)). pose proof (Rmin_r (t - lo) (hi - t)).
    apply H. apply Rabs_lt_between in Hu. lra.
  Qed.

  Definition calls (t : R) : Vec6 :=
    match outcome (fw_gradient fw (seen k (right_CG (F t))) (svt t)) (sp_mat (st t)) with Ok (g, _) => g | Raise _ => vzero end.
  Lemma calls_ok t : lo < t < hi ->
    (exists svn, returns (fw_gradient fw (asvoigt (astensor (seen k (right_CG (F t))))) (svt t)) (sp_mat (st t)) (calls t, svn)) /\
    P t = mmul (F t) (astensor (kS k (right_CG (F t)) (calls t))).
  Proof.
    intro I. destruct (HP t I) as (svn & E). destruct (stress_inv _ _ _ _ _ E) as (g & Eg & EP).
    unfold calls. rewrite Eg. split; [|exact EP]. exists svn. rewrite asvoigt_astensor_f.
    unfold outcome in Eg. destruct (fw_gradient fw (seen k (right_CG (F t))) (svt t) (sp_mat (st t))) as [s' r] eqn:Q.
    cbn in Eg; subst r. exists s'. exact Q.
  Qed.
  Lemma calls_cont t v : lo < t < hi -> cont (fun u => calls u v) t.
  Proof.
    intro I. destruct (seen_path t I) as [dC HC].
    destruct (HS (fun u => astensor (seen k (right_CG (F u)))) t dC (fun u => astensor_sym _) HC) with (svt := svt) (st := fun u => sp_mat (st u)) (G := calls) as [dG D].
    - rewrite seen_sees. exact (proj2 (HD t I)).
    - apply (interval_locally t _ I). intros u Iu. exact (proj1 (calls_ok u Iu)).
    - destruct v; [exact (cont_D _ _ _ (D X0 X0))|exact (cont_D _ _ _ (D X1 X1))|exact (cont_D _ _ _ (D X2 X2))
        |exact (cont_D _ _ _ (D X0 X1))|exact (cont_D _ _ _ (D X1 X2))|exact (cont_D _ _ _ (D X0 X2))].
  Qed.
  Lemma cont_sum6 (f : R -> ix6 -> R) t : (forall i, cont (fun x => f x i) t) -> cont (fun x => sum6 (f x)) t.
  Proof. intros H; unfold sum6. repeat apply cont_plus; auto. Qed.
  Lemma kS_cont t v : lo < t < hi -> cont (fun u => kS k (right_CG (F u)) (calls u) v) t.
  Proof.
    intro I. pose proof (fun v => calls_cont t v I) as HC. destruct (HM t I) as [HF _]. pose proof (right_CG_D F t (dF t) HF) as HR.
    destruct k; [| |contradiction].
    - cbn [kS]. unfold vscal. apply cont_mult; [apply cont_const|apply HC].
    - pose proof (pos_right_CG (F t) (proj1 (HD t I))) as PJ.
      assert (B : forall v, cont (fun u => kSb KDistortional (right_CG (F u)) (calls u) v) t).
      { intro w. cbn [kSb]. unfold vscal. apply cont_mult; [|apply HC]. apply cont_mult; [apply cont_const|].
        exact (cont_D _ _ _ (I3pow_D (fun u => right_CG (F u)) t _ (- 1 / 3) HR PJ)). }
      apply cont_ext with (fun u => kSb KDistortional (right_CG (F u)) (calls u) v - ddot22 (kSb KDistortional (right_CG (F u)) (calls u)) (right_CG (F u)) / 3 * inv (right_CG (F u)) None v).
      { intro u. rewrite dis_S. reflexivity. }
      apply cont_minus; [apply B|]. apply cont_mult.
      + unfold Rdiv. apply cont_mult; [|apply cont_const]. unfold ddot22. apply cont_sum6. intro w.
        apply cont_mult; [apply cont_mult; [apply B|exact (cont_D _ _ _ (HR w))]|apply cont_const].
      + exact (cont_D _ _ _ (inv_D _ _ _ HR (Rgt_not_eq _ _ PJ) v)).
  Qed.
  Lemma stress_cont t i j : lo < t < hi -> cont (fun u => P u i j) t.
  Proof.
    intro I. destruct (HM t I) as [HF _].
    apply cont_ext_loc with (fun u => mmul (F u) (astensor (kS k (right_CG (F u)) (calls u))) i j).
    - apply (interval_locally t _ I). intros u Iu. rewrite (proj2 (calls_ok u Iu)). reflexivity.
    - unfold mmul. apply cont_sum3. intro l. apply cont_mult; [exact (cont_D _ _ _ (HF i l))|]. unfold astensor. apply kS_cont. exact I.
  Qed.
  Lemma energy_D t : lo < t < hi -> is_derive (fun u => W (sees k (cauchy_green (F u)))) t (power P dF t).
  Proof.
    intro I. destruct (HM t I) as [HF _]. destruct (HD t I) as [N D]. destruct (HP t I) as (svn & s' & E).
    destruct k; [| |contradiction].
    - destruct (deformation_grad fw W Dom HG F t (dF t) HF D (svt t) (st t)) as (P' & svn' & (s2 & E') & D').
      cbn [sp_gradient] in E. rewrite E in E'. injection E' as _ <- _. exact D'.
    - destruct (distortional_grad fw W Dom HG F t (dF t) HF (conj N D) (svt t) (st t)) as (P' & svn' & (s2 & E') & D').
      cbn [sp_gradient] in E. rewrite E in E'. injection E' as _ <- _. exact D'.
  Qed.
  Lemma power_cont t : lo < t < hi -> continuous (power P dF) t.
  Proof.
    intro I. apply cont_continuous. unfold power, dc22. apply cont_sum3; intro i. apply cont_sum3; intro j.
    apply cont_mult; [apply stress_cont; exact I|]. apply cont_continuous. exact (proj2 (HM t I) i j).
  Qed.
  Lemma work a b : lo < a < hi -> lo < b < hi ->
    is_RInt (power P dF) a b (W (sees k (cauchy_green (F b))) - W (sees k (cauchy_green (F a)))).
  Proof.
    intros Ia Ib. assert (I : forall t, Rmin a b <= t <= Rmax a b -> lo < t < hi).
    { intros t [H1 H2]. split.
      - eapply Rlt_le_trans; [|exact H1]. apply Rmin_glb_lt; tauto.
      - eapply Rle_lt_trans; [exact H2|]. apply Rmax_lub_lt; tauto. }
    apply (@is_RInt_derive R_CompleteNormedModule (fun u => W (sees k (cauchy_green (F u))))).
    - intros t Ht. apply energy_D. apply I. exact Ht.
    - intros t Ht. apply power_cont. apply I. exact Ht.
  Qed.
End Work.
