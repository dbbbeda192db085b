(** Material symmetry of the spaces (C57). *)
From Coq Require Import Reals Lra FunctionalExtensionality.
From Verif Require Import Tensor Py Voigt VoigtProofs Algebra VCalc Models Frameworks Spaces Spec SymSpec SpaceCore
  PiolaProofs SpaceProofs DistProofs SpaceMore IsoProofs Counter SymAlg.
Local Open Scope R_scope.

Section Rot.
  Context (Q : T2) (HQ : orthogonal Q).
  Lemma seen_rV k a : seen k (rV Q a) = rV Q (seen k a).
  Proof. destruct k; cbn [seen]; rewrite ?rV_det, ?rV_scal by exact HQ; reflexivity. Qed.
  Lemma kSb_rV k c g : kSb k (rV Q c) (rV Q g) = rV Q (kSb k c g).
  Proof. destruct k; cbn [kSb]; rewrite ?rV_det, ?rV_scal by exact HQ; reflexivity. Qed.
  Lemma kS_rV k c g : det c <> 0 -> kS k (rV Q c) (rV Q g) = rV Q (kS k c g).
  Proof.
    intro N. unfold kS. destruct k; cbv zeta.
    - now rewrite rV_scal.
    - rewrite kSb_rV, rV_sub, rV_scal, rV_inv, rV_ddot22; auto.
    - rewrite kSb_rV, rV_scal, rV_inv, rV_trace; auto.
  Qed.
  Lemma inv_rV c : det c <> 0 -> inv (rV Q c) None = rV Q (inv c None).
  Proof. intro N. symmetry. exact (rV_inv Q HQ c N). Qed.
  Lemma kC4_rV k c g H : det c <> 0 -> k <> KDistortional ->
    kC4 k (rV Q c) (rV Q g) (rM Q H) = rM Q (kC4 k c g H).
  Proof.
    intros N K. unfold kC4. cbv zeta. rewrite kSb_rV, (rV_det Q HQ).
    destruct k; [now rewrite rM_scal|congruence|].
    assert (E : inv (rV Q c) (Some (det c)) = rV Q (inv c None)).
    { rewrite <- (inv_rV c N), <- (rV_det Q HQ c). reflexivity. }
    change (inv c (Some (det c))) with (inv c None). rewrite E.
    rewrite (rV_trace Q HQ), rM_sub, !rM_scal, rM_dya, rM_cdya1.
    replace (ddot22 (ddot24 eye (mscal6 (4 * Rpower (det c) (2 / 3)) (rM Q H))) eye)
      with (ddot22 (ddot24 eye (mscal6 (4 * Rpower (det c) (2 / 3)) H)) eye); [reflexivity|].
    rewrite !double_trace, <- rM_scal, rM_act.
    assert (B : rV (mtr Q) eye = eye) by (rewrite <- (rV_eye Q HQ) at 1; apply (rV_back Q HQ)).
    rewrite B. rewrite <- (rV_eye Q HQ) at 3. symmetry. apply (rV_ddot22 Q HQ).
  Qed.
  Lemma dis_C4_rV c g H : det c <> 0 -> dis_C4 (rV Q c) (rV Q g) (rM Q H) = rM Q (dis_C4 c g H).
  Proof.
    intro N. unfold dis_C4. cbv zeta. rewrite kSb_rV, (rV_det Q HQ), (inv_rV c N), (rV_ddot22 Q HQ).
    set (i := inv c None). set (Sb := kSb KDistortional c g).
    rewrite rM_add, !(rM_ddot44 Q HQ), rM_transpose, !rM_scal, !rM_sub, rM_add, !rM_sub, !rM_scal, rM_transpose, !rM_dya, !rM_cdya1, (rV_eye Q HQ).
    reflexivity.
  Qed.

  (** *** piola *)
  Lemma cg_turn F : cauchy_green (mmul F (mtr Q)) = rot2 Q (cauchy_green F).
  Proof. unfold cauchy_green, rot2. rewrite mtr_mmul, mtr_mtr, !mmul_assoc. reflexivity. Qed.
  Lemma right_CG_turn F : right_CG (mmul F (mtr Q)) = rV Q (right_CG F).
  Proof. rewrite right_CG_cauchy, cg_turn. unfold rV. rewrite right_CG_full. reflexivity. Qed.
  Lemma kdetF_turn k F : detJ (mmul F (mtr Q)) (kdetF k (rV Q (right_CG F))) = detJ F (kdetF k (right_CG F)).
  Proof. unfold detJ. destruct k; cbn [kdetF]; rewrite ?right_CG_turn, (rV_det Q HQ); reflexivity. Qed.
  Lemma invCG_turn k F : det (right_CG F) <> 0 ->
    invCG (mmul F (mtr Q)) (kinvC k (rV Q (right_CG F))) = rot2 Q (invCG F (kinvC k (right_CG F))).
  Proof.
    intro N. unfold invCG. destruct k; cbn [kinvC]; rewrite ?right_CG_turn, <- (rV_inv Q HQ), astensor_rV by auto; reflexivity.
  Qed.
  Lemma stress_turn o k F S : piola_stress o (mmul F (mtr Q)) (rV Q S) (kdetF k (rV Q (right_CG F))) =
    turn_stress o Q (piola_stress o F S (kdetF k (right_CG F))).
  Proof.
    destruct (finalize o) eqn:Ef.
    - rewrite !piola_stress_eq by auto. cbn [turn_stress]. f_equal. rewrite kdetF_turn, astensor_rV.
      generalize (detJ F (kdetF k (right_CG F))) as d, (astensor S) as T. intros d T.
      assert (X : mmul (mmul F (mtr Q)) (rot2 Q T) = mmul (mmul F T) (mtr Q)).
      { unfold rot2. rewrite !mmul_assoc. rewrite <- (mmul_assoc (mtr Q) Q), (QtQ Q HQ), mmul_1_l. reflexivity. }
      assert (Y : forall M, mmul (mmul M (mtr Q)) (mmul Q (mtr F)) = mmul M (mtr F)).
      { intro M. rewrite !mmul_assoc. rewrite <- (mmul_assoc (mtr Q) Q), (QtQ Q HQ), mmul_1_l. reflexivity. }
      unfold pf_stress. destruct (force o), (area o); cbn [leg mleg]; rewrite ?mtr_mmul, ?mtr_mtr, ?mtr_one, ?mmul_1_l, ?mmul_1_r.
      + rewrite X, Y. reflexivity.
      + exact X.
      + unfold rot2. rewrite Y. apply T2_ext; intros i j. unfold mmul, mtr, sum3, Rdiv. ring.
      + reflexivity.
    - unfold piola_stress, turn_stress. rewrite Ef. reflexivity.
  Qed.
  Lemma rot4_legs A : rot4 Q A = legs13 Q (legs24 Q A).
  Proof. rewrite <- legs4_split. apply T4_ext; intros. unfold rot4, legs4, sum3. ring. Qed.
  Lemma legs13_QtQ A E : legs13 (mmul A (mtr Q)) (legs13 Q E) = legs13 A E.
  Proof. rewrite <- legs13_mul, mmul_assoc, (QtQ Q HQ), mmul_1_r. reflexivity. Qed.
  Lemma legs24_QtQ A E : legs24 (mmul A (mtr Q)) (legs24 Q E) = legs24 A E.
  Proof. rewrite <- legs24_mul, mmul_assoc, (QtQ Q HQ), mmul_1_r. reflexivity. Qed.
  Lemma elast_turn o k F S C4 : det (right_CG F) <> 0 ->
    piola_elast o (mmul F (mtr Q)) (rV Q S) (kdetF k (rV Q (right_CG F))) (rM Q C4) (kinvC k (rV Q (right_CG F))) =
    turn_elast o Q (piola_elast o F S (kdetF k (right_CG F)) C4 (kinvC k (right_CG F))).
  Proof.
    intro N. destruct (finalize o) eqn:Ef.
    - rewrite !piola_elast_eq by auto. cbn [turn_elast]. f_equal. rewrite kdetF_turn, astensor_rV, astensor4_rM, invCG_turn by auto.
      generalize (detJ F (kdetF k (right_CG F))) as d, (astensor S) as T, (astensor4 C4) as E, (invCG F (kinvC k (right_CG F))) as B.
      intros d T E B. change push with legs4. rewrite legs4_split, rot4_legs.
      assert (G1 : forall M, geo M (rot2 Q T) = legs24 Q (geo M T)) by (intro; now rewrite legs24_geo).
      assert (G2 : geo (rot2 Q B) (rot2 Q T) = legs13 Q (legs24 Q (geo B T))) by (rewrite legs24_geo, legs13_geo; reflexivity).
      unfold pf_elast. rewrite G1, G2. destruct (force o), (area o); cbn [mleg].
      + rewrite legs13_QtQ, legs24_one, legs13_one, legs_comm, <- legs24_add, legs24_QtQ. reflexivity.
      + rewrite legs13_QtQ, legs13_one, legs_comm, <- legs24_add. reflexivity.
      + rewrite <- legs13_add, <- legs24_add, legs24_one. apply T4_ext; intros a b c e. rewrite legs13_scal. f_equal.
        rewrite (legs_comm Q Q), legs24_QtQ, <- legs_comm. reflexivity.
      + rewrite <- legs13_add, <- legs24_add. reflexivity.
    - unfold piola_elast, turn_elast. rewrite Ef. reflexivity.
  Qed.
End Rot.

Lemma argument_seen k F : astensor (seen k (right_CG F)) = argument k F.
Proof.
  destruct k; cbn [seen argument].
  - apply right_CG_full.
  - rewrite <- right_CG_full. exact (dist_part (right_CG F)).
  - rewrite <- right_CG_full, <- det_astensor. reflexivity.
Qed.
Section Fw.
  Context {SV : Type} (fw : Framework SV) (Dom : T2 -> Prop).
  Lemma det_CG_nz F : invertible F -> det (right_CG F) <> 0.
  Proof. intro N. assert (H := pos_right_CG F N). lra. Qed.
  Lemma turn_gradient (HG : isotropic_gradient fw Dom) o k Q F sv s : orthogonal Q -> invertible F -> Dom (argument k F) ->
    outcome (sp_gradient k fw o (mmul F (mtr Q)) sv) s =
      rmap (fun r => (turn_stress o Q (fst r), snd r)) (outcome (sp_gradient k fw o F sv) s).
  Proof.
    intros HQ N D. rewrite <- argument_seen in D.
    assert (H1 := HG Q _ sv (sp_mat s) HQ (astensor_sym2 (seen k (right_CG F))) D). rewrite asvoigt_astensor_f in H1.
    change (asvoigt (rot2 Q (astensor (seen k (right_CG F))))) with (rV Q (seen k (right_CG F))) in H1.
    rewrite <- (seen_rV Q HQ), <- right_CG_turn in H1.
    destruct (outcome (fw_gradient fw (seen k (right_CG F)) sv) (sp_mat s)) as [[g svn]|e] eqn:E; cbn [rmap fst snd] in H1.
    - rewrite (sp_gradient_ok fw o _ _ _ _ _ _ E), (sp_gradient_ok fw o _ _ _ _ _ _ H1). cbn [rmap fst snd].
      change (asvoigt (rot2 Q (astensor g))) with (rV Q g).
      rewrite right_CG_turn, (kS_rV Q HQ) by (apply det_CG_nz; auto). rewrite (stress_turn Q HQ). reflexivity.
    - rewrite (sp_gradient_raise fw o _ _ _ _ _ E), (sp_gradient_raise fw o _ _ _ _ _ H1). reflexivity.
  Qed.
  Context (HI : isotropic_fw fw Dom).
  Lemma iso_rV Q c sv s : orthogonal Q -> Dom (astensor c) ->
    outcome (fw_gradient fw (rV Q c) sv) s = rmap (fun r => (rV Q (fst r), snd r)) (outcome (fw_gradient fw c sv) s) /\
    outcome (fw_hessian fw (rV Q c) sv) s = rmap (rM Q) (outcome (fw_hessian fw c sv) s).
  Proof.
    intros HQ D. destruct (HI Q (astensor c) sv s HQ (astensor_sym2 c) D) as [H1 H2].
    rewrite asvoigt_astensor_f in H1, H2. exact (conj H1 H2).
  Qed.
  Context (HS : stateless_fw fw).
  Lemma turn_hessian o k Q F sv s : orthogonal Q -> invertible F -> Dom (argument k F) ->
    (k = KDistortional -> significant_at fw F /\ significant_at fw (mmul F (mtr Q))) ->
    outcome (sp_hessian k fw o (mmul F (mtr Q)) sv) s = rmap (turn_elast o Q) (outcome (sp_hessian k fw o F sv) s).
  Proof.
    intros HQ N D Hs. assert (D' := D). rewrite <- argument_seen in D'.
    assert (H0 : outcome (fw_gradient fw (seen k (right_CG (mmul F (mtr Q)))) sv) (sp_mat s) =
                 rmap (fun r => (rV Q (fst r), snd r)) (outcome (fw_gradient fw (seen k (right_CG F)) sv) (sp_mat s))).
    { rewrite right_CG_turn, (seen_rV Q HQ). exact (proj1 (iso_rV Q _ sv (sp_mat s) HQ D')). }
    destruct (fw_gradient fw (seen k (right_CG F)) sv (sp_mat s)) as [ms [[g svn]|e]] eqn:E.
    - destruct (fw_gradient fw (seen k (right_CG (mmul F (mtr Q)))) sv (sp_mat s)) as [ms' r'] eqn:E'.
      unfold outcome in H0. rewrite E, E' in H0. cbn [snd rmap fst] in H0. subst r'.
      rewrite (sp_hessian_ok fw o _ _ _ _ _ _ _ E), (sp_hessian_ok fw o _ _ _ _ _ _ _ E').
      rewrite (proj2 (HS _ sv ms' ms)).
      assert (H2 := proj2 (iso_rV Q (seen k (right_CG F)) sv ms HQ D')).
      rewrite <- (seen_rV Q HQ), <- right_CG_turn in H2. rewrite H2.
      destruct (outcome (fw_hessian fw (seen k (right_CG F)) sv) ms) as [H|e] eqn:EH; [|reflexivity]. cbn [rmap].
      assert (Nc := det_CG_nz F N).
      rewrite right_CG_turn, (kS_rV Q HQ) by auto.
      assert (EX : kC4 k (rV Q (right_CG F)) (rV Q g) (rM Q H) = rM Q (kC4 k (right_CG F) g H)).
      { destruct k; [apply kC4_rV; auto; discriminate| |apply kC4_rV; auto; discriminate].
        destruct (Hs eq_refl) as [S1 S2]. cbn [rmap] in H2.
        assert (A1 := significant_of fw F S1 sv ms H EH).
        assert (A2 := significant_of fw _ S2 sv ms (rM Q H) H2).
        change (asvoigt (cauchy_green F)) with (right_CG F) in A1. change (asvoigt (cauchy_green (mmul F (mtr Q)))) with (right_CG (mmul F (mtr Q))) in A2. rewrite right_CG_turn in A2.
        rewrite (kC4_exact _ g H A1), (kC4_exact _ (rV Q g) (rM Q H) A2). apply dis_C4_rV; auto. }
      rewrite EX, (elast_turn Q HQ) by auto. reflexivity.
    - assert (E1 : outcome (fw_gradient fw (seen k (right_CG F)) sv) (sp_mat s) = Raise e) by (unfold outcome; rewrite E; reflexivity).
      rewrite E1 in H0. cbn [rmap] in H0.
      rewrite (sp_hessian_graise fw o _ _ _ _ _ E1), (sp_hessian_graise fw o _ _ _ _ _ H0). reflexivity.
  Qed.
End Fw.
