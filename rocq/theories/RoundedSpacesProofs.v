(** Regularity and exact values of the expressions of RoundedSpaces.v. *)
From Coq Require Import Reals List Lra Lia Bool FunctionalExtensionality.
From Verif Require Import Tensor Py Voigt VoigtProofs Algebra Models ModelProofs Frameworks Spaces Spec InvCore SpaceCore
  SpaceProofs VCalc Calc Rounded RoundedProofs RoundedStable RoundedCode RoundedSpec RoundedMath RoundedSpaces.
Import ListNotations.
Local Open Scope R_scope.

Ltac reg := repeat first [exact Logic.I | discriminate | lra | assumption | match goal with |- _ /\ _ => split end | progress cbn [regular fold_right map all6 all3 flat_map app exact] | match goal with H : forall _, _ |- _ => apply H end].
Lemma reg_trace A : (forall v, regular (A v)) -> regular (x_trace A). Proof. intro H. unfold x_trace. reg. Qed.
Lemma reg_det A : (forall v, regular (A v)) -> regular (x_det A). Proof. intro H. unfold x_det, sq. reg. Qed.
Lemma reg_ddot22 A B : (forall v, regular (A v)) -> (forall v, regular (B v)) -> regular (x_ddot22 A B).
Proof. intros H H'. unfold x_ddot22. reg. Qed.
Lemma reg_ddot44 A B v w : (forall v w, regular (A v w)) -> (forall v w, regular (B v w)) -> regular (x_ddot44 A B v w).
Proof. intros H H'. unfold x_ddot44. reg. Qed.
Lemma reg_ddot24 A B v : (forall v, regular (A v)) -> (forall v w, regular (B v w)) -> regular (x_ddot24 A B v).
Proof. intros H H'. unfold x_ddot24. reg. Qed.
Lemma reg_dya A B v w : (forall v, regular (A v)) -> (forall v, regular (B v)) -> regular (x_dya A B v w).
Proof. intros H H'. unfold x_dya. reg. Qed.
Lemma reg_eye v : regular (x_eye v). Proof. exact Logic.I. Qed.
Lemma reg_cdya A v w : (forall v, regular (A v)) -> regular (x_cdya true A A v w).
Proof. intros H. unfold x_cdya, x_cdya_value. destruct (ix6_leb v w); reg. Qed.
Lemma reg_inv A d v : (forall v, regular (A v)) -> regular d -> exact d <> 0 -> regular (x_inv A (Some d) v).
Proof. intros H Hd N. unfold x_inv. reg. Qed.
Definition ro (o : option expr) : Prop := match o with Some e => regular e | None => True end.
Lemma reg_tod m I1 I2 : regular I1 -> regular I2 -> ro (fst (x_tod_gradient m I1 I2)) /\ ro (snd (x_tod_gradient m I1 I2)).
Proof.
  intros H1 H2. unfold x_tod_gradient.
  destruct (nonzero (C10 m)), (nonzero (C01 m)), (nonzero (C11 m)), (nonzero (C20 m)), (nonzero (C30 m)); cbn; tauto.
Qed.
Lemma reg_todh m I1 : regular I1 -> ro (fst (x_tod_hessian m I1)) /\ ro (snd (x_tod_hessian m I1)).
Proof.
  intro H1. unfold x_tod_hessian. destruct (nonzero (C11 m)), (nonzero (C20 m)), (nonzero (C30 m)); cbn; tauto.
Qed.

(** ** Invariants(ThirdOrderDeformation) at any array of expressions *)
Section Inv.
  Variables (m : TOD) (C : XV).
  Notation c := (ex6 C).
  Notation g_ := (option_map exact (fst (x_tod_gradient m (x_I1 C) (x_I2 C))), option_map exact (snd (x_tod_gradient m (x_I1 C) (x_I2 C))), @None R).
  Notation h_ := (fun v => match v with V0 => option_map exact (fst (x_tod_hessian m (x_I1 C))) | V3 => option_map exact (snd (x_tod_hessian m (x_I1 C))) | _ => @None R end).
  Lemma gI1 : Jv c X0 = exact (x_I1 C).
  Proof. unfold x_I1. rewrite exact_trace. reflexivity. Qed.
  Lemma gI2 : Jv c X1 = exact (x_I2 C).
  Proof. unfold x_I2, x_I1; cbn [exact sq]; rewrite exact_trace, exact_ddot22; cbn [Jv pow]. rewrite Rmult_1_r. reflexivity. Qed.
  Lemma gdI2 v : dJv c X1 v = exact (x_dI2dC C v).
  Proof. unfold x_dI2dC, x_I1. cbn [exact x_eye]. rewrite exact_trace. reflexivity. Qed.
  Lemma g_call (SV : Type) (sv : SV) : inv_call (tod_model m) (Jv c) sv = Ok (g_, sv).
  Proof. unfold inv_call. cbn [im_gradient tod_model]. rewrite gI1, gI2, exact_tod_gradient. reflexivity. Qed.
  Lemma g_callh (SV : Type) (sv : SV) : inv_callh (tod_model m) (Jv c) sv = Ok h_.
  Proof.
    unfold inv_callh. cbn [im_hessian tod_model]. f_equal. apply functional_extensionality. intro v.
    rewrite gI1, exact_tod_hessian. destruct v; reflexivity.
  Qed.
  Lemma g_dWdC : gradv c g_ = ex6 (x_dWdC m C).
  Proof.
    apply Vec6_ext. intro v. unfold gradv, sum3. rewrite gdI2. change (ex6 (x_dWdC m C) v) with (exact (x_dWdC m C v)). unfold x_dWdC.
    destruct (x_tod_gradient m (x_I1 C) (x_I2 C)) as [[w1|] [w2|]]; cbn [option_map o3 fst snd val dJv exact x_eye]; ring.
  Qed.
  Lemma g_d2WdCdC : hessv c g_ h_ = ex66 (x_d2WdCdC m C).
  Proof.
    apply Mat6_ext. intros v w. unfold hessv, sum3, ex66, x_d2WdCdC. cbn [pos].
    change (d2Jv c X1 v w) with (eye v * eye w - cdya1 eye v w).
    assert (E : exact (x_cdya true x_eye x_eye v w) = cdya1 eye v w) by apply exact_cdya.
    unfold dya. rewrite !gdI2. unfold cdya1 in *.
    destruct (x_tod_gradient m (x_I1 C) (x_I2 C)) as [[w1|] [w2|]], (x_tod_hessian m (x_I1 C)) as [[w11|] [w12|]];
    cbn [option_map o3 fst snd val dJv d2Jv exact x_eye x_dya]; rewrite ?E; unfold mzero; ring.
  Qed.
  Lemma fw_gradient_x (SV : Type) (sv : SV) s : exists s', fw_gradient (invariants_fw (tod_model m)) c sv s = (s', Ok (ex6 (x_dWdC m C), sv)) /\
    outcome (fw_hessian (invariants_fw (tod_model m)) c sv) s' = Ok (ex66 (x_d2WdCdC m C)).
  Proof.
    eexists. cbn [fw_gradient fw_hessian invariants_fw]. split.
    - rewrite (inv_gradient_ok _ _ _ _ _ s (g_call SV sv)), g_dWdC. reflexivity.
    - unfold outcome. rewrite (inv_hessian_eq _ _ _ _ _ _ _ (g_call SV sv) (g_callh SV sv)).
      assert (E : hess_exn g_ h_ = None).
      { pose proof (tod_none (SV := SV) m (Jv c) sv _ _ _ (g_call SV sv) (g_callh SV sv)) as N. 
        unfold hess_exn. cbn [o3 fst snd].
        pose proof (N X0 X0) as N0. pose proof (N X0 X1) as N1. cbn [pos o3 fst snd] in N0, N1.
        destruct (option_map exact (fst (x_tod_gradient m (x_I1 C) (x_I2 C)))), (option_map exact (snd (x_tod_gradient m (x_I1 C) (x_I2 C)))),
          (option_map exact (fst (x_tod_hessian m (x_I1 C)))), (option_map exact (snd (x_tod_hessian m (x_I1 C)))); cbn [isN negb andb]; try reflexivity;
        exfalso; first [destruct N0 as [N0 N0']; congruence | destruct N1 as [N1 N1']; congruence]. }
      rewrite E. cbn [isN snd]. rewrite g_d2WdCdC. reflexivity.
  Qed.
  Hypothesis HC : forall v, regular (C v).
  Lemma reg_I1 : regular (x_I1 C). Proof. apply reg_trace; auto. Qed.
  Lemma reg_I2 : regular (x_I2 C).
  Proof. pose proof reg_I1. pose proof (reg_ddot22 C C HC HC). unfold x_I2, sq. reg. Qed.
  Lemma reg_dI2 v : regular (x_dI2dC C v). Proof. pose proof reg_I1. unfold x_dI2dC. pose proof (reg_eye v). reg. Qed.
  Lemma reg_dWdC v : regular (x_dWdC m C v).
  Proof.
    unfold x_dWdC. destruct (reg_tod m _ _ reg_I1 reg_I2) as [H1 H2]. pose proof (reg_dI2 v) as HD.
    destruct (x_tod_gradient m (x_I1 C) (x_I2 C)) as [[w1|] [w2|]]; cbn [fst snd ro] in *; cbn [regular x_eye] in *; tauto.
  Qed.
  Lemma reg_d2WdCdC v w : regular (x_d2WdCdC m C v w).
  Proof.
    unfold x_d2WdCdC. destruct (reg_tod m _ _ reg_I1 reg_I2) as [H1 H2]. destruct (reg_todh m _ reg_I1) as [H3 H4].
    pose proof (reg_dI2 v) as HD. pose proof (reg_dI2 w) as HD'. pose proof (reg_cdya x_eye v w reg_eye) as HE.
    destruct (x_tod_gradient m (x_I1 C) (x_I2 C)) as [[w1|] [w2|]], (x_tod_hessian m (x_I1 C)) as [[w11|] [w12|]];
    cbn [fst snd ro] in *; unfold x_dya; cbn [regular x_eye] in *; tauto.
  Qed.
End Inv.

(** ** Spaces *)
Section Sp.
  Variables (k : SpaceKind) (m : Comp) (XF : XT2).
  Notation F := (ex33 XF).
  Lemma ex_C : ex6 (x_C XF) = right_CG F.
  Proof. apply Vec6_ext. intro v. unfold ex6, right_CG, asvoigt, sum3, ex33. cbn. ring. Qed.
  Lemma ex_I3 : exact (x_I3 XF) = det (right_CG F).
  Proof. unfold x_I3. rewrite exact_det, ex_C. reflexivity. Qed.
  Lemma ex_seen : ex6 (x_seen k XF) = seen k (right_CG F).
  Proof.
    apply Vec6_ext. intro v. unfold ex6, x_seen, seen, vscal. pose proof (f_equal (fun f => f v) ex_C) as E. unfold ex6 in E. destruct k; cbn [exact]; rewrite ?ex_I3, E; reflexivity.
  Qed.
  Lemma ex_Sb : ex6 (x_Sb k m XF) = kSb k (right_CG F) (ex6 (c_dWdC m (x_seen k XF))).
  Proof. apply Vec6_ext. intro v. unfold ex6, x_Sb, kSb, vscal. destruct k; cbn [exact]; rewrite ?ex_I3; reflexivity. Qed.
  Lemma ex_invC : ex6 (x_invC XF) = inv (right_CG F) (Some (det (right_CG F))).
  Proof. apply Vec6_ext. intro v. unfold ex6 at 1. unfold x_invC. rewrite exact_inv, ex_C. cbn [option_map]. rewrite ex_I3. reflexivity. Qed.
  Lemma ex_SbC : exact (x_SbC k m XF) = ddot22 (kSb k (right_CG F) (ex6 (c_dWdC m (x_seen k XF)))) (right_CG F).
  Proof. unfold x_SbC. rewrite exact_ddot22, ex_C, ex_Sb. reflexivity. Qed.
  Lemma ex_trSb : exact (x_trSb k m XF) = trace (kSb k (right_CG F) (ex6 (c_dWdC m (x_seen k XF)))).
  Proof. unfold x_trSb. rewrite exact_trace, ex_Sb. reflexivity. Qed.
  Lemma ex_S : ex6 (x_stress2 k m XF) = kS k (right_CG F) (ex6 (c_dWdC m (x_seen k XF))).
  Proof.
    apply Vec6_ext. intro v. unfold ex6 at 1. unfold x_stress2. pose proof ex_SbC as E1. pose proof ex_trSb as E2.
    pose proof (f_equal (fun f => f v) ex_Sb) as E3. pose proof (f_equal (fun f => f v) ex_invC) as E4. change (exact (x_Sb k m XF v) = kSb k (right_CG F) (ex6 (c_dWdC m (x_seen k XF))) v) in E3. change (exact (x_invC XF v) = inv (right_CG F) (Some (det (right_CG F))) v) in E4.
    destruct k; cbn [exact]; rewrite ?E1, ?E2, ?E3, ?E4; reflexivity.
  Qed.
  Lemma ex_C4b : ex66 (x_C4b k m XF) = match k with
    | KDeformation => mscal6 4 (ex66 (c_d2WdCdC m (x_seen k XF)))
    | KDistortional => mscal6 (4 * Rpower (det (right_CG F)) (- 2 / 3)) (ex66 (c_d2WdCdC m (x_seen k XF)))
    | KDilatational => mscal6 (4 * Rpower (det (right_CG F)) (2 / 3)) (ex66 (c_d2WdCdC m (x_seen k XF))) end.
  Proof. apply Mat6_ext. intros v w. unfold ex66, x_C4b. destruct k; cbn [exact]; rewrite ?ex_I3; reflexivity. Qed.
  Lemma ex_C4 : ex66 (x_C4 k m XF (allclose0 (ex66 (x_C4b k m XF)))) =
    kC4 k (right_CG F) (ex6 (c_dWdC m (x_seen k XF))) (ex66 (c_d2WdCdC m (x_seen k XF))).
  Proof.
    apply Mat6_ext. intros v w. unfold ex66 at 1. unfold x_C4, kC4.
    pose proof ex_C4b as E0. pose proof ex_SbC as E1. pose proof ex_trSb as E2. pose proof ex_Sb as E3. pose proof ex_invC as E4.
    assert (PR : k = KDistortional -> exact (x_C4_projection k m XF v w) = mscal6 (2 / 3)
                (madd6 (msub6 (msub6 (mscal6 (ddot22 (kSb k (right_CG F) (ex6 (c_dWdC m (x_seen k XF)))) (right_CG F)) (cdya1 (inv (right_CG F) (Some (det (right_CG F))))))
                    (dya (kSb k (right_CG F) (ex6 (c_dWdC m (x_seen k XF)))) (inv (right_CG F) (Some (det (right_CG F))))))
                    (transpose (dya (kSb k (right_CG F) (ex6 (c_dWdC m (x_seen k XF)))) (inv (right_CG F) (Some (det (right_CG F)))))))
                       (mscal6 (ddot22 (kSb k (right_CG F) (ex6 (c_dWdC m (x_seen k XF)))) (right_CG F) / 3) (dya (inv (right_CG F) (Some (det (right_CG F)))) (inv (right_CG F) (Some (det (right_CG F))))))) v w).
    { intros _. unfold x_C4_projection, two_thirds. cbn [exact]. rewrite E1, exact_cdya, !exact_dya, E3, E4. reflexivity. }
    destruct k.
    - exact (f_equal (fun f => f v w) E0).
    - rewrite E0. specialize (PR eq_refl). destruct (allclose0 _); [exact PR|].
      cbn [exact]. rewrite PR, exact_ddot44. unfold madd6 at 2. f_equal. f_equal. f_equal.
      + apply Mat6_ext. intros v' w'. unfold ex66 at 1. rewrite exact_ddot44, E0. f_equal. f_equal.
        apply Mat6_ext. intros v2 w2. unfold ex66, x_P4. cbn [exact]. rewrite exact_cdya, exact_dya, E4, ex_C. unfold msub6, mscal6, Rdiv. rewrite (Rmult_comm (/ 3)). reflexivity.
      + apply Mat6_ext. intros w' v'. unfold ex66, x_P4, transpose. cbn [exact]. rewrite exact_cdya, exact_dya, E4, ex_C. unfold msub6, mscal6, Rdiv. rewrite (Rmult_comm (/ 3)). reflexivity.
    - unfold two_thirds. cbn [exact]. rewrite E2, exact_cdya, !exact_dya, E4, exact_ddot22.
      replace (ex6 (x_ddot24 x_eye (x_C4b KDilatational m XF))) with (ddot24 eye (ex66 (x_C4b KDilatational m XF))).
      2:{ apply Vec6_ext. intro v'. unfold ex6 at 1. rewrite exact_ddot24. reflexivity. }
      rewrite E0. unfold msub6, mscal6, cdya1. change (ex6 x_eye) with eye. unfold Rdiv. ring.
  Qed.
  Lemma fw_ex_gradient f a (SV : Type) (fw : Framework SV) (sv svn : SV) s :
    outcome (fw_gradient fw (seen k (right_CG F)) sv) (sp_mat s) = Ok (ex6 (c_dWdC m (x_seen k XF)), svn) ->
    outcome (sp_gradient k fw {| finalize := true; force := f; area := a |} F sv) s =
    Ok (StressFull (ex33 (x_gradient k m XF f a)), svn).
  Proof.
    intro H. rewrite (sp_gradient_ok fw _ k F sv s _ _ H). clear H. rewrite <- ex_S. f_equal. f_equal.
    unfold piola_stress. cbn [finalize force area]. apply (f_equal StressFull). apply T2_ext. intros i j.
    assert (D : match kdetF k (right_CG F) with Some d => d | None => sqrt (det (right_CG F)) end = sqrt (det (right_CG F))) by (destruct k; reflexivity).
    rewrite D. clear D. change (ex33 (x_gradient k m XF f a) i j) with (exact (x_gradient k m XF f a i j)). unfold x_gradient. destruct f, a; cbn [exact]; rewrite ?ex_I3; [f_equal| |f_equal|];
    unfold es_area, es_force, sum3, x_area, x_force; cbn [map all3 exact fold_right];
    unfold x_astensor, astensor, ex6, ex33; ring.
  Qed.
  Lemma fw_ex_hessian f a (SV : Type) (fw : Framework SV) (sv svn : SV) s s' :
    fw_gradient fw (seen k (right_CG F)) sv (sp_mat s) = (s', Ok (ex6 (c_dWdC m (x_seen k XF)), svn)) ->
    outcome (fw_hessian fw (seen k (right_CG F)) sv) s' = Ok (ex66 (c_d2WdCdC m (x_seen k XF))) ->
    outcome (sp_hessian k fw {| finalize := true; force := f; area := a |} F sv) s =
    Ok (ElastFull (fun i j p q => exact (x_hessian k m XF f a (allclose0 (ex66 (x_C4b k m XF))) i j p q))).
  Proof.
    intros H1 H2. rewrite (sp_hessian_ok fw _ k F sv s _ _ _ H1). rewrite H2. clear H1 H2. f_equal.
    rewrite <- ex_S, <- ex_C4. unfold piola_elast. cbn [finalize force area].
    set (X4 := x_C4 k m XF (allclose0 (ex66 (x_C4b k m XF)))).
    assert (EF : forall E i J p q, exact (x_force4 XF E i J p q) = es4_force F (fun i j p q => exact (E i j p q)) i J p q).
    { intros. unfold x_force4, es4_force, sum3, ex33. cbn [flat_map map all3 app exact fold_right]. ring. }
    assert (EA : forall E i J p q, exact (x_area4 XF E i J p q) = es4_area F (fun i j p q => exact (E i j p q)) i J p q).
    { intros. unfold x_area4, es4_area, sum3, ex33. cbn [flat_map map all3 app exact fold_right]. ring. }
    assert (ED : forall E i J p q, x_force4 XF E i J p q = x_force4 XF E i J p q) by reflexivity. clear ED.
    assert (HE : (match f with
      | Deformed => (t4add (es4_force F (astensor4 (ex66 X4))) (cdya_ik eye (ex6 (x_stress2 k m XF))), None)
      | Undeformed => let '(invC, I3) := match kinvC k (right_CG F) with Some x => (x, None) | None => (inv (right_CG F) (Some (det (right_CG F))), Some (det (right_CG F))) end in
          (t4add (astensor4 (ex66 X4)) (cdya_ik invC (ex6 (x_stress2 k m XF))), I3) end) =
      (match f with
       | Deformed => fun i J p L => exact (Add (x_force4 XF (x_astensor4 X4) i J p L) (x_cdya_ik x_eye (x_stress2 k m XF) i J p L))
       | Undeformed => fun i J p L => exact (Add (x_astensor4 X4 i J p L) (x_cdya_ik (x_invC XF) (x_stress2 k m XF) i J p L)) end,
       match f, k with Undeformed, KDeformation => Some (det (right_CG F)) | _, _ => None end)).
    { destruct f.
      - f_equal. apply T4_ext. intros i J p L. cbn [exact]. rewrite EF, exact_cdya_ik. reflexivity.
      - assert (HT : t4add (astensor4 (ex66 X4)) (cdya_ik (inv (right_CG F) (Some (det (right_CG F)))) (ex6 (x_stress2 k m XF))) =
          fun i J p L => exact (Add (x_astensor4 X4 i J p L) (x_cdya_ik (x_invC XF) (x_stress2 k m XF) i J p L))).
        { apply T4_ext. intros i J p L. cbn [exact]. rewrite exact_cdya_ik, ex_invC. reflexivity. }
        destruct k; cbn [kinvC]; rewrite HT; reflexivity. }
    cbv zeta. rewrite HE. clear HE. apply (f_equal ElastFull). apply T4_ext. intros i J p q.
    unfold x_hessian. fold X4. destruct a; [|destruct f; reflexivity].
    cbn [exact]. rewrite ex_I3, EA.
    assert (D : match kdetF k (right_CG F) with Some d => d | None => sqrt (match match f, k with Undeformed, KDeformation => Some (det (right_CG F)) | _, _ => None end with Some x => x | None => det (right_CG F) end) end = sqrt (det (right_CG F))) by (destruct f, k; reflexivity).
    cbv zeta in D |- *. rewrite D. f_equal. destruct f; reflexivity.
  Qed.
  (** *** Regularity *)
  Hypothesis HF : forall i j, regular (XF i j).
  Lemma reg_C v : regular (x_C XF v).
  Proof. unfold x_C, x_right_CG, x_asvoigt. reg. Qed.
  Lemma reg_I3 : regular (x_I3 XF). Proof. apply reg_det, reg_C. Qed.
  Hypothesis HD : invertible F.
  Lemma I3_pos : 0 < exact (x_I3 XF). Proof. rewrite ex_I3. apply pos_right_CG; auto. Qed.
  Lemma reg_pow p : regular (Pow (x_I3 XF) p). Proof. split; [apply reg_I3|apply I3_pos]. Qed.
  Lemma reg_seen v : regular (x_seen k XF v).
  Proof. pose proof (reg_C v). pose proof reg_pow as RP. unfold x_seen. destruct k; [auto|split; auto|split; auto]. Qed.
  Hypothesis HG : forall v, regular (c_dWdC m (x_seen k XF) v).
  Hypothesis HH : forall v w, regular (c_d2WdCdC m (x_seen k XF) v w).
  Lemma reg_Sb v : regular (x_Sb k m XF v).
  Proof. pose proof (HG v). pose proof reg_pow as RP. unfold x_Sb. destruct k; (split; [first [exact Logic.I|split; [exact Logic.I|apply RP]]|assumption]). Qed.
  Lemma reg_invC v : regular (x_invC XF v).
  Proof. apply reg_inv; [apply reg_C|apply reg_I3|]. pose proof I3_pos. lra. Qed.
  Lemma reg_SbC : regular (x_SbC k m XF). Proof. apply reg_ddot22; [apply reg_Sb|apply reg_C]. Qed.
  Lemma reg_trSb : regular (x_trSb k m XF). Proof. apply reg_trace, reg_Sb. Qed.
  Lemma div_c e c : regular e -> c <> 0 -> regular (Div e (Num c)).
  Proof. intros H N. split; [auto|]. split; [exact Logic.I|exact N]. Qed.
  Lemma reg_S v : regular (x_stress2 k m XF v).
  Proof.
    pose proof (reg_Sb v). pose proof (reg_invC v). pose proof (div_c _ 3 reg_SbC ltac:(lra)). pose proof (div_c _ 3 reg_trSb ltac:(lra)).
    unfold x_stress2. destruct k; [auto|split; [auto|split; auto]|split; auto].
  Qed.
  Lemma fw_reg_C4b v w : regular (x_C4b k m XF v w).
  Proof. pose proof (HH v w). pose proof reg_pow as RP. unfold x_C4b. destruct k; (split; [first [exact Logic.I|split; [exact Logic.I|apply RP]]|assumption]). Qed.
  Lemma reg_23 : regular two_thirds. Proof. unfold two_thirds. reg. Qed.
  Lemma reg_P4 v w : regular (x_P4 XF v w).
  Proof. split; [apply reg_cdya, reg_eye|]. apply div_c; [|lra]. apply reg_dya; [apply reg_invC|apply reg_C]. Qed.
  Lemma reg_proj v w : regular (x_C4_projection k m XF v w).
  Proof.
    split; [apply reg_23|]. pose proof reg_SbC. 
    assert (A : regular (x_dya (x_Sb k m XF) (x_invC XF) v w)) by (apply reg_dya; [apply reg_Sb|apply reg_invC]).
    assert (B : regular (x_dya (x_Sb k m XF) (x_invC XF) w v)) by (apply reg_dya; [apply reg_Sb|apply reg_invC]).
    assert (D : regular (x_dya (x_invC XF) (x_invC XF) v w)) by (apply reg_dya; apply reg_invC).
    pose proof (reg_cdya _ v w reg_invC). pose proof (div_c _ 3 reg_SbC ltac:(lra)).
    split; [|split; auto]. split; [|auto]. split; [|auto]. split; auto.
  Qed.
  Lemma reg_C4 small v w : regular (x_C4 k m XF small v w).
  Proof.
    pose proof (fw_reg_C4b v w) as B. pose proof (reg_proj v w) as P.
    assert (Q : regular (x_ddot44 (x_ddot44 (x_P4 XF) (x_C4b k m XF)) (fun v w => x_P4 XF w v) v w)).
    { apply reg_ddot44; intros; [|apply reg_P4]. apply reg_ddot44; intros; [apply reg_P4|apply fw_reg_C4b]. }
    assert (T : regular (x_ddot22 (x_ddot24 x_eye (x_C4b k m XF)) x_eye)).
    { apply reg_ddot22; [|apply reg_eye]. intro. apply reg_ddot24; [apply reg_eye|apply fw_reg_C4b]. }
    pose proof reg_trSb as TS. pose proof (reg_cdya _ v w reg_invC) as I4. pose proof reg_23 as R23.
    assert (D : regular (x_dya (x_invC XF) (x_invC XF) v w)) by (apply reg_dya; apply reg_invC).
    unfold x_C4. destruct k; [exact B|destruct small; [exact P|split; assumption]|].
    split; [apply div_c; [|lra]; split; [split; [split; [exact Logic.I|]|]|]; assumption|split; [split|]; assumption].
  Qed.
  Lemma reg_root : regular (Sqrt (x_I3 XF)) /\ exact (Sqrt (x_I3 XF)) <> 0.
  Proof. pose proof I3_pos as P. split; [split; [apply reg_I3|exact P]|]. cbn [exact]. pose proof (sqrt_lt_R0 _ P). lra. Qed.
  Lemma fw_reg_gradient f a i j : regular (x_gradient k m XF f a i j).
  Proof.
    pose proof reg_S as RS. destruct reg_root as [R1 R2]. unfold x_gradient.
    assert (G : forall i j, regular (match f with Deformed => x_force XF (x_astensor (x_stress2 k m XF)) | Undeformed => x_astensor (x_stress2 k m XF) end i j)).
    { intros. destruct f; [|apply RS]. unfold x_force, x_astensor. reg. }
    destruct a; [|apply G]. split; [|split; auto]. unfold x_area. cbn [regular map all3 fold_right]. repeat split; first [discriminate|auto].
  Qed.
  Lemma fw_reg_hessian f a small i j p q : regular (x_hessian k m XF f a small i j p q).
  Proof.
    pose proof reg_S as RS. pose proof (reg_C4 small) as R4. destruct reg_root as [R1 R2]. unfold x_hessian.
    assert (G : forall i j p q, regular (match f with
      | Deformed => fun i J k_ L => Add (x_force4 XF (x_astensor4 (x_C4 k m XF small)) i J k_ L) (x_cdya_ik x_eye (x_stress2 k m XF) i J k_ L)
      | Undeformed => fun I J K L => Add (x_astensor4 (x_C4 k m XF small) I J K L) (x_cdya_ik (x_invC XF) (x_stress2 k m XF) I J K L) end i j p q)).
    { intros. destruct f.
      - split; [|split; [exact Logic.I|apply RS]]. unfold x_force4, x_astensor4. cbn [regular map all3 flat_map app fold_right]. repeat split; first [discriminate|auto].
      - split; [apply R4|]. split; [apply reg_invC|apply RS]. }
    destruct a; [|apply G]. split; [|split; auto]. unfold x_area4. cbn [regular map all3 flat_map app fold_right]. repeat split; first [discriminate|auto].
  Qed.
End Sp.
(** Invariants(ThirdOrderDeformation) *)
Section SpTod.
  Variables (k : SpaceKind) (m : TOD) (XF : XT2).
  Notation F := (ex33 XF).
  Lemma ex_gradient f a (SV : Type) (sv : SV) s :
    outcome (sp_gradient k (invariants_fw (tod_model m)) {| finalize := true; force := f; area := a |} F sv) s =
    Ok (StressFull (ex33 (x_gradient k m XF f a)), sv).
  Proof.
    destruct (fw_gradient_x m (x_seen k XF) SV sv (sp_mat s)) as (s' & H1 & _). rewrite ex_seen in H1.
    apply fw_ex_gradient. unfold outcome. rewrite H1. reflexivity.
  Qed.
  Lemma ex_hessian f a (SV : Type) (sv : SV) s :
    outcome (sp_hessian k (invariants_fw (tod_model m)) {| finalize := true; force := f; area := a |} F sv) s =
    Ok (ElastFull (fun i j p q => exact (x_hessian k m XF f a (allclose0 (ex66 (x_C4b k m XF))) i j p q))).
  Proof.
    destruct (fw_gradient_x m (x_seen k XF) SV sv (sp_mat s)) as (s' & H1 & H2). rewrite ex_seen in H1, H2.
    exact (fw_ex_hessian k m XF f a SV (invariants_fw (tod_model m)) sv sv s s' H1 H2).
  Qed.
  Hypothesis HF : forall i j, regular (XF i j).
  Hypothesis HD : invertible F.
  Lemma tod_HG v : regular (c_dWdC m (x_seen k XF) v). Proof. apply reg_dWdC. intro. apply reg_seen; auto. Qed.
  Lemma tod_HH v w : regular (c_d2WdCdC m (x_seen k XF) v w). Proof. apply reg_d2WdCdC. intro. apply reg_seen; auto. Qed.
  Lemma reg_C4b v w : regular (x_C4b k m XF v w). Proof. apply fw_reg_C4b; auto using tod_HG, tod_HH. Qed.
  Lemma reg_gradient f a i j : regular (x_gradient k m XF f a i j). Proof. apply fw_reg_gradient; auto using tod_HG, tod_HH. Qed.
  Lemma reg_hessian f a small i j p q : regular (x_hessian k m XF f a small i j p q). Proof. apply fw_reg_hessian; auto using tod_HG, tod_HH. Qed.
End SpTod.

(** ** Uniform constants *)
Lemma uniform (l : list expr) : List.Forall regular l -> exists K u0, 0 <= K /\ 0 < u0 /\
  forall e u x, In e l -> 0 <= u <= u0 -> rounded u e x -> Rabs (x - exact e) <= K * u.
Proof.
  induction 1 as [|e l He HF (K & u0 & HK & Hu & H)].
  - exists 0, 1. repeat split; try lra. intros e u x [].
  - destruct (regular_order_u e He) as (K1 & u1 & HK1 & Hu1 & H1).
    exists (K + K1), (Rmin u0 u1). split; [lra|]. split; [apply Rmin_pos; auto|].
    pose proof (Rmin_l u0 u1). pose proof (Rmin_r u0 u1). intros e' u x [<-|I] U X.
    + eapply Rle_trans; [apply (H1 u x); [lra|exact X]|]. nra.
    + eapply Rle_trans; [apply (H e' u x); [exact I|lra|exact X]|]. nra.
Qed.
Lemma uniform2 (E : XT2) : (forall i j, regular (E i j)) -> exists K u0, 0 < u0 /\
  forall u i j x, 0 <= u <= u0 -> rounded u (E i j) x -> Rabs (x - exact (E i j)) <= K * u.
Proof.
  intro H. destruct (uniform (flat_map (fun i => map (fun j => E i j) all3) all3)) as (K & u0 & _ & Hu & HU).
  { apply List.Forall_forall. intros e I. apply in_flat_map in I. destruct I as (i & _ & I). apply in_map_iff in I. destruct I as (j & <- & _). apply H. }
  exists K, u0. split; auto. intros u i j x U X. apply (HU (E i j) u x); auto.
  apply in_flat_map. exists i. split; [destruct i; cbn; auto|]. apply in_map_iff. exists j. split; [reflexivity|destruct j; cbn; auto].
Qed.
Lemma uniform4 (E : XT4) : (forall i j p q, regular (E i j p q)) -> exists K u0, 0 <= K /\ 0 < u0 /\
  forall u i j p q x, 0 <= u <= u0 -> rounded u (E i j p q) x -> Rabs (x - exact (E i j p q)) <= K * u.
Proof.
  intro H. destruct (uniform (flat_map (fun i => flat_map (fun j => flat_map (fun p => map (fun q => E i j p q) all3) all3) all3) all3)) as (K & u0 & HK & Hu & HU).
  { apply List.Forall_forall. intros e I. repeat (apply in_flat_map in I; destruct I as (? & _ & I)). apply in_map_iff in I. destruct I as (? & <- & _). apply H. }
  exists K, u0. split; auto. split; auto. intros u i j p q x U X. apply (HU (E i j p q) u x); auto.
  assert (A : forall i : ix3, In i all3) by (intros []; cbn; auto).
  apply in_flat_map. exists i. split; auto. apply in_flat_map. exists j. split; auto. apply in_flat_map. exists p. split; auto.
  apply in_map_iff. exists q. auto.
Qed.
