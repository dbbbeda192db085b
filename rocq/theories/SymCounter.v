(** C57: the Distortional tangent of an isotropic material is not isotropic at the tolerance of np.allclose. *)
From Coq Require Import Reals Lra FunctionalExtensionality.
From Verif Require Import Tensor Py Voigt VoigtProofs Algebra Models Frameworks Spaces Spec SymSpec VCalc InvCore IsoProofs HistProofs SpaceCore PiolaProofs SpaceProofs
  DistProofs SpaceMore ScaleProofs StrMore Counter SymAlg SymProofs EllProofs ModelProofs.
Local Open Scope R_scope.

(** psi = c (I1 - 3) (I2 - 3); the deformation diag(2, 1, 1/2); the 3-4-5 rotation about e3. *)
Definition c11 : R := / (44 * 10 ^ 8).
Definition m11 : TOD := tod_init 0 0 c11 0 0 false.
Definition F11 : T2 := Fd 0.
Definition Q11 : T2 := fun i j => match i, j with
  | X0, X0 => 3 / 5 | X0, X1 => 4 / 5 | X1, X0 => - 4 / 5 | X1, X1 => 3 / 5 | X2, X2 => 1 | _, _ => 0 end.
Lemma Q11_orth : orthogonal Q11.
Proof. intros i j; destruct i, j; unfold Q11, mmul, mtr, one2, delta, sum3; cbn; field. Qed.
Lemma seen1 c : det c = 1 -> seen KDistortional c = c.
Proof. intro E. cbn [seen]. rewrite E, Rpower_1_l. apply Vec6_ext; intro v. unfold vscal. ring. Qed.
Definition H11 : Mat6 := H_tod m11 Cd.
Definition G11 : Vec6 := G_tod m11 Cd.
Definition Cr : Vec6 := fun v => match v with V0 => 52 / 25 | V1 => 73 / 25 | V2 => / 4 | V3 => - 36 / 25 | _ => 0 end.
Lemma Cr_eq : rV Q11 Cd = Cr.
Proof. apply Vec6_ext; intro v. unfold rV, asvoigt, rot2, mmul, mtr, sum3, astensor, Q11, Cd, Cr. destruct v; cbn; field. Qed.
Lemma det_Cr : det Cr = 1.
Proof. unfold det, Cr; cbn. field. Qed.
Definition Hv (C : Vec6) : Mat6 := H_tod (tod_init 0 0 1 0 0 false) C.
Lemma H_c C v w : H_tod m11 C v w = c11 * Hv C v w.
Proof. unfold Hv, H_tod, m11, tod_init; cbn [C10 C01 C11 C20 C30 undeformed]. ring. Qed.
Lemma c11_pos : 0 < c11.
Proof. unfold c11. apply Rinv_0_lt_compat. lra. Qed.
Lemma big : allclose0 (mscal6 (4 * Rpower (det Cd) (- 2 / 3)) (H_tod m11 Cd)) = false.
Proof.
  apply allclose_false with V1 V2. rewrite det_Cd, Rpower_1_l. unfold mscal6. rewrite H_c.
  assert (E : Hv Cd V1 V2 = 23 / 2).
  { unfold Hv, H_tod, tod_init; cbn [C10 C01 C11 C20 C30 undeformed].
    unfold dya, dJv, d2Jv, Jv, vsub, vscal, msub6, trace, ddot22, mzero, weights, cdya1, cdya_obj, sum6, dya, eye, Cd. cbn. field. }
  rewrite E, Rabs_pos_eq; unfold c11; lra.
Qed.
Lemma bound x : - 11 <= x <= 11 -> Rabs (4 * 1 * (c11 * x)) <= / 10 ^ 8.
Proof. intro B. apply Rabs_le. unfold c11. lra. Qed.
Lemma small : allclose0 (mscal6 (4 * Rpower (det Cr) (- 2 / 3)) (H_tod m11 Cr)) = true.
Proof.
  apply allclose_true. intros v w. rewrite det_Cr, Rpower_1_l. unfold mscal6. rewrite H_c. apply bound.
  unfold Hv, H_tod, tod_init; cbn [C10 C01 C11 C20 C30 undeformed].
  unfold dya, dJv, d2Jv, Jv, vsub, vscal, msub6, trace, ddot22, mzero, weights, cdya1, cdya_obj, sum6, dya, eye, Cr. destruct v, w; cbn; lra.
Qed.
Lemma dropped_11 : dropped Cd H11 V2 V2 <> 0.
Proof.
  assert (E : dropped Cd H11 V2 V2 = 480 * c11).
  { unfold dropped. rewrite det_Cd, Rpower_1_l. unfold ddot44, transpose, msub6, mscal6, dya, sum6.
    rewrite !invCd. unfold H11. rewrite !H_c. generalize c11. intro c. unfold cdya1, Hv, H_tod, tod_init; cbn [C10 C01 C11 C20 C30 undeformed].
    unfold dya, dJv, d2Jv, Jv, vsub, vscal, msub6, trace, ddot22, mzero, sum6, cdya1, cdya_obj, dya. unfold Cd, eye, weights, cdya1; cbn. field. }
  rewrite E. pose proof c11_pos. lra.
Qed.
Lemma iso11 C : det3 (astensor C) <> 0 -> G_tod m11 (rV Q11 C) = rV Q11 (G_tod m11 C) /\ H_tod m11 (rV Q11 C) = rM Q11 (H_tod m11 C).
Proof.
  intro N. set (fw := invariants_fw (tod_model (SV:=unit) m11)).
  destruct (iso_rV fw invertible (invariants_isotropic _) Q11 C tt inv_self0 Q11_orth N) as [A B].
  rewrite !(fun C => proj1 (tod_plain m11 C tt inv_self0)) in A.
  rewrite !(fun C => proj2 (tod_plain m11 C tt inv_self0)) in B. cbn [rmap fst snd] in A, B.
  injection A as A. injection B as B. exact (conj A B).
Qed.
Lemma rM_dropped c H : det c <> 0 -> dropped (rV Q11 c) (rM Q11 H) = rM Q11 (dropped c H).
Proof.
  intro N. unfold dropped. rewrite (rV_det Q11 Q11_orth), (inv_rV Q11 Q11_orth c N).
  rewrite !(rM_ddot44 Q11 Q11_orth), rM_transpose, !rM_scal, !rM_sub, !rM_scal, !rM_dya, !rM_cdya1, (rV_eye Q11 Q11_orth). reflexivity.
Qed.
Lemma turn_refuted : forall sv s,
  outcome (dis_hessian (invariants_fw (tod_model (SV:=unit) m11)) default_opts (mmul F11 (mtr Q11)) sv) s <>
  rmap (turn_elast default_opts Q11) (outcome (dis_hessian (invariants_fw (tod_model m11)) default_opts F11 sv) s).
Proof.
  intros sv s. rewrite !tod_dis_hess. cbv zeta. cbn [rmap].
  assert (N : det Cd <> 0) by (rewrite det_Cd; lra).
  assert (EC : right_CG F11 = Cd) by exact right_CG_Fd.
  rewrite (right_CG_turn Q11), EC.
  rewrite (seen1 _ det_Cd), (seen1 (rV Q11 Cd)) by (rewrite Cr_eq; exact det_Cr).
  assert (N3 : det3 (astensor Cd) <> 0) by (rewrite <- det_astensor; exact N).
  destruct (iso11 Cd N3) as [EG EH].
  assert (E1 : kC4 KDistortional Cd (G_tod m11 Cd) (H_tod m11 Cd) = dis_C4 Cd (G_tod m11 Cd) (H_tod m11 Cd)) by (apply kC4_exact; left; exact big).
  assert (E2 := dis_C4_dropped (rV Q11 Cd) (G_tod m11 (rV Q11 Cd)) (H_tod m11 (rV Q11 Cd)) ltac:(rewrite Cr_eq; exact small)).
  assert (E3 : dis_C4 (rV Q11 Cd) (G_tod m11 (rV Q11 Cd)) (H_tod m11 (rV Q11 Cd)) = rM Q11 (dis_C4 Cd (G_tod m11 Cd) (H_tod m11 Cd))).
  { rewrite EG, EH. exact (dis_C4_rV Q11 Q11_orth Cd _ _ N). }
  rewrite E1.
  assert (T := elast_turn Q11 Q11_orth default_opts KDistortional F11 (kS KDistortional Cd (G_tod m11 Cd)) (dis_C4 Cd (G_tod m11 Cd) (H_tod m11 Cd)) ltac:(rewrite EC; exact N)).
  rewrite !default_elast in T. rewrite <- T, <- E3, E2. assert (ES : kS KDistortional (rV Q11 Cd) (G_tod m11 (rV Q11 Cd)) = rV Q11 (kS KDistortional Cd (G_tod m11 Cd))) by (rewrite EG; exact (kS_rV Q11 Q11_orth KDistortional Cd _ N)).
  rewrite ES.
  intro X. assert (X' := f_equal (fun e => match e with Ok (ElastFull A) => A | _ => fun _ _ _ _ => 0 end) X). cbv beta iota in X'. clear X. rename X' into X.
  assert (D : forall i j k l, legs13 (mmul F11 (mtr Q11)) (astensor4 (dropped (rV Q11 Cd) (H_tod m11 (rV Q11 Cd)))) i j k l = 0).
  { intros i j k l. assert (Y := f_equal (fun A => A i j k l) X). cbv beta in Y. set (K := kC4 KDistortional (rV Q11 Cd) (G_tod m11 (rV Q11 Cd)) (H_tod m11 (rV Q11 Cd))) in *. clear X E1 E2 E3. clearbody K.
    set (Dr := dropped (rV Q11 Cd) (H_tod m11 (rV Q11 Cd))) in *. clearbody Dr.
    assert (L : legs13 (mmul F11 (mtr Q11)) (astensor4 (madd6 K Dr)) i j k l = legs13 (mmul F11 (mtr Q11)) (astensor4 K) i j k l + legs13 (mmul F11 (mtr Q11)) (astensor4 Dr) i j k l).
    { unfold legs13, sum3, astensor4, madd6. ring. }
    unfold t4add in Y. rewrite L in Y. lra. }
  rewrite EH, (rM_dropped Cd _ N), astensor4_rM, rot4_legs, (legs13_QtQ Q11 Q11_orth) in D.
  specialize (D X2 X2 X2 X2). apply dropped_11. fold H11 in D. set (A := dropped Cd H11) in *. clearbody A.
  unfold legs13, legs24, sum3, F11, Fd, diag3, Q11, astensor4 in D. cbn in D. lra.
Qed.
