(** Rotating Voigt arrays (used for C57). *)
From Coq Require Import Reals Lra FunctionalExtensionality.
From Verif Require Import Tensor Py Voigt VoigtProofs Algebra VCalc Models Frameworks Spaces Spec SymSpec SpaceCore
  PiolaProofs SpaceProofs DistProofs SpaceMore IsoProofs.
Local Open Scope R_scope.

Definition rV (Q : T2) (a : Vec6) : Vec6 := asvoigt (rot2 Q (astensor a)).
Definition rM (Q : T2) (A : Mat6) : Mat6 := asvoigt4 (rot4 Q (astensor4 A)).

Lemma astensor_sym2 a : sym2 (astensor a).
Proof. intros i j. destruct i, j; reflexivity. Qed.
Lemma astensor_rV Q a : astensor (rV Q a) = rot2 Q (astensor a).
Proof. apply astensor_asvoigt_f, rot2_sym, astensor_sym2. Qed.
Lemma rot4_minor Q a : minor4 (rot4 Q (astensor4 a)).
Proof. intros i j k l. split; unfold rot4, sum3, astensor4; cbn [vix]; ring. Qed.
Lemma astensor4_rM Q A : astensor4 (rM Q A) = rot4 Q (astensor4 A).
Proof. apply T4_ext; intros. apply astensor4_asvoigt4, rot4_minor. Qed.
Lemma voigt_ext a b : astensor a = astensor b -> a = b.
Proof. intro H. rewrite <- (asvoigt_astensor_f a), H. apply asvoigt_astensor_f. Qed.
Lemma asvoigt4_at A v w : asvoigt4 A v w = A (vi v) (vj v) (vi w) (vj w).
Proof. destruct v, w; reflexivity. Qed.
Lemma rV_scal Q x a : rV Q (vscal x a) = vscal x (rV Q a).
Proof. apply Vec6_ext; intro v. unfold rV, vscal, asvoigt, rot2, mmul, mtr, astensor, sum3. ring. Qed.
Lemma rV_sub Q a b : rV Q (vsub a b) = vsub (rV Q a) (rV Q b).
Proof. apply Vec6_ext; intro v. unfold rV, vsub, asvoigt, rot2, mmul, mtr, astensor, sum3. ring. Qed.
Lemma rM_scal Q x a : rM Q (mscal6 x a) = mscal6 x (rM Q a).
Proof. apply Mat6_ext; intros v w. unfold mscal6, rM. rewrite !asvoigt4_at. unfold rot4, astensor4, sum3. ring. Qed.
Lemma rM_sub Q a b : rM Q (msub6 a b) = msub6 (rM Q a) (rM Q b).
Proof. apply Mat6_ext; intros v w. unfold msub6, rM. rewrite !asvoigt4_at. unfold rot4, astensor4, sum3. ring. Qed.
Lemma rM_add Q a b : rM Q (madd6 a b) = madd6 (rM Q a) (rM Q b).
Proof. apply Mat6_ext; intros v w. unfold madd6, rM. rewrite !asvoigt4_at. unfold rot4, astensor4, sum3. ring. Qed.
Lemma rM_transpose Q A : rM Q (transpose A) = transpose (rM Q A).
Proof. apply Mat6_ext; intros v w. unfold transpose, rM. rewrite !asvoigt4_at. unfold rot4, astensor4, sum3. ring. Qed.

Section Rot.
  Context (Q : T2) (HQ : orthogonal Q).
  Lemma rV_eye : rV Q eye = eye.
  Proof. apply voigt_ext. rewrite astensor_rV, eye_one. apply rot2_one; auto. Qed.
  Lemma rV_det a : det (rV Q a) = det a.
  Proof. rewrite !det_astensor, astensor_rV. apply rot2_det; auto. Qed.
  Lemma rV_trace a : trace (rV Q a) = trace a.
  Proof. rewrite !trace_astensor, astensor_rV. apply rot2_tr; auto. Qed.
  Lemma rV_inv a : det a <> 0 -> rV Q (inv a (Some (det a))) = inv (rV Q a) (Some (det (rV Q a))).
  Proof.
    intro N. apply voigt_ext. rewrite astensor_rV.
    change (inv a (Some (det a))) with (inv a None). change (inv (rV Q a) (Some (det (rV Q a)))) with (inv (rV Q a) None).
    rewrite !astensor_inv by (rewrite ?rV_det; auto). rewrite astensor_rV, rot2_inv; auto.
    rewrite <- det_astensor; auto.
  Qed.
  Lemma mmul_tr_cyc A B : tr2 (mmul A B) = tr2 (mmul B A).
  Proof. unfold tr2, mmul, sum3; ring. Qed.
  Lemma dc22_tr A B : dc22 A B = tr2 (mmul A (mtr B)).
  Proof. unfold dc22, tr2, mmul, mtr, sum3; ring. Qed.
  Lemma rV_ddot22 a b : ddot22 (rV Q a) (rV Q b) = ddot22 a b.
  Proof. rewrite !ddot22_full, !astensor_rV, !dc22_tr, mtr_rot2, rot2_mul, rot2_tr; auto. Qed.
  Lemma rM_dya a b : rM Q (dya a b) = dya (rV Q a) (rV Q b).
  Proof.
    apply Mat6_ext; intros v w. unfold rM. rewrite asvoigt4_at. unfold dya at 2. unfold rV, asvoigt.
    unfold rot4, astensor4, rot2, mmul, mtr, dya, astensor, sum3. ring.
  Qed.
  Lemma rM_cdya1 a : rM Q (cdya1 a) = cdya1 (rV Q a).
  Proof.
    rewrite !cdya1_cdya. rewrite <- (asvoigt4_astensor4_f (cdya (rV Q a) (rV Q a))). unfold rM. f_equal.
    apply T4_ext; intros. rewrite cdya_full, astensor_rV, <- rot4_cdya.
    f_equal. apply T4_ext; intros. apply cdya_full.
  Qed.
  (** Action on symmetric tensors. *)
  Lemma rot4_act A h i j : dc42 (rot4 Q A) h i j = rot2 Q (dc42 A (rot2 (mtr Q) h)) i j.
  Proof. unfold dc42, rot4, rot2, mmul, mtr, sum3. ring. Qed.
  Lemma rM_act A h : ddot42 (rM Q A) h = rV Q (ddot42 A (rV (mtr Q) h)).
  Proof.
    apply voigt_ext. rewrite astensor_rV. apply T2_ext; intros i j. rewrite ddot42_full, astensor4_rM, rot4_act.
    f_equal. apply T2_ext; intros. rewrite ddot42_full, astensor_rV. reflexivity.
  Qed.
  Lemma rV_back a : rV (mtr Q) (rV Q a) = a.
  Proof.
    apply voigt_ext. rewrite !astensor_rV. unfold rot2. rewrite mtr_mtr, !mmul_assoc.
    rewrite (QtQ Q HQ), <- !mmul_assoc, (QtQ Q HQ), mmul_1_l, mmul_1_r. reflexivity.
  Qed.
  Lemma act_ext A B : (forall h, ddot42 A h = ddot42 B h) -> A = B.
  Proof.
    intro H. apply Mat6_ext; intros v w.
    assert (E := equal_f (H (fun x => if (ix6_leb x w && ix6_leb w x)%bool then 1 else 0)) v).
    unfold ddot42, sum6, weights in E. destruct w; cbn in E; lra.
  Qed.
  Lemma rM_ddot44 A B : rM Q (ddot44 A B) = ddot44 (rM Q A) (rM Q B).
  Proof.
    assert (E : forall A B h, ddot42 (ddot44 A B) h = ddot42 A (ddot42 B h)).
    { intros. apply Vec6_ext; intro w. apply ddot44_42. }
    apply act_ext. intro h. rewrite rM_act, !E, (rM_act B), (rM_act A), rV_back. reflexivity.
  Qed.
  Lemma double_trace A : ddot22 (ddot24 eye A) eye = ddot22 eye (ddot42 A eye).
  Proof. unfold ddot22, ddot24, ddot42, sum6. ring. Qed.

End Rot.
