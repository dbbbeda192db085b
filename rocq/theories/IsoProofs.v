(** Isotropy of the Invariants framework (C17). *)
From Coq Require Import Reals Lra FunctionalExtensionality.
From Coquelicot Require Import Coquelicot.
From Verif Require Import Tensor Py Voigt VoigtProofs Algebra Calc Models Frameworks Spaces Spec VCalc InvCore.
Local Open Scope R_scope.

Lemma mtr_rot2 Q A : mtr (rot2 Q A) = rot2 Q (mtr A).
Proof. unfold rot2. rewrite !mtr_mmul, mtr_mtr, mmul_assoc. reflexivity. Qed.
Lemma rot2_sym Q A : sym2 A -> sym2 (rot2 Q A).
Proof. intros S i j. rewrite <- (mtr_sym A S) at 1. rewrite <- mtr_rot2. reflexivity. Qed.
Section Q.
  Context (Q : T2) (HQ : orthogonal Q).
  Lemma QtQ : mmul (mtr Q) Q = one2. Proof. apply orthogonal_eq; auto. Qed.
  Lemma QQt : mmul Q (mtr Q) = one2. Proof. apply orthogonal_right; auto. Qed.
  Lemma rot2_one : rot2 Q one2 = one2.
  Proof. unfold rot2. rewrite mmul_1_r. apply QQt. Qed.
  Lemma rot2_mul A B : mmul (rot2 Q A) (rot2 Q B) = rot2 Q (mmul A B).
  Proof. unfold rot2. rewrite !mmul_assoc, <- (mmul_assoc (mtr Q) Q), QtQ, mmul_1_l. reflexivity. Qed.
  Lemma rot2_tr A : tr2 (rot2 Q A) = tr2 A.
  Proof. unfold rot2. rewrite tr2_mmul, <- mmul_assoc, QtQ, mmul_1_l. reflexivity. Qed.
  Lemma rot2_det A : det3 (rot2 Q A) = det3 A.
  Proof. unfold rot2. rewrite !det3_mmul, det3_mtr. pose proof (orthogonal_det _ HQ). 
    transitivity (det3 Q ^ 2 * det3 A); [ring|rewrite H; ring]. Qed.
  Lemma rot2_inv A : det3 A <> 0 -> inv3 (rot2 Q A) = rot2 Q (inv3 A).
  Proof. intro N. apply inverse_unique with (rot2 Q A).
    - apply inv3_r. rewrite rot2_det; auto.
    - rewrite rot2_mul, inv3_r by auto. apply rot2_one. Qed.
  Lemma rot2_invariants A : invariants (rot2 Q A) = invariants A.
  Proof. apply Vec3_ext; intro k; destruct k; cbn; unfold inv1, inv2, inv3';
    rewrite ?rot2_mul, ?rot2_tr, ?rot2_det; reflexivity. Qed.
End Q.
(** linearity *)
Lemma rot2_lin Q a b A B i j : rot2 Q (fun i j => a * A i j + b * B i j) i j = a * rot2 Q A i j + b * rot2 Q B i j.
Proof. unfold rot2, mmul, mtr, sum3; ring. Qed.
Lemma asvoigt_lin a b A B : asvoigt (fun i j => a * A i j + b * B i j) = (fun v => a * asvoigt A v + b * asvoigt B v).
Proof. reflexivity. Qed.

(** full tensors of the reduced ingredients *)
Definition dJf (C : T2) (k : ix3) : T2 :=
  match k with X0 => one2 | X1 => (fun i j => tr2 C * one2 i j - C i j) | X2 => (fun i j => det3 C * inv3 C i j) end.
Lemma dJv_full C k : sym2 C -> det3 C <> 0 -> astensor (dJv (asvoigt C) k) = dJf C k.
Proof.
  intros S N. apply T2_ext; intros i j. destruct k; cbn [dJv dJf].
  - apply eye_full.
  - unfold astensor, vsub, vscal. rewrite trace_full. f_equal.
    + change (eye (vix i j)) with (astensor eye i j). rewrite eye_full. reflexivity.
    + change (asvoigt C (vix i j)) with (astensor (asvoigt C) i j). rewrite astensor_asvoigt; auto.
  - unfold astensor, vscal. rewrite det_full by auto. f_equal.
    replace (Some (det3 C)) with (Some (det (asvoigt C))) by (rewrite det_full; auto).
    change (inv (asvoigt C) (Some (det (asvoigt C)))) with (inv (asvoigt C) None).
    change (astensor (inv (asvoigt C) None) i j = inv3 C i j).
    rewrite astensor_inv by (rewrite det_full; auto). rewrite astensor_asvoigt_f; auto.
Qed.
Lemma dJf_rot Q C k : orthogonal Q -> det3 C <> 0 -> dJf (rot2 Q C) k = rot2 Q (dJf C k).
Proof.
  intros HQ N. destruct k; cbn [dJf].
  - rewrite rot2_one; auto.
  - apply T2_ext; intros i j. rewrite rot2_tr by auto.
    replace (fun i j : ix3 => tr2 C * one2 i j - C i j) with (fun i j => tr2 C * one2 i j + (-1) * C i j)
      by (apply T2_ext; intros; ring).
    rewrite rot2_lin, rot2_one by auto. ring.
  - apply T2_ext; intros i j. rewrite rot2_det, rot2_inv by auto.
    unfold rot2, mmul, sum3; ring.
Qed.
Lemma dJv_rot Q C k : orthogonal Q -> sym2 C -> det3 C <> 0 ->
  dJv (asvoigt (rot2 Q C)) k = asvoigt (rot2 Q (astensor (dJv (asvoigt C) k))).
Proof.
  intros HQ S N. rewrite dJv_full, <- dJf_rot by auto.
  rewrite <- (dJv_full (rot2 Q C)); [|apply rot2_sym; auto|rewrite rot2_det; auto].
  apply Vec6_ext; intro v; rewrite asvoigt_astensor; auto.
Qed.
Lemma gradv_rot Q C g : orthogonal Q -> sym2 C -> det3 C <> 0 ->
  gradv (asvoigt (rot2 Q C)) g = asvoigt (rot2 Q (astensor (gradv (asvoigt C) g))).
Proof.
  intros HQ S N. apply Vec6_ext; intro v. unfold gradv at 1, sum3. rewrite !dJv_rot by auto.
  unfold asvoigt, rot2, mmul, gradv, sum3, astensor, mtr. ring.
Qed.

(** *** fourth order *)
Definition dyf (A B : T2) : T4 := fun i j k l => A i j * B k l.
Definition d2Jf (C : T2) (k : ix3) : T4 :=
  match k with
  | X0 => fun _ _ _ _ => 0
  | X1 => fun i j k l => dyf one2 one2 i j k l - cdya_spec one2 one2 i j k l
  | X2 => fun i j k l => det3 C * (dyf (inv3 C) (inv3 C) i j k l - cdya_spec (inv3 C) (inv3 C) i j k l)
  end.
Lemma rot4_dyf Q A B i j k l : rot4 Q (dyf A B) i j k l = dyf (rot2 Q A) (rot2 Q B) i j k l.
Proof. unfold rot4, dyf, rot2, mmul, mtr, sum3; ring. Qed.
Lemma rot4_cdya Q A B i j k l : rot4 Q (cdya_spec A B) i j k l = cdya_spec (rot2 Q A) (rot2 Q B) i j k l.
Proof. unfold rot4, cdya_spec, rot2, mmul, mtr, sum3; field. Qed.
Lemma rot4_lin Q a b A B i j k l :
  rot4 Q (fun i j k l => a * A i j k l + b * B i j k l) i j k l = a * rot4 Q A i j k l + b * rot4 Q B i j k l.
Proof. unfold rot4, sum3; ring. Qed.
Lemma rot4_scal Q a A i j k l : rot4 Q (fun i j k l => a * A i j k l) i j k l = a * rot4 Q A i j k l.
Proof. unfold rot4, sum3; ring. Qed.
Lemma rot4_minus Q A B i j k l : rot4 Q (fun i j k l => A i j k l - B i j k l) i j k l = rot4 Q A i j k l - rot4 Q B i j k l.
Proof. unfold rot4, sum3; ring. Qed.
Lemma rot4_plus Q A B i j k l : rot4 Q (fun i j k l => A i j k l + B i j k l) i j k l = rot4 Q A i j k l + rot4 Q B i j k l.
Proof. unfold rot4, sum3; ring. Qed.
Lemma d2Jf_rot Q C k : orthogonal Q -> det3 C <> 0 -> d2Jf (rot2 Q C) k = rot4 Q (d2Jf C k).
Proof.
  intros HQ N. apply T4_ext; intros i j p q. destruct k; cbn [d2Jf].
  - unfold rot4, sum3; ring.
  - rewrite rot4_minus. rewrite rot4_dyf, rot4_cdya, rot2_one by auto. reflexivity.
  - rewrite rot4_scal, rot4_minus, rot4_dyf, rot4_cdya, rot2_det, rot2_inv by auto. reflexivity.
Qed.
Lemma inv_full C : sym2 C -> det3 C <> 0 -> astensor (inv (asvoigt C) (Some (det (asvoigt C)))) = inv3 C.
Proof.
  intros S N. change (inv (asvoigt C) (Some (det (asvoigt C)))) with (inv (asvoigt C) None).
  rewrite astensor_inv by (rewrite det_full; auto). rewrite astensor_asvoigt_f; auto.
Qed.
Lemma eye_one : astensor eye = one2.
Proof. apply T2_ext; intros; apply eye_full. Qed.
Lemma d2Jv_full C k : sym2 C -> det3 C <> 0 -> astensor4 (d2Jv (asvoigt C) k) = d2Jf C k.
Proof.
  intros S N. apply T4_ext; intros i j p q. destruct k; cbn [d2Jv d2Jf].
  - reflexivity.
  - change (astensor eye i j * astensor eye p q - astensor4 (cdya1 eye) i j p q = dyf one2 one2 i j p q - cdya_spec one2 one2 i j p q).
    rewrite cdya1_cdya, cdya_full, eye_one. reflexivity.
  - set (I := inv (asvoigt C) (Some (det (asvoigt C)))).
    change (det (asvoigt C) * (astensor I i j * astensor I p q - astensor4 (cdya1 I) i j p q) =
      det3 C * (dyf (inv3 C) (inv3 C) i j p q - cdya_spec (inv3 C) (inv3 C) i j p q)).
    rewrite cdya1_cdya, cdya_full. unfold I. rewrite inv_full, det_full by auto. reflexivity.
Qed.
(** hessian as a full tensor *)
Definition hessf (C : T2) (g : opt3) (h : ix6 -> option R) : T4 := fun i j p q =>
  sum3 (fun k => val (o3 g k) * d2Jf C k i j p q) +
  sum3 (fun k => sum3 (fun l => val (h (pos k l)) * dyf (dJf C k) (dJf C l) i j p q)).
Lemma hessv_full C g h : sym2 C -> det3 C <> 0 -> astensor4 (hessv (asvoigt C) g h) = hessf C g h.
Proof.
  intros S N. apply T4_ext; intros i j p q.
  change (astensor4 (hessv (asvoigt C) g h) i j p q) with
    (sum3 (fun k => val (o3 g k) * astensor4 (d2Jv (asvoigt C) k) i j p q) +
     sum3 (fun k => sum3 (fun l => val (h (pos k l)) * (astensor (dJv (asvoigt C) k) i j * astensor (dJv (asvoigt C) l) p q)))).
  unfold sum3. rewrite !d2Jv_full, !dJv_full by auto. reflexivity.
Qed.
Lemma hessf_rot Q C g h : orthogonal Q -> det3 C <> 0 -> hessf (rot2 Q C) g h = rot4 Q (hessf C g h).
Proof.
  intros HQ N. apply T4_ext; intros i j p q. unfold hessf, sum3. rewrite !dJf_rot, !d2Jf_rot by auto.
  repeat first [rewrite rot4_plus | rewrite rot4_scal].
  rewrite !rot4_dyf. reflexivity.
Qed.
Definition bugf (C : T2) (h : ix6 -> option R) : T4 := fun i j p q =>
  val (h V1) * dyf (dJf C X1) (dJf C X1) i j p q - val (h V2) * dyf (dJf C X2) (dJf C X2) i j p q.
Lemma hessv_bug_full C g h : sym2 C -> det3 C <> 0 ->
  astensor4 (hessv_bug (asvoigt C) g h) = (fun i j p q => hessf C g h i j p q + bugf C h i j p q).
Proof.
  intros S N. apply T4_ext; intros i j p q.
  change (astensor4 (hessv_bug (asvoigt C) g h) i j p q) with
    (astensor4 (hessv (asvoigt C) g h) i j p q
     - val (h V2) * (astensor (dJv (asvoigt C) X2) i j * astensor (dJv (asvoigt C) X2) p q)
     + val (h V1) * (astensor (dJv (asvoigt C) X1) i j * astensor (dJv (asvoigt C) X1) p q)).
  rewrite hessv_full, !dJv_full by auto. unfold bugf, dyf. ring.
Qed.
Lemma bugf_rot Q C h : orthogonal Q -> det3 C <> 0 -> bugf (rot2 Q C) h = rot4 Q (bugf C h).
Proof.
  intros HQ N. apply T4_ext; intros i j p q. unfold bugf. rewrite !dJf_rot by auto.
  rewrite rot4_minus. rewrite !rot4_scal, !rot4_dyf. reflexivity.
Qed.
Lemma asvoigt4_astensor4_f H : asvoigt4 (astensor4 H) = H.
Proof. apply Mat6_ext; intros; apply asvoigt4_astensor4. Qed.
Lemma hessv_rot Q C g h : orthogonal Q -> sym2 C -> det3 C <> 0 ->
  hessv (asvoigt (rot2 Q C)) g h = asvoigt4 (rot4 Q (astensor4 (hessv (asvoigt C) g h))).
Proof.
  intros HQ S N. rewrite <- (asvoigt4_astensor4_f (hessv (asvoigt (rot2 Q C)) g h)). f_equal.
  rewrite !hessv_full, hessf_rot; auto using rot2_sym. rewrite rot2_det; auto.
Qed.
Lemma hessv_bug_rot Q C g h : orthogonal Q -> sym2 C -> det3 C <> 0 ->
  hessv_bug (asvoigt (rot2 Q C)) g h = asvoigt4 (rot4 Q (astensor4 (hessv_bug (asvoigt C) g h))).
Proof.
  intros HQ S N. rewrite <- (asvoigt4_astensor4_f (hessv_bug (asvoigt (rot2 Q C)) g h)). f_equal.
  rewrite !hessv_bug_full; auto using rot2_sym. 2: rewrite rot2_det; auto.
  rewrite hessf_rot, bugf_rot by auto. apply T4_ext; intros. rewrite rot4_plus. reflexivity.
Qed.

Lemma invariants_isotropic {SV} (m : InvModel SV) : isotropic_fw (invariants_fw m) invertible.
Proof.
  intros Q C sv s HQ S N. unfold invertible in N.
  assert (EJ : Jv (asvoigt (rot2 Q C)) = Jv (asvoigt C)).
  { rewrite !Jv_full; auto using rot2_sym. apply rot2_invariants; auto. }
  unfold outcome. cbn [invariants_fw fw_gradient fw_hessian].
  destruct (inv_call m (Jv (asvoigt C)) sv) as [[g svn]|e] eqn:E; assert (E' := E); rewrite <- EJ in E'.
  - rewrite (inv_gradient_ok m _ _ _ _ s E), (inv_gradient_ok m _ _ _ _ s E'). split.
    + cbn. rewrite gradv_rot; auto.
    + destruct (inv_callh m (Jv (asvoigt C)) svn) as [h|e] eqn:Eh; assert (Eh' := Eh); rewrite <- EJ in Eh'.
      * rewrite (inv_hessian_eq m _ _ _ _ _ s E Eh), (inv_hessian_eq m _ _ _ _ _ s E' Eh'). cbn [snd].
        destruct (hess_exn g h); [reflexivity|]. cbn [rmap]. f_equal.
        destruct (isN (h V2)); auto using hessv_rot, hessv_bug_rot.
      * rewrite (inv_hessian_hraise m _ _ _ _ _ s E Eh), (inv_hessian_hraise m _ _ _ _ _ s E' Eh'). reflexivity.
  - destruct (inv_gradient_raise m _ _ _ s E) as [a ->], (inv_gradient_raise m _ _ _ s E') as [b ->].
    destruct (inv_hessian_graise m _ _ _ s E) as [a' ->], (inv_hessian_graise m _ _ _ s E') as [b' ->].
    split; reflexivity.
Qed.
