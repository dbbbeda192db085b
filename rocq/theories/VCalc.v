(** Calculus of reduced tensors: derivatives of trace, I2, det and inv along paths. *)
From Coq Require Import Reals Lra FunctionalExtensionality.
From Coquelicot Require Import Coquelicot.
From Verif Require Import Tensor Py Voigt VoigtProofs Algebra Calc Models Frameworks Spaces Spec.
Local Open Scope R_scope.

(** *** Full and reduced paths *)
Lemma dcurve_voigt C t0 dC : dcurve2 C t0 dC -> dcurve6 (fun t => asvoigt (C t)) t0 (asvoigt dC).
Proof. intros H v. unfold asvoigt. apply H. Qed.
Lemma dcurve_tensor c t0 dc : dcurve6 c t0 dc -> dcurve2 (fun t => astensor (c t)) t0 (astensor dc).
Proof. intros H i j. unfold astensor. apply H. Qed.
Lemma dcurve2_sym C t0 dC : (forall t, sym2 (C t)) -> dcurve2 C t0 dC -> sym2 dC.
Proof.
  intros S H i j. generalize (H i j) (H j i). intros A B.
  apply is_derive_unique in A, B. rewrite <- A, <- B. apply Derive_ext. intro t. apply S.
Qed.
Lemma asvoigt_inj_sym A B : sym2 A -> sym2 B -> asvoigt A = asvoigt B -> A = B.
Proof. intros SA SB E. rewrite <- (astensor_asvoigt_f A), <- (astensor_asvoigt_f B), E; auto. Qed.

(** *** Reduced algebra *)
Lemma ddot22_comm a b : ddot22 a b = ddot22 b a.
Proof. unfold ddot22, sum6; ring. Qed.
Lemma ddot22_add_l a b c : ddot22 (vadd a b) c = ddot22 a c + ddot22 b c.
Proof. unfold ddot22, sum6, vadd; ring. Qed.
Lemma ddot22_sub_l a b c : ddot22 (vsub a b) c = ddot22 a c - ddot22 b c.
Proof. unfold ddot22, sum6, vsub; ring. Qed.
Lemma ddot22_scal_l x a c : ddot22 (vscal x a) c = x * ddot22 a c.
Proof. unfold ddot22, sum6, vscal; ring. Qed.
Lemma ddot22_eye a : ddot22 eye a = trace a.
Proof. unfold ddot22, sum6, eye, trace, weights; ring. Qed.
Lemma ddot42_add A B h v : ddot42 (madd6 A B) h v = ddot42 A h v + ddot42 B h v.
Proof. unfold ddot42, sum6, madd6; ring. Qed.
Lemma ddot42_sub A B h v : ddot42 (msub6 A B) h v = ddot42 A h v - ddot42 B h v.
Proof. unfold ddot42, sum6, msub6; ring. Qed.
Lemma ddot42_scal x A h v : ddot42 (mscal6 x A) h v = x * ddot42 A h v.
Proof. unfold ddot42, sum6, mscal6; ring. Qed.
Lemma ddot42_dya a b h v : ddot42 (dya a b) h v = a v * ddot22 b h.
Proof. unfold ddot42, ddot22, sum6, dya; ring. Qed.
Lemma ddot42_zero h v : ddot42 mzero h v = 0.
Proof. unfold ddot42, sum6, mzero; ring. Qed.
Lemma ddot42_cdya_eye h v : ddot42 (cdya1 eye) h v = h v.
Proof. rewrite cdya1_cdya. destruct v; unfold ddot42, sum6, weights, cdya, cdya_obj, cdya_value, eye; cbn; field. Qed.
(** invC dC invC in reduced storage *)
Definition sandwich (a h : Vec6) : Vec6 := ddot42 (cdya1 a) h.
Lemma sandwich_full a h i j :
  astensor (sandwich a h) i j = mmul (mmul (astensor a) (astensor h)) (astensor a) i j.
Proof. unfold sandwich. rewrite cdya1_cdya, cdya_action. field. Qed.
Lemma sandwich_ddot a h b : ddot22 b (sandwich a h) = ddot22 (sandwich a b) h.
Proof. unfold sandwich. rewrite !cdya1_cdya. unfold ddot22, ddot42, sum6, weights, cdya, cdya_obj, cdya_value; cbn. field. Qed.

(** *** Derivatives *)
Section D.
  Context (c : R -> Vec6) (t0 : R) (dc : Vec6) (Hc : dcurve6 c t0 dc).
  Lemma trace_D : is_derive (fun t => trace (c t)) t0 (trace dc).
  Proof. unfold trace. dsolve. ring. Qed.
  Lemma ddot_D c' dc' : dcurve6 c' t0 dc' ->
    is_derive (fun t => ddot22 (c t) (c' t)) t0 (ddot22 dc (c' t0) + ddot22 (c t0) dc').
  Proof. intro H. unfold ddot22, sum6. dsolve. ring. Qed.
  Lemma I2_D : is_derive (fun t => (trace (c t) ^ 2 - ddot22 (c t) (c t)) / 2) t0
     (ddot22 (vsub (vscal (trace (c t0)) eye) (c t0)) dc).
  Proof.
    eapply D_eq. { apply D_divc. apply D_minus; [apply D_sqr, trace_D|apply ddot_D; exact Hc]. }
    rewrite ddot22_sub_l, ddot22_scal_l, ddot22_eye, (ddot22_comm dc). field.
  Qed.
  Lemma det_D_cof : is_derive (fun t => det (c t)) t0
     (sum6 (fun v => (c t0 (inv_i v) * c t0 (inv_j v) - c t0 (inv_k v) * c t0 (inv_l v)) * dc v * weights v)).
  Proof. unfold det, sum6. dsolve. unfold weights; cbn [inv_i inv_j inv_k inv_l]. ring. Qed.
  Lemma det_D : det (c t0) <> 0 ->
    is_derive (fun t => det (c t)) t0 (det (c t0) * ddot22 (inv (c t0) None) dc).
  Proof.
    intro N. eapply D_eq; [apply det_D_cof|]. unfold ddot22, inv, sum6. field. exact N.
  Qed.
  Lemma inv_D : det (c t0) <> 0 ->
    dcurve6 (fun t => inv (c t) None) t0 (fun v => - sandwich (inv (c t0) None) dc v).
  Proof.
    intros N v. unfold inv at 1. eapply D_eq.
    { apply D_div; [repeat dstep|apply det_D_cof|exact N]. }
    unfold sandwich. set (d := det (c t0)) in *.
    set (a := fun v => c t0 (inv_i v) * c t0 (inv_j v) - c t0 (inv_k v) * c t0 (inv_l v)).
    assert (E : forall v, inv (c t0) None v = a v / d) by reflexivity.
    assert (E2 : ddot42 (cdya1 (inv (c t0) None)) dc v = ddot42 (cdya1 a) dc v / d ^ 2).
    { assert (F : inv (c t0) None = vscal (/ d) a) by (apply Vec6_ext; intro; rewrite E; unfold vscal, Rdiv; ring).
      rewrite F. rewrite !cdya1_cdya. unfold ddot42, cdya, cdya_obj, cdya_value, vscal, sum6.
      destruct v; cbn [ix6_leb]; cbn; field; exact N. }
    rewrite E2. unfold Rdiv. rewrite Ropp_mult_distr_l. f_equal.
    clear E2 E. rewrite cdya1_cdya. unfold d, det, ddot42, cdya, cdya_obj, cdya_value, sum6, a.
    destruct v; cbn [inv_i inv_j inv_k inv_l vi vj vix ix6_leb weights]; cbn; field.
  Qed.
End D.

(** *** Invariants *)
Definition Jv (c : Vec6) : Vec3 := fun k =>
  match k with X0 => trace c | X1 => (trace c ^ 2 - ddot22 c c) / 2 | X2 => det c end.
Lemma Jv_full A : sym2 A -> Jv (asvoigt A) = invariants A.
Proof.
  intro S. apply functional_extensionality; intro k. destruct k; cbn.
  - unfold inv1. apply trace_full.
  - unfold inv2. rewrite trace_full, ddot22_full, astensor_asvoigt_f by auto.
    f_equal. f_equal. rewrite dc22_tr, mtr_sym; auto.
  - apply det_full; auto.
Qed.
(** Gradient of the k-th invariant. *)
Definition dJv (c : Vec6) (k : ix3) : Vec6 :=
  match k with X0 => eye | X1 => vsub (vscal (trace c) eye) c | X2 => vscal (det c) (inv c (Some (det c))) end.
Lemma Jv_D c t0 dc : dcurve6 c t0 dc -> det (c t0) <> 0 ->
  dcurve3 (fun t => Jv (c t)) t0 (fun k => ddot22 (dJv (c t0) k) dc).
Proof.
  intros H N k. destruct k; cbn [Jv dJv].
  - rewrite ddot22_eye. apply trace_D; auto.
  - apply I2_D; auto.
  - rewrite ddot22_scal_l. apply det_D; auto.
Qed.
