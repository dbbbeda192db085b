(** * Properties C53, C54: rounding errors.

    [rounded u e] (Rounded.v) are all the values that the expression [e] may take in
    arithmetic with relative rounding error [u], for every order of the additions of
    np.sum/np.einsum.  The expressions are those of the code (RoundedCode.v). *)
From Coq Require Import ZArith Reals List Lra Lia.
From Verif Require Import Tensor Py Voigt VoigtProofs Algebra Models Frameworks Spaces Spec SpaceProofs PiolaProofs SpaceCore
  Rounded RoundedProofs RoundedCode RoundedSpec RoundedMath RoundedMore.
Import ListNotations.
Local Open Scope R_scope.

Local Ltac poly_tac := cbn; repeat split; try exact Logic.I; lra.

(** ** C53: the math functions.  [a], [b], [A], [B] are arrays of input numbers. *)
Definition absv (a : Vec6) : T2 := abs2 (astensor a).
Definition abs4 (A : Mat6) : T4 := fun i j k l => Rabs (astensor4 A i j k l).

(** [gamma u n = (1+u)^n - 1] is at most n u / (1 - n u). *)
Theorem C53_gamma : forall u n, 0 <= u -> INR n * u < 1 -> 0 <= gamma u n <= INR n * u / (1 - INR n * u).
Proof. intros u n Hu H. split; [apply gamma_pos; auto|apply gamma_linear; auto]. Qed.
Print Assumptions C53_gamma.
(** Round to nearest even with 53-bit significands is an instance with u = 2^-53, and
    whatever rounding function is used, evaluating from left to right is one of the
    behaviours that the theorems below are about. *)
Theorem C53_float64 : (forall x, fl (/ 2 ^ 53) x (round53 x)) /\
  forall u rnd, (forall x, fl u x (rnd x)) -> forall e, filled e -> rounded u e (float_eval rnd e).
Proof. split; [exact round53_fl|exact float_eval_rounded]. Qed.
Print Assumptions C53_float64.

Section C53.
  Variable u : R.
  Hypothesis Hu : 0 <= u.
  Lemma C53_use e n s B : poly e -> (depth e <= n)%nat -> exact e = s -> mag e = B ->
    forall x, rounded u e x -> Rabs (x - s) <= gamma u n * B.
  Proof. intros HP HD <- <- x HX. apply rounded_error; auto. Qed.
End C53.

Theorem C53_trace : forall u (a : Vec6) x, 0 <= u -> rounded u (x_trace (in6 a)) x ->
  Rabs (x - tr2 (astensor a)) <= gamma u 2 * tr2 (absv a).
Proof.
  intros u a x Hu. apply C53_use; [exact Hu|poly_tac|cbn; lia|cbn; unfold tr2, sum3, astensor; cbn; ring|].
  unfold tr2, sum3, absv, abs2, astensor. cbn. ring.
Qed.
Print Assumptions C53_trace.
Theorem C53_det : forall u (a : Vec6) x, 0 <= u -> rounded u (x_det (in6 a)) x ->
  Rabs (x - det3 (astensor a)) <= gamma u 7 * abs_det (astensor a).
Proof.
  intros u a x Hu. apply C53_use; [exact Hu|poly_tac|cbn; lia| |].
  - unfold det3, astensor. cbn. ring.
  - unfold abs_det, astensor. cbn -[Rabs]. rewrite (Rabs_pos_eq 2) by lra. ring.
Qed.
Print Assumptions C53_det.
Theorem C53_dot : forall u (a b : Vec6) i j x, 0 <= u -> rounded u (x_dot (in6 a) (in6 b) i j) x ->
  Rabs (x - mmul (astensor a) (astensor b) i j) <= gamma u 3 * mmul (absv a) (absv b) i j.
Proof.
  intros u a b i j x Hu. apply C53_use; [exact Hu|..].
  - destruct i, j; poly_tac.
  - destruct i, j; cbn; lia.
  - rewrite exact_dot. apply dot_full.
  - unfold mmul, sum3, absv, abs2, astensor. destruct i, j; cbn -[Rabs]; ring.
Qed.
Print Assumptions C53_dot.
Theorem C53_ddot22 : forall u (a b : Vec6) x, 0 <= u -> rounded u (x_ddot22 (in6 a) (in6 b)) x ->
  Rabs (x - dc22 (astensor a) (astensor b)) <= gamma u 7 * dc22 (absv a) (absv b).
Proof.
  intros u a b x Hu. apply C53_use; [exact Hu|..].
  - poly_tac.
  - cbn; lia.
  - rewrite exact_ddot22. apply ddot22_full.
  - unfold dc22, sum3, absv, abs2, astensor. cbn -[Rabs]. rewrite (Rabs_pos_eq 2), (Rabs_pos_eq 1) by lra. ring.
Qed.
Print Assumptions C53_ddot22.
Theorem C53_ddot42 : forall u (A : Mat6) (b : Vec6) i j x, 0 <= u -> rounded u (x_astensor (x_ddot42 (in66 A) (in6 b)) i j) x ->
  Rabs (x - dc42 (astensor4 A) (astensor b) i j) <= gamma u 7 * dc42 (abs4 A) (absv b) i j.
Proof.
  intros u A b i j x Hu. apply C53_use; [exact Hu|..].
  - poly_tac.
  - cbn; lia.
  - unfold x_astensor. rewrite exact_ddot42. apply (ddot42_full A b i j).
  - unfold dc42, sum3, absv, abs2, astensor, abs4, astensor4. cbn -[Rabs vix]. cbn [vix]. rewrite (Rabs_pos_eq 2), (Rabs_pos_eq 1) by lra. ring.
Qed.
Print Assumptions C53_ddot42.
Theorem C53_ddot24 : forall u (a : Vec6) (B : Mat6) i j x, 0 <= u -> rounded u (x_astensor (x_ddot24 (in6 a) (in66 B)) i j) x ->
  Rabs (x - dc24 (astensor a) (astensor4 B) i j) <= gamma u 7 * dc24 (absv a) (abs4 B) i j.
Proof.
  intros u a B i j x Hu. apply C53_use; [exact Hu|..].
  - poly_tac.
  - cbn; lia.
  - unfold x_astensor. rewrite exact_ddot24. apply (ddot24_full a B i j).
  - unfold dc24, sum3, absv, abs2, astensor, abs4, astensor4. cbn -[Rabs vix]. cbn [vix]. rewrite (Rabs_pos_eq 2), (Rabs_pos_eq 1) by lra. ring.
Qed.
Print Assumptions C53_ddot24.
Theorem C53_ddot44 : forall u (A B : Mat6) i j k l x, 0 <= u -> rounded u (x_astensor4 (x_ddot44 (in66 A) (in66 B)) i j k l) x ->
  Rabs (x - dc44 (astensor4 A) (astensor4 B) i j k l) <= gamma u 7 * dc44 (abs4 A) (abs4 B) i j k l.
Proof.
  intros u A B i j k l x Hu. apply C53_use; [exact Hu|..].
  - poly_tac.
  - cbn; lia.
  - unfold x_astensor4. rewrite exact_ddot44. apply (ddot44_full A B i j k l).
  - unfold dc44, sum3, abs4, astensor4. cbn -[Rabs vix]. cbn [vix]. rewrite (Rabs_pos_eq 2), (Rabs_pos_eq 1) by lra. ring.
Qed.
Print Assumptions C53_ddot44.
(** dyadic products: one multiplication per entry, so the error is relative *)
Theorem C53_dyads : forall u (a b : Vec6) i j k l, 0 <= u ->
  (forall x, rounded u (x_astensor4 (x_dya (in6 a) (in6 b)) i j k l) x ->
     Rabs (x - astensor a i j * astensor b k l) <= u * Rabs (astensor a i j * astensor b k l)) /\
  (forall x, rounded u (x_cdya_ik (in6 a) (in6 b) i j k l) x ->
     Rabs (x - astensor a i k * astensor b j l) <= u * Rabs (astensor a i k * astensor b j l)) /\
  (forall x, rounded u (x_cdya_il (in6 a) (in6 b) i j k l) x ->
     Rabs (x - astensor a i l * astensor b k j) <= u * Rabs (astensor a i l * astensor b k j)).
Proof.
  intros u a b i j k l Hu. repeat split; intros x [p [q [-> [-> H]]]]; exact H.
Qed.
Print Assumptions C53_dyads.
Theorem C53_cdya : forall u (a b : Vec6) i j k l x, 0 <= u -> rounded u (x_astensor4 (x_cdya false (in6 a) (in6 b)) i j k l) x ->
  Rabs (x - cdya_spec (astensor a) (astensor b) i j k l) <= gamma u 4 * cdya_spec (absv a) (absv b) i j k l.
Proof.
  intros u a b i j k l x Hu. apply C53_use; [exact Hu|..].
  - destruct i, j, k, l; poly_tac.
  - destruct i, j, k, l; cbn; lia.
  - unfold x_astensor4. rewrite exact_cdya. apply (cdya_full a b i j k l).
  - unfold cdya_spec, absv, abs2, astensor. destruct i, j, k, l; cbn -[Rabs]; rewrite (Rabs_pos_eq 4) by lra; field.
Qed.
Print Assumptions C53_cdya.
(** the same object twice *)
Theorem C53_cdya_same : forall u (a : Vec6) i j k l x, 0 <= u -> rounded u (x_astensor4 (x_cdya true (in6 a) (in6 a)) i j k l) x ->
  Rabs (x - cdya_spec (astensor a) (astensor a) i j k l) <= gamma u 3 * cdya_spec (absv a) (absv a) i j k l.
Proof.
  intros u a i j k l x Hu. apply C53_use; [exact Hu|..].
  - destruct i, j, k, l; poly_tac.
  - destruct i, j, k, l; cbn; lia.
  - unfold x_astensor4. rewrite exact_cdya. rewrite (cdya_obj_same a). apply (cdya_full a a i j k l).
  - unfold cdya_spec, absv, abs2, astensor. destruct i, j, k, l; cbn -[Rabs]; rewrite (Rabs_pos_eq 2) by lra; field.
Qed.
Print Assumptions C53_cdya_same.
Theorem C53_dev : forall u (a : Vec6) i j x, 0 <= u -> rounded u (x_astensor (x_dev (in6 a)) i j) x ->
  Rabs (x - (astensor a i j - tr2 (astensor a) / 3 * delta i j)) <= gamma u 5 * (absv a i j + tr2 (absv a) / 3 * delta i j).
Proof.
  intros u a i j x Hu. apply C53_use; [exact Hu|..].
  - poly_tac.
  - cbn; lia.
  - unfold tr2, sum3, astensor, delta. destruct i, j; cbn; field.
  - unfold tr2, sum3, absv, abs2, astensor, delta. destruct i, j; cbn -[Rabs]; rewrite ?(Rabs_pos_eq 3), ?Rabs_R0, ?Rabs_R1 by lra; field.
Qed.
Print Assumptions C53_dev.
(** inv: if the determinant's rounding error [e] is smaller than the determinant, the entries of
    the inverse [B] have the stated error; [cof] is the magnitude of the cofactor. *)
Theorem C53_inv : forall u (A B : T2) i j x, 0 <= u -> sym2 A -> (forall i j, mmul A B i j = one2 i j) ->
  let e := gamma u 7 * abs_det A in e < Rabs (det3 A) ->
  rounded u (x_astensor (x_inv (in6 (asvoigt A)) None) i j) x ->
  Rabs (x - B i j) <= (1 + u) * ((gamma u 2 * abs_cof A i j + Rabs (B i j) * e) / (Rabs (det3 A) - e)) + u * Rabs (B i j).
Proof.
  intros u A B i j x Hu HA HB e He HX.
  assert (HT : astensor (asvoigt A) = A) by (apply T2_ext; intros; apply astensor_asvoigt; auto).
  assert (HD : det (asvoigt A) <> 0).
  { rewrite det_full by auto. intro Z. rewrite Z, Rabs_R0 in He. pose proof (gamma_pos u Hu 7).
    assert (0 <= abs_det A). { unfold abs_det. pose proof (fun i j => Rabs_pos (A i j)) as P.
      repeat apply Rplus_le_le_0_compat; repeat (apply Rmult_le_pos || apply pow_le); auto; lra. }
    unfold e in He. nra. }
  assert (EB : B i j = inv (asvoigt A) None (vix i j)).
  { change (inv (asvoigt A) None (vix i j)) with (astensor (inv (asvoigt A) None) i j).
    set (Bi := astensor (inv (asvoigt A) None)).
    assert (L : forall i j, mmul Bi A i j = one2 i j) by (intros i0 j0; pose proof (inv_left (asvoigt A) HD i0 j0) as Q; rewrite HT in Q; exact Q).
    assert (E : mmul Bi (mmul A B) i j = mmul (mmul Bi A) B i j) by (unfold mmul, sum3; ring).
    assert (E1 : mmul Bi (mmul A B) i j = Bi i j).
    { unfold mmul at 1, sum3. rewrite !HB. unfold one2, delta. destruct j; cbn [ix3_eqb]; ring. }
    assert (E2 : mmul (mmul Bi A) B i j = B i j).
    { unfold mmul at 1, sum3. rewrite !L. unfold one2, delta. destruct i; cbn [ix3_eqb]; ring. }
    congruence. }
  destruct HX as [p [d [Hp [Hd Hf]]]].
  assert (Ed : Rabs (d - det (asvoigt A)) <= e).
  { rewrite det_full by auto. pose proof (C53_det u (asvoigt A) d Hu Hd) as Q. rewrite HT in Q. exact Q. }
  set (v := vix i j) in *.
  pose proof (C53_use u Hu (Sub (Mul (in6 (asvoigt A) (inv_i v)) (in6 (asvoigt A) (inv_j v))) (Mul (in6 (asvoigt A) (inv_k v)) (in6 (asvoigt A) (inv_l v))))
     2 (inv (asvoigt A) None v * det (asvoigt A)) (abs_cof A i j)) as Ep.
  specialize (Ep ltac:(cbn; tauto) ltac:(cbn; lia)).
  assert (E1 : exact (Sub (Mul (in6 (asvoigt A) (inv_i v)) (in6 (asvoigt A) (inv_j v))) (Mul (in6 (asvoigt A) (inv_k v)) (in6 (asvoigt A) (inv_l v)))) =
    inv (asvoigt A) None v * det (asvoigt A)) by (unfold inv; cbn [exact in6]; field; auto).
  specialize (Ep E1).
  assert (E2 : mag (Sub (Mul (in6 (asvoigt A) (inv_i v)) (in6 (asvoigt A) (inv_j v))) (Mul (in6 (asvoigt A) (inv_k v)) (in6 (asvoigt A) (inv_l v)))) = abs_cof A i j).
  { unfold abs_cof, v, in6, asvoigt. pose proof (HA X1 X0) as A1. pose proof (HA X2 X0) as A2. pose proof (HA X2 X1) as A3.
    destruct i, j; cbn [vix mag inv_i inv_j inv_k inv_l vi vj next3]; rewrite ?A1, ?A2, ?A3; ring. }
  specialize (Ep E2 p Hp).
  assert (He' : e < Rabs (det (asvoigt A))) by (rewrite det_full; auto).
  pose proof (div_error u Hu p _ d _ _ _ x Ep Ed He' Hf) as R.
  replace (inv (asvoigt A) None v * det (asvoigt A) / det (asvoigt A)) with (inv (asvoigt A) None v) in R by (field; auto).
  rewrite (det_full A HA) in R. rewrite EB. exact R.
Qed.
Print Assumptions C53_inv.

(** ** C54: stress and elasticity of Deformation(Invariants(ThirdOrderDeformation)).
    [F] is an array of input numbers, the material parameters are input numbers. *)
Notation space m := (invariants_fw (tod_model m)).
Notation opt f a := {| finalize := true; force := f; area := a |}.

(** First Piola-Kirchhoff stress (default options). *)
Theorem C54_stress : forall (SV : Type) (m : TOD) F (sv : SV) s, exists P,
  outcome (def_gradient (space m) (opt Deformed Undeformed) F sv) s = Ok (StressFull P, sv) /\
  forall u i J x, 0 <= u -> rounded u (x_stress Deformed Undeformed m (in33 F) i J) x ->
    Rabs (x - P i J) <= gamma u 27 * abs_P m F i J.
Proof.
  intros SV m F sv s. eexists. split; [apply stress_exact|]. intros u i J x Hu.
  apply C53_use; [exact Hu|apply poly_P|apply depth_P|reflexivity|apply mag_P].
Qed.
Print Assumptions C54_stress.
(** Second Piola-Kirchhoff stress (force=0, area=0). *)
Theorem C54_second_piola_kirchhoff : forall (SV : Type) (m : TOD) F (sv : SV) s, exists T,
  outcome (def_gradient (space m) (opt Undeformed Undeformed) F sv) s = Ok (StressFull T, sv) /\
  forall u I J x, 0 <= u -> rounded u (x_stress Undeformed Undeformed m (in33 F) I J) x ->
    Rabs (x - T I J) <= gamma u 24 * abs_S m F I J.
Proof.
  intros SV m F sv s. eexists. split; [apply stress_exact|]. intros u i J x Hu.
  apply C53_use; [exact Hu|apply poly_S|apply depth_S|reflexivity|].
  unfold x_stress, x_astensor. rewrite mag_S. apply voigt_sym, abs_S_sym.
Qed.
Print Assumptions C54_second_piola_kirchhoff.
(** Elasticity tensor (default options). *)
Theorem C54_elasticity : forall (SV : Type) (m : TOD) F (sv : SV) s, exists A,
  outcome (def_hessian (space m) (opt Deformed Undeformed) F sv) s = Ok (ElastFull A) /\
  forall u i J k L x, 0 <= u -> rounded u (x_elasticity m (in33 F) i J k L) x ->
    Rabs (x - A i J k L) <= gamma u 28 * abs_A m F i J k L.
Proof.
  intros SV m F sv s. eexists. split; [apply elast_exact|]. intros u i J k L x Hu.
  apply C53_use; [exact Hu|apply poly_A|apply depth_A|reflexivity|apply mag_A].
Qed.
Print Assumptions C54_elasticity.
(** Cauchy stress (force=None, area=None).  [J = |det F|]; [e] is the error of det C, [eJ] of its root. *)
Theorem C54_cauchy : forall (SV : Type) (m : TOD) F (sv : SV) s, exists T,
  outcome (def_gradient (space m) (opt Deformed Deformed) F sv) s = Ok (StressFull T, sv) /\
  forall u i j x, 0 <= u ->
    let J := Rabs (det3 F) in
    let e := gamma u 16 * abs_det (abs_C F) in
    let eJ := (1 + u) * (e / J) + u * J in
    e < J ^ 2 -> eJ < J ->
    rounded u (x_stress Deformed Deformed m (in33 F) i j) x ->
    Rabs (x - T i j) <= (1 + u) * ((gamma u 30 * abs_tau m F i j + Rabs (T i j) * eJ) / (J - eJ)) + u * Rabs (T i j).
Proof.
  intros SV m F sv s. eexists. split; [apply stress_exact|]. intros u i j x Hu J e eJ He HJ [p [d [Hp [[c [Hc Hd]] Hf]]]].
  assert (JJ : J ^ 2 = det3 F ^ 2) by (unfold J; apply pow2_abs).
  assert (EC : Rabs (c - det3 F ^ 2) <= e).
  { revert Hc. apply C53_use; [exact Hu|apply poly_detC|rewrite depth_detC; lia| |apply mag_detC].
    rewrite exact_det, exact_C. apply det_right_CG. }
  assert (SJ : sqrt (det3 F ^ 2) = J) by (rewrite <- det_right_CG; apply sqrt_det_CG).
  pose proof (sqrt_error u Hu c _ e d EC ltac:(rewrite <- JJ; exact He) Hd) as ED. rewrite SJ in ED. fold eJ in ED.
  assert (EP : Rabs (p - exact (x_area (in33 F) (x_force (in33 F) (x_astensor (x_S m (in33 F)))) i j)) <= gamma u 30 * abs_tau m F i j).
  { revert Hp. apply C53_use; [exact Hu|apply poly_tau|apply depth_tau|reflexivity|apply mag_tau]. }
  assert (AJ : Rabs J = J) by (unfold J; apply Rabs_Rabsolu).
  pose proof (div_error u Hu p _ d _ _ _ x EP ED ltac:(rewrite AJ; exact HJ) Hf) as R. rewrite AJ in R.
  unfold ex33, x_stress. cbn [exact].
  assert (EX : sqrt (exact (x_det (x_right_CG (in33 F)))) = J).
  { rewrite exact_det, exact_C. apply sqrt_det_CG. }
  rewrite EX. exact R.
Qed.
Print Assumptions C54_cauchy.
(** Neo-Hooke: the stress 2 C10 F is computed with a small relative error in every entry. *)
Theorem C54_neo_hooke : forall u (c : R) strain F i J x, 0 <= u ->
  rounded u (x_stress Deformed Undeformed (tod_init c 0 0 0 0 strain) (in33 F) i J) x ->
  Rabs (x - 2 * c * F i J) <= gamma u 27 * Rabs (2 * c * F i J).
Proof.
  intros u c strain F i J x Hu. apply C53_use; [exact Hu|apply poly_P|apply depth_P| |].
    unfold x_stress, x_force. cbn [map all3 exact fold_right in33]. unfold x_astensor, x_S, x_dWdC, x_tod_gradient. cbn [tod_init C10 C01 C11 C20 C30 undeformed].
    assert (Z : nonzero 0 = false) by (apply ModelProofs.nonzero_false; reflexivity). rewrite Z.
    destruct (nonzero c) eqn:EC; cbn [orb x_iadd exact x_eye].
    + unfold eye. destruct J; cbn [vix]; ring.
    + apply ModelProofs.nonzero_false in EC. subst. unfold eye. destruct J; cbn [vix]; ring.
  - unfold x_stress. rewrite mag_P. unfold abs_P, mmul, sum3, abs2, abs_S, abs_W1, abs_W2. cbn [tod_init C10 C01 C11 C20 C30 undeformed].
    rewrite !Rabs_mult, Rabs_R0, (Rabs_pos_eq 2) by lra. unfold delta. destruct J; cbn [ix3_eqb]; ring.
Qed.
Print Assumptions C54_neo_hooke.
(** In float64 that is a relative error of at most 3e-15, for every order of the additions. *)
Theorem C54_neo_hooke_float64 : forall (c : R) strain F i J x,
  rounded (/ 2 ^ 53) (x_stress Deformed Undeformed (tod_init c 0 0 0 0 strain) (in33 F) i J) x ->
  Rabs (x - 2 * c * F i J) <= 3 / 10 ^ 15 * Rabs (2 * c * F i J).
Proof.
  intros c strain F i J x H. assert (Hu : 0 <= / 2 ^ 53) by (left; apply Rinv_0_lt_compat; lra).
  eapply Rle_trans; [apply (C54_neo_hooke _ _ _ _ _ _ _ Hu H)|]. apply Rmult_le_compat_r; [apply Rabs_pos|].
  eapply Rle_trans; [apply gamma_linear; auto; cbn; lra|]. cbn [INR]. lra.
Qed.
Print Assumptions C54_neo_hooke_float64.
(** Frame indifference holds up to rounding: the stress computed at the rotated deformation gradient
    and the rotated stress computed at F differ by rounding errors only. *)
Theorem C54_frame_indifference : forall u (m : TOD) F Q (y : T2) i J x, 0 <= u -> orthogonal Q ->
  rounded u (x_stress Deformed Undeformed m (in33 (mmul Q F)) i J) x ->
  (forall k, rounded u (x_stress Deformed Undeformed m (in33 F) k J) (y k J)) ->
  Rabs (x - mmul Q y i J) <= gamma u 27 * (abs_P m (mmul Q F) i J + mmul (abs2 Q) (abs_P m F) i J).
Proof.
  intros u m F Q y i J x Hu HQ HX HY.
  set (s0 := {| sp_C := None; sp_I3 := None; sp_Cx := None; sp_Sb := None; sp_sc := None; sp_invC := None; sp_S := None; sp_mat := inv_self0 |} : SpaceSelf (fw_self (@invariants_fw unit (tod_model m)))).
  destruct (C54_stress unit m F tt s0) as [P [EP BP]].
  destruct (C54_stress unit m (mmul Q F) tt s0) as [P' [EP' BP']].
  pose proof (proj1 (frame_indifference (space m) (opt Deformed Undeformed) KDeformation Q F tt s0 HQ)) as FI.
  cbn [sp_gradient] in FI. rewrite EP, EP' in FI. cbn [rmap fst snd rot_stress opts force area leg] in FI.
  injection FI as FI. assert (FI' : P' i J = mmul Q P i J) by (rewrite FI, ?mtr_one, ?mmul_1_l, ?mmul_1_r; reflexivity). clear FI.
  specialize (BP' u i J x Hu HX). rewrite FI' in BP'. pose proof (fun k => BP u k J (y k J) Hu (HY k)) as B.
  replace (x - mmul Q y i J) with ((x - mmul Q P i J) + - (Q i X0 * (y X0 J - P X0 J) + Q i X1 * (y X1 J - P X1 J) + Q i X2 * (y X2 J - P X2 J)))
    by (unfold mmul, sum3; ring).
  eapply Rle_trans; [apply Rabs_triang|]. rewrite Rabs_Ropp, Rmult_plus_distr_l. apply Rplus_le_compat; [exact BP'|].
  eapply Rle_trans; [apply Rabs_triang|]. eapply Rle_trans; [apply Rplus_le_compat_r, Rabs_triang|]. rewrite !Rabs_mult.
  pose proof (fun k => Rmult_le_compat_l (Rabs (Q i k)) _ _ (Rabs_pos _) (B k)) as BB.
  pose proof (BB X0). pose proof (BB X1). pose proof (BB X2).
  unfold mmul at 1, sum3, abs2 at 1 2 3. lra.
Qed.
Print Assumptions C54_frame_indifference.
(** The hypotheses of C54_cauchy are met, e.g. at F = 1 in float64, and there are rounded values. *)
Example C54_example : forall (m : TOD) i j,
  let u := / 2 ^ 53 in let F := one2 in let J := Rabs (det3 F) in
  let e := gamma u 16 * abs_det (abs_C F) in
  e < J ^ 2 /\ (1 + u) * (e / J) + u * J < J /\
  rounded u (x_stress Deformed Deformed m (in33 F) i j) (float_eval round53 (x_stress Deformed Deformed m (in33 F) i j)).
Proof.
  intros m i j u F J e.
  assert (Hu : 0 <= u) by (unfold u; left; apply Rinv_0_lt_compat; lra).
  assert (EJ : J = 1). { unfold J, F. replace (det3 one2) with 1 by (unfold det3, one2, delta; cbn; ring). apply Rabs_R1. }
  assert (EA : abs_det (abs_C F) = 1).
  { unfold abs_det, abs_C, cauchy_green, mmul, mtr, sum3, abs2, F, one2, delta. cbn [ix3_eqb]. rewrite !Rabs_R0, !Rabs_R1.
    replace (Rabs (1 * 1 + 0 * 0 + 0 * 0)) with 1 by (rewrite Rabs_pos_eq; lra).
    replace (Rabs (0 * 0 + 1 * 1 + 0 * 0)) with 1 by (rewrite Rabs_pos_eq; lra).
    replace (Rabs (0 * 0 + 0 * 0 + 1 * 1)) with 1 by (rewrite Rabs_pos_eq; lra).
    replace (Rabs (1 * 0 + 0 * 1 + 0 * 0)) with 0 by (rewrite Rabs_pos_eq; lra).
    replace (Rabs (1 * 0 + 0 * 0 + 0 * 1)) with 0 by (rewrite Rabs_pos_eq; lra).
    replace (Rabs (0 * 0 + 1 * 0 + 0 * 1)) with 0 by (rewrite Rabs_pos_eq; lra). ring. }
  assert (Ee : e <= 1 / 1000).
  { unfold e. rewrite EA, Rmult_1_r. eapply Rle_trans; [apply gamma_linear; auto; unfold u; cbn; lra|]. unfold u. cbn [INR]. lra. }
  rewrite EJ. replace (1 ^ 2) with 1 by ring. replace (e / 1) with e by field. split; [lra|]. split.
  - assert (u <= 1 / 1000) by (unfold u; lra). pose proof (gamma_pos u Hu 16).
    assert (0 <= e) by (unfold e; rewrite EA; lra). nra.
  - apply float_eval_rounded; [exact round53_fl|].
    unfold x_stress, x_area, x_force, x_astensor. cbn [filled map all3 fold_right].
    assert (FS : forall v, filled (x_S m (in33 F) v)).
    { intro v. unfold x_S, x_dWdC, x_tod_gradient.
      destruct (nonzero (C10 m)), (nonzero (C01 m)), (nonzero (C11 m)), (nonzero (C20 m)), (nonzero (C30 m)); cbn; repeat split; congruence. }
    repeat split; first [apply FS | discriminate | exact Logic.I].
Qed.
(** A concrete case of C53_inv: double precision and the matrix with diagonal 2, 3, 5 and entry (1,2) equal to 1; the
    computed values are those of the C53_float64 evaluation. *)
Definition A_ex : T2 := fun i j => match i, j with X0, X0 => 2 | X1, X1 => 3 | X2, X2 => 5 | X0, X1 | X1, X0 => 1 | _, _ => 0 end.
Definition B_ex : T2 := fun i j => match i, j with X0, X0 => 3 / 5 | X1, X1 => 2 / 5 | X2, X2 => 1 / 5 | X0, X1 | X1, X0 => - (1 / 5) | _, _ => 0 end.
Example C53_example : let u := / 2 ^ 53 in 0 <= u /\ sym2 A_ex /\ (forall i j, mmul A_ex B_ex i j = one2 i j) /\
  gamma u 7 * abs_det A_ex < Rabs (det3 A_ex) /\
  forall i j, exists x, rounded u (x_astensor (x_inv (in6 (asvoigt A_ex)) None) i j) x.
Proof.
  assert (U : 0 < / 2 ^ 53 < / 1000) by (split; [apply Rinv_0_lt_compat, pow_lt; lra|apply Rinv_lt_contravar; [apply Rmult_lt_0_compat; [lra|apply pow_lt; lra]|]]; cbn; lra).
  set (u := / 2 ^ 53) in *. cbv zeta. split; [lra|]. split; [intros [] []; reflexivity|]. split.
  { intros [] []; unfold mmul, sum3, A_ex, B_ex, one2, delta; cbn; field. } split.
  - assert (G := C53_gamma u 7 ltac:(lra) ltac:(cbn; lra)).
    assert (E : gamma u 7 <= 1 / 100).
    { apply (Rle_trans _ _ _ (proj2 G)). cbn. apply (Rmult_le_reg_r (1 - (1 + 1 + 1 + 1 + 1 + 1 + 1) * u)); [lra|]. unfold Rdiv. rewrite Rmult_assoc, Rinv_l by lra. nra. }
    assert (E1 : abs_det A_ex = 35).
    { unfold abs_det, A_ex; cbn. rewrite !Rabs_R0, !Rabs_R1, !(Rabs_right 2), !(Rabs_right 3), !(Rabs_right 5) by lra. lra. }
    assert (E2 : det3 A_ex = 25) by (unfold det3, A_ex; cbn; lra).
    rewrite E1, E2, Rabs_right by lra. lra.
  - intros i j. exists (float_eval round53 (x_astensor (x_inv (in6 (asvoigt A_ex)) None) i j)). apply (proj2 C53_float64 u round53 (proj1 C53_float64)).
    destruct i, j; cbn; repeat split; exact Logic.I.
Qed.
