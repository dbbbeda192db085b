(** Exact values, magnitudes and rounding counts of the expressions of RoundedCode.v. *)
From Coq Require Import Reals List Lra Lia Bool FunctionalExtensionality.
From Verif Require Import Tensor Py Voigt VoigtProofs Algebra Models ModelProofs Frameworks Spaces Spec InvCore SpaceCore
  SpaceProofs VCalc Calc Rounded RoundedProofs RoundedCode RoundedSpec.
Import ListNotations.
Local Open Scope R_scope.

Definition ex6 (A : XV) : Vec6 := fun v => exact (A v).
Definition ex66 (A : XM) : Mat6 := fun v w => exact (A v w).
Definition ex33 (A : XT2) : T2 := fun i j => exact (A i j).

(** ** Exact values *)
Lemma exact_trace A : exact (x_trace A) = trace (ex6 A).
Proof. unfold trace, ex6. cbn. ring. Qed.
Lemma exact_det A : exact (x_det A) = det (ex6 A).
Proof. unfold det, ex6. cbn. ring. Qed.
Lemma exact_inv A d v : exact (x_inv A d v) = inv (ex6 A) (option_map exact d) v.
Proof. destruct d; cbn; [reflexivity|]. unfold inv. f_equal. f_equal. apply exact_det. Qed.
Lemma exact_dot A B i j : exact (x_dot A B i j) = dot (ex6 A) (ex6 B) i j.
Proof. destruct i, j; reflexivity. Qed.
Lemma exact_ddot22 A B : exact (x_ddot22 A B) = ddot22 (ex6 A) (ex6 B).
Proof. unfold ddot22, sum6, ex6. cbn. ring. Qed.
Lemma exact_ddot44 A B v w : exact (x_ddot44 A B v w) = ddot44 (ex66 A) (ex66 B) v w.
Proof. unfold ddot44, sum6, ex66. cbn. ring. Qed.
Lemma exact_ddot42 A B v : exact (x_ddot42 A B v) = ddot42 (ex66 A) (ex6 B) v.
Proof. unfold ddot42, sum6, ex6, ex66. cbn. ring. Qed.
Lemma exact_ddot24 A B v : exact (x_ddot24 A B v) = ddot24 (ex6 A) (ex66 B) v.
Proof. unfold ddot24, sum6, ex6, ex66. cbn. ring. Qed.
Lemma exact_dya A B v w : exact (x_dya A B v w) = dya (ex6 A) (ex6 B) v w.
Proof. reflexivity. Qed.
Lemma exact_dev A v : exact (x_dev A v) = dev (ex6 A) v.
Proof. unfold dev, vsub, vscal, trace, ex6. cbn. field. Qed.
Lemma exact_cdya_ik A B i j k l : exact (x_cdya_ik A B i j k l) = cdya_ik (ex6 A) (ex6 B) i j k l.
Proof. reflexivity. Qed.
Lemma exact_cdya_il A B i j k l : exact (x_cdya_il A B i j k l) = cdya_il (ex6 A) (ex6 B) i j k l.
Proof. reflexivity. Qed.
Lemma exact_cdya s A B v w : exact (x_cdya s A B v w) = cdya_obj s (ex6 A) (ex6 B) v w.
Proof. unfold x_cdya, cdya_obj. destruct (ix6_leb v w), s; reflexivity. Qed.

(** ** ThirdOrderDeformation *)
Lemma exact_tod_gradient m I1 I2 I3 :
  tod_gradient m (exact I1) (exact I2) I3 =
  Ok (option_map exact (fst (x_tod_gradient m I1 I2)), option_map exact (snd (x_tod_gradient m I1 I2)), None).
Proof.
  unfold tod_gradient, x_tod_gradient.
  destruct (nonzero (C10 m)), (nonzero (C01 m)), (nonzero (C11 m)), (nonzero (C20 m)), (nonzero (C30 m));
  cbn; rewrite ?Rmult_1_r; reflexivity.
Qed.
Lemma exact_tod_hessian m I1 I2 I3 : forall v,
  tod_hessian m (exact I1) I2 I3 v =
  match v with V0 => option_map exact (fst (x_tod_hessian m I1)) | V3 => option_map exact (snd (x_tod_hessian m I1)) | _ => None end.
Proof.
  intro v. unfold tod_hessian, x_tod_hessian.
  destruct (nonzero (C11 m)), (nonzero (C20 m)), (nonzero (C30 m)), v; reflexivity.
Qed.
Definition mo (o : option expr) : R := match o with Some e => mag e | None => 0 end.
Definition po (o : option expr) : Prop := match o with Some e => poly e | None => True end.
Definition dp (o : option expr) : nat := match o with Some e => depth e | None => 0 end.

Lemma nz0 x : nonzero x = false -> Rabs x = 0.
Proof. intro H. apply nonzero_false in H. subst. apply Rabs_R0. Qed.
Ltac zeros := repeat match goal with H : nonzero _ = false |- _ => rewrite (nz0 _ H); clear H end.
Lemma mag_tod1 m I1 I2 : mo (fst (x_tod_gradient m I1 I2)) =
  Rabs (C10 m) + Rabs (C11 m) * (mag I2 + Rabs (undeformed m)) + Rabs (C20 m) * 2 * (mag I1 + Rabs (undeformed m))
  + Rabs (C30 m) * 3 * (mag I1 + Rabs (undeformed m)) ^ 2.
Proof.
  unfold x_tod_gradient.
  destruct (nonzero (C10 m)) eqn:E1, (nonzero (C01 m)) eqn:E2, (nonzero (C11 m)) eqn:E3, (nonzero (C20 m)) eqn:E4, (nonzero (C30 m)) eqn:E5;
  cbn; zeros; rewrite ?Rabs_R0, ?(Rabs_pos_eq 2), ?(Rabs_pos_eq 3) by lra; ring.
Qed.
Lemma mag_tod2 m I1 I2 : mo (snd (x_tod_gradient m I1 I2)) =
  Rabs (C01 m) + Rabs (C11 m) * (mag I1 + Rabs (undeformed m)).
Proof.
  unfold x_tod_gradient.
  destruct (nonzero (C10 m)) eqn:E1, (nonzero (C01 m)) eqn:E2, (nonzero (C11 m)) eqn:E3, (nonzero (C20 m)) eqn:E4, (nonzero (C30 m)) eqn:E5;
  cbn; zeros; rewrite ?Rabs_R0 by lra; ring.
Qed.
Lemma mag_tod11 m I1 : mo (fst (x_tod_hessian m I1)) =
  Rabs (C20 m) * 2 + Rabs (C30 m) * 6 * (mag I1 + Rabs (undeformed m)).
Proof.
  unfold x_tod_hessian. destruct (nonzero (C20 m)) eqn:E4, (nonzero (C30 m)) eqn:E5;
  cbn; zeros; rewrite ?Rabs_R0, ?(Rabs_pos_eq 2), ?(Rabs_pos_eq 6) by lra; ring.
Qed.
Lemma mag_tod12 m I1 : mo (snd (x_tod_hessian m I1)) = Rabs (C11 m).
Proof. unfold x_tod_hessian. destruct (nonzero (C11 m)) eqn:E; cbn; zeros; reflexivity. Qed.
Lemma poly_tod m I1 I2 : poly I1 -> poly I2 -> po (fst (x_tod_gradient m I1 I2)) /\ po (snd (x_tod_gradient m I1 I2)).
Proof.
  unfold x_tod_gradient.
  destruct (nonzero (C10 m)) eqn:E1, (nonzero (C01 m)) eqn:E2, (nonzero (C11 m)) eqn:E3, (nonzero (C20 m)) eqn:E4, (nonzero (C30 m)) eqn:E5;
  cbn; tauto.
Qed.
Lemma poly_todh m I1 : poly I1 -> po (fst (x_tod_hessian m I1)) /\ po (snd (x_tod_hessian m I1)).
Proof.
  unfold x_tod_hessian. destruct (nonzero (C11 m)) eqn:E3, (nonzero (C20 m)) eqn:E4, (nonzero (C30 m)) eqn:E5;
  cbn; tauto.
Qed.
Lemma depth_tod m I1 I2 : depth I1 = 5%nat -> depth I2 = 15%nat ->
  (dp (fst (x_tod_gradient m I1 I2)) <= 20 /\ dp (snd (x_tod_gradient m I1 I2)) <= 8)%nat.
Proof.
  intros H1 H2. unfold x_tod_gradient.
  destruct (nonzero (C10 m)) eqn:E1, (nonzero (C01 m)) eqn:E2, (nonzero (C11 m)) eqn:E3, (nonzero (C20 m)) eqn:E4, (nonzero (C30 m)) eqn:E5;
  cbn [fst snd x_iadd orb dp depth sq]; rewrite ?H1, ?H2; cbn; lia.
Qed.
Lemma depth_todh m I1 : depth I1 = 5%nat ->
  (dp (fst (x_tod_hessian m I1)) <= 9 /\ dp (snd (x_tod_hessian m I1)) <= 0)%nat.
Proof.
  intros H1. unfold x_tod_hessian.
  destruct (nonzero (C11 m)) eqn:E3, (nonzero (C20 m)) eqn:E4, (nonzero (C30 m)) eqn:E5;
  cbn [fst snd orb dp depth sq]; rewrite ?H1; cbn; lia.
Qed.

(** ** Deformation space.  [F] is an array of input numbers. *)
Section Def.
  Variables (m : TOD) (F : T2).
  Notation C := (x_right_CG (in33 F)).
  Lemma exact_C : ex6 C = right_CG F.
  Proof. apply Vec6_ext. intro v. unfold ex6, right_CG, asvoigt, sum3. cbn. ring. Qed.
  Lemma poly_C v : poly (C v). Proof. cbn. tauto. Qed.
  Lemma depth_C v : depth (C v) = 3%nat. Proof. reflexivity. Qed.
  Lemma mag_C v : mag (C v) = asvoigt (abs_C F) v.
  Proof. unfold asvoigt, abs_C, cauchy_green, mmul, mtr, sum3, abs2. cbn. ring. Qed.
  Lemma depth_I1 : depth (x_I1 C) = 5%nat. Proof. reflexivity. Qed.
  Lemma depth_I2 : depth (x_I2 C) = 15%nat. Proof. reflexivity. Qed.
  Lemma mag_I1 : mag (x_I1 C) = abs_I1 F.
  Proof. unfold x_I1, x_trace, abs_I1, tr2, sum3. cbn [mag fold_right]. rewrite !mag_C. unfold asvoigt. cbn [vi vj]. ring. Qed.
  Lemma abs_C_sym i j : abs_C F i j = abs_C F j i.
  Proof. unfold abs_C, cauchy_green, mmul, mtr, sum3. ring. Qed.
  Lemma mag_I2 : mag (x_I2 C) = abs_I2 F.
  Proof.
    unfold x_I2, sq, x_ddot22, abs_I2. cbn [mag exact]. rewrite mag_I1. cbn [map all6 fold_right mag weights].
    rewrite !mag_C, (Rabs_pos_eq 1), (Rabs_pos_eq 2) by lra. unfold asvoigt, dc22, sum3. cbn [vi vj].
    rewrite (abs_C_sym X1 X0), (abs_C_sym X2 X0), (abs_C_sym X2 X1). field.
  Qed.
  Lemma poly_I1 : poly (x_I1 C). Proof. cbn. tauto. Qed.
  Lemma poly_I2 : poly (x_I2 C). Proof. cbn. repeat split; lra. Qed.
  Lemma eye_delta v : eye v = delta (vi v) (vj v). Proof. destruct v; reflexivity. Qed.
  Lemma abs_eye v : Rabs (eye v) = eye v. Proof. destruct v; cbn; rewrite ?Rabs_R1, ?Rabs_R0; reflexivity. Qed.
  Lemma mag_dI2 v : mag (x_dI2dC C v) = asvoigt (abs_dI2 F) v.
  Proof.
    unfold x_dI2dC, asvoigt, abs_dI2. cbn [mag]. rewrite mag_I1, mag_C. cbn [mag x_eye]. rewrite abs_eye, eye_delta. reflexivity.
  Qed.
  Lemma mag_dWdC v : mag (x_dWdC m C v) =
    abs_W1 m F * eye v + abs_W2 m F * asvoigt (abs_dI2 F) v.
  Proof.
    unfold x_dWdC, abs_W1, abs_W2. rewrite <- mag_I1, <- mag_I2, <- mag_tod1, <- (mag_tod2 m (x_I1 C) (x_I2 C)), <- mag_dI2.
    destruct (x_tod_gradient m (x_I1 C) (x_I2 C)) as [[w1|] [w2|]]; cbn [mo fst snd mag x_eye]; rewrite ?abs_eye, ?Rabs_R0; ring.
  Qed.
  Lemma mag_S v : mag (x_S m (in33 F) v) = asvoigt (abs_S m F) v.
  Proof.
    unfold x_S. cbn [mag]. rewrite mag_dWdC, (Rabs_pos_eq 2) by lra. unfold asvoigt, abs_S. rewrite eye_delta. reflexivity.
  Qed.
  Lemma abs_S_sym i j : abs_S m F i j = abs_S m F j i.
  Proof. unfold abs_S, abs_dI2. rewrite (abs_C_sym i j). destruct i, j; reflexivity. Qed.
  Lemma voigt_sym (A : T2) i j : (forall i j, A i j = A j i) -> asvoigt A (vix i j) = A i j.
  Proof. intro H. unfold asvoigt. destruct i, j; cbn [vix vi vj]; try reflexivity; apply H. Qed.
  Lemma mag_P i j : mag (x_force (in33 F) (x_astensor (x_S m (in33 F))) i j) = abs_P m F i j.
  Proof.
    unfold x_force, abs_P, mmul, sum3. cbn [map all3 mag fold_right in33]. unfold x_astensor. rewrite !mag_S, !voigt_sym by apply abs_S_sym.
    unfold abs2. ring.
  Qed.
  Lemma poly_dWdC v : poly (x_dWdC m C v).
  Proof.
    unfold x_dWdC. destruct (poly_tod m (x_I1 C) (x_I2 C) poly_I1 poly_I2) as [H1 H2].
    pose proof poly_I1. pose proof (poly_C v).
    destruct (x_tod_gradient m (x_I1 C) (x_I2 C)) as [[w1|] [w2|]]; cbn [po fst snd] in *; unfold x_dI2dC, x_eye; cbn [poly]; tauto.
  Qed.
  Lemma depth_dWdC v : (depth (x_dWdC m C v) <= 23)%nat.
  Proof.
    unfold x_dWdC. destruct (depth_tod m (x_I1 C) (x_I2 C) depth_I1 depth_I2) as [H1 H2].
    assert (HD : depth (x_dI2dC C v) = 7%nat) by reflexivity.
    destruct (x_tod_gradient m (x_I1 C) (x_I2 C)) as [[w1|] [w2|]]; cbn [dp fst snd] in *; cbn [depth x_eye] in *; rewrite ?HD; lia.
  Qed.
  Lemma poly_S v : poly (x_S m (in33 F) v). Proof. split; [exact Logic.I|apply poly_dWdC]. Qed.
  Lemma depth_S v : (depth (x_S m (in33 F) v) <= 24)%nat.
  Proof. unfold x_S. cbn [depth]. pose proof (depth_dWdC v). lia. Qed.
  Lemma poly_P i j : poly (x_force (in33 F) (x_astensor (x_S m (in33 F))) i j).
  Proof. unfold x_force, x_astensor. cbn [map all3 poly fold_right]. repeat split; apply poly_S. Qed.
  Lemma depth_P i j : (depth (x_force (in33 F) (x_astensor (x_S m (in33 F))) i j) <= 27)%nat.
  Proof.
    unfold x_force, x_astensor. cbn [map all3 depth fold_right in33 length].
    pose proof (depth_S (vix X0 j)). pose proof (depth_S (vix X1 j)). pose proof (depth_S (vix X2 j)). lia.
  Qed.
  (** ** Exact values: what the exact model returns *)
  Notation g_ := (option_map exact (fst (x_tod_gradient m (x_I1 C) (x_I2 C))), option_map exact (snd (x_tod_gradient m (x_I1 C) (x_I2 C))), @None R).
  Lemma EI1 : Jv (right_CG F) X0 = exact (x_I1 C).
  Proof. unfold x_I1. rewrite exact_trace, exact_C. reflexivity. Qed.
  Lemma EI2 : Jv (right_CG F) X1 = exact (x_I2 C).
  Proof. unfold x_I2, x_I1; cbn [exact sq]; rewrite exact_trace, exact_ddot22, exact_C; cbn [Jv]. cbn [pow]. rewrite Rmult_1_r. reflexivity. Qed.
  Lemma EdI2 v : dJv (right_CG F) X1 v = exact (x_dI2dC C v).
  Proof. unfold x_dI2dC, x_I1. cbn [exact x_eye]. rewrite exact_trace. change (exact (C v)) with (ex6 C v). rewrite exact_C. reflexivity. Qed.
  Lemma tod_call_exact (SV : Type) (sv : SV) : inv_call (tod_model m) (Jv (right_CG F)) sv = Ok (g_, sv).
  Proof. unfold inv_call. cbn [im_gradient tod_model]. rewrite EI1, EI2, exact_tod_gradient. reflexivity. Qed.
  Lemma exact_dWdC : gradv (right_CG F) g_ = ex6 (x_dWdC m C).
  Proof.
    apply Vec6_ext. intro v. unfold gradv, sum3, ex6, x_dWdC. rewrite EdI2.
    destruct (x_tod_gradient m (x_I1 C) (x_I2 C)) as [[w1|] [w2|]]; cbn [option_map o3 fst snd val dJv exact x_eye]; ring.
  Qed.
  Notation h_ := (fun v => match v with V0 => option_map exact (fst (x_tod_hessian m (x_I1 C))) | V3 => option_map exact (snd (x_tod_hessian m (x_I1 C))) | _ => @None R end).
  Lemma exact_d2WdCdC : hessv (right_CG F) g_ h_ = ex66 (x_d2WdCdC m C).
  Proof.
    apply Mat6_ext. intros v w. unfold hessv, sum3, ex66, x_d2WdCdC. cbn [pos].
    change (d2Jv (right_CG F) X1 v w) with (eye v * eye w - cdya1 eye v w).
    assert (E : exact (x_cdya true x_eye x_eye v w) = cdya1 eye v w) by apply exact_cdya.
    unfold dya. rewrite !EdI2. unfold cdya1 in *.
    destruct (x_tod_gradient m (x_I1 C) (x_I2 C)) as [[w1|] [w2|]], (x_tod_hessian m (x_I1 C)) as [[w11|] [w12|]];
    cbn [option_map o3 fst snd val dJv d2Jv exact x_eye x_dya]; rewrite ?E; unfold mzero; ring.
  Qed.
  Lemma tod_hess_exact (SV : Type) (sv : SV) : inv_callh (tod_model m) (Jv (right_CG F)) sv = Ok h_.
  Proof.
    unfold inv_callh. cbn [im_hessian tod_model]. f_equal. apply functional_extensionality. intro v.
    rewrite EI1. rewrite exact_tod_hessian. destruct v; reflexivity.
  Qed.
  Lemma stress_exact (SV : Type) (sv : SV) f a s :
    outcome (def_gradient (invariants_fw (tod_model m)) {| finalize := true; force := f; area := a |} F sv) s =
    Ok (StressFull (ex33 (x_stress f a m (in33 F))), sv).
  Proof.
    pose proof (sp_gradient_ok (invariants_fw (tod_model m)) {| finalize := true; force := f; area := a |} KDeformation F sv s) as H.
    cbn [sp_gradient seen] in H. unfold outcome in H at 1. cbn [fw_gradient invariants_fw] in H.
    rewrite (inv_gradient_ok _ _ _ _ _ (sp_mat s) (tod_call_exact SV sv)) in H. rewrite (H _ _ eq_refl). clear H.
    f_equal. f_equal. rewrite exact_dWdC. unfold kS. unfold piola_stress. cbn [finalize force area].
    apply (f_equal StressFull). apply T2_ext. intros i j.
    assert (D : exact (x_det C) = det (right_CG F)) by (rewrite exact_det, exact_C; reflexivity).
    unfold ex33, x_stress. destruct f, a; cbn [kdetF exact]; rewrite ?D; [f_equal| |f_equal|];
    unfold es_area, es_force, sum3, x_area, x_force; cbn [map all3 exact fold_right in33];
    unfold x_astensor, astensor, vscal, ex6; cbn [exact x_S]; ring.
  Qed.
  Lemma elast_exact (SV : Type) (sv : SV) s :
    outcome (def_hessian (invariants_fw (tod_model m)) default_opts F sv) s =
    Ok (ElastFull (fun i J k L => exact (x_elasticity m (in33 F) i J k L))).
  Proof.
    pose proof (sp_hessian_ok (invariants_fw (tod_model m)) default_opts KDeformation F sv s) as H.
    cbn [sp_hessian seen] in H. cbn [fw_gradient fw_hessian invariants_fw] in H.
    rewrite (H _ _ _ (inv_gradient_ok _ _ _ _ _ (sp_mat s) (tod_call_exact SV sv))). clear H.
    unfold outcome at 1. rewrite (inv_hessian_eq _ _ _ _ _ _ _ (tod_call_exact SV sv) (tod_hess_exact SV sv)).
    assert (E : hess_exn g_ h_ = None).
    { pose proof (tod_none (SV := SV) m (Jv (right_CG F)) sv _ _ _ (tod_call_exact SV sv) (tod_hess_exact SV sv)) as N. 
      unfold hess_exn. cbn [o3 fst snd].
      pose proof (N X0 X0) as N0. pose proof (N X0 X1) as N1. cbn [pos o3 fst snd] in N0, N1.
      destruct (option_map exact (fst (x_tod_gradient m (x_I1 C) (x_I2 C)))), (option_map exact (snd (x_tod_gradient m (x_I1 C) (x_I2 C)))),
        (option_map exact (fst (x_tod_hessian m (x_I1 C)))), (option_map exact (snd (x_tod_hessian m (x_I1 C)))); cbn [isN negb andb]; try reflexivity;
      exfalso; first [destruct N0 as [N0 N0']; congruence | destruct N1 as [N1 N1']; congruence]. }
    rewrite E. cbn [isN snd]. unfold outcome. cbn [snd]. f_equal.
    rewrite exact_d2WdCdC, exact_dWdC. unfold kS, kC4, kdetF, kinvC. unfold piola_elast. cbn [default_opts finalize force area].
    apply (f_equal ElastFull). apply T4_ext. intros i J k L.
    unfold t4add, es4_force, sum3, x_elasticity. cbn [exact]. rewrite exact_cdya_ik. f_equal.
    unfold x_force4. cbn [flat_map map all3 app exact fold_right in33].
    unfold x_astensor4, astensor4, mscal6, ex66. cbn [exact]. ring.
  Qed.
  (** ** Elasticity tensor *)
  Lemma mag_H v w : mag (x_d2WdCdC m C v w) = abs_H m F (vi v) (vj v) (vi w) (vj w).
  Proof.
    assert (E : mag (x_cdya true x_eye x_eye v w) = (delta (vi v) (vi w) * delta (vj v) (vj w) + delta (vi v) (vj w) * delta (vj v) (vi w)) / 2).
    { destruct v, w; cbn -[Rabs delta]; unfold delta; cbn -[Rabs]; rewrite ?Rabs_R0, ?Rabs_R1, ?(Rabs_pos_eq 2) by lra; field. }
    unfold x_d2WdCdC, abs_H, abs_W2, abs_W11. rewrite <- mag_I1, <- (mag_tod2 m (x_I1 C) (x_I2 C)), <- mag_tod11, <- (mag_tod12 m (x_I1 C)).
    change (abs_dI2 F (vi v) (vj v)) with (asvoigt (abs_dI2 F) v). change (abs_dI2 F (vi w) (vj w)) with (asvoigt (abs_dI2 F) w).
    rewrite <- !mag_dI2, <- !eye_delta.
    destruct (x_tod_gradient m (x_I1 C) (x_I2 C)) as [[w1|] [w2|]], (x_tod_hessian m (x_I1 C)) as [[w11|] [w12|]];
    cbn [mo fst snd mag x_eye x_dya]; rewrite ?E, ?abs_eye, ?Rabs_R0; ring.
  Qed.
  Lemma abs_H_minor i j k l : abs_H m F i j k l = abs_H m F j i k l /\ abs_H m F i j k l = abs_H m F i j l k.
  Proof.
    unfold abs_H, abs_dI2. rewrite (abs_C_sym i j), (abs_C_sym k l). 
    assert (D : forall a b, delta a b = delta b a) by (intros [] []; reflexivity).
    rewrite (D j i), (D l k). split; field.
  Qed.
  Lemma vivj_vix (A : T2) i j : (forall i j, A i j = A j i) -> A (vi (vix i j)) (vj (vix i j)) = A i j.
  Proof. intro H. apply (voigt_sym A i j H). Qed.
  Lemma mag_A i J k L : mag (x_elasticity m (in33 F) i J k L) = abs_A m F i J k L.
  Proof.
    assert (HH : forall I J K L, mag (x_d2WdCdC m C (vix I J) (vix K L)) = abs_H m F I J K L).
    { intros. rewrite mag_H.
      rewrite (vivj_vix (fun a b => abs_H m F a b (vi (vix K L0)) (vj (vix K L0)))) by (intros; apply abs_H_minor).
      apply (vivj_vix (fun a b => abs_H m F I J0 a b)). intros. apply abs_H_minor. }
    unfold x_elasticity, abs_A. cbn [mag]. f_equal.
    - unfold x_force4, sum3. cbn [flat_map map all3 app mag fold_right in33]. unfold x_astensor4. cbn [mag]. rewrite !HH.
      rewrite (Rabs_pos_eq 4) by lra. ring.
    - unfold x_cdya_ik, x_astensor4, x_dya. cbn [mag x_eye]. rewrite abs_eye, mag_S, voigt_sym by apply abs_S_sym.
      f_equal. rewrite eye_delta. destruct i, k; reflexivity.
  Qed.
  Lemma poly_H v w : poly (x_d2WdCdC m C v w).
  Proof.
    unfold x_d2WdCdC. destruct (poly_tod m (x_I1 C) (x_I2 C) poly_I1 poly_I2) as [H1 H2].
    destruct (poly_todh m (x_I1 C) poly_I1) as [H3 H4].
    assert (E : poly (x_cdya true x_eye x_eye v w)) by (destruct v, w; cbn; repeat split; lra).
    pose proof poly_I1. pose proof (poly_C v). pose proof (poly_C w).
    destruct (x_tod_gradient m (x_I1 C) (x_I2 C)) as [[w1|] [w2|]], (x_tod_hessian m (x_I1 C)) as [[w11|] [w12|]];
    cbn [po fst snd] in *; unfold x_dya, x_dI2dC; cbn [poly]; unfold x_eye in *; cbn [poly]; tauto.
  Qed.
  Lemma depth_H v w : (depth (x_d2WdCdC m C v w) <= 16)%nat.
  Proof.
    unfold x_d2WdCdC. destruct (depth_tod m (x_I1 C) (x_I2 C) depth_I1 depth_I2) as [H1 H2].
    destruct (depth_todh m (x_I1 C) depth_I1) as [H3 H4].
    assert (E : depth (x_cdya true x_eye x_eye v w) = 3%nat) by (destruct v, w; reflexivity).
    assert (HD : forall v, depth (x_dI2dC C v) = 7%nat) by reflexivity.
    destruct (x_tod_gradient m (x_I1 C) (x_I2 C)) as [[w1|] [w2|]], (x_tod_hessian m (x_I1 C)) as [[w11|] [w12|]];
    cbn [dp fst snd] in *; cbn [depth x_eye x_dya]; rewrite ?E, ?HD; lia.
  Qed.
  Lemma poly_A i J k L : poly (x_elasticity m (in33 F) i J k L).
  Proof.
    unfold x_elasticity, x_force4, x_cdya_ik, x_astensor4, x_dya. cbn [flat_map map all3 app poly fold_right in33 x_eye].
    repeat split; try exact Logic.I; try apply poly_H; try apply poly_S; unfold x_eye; exact Logic.I.
  Qed.
  Lemma depth_A i J k L : (depth (x_elasticity m (in33 F) i J k L) <= 28)%nat.
  Proof.
    unfold x_elasticity, x_force4, x_cdya_ik, x_astensor4, x_dya. cbn [flat_map map all3 app depth fold_right in33 x_eye length].
    pose proof (depth_S (vix J L)).
    pose proof (fun I K => depth_H (vix I J) (vix K L)) as D.
    pose proof (D X0 X0). pose proof (D X0 X1). pose proof (D X0 X2). pose proof (D X1 X0). pose proof (D X1 X1). pose proof (D X1 X2).
    pose proof (D X2 X0). pose proof (D X2 X1). pose proof (D X2 X2). lia.
  Qed.
End Def.

Section Cauchy.
  Variables (m : TOD) (F : T2).
  Notation C := (x_right_CG (in33 F)).
  Lemma poly_detC : poly (x_det C). Proof. cbn. repeat split. Qed.
  Lemma depth_detC : depth (x_det C) = 16%nat. Proof. reflexivity. Qed.
  Lemma mag_detC : mag (x_det C) = abs_det (abs_C F).
  Proof.
    unfold x_det, sq, abs_det. cbn [mag]. rewrite !(mag_C F), (Rabs_pos_eq 2) by lra. unfold asvoigt. cbn [vi vj].
    assert (P : forall i j, Rabs (abs_C F i j) = abs_C F i j).
    { intros. apply Rabs_pos_eq. unfold abs_C, cauchy_green, mmul, mtr, sum3, abs2.
      repeat apply Rplus_le_le_0_compat; apply Rmult_le_pos; apply Rabs_pos. }
    rewrite !P. ring.
  Qed.
  Notation tau := (x_area (in33 F) (x_force (in33 F) (x_astensor (x_S m (in33 F))))).
  Lemma poly_tau i j : poly (tau i j).
  Proof.
    exact (conj (conj Logic.I (poly_P m F i X0)) (conj (conj Logic.I (poly_P m F i X1)) (conj (conj Logic.I (poly_P m F i X2)) Logic.I))).
  Qed.
  Lemma depth_tau i j : (depth (tau i j) <= 30)%nat.
  Proof.
    unfold x_area. cbn [map all3 depth fold_right in33 length].
    pose proof (depth_P m F i X0). pose proof (depth_P m F i X1). pose proof (depth_P m F i X2). lia.
  Qed.
  Lemma mag_tau i j : mag (tau i j) = abs_tau m F i j.
  Proof.
    unfold x_area, abs_tau, mmul at 1, sum3, mtr. cbn [map all3 mag fold_right in33]. rewrite !mag_P. unfold abs2. ring.
  Qed.
End Cauchy.
