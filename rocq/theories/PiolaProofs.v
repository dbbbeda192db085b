(** Push-forwards and frame indifference (C24, C27, C28). *)
From Coq Require Import Reals Lra FunctionalExtensionality.
From Verif Require Import Tensor Py Voigt VoigtProofs Algebra Models Frameworks Spaces Spec SpaceCore.
Local Open Scope R_scope.

Lemma right_CG_cauchy F : right_CG F = asvoigt (cauchy_green F).
Proof. reflexivity. Qed.
Lemma cauchy_green_rot Q F : orthogonal Q -> cauchy_green (mmul Q F) = cauchy_green F.
Proof.
  intro H. unfold cauchy_green. rewrite mtr_mmul, mmul_assoc, <- (mmul_assoc (mtr Q)), (proj1 (orthogonal_eq Q) H), mmul_1_l. reflexivity.
Qed.
Lemma right_CG_rot Q F : orthogonal Q -> right_CG (mmul Q F) = right_CG F.
Proof. intro H. rewrite !right_CG_cauchy, cauchy_green_rot; auto. Qed.
Lemma det_right_CG F : det (right_CG F) = det3 F ^ 2.
Proof. apply det_cauchy_green. Qed.
Lemma right_CG_full F : astensor (right_CG F) = cauchy_green F.
Proof. rewrite right_CG_cauchy. apply astensor_asvoigt_f, cauchy_green_sym. Qed.

Lemma mtr_one : mtr one2 = one2.
Proof. apply T2_ext; intros i j; destruct i, j; reflexivity. Qed.
Lemma es_force_mmul F S : es_force F S = mmul F S.
Proof. reflexivity. Qed.
Lemma es_area_mmul F S : es_area F S = mmul S (mtr F).
Proof. apply T2_ext; intros; unfold es_area, mmul, mtr, sum3; ring. Qed.

(** Full push-forward written out: every configuration. *)
Definition detJ (F : T2) (detF : option R) : R := match detF with Some d => d | None => sqrt (det (right_CG F)) end.
Definition pf_stress (o : SpaceOpts) (F S : T2) (d : R) : T2 :=
  let s := mmul (mmul (leg (force o) F) S) (mtr (leg (area o) F)) in
  match area o with Deformed => fun i j => s i j / d | Undeformed => s end.
Lemma piola_stress_eq o F S d : finalize o = true ->
  piola_stress o F S d = StressFull (pf_stress o F (astensor S) (detJ F d)).
Proof.
  intro H. unfold piola_stress, pf_stress. rewrite H. f_equal.
  destruct (force o), (area o), d; cbn [leg detJ]; rewrite ?es_area_mmul, ?es_force_mmul, ?mmul_1_l;
  try (rewrite mtr_one; rewrite ?mmul_1_r); auto;
  apply T2_ext; intros; unfold mmul, mtr, one2, delta, sum3; destruct j; cbn; ring.
Qed.
Definition legs4 (A B : T2) (E : T4) : T4 := fun i j k l =>
  sum3 (fun I => sum3 (fun J => sum3 (fun K => sum3 (fun L => A i I * B j J * A k K * B l L * E I J K L)))).
Definition legs13 (A : T2) (E : T4) : T4 := fun i j k l => sum3 (fun I => sum3 (fun K => A i I * A k K * E I j K l)).
Definition legs24 (B : T2) (E : T4) : T4 := fun i j k l => sum3 (fun J => sum3 (fun L => B j J * B l L * E i J k L)).
Lemma legs4_split A B E : legs4 A B E = legs13 A (legs24 B E).
Proof. apply T4_ext; intros; unfold legs4, legs13, legs24, sum3; ring. Qed.
Lemma legs_comm A B E : legs13 A (legs24 B E) = legs24 B (legs13 A E).
Proof. apply T4_ext; intros; unfold legs13, legs24, sum3; ring. Qed.
Lemma legs13_one E : legs13 one2 E = E.
Proof. apply T4_ext; intros i j k l; destruct i, k; unfold legs13, sum3, one2, delta; cbn; ring. Qed.
Lemma legs24_one E : legs24 one2 E = E.
Proof. apply T4_ext; intros i j k l; destruct j, l; unfold legs24, sum3, one2, delta; cbn; ring. Qed.
Lemma legs13_mul A B E : legs13 (mmul A B) E = legs13 A (legs13 B E).
Proof. apply T4_ext; intros; unfold legs13, mmul, sum3; ring. Qed.
Lemma legs24_mul A B E : legs24 (mmul A B) E = legs24 A (legs24 B E).
Proof. apply T4_ext; intros; unfold legs24, mmul, sum3; ring. Qed.
Lemma legs13_add A E G : legs13 A (t4add E G) = t4add (legs13 A E) (legs13 A G).
Proof. apply T4_ext; intros; unfold legs13, t4add, sum3; ring. Qed.
Lemma legs24_add A E G : legs24 A (t4add E G) = t4add (legs24 A E) (legs24 A G).
Proof. apply T4_ext; intros; unfold legs24, t4add, sum3; ring. Qed.
Lemma legs13_scal A E d i j k l : legs13 A (fun i j k l => E i j k l / d) i j k l = legs13 A E i j k l / d.
Proof. unfold legs13, sum3, Rdiv; ring. Qed.
Lemma legs24_scal A E d i j k l : legs24 A (fun i j k l => E i j k l / d) i j k l = legs24 A E i j k l / d.
Proof. unfold legs24, sum3, Rdiv; ring. Qed.

(** geometric term of the reference configuration: C^-1_IK S_JL *)
Definition geo (B S : T2) : T4 := fun i j k l => B i k * S j l.
Lemma cdya_ik_geo a b : cdya_ik a b = geo (astensor a) (astensor b).
Proof. apply T4_ext; intros; apply cdya_ik_full. Qed.
Lemma legs13_geo A B S : legs13 A (geo B S) = geo (mmul (mmul A B) (mtr A)) S.
Proof. apply T4_ext; intros; unfold legs13, geo, mmul, mtr, sum3; ring. Qed.
Lemma legs24_geo A B S : legs24 A (geo B S) = geo B (mmul (mmul A S) (mtr A)).
Proof. apply T4_ext; intros; unfold legs24, geo, mmul, mtr, sum3; ring. Qed.
Lemma astensor_eye : astensor eye = one2.
Proof. apply T2_ext; intros; apply eye_full. Qed.

Definition invCG (F : T2) (invC : option Vec6) : T2 :=
  astensor (match invC with Some x => x | None => inv (right_CG F) (Some (det (right_CG F))) end).
Definition pf_elast (o : SpaceOpts) (F : T2) (B S : T2) (E : T4) (d : R) : T4 :=
  let e := match force o with
           | Deformed => t4add (legs13 F E) (geo one2 S)
           | Undeformed => t4add E (geo B S) end in
  match area o with Deformed => fun i j k l => legs24 F e i j k l / d | Undeformed => e end.
Lemma piola_elast_eq o F S d C4 ic : finalize o = true ->
  piola_elast o F S d C4 ic = ElastFull (pf_elast o F (invCG F ic) (astensor S) (astensor4 C4) (detJ F d)).
Proof.
  intro H. unfold piola_elast, pf_elast, invCG. rewrite H.
  destruct (force o), (area o), d, ic; cbn [detJ]; f_equal; rewrite ?cdya_ik_geo, ?astensor_eye; reflexivity.
Qed.

(** *** Frame indifference *)
Lemma piola_stress_rot o Q F S d : orthogonal Q ->
  piola_stress o (mmul Q F) S d = rot_stress o Q (piola_stress o F S d).
Proof.
  intro HQ. destruct (finalize o) eqn:Ef.
  - rewrite !piola_stress_eq by auto. cbn [rot_stress]. f_equal.
    unfold pf_stress, detJ. rewrite right_CG_rot by auto.
    set (D := match d with Some _ => _ | None => _ end). clearbody D.
    destruct (force o), (area o); cbn [leg]; apply T2_ext; intros i j.
    + unfold mmul, mtr, sum3, Rdiv; ring.
    + rewrite mtr_one. rewrite !mmul_1_r. rewrite mmul_assoc. reflexivity.
    + rewrite !mmul_1_l. unfold mmul, mtr, sum3, Rdiv; ring.
    + rewrite mtr_one. rewrite !mmul_1_r, !mmul_1_l. reflexivity.
  - unfold piola_stress, rot_stress. rewrite Ef. reflexivity.
Qed.
Lemma rot_elast_legs o Q A : rot_elast o Q (ElastFull A) = ElastFull (legs13 (leg (force o) Q) (legs24 (leg (area o) Q) A)).
Proof. rewrite <- legs4_split. reflexivity. Qed.
Lemma piola_elast_rot o Q F S d C4 ic : orthogonal Q ->
  piola_elast o (mmul Q F) S d C4 ic = rot_elast o Q (piola_elast o F S d C4 ic).
Proof.
  intro HQ. destruct (finalize o) eqn:Ef.
  - rewrite !piola_elast_eq by auto. rewrite rot_elast_legs. f_equal.
    unfold pf_elast, invCG, detJ. rewrite right_CG_rot by auto.
    set (D := match d with Some _ => _ | None => _ end). clearbody D.
    set (B := astensor (match ic with Some _ => _ | None => _ end)). clearbody B.
    assert (G : forall S', legs13 Q (geo one2 S') = geo one2 S').
    { intro S'. rewrite legs13_geo, mmul_1_r, (orthogonal_right Q HQ). reflexivity. }
    destruct (force o), (area o); cbn [leg].
    + rewrite legs_comm. apply T4_ext; intros i j k l.
      replace (legs13 Q (fun i j k l => legs24 F (t4add (legs13 F (astensor4 C4)) (geo one2 (astensor S))) i j k l / D))
        with (fun i j k l => legs13 Q (legs24 F (t4add (legs13 F (astensor4 C4)) (geo one2 (astensor S)))) i j k l / D)
        by (apply T4_ext; intros; rewrite legs13_scal; reflexivity).
      rewrite legs24_scal. f_equal. rewrite legs_comm, legs13_add, G, legs13_mul, legs24_mul. reflexivity.
    + rewrite legs24_one, legs13_add, G, legs13_mul. reflexivity.
    + rewrite legs13_one. apply T4_ext; intros i j k l. rewrite legs24_scal, legs24_mul. reflexivity.
    + rewrite legs13_one, legs24_one. reflexivity.
  - unfold piola_elast, rot_elast. rewrite Ef. reflexivity.
Qed.

Section Fw.
  Context {SV : Type} (fw : Framework SV) (o : SpaceOpts).
  Lemma frame_indifference k Q F sv s : orthogonal Q ->
    outcome (sp_gradient k fw o (mmul Q F) sv) s =
      rmap (fun r => (rot_stress o Q (fst r), snd r)) (outcome (sp_gradient k fw o F sv) s) /\
    outcome (sp_hessian k fw o (mmul Q F) sv) s = rmap (rot_elast o Q) (outcome (sp_hessian k fw o F sv) s).
  Proof.
    intro HQ. assert (EC := right_CG_rot Q F HQ).
    destruct (fw_gradient fw (seen k (right_CG F)) sv (sp_mat s)) as [ms [[g svn]|e]] eqn:E; assert (E' := E); rewrite <- EC in E'.
    - assert (E1 : outcome (fw_gradient fw (seen k (right_CG F)) sv) (sp_mat s) = Ok (g, svn)) by (unfold outcome; rewrite E; reflexivity).
      assert (E1' := E1). rewrite <- EC in E1'.
      rewrite (sp_gradient_ok fw o _ _ _ _ _ _ E1), (sp_gradient_ok fw o _ _ _ _ _ _ E1').
      rewrite (sp_hessian_ok fw o _ _ _ _ _ _ _ E), (sp_hessian_ok fw o _ _ _ _ _ _ _ E').
      rewrite EC. split.
      + cbn [rmap fst snd]. rewrite piola_stress_rot; auto.
      + destruct (outcome (fw_hessian fw (seen k (right_CG F)) sv) ms) as [H|e]; [|reflexivity].
        cbn [rmap]. rewrite piola_elast_rot; auto.
    - assert (E1 : outcome (fw_gradient fw (seen k (right_CG F)) sv) (sp_mat s) = Raise e) by (unfold outcome; rewrite E; reflexivity).
      assert (E1' := E1). rewrite <- EC in E1'.
      rewrite (sp_gradient_raise fw o _ _ _ _ _ E1), (sp_gradient_raise fw o _ _ _ _ _ E1').
      rewrite (sp_hessian_graise fw o _ _ _ _ _ E1), (sp_hessian_graise fw o _ _ _ _ _ E1'). split; reflexivity.
  Qed.
End Fw.

(** *** The four configurations *)
Lemma sqrt_det_CG F : sqrt (det (right_CG F)) = Rabs (det3 F).
Proof. rewrite det_right_CG. replace (det3 F ^ 2) with (Rsqr (det3 F)) by (unfold Rsqr; ring). apply sqrt_Rsqr_abs. Qed.
Lemma detJ_none F : detJ F None = Rabs (det3 F).
Proof. apply sqrt_det_CG. Qed.
Lemma invCG_none F : det3 F <> 0 -> invCG F None = inv3 (cauchy_green F).
Proof.
  intro N. unfold invCG. change (inv (right_CG F) (Some (det (right_CG F)))) with (inv (right_CG F) None).
  rewrite astensor_inv. rewrite right_CG_full; auto. rewrite det_right_CG. apply pow_nonzero; auto.
Qed.
Lemma push_inv F : det3 F <> 0 -> mmul (mmul F (inv3 (cauchy_green F))) (mtr F) = one2.
Proof.
  intro N. assert (Nt : det3 (mtr F) <> 0) by (rewrite det3_mtr; auto).
  assert (E : inv3 (cauchy_green F) = mmul (inv3 F) (inv3 (mtr F))).
  { apply inverse_unique with (cauchy_green F).
    - apply inv3_r. unfold cauchy_green. rewrite det3_mmul. apply Rmult_integral_contrapositive; split; auto.
    - unfold cauchy_green. rewrite mmul_assoc, <- (mmul_assoc F), (inv3_r F N), mmul_1_l. apply inv3_r; auto. }
  rewrite E, <- mmul_assoc, (inv3_r F N), mmul_1_l. apply inv3_l; auto.
Qed.
