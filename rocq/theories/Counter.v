(** Small material tangents (C31, C34) and the Dilatational space (C33). *)
From Coq Require Import Reals Lra FunctionalExtensionality List Bool.
From Coquelicot Require Import Coquelicot.
From Verif Require Import Tensor Py Voigt VoigtProofs Algebra Calc Models Frameworks Spaces Spec VCalc ModelProofs GenProofs
  InvCore InvProofs IsoProofs SpaceCore PiolaProofs SpaceProofs DistProofs SpaceMore SpecialProofs.
Local Open Scope R_scope.

(** *** np.allclose(A, 0) *)
Lemma isclose0_true x : Rabs x <= / 10 ^ 8 -> isclose x 0 = true.
Proof.
  intro H. unfold isclose. destruct (Rle_dec _ _) as [|n]; auto. exfalso; apply n.
  rewrite Rminus_0_r, Rabs_R0. unfold np_atol. lra.
Qed.
Lemma isclose0_false x : / 10 ^ 8 < Rabs x -> isclose x 0 = false.
Proof.
  intro H. unfold isclose. destruct (Rle_dec _ _) as [n|]; auto. exfalso.
  rewrite Rminus_0_r, Rabs_R0 in n. unfold np_atol in n. lra.
Qed.
Lemma allclose_true A : (forall v w, Rabs (A v w) <= / 10 ^ 8) -> allclose0 A = true.
Proof. intro H. unfold allclose0. rewrite !isclose0_true by apply H. reflexivity. Qed.
Lemma allclose_false A v w : / 10 ^ 8 < Rabs (A v w) -> allclose0 A = false.
Proof.
  intro H. apply isclose0_false in H. unfold allclose0.
  destruct v, w; rewrite H; rewrite ?andb_false_r, ?andb_false_l; auto.
Qed.
Lemma significant_of {SV} (fw : Framework SV) F : significant_at fw F ->
  forall sv s, significant fw KDistortional (asvoigt (cauchy_green F)) sv s.
Proof.
  intros S sv s H E. destruct (S sv s H) as [Z|(v & w & L)].
  - rewrite <- E. f_equal. f_equal. rewrite <- (asvoigt_astensor_f (seen KDistortional (asvoigt (cauchy_green F)))).
    rewrite dist_part. f_equal. f_equal. apply T2_ext; intros i j. symmetry. apply astensor_asvoigt. apply cauchy_green_sym.
  - right; exact Z.
  - left. apply allclose_false with v w. unfold mscal6. rewrite det_astensor, astensor_asvoigt_f by apply cauchy_green_sym. exact L.
Qed.

(** *** Frameworks given by functions [Gf], [Hf] *)
Definition plain {SV} (fw : Framework SV) (Gf : Vec6 -> Vec6) (Hf : Vec6 -> Mat6) : Prop := forall c sv s,
  outcome (fw_gradient fw c sv) s = Ok (Gf c, sv) /\ outcome (fw_hessian fw c sv) s = Ok (Hf c).
Section Plain.
  Context {SV : Type} (fw : Framework SV) (Gf : Vec6 -> Vec6) (Hf : Vec6 -> Mat6) (HP : plain fw Gf Hf) (sv : SV) (s : SpaceSelf (fw_self fw)).
  Notation Gk k F := (Gf (seen k (right_CG F))).
  Notation Sk k F := (kS k (right_CG F) (Gk k F)).
  Notation Ck k F := (kC4 k (right_CG F) (Gk k F) (Hf (seen k (right_CG F)))).
  Lemma plain_grad k o F : outcome (sp_gradient k fw o F sv) s = Ok (piola_stress o F (Sk k F) (kdetF k (right_CG F)), sv).
  Proof. apply sp_gradient_ok. apply HP. Qed.
  Lemma plain_hess k o F : outcome (sp_hessian k fw o F sv) s =
    Ok (piola_elast o F (Sk k F) (kdetF k (right_CG F)) (Ck k F) (kinvC k (right_CG F))).
  Proof.
    destruct (outcome_pair _ _ _ (proj1 (HP (seen k (right_CG F)) sv (sp_mat s)))) as [ms E].
    rewrite (sp_hessian_ok fw o _ _ _ _ _ _ _ E), (proj2 (HP _ _ _)). reflexivity.
  Qed.
  Lemma plain_sp_hessian k Dom F t0 dF : sp_hessian_of (sp_gradient k fw default_opts) (sp_hessian k fw default_opts) Dom ->
    dcurve2 F t0 dF -> Dom (F t0) ->
    dcurve2 (fun t => mmul (F t) (astensor (Sk k (F t)))) t0
      (dc42 (t4add (legs13 (F t0) (astensor4 (Ck k (F t0)))) (geo one2 (astensor (Sk k (F t0))))) dF).
  Proof.
    intros H HF HD. destruct (H F t0 dF HF HD sv s) as (A & RA & X).
    apply returns_outcome in RA. rewrite plain_hess, default_elast in RA. injection RA as <-.
    apply (X (fun _ => sv) (fun _ => s)). apply filter_forall. intro t. exists sv.
    apply returns_outcome. rewrite plain_grad. rewrite default_stress. reflexivity.
  Qed.
  Lemma plain_mismatch k Dom F t0 dF C4 : sp_hessian_of (sp_gradient k fw default_opts) (sp_hessian k fw default_opts) Dom ->
    dcurve2 F t0 dF -> Dom (F t0) ->
    dcurve6 (fun t => Sk k (F t)) t0 (fun v => ddot42 C4 (asvoigt (dCG (F t0) dF)) v / 2) ->
    forall i j, dc42 (legs13 (F t0) (astensor4 (Ck k (F t0)))) dF i j = dc42 (legs13 (F t0) (astensor4 C4)) dF i j.
  Proof.
    intros H HF HD HS i j.
    assert (E := D_unique _ _ _ _ (plain_sp_hessian k Dom F t0 dF H HF HD i j) (tangent_D F t0 dF _ _ HF HS i j)).
    assert (L : forall E G, dc42 (t4add E G) dF i j = dc42 E dF i j + dc42 G dF i j) by (intros; unfold dc42, t4add, sum3; ring).
    rewrite !L in E. lra.
  Qed.
End Plain.

(** *** psi = c (I1 - 3)^2 *)
Definition tod20 (c : R) : Framework unit := invariants_fw (tod_model (tod_init 0 0 0 c 0 false)).
Lemma nonzero0 : nonzero 0 = false. Proof. unfold nonzero; destruct (Req_EM_T 0 0); auto; contradiction. Qed.
Lemma nonzeroT c : c <> 0 -> nonzero c = true. Proof. unfold nonzero; destruct (Req_EM_T c 0); auto; contradiction. Qed.
Definition G20 (c : R) : Vec6 -> Vec6 := fun C => vscal (2 * c * (trace C - 3)) eye.
Definition H20 (c : R) : Mat6 := fun v w => 2 * c * (eye v * eye w).
Lemma tod20_plain c : c <> 0 -> plain (tod20 c) (G20 c) (fun _ => H20 c).
Proof.
  intros Hc C sv s. unfold tod20.
  assert (Eg : inv_call (tod_model (tod_init 0 0 0 c 0 false)) (Jv C) sv = Ok ((Some (0 + c * 2 * (Jv C X0 - 3)), None, None), sv)).
  { unfold inv_call, tod_model, tod_init, tod_gradient; cbn. rewrite !nonzero0, (nonzeroT c Hc). cbn. reflexivity. }
  assert (Eh : inv_callh (tod_model (tod_init 0 0 0 c 0 false)) (Jv C) sv = Ok (fun v => match v with V0 => Some (c * 2 + 0 * 6 * (Jv C X0 - 3)) | _ => None end)).
  { unfold inv_callh, tod_model, tod_init, tod_hessian; cbn. rewrite !nonzero0, (nonzeroT c Hc). reflexivity. }
  split.
  - cbn [invariants_fw fw_gradient]. unfold outcome. rewrite (inv_gradient_ok _ _ _ _ _ s Eg). cbn [snd].
    f_equal. f_equal. apply Vec6_ext; intro v. unfold gradv, G20, vscal, sum3; cbn [o3 fst snd val dJv Jv]. ring.
  - cbn [invariants_fw fw_hessian]. unfold outcome. rewrite (inv_hessian_eq _ _ _ _ _ _ s Eg Eh). cbn.
    f_equal. apply Mat6_ext; intros v w. unfold hessv, H20, sum3, dya; cbn [o3 fst snd val dJv Jv d2Jv pos]. unfold mzero. ring.
Qed.

Definition Fd (t : R) : T2 := diag3 (fun k => match k with X0 => 2 + t | X1 => 1 | X2 => / 2 end).
Definition dFd : T2 := diag3 (fun k => match k with X0 => 1 | _ => 0 end).
Lemma Fd_D : dcurve2 Fd 0 dFd.
Proof.
  intros i j. unfold Fd, dFd, diag3. destruct i, j; cbn; try exact (D_const _ 0).
  eapply D_eq. { apply D_plus; [exact (D_const 2 0)|exact (D_id 0)]. } ring.
Qed.
Lemma Fd_inv : invertible (Fd 0).
Proof. unfold invertible, det3, Fd, diag3; cbn. lra. Qed.
Definition Cd : Vec6 := fun v => match v with V0 => 4 | V1 => 1 | V2 => / 4 | _ => 0 end.
Lemma right_CG_Fd : right_CG (Fd 0) = Cd.
Proof. apply Vec6_ext; intro v. unfold right_CG, asvoigt, Fd, diag3, Cd, sum3. destruct v; cbn; field. Qed.
Lemma det_Cd : det Cd = 1.
Proof. unfold det, Cd; cbn. field. Qed.
Lemma invCd v : inv Cd None v = match v with V0 => / 4 | V1 => 1 | V2 => 4 | _ => 0 end.
Proof. unfold inv. rewrite det_Cd. destruct v; unfold Cd; cbn; field. Qed.

(** The part of the tangent that allclose drops. *)
Definition dropped (C : Vec6) (H : Mat6) : Mat6 :=
  ddot44 (ddot44 (msub6 (cdya1 eye) (mscal6 (/ 3) (dya (inv C None) C))) (mscal6 (4 * Rpower (det C) (- 2 / 3)) H))
         (transpose (msub6 (cdya1 eye) (mscal6 (/ 3) (dya (inv C None) C)))).
Lemma dis_C4_dropped C g H : allclose0 (mscal6 (4 * Rpower (det C) (- 2 / 3)) H) = true ->
  dis_C4 C g H = madd6 (kC4 KDistortional C g H) (dropped C H).
Proof. intro E. unfold kC4, dis_C4. cbv zeta. rewrite E. reflexivity. Qed.
Lemma dropped_Cd c : dropped Cd (H20 c) V0 V0 = 8 * c * (9 / 16) ^ 2.
Proof.
  unfold dropped. rewrite det_Cd, Rpower_1_l. unfold ddot44, transpose, msub6, mscal6, dya, sum6.
  rewrite !invCd. unfold cdya1, Cd, H20, eye, weights; cbn. field.
Qed.
Lemma small_close c : Rabs c <= / 10 ^ 9 -> allclose0 (mscal6 (4 * Rpower (det Cd) (- 2 / 3)) (H20 c)) = true.
Proof.
  intro Hc. apply allclose_true. intros v w. rewrite det_Cd, Rpower_1_l. unfold mscal6, H20.
  assert (E : Rabs (4 * 1 * (2 * c * (eye v * eye w))) = 8 * Rabs c * Rabs (eye v * eye w)).
  { rewrite !Rabs_mult. replace (Rabs 4) with 4 by (symmetry; apply Rabs_pos_eq; lra).
    replace (Rabs 2) with 2 by (symmetry; apply Rabs_pos_eq; lra). rewrite Rabs_R1. ring. }
  rewrite E. assert (B : 0 <= Rabs (eye v * eye w) <= 1).
  { assert (eye v * eye w = 0 \/ eye v * eye w = 1) as [-> | ->] by (destruct v, w; cbn; lra); rewrite ?Rabs_R0, ?Rabs_R1; lra. }
  assert (P := Rabs_pos c).
  apply Rle_trans with (8 * Rabs c * 1); [apply Rmult_le_compat_l; lra|]. lra.
Qed.

(** The derivative of 2 c (I1 - 3) 1 along a path. *)
Lemma G20_D c (C : R -> Vec6) t0 dC : dcurve6 C t0 dC -> dcurve6 (fun t => G20 c (C t)) t0 (ddot42 (H20 c) dC).
Proof.
  intros HC v. unfold G20, vscal. eapply D_eq.
  { apply D_scalr. apply D_scal. apply D_minus; [exact (trace_D _ _ _ HC)|apply D_const]. }
  unfold ddot42, H20, trace, weights, eye, sum6. destruct v; cbn; ring.
Qed.

Lemma distortional_hess_refuted c : 0 < c <= / 10 ^ 9 ->
  ~ sp_hessian_of (dis_gradient (tod20 c) default_opts) (dis_hessian (tod20 c) default_opts) invertible.
Proof.
  intros Hc H. assert (Hn : c <> 0) by lra.
  assert (HC := right_CG_D Fd 0 dFd Fd_D).
  assert (P : det (right_CG (Fd 0)) > 0) by (apply pos_right_CG, Fd_inv).
  assert (X := plain_mismatch (tod20 c) _ _ (tod20_plain c Hn) tt (space_self0 (tod20 c) inv_self0) KDistortional invertible Fd 0 dFd
     (dis_C4 (right_CG (Fd 0)) (G20 c (seen KDistortional (right_CG (Fd 0)))) (H20 c))
     H Fd_D Fd_inv).
  specialize (X (dis_S_D _ 0 _ _ _ HC P (G20_D c _ 0 _ (seen_D _ 0 _ HC P)))).
  specialize (X X0 X0). rewrite right_CG_Fd in X.
  rewrite dis_C4_dropped in X by (apply small_close; rewrite Rabs_pos_eq; lra).
  set (K := kC4 KDistortional Cd _ _) in X. clearbody K.
  assert (D := dropped_Cd c).
  unfold dc42, legs13, sum3, astensor4, madd6, Fd, dFd, diag3 in X. cbn in X.
  nra.
Qed.
