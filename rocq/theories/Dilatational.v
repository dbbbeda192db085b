(** The Dilatational space (C33). *)
From Coq Require Import Reals Lra FunctionalExtensionality List Bool.
From Coquelicot Require Import Coquelicot.
From Verif Require Import Tensor Py Voigt VoigtProofs Algebra Calc Models Frameworks Spaces Spec VCalc ModelProofs GenProofs
  InvCore InvProofs IsoProofs SpaceCore PiolaProofs SpaceProofs DistProofs SpaceMore SpecialProofs Counter.
Local Open Scope R_scope.

Lemma dil_pressure {SV} (fw : Framework SV) F sv s S svn : invertible F ->
  outcome (dil_gradient fw (opts Undeformed Undeformed) F sv) s = Ok (StressFull S, svn) ->
  exists p, forall i j, S i j = p * inv3 (cauchy_green F) i j.
Proof.
  intros N E. destruct (outcome (fw_gradient fw (seen KDilatational (right_CG F)) sv) (sp_mat s)) as [[g sv']|e] eqn:Eg.
  - assert (X := sp_gradient_ok fw (opts Undeformed Undeformed) KDilatational F sv s g sv' Eg). cbn [sp_gradient] in X.
    rewrite E in X. rewrite piola_stress_eq in X by reflexivity. injection X as -> _.
    rewrite pf_stress_push by apply (detJ_k KDilatational). cbn [leg per_area]. rewrite mtr_one, mmul_1_l, mmul_1_r.
    eexists. intros i j. rewrite <- (invCG_none F N). unfold mscal, invCG. cbn [kS]. unfold astensor, vscal.
    rewrite Rmult_1_l. reflexivity.
  - assert (X := sp_gradient_raise fw (opts Undeformed Undeformed) KDilatational F sv s e Eg). cbn [sp_gradient] in X.
    rewrite E in X. discriminate.
Qed.

Section Lin.
  Context {SV : Type} (fw : Framework SV) (g : Vec6) (HC : constant_fw fw g).
  Notation o := default_opts.
  Lemma dil_part c : dc22 (astensor g) (dilatational_part (astensor c)) = Rpower (det c) (1/3) * trace g.
  Proof.
    unfold dilatational_part. rewrite <- det_astensor. unfold dc22, mscal, one2, delta, trace, astensor, sum3; cbn. ring.
  Qed.
  Lemma dil_kS c v : kS KDilatational c g v = 2 * Rpower (det c) (1/3) * trace g / 3 * inv c None v.
  Proof. cbn [kS kSb]. unfold vscal, trace. change (inv c (Some (det c))) with (inv c None). field. Qed.
  Lemma dilatational_linear_grad :
    sp_gradient_of (dil_gradient fw o) (fun F => dc22 (astensor g) (dilatational_part (cauchy_green F))) invertible.
  Proof.
    cut (sp_gradient_of (sp_gradient KDilatational fw o) (fun F => dc22 (astensor g) (dilatational_part (cauchy_green F)))
      (fun F => (KDilatational <> KDeformation -> invertible F) /\ True)).
    { intros X F t0 dF HF N. apply X; auto. }
    apply (space_grad fw KDilatational (fun C => dc22 (astensor g) (dilatational_part C)) (fun _ => True)).
    intros c t0 dc Hc _ P sv s. specialize (P ltac:(discriminate)).
    destruct (HC (seen KDilatational (c t0)) sv s) as [[svn E] _].
    exists g, svn. split; [exact E|].
    apply D_ext with (fun t => Rpower (det (c t)) (1/3) * trace g). { intro; rewrite dil_part; reflexivity. }
    eapply D_eq. { apply D_scalr. exact (I3pow_D c t0 dc (1/3) Hc P). }
    replace (kS KDilatational (c t0) g) with (vscal (2 * Rpower (det (c t0)) (1/3) * trace g / 3) (inv (c t0) None))
      by (apply Vec6_ext; intro v; rewrite dil_kS; reflexivity).
    rewrite ddot22_scal_l. field.
  Qed.
  Lemma dilatational_linear_hess : sp_hessian_of (dil_gradient fw o) (dil_hessian fw o) invertible.
  Proof.
    cut (sp_hessian_of (sp_gradient KDilatational fw o) (sp_hessian KDilatational fw o)
      (fun F => (KDilatational <> KDeformation -> invertible F) /\ True)).
    { intros X F t0 dF HF N. apply X; auto. }
    apply (space_hess fw KDilatational (fun _ => True)).
    intros c t0 dc Hc _ P sv s. specialize (P ltac:(discriminate)).
    destruct (HC (seen KDilatational (c t0)) sv s) as [[svn E] _].
    destruct (outcome_pair _ _ _ E) as [ms E1].
    exists g, svn, ms, mzero. split; [exact E1|split; [apply HC|]]. intros svt st G H0.
    assert (H1 : locally t0 (fun t => G t = g)).
    { revert H0. apply filter_imp. intros t [sv' E']. destruct (HC (seen KDilatational (c t)) (svt t) (st t)) as [[sv'' E''] _]. congruence. }
    split; [rewrite (locally_singleton _ _ H1); reflexivity|].
    intro v. apply D_ext_loc with (fun t => 2 * Rpower (det (c t)) (1/3) * trace g / 3 * inv (c t) None v).
    { revert H1; apply filter_imp. intros t ->. rewrite dil_kS; reflexivity. }
    eapply D_eq.
    { apply D_mult; [|exact (inv_D c t0 dc Hc (Rgt_not_eq _ _ P) v)].
      apply D_divc. apply D_scalr. apply D_scal. exact (I3pow_D c t0 dc (1/3) Hc P). }
    unfold kC4; cbv zeta. change (inv (c t0) (Some (det (c t0)))) with (inv (c t0) None).
    rewrite ddot42_sub, !ddot42_scal, ddot42_dya. unfold sandwich.
    set (q := ddot22 (inv (c t0) None) dc). set (y := ddot42 (cdya1 (inv (c t0) None)) dc v).
    replace (ddot22 (ddot24 eye (mscal6 (4 * Rpower (det (c t0)) (2 / 3)) mzero)) eye) with 0.
    2: { unfold ddot22, ddot24, mscal6, mzero, sum6. ring. }
    cbn [kSb]. unfold trace, vscal. field.
  Qed.
End Lin.

(** *** psi = (I1 - 3)^2 refutes both claims. *)
Lemma dilatational_grad_refuted :
  ~ sp_gradient_of (dil_gradient (tod20 1) default_opts) (fun F => (inv1 (dilatational_part (cauchy_green F)) - 3) ^ 2) invertible.
Proof.
  intro H. assert (Hn : 1 <> 0) by lra.
  destruct (H Fd 0 dFd Fd_D Fd_inv tt (space_self0 (tod20 1) inv_self0)) as (P & svn & RP & Hd).
  apply returns_outcome in RP. assert (X := plain_grad (tod20 1) _ _ (tod20_plain 1 Hn) tt (space_self0 (tod20 1) inv_self0) KDilatational default_opts (Fd 0)).
  cbn [sp_gradient] in X. rewrite RP in X. rewrite default_stress in X. injection X as EP _.
  assert (HC := right_CG_D Fd 0 dFd Fd_D).
  assert (Pd : det (right_CG (Fd 0)) > 0) by (apply pos_right_CG, Fd_inv).
  assert (Z : is_derive (fun t => (inv1 (dilatational_part (cauchy_green (Fd t))) - 3) ^ 2) 0 0).
  { apply D_ext with (fun t => (3 * Rpower (det (right_CG (Fd t))) (1/3) - 3) ^ 2).
    { intro t. f_equal. f_equal. unfold inv1, dilatational_part. rewrite det_astensor, right_CG_full.
      unfold tr2, mscal, one2, delta, sum3; cbn. ring. }
    eapply D_eq.
    { apply D_sqr. apply D_minus; [apply D_scal; exact (I3pow_D _ 0 _ (1/3) HC Pd)|apply D_const]. }
    cbv beta. rewrite right_CG_Fd, det_Cd, Rpower_1_l. ring. }
  assert (E := D_unique _ _ _ _ Hd Z). rewrite EP in E. clear EP Hd Z.
  rewrite right_CG_Fd in E.
  assert (S0 : kS KDilatational Cd (G20 1 (seen KDilatational Cd)) V0 = 9 / 4).
  { rewrite dil_kS, invCd, det_Cd, Rpower_1_l. cbn [seen]. rewrite det_Cd, Rpower_1_l.
    unfold trace, G20, trace, vscal, eye, Cd. cbn. field. }
  change (dc22 (mmul (Fd 0) (astensor (kS KDilatational Cd (G20 1 (seen KDilatational Cd))))) dFd = 0) in E.
  set (K := kS KDilatational Cd _) in *. clearbody K.
  unfold dc22, mmul, dFd, Fd, diag3, sum3, astensor in E. cbn in E. lra.
Qed.

Definition Fe (t : R) : T2 := diag3 (fun k => match k with X0 => 2 + t | X1 => 1 | X2 => / 2 + t * (- / 4) end).
Definition dFe : T2 := diag3 (fun k => match k with X0 => 1 | X1 => 0 | X2 => - / 4 end).
Lemma Fe_D : dcurve2 Fe 0 dFe.
Proof.
  intros i j. unfold Fe, dFe, diag3. destruct i, j; cbn; try exact (D_const _ 0).
  - eapply D_eq. { apply D_plus; [exact (D_const 2 0)|exact (D_id 0)]. } ring.
  - eapply D_eq. { apply D_plus; [exact (D_const (/ 2) 0)|apply D_scalr; exact (D_id 0)]. } ring.
Qed.
Lemma Fe_Fd : Fe 0 = Fd 0.
Proof. apply T2_ext; intros i j. unfold Fe, Fd, diag3. destruct i, j; cbn; ring. Qed.
Lemma dilatational_hess_refuted :
  ~ sp_hessian_of (dil_gradient (tod20 1) default_opts) (dil_hessian (tod20 1) default_opts) invertible.
Proof.
  intro H. assert (Hn : 1 <> 0) by lra.
  assert (N : invertible (Fe 0)) by (rewrite Fe_Fd; apply Fd_inv).
  assert (X := plain_sp_hessian (tod20 1) _ _ (tod20_plain 1 Hn) tt (space_self0 (tod20 1) inv_self0) KDilatational invertible Fe 0 dFe H Fe_D N X1 X1).
  assert (HC := right_CG_D Fe 0 dFe Fe_D). assert (Pd : det (right_CG (Fe 0)) > 0) by (apply pos_right_CG; auto).
  set (Y := fun t => 4 * Rpower (det (right_CG (Fe t))) (1/3) * (Rpower (det (right_CG (Fe t))) (1/3) * trace (right_CG (Fe t)) - 3) * inv (right_CG (Fe t)) None V1).
  assert (E1 : is_derive Y 0 15).
  { unfold Y. eapply D_eq.
    { apply D_mult; [|exact (inv_D _ 0 _ HC (Rgt_not_eq _ _ Pd) V1)].
      apply D_mult; [apply D_scal; exact (I3pow_D _ 0 _ (1/3) HC Pd)|].
      apply D_minus; [|exact (D_const 3 0)].
      apply D_mult; [exact (I3pow_D _ 0 _ (1/3) HC Pd)|exact (trace_D _ _ _ HC)]. }
    cbv beta. rewrite Fe_Fd, right_CG_Fd, det_Cd, Rpower_1_l.
    unfold sandwich, ddot22, ddot42, sum6. rewrite !invCd. unfold cdya1. cbn -[dCG trace inv]. rewrite ?invCd.
    unfold dCG, dFe, Fd, asvoigt, diag3, Cd, trace, weights, sum3. cbn. field. }
  assert (E2 : is_derive (fun t => mmul (Fe t) (astensor (kS KDilatational (right_CG (Fe t)) (G20 1 (seen KDilatational (right_CG (Fe t)))))) X1 X1) 0 15).
  { apply D_ext with Y; auto. intro t.
    assert (M : forall A, mmul (Fe t) A X1 X1 = A X1 X1) by (intro A; unfold mmul, Fe, diag3, sum3; cbn; ring).
    rewrite M. unfold astensor. cbn [vix]. rewrite dil_kS. unfold Y.
    cbn [seen]. unfold G20, trace, vscal, eye; cbn -[right_CG]. field. }
  assert (E := D_unique _ _ _ _ X E2). clear X E2 E1 Y. rewrite Fe_Fd, right_CG_Fd in E.
  set (g := G20 1 _) in E. clearbody g. set (K := kS KDilatational Cd g) in E. clearbody K.
  assert (K0 : forall v, v <> V1 -> kC4 KDilatational Cd g (H20 1) V1 v =
     / 9 * (2 * trace (kSb KDilatational Cd g) + ddot22 (ddot24 eye (mscal6 (4 * Rpower (det Cd) (2 / 3)) (H20 1))) eye) * inv Cd None v).
  { intros v Nv. unfold kC4; cbv zeta. change (inv Cd (Some (det Cd))) with (inv Cd None).
    set (tb := ddot22 _ eye). set (ts := trace _). unfold msub6, mscal6, dya.
    replace (cdya1 (inv Cd None) V1 v) with 0 by (unfold cdya1; destruct v; try contradiction; cbn -[inv]; rewrite !invCd; field).
    rewrite !invCd. destruct v; try contradiction; ring. }
  set (KK := kC4 _ _ _ _) in *. clearbody KK. set (q := _ + _ : R) in K0. clearbody q.
  assert (k0 := K0 V0 ltac:(discriminate)). assert (k2 := K0 V2 ltac:(discriminate)). rewrite invCd in k0, k2.
  unfold dc42, t4add, legs13, geo, one2, delta, astensor4, sum3, Fd, dFe, diag3 in E. cbn in E. lra.
Qed.

(** The general stress formula: that of the linear energy G : C with G the gradient at the
    tensor handed to the framework. *)
Definition const_fw (SV : Type) (G : Vec6) : Framework SV :=
  {| fw_self := unit; fw_gradient := fun _ sv => ret (G, sv); fw_hessian := fun _ _ => ret mzero |}.
Lemma seen_dil F : seen KDilatational (right_CG F) =
  asvoigt (mscal (Rpower (det3 (cauchy_green F)) (1/3)) (cauchy_green F)).
Proof.
  cbn [seen]. replace (det (right_CG F)) with (det3 (cauchy_green F)).
  - apply Vec6_ext; intros []; reflexivity.
  - unfold right_CG, det, det3, asvoigt, cauchy_green, mmul, mtr, sum3; cbn. ring.
Qed.
Lemma dilatational_actual_stress {SV} (fw : Framework SV) F t0 dF sv s G svn :
  dcurve2 F t0 dF -> invertible (F t0) ->
  outcome (fw_gradient fw (asvoigt (mscal (Rpower (det3 (cauchy_green (F t0))) (1/3)) (cauchy_green (F t0)))) sv) (sp_mat s) = Ok (G, svn) ->
  exists P, outcome (dil_gradient fw default_opts (F t0) sv) s = Ok (StressFull P, svn) /\
    is_derive (fun t => dc22 (astensor G) (dilatational_part (cauchy_green (F t)))) t0 (dc22 P dF).
Proof.
  intros HF N E. rewrite <- seen_dil in E.
  assert (HC : constant_fw (const_fw SV G) G). { intros C sv' s'. split; [exists sv'|]; reflexivity. }
  destruct (dilatational_linear_grad (const_fw SV G) G HC F t0 dF HF N sv (space_self0 (const_fw SV G) tt)) as (P & sv' & R1 & D).
  exists P. split; [|exact D].
  assert (X := sp_gradient_ok fw default_opts KDilatational (F t0) sv s G svn E). cbn [sp_gradient] in X. rewrite X.
  assert (Y := sp_gradient_ok (const_fw SV G) default_opts KDilatational (F t0) sv (space_self0 (const_fw SV G) tt) G sv eq_refl).
  cbn [sp_gradient] in Y. destruct R1 as [q R1]. unfold outcome in Y. rewrite R1 in Y. cbn [snd] in Y. injection Y as -> _. reflexivity.
Qed.
