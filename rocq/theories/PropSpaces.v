(** * Properties C24 - C34 (spaces). *)
From Coq Require Import Reals Lra List FunctionalExtensionality.
From Coquelicot Require Import Coquelicot.
From Verif Require Import Tensor Py Voigt VoigtProofs Algebra Models Frameworks Spaces Spec VCalc ModelProofs GenProofs
  InvCore InvProofs IsoProofs SpaceCore HistProofs PiolaProofs SpaceProofs DistProofs SpaceMore SpecialProofs Counter Dilatational
  ScaleProofs PropInvariants.
Local Open Scope R_scope.

(** ** C24 *)
Theorem C24_frame_indifference : forall (SV : Type) (fw : Framework SV) o k Q F sv s, orthogonal Q ->
  outcome (sp_gradient k fw o (mmul Q F) sv) s =
    rmap (fun r => (rot_stress o Q (fst r), snd r)) (outcome (sp_gradient k fw o F sv) s) /\
  outcome (sp_hessian k fw o (mmul Q F) sv) s = rmap (rot_elast o Q) (outcome (sp_hessian k fw o F sv) s).
Proof. exact (fun SV fw o k Q F sv s => frame_indifference fw o k Q F sv s). Qed.
Print Assumptions C24_frame_indifference.
(** The named special cases. *)
Theorem C24_named_cases : forall (SV : Type) (fw : Framework SV) k Q F sv s P svn, orthogonal Q ->
  (outcome (sp_gradient k fw (opts Deformed Undeformed) F sv) s = Ok (StressFull P, svn) ->
   outcome (sp_gradient k fw (opts Deformed Undeformed) (mmul Q F) sv) s = Ok (StressFull (mmul Q P), svn)) /\
  (outcome (sp_gradient k fw (opts Deformed Deformed) F sv) s = Ok (StressFull P, svn) ->
   outcome (sp_gradient k fw (opts Deformed Deformed) (mmul Q F) sv) s = Ok (StressFull (mmul (mmul Q P) (mtr Q)), svn)) /\
  (outcome (sp_gradient k fw (opts Undeformed Undeformed) F sv) s = Ok (StressFull P, svn) ->
   outcome (sp_gradient k fw (opts Undeformed Undeformed) (mmul Q F) sv) s = Ok (StressFull P, svn)).
Proof.
  intros SV fw k Q F sv s P svn HQ. split; [|split]; intro E;
  rewrite (proj1 (frame_indifference fw _ k Q F sv s HQ)), E; cbn [rmap fst snd rot_stress opts force area leg];
  rewrite ?mtr_one, ?mmul_1_l, ?mmul_1_r; reflexivity.
Qed.
Print Assumptions C24_named_cases.
(** Neo-Hooke in simple shear F (any F, in fact): P = 2 C10 F, a stress that is not symmetric; and a
    rotation of F. *)
Definition F_shear : T2 := fun i j => match i, j with X0, X1 => 2 | _, _ => delta i j end.
Example C24_example : forall s, outcome (def_gradient (nh 1) (opts Deformed Undeformed) F_shear tt) s = Ok (StressFull (mscal 2 F_shear), tt) /\
  ~ sym2 (mscal 2 F_shear) /\ invertible F_shear /\
  orthogonal (fun i j => match i, j with X0, X1 => -1 | X1, X0 => 1 | X2, X2 => 1 | _, _ => 0 end).
Proof.
  intro s. split.
  - destruct (nh_constant 1 (right_CG F_shear) tt (sp_mat s)) as [([] & E) _].
    pose proof (sp_gradient_ok (nh 1) (opts Deformed Undeformed) KDeformation F_shear tt s _ _ E) as X. cbn [sp_gradient] in X. rewrite X.
    rewrite piola_stress_eq by reflexivity. rewrite pf_stress_push by apply (detJ_k KDeformation). cbn [leg per_area].
    rewrite mtr_one, mmul_1_r. do 3 f_equal. apply T2_ext; intros i j. unfold mscal, mmul, sum3, kS, vscal, astensor, eye. destruct i, j; cbn; ring.
  - split; [intro S; specialize (S X0 X1); unfold mscal, F_shear, delta in S; cbn in S; lra|]. split; [unfold invertible, det3, F_shear, delta; cbn; lra|].
    apply C17_rotation.
Qed.

(** ** C25 *)
Theorem C25_stress : forall (SV : Type) (fw : Framework SV) W Dom, fw_gradient_of fw W Dom ->
  sp_gradient_of (def_gradient fw default_opts) (fun F => W (cauchy_green F)) (fun F => Dom (cauchy_green F)).
Proof. exact (fun SV fw => deformation_grad fw). Qed.
Print Assumptions C25_stress.
Lemma cg_inv F : invertible F -> invertible (cauchy_green F).
Proof.
  intro N. unfold invertible. rewrite <- right_CG_full, <- det_astensor, det_right_CG. apply pow_nonzero; auto.
Qed.
(** End to end: no hypothesis about user code left. *)
Theorem C25_third_order_deformation : forall (SV : Type) c10 c01 c11 c20 c30 (strain : bool),
  let u := if strain then 0 else 3 in
  sp_gradient_of (def_gradient (invariants_fw (tod_model (SV:=SV) (tod_init c10 c01 c11 c20 c30 strain))) default_opts)
    (fun F => let C := cauchy_green F in
              c10 * (inv1 C - u) + c01 * (inv2 C - u) + c11 * ((inv1 C - u) * (inv2 C - u))
              + c20 * (inv1 C - u) ^ 2 + c30 * (inv1 C - u) ^ 3)
    invertible.
Proof.
  intros SV c10 c01 c11 c20 c30 strain u F t0 dF HF N.
  exact (C25_stress _ _ _ _ (C14_third_order_deformation SV c10 c01 c11 c20 c30 strain) F t0 dF HF (cg_inv _ N)).
Qed.
Print Assumptions C25_third_order_deformation.

(** ** C26 *)
Theorem C26_tangent : forall (SV : Type) (fw : Framework SV) W Dom, fw_gradient_of fw W Dom -> fw_hessian_of fw Dom ->
  sp_hessian_of (def_gradient fw default_opts) (def_hessian fw default_opts) (fun F => Dom (cauchy_green F)).
Proof. exact (fun SV fw => deformation_hess fw). Qed.
Print Assumptions C26_tangent.
Theorem C26_third_order_deformation : forall (SV : Type) (m : TOD),
  sp_hessian_of (def_gradient (invariants_fw (tod_model (SV:=SV) m)) default_opts)
                (def_hessian (invariants_fw (tod_model m)) default_opts) invertible.
Proof.
  intros SV m F t0 dF HF N.
  refine (C26_tangent _ _ _ _ _ (C15_third_order_deformation SV m) F t0 dF HF (cg_inv _ N)).
  intros C t1 dC S HC NC. exact (inv_fw_grad _ _ _ (tod_grad m) C t1 dC S HC (conj NC Logic.I)).
Qed.
Print Assumptions C26_third_order_deformation.

(** ** C27 *)
Theorem C27_invariants : forall (SV : Type) (m : InvModel SV), symmetric_hessian (invariants_fw m).
Proof. exact (fun SV => invariants_symmetric). Qed.
Print Assumptions C27_invariants.
Theorem C27_stretches : forall (SV : Type) lapack (m : StretchModel SV), symmetric_hessian (stretches_fw lapack m).
Proof. exact (fun SV => stretches_symmetric). Qed.
Print Assumptions C27_stretches.
Theorem C27_spaces : forall (SV : Type) (fw : Framework SV) o k F sv s A, symmetric_hessian fw ->
  outcome (sp_hessian k fw o F sv) s = Ok (ElastFull A) -> major4 A.
Proof. exact (fun SV fw o k F sv s A => space_major fw o k F sv s A). Qed.
Print Assumptions C27_spaces.

(** ** C28.  All four configurations are push-forwards of the one with force=0, area=0;
    exceptions are the same. *)
Theorem C28_configurations : forall (SV : Type) (fw : Framework SV) k f a F sv s, invertible F ->
  outcome (sp_gradient k fw (opts f a) F sv) s =
    rmap (fun r => (on_full (fun S => mscal (per_area a F) (mmul (mmul (leg f F) S) (mtr (leg a F)))) (fst r), snd r))
      (outcome (sp_gradient k fw (opts Undeformed Undeformed) F sv) s) /\
  outcome (sp_hessian k fw (opts f a) F sv) s =
    rmap (on_full4 (fun A i j k l => per_area a F * push (leg f F) (leg a F) A i j k l))
      (outcome (sp_hessian k fw (opts Undeformed Undeformed) F sv) s).
Proof. exact (fun SV fw k f a F sv s => configurations fw k f a F sv s). Qed.
Print Assumptions C28_configurations.
Theorem C28_stresses : forall (SV : Type) (fw : Framework SV) k F sv s S svn, invertible F ->
  outcome (sp_gradient k fw (opts Undeformed Undeformed) F sv) s = Ok (StressFull S, svn) ->
  exists P sigma,
    outcome (sp_gradient k fw (opts Deformed Undeformed) F sv) s = Ok (StressFull P, svn) /\
    outcome (sp_gradient k fw (opts Deformed Deformed) F sv) s = Ok (StressFull sigma, svn) /\
    sym2 S /\ sym2 sigma /\
    (forall i j, P i j = mmul F S i j) /\
    (forall i j, sigma i j = mmul (mmul F S) (mtr F) i j / Rabs (det3 F)) /\
    (forall i j, mmul P (mtr F) i j = Rabs (det3 F) * sigma i j).
Proof.
  intros SV fw k F sv s S svn N E. assert (HS := undeformed_sym fw k F sv s S svn E).
  assert (NJ : Rabs (det3 F) <> 0) by (apply Rabs_no_R0; auto).
  destruct (configurations fw k Deformed Undeformed F sv s N) as [E1 _].
  destruct (configurations fw k Deformed Deformed F sv s N) as [E2 _].
  rewrite E in E1, E2. cbn [rmap fst snd on_full leg per_area] in E1, E2.
  eexists _, _. split; [exact E1|split; [exact E2|split; [exact HS|]]].
  rewrite mtr_one, mmul_1_r. unfold mscal. split; [|split; [|split]].
  - intros i j. f_equal. unfold mmul, mtr, sum3. rewrite (HS X1 X0), (HS X2 X0), (HS X2 X1). ring.
  - intros; ring.
  - intros; unfold Rdiv; ring.
  - intros i j. replace (fun i j => 1 * mmul F S i j) with (mmul F S) by (apply T2_ext; intros; ring). field; auto.
Qed.
Print Assumptions C28_stresses.
(** The optional arguments detF and invC of piola do not matter. *)
Theorem C28_optional_arguments : forall o F S C4 d ic, invertible F ->
  (d = None \/ d = Some (Rabs (det3 F))) -> (ic = None \/ ic = Some (asvoigt (inv3 (cauchy_green F)))) ->
  piola_stress o F S d = piola_stress o F S None /\ piola_elast o F S d C4 ic = piola_elast o F S None C4 None.
Proof.
  intros o F S C4 d ic N Hd Hi. split; [|apply optional_elast; auto].
  destruct Hd as [-> | ->]; [reflexivity|apply optional_detF].
Qed.
Print Assumptions C28_optional_arguments.
(** finalize=False returns the untransformed quantities in Voigt storage, whatever the
    configuration. *)
Theorem C28_finalize_stress : forall (SV : Type) (fw : Framework SV) k f a F sv s out svn,
  outcome (sp_gradient k fw (raw f a) F sv) s = Ok (out, svn) ->
  exists V, out = StressVoigt V /\
    outcome (sp_gradient k fw (opts Undeformed Undeformed) F sv) s = Ok (StressFull (astensor V), svn).
Proof. exact (fun SV fw k f a F sv s out svn => finalize_grad fw k f a F sv s out svn). Qed.
Print Assumptions C28_finalize_stress.
Theorem C28_finalize_elasticity : forall (SV : Type) (fw : Framework SV) k f a F sv s V svn out, invertible F ->
  outcome (sp_gradient k fw (raw f a) F sv) s = Ok (StressVoigt V, svn) ->
  outcome (sp_hessian k fw (raw f a) F sv) s = Ok out ->
  exists C4, out = ElastVoigt C4 /\
    outcome (sp_hessian k fw (opts Undeformed Undeformed) F sv) s =
      Ok (ElastFull (fun i j k l => astensor4 C4 i j k l + inv3 (cauchy_green F) i k * astensor V j l)).
Proof. exact (fun SV fw k f a F sv s V svn out => finalize_hess fw k f a F sv s V svn out). Qed.
Print Assumptions C28_finalize_elasticity.

(** ** C29 *)
Theorem C29_unimodular : forall (SV : Type) (fw : Framework SV) o F sv s, invertible F ->
  outcome (dis_gradient (only_unimodular fw) o F sv) s = outcome (dis_gradient fw o F sv) s /\
  outcome (dis_hessian (only_unimodular fw) o F sv) s = outcome (dis_hessian fw o F sv) s.
Proof. exact (fun SV fw o F sv s => dis_guard fw o F sv s). Qed.
Print Assumptions C29_unimodular.
(** S(aF) = S(F) / a^2: the framework is asked at the same tensor, and the same result or
    exception follows. *)
Theorem C29_volume_change : forall (SV : Type) (fw : Framework SV) a F sv s, invertible F -> a <> 0 ->
  outcome (dis_gradient fw (opts Undeformed Undeformed) (mscal a F) sv) s =
  rmap (fun r => (on_full (fun S i j => S i j / a ^ 2) (fst r), snd r))
    (outcome (dis_gradient fw (opts Undeformed Undeformed) F sv) s).
Proof.
  intros SV fw a F sv s N Ha.
  assert (P := pos_right_CG F N). assert (SE := seen_scal a (right_CG F) Ha P). rewrite <- right_CG_scal in SE.
  destruct (outcome (fw_gradient fw (seen KDistortional (right_CG F)) sv) (sp_mat s)) as [[g svn]|e] eqn:E;
  assert (E' := E); rewrite <- SE in E'.
  - assert (X := sp_gradient_ok fw (opts Undeformed Undeformed) KDistortional F sv s g svn E).
    assert (Y := sp_gradient_ok fw (opts Undeformed Undeformed) KDistortional (mscal a F) sv s g svn E').
    cbn [sp_gradient] in X, Y. rewrite X, Y. cbn [rmap fst snd].
    rewrite !piola_stress_eq by reflexivity. rewrite !pf_stress_push by apply (detJ_k KDistortional).
    cbn [on_full leg per_area]. rewrite mtr_one, !mmul_1_l, !mmul_1_r. f_equal. f_equal. f_equal.
    apply T2_ext; intros i j. rewrite right_CG_scal. unfold mscal, astensor. rewrite kS_scal by auto. field; auto.
  - assert (X := sp_gradient_raise fw (opts Undeformed Undeformed) KDistortional F sv s e E).
    assert (Y := sp_gradient_raise fw (opts Undeformed Undeformed) KDistortional (mscal a F) sv s e E').
    cbn [sp_gradient] in X, Y. rewrite X, Y. reflexivity.
Qed.
Print Assumptions C29_volume_change.
Theorem C29_deviatoric : forall (SV : Type) (fw : Framework SV) F sv s S svn, invertible F ->
  outcome (dis_gradient fw (opts Undeformed Undeformed) F sv) s = Ok (StressFull S, svn) ->
  dc22 S (cauchy_green F) = 0 /\
  exists sigma, outcome (dis_gradient fw (opts Deformed Deformed) F sv) s = Ok (StressFull sigma, svn) /\ tr2 sigma = 0.
Proof.
  intros SV fw F sv s S svn N E.
  assert (Z : exists V, S = astensor (kS KDistortional (right_CG F) V)).
  { destruct (outcome (fw_gradient fw (seen KDistortional (right_CG F)) sv) (sp_mat s)) as [[g svn']|e] eqn:Eg.
    - assert (X := sp_gradient_ok fw (opts Undeformed Undeformed) KDistortional F sv s g svn' Eg). cbn [sp_gradient] in X.
      rewrite E in X. rewrite piola_stress_eq in X by reflexivity. injection X as -> _. exists g.
      rewrite pf_stress_push by apply (detJ_k KDistortional). cbn [leg per_area]. rewrite mtr_one, mmul_1_l, mmul_1_r.
      apply T2_ext; intros; unfold mscal; rewrite Rmult_1_l; reflexivity.
    - assert (X := sp_gradient_raise fw (opts Undeformed Undeformed) KDistortional F sv s e Eg). cbn [sp_gradient] in X.
      rewrite E in X. discriminate. }
  destruct Z as [V ->].
  assert (SC := dis_SC (right_CG F) V (Rgt_not_eq _ _ (pos_right_CG F N))). split.
  - rewrite <- right_CG_full, <- ddot22_full. exact SC.
  - destruct (configurations fw KDistortional Deformed Deformed F sv s N) as [E2 _].
    cbn [sp_gradient] in E2. rewrite E in E2. cbn [rmap fst snd on_full leg per_area] in E2.
    eexists. split; [exact E2|]. assert (T := push_trace F (kS KDistortional (right_CG F) V)). rewrite SC in T.
    unfold tr2, mscal, sum3 in *. rewrite <- !Rmult_plus_distr_l, T. ring.
Qed.
Print Assumptions C29_deviatoric.

(** ** C30 *)
Theorem C30_stress : forall (SV : Type) (fw : Framework SV) W Dom, fw_gradient_of fw W Dom ->
  sp_gradient_of (dis_gradient fw default_opts) (fun F => W (distortional_part (cauchy_green F)))
    (fun F => invertible F /\ Dom (distortional_part (cauchy_green F))).
Proof. exact (fun SV fw => distortional_grad fw). Qed.
Print Assumptions C30_stress.
Lemma dist_inv F : invertible F -> invertible (distortional_part (cauchy_green F)).
Proof.
  intro N. unfold invertible. rewrite <- right_CG_full, <- dist_part, seen_unimodular by auto. lra.
Qed.
Theorem C30_third_order_deformation : forall (SV : Type) c10 c01 c11 c20 c30 (strain : bool),
  let u := if strain then 0 else 3 in
  sp_gradient_of (dis_gradient (invariants_fw (tod_model (SV:=SV) (tod_init c10 c01 c11 c20 c30 strain))) default_opts)
    (fun F => let C := distortional_part (cauchy_green F) in
              c10 * (inv1 C - u) + c01 * (inv2 C - u) + c11 * ((inv1 C - u) * (inv2 C - u))
              + c20 * (inv1 C - u) ^ 2 + c30 * (inv1 C - u) ^ 3)
    invertible.
Proof.
  intros SV c10 c01 c11 c20 c30 strain u F t0 dF HF N.
  exact (C30_stress _ _ _ _ (C14_third_order_deformation SV c10 c01 c11 c20 c30 strain) F t0 dF HF (conj N (dist_inv _ N))).
Qed.
Print Assumptions C30_third_order_deformation.
(** The path diag(2 + t, 1, 1/2) and all parameters non-zero: a call that returns, in each space. *)
Example C30_example : dcurve2 Fd 0 dFd /\ invertible (Fd 0) /\
  let fw := invariants_fw (tod_model (SV:=unit) (tod_init 1 2 3 4 5 false)) in
  (exists P, returns (def_gradient fw default_opts (Fd 0) tt) (space_self0 fw inv_self0) (StressFull P, tt)) /\
  (exists P, returns (dis_gradient fw default_opts (Fd 0) tt) (space_self0 fw inv_self0) (StressFull P, tt)) /\
  (exists A, returns (def_hessian fw default_opts (Fd 0) tt) (space_self0 fw inv_self0) (ElastFull A)).
Proof.
  split; [exact Fd_D|]. split; [exact Fd_inv|]. intro fw. split; [|split].
  - destruct (C25_third_order_deformation unit 1 2 3 4 5 false Fd 0 dFd Fd_D Fd_inv tt (space_self0 fw inv_self0)) as (P & [] & H & _). eauto.
  - destruct (C30_third_order_deformation unit 1 2 3 4 5 false Fd 0 dFd Fd_D Fd_inv tt (space_self0 fw inv_self0)) as (P & [] & H & _). eauto.
  - destruct (C26_third_order_deformation unit (tod_init 1 2 3 4 5 false) Fd 0 dFd Fd_D Fd_inv tt (space_self0 fw inv_self0)) as (A & H & _). eauto.
Qed.

(** ** C31.  Missing for the full claim: material tangents that are not zero but below the
    absolute tolerance 1e-8 in every entry (refuted below). *)
Theorem C31_tangent_partial : forall (SV : Type) (fw : Framework SV) W Dom, fw_gradient_of fw W Dom -> fw_hessian_of fw Dom ->
  sp_hessian_of (dis_gradient fw default_opts) (dis_hessian fw default_opts)
    (fun F => invertible F /\ Dom (distortional_part (cauchy_green F)) /\ significant_at fw F).
Proof.
  intros SV fw W Dom Hg Hh F t0 dF HF (N & D & S).
  refine (distortional_hess fw W Dom Hg Hh F t0 dF HF (conj N (conj D _))). intros sv s. apply significant_of; auto.
Qed.
Print Assumptions C31_tangent_partial.
Example C31_significant : invertible (Fd 0) /\ significant_at (tod20 1) (Fd 0).
Proof. exact (conj Fd_inv tod20_significant). Qed.
(** Neo-Hooke (no second derivative): complete. *)
Theorem C31_neo_hooke : forall c,
  let fw := invariants_fw (tod_model (SV:=unit) (tod_init c 0 0 0 0 false)) in
  sp_hessian_of (dis_gradient fw default_opts) (dis_hessian fw default_opts) invertible.
Proof.
  intros c fw F t0 dF HF N.
  refine (C31_tangent_partial _ fw _ invertible _ (C15_third_order_deformation _ _) F t0 dF HF (conj N (conj (dist_inv _ N) _))).
  - exact (C14_third_order_deformation unit c 0 0 0 0 false).
  - exact (constant_significant _ _ _ (nh_constant c)).
Qed.
Print Assumptions C31_neo_hooke.
(** psi = c (I1 - 3)^2 with 0 < c <= 1e-9 (e.g. stiffness in TPa): the framework's hessian
    is right, the space's is not. *)
Theorem C31_tangent_refuted : forall c, 0 < c <= / 10 ^ 9 ->
  let fw := invariants_fw (tod_model (SV:=unit) (tod_init 0 0 0 c 0 false)) in
  fw_gradient_of fw (fun C => 0 * (inv1 C - 3) + 0 * (inv2 C - 3) + 0 * ((inv1 C - 3) * (inv2 C - 3)) + c * (inv1 C - 3) ^ 2 + 0 * (inv1 C - 3) ^ 3) invertible /\
  fw_hessian_of fw invertible /\
  ~ sp_hessian_of (dis_gradient fw default_opts) (dis_hessian fw default_opts) invertible.
Proof.
  intros c Hc fw. split; [exact (C14_third_order_deformation unit 0 0 0 c 0 false)|split].
  - apply C15_third_order_deformation.
  - exact (distortional_hess_refuted c Hc).
Qed.
Print Assumptions C31_tangent_refuted.

(** ** C32 *)
Theorem C32_distortional : forall (SV : Type) (fw : Framework SV) Dom f c a Q sv s g svn, isotropic_fw fw Dom -> Dom one2 ->
  orthogonal Q -> a <> 0 -> outcome (fw_gradient fw eye sv) (sp_mat s) = Ok (g, svn) ->
  outcome (dis_gradient fw (opts f c) (mscal a Q) sv) s = Ok (StressFull (fun _ _ => 0), svn).
Proof. exact (fun SV fw => distortional_stress_free fw). Qed.
Print Assumptions C32_distortional.
Theorem C32_distortional_invariants : forall (SV : Type) (m : InvModel SV) f c a Q sv s g svn,
  orthogonal Q -> a <> 0 -> inv_call m (vec3 3 3 1) sv = Ok (g, svn) ->
  outcome (dis_gradient (invariants_fw m) (opts f c) (mscal a Q) sv) s = Ok (StressFull (fun _ _ => 0), svn).
Proof.
  intros SV m f c a Q sv s g svn HQ Ha E.
  assert (J : Jv eye = vec3 3 3 1).
  { apply functional_extensionality; intro k. unfold Jv. destruct k; unfold trace, ddot22, det, weights, eye, sum6; cbn; field. }
  rewrite <- J in E.
  refine (C32_distortional SV _ invertible f c a Q sv s (gradv eye g) svn (invariants_isotropic m) _ HQ Ha _).
  - unfold invertible. rewrite det3_one. lra.
  - cbn [invariants_fw fw_gradient]. unfold outcome. rewrite (inv_gradient_ok m _ _ _ _ _ E). reflexivity.
Qed.
Print Assumptions C32_distortional_invariants.
Theorem C32_deformation : forall (SV : Type) (fw : Framework SV) f c Q sv s g svn,
  orthogonal Q -> outcome (fw_gradient fw eye sv) (sp_mat s) = Ok (g, svn) ->
  (outcome (def_gradient fw (opts f c) Q sv) s = Ok (StressFull (fun _ _ => 0), svn) <-> (forall v, g v = 0)).
Proof.
  intros SV fw f c Q sv s g svn HQ E. rewrite (deformation_stress_free fw f c Q sv s g svn HQ E). split.
  - intros -> v; reflexivity.
  - intro H; apply Vec6_ext; exact H.
Qed.
Print Assumptions C32_deformation.
(** Neo-Hooke without a volumetric part is not stress-free in the Deformation space. *)
Example C32_deformation_neo_hooke : forall c, c <> 0 ->
  outcome (def_gradient (nh c) (opts Deformed Undeformed) one2 tt) (space_self0 (nh c) inv_self0) <> Ok (StressFull (fun _ _ => 0), tt).
Proof.
  intros c Hc H. destruct (nh_constant c eye tt inv_self0) as [[[] E] _].
  assert (O : orthogonal one2). { apply orthogonal_eq. rewrite mtr_one. apply mmul_1_l. }
  pose proof (proj1 (C32_deformation unit (nh c) Deformed Undeformed one2 tt (space_self0 (nh c) inv_self0) _ tt O E) H) as Z. clear H; rename Z into H.
  specialize (H V0). unfold vscal, eye in H; cbn in H. lra.
Qed.

(** ** C33 *)
Theorem C33_pressure : forall (SV : Type) (fw : Framework SV) F sv s S svn, invertible F ->
  outcome (dil_gradient fw (opts Undeformed Undeformed) F sv) s = Ok (StressFull S, svn) ->
  exists p, (forall i j, S i j = p * inv3 (cauchy_green F) i j) /\
  exists sigma, outcome (dil_gradient fw (opts Deformed Deformed) F sv) s = Ok (StressFull sigma, svn) /\
    forall i j, sigma i j = p / Rabs (det3 F) * one2 i j.
Proof.
  intros SV fw F sv s S svn N E. destruct (dil_pressure fw F sv s S svn N E) as [p H]. exists p. split; [exact H|].
  destruct (configurations fw KDilatational Deformed Deformed F sv s N) as [E2 _].
  cbn [sp_gradient] in E2. rewrite E in E2. cbn [rmap fst snd on_full leg per_area] in E2.
  eexists. split; [exact E2|]. intros i j. rewrite <- (push_inv F N).
  unfold mscal, mmul, sum3. rewrite !H. unfold Rdiv; ring.
Qed.
Print Assumptions C33_pressure.
(** Missing for the full claim: energies that are not linear in C (refuted below). *)
Theorem C33_linear_partial : forall (SV : Type) (fw : Framework SV) g, constant_fw fw g ->
  sp_gradient_of (dil_gradient fw default_opts) (fun F => dc22 (astensor g) (dilatational_part (cauchy_green F))) invertible /\
  sp_hessian_of (dil_gradient fw default_opts) (dil_hessian fw default_opts) invertible.
Proof. exact (fun SV fw g H => conj (dilatational_linear_grad fw g H) (dilatational_linear_hess fw g H)). Qed.
Print Assumptions C33_linear_partial.
(** What the space computes for every energy: with G the derivative of the energy at the tensor
    the framework is given, J^(2/3) C (not J^(2/3) 1), the stress is conjugate to the rate of
    G : J^(2/3) 1 along every motion. *)
Theorem C33_actual_stress : forall (SV : Type) (fw : Framework SV) F t0 dF sv s G svn,
  dcurve2 F t0 dF -> invertible (F t0) ->
  outcome (fw_gradient fw (asvoigt (mscal (Rpower (det3 (cauchy_green (F t0))) (1/3)) (cauchy_green (F t0)))) sv) (sp_mat s) = Ok (G, svn) ->
  exists P, outcome (dil_gradient fw default_opts (F t0) sv) s = Ok (StressFull P, svn) /\
    is_derive (fun t => dc22 (astensor G) (dilatational_part (cauchy_green (F t)))) t0 (dc22 P dF).
Proof. exact (fun SV => dilatational_actual_stress). Qed.
Print Assumptions C33_actual_stress.
Theorem C33_neo_hooke : forall c,
  let fw := invariants_fw (tod_model (SV:=unit) (tod_init c 0 0 0 0 false)) in
  sp_gradient_of (dil_gradient fw default_opts) (fun F => c * (inv1 (dilatational_part (cauchy_green F)) - 3)) invertible /\
  sp_hessian_of (dil_gradient fw default_opts) (dil_hessian fw default_opts) invertible.
Proof.
  intros c fw. destruct (C33_linear_partial unit fw _ (nh_constant c)) as [H1 H2]. split; [|exact H2].
  intros F t0 dF HF N sv s. destruct (H1 F t0 dF HF N sv s) as (P & svn & R & D). exists P, svn. split; [exact R|].
  eapply Calc.D_eq with (l := dc22 P dF - 0); [|ring].
  eapply Calc.D_ext; [|exact (Calc.D_minus _ _ _ _ _ D (Calc.D_const (3 * c) t0))].
  intro t. cbv beta. unfold dc22, astensor, vscal, eye, inv1, tr2, dilatational_part, mscal, one2, delta, sum3; cbn. ring.
Qed.
Print Assumptions C33_neo_hooke.
(** psi = (I1 - 3)^2: neither the stress nor the tangent is right. *)
Theorem C33_refuted :
  let fw := invariants_fw (tod_model (SV:=unit) (tod_init 0 0 0 1 0 false)) in
  fw_gradient_of fw (fun C => 0 * (inv1 C - 3) + 0 * (inv2 C - 3) + 0 * ((inv1 C - 3) * (inv2 C - 3)) + 1 * (inv1 C - 3) ^ 2 + 0 * (inv1 C - 3) ^ 3) invertible /\
  fw_hessian_of fw invertible /\
  ~ sp_gradient_of (dil_gradient fw default_opts) (fun F => (inv1 (dilatational_part (cauchy_green F)) - 3) ^ 2) invertible /\
  ~ sp_hessian_of (dil_gradient fw default_opts) (dil_hessian fw default_opts) invertible.
Proof.
  intro fw. split; [exact (C14_third_order_deformation unit 0 0 0 1 0 false)|split; [|split]].
  - apply C15_third_order_deformation.
  - exact dilatational_grad_refuted.
  - exact dilatational_hess_refuted.
Qed.
Print Assumptions C33_refuted.

(** ** C34 *)
Theorem C34_invariants : forall (SV : Type) a (m : InvModel SV), proportional a (invariants_fw m) (invariants_fw (scale_inv a m)).
Proof. exact (fun SV => invariants_prop). Qed.
Print Assumptions C34_invariants.
Theorem C34_stretches : forall (SV : Type) lapack a (m m' : StretchModel SV), proportional_sm a m m' ->
  proportional a (stretches_fw lapack m) (stretches_fw lapack m').
Proof. exact (fun SV => stretches_prop). Qed.
Print Assumptions C34_stretches.
Theorem C34_generalized : forall (SV : Type) a (m : InvModel SV) fs c,
  proportional_sm a (gen_model m fs c) (gen_model (scale_inv a m) fs c).
Proof. exact (fun SV => gen_prop). Qed.
Print Assumptions C34_generalized.
(** Scaling the parameters of the shipped models is scaling the energy. *)
Theorem C34_ogden : forall (SV : Type) a mu alpha,
  proportional_sm a (ogden_model (SV:=SV) {| og_mu := mu; og_alpha := alpha |})
                    (ogden_model {| og_mu := map (Rmult a) mu; og_alpha := alpha |}).
Proof. exact (fun SV a mu alpha => ogden_prop a {| og_mu := mu; og_alpha := alpha |}). Qed.
Print Assumptions C34_ogden.
Theorem C34_third_order_deformation : forall (SV : Type) a c10 c01 c11 c20 c30 strain, a <> 0 ->
  proportional a (invariants_fw (tod_model (SV:=SV) (tod_init c10 c01 c11 c20 c30 strain)))
    (invariants_fw (tod_model (tod_init (a * c10) (a * c01) (a * c11) (a * c20) (a * c30) strain))).
Proof.
  intros SV a c10 c01 c11 c20 c30 strain Ha.
  change (tod_init (a * c10) (a * c01) (a * c11) (a * c20) (a * c30) strain) with (tod_scale a (tod_init c10 c01 c11 c20 c30 strain)).
  rewrite tod_scaled_eq by auto. apply C34_invariants.
Qed.
Print Assumptions C34_third_order_deformation.
Theorem C34_space_stress : forall (SV : Type) a (fw fw' : Framework SV) k o F sv s s', proportional a fw fw' ->
  outcome (sp_gradient k fw' o F sv) s' = rmap (fun r => (scale_stress a (fst r), snd r)) (outcome (sp_gradient k fw o F sv) s).
Proof. exact (fun SV a fw fw' k o F sv s s' H => space_prop_grad a fw fw' H k o F sv s s'). Qed.
Print Assumptions C34_space_stress.
(** Missing for the full claim: the Distortional tangent if only one of the two material
    tangents is below the tolerance (refuted below). *)
Theorem C34_space_tangent_partial : forall (SV : Type) a (fw fw' : Framework SV) k o F sv s s', proportional a fw fw' ->
  (k = KDistortional -> significant_at fw F /\ significant_at fw' F) ->
  outcome (sp_hessian k fw' o F sv) s' = rmap (scale_elast a) (outcome (sp_hessian k fw o F sv) s).
Proof. exact (fun SV a fw fw' k o F sv s s' H => space_prop_hess a fw fw' H k o F sv s s'). Qed.
Print Assumptions C34_space_tangent_partial.
Theorem C34_space_tangent_refuted : forall c, 0 < c <= / 10 ^ 9 ->
  let fw a := invariants_fw (tod_model (SV:=unit) (tod_init 0 0 0 a 0 false)) in
  proportional c (fw 1) (fw c) /\
  exists F, invertible F /\ forall s s',
    outcome (dis_hessian (fw c) default_opts F tt) s' <> rmap (scale_elast c) (outcome (dis_hessian (fw 1) default_opts F tt) s).
Proof.
  intros c Hc fw. split; [apply tod20_proportional; lra|]. exists (Fd 0). split; [apply Fd_inv|].
  exact (distortional_scale_refuted c Hc).
Qed.
Print Assumptions C34_space_tangent_refuted.

(** ** Concrete cases for C27, C28, C29, C33 and C34 *)
(** C27, C28, C29, C33, C34: every call of the shipped model returns, for every F, so the hypotheses
    "outcome ... = Ok ..." are met; here with all five coefficients, a sheared body and full tensors. *)
Lemma tod_runs {SV} (m : TOD) k o F (sv : SV) s : exists T d C4 ic,
  outcome (sp_gradient k (invariants_fw (tod_model m)) o F sv) s = Ok (piola_stress o F T d, sv) /\
  outcome (sp_hessian k (invariants_fw (tod_model m)) o F sv) s = Ok (piola_elast o F T d C4 ic).
Proof.
  set (fw := invariants_fw (tod_model m)). set (C := seen k (right_CG F)).
  assert (SY : sym2 (astensor C)) by apply astensor_sym.
  assert (EC : asvoigt (astensor C) = C) by (apply Vec6_ext; intro v; apply asvoigt_astensor).
  destruct (tod_call m (invariants (astensor C)) sv) as (g & E & _).
  assert (G : exists r, returns (fw_gradient fw (asvoigt (astensor C)) sv) (sp_mat s) r) by (apply (C16_gradient_returns SV (tod_model m) _ _ _ SY); eexists; exact E).
  destruct G as ([G svn] & ms & EG). rewrite EC in EG.
  assert (svn = sv).
  { assert (X := C22_returned_state SV (tod_model m) (astensor C) sv (sp_mat s) G svn SY). rewrite EC in X. destruct (X (ex_intro _ ms EG)) as (g' & E'). rewrite E in E'. now injection E'. }
  subst svn. destruct (C16_third_order_deformation SV m (astensor C) sv ms SY) as (H & ms' & EH). rewrite EC in EH.
  eexists. eexists. eexists. eexists. split.
  - apply (sp_gradient_ok fw o k F sv s G sv). exact (f_equal snd EG).
  - rewrite (sp_hessian_ok fw o k F sv s G sv ms EG). replace (outcome (fw_hessian fw (seen k (right_CG F)) sv) ms) with (Ok H) by (symmetry; exact (f_equal snd EH)). reflexivity.
Qed.
Definition tod_ex : Framework unit := invariants_fw (tod_model (tod_init 1 2 3 4 5 false)).
Lemma full_stress f a F T d : exists P, piola_stress (opts f a) F T d = StressFull P.
Proof. unfold piola_stress; cbn. eexists; reflexivity. Qed.
Lemma full_elast f a F T d C4 ic : exists A, piola_elast (opts f a) F T d C4 ic = ElastFull A.
Proof. destruct f, a, ic; unfold piola_elast; cbn; eexists; reflexivity. Qed.
Example C27_example : forall k f a s, symmetric_hessian tod_ex /\ exists A, outcome (sp_hessian k tod_ex (opts f a) F_shear tt) s = Ok (ElastFull A).
Proof.
  intros k f a s. split; [apply C27_invariants|]. destruct (tod_runs (tod_init 1 2 3 4 5 false) k (opts f a) F_shear tt s) as (T & d & C4 & ic & _ & E).
  destruct (full_elast f a F_shear T d C4 ic) as [A EA]. exists A. rewrite <- EA. exact E.
Qed.
Example C28_example : forall k f a s, invertible F_shear /\
  (exists P, outcome (sp_gradient k tod_ex (opts f a) F_shear tt) s = Ok (StressFull P, tt)) /\
  (exists V C4, outcome (sp_gradient k tod_ex (raw f a) F_shear tt) s = Ok (StressVoigt V, tt) /\
                outcome (sp_hessian k tod_ex (raw f a) F_shear tt) s = Ok (ElastVoigt C4)).
Proof.
  intros k f a s. split; [unfold invertible, det3, F_shear, delta; cbn; lra|]. split.
  - destruct (tod_runs (tod_init 1 2 3 4 5 false) k (opts f a) F_shear tt s) as (T & d & C4 & ic & E & _).
    destruct (full_stress f a F_shear T d) as [P EP]. exists P. rewrite <- EP. exact E.
  - destruct (tod_runs (tod_init 1 2 3 4 5 false) k (raw f a) F_shear tt s) as (T & d & C4 & ic & E & E'). exists T, C4. split; [exact E|exact E'].
Qed.
Example C29_example : forall s, invertible F_shear /\ exists P, outcome (dis_gradient tod_ex (opts Undeformed Undeformed) F_shear tt) s = Ok (StressFull P, tt).
Proof. intro s. destruct (C28_example KDistortional Undeformed Undeformed s) as (A & B & _). auto. Qed.
Example C33_example : forall s, invertible F_shear /\ exists P, outcome (dil_gradient tod_ex (opts Undeformed Undeformed) F_shear tt) s = Ok (StressFull P, tt).
Proof. intro s. destruct (C28_example KDilatational Undeformed Undeformed s) as (A & B & _). auto. Qed.
(** C34: a = 7, and the tangent theorem in Deformation and Dilatational needs nothing more. *)
Example C34_example : forall k s s', k <> KDistortional ->
  outcome (sp_hessian k (invariants_fw (tod_model (SV:=unit) (tod_init 7 14 21 28 35 false))) (opts Deformed Undeformed) F_shear tt) s' =
  rmap (scale_elast 7) (outcome (sp_hessian k tod_ex (opts Deformed Undeformed) F_shear tt) s).
Proof.
  intros k s s' K. apply C34_space_tangent_partial; [|intro; contradiction].
  assert (P := C34_third_order_deformation unit 7 1 2 3 4 5 false ltac:(lra)).
  replace 7 with (7 * 1) at 2 by ring. replace 14 with (7 * 2) by ring. replace 21 with (7 * 3) by ring. replace 28 with (7 * 4) by ring. replace 35 with (7 * 5) by ring. exact P.
Qed.
