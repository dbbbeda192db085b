(** Stress and tangent of the spaces (C25, C26, C29 - C33). *)
From Coq Require Import Reals Lra FunctionalExtensionality.
From Coquelicot Require Import Coquelicot.
From Verif Require Import Tensor Py Voigt VoigtProofs Algebra Calc Models Frameworks Spaces Spec VCalc ModelProofs GenProofs
  InvCore IsoProofs SpaceCore PiolaProofs.
Local Open Scope R_scope.

Lemma returns_outcome {S A} (call : PY S A) s a : returns call s a <-> outcome call s = Ok a.
Proof.
  unfold returns, outcome. split.
  - intros [s' ->]; reflexivity.
  - destruct (call s) as [s' r]; cbn; intros ->; eauto.
Qed.

(** *** Contracts in reduced storage *)
Section C6.
  Context {SV : Type} (fw : Framework SV).
  Lemma fw_grad6 W Dom : fw_gradient_of fw W Dom ->
    forall (c : R -> Vec6) t0 dc, dcurve6 c t0 dc -> Dom (astensor (c t0)) -> forall sv s, exists g svn,
    outcome (fw_gradient fw (c t0) sv) s = Ok (g, svn) /\
    is_derive (fun t => W (astensor (c t))) t0 (ddot22 g dc).
  Proof.
    intros H c t0 dc Hc D sv s.
    destruct (H (fun t => astensor (c t)) t0 (astensor dc) (fun t => astensor_sym _) (dcurve_tensor _ _ _ Hc) D sv s) as (g & svn & E & Hd).
    cbv beta in E. rewrite asvoigt_astensor_f in E. exists g, svn. split; [apply returns_outcome; auto|].
    rewrite ddot22_full. exact Hd.
  Qed.
  Lemma fw_hess6 Dom : fw_hessian_of fw Dom ->
    forall (c : R -> Vec6) t0 dc, dcurve6 c t0 dc -> Dom (astensor (c t0)) -> forall sv s, exists H,
    outcome (fw_hessian fw (c t0) sv) s = Ok H /\
    forall (svt : R -> SV) (st : R -> fw_self fw) (G : R -> Vec6),
      locally t0 (fun t => exists svn, outcome (fw_gradient fw (c t) (svt t)) (st t) = Ok (G t, svn)) ->
      dcurve6 G t0 (ddot42 H dc).
  Proof.
    intros H c t0 dc Hc D sv s.
    destruct (H (fun t => astensor (c t)) t0 (astensor dc) (fun t => astensor_sym _) (dcurve_tensor _ _ _ Hc) D sv s) as (K & E & Hd).
    cbv beta in E. rewrite asvoigt_astensor_f in E. exists K. split; [apply returns_outcome; auto|].
    intros svt st G HG. assert (X : dcurve2 (fun t => astensor (G t)) t0 (dc42 (astensor4 K) (astensor dc))).
    { apply Hd with svt st. revert HG; apply filter_imp; intros t [svn HE]. exists svn. rewrite asvoigt_astensor_f. apply returns_outcome; auto. }
    intro v. specialize (X (vi v) (vj v)). rewrite <- ddot42_full in X.
    assert (AV : forall a : Vec6, astensor a (vi v) (vj v) = a v) by (intro a; destruct v; reflexivity).
    rewrite AV in X. apply D_ext with (fun t => astensor (G t) (vi v) (vj v)); auto.
  Qed.
  (** The gradient does not depend on state variables or attributes. *)
  Lemma fw_grad_unique W Dom : fw_gradient_of fw W Dom -> forall c, Dom (astensor c) ->
    forall sv s g svn sv' s' g' svn', outcome (fw_gradient fw c sv) s = Ok (g, svn) ->
    outcome (fw_gradient fw c sv') s' = Ok (g', svn') -> g = g'.
  Proof.
    intros H c D sv s g svn sv' s' g' svn' E E'. apply Vec6_ext; intro v.
    set (e := fun w => match ix6_leb v w, ix6_leb w v with true, true => 1 | _, _ => 0 end : R).
    set (l := fun t w => c w + t * e w).
    assert (L0 : l 0 = c) by (apply Vec6_ext; intro; unfold l; ring).
    assert (HL : dcurve6 l 0 e).
    { intro w. unfold l. eapply D_eq. apply D_plus; [apply D_const|]. apply D_scalr. apply D_id. ring. }
    destruct (fw_grad6 W Dom H l 0 e HL) with (sv := sv) (s := s) as (g1 & sv1 & E1 & D1). { rewrite L0; auto. }
    destruct (fw_grad6 W Dom H l 0 e HL) with (sv := sv') (s := s') as (g2 & sv2 & E2 & D2). { rewrite L0; auto. }
    rewrite L0 in E1, E2. rewrite E in E1. rewrite E' in E2. injection E1 as <- _. injection E2 as <- _.
    assert (X := D_unique _ _ _ _ D1 D2). revert X. unfold ddot22, sum6, e, weights. destruct v; cbn; lra.
  Qed.
End C6.

(** *** Kinematics *)
Definition dCG (F dF : T2) : T2 := fun i j => sum3 (fun k => dF k i * F k j + F k i * dF k j).
Lemma right_CG_D F t0 dF : dcurve2 F t0 dF -> dcurve6 (fun t => right_CG (F t)) t0 (asvoigt (dCG (F t0) dF)).
Proof. intros H v. unfold right_CG, asvoigt, dCG. dsolve. unfold sum3; cbn; ring. Qed.
Lemma stress_power F dF S : dc22 (mmul F (astensor S)) dF = ddot22 S (asvoigt (dCG F dF)) / 2.
Proof. unfold dc22, mmul, ddot22, dCG, asvoigt, astensor, weights, sum3, sum6; cbn. field. Qed.
Lemma tangent_D F t0 dF S C4 : dcurve2 F t0 dF ->
  dcurve6 S t0 (fun v => ddot42 C4 (asvoigt (dCG (F t0) dF)) v / 2) ->
  dcurve2 (fun t => mmul (F t) (astensor (S t))) t0
    (dc42 (t4add (legs13 (F t0) (astensor4 C4)) (geo one2 (astensor (S t0)))) dF).
Proof.
  intros HF HS i j. unfold mmul.
  eapply D_eq. { apply (D_sum3 (fun t k => F t i k * astensor (S t) k j)). intro k. apply D_mult; [apply HF|apply (HS (vix k j))]. }
  cbv beta.
  assert (G : dc42 (geo one2 (astensor (S t0))) dF i j = sum3 (fun k => dF i k * astensor (S t0) k j)).
  { unfold dc42, geo, one2, delta, sum3. rewrite !(astensor_sym (S t0) j). destruct i; cbn; ring. }
  assert (E : dc42 (t4add (legs13 (F t0) (astensor4 C4)) (geo one2 (astensor (S t0)))) dF i j =
     dc42 (legs13 (F t0) (astensor4 C4)) dF i j + dc42 (geo one2 (astensor (S t0))) dF i j).
  { unfold dc42, t4add, sum3; ring. }
  rewrite E, G.
  assert (M : dc42 (legs13 (F t0) (astensor4 C4)) dF i j = sum3 (fun k => F t0 i k * (ddot42 C4 (asvoigt (dCG (F t0) dF)) (vix k j) / 2))).
  { unfold dc42, legs13, ddot42, dCG, asvoigt, astensor4, weights, sum3, sum6. cbn. field. }
  rewrite M. unfold sum3, astensor; ring.
Qed.

(** What the default options return. *)
Lemma default_stress F S d : piola_stress default_opts F S d = StressFull (mmul F (astensor S)).
Proof. reflexivity. Qed.
Lemma default_elast F S d C4 ic : piola_elast default_opts F S d C4 ic =
  ElastFull (t4add (legs13 F (astensor4 C4)) (geo one2 (astensor S))).
Proof. rewrite piola_elast_eq by reflexivity. reflexivity. Qed.

Section Sp.
  Context {SV : Type} (fw : Framework SV).
  Notation o := default_opts.

  Lemma pos_right_CG F : invertible F -> det (right_CG F) > 0.
  Proof. intro N. rewrite det_right_CG. unfold invertible in N. assert (0 < (det3 F)²) by (apply Rsqr_pos_lt; auto). unfold Rsqr in *. lra. Qed.

  (** If S is half the derivative of [W] w.r.t. C, then P is its derivative w.r.t. F. *)
  Lemma space_grad (k : SpaceKind) (W : T2 -> R) (Dom : T2 -> Prop) :
    (forall c t0 dc, dcurve6 c t0 dc -> Dom (astensor (c t0)) -> (k <> KDeformation -> det (c t0) > 0) -> forall sv s, exists g svn,
       outcome (fw_gradient fw (seen k (c t0)) sv) s = Ok (g, svn) /\
       is_derive (fun t => W (astensor (c t))) t0 (ddot22 (kS k (c t0) g) dc / 2)) ->
    sp_gradient_of (sp_gradient k fw o) (fun F => W (cauchy_green F)) (fun F => (k <> KDeformation -> invertible F) /\ Dom (cauchy_green F)).
  Proof.
    intros H F t0 dF HF [N D] sv s.
    assert (HC := right_CG_D F t0 dF HF).
    destruct (H _ _ _ HC) with (sv := sv) (s := sp_mat s) as (g & svn & E & Hd).
    { rewrite right_CG_full; auto. } { intro NK. apply pos_right_CG; auto. }
    eexists _, svn. split.
    - apply returns_outcome. rewrite (sp_gradient_ok fw o _ _ _ _ _ _ E). rewrite default_stress. reflexivity.
    - rewrite stress_power. apply D_ext with (2 := Hd). intro t. rewrite right_CG_full. reflexivity.
  Qed.
  Definition fcall (c : Vec6) (sv : SV) (s : fw_self fw) : Vec6 :=
    match outcome (fw_gradient fw c sv) s with Ok (g, _) => g | Raise _ => vzero end.
  (** If C4/2 is the derivative of S w.r.t. C, then A is the derivative of P w.r.t. F. *)
  Lemma space_hess (k : SpaceKind) (Dom : T2 -> Prop) :
    (forall c t0 dc, dcurve6 c t0 dc -> Dom (astensor (c t0)) -> (k <> KDeformation -> det (c t0) > 0) -> forall sv s, exists g svn ms H,
       fw_gradient fw (seen k (c t0)) sv s = (ms, Ok (g, svn)) /\
       outcome (fw_hessian fw (seen k (c t0)) sv) ms = Ok H /\
       forall (svt : R -> SV) (st : R -> fw_self fw) (G : R -> Vec6),
       locally t0 (fun t => exists svn, outcome (fw_gradient fw (seen k (c t)) (svt t)) (st t) = Ok (G t, svn)) ->
       kS k (c t0) (G t0) = kS k (c t0) g /\
       dcurve6 (fun t => kS k (c t) (G t)) t0 (fun v => ddot42 (kC4 k (c t0) g H) dc v / 2)) ->
    sp_hessian_of (sp_gradient k fw o) (sp_hessian k fw o) (fun F => (k <> KDeformation -> invertible F) /\ Dom (cauchy_green F)).
  Proof.
    intros Hyp F t0 dF HF [N D] sv s.
    assert (HC := right_CG_D F t0 dF HF).
    destruct (Hyp _ _ _ HC) with (sv := sv) (s := sp_mat s) as (g & svn & ms & H & E & EH & Hd).
    { rewrite right_CG_full; auto. } { intro NK. apply pos_right_CG; auto. }
    eexists. split.
    - apply returns_outcome. rewrite (sp_hessian_ok fw o _ _ _ _ _ _ _ E), EH, default_elast. reflexivity.
    - intros svt st P HP.
      set (G := fun t => fcall (seen k (right_CG (F t))) (svt t) (sp_mat (st t))).
      assert (L : locally t0 (fun t => (exists svn, outcome (fw_gradient fw (seen k (right_CG (F t))) (svt t)) (sp_mat (st t)) = Ok (G t, svn))
                      /\ P t = mmul (F t) (astensor (kS k (right_CG (F t)) (G t))))).
      { revert HP; apply filter_imp; intros t [svn' HR]. apply returns_outcome in HR.
        destruct (outcome (fw_gradient fw (seen k (right_CG (F t))) (svt t)) (sp_mat (st t))) as [[g' sv']|e] eqn:E'.
        - rewrite (sp_gradient_ok fw o _ _ _ _ _ _ E') in HR. rewrite default_stress in HR. injection HR as <- <-.
          unfold G, fcall. rewrite E'. eauto.
        - rewrite (sp_gradient_raise fw o _ _ _ _ _ E') in HR. discriminate. }
      destruct (Hd svt (fun t => sp_mat (st t)) G) as [E0 HS].
      { revert L; apply filter_imp; intros t [X _]; exact X. }
      assert (T := tangent_D F t0 dF _ _ HF HS). cbv beta in T. rewrite E0 in T.
      intros i j. apply D_ext_loc with (2 := T i j).
      revert L; apply filter_imp; intros t [_ ->]. reflexivity.
  Qed.
End Sp.
