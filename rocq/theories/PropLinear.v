(** * Property C61, second part: linear elasticity at the undeformed state. *)
From Coq Require Import Reals Lra Lia List String FunctionalExtensionality.
From Coquelicot Require Import Coquelicot.
From Verif Require Import Tensor Py Voigt VoigtProofs Algebra Calc Models ModelProofs Frameworks Spaces Spec GenProofs InvProofs StrMore IsoProofs SpaceCore PiolaProofs SpaceProofs DistProofs SpecialProofs
  Lab LabSpec LabMech LabCurves CurveSpec CurveOgden NDLinks2 PropModels PropInvariants PropStretches PropSpaces PropLab PropCurves PropSym PrinProofs PropPrincipal SlopeSpec LinProofs PropSlopes.
Import ListNotations.
Local Open Scope R_scope.

(** Slopes are unique. *)
Lemma slope_unique curve u v : initial_slope curve u -> initial_slope curve v -> u = v.
Proof.
  intros (f & F & _ & D) (g & G & _ & E).
  assert (EQ : forall x, 0 < x -> f x = g x).
  { intros x P. assert (P' : forall y, In y [x] -> 0 < y) by (intros y [<-|[]]; exact P). assert (A := F [x] P'). rewrite (G [x] P') in A. cbn in A. congruence. }
  rewrite <- (is_derive_unique _ _ _ E). symmetry. apply is_derive_unique.
  apply (is_derive_ext_loc f); [|exact D]. apply PropCurves.near_pos; [lra|exact EQ].
Qed.
Section Gen.
  Context (SV : Type) (fw : Framework SV) (W : T2 -> R) (HG : fw_gradient_of fw W posdef) (HI : isotropic_gradient fw posdef) (none : SV) (s0 : SpaceSelf (fw_self fw)).
  Definition Pof (F : T2) : T2 := match outcome (dis_gradient fw default_opts F none) s0 with Ok (StressFull P, _) => P | _ => fun _ _ => 0 end.
  Lemma Pof_ok F0 t0 dF : dcurve2 F0 t0 dF -> invertible (F0 t0) ->
    (exists svn, returns (dis_gradient fw default_opts (F0 t0) none) s0 (StressFull (Pof (F0 t0)), svn)) /\
    is_derive (fun t => W (distortional_part (cauchy_green (F0 t)))) t0 (dc22 (Pof (F0 t0)) dF).
  Proof.
    intros D N. destruct (C30_stress SV fw W posdef HG F0 t0 dF D (conj N (argument_posdef KDistortional _ N)) none s0) as (P & svn & [s' E] & D').
    unfold Pof, outcome. rewrite E. cbn. split; [exists svn, s'; exact E|exact D'].
  Qed.
  Lemma case_det lc l dl n : path_of_case lc l dl n -> forall t, 0 < t -> det3 (lc t) = 1.
  Proof. intros C t T. destruct C as [(-> & _)|[(-> & _)|(-> & _)]]; [apply uniaxial_det; exact T|apply planar_det; lra|apply biaxial_det; lra]. Qed.
  Lemma case_F lc l dl n : path_of_case lc l dl n -> forall t, 0 < t -> dcurve2 lc t (dgm (dl t X0) (dl t X1) (dl t X2)).
  Proof.
    intros C t T i j. apply (is_derive_ext_loc (fun t => dgm (l t X0) (l t X1) (l t X2) i j)).
    - apply PropCurves.near_pos; [exact T|]. intros x X. rewrite (case_dgm lc l dl n C x X). reflexivity.
    - assert (D := case_D lc l dl n C t T). destruct i, j; cbn; try apply D_const; apply D.
  Qed.
  Lemma case_seen lc l dl n : path_of_case lc l dl n -> forall t, 0 < t -> distortional_part (cauchy_green (lc t)) = cauchy_green (lc t).
  Proof.
    intros C t T. unfold distortional_part. assert (E : det3 (cauchy_green (lc t)) = 1).
    { unfold cauchy_green. rewrite VoigtProofs.det3_mmul. replace (det3 (mtr (lc t))) with (det3 (lc t)) by (unfold det3, mtr; ring). rewrite (case_det lc l dl n C t T). ring. }
    rewrite E. unfold Rpower. rewrite ln_1, Rmult_0_r, exp_0. apply T2_ext. intros i j. unfold mscal. ring.
  Qed.
  Lemma gen_curve lc l dl n sim p k xs : path_of_case lc l dl n -> simulates sim p lc k none fw -> incompressible_kind k -> (forall x, In x xs -> 0 < x) ->
    stress_curve_fit sim xs p = Ok (map (fun x => dc22 (Pof (lc x)) (dgm (dl x X0) (dl x X1) (dl x X2)) / n) xs).
  Proof.
    intros C S K P.
    assert (PD : forall x, In x xs -> 0 < x /\ posdef (cauchy_green (lc x))).
    { intros x I. split; [auto|]. rewrite (case_dgm lc l dl n C x (P x I)). apply dgm_pd; apply (case_pos lc l dl n C x (P x I)). }
    assert (N : n <> 0) by (destruct C as [(_ & _ & _ & ->)|[(_ & _ & _ & ->)|(_ & _ & _ & ->)]]; lra).
    assert (G : exists fs, stress_curve_fit sim xs p = Ok fs /\ List.Forall2 (fun x f => is_derive (fun t => W (cauchy_green (lc t))) x (n * f)) xs fs).
    { destruct C as [(-> & _ & _ & ->)|[(-> & _ & _ & ->)|(-> & _ & _ & ->)]].
      - destruct (C37_uniaxial SV sim p k none fw W posdef xs S K HG HI PD) as (fs & E & F). exists fs. split; [exact E|].
        clear - F. induction F as [|x y xs fs F1 F2 IH]; constructor; [rewrite Rmult_1_l; exact F1|exact IH].
      - destruct (C37_planar SV sim p k none fw W posdef xs S K HG HI PD) as (fs & E & F). exists fs. split; [exact E|].
        clear - F. induction F as [|x y xs fs F1 F2 IH]; constructor; [rewrite Rmult_1_l; exact F1|exact IH].
      - exact (C37_biaxial SV sim p k none fw W posdef xs S K HG HI PD). }
    destruct G as (fs & E & F). rewrite E. f_equal. apply (forall2_map _ _ _ _ F). intros x y I D. specialize (P x I).
    apply (Rmult_eq_reg_l n); [|exact N]. match goal with |- _ = n * (?X / n) => replace (n * (X / n)) with X by (field; exact N) end.
    assert (NI : invertible (lc x)) by (unfold invertible; rewrite (case_det lc l dl n C x P); lra).
    assert (D' := proj2 (Pof_ok lc x _ (case_F lc l dl n C x P) NI)).
    apply is_derive_unique in D'. rewrite <- D'. symmetry. apply is_derive_unique.
    apply (is_derive_ext_loc (fun t => W (cauchy_green (lc t)))); [|exact D]. apply PropCurves.near_pos; [exact P|]. intros t Pt. now rewrite (case_seen lc l dl n C t Pt).
  Qed.
End Gen.
(** For every isotropic hyperelastic material: there is one shear modulus mu such that
    - near the undeformed state, Distortional's first Piola-Kirchhoff stress changes by 2 mu times the deviatoric
      strain (any motion F(t), state variables and history), and
    - the slopes of the simulated uniaxial, planar and biaxial curves are 3 mu, 4 mu and 6 mu. *)
Theorem C61_linear_elasticity : forall (SV : Type) (fw : Framework SV) W Dom (none : SV) (s0 : fw_self fw),
  isotropic_fw fw posdef -> fw_gradient_of fw W posdef -> fw_hessian_of fw Dom -> Dom one2 -> exists mu,
  (forall F t0 H svt st P, dcurve2 F t0 H -> F t0 = one2 ->
    locally t0 (fun t => exists svn, returns (dis_gradient fw default_opts (F t) (svt t)) (st t) (StressFull (P t), svn)) ->
    (forall i j, P t0 i j = 0) /\ dcurve2 P t0 (fun i j => 2 * mu * dev_sym H i j)) /\
  forall sim p lc c k, unit_slope lc c -> simulates sim p lc k none fw -> incompressible_kind k ->
    initial_slope (fun xs => stress_curve_fit sim xs p) (c * mu).
Proof.
  intros SV fw W Dom none m0 HI HG HH D1.
  assert (HI' : isotropic_gradient fw posdef) by (intros Q C sv s A B D; exact (proj1 (HI Q C sv s A B D))).
  destruct (linear_stress fw W Dom HI HG HH D1 none m0) as [mu L]. exists mu. split; [exact L|].
  intros sim p lc c k U S K. destruct (case_path lc c U) as (l & dl & n & C). set (s0 := space_self0 fw m0).
  assert (CU := case_unit lc l dl n c C U).
  assert (N : n <> 0) by (destruct C as [(_ & _ & _ & ->)|[(_ & _ & _ & ->)|(_ & _ & _ & ->)]]; lra).
  destruct (case_iso lc l dl n C) as [ddl IP]. destruct (isochoric_facts _ _ _ IP) as [S1 _]. destruct IP as (L1 & _ & HD2 & _).
  assert (F1 : lc 1 = one2).
  { rewrite (case_dgm lc l dl n C 1 Rlt_0_1), !L1. apply T2_ext. intros [] []; reflexivity. }
  assert (LR : locally 1 (fun t => exists svn, returns (dis_gradient fw default_opts (lc t) none) s0 (StressFull (Pof SV fw none s0 (lc t)), svn))).
  { apply PropCurves.near_pos; [lra|]. intros t T. apply (proj1 (Pof_ok SV fw W HG none s0 lc t _ (case_F lc l dl n C t T)
      ltac:(unfold invertible; rewrite (case_det lc l dl n C t T); lra))). }
  destruct (L lc 1 _ (fun _ => none) (fun _ => s0) (fun t => Pof SV fw none s0 (lc t)) (case_F lc l dl n C 1 Rlt_0_1) F1 LR) as [P0 PD].
  exists (fun x => dc22 (Pof SV fw none s0 (lc x)) (dgm (dl x X0) (dl x X1) (dl x X2)) / n). split; [|split].
  - intros xs P. exact (gen_curve SV fw W HG HI' none s0 lc l dl n sim p k xs C S K P).
  - unfold dc22, sum3. rewrite !P0. unfold Rdiv. ring.
  - set (Pt := fun t => Pof SV fw none s0 (lc t)) in *.
    apply (is_derive_ext (fun t => / n * (Pt t X0 X0 * dl t X0 + Pt t X1 X1 * dl t X1 + Pt t X2 X2 * dl t X2))).
    { intro t. unfold dc22, dgm, sum3, Pt, Rdiv. cbn. ring. }
    eapply Calc.D_eq.
    { apply D_scal. exact (D_plus _ _ _ _ _ (D_plus _ _ _ _ _ (D_mult _ _ _ _ _ (PD X0 X0) (HD2 X0)) (D_mult _ _ _ _ _ (PD X1 X1) (HD2 X1))) (D_mult _ _ _ _ _ (PD X2 X2) (HD2 X2))). }
    cbv beta. rewrite !P0. unfold dev_sym, dgm, delta, sum3. cbn.
    replace c with (2 * ((dl 1 X0 ^ 2 + dl 1 X1 ^ 2 + dl 1 X2 ^ 2) / n)) by (rewrite CU; field).
    replace (dl 1 X2) with (- dl 1 X0 - dl 1 X1) by lra. field. exact N.
Qed.
Print Assumptions C61_linear_elasticity.
(** The simulation that runs a given framework in Distortional; used to identify mu. *)
Definition plain_sim {SV} (fw : Framework SV) (none : SV) (m0 : fw_self fw) : SimStatic :=
  {| si_loadcase := Uniaxial None; si_stretch := []; si_labels := []; si_material := fun _ => Ok (space_material none fw (space_self0 fw m0) (sp_gradient KDistortional fw default_opts)) |}.
Lemma plain_simulates {SV} (fw : Framework SV) none m0 : simulates (plain_sim fw none m0) [] uniaxial KDistortional none fw.
Proof. split; [reflexivity|]. exists (space_self0 fw m0). reflexivity. Qed.
Lemma uni_3 : unit_slope uniaxial 3. Proof. left; auto. Qed.
Theorem C61_linear_third_order_deformation : forall (SV : Type) (m : TOD) F t0 H (svt : R -> SV) st P, undeformed m = 3 -> dcurve2 F t0 H -> F t0 = one2 ->
  locally t0 (fun t => exists svn, returns (dis_gradient (invariants_fw (tod_model m)) default_opts (F t) (svt t)) (st t) (StressFull (P t), svn)) ->
  (forall i j, P t0 i j = 0) /\ dcurve2 P t0 (fun i j => 2 * (2 * (C10 m + C01 m)) * dev_sym H i j).
Proof.
  intros SV m F t0 H svt st P E. set (fw := invariants_fw (tod_model (SV:=SV) m)).
  assert (HI : isotropic_fw fw posdef) by (intros Q C sv s HQ S PD; exact (C17_invariants SV (tod_model m) Q C sv s HQ S (posdef_inv C S PD))).
  destruct (C61_linear_elasticity SV fw _ invertible (svt t0) inv_self0 HI (tod_fw_grad m) (C15_third_order_deformation SV m) ltac:(unfold invertible; rewrite <- dgm_one, dgm_det; lra)) as (mu & A & B).
  specialize (B _ _ _ _ _ uni_3 (plain_simulates fw (svt t0) inv_self0) (or_intror eq_refl)).
  assert (B' : initial_slope (fun xs => stress_curve_fit (plain_sim fw (svt t0) inv_self0) xs []) (3 * (2 * (C10 m + C01 m)))).
  { replace (C10 m + C01 m) with (tod_W1 m 3 3 + tod_W2 m 3 3) by (unfold tod_W1, tod_W2; rewrite E; ring).
    apply (C61_invariants SV _ [] uniaxial 3 KDistortional (svt t0) (tod_model m) (tod_W1 m) (tod_W2 m) (plain_simulates fw _ _) (or_intror eq_refl) uni_3).
    - intros I1 I2. destruct (tod_call m (vec3 I1 I2 1) (svt t0)) as (g & Eg & H1 & H2 & _). exists g, (svt t0). cbn [vec3] in H1, H2. rewrite H1, H2. split; [exact Eg|].
      unfold tod_W1, tod_W2. split; ring.
    - apply c33; unfold tod_W1; cbn [pow];
        repeat first [apply continuity_2d_pt_const | apply continuity_2d_pt_id1 | apply continuity_2d_pt_id2 | apply continuity_2d_pt_plus | apply continuity_2d_pt_minus | apply continuity_2d_pt_mult].
    - apply c33; unfold tod_W2; cbn [pow];
        repeat first [apply continuity_2d_pt_const | apply continuity_2d_pt_id1 | apply continuity_2d_pt_id2 | apply continuity_2d_pt_plus | apply continuity_2d_pt_minus | apply continuity_2d_pt_mult]. }
  assert (X := slope_unique _ _ _ B B'). intros D E0 HP. replace (2 * (C10 m + C01 m)) with mu by lra. exact (A F t0 H svt st P D E0 HP).
Qed.
Print Assumptions C61_linear_third_order_deformation.
Lemma one_separated : separated one2.
Proof.
  intros w v (O & E & _) a b. left.
  assert (G : forall c, w c = 1).
  { intro c. assert (Q := O c c). assert (E0 := E X0 c). assert (E1 := E X1 c). assert (E2 := E X2 c). unfold sum3, one2, delta in *. cbn in E0, E1, E2.
    replace (if ix3_eqb c c then 1 else 0) with 1 in Q by (destruct c; reflexivity).
    transitivity (w c * (v X0 c * v X0 c + v X1 c * v X1 c + v X2 c * v X2 c)); [rewrite Q; ring|].
    transitivity (w c * v X0 c * v X0 c + w c * v X1 c * v X1 c + w c * v X2 c * v X2 c); [ring|]. rewrite <- E0, <- E1, <- E2. lra. }
  rewrite !G. reflexivity.
Qed.
Theorem C61_linear_ogden : forall (SV : Type) lapack mu alpha F t0 H (svt : R -> SV) st P, lapack_legal lapack ->
  (forall m a, In (m, a) (combine mu alpha) -> a <> 0) -> dcurve2 F t0 H -> F t0 = one2 ->
  locally t0 (fun t => exists svn, returns (dis_gradient (stretches_fw lapack (ogden_model {| og_mu := mu; og_alpha := alpha |})) default_opts (F t) (svt t)) (st t) (StressFull (P t), svn)) ->
  (forall i j, P t0 i j = 0) /\ dcurve2 P t0 (fun i j => 2 * fold_right Rplus 0 (map fst (combine mu alpha)) * dev_sym H i j).
Proof.
  intros SV lapack mu alpha F t0 H svt st P HL HA D E0 HP. set (fw := stretches_fw lapack (ogden_model (SV:=SV) {| og_mu := mu; og_alpha := alpha |})) in *.
  assert (m0 : fw_self fw) by exact (sp_mat (st t0)).
  destruct (C61_linear_elasticity SV fw _ _ (svt t0) m0 (C17_ogden SV lapack _ HL) (W_grad SV lapack HL mu alpha HA) (C19_ogden SV lapack mu alpha HL HA) (conj one_posdef one_separated)) as (k & A & B).
  specialize (B _ _ _ _ _ uni_3 (plain_simulates fw (svt t0) m0) (or_intror eq_refl)).
  assert (B' := C61_ogden SV lapack mu alpha _ [] uniaxial 3 KDistortional (svt t0) HL HA uni_3 (or_intror eq_refl) (plain_simulates fw (svt t0) m0)).
  assert (X := slope_unique _ _ _ B B'). replace (fold_right Rplus 0 (map fst (combine mu alpha))) with k by lra. exact (A F t0 H svt st P D E0 HP).
Qed.
Print Assumptions C61_linear_ogden.
