(** * Property C57: material symmetry of the spaces. *)
From Coq Require Import Reals Lra FunctionalExtensionality.
From Verif Require Import Tensor Py Voigt VoigtProofs Algebra Models Frameworks Spaces Spec SymSpec InvCore IsoProofs HistProofs SpaceCore PiolaProofs SpaceProofs
  DistProofs ScaleProofs StrMore Counter SymAlg SymProofs PropInvariants PropStretches PropSpaces NDLinks2 SymCounter.
Local Open Scope R_scope.

(** ** Stress: any framework that is isotropic, any space and options, any orthogonal Q
    (reflections included), state variables and attribute values.  Both calls return, or raise
    the same exception. *)
Theorem C57_stress : forall (SV : Type) (fw : Framework SV) Dom, isotropic_gradient fw Dom ->
  forall o k Q F sv s, orthogonal Q -> invertible F -> Dom (argument k F) ->
  outcome (sp_gradient k fw o (mmul F (mtr Q)) sv) s =
    rmap (fun r => (turn_stress o Q (fst r), snd r)) (outcome (sp_gradient k fw o F sv) s).
Proof. exact (fun SV fw Dom => turn_gradient fw Dom). Qed.
Print Assumptions C57_stress.
Theorem C57_tangent_partial : forall (SV : Type) (fw : Framework SV) Dom, isotropic_fw fw Dom -> stateless_fw fw ->
  forall o k Q F sv s, orthogonal Q -> invertible F -> Dom (argument k F) ->
  (k = KDistortional -> significant_at fw F /\ significant_at fw (mmul F (mtr Q))) ->
  outcome (sp_hessian k fw o (mmul F (mtr Q)) sv) s = rmap (turn_elast o Q) (outcome (sp_hessian k fw o F sv) s).
Proof. exact (fun SV fw Dom => turn_hessian fw Dom). Qed.
Print Assumptions C57_tangent_partial.

(** What the two configurations of interest look like: the first Piola-Kirchhoff stress turns on
    its material leg, the Cauchy stress does not change at all, the second turns on both. *)
Lemma mmul_one_l A : mmul one2 A = A.
Proof. apply T2_ext; intros i j; destruct i; unfold mmul, one2, delta, sum3; cbn; ring. Qed.
Lemma mmul_one_r A : mmul A one2 = A.
Proof. apply T2_ext; intros i j; destruct j; unfold mmul, one2, delta, sum3; cbn; ring. Qed.
Lemma mtr_one : mtr one2 = one2.
Proof. apply T2_ext; intros i j; destruct i, j; reflexivity. Qed.
Theorem C57_shapes : forall Q P,
  turn_stress default_opts Q (StressFull P) = StressFull (mmul P (mtr Q)) /\
  turn_stress (opts Deformed Deformed) Q (StressFull P) = StressFull P /\
  turn_stress (opts Undeformed Undeformed) Q (StressFull P) = StressFull (mmul (mmul Q P) (mtr Q)).
Proof.
  intros Q P. cbn [turn_stress default_opts opts force area mleg]. rewrite mtr_one, mmul_one_l, mmul_one_r.
  repeat split.
Qed.
Print Assumptions C57_shapes.
(** The Cauchy stress of an isotropic body does not depend on how the body was turned first. *)
Theorem C57_cauchy : forall (SV : Type) (fw : Framework SV) Dom, isotropic_gradient fw Dom ->
  forall k Q F sv s, orthogonal Q -> invertible F -> Dom (argument k F) ->
  outcome (sp_gradient k fw (opts Deformed Deformed) (mmul F (mtr Q)) sv) s = outcome (sp_gradient k fw (opts Deformed Deformed) F sv) s.
Proof.
  intros SV fw Dom HG k Q F sv s HQ N D. rewrite (C57_stress SV fw Dom HG _ _ _ _ _ _ HQ N D).
  destruct (outcome (sp_gradient k fw (opts Deformed Deformed) F sv) s) as [[[P|V] svn]|e] eqn:E; cbn [rmap fst snd]; try reflexivity.
  - now rewrite (proj1 (proj2 (C57_shapes Q P))).
  - exfalso. destruct (outcome (fw_gradient fw (seen k (right_CG F)) sv) (sp_mat s)) as [[g svn']|e] eqn:E'.
    + rewrite (sp_gradient_ok fw _ _ _ _ _ _ _ E') in E. discriminate.
    + rewrite (sp_gradient_raise fw _ _ _ _ _ _ E') in E. discriminate.
Qed.
Print Assumptions C57_cauchy.

(** ** The models of the package *)
Lemma argument_posdef k F : invertible F -> posdef (argument k F).
Proof. intro N. rewrite <- argument_seen. now apply posdef_seen. Qed.
Lemma argument_inv k F : invertible F -> invertible (argument k F).
Proof.
  intro N. unfold argument, invertible. destruct k; [exact (cg_inv F N)|exact (dist_inv F N)|].
  assert (H : det3 (mscal (Rpower (det3 (cauchy_green F)) (1 / 3)) (cauchy_green F)) =
              Rpower (det3 (cauchy_green F)) (1 / 3) ^ 3 * det3 (cauchy_green F)) by (unfold det3, mscal; ring).
  rewrite H. apply Rmult_integral_contrapositive_currified; [|exact (cg_inv F N)].
  apply pow_nonzero, Rgt_not_eq, exp_pos.
Qed.
(** Every model of the invariants, whether of the package or not; every Ogden material; every
    GeneralizedInvariants material: in all three spaces and all options. *)
Theorem C57_models_stress : forall (SV : Type) o k Q F sv, orthogonal Q -> invertible F ->
  (forall (m : InvModel SV) s,
     outcome (sp_gradient k (invariants_fw m) o (mmul F (mtr Q)) sv) s =
     rmap (fun r => (turn_stress o Q (fst r), snd r)) (outcome (sp_gradient k (invariants_fw m) o F sv) s)) /\
  (forall lapack og s, lapack_legal lapack -> let fw := stretches_fw lapack (ogden_model (SV:=SV) og) in
     outcome (sp_gradient k fw o (mmul F (mtr Q)) sv) s =
     rmap (fun r => (turn_stress o Q (fst r), snd r)) (outcome (sp_gradient k fw o F sv) s)) /\
  (forall lapack (m : InvModel SV) fs c s, lapack_legal lapack -> let fw := stretches_fw lapack (gen_model m fs c) in
     outcome (sp_gradient k fw o (mmul F (mtr Q)) sv) s =
     rmap (fun r => (turn_stress o Q (fst r), snd r)) (outcome (sp_gradient k fw o F sv) s)).
Proof.
  intros SV o k Q F sv HQ N. split; [|split].
  - intros m s. apply C57_stress with (Dom := invertible); auto using argument_inv.
    intros Q' C sv' s' H1 H2 H3. exact (proj1 (C17_invariants SV m Q' C sv' s' H1 H2 H3)).
  - intros lapack og s HL fw. apply C57_stress with (Dom := posdef); auto using argument_posdef.
    intros Q' C sv' s' H1 H2 H3. exact (proj1 (C17_ogden SV lapack og HL Q' C sv' s' H1 H2 H3)).
  - intros lapack m fs c s HL fw. apply C57_stress with (Dom := posdef); auto using argument_posdef.
    exact (proj1 (C17_generalized SV lapack m fs c HL)).
Qed.
Print Assumptions C57_models_stress.
Theorem C57_models_tangent_partial : forall (SV : Type) o k Q F sv, orthogonal Q -> invertible F -> k <> KDistortional ->
  (forall (m : InvModel SV) s,
     outcome (sp_hessian k (invariants_fw m) o (mmul F (mtr Q)) sv) s =
     rmap (turn_elast o Q) (outcome (sp_hessian k (invariants_fw m) o F sv) s)) /\
  (forall lapack og s, lapack_legal lapack -> let fw := stretches_fw lapack (ogden_model (SV:=SV) og) in
     outcome (sp_hessian k fw o (mmul F (mtr Q)) sv) s = rmap (turn_elast o Q) (outcome (sp_hessian k fw o F sv) s)).
Proof.
  intros SV o k Q F sv HQ N K. split.
  - intros m s. apply C57_tangent_partial with (Dom := invertible); auto using argument_inv, C17_invariants, C23_invariants; contradiction.
  - intros lapack og s HL fw. apply C57_tangent_partial with (Dom := posdef); auto using argument_posdef.
    + exact (C17_ogden SV lapack og HL).
    + apply C23_stretches. exact (ogden_stateless og).
    + intros; contradiction.
Qed.
Print Assumptions C57_models_tangent_partial.
(** Neo-Hooke in all spaces, Distortional included. *)
Theorem C57_neo_hooke : forall c o k Q F sv s, orthogonal Q -> invertible F ->
  let fw := invariants_fw (tod_model (SV:=unit) (tod_init c 0 0 0 0 false)) in
  outcome (sp_hessian k fw o (mmul F (mtr Q)) sv) s = rmap (turn_elast o Q) (outcome (sp_hessian k fw o F sv) s).
Proof.
  intros c o k Q F sv s HQ N fw. apply C57_tangent_partial with (Dom := invertible); auto using argument_inv.
  - exact (C17_invariants unit _).
  - exact (C23_invariants unit _).
  - intros _. split; exact (constant_significant _ _ _ (nh_constant c)).
Qed.
Print Assumptions C57_neo_hooke.
(** The unrestricted claim is false of the code: psi = c (I1 - 3) (I2 - 3) with c = 1e-8 / 44 is
    isotropic, gradient and hessian of the framework are right, F = diag(2, 1, 1/2) and Q the
    3-4-5 rotation about e3.  The largest component of the material's tangent exceeds the
    tolerance of np.allclose in one frame and not in the other. *)
Theorem C57_tangent_refuted : let m := tod_init 0 0 (/ (44 * 10 ^ 8)) 0 0 false in
  let fw := invariants_fw (tod_model (SV:=unit) m) in
  let F : T2 := fun i j => match i, j with X0, X0 => 2 | X1, X1 => 1 | X2, X2 => / 2 | _, _ => 0 end in
  let Q : T2 := fun i j => match i, j with
    | X0, X0 => 3 / 5 | X0, X1 => 4 / 5 | X1, X0 => - 4 / 5 | X1, X1 => 3 / 5 | X2, X2 => 1 | _, _ => 0 end in
  isotropic_fw fw invertible /\ stateless_fw fw /\ orthogonal Q /\ invertible F /\
  fw_hessian_of fw invertible /\
  forall sv s, outcome (dis_hessian fw default_opts (mmul F (mtr Q)) sv) s <>
    rmap (turn_elast default_opts Q) (outcome (dis_hessian fw default_opts F sv) s).
Proof.
  intros m fw F Q. assert (EF : F = F11).
  { apply T2_ext; intros i j. unfold F, F11, Fd, diag3. destruct i, j; cbn; ring. }
  split; [exact (C17_invariants unit _)|]. split; [exact (C23_invariants unit _)|]. split; [exact Q11_orth|].
  split; [rewrite EF; exact Fd_inv|]. split; [exact (C15_third_order_deformation unit _)|].
  rewrite EF. exact turn_refuted.
Qed.
Print Assumptions C57_tangent_refuted.
(** The hypotheses are met by a quarter turn before a simple shear, and the turn is seen by the
    first Piola-Kirchhoff stress: P e1 becomes P e2 there. *)
Example C57_case : let Q : T2 := fun i j => match i, j with X0, X1 => -1 | X1, X0 => 1 | X2, X2 => 1 | _, _ => 0 end in
  let F : T2 := fun i j => match i, j with X0, X1 => 1 | _, _ => delta i j end in
  orthogonal Q /\ invertible F /\ mmul F (mtr Q) X0 X0 = -1 /\ forall P i, mmul P (mtr Q) i X1 = P i X0.
Proof.
  intros Q F. split; [exact C17_rotation|]. split; [|split].
  - unfold invertible, det3, F, delta; cbn. lra.
  - unfold mmul, mtr, sum3, F, Q, delta; cbn. ring.
  - intros P i. unfold mmul, mtr, sum3, Q; cbn. ring.
Qed.
