(** * Property C74: universal relations of isotropic materials, simple shear. *)
From Coq Require Import Reals Lra List Psatz FunctionalExtensionality.
From Coquelicot Require Import Coquelicot.
From Verif Require Import Tensor Py Voigt VoigtProofs Algebra Calc VCalc Models ModelProofs Frameworks Spaces Spec StrMore IsoProofs SpaceCore PiolaProofs SpaceProofs InvCore Lab LabSpec LabMech
  CurveOgden NDLinks2 SymSpec SymProofs PrinSpec PrinProofs PropModels PropInvariants PropStretches PropSpaces PropSym PropCurves PropPrincipal.
Local Open Scope R_scope.

(** ** Specification *)
(** Left Cauchy-Green tensor F F^T. *)
Definition left_cauchy_green (F : T2) : T2 := mmul F (mtr F).
(** Simple shear: x = X + g Y, y = Y, z = Z. *)
Definition simple_shear (g : R) : T2 := fun i j =>
  match i, j with X0, X0 | X1, X1 | X2, X2 => 1 | X0, X1 => g | _, _ => 0 end.

(** ** Proofs *)
Section Coax.
  Context {SV : Type} (fw : Framework SV) (HI : isotropic_gradient fw posdef) (k : SpaceKind) (sv : SV) (s : SpaceSelf (fw_self fw)).
  Let out F := outcome (sp_gradient k fw cauchy_opts F sv) s.
  Lemma to_axes F l v sigma svn : principal_axes F l v -> out F = Ok (StressFull sigma, svn) -> exists t, coaxial sigma t v.
  Proof.
    intros H E. assert (N := axes_inv F l v H). assert (O : orthogonal v) by apply H.
    assert (HQ := mtr_orth _ (right_orth F l v H)).
    assert (T : out (mmul F (right_axes F l v)) = out F) by exact (out_turn fw HI k sv s F (mtr (right_axes F l v)) HQ N).
    rewrite E in T.
    assert (E' := out_rot fw k sv s (mmul F (right_axes F l v)) (mtr v) sigma svn (mtr_orth v O) T).
    rewrite (svd F l v H) in E'.
    destruct (to_diag fw HI k sv s F l v H _ svn E') as (sigma' & E2 & Cx). change (out F = Ok (StressFull sigma', svn)) in E2. rewrite E in E2. injection E2 as <-.
    eexists. exact Cx.
  Qed.
End Coax.
Lemma coaxial_commutes F l v sigma t : principal_axes F l v -> coaxial sigma t v -> mmul sigma (left_cauchy_green F) = mmul (left_cauchy_green F) sigma.
Proof.
  intros (_ & O & B) Cx. assert (H := orth_cols v O).
  assert (D : forall x y : Vec3, forall i j, mmul (fun i j => sum3 (fun a => x a * v i a * v j a)) (fun i j => sum3 (fun a => y a * v i a * v j a)) i j =
     sum3 (fun a => x a * y a * v i a * v j a)).
  { intros x y i j. transitivity (sum3 (fun a => sum3 (fun b => x a * y b * v i a * v j b * sum3 (fun m => v m a * v m b)))).
    - unfold mmul, sum3. ring.
    - unfold sum3 at 1 2. rewrite !H. unfold delta. cbn. unfold sum3. cbn. ring. }
  replace sigma with (fun i j => sum3 (fun a => t a * v i a * v j a)) by (apply T2_ext; intros i j; symmetry; apply Cx).
  replace (left_cauchy_green F) with (fun i j => sum3 (fun a => l a ^ 2 * v i a * v j a)) by (apply T2_ext; intros i j; symmetry; apply B).
  apply T2_ext; intros i j. rewrite !D. unfold sum3. ring.
Qed.
Lemma shear_det g : det3 (simple_shear g) = 1.
Proof. unfold det3, simple_shear. ring. Qed.
Lemma shear_inv g : invertible (simple_shear g).
Proof. unfold invertible. rewrite shear_det. lra. Qed.

(** ** C74 *)
(** The Cauchy stress of an isotropic material commutes with F F^T, in every space. *)
Theorem C74_commutes : forall (SV : Type) (fw : Framework SV) k F sv s sigma svn, isotropic_gradient fw posdef -> invertible F ->
  outcome (sp_gradient k fw (opts Deformed Deformed) F sv) s = Ok (StressFull sigma, svn) ->
  mmul sigma (left_cauchy_green F) = mmul (left_cauchy_green F) sigma.
Proof.
  intros SV fw k F sv s sigma svn HI N E. destruct (C60_axes_exist F N) as (l & v & H).
  destruct (to_axes fw HI k sv s F l v sigma svn H E) as (t & Cx). exact (coaxial_commutes F l v sigma t H Cx).
Qed.
Print Assumptions C74_commutes.
(** The second Piola-Kirchhoff stress commutes with C. *)
Theorem C74_commutes_undeformed : forall (SV : Type) (fw : Framework SV) k F sv s S svn, isotropic_gradient fw posdef -> invertible F ->
  outcome (sp_gradient k fw (opts Undeformed Undeformed) F sv) s = Ok (StressFull S, svn) ->
  mmul S (cauchy_green F) = mmul (cauchy_green F) S.
Proof.
  intros SV fw k F sv s S svn HI N E. destruct (C28_stresses SV fw k F sv s S svn N E) as (P & sigma & _ & E2 & _ & _ & HP & _ & Hs).
  assert (Cm := C74_commutes SV fw k F sv s sigma svn HI N E2).
  assert (D : Rabs (det3 F) <> 0) by (apply Rabs_no_R0; exact N).
  assert (X : mmul (mmul F S) (mtr F) = mscal (Rabs (det3 F)) sigma).
  { apply T2_ext; intros i j. unfold mscal. rewrite <- Hs. unfold mmul at 1 3. unfold sum3. rewrite !HP. reflexivity. }
  assert (Y : mmul F (mmul (mmul S (cauchy_green F)) (mtr F)) = mmul F (mmul (mmul (cauchy_green F) S) (mtr F))).
  { transitivity (mmul (mscal (Rabs (det3 F)) sigma) (left_cauchy_green F)).
    - rewrite <- X. unfold left_cauchy_green, cauchy_green. rewrite !mmul_assoc. reflexivity.
    - transitivity (mmul (left_cauchy_green F) (mscal (Rabs (det3 F)) sigma)).
      + transitivity (mscal (Rabs (det3 F)) (mmul sigma (left_cauchy_green F))); [apply T2_ext; intros i j; unfold mscal, mmul, sum3; ring|].
        rewrite Cm. apply T2_ext; intros i j; unfold mscal, mmul, sum3; ring.
      + rewrite <- X. unfold left_cauchy_green, cauchy_green. rewrite !mmul_assoc. reflexivity. }
  assert (NT : invertible (mtr F)). { unfold invertible in *. replace (det3 (mtr F)) with (det3 F); [exact N|]. unfold det3, mtr. ring. }
  assert (Z : mmul (inv3 F) (mmul F (mmul (mmul S (cauchy_green F)) (mtr F))) = mmul (inv3 F) (mmul F (mmul (mmul (cauchy_green F) S) (mtr F)))) by (rewrite Y; reflexivity).
  rewrite <- !(mmul_assoc (inv3 F)), (inv3_l F N), !mmul_one_l in Z.
  assert (Z2 : mmul (mmul (mmul S (cauchy_green F)) (mtr F)) (inv3 (mtr F)) = mmul (mmul (mmul (cauchy_green F) S) (mtr F)) (inv3 (mtr F))) by (rewrite Z; reflexivity).
  rewrite !(mmul_assoc _ (mtr F)), (inv3_r _ NT), !mmul_one_r in Z2. exact Z2.
Qed.
Print Assumptions C74_commutes_undeformed.
(** Rivlin's universal relation of simple shear: the normal stresses follow from the shear stress,
    whatever the material. *)
Theorem C74_simple_shear : forall (SV : Type) (fw : Framework SV) k g sv s sigma svn, isotropic_gradient fw posdef -> g <> 0 ->
  outcome (sp_gradient k fw (opts Deformed Deformed) (simple_shear g) sv) s = Ok (StressFull sigma, svn) ->
  sigma X0 X0 - sigma X1 X1 = g * sigma X0 X1 /\ sigma X0 X2 = 0 /\ sigma X1 X2 = 0 /\ sym2 sigma.
Proof.
  intros SV fw k g sv s sigma svn HI G E.
  assert (Sy : sym2 sigma).
  { destruct (outcome (sp_gradient k fw (opts Undeformed Undeformed) (simple_shear g) sv) s) as [[[S|V] svn']|e] eqn:EU;
      destruct (C28_configurations SV fw k Deformed Deformed (simple_shear g) sv s (shear_inv g)) as [C _]; rewrite EU, E in C; cbn [rmap fst snd on_full] in C; try discriminate.
    destruct (C28_stresses SV fw k _ sv s S svn' (shear_inv g) EU) as (P & sigma' & _ & E2 & _ & Sy & _). rewrite E in E2. injection E2 as <- _. exact Sy. }
  assert (Cm := C74_commutes SV fw k _ sv s sigma svn HI (shear_inv g) E).
  assert (M : forall i j, mmul sigma (left_cauchy_green (simple_shear g)) i j = mmul (left_cauchy_green (simple_shear g)) sigma i j) by (rewrite Cm; reflexivity).
  assert (A := M X0 X1). assert (B := M X2 X1). assert (C := M X2 X0).
  unfold left_cauchy_green, mmul, mtr, simple_shear, sum3 in A, B, C.
  rewrite ?(Sy X1 X0), ?(Sy X2 X1), ?(Sy X2 X0) in A. rewrite ?(Sy X1 X0), ?(Sy X2 X1), ?(Sy X2 X0) in B. rewrite ?(Sy X1 X0), ?(Sy X2 X1), ?(Sy X2 X0) in C.
  assert (Z0 : sigma X0 X2 = 0). { apply (Rmult_eq_reg_l g); [|exact G]. lra. }
  assert (Z1 : sigma X1 X2 = 0). { apply (Rmult_eq_reg_l g); [|exact G]. rewrite Z0 in C. lra. }
  split; [|auto]. apply (Rmult_eq_reg_l g); [|exact G]. lra.
Qed.
Print Assumptions C74_simple_shear.
(** The shear stress is the derivative of the energy with respect to the amount of shear. *)
Theorem C74_shear_energy : forall (SV : Type) (fw : Framework SV) W k g sv s, k <> KDilatational -> fw_gradient_of fw W posdef ->
  exists sigma svn, outcome (sp_gradient k fw (opts Deformed Deformed) (simple_shear g) sv) s = Ok (StressFull sigma, svn) /\
    is_derive (fun t => W (cauchy_green (simple_shear t))) g (sigma X0 X1).
Proof.
  intros SV fw W k g sv s K HG.
  assert (D : dcurve2 simple_shear g (fun i j => match i, j with X0, X1 => 1 | _, _ => 0 end)).
  { intros i j. destruct i, j; cbn; auto_derive; auto; ring. }
  destruct (stress_of fw k K sv s W HG simple_shear g _ D (shear_inv g)) as (P & svn & E & DW).
  destruct (cauchy_of_P fw k sv s (simple_shear g) P svn (shear_inv g) E) as (sigma & E2 & H).
  exists sigma, svn. split; [exact E2|].
  assert (H01 := H X0 X1). rewrite shear_det, Rabs_R1, Rmult_1_l in H01.
  replace (sigma X0 X1) with (dc22 P (fun i j => match i, j with X0, X1 => 1 | _, _ => 0 end)).
  2:{ rewrite <- H01. unfold dc22, mmul, mtr, simple_shear, sum3. ring. }
  refine (is_derive_ext _ _ _ _ _ DW). intro t. unfold seen_part. destruct k; try reflexivity.
  f_equal. unfold distortional_part. apply T2_ext; intros i j. unfold mscal.
  replace (det3 (cauchy_green (simple_shear t))) with 1.
  2:{ unfold cauchy_green, det3, mmul, mtr, simple_shear, sum3. ring. }
  unfold Rpower. rewrite ln_1, Rmult_0_r, exp_0. ring.
Qed.
Print Assumptions C74_shear_energy.

Definition shear_C (g : R) : Vec6 := fun v => match v with V0 => 1 | V1 => 1 + g ^ 2 | V2 => 1 | V3 => g | _ => 0 end.
Lemma shear_CG g : right_CG (simple_shear g) = shear_C g.
Proof. apply Vec6_ext; intros []; unfold right_CG, asvoigt, simple_shear, sum3, shear_C; cbn [vi vj]; ring. Qed.
Lemma shear_J g : Jv (right_CG (simple_shear g)) = vec3 (3 + g ^ 2) (3 + g ^ 2) 1.
Proof.
  rewrite shear_CG. apply Vec3_ext; intros []; unfold Jv, trace, ddot22, Voigt.det, weights, sum6, shear_C, vec3; field.
Qed.
Lemma Rpower_1l e : Rpower 1 e = 1.
Proof. unfold Rpower. rewrite ln_1, Rmult_0_r. apply exp_0. Qed.
(** Closed forms for every model of the invariants: shear stress and both normal stress differences. *)
Theorem C74_invariants : forall (SV : Type) (m : InvModel SV) k g sv s w1 w2 w3 svn, k <> KDilatational ->
  im_gradient m (3 + g ^ 2) (3 + g ^ 2) 1 sv = Ok ((w1, w2, w3), svn) ->
  exists sigma, outcome (sp_gradient k (invariants_fw m) (opts Deformed Deformed) (simple_shear g) sv) s = Ok (StressFull sigma, svn) /\
    sigma X0 X1 = 2 * g * (val w1 + val w2) /\
    sigma X0 X0 - sigma X2 X2 = 2 * g ^ 2 * val w1 /\
    sigma X1 X1 - sigma X2 X2 = - (2 * g ^ 2 * val w2) /\
    sigma X0 X2 = 0 /\ sigma X1 X2 = 0.
Proof.
  intros SV m k g sv s w1 w2 w3 svn K E.
  assert (DC : det (right_CG (simple_shear g)) = 1) by exact (f_equal (fun J => J X2) (shear_J g)).
  assert (SC : seen k (right_CG (simple_shear g)) = right_CG (simple_shear g)).
  { destruct k; [reflexivity| |congruence]. cbn [seen]. rewrite DC, Rpower_1l. apply Vec6_ext; intro v. unfold vscal. ring. }
  assert (EG : outcome (fw_gradient (invariants_fw m) (seen k (right_CG (simple_shear g))) sv) (sp_mat s) = Ok (gradv (right_CG (simple_shear g)) (w1, w2, w3), svn)).
  { rewrite SC. unfold outcome. cbn [invariants_fw fw_gradient].
    rewrite (inv_gradient_ok m (right_CG (simple_shear g)) sv (w1, w2, w3) svn (sp_mat s)); [reflexivity|].
    unfold inv_call. rewrite shear_J. cbn [vec3]. exact E. }
  eexists. split; [exact (sp_gradient_ok (invariants_fw m) (opts Deformed Deformed) k (simple_shear g) sv s _ svn EG)|].
  assert (SQ : match kdetF k (right_CG (simple_shear g)) with Some d => d | None => sqrt (det (right_CG (simple_shear g))) end = 1).
  { destruct k; cbn [kdetF]; rewrite DC; apply sqrt_1. }
  cbn [finalize force area opts]. rewrite SQ. rewrite shear_CG in *.
  assert (D3 : gradv (shear_C g) (w1, w2, w3) = (fun v => val w1 * eye v + val w2 * ((3 + g ^ 2) * eye v - shear_C g v) + val w3 *
      match v with V0 => 1 + g ^ 2 | V1 => 1 | V2 => 1 | V3 => - g | _ => 0 end)).
  { apply Vec6_ext; intro v. unfold gradv, sum3. cbn [o3 fst snd dJv]. unfold vsub, vscal, Voigt.inv. rewrite DC.
    unfold trace. destruct v; cbn [inv_i inv_j inv_k inv_l]; unfold shear_C, eye; field. }
  rewrite D3. generalize (val w1), (val w2), (val w3). intros y1 y2 y3.
  destruct k; [| |congruence]; cbn [kS kSb]; cbv zeta; rewrite ?DC, ?Rpower_1l;
  unfold es_area, es_force, astensor, sum3, vsub, vscal, ddot22, weights, sum6, Voigt.inv, simple_shear; cbn [vix inv_i inv_j inv_k inv_l]; unfold shear_C, eye;
  repeat split; field.
Qed.
Print Assumptions C74_invariants.
(** The third-order-deformation class (Mooney-Rivlin, Yeoh, ... are special cases). *)
Theorem C74_third_order_deformation : forall (SV : Type) c10 c01 c11 c20 c30 k g (sv : SV) s, k <> KDilatational ->
  let w1 := c10 + c11 * g ^ 2 + 2 * c20 * g ^ 2 + 3 * c30 * g ^ 4 in
  let w2 := c01 + c11 * g ^ 2 in
  exists sigma, outcome (sp_gradient k (invariants_fw (tod_model (tod_init c10 c01 c11 c20 c30 false))) (opts Deformed Deformed) (simple_shear g) sv) s = Ok (StressFull sigma, sv) /\
    sigma X0 X1 = 2 * g * (w1 + w2) /\ sigma X0 X0 - sigma X2 X2 = 2 * g ^ 2 * w1 /\ sigma X1 X1 - sigma X2 X2 = - (2 * g ^ 2 * w2).
Proof.
  intros SV c10 c01 c11 c20 c30 k g sv s K w1 w2.
  destruct (tod_gradient_ok (tod_init c10 c01 c11 c20 c30 false) (3 + g ^ 2) (3 + g ^ 2) 1) as ([[g1 g2] g3] & E0 & V0 & V1 & V2).
  destruct (C74_invariants SV (tod_model (tod_init c10 c01 c11 c20 c30 false)) k g sv s g1 g2 g3 sv K) as (sigma & E & A & B & C & _).
  { cbn [im_gradient tod_model]. rewrite E0. reflexivity. }
  exists sigma. split; [exact E|]. cbn [o3 fst snd tod_init C10 C01 C11 C20 C30 undeformed] in V0, V1. rewrite A, B, C, V0, V1. unfold w1, w2. repeat split; ring.
Qed.
Print Assumptions C74_third_order_deformation.
(** The general theorems apply: a sheared Mooney-Rivlin material, every stored state. *)
Example shear_instance : forall s, exists sigma, outcome (sp_gradient KDeformation (invariants_fw (tod_model (SV:=unit) (tod_init 1 2 0 0 0 false))) (opts Deformed Deformed) (simple_shear 1) tt) s =
    Ok (StressFull sigma, tt) /\
  sigma X0 X1 = 6 /\ sigma X0 X0 - sigma X1 X1 = 6 /\ mmul sigma (left_cauchy_green (simple_shear 1)) = mmul (left_cauchy_green (simple_shear 1)) sigma.
Proof.
  intro s. destruct (C74_third_order_deformation unit 1 2 0 0 0 KDeformation 1 tt s ltac:(discriminate)) as (sigma & E & A & B & C).
  exists sigma. split; [exact E|]. rewrite A. split; [ring|]. split; [lra|].
  exact (C74_commutes unit _ _ _ tt s sigma tt (tod_iso _) (shear_inv 1) E).
Qed.
