(** * C56: what floating point keeps exactly. *)
From Coq Require Import Reals List Lra Lia Bool FunctionalExtensionality.
From Verif Require Import Tensor Py Voigt VoigtProofs Models Frameworks Spaces Spec SpaceCore SpaceProofs Lab LabSpec LabMech
  Rounded RoundedProofs RoundedStable RoundedCode RoundedMath RoundedMore RoundedSpaces RoundedSpacesProofs RoundedZero.
Import ListNotations.
Local Open Scope R_scope.

Definition offdiag (v : ix6) : Prop := vi v <> vj v.
Lemma off_vix i j : i <> j -> offdiag (vix i j).
Proof. intro H. unfold offdiag. destruct i, j; cbn; congruence. Qed.

Section Z.
  Variables (u : R) (k : SpaceKind) (m : TOD) (F : XT2) (f a : Config).
  (** off-diagonal entries are computed as 0 (e.g. input numbers) *)
  Hypothesis HF : forall i j, i <> j -> vanishes u (F i j).
  Hypothesis HI : forall y, rounded u (x_I3 F) y -> y <> 0.
  Hypothesis HQ : forall y, rounded u (Sqrt (x_I3 F)) y -> y <> 0.
  Lemma z_C v : offdiag v -> vanishes u (x_C F v).
  Proof.
    intro O. unfold x_C, x_right_CG, x_asvoigt. cbn [vanishes map all3 fold_right].
    destruct v; try (exfalso; apply O; reflexivity); cbn [vi vj]; repeat split; try exact Logic.I;
    first [left; apply HF; discriminate | right; apply HF; discriminate].
  Qed.
  Lemma z_seen v : offdiag v -> vanishes u (x_seen k F v).
  Proof. intro O. pose proof (z_C v O). unfold x_seen. destruct k; [auto|right; auto|right; auto]. Qed.
  Lemma z_eye v : offdiag v -> vanishes u (x_eye v).
  Proof. intro O. destruct v; try (exfalso; apply O; reflexivity); reflexivity. Qed.
  Lemma z_dWdC v : offdiag v -> vanishes u (x_dWdC m (x_seen k F) v).
  Proof.
    intro O. pose proof (z_seen v O) as HC. pose proof (z_eye v O) as HE. unfold x_dWdC, x_dI2dC.
    destruct (x_tod_gradient m _ _) as [[w1|] [w2|]]; cbn [vanishes]; tauto.
  Qed.
  Lemma z_Sb v : offdiag v -> vanishes u (x_Sb k m F v).
  Proof. intro O. pose proof (z_dWdC v O). unfold x_Sb. destruct k; right; auto. Qed.
  Lemma z_invC v : offdiag v -> vanishes u (x_invC F v).
  Proof.
    intro O. unfold x_invC, x_inv. split; [|exact HI]. cbn [vanishes].
    destruct v; try (exfalso; apply O; reflexivity); cbn [inv_i inv_j inv_k inv_l];
    split; first [left; apply z_C; discriminate | right; apply z_C; discriminate].
  Qed.
  Lemma z_S v : offdiag v -> vanishes u (x_stress2 k m F v).
  Proof.
    intro O. pose proof (z_Sb v O). pose proof (z_invC v O). unfold x_stress2. destruct k; [auto|split; [auto|right; auto]|right; auto].
  Qed.
  Lemma z_gradient i j : i <> j -> vanishes u (x_gradient k m F f a i j).
  Proof.
    intro N. assert (ZS : forall i j, i <> j -> vanishes u (x_astensor (x_stress2 k m F) i j)) by (intros; apply z_S, off_vix; auto).
    unfold x_gradient.
    assert (G : forall i j, i <> j -> vanishes u (match f with Deformed => x_force F (x_astensor (x_stress2 k m F)) | Undeformed => x_astensor (x_stress2 k m F) end i j)).
    { intros i' j' N'. destruct f; [|auto]. unfold x_force. cbn [vanishes map all3 fold_right].
      destruct i', j'; try congruence; repeat split; try exact Logic.I;
      first [left; apply HF; discriminate | right; apply ZS; discriminate]. }
    destruct a; [|apply G; auto]. split; [|exact HQ]. unfold x_area. cbn [vanishes map all3 fold_right].
    destruct i, j; try congruence; repeat split; try exact Logic.I;
    first [left; apply HF; discriminate | right; apply G; discriminate].
  Qed.
End Z.

Notation space m := (invariants_fw (tod_model m)).

(** No spurious shear stress: if F is diagonal, then the off-diagonal entries of the computed stress are
    exactly 0, in all spaces and with all options. *)
Theorem C56_no_shear : forall (m : TOD) k f a F, diagonal F -> invertible F -> exists u0, 0 < u0 /\
  forall u i j x, 0 <= u <= u0 -> i <> j -> rounded u (x_gradient k m (in33 F) f a i j) x -> x = 0.
Proof.
  intros m k f a F HD HN.
  assert (RF : forall i j, regular (in33 F i j)) by (intros; exact Logic.I).
  pose proof (I3_pos (in33 F) HN) as P. pose proof (reg_I3 (in33 F) RF) as R3. destruct (reg_root (in33 F) RF HN) as [RQ NQ].
  assert (SM : forall e, regular e -> exact e <> 0 -> exists u0, 0 < u0 /\ forall u y, 0 <= u <= u0 -> rounded u e y -> y <> 0).
  { intros e Re Ne. destruct (regular_order_u e Re) as (K & u0 & HK & Hu & H). pose proof (Rabs_pos_lt _ Ne) as PA.
    exists (Rmin u0 (Rabs (exact e) / (2 * (K + 1)))). assert (0 < Rabs (exact e) / (2 * (K + 1))) by (apply Rdiv_lt_0_compat; lra).
    split; [apply Rmin_pos; auto|]. intros u y U HY E. subst y.
    pose proof (Rmin_l u0 (Rabs (exact e) / (2 * (K + 1)))). pose proof (Rmin_r u0 (Rabs (exact e) / (2 * (K + 1)))).
    specialize (H u 0 ltac:(lra) HY). unfold Rminus in H. rewrite Rplus_0_l, Rabs_Ropp in H.
    assert (u * (2 * (K + 1)) <= Rabs (exact e)). { apply Rle_trans with (Rabs (exact e) / (2 * (K + 1)) * (2 * (K + 1))); [apply Rmult_le_compat_r; lra|]. right. field. lra. }
    nra. }
  destruct (SM _ R3 (Rgt_not_eq _ _ P)) as (u1 & H1 & S1). destruct (SM _ RQ NQ) as (u2 & H2 & S2).
  exists (Rmin u1 u2). split; [apply Rmin_pos; auto|]. pose proof (Rmin_l u1 u2). pose proof (Rmin_r u1 u2).
  intros u i j x U N HX. apply (vanishes_rounded u (x_gradient k m (in33 F) f a i j)); [|exact HX]. apply z_gradient.
  - intros i' j' N'. exact (HD i' j' N').
  - intros y. apply S1. lra.
  - intros y. apply S2. lra.
  - exact N.
Qed.
Print Assumptions C56_no_shear.

(** Symmetries.  [rnd] is any function: whatever it does to the numbers, the computed
    second derivative of the strain
    energy and the Voigt elasticity of Deformation and Dilatational (finalize=False) are exactly
    symmetric matrices. *)
Section Sym.
  Variable rnd : R -> R.
  Notation ev := (float_eval rnd).
  Lemma ev_dya A v w : ev (x_dya A A v w) = ev (x_dya A A w v).
  Proof. unfold x_dya. cbn [float_eval]. rewrite Rmult_comm. reflexivity. Qed.
  Lemma ev_cdya A v w : ev (x_cdya true A A v w) = ev (x_cdya true A A w v).
  Proof.
    unfold x_cdya. destruct (ix6_leb v w) eqn:E1, (ix6_leb w v) eqn:E2; try reflexivity.
    - assert (v = w) by (revert E1 E2; destruct v, w; cbn; congruence). subst. reflexivity.
    - revert E1 E2. destruct v, w; cbn; congruence.
  Qed.
  Lemma ev_hessian m C v w : ev (x_d2WdCdC m C v w) = ev (x_d2WdCdC m C w v).
  Proof.
    unfold x_d2WdCdC. pose proof (ev_dya x_eye v w) as E1. pose proof (ev_cdya x_eye v w) as E2.
    assert (E3 : ev (Add (x_dya x_eye (x_dI2dC C) v w) (x_dya (x_dI2dC C) x_eye v w)) = ev (Add (x_dya x_eye (x_dI2dC C) w v) (x_dya (x_dI2dC C) x_eye w v))).
    { unfold x_dya. cbn [float_eval]. f_equal. rewrite Rplus_comm. f_equal; f_equal; ring. }
    destruct (x_tod_gradient m _ _) as [[w1|] [w2|]], (x_tod_hessian m _) as [[w11|] [w12|]];
    cbn [float_eval] in *; rewrite ?E1, ?E2, ?E3; reflexivity.
  Qed.
End Sym.
Theorem C56_symmetric_elasticity : forall rnd (m : TOD) F v w,
  (forall C, float_eval rnd (x_d2WdCdC m C v w) = float_eval rnd (x_d2WdCdC m C w v)) /\
  (forall k small, k <> KDistortional -> float_eval rnd (x_C4 k m F small v w) = float_eval rnd (x_C4 k m F small w v)).
Proof.
  intros rnd m F v w. split; [intro C; apply ev_hessian|]. intros k small NK. unfold x_C4, x_C4b; cbn [c_d2WdCdC tod_comp].
  destruct k; [|congruence|]; cbn [float_eval].
  - rewrite (ev_hessian rnd m _ v w). reflexivity.
  - rewrite (ev_dya rnd _ v w), (ev_cdya rnd _ v w). reflexivity.
Qed.
Print Assumptions C56_symmetric_elasticity.
Example C56_example : diagonal one2 /\ invertible one2.
Proof. split; [intros i j N; destruct i, j; try congruence; reflexivity|]. unfold invertible, det3, one2, delta. cbn. lra. Qed.
