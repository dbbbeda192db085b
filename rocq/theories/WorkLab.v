(** Proofs for C51, continued: the area under simulated curves; the dilatational space. *)
From Coq Require Import Reals Lra List FunctionalExtensionality.
From Coquelicot Require Import Coquelicot.
From Verif Require Import Tensor Py Voigt VoigtProofs Algebra Calc ContR Models Frameworks Spaces Spec WorkSpec VCalc
  SpaceCore PiolaProofs SpaceProofs DistProofs SpecialProofs StrMore Counter Dilatational Lab LabSpec LabMech WorkProofs.
Import ListNotations.
Local Open Scope R_scope.

(** *** Simulations *)
Section Curve.
  Context {SV : Type} (fw : Framework SV) (W : T2 -> R) (Dom : T2 -> Prop) (HG : fw_gradient_of fw W Dom) (HS : smooth_gradient fw Dom).
  Context (k : SpaceKind) (K : incompressible_kind k) (lc : LoadCase) (none : SV) (s : SpaceSelf (fw_self fw)).
  Context (a b c : R -> R) (lo hi : R).
  Context (L : forall t, lo < t < hi -> defgrad lc t = dgm (a t) (b t) (c t) /\ a t * b t * c t = 1 /\ Dom (cauchy_green (dgm (a t) (b t) (c t)))).
  Context (HD : forall t, lo < t < hi -> exists da db dc, is_derive a t da /\ is_derive b t db /\ is_derive c t dc).
  Context (f : R -> R) (Hf : forall t, lo < t < hi -> point_stress lc (space_material none fw s (sp_gradient k fw default_opts)) t = Ok (f t)).
  Let G (t : R) : Vec6 :=
    match outcome (fw_gradient fw (asvoigt (cauchy_green (dgm (a t) (b t) (c t)))) none) (sp_mat s) with Ok (g, _) => g | Raise _ => vzero end.
  Lemma curve_cont t : lo < t < hi -> cont f t.
  Proof.
    intro I. destruct (HD t I) as (da & db & dc & Da & Db & Dc).
    assert (E : forall u, lo < u < hi -> (exists svn, returns (fw_gradient fw (asvoigt (cauchy_green (dgm (a u) (b u) (c u)))) none) (sp_mat s) (G u, svn)) /\
      f u = force_of (dgm (a u) (b u) (c u)) (G u)).
    { intros u Iu. destruct (L u Iu) as (E1 & E2 & D). pose proof (Hf u Iu) as X.
      rewrite (point_core fw k lc u _ _ _ none s K E1 E2), E1 in X. unfold G.
      destruct (outcome (fw_gradient fw (asvoigt (cauchy_green (dgm (a u) (b u) (c u)))) none) (sp_mat s)) as [[g svn]|e] eqn:Q; [|discriminate].
      split; [|congruence]. exists svn. unfold outcome in Q.
      destruct (fw_gradient fw (asvoigt (cauchy_green (dgm (a u) (b u) (c u)))) none (sp_mat s)) as [s' r] eqn:Q2. cbn in Q; subst r. exists s'. exact Q2. }
    destruct (HS (fun u => cauchy_green (dgm (a u) (b u) (c u))) t (dgm (2 * a t * da) (2 * b t * db) (2 * c t * dc))) with (svt := fun _ : R => none) (st := fun _ : R => sp_mat s) (G := G) as [dG D].
    - intro u. rewrite dgm_cg. apply dgm_sym.
    - intros i j. apply D_ext with (fun u => dgm (a u ^ 2) (b u ^ 2) (c u ^ 2) i j); [intro u; rewrite dgm_cg; reflexivity|].
      destruct i, j; cbn; try exact (D_const 0 t); [exact (D_sqr a t da Da)|exact (D_sqr b t db Db)|exact (D_sqr c t dc Dc)].
    - exact (proj2 (proj2 (L t I))).
    - apply (interval_locally lo hi t _ I). intros u Iu. exact (proj1 (E u Iu)).
    - apply cont_ext_loc with (fun u => force_of (dgm (a u) (b u) (c u)) (G u)).
      { apply (interval_locally lo hi t _ I). intros u Iu. rewrite (proj2 (E u Iu)). reflexivity. }
      unfold force_of, dgm; cbn [ix3_eqb]. pose proof (cont_D _ _ _ Da) as Ka. pose proof (cont_D _ _ _ Dc) as Kc.
      pose proof (cont_D _ _ _ (D X0 X0)) as G0. pose proof (cont_D _ _ _ (D X2 X2)) as G2. cbn in G0, G2.
      assert (Na : a t <> 0). { intro Z. destruct (L t I) as (_ & E2 & _). rewrite Z in E2. lra. }
      ksolve; exact Na.
  Qed.
  Lemma curve_area (w : R -> R) m x y : (forall t, lo < t < hi -> is_derive w t (m * f t)) -> lo < x < hi -> lo < y < hi ->
    is_RInt (fun t => m * f t) x y (w y - w x).
  Proof.
    intros Hw Ix Iy. assert (I : forall t, Rmin x y <= t <= Rmax x y -> lo < t < hi).
    { intros t [H1 H2]. split.
      - eapply Rlt_le_trans; [|exact H1]. apply Rmin_glb_lt; tauto.
      - eapply Rle_lt_trans; [exact H2|]. apply Rmax_lub_lt; tauto. }
    apply (@is_RInt_derive R_CompleteNormedModule w).
    - intros t Ht. apply Hw, I, Ht.
    - intros t Ht. apply cont_continuous. apply cont_mult; [apply cont_const|apply curve_cont, I, Ht].
  Qed.
End Curve.

Lemma one_point sim p x f mat : si_material sim (kwargs_of (si_labels sim) p) = Ok mat ->
  stress_curve_fit sim [x] p = Ok [f] -> point_stress (si_loadcase sim) mat x = Ok f.
Proof.
  intros E H. unfold stress_curve_fit in H. rewrite E in H. cbn [rbind map_r] in H.
  destruct (point_stress (si_loadcase sim) mat x) as [y|]; cbn in H; congruence.
Qed.

(** *** The dilatational space: no energy function exists *)
Definition pA (t : R) : T2 := dgm ((1 + t) ^ 3) 1 1.
Definition rB (t : R) : R := 1 + t * (1 - t).
Definition pB (t : R) : T2 := dgm ((1 + t) ^ 3 * rB t) (/ rB t) 1.
Definition dA (t : R) : T2 := dgm (3 * (1 + t) ^ 2) 0 0.
Definition dB (t : R) : T2 := dgm (3 * (1 + t) ^ 2 * rB t + (1 + t) ^ 3 * (1 - 2 * t)) (- (1 - 2 * t) / rB t ^ 2) 0.
Lemma rB_pos t : 0 <= t <= 1 -> 1 <= rB t.
Proof. intro. unfold rB. assert (0 <= t * (1 - t)) by (apply Rmult_le_pos; lra). lra. Qed.
Lemma D_rB t : is_derive rB t (1 - 2 * t).
Proof.
  unfold rB. eapply D_eq. { apply D_plus; [exact (D_const 1 t)|]. apply D_mult; [exact (D_id t)|]. apply D_minus; [exact (D_const 1 t)|exact (D_id t)]. }
  cbv beta. ring.
Qed.
Lemma D_p3 t : is_derive (fun u => (1 + u) ^ 3) t (3 * (1 + t) ^ 2).
Proof. eapply D_eq. { apply (D_cub (fun u => 1 + u)). apply D_plus; [exact (D_const 1 t)|exact (D_id t)]. } cbv beta. ring. Qed.
Lemma pA_D t : dcurve2 pA t (dA t).
Proof. intros i j. unfold pA, dA. destruct i, j; cbn [dgm ix3_eqb]; try exact (D_const _ t). exact (D_p3 t). Qed.
Lemma pB_D t : 0 <= t <= 1 -> dcurve2 pB t (dB t).
Proof.
  intros I i j. pose proof (rB_pos t I). unfold pB, dB. destruct i, j; cbn [dgm ix3_eqb]; try exact (D_const _ t).
  - exact (D_mult _ _ _ _ _ (D_p3 t) (D_rB t)).
  - apply (D_inv rB t); [exact (D_rB t)|lra].
Qed.
(** the stress power in the dilatational space for psi = (I1 - 3)^2 and diagonal motions *)
Lemma dil_power x y z P dx dy dz sv s svn : x * y * z > 0 ->
  returns (dil_gradient (tod20 1) default_opts (dgm x y z) sv) s (StressFull P, svn) ->
  let r := Rpower ((x * y * z) ^ 2) (1 / 3) in
  dc22 P (dgm dx dy dz) = 4 * r * (r * (x ^ 2 + y ^ 2 + z ^ 2) - 3) * (dx / x + dy / y + dz / z).
Proof.
  intros N E r. assert (N' : x <> 0 /\ y <> 0 /\ z <> 0) by (repeat split; intro Q; rewrite Q in N; lra). destruct N' as (Nx & Ny & Nz).
  destruct (stress_inv (tod20 1) KDilatational (dgm x y z) sv s P svn E) as (g & Eg & ->).
  rewrite (proj1 (tod20_plain 1 R1_neq_R0 _ sv (sp_mat s))) in Eg. injection Eg as <- _.
  rewrite right_CG_dgm. set (c := asvoigt (dgm (x ^ 2) (y ^ 2) (z ^ 2))).
  assert (Ed : det c = (x * y * z) ^ 2) by (unfold c, det, asvoigt, dgm; cbn; ring).
  assert (I0 : inv c None V0 = / x ^ 2) by (unfold inv; rewrite Ed; unfold c, asvoigt, dgm; cbn; field; auto).
  assert (I1 : inv c None V1 = / y ^ 2) by (unfold inv; rewrite Ed; unfold c, asvoigt, dgm; cbn; field; auto).
  assert (I2 : inv c None V2 = / z ^ 2) by (unfold inv; rewrite Ed; unfold c, asvoigt, dgm; cbn; field; auto).
  assert (Et : trace (G20 1 (vscal (Rpower (det c) (1 / 3)) c)) = 6 * (r * (x ^ 2 + y ^ 2 + z ^ 2) - 3)).
  { rewrite Ed. fold r. unfold G20, trace, vscal, eye, c, asvoigt, dgm; cbn. ring. }
  unfold dc22, mmul, sum3, astensor. cbn [vix]. rewrite !dil_kS, Et, Ed, I0, I1, I2. fold r.
  unfold dgm; cbn. field. auto.
Qed.
Lemma no_potential : ~ exists W, sp_gradient_of (dil_gradient (tod20 1) default_opts) W invertible.
Proof.
  intros [W H].
  set (r := fun t => Rpower (((1 + t) ^ 3 * 1 * 1) ^ 2) (1 / 3)).
  set (h' := fun t => 4 * r t * (r t * (((1 + t) ^ 3 * rB t) ^ 2 + (/ rB t) ^ 2 + 1 ^ 2) - 3) * (3 / (1 + t))
                    - 4 * r t * (r t * (((1 + t) ^ 3) ^ 2 + 1 ^ 2 + 1 ^ 2) - 3) * (3 / (1 + t))).
  assert (D : forall t, 0 <= t <= 1 -> is_derive (fun t => W (pB t) - W (pA t)) t (h' t)).
  { intros t I. pose proof (rB_pos t I) as Pr. assert (Pp : 0 < 1 + t) by lra. assert (P3 : 0 < (1 + t) ^ 3) by (apply pow_lt; lra).
    unfold h'. apply D_minus.
    - destruct (H pB t (dB t) (pB_D t I)) with (sv := tt) (s := space_self0 (tod20 1) inv_self0) as (P & svn & E & D).
      { unfold invertible, pB. rewrite dgm_det. replace (_ * _ * _) with ((1 + t) ^ 3) by (field; lra). lra. }
      eapply D_eq; [exact D|]. unfold pB in E. unfold dB.
      rewrite (dil_power _ _ _ P _ _ _ _ _ _) with (2 := E).
      2: { replace (_ * _ * _) with ((1 + t) ^ 3) by (field; lra). lra. }
      cbv zeta. replace ((1 + t) ^ 3 * rB t * / rB t * 1) with ((1 + t) ^ 3 * 1 * 1) by (field; lra). fold (r t).
      f_equal. field. lra.
    - destruct (H pA t (dA t) (pA_D t)) with (sv := tt) (s := space_self0 (tod20 1) inv_self0) as (P & svn & E & D).
      { unfold invertible, pA. rewrite dgm_det. lra. }
      eapply D_eq; [exact D|]. unfold pA in E. unfold dA.
      rewrite (dil_power _ _ _ P _ _ _ _ _ _) with (2 := E) by lra. cbv zeta. fold (r t). f_equal. field. lra. }
  destruct (MVT_cor2 (fun t => W (pB t) - W (pA t)) h' 0 1 ltac:(lra)) as (c & E & I).
  { intros t I. apply is_derive_Reals. apply D; exact I. }
  assert (E0 : pB 0 = pA 0) by (unfold pB, pA, rB; f_equal; field).
  assert (E1 : pB 1 = pA 1) by (unfold pB, pA, rB; f_equal; field).
  rewrite E0, E1 in E. assert (Z : h' c = 0) by lra. clear E.
  assert (Pr : 1 < rB c). { unfold rB. assert (0 < c * (1 - c)) by (apply Rmult_lt_0_compat; lra). lra. }
  assert (Pp : 0 < 1 + c) by lra.
  assert (Rp : 0 < r c) by apply exp_pos.
  unfold h' in Z.
  replace (_ - _) with (12 * (r c) ^ 2 / (1 + c) * ((rB c ^ 2 - 1) * (((1 + c) ^ 3) ^ 2 - / rB c ^ 2))) in Z by (field; lra).
  assert (P1 : 0 < rB c ^ 2 - 1) by nra.
  assert (P2 : 1 < (1 + c) ^ 3). { assert (1 < (1 + c) * (1 + c)) by nra. cbn. nra. }
  assert (P3 : / rB c ^ 2 < 1). { rewrite <- Rinv_1. apply Rinv_lt_contravar; nra. }
  assert (P4 : 0 < ((1 + c) ^ 3) ^ 2 - / rB c ^ 2) by nra.
  assert (P5 : 0 < 12 * (r c) ^ 2 / (1 + c)). { apply Rdiv_lt_0_compat; [|exact Pp]. nra. }
  assert (P6 : 0 < (rB c ^ 2 - 1) * (((1 + c) ^ 3) ^ 2 - / rB c ^ 2)) by (apply Rmult_lt_0_compat; auto).
  pose proof (Rmult_lt_0_compat _ _ P5 P6). lra.
Qed.
