(** Linearisation of Distortional at the undeformed state (C61). *)
From Coq Require Import Reals Lra FunctionalExtensionality.
From Coquelicot Require Import Coquelicot.
From Verif Require Import Tensor Py Voigt VoigtProofs Algebra Calc Models Frameworks Spaces Spec VCalc ModelProofs GenProofs
  InvCore IsoProofs SpaceCore PiolaProofs SpaceProofs DistProofs SpecialProofs NDLinks2 PrinProofs SlopeSpec.
Local Open Scope R_scope.

(** *** tensors that no rotation changes *)
Definition perm_mat (p : ix3 -> ix3) : T2 := fun i j => delta (p i) j.
Lemma sum_delta (p : ix3 -> ix3) (f : ix3 -> R) i : sum3 (fun I => delta (p i) I * f I) = f (p i).
Proof. destruct (p i); unfold sum3, delta; cbn; ring. Qed.
Lemma perm_orth p : (forall a b, p a = p b -> a = b) -> orthogonal (perm_mat p).
Proof.
  intros I i j. unfold perm_mat, mmul, mtr, one2.
  assert (A : p X0 <> p X1) by (intro H; apply I in H; discriminate). assert (B : p X0 <> p X2) by (intro H; apply I in H; discriminate). assert (C : p X1 <> p X2) by (intro H; apply I in H; discriminate).
  destruct (p X0) eqn:E0, (p X1) eqn:E1, (p X2) eqn:E2; try congruence; unfold sum3; rewrite E0, E1, E2; destruct i, j; unfold delta; cbn; ring.
Qed.
Lemma rot4_perm p A i j k l : rot4 (perm_mat p) A i j k l = A (p i) (p j) (p k) (p l).
Proof.
  unfold rot4, perm_mat.
  transitivity (sum3 (fun I => delta (p i) I * sum3 (fun J => delta (p j) J * sum3 (fun K => delta (p k) K * sum3 (fun L => delta (p l) L * A I J K L))))).
  { unfold sum3. ring. }
  rewrite sum_delta, sum_delta, sum_delta, sum_delta. reflexivity.
Qed.
Lemma rot4_reflect c A i j k l : let s x := if ix3_eqb x c then -1 else 1 in rot4 (reflect c) A i j k l = s i * s j * s k * s l * A i j k l.
Proof.
  intro s. unfold rot4.
  assert (G : forall (f : ix3 -> R) x, sum3 (fun X => reflect c x X * f X) = s x * f x).
  { intros f x. unfold sum3, reflect, s. destruct c, x; cbn; ring. }
  transitivity (sum3 (fun I => reflect c i I * sum3 (fun J => reflect c j J * sum3 (fun K => reflect c k K * sum3 (fun L => reflect c l L * A I J K L))))).
  { unfold sum3. ring. }
  rewrite !G. ring.
Qed.
Definition turn45 : T2 := fun i j => let q := / sqrt 2 in match i, j with X0, X0 => q | X0, X1 => - q | X1, X0 => q | X1, X1 => q | X2, X2 => 1 | _, _ => 0 end.
Lemma q2 : / sqrt 2 * / sqrt 2 = / 2.
Proof. rewrite <- Rinv_mult, sqrt_sqrt by lra. reflexivity. Qed.
Lemma turn45_orth : orthogonal turn45.
Proof. intros i j. assert (Q := q2). destruct i, j; unfold mmul, mtr, turn45, one2, delta, sum3; cbn; lra. Qed.
Lemma asvoigt4_at A v w : asvoigt4 A v w = A (vi v) (vj v) (vi w) (vj w).
Proof. destruct v, w; reflexivity. Qed.
(** The general rotation-invariant elasticity. *)
Lemma isotropic4 (H : Mat6) : (forall Q, orthogonal Q -> asvoigt4 (rot4 Q (astensor4 H)) = H) ->
  H V0 V0 = H V0 V1 + 2 * H V3 V3 /\ forall h v, ddot42 H h v = 2 * H V3 V3 * h v + H V0 V1 * trace h * eye v.
Proof.
  intro I.
  assert (RF : forall c, forall v w, asvoigt4 (rot4 (reflect c) (astensor4 H)) v w = H v w) by (intros c v w; rewrite (I _ (reflect_orth c)); reflexivity).
  pose (p01 := fun i => match i with X0 => X1 | X1 => X0 | X2 => X2 end). pose (p12 := fun i => match i with X0 => X0 | X1 => X2 | X2 => X1 end).
  assert (O01 : orthogonal (perm_mat p01)) by (apply perm_orth; intros [] []; cbn; congruence).
  assert (O12 : orthogonal (perm_mat p12)) by (apply perm_orth; intros [] []; cbn; congruence).
  assert (S01 : forall v w, asvoigt4 (rot4 (perm_mat p01) (astensor4 H)) v w = H v w) by (intros v w; rewrite (I _ O01); reflexivity).
  assert (S12 : forall v w, asvoigt4 (rot4 (perm_mat p12) (astensor4 H)) v w = H v w) by (intros v w; rewrite (I _ O12); reflexivity).
  assert (T45 := f_equal (fun X : Mat6 => X V0 V0) (I _ turn45_orth)). cbv beta in T45.
  rewrite asvoigt4_at in T45. setoid_rewrite asvoigt4_at in RF. setoid_rewrite asvoigt4_at in S01. setoid_rewrite asvoigt4_at in S12.
  assert (Z : forall v w, v <> w -> (match v with V0 | V1 | V2 => False | _ => True end \/ match w with V0 | V1 | V2 => False | _ => True end) -> H v w = 0).
  { intros v w N D. assert (E0 := RF X0 v w). assert (E1 := RF X1 v w). assert (E2 := RF X2 v w).
    rewrite rot4_reflect in E0, E1, E2. unfold astensor4 in E0, E1, E2. destruct v, w; try congruence; try tauto; cbn in E0, E1, E2; lra. }
  assert (P1 := fun v w => eq_trans (eq_sym (rot4_perm p01 (astensor4 H) _ _ _ _)) (S01 v w)).
  assert (P2 := fun v w => eq_trans (eq_sym (rot4_perm p12 (astensor4 H) _ _ _ _)) (S12 v w)).
  assert (a1 := P1 V0 V0). assert (a2 := P2 V1 V1). assert (b1 := P1 V0 V1). assert (b2 := P2 V0 V1). assert (b3 := P2 V1 V0). assert (b4 := P1 V0 V2). assert (b5 := P1 V2 V0).
  assert (c1 := P2 V3 V3). assert (c2 := P1 V5 V5). unfold astensor4 in a1, a2, b1, b2, b3, b4, b5, c1, c2. cbn in a1, a2, b1, b2, b3, b4, b5, c1, c2.
  assert (K : H V0 V0 = H V0 V1 + 2 * H V3 V3).
  { unfold rot4, turn45, sum3, astensor4 in T45. cbn in T45. set (q := / sqrt 2) in *. assert (Q : q * q = / 2) by exact q2.
    assert (Q4 : q * q * (q * q) = / 4) by (rewrite Q; field).
    rewrite ?(Z V0 V3), ?(Z V1 V3), ?(Z V3 V0), ?(Z V3 V1) in T45 by (try discriminate; cbn; tauto).
    match type of T45 with ?L = _ => replace L with (q * q * (q * q) * (H V0 V0 + H V0 V1 + H V1 V0 + H V1 V1 + 4 * H V3 V3)) in T45 by ring end.
    rewrite Q4 in T45. lra. }
  split; [exact K|].
  intros h v. unfold ddot42, sum6, weights, trace, eye.
  destruct v; rewrite ?(Z V0 V3), ?(Z V0 V4), ?(Z V0 V5), ?(Z V1 V3), ?(Z V1 V4), ?(Z V1 V5), ?(Z V2 V3), ?(Z V2 V4), ?(Z V2 V5),
    ?(Z V3 V0), ?(Z V3 V1), ?(Z V3 V2), ?(Z V3 V4), ?(Z V3 V5), ?(Z V4 V0), ?(Z V4 V1), ?(Z V4 V2), ?(Z V4 V3), ?(Z V4 V5), ?(Z V5 V0), ?(Z V5 V1), ?(Z V5 V2), ?(Z V5 V3), ?(Z V5 V4)
    by (try discriminate; cbn; tauto); cbn.
  - rewrite K, <- ?b2. replace (H V0 V2) with (H V0 V1) by congruence. ring.
  - replace (H V1 V1) with (H V0 V0) by congruence. rewrite K. replace (H V1 V0) with (H V0 V1) by congruence. replace (H V1 V2) with (H V0 V1) by congruence. ring.
  - replace (H V2 V2) with (H V0 V0) by congruence. rewrite K. replace (H V2 V0) with (H V0 V1) by congruence. replace (H V2 V1) with (H V0 V1) by congruence. ring.
  - ring.
  - replace (H V4 V4) with (H V3 V3) by congruence. ring.
  - replace (H V5 V5) with (H V3 V3) by congruence. ring.
Qed.
(** *** derivative of the stress *)
Lemma lin_S c t0 dc (G : R -> Vec6) H s0 a b : dcurve6 c t0 dc -> c t0 = eye -> G t0 = vscal s0 eye -> (forall h v, ddot42 H h v = a * h v + b * trace h * eye v) ->
  dcurve6 G t0 (ddot42 H (dseen (c t0) dc)) ->
  dcurve6 (fun t => kS KDistortional (c t) (G t)) t0 (fun v => (2 * s0 + 2 * a) * (dc v - trace dc / 3 * eye v)).
Proof.
  intros Hc E0 EG HH HG. assert (D1 : det eye = 1) by (unfold det, eye; ring).
  assert (P : det (c t0) > 0) by (rewrite E0, D1; lra).
  assert (X := dis_S_D c t0 dc G H Hc P HG). intro v. eapply Calc.D_eq; [exact (X v)|]. clear X.
  unfold dis_C4. rewrite E0, EG. 
  rewrite ddot42_add, ddot42_scal, ddot42_add, !ddot42_sub, !ddot42_scal, transpose_dya, !ddot42_dya.
  rewrite !ddot44_42, P4_action.
  set (y := ddot42 (mscal6 _ H) _).
  assert (R1 : forall e, Rpower (det eye) e = 1) by (intro e; rewrite D1; unfold Rpower; rewrite ln_1, Rmult_0_r, exp_0; reflexivity).
  assert (I1 : inv eye None = eye) by (apply Vec6_ext; intros []; unfold inv, det, eye; cbn; field).
  assert (Y : forall w, y w = 4 * (a * (dc w - trace dc / 3 * eye w))).
  { intro w. unfold y. rewrite ddot42_scal, R1, HH, !P4_t_action, I1.
    match goal with |- context [trace ?X] => replace (trace X) with 0 end.
    2: { unfold trace. rewrite !P4_t_action. unfold ddot22, sum6, weights, eye. field. }
    replace (ddot22 eye dc) with (trace dc) by (unfold ddot22, trace, sum6, weights, eye; ring). field. }
  rewrite Y. replace (ddot22 eye y) with 0.
  2: { unfold ddot22, sum6. rewrite !Y. unfold weights, trace, eye. field. }
  rewrite I1. cbn [kSb]. rewrite R1.
  assert (SD : ddot42 (cdya1 eye) dc v = dc v).
  { assert (Q := P4_action vzero vzero dc v). rewrite ddot42_sub, ddot42_scal, ddot42_dya in Q. unfold ddot22, sum6, vzero in Q. lra. }
  rewrite SD. unfold vscal, trace, ddot22, sum6, weights. destruct v; cbn; field.
Qed.
Section Lin.
  Context {SV : Type} (fw : Framework SV) (W : T2 -> R) (Dom : T2 -> Prop).
  Context (HI : isotropic_fw fw posdef) (HG : fw_gradient_of fw W posdef) (HH : fw_hessian_of fw Dom) (D1 : Dom one2) (sv0 : SV) (m0 : fw_self fw).
  Lemma one_posdef : posdef one2.
  Proof.
    intros x [i Hi]. unfold quad, one2, delta, sum3. cbn. pose proof (pow2_ge_0 (x X0)). pose proof (pow2_ge_0 (x X1)). pose proof (pow2_ge_0 (x X2)).
    assert (0 < x i ^ 2) by (apply pow2_gt_0; exact Hi). destruct i; lra.
  Qed.
  Lemma rot_one Q : orthogonal Q -> rot2 Q one2 = one2.
  Proof.
    intro O. apply T2_ext. intros i j. assert (E := f_equal (fun X : T2 => X i j) (QQt Q O)). cbv beta in E. rewrite <- E.
    unfold rot2, mmul, mtr, one2, delta, sum3. cbn. ring.
  Qed.
  Lemma eye_one : asvoigt one2 = eye.
  Proof. apply Vec6_ext. intros []; reflexivity. Qed.
  Lemma ten_eye : astensor eye = one2.
  Proof. apply T2_ext. intros [] []; reflexivity. Qed.
  Lemma linear_stress : exists mu, forall F t0 dF svt st P, dcurve2 F t0 dF -> F t0 = one2 ->
    locally t0 (fun t => exists svn, returns (dis_gradient fw default_opts (F t) (svt t)) (st t) (StressFull (P t), svn)) ->
    (forall i j, P t0 i j = 0) /\ dcurve2 P t0 (fun i j => 2 * mu * dev_sym dF i j).
  Proof.
    destruct (fw_grad6 fw W posdef HG (fun _ => eye) 0 vzero) with (sv := sv0) (s := m0) as (g0 & svn0 & Eg & _).
    { intro v. apply D_const. } { rewrite ten_eye. exact one_posdef. }
    assert (Hg := SpecialProofs.isotropic_eye fw posdef sv0 m0 g0 svn0 HI one_posdef Eg). set (s0 := g0 V0) in *.
    destruct (fw_hess6 fw Dom HH (fun _ => eye) 0 vzero) with (sv := sv0) (s := m0) as (H & EH & _).
    { intro v. apply D_const. } { rewrite ten_eye. exact D1. }
    assert (IH : forall Q, orthogonal Q -> asvoigt4 (rot4 Q (astensor4 H)) = H).
    { intros Q O. assert (E := proj2 (HI Q one2 sv0 m0 O ltac:(intros [] []; reflexivity) one_posdef)). rewrite (rot_one Q O), eye_one, EH in E. cbn [rmap] in E. congruence. }
    destruct (isotropic4 H IH) as [_ A].
    exists (2 * s0 + 2 * (2 * H V3 V3)). intros F t0 dF svt st P DF E0 HP.
    assert (HC := right_CG_D F t0 dF DF). assert (CE : right_CG (F t0) = eye) by (rewrite E0; apply Vec6_ext; intros []; unfold right_CG, asvoigt, one2, delta, sum3; cbn; ring).
    assert (det_e : det eye = 1) by apply SpecialProofs.det_eye.
    assert (SE : seen KDistortional eye = eye).
    { cbn [seen]. rewrite det_e. apply Vec6_ext. intro v. unfold vscal, Rpower. rewrite ln_1, Rmult_0_r, exp_0. ring. }
    set (G := fun t => fcall fw (seen KDistortional (right_CG (F t))) (svt t) (sp_mat (st t))).
    assert (L : locally t0 (fun t => (exists svn, outcome (fw_gradient fw (seen KDistortional (right_CG (F t))) (svt t)) (sp_mat (st t)) = Ok (G t, svn))
                      /\ P t = mmul (F t) (astensor (kS KDistortional (right_CG (F t)) (G t))))).
    { revert HP; apply filter_imp; intros t [svn' HR]. apply returns_outcome in HR. change (dis_gradient fw default_opts) with (sp_gradient KDistortional fw default_opts) in HR.
      destruct (outcome (fw_gradient fw (seen KDistortional (right_CG (F t))) (svt t)) (sp_mat (st t))) as [[g' sv']|e] eqn:E'.
      - rewrite (sp_gradient_ok fw default_opts _ _ _ _ _ _ E') in HR. rewrite default_stress in HR. injection HR as <- <-.
        unfold G, fcall. rewrite E'. eauto.
      - rewrite (sp_gradient_raise fw default_opts _ _ _ _ _ E') in HR. discriminate. }
    assert (LG : locally t0 (fun t => exists svn, outcome (fw_gradient fw (seen KDistortional (right_CG (F t))) (svt t)) (sp_mat (st t)) = Ok (G t, svn)))
      by (revert L; apply filter_imp; intros t [X _]; exact X).
    assert (G0 : G t0 = vscal s0 eye).
    { destruct (locally_singleton _ _ LG) as [svn' E']. rewrite CE, SE in E'. rewrite <- Hg.
      apply (fw_grad_unique fw W posdef HG eye ltac:(rewrite ten_eye; exact one_posdef) _ _ _ _ _ _ _ _ E' Eg). }
    assert (HS := seen_D (fun t => right_CG (F t)) t0 _ HC ltac:(cbv beta; rewrite CE, det_e; lra)). cbv beta in HS.
    destruct (fw_hess6 fw Dom HH (fun t => seen KDistortional (right_CG (F t))) t0 _ HS) with (sv := sv0) (s := m0) as (H' & EH' & Hd).
    { cbv beta. rewrite CE, SE, ten_eye. exact D1. }
    cbv beta in EH'. rewrite CE, SE in EH'. assert (H' = H) by congruence. subst H'.
    assert (X := lin_S (fun t => right_CG (F t)) t0 _ G H s0 (2 * H V3 V3) (H V0 V1) HC CE G0 A (Hd _ (fun t => sp_mat (st t)) G LG)). cbv beta in X.
    assert (Z : forall v, kS KDistortional (right_CG (F t0)) (G t0) v = 0).
    { intro v. rewrite CE, G0. cbn [kS kSb]. rewrite det_e. unfold vsub, vscal, inv, det, ddot22, sum6, weights, eye, Rpower. rewrite ln_1, Rmult_0_r, exp_0. destruct v; cbn; field. }
    assert (ZT : forall i j, astensor (kS KDistortional (right_CG (F t0)) (G t0)) i j = 0) by (intros i j; destruct i, j; apply Z).
    split.
    - intros i j. destruct (locally_singleton _ _ L) as [_ ->]. unfold mmul, sum3. rewrite !ZT. ring.
    - intros i j. apply D_ext_loc with (fun t => mmul (F t) (astensor (kS KDistortional (right_CG (F t)) (G t))) i j).
      { revert L; apply filter_imp; intros t [_ ->]. reflexivity. }
      assert (XT := dcurve_tensor _ _ _ X). unfold mmul, sum3.
      eapply Calc.D_eq; [exact (D_plus _ _ _ _ _ (D_plus _ _ _ _ _ (D_mult _ _ _ _ _ (DF i X0) (XT X0 j)) (D_mult _ _ _ _ _ (DF i X1) (XT X1 j))) (D_mult _ _ _ _ _ (DF i X2) (XT X2 j)))|]. cbv beta. rewrite !ZT, E0.
      unfold dev_sym, one2, delta, dCG, asvoigt, astensor, trace, eye, sum3. unfold one2, delta. destruct i, j; cbn; field.
  Qed.
End Lin.
