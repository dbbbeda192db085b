(** Derivatives of the Invariants framework (C14, C15). *)
From Coq Require Import Reals Lra List Bool FunctionalExtensionality.
From Coquelicot Require Import Coquelicot.
From Verif Require Import Tensor Py Voigt VoigtProofs Algebra Calc Models Frameworks Spaces Spec VCalc ModelProofs GenProofs InvCore.
Local Open Scope R_scope.

Section I.
  Context {SV : Type} (m : InvModel SV).
  (** *** Derivatives *)
  Lemma inv_fw_grad psi Dom : inv_gradient_of m psi Dom ->
    fw_gradient_of (invariants_fw m) (fun C => psi (invariants C)) (fun C => invertible C /\ Dom (invariants C)).
  Proof.
    intros H C t0 dC S HC [N D] sv s.
    assert (HV := dcurve_voigt _ _ _ HC).
    assert (N' : det (asvoigt (C t0)) <> 0) by (rewrite det_full; auto).
    assert (HJ := Jv_D _ _ _ HV N'). cbv beta in HJ.
    assert (EJ : (fun t => Jv (asvoigt (C t))) = (fun t => invariants (C t)))
      by (apply functional_extensionality; intro t; apply Jv_full, S).
    rewrite EJ in HJ.
    destruct (H _ _ _ HJ D sv) as (g & svn & Eg & Hd).
    exists (gradv (asvoigt (C t0)) g), svn. split.
    - exists (inv_after (asvoigt (C t0)) g s). apply inv_gradient_ok. rewrite Jv_full; auto.
    - eapply D_eq; [exact Hd|].
      assert (S' := dcurve2_sym _ _ _ S HC).
      replace (dc22 (astensor (gradv (asvoigt (C t0)) g)) dC) with (ddot22 (gradv (asvoigt (C t0)) g) (asvoigt dC))
        by (rewrite ddot22_full, astensor_asvoigt_f; auto).
      unfold gradv, ddot22, sum6, sum3; ring.
  Qed.

  Lemma dJv_D c t0 dc : dcurve6 c t0 dc -> det (c t0) <> 0 -> forall k,
    dcurve6 (fun t => dJv (c t) k) t0 (ddot42 (d2Jv (c t0) k) dc).
  Proof.
    intros H N k v. destruct k; cbn [dJv d2Jv].
    - rewrite ddot42_zero. apply D_const.
    - rewrite ddot42_sub, ddot42_dya, ddot42_cdya_eye, ddot22_eye. unfold vsub, vscal.
      eapply D_eq. { apply D_minus; [|apply H]. apply D_scalr. apply trace_D; eauto. } ring.
    - rewrite ddot42_scal, ddot42_sub, ddot42_dya. unfold vscal.
      eapply D_eq.
      { apply D_mult. apply det_D; eauto. exact (inv_D c t0 dc H N v). }
      cbv beta. change (inv (c t0) (Some (det (c t0)))) with (inv (c t0) None). unfold sandwich. ring.
  Qed.

  (** G built from the calls themselves, without choice. *)
  Definition gcall (J : Vec3) (sv : SV) : opt3 :=
    match inv_call m J sv with Ok (g, _) => g | Raise _ => (None, None, None) end.

  Lemma gradv_D psi Dom (C : R -> T2) t0 dC : inv_gradient_of m psi Dom -> inv_hessian_of m Dom ->
    (forall t, sym2 (C t)) -> dcurve2 C t0 dC -> invertible (C t0) -> Dom (invariants (C t0)) ->
    forall sv g svn, inv_call m (invariants (C t0)) sv = Ok (g, svn) ->
    forall sv' h, inv_callh m (invariants (C t0)) sv' = Ok h ->
    forall svt st G,
      locally t0 (fun t => exists svn, returns (inv_gradient m (asvoigt (C t)) (svt t)) (st t) (G t, svn)) ->
      dcurve2 (fun t => astensor (G t)) t0 (dc42 (astensor4 (hessv (asvoigt (C t0)) g h)) dC).
  Proof.
    intros Hg Hh S HC N D sv g svn Eg sv' h Eh svt st G HG.
    assert (S' := dcurve2_sym _ _ _ S HC).
    assert (HV := dcurve_voigt _ _ _ HC). set (c := fun t => asvoigt (C t)) in *.
    assert (N' : det (c t0) <> 0) by (unfold c; rewrite det_full; auto).
    assert (HJ := Jv_D _ _ _ HV N'). cbv beta in HJ.
    assert (EJ : (fun t => Jv (c t)) = (fun t => invariants (C t)))
      by (apply functional_extensionality; intro t; apply Jv_full, S).
    rewrite EJ in HJ.
    destruct (Hh _ _ _ HJ D sv') as (h' & Eh' & HD). rewrite Eh in Eh'. injection Eh' as <-.
    set (gt := fun t => gcall (invariants (C t)) (svt t)).
    assert (LG : locally t0 (fun t => G t = gradv (c t) (gt t) /\ exists svn, inv_call m (invariants (C t)) (svt t) = Ok (gt t, svn))).
    { revert HG; apply filter_imp; intros t (svn' & HR). apply inv_gradient_inv in HR.
      destruct HR as (g' & E & ->). rewrite Jv_full in E by auto. unfold gt, gcall. rewrite E. eauto. }
    specialize (HD svt gt). assert (L1 : locally t0 (fun t => exists svn, inv_call m (invariants (C t)) (svt t) = Ok (gt t, svn))).
    { revert LG; apply filter_imp; intros t [_ X]; exact X. }
    specialize (HD L1).
    assert (V0' : forall k, val (o3 (gt t0) k) = val (o3 g k)).
    { destruct (locally_singleton _ _ L1) as (svn' & E). intro k.
      eapply inv_gradient_unique; eauto. }
    assert (H6 : dcurve6 G t0 (ddot42 (hessv (c t0) g h) (asvoigt dC))).
    { intro v. apply D_ext_loc with (fun t => gradv (c t) (gt t) v).
      { revert LG; apply filter_imp; intros t [-> _]; reflexivity. }
      unfold gradv. eapply D_eq.
      { apply (D_sum3 (fun t k => val (o3 (gt t) k) * dJv (c t) k v)). intro k.
        apply D_mult; [apply HD|exact (dJv_D _ _ _ HV N' k v)]. }
      cbv beta. unfold sum3. rewrite !V0'.
      unfold hessv, ddot42, ddot22, sum6, sum3, dya. ring. }
    intros i j. rewrite <- (astensor_asvoigt_f dC S'). rewrite <- ddot42_full.
    unfold astensor. apply H6.
  Qed.

  Lemma none_exn g h : none_consistent g h -> h V2 = None -> hess_exn g h = None.
  Proof.
    intros H E. unfold hess_exn. rewrite E. cbn [isN negb andb].
    assert (HH : forall k l, isN (h (pos k l)) = false -> isN (o3 g k) = false /\ isN (o3 g l) = false).
    { intros k l Hn. destruct (H k l) as [A B]. destruct (h (pos k l)); [discriminate|discriminate Hn].
      destruct (o3 g k), (o3 g l); cbn; auto; contradiction. }
    pose proof (HH X0 X0) as H0. pose proof (HH X1 X1) as H1. pose proof (HH X0 X1) as H3.
    pose proof (HH X1 X2) as H4. pose proof (HH X0 X2) as H5. cbn [pos] in *.
    destruct (isN (h V0)), (isN (h V1)), (isN (h V3)), (isN (h V4)), (isN (h V5)),
     (isN (o3 g X0)), (isN (o3 g X1)), (isN (o3 g X2)); cbn; try reflexivity; exfalso;
    repeat match goal with H : false = false -> _ |- _ => specialize (H eq_refl); destruct H end; discriminate.
  Qed.

  (** Models whose second derivatives are well formed and that return no d2WdI3dI3. *)
  Lemma inv_fw_hess psi Dom : inv_gradient_of m psi Dom -> inv_hessian_of m Dom ->
    fw_hessian_of (invariants_fw m) (fun C => invertible C /\ Dom (invariants C) /\
      forall sv g svn h, inv_call m (invariants C) sv = Ok (g, svn) -> inv_callh m (invariants C) svn = Ok h ->
        none_consistent g h /\ h V2 = None).
  Proof.
    intros Hg Hh C t0 dC S HC (N & D & Hn) sv s.
    destruct (inv_gradient_exists _ _ _ Hg _ D sv) as (g & svn & Eg).
    assert (EJ : Jv (asvoigt (C t0)) = invariants (C t0)) by (apply Jv_full, S).
    destruct (Hh (fun t => line3 (invariants (C t0)) (fun _ => 0) t) 0 _ (line3_D _ _)) with (sv := svn) as (h & Eh & _).
    { rewrite line3_0; auto. }
    rewrite line3_0 in Eh.
    destruct (Hn _ _ _ _ Eg Eh) as [Hc H2].
    exists (hessv (asvoigt (C t0)) g h). split.
    - exists (inv_after (asvoigt (C t0)) g s). cbn [invariants_fw fw_hessian].
      rewrite (inv_hessian_eq m _ sv g svn h); rewrite ?EJ; auto. rewrite none_exn; auto. rewrite H2. reflexivity.
    - intros svt st G HG. exact (gradv_D psi Dom C t0 dC Hg Hh S HC N D sv g svn Eg svn h Eh svt st G HG).
  Qed.
End I.

(** *** C16: when does hessian return? *)
Lemma inv_hessian_returns_iff {SV} (m : InvModel SV) C sv g svn h s :
  inv_call m (Jv C) sv = Ok (g, svn) -> inv_callh m (Jv C) svn = Ok h -> none_consistent g h ->
  ((exists H, returns (inv_hessian m C sv) s H) <-> (h V2 = None \/ (o3 g X1 <> None /\ h V1 <> None))).
Proof.
  intros Hg Hh Hc. split.
  - intros (H & s' & E). rewrite (inv_hessian_eq m _ _ _ _ _ s Hg Hh) in E.
    destruct (hess_exn g h) eqn:Ex; [discriminate|].
    unfold hess_exn in Ex. destruct (h V2) eqn:E2; [|left; reflexivity]. right.
    cbn [isN negb andb] in Ex.
    destruct (o3 g X1) eqn:E1, (h V1) eqn:E1'; cbn in Ex; try (split; discriminate).
    1-3: exfalso; destruct (isN (h V0)), (isN (fst (fst g))); cbn in Ex; discriminate.
  - intro Hcase. unfold returns. rewrite (inv_hessian_eq m _ _ _ _ _ s Hg Hh).
    destruct (isN (h V2)) eqn:E2.
    + rewrite none_exn; auto. eauto. destruct (h V2); [discriminate|reflexivity].
    + assert (Ex : hess_exn g h = None).
      { destruct Hcase as [Hcase|[Hx Hy]]; [rewrite Hcase in E2; discriminate|].
        set (h' := fun v => match v with V2 => None | _ => h v end).
        assert (none_consistent g h').
        { intros k l K. apply Hc. destruct k, l; cbn in *; auto; congruence. }
        pose proof (none_exn g h' H eq_refl) as X. unfold hess_exn in *. cbn [h' isN] in X.
        rewrite E2. destruct (h V1) as [x|]; [|contradiction]. destruct (o3 g X1); [|contradiction].
        cbn [isN negb andb] in *. exact X. }
      rewrite Ex. eauto.
Qed.

(** An energy I3^2/2 whose model gives every derivative. *)
Definition quad3 (none : bool) : InvModel unit :=
  {| im_gradient := fun I1 I2 I3 sv => Ok (if none then (None, None, Some I3) else (Some 0, Some 0, Some I3), sv);
     im_hessian := fun I1 I2 I3 sv => Ok (fun v => match v with V2 => Some 1 | _ => if none then None else Some 0 end) |}.
Lemma quad3_grad b : inv_gradient_of (quad3 b) (fun I => I X2 ^ 2 / 2) everywhere.
Proof.
  intros I t0 dI H _ sv. unfold inv_call, quad3; cbn. eexists _, sv. split; [reflexivity|].
  dsolve. unfold sum3; destruct b; cbn; field.
Qed.
Lemma quad3_hess b : inv_hessian_of (quad3 b) everywhere.
Proof.
  intros I t0 dI H _ sv. eexists; split; [reflexivity|]. intros svt G HG k.
  apply D_ext_loc with (fun t => val (o3 (if b then (None, None, Some (I t X2)) else (Some 0, Some 0, Some (I t X2))) k)).
  { revert HG; apply filter_imp; intros t (svn & E). cbn in E. injection E as <- _. reflexivity. }
  destruct b, k; cbn [val o3 fst snd]; unfold sum3; cbn [pos val]; dsolve; ring.
Qed.
Lemma quad3_none b I sv g svn h : inv_call (quad3 b) I sv = Ok (g, svn) -> inv_callh (quad3 b) I svn = Ok h -> none_consistent g h.
Proof.
  unfold inv_call, inv_callh; cbn. intros E1 E2. injection E1 as <- _. injection E2 as <-.
  intros k l; destruct b, k, l; cbn; intro X; split; congruence.
Qed.

Lemma inv_hessian_refuted :
  ~ fw_hessian_of (invariants_fw (quad3 false)) invertible.
Proof.
  intro H.
  set (C := fun (t : R) (i j : ix3) => match i, j with X0, X0 => 1 + t | X1, X1 => 1 | X2, X2 => 1 | _, _ => 0 end).
  set (dC := fun (i j : ix3) => match i, j with X0, X0 => 1 | _, _ => 0 end : R).
  assert (S : forall t, sym2 (C t)) by (intros t i j; destruct i, j; reflexivity).
  assert (HC : dcurve2 C 0 dC).
  { intros i j; destruct i, j; cbn; try apply D_const. eapply D_eq. apply D_plus; [apply D_const|apply D_id]. ring. }
  assert (N : invertible (C 0)) by (unfold invertible, det3, C; cbn; lra).
  destruct (H C 0 dC S HC N tt inv_self0) as (HH & (s' & Er) & HD).
  set (g := fun t => (Some 0, Some 0, Some (det (asvoigt (C t)))) : opt3).
  assert (Eg : forall t, inv_call (quad3 false) (Jv (asvoigt (C t))) tt = Ok (g t, tt)) by reflexivity.
  cbn [invariants_fw fw_hessian] in Er.
  rewrite (inv_hessian_eq _ _ _ _ _ _ inv_self0 (Eg 0) eq_refl) in Er. cbn [hess_exn isN negb andb o3 g fst snd] in Er.
  injection Er as _ <-.
  specialize (HD (fun _ => tt) (fun _ => inv_self0) (fun t => gradv (asvoigt (C t)) (g t))).
  assert (L : locally 0 (fun t => exists svn : unit, returns (fw_gradient (invariants_fw (quad3 false)) (asvoigt (C t)) tt)
     inv_self0 (gradv (asvoigt (C t)) (g t), svn))).
  { apply filter_forall. intro t. exists tt. eexists. apply inv_gradient_ok. apply Eg. }
  specialize (HD L X0 X0).
  apply D_ext_loc with (g := fun t => 1 + t) in HD.
  - assert (D1 : is_derive (fun t => 1 + t) 0 1).
    { eapply D_eq. apply D_plus; [apply D_const|apply D_id]. ring. }
    assert (X := D_unique _ _ _ _ HD D1). clear - X.
    revert X. unfold dc42, sum3, astensor4, hessv_bug, hessv, sum3, dya, d2Jv, dJv, g, asvoigt, det, C, dC; cbn.
    unfold mscal6, msub6, cdya1, cdya_obj, cdya_value, inv, dya, vsub, vscal, eye, det; cbn. lra.
  - assert (L2 : locally 0 (fun t => 0 < 1 + t)).
    { apply locally_pos with 1; [|lra]. eapply D_eq. apply D_plus; [apply D_const|apply D_id]. ring. }
    revert L2; apply filter_imp. intros t P. unfold astensor, gradv, sum3, g, dJv, vscal, vsub, inv, det, asvoigt, C, eye; cbn.
    field. lra.
Qed.
