(** Deformation, Distortional and Dilatational spaces (C25, C26, C29 - C33). *)
From Coq Require Import Reals Lra FunctionalExtensionality.
From Coquelicot Require Import Coquelicot.
From Verif Require Import Tensor Py Voigt VoigtProofs Algebra Calc Models Frameworks Spaces Spec VCalc ModelProofs GenProofs
  InvCore IsoProofs SpaceCore PiolaProofs SpaceProofs.
Local Open Scope R_scope.

Lemma outcome_pair {S A} (call : PY S A) s a : outcome call s = Ok a -> exists s', call s = (s', Ok a).
Proof. unfold outcome. destruct (call s) as [s' r]; cbn; intros ->; eauto. Qed.
Lemma locally_at {SV} (fw : Framework SV) (c : R -> Vec6) (t0 : R) svt st G :
  locally t0 (fun t => exists svn, outcome (fw_gradient fw (c t) (svt t)) (st t) = Ok (G t, svn)) ->
  exists svn, outcome (fw_gradient fw (c t0) (svt t0)) (st t0) = Ok (G t0, svn).
Proof. intro H. exact (locally_singleton _ _ H). Qed.

Section Sp.
  Context {SV : Type} (fw : Framework SV).
  Notation o := default_opts.

  (** *** Deformation *)
  Lemma deformation_grad W Dom : fw_gradient_of fw W Dom ->
    sp_gradient_of (def_gradient fw o) (fun F => W (cauchy_green F)) (fun F => Dom (cauchy_green F)).
  Proof.
    intro H. intros F t0 dF HF DF. revert F t0 dF HF DF.
    cut (sp_gradient_of (sp_gradient KDeformation fw o) (fun F => W (cauchy_green F)) (fun F => (KDeformation <> KDeformation -> invertible F) /\ Dom (cauchy_green F))).
    { intros X F t0 dF HF DF. apply X; auto. split; [congruence|auto]. }
    apply (space_grad fw KDeformation W Dom). intros c t0 dc Hc D _ sv s.
    destruct (fw_grad6 fw W Dom H c t0 dc Hc D sv s) as (g & svn & E & Hd).
    exists g, svn. split; [exact E|]. eapply D_eq; [exact Hd|]. cbn [kS]. rewrite ddot22_scal_l. field.
  Qed.
  Lemma deformation_hess W Dom : fw_gradient_of fw W Dom -> fw_hessian_of fw Dom ->
    sp_hessian_of (def_gradient fw o) (def_hessian fw o) (fun F => Dom (cauchy_green F)).
  Proof.
    intros Hg Hh. cut (sp_hessian_of (sp_gradient KDeformation fw o) (sp_hessian KDeformation fw o) (fun F => (KDeformation <> KDeformation -> invertible F) /\ Dom (cauchy_green F))).
    { intros X F t0 dF HF DF. apply X; auto. split; [congruence|auto]. }
    apply (space_hess fw KDeformation Dom). intros c t0 dc Hc D _ sv s.
    destruct (fw_grad6 fw W Dom Hg c t0 dc Hc D sv s) as (g & svn & E & _).
    destruct (outcome_pair _ _ _ E) as [ms E1].
    destruct (fw_hess6 fw Dom Hh c t0 dc Hc D sv ms) as (H & EH & Hd).
    exists g, svn, ms, H. cbn [seen]. split; [exact E1|split; [exact EH|]]. intros svt st G H0. split.
    - destruct (locally_at fw c t0 svt st G H0) as [svn' E']. cbn [kS]. f_equal.
      eapply fw_grad_unique; eauto.
    - intro v. cbn [kS kC4]. unfold vscal. eapply D_eq. { apply D_scal. exact (Hd svt st G H0 v). }
      rewrite ddot42_scal. field.
  Qed.

  (** *** Distortional *)
  Lemma Rpower_m1 x y : 0 < x -> Rpower x (y - 1) * x = Rpower x y.
  Proof. intro P. rewrite <- (Rpower_1 x P) at 2. rewrite <- Rpower_plus. f_equal; ring. Qed.
  Lemma I3pow_D c t0 dc y : dcurve6 c t0 dc -> det (c t0) > 0 ->
    is_derive (fun t => Rpower (det (c t)) y) t0 (y * Rpower (det (c t0)) y * ddot22 (inv (c t0) None) dc).
  Proof.
    intros H P. eapply D_eq. { apply D_pow; [apply det_D; [exact H|lra]|lra]. }
    rewrite <- (Rpower_m1 (det (c t0)) y) by lra. ring.
  Qed.
  (** derivative of the distortional part *)
  Definition dseen (c dc : Vec6) : Vec6 := fun v =>
    Rpower (det c) (- 1 / 3) * (dc v - ddot22 (inv c None) dc / 3 * c v).
  Lemma seen_D c t0 dc : dcurve6 c t0 dc -> det (c t0) > 0 ->
    dcurve6 (fun t => seen KDistortional (c t)) t0 (dseen (c t0) dc).
  Proof.
    intros H P v. cbn [seen]. unfold vscal. eapply D_eq.
    { apply D_mult; [exact (I3pow_D _ _ _ (- 1 / 3) H P)|apply H]. }
    cbv beta. unfold dseen. field.
  Qed.
  Lemma ddot22_sum_r a b x c : ddot22 c (fun v => a v - x * b v) = ddot22 c a - x * ddot22 c b.
  Proof. unfold ddot22, sum6; ring. Qed.
  Lemma det_vscal x c : det (vscal x c) = x ^ 3 * det c.
  Proof. unfold det, vscal; ring. Qed.
  Lemma seen_det c : det c > 0 -> det (seen KDistortional c) = 1.
  Proof.
    intro P. cbn [seen]. rewrite det_vscal.
    rewrite <- Rpower_pow by apply exp_pos. rewrite Rpower_mult.
    replace (Rpower (det c) (- 1 / 3 * INR 3) * det c) with (Rpower (det c) (- 1 / 3 * INR 3) * Rpower (det c) 1)
      by (rewrite Rpower_1; lra). rewrite <- Rpower_plus.
    replace (- 1 / 3 * INR 3 + 1) with 0 by (cbn; field). apply Rpower_O; lra.
  Qed.
  Lemma dist_part c : astensor (seen KDistortional c) = distortional_part (astensor c).
  Proof.
    apply T2_ext; intros i j. unfold distortional_part, mscal. rewrite <- det_astensor.
    cbn [seen]. unfold astensor, vscal. reflexivity.
  Qed.

  Lemma dis_S c g : kS KDistortional c g = vsub (kSb KDistortional c g) (vscal (ddot22 (kSb KDistortional c g) c / 3) (inv c None)).
  Proof. reflexivity. Qed.

  Lemma distortional_grad W Dom : fw_gradient_of fw W Dom ->
    sp_gradient_of (dis_gradient fw o) (fun F => W (distortional_part (cauchy_green F)))
      (fun F => invertible F /\ Dom (distortional_part (cauchy_green F))).
  Proof.
    intro H.
    cut (sp_gradient_of (sp_gradient KDistortional fw o) (fun F => W (distortional_part (cauchy_green F)))
      (fun F => (KDistortional <> KDeformation -> invertible F) /\ Dom (distortional_part (cauchy_green F)))).
    { intros X F t0 dF HF [N DF]. apply X; auto. }
    apply (space_grad fw KDistortional (fun C => W (distortional_part C)) (fun C => Dom (distortional_part C))).
    intros c t0 dc Hc D P sv s. specialize (P ltac:(discriminate)).
    destruct (fw_grad6 fw W Dom H _ t0 _ (seen_D c t0 dc Hc P)) with (sv := sv) (s := s) as (g & svn & E & Hd).
    { rewrite dist_part; auto. }
    exists g, svn. split; [exact E|]. apply D_ext with (fun t => W (astensor (seen KDistortional (c t)))).
    { intro; rewrite dist_part; auto. }
    eapply D_eq; [exact Hd|]. rewrite dis_S. rewrite ddot22_sub_l, ddot22_scal_l. cbn [kSb]. rewrite !ddot22_scal_l.
    unfold dseen. unfold ddot22, sum6; field.
  Qed.

  (** The exact tangent (without the np.allclose test). *)
  Definition dis_C4 (C g : Vec6) (H : Mat6) : Mat6 :=
    let Sb := kSb KDistortional C g in
    let invC := inv C None in
    let SbC := ddot22 Sb C in
    let C4b := mscal6 (4 * Rpower (det C) (- 2 / 3)) H in
    let P4 := msub6 (cdya1 eye) (mscal6 (/ 3) (dya invC C)) in
    madd6 (mscal6 (2 / 3)
                (madd6 (msub6 (msub6 (mscal6 SbC (cdya1 invC)) (dya Sb invC)) (transpose (dya Sb invC)))
                       (mscal6 (SbC / 3) (dya invC invC))))
          (ddot44 (ddot44 P4 C4b) (transpose P4)).
  Lemma ddot44_42 A B h v : ddot42 (ddot44 A B) h v = ddot42 A (ddot42 B h) v.
  Proof. unfold ddot42, ddot44, sum6; ring. Qed.
  Lemma transpose_dya a b : transpose (dya a b) = dya b a.
  Proof. apply Mat6_ext; intros; unfold transpose, dya; ring. Qed.
  Lemma P4_t_action invC C h v : ddot42 (transpose (msub6 (cdya1 eye) (mscal6 (/ 3) (dya invC C)))) h v = h v - ddot22 invC h / 3 * C v.
  Proof.
    replace (transpose (msub6 (cdya1 eye) (mscal6 (/ 3) (dya invC C)))) with (msub6 (cdya1 eye) (mscal6 (/ 3) (dya C invC))).
    - rewrite ddot42_sub, ddot42_scal, ddot42_dya, ddot42_cdya_eye. field.
    - apply Mat6_ext; intros a b. unfold transpose, msub6, mscal6, dya. f_equal; [|ring].
      rewrite cdya1_cdya. apply cdya_major.
  Qed.
  Lemma P4_action invC C h v : ddot42 (msub6 (cdya1 eye) (mscal6 (/ 3) (dya invC C))) h v = h v - ddot22 C h / 3 * invC v.
  Proof. rewrite ddot42_sub, ddot42_scal, ddot42_dya, ddot42_cdya_eye. field. Qed.
  Lemma Rpower_sq x : 0 < x -> Rpower x (- 2 / 3) = Rpower x (- 1 / 3) * Rpower x (- 1 / 3).
  Proof. intro P. rewrite <- Rpower_plus. f_equal; lra. Qed.

  Lemma ddot42_ext A h h' : (forall v, h v = h' v) -> ddot42 A h = ddot42 A h'.
  Proof. intro E. replace h' with h; auto. apply Vec6_ext; auto. Qed.

  Lemma dis_S_D c t0 dc (G : R -> Vec6) H : dcurve6 c t0 dc -> det (c t0) > 0 ->
    dcurve6 G t0 (ddot42 H (dseen (c t0) dc)) ->
    dcurve6 (fun t => kS KDistortional (c t) (G t)) t0 (fun v => ddot42 (dis_C4 (c t0) (G t0) H) dc v / 2).
  Proof.
    intros Hc P HG.
    set (J := Rpower (det (c t0)) (- 1 / 3)). set (iC := inv (c t0) None). set (q := ddot22 iC dc).
    set (Sb := kSb KDistortional (c t0) (G t0)).
    assert (HSb : dcurve6 (fun t => kSb KDistortional (c t) (G t)) t0
       (fun v => - q / 3 * Sb v + 2 * J * ddot42 H (dseen (c t0) dc) v)).
    { intro v. cbn [kSb]. unfold vscal. eapply D_eq.
      { apply D_mult; [apply D_scal; exact (I3pow_D _ _ _ (- 1 / 3) Hc P)|apply HG]. }
      cbv beta. unfold Sb, kSb, vscal. fold J iC q. field. }
    assert (HSC := ddot_D _ _ _ HSb _ _ Hc). cbv beta in HSC.
    intro v. apply D_ext with (fun t => kSb KDistortional (c t) (G t) v - ddot22 (kSb KDistortional (c t) (G t)) (c t) / 3 * inv (c t) None v).
    { intro t. rewrite dis_S. unfold vsub, vscal. reflexivity. }
    eapply D_eq.
    { apply D_minus; [apply HSb|]. apply D_mult; [apply D_divc; exact HSC|exact (inv_D c t0 dc Hc (Rgt_not_eq _ _ P) v)]. }
    fold Sb iC. unfold dis_C4. fold Sb iC.
    rewrite ddot42_add, ddot42_scal, ddot42_add, !ddot42_sub, !ddot42_scal, transpose_dya, !ddot42_dya.
    rewrite !ddot44_42, P4_action. fold q.
    set (y := ddot42 (mscal6 (4 * Rpower (det (c t0)) (- 2 / 3)) H)
           (ddot42 (transpose (msub6 (cdya1 eye) (mscal6 (/ 3) (dya iC (c t0))))) dc)).
    assert (Y : forall w, y w = 4 * J * ddot42 H (dseen (c t0) dc) w).
    { intro w. unfold y. rewrite ddot42_scal, Rpower_sq by lra. fold J.
      replace (dseen (c t0) dc) with (vscal J (ddot42 (transpose (msub6 (cdya1 eye) (mscal6 (/ 3) (dya iC (c t0))))) dc)).
      - unfold ddot42, vscal, sum6; ring.
      - apply Vec6_ext; intro u. unfold vscal. rewrite P4_t_action. unfold dseen. fold J iC. reflexivity. }
    rewrite Y. replace (ddot22 (c t0) y) with (4 * J * ddot22 (c t0) (ddot42 H (dseen (c t0) dc))).
    2: { unfold ddot22, sum6. rewrite !Y. ring. }
    replace (ddot22 (fun v0 => - q / 3 * Sb v0 + 2 * J * ddot42 H (dseen (c t0) dc) v0) (c t0))
      with (- q / 3 * ddot22 Sb (c t0) + 2 * J * ddot22 (c t0) (ddot42 H (dseen (c t0) dc))).
    2: { unfold ddot22, sum6. ring. }
    unfold sandwich. field.
  Qed.

  (** The code's tangent agrees with the exact one unless allclose drops a non-zero term. *)
  Lemma kC4_exact C g H : allclose0 (mscal6 (4 * Rpower (det C) (- 2 / 3)) H) = false \/ (forall v w, H v w = 0) ->
    kC4 KDistortional C g H = dis_C4 C g H.
  Proof.
    intro Hc. unfold kC4, dis_C4. cbv zeta. change (inv C (Some (det C))) with (inv C None).
    destruct (allclose0 (mscal6 (4 * Rpower (det C) (- 2 / 3)) H)) eqn:E; [|reflexivity].
    destruct Hc as [Hc|Hc]; [discriminate|].
    apply Mat6_ext; intros v w. unfold madd6 at 2.
    match goal with |- _ = _ + ?X => replace X with 0; [ring|] end.
    unfold ddot44, mscal6, sum6. rewrite !Hc. ring.
  Qed.

  (** [Sig]: the material elasticity is significant (some entry above the tolerance) or zero. *)
  Definition significant (k : SpaceKind) (C : Vec6) (sv : SV) (s : fw_self fw) : Prop :=
    forall H, outcome (fw_hessian fw (seen k C) sv) s = Ok H ->
      allclose0 (mscal6 (4 * Rpower (det C) (- 2 / 3)) H) = false \/ (forall v w, H v w = 0).

  Lemma distortional_hess W Dom : fw_gradient_of fw W Dom -> fw_hessian_of fw Dom ->
    sp_hessian_of (dis_gradient fw o) (dis_hessian fw o)
      (fun F => invertible F /\ (Dom (distortional_part (cauchy_green F)) /\
         forall sv s, significant KDistortional (asvoigt (cauchy_green F)) sv s)).
  Proof.
    intros Hg Hh.
    cut (sp_hessian_of (sp_gradient KDistortional fw o) (sp_hessian KDistortional fw o)
      (fun F => (KDistortional <> KDeformation -> invertible F) /\ (Dom (distortional_part (cauchy_green F)) /\
         forall sv s, significant KDistortional (asvoigt (cauchy_green F)) sv s))).
    { intros X F t0 dF HF [N DF]. apply X; auto. }
    apply (space_hess fw KDistortional (fun C => Dom (distortional_part C) /\
        forall sv s, significant KDistortional (asvoigt C) sv s)).
    intros c t0 dc Hc [D Sg] P sv s. specialize (P ltac:(discriminate)).
    assert (HS := seen_D c t0 dc Hc P).
    destruct (fw_grad6 fw W Dom Hg _ t0 _ HS) with (sv := sv) (s := s) as (g & svn & E & _). { rewrite dist_part; auto. }
    destruct (outcome_pair _ _ _ E) as [ms E1].
    destruct (fw_hess6 fw Dom Hh _ t0 _ HS) with (sv := sv) (s := ms) as (H & EH & Hd). { rewrite dist_part; auto. }
    exists g, svn, ms, H. split; [exact E1|split; [exact EH|]]. intros svt st G H0. split.
    - destruct (locally_at fw (fun t => seen KDistortional (c t)) t0 svt st G H0) as [svn' E']. f_equal.
      eapply fw_grad_unique; eauto. rewrite dist_part; auto.
    - assert (EG : G t0 = g).
      { destruct (locally_at fw (fun t => seen KDistortional (c t)) t0 svt st G H0) as [svn' E'].
        eapply fw_grad_unique; eauto. rewrite dist_part; auto. }
      assert (X := dis_S_D c t0 dc G H Hc P (Hd svt st G H0)). rewrite EG in X.
      rewrite kC4_exact; auto.
      rewrite asvoigt_astensor_f in Sg. exact (Sg sv ms H EH).
  Qed.
End Sp.
