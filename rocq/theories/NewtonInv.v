(** * Proofs for C76: the invariant-based models in the spaces. *)
From Coq Require Import Reals Lra Lia List Psatz Bool FunctionalExtensionality.
From Coquelicot Require Import Coquelicot.
From Verif Require Import Tensor Py Voigt VoigtProofs Algebra Calc Models Frameworks Spaces Spec VCalc ModelProofs GenProofs
  PiolaProofs SpaceCore SpaceProofs InvCore InvProofs HistProofs DistProofs ScaleProofs Counter NewtonSpec NewtonLin NewtonProofs NewtonCalm
  PropInvariants PropSpaces.
Local Open Scope R_scope.

Section Inv.
  Context {SV : Type} (m : InvModel SV) (sv : SV).
  (** W_k and W_kl *)
  Variables (w1 : Vec3 -> ix3 -> R) (w2 : Vec3 -> ix6 -> R).
  Hypothesis HM : forall I, exists g svn h, inv_call m I sv = Ok (g, svn) /\ inv_callh m I svn = Ok h /\ hess_exn g h = None /\ h V2 = None /\
    (forall k, val (o3 g k) = w1 I k) /\ (forall v, val (h v) = w2 I v).
  Definition ig (C : Vec6) : Vec6 := fun v => sum3 (fun k => w1 (Jv C) k * dJv C k v).
  Definition ih (C : Vec6) : Mat6 := fun v w =>
    sum3 (fun k => w1 (Jv C) k * d2Jv C k v w) + sum3 (fun k => sum3 (fun l => w2 (Jv C) (pos k l) * dya (dJv C k) (dJv C l) v w)).
  Lemma inv_closed C s : (exists svn, outcome (fw_gradient (invariants_fw m) C sv) s = Ok (ig C, svn)) /\
    outcome (fw_hessian (invariants_fw m) C sv) s = Ok (ih C).
  Proof.
    destruct (HM (Jv C)) as (g & svn & h & E1 & E2 & E3 & E4 & E5 & E6). cbn [invariants_fw fw_gradient fw_hessian]. unfold outcome. split.
    - exists svn. rewrite (inv_gradient_ok _ _ _ _ _ s E1). cbn [snd]. f_equal. f_equal. apply Vec6_ext; intro v. unfold gradv, ig, sum3. rewrite !E5. reflexivity.
    - rewrite (inv_hessian_eq _ _ _ _ _ _ s E1 E2), E3, E4. cbn [snd isN]. f_equal. apply Mat6_ext; intros v w.
      unfold hessv, ih, sum3. rewrite !E5, !E6. reflexivity.
  Qed.
  Variable F0 : T2.
  Hypothesis CW : forall c, calmV F0 c -> (forall k, calm F0 (fun F => w1 (Jv (c F)) k)) /\ (forall v, calm F0 (fun F => w2 (Jv (c F)) v)).
  Section C.
    Variables (c : T2 -> Vec6) (Hc : calmV F0 c) (Nc : det (c F0) <> 0).
    Lemma calm_ci : calmV F0 (fun F => inv (c F) (Some (det (c F)))).
    Proof. apply cV_inv; [exact Hc|apply cR_det, Hc|exact Nc]. Qed.
    Lemma calm_dJ k : calmV F0 (fun F => dJv (c F) k).
    Proof. pose proof calm_ci as CI. destruct k; cbn [dJv]; calms. Qed.
    Lemma calm_d2J k : calmM F0 (fun F => d2Jv (c F) k).
    Proof. pose proof calm_ci as CI. destruct k; cbn [d2Jv]; [apply cM_const|apply cM_const|calms]. Qed.
    Lemma calm_ig : calmV F0 (fun F => ig (c F)).
    Proof. intro v. unfold ig. apply calm_sum3. intro k. apply calm_mul; [apply CW, Hc|apply calm_dJ]. Qed.
    Lemma calm_ih : calmM F0 (fun F => ih (c F)).
    Proof.
      intros v w. unfold ih. apply calm_add; apply calm_sum3; intro k.
      - apply calm_mul; [apply CW, Hc|apply calm_d2J].
      - apply calm_sum3; intro l. apply calm_mul; [apply CW, Hc|]. apply cM_dya; apply calm_dJ.
    Qed.
  End C.
End Inv.

(** The tensor the framework sees. *)
Lemma calm_seen F0 k : invertible F0 -> calmV F0 (fun F => seen k (right_CG F)).
Proof.
  intro N. destruct k; cbn [seen]; [calms|..]; apply (cV_vscal F0 (fun F => Rpower (det (right_CG F)) _)); calms; apply calm_pow_det; auto.
Qed.
Lemma det_seen F k : invertible F -> det (seen k (right_CG F)) <> 0.
Proof.
  intro N. pose proof (pos_right_CG F N) as P. destruct k; cbn [seen]; [lra|..];
  (match goal with |- det (vscal ?a ?c) <> 0 => replace (det (vscal a c)) with (a ^ 3 * det c) by (unfold det, vscal; ring) end;
   apply Rmult_integral_contrapositive_currified; [apply pow_nonzero, Rgt_not_eq; unfold Rpower; apply exp_pos|lra]).
Qed.

Lemma seen_dist_voigt F : asvoigt (distortional_part (cauchy_green F)) = seen KDistortional (right_CG F).
Proof.
  change (right_CG F) with (asvoigt (cauchy_green F)). rewrite <- (asvoigt_astensor_f (seen KDistortional (asvoigt (cauchy_green F)))), dist_part.
  f_equal. f_equal. apply T2_ext; intros i j. symmetry. apply astensor_asvoigt. apply cauchy_green_sym.
Qed.

(** *** ThirdOrderDeformation *)
Definition tw1 (m : TOD) (I : Vec3) (k : ix3) : R := match k with
  | X0 => C10 m + C11 m * (I X1 - undeformed m) + 2 * C20 m * (I X0 - undeformed m) + 3 * C30 m * (I X0 - undeformed m) ^ 2
  | X1 => C01 m + C11 m * (I X0 - undeformed m) | X2 => 0 end.
Definition tw2 (m : TOD) (I : Vec3) (v : ix6) : R :=
  match v with V0 => 2 * C20 m + 6 * C30 m * (I X0 - undeformed m) | V3 => C11 m | _ => 0 end.
Lemma tod_closed {SV} (m : TOD) (sv : SV) I : exists g svn h, inv_call (tod_model m) I sv = Ok (g, svn) /\ inv_callh (tod_model m) I svn = Ok h /\
  hess_exn g h = None /\ h V2 = None /\ (forall k, val (o3 g k) = tw1 m I k) /\ (forall v, val (h v) = tw2 m I v).
Proof.
  destruct (tod_call m I sv) as (g & E & H1 & H2 & H3). exists g, sv, (tod_hessian m (I X0) (I X1) (I X2)).
  split; [exact E|]. split; [reflexivity|]. split; [apply none_exn; [|reflexivity]; apply (tod_none m I sv g sv _ E); reflexivity|].
  split; [reflexivity|]. split.
  - intros []; cbn [tw1]; [exact H1|exact H2|rewrite H3; reflexivity].
  - intro v. rewrite tod_hessian_val. reflexivity.
Qed.
Lemma calm_Jv F0 c k : calmV F0 c -> calm F0 (fun F => Jv (c F) k).
Proof. intro H. destruct k; cbn [Jv]; calms; lra. Qed.
Lemma tod_calm F0 m c : calmV F0 c -> (forall k, calm F0 (fun F => tw1 m (Jv (c F)) k)) /\ (forall v, calm F0 (fun F => tw2 m (Jv (c F)) v)).
Proof.
  intro H. pose proof (calm_Jv F0 c X0 H) as J0. pose proof (calm_Jv F0 c X1 H) as J1. split.
  - intros []; cbn [tw1]; calms.
  - intros []; cbn [tw2]; calms.
Qed.

Section TodSpace.
  Context {SV : Type} (m : TOD) (sv : SV).
  Let fw := invariants_fw (tod_model (SV:=SV) m).
  Lemma tod_smooth k F0 (Dom : T2 -> Prop) d0 : 0 < d0 -> (forall F, near d0 F F0 -> Dom F) -> invertible F0 ->
    sp_hessian_of (sp_gradient k fw default_opts) (sp_hessian k fw default_opts) Dom ->
    (k = KDistortional -> exists b, forall F, near d0 F F0 ->
       allclose0 (mscal6 (4 * Rpower (det (right_CG F)) (- 2 / 3)) (ih (tw1 m) (tw2 m) (seen KDistortional (right_CG F)))) = b) ->
    smooth_at (material k fw sv) F0.
  Proof.
    intros Hd HD N HH HB.
    refine (space_smooth fw k sv F0 Dom HH (fun F => ig (tw1 m) (seen k (right_CG F))) (fun F => ih (tw1 m) (tw2 m) (seen k (right_CG F))) d0 Hd HD _ _ _ _ N (space_self0 fw inv_self0) _).
    - intros F s _. apply (inv_closed (tod_model m) sv (tw1 m) (tw2 m) (tod_closed m sv)).
    - intros F s _. apply (inv_closed (tod_model m) sv (tw1 m) (tw2 m) (tod_closed m sv)).
    - apply (calm_ig (tw1 m) (tw2 m) F0 (tod_calm F0 m) _ (calm_seen F0 k N) (det_seen F0 k N)).
    - apply (calm_ih (tw1 m) (tw2 m) F0 (tod_calm F0 m) _ (calm_seen F0 k N) (det_seen F0 k N)).
    - intro E. destruct (HB E) as [b Hb]. exists b. intros F HF. subst k. exact (Hb F HF).
  Qed.
  Lemma tod_deformation F0 : invertible F0 -> smooth_at (material KDeformation fw sv) F0.
  Proof.
    intro N. destruct (invertible_open F0 N) as (d & Hd & HI).
    apply (tod_smooth KDeformation F0 invertible d Hd HI N (C26_third_order_deformation SV m)). discriminate.
  Qed.
  (** Some entry of the isochoric material tangent is above the tolerance of np.allclose. *)
  Lemma tod_distortional F0 : invertible F0 ->
    tangent_kept fw sv F0 -> smooth_at (material KDistortional fw sv) F0.
  Proof.
    intros N (s & H & v & w & E & L). destruct (invertible_open F0 N) as (d1 & Hd1 & HI).
    pose proof seen_dist_voigt as SE.
    assert (DE : forall F, det3 (cauchy_green F) = det (right_CG F)).
    { intro F. rewrite <- right_CG_full. symmetry. apply det_astensor. }
    set (hv := fun F => ih (tw1 m) (tw2 m) (seen KDistortional (right_CG F))).
    assert (HC : forall F sv s, outcome (fw_hessian fw (asvoigt (distortional_part (cauchy_green F))) sv) s = Ok (hv F)).
    { intros F sv' s'. rewrite SE. apply (inv_closed (tod_model m) sv' (tw1 m) (tw2 m) (tod_closed m sv')). }
    rewrite HC in E. injection E as <-. rewrite DE in L.
    assert (CE : calm F0 (fun F => 4 * Rpower (det (right_CG F)) (-2 / 3) * hv F v w)).
    { apply calm_mul; [apply calm_mul; [apply calm_const|apply calm_pow_det; exact N]|].
      apply (calm_ih (tw1 m) (tw2 m) F0 (tod_calm F0 m) _ (calm_seen F0 KDistortional N) (det_seen F0 KDistortional N)). }
    destruct (calm_open F0 _ _ (calm_abs _ _ CE) L) as (d2 & Hd2 & HL).
    assert (B1 := Rmin_l d1 d2). assert (B2 := Rmin_r d1 d2).
    assert (NM : forall F, near (Rmin d1 d2) F F0 -> near d1 F F0 /\ near d2 F F0) by (intros F HF; split; revert HF; apply near_mono; auto).
    assert (HG : fw_gradient_of fw (fun C => tod_energy m (invariants C)) invertible).
    { intros C t0 dC S HDC NC. exact (inv_fw_grad _ _ _ (tod_grad m) C t0 dC S HDC (conj NC Logic.I)). }
    refine (tod_smooth KDistortional F0 _ (Rmin d1 d2) (Rmin_pos _ _ Hd1 Hd2) _ N
      (C31_tangent_partial SV fw _ _ HG (C15_third_order_deformation SV m)) _).
    - intros F HF. destruct (NM F HF) as [Q1 Q2]. split; [exact (HI F Q1)|]. split; [exact (dist_inv F (HI F Q1))|].
      intros sv' s' H E. rewrite HC in E. injection E as <-. right. exists v, w. rewrite DE. exact (HL F Q2).
    - intros _. exists false. intros F HF. apply allclose_false with v w. exact (HL F (proj2 (NM F HF))).
  Qed.
End TodSpace.

Lemma nh_smooth k c F0 : invertible F0 -> smooth_at (material k (nh c) tt) F0.
Proof.
  intro N. destruct (invertible_open F0 N) as (d & Hd & HI). pose proof (nh_constant c) as HC.
  assert (HH : sp_hessian_of (sp_gradient k (nh c) default_opts) (sp_hessian k (nh c) default_opts) invertible).
  { destruct k; [exact (C26_third_order_deformation unit (tod_init c 0 0 0 0 false))|exact (C31_neo_hooke c)|exact (proj2 (C33_linear_partial unit (nh c) _ HC))]. }
  refine (space_smooth (nh c) k tt F0 invertible HH (fun _ => vscal c eye) (fun _ => mzero) d Hd HI _ _ (cV_const F0 _) (cM_const F0 _) N (space_self0 (nh c) inv_self0) _).
  - intros F s _. destruct (HC (seen k (right_CG F)) tt s) as [[svn E] _]. exists svn. exact E.
  - intros F s _. apply HC.
  - intros _. exists true. intros F HF. apply allclose_true. intros v w. unfold mscal6, mzero. rewrite Rmult_0_r, Rabs_R0. lra.
Qed.
