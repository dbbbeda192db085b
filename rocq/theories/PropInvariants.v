(** * Properties C14 - C17 (Invariants framework), C22 and C23. *)
From Coq Require Import Reals Lra List.
From Coquelicot Require Import Coquelicot.
From Verif Require Import Tensor Py Voigt VoigtProofs Algebra Models Frameworks Spaces Spec VCalc ModelProofs GenProofs
  InvCore InvProofs IsoProofs SpaceCore HistProofs.
Local Open Scope R_scope.

(** ** C14 *)
Theorem C14_gradient : forall (SV : Type) (m : InvModel SV) psi Dom, inv_gradient_of m psi Dom ->
  fw_gradient_of (invariants_fw m) (fun C => psi (invariants C)) (fun C => invertible C /\ Dom (invariants C)).
Proof. exact (fun SV m => inv_fw_grad m). Qed.
Print Assumptions C14_gradient.
(** With the shipped model no hypothesis about the model is left. *)
Theorem C14_third_order_deformation : forall (SV : Type) c10 c01 c11 c20 c30 (strain : bool),
  let u := if strain then 0 else 3 in
  fw_gradient_of (invariants_fw (tod_model (SV:=SV) (tod_init c10 c01 c11 c20 c30 strain)))
    (fun C => c10 * (inv1 C - u) + c01 * (inv2 C - u) + c11 * ((inv1 C - u) * (inv2 C - u))
              + c20 * (inv1 C - u) ^ 2 + c30 * (inv1 C - u) ^ 3)
    invertible.
Proof.
  intros SV c10 c01 c11 c20 c30 strain u C t0 dC S HC N.
  exact (inv_fw_grad _ _ _ (tod_grad (tod_init c10 c01 c11 c20 c30 strain)) C t0 dC S HC (conj N Logic.I)).
Qed.
Print Assumptions C14_third_order_deformation.
(** A path of symmetric invertible tensors that is not constant (simple shear and stretching). *)
Definition C_path (t : R) : T2 := fun i j => match i, j with X0, X0 => 2 + t | X1, X1 => 1 + t ^ 2 | X2, X2 => 1 | X0, X1 | X1, X0 => t | _, _ => 0 end.
Definition dC_path : T2 := fun i j => match i, j with X0, X0 => 1 | X0, X1 | X1, X0 => 1 | _, _ => 0 end.
Example C14_example : (forall t, sym2 (C_path t)) /\ dcurve2 C_path 0 dC_path /\ invertible (C_path 0) /\
  exists g, returns (fw_gradient (invariants_fw (tod_model (tod_init 1 2 3 4 5 false))) (asvoigt (C_path 0)) tt) inv_self0 (g, tt).
Proof.
  assert (S : forall t, sym2 (C_path t)) by (intros t i j; destruct i, j; reflexivity).
  assert (HD : dcurve2 C_path 0 dC_path) by (intros i j; destruct i, j; unfold C_path, dC_path; auto_derive; auto; ring).
  assert (N : invertible (C_path 0)) by (unfold invertible, det3, C_path; cbn; lra).
  split; [exact S|]. split; [exact HD|]. split; [exact N|].
  destruct (C14_third_order_deformation unit 1 2 3 4 5 false C_path 0 dC_path S HD N tt inv_self0) as (g & [] & H & _). eauto.
Qed.

(** ** C15.  Missing for the full claim: models that return d2WdI3dI3 (refuted below). *)
Theorem C15_hessian_partial : forall (SV : Type) (m : InvModel SV) psi Dom,
  inv_gradient_of m psi Dom -> inv_hessian_of m Dom ->
  fw_hessian_of (invariants_fw m) (fun C => invertible C /\ Dom (invariants C) /\
    forall sv g svn h, inv_call m (invariants C) sv = Ok (g, svn) -> inv_callh m (invariants C) svn = Ok h ->
      none_consistent g h /\ h (pos X2 X2) = None).
Proof. exact (fun SV m => inv_fw_hess m). Qed.
Print Assumptions C15_hessian_partial.
Theorem C15_third_order_deformation : forall (SV : Type) (m : TOD),
  fw_hessian_of (invariants_fw (tod_model (SV:=SV) m)) invertible.
Proof.
  intros SV m C t0 dC S HC N.
  refine (inv_fw_hess _ _ _ (tod_grad m) (tod_hess m) C t0 dC S HC (conj N (conj Logic.I _))).
  intros sv g svn h Eg Eh. split.
  - eapply (tod_none m); [exact Eg|]. exact Eh.
  - unfold inv_callh, tod_model in Eh; cbn in Eh. injection Eh as <-. reflexivity.
Qed.
Print Assumptions C15_third_order_deformation.
Example C15_example : exists H, returns (fw_hessian (invariants_fw (tod_model (tod_init 1 2 3 4 5 false))) (asvoigt (C_path 0)) tt) inv_self0 H.
Proof.
  destruct C14_example as (S & HD & N & _).
  destruct (C15_third_order_deformation unit (tod_init 1 2 3 4 5 false) C_path 0 dC_path S HD N tt inv_self0) as (H & R & _). eauto.
Qed.
(** psi = I3^2/2 with all derivatives given: contracts hold, the hessian is wrong. *)
Theorem C15_hessian_refuted : exists (m : InvModel unit) psi,
  inv_gradient_of m psi everywhere /\ inv_hessian_of m everywhere /\
  (forall I sv g svn h, inv_call m I sv = Ok (g, svn) -> inv_callh m I svn = Ok h -> none_consistent g h) /\
  ~ fw_hessian_of (invariants_fw m) invertible.
Proof.
  exact (ex_intro _ (quad3 false) (ex_intro _ _ (conj (quad3_grad false) (conj (quad3_hess false) (conj (quad3_none false) inv_hessian_refuted))))).
Qed.
Print Assumptions C15_hessian_refuted.
(** ... and the error is exactly this: with d2WdI3dI3 given, the result differs from the
    derivative by a doubled (2,2) term and a missing (3,3) term. *)
Theorem C15_hessian_error : forall (SV : Type) (m : InvModel SV) psi Dom C t0 dC sv s g svn h H,
  inv_gradient_of m psi Dom -> inv_hessian_of m Dom ->
  (forall t, sym2 (C t)) -> dcurve2 C t0 dC -> invertible (C t0) -> Dom (invariants (C t0)) ->
  inv_call m (invariants (C t0)) sv = Ok (g, svn) -> inv_callh m (invariants (C t0)) svn = Ok h -> h (pos X2 X2) <> None ->
  returns (fw_hessian (invariants_fw m) (asvoigt (C t0)) sv) s H ->
  forall svt st G,
    locally t0 (fun t => exists svn, returns (fw_gradient (invariants_fw m) (asvoigt (C t)) (svt t)) (st t) (G t, svn)) ->
    let c := asvoigt (C t0) in
    dcurve2 (fun t => astensor (G t)) t0
      (dc42 (astensor4 (fun v w => H v w + val (h (pos X2 X2)) * (dJv c X2 v * dJv c X2 w)
                                   - val (h (pos X1 X1)) * (dJv c X1 v * dJv c X1 w))) dC).
Proof.
  intros SV m psi Dom C t0 dC sv s g svn h H Hg Hh S HC N D Eg Eh N2 (s' & ER) svt st G HG c.
  cbn [invariants_fw fw_hessian] in ER. rewrite (inv_hessian_eq m _ sv g svn h) in ER; rewrite ?Jv_full by auto; auto.
  destruct (hess_exn g h); [discriminate|]. injection ER as _ <-.
  assert (E := gradv_D m psi Dom C t0 dC Hg Hh S HC N D sv g svn Eg svn h Eh svt st G HG).
  replace (fun v w => _) with (hessv c g h); [exact E|].
  apply Mat6_ext; intros v w. cbn [pos] in *.
  replace (isN (h V2)) with false by (destruct (h V2); [reflexivity|contradiction]). unfold hessv_bug, dya, c. ring.
Qed.
Print Assumptions C15_hessian_error.

(** ** C16.  For a consistent None pattern, hessian returns if and only if the model gives
    no d2WdI3dI3, or it gives dWdI2 and d2WdI2dI2 as well.  Missing for the full claim: the
    unconditional "does not raise" (refuted below). *)
Theorem C16_returns_iff_partial : forall (SV : Type) (m : InvModel SV) C sv g svn h s, sym2 C ->
  inv_call m (invariants C) sv = Ok (g, svn) -> inv_callh m (invariants C) svn = Ok h -> none_consistent g h ->
  ((exists H, returns (fw_hessian (invariants_fw m) (asvoigt C) sv) s H) <->
   (h (pos X2 X2) = None \/ (o3 g X1 <> None /\ h (pos X1 X1) <> None))).
Proof.
  intros SV m C sv g svn h s S Eg Eh. rewrite <- (Jv_full C S) in Eg, Eh.
  exact (inv_hessian_returns_iff m (asvoigt C) sv g svn h s Eg Eh).
Qed.
Print Assumptions C16_returns_iff_partial.
Theorem C16_hessian_refuted : exists (m : InvModel unit) psi,
  inv_gradient_of m psi everywhere /\ inv_hessian_of m everywhere /\
  (forall I sv g svn h, inv_call m I sv = Ok (g, svn) -> inv_callh m I svn = Ok h -> none_consistent g h) /\
  forall C sv s, raises (fw_hessian (invariants_fw m) C sv) s UnboundLocalError.
Proof.
  exists (quad3 true), (fun I => I X2 ^ 2 / 2).
  split; [apply quad3_grad|split; [apply quad3_hess|split; [apply quad3_none|]]].
  intros C sv s. eexists. cbn [invariants_fw fw_hessian].
  rewrite (inv_hessian_eq (quad3 true) C sv (None, None, Some (Jv C X2)) sv _ s eq_refl eq_refl). reflexivity.
Qed.
Print Assumptions C16_hessian_refuted.
(** The shipped invariant model never raises. *)
Theorem C16_third_order_deformation : forall (SV : Type) (m : TOD) C (sv : SV) s, sym2 C ->
  exists H, returns (fw_hessian (invariants_fw (tod_model m)) (asvoigt C) sv) s H.
Proof.
  intros SV m C sv s S. destruct (tod_none_exactly m (invariants C) sv) as (g & Eg & _).
  assert (Eh : inv_callh (tod_model m) (invariants C) sv = Ok (tod_hessian m (invariants C X0) (invariants C X1) (invariants C X2))) by reflexivity.
  apply (C16_returns_iff_partial SV (tod_model m) C sv g sv _ s S Eg Eh).
  - exact (tod_none m _ _ _ _ _ Eg Eh).
  - left; reflexivity.
Qed.
Print Assumptions C16_third_order_deformation.
(** gradient raises exactly if the model raises. *)
Theorem C16_gradient_returns : forall (SV : Type) (m : InvModel SV) C sv s, sym2 C ->
  ((exists r, returns (fw_gradient (invariants_fw m) (asvoigt C) sv) s r) <->
   (exists r, inv_call m (invariants C) sv = Ok r)).
Proof.
  intros SV m C sv s S. rewrite <- (Jv_full C S). split.
  - intros ([G svn] & H). apply inv_gradient_inv in H. destruct H as (g & E & _); eauto.
  - intros ([g svn] & E). eexists _, _. apply inv_gradient_ok; eauto.
Qed.
Print Assumptions C16_gradient_returns.

(** ** C17, Invariants framework (Stretches: see PropStretches.v) *)
Theorem C17_invariants : forall (SV : Type) (m : InvModel SV), isotropic_fw (invariants_fw m) invertible.
Proof. exact (fun SV => invariants_isotropic). Qed.
Print Assumptions C17_invariants.
(** A rotation that is not the identity. *)
Example C17_rotation : orthogonal (fun i j => match i, j with X0, X1 => -1 | X1, X0 => 1 | X2, X2 => 1 | _, _ => 0 end).
Proof. intros i j; destruct i, j; unfold mmul, mtr, one2, delta, sum3; cbn; ring. Qed.

(** ** C22.  [freeze m sv] is the model whose hessian is evaluated at [sv] whatever it is
    handed.  GeneralizedInvariantsModel hands over the state variables it was given ... *)
Theorem C22_generalized_old_state : forall (SV : Type) (m : InvModel SV) fs c l sv s,
  gen_hessian m fs c l sv s = gen_hessian (freeze m sv) fs c l sv s.
Proof. exact (fun SV => gen_hessian_uses_old). Qed.
Print Assumptions C22_generalized_old_state.
(** ... but Invariants and Stretches hand over the updated ones. *)
Theorem C22_old_state_refuted :
  (exists (m : InvModel R) C sv s,
     outcome (fw_hessian (invariants_fw m) C sv) s <> outcome (fw_hessian (invariants_fw (freeze m sv)) C sv) s) /\
  (exists lapack (m : StretchModel R) C sv ms, lapack_at lapack C /\
     outcome (str_hessian lapack m C sv) (str_self0 m ms) <>
     outcome (str_hessian lapack (freeze_sm m sv) C sv) (str_self0 (freeze_sm m sv) ms)).
Proof.
  split.
  - exact (ex_intro _ counting counting_refutes).
  - destruct counting_sm_refutes as [L [sv H]]. exists lapack1, counting_sm, eye, sv, tt. auto.
Qed.
Print Assumptions C22_old_state_refuted.
(** Full description: the updated state variables [svn] that the model's gradient returned. *)
Theorem C22_new_state : forall (SV : Type) (m : InvModel SV) C sv s g svn, sym2 C ->
  inv_call m (invariants C) sv = Ok (g, svn) ->
  fw_hessian (invariants_fw m) (asvoigt C) sv s = fw_hessian (invariants_fw (freeze m svn)) (asvoigt C) sv s.
Proof. intros SV m C sv s g svn S E. rewrite <- (Jv_full C S) in E. exact (inv_hessian_uses_new m _ sv s g svn E). Qed.
Print Assumptions C22_new_state.
Theorem C22_new_state_stretches : forall (SV : Type) lapack (m : StretchModel SV) C sv ms dW svn,
  outcome (str_gradient lapack m C sv) (str_self0 m ms) = Ok (dW, svn) ->
  outcome (str_hessian lapack m C sv) (str_self0 m ms) =
  outcome (str_hessian lapack (freeze_sm m svn) C sv) (str_self0 (freeze_sm m svn) ms).
Proof.
  intros SV lapack m C sv ms dW svn E. unfold outcome in E.
  destruct (str_gradient lapack m C sv (str_self0 m ms)) as [s1 r] eqn:E1. cbn in E; subst r.
  exact (str_hessian_uses_new lapack m C sv _ dW svn s1 E1).
Qed.
Print Assumptions C22_new_state_stretches.
(** Hence, for models that do not change their state variables, the claim holds. *)
Theorem C22_old_state_partial : forall (SV : Type) (m : InvModel SV) C sv s, sym2 C ->
  (forall g svn, inv_call m (invariants C) sv = Ok (g, svn) -> svn = sv) ->
  fw_hessian (invariants_fw m) (asvoigt C) sv s = fw_hessian (invariants_fw (freeze m sv)) (asvoigt C) sv s.
Proof.
  intros SV m C sv s S H. destruct (inv_call m (invariants C) sv) as [[g svn]|e] eqn:E.
  - pose proof (H _ _ eq_refl); subst svn. exact (C22_new_state SV m C sv s g sv S E).
  - rewrite <- (Jv_full C S) in E.
    unfold inv_call in E. cbn [Jv] in E. cbn [invariants_fw fw_hessian].
    unfold inv_hessian, inv_gradient, bind, modify, get, put, lift, freeze, bind, get, put; cbn [im_gradient].
    rewrite E. reflexivity.
Qed.
Print Assumptions C22_old_state_partial.
(** The state variables returned by the framework and by the spaces are the model's. *)
Theorem C22_returned_state : forall (SV : Type) (m : InvModel SV) C sv s G svn, sym2 C ->
  returns (fw_gradient (invariants_fw m) (asvoigt C) sv) s (G, svn) ->
  exists g, inv_call m (invariants C) sv = Ok (g, svn).
Proof.
  intros SV m C sv s G svn S H. rewrite <- (Jv_full C S).
  apply inv_gradient_inv in H. destruct H as (g & E & _); eauto.
Qed.
Print Assumptions C22_returned_state.
Theorem C22_returned_state_stretches : forall (SV : Type) lapack (m : StretchModel SV) C sv s G svn,
  returns (fw_gradient (stretches_fw lapack m) C sv) s (G, svn) ->
  exists dW s', outcome (sm_gradient m (fun a => sqrt (fst (lapack (astensor C)) a)) sv) s' = Ok (dW, svn).
Proof. exact (fun SV => str_returned_state). Qed.
Print Assumptions C22_returned_state_stretches.
(** [handed k F]: the tensor the space passes to its framework. *)
Definition handed (k : SpaceKind) (F : T2) : T2 :=
  let C := cauchy_green F in
  match k with
  | KDeformation => C
  | KDistortional => mscal (Rpower (det3 C) (-1/3)) C
  | KDilatational => mscal (Rpower (det3 C) (1/3)) C
  end.
Theorem C22_returned_state_spaces : forall (SV : Type) (fw : Framework SV) k o F sv s P svn,
  outcome (sp_gradient k fw o F sv) s = Ok (P, svn) ->
  exists g, outcome (fw_gradient fw (asvoigt (handed k F)) sv) (sp_mat s) = Ok (g, svn).
Proof.
  intros SV fw k o F sv s P svn H.
  assert (Q : asvoigt (handed k F) = seen k (right_CG F)).
  { assert (D : det (right_CG F) = det3 (cauchy_green F)) by (unfold right_CG, det, det3, asvoigt, cauchy_green, mmul, mtr, sum3; cbn; ring).
    destruct k; cbn [handed seen]; rewrite ?D; apply Vec6_ext; intros []; reflexivity. }
  rewrite Q.
  destruct (outcome (fw_gradient fw (seen k (right_CG F)) sv) (sp_mat s)) as [[g svn']|e] eqn:E.
  - rewrite (sp_gradient_ok fw o _ _ _ _ _ _ E) in H. injection H as _ <-. eauto.
  - rewrite (sp_gradient_raise fw o _ _ _ _ _ E) in H. discriminate.
Qed.
Print Assumptions C22_returned_state_spaces.

(** ** C23.  The outcome (value or exception) of a method does not depend on the attributes
    of the object; models are functions of their arguments and may raise. *)
Theorem C23_invariants : forall (SV : Type) (m : InvModel SV), stateless_fw (invariants_fw m).
Proof. exact (fun SV => invariants_stateless). Qed.
Print Assumptions C23_invariants.
Theorem C23_stretches : forall (SV : Type) lapack (m : StretchModel SV), stateless_sm m -> stateless_fw (stretches_fw lapack m).
Proof. exact (fun SV => stretches_stateless). Qed.
Print Assumptions C23_stretches.
Theorem C23_models : forall (SV : Type) og (m : InvModel SV) fs c,
  stateless_sm (ogden_model (SV:=SV) og) /\ stateless_sm (gen_model m fs c).
Proof. exact (fun SV og m fs c => conj (ogden_stateless og) (gen_stateless m fs c)). Qed.
Print Assumptions C23_models.
(** After any sequence of calls (some of which may have raised) on a framework object, ... *)
Theorem C23_framework_history : forall (SV : Type) (fw : Framework SV), stateless_fw fw ->
  forall (calls : list (FwCall SV)) s fresh C sv,
  outcome (fw_gradient fw C sv) (fw_history fw calls s) = outcome (fw_gradient fw C sv) fresh /\
  outcome (fw_hessian fw C sv) (fw_history fw calls s) = outcome (fw_hessian fw C sv) fresh.
Proof. exact (fun SV => fw_history_free). Qed.
Print Assumptions C23_framework_history.
(** ... or of calls on three spaces that share one framework object, in any order and mixed
    with direct calls on the framework, the next call returns what it returns on fresh objects. *)
Theorem C23_space_history : forall (SV : Type) (fw : Framework SV) (o : SpaceKind -> SpaceOpts), stateless_fw fw ->
  forall (calls : list (SpCall SV)) w fresh k F sv,
  outcome (on_space k (sp_gradient k fw (o k) F sv)) (sp_history fw o calls w) = outcome (on_space k (sp_gradient k fw (o k) F sv)) fresh /\
  outcome (on_space k (sp_hessian k fw (o k) F sv)) (sp_history fw o calls w) = outcome (on_space k (sp_hessian k fw (o k) F sv)) fresh.
Proof. exact (fun SV => sp_history_free). Qed.
Print Assumptions C23_space_history.
(** The attributes really are changed by calls: the statement is not about constant state. *)
Example C23_state_changes : exists (c : FwCall unit) s,
  fw_step (invariants_fw (quad3 false)) s c <> s.
Proof.
  exists (FwGrad eye tt), inv_self0. cbn [fw_step]. unfold after. cbn [invariants_fw fw_gradient].
  rewrite (inv_gradient_ok (quad3 false) eye tt (Some 0, Some 0, Some (Jv eye X2)) tt inv_self0 eq_refl). cbn. discriminate.
Qed.
