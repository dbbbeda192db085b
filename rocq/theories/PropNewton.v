(** * Property C76 (Newton's method with the returned tangents). *)
From Coq Require Import Reals Lra Lia List FunctionalExtensionality.
From Coquelicot Require Import Coquelicot.
From Verif Require Import Tensor Py Voigt Algebra Models Frameworks Spaces Spec VCalc
  PiolaProofs SpaceCore SpaceProofs InvCore Counter ScaleProofs NewtonSpec NewtonLin NewtonProofs NewtonCalm NewtonInv NewtonStr EigCore Spectral GenProofs Calc ModelProofs.
Import ListNotations.
Local Open Scope R_scope.

(** ** C76 *)
(** Any body of smooth points (NewtonSpec.v) with a regular equilibrium, whatever the mesh, the element
    formulation, the number of degrees of freedom and the mix of materials. *)
Theorem C76_newton : forall n body load us,
  List.Forall (fun q => smooth_at (q_material q) (deformed n us q)) body ->
  equilibrium n body load us -> regular_stiffness n body us -> newton_converges n body load us.
Proof. exact newton_main. Qed.
Print Assumptions C76_newton.

(** The materials that are smooth at an invertible F: ThirdOrderDeformation with any parameters in
    Deformation; in Distortional if the isochoric part of the tangent is not dropped by the tolerance of
    np.allclose; Neo-Hooke in all three spaces. *)
Theorem C76_third_order_deformation : forall (SV : Type) (m : TOD) (sv : SV) F, invertible F ->
  smooth_at (material KDeformation (invariants_fw (tod_model m)) sv) F.
Proof. exact (fun SV m sv F => tod_deformation m sv F). Qed.
Print Assumptions C76_third_order_deformation.
Theorem C76_third_order_isochoric : forall (SV : Type) (m : TOD) (sv : SV) F, invertible F ->
  let fw := invariants_fw (tod_model (SV:=SV) m) in
  tangent_kept fw sv F ->
  smooth_at (material KDistortional fw sv) F.
Proof. exact (fun SV m sv F => tod_distortional m sv F). Qed.
Print Assumptions C76_third_order_isochoric.
Theorem C76_neo_hooke : forall k c F, invertible F ->
  smooth_at (material k (invariants_fw (tod_model (SV:=unit) (tod_init c 0 0 0 0 false))) tt) F.
Proof. exact nh_smooth. Qed.
Print Assumptions C76_neo_hooke.

(** Ogden and the generalized invariants where the principal stretches are pairwise different by more than
    the tolerance of np.isclose; any strain measure whose second derivative is differentiable. *)
Theorem C76_ogden : forall (SV : Type) lapack mu alpha (sv : SV) F, lapack_legal lapack ->
  (forall m a, In (m, a) (combine mu alpha) -> a <> 0) -> invertible F ->
  let fw := stretches_fw lapack (ogden_model (SV:=SV) {| og_mu := mu; og_alpha := alpha |}) in
  (apart (fst (lapack (cauchy_green F))) -> smooth_at (material KDeformation fw sv) F) /\
  (apart (fst (lapack (distortional_part (cauchy_green F)))) -> tangent_kept fw sv F -> smooth_at (material KDistortional fw sv) F).
Proof. exact (fun SV lapack mu alpha sv F HL HA N => conj (ogden_deformation lapack HL mu alpha HA sv F N) (ogden_distortional lapack HL mu alpha HA sv F N)). Qed.
Print Assumptions C76_ogden.
Theorem C76_generalized : forall (SV : Type) lapack m fs c E E' E'' E3 (sv : SV) F, lapack_legal lapack ->
  measure_of fs E E' E'' -> (forall l, 0 < l -> is_derive E'' l (E3 l)) -> invertible F ->
  let fw := stretches_fw lapack (gen_model (tod_model (SV:=SV) m) fs c) in
  (apart (fst (lapack (cauchy_green F))) -> smooth_at (material KDeformation fw sv) F) /\
  (apart (fst (lapack (distortional_part (cauchy_green F)))) -> tangent_kept fw sv F -> smooth_at (material KDistortional fw sv) F).
Proof.
  exact (fun SV lapack m fs c E E' E'' E3 sv F HL HM H3 N =>
    conj (gen_deformation lapack HL m fs c E E' E'' E3 HM H3 sv F N) (gen_distortional lapack HL m fs c E E' E'' E3 HM H3 sv F N)).
Qed.
Print Assumptions C76_generalized.

(** A body of any mix of these. *)
Theorem C76_library_point : forall lapack M F, lapack_legal lapack -> invertible F -> library_point lapack M F -> smooth_at M F.
Proof.
  intros lapack M F HL N H. destruct H.
  - apply C76_third_order_deformation; auto.
  - apply C76_third_order_isochoric; auto.
  - apply C76_neo_hooke; auto.
  - apply (C76_ogden unit lapack); auto.
  - apply (C76_ogden unit lapack); auto.
  - apply (C76_generalized unit lapack m fs c E E' E'' E3); auto.
  - apply (C76_generalized unit lapack m fs c E E' E'' E3); auto.
Qed.
Theorem C76_library : forall lapack n body load us, lapack_legal lapack ->
  List.Forall (fun q => invertible (deformed n us q) /\ library_point lapack (q_material q) (deformed n us q)) body ->
  equilibrium n body load us -> regular_stiffness n body us -> newton_converges n body load us.
Proof.
  intros lapack n body load us HL HB. apply C76_newton. revert HB. apply Forall_impl. intros q (N & H).
  exact (C76_library_point lapack _ _ HL N H).
Qed.
Print Assumptions C76_library.

(** A point stretched by diag(1 + u, 1, 1), psi = (I1 - 3)^2, load 24: the equilibrium u = 1 is regular,
    so Newton's method converges there. *)
Definition bar : QPoint := {| q_weight := 1; q_material := material KDeformation (tod20 1) tt; q_F0 := one2;
  q_shape := fun _ i j => match i, j with X0, X0 => 1 | _, _ => 0 end |}.
Lemma bar_F : deformed 1 (fun _ => 1) bar = fun i j => match i, j with X0, X0 => 2 | X1, X1 => 1 | X2, X2 => 1 | _, _ => 0 end.
Proof. apply T2_ext; intros i j. unfold deformed, bar; cbn [q_F0 q_shape sumn]. unfold one2, delta. destruct i, j; cbn; ring. Qed.
Definition barF : T2 := fun i j => match i, j with X0, X0 => 2 | X1, X1 => 1 | X2, X2 => 1 | _, _ => 0 end.
Lemma bar_inv : invertible barF.
Proof. unfold invertible, det3, barF; cbn. lra. Qed.
Definition barP : T2 := mmul barF (astensor (kS KDeformation (right_CG barF) (G20 1 (right_CG barF)))).
Definition barA : T4 := t4add (legs13 barF (astensor4 (kC4 KDeformation (right_CG barF) (G20 1 (right_CG barF)) (H20 1))))
  (geo one2 (astensor (kS KDeformation (right_CG barF) (G20 1 (right_CG barF))))).
Lemma bar_values : dc22 barP (q_shape bar 0) = 24 /\ dc22 (q_shape bar 0) (dc42 barA (q_shape bar 0)) = 44.
Proof.
  split; unfold dc22, dc42, barP, barA, t4add, legs13, geo, one2, delta, mmul, sum3, astensor, astensor4, kC4, kS, G20, H20, mscal6, vscal, right_CG, trace, eye, asvoigt, barF, bar;
  cbn; unfold sum3; cbn; ring.
Qed.
Lemma bar_stiffness44 : stiffness 1 [bar] (fun _ => 1) (fun _ _ => 44).
Proof.
  pose proof (tod20_plain 1 ltac:(lra)) as TP.
  assert (HA : pm_tangent (q_material bar) barF barA).
  { exists (space_self0 (tod20 1) inv_self0). destruct (DistProofs.outcome_pair _ _ _ (proj1 (TP (right_CG barF) tt inv_self0))) as [ms E].
    rewrite (sp_hessian_ok (tod20 1) default_opts KDeformation barF tt (space_self0 (tod20 1) inv_self0) _ _ _ E), (proj2 (TP _ tt _)), default_elast. reflexivity. }
  exists [barA]. split; [constructor; [rewrite bar_F; exact HA|constructor]|].
  intros a b La Lb. replace a with 0%nat by lia. replace b with 0%nat by lia. cbn [combine map fold_right fst snd]. rewrite (proj2 bar_values). cbn. lra.
Qed.
Lemma bar_stiffness : exists K, stiffness 1 [bar] (fun _ => 1) K /\ K 0%nat 0%nat = 44.
Proof. exists (fun _ _ => 44). split; [exact bar_stiffness44|reflexivity]. Qed.
Example C76_example : List.Forall (fun q => invertible (deformed 1 (fun _ => 1) q) /\ library_point lapack0 (q_material q) (deformed 1 (fun _ => 1) q)) [bar] /\
  equilibrium 1 [bar] (fun _ => 24) (fun _ => 1) /\ regular_stiffness 1 [bar] (fun _ => 1) /\
  newton_converges 1 [bar] (fun _ => 24) (fun _ => 1).
Proof.
  assert (H1 : List.Forall (fun q => invertible (deformed 1 (fun _ => 1) q) /\ library_point lapack0 (q_material q) (deformed 1 (fun _ => 1) q)) [bar]).
  { constructor; [|constructor]. split; [rewrite bar_F; exact bar_inv|]. exact (lib_tod lapack0 (tod_init 0 0 0 1 0 false) _). }
  destruct bar_values as [V1 V2]. pose proof (tod20_plain 1 ltac:(lra)) as TP.
  assert (HP : pm_stress (q_material bar) barF barP).
  { exists (space_self0 (tod20 1) inv_self0), tt. rewrite (sp_gradient_ok (tod20 1) default_opts _ _ _ _ _ _ (proj1 (TP _ tt _))). apply f_equal. apply f_equal2; [|reflexivity]. apply default_stress. }
  assert (H2 : equilibrium 1 [bar] (fun _ => 24) (fun _ => 1)).
  { exists (fun _ => 0). split; [|reflexivity]. exists [barP]. split; [constructor; [rewrite bar_F; exact HP|constructor]|].
    intros a La. replace a with 0%nat by lia. cbn [combine map fold_right fst snd]. rewrite V1. cbn. lra. }
  assert (H3 : regular_stiffness 1 [bar] (fun _ => 1)).
  { exists (fun _ _ => 44). split.
    - exact bar_stiffness44.
    - intros w HW a La. specialize (HW 0%nat ltac:(lia)). cbn in HW. replace a with 0%nat by lia. lra. }
  split; [exact H1|]. split; [exact H2|]. split; [exact H3|]. exact (C76_library lapack0 1 [bar] _ _ lapack0_legal H1 H2 H3).
Qed.
(** The hypotheses of C76_ogden and C76_generalized at diag(2, 1, 1/2) for every conforming eigenvalue
    routine; the strain measures of the library (Seth-Hill) are three times differentiable; the isochoric
    tangent of psi = (I1 - 3)^2 is kept there. *)
Lemma Fd_cg : cauchy_green (Fd 0) = diag3 (fun k => match k with X0 => 4 | X1 => 1 | X2 => / 4 end).
Proof. apply T2_ext; intros i j. unfold cauchy_green, mmul, mtr, Fd, diag3, sum3. destruct i, j; cbn; field. Qed.
Lemma Fd_dist : distortional_part (cauchy_green (Fd 0)) = cauchy_green (Fd 0).
Proof.
  rewrite Fd_cg. unfold distortional_part. match goal with |- context [Rpower (det3 ?X)] => replace (det3 X) with 1 end.
  - rewrite Rpower_1_l. apply T2_ext; intros i j. unfold mscal. ring.
  - unfold det3, diag3; cbn. field.
Qed.
Example C76_example_stretches : invertible (Fd 0) /\
  (forall lapack, lapack_legal lapack -> apart (fst (lapack (cauchy_green (Fd 0)))) /\ apart (fst (lapack (distortional_part (cauchy_green (Fd 0)))))) /\
  (forall k, k <> 0 -> measure_of (strain_fun k) (fun l => sth_E l k) (fun l => sth_dE l k) (fun l => sth_d2E l k) /\
     exists E3, forall l, 0 < l -> is_derive (fun l => sth_d2E l k) l (E3 l)) /\
  tangent_kept (tod20 1) tt (Fd 0).
Proof.
  split; [exact Fd_inv|]. split; [|split].
  - intros lapack HL. rewrite Fd_dist.
    assert (A : apart (fst (lapack (cauchy_green (Fd 0))))); [|split; exact A].
    pose proof (HL (asvoigt (cauchy_green (Fd 0)))) as L. unfold lapack_at in L. rewrite VoigtProofs.astensor_asvoigt_f in L by apply VoigtProofs.cauchy_green_sym.
    assert (L' : eig_legal (cauchy_green (Fd 0)) (fun a => match a with X0 => / 4 | X1 => 1 | X2 => 4 end)
      (fun i a => match i, a with X0, X2 | X1, X1 | X2, X0 => 1 | _, _ => 0 end)).
    { rewrite Fd_cg. split; [|split; [|lra]]; intros a b; destruct a, b; unfold sum3, delta, diag3; cbn; lra. }
    rewrite (eig_unique _ _ _ _ _ L L'). unfold apart. repeat split; rewrite Rabs_left by lra; lra.
  - intros k Hk. split; [apply strain_measure; exact Hk|]. exists (fun l => (k - 1) * ((k - 2) * Rpower l (k - 2 - 1))). intros l P.
    unfold sth_d2E. apply D_scal. apply is_derive_Reals, derivable_pt_lim_power, P.
  - destruct (tod20_plain 1 ltac:(lra) (asvoigt (distortional_part (cauchy_green (Fd 0)))) tt inv_self0) as [_ E].
    exists inv_self0, (H20 1), V0, V0. split; [exact E|]. rewrite Fd_cg.
    match goal with |- context [Rpower (det3 ?X)] => replace (det3 X) with 1 by (unfold det3, diag3; cbn; field) end.
    rewrite Rpower_1_l. unfold H20, eye; cbn. rewrite Rabs_pos_eq; lra.
Qed.
Print Assumptions C76_library_point.
