(** * Pointwise links for the stretch models, and domains (proofs). *)
From Coq Require Import Reals List Arith Lia Lra FunctionalExtensionality.
From Verif Require Import Tensor Py Voigt VoigtProofs Algebra VCalc EigCore PiolaProofs DistProofs Counter Models Frameworks Spaces Spec GenProofs InvCore StrCore StrProofs SpaceCore.
From Verif Require Import NDCore NDRel NDOps NDHeap NDVoigt NDMath NDMath2 NDMath3 NDSpaces
  NDSpaceProofs NDSpaceMain NDFrameworks NDInvProofs NDModels NDEigh NDViews NDStrProofs NDGenProofs NDSpec NDLinks.
Import ListNotations.
Local Open Scope R_scope.

Lemma pow2_gt_0 x : x <> 0 -> 0 < x ^ 2.
Proof. intros H. pose proof (Rsqr_pos_lt x H) as G. unfold Rsqr in G. cbn. lra. Qed.
(** ** Positive definiteness of the tensor handed to the material *)
Lemma posdef_CG F : invertible F -> posdef (cauchy_green F).
Proof.
  intros N x [i Hi]. unfold invertible in N.
  set (y := fun a => F a X0 * x X0 + F a X1 * x X1 + F a X2 * x X2).
  assert (Q : quad (cauchy_green F) x = y X0 ^ 2 + y X1 ^ 2 + y X2 ^ 2).
  { unfold y, quad, cauchy_green, mmul, mtr, sum3. ring. }
  rewrite Q. destruct (Req_dec (y X0) 0) as [Y0|Y0]; [|pose proof (pow2_gt_0 _ Y0); pose proof (pow2_ge_0 (y X1)); pose proof (pow2_ge_0 (y X2)); lra].
  destruct (Req_dec (y X1) 0) as [Y1|Y1]; [|pose proof (pow2_gt_0 _ Y1); pose proof (pow2_ge_0 (y X0)); pose proof (pow2_ge_0 (y X2)); lra].
  destruct (Req_dec (y X2) 0) as [Y2|Y2]; [|pose proof (pow2_gt_0 _ Y2); pose proof (pow2_ge_0 (y X1)); pose proof (pow2_ge_0 (y X0)); lra].
  exfalso. assert (Z : det3 F * x X0 = 0 /\ det3 F * x X1 = 0 /\ det3 F * x X2 = 0).
  { unfold det3. repeat split.
    - transitivity ((F X1 X1 * F X2 X2 - F X1 X2 * F X2 X1) * y X0 - (F X0 X1 * F X2 X2 - F X0 X2 * F X2 X1) * y X1
        + (F X0 X1 * F X1 X2 - F X0 X2 * F X1 X1) * y X2); [unfold y; ring|rewrite Y0, Y1, Y2; ring].
    - transitivity (- (F X1 X0 * F X2 X2 - F X1 X2 * F X2 X0) * y X0 + (F X0 X0 * F X2 X2 - F X0 X2 * F X2 X0) * y X1
        - (F X0 X0 * F X1 X2 - F X0 X2 * F X1 X0) * y X2); [unfold y; ring|rewrite Y0, Y1, Y2; ring].
    - transitivity ((F X1 X0 * F X2 X1 - F X1 X1 * F X2 X0) * y X0 - (F X0 X0 * F X2 X1 - F X0 X1 * F X2 X0) * y X1
        + (F X0 X0 * F X1 X1 - F X0 X1 * F X1 X0) * y X2); [unfold y; ring|rewrite Y0, Y1, Y2; ring]. }
  destruct Z as [Z0 [Z1 Z2]]. apply Hi.
  destruct i; [apply Rmult_integral in Z0|apply Rmult_integral in Z1|apply Rmult_integral in Z2]; tauto.
Qed.
Lemma posdef_scal c A : 0 < c -> posdef A -> posdef (mscal c A).
Proof.
  intros Hc H x Hx. specialize (H x Hx).
  replace (quad (mscal c A) x) with (c * quad A x); [now apply Rmult_lt_0_compat|].
  unfold quad, mscal, sum3. ring.
Qed.
Lemma astensor_vscal c v : astensor (vscal c v) = mscal c (astensor v).
Proof. apply T2_ext; intros i j. reflexivity. Qed.
Lemma posdef_seen kd F : invertible F -> posdef (astensor (seen kd (right_CG F))).
Proof.
  intros N. pose proof (posdef_CG F N) as P.
  destruct kd; cbn [seen]; rewrite ?astensor_vscal, right_CG_full; [exact P|..]; apply posdef_scal; auto; apply exp_pos.
Qed.
Lemma lam_positive lapack kd F : lapack_legal lapack -> invertible F ->
  positive3 (lam lapack (seen kd (right_CG F))).
Proof.
  intros HL N a. unfold lam. apply sqrt_lt_R0.
  pose proof (HL (seen kd (right_CG F))) as L. unfold lapack_at in L.
  destruct (lapack (astensor (seen kd (right_CG F)))) as [w v]. cbn [fst].
  exact (proj1 (eig_posdef _ _ _ L) (posdef_seen kd F N) a).
Qed.

(** ** Pointwise outcomes of the stretch models *)
Lemma ogden_link_g {SV} m (l : Vec3) (sv : SV) s :
  outcome (sm_gradient (ogden_model m) l sv) s = Ok (ogden_gradient m l, sv).
Proof. reflexivity. Qed.
Lemma ogden_link_h {SV} m (l : Vec3) (sv : SV) s :
  outcome (sm_hessian (ogden_model m) l sv) s = Ok (ogden_hessian m l).
Proof. reflexivity. Qed.
Section GL.
  Context {ST SV : Type} (m : NDInvModel ST) (sv_at : ST -> index -> SV) (pm : InvModel SV)
    (D : R -> R -> R -> Prop) (T : shape) (s1 s2 s3 : option shape) (hs : ix6 -> option shape)
    (fs : R -> Result StrainVal) (c : GenConst) (E E' E'' : R -> R).
  Hypothesis Hm : invm_ok m sv_at pm D T s1 s2 s3 hs.
  Hypothesis HF : measure_of fs E E' E''.
  Lemma gen_link_g l sv k s : gen_D D c E l -> inb T k ->
    outcome (sm_gradient (gen_model pm fs c) l (sv_at sv k)) s = Ok (gen_pg pm c E E' l (sv_at sv k)) /\
    exists svn, snd (gen_pg pm c E E' l (sv_at sv k)) = sv_at svn k.
  Proof.
    intros [HP HD] Hk. destruct (invm_grad m sv_at pm D T s1 s2 s3 hs Hm _ sv k HD Hk) as [g [svn [Eg _]]].
    destruct (gen_gradient_ok pm fs c E E' E'' HF l _ _ _ HP Eg s) as [s' [Es _]].
    unfold gen_pg. rewrite Eg. cbn [sm_gradient gen_model]. unfold outcome. rewrite Es. cbn [snd]. eauto.
  Qed.
  Lemma gen_link_h l sv k s : gen_D D c E l -> inb T k ->
    outcome (sm_hessian (gen_model pm fs c) l (sv_at sv k)) s = Ok (gen_ph pm c E E' E'' l (sv_at sv k)).
  Proof.
    intros [HP HD] Hk. destruct (invm_grad m sv_at pm D T s1 s2 s3 hs Hm _ sv k HD Hk) as [g [svn [Eg _]]].
    destruct (invm_hess m sv_at pm D T s1 s2 s3 hs Hm _ sv k HD Hk) as [hh [Eh _]].
    destruct (gen_hessian_ok pm fs c E E' E'' HF l _ _ _ _ HP Eg Eh s) as [s' Es].
    unfold gen_ph. rewrite Eg, Eh. cbn [sm_hessian gen_model]. unfold outcome. rewrite Es. reflexivity.
  Qed.
End GL.

(** ** The whole-batch tolerance test of [Distortional.hessian] *)
(** At this entry every component of 4 I3^(-2/3) d2W/dCdC is within numpy's absolute
    tolerance of 0 / some component exceeds it. *)
Definition small_at {SV} (fw : Framework SV) (F : T2) (sv : SV) : Prop := exists s H,
  outcome (fw_hessian fw (asvoigt (distortional_part (cauchy_green F))) sv) s = Ok H /\
  forall v w, Rabs (4 * Rpower (det3 (cauchy_green F)) (-2/3) * H v w) <= / 10 ^ 8.
Definition large_at {SV} (fw : Framework SV) (F : T2) (sv : SV) : Prop := exists s H,
  outcome (fw_hessian fw (asvoigt (distortional_part (cauchy_green F))) sv) s = Ok H /\
  exists v w, / 10 ^ 8 < Rabs (4 * Rpower (det3 (cauchy_green F)) (-2/3) * H v w).
Lemma seen_dist F : seen KDistortional (right_CG F) = asvoigt (distortional_part (cauchy_green F)).
Proof. rewrite <- right_CG_full, <- dist_part. symmetry. apply asvoigt_astensor_f. Qed.
Lemma det_CG F : det (right_CG F) = det3 (cauchy_green F).
Proof. now rewrite det_astensor, right_CG_full. Qed.
Section U.
  Context {ST SV : Type} (sv_at : ST -> index -> SV) (ph : Vec6 -> SV -> Mat6) (D : Vec6 -> Prop)
    (T : shape) (fw : Framework SV).
  Hypothesis Lh : forall C sv k s, D C -> inb T k ->
    outcome (fw_hessian fw C (sv_at sv k)) s = Ok (ph C (sv_at sv k)).
  Definition uniform (kd : SpaceKind) (h : heap) (F : nd) (sv : ST) : Prop := kd = KDistortional ->
    (forall k, inb T k -> small_at fw (value33 h F k) (sv_at sv k)) \/
    (forall k, inb T k -> large_at fw (value33 h F k) (sv_at sv k)).
  Lemma uniform_agree kd h F sv : (forall k, inb T k -> D (seen kd (right_CG (value33 h F k)))) ->
    uniform kd h F sv -> agree sv_at ph T kd h F sv.
  Proof.
    intros HD Hu E. subst kd. unfold skips, C4b_at.
    assert (G : forall k, inb T k -> forall s H,
      outcome (fw_hessian fw (asvoigt (distortional_part (cauchy_green (value33 h F k)))) (sv_at sv k)) s = Ok H ->
      H = ph (seen KDistortional (right_CG (value33 h F k))) (sv_at sv k)).
    { intros k Hk s H X. rewrite <- seen_dist, (Lh _ _ _ _ (HD k Hk) Hk) in X. now injection X as <-. }
    destruct (Hu eq_refl) as [U|U].
    - assert (Z : forall k, inb T k -> allclose0 (mscal6 (4 * Rpower (det (right_CG (value33 h F k))) (- 2 / 3))
        (ph (seen KDistortional (right_CG (value33 h F k))) (sv_at sv k))) = true).
      { intros k Hk. destruct (U k Hk) as [s [H [E1 E2]]]. apply allclose_true. intros v w.
        rewrite <- (G k Hk s H E1). rewrite det_CG. unfold mscal6. apply E2. }
      intros k k' Hk Hk'. transitivity true; [apply Z, Hk|symmetry; apply Z, Hk'].
    - assert (Z : forall k, inb T k -> allclose0 (mscal6 (4 * Rpower (det (right_CG (value33 h F k))) (- 2 / 3))
        (ph (seen KDistortional (right_CG (value33 h F k))) (sv_at sv k))) = false).
      { intros k Hk. destruct (U k Hk) as [s [H [E1 [v [w E2]]]]]. apply (allclose_false _ v w).
        rewrite <- (G k Hk s H E1). rewrite det_CG. exact E2. }
      intros k k' Hk Hk'. transitivity false; [apply Z, Hk|symmetry; apply Z, Hk'].
  Qed.
End U.

(** ** Trailing shapes of the third-order deformation model *)
(** The stress dW/dC depends on C (and the array has C's trailing axes) ... *)
Definition stress_varies (m : TOD) : bool :=
  (nonzero (C01 m) || nonzero (C11 m) || nonzero (C20 m) || nonzero (C30 m))%bool.
(** ... and so does d2W/dCdC. *)
Definition tangent_varies (m : TOD) : bool :=
  (nonzero (C11 m) || nonzero (C20 m) || nonzero (C30 m))%bool.
Definition tail_axes (varies : bool) (T : shape) : shape := if varies then T else ones T.
Lemma sub_ones' T : sub (ones T) T. Proof. apply sub_ones. Qed.
Ltac bsn := repeat first [rewrite bsh_nil_l|rewrite (bsh_sub_r _ _ (sub_ones' _))|rewrite (bsh_sub_l _ _ (sub_ones' _))|rewrite bsh_refl].
Lemma tod_tg m T : inv_tg T (tod_s1 T m) (tod_s2 T m) None = tail_axes (stress_varies m) T.
Proof.
  unfold inv_tg, tod_s1, tod_s2, stress_varies, tail_axes.
  destruct (nonzero (C10 m)), (nonzero (C01 m)), (nonzero (C11 m)), (nonzero (C20 m)), (nonzero (C30 m));
    cbn [orb stp]; bsn; reflexivity.
Qed.
Lemma tod_th m T : inv_th T (tod_s2 T m) None (tod_hs T m) = tail_axes (tangent_varies m) T.
Proof.
  unfold inv_th, tod_hs, tod_s2, tangent_varies, tail_axes.
  destruct (nonzero (C01 m)), (nonzero (C11 m)), (nonzero (C20 m)), (nonzero (C30 m));
    cbn [orb stp]; bsn; reflexivity.
Qed.
