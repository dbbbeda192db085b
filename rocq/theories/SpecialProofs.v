(** Special states, counterexamples and homogeneity of the spaces (C28, C31 - C34). *)
From Coq Require Import Reals Lra FunctionalExtensionality List.
From Coquelicot Require Import Coquelicot.
From Verif Require Import Tensor Py Voigt VoigtProofs Algebra Calc Models Frameworks Spaces Spec VCalc ModelProofs GenProofs
  InvCore InvProofs IsoProofs SpaceCore PiolaProofs SpaceProofs DistProofs SpaceMore.
Local Open Scope R_scope.

(** *** C28 *)
Lemma push_legs A B E : push A B E = legs4 A B E.
Proof. reflexivity. Qed.
Lemma detJ_k k F : detJ F (kdetF k (right_CG F)) = Rabs (det3 F).
Proof. destruct k; cbn [kdetF]; [apply detJ_none| |]; unfold detJ; apply sqrt_det_CG. Qed.
Lemma invCG_k k F : det3 F <> 0 -> invCG F (kinvC k (right_CG F)) = inv3 (cauchy_green F).
Proof. intro N. rewrite <- (invCG_none F N). destruct k; reflexivity. Qed.
Lemma pf_stress_push f a F S d : d = Rabs (det3 F) -> pf_stress (opts f a) F S d =
  mscal (per_area a F) (mmul (mmul (leg f F) S) (mtr (leg a F))).
Proof.
  intros ->. unfold pf_stress. cbn [opts force area]. apply T2_ext; intros i j. unfold mscal.
  destruct f, a; cbn [leg per_area]; rewrite ?mtr_one, ?mmul_1_l, ?mmul_1_r; unfold Rdiv; ring.
Qed.
Lemma pf_elast_push f a F S E d : det3 F <> 0 -> d = Rabs (det3 F) ->
  pf_elast (opts f a) F (inv3 (cauchy_green F)) S E d =
  fun i j k l => per_area a F * push (leg f F) (leg a F) (t4add E (geo (inv3 (cauchy_green F)) S)) i j k l.
Proof.
  intros N ->. rewrite push_legs, legs4_split. unfold pf_elast. cbn [opts force area].
  assert (X : match f with Deformed => t4add (legs13 F E) (geo one2 S) | Undeformed => t4add E (geo (inv3 (cauchy_green F)) S) end
     = legs13 (leg f F) (t4add E (geo (inv3 (cauchy_green F)) S))).
  { destruct f; cbn [leg]. - rewrite legs13_add, legs13_geo, push_inv by auto. reflexivity. - rewrite legs13_one; reflexivity. }
  rewrite legs_comm. do 4 (apply functional_extensionality; intro).
  destruct a; cbn [leg per_area]; rewrite X; [unfold Rdiv; ring|rewrite legs24_one; ring].
Qed.
Section Config.
  Context {SV : Type} (fw : Framework SV).
  Lemma sp_outcomes k o o' F sv s (fs : StressOut -> StressOut) (fe : ElastOut -> ElastOut) :
    (forall S, piola_stress o' F S (kdetF k (right_CG F)) = fs (piola_stress o F S (kdetF k (right_CG F)))) ->
    (forall S C4, piola_elast o' F S (kdetF k (right_CG F)) C4 (kinvC k (right_CG F)) =
       fe (piola_elast o F S (kdetF k (right_CG F)) C4 (kinvC k (right_CG F)))) ->
    outcome (sp_gradient k fw o' F sv) s = rmap (fun r => (fs (fst r), snd r)) (outcome (sp_gradient k fw o F sv) s) /\
    outcome (sp_hessian k fw o' F sv) s = rmap fe (outcome (sp_hessian k fw o F sv) s).
  Proof.
    intros Hs He.
    destruct (fw_gradient fw (seen k (right_CG F)) sv (sp_mat s)) as [ms [[g svn]|e]] eqn:E.
    - assert (E1 : outcome (fw_gradient fw (seen k (right_CG F)) sv) (sp_mat s) = Ok (g, svn)) by (unfold outcome; rewrite E; reflexivity).
      rewrite !(sp_gradient_ok fw _ _ _ _ _ _ _ E1), !(sp_hessian_ok fw _ _ _ _ _ _ _ _ E). split.
      + cbn [rmap fst snd]. rewrite Hs. reflexivity.
      + destruct (outcome (fw_hessian fw (seen k (right_CG F)) sv) ms); cbn [rmap]; [rewrite He|]; reflexivity.
    - assert (E1 : outcome (fw_gradient fw (seen k (right_CG F)) sv) (sp_mat s) = Raise e) by (unfold outcome; rewrite E; reflexivity).
      rewrite !(sp_gradient_raise fw _ _ _ _ _ _ E1), !(sp_hessian_graise fw _ _ _ _ _ _ E1). auto.
  Qed.
  Lemma configurations k f a F sv s : invertible F ->
    outcome (sp_gradient k fw (opts f a) F sv) s =
      rmap (fun r => (on_full (fun P => mscal (per_area a F) (mmul (mmul (leg f F) P) (mtr (leg a F)))) (fst r), snd r))
        (outcome (sp_gradient k fw (opts Undeformed Undeformed) F sv) s) /\
    outcome (sp_hessian k fw (opts f a) F sv) s =
      rmap (on_full4 (fun A i j k l => per_area a F * push (leg f F) (leg a F) A i j k l))
        (outcome (sp_hessian k fw (opts Undeformed Undeformed) F sv) s).
  Proof.
    intro N. apply sp_outcomes.
    - intro S. rewrite !piola_stress_eq by reflexivity. cbn [on_full]. rewrite !pf_stress_push by apply detJ_k.
      cbn [leg per_area]. f_equal. rewrite mtr_one, mmul_1_l, mmul_1_r. f_equal. f_equal. f_equal.
      apply T2_ext; intros; unfold mscal; ring.
    - intros S C4. rewrite !piola_elast_eq by reflexivity. cbn [on_full4]. rewrite !invCG_k by auto.
      rewrite !pf_elast_push by (auto; apply detJ_k). cbn [leg per_area]. f_equal.
      rewrite !push_legs, !legs4_split. rewrite legs24_one, legs13_one.
      do 4 (apply functional_extensionality; intro). f_equal. f_equal. f_equal.
      do 4 (apply functional_extensionality; intro). ring.
  Qed.
  Lemma finalize_grad k f a F sv s out svn :
    outcome (sp_gradient k fw (raw f a) F sv) s = Ok (out, svn) ->
    exists V, out = StressVoigt V /\
      outcome (sp_gradient k fw (opts Undeformed Undeformed) F sv) s = Ok (StressFull (astensor V), svn).
  Proof.
    intro E. destruct (outcome (fw_gradient fw (seen k (right_CG F)) sv) (sp_mat s)) as [[g sv']|e] eqn:Eg.
    - rewrite (sp_gradient_ok fw _ _ _ _ _ _ _ Eg) in E. injection E as <- <-. eexists. split; [reflexivity|].
      rewrite (sp_gradient_ok fw _ _ _ _ _ _ _ Eg). reflexivity.
    - rewrite (sp_gradient_raise fw _ _ _ _ _ _ Eg) in E. discriminate.
  Qed.
  Lemma finalize_hess k f a F sv s V svn out : invertible F ->
    outcome (sp_gradient k fw (raw f a) F sv) s = Ok (StressVoigt V, svn) ->
    outcome (sp_hessian k fw (raw f a) F sv) s = Ok out ->
    exists C4, out = ElastVoigt C4 /\
      outcome (sp_hessian k fw (opts Undeformed Undeformed) F sv) s =
        Ok (ElastFull (fun i j k l => astensor4 C4 i j k l + inv3 (cauchy_green F) i k * astensor V j l)).
  Proof.
    intros N E EH. destruct (fw_gradient fw (seen k (right_CG F)) sv (sp_mat s)) as [ms [[g svn']|e]] eqn:E0.
    - assert (E1 : outcome (fw_gradient fw (seen k (right_CG F)) sv) (sp_mat s) = Ok (g, svn')) by (unfold outcome; rewrite E0; reflexivity).
      rewrite (sp_gradient_ok fw _ _ _ _ _ _ _ E1) in E. injection E as <- <-.
      rewrite (sp_hessian_ok fw _ _ _ _ _ _ _ _ E0) in EH.
      rewrite (sp_hessian_ok fw _ _ _ _ _ _ _ _ E0).
      destruct (outcome (fw_hessian fw (seen k (right_CG F)) sv) ms); [|discriminate].
      injection EH as <-. eexists. split; [reflexivity|].
      rewrite piola_elast_eq by reflexivity. rewrite invCG_k by auto. reflexivity.
    - assert (E1 : outcome (fw_gradient fw (seen k (right_CG F)) sv) (sp_mat s) = Raise e) by (unfold outcome; rewrite E0; reflexivity).
      rewrite (sp_gradient_raise fw _ _ _ _ _ _ E1) in E. discriminate.
  Qed.
  (** The stress is a symmetric tensor in the configurations (0,0) and (None,None). *)
  Lemma undeformed_sym k F sv s P svn :
    outcome (sp_gradient k fw (opts Undeformed Undeformed) F sv) s = Ok (StressFull P, svn) -> sym2 P.
  Proof.
    intro E. destruct (outcome (fw_gradient fw (seen k (right_CG F)) sv) (sp_mat s)) as [[g sv']|e] eqn:Eg.
    - rewrite (sp_gradient_ok fw _ _ _ _ _ _ _ Eg) in E. injection E as <- <-. apply astensor_sym.
    - rewrite (sp_gradient_raise fw _ _ _ _ _ _ Eg) in E. discriminate.
  Qed.
End Config.
(** Optional arguments of piola. *)
Lemma optional_detF o F S : piola_stress o F S (Some (Rabs (det3 F))) = piola_stress o F S None.
Proof.
  destruct (finalize o) eqn:E; [|unfold piola_stress; rewrite E; reflexivity].
  rewrite !piola_stress_eq by auto. rewrite detJ_none. reflexivity.
Qed.
Lemma optional_elast o F S C4 d ic : invertible F ->
  (d = None \/ d = Some (Rabs (det3 F))) -> (ic = None \/ ic = Some (asvoigt (inv3 (cauchy_green F)))) ->
  piola_elast o F S d C4 ic = piola_elast o F S None C4 None.
Proof.
  intros N Hd Hi.
  destruct (finalize o) eqn:E; [|unfold piola_elast; rewrite E; reflexivity].
  rewrite !piola_elast_eq by auto. rewrite detJ_none, invCG_none by auto.
  assert (detJ F d = Rabs (det3 F)) as -> by (destruct Hd as [-> | ->]; [apply detJ_none|reflexivity]).
  assert (invCG F ic = inv3 (cauchy_green F)) as ->; [|reflexivity].
  destruct Hi as [-> | ->]; [apply invCG_none; auto|]. unfold invCG. rewrite <- (invCG_none F N). unfold invCG.
  apply T2_ext; intros i j. rewrite asvoigt_astensor_f. reflexivity.
Qed.

(** *** C32 *)
Definition Qx : T2 := fun i j => match i, j with X0, X0 => 1 | X1, X1 => -1 | X2, X2 => -1 | _, _ => 0 end.
Definition Qy : T2 := fun i j => match i, j with X0, X0 => -1 | X1, X1 => 1 | X2, X2 => -1 | _, _ => 0 end.
Definition Qc : T2 := fun i j => match i, j with X0, X1 => 1 | X1, X2 => 1 | X2, X0 => 1 | _, _ => 0 end.
Lemma Qx_orth : orthogonal Qx. Proof. intros i j; destruct i, j; unfold mmul, mtr, one2, delta, sum3; cbn; ring. Qed.
Lemma Qy_orth : orthogonal Qy. Proof. intros i j; destruct i, j; unfold mmul, mtr, one2, delta, sum3; cbn; ring. Qed.
Lemma Qc_orth : orthogonal Qc. Proof. intros i j; destruct i, j; unfold mmul, mtr, one2, delta, sum3; cbn; ring. Qed.
Lemma isotropic_eye {SV} (fw : Framework SV) Dom sv s g svn : isotropic_fw fw Dom -> Dom one2 ->
  outcome (fw_gradient fw eye sv) s = Ok (g, svn) -> g = vscal (g V0) eye.
Proof.
  intros Hi HD E.
  assert (A : forall Q, orthogonal Q -> g = asvoigt (rot2 Q (astensor g))).
  { intros Q HQ. destruct (Hi Q one2 sv s HQ one2_sym HD) as [X _].
    rewrite rot2_one in X by auto.
    replace (asvoigt one2) with eye in X by (apply Vec6_ext; intro v; destruct v; reflexivity).
    rewrite E in X. cbn [rmap fst snd] in X. congruence. }
  assert (Ax := A Qx Qx_orth). assert (Ay := A Qy Qy_orth). assert (Ac := A Qc Qc_orth).
  assert (Cx : forall v, g v = asvoigt (rot2 Qx (astensor g)) v) by (intro; congruence).
  assert (Cy : forall v, g v = asvoigt (rot2 Qy (astensor g)) v) by (intro; congruence).
  assert (Cc : forall v, g v = asvoigt (rot2 Qc (astensor g)) v) by (intro; congruence).
  clear A Ax Ay Ac.
  assert (x3 := Cx V3). assert (x5 := Cx V5). assert (y4 := Cy V4). assert (c0 := Cc V0). assert (c1 := Cc V1). assert (c2 := Cc V2).
  unfold asvoigt, rot2, mmul, mtr, astensor, sum3, Qx, Qy, Qc in *; cbn in *.
  apply Vec6_ext; intro v; destruct v; unfold vscal, eye; cbn; lra.
Qed.
Lemma right_CG_aQ a Q : orthogonal Q -> right_CG (mscal a Q) = vscal (a ^ 2) eye.
Proof.
  intro HQ. apply Vec6_ext; intro v. unfold right_CG, asvoigt, vscal, mscal. assert (X := HQ (vi v) (vj v)).
  unfold mmul, mtr in X. transitivity (a ^ 2 * one2 (vi v) (vj v)).
  - rewrite <- X. unfold sum3; ring.
  - f_equal. destruct v; reflexivity.
Qed.
Lemma det_eye : det eye = 1.
Proof. unfold det, eye; cbn; ring. Qed.
Definition zero2 : T2 := fun _ _ => 0.
Lemma distortional_stress_free {SV} (fw : Framework SV) Dom f c a Q sv s g svn : isotropic_fw fw Dom -> Dom one2 ->
  orthogonal Q -> a <> 0 -> outcome (fw_gradient fw eye sv) (sp_mat s) = Ok (g, svn) ->
  outcome (dis_gradient fw (opts f c) (mscal a Q) sv) s = Ok (StressFull zero2, svn).
Proof.
  intros Hi HD HQ Ha E. pose proof (isotropic_eye fw Dom sv _ g svn Hi HD E) as Eg.
  assert (P : det eye > 0) by (rewrite det_eye; lra).
  assert (SE : seen KDistortional (right_CG (mscal a Q)) = eye).
  { rewrite right_CG_aQ by auto. rewrite seen_scal by auto. cbn [seen]. rewrite det_eye, Rpower_1_l.
    apply Vec6_ext; intro v; unfold vscal; ring. }
  etransitivity. { refine (sp_gradient_ok fw (opts f c) KDistortional _ _ _ g svn _). rewrite SE. exact E. }
  assert (Z : kS KDistortional (right_CG (mscal a Q)) g = vzero).
  { rewrite right_CG_aQ by auto. apply Vec6_ext; intro v. rewrite kS_scal by auto.
    rewrite dis_S. rewrite Eg. cbn [kSb]. rewrite det_eye, Rpower_1_l.
    unfold vsub, vscal, vzero, inv. rewrite det_eye. unfold ddot22, weights, eye, sum6. destruct v; cbn; field; auto. }
  rewrite Z. rewrite piola_stress_eq by reflexivity. f_equal. f_equal. f_equal.
  unfold pf_stress. apply T2_ext; intros i j. unfold zero2, vzero, astensor.
  destruct (area (opts f c)); unfold mmul, sum3, Rdiv; ring.
Qed.
Lemma deformation_stress_free {SV} (fw : Framework SV) f c Q sv s g svn :
  orthogonal Q -> outcome (fw_gradient fw eye sv) (sp_mat s) = Ok (g, svn) ->
  (outcome (def_gradient fw (opts f c) Q sv) s = Ok (StressFull zero2, svn) <-> g = vzero).
Proof.
  intros HQ E.
  assert (EQ : right_CG Q = eye).
  { replace Q with (mscal 1 Q) by (apply T2_ext; intros; unfold mscal; ring). rewrite right_CG_aQ by auto.
    apply Vec6_ext; intro v; unfold vscal; ring. }
  assert (X : outcome (def_gradient fw (opts f c) Q sv) s = Ok (StressFull (pf_stress (opts f c) Q (astensor (vscal 2 g)) (detJ Q None)), svn)).
  { rewrite <- piola_stress_eq by reflexivity.
    assert (Y := sp_gradient_ok fw (opts f c) KDeformation Q sv s g svn). cbn [seen kS kdetF sp_gradient] in Y. apply Y. rewrite EQ. exact E. }
  rewrite X. clear X. rewrite pf_stress_push by apply detJ_none.
  assert (D : Rabs (det3 Q) = 1).
  { rewrite <- sqrt_det_CG, EQ, det_eye. apply sqrt_1. }
  assert (HL : forall c, mmul (mtr (leg c Q)) (leg c Q) = one2).
  { intros []; cbn [leg]; [apply orthogonal_eq; auto|rewrite mtr_one; apply mmul_1_l]. }
  assert (PA : per_area c Q = 1) by (destruct c; cbn [per_area]; rewrite ?D; field).
  rewrite PA. split.
  - intro H. injection H as H.
    assert (Z : astensor (vscal 2 g) = zero2).
    { transitivity (mmul (mmul (mtr (leg f Q)) (mmul (mmul (leg f Q) (astensor (vscal 2 g))) (mtr (leg c Q)))) (leg c Q)).
      - rewrite !mmul_assoc, HL, mmul_1_r. rewrite <- mmul_assoc, HL, mmul_1_l. reflexivity.
      - replace (mmul (mmul (leg f Q) (astensor (vscal 2 g))) (mtr (leg c Q))) with zero2.
        + apply T2_ext; intros i j. unfold mmul, sum3, zero2; ring.
        + rewrite <- H. apply T2_ext; intros; unfold mscal; ring. }
    apply Vec6_ext; intro v. assert (Zv : asvoigt (astensor (vscal 2 g)) v = asvoigt zero2 v) by (rewrite Z; reflexivity).
    rewrite asvoigt_astensor_f in Zv. unfold vscal, asvoigt, zero2 in Zv. unfold vzero. lra.
  - intros ->. f_equal. f_equal. f_equal. apply T2_ext; intros i j. unfold mscal, mmul, astensor, vscal, vzero, zero2, sum3. ring.
Qed.
