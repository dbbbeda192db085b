(** Symmetry, scaling and special states of the spaces (C27, C29, C32, C33, C34). *)
From Coq Require Import Reals Lra FunctionalExtensionality List.
From Coquelicot Require Import Coquelicot.
From Verif Require Import Tensor Py Voigt VoigtProofs Algebra Calc Models Frameworks Spaces Spec VCalc ModelProofs GenProofs
  InvCore IsoProofs SpaceCore PiolaProofs SpaceProofs DistProofs.
Local Open Scope R_scope.

(** *** Major symmetry *)
Definition sym6 (A : Mat6) : Prop := forall v w, A v w = A w v.
Lemma major_sym6 A : major4 (astensor4 A) <-> sym6 A.
Proof.
  split.
  - intros H v w. rewrite <- (asvoigt4_astensor4 A v w), <- (asvoigt4_astensor4 A w v).
    destruct v, w; cbn; apply H.
  - intros H i j k l. apply H.
Qed.
Lemma sym6_cdya1 a : sym6 (cdya1 a).
Proof. intros v w. rewrite cdya1_cdya. apply cdya_major. Qed.
Lemma sym6_dya a : sym6 (dya a a).
Proof. intros v w. unfold dya; ring. Qed.
Lemma hessv_sym C g h : sym6 (hessv C g h).
Proof.
  intros v w. unfold hessv, sum3. cbn [pos d2Jv]. unfold msub6, mscal6, mzero.
  rewrite (sym6_cdya1 eye v w), (sym6_cdya1 (inv C (Some (det C))) v w). unfold dya. ring.
Qed.
Lemma hessv_bug_sym C g h : sym6 (hessv_bug C g h).
Proof. intros v w. unfold hessv_bug. rewrite (hessv_sym C g h v w). unfold dya. ring. Qed.
Lemma invariants_symmetric {SV} (m : InvModel SV) : symmetric_hessian (invariants_fw m).
Proof.
  intros C sv s H E. apply major_sym6. unfold outcome in E. cbn [invariants_fw fw_hessian] in E.
  destruct (inv_call m (Jv C) sv) as [[g svn]|e] eqn:Eg.
  - destruct (inv_callh m (Jv C) svn) as [h|e] eqn:Eh.
    + rewrite (inv_hessian_eq m _ _ _ _ _ s Eg Eh) in E. cbn [snd] in E.
      destruct (hess_exn g h); [discriminate|]. injection E as <-.
      destruct (isN (h V2)); auto using hessv_sym, hessv_bug_sym.
    + rewrite (inv_hessian_hraise m _ _ _ _ _ s Eg Eh) in E. discriminate.
  - destruct (inv_hessian_graise m _ _ _ s Eg) as [s' E']. rewrite E' in E. discriminate.
Qed.
Lemma str_iter_sym l M dW d2 H k : sym6 H -> sym6 (str_iter l M dW d2 H k).
Proof.
  intros S v w. unfold str_iter. destruct (ix3_eqb (sb k) (sa k)) eqn:E.
  - assert (sb k = sa k) as -> by (destruct k; cbn in E; try discriminate; reflexivity).
    unfold madd6, mscal6, dya. rewrite (S v w). ring.
  - unfold madd6, mscal6, transpose, dya. rewrite (S v w), (cdya_major _ _ v w). ring.
Qed.
Lemma stretches_symmetric {SV} lapack (m : StretchModel SV) : symmetric_hessian (stretches_fw lapack m).
Proof.
  intros C sv s H E. apply major_sym6. revert E. unfold outcome. cbn [stretches_fw fw_hessian].
  unfold str_hessian, str_gradient. destruct (eigh lapack C sqrt) as [l M].
  unfold bind, modify, get, put, on_model, ret, attr, bind, get, put; cbn [st_model set_lM].
  destruct (sm_gradient m l sv (st_model m s)) as [a [[dW svn]|e]]; cbn -[str_iter]; [|discriminate].
  destruct (sm_hessian m l svn a) as [a' [h|e]]; cbn -[str_iter]; [|discriminate]. intro E; injection E as <-.
  do 6 apply str_iter_sym. intros v w; reflexivity.
Qed.
Lemma proj_sym P A : sym6 A -> sym6 (ddot44 (ddot44 P A) (transpose P)).
Proof.
  intros S v w. unfold ddot44, transpose, sum6.
  rewrite (S V1 V0), (S V2 V0), (S V3 V0), (S V4 V0), (S V5 V0), (S V2 V1), (S V3 V1), (S V4 V1), (S V5 V1),
   (S V3 V2), (S V4 V2), (S V5 V2), (S V4 V3), (S V5 V3), (S V5 V4). ring.
Qed.
Lemma kC4_sym k C g H : sym6 H -> sym6 (kC4 k C g H).
Proof.
  intros S v w. destruct k; unfold kC4; cbv zeta.
  - unfold mscal6. rewrite (S v w). reflexivity.
  - set (C4b := mscal6 _ H). assert (S4 : sym6 C4b) by (intros a b; unfold C4b, mscal6; rewrite (S a b); reflexivity).
    set (P4 := msub6 (cdya1 eye) _). pose proof (proj_sym P4 C4b S4 v w) as X.
    set (pp := ddot44 (ddot44 P4 C4b) (transpose P4)) in *. clearbody pp. clearbody C4b.
    destruct (allclose0 C4b); unfold madd6, msub6, mscal6, transpose, dya;
    rewrite (sym6_cdya1 _ v w); [ring|rewrite X; ring].
  - unfold msub6, mscal6, dya. rewrite (sym6_cdya1 _ v w). ring.
Qed.
Lemma legs13_major A E : major4 E -> major4 (legs13 A E).
Proof. intros H i j k l. unfold legs13, sum3. rewrite !(H _ l _ j). ring. Qed.
Lemma legs24_major A E : major4 E -> major4 (legs24 A E).
Proof. intros H i j k l. unfold legs24, sum3. rewrite !(H k _ i _). ring. Qed.
Lemma geo_major B S : sym2 B -> sym2 S -> major4 (geo B S).
Proof. intros HB HS i j k l. unfold geo. rewrite (HB i k), (HS j l). ring. Qed.
Lemma t4add_major A B : major4 A -> major4 B -> major4 (t4add A B).
Proof. intros HA HB i j k l. unfold t4add. rewrite (HA i j k l), (HB i j k l). reflexivity. Qed.
Lemma one2_sym : sym2 one2.
Proof. intros i j; destruct i, j; reflexivity. Qed.
Lemma space_major {SV} (fw : Framework SV) o k F sv s A : symmetric_hessian fw ->
  outcome (sp_hessian k fw o F sv) s = Ok (ElastFull A) -> major4 A.
Proof.
  intros Hs E.
  destruct (fw_gradient fw (seen k (right_CG F)) sv (sp_mat s)) as [ms [[g svn]|e]] eqn:Eg.
  - rewrite (sp_hessian_ok fw o _ _ _ _ _ _ _ Eg) in E.
    destruct (outcome (fw_hessian fw (seen k (right_CG F)) sv) ms) as [H|e] eqn:EH; [|discriminate].
    apply Hs, major_sym6 in EH. injection E as E.
    destruct (finalize o) eqn:Ef.
    + rewrite piola_elast_eq in E by auto. injection E as <-. unfold pf_elast.
      assert (M : major4 (astensor4 (kC4 k (right_CG F) g H))) by (apply major_sym6, kC4_sym; auto).
      assert (B : major4 (match force o with Deformed => t4add (legs13 F (astensor4 (kC4 k (right_CG F) g H))) (geo one2 (astensor (kS k (right_CG F) g)))
         | Undeformed => t4add (astensor4 (kC4 k (right_CG F) g H)) (geo (invCG F (kinvC k (right_CG F))) (astensor (kS k (right_CG F) g))) end)).
      { destruct (force o); apply t4add_major; auto using legs13_major; apply geo_major; auto using one2_sym, astensor_sym.
        unfold invCG; apply astensor_sym. }
      destruct (area o); [|exact B].
      intros i j p q. rewrite (legs24_major F _ B i j p q). reflexivity.
    + unfold piola_elast in E. rewrite Ef in E. discriminate.
  - assert (E1 : outcome (fw_gradient fw (seen k (right_CG F)) sv) (sp_mat s) = Raise e) by (unfold outcome; rewrite Eg; reflexivity).
    rewrite (sp_hessian_graise fw o _ _ _ _ _ E1) in E. discriminate.
Qed.

(** *** Distortional: the framework only sees unimodular tensors *)
Lemma seen_unimodular F : invertible F -> det3 (astensor (seen KDistortional (right_CG F))) = 1.
Proof. intro N. rewrite <- det_astensor. apply seen_det. apply pos_right_CG; auto. Qed.
Lemma dis_guard {SV} (fw : Framework SV) o F sv (s : SpaceSelf (fw_self fw)) : invertible F ->
  outcome (dis_gradient (only_unimodular fw) o F sv) s = outcome (dis_gradient fw o F sv) s /\
  outcome (dis_hessian (only_unimodular fw) o F sv) s = outcome (dis_hessian fw o F sv) s.
Proof.
  intro N. pose proof (seen_unimodular F N) as U.
  assert (Eg : fw_gradient (only_unimodular fw) (seen KDistortional (right_CG F)) sv = fw_gradient fw (seen KDistortional (right_CG F)) sv).
  { cbn [only_unimodular fw_gradient]. destruct (Req_EM_T _ 1); [reflexivity|contradiction]. }
  assert (Eh : fw_hessian (only_unimodular fw) (seen KDistortional (right_CG F)) sv = fw_hessian fw (seen KDistortional (right_CG F)) sv).
  { cbn [only_unimodular fw_hessian]. destruct (Req_EM_T _ 1); [reflexivity|contradiction]. }
  destruct (fw_gradient fw (seen KDistortional (right_CG F)) sv (sp_mat s)) as [ms [[g svn]|e]] eqn:E.
  - assert (E1 : outcome (fw_gradient fw (seen KDistortional (right_CG F)) sv) (sp_mat s) = Ok (g, svn)) by (unfold outcome; rewrite E; reflexivity).
    assert (E' := E). rewrite <- Eg in E'. assert (E1' := E1). rewrite <- Eg in E1'.
    split.
    + etransitivity; [exact (sp_gradient_ok (only_unimodular fw) o KDistortional F sv s g svn E1')|].
      symmetry. exact (sp_gradient_ok fw o KDistortional F sv s g svn E1).
    + etransitivity; [exact (sp_hessian_ok (only_unimodular fw) o KDistortional F sv s g svn ms E')|].
      rewrite Eh. symmetry. exact (sp_hessian_ok fw o KDistortional F sv s g svn ms E).
  - assert (E1 : outcome (fw_gradient fw (seen KDistortional (right_CG F)) sv) (sp_mat s) = Raise e) by (unfold outcome; rewrite E; reflexivity).
    assert (E1' := E1). rewrite <- Eg in E1'.
    split.
    + etransitivity; [exact (sp_gradient_raise (only_unimodular fw) o KDistortional F sv s e E1')|].
      symmetry. exact (sp_gradient_raise fw o KDistortional F sv s e E1).
    + etransitivity; [exact (sp_hessian_graise (only_unimodular fw) o KDistortional F sv s e E1')|].
      symmetry. exact (sp_hessian_graise fw o KDistortional F sv s e E1).
Qed.

(** *** S : C = 0 *)
Lemma inv_ddot c : det c <> 0 -> ddot22 (inv c None) c = 3.
Proof.
  intro N. rewrite ddot22_full, dc22_tr, mtr_sym by apply astensor_sym.
  replace (mmul (astensor (inv c None)) (astensor c)) with one2 by (symmetry; apply T2_ext; intros; apply inv_left; auto).
  unfold tr2, sum3, one2, delta; cbn; ring.
Qed.
Lemma dis_SC c g : det c <> 0 -> ddot22 (kS KDistortional c g) c = 0.
Proof. intro N. rewrite dis_S, ddot22_sub_l, ddot22_scal_l, inv_ddot by auto. field. Qed.
Lemma push_trace F S : tr2 (mmul (mmul F (astensor S)) (mtr F)) = ddot22 S (right_CG F).
Proof.
  rewrite mmul_assoc, tr2_mmul, mmul_assoc. rewrite ddot22_full, right_CG_full, dc22_tr, (mtr_sym _ (cauchy_green_sym F)).
  unfold cauchy_green. reflexivity.
Qed.
(** *** F -> a F *)
Lemma right_CG_scal a F : right_CG (mscal a F) = vscal (a ^ 2) (right_CG F).
Proof. apply Vec6_ext; intro v. unfold right_CG, asvoigt, vscal, mscal, sum3; ring. Qed.
Lemma cube_inj x y : x ^ 3 = y ^ 3 -> x = y.
Proof.
  intro H. assert (E : (x - y) * (x ^ 2 + x * y + y ^ 2) = 0) by (transitivity (x ^ 3 - y ^ 3); [ring|lra]).
  apply Rmult_integral in E. destruct E as [E|E]; [lra|].
  assert (A : (x + y / 2) ^ 2 + 3 / 4 * y ^ 2 = 0) by (rewrite <- E; field).
  pose proof (pow2_ge_0 (x + y / 2)). pose proof (pow2_ge_0 y).
  assert (Y : y ^ 2 = 0) by lra. assert (X : (x + y / 2) ^ 2 = 0) by lra.
  assert (Hy : y = 0). { destruct (Req_dec y 0); auto. apply (pow_nonzero y 2) in H2. contradiction. }
  subst y. destruct (Req_dec (x + 0 / 2) 0); [lra|]. apply (pow_nonzero _ 2) in H2. contradiction.
Qed.
Lemma vscal_vscal a b c : vscal a (vscal b c) = vscal (a * b) c.
Proof. apply Vec6_ext; intro; unfold vscal; ring. Qed.
Lemma seen_pow a c : a <> 0 -> det c > 0 ->
  Rpower (det (vscal (a ^ 2) c)) (- 1 / 3) * a ^ 2 = Rpower (det c) (- 1 / 3).
Proof.
  intros Ha P.
  assert (A2 : 0 < a ^ 2) by (assert (X := Rsqr_pos_lt a Ha); unfold Rsqr in X; lra).
  assert (P' : det (vscal (a ^ 2) c) > 0).
  { rewrite det_vscal. apply Rmult_lt_0_compat; auto. apply pow_lt; auto. }
  assert (D1 := seen_det _ P). assert (D2 := seen_det _ P'). cbn [seen] in D1, D2.
  rewrite vscal_vscal in D2. rewrite det_vscal in D1. rewrite (det_vscal (_ * a ^ 2) c) in D2.
  apply cube_inj. apply Rmult_eq_reg_r with (det c); lra.
Qed.
Lemma seen_scal a c : a <> 0 -> det c > 0 -> seen KDistortional (vscal (a ^ 2) c) = seen KDistortional c.
Proof. intros Ha P. cbn [seen]. rewrite vscal_vscal, seen_pow; auto. Qed.
Lemma inv_vscal a c v : a <> 0 -> det c <> 0 -> inv (vscal a c) None v = / a * inv c None v.
Proof. intros Ha N. unfold inv. rewrite det_vscal. unfold vscal. field. auto. Qed.
Lemma kS_scal a c g v : a <> 0 -> det c > 0 -> kS KDistortional (vscal (a ^ 2) c) g v = / a ^ 2 * kS KDistortional c g v.
Proof.
  intros Ha P. rewrite !dis_S. cbn [kSb]. unfold vsub at 1 2.
  assert (A2 : a ^ 2 <> 0) by (apply pow_nonzero; auto).
  assert (E : Rpower (det (vscal (a ^ 2) c)) (- 1 / 3) = Rpower (det c) (- 1 / 3) / a ^ 2).
  { rewrite <- (seen_pow a c Ha P). field. auto. }
  assert (I := inv_vscal (a ^ 2) c v A2 ltac:(lra)).
  rewrite E. clear E. set (W := inv (vscal (a ^ 2) c) None) in *. clearbody W.
  set (p := Rpower _ _). unfold vscal at 1 2 6 7. rewrite I. unfold ddot22, sum6, vscal. field. auto.
Qed.
