(** C31, continued: how wrong the Distortional tangent can be where np.allclose drops the material's
    part: by at most 1e-8 (in the unit of the stress) times a factor that depends on F only. *)
From Coq Require Import Reals Lra Lia.
From Coquelicot Require Import Coquelicot.
From Verif Require Import Tensor Py Voigt Models Frameworks Spaces Spec Algebra Calc VCalc VoigtProofs
  SpaceCore PiolaProofs DistProofs SpaceProofs Counter PropSpaces.
Local Open Scope R_scope.

Lemma allclose_le A : allclose0 A = true -> forall v w, Rabs (A v w) <= / 10 ^ 8.
Proof.
  intros H v w. apply Rnot_lt_le. intro L. rewrite (allclose_false A v w L) in H. discriminate.
Qed.
(** A sum of six (three) terms. *)
Lemma sum6_abs f g : (forall v, Rabs (f v) <= g v) -> Rabs (sum6 f) <= sum6 g.
Proof.
  intro H. unfold sum6. repeat (eapply Rle_trans; [apply Rabs_triang|apply Rplus_le_compat]); apply H.
Qed.
Lemma sum3_abs f g : (forall v, Rabs (f v) <= g v) -> Rabs (sum3 f) <= sum3 g.
Proof.
  intro H. unfold sum3. repeat (eapply Rle_trans; [apply Rabs_triang|apply Rplus_le_compat]); apply H.
Qed.
Definition P4 (C : Vec6) : Mat6 := msub6 (cdya1 eye) (mscal6 (/ 3) (dya (inv C None) C)).
(** Bounds of an entry of P4 : X : P4^T and of its push-forward for |X| <= 1. *)
Definition bound66 (C : Vec6) (v w : ix6) : R :=
  sum6 (fun k => sum6 (fun l => Rabs (P4 C v l) * weights l) * Rabs (P4 C w k) * weights k).
Definition bound (F : T2) (i j k l : ix3) : R :=
  sum3 (fun I => sum3 (fun K => Rabs (F i I) * Rabs (F k K) * bound66 (right_CG F) (vix I j) (vix K l))).
Lemma weights_nn v : 0 <= weights v.
Proof. unfold weights; destruct v; cbn; lra. Qed.
Lemma dropped_bound C H t v w : (forall a b, Rabs (mscal6 (4 * Rpower (det C) (- 2 / 3)) H a b) <= t) -> 0 <= t ->
  Rabs (dropped C H v w) <= t * bound66 C v w.
Proof.
  intros HX Ht. unfold dropped. fold (P4 C). set (X := mscal6 _ H) in *. unfold ddot44, transpose.
  replace (t * bound66 C v w) with (sum6 (fun k => (sum6 (fun l => Rabs (P4 C v l) * t * weights l)) * Rabs (P4 C w k) * weights k)) by (unfold bound66, sum6; ring).
  apply sum6_abs. intro k. rewrite !Rabs_mult, (Rabs_right (weights k)) by (apply Rle_ge, weights_nn).
  apply Rmult_le_compat_r; [apply weights_nn|]. apply Rmult_le_compat_r; [apply Rabs_pos|].
  apply sum6_abs. intro l. rewrite !Rabs_mult, (Rabs_right (weights l)) by (apply Rle_ge, weights_nn).
  apply Rmult_le_compat_r; [apply weights_nn|]. apply Rmult_le_compat_l; [apply Rabs_pos|]. apply HX.
Qed.
Lemma legs_bound F E t : (forall v w, Rabs (E v w) <= t * bound66 (right_CG F) v w) -> forall i j k l,
  Rabs (legs13 F (astensor4 E) i j k l) <= t * bound F i j k l.
Proof.
  intros H i j k l. unfold legs13, bound.
  replace (t * sum3 (fun I => sum3 (fun K => Rabs (F i I) * Rabs (F k K) * bound66 (right_CG F) (vix I j) (vix K l))))
    with (sum3 (fun I => sum3 (fun K => Rabs (F i I) * Rabs (F k K) * (t * bound66 (right_CG F) (vix I j) (vix K l))))) by (unfold sum3; ring).
  apply sum3_abs; intro I. apply sum3_abs; intro K. rewrite !Rabs_mult. apply Rmult_le_compat_l; [apply Rmult_le_pos; apply Rabs_pos|]. apply H.
Qed.

Theorem C31_error_partial : forall F, invertible F -> exists K : ix3 -> ix3 -> ix3 -> ix3 -> R,
  forall (SV : Type) (fw : Framework SV) W Dom, fw_gradient_of fw W Dom -> fw_hessian_of fw Dom ->
  Dom (distortional_part (cauchy_green F)) -> forall sv s, exists A T,
    returns (dis_hessian fw default_opts F sv) s (ElastFull A) /\
    (forall i j k l, Rabs (T i j k l - A i j k l) <= / 10 ^ 8 * K i j k l) /\
    (* T is the consistent tangent *)
    forall (Ft : R -> T2) t0 dF, Ft t0 = F -> dcurve2 Ft t0 dF ->
    forall svt st P,
      locally t0 (fun t => exists svn, returns (dis_gradient fw default_opts (Ft t) (svt t)) (st t) (StressFull (P t), svn)) ->
      dcurve2 P t0 (dc42 T dF).
Proof.
  intros F HF. exists (bound F). intros SV fw W Dom Hg Hh HD sv s.
  set (c0 := right_CG F). assert (P0 : det c0 > 0) by (apply pos_right_CG; exact HF).
  assert (D0 : Dom (astensor (seen KDistortional c0))) by (rewrite dist_part; unfold c0; rewrite right_CG_full; exact HD).
  assert (HC0 : dcurve6 (fun _ : R => c0) 0 (fun _ => 0)) by (intro v; exact (D_const _ 0)).
  destruct (fw_grad6 fw W Dom Hg _ 0 _ (seen_D _ 0 _ HC0 P0)) with (sv := sv) (s := sp_mat s) as (g & svn & E & _); [exact D0|].
  destruct (outcome_pair _ _ _ E) as [ms E1]. cbv beta in E1.
  destruct (fw_hess6 fw Dom Hh _ 0 _ (seen_D _ 0 _ HC0 P0)) with (sv := sv) (s := ms) as (H & EH & _); [exact D0|]. cbv beta in EH.
  set (S := astensor (kS KDistortional c0 g)).
  exists (t4add (legs13 F (astensor4 (kC4 KDistortional c0 g H))) (geo one2 S)), (t4add (legs13 F (astensor4 (dis_C4 c0 g H))) (geo one2 S)).
  split; [|split].
  - apply returns_outcome. change (dis_hessian fw) with (sp_hessian KDistortional fw).
    rewrite (sp_hessian_ok fw default_opts KDistortional F sv s _ _ ms E1). fold c0. rewrite EH, default_elast. reflexivity.
  - intros i j k l.
    destruct (allclose0 (mscal6 (4 * Rpower (det c0) (- 2 / 3)) H)) eqn:EA.
    + rewrite (dis_C4_dropped c0 g H EA). set (K4 := kC4 KDistortional c0 g H).
      replace (t4add (legs13 F (astensor4 (madd6 K4 (dropped c0 H)))) (geo one2 S) i j k l - t4add (legs13 F (astensor4 K4)) (geo one2 S) i j k l)
        with (legs13 F (astensor4 (dropped c0 H)) i j k l) by (unfold t4add, legs13, astensor4, madd6, sum3; ring).
      apply legs_bound. intros v w. apply dropped_bound; [exact (allclose_le _ EA)|]. apply Rlt_le, Rinv_0_lt_compat, pow_lt; lra.
    + rewrite (kC4_exact c0 g H (or_introl EA)). rewrite Rminus_diag_eq by reflexivity. rewrite Rabs_R0.
      apply Rmult_le_pos; [apply Rlt_le, Rinv_0_lt_compat, pow_lt; lra|].
      unfold bound, sum3. assert (B : forall v w, 0 <= bound66 (right_CG F) v w).
      { intros v w. unfold bound66, sum6. pose proof (fun x => Rabs_pos x) as A. pose proof weights_nn as B.
        repeat (apply Rplus_le_le_0_compat); repeat (apply Rmult_le_pos); try apply A; try apply B; repeat (apply Rplus_le_le_0_compat); repeat (apply Rmult_le_pos); try apply A; try apply B. }
      repeat apply Rplus_le_le_0_compat; repeat apply Rmult_le_pos; try apply Rabs_pos; apply B.
  - intros Ft t0 dF E0 HFt svt st P HP.
    assert (HC := right_CG_D Ft t0 dF HFt). assert (EC : right_CG (Ft t0) = c0) by (rewrite E0; reflexivity).
    assert (PC : det (right_CG (Ft t0)) > 0) by (rewrite EC; exact P0).
    assert (HS := seen_D _ t0 _ HC PC).
    assert (DC : Dom (astensor (seen KDistortional (right_CG (Ft t0))))) by (rewrite EC; exact D0).
    destruct (fw_hess6 fw Dom Hh _ t0 _ HS) with (sv := sv) (s := ms) as (H' & EH' & Hd); [exact DC|]. cbv beta in EH'. rewrite EC, EH in EH'. injection EH' as <-.
    set (G := fun t => fcall fw (seen KDistortional (right_CG (Ft t))) (svt t) (sp_mat (st t))).
    assert (L : locally t0 (fun t => (exists svn, outcome (fw_gradient fw (seen KDistortional (right_CG (Ft t))) (svt t)) (sp_mat (st t)) = Ok (G t, svn))
                      /\ P t = mmul (Ft t) (astensor (kS KDistortional (right_CG (Ft t)) (G t))))).
    { revert HP; apply filter_imp; intros t [svn' HR]. apply returns_outcome in HR.
      destruct (outcome (fw_gradient fw (seen KDistortional (right_CG (Ft t))) (svt t)) (sp_mat (st t))) as [[g' sv']|e] eqn:E'.
      - change (dis_gradient fw) with (sp_gradient KDistortional fw) in HR. rewrite (sp_gradient_ok fw default_opts _ _ _ _ _ _ E') in HR. rewrite default_stress in HR. injection HR as <- <-.
        unfold G, fcall. rewrite E'. eauto.
      - change (dis_gradient fw) with (sp_gradient KDistortional fw) in HR. rewrite (sp_gradient_raise fw default_opts _ _ _ _ _ E') in HR. discriminate. }
    assert (L1 : locally t0 (fun t => exists svn, outcome (fw_gradient fw (seen KDistortional (right_CG (Ft t))) (svt t)) (sp_mat (st t)) = Ok (G t, svn))) by (revert L; apply filter_imp; intros t [X _]; exact X).
    assert (EG : G t0 = g).
    { destruct (locally_singleton _ _ L1) as [svn' E']. rewrite EC in E'. exact (fw_grad_unique fw W Dom Hg _ D0 _ _ _ _ _ _ _ _ E' E). }
    assert (X := dis_S_D _ t0 _ G H HC PC (Hd svt (fun t => sp_mat (st t)) G L1)). cbv beta in X. rewrite EG, EC in X.
    assert (T := tangent_D Ft t0 dF _ _ HFt X). cbv beta in T. rewrite EG, EC, E0 in T. fold S in T.
    intros i j. apply D_ext_loc with (2 := T i j).
    revert L; apply filter_imp; intros t [_ ->]. reflexivity.
Qed.
Print Assumptions C31_error_partial.
(** The hypotheses are met, also by a material whose tangent is dropped (C31_tangent_refuted). *)
Example C31_error_example : forall c, 0 < c <= / 10 ^ 9 -> let fw := tod20 c in
  invertible (Fd 0) /\ fw_hessian_of fw invertible /\ invertible (distortional_part (cauchy_green (Fd 0))) /\
  exists W, fw_gradient_of fw W invertible.
Proof.
  intros c Hc fw. destruct (C31_tangent_refuted c Hc) as (G & H & _). split; [exact Fd_inv|]. split; [exact H|]. split; [exact (dist_inv _ Fd_inv)|].
  eexists. exact G.
Qed.
