(** C64: strong ellipticity (Legendre-Hadamard).  Vocabulary in EllSpec.v. *)
From Coq Require Import Reals Lra Lia.
From Coquelicot Require Import Coquelicot.
From Verif Require Import Tensor Py Voigt Models Frameworks Spaces Spec Algebra Calc VCalc InvCore ModelProofs VoigtProofs
  SpaceCore PiolaProofs DistProofs SpaceProofs SpaceMore Counter EigCore Spectral StrMore NDLinks2 PropInvariants PropSpaces PropPrincipal EllSpec EllProofs.
Local Open Scope R_scope.

(** AM-GM for the first invariant. *)
Lemma inv1_ge3 C : sym2 C -> posdef C -> 1 <= det3 C -> 3 <= inv1 C.
Proof.
  intros SY P Hd. destruct (spectral C SY) as [[w v] L]. cbn in L.
  pose proof (eig_invariants _ _ _ L) as E. pose proof (proj1 (eig_posdef _ _ _ L) P) as Hw.
  assert (E0 : inv1 C = w X0 + w X1 + w X2) by exact (f_equal (fun f => f X0) E).
  assert (E2 : det3 C = w X0 * w X1 * w X2) by exact (f_equal (fun f => f X2) E).
  rewrite E0. rewrite E2 in Hd. pose proof (Hw X0) as a. pose proof (Hw X1) as b. pose proof (Hw X2) as c.
  set (p := w X0 * w X1 * w X2) in *. assert (0 < p) by lra.
  assert (3 <= w X0 / p + w X1 + w X2).
  { apply amgm3; [apply Rdiv_lt_0_compat; assumption|assumption|assumption|]. unfold p. field. unfold p in *. repeat split; try lra. }
  assert (w X0 / p <= w X0); [|lra]. apply Rle_div_l; [assumption|]. nra.
Qed.
Lemma dist_ge3 F : invertible F -> 3 <= inv1 (distortional_part (cauchy_green F)).
Proof.
  intro HF. apply inv1_ge3.
  - rewrite <- right_CG_full, <- dist_part. apply astensor_sym.
  - unfold distortional_part. apply posdef_scal; [apply exp_pos|]. apply posdef_CG; exact HF.
  - rewrite <- right_CG_full, <- dist_part, seen_unimodular by auto. lra.
Qed.
Lemma cg_ge3 F : 1 <= det3 F ^ 2 -> 3 <= inv1 (cauchy_green F).
Proof.
  intro H. assert (HF : invertible F) by (intro Z; rewrite Z in H; lra).
  apply inv1_ge3; [apply cauchy_green_sym|apply posdef_CG; exact HF|rewrite det_cg; exact H].
Qed.

(** For every material: m_i N_J A_iJkL m_k N_L is the second derivative of the stored energy along
    the line F + t m x N, so A is elliptic iff the energy is (strictly) convex to second order in
    all such directions. *)
Theorem C64_second_derivative : forall (SV : Type) (fw : Framework SV) W Dom, fw_gradient_of fw W Dom -> fw_hessian_of fw Dom ->
  forall F m N, locally 0 (fun t => Dom (cauchy_green (line F (rank_one m N) t))) -> forall sv s, exists A,
    returns (def_hessian fw default_opts F sv) s (ElastFull A) /\
    is_derive (Derive (fun t => W (cauchy_green (line F (rank_one m N) t)))) 0 (acoustic A m N).
Proof.
  intros SV fw W Dom Hg Hh F m N L sv s. assert (D0 : Dom (cauchy_green F)) by (rewrite <- (line0 F (rank_one m N)); exact (locally_singleton _ _ L)).
  destruct (second_D _ _ _ _ _ (C25_stress SV fw W Dom Hg) (C26_tangent SV fw W Dom Hg Hh) F D0 sv s) as (A & R1 & H).
  exists A. split; [exact R1|]. rewrite acoustic_dc. exact (H (rank_one m N) L).
Qed.
Print Assumptions C64_second_derivative.
Theorem C64_second_derivative_distortional : forall (SV : Type) (fw : Framework SV) W Dom, fw_gradient_of fw W Dom -> fw_hessian_of fw Dom ->
  forall F m N, locally 0 (fun t => Dom (distortional_part (cauchy_green (line F (rank_one m N) t)))) ->
  invertible F -> significant_at fw F -> forall sv s, exists A,
    returns (dis_hessian fw default_opts F sv) s (ElastFull A) /\
    is_derive (Derive (fun t => W (distortional_part (cauchy_green (line F (rank_one m N) t))))) 0 (acoustic A m N).
Proof.
  intros SV fw W Dom Hg Hh F m N L HF Sg sv s. assert (D0 : Dom (distortional_part (cauchy_green F))) by (rewrite <- (line0 F (rank_one m N)); exact (locally_singleton _ _ L)).
  destruct (second_D _ _ _ _ _ (C30_stress SV fw W Dom Hg) (C31_tangent_partial SV fw W Dom Hg Hh) F (conj HF (conj D0 Sg)) sv s) as (A & R1 & H).
  exists A. split; [exact R1|]. rewrite acoustic_dc. apply (H (rank_one m N)).
  generalize (filter_and _ _ (line_inv F m N HF) L). apply filter_imp. intros t [a b]. split; assumption.
Qed.
Print Assumptions C64_second_derivative_distortional.

(** Deformation: Mooney-Rivlin at every deformation, also with the terms C20 and C30 of Yeoh's model at
    deformations that do not reduce the volume (or with strain=True). *)
Theorem C64_deformation : forall (SV : Type) c10 c01 c20 c30 (strain : bool) F,
  0 <= c10 -> 0 <= c01 -> 0 < c10 + c01 -> 0 <= c20 -> 0 <= c30 -> invertible F ->
  (c20 = 0 /\ c30 = 0) \/ strain = true \/ 1 <= det3 F ^ 2 ->
  elliptic (def_hessian (invariants_fw (tod_model (SV:=SV) (tod_init c10 c01 0 c20 c30 strain))) default_opts) F.
Proof.
  intros SV c10 c01 c20 c30 strain F H1 H2 H12 H3 H4 HF Hu sv s.
  destruct (def_acoustic SV c10 c01 0 c20 c30 strain F HF sv s) as (A & R1 & HA). exists A. split; [exact R1|].
  intros m N Hm HN. specialize (HA m N). cbv zeta in HA. rewrite HA. clear HA R1.
  pose proof (rank_one_pos m N Hm HN) as P1. pose proof (dcof_pos F m N HF Hm HN) as P2.
  set (G := dc22 (rank_one m N) (rank_one m N)) in *. set (D := dc22 (dcof F (rank_one m N)) _) in *.
  set (b := (2 * dc22 F (rank_one m N)) ^ 2). assert (0 <= b) by apply pow2_ge_0.
  set (x := inv1 (cauchy_green F) - (if strain then 0 else 3)).
  assert (X : (c20 = 0 /\ c30 = 0) \/ 0 <= x).
  { destruct Hu as [Hu|[Hu|Hu]]; [left; exact Hu|right|right]; unfold x.
    - rewrite Hu. pose proof (inv1_pos F HF). lra.
    - pose proof (cg_ge3 F Hu). destruct strain; lra. }
  assert (T1 : c10 <= tod1 c10 0 c20 c30 (if strain then 0 else 3) (inv1 (cauchy_green F)) (inv2 (cauchy_green F))).
  { unfold tod1. fold x. pose proof (pow2_ge_0 x). destruct X as [[-> ->]|X]; [lra|]. assert (0 <= c20 * x) by (apply Rmult_le_pos; assumption).
    assert (0 <= c30 * x ^ 2) by (apply Rmult_le_pos; assumption). lra. }
  assert (T2 : 0 <= tod11 c20 c30 (if strain then 0 else 3) (inv1 (cauchy_green F))).
  { unfold tod11. fold x. destruct X as [[-> ->]|X]; [lra|]. assert (0 <= c30 * x) by (apply Rmult_le_pos; assumption). lra. }
  revert T1 T2. generalize (tod1 c10 0 c20 c30 (if strain then 0 else 3) (inv1 (cauchy_green F)) (inv2 (cauchy_green F))), (tod11 c20 c30 (if strain then 0 else 3) (inv1 (cauchy_green F))).
  intros t1 t2 T1 T2. assert (0 <= t2 * b) by (apply Rmult_le_pos; assumption).
  assert (c10 * G <= t1 * G) by (apply Rmult_le_compat_r; lra). assert (0 <= c10 * G) by (apply Rmult_le_pos; lra). assert (0 <= c01 * D) by (apply Rmult_le_pos; lra).
  assert (0 < c10 * G + c01 * D).
  { destruct (Rle_lt_dec c10 0) as [Z|Z].
    - assert (0 < c01 * D) by (apply Rmult_lt_0_compat; lra). lra.
    - assert (0 < c10 * G) by (apply Rmult_lt_0_compat; lra). lra. }
  lra.
Qed.
Print Assumptions C64_deformation.

(** Distortional: Neo-Hooke and Yeoh at every invertible deformation gradient; also if np.allclose
    drops the material's part of the tangent (C31). *)
Theorem C64_distortional : forall (SV : Type) c10 c20 c30 (strain : bool) F,
  0 < c10 -> 0 <= c20 -> 0 <= c30 -> invertible F ->
  elliptic (dis_hessian (invariants_fw (tod_model (SV:=SV) (tod_init c10 0 0 c20 c30 strain))) default_opts) F.
Proof.
  intros SV c10 c20 c30 strain F H1 H2 H3 HF sv s.
  destruct (yeoh_acoustic SV c10 c20 c30 strain F HF sv s) as (A & R1 & HA). exists A. split; [exact R1|].
  intros m N Hm HN. specialize (HA m N). cbv zeta in HA. rewrite HA. clear HA R1.
  assert (X : 0 <= inv1 (distortional_part (cauchy_green F)) - (if strain then 0 else 3)) by (pose proof (dist_ge3 F HF); destruct strain; lra).
  set (u := if strain then 0 else 3) in *. set (y := inv1 (distortional_part (cauchy_green F))) in *.
  assert (T1 : 0 < tod1 c10 0 c20 c30 u y 0).
  { unfold tod1. assert (0 <= c20 * (y - u)) by (apply Rmult_le_pos; assumption). assert (0 <= c30 * (y - u) ^ 2) by (apply Rmult_le_pos; [assumption|apply pow2_ge_0]). lra. }
  assert (T2 : 0 <= tod11 c20 c30 u y).
  { unfold tod11. assert (0 <= c30 * (y - u)) by (apply Rmult_le_pos; assumption). lra. }
  assert (P : 0 < d2y (det3 F) (dc22 (cof F) (rank_one m N)) (inv1 (cauchy_green F)) (dc22 F (rank_one m N)) (dc22 (rank_one m N) (rank_one m N))).
  { apply d2y_pos; [apply rank_one_pos; assumption|apply inv1_pos; exact HF|]. rewrite inv1_cg. apply dc22_cs. }
  assert (0 < tod1 c10 0 c20 c30 u y 0 * d2y (det3 F) (dc22 (cof F) (rank_one m N)) (inv1 (cauchy_green F)) (dc22 F (rank_one m N)) (dc22 (rank_one m N) (rank_one m N))) by (apply Rmult_lt_0_compat; assumption).
  destruct (dropped_at _ F); [lra|]. match goal with |- context [tod11 c20 c30 u y * ?x] => assert (0 <= tod11 c20 c30 u y * x) by (apply Rmult_le_pos; [assumption|apply pow2_ge_0]) end. lra.
Qed.
Print Assumptions C64_distortional.

(** The restriction in C64_deformation is needed: with c10 < 9/2 c20 a body compressed to half its
    length in all directions is not elliptic. *)
Theorem C64_deformation_refuted : forall (SV : Type) c10 c20, 0 < c20 -> c10 < 9 / 2 * c20 ->
  invertible (mscal (1/2) one2) /\
  not_elliptic (def_hessian (invariants_fw (tod_model (SV:=SV) (tod_init c10 0 0 c20 0 false))) default_opts) (mscal (1/2) one2).
Proof.
  intros SV c10 c20 H1 H2. assert (HF : invertible (mscal (1/2) one2)) by (unfold invertible, det3, mscal, one2, delta; cbn; lra).
  split; [exact HF|]. intros sv s. destruct (def_acoustic SV c10 0 0 c20 0 false _ HF sv s) as (A & R1 & HA). exists A. split; [exact R1|].
  set (m := fun i => match i with X0 => 1 | _ => 0 end : R). set (N := fun i => match i with X1 => 1 | _ => 0 end : R).
  exists m, N. split; [exists X0; cbn; lra|]. split; [exists X1; cbn; lra|]. rewrite HA. cbv zeta.
  unfold tod1, tod11, dc22, rank_one, inv1, tr2, cauchy_green, mmul, mtr, mscal, one2, delta, m, N, sum3. cbn. lra.
Qed.
Print Assumptions C64_deformation_refuted.

(** In Distortional the C01 term loses ellipticity: a bar held at fixed width and stretched to three
    times its length. *)
Definition F_bar : T2 := diag3 (fun k => match k with X2 => 3 | _ => 1 end).
Definition e3 : Vec3 := fun k => match k with X2 => 1 | _ => 0 end.
Lemma Rpower_third_lo : 48 / 100 < Rpower 9 (-1/3).
Proof.
  apply Rnot_le_lt. intro H. assert (E : Rpower 9 (-1/3) ^ 3 = / 9).
  { rewrite <- Rpower_pow by apply exp_pos. rewrite Rpower_mult. replace (-1 / 3 * INR 3) with (- (1)) by (cbn; field). rewrite Rpower_Ropp, Rpower_1 by lra. reflexivity. }
  assert (0 < Rpower 9 (-1/3)) by apply exp_pos. assert (Rpower 9 (-1/3) ^ 3 <= (48/100) ^ 3) by (apply pow_incr; lra). rewrite E in H1. lra.
Qed.
Theorem C64_distortional_refuted : forall (SV : Type) c10 c01, 0 <= c10 -> / 10 ^ 7 <= c01 -> 15 * c10 <= c01 ->
  invertible F_bar /\
  not_elliptic (dis_hessian (invariants_fw (tod_model (SV:=SV) (tod_init c10 c01 0 0 0 false))) default_opts) F_bar.
Proof.
  intros SV c10 c01 H0 H1 H2. assert (HF : invertible F_bar) by (unfold invertible, det3, F_bar, diag3; cbn; lra).
  split; [exact HF|]. intros sv s. set (m := tod_init c10 c01 0 0 0 false).
  assert (DC : det3 (cauchy_green F_bar) = 9) by (rewrite det_cg; unfold det3, F_bar, diag3; cbn; lra).
  set (j0 := Rpower 9 (-1/3)). assert (J0 : 48 / 100 < j0) by apply Rpower_third_lo.
  assert (J2 : Rpower 9 (-2/3) = j0 ^ 2).
  { unfold j0. rewrite <- Rpower_pow by apply exp_pos. rewrite Rpower_mult. f_equal. cbn; field. }
  assert (C0 : 0 < c01) by (pose proof (pow_lt 10 7 ltac:(lra)); pose proof (Rinv_0_lt_compat _ H); lra).
  assert (Sg : significant_at (invariants_fw (tod_model (SV:=SV) m)) F_bar).
  { intros sv' s' H E. right. exists V0, V1. rewrite (proj2 (tod_plain m _ sv' s')) in E. injection E as <-.
    rewrite DC, J2. unfold H_tod, m, tod_init. cbn [C10 C01 C11 C20 C30 undeformed Jv dJv d2Jv]. unfold mzero, msub6, dya, cdya1, cdya, eye; cbn.
    match goal with |- _ < Rabs ?x => replace x with (4 * j0 ^ 2 * c01) by field end.
    assert (23 / 100 < j0 ^ 2) by nra. assert (0 < c01) by assumption.
    rewrite Rabs_right; [|apply Rle_ge; apply Rmult_le_pos; nra].
    match goal with |- ?a < _ => replace a with (/ 10 * / 10 ^ 7) by (cbn; field) end. assert (0 < / 10 ^ 7) by (apply Rinv_0_lt_compat; apply pow_lt; lra). nra. }
  destruct (second _ _ _ _ _ (C30_third_order_deformation SV c10 c01 0 0 0 false)
    (C31_tangent_partial SV _ _ invertible (C14_third_order_deformation SV c10 c01 0 0 0 false) (C15_third_order_deformation _ _)) F_bar
    (conj HF (conj (dist_inv _ HF) Sg)) sv s) as (A & R1 & HA).
  exists A. split; [exact R1|]. exists e3, e3. split; [exists X2; cbn; lra|]. split; [exists X2; cbn; lra|].
  rewrite acoustic_dc.
  set (j := fun t : R => Rpower ((3 + t * 1) ^ 2) (-1/3)).
  set (y := fun t : R => j t * (11 + 2 * 3 * t + 1 * t ^ 2)). set (y1 := dy 3 1 11 3 1). set (y2 := d2y 3 1 11 3 1).
  set (z := fun t : R => j t * j t * (19 + 12 * t + 2 * t ^ 2)).
  set (z1 := fun t : R => j t * j t * (- (4 / 3) * (1 / (3 + t * 1)) * (19 + 12 * t + 2 * t ^ 2) + (12 + 4 * t))).
  set (z2 := - (8 / 81) * j0 ^ 2).
  assert (j00 : j 0 = j0) by (unfold j, j0; f_equal; ring).
  assert (N3 : (3:R) <> 0) by lra.
  assert (Hjj : forall t, 3 + t * 1 <> 0 -> is_derive (fun t => j t * j t) t (- (4 / 3) * (1 / (3 + t * 1)) * (j t * j t))).
  { intros t Nt. assert (D : is_derive j t (- (2 / 3) * (1 / (3 + t * 1)) * j t)) by exact (j_D 3 1 t Nt). refine (D_eq _ _ _ _ (D_mult j j t _ _ D D) _). clearbody j. field. clear - Nt; lra. }
  rewrite (HA (rank_one e3 e3) (line_inv F_bar e3 e3 HF) (fun t => c10 * y1 t + c01 * z1 t) (c10 * y2 + c01 * z2)).
  - unfold y2, z2, d2y. replace (Rpower ((3 + 0 * 1) ^ 2) (-1 / 3)) with j0 by (symmetry; exact j00).
    assert (0 < j0) by lra. assert (c10 * j0 * 56 < c01 * j0 ^ 2 * 8); [|nra].
    assert (c10 * 7 < c01 * j0); [|nra]. nra.
  - generalize (near_p 3 1 N3). apply filter_imp. intros t Ht. cbv zeta.
    assert (Dy : is_derive y t (y1 t)) by exact (y_D 3 1 11 3 1 t Ht).
    assert (Dz : is_derive z t (z1 t)).
    { refine (D_eq _ _ _ _ (D_mult (fun t => j t * j t) (fun t => 19 + 12 * t + 2 * t ^ 2) t _ (12 + 4 * t) (Hjj t Ht) _) _); [auto_derive; [exact Logic.I|ring]|unfold z1; ring]. }
    apply (is_derive_ext (fun t => c10 * (y t - 3) + c01 * (z t - 3))).
    + intro x. rewrite inv1_dist, inv2_dist, det_line, inv1_line, inv2_line.
      replace (det3 F_bar + x * dc22 (cof F_bar) (rank_one e3 e3)) with (3 + x * 1) by (unfold det3, dc22, cof, rank_one, F_bar, e3, diag3, sum3; cbn; ring).
      fold j. change (Rpower ((3 + x * 1) ^ 2) (-1 / 3)) with (j x).
      replace (inv1 (cauchy_green F_bar)) with 11 by (unfold inv1, tr2, cauchy_green, mmul, mtr, F_bar, diag3, sum3; cbn; ring).
      replace (inv2 (cauchy_green F_bar)) with 19 by (rewrite inv2_cof; unfold dc22, cof, F_bar, diag3, sum3; cbn; ring).
      replace (dc22 F_bar (rank_one e3 e3)) with 3 by (unfold dc22, rank_one, F_bar, e3, diag3, sum3; cbn; ring).
      replace (dc22 (rank_one e3 e3) (rank_one e3 e3)) with 1 by (unfold dc22, rank_one, e3, sum3; cbn; ring).
      replace (dc22 (cof F_bar) (dcof F_bar (rank_one e3 e3))) with 6 by (unfold dc22, dcof, cof, rank_one, F_bar, e3, diag3, sum3; cbn; ring).
      replace (dc22 (dcof F_bar (rank_one e3 e3)) (dcof F_bar (rank_one e3 e3))) with 2 by (unfold dc22, dcof, cof, rank_one, F_bar, e3, diag3, sum3; cbn; ring).
      unfold y, z. generalize (j x). intro jx. match goal with |- ?l = ?r => change (@eq R l r) end. ring.
    + refine (D_eq _ _ _ _ (D_plus (fun t => c10 * (y t - 3)) (fun t => c01 * (z t - 3)) t (c10 * y1 t) (c01 * z1 t) _ _) _); [| |reflexivity].
      * refine (D_eq _ _ _ _ (D_scal (fun t => y t - 3) c10 t _ (D_minus y (fun _ => 3) t _ _ Dy (D_const 3 t))) _). ring.
      * refine (D_eq _ _ _ _ (D_scal (fun t => z t - 3) c01 t _ (D_minus z (fun _ => 3) t _ _ Dz (D_const 3 t))) _). ring.
  - refine (D_plus (fun t => c10 * y1 t) (fun t => c01 * z1 t) 0 _ _ (D_scal y1 c10 0 _ (dy_D 3 1 11 3 1 N3)) (D_scal z1 c01 0 _ _)).
    assert (N0 : 3 + 0 * 1 <> 0) by lra.
    refine (D_eq _ _ _ _ (D_mult (fun t => j t * j t) (fun t => - (4 / 3) * (1 / (3 + t * 1)) * (19 + 12 * t + 2 * t ^ 2) + (12 + 4 * t)) 0 _ (- (4/3) * (- / 9 * 19 + / 3 * 12) + 4) (Hjj 0 N0) _) _).
    + auto_derive; [lra|]. field.
    + cbv beta. rewrite j00. unfold z2. field.
Qed.
Print Assumptions C64_distortional_refuted.

(** ** Concrete cases *)
Example C64_example : let fw := invariants_fw (tod_model (SV:=unit) (tod_init (1/2) 0 0 (1/10) (1/100) false)) in
  invertible F_shear /\ 1 <= det3 F_shear ^ 2 /\ nonzero3 e3 /\
  (exists A, returns (dis_hessian fw default_opts F_shear tt) (space_self0 fw inv_self0) (ElastFull A) /\ 0 < acoustic A e3 e3) /\
  (exists A, returns (def_hessian fw default_opts F_shear tt) (space_self0 fw inv_self0) (ElastFull A) /\ 0 < acoustic A e3 e3).
Proof.
  intro fw. assert (HF : invertible F_shear) by (unfold invertible, det3, F_shear, delta; cbn; lra).
  assert (D : 1 <= det3 F_shear ^ 2) by (unfold det3, F_shear, delta; cbn; lra).
  assert (E : nonzero3 e3) by (exists X2; cbn; lra).
  split; [exact HF|]. split; [exact D|]. split; [exact E|]. split.
  - destruct (C64_distortional unit (1/2) (1/10) (1/100) false F_shear ltac:(lra) ltac:(lra) ltac:(lra) HF tt (space_self0 fw inv_self0)) as (A & R1 & H). exists A. split; [exact R1|apply H; exact E].
  - destruct (C64_deformation unit (1/2) 0 (1/10) (1/100) false F_shear ltac:(lra) ltac:(lra) ltac:(lra) ltac:(lra) ltac:(lra) HF (or_intror (or_intror D)) tt (space_self0 fw inv_self0)) as (A & R1 & H). exists A. split; [exact R1|apply H; exact E].
Qed.
