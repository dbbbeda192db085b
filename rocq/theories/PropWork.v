(** * Property C51: energy balance (work done = energy stored). *)
From Coq Require Import Reals Lra List FunctionalExtensionality.
From Coquelicot Require Import Coquelicot.
From Verif Require Import Tensor Py Voigt VoigtProofs Algebra Calc Models Frameworks Spaces Spec WorkSpec VCalc ModelProofs GenProofs
  InvCore InvProofs IsoProofs SpaceCore PiolaProofs SpaceProofs DistProofs SpecialProofs StrMore StrRoutes Counter Dilatational Lab LabSpec LabMech LabCurves
  WorkProofs WorkLab PropInvariants PropStretches PropSpaces PropLab NDLinks2.
Import ListNotations.
Local Open Scope R_scope.

(** ** The general statement: any framework whose gradient is that of W and varies smoothly, the
    spaces Deformation and Distortional, any motion, any state variables and attribute values. *)
Theorem C51_work_partial : forall (SV : Type) (fw : Framework SV) k W Dom F dF P sv st lo hi a b, k <> KDilatational ->
  fw_gradient_of fw W Dom -> smooth_gradient fw Dom ->
  motion F dF lo hi -> (forall t, lo < t < hi -> invertible (F t) /\ Dom (sees k (cauchy_green (F t)))) ->
  stress_along (sp_gradient k fw default_opts) sv st F P lo hi ->
  lo < a < hi -> lo < b < hi ->
  is_RInt (power P dF) a b (W (sees k (cauchy_green (F b))) - W (sees k (cauchy_green (F a)))).
Proof. exact (fun SV fw k W Dom F dF P sv st lo hi a b K HG HS HM HD HP => work fw k K W Dom HG HS F dF P sv st lo hi HM HD HP a b). Qed.
Print Assumptions C51_work_partial.
(** A closed cycle costs no work; two motions between the same end points need the same work. *)
Theorem C51_closed_motion : forall (SV : Type) (fw : Framework SV) k W Dom F dF P sv st lo hi a b, k <> KDilatational ->
  fw_gradient_of fw W Dom -> smooth_gradient fw Dom ->
  motion F dF lo hi -> (forall t, lo < t < hi -> invertible (F t) /\ Dom (sees k (cauchy_green (F t)))) ->
  stress_along (sp_gradient k fw default_opts) sv st F P lo hi ->
  lo < a < hi -> lo < b < hi -> (forall i j, F a i j = F b i j) -> is_RInt (power P dF) a b 0.
Proof.
  intros SV fw k W Dom F dF P sv st lo hi a b K HG HS HM HD HP Ia Ib E.
  replace 0 with (W (sees k (cauchy_green (F b))) - W (sees k (cauchy_green (F a)))).
  - exact (C51_work_partial SV fw k W Dom F dF P sv st lo hi a b K HG HS HM HD HP Ia Ib).
  - replace (F b) with (F a) by (apply T2_ext; exact E). ring.
Qed.
Print Assumptions C51_closed_motion.
Theorem C51_path_independent : forall (SV : Type) (fw : Framework SV) k W Dom F dF P sv st F' dF' P' sv' st' lo hi a b, k <> KDilatational ->
  fw_gradient_of fw W Dom -> smooth_gradient fw Dom ->
  motion F dF lo hi -> (forall t, lo < t < hi -> invertible (F t) /\ Dom (sees k (cauchy_green (F t)))) ->
  motion F' dF' lo hi -> (forall t, lo < t < hi -> invertible (F' t) /\ Dom (sees k (cauchy_green (F' t)))) ->
  stress_along (sp_gradient k fw default_opts) sv st F P lo hi ->
  stress_along (sp_gradient k fw default_opts) sv' st' F' P' lo hi ->
  lo < a < hi -> lo < b < hi -> (forall i j, F a i j = F' a i j) -> (forall i j, F b i j = F' b i j) ->
  RInt (power P dF) a b = RInt (power P' dF') a b.
Proof.
  intros SV fw k W Dom F dF P sv st F' dF' P' sv' st' lo hi a b K HG HS HM HD HM' HD' HP HP' Ia Ib Ea Eb.
  rewrite (is_RInt_unique _ _ _ _ (C51_work_partial SV fw k W Dom F dF P sv st lo hi a b K HG HS HM HD HP Ia Ib)).
  rewrite (is_RInt_unique _ _ _ _ (C51_work_partial SV fw k W Dom F' dF' P' sv' st' lo hi a b K HG HS HM' HD' HP' Ia Ib)).
  replace (F' b) with (F b) by (apply T2_ext; exact Eb). replace (F' a) with (F a) by (apply T2_ext; exact Ea). reflexivity.
Qed.
Print Assumptions C51_path_independent.
(** The stress never jumps along a motion. *)
Theorem C51_continuous_stress : forall (SV : Type) (fw : Framework SV) k W Dom F dF P sv st lo hi, k <> KDilatational ->
  fw_gradient_of fw W Dom -> smooth_gradient fw Dom ->
  motion F dF lo hi -> (forall t, lo < t < hi -> invertible (F t) /\ Dom (sees k (cauchy_green (F t)))) ->
  stress_along (sp_gradient k fw default_opts) sv st F P lo hi ->
  forall t i j, lo < t < hi -> continuous (fun u => P u i j) t.
Proof.
  intros SV fw k W Dom F dF P sv st lo hi K HG HS HM HD HP t i j I. apply ContR.cont_continuous.
  exact (stress_cont fw k K Dom HS F dF P sv st lo hi HM HD HP t i j I).
Qed.
Print Assumptions C51_continuous_stress.

(** ** The hypotheses hold for the shipped models: gradient smooth ... *)
Theorem C51_smooth_invariants : forall (SV : Type) (m : TOD), smooth_gradient (invariants_fw (tod_model (SV:=SV) m)) invertible.
Proof. exact (fun SV m => hessian_smooth _ _ (C15_third_order_deformation SV m)). Qed.
Print Assumptions C51_smooth_invariants.
(** ... also where principal stretches coincide or are closer than the tolerance inside the hessian. *)
Theorem C51_smooth_stretches : forall (SV : Type) lapack (m : StretchModel SV) psi Dom, lapack_legal lapack ->
  symmetric_fn psi -> curve_open Dom -> str_gradient_of m psi Dom -> str_hessian_of m Dom ->
  smooth_gradient (stretches_fw lapack m) (stretch_dom Dom).
Proof.
  intros SV lapack m psi Dom HL Hs Ho HG HH C t0 dC S HC D svt st G HGt.
  destruct (C19_hessian_error SV lapack m psi Dom HL Hs Ho HG HH C t0 dC S HC D (svt t0) (st t0)) as (H0 & _ & X).
  destruct (X svt st G HGt) as (dG & DG & _). exists dG. exact DG.
Qed.
Print Assumptions C51_smooth_stretches.

(** ** End to end.  [stress_along] can always be satisfied: gradient returns all along the motion. *)
Lemma along {SV X} (grad : T2 -> SV -> PY X (StressOut * SV)) W Dom F dF sv st lo hi : sp_gradient_of grad W Dom ->
  motion F dF lo hi -> (forall t, lo < t < hi -> Dom (F t)) -> exists P, stress_along grad sv st F P lo hi.
Proof.
  intros H HM HD. exists (fun t => match outcome (grad (F t) (sv t)) (st t) with Ok (StressFull P, _) => P | _ => one2 end).
  intros t I. destruct (H F t (dF t) (proj1 (HM t I)) (HD t I) (sv t) (st t)) as (P & svn & (s' & E) & _).
  exists svn, s'. unfold outcome. rewrite E. reflexivity.
Qed.
Lemma sees_inv k F : k <> KDilatational -> invertible F -> invertible (sees k (cauchy_green F)).
Proof. intros K N. destruct k; [apply cg_inv|apply dist_inv|contradiction]; exact N. Qed.
Lemma sees_posdef k F : k <> KDilatational -> invertible F -> posdef (sees k (cauchy_green F)).
Proof. intros K N. pose proof (posdef_seen k F N) as P. rewrite (seen_sees k K) in P. exact P. Qed.
Lemma space_total {SV} (fw : Framework SV) k W Dom : k <> KDilatational -> fw_gradient_of fw W Dom ->
  exists W', sp_gradient_of (sp_gradient k fw default_opts) W' (fun F => invertible F /\ Dom (sees k (cauchy_green F))).
Proof.
  intros K H. destruct k; [| |contradiction]; eexists; intros F t0 dF HF [N D].
  - exact (C25_stress _ fw W Dom H F t0 dF HF D).
  - exact (C30_stress _ fw W Dom H F t0 dF HF (conj N D)).
Qed.
Lemma end_to_end {SV} (fw : Framework SV) k W Dom F dF sv st lo hi a b : k <> KDilatational ->
  fw_gradient_of fw W Dom -> smooth_gradient fw Dom -> motion F dF lo hi ->
  (forall t, lo < t < hi -> invertible (F t) /\ Dom (sees k (cauchy_green (F t)))) ->
  lo < a < hi -> lo < b < hi ->
  exists P, stress_along (sp_gradient k fw default_opts) sv st F P lo hi /\
    is_RInt (power P dF) a b (W (sees k (cauchy_green (F b))) - W (sees k (cauchy_green (F a)))).
Proof.
  intros K HG HS HM HD Ia Ib. destruct (space_total fw k W Dom K HG) as [W' HW].
  destruct (along _ W' _ F dF sv st lo hi HW HM HD) as [P HP]. exists P. split; [exact HP|].
  exact (work fw k K W Dom HG HS F dF P sv st lo hi HM HD HP a b Ia Ib).
Qed.
Theorem C51_third_order_deformation : forall (SV : Type) c10 c01 c11 c20 c30 (strain : bool) k F dF sv st lo hi a b, k <> KDilatational ->
  motion F dF lo hi -> (forall t, lo < t < hi -> invertible (F t)) -> lo < a < hi -> lo < b < hi ->
  let fw := invariants_fw (tod_model (SV:=SV) (tod_init c10 c01 c11 c20 c30 strain)) in
  let u := if strain then 0 else 3 in
  let W C := c10 * (inv1 C - u) + c01 * (inv2 C - u) + c11 * ((inv1 C - u) * (inv2 C - u)) + c20 * (inv1 C - u) ^ 2 + c30 * (inv1 C - u) ^ 3 in
  exists P, stress_along (sp_gradient k fw default_opts) sv st F P lo hi /\
    is_RInt (power P dF) a b (W (sees k (cauchy_green (F b))) - W (sees k (cauchy_green (F a)))).
Proof.
  intros SV c10 c01 c11 c20 c30 strain k F dF sv st lo hi a b K HM HD Ia Ib fw u W.
  apply (end_to_end fw k W invertible F dF sv st lo hi a b K (C14_third_order_deformation SV c10 c01 c11 c20 c30 strain) (C51_smooth_invariants SV _) HM); auto.
  intros t I. split; [auto|]. apply sees_inv; auto.
Qed.
Print Assumptions C51_third_order_deformation.
Theorem C51_ogden : forall (SV : Type) lapack mu alpha W k F dF sv st lo hi a b, lapack_legal lapack -> k <> KDilatational ->
  (forall m a, In (m, a) (combine mu alpha) -> a <> 0) ->
  (forall C w v, eig_legal C w v -> W C =
    fold_right (fun t s => 2 * fst t / snd t ^ 2 *
        (Rpower (sqrt (w X0)) (snd t) + Rpower (sqrt (w X1)) (snd t) + Rpower (sqrt (w X2)) (snd t) - 3) + s) 0 (combine mu alpha)) ->
  motion F dF lo hi -> (forall t, lo < t < hi -> invertible (F t)) -> lo < a < hi -> lo < b < hi ->
  let fw := stretches_fw lapack (ogden_model (SV:=SV) {| og_mu := mu; og_alpha := alpha |}) in
  exists P, stress_along (sp_gradient k fw default_opts) sv st F P lo hi /\
    is_RInt (power P dF) a b (W (sees k (cauchy_green (F b))) - W (sees k (cauchy_green (F a)))).
Proof.
  intros SV lapack mu alpha W k F dF sv st lo hi a b HL K HA HW HM HD Ia Ib fw.
  apply (end_to_end fw k W posdef F dF sv st lo hi a b K); auto.
  - apply C18_ogden; auto.
  - intros C t0 dC S HC P svt st' G HGt.
    refine (C51_smooth_stretches SV lapack _ (ogden_psi mu alpha) positive3 HL (ogden_symmetric mu alpha) positive_curve (ogden_grad' mu alpha HA)
      (ogden_hess {| og_mu := mu; og_alpha := alpha |} HA) C t0 dC S HC (stretch_dom_positive _ P) svt st' G HGt).
  - intros t I. split; [auto|]. apply sees_posdef; auto.
Qed.
Print Assumptions C51_ogden.
Theorem C51_generalized_third_order_deformation : forall (SV : Type) lapack md fs c E E' E'' psi W k F dF sv st lo hi a b, lapack_legal lapack -> k <> KDilatational ->
  measure_of fs E E' E'' -> inv_gradient_of (tod_model (SV:=SV) md) psi everywhere -> stretch_energy (fun l => psi (gen_invariants E c l)) W ->
  motion F dF lo hi -> (forall t, lo < t < hi -> invertible (F t)) -> lo < a < hi -> lo < b < hi ->
  let fw := stretches_fw lapack (gen_model (tod_model (SV:=SV) md) fs c) in
  exists P, stress_along (sp_gradient k fw default_opts) sv st F P lo hi /\
    is_RInt (power P dF) a b (W (sees k (cauchy_green (F b))) - W (sees k (cauchy_green (F a)))).
Proof.
  intros SV lapack md fs c E E' E'' psi W k F dF sv st lo hi a b HL K HM Hpsi HW HMo HD Ia Ib fw.
  destruct (gen_tod_grad (SV:=SV) md fs E E' E'' c HM) as (psi' & Hs & HG).
  apply (end_to_end fw k W posdef F dF sv st lo hi a b K); auto.
  - exact (C18_generalized SV lapack _ fs c E E' E'' psi W HL HM Hpsi HW).
  - intros C t0 dC S HC P svt st' G HGt.
    exact (C51_smooth_stretches SV lapack _ psi' positive3 HL Hs positive_curve HG (gen_tod_hess md fs E E' E'' c HM) C t0 dC S HC (stretch_dom_positive _ P) svt st' G HGt).
  - intros t I. split; [auto|]. apply sees_posdef; auto.
Qed.
Print Assumptions C51_generalized_third_order_deformation.

(** ** The lab: the area under a simulated force-stretch curve is the stored energy.  [f] is the
    curve: f x is what the simulation returns for the stretch x. *)
Theorem C51_uniaxial_area : forall (SV : Type) sim p k (none : SV) fw W Dom f lo hi a b,
  simulates sim p uniaxial k none fw -> incompressible_kind k -> fw_gradient_of fw W Dom -> isotropic_gradient fw Dom -> smooth_gradient fw Dom ->
  0 <= lo -> (forall x, lo < x < hi -> Dom (cauchy_green (uniaxial x))) ->
  (forall x, lo < x < hi -> stress_curve_fit sim [x] p = Ok [f x]) -> lo < a < hi -> lo < b < hi ->
  is_RInt f a b (W (cauchy_green (uniaxial b)) - W (cauchy_green (uniaxial a))).
Proof.
  intros SV sim p k none fw W Dom f lo hi a b (L & s & E) K HG HI HS P D Hf Ia Ib.
  assert (Hp : forall t, lo < t < hi -> point_stress (si_loadcase sim) (space_material none fw s (sp_gradient k fw default_opts)) t = Ok (f t)).
  { intros t I. exact (one_point sim p t (f t) _ E (Hf t I)). }
  apply (is_RInt_ext (fun t => 1 * f t)); [intros; apply Rmult_1_l|].
  apply (curve_area fw Dom HS k K (si_loadcase sim) none s (fun t => t) (fun t => 1 / sqrt t) (fun t => 1 / sqrt t) lo hi) with (w := fun t => W (cauchy_green (uniaxial t))); auto.
  - intros t I. rewrite L, <- uniaxial_dg. split; [reflexivity|]. split; [|apply D; exact I].
    rewrite Rmult_assoc, sqrt_inv2 by lra. field. lra.
  - intros t I. assert (Pt : 0 < t) by lra. pose proof (sqrt_lt_R0 t Pt).
    assert (Ds : is_derive (fun t => 1 / sqrt t) t (- (1 / sqrt t) ^ 3 / 2)).
    { eapply D_eq. apply D_ext with (fun t => / sqrt t); [intro; unfold Rdiv; ring|].
      apply (D_inv (fun t => sqrt t) t). exact (D_sqrt (fun t => t) t 1 (D_id t) Pt). lra. cbv beta. field. lra. }
    eexists _, _, _. split; [exact (D_id t)|split; exact Ds].
  - intros t I. destruct (uniaxial_D fw W Dom HG HI k (si_loadcase sim) t none s K L ltac:(lra) (D t I)) as (g & Eg & Dg).
    rewrite (Hp t I) in Eg. injection Eg as <-. eapply D_eq; [exact Dg|ring].
Qed.
Print Assumptions C51_uniaxial_area.
Theorem C51_planar_area : forall (SV : Type) sim p k (none : SV) fw W Dom f lo hi a b,
  simulates sim p planar k none fw -> incompressible_kind k -> fw_gradient_of fw W Dom -> smooth_gradient fw Dom ->
  0 <= lo -> (forall x, lo < x < hi -> Dom (cauchy_green (planar x))) ->
  (forall x, lo < x < hi -> stress_curve_fit sim [x] p = Ok [f x]) -> lo < a < hi -> lo < b < hi ->
  is_RInt f a b (W (cauchy_green (planar b)) - W (cauchy_green (planar a))).
Proof.
  intros SV sim p k none fw W Dom f lo hi a b (L & s & E) K HG HS P D Hf Ia Ib.
  assert (Hp : forall t, lo < t < hi -> point_stress (si_loadcase sim) (space_material none fw s (sp_gradient k fw default_opts)) t = Ok (f t)).
  { intros t I. exact (one_point sim p t (f t) _ E (Hf t I)). }
  apply (is_RInt_ext (fun t => 1 * f t)); [intros; apply Rmult_1_l|].
  apply (curve_area fw Dom HS k K (si_loadcase sim) none s (fun t => t) (fun t => 1) (fun t => 1 / t) lo hi) with (w := fun t => W (cauchy_green (planar t))); auto.
  - intros t I. rewrite L, <- planar_dg. split; [reflexivity|]. split; [|apply D; exact I]. field. lra.
  - intros t I. assert (Ds : is_derive (fun t => 1 / t) t (- / t ^ 2)).
    { eapply D_eq. apply D_ext with (fun t => / t); [intro; unfold Rdiv; ring|]. apply (D_inv (fun t => t) t 1). exact (D_id t). lra. field. lra. }
    eexists _, _, _. split; [exact (D_id t)|split; [exact (D_const 1 t)|exact Ds]].
  - intros t I. destruct (planar_D fw W Dom HG k (si_loadcase sim) t none s K L ltac:(lra) (D t I)) as (g & Eg & Dg).
    rewrite (Hp t I) in Eg. injection Eg as <-. eapply D_eq; [exact Dg|ring].
Qed.
Print Assumptions C51_planar_area.
(** In biaxial tension two equal forces do work: twice the area. *)
Theorem C51_biaxial_area : forall (SV : Type) sim p k (none : SV) fw W Dom f lo hi a b,
  simulates sim p biaxial k none fw -> incompressible_kind k -> fw_gradient_of fw W Dom -> isotropic_gradient fw Dom -> smooth_gradient fw Dom ->
  0 <= lo -> (forall x, lo < x < hi -> Dom (cauchy_green (biaxial x))) ->
  (forall x, lo < x < hi -> stress_curve_fit sim [x] p = Ok [f x]) -> lo < a < hi -> lo < b < hi ->
  is_RInt (fun x => 2 * f x) a b (W (cauchy_green (biaxial b)) - W (cauchy_green (biaxial a))).
Proof.
  intros SV sim p k none fw W Dom f lo hi a b (L & s & E) K HG HI HS P D Hf Ia Ib.
  assert (Hp : forall t, lo < t < hi -> point_stress (si_loadcase sim) (space_material none fw s (sp_gradient k fw default_opts)) t = Ok (f t)).
  { intros t I. exact (one_point sim p t (f t) _ E (Hf t I)). }
  apply (curve_area fw Dom HS k K (si_loadcase sim) none s (fun t => t) (fun t => t) (fun t => 1 / t ^ 2) lo hi) with (w := fun t => W (cauchy_green (biaxial t))); auto.
  - intros t I. rewrite L, <- biaxial_dg. split; [reflexivity|]. split; [|apply D; exact I]. field. lra.
  - intros t I. assert (Ds : is_derive (fun t => 1 / t ^ 2) t (- 2 / t ^ 3)).
    { eapply D_eq. apply D_ext with (fun t => / t ^ 2); [intro; unfold Rdiv; ring|].
      apply (D_inv (fun t => t ^ 2) t (2 * t * 1)). exact (D_sqr (fun t => t) t 1 (D_id t)). nra. field. lra. }
    eexists _, _, _. split; [exact (D_id t)|split; [exact (D_id t)|exact Ds]].
  - intros t I. destruct (biaxial_D fw W Dom HG HI k (si_loadcase sim) t none s K L ltac:(lra) (D t I)) as (g & Eg & Dg).
    rewrite (Hp t I) in Eg. injection Eg as <-. exact Dg.
Qed.
Print Assumptions C51_biaxial_area.
(** Missing for the full claim, and false of the code: in the dilatational space the stress for
    psi = (I1 - 3)^2 is not the gradient of any energy function whatsoever. *)
Theorem C51_dilatational_refuted :
  let fw := invariants_fw (tod_model (SV:=unit) (tod_init 0 0 0 1 0 false)) in
  fw_gradient_of fw (fun C => 0 * (inv1 C - 3) + 0 * (inv2 C - 3) + 0 * ((inv1 C - 3) * (inv2 C - 3)) + 1 * (inv1 C - 3) ^ 2 + 0 * (inv1 C - 3) ^ 3) invertible /\
  ~ exists W, sp_gradient_of (dil_gradient fw default_opts) W invertible.
Proof. intro fw. split; [exact (C14_third_order_deformation unit 0 0 0 1 0 false)|exact no_potential]. Qed.
Print Assumptions C51_dilatational_refuted.

(** A closed motion (simple shear there and back, F(-pi) = F(pi)) to which the theorems apply. *)
Definition F_cycle (t : R) : T2 := fun i j => match i, j with X0, X1 => sin t | _, _ => delta i j end.
Definition dF_cycle (t : R) : T2 := fun i j => match i, j with X0, X1 => cos t | _, _ => 0 end.
Lemma F_cycle_motion lo hi : motion F_cycle dF_cycle lo hi.
Proof.
  intros t _. split.
  - intros i j. unfold F_cycle, dF_cycle. destruct i, j; try exact (D_const _ t).
    apply is_derive_Reals. apply derivable_pt_lim_sin.
  - intros i j. unfold dF_cycle. destruct i, j; try apply (@continuous_const R_UniformSpace R_UniformSpace).
    apply ContR.cont_continuous. apply (ContR.cont_D _ _ (- sin t)). apply is_derive_Reals. apply derivable_pt_lim_cos.
Qed.
Example C51_example : (forall t, invertible (F_cycle t)) /\ F_cycle 0 = F_cycle PI /\ F_cycle (PI / 2) X0 X1 = 1 /\
  let fw := invariants_fw (tod_model (SV:=unit) (tod_init 1 2 3 4 5 false)) in
  exists P, stress_along (sp_gradient KDistortional fw default_opts) (fun _ => tt)
    (fun _ => space_self0 fw inv_self0) F_cycle P (-1) 4 /\
    is_RInt (power P dF_cycle) 0 PI 0.
Proof.
  assert (N : forall t, invertible (F_cycle t)) by (intro t; unfold invertible, det3, F_cycle, delta; cbn; lra).
  assert (E : F_cycle 0 = F_cycle PI) by (apply T2_ext; intros i j; unfold F_cycle; destruct i, j; auto; rewrite sin_0, sin_PI; reflexivity).
  split; [exact N|split; [exact E|split; [exact sin_PI2|]]]. intro fw.
  pose proof PI_RGT_0. pose proof PI_4.
  destruct (C51_third_order_deformation unit 1 2 3 4 5 false KDistortional F_cycle dF_cycle (fun _ => tt) (fun _ => space_self0 fw inv_self0) (-1) 5 0 PI) as (P & HP & HI);
    [discriminate|apply F_cycle_motion|auto|lra|lra|]. exists P. split.
  - intros t I. apply HP. lra.
  - rewrite <- E in HI. match type of HI with is_RInt _ _ _ ?x => replace x with 0 in HI by ring end. exact HI.
Qed.
