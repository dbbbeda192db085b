(** * The spaces with the models of the principal stretches, end to end (C25, C30, C19). *)
From Coq Require Import Reals Lra List FunctionalExtensionality.
From Coquelicot Require Import Coquelicot.
From Verif Require Import Tensor Py Voigt VoigtProofs Algebra Calc Models Frameworks Spaces Spec SpaceCore PiolaProofs SpaceProofs DistProofs SpaceMore
  EigCore ModelProofs GenProofs StrCore StrProofs StrHess StrMore StrRoutes Counter NDLinks2 PropInvariants PropStretches PropSpaces.
Import ListNotations.
Local Open Scope R_scope.

(** The energy of the Ogden model as a function of C: [w] are the eigenvalues of C, their roots the
    principal stretches. *)
Definition ogden_energy (mu alpha : list R) (W : T2 -> R) : Prop := forall C w v, eig_legal C w v -> W C =
  fold_right (fun t s => 2 * fst t / snd t ^ 2 *
    (Rpower (sqrt (w X0)) (snd t) + Rpower (sqrt (w X1)) (snd t) + Rpower (sqrt (w X2)) (snd t) - 3) + s) 0 (combine mu alpha).
Lemma dist_posdef F : invertible F -> posdef (distortional_part (cauchy_green F)).
Proof. intro N. rewrite <- (right_CG_full F), <- dist_part. exact (posdef_seen KDistortional F N). Qed.

Theorem C25_ogden : forall (SV : Type) lapack mu alpha W, lapack_legal lapack ->
  (forall m a, In (m, a) (combine mu alpha) -> a <> 0) -> ogden_energy mu alpha W ->
  sp_gradient_of (def_gradient (stretches_fw lapack (ogden_model (SV:=SV) {| og_mu := mu; og_alpha := alpha |})) default_opts)
    (fun F => W (cauchy_green F)) invertible.
Proof.
  intros SV lapack mu alpha W HL HA HW F t0 dF HF N.
  exact (C25_stress SV _ W posdef (C18_ogden SV lapack mu alpha W HL HA HW) F t0 dF HF (posdef_CG _ N)).
Qed.
Print Assumptions C25_ogden.
Theorem C30_ogden : forall (SV : Type) lapack mu alpha W, lapack_legal lapack ->
  (forall m a, In (m, a) (combine mu alpha) -> a <> 0) -> ogden_energy mu alpha W ->
  sp_gradient_of (dis_gradient (stretches_fw lapack (ogden_model (SV:=SV) {| og_mu := mu; og_alpha := alpha |})) default_opts)
    (fun F => W (distortional_part (cauchy_green F))) invertible.
Proof.
  intros SV lapack mu alpha W HL HA HW F t0 dF HF N.
  exact (C30_stress SV _ W posdef (C18_ogden SV lapack mu alpha W HL HA HW) F t0 dF HF (conj N (dist_posdef _ N))).
Qed.
Print Assumptions C30_ogden.
(** GeneralizedInvariants with any invariants model that is the gradient of psi, any strain measure. *)
Theorem C25_generalized : forall (SV : Type) lapack (m : InvModel SV) fs c E E' E'' psi W, lapack_legal lapack ->
  measure_of fs E E' E'' -> inv_gradient_of m psi everywhere -> stretch_energy (fun l => psi (gen_invariants E c l)) W ->
  sp_gradient_of (def_gradient (stretches_fw lapack (gen_model m fs c)) default_opts) (fun F => W (cauchy_green F)) invertible.
Proof.
  intros SV lapack m fs c E E' E'' psi W HL HM Hp HW F t0 dF HF N.
  exact (C25_stress SV _ W posdef (C18_generalized SV lapack m fs c E E' E'' psi W HL HM Hp HW) F t0 dF HF (posdef_CG _ N)).
Qed.
Print Assumptions C25_generalized.
Theorem C30_generalized : forall (SV : Type) lapack (m : InvModel SV) fs c E E' E'' psi W, lapack_legal lapack ->
  measure_of fs E E' E'' -> inv_gradient_of m psi everywhere -> stretch_energy (fun l => psi (gen_invariants E c l)) W ->
  sp_gradient_of (dis_gradient (stretches_fw lapack (gen_model m fs c)) default_opts) (fun F => W (distortional_part (cauchy_green F))) invertible.
Proof.
  intros SV lapack m fs c E E' E'' psi W HL HM Hp HW F t0 dF HF N.
  exact (C30_stress SV _ W posdef (C18_generalized SV lapack m fs c E E' E'' psi W HL HM Hp HW) F t0 dF HF (conj N (dist_posdef _ N))).
Qed.
Print Assumptions C30_generalized.

(** ** The tangents.  Missing: principal stretches inside np.isclose's tolerance (false there, C19_hessian_refuted). *)
Theorem C19_deformation_ogden_partial : forall (SV : Type) lapack mu alpha, lapack_legal lapack ->
  (forall m a, In (m, a) (combine mu alpha) -> a <> 0) ->
  let fw := stretches_fw lapack (ogden_model (SV:=SV) {| og_mu := mu; og_alpha := alpha |}) in
  sp_hessian_of (def_gradient fw default_opts) (def_hessian fw default_opts) (fun F => invertible F /\ separated (cauchy_green F)).
Proof.
  intros SV lapack mu alpha HL HA fw F t0 dF HF [N Sep].
  destruct (C18_energy_exists (ogden_psi mu alpha)) as [W HW].
  assert (HG : fw_gradient_of fw W (fun C => posdef C /\ separated C)).
  { intros C t1 dC S HC [P _]. exact (C18_ogden SV lapack mu alpha W HL HA HW C t1 dC S HC P). }
  exact (C26_tangent SV fw W _ HG (C19_ogden SV lapack mu alpha HL HA) F t0 dF HF (conj (posdef_CG _ N) Sep)).
Qed.
Print Assumptions C19_deformation_ogden_partial.
Theorem C19_deformation_generalized_partial : forall (SV : Type) lapack md fs c E E' E'', lapack_legal lapack -> measure_of fs E E' E'' ->
  let fw := stretches_fw lapack (gen_model (tod_model (SV:=SV) md) fs c) in
  sp_hessian_of (def_gradient fw default_opts) (def_hessian fw default_opts) (fun F => invertible F /\ separated (cauchy_green F)).
Proof.
  intros SV lapack md fs c E E' E'' HL HM fw F t0 dF HF [N Sep].
  destruct (gen_tod_grad (SV:=SV) md fs E E' E'' c HM) as (psi & Hs & HGr). destruct (C18_energy_exists psi) as [W HW].
  assert (HG : fw_gradient_of fw W (fun C => posdef C /\ separated C)).
  { intros C t1 dC S HC [P _]. exact (C18_gradient SV lapack _ psi positive3 W HL HW Hs HGr C t1 dC S HC (stretch_dom_positive _ P)). }
  exact (C26_tangent SV fw W _ HG (C19_generalized_third_order_deformation SV lapack md fs c E E' E'' HL HM) F t0 dF HF (conj (posdef_CG _ N) Sep)).
Qed.
Print Assumptions C19_deformation_generalized_partial.
Theorem C31_ogden_partial : forall (SV : Type) lapack mu alpha, lapack_legal lapack ->
  (forall m a, In (m, a) (combine mu alpha) -> a <> 0) ->
  let fw := stretches_fw lapack (ogden_model (SV:=SV) {| og_mu := mu; og_alpha := alpha |}) in
  sp_hessian_of (dis_gradient fw default_opts) (dis_hessian fw default_opts)
    (fun F => invertible F /\ separated (distortional_part (cauchy_green F)) /\ significant_at fw F).
Proof.
  intros SV lapack mu alpha HL HA fw F t0 dF HF (N & Sep & Sg).
  destruct (C18_energy_exists (ogden_psi mu alpha)) as [W HW].
  assert (HG : fw_gradient_of fw W (fun C => posdef C /\ separated C)).
  { intros C t1 dC S HC [P _]. exact (C18_ogden SV lapack mu alpha W HL HA HW C t1 dC S HC P). }
  exact (C31_tangent_partial SV fw W _ HG (C19_ogden SV lapack mu alpha HL HA) F t0 dF HF (conj N (conj (conj (dist_posdef _ N) Sep) Sg))).
Qed.
Print Assumptions C31_ogden_partial.

(** The hypotheses are met: an energy exists for every list of parameters (C18_energy_exists), the motion
    diag(2 + t, 1, 1/2) is invertible and its principal stretches are apart. *)
Lemma ogden_energy_exists mu alpha : exists W, ogden_energy mu alpha W.
Proof. exact (C18_energy_exists (ogden_psi mu alpha)). Qed.
Example C25_example : dcurve2 Fd 0 dFd /\ invertible (Fd 0) /\ (exists W, ogden_energy [1; 2] [2; -3] W) /\
  forall m a, In (m, a) (combine [1; 2] [2; -3]) -> a <> 0.
Proof.
  split; [exact Fd_D|]. split; [exact Fd_inv|]. split; [apply ogden_energy_exists|].
  intros m a [E|[E|[]]]; injection E as _ <-; lra.
Qed.
