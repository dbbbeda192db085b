(** * Properties C17 - C21: the Stretches framework.

    [lapack] stands for numpy.linalg.eigh; all that is used is that its result is an
    eigendecomposition with ascending eigenvalues ([lapack_legal]); [lapack0] is one, so the
    hypothesis can be met, and the theorems hold whatever eigenbasis LAPACK picks. *)
From Coq Require Import Reals Lra List.
From Coquelicot Require Import Coquelicot.
From Verif Require Import Tensor Py Voigt VoigtProofs Algebra Calc Models Frameworks Spaces Spec EigCore Spectral VCalc
  ModelProofs GenProofs InvCore InvProofs StrCore StrProofs StrHess StrIso StrLimit StrMore StrError StrRoutes ScaleProofs HistProofs PropModels.
Import ListNotations.
Local Open Scope R_scope.

Theorem C08_lapack_exists : exists lapack, lapack_legal lapack.
Proof. exact (ex_intro _ lapack0 lapack0_legal). Qed.
Print Assumptions C08_lapack_exists.

(** A positive definite tensor with two equal principal stretches, not diagonal. *)
Definition C_ex : T2 := fun i j => match i, j with X0, X0 | X1, X1 => 2 | X0, X1 | X1, X0 => 1 | X2, X2 => 1 | _, _ => 0 end.
Example C_ex_ok : sym2 C_ex /\ posdef C_ex.
Proof.
  split; [intros i j; destruct i, j; reflexivity|].
  intros x N. unfold quad, sum3, C_ex; cbn.
  assert (0 < x X0 ^ 2 + x X1 ^ 2 + x X2 ^ 2).
  { destruct N as [i N]. pose proof (pow2_ge_0 (x X0)). pose proof (pow2_ge_0 (x X1)). pose proof (pow2_ge_0 (x X2)).
    assert (0 < x i ^ 2) by (apply pow2_gt_0; auto). destruct i; lra. }
  pose proof (pow2_ge_0 (x X0 + x X1)). nra.
Qed.

(** ** C17 *)
Theorem C17_stretches_gradient : forall (SV : Type) lapack (m : StretchModel SV), lapack_legal lapack ->
  exchangeable_gradient m -> isotropic_gradient (stretches_fw lapack m) posdef.
Proof. exact (fun SV lapack m => stretches_isotropic_gradient lapack m). Qed.
Print Assumptions C17_stretches_gradient.
Theorem C17_stretches : forall (SV : Type) lapack (m : StretchModel SV), lapack_legal lapack ->
  exchangeable_gradient m -> exchangeable_hessian m -> isotropic_fw (stretches_fw lapack m) posdef.
Proof. exact (fun SV lapack m => stretches_isotropic lapack m). Qed.
Print Assumptions C17_stretches.
(** The result does not depend on which eigenbasis LAPACK returns. *)
Theorem C17_stretches_any_eigenbasis : forall (SV : Type) lapack lapack' (m : StretchModel SV),
  lapack_legal lapack -> lapack_legal lapack' -> exchangeable_gradient m ->
  forall C sv (s : StrSelf m), sym2 C -> posdef C ->
  outcome (str_gradient lapack' m (asvoigt C) sv) s = outcome (str_gradient lapack m (asvoigt C) sv) s /\
  (exchangeable_hessian m ->
   outcome (str_hessian lapack' m (asvoigt C) sv) s = outcome (str_hessian lapack m (asvoigt C) sv) s).
Proof. exact (fun SV lapack lapack' m => stretches_basis_free lapack lapack' m). Qed.
Print Assumptions C17_stretches_any_eigenbasis.
(** Which models are meant: all models that return the derivatives of an energy that is
    symmetric in the three stretches ... *)
Theorem C17_symmetric_energies : forall (SV : Type) lapack (m : StretchModel SV) psi, lapack_legal lapack ->
  symmetric_fn psi -> str_gradient_of m psi positive3 ->
  isotropic_gradient (stretches_fw lapack m) posdef /\
  (str_hessian_of m positive3 -> isotropic_fw (stretches_fw lapack m) posdef).
Proof.
  exact (fun SV lapack m psi HL Hs HG =>
    conj (stretches_isotropic_gradient lapack m HL (energy_exchangeable m psi Hs HG))
         (fun HH => stretches_isotropic lapack m HL (energy_exchangeable m psi Hs HG) (energy_exchangeable_h m psi Hs HG HH))).
Qed.
Print Assumptions C17_symmetric_energies.
(** ... hence Ogden for every list of parameters, ... *)
Theorem C17_ogden : forall (SV : Type) lapack og, lapack_legal lapack ->
  isotropic_fw (stretches_fw lapack (ogden_model (SV:=SV) og)) posdef.
Proof. exact (fun SV lapack og HL => stretches_isotropic lapack _ HL (proj1 (ogden_exchangeable og)) (proj2 (ogden_exchangeable og))). Qed.
Print Assumptions C17_ogden.
(** ... and GeneralizedInvariants for every invariant model and strain measure (gradient), and
    including the hessian if the invariant model does not depend on the third invariant. *)
Theorem C17_generalized : forall (SV : Type) lapack (m : InvModel SV) fs c, lapack_legal lapack ->
  isotropic_gradient (stretches_fw lapack (gen_model m fs c)) posdef /\
  ((forall J sv g svn, inv_call m J sv = Ok (g, svn) -> val (o3 g X2) = 0) ->
   isotropic_fw (stretches_fw lapack (gen_model m fs c)) posdef).
Proof.
  exact (fun SV lapack m fs c HL => conj (stretches_isotropic_gradient lapack _ HL (gen_exchangeable m fs c))
    (fun H3 => stretches_isotropic lapack _ HL (gen_exchangeable m fs c) (gen_exchangeable_hessian m fs c H3))).
Qed.
Print Assumptions C17_generalized.

(** ** C18 *)
Theorem C18_gradient : forall (SV : Type) lapack (m : StretchModel SV) psi Dom W, lapack_legal lapack ->
  stretch_energy psi W -> symmetric_fn psi -> str_gradient_of m psi Dom ->
  fw_gradient_of (stretches_fw lapack m) W (stretch_dom Dom).
Proof. exact (fun SV lapack m => stretches_grad lapack m). Qed.
Print Assumptions C18_gradient.
(** Every psi is the energy of some function of C, so the hypothesis can be met. *)
Theorem C18_energy_exists : forall psi, exists W, stretch_energy psi W.
Proof. exact (fun psi => ex_intro _ _ (energy_of_ok psi)). Qed.
Print Assumptions C18_energy_exists.
Theorem C18_ogden : forall (SV : Type) lapack mu alpha W, lapack_legal lapack ->
  (forall m a, In (m, a) (combine mu alpha) -> a <> 0) ->
  (forall C w v, eig_legal C w v -> W C =
    fold_right (fun t s => 2 * fst t / snd t ^ 2 *
        (Rpower (sqrt (w X0)) (snd t) + Rpower (sqrt (w X1)) (snd t) + Rpower (sqrt (w X2)) (snd t) - 3) + s) 0 (combine mu alpha)) ->
  fw_gradient_of (stretches_fw lapack (ogden_model (SV:=SV) {| og_mu := mu; og_alpha := alpha |})) W posdef.
Proof.
  intros SV lapack mu alpha W HL HA HW C t0 dC S HC P.
  exact (stretches_grad lapack _ (ogden_psi mu alpha) positive3 W HL HW (ogden_symmetric mu alpha) (ogden_grad' mu alpha HA) C t0 dC S HC (stretch_dom_positive _ P)).
Qed.
Print Assumptions C18_ogden.
(** GeneralizedInvariants(ThirdOrderDeformation) with any strain measure. *)
Theorem C18_generalized : forall (SV : Type) lapack (m : InvModel SV) fs c E E' E'' psi W, lapack_legal lapack ->
  measure_of fs E E' E'' -> inv_gradient_of m psi everywhere ->
  stretch_energy (fun l => psi (gen_invariants E c l)) W ->
  fw_gradient_of (stretches_fw lapack (gen_model m fs c)) W posdef.
Proof.
  intros SV lapack m fs c E E' E'' psi W HL HM HG HW C t0 dC S HC P.
  refine (stretches_grad lapack _ _ _ W HL HW (gen_symmetric E c psi) (gen_grad m fs c E E' E'' HM psi everywhere HG) C t0 dC S HC _).
  destruct (stretch_dom_positive _ P) as [P' Q]. split; [exact P'|]. intros w v L. split; [exact (Q w v L)|exact Logic.I].
Qed.
Print Assumptions C18_generalized.

(** ** C19.  Missing for the full claim: pairs of eigenvalues with 0 < |w_a - w_b| <= 1e-8,
    for which the claim is false (below). *)
Theorem C19_hessian_partial : forall (SV : Type) lapack (m : StretchModel SV) psi Dom, lapack_legal lapack ->
  symmetric_fn psi -> curve_open Dom -> str_gradient_of m psi Dom -> str_hessian_of m Dom ->
  fw_hessian_of (stretches_fw lapack m) (fun C => stretch_dom Dom C /\ separated C).
Proof. exact (fun SV lapack m psi Dom => stretches_hess lapack m psi Dom). Qed.
Print Assumptions C19_hessian_partial.
Theorem C19_ogden : forall (SV : Type) lapack mu alpha, lapack_legal lapack ->
  (forall m a, In (m, a) (combine mu alpha) -> a <> 0) ->
  fw_hessian_of (stretches_fw lapack (ogden_model (SV:=SV) {| og_mu := mu; og_alpha := alpha |})) (fun C => posdef C /\ separated C).
Proof.
  intros SV lapack mu alpha HL HA C t0 dC S HC [P Sep].
  exact (stretches_hess lapack _ (ogden_psi mu alpha) positive3 HL (ogden_symmetric mu alpha) positive_curve (ogden_grad' mu alpha HA)
    (ogden_hess {| og_mu := mu; og_alpha := alpha |} HA) C t0 dC S HC (conj (stretch_dom_positive _ P) Sep)).
Qed.
Print Assumptions C19_ogden.
Theorem C19_generalized_third_order_deformation : forall (SV : Type) lapack md fs c E E' E'', lapack_legal lapack ->
  measure_of fs E E' E'' ->
  fw_hessian_of (stretches_fw lapack (gen_model (tod_model (SV:=SV) md) fs c)) (fun C => posdef C /\ separated C).
Proof.
  intros SV lapack md fs c E E' E'' HL HM C t0 dC S HC [P Sep].
  destruct (gen_tod_grad (SV:=SV) md fs E E' E'' c HM) as (psi & Hs & HG).
  exact (stretches_hess lapack _ psi positive3 HL Hs positive_curve HG (gen_tod_hess md fs E E' E'' c HM) C t0 dC S HC (conj (stretch_dom_positive _ P) Sep)).
Qed.
Print Assumptions C19_generalized_third_order_deformation.
(** Without [separated]: in the eigenbasis of C every component of the error vanishes except
    the shear components of pairs with 0 < |w_a - w_b| <= 1e-8. *)
Theorem C19_hessian_error : forall (SV : Type) lapack (m : StretchModel SV) psi Dom, lapack_legal lapack ->
  symmetric_fn psi -> curve_open Dom -> str_gradient_of m psi Dom -> str_hessian_of m Dom ->
  forall C t0 dC, (forall t, sym2 (C t)) -> dcurve2 C t0 dC -> stretch_dom Dom (C t0) ->
  forall sv (s : StrSelf m), exists H, returns (str_hessian lapack m (asvoigt (C t0)) sv) s H /\
  forall svt st G, locally t0 (fun t => exists svn, returns (str_gradient lapack m (asvoigt (C t)) (svt t)) (st t) (G t, svn)) ->
  exists dG, dcurve2 (fun t => astensor (G t)) t0 dG /\
  forall a b, (let w := fst (lapack (C t0)) in a = b \/ w a = w b \/ / 10 ^ 8 < Rabs (w a - w b)) ->
  let v := snd (lapack (C t0)) in
  sum3 (fun i => sum3 (fun j => v i a * (dG i j - dc42 (astensor4 H) dC i j) * v j b)) = 0.
Proof.
  intros SV lapack m psi Dom HL Hs Ho HG HH C t0 dC S HC D sv s.
  destruct (near_error lapack m psi Dom HL Hs Ho HG HH C t0 dC S HC D sv s) as (H & RH & X).
  exists H. split; [exact RH|]. intros svt st G HGt. destruct (X svt st G HGt) as (dG & DG & Y). exists dG. split; [exact DG|].
  intros a b Hab v. rewrite <- (Y a b Hab). unfold v, frame, mmul, mtr, sum3. ring.
Qed.
Print Assumptions C19_hessian_error.
(** How wrong: for Ogden, at every positive definite C, every component of the error in the
    eigenbasis is at most 1e-8 times the increment's component times a factor that depends on the
    parameters and the two squared stretches x, y only.  (Missing for the full claim: error 0.) *)
Theorem C19_ogden_error_partial : forall (SV : Type) lapack mu alpha, lapack_legal lapack -> (forall m a, In (m, a) (combine mu alpha) -> a <> 0) ->
  let factor := fun x y => fold_right (fun t s => let '(mu, alpha) := t in
    Rabs (mu / alpha * (alpha / 2 - 1) * (alpha / 2 - 2)) * (Rpower x (alpha / 2 - 3) + Rpower y (alpha / 2 - 3)) + s) 0 (combine mu alpha) in
  forall C t0 dC, (forall t, sym2 (C t)) -> dcurve2 C t0 dC -> posdef (C t0) ->
  let m := ogden_model (SV:=SV) {| og_mu := mu; og_alpha := alpha |} in
  forall sv (s : StrSelf m), exists H, returns (str_hessian lapack m (asvoigt (C t0)) sv) s H /\
  forall svt st G, locally t0 (fun t => exists svn, returns (str_gradient lapack m (asvoigt (C t)) (svt t)) (st t) (G t, svn)) ->
  exists dG, dcurve2 (fun t => astensor (G t)) t0 dG /\
  forall a b, let w := fst (lapack (C t0)) in let v := snd (lapack (C t0)) in
  let comp := fun A : T2 => sum3 (fun i => sum3 (fun j => v i a * A i j * v j b)) in
  Rabs (comp (fun i j => dG i j - dc42 (astensor4 H) dC i j)) <= / 10 ^ 8 * factor (w a) (w b) * Rabs (comp dC).
Proof.
  intros SV lapack mu alpha HL HA factor C t0 dC S HC P m sv s.
  destruct (ogden_near lapack {| og_mu := mu; og_alpha := alpha |} HL HA C t0 dC S HC P sv s) as (H & RH & X).
  exists H. split; [exact RH|]. intros svt st G HGt. destruct (X svt st G HGt) as (dG & DG & Y). exists dG. split; [exact DG|].
  intros a b w v comp. assert (Ec : forall A, comp A = frame v A a b) by (intro A; unfold comp, frame, mmul, mtr, sum3; ring).
  rewrite !Ec. assert (Ef : forall x y, factor x y = ogden_bound (combine mu alpha) x y).
  { intros x y. unfold factor, ogden_bound. clear. generalize (combine mu alpha) as l. induction l as [|[p q] l IH]; cbn [fold_right fst snd]; [reflexivity|]. rewrite IH. reflexivity. }
  rewrite Ef. exact (Y a b).
Qed.
Print Assumptions C19_ogden_error_partial.
(** The full claim is false of the code: Ogden([1], [6]). *)
Theorem C19_hessian_refuted : forall lapack, lapack_legal lapack ->
  let m := ogden_model (SV:=unit) {| og_mu := [1]; og_alpha := [6] |} in
  (exists psi, symmetric_fn psi /\ str_gradient_of m psi positive3) /\ str_hessian_of m positive3 /\
  ~ fw_hessian_of (stretches_fw lapack m) (stretch_dom positive3).
Proof.
  exact (fun lapack HL => conj (ex_intro _ _ (conj (ogden_symmetric _ _) og6_grad)) (conj og6_hess (near_refuted lapack HL))).
Qed.
Print Assumptions C19_hessian_refuted.
(** The domains contain tensors with repeated principal stretches. *)
Example C19_separated_one : posdef one2 /\ separated one2.
Proof.
  assert (L : eig_legal one2 (fun _ => 1) one2).
  { repeat split; intros; unfold one2, delta, sum3; repeat match goal with a : ix3 |- _ => destruct a end; cbn; try lra. }
  split; [apply (eig_posdef _ _ _ L); intro; lra|]. intros w v Lw a b. left. rewrite (eig_unique _ _ _ _ _ Lw L). reflexivity.
Qed.

(** ** C20.  [v a] is the a-th column.  At C0 two principal stretches coincide; then the
    corresponding shear component of the returned hessian (which is half the coefficient used
    there, the documented d'Hospital value) is the limit, as the principal stretches approach
    those of C0, of half the difference quotient of the documentation, and of the shear component of
    the hessian returned at C (with the distinct-stretches formula or not). *)
Theorem C20_limit : forall (SV : Type) lapack (m : StretchModel SV) psi Dom, lapack_legal lapack ->
  symmetric_fn psi -> box_open Dom -> (forall l, Dom l -> positive3 l) ->
  str_gradient_of m psi Dom -> str_hessian_of m Dom -> continuous_model m Dom ->
  forall C0 w0 v0 a b sv0 (s0 : StrSelf m) H0, sym2 C0 -> eig_legal C0 w0 v0 -> Dom (fun c => sqrt (w0 c)) ->
  a <> b -> w0 a = w0 b -> returns (str_hessian lapack m (asvoigt C0) sv0) s0 H0 ->
  forall eps, 0 < eps -> exists d, 0 < d /\
  forall C w v, sym2 C -> eig_legal C w v -> near3 d (fun c => sqrt (w c)) (fun c => sqrt (w0 c)) ->
  (forall sv s H, returns (str_hessian lapack m (asvoigt C) sv) s H ->
     Rabs (shear (astensor4 H) (column v a) (column v b) - shear (astensor4 H0) (column v0 a) (column v0 b)) < eps) /\
  (forall sv s g svn, w a <> w b -> returns (sm_gradient m (fun c => sqrt (w c)) sv) s (g, svn) ->
     Rabs (quotient (fun c => sqrt (w c)) g a b / 2 - shear (astensor4 H0) (column v0 a) (column v0 b)) < eps).
Proof. exact (fun SV lapack m psi Dom => shear_limit lapack m psi Dom). Qed.
Print Assumptions C20_limit.
Theorem C20_ogden : forall (SV : Type) mu alpha, (forall m a, In (m, a) (combine mu alpha) -> a <> 0) ->
  let m := ogden_model (SV:=SV) {| og_mu := mu; og_alpha := alpha |} in
  box_open positive3 /\ continuous_model m positive3 /\ str_hessian_of m positive3 /\
  exists psi, symmetric_fn psi /\ str_gradient_of m psi positive3.
Proof.
  exact (fun SV mu alpha HA => conj positive_box (conj (ogden_continuous _) (conj (ogden_hess {| og_mu := mu; og_alpha := alpha |} HA)
    (ex_intro _ _ (conj (ogden_symmetric mu alpha) (ogden_grad' mu alpha HA)))))).
Qed.
Print Assumptions C20_ogden.
(** The hypotheses of C20_limit at a tensor with a double eigenvalue, for Ogden([1], [3]). *)
Example C20_example : forall lapack, lapack_legal lapack -> exists w0 v0 a b H0,
  let m := ogden_model (SV:=unit) {| og_mu := [1]; og_alpha := [3] |} in
  sym2 C_ex /\ eig_legal C_ex w0 v0 /\ positive3 (fun c => sqrt (w0 c)) /\ a <> b /\ w0 a = w0 b /\
  returns (str_hessian lapack m (asvoigt C_ex) tt) (str_self0 m tt) H0.
Proof.
  intros lapack HL. destruct C_ex_ok as [Sy P].
  assert (LE : eig_legal C_ex (fun a => match a with X2 => 3 | _ => 1 end)
     (fun i a => match a, i with X0, X0 => / sqrt 2 | X0, X1 => - / sqrt 2 | X1, X2 => 1 | X2, X0 | X2, X1 => / sqrt 2 | _, _ => 0 end)).
  { assert (Q : / sqrt 2 * / sqrt 2 = / 2). { rewrite <- Rinv_mult, sqrt_sqrt by lra. reflexivity. }
    repeat split; intros; repeat match goal with a : ix3 |- _ => destruct a end; unfold C_ex, delta, sum3; cbn; nra. }
  do 2 eexists. exists X0, X1.
  assert (Dm : stretch_dom positive3 C_ex) by (apply stretch_dom_positive; exact P).
  assert (NZ : forall m a, In (m, a) (combine [1] [3]) -> a <> 0) by (intros m a [E|[]]; injection E as _ <-; lra).
  destruct (C19_hessian_error unit lapack (ogden_model {| og_mu := [1]; og_alpha := [3] |}) (ogden_psi [1] [3]) positive3 HL (ogden_symmetric _ _) positive_curve
    (ogden_grad' _ _ NZ) (ogden_hess {| og_mu := [1]; og_alpha := [3] |} NZ) (fun _ => C_ex) 0 (fun _ _ => 0)) with (sv := tt) (s := str_self0 (ogden_model (SV:=unit) {| og_mu := [1]; og_alpha := [3] |}) tt) as (H & RH & _).
  - intros _; exact Sy.
  - intros i j. apply (D_const _ 0).
  - exact Dm.
  - exists H. split; [exact Sy|]. split; [exact LE|]. split; [apply (proj2 Dm _ _ LE)|]. split; [discriminate|]. split; [reflexivity|exact RH].
Qed.

(** ** C21 *)
Theorem C21_neo_hooke : forall (SV : Type) lapack mu C (sv : SV) s s', lapack_legal lapack -> sym2 C -> posdef C ->
  let str := stretches_fw lapack (ogden_model (SV:=SV) {| og_mu := [mu]; og_alpha := [2] |}) in
  let inv := invariants_fw (tod_model (SV:=SV) (tod_init (mu / 2) 0 0 0 0 false)) in
  outcome (fw_gradient str (asvoigt C) sv) s = outcome (fw_gradient inv (asvoigt C) sv) s' /\
  outcome (fw_hessian str (asvoigt C) sv) s = outcome (fw_hessian inv (asvoigt C) sv) s'.
Proof. exact (fun SV lapack mu C sv s s' HL S P => routes_neo_hooke lapack HL mu C sv s s' S P). Qed.
Print Assumptions C21_neo_hooke.
Theorem C21_generalized_gradient : forall (SV : Type) lapack (m : InvModel SV) c C sv s s', lapack_legal lapack ->
  gen_init (deformation_fun 2) = Ok c -> sym2 C -> posdef C ->
  outcome (fw_gradient (stretches_fw lapack (gen_model m (deformation_fun 2) c)) (asvoigt C) sv) s =
  outcome (fw_gradient (invariants_fw m) (asvoigt C) sv) s'.
Proof. exact (fun SV lapack m c C sv s s' HL => routes_gen lapack HL m c C sv s s'). Qed.
Print Assumptions C21_generalized_gradient.
(** Beyond the claim: also the hessian, where the principal stretches are separated. *)
Theorem C21_generalized_hessian : forall (SV : Type) lapack md c C (sv : SV) s s', lapack_legal lapack ->
  gen_init (deformation_fun 2) = Ok c -> sym2 C -> posdef C -> separated C ->
  exists H,
  outcome (fw_hessian (stretches_fw lapack (gen_model (tod_model md) (deformation_fun 2) c)) (asvoigt C) sv) s = Ok H /\
  outcome (fw_hessian (invariants_fw (tod_model md)) (asvoigt C) sv) s' = Ok H.
Proof. exact (fun SV lapack md c C sv s s' HL => routes_gen_hessian lapack HL md c C sv s s'). Qed.
Print Assumptions C21_generalized_hessian.
Example C21_constants : exists c, gen_init (deformation_fun 2) = Ok c.
Proof. rewrite gen_init_deformation by lra. eauto. Qed.

(** ** Concrete cases for C16, C18 and C22 *)
Example C16_example : let m : InvModel unit := tod_model (tod_init 1 2 3 4 5 false) in exists g svn h,
  sym2 C_ex /\ inv_call m (invariants C_ex) tt = Ok (g, svn) /\ inv_callh m (invariants C_ex) svn = Ok h /\ none_consistent g h.
Proof.
  cbv zeta. destruct (tod_call (SV:=unit) (tod_init 1 2 3 4 5 false) (invariants C_ex) tt) as (g & E & _).
  exists g, tt, (tod_hessian (tod_init 1 2 3 4 5 false) (invariants C_ex X0) (invariants C_ex X1) (invariants C_ex X2)). split; [exact (proj1 C_ex_ok)|].
  split; [exact E|]. split; [reflexivity|]. exact (tod_none _ _ tt g tt _ E eq_refl).
Qed.
(** C22: a model whose hessian depends on the state variables that its gradient changes. *)
Example C22_example : sym2 C_ex /\ inv_call counting (invariants C_ex) 7 = Ok ((Some 0, None, None), 8) /\
  (forall n, inv_callh counting (invariants C_ex) n = Ok (fun v => match v with V0 => Some n | _ => None end)).
Proof. split; [exact (proj1 C_ex_ok)|]. split; [unfold inv_call, counting; cbn; do 2 f_equal; lra|reflexivity]. Qed.
Example C18_example : exists lapack psi W, lapack_legal lapack /\ stretch_energy psi W /\ symmetric_fn psi /\
  str_gradient_of (ogden_model (SV:=unit) {| og_mu := [3]; og_alpha := [5 / 2] |}) psi positive3 /\ stretch_dom positive3 C_ex.
Proof.
  destruct C08_lapack_exists as [lapack L]. destruct (C18_energy_exists (ogden_psi [3] [5 / 2])) as [W HW].
  exists lapack, (ogden_psi [3] [5 / 2]), W. split; [exact L|]. split; [exact HW|]. split; [apply ogden_symmetric|]. split.
  - apply C10_gradient. intros m a [E|[]]. injection E as <- <-. lra.
  - apply stretch_dom_positive. exact (proj2 C_ex_ok).
Qed.
