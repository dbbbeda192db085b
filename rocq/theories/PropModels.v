(** * Properties C09 - C13: the shipped models.

    Contracts ([inv_gradient_of], [str_gradient_of], ...) are defined in Spec.v. *)
From Coq Require Import Reals Lra List.
From Coquelicot Require Import Coquelicot.
From Verif Require Import Tensor Py Models Frameworks Spaces Spec ModelProofs GenProofs.
Import ListNotations.
Local Open Scope R_scope.

(** ** C09.  [u] is 3, or 0 with strain=True. *)
Theorem C09_gradient : forall (SV : Type) c10 c01 c11 c20 c30 (strain : bool),
  let u := if strain then 0 else 3 in
  inv_gradient_of (tod_model (SV:=SV) (tod_init c10 c01 c11 c20 c30 strain))
    (fun I => c10 * (I X0 - u) + c01 * (I X1 - u) + c11 * ((I X0 - u) * (I X1 - u))
              + c20 * (I X0 - u) ^ 2 + c30 * (I X0 - u) ^ 3)
    everywhere.
Proof. exact (fun SV c10 c01 c11 c20 c30 strain => tod_grad (tod_init c10 c01 c11 c20 c30 strain)). Qed.
Print Assumptions C09_gradient.
Theorem C09_hessian : forall (SV : Type) c10 c01 c11 c20 c30 (strain : bool),
  inv_hessian_of (tod_model (SV:=SV) (tod_init c10 c01 c11 c20 c30 strain)) everywhere.
Proof. exact (fun SV c10 c01 c11 c20 c30 strain => tod_hess (tod_init c10 c01 c11 c20 c30 strain)). Qed.
Print Assumptions C09_hessian.
Theorem C09_none_consistent : forall (SV : Type) (m : TOD) I (sv : SV) g svn h,
  inv_call (tod_model m) I sv = Ok (g, svn) -> inv_callh (tod_model m) I sv = Ok h -> none_consistent g h.
Proof. exact (fun SV => tod_none). Qed.
Print Assumptions C09_none_consistent.
(** The state variables are handed through unchanged, the gradient never raises, and an
    entry is None exactly if its derivative is identically zero. *)
Theorem C09_none_exactly : forall (SV : Type) (m : TOD) I (sv : SV), exists g,
  inv_call (tod_model m) I sv = Ok (g, sv) /\
  (o3 g X0 = None <-> C10 m = 0 /\ C11 m = 0 /\ C20 m = 0 /\ C30 m = 0) /\
  (o3 g X1 = None <-> C01 m = 0 /\ C11 m = 0) /\ o3 g X2 = None.
Proof. exact (fun SV => tod_none_exactly). Qed.
Print Assumptions C09_none_exactly.
(** Neo-Hooke: dW/dI1 = C10, the other two None; Mooney-Rivlin with a mixed term: two derivatives. *)
Example C09_example : forall c I, c <> 0 ->
  inv_call (tod_model (tod_init c 0 0 0 0 false)) I tt = Ok ((Some (0 + c), None, None), tt) /\
  exists w1 w2, inv_call (tod_model (tod_init c 0 1 0 0 false)) I tt = Ok ((Some w1, Some w2, None), tt).
Proof.
  intros c I Hc. unfold inv_call, tod_model, tod_gradient, tod_init, nonzero; cbn -[Req_EM_T].
  destruct (Req_EM_T c 0); [contradiction|]. destruct (Req_EM_T 0 0); [|lra]. destruct (Req_EM_T 1 0); [lra|]. cbn. split; [reflexivity|eauto].
Qed.

(** ** C10.  [combine] pairs the two lists and stops at the shorter one (surplus entries
    are ignored). *)
Theorem C10_gradient : forall (SV : Type) mu alpha,
  (forall m a, In (m, a) (combine mu alpha) -> a <> 0) ->
  str_gradient_of (ogden_model (SV:=SV) {| og_mu := mu; og_alpha := alpha |})
    (fun l => fold_right (fun t s => 2 * fst t / snd t ^ 2 *
        (Rpower (l X0) (snd t) + Rpower (l X1) (snd t) + Rpower (l X2) (snd t) - 3) + s) 0 (combine mu alpha))
    positive3.
Proof. exact (fun SV => ogden_grad'). Qed.
Print Assumptions C10_gradient.
Theorem C10_hessian : forall (SV : Type) mu alpha,
  (forall m a, In (m, a) (combine mu alpha) -> a <> 0) ->
  str_hessian_of (ogden_model (SV:=SV) {| og_mu := mu; og_alpha := alpha |}) positive3.
Proof. exact (fun SV mu alpha => ogden_hess {| og_mu := mu; og_alpha := alpha |}). Qed.
Print Assumptions C10_hessian.
Theorem C10_mixed_none : forall m l, ogden_hessian m l V3 = None /\ ogden_hessian m l V4 = None /\ ogden_hessian m l V5 = None.
Proof. exact (fun m l => conj eq_refl (conj eq_refl eq_refl)). Qed.
Print Assumptions C10_mixed_none.
Theorem C10_surplus_ignored : forall mu alpha x l, length mu = length alpha ->
  (forall a, ogden_gradient {| og_mu := mu ++ x; og_alpha := alpha |} l a = ogden_gradient {| og_mu := mu; og_alpha := alpha |} l a /\
             ogden_gradient {| og_mu := mu; og_alpha := alpha ++ x |} l a = ogden_gradient {| og_mu := mu; og_alpha := alpha |} l a) /\
  (forall v, ogden_hessian {| og_mu := mu ++ x; og_alpha := alpha |} l v = ogden_hessian {| og_mu := mu; og_alpha := alpha |} l v /\
             ogden_hessian {| og_mu := mu; og_alpha := alpha ++ x |} l v = ogden_hessian {| og_mu := mu; og_alpha := alpha |} l v).
Proof. exact (fun mu alpha x l H => conj (fun a => ogden_surplus mu alpha x l a H) (fun v => ogden_surplus_hessian mu alpha x l v H)). Qed.
Print Assumptions C10_surplus_ignored.
Example C10_example : forall m a, In (m, a) (combine [63/100; 12/10000; -1/100] [13/10; 5; -2]) -> a <> 0.
Proof. intros m a H; cbn in H. repeat destruct H as [H|H]; try (injection H as _ <-; lra); contradiction. Qed.

(** ** C11 *)
Theorem C11_strain_derivatives : forall l k, 0 < l -> k <> 0 ->
  is_derive (fun x => sE (strain x k)) l (sdE (strain l k)) /\
  is_derive (fun x => sdE (strain x k)) l (sd2E (strain l k)).
Proof. exact strain_D. Qed.
Print Assumptions C11_strain_derivatives.
Theorem C11_deformation_derivatives : forall l k, 0 < l ->
  is_derive (fun x => sE (deformation x k)) l (sdE (deformation l k)) /\
  is_derive (fun x => sdE (deformation x k)) l (sd2E (deformation l k)).
Proof. exact deformation_D. Qed.
Print Assumptions C11_deformation_derivatives.
(** The measures themselves and the reference values (exponent 2 at stretch 1). *)
Theorem C11_values : forall l k,
  sE (strain l k) = (Rpower l k - 1) / k /\ sE (deformation l k) = Rpower l k /\
  (sE0 (strain l k) = 0 /\ sdE0 (strain l k) = 1 /\ sd2E0 (strain l k) = 1) /\
  (sE0 (deformation l k) = 1 /\ sdE0 (deformation l k) = 2 /\ sd2E0 (deformation l k) = 2).
Proof. exact measure_values. Qed.
Print Assumptions C11_values.
Theorem C11_exponent_zero_raises : forall l,
  strain_fun 0 l = Raise ZeroDivisionError /\
  gen_init (strain_fun 0) = Raise ZeroDivisionError /\ gen_init (deformation_fun 0) = Raise ZeroDivisionError.
Proof. exact (fun l => conj (strain_fun_0 l) (conj gen_init_strain_0 gen_init_deformation_0)). Qed.
Print Assumptions C11_exponent_zero_raises.
Example C11_example : sE (strain 4 2) = 15 / 2 /\ sdE (strain 4 2) = 4 /\ sd2E (strain 4 2) = 1.
Proof.
  assert (P : forall x, Rpower 4 (IZR x) = powerRZ 4 x) by (intro x; symmetry; apply powerRZ_Rpower; lra).
  unfold strain, sth_E, sth_dE, sth_d2E; cbn [sE sdE sd2E]. replace (2 - 1) with (IZR 1) by (cbn; lra). replace (2 - 2) with (IZR 0) by (cbn; lra).
  rewrite !P. unfold powerRZ. change (Pos.to_nat 2) with 2%nat. change (Pos.to_nat 1) with 1%nat. repeat split; lra.
Qed.

(** ** C12 *)
Theorem C12_gradient : forall (SV : Type) (m : InvModel SV) fs c E E' E'' psi Dom,
  measure_of fs E E' E'' -> inv_gradient_of m psi Dom ->
  str_gradient_of (gen_model m fs c)
    (fun l => psi (gen_invariants E c l))
    (fun l => positive3 l /\ Dom (gen_invariants E c l)).
Proof. exact (fun SV m fs c E E' E'' psi Dom HM => gen_grad m fs c E E' E'' HM psi Dom). Qed.
Print Assumptions C12_gradient.
(** Missing for the full claim: models that return dWdI3 (see the refutation below). *)
Theorem C12_hessian_partial : forall (SV : Type) (m : InvModel SV) fs c E E' E'' psi Dom,
  measure_of fs E E' E'' -> inv_gradient_of m psi Dom -> inv_hessian_of m Dom ->
  str_hessian_of (gen_model m fs c)
    (fun l => positive3 l /\ Dom (gen_invariants E c l) /\
              forall sv g svn, inv_call m (gen_invariants E c l) sv = Ok (g, svn) -> val (o3 g X2) = 0).
Proof. exact (fun SV m fs c E E' E'' psi Dom HM => gen_hess_partial m fs c E E' E'' HM psi Dom). Qed.
Print Assumptions C12_hessian_partial.
(** psi = I3 satisfies both contracts, but the hessian of GeneralizedInvariants with the
    deformation measure of exponent 2 is not the derivative of its gradient. *)
Theorem C12_hessian_refuted : exists (m : InvModel unit) psi c,
  inv_gradient_of m psi everywhere /\ inv_hessian_of m everywhere /\
  gen_init (deformation_fun 2) = Ok c /\
  ~ str_hessian_of (gen_model m (deformation_fun 2) c) positive3.
Proof. exact gen_hessian_refuted. Qed.
Print Assumptions C12_hessian_refuted.
(** The error of the code, exactly: the mixed entry (a, b) of the hessian uses the literal 2, 0, 1 of the source
    (entries 12, 23, 13) in place of the third principal strain.  The gradient's derivative is the returned hessian
    plus dW/dI3 (E_c - literal) E'_a E'_b in the mixed entries; for every model that meets its contract. *)
Definition third (a b : ix3) : ix3 := match a, b with
  | X0, X1 | X1, X0 => X2 | X1, X2 | X2, X1 => X0 | _, _ => X1 end.
Definition literal (a b : ix3) : R := match a, b with
  | X0, X1 | X1, X0 => 2 | X1, X2 | X2, X1 => 0 | _, _ => 1 end.
Theorem C12_hessian_error : forall (SV : Type) (m : InvModel SV) fs c E E' E'' psi Dom,
  measure_of fs E E' E'' -> inv_gradient_of m psi Dom -> inv_hessian_of m Dom ->
  forall (l : R -> Vec3) t0 dl, dcurve3 l t0 dl -> positive3 (l t0) -> Dom (gen_invariants E c (l t0)) ->
  forall sv s, exists g svn h, inv_call m (gen_invariants E c (l t0)) sv = Ok (g, svn) /\
    returns (sm_hessian (gen_model m fs c) (l t0) sv) s h /\
    forall (svt : R -> SV) (st : R -> sm_self (gen_model m fs c)) (G : R -> Vec3),
      locally t0 (fun t => exists svn, returns (sm_gradient (gen_model m fs c) (l t) (svt t)) (st t) (G t, svn)) ->
      forall a, is_derive (fun t => G t a) t0 (sum3 (fun b =>
        (val (h (pos a b)) + (if ix3_eqb a b then 0 else val (o3 g X2) * (E (l t0 (third a b)) - literal a b) * (E' (l t0 a) * E' (l t0 b)))) * dl b)).
Proof.
  intros SV m fs c E E' E'' psi Dom HM Hg Hm l t0 dl Hl P D sv self.
  destruct (inv_gradient_exists m psi Dom Hg _ D sv) as (g0 & svn0 & E0).
  destruct (gen_dG_ok m fs c E E' E'' HM Dom Hm l t0 dl Hl P D sv) as (h & Eh & Hd).
  exists g0, svn0, (fun v => Some (gen_H c E E' E'' g0 h (l t0) v)). split; [exact E0|]. split.
  { destruct (gen_hessian_ok m fs c E E' E'' HM (l t0) sv g0 svn0 h P E0 Eh self) as (self' & Er). exists self'; exact Er. }
  intros svt st G HG k. destruct (Hd svt st G HG) as (g & svn & Eg & HD).
  eapply Calc.D_eq; [apply HD|].
  assert (U := inv_gradient_unique m psi Dom Hg _ D _ _ _ _ _ _ Eg E0).
  unfold gen_dG, gen_H. cbv zeta. unfold sum3. rewrite !U.
  destruct k; cbn [pos ga6 gb6 mixed val gb gg gEg gdI third literal ix3_eqb]; ring.
Qed.
Print Assumptions C12_hessian_error.
(** The library's measures satisfy the hypothesis. *)
Theorem C12_measures : forall k, k <> 0 ->
  measure_of (strain_fun k) (fun l => (Rpower l k - 1) / k) (fun l => Rpower l (k - 1)) (fun l => (k - 1) * Rpower l (k - 2)) /\
  measure_of (deformation_fun k) (fun l => Rpower l k) (fun l => k * Rpower l (k - 1)) (fun l => k * (k - 1) * Rpower l (k - 2)).
Proof. exact (fun k Hk => conj (strain_measure k Hk) (deformation_measure k)). Qed.
Print Assumptions C12_measures.
(** All hypotheses of C12_gradient and C12_hessian_partial hold, e.g., for ThirdOrderDeformation with
    the deformation measure of exponent 3 (k = 3 is neither 1 nor 2). *)
Example C12_example : forall m : TOD, exists c E E' E'' psi, gen_init (deformation_fun 3) = Ok c /\ measure_of (deformation_fun 3) E E' E'' /\
  inv_gradient_of (tod_model (SV:=unit) m) psi everywhere /\ inv_hessian_of (tod_model (SV:=unit) m) everywhere /\
  forall l, positive3 l -> forall sv g svn, inv_call (tod_model (SV:=unit) m) (gen_invariants E c l) sv = Ok (g, svn) -> val (o3 g X2) = 0.
Proof.
  intro m. destruct (C12_measures 3) as [_ HM]; [lra|]. do 5 eexists.
  split; [apply gen_init_deformation; lra|]. split; [exact HM|]. split; [exact (tod_grad m)|]. split; [exact (tod_hess m)|].
  intros l _ sv g svn E. match type of E with inv_call _ ?J _ = _ => destruct (C09_none_exactly unit m J sv) as (g' & E' & _ & _ & D) end. rewrite E' in E. injection E as <- _. rewrite D. reflexivity.
Qed.

(** ** C13.  [l] is any twice differentiable isochoric path of principal stretches through
    the undeformed state at t = 1; the force along the path is sum_a dW/dlambda_a lambda_a'.
    Its slope at t = 1 does not contain the exponent [k]. *)
Theorem C13_deformation : forall (SV : Type) (m : InvModel SV) psi Dom k c l dl ddl g svn sv0,
  k <> 0 -> gen_init (deformation_fun k) = Ok c ->
  inv_gradient_of m psi Dom -> inv_hessian_of m Dom -> Dom (vec3 3 3 1) ->
  inv_call m (vec3 3 3 1) sv0 = Ok (g, svn) ->
  isochoric_path l dl ddl ->
  forall svt st G,
  locally 1 (fun t => exists svn, returns (sm_gradient (gen_model m (deformation_fun k) c) (l t) (svt t)) (st t) (G t, svn)) ->
  is_derive (fun t => sum3 (fun a => G t a * dl t a)) 1
    ((dl 1 X0 ^ 2 + dl 1 X1 ^ 2 + dl 1 X2 ^ 2) * (4 * (val (o3 g X0) + val (o3 g X1)))).
Proof. exact (fun SV => stiffness_deformation). Qed.
Print Assumptions C13_deformation.
Theorem C13_strain : forall (SV : Type) (m : InvModel SV) psi Dom k c l dl ddl g svn sv0,
  k <> 0 -> gen_init (strain_fun k) = Ok c ->
  inv_gradient_of m psi Dom -> inv_hessian_of m Dom -> Dom (vec3 0 0 0) ->
  inv_call m (vec3 0 0 0) sv0 = Ok (g, svn) ->
  isochoric_path l dl ddl ->
  forall svt st G,
  locally 1 (fun t => exists svn, returns (sm_gradient (gen_model m (strain_fun k) c) (l t) (svt t)) (st t) (G t, svn)) ->
  is_derive (fun t => sum3 (fun a => G t a * dl t a)) 1
    ((dl 1 X0 ^ 2 + dl 1 X1 ^ 2 + dl 1 X2 ^ 2) * (2 * val (o3 g X0) - val (o3 g X1))).
Proof. exact (fun SV => stiffness_strain). Qed.
Print Assumptions C13_strain.
(** Uniaxial, planar and biaxial loading are such paths, with slopes 3/2, 2 and 6 times
    the bracket. *)
Theorem C13_load_cases :
  (exists dd, isochoric_path (fun t a => match a with X0 => t | _ => Rpower t (-1/2) end) d_uniaxial dd) /\
  (exists dd, isochoric_path (fun t a => match a with X0 => t | X1 => 1 | X2 => Rpower t (-1) end) d_planar dd) /\
  (exists dd, isochoric_path (fun t a => match a with X2 => Rpower t (-2) | _ => t end) d_biaxial dd).
Proof. exact loadcases_isochoric. Qed.
Print Assumptions C13_load_cases.
Theorem C13_load_case_factors :
  let q d := d X0 ^ 2 + d X1 ^ 2 + d X2 ^ 2 in
  q (d_uniaxial 1) = 3 / 2 /\ q (d_planar 1) = 2 /\ q (d_biaxial 1) = 6.
Proof. exact loadcase_factors. Qed.
Print Assumptions C13_load_case_factors.
Theorem C13_constants : forall k, k <> 0 ->
  gen_init (deformation_fun k) = Ok {| gc1 := 4 / k ^ 2; gc2 := 4 / k ^ 2; gI10 := 3; gI20 := 3; gI30 := 1 |} /\
  gen_init (strain_fun k) = Ok {| gc1 := 2 / k; gc2 := 1; gI10 := 0; gI20 := 0; gI30 := 0 |}.
Proof. exact (fun k H => conj (gen_init_deformation k H) (gen_init_strain k H)). Qed.
Print Assumptions C13_constants.
(** The hypotheses of C12 and C13 are met, e.g., by every ThirdOrderDeformation model: the
    gradient call returns at every positive stretch triple. *)
Example C13_hypotheses_met : forall k m c, k <> 0 -> gen_init (deformation_fun k) = Ok c ->
  (exists g svn, inv_call (tod_model m) (vec3 3 3 1) tt = Ok (g, svn)) /\
  exists G, locally 1 (fun t => exists svn,
    returns (sm_gradient (gen_model (tod_model m) (deformation_fun k) c) (lc_uniaxial t) tt) gen_self0 (G t, svn)).
Proof. exact gen_example. Qed.
