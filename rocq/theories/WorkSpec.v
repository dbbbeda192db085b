(** * Specification of the energy balance (C51): motions, stresses along a motion, power.

    Only the interface of Spaces.v (calls of [gradient]) and ordinary calculus occur here. *)
From Coq Require Import Reals.
From Coquelicot Require Import Coquelicot.
From Verif Require Import Tensor Py Voigt Models Frameworks Spaces Spec.
Local Open Scope R_scope.

(** A continuously differentiable motion: the deformation gradient F(t) and its rate dF(t)
    for every t of the open interval (lo, hi). *)
Definition motion (F dF : R -> T2) (lo hi : R) : Prop := forall t, lo < t < hi ->
  dcurve2 F t (dF t) /\ forall i j, continuous (fun u => dF u i j) t.
(** P(t) is what a call of gradient([F(t), statevars]) returns, for whatever state variables
    [sv t] and attributes [st t] of the object at that time. *)
Definition stress_along {SV X} (grad : T2 -> SV -> PY X (StressOut * SV)) (sv : R -> SV) (st : R -> X)
    (F P : R -> T2) (lo hi : R) : Prop :=
  forall t, lo < t < hi -> exists svn, returns (grad (F t) (sv t)) (st t) (StressFull (P t), svn).
(** The stress power P : dF/dt *)
Definition power (P dF : R -> T2) (t : R) : R := dc22 (P t) (dF t).
(** The tensor a space hands to the framework, according to the documentation. *)
Definition sees (k : SpaceKind) (C : T2) : T2 :=
  match k with KDeformation => C | KDistortional => distortional_part C | KDilatational => dilatational_part C end.
(** The gradient returned by a framework is differentiable along every differentiable path. *)
Definition smooth_gradient {SV} (fw : Framework SV) (Dom : T2 -> Prop) : Prop :=
  forall (C : R -> T2) t0 dC, (forall t, sym2 (C t)) -> dcurve2 C t0 dC -> Dom (C t0) ->
  forall (svt : R -> SV) (st : R -> fw_self fw) (G : R -> Vec6),
    locally t0 (fun t => exists svn, returns (fw_gradient fw (asvoigt (C t)) (svt t)) (st t) (G t, svn)) ->
    exists dG, dcurve2 (fun t => astensor (G t)) t0 dG.
