(** * Specification for C77: the potential energy of a body under dead loads. *)
From Coq Require Import Reals List.
From Coquelicot Require Import Coquelicot.
From Verif Require Import Tensor Py Voigt Models Frameworks Spaces Spec NewtonSpec.
Import ListNotations.
Local Open Scope R_scope.

(** psi is a stored energy of the material: its rate along every motion is the power of the returned stress. *)
Definition energy_of (M : PointMaterial) (psi : T2 -> R) : Prop := forall F H P, invertible F -> pm_stress M F P ->
  is_derive (fun t => psi (along F H t)) 0 (dc22 P H).
(** Every tangent it returns has the major symmetry. *)
Definition symmetric_tangent (M : PointMaterial) : Prop := forall F A, pm_tangent M F A -> major4 A.

(** *** The energies of the library's materials *)
(** The polynomial documented for ThirdOrderDeformation. *)
Definition tod_psi (m : TOD) (i1 i2 : R) : R :=
  C10 m * (i1 - undeformed m) + C01 m * (i2 - undeformed m) + C11 m * ((i1 - undeformed m) * (i2 - undeformed m))
  + C20 m * (i1 - undeformed m) ^ 2 + C30 m * (i1 - undeformed m) ^ 3.
(** sum over the terms of 2 mu / alpha^2 (l1^alpha + l2^alpha + l3^alpha - 3) *)
Definition ogden_psi (mu alpha : list R) (l : Vec3) : R := fold_right Rplus 0
  (map (fun t => 2 * fst t / snd t ^ 2 * (Rpower (l X0) (snd t) + Rpower (l X1) (snd t) + Rpower (l X2) (snd t) - 3)) (combine mu alpha)).
Inductive library_energy (lapack : Lapack) : PointMaterial -> (T2 -> R) -> Prop :=
| en_tod m : library_energy lapack (material KDeformation (invariants_fw (tod_model m)) tt)
    (fun F => let C := cauchy_green F in tod_psi m (inv1 C) (inv2 C))
| en_tod_isochoric m : library_energy lapack (material KDistortional (invariants_fw (tod_model m)) tt)
    (fun F => let C := distortional_part (cauchy_green F) in tod_psi m (inv1 C) (inv2 C))
| en_neo_hooke c : library_energy lapack (material KDilatational (invariants_fw (tod_model (tod_init c 0 0 0 0 false))) tt)
    (fun F => c * (inv1 (dilatational_part (cauchy_green F)) - 3))
| en_ogden mu alpha W : (forall m a, In (m, a) (combine mu alpha) -> a <> 0) -> stretch_energy (ogden_psi mu alpha) W ->
    library_energy lapack (material KDeformation (stretches_fw lapack (ogden_model {| og_mu := mu; og_alpha := alpha |})) tt)
      (fun F => W (cauchy_green F))
| en_ogden_isochoric mu alpha W : (forall m a, In (m, a) (combine mu alpha) -> a <> 0) -> stretch_energy (ogden_psi mu alpha) W ->
    library_energy lapack (material KDistortional (stretches_fw lapack (ogden_model {| og_mu := mu; og_alpha := alpha |})) tt)
      (fun F => W (distortional_part (cauchy_green F)))
| en_generalized m fs c E E' E'' W : measure_of fs E E' E'' ->
    stretch_energy (fun l => tod_psi m (gen_invariants E c l X0) (gen_invariants E c l X1)) W ->
    library_energy lapack (material KDeformation (stretches_fw lapack (gen_model (tod_model m) fs c)) tt) (fun F => W (cauchy_green F))
| en_generalized_isochoric m fs c E E' E'' W : measure_of fs E E' E'' ->
    stretch_energy (fun l => tod_psi m (gen_invariants E c l X0) (gen_invariants E c l X1)) W ->
    library_energy lapack (material KDistortional (stretches_fw lapack (gen_model (tod_model m) fs c)) tt)
      (fun F => W (distortional_part (cauchy_green F))).

(** w . K w *)
Definition quad (n : nat) (K : nat -> nat -> R) (w : nat -> R) : R := sumn n (fun a => sumn n (fun b => w a * K a b * w b)).
Definition some_entry (n : nat) (w : nat -> R) : Prop := exists a, (a < n)%nat /\ w a <> 0.
Definition positive_definite (n : nat) (K : nat -> nat -> R) : Prop := forall w, some_entry n w -> 0 < quad n K w.
Definition step (u : nat -> R) (t : R) (w : nat -> R) : nat -> R := fun a => u a + t * w a.

Section Potential.
  Variables (n : nat) (body : list (QPoint * (T2 -> R))) (load : nat -> R).
  Definition points : list QPoint := map fst body.
  (** stored energy minus the work of the loads *)
  Definition potential (u : nat -> R) : R :=
    fold_right Rplus 0 (map (fun x => q_weight (fst x) * snd x (deformed n u (fst x))) body) - sumn n (fun a => load a * u a).
  Definition stable (u : nat -> R) : Prop := exists K, stiffness n points u K /\ positive_definite n K.
  (** No other displacement near us has an energy as low; the energy grows quadratically. *)
  Definition strict_minimum (us : nat -> R) : Prop := exists r c, 0 < r /\ 0 < c /\
    forall u, within n r u us -> forall a, (a < n)%nat -> c * (u a - us a) ^ 2 <= potential u - potential us.
  Definition local_minimum (us : nat -> R) : Prop := exists r, 0 < r /\ forall u, within n r u us -> potential us <= potential u.
  (** There is no other equilibrium near us. *)
  Definition isolated (us : nat -> R) : Prop := exists r, 0 < r /\
    forall v, within n r v us -> equilibrium n points load v -> forall a, (a < n)%nat -> v a = us a.
End Potential.
