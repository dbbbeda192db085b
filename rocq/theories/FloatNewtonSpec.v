(** * Specification for C80, floating point: Newton's method with stresses and tangents of
    ThirdOrderDeformation in Deformation computed in arithmetic with relative rounding error eps (C53, C54). *)
From Coq Require Import Reals List.
From Verif Require Import Tensor Py Voigt Models Frameworks Spaces Spec NewtonSpec.
From Verif Require Rounded RoundedCode.
Import ListNotations.
Local Open Scope R_scope.

Record FPoint := { fp_weight : R; fp_model : TOD; fp_F0 : T2; fp_shape : nat -> T2 }.
Definition exact_point (q : FPoint) : QPoint := {| q_weight := fp_weight q; q_material := material KDeformation (invariants_fw (tod_model (fp_model q))) tt;
  q_F0 := fp_F0 q; q_shape := fp_shape q |}.
(** every value the computed stress and tangent may have, for every order of the additions *)
Definition computed_stress (eps : R) (m : TOD) (F P : T2) : Prop := forall i J,
  Rounded.rounded eps (RoundedCode.x_stress Deformed Undeformed m (RoundedCode.in33 F) i J) (P i J).
Definition computed_tangent (eps : R) (m : TOD) (F : T2) (A : T4) : Prop := forall i J k L,
  Rounded.rounded eps (RoundedCode.x_elasticity m (RoundedCode.in33 F) i J k L) (A i J k L).
(** ... at a deformation gradient that is itself evaluated with an error of at most delta per entry *)
Definition stress_near (eps delta : R) (m : TOD) (F P : T2) : Prop := exists f, near delta f F /\ computed_stress eps m f P.
Definition tangent_near (eps delta : R) (m : TOD) (F : T2) (A : T4) : Prop := exists f, near delta f F /\ computed_tangent eps m f A.
Section FloatNewton.
  Variables (n : nat) (body : list FPoint) (load us : nat -> R).
  (** One iteration: computed stresses and tangents; deformation gradients, assembly and solution with errors of
      at most delta. *)
  Definition float_step (eps delta : R) (u v : nat -> R) : Prop := exists P A rt Kt,
    List.Forall2 (fun q p => stress_near eps delta (fp_model q) (deformed n u (exact_point q)) p) body P /\
    List.Forall2 (fun q a => tangent_near eps delta (fp_model q) (deformed n u (exact_point q)) a) body A /\
    (forall a, (a < n)%nat -> Rabs (rt a - (fold_right Rplus 0 (map (fun qp => fp_weight (fst qp) * dc22 (snd qp) (fp_shape (fst qp) a)) (combine body P)) - load a)) <= delta) /\
    (forall a b, (a < n)%nat -> (b < n)%nat ->
      Rabs (Kt a b - fold_right Rplus 0 (map (fun qp => fp_weight (fst qp) * dc22 (fp_shape (fst qp) a) (dc42 (snd qp) (fp_shape (fst qp) b))) (combine body A))) <= delta) /\
    forall a, (a < n)%nat -> Rabs (sumn n (fun b => Kt a b * (v b - u b)) + rt a) <= delta.
  (** Runs end, and stay, within a distance of the exact equilibrium proportional to the errors. *)
  Definition float_newton_converges : Prop := exists r eps0 c, 0 < r /\ 0 < eps0 /\ 0 <= c /\
    forall eps delta (u : nat -> nat -> R), 0 <= eps <= eps0 -> 0 <= delta <= eps0 -> within n r (u O) us ->
      (forall i, float_step eps delta (u i) (u (S i))) -> forall i, within n (r / 2 ^ i + c * (eps + delta)) (u i) us.
End FloatNewton.
