(** * Specification for C61: small strains.  Nothing here models code. *)
From Coq Require Import Reals List.
From Coquelicot Require Import Coquelicot.
From Verif Require Import Tensor Py Models Lab.
Local Open Scope R_scope.

(** The curve is defined for positive stretches, is zero at stretch 1 and has the slope v there. *)
Definition initial_slope (curve : list R -> Result (list R)) (v : R) : Prop := exists f,
  (forall xs, (forall x, In x xs -> 0 < x) -> curve xs = Ok (map f xs)) /\ f 1 = 0 /\ is_derive f 1 v.
(** Slopes of an incompressible body with shear modulus 1, force per undeformed area. *)
Definition unit_slope (lc : R -> T2) (c : R) : Prop := (lc = uniaxial /\ c = 3) \/ (lc = planar /\ c = 4) \/ (lc = biaxial /\ c = 6).
(** Continuity of a function of two invariants at the undeformed state. *)
Definition continuous_33 (f : R -> R -> R) : Prop := forall e, 0 < e -> exists d, 0 < d /\
  forall x y, Rabs (x - 3) < d -> Rabs (y - 3) < d -> Rabs (f x y - f 3 3) < e.
(** Linear isotropic elasticity of an incompressible body: twice mu times the deviatoric part of
    the symmetric part of the displacement gradient H. *)
Definition dev_sym (H : T2) : T2 := fun i j => (H i j + H j i) / 2 - sum3 (fun k => H k k) / 3 * delta i j.
