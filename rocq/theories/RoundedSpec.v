(** * Magnitudes for the rounding-error bounds of the Deformation space (C54).

    The usual formulas of a third-order-deformation material with every term replaced by
    its absolute value.  Nothing here models code. *)
From Coq Require Import Reals.
From Verif Require Import Tensor Models.
Local Open Scope R_scope.

Definition abs2 (F : T2) : T2 := fun i j => Rabs (F i j).
(** |F|^T |F|, and its first two invariants without cancellation *)
Definition abs_C (F : T2) : T2 := cauchy_green (abs2 F).
Definition abs_I1 (F : T2) : R := tr2 (abs_C F).
Definition abs_I2 (F : T2) : R := (abs_I1 F ^ 2 + dc22 (abs_C F) (abs_C F)) / 2.
(** derivatives of the energy, with [I0] the value of the invariants at the undeformed state (3 or 0) *)
Definition abs_W1 (m : TOD) (F : T2) : R :=
  let I0 := Rabs (undeformed m) in
  Rabs (C10 m) + Rabs (C11 m) * (abs_I2 F + I0) + Rabs (C20 m) * 2 * (abs_I1 F + I0)
  + Rabs (C30 m) * 3 * (abs_I1 F + I0) ^ 2.
Definition abs_W2 (m : TOD) (F : T2) : R :=
  let I0 := Rabs (undeformed m) in Rabs (C01 m) + Rabs (C11 m) * (abs_I1 F + I0).
Definition abs_W11 (m : TOD) (F : T2) : R :=
  let I0 := Rabs (undeformed m) in Rabs (C20 m) * 2 + Rabs (C30 m) * 6 * (abs_I1 F + I0).
(** second Piola-Kirchhoff stress 2 (W1 1 + W2 (I1 1 + C)) *)
Definition abs_dI2 (F : T2) : T2 := fun I J => abs_I1 F * delta I J + abs_C F I J.
Definition abs_S (m : TOD) (F : T2) : T2 := fun I J =>
  2 * (abs_W1 m F * delta I J + abs_W2 m F * abs_dI2 F I J).
(** first Piola-Kirchhoff stress |F| S *)
Definition abs_P (m : TOD) (F : T2) : T2 := mmul (abs2 F) (abs_S m F).
(** Kirchhoff stress |F| S |F|^T *)
Definition abs_tau (m : TOD) (F : T2) : T2 := mmul (abs_P m F) (mtr (abs2 F)).
(** elasticity tensor *)
Definition abs_H (m : TOD) (F : T2) : T4 := fun I J K L =>
  abs_W2 m F * (delta I J * delta K L + (delta I K * delta J L + delta I L * delta J K) / 2)
  + abs_W11 m F * (delta I J * delta K L)
  + Rabs (C11 m) * (delta I J * abs_dI2 F K L + abs_dI2 F I J * delta K L).
Definition abs_A (m : TOD) (F : T2) : T4 := fun i J k L =>
  sum3 (fun I => sum3 (fun K => Rabs (F i I) * Rabs (F k K) * (4 * abs_H m F I J K L)))
  + delta i k * abs_S m F J L.
(** determinant of a symmetric tensor, all terms positive *)
Definition abs_det (A : T2) : R :=
  let a i j := Rabs (A i j) in
  a X0 X0 * a X1 X1 * a X2 X2 + 2 * (a X0 X1 * a X1 X2 * a X0 X2)
  + a X1 X2 ^ 2 * a X0 X0 + a X0 X2 ^ 2 * a X1 X1 + a X0 X1 ^ 2 * a X2 X2.

Definition next3 (i : ix3) : ix3 := match i with X0 => X1 | X1 => X2 | X2 => X0 end.
(** cofactors of a symmetric tensor, both terms positive *)
Definition abs_cof (A : T2) (i j : ix3) : R :=
  let a i j := Rabs (A i j) in
  a (next3 i) (next3 j) * a (next3 (next3 i)) (next3 (next3 j))
  + a (next3 i) (next3 (next3 j)) * a (next3 (next3 i)) (next3 j).
