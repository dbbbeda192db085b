(** * GeneralizedInvariantsModel(ThirdOrderDeformation) in rounded arithmetic.

    The expressions that models/generalized/_stretch.py and
    models/stretches/_generalized_invariants.py evaluate (one entry of the trailing axes), with
    the operations and the grouping of the source.  The material returns None for dW/dI3 and for all
    second derivatives but 11 and 12 (_third_order_deformation.py:54-103), so the branches of those
    are skipped. *)
From Coq Require Import Reals List.
From Verif Require Import Tensor Py Voigt Models Rounded RoundedCode RoundedStretch.
Import ListNotations.
Local Open Scope R_scope.

(** ** Strain measures: _stretch.py *)
Record XStrain := { xE : expr -> expr; xdE : expr -> expr; xd2E : expr -> expr }.
(** strain, lines 7-9 *)
Definition x_strain (k : R) : XStrain :=
  {| xE := fun l => Div (Sub (Pow l k) (Num 1)) (Num k);
     xdE := fun l => Pow l (k - 1);
     xd2E := fun l => Mul (Sub (Num k) (Num 1)) (Pow l (k - 2)) |}.
(** deformation, lines 25-27 *)
Definition x_deformation (k : R) : XStrain :=
  {| xE := fun l => Pow l k;
     xdE := fun l => Mul (Num k) (Pow l (k - 1));
     xd2E := fun l => Mul (Mul (Num k) (Sub (Num k) (Num 1))) (Pow l (k - 2)) |}.
(** The two functions of the library, with the exponent; the reference is the same function with
    exponent 2 (lines 11-13, 29-31). *)
Inductive Measure := MStrain (k : R) | MDeformation (k : R).
Definition exponent (M : Measure) : R := match M with MStrain k | MDeformation k => k end.
Definition x_measure (M : Measure) : XStrain := match M with MStrain k => x_strain k | MDeformation k => x_deformation k end.
Definition x_reference (M : Measure) : XStrain := match M with MStrain _ => x_strain 2 | MDeformation _ => x_deformation 2 end.
Definition measure_fun (M : Measure) : R -> Result StrainVal := match M with MStrain k => strain_fun k | MDeformation k => deformation_fun k end.

Section Gen.
  Variables (m : TOD) (M : Measure).
  Notation S := (x_measure M).
  Notation S0 := (x_reference M).
  (** __init__: _generalized_invariants.py:211-225, at the stretch 1 *)
  Definition x_c1_upper : expr := Mul (Div (Num 3) (Num 2)) (Add (xd2E S0 (Num 1)) (xdE S0 (Num 1))).
  Definition x_c1_lower : expr := Mul (Div (Num 3) (Num 2)) (Add (xd2E S (Num 1)) (xdE S (Num 1))).
  Definition x_c2_upper : expr := Sub (Mul (Mul (Num 3) (Add (xd2E S0 (Num 1)) (xdE S0 (Num 1)))) (xE S0 (Num 1)))
                                      (Mul (Div (Num 3) (Num 2)) (sq (xdE S0 (Num 1)))).
  Definition x_c2_lower : expr := Sub (Mul (Mul (Num 3) (Add (xd2E S (Num 1)) (xdE S (Num 1)))) (xE S (Num 1)))
                                      (Mul (Div (Num 3) (Num 2)) (sq (xdE S (Num 1)))).
  Definition x_c1 : expr := Div x_c1_upper x_c1_lower.
  Definition x_c2 : expr := Div x_c2_upper x_c2_lower.
  Definition x_I10 : expr := Mul (Num 3) (xE S (Num 1)).
  Definition x_I20 : expr := Mul (Num 3) (sq (xE S (Num 1))).

  Variable l : ix3 -> expr.
  (** gradient: lines 232-266 *)
  Definition x_gE (a : ix3) : expr := xE S (l a).
  Definition x_gdE (a : ix3) : expr := xdE S (l a).
  Definition x_gd2E (a : ix3) : expr := xd2E S (l a).
  Definition x_gI1 : expr := Sub (Mul x_c1 (Add (Add (x_gE X0) (x_gE X1)) (x_gE X2))) (Mul x_I10 (Sub x_c1 (Num 1))).
  Definition x_gI2 : expr := Sub (Mul x_c2 (Add (Add (Mul (x_gE X0) (x_gE X1)) (Mul (x_gE X1) (x_gE X2))) (Mul (x_gE X2) (x_gE X0))))
                                 (Mul x_I20 (Sub x_c2 (Num 1))).
  Definition x_dI1 (a : ix3) : expr := Mul x_c1 (Num 1).
  Definition x_dI2 (a : ix3) : expr := Mul x_c2 (Add (x_gE (gb a)) (x_gE (gg a))).
  Definition x_accum (w : option expr) (acc : expr) (f : expr -> expr) : expr := match w with Some w => Add acc (f w) | None => acc end.
  Definition x_gen_gradient (a : ix3) : expr :=
    let '(w1, w2) := x_tod_gradient m x_gI1 x_gI2 in
    let dW := Num 0 in
    let dW := x_accum w1 dW (fun w => Mul (Mul w (x_dI1 a)) (x_gdE a)) in
    x_accum w2 dW (fun w => Mul (Mul w (x_dI2 a)) (x_gdE a)).
  (** hessian: lines 268-338; entries 3: get lines 317-319, entries :3 get lines 329-333 *)
  Definition x_gen_hessian (k : ix6) : expr :=
    let '(w1, w2) := x_tod_gradient m x_gI1 x_gI2 in
    let '(w11, w12) := x_tod_hessian m x_gI1 in
    let a := ga6 k in let b := gb6 k in
    let H := Num 0 in
    let H := x_accum w11 H (fun d => Mul (Mul d (x_dI1 a)) (x_dI1 b)) in
    let H := x_accum w12 H (fun d => Mul d (Add (Mul (x_dI1 a) (x_dI2 b)) (Mul (x_dI2 a) (x_dI1 b)))) in
    let H := if mixed k then x_accum w2 H (fun w => Mul w x_c2) else H in
    let H := Mul H (Mul (x_gdE a) (x_gdE b)) in
    if mixed k then H else
      x_accum w2 (x_accum w1 H (fun w => Mul (Mul w (x_dI1 a)) (x_gd2E a))) (fun w => Mul (Mul w (x_dI2 a)) (x_gd2E a)).
End Gen.
Definition gen_x (m : TOD) (M : Measure) : XModel :=
  {| xm_gradient := fun l => x_gen_gradient m M l; xm_hessian := fun l => x_gen_hessian m M l |}.
