(** * The code in rounded arithmetic.

    The functions of math/_voigt.py, the Invariants framework, the ThirdOrderDeformation
    model and the Deformation space as the expressions they evaluate, with the operations
    and the grouping of the source (one entry of the trailing axes).  [Sum]/[Prod] stand
    for np.sum and np.einsum (any order).  [**2] is numpy's [square] (one
    multiplication).  Index-only functions (asvoigt, astensor, transpose) evaluate
    nothing. *)
From Coq Require Import Reals List.
From Verif Require Import Tensor Py Voigt Models Spaces Rounded.
Import ListNotations.
Local Open Scope R_scope.

Definition XV := ix6 -> expr.
Definition XM := ix6 -> ix6 -> expr.
Definition XT2 := ix3 -> ix3 -> expr.
Definition XT4 := ix3 -> ix3 -> ix3 -> ix3 -> expr.
Definition all3 : list ix3 := [X0; X1; X2].
Definition all6 : list ix6 := [V0; V1; V2; V3; V4; V5].

(** Arrays of input numbers. *)
Definition in6 (A : Vec6) : XV := fun v => Num (A v).
Definition in66 (A : Mat6) : XM := fun v w => Num (A v w).
Definition in33 (A : T2) : XT2 := fun i j => Num (A i j).

(** asvoigt / astensor: _voigt.py:89-93, 214-221 *)
Definition x_asvoigt (A : XT2) : XV := fun v => A (vi v) (vj v).
Definition x_astensor (A : XV) : XT2 := fun i j => A (vix i j).
Definition x_astensor4 (A : XM) : XT4 := fun i j k l => A (vix i j) (vix k l).
(** trace: _voigt.py:286  [np.sum(A[:3], axis=0)] *)
Definition x_trace (A : XV) : expr := Sum [A V0; A V1; A V2].
(** det: _voigt.py:375-381, left to right *)
Definition sq (a : expr) : expr := Mul a a.
Definition x_det (A : XV) : expr :=
  Sub (Sub (Sub (Add (Mul (Mul (A V0) (A V1)) (A V2))
                     (Mul (Mul (Mul (Num 2) (A V3)) (A V4)) (A V5)))
                (Mul (sq (A V4)) (A V0)))
           (Mul (sq (A V5)) (A V1)))
      (Mul (sq (A V3)) (A V2)).
(** inv: _voigt.py:427-447 *)
Definition x_inv (A : XV) (determinant : option expr) : XV :=
  let detA := match determinant with None => x_det A | Some d => d end in
  fun v => Div (Sub (Mul (A (inv_i v)) (A (inv_j v))) (Mul (A (inv_k v)) (A (inv_l v)))) detA.
(** dot: _voigt.py:498-511 *)
Definition mul3 (a b c d e f : expr) : expr := Add (Add (Mul a b) (Mul c d)) (Mul e f).
Definition x_dot (A B : XV) : XT2 := fun i j =>
  match i, j with
  | X0, X0 => mul3 (A V0) (B V0) (A V3) (B V3) (A V5) (B V5)
  | X1, X1 => mul3 (A V3) (B V3) (A V1) (B V1) (A V4) (B V4)
  | X2, X2 => mul3 (A V4) (B V4) (A V5) (B V5) (A V2) (B V2)
  | X0, X1 => mul3 (A V0) (B V3) (A V3) (B V1) (A V5) (B V4)
  | X1, X2 => mul3 (A V3) (B V5) (A V1) (B V4) (A V4) (B V2)
  | X0, X2 => mul3 (A V0) (B V5) (A V3) (B V4) (A V5) (B V2)
  | X1, X0 => mul3 (A V3) (B V0) (A V1) (B V3) (A V4) (B V5)
  | X2, X1 => mul3 (A V5) (B V3) (A V4) (B V1) (A V2) (B V4)
  | X2, X0 => mul3 (A V5) (B V0) (A V4) (B V3) (A V2) (B V5)
  end.
(** eye: _voigt.py:552 *)
Definition x_eye : XV := fun v => Num (eye v).
(** ddot: _voigt.py:635-643, einsum over the weighted products *)
Definition x_ddot22 (A B : XV) : expr := Sum (map (fun i => Prod [A i; B i; Num (weights i)]) all6).
Definition x_ddot44 (A B : XM) : XM := fun i j => Sum (map (fun k => Prod [A i k; B k j; Num (weights k)]) all6).
Definition x_ddot42 (A : XM) (B : XV) : XV := fun i => Sum (map (fun j => Prod [A i j; B j; Num (weights j)]) all6).
Definition x_ddot24 (A : XV) (B : XM) : XV := fun j => Sum (map (fun i => Prod [A i; B i j; Num (weights i)]) all6).
(** dya: _voigt.py:697-701 *)
Definition x_dya (A B : XV) : XM := fun v w => Mul (A v) (B w).
(** dev: _voigt.py:725 *)
Definition x_dev (A : XV) : XV := fun v => Sub (A v) (Mul (Div (x_trace A) (Num 3)) (x_eye v)).
(** cdya_ik, cdya_il: _voigt.py:779, 833 *)
Definition x_cdya_ik (A B : XV) : XT4 := fun i j k l => x_astensor4 (x_dya A B) i k j l.
Definition x_cdya_il (A B : XV) : XT4 := fun i j k l => x_astensor4 (x_dya A B) i l k j.
(** cdya: _voigt.py:913-947 *)
Definition x_cdya_value (same : bool) (A B : XV) (v w : ix6) : expr :=
  let i := vi v in let j := vj v in let k := vi w in let l := vj w in
  let ik := vix i k in let jl := vix j l in let il := vix i l in let kj := vix k j in
  let values := Add (Mul (A ik) (B jl)) (Mul (A il) (B kj)) in
  if same then Div values (Num 2)
  else Div (Add values (Add (Mul (B ik) (A jl)) (Mul (B il) (A kj)))) (Num 4).
Definition x_cdya (same : bool) (A B : XV) : XM := fun v w =>
  if ix6_leb v w then x_cdya_value same A B v w else x_cdya_value same A B w v.

(** ** ThirdOrderDeformation: _third_order_deformation.py:54-103.  [None += x] (which would
    raise) does not occur: each [+=] is guarded by the condition that made the variable 0. *)
Definition x_iadd (x : option expr) (y : expr) : option expr :=
  match x with Some x => Some (Add x y) | None => None end.
Definition x_tod_gradient (m : TOD) (I1 I2 : expr) : option expr * option expr :=
  let dWdI1 := if (nonzero (C10 m) || nonzero (C11 m) || nonzero (C20 m) || nonzero (C30 m))%bool
               then Some (Num 0) else None in
  let dWdI2 := if (nonzero (C01 m) || nonzero (C11 m))%bool then Some (Num 0) else None in
  let dWdI1 := if nonzero (C10 m) then x_iadd dWdI1 (Num (C10 m)) else dWdI1 in
  let dWdI2 := if nonzero (C01 m) then x_iadd dWdI2 (Num (C01 m)) else dWdI2 in
  let dWdI1 := if nonzero (C11 m) then x_iadd dWdI1 (Mul (Num (C11 m)) (Sub I2 (Num (undeformed m)))) else dWdI1 in
  let dWdI2 := if nonzero (C11 m) then x_iadd dWdI2 (Mul (Num (C11 m)) (Sub I1 (Num (undeformed m)))) else dWdI2 in
  let dWdI1 := if nonzero (C20 m) then x_iadd dWdI1 (Mul (Mul (Num (C20 m)) (Num 2)) (Sub I1 (Num (undeformed m)))) else dWdI1 in
  let dWdI1 := if nonzero (C30 m) then x_iadd dWdI1 (Mul (Mul (Num (C30 m)) (Num 3)) (sq (Sub I1 (Num (undeformed m))))) else dWdI1 in
  (dWdI1, dWdI2).
Definition x_tod_hessian (m : TOD) (I1 : expr) : option expr * option expr :=
  (if (nonzero (C20 m) || nonzero (C30 m))%bool
   then Some (Add (Mul (Num (C20 m)) (Num 2)) (Mul (Mul (Num (C30 m)) (Num 6)) (Sub I1 (Num (undeformed m)))))
   else None,
   if nonzero (C11 m) then Some (Num (C11 m)) else None).

(** ** Invariants framework with this model: _invariants.py:150-181 and 183-237.  The model
    returns None for dWdI3 and for all second derivatives but 11 and 12, so those branches
    are skipped. *)
Definition x_I1 (C : XV) : expr := x_trace C.
Definition x_I2 (C : XV) : expr := Div (Sub (sq (x_I1 C)) (x_ddot22 C C)) (Num 2).
Definition x_dI2dC (C : XV) : XV := fun v => Sub (Mul (x_I1 C) (x_eye v)) (C v).
Definition x_dWdC (m : TOD) (C : XV) : XV := fun v =>
  let '(w1, w2) := x_tod_gradient m (x_I1 C) (x_I2 C) in
  let dWdC := Num 0 in
  let dWdC := match w1 with Some w => Add dWdC (Mul w (x_eye v)) | None => dWdC end in
  match w2 with Some w => Add dWdC (Mul w (x_dI2dC C v)) | None => dWdC end.
Definition x_d2WdCdC (m : TOD) (C : XV) : XM := fun v w =>
  let '(w1, w2) := x_tod_gradient m (x_I1 C) (x_I2 C) in
  let '(w11, w12) := x_tod_hessian m (x_I1 C) in
  let H := Num 0 in
  let H := match w2 with
           | Some a => Add H (Mul a (Sub (x_dya x_eye x_eye v w) (x_cdya true x_eye x_eye v w)))
           | None => H end in
  let H := match w11 with Some a => Add H (Mul a (x_dya x_eye x_eye v w)) | None => H end in
  match w12 with
  | Some a => Add H (Mul a (Add (x_dya x_eye (x_dI2dC C) v w) (x_dya (x_dI2dC C) x_eye v w)))
  | None => H end.

(** ** Deformation space: _deformation.py:69-91 and _space.py:46-139 *)
Definition x_right_CG (F : XT2) : XV := x_asvoigt (fun I J => Sum (map (fun k => Mul (F k I) (F k J)) all3)).
Definition x_S (m : TOD) (F : XT2) : XV := fun v => Mul (Num 2) (x_dWdC m (x_right_CG F) v).
Definition x_force (F S : XT2) : XT2 := fun i J => Sum (map (fun I => Mul (F i I) (S I J)) all3).
Definition x_area (F S : XT2) : XT2 := fun i j => Sum (map (fun J => Mul (F j J) (S i J)) all3).
(** finalize=True *)
Definition x_stress (f a : Config) (m : TOD) (F : XT2) : XT2 :=
  let S := x_astensor (x_S m F) in
  let S := match f with Deformed => x_force F S | Undeformed => S end in
  match a with
  | Undeformed => S
  | Deformed => fun i j => Div (x_area F S i j) (Sqrt (x_det (x_right_CG F)))
  end.
Definition x_force4 (F : XT2) (E : XT4) : XT4 := fun i J k L =>
  Sum (flat_map (fun I => map (fun K => Prod [F i I; F k K; E I J K L]) all3) all3).
(** default options: force=None, area=0 *)
Definition x_elasticity (m : TOD) (F : XT2) : XT4 := fun i J k L =>
  Add (x_force4 F (x_astensor4 (fun v w => Mul (Num 4) (x_d2WdCdC m (x_right_CG F) v w))) i J k L)
      (x_cdya_ik x_eye (x_S m F) i J k L).
