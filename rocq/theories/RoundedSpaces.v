(** * All three spaces and the load cases in rounded arithmetic.

    The expressions that the space objects evaluate around a framework, for all options with
    finalize=True (one entry of the trailing axes).  [Comp]: the expressions for the gradient and
    the hessian of the framework at an array of expressions (TOD: Invariants(ThirdOrderDeformation)).  [F] is an array of
    expressions: entries may themselves be computed (load cases). *)
From Coq Require Import Reals List.
From Verif Require Import Tensor Py Voigt Models Frameworks Spaces Spec Rounded RoundedCode.
Import ListNotations.
Local Open Scope R_scope.

Record Comp := { c_dWdC : XV -> XV; c_d2WdCdC : XV -> XM }.
Definition tod_comp (m : TOD) : Comp := {| c_dWdC := x_dWdC m; c_d2WdCdC := x_d2WdCdC m |}.
Coercion tod_comp : TOD >-> Comp.
Definition two_thirds : expr := Div (Num 2) (Num 3).
Section X.
  Variables (k : SpaceKind) (m : Comp) (F : XT2).
  Definition x_C : XV := x_right_CG F.
  Definition x_I3 : expr := x_det x_C.
  (** The argument of the framework: C (Deformation), Cu (_distortional.py:162), Co
      (_dilatational.py:22). *)
  Definition x_seen : XV := fun v =>
    match k with
    | KDeformation => x_C v
    | KDistortional => Mul (Pow x_I3 (- 1 / 3)) (x_C v)
    | KDilatational => Mul (Pow x_I3 (1 / 3)) (x_C v)
    end.
  (** Sb: _distortional.py:165, _dilatational.py:25 *)
  Definition x_Sb : XV := fun v =>
    match k with
    | KDeformation => Mul (Num 2) (c_dWdC m x_seen v)
    | KDistortional => Mul (Mul (Num 2) (Pow x_I3 (- 1 / 3))) (c_dWdC m x_seen v)
    | KDilatational => Mul (Mul (Num 2) (Pow x_I3 (1 / 3))) (c_dWdC m x_seen v)
    end.
  (** invC: _distortional.py:167, _dilatational.py:27, _space.py:112 *)
  Definition x_invC : XV := x_inv x_C (Some x_I3).
  Definition x_SbC : expr := x_ddot22 x_Sb x_C.
  Definition x_trSb : expr := x_trace x_Sb.
  (** S: _deformation.py:78, _distortional.py:169, _dilatational.py:29 *)
  Definition x_stress2 : XV := fun v =>
    match k with
    | KDeformation => x_Sb v
    | KDistortional => Sub (x_Sb v) (Mul (Div x_SbC (Num 3)) (x_invC v))
    | KDilatational => Mul (Div x_trSb (Num 3)) (x_invC v)
    end.
  (** C4b: _distortional.py:182, _dilatational.py:38 *)
  Definition x_C4b : XM := fun v w =>
    match k with
    | KDeformation => Mul (Num 4) (c_d2WdCdC m x_seen v w)
    | KDistortional => Mul (Mul (Num 4) (Pow x_I3 (- 2 / 3))) (c_d2WdCdC m x_seen v w)
    | KDilatational => Mul (Mul (Num 4) (Pow x_I3 (2 / 3))) (c_d2WdCdC m x_seen v w)
    end.
  (** _distortional.py:184-192 *)
  Definition x_P4 : XM := fun v w => Sub (x_cdya true x_eye x_eye v w) (Div (x_dya x_invC x_C v w) (Num 3)).
  Definition x_C4_projection : XM := fun v w =>
    Mul two_thirds
        (Add (Sub (Sub (Mul x_SbC (x_cdya true x_invC x_invC v w)) (x_dya x_Sb x_invC v w)) (x_dya x_Sb x_invC w v))
             (Mul (Div x_SbC (Num 3)) (x_dya x_invC x_invC v w))).
  (** C4; [small] is the outcome of np.allclose(C4b, 0), _distortional.py:194-195;
      _dilatational.py:41-46; _deformation.py:90 *)
  Definition x_C4 (small : bool) : XM := fun v w =>
    match k with
    | KDeformation => x_C4b v w
    | KDistortional =>
        if small then x_C4_projection v w
        else Add (x_C4_projection v w) (x_ddot44 (x_ddot44 x_P4 x_C4b) (fun v w => x_P4 w v) v w)
    | KDilatational =>
        Sub (Div (Mul (Add (Mul (Num 2) x_trSb) (x_ddot22 (x_ddot24 x_eye x_C4b) x_eye)) (x_dya x_invC x_invC v w)) (Num 9))
            (Mul (Mul two_thirds x_trSb) (x_cdya true x_invC x_invC v w))
    end.
  (** piola: _space.py:46-139; detF is the root of I3 in all three spaces. *)
  Variables (f a : Config).
  Definition x_gradient : XT2 :=
    let S := x_astensor x_stress2 in
    let S := match f with Deformed => x_force F S | Undeformed => S end in
    match a with Undeformed => S | Deformed => fun i j => Div (x_area F S i j) (Sqrt x_I3) end.
  Definition x_area4 (E : XT4) : XT4 := fun i j k l =>
    Sum (flat_map (fun J => map (fun L => Prod [F j J; F l L; E i J k L]) all3) all3).
  Definition x_hessian (small : bool) : XT4 :=
    let E := x_astensor4 (x_C4 small) in
    let E : XT4 := match f with
      | Deformed => fun i J k L => Add (x_force4 F E i J k L) (x_cdya_ik x_eye x_stress2 i J k L)
      | Undeformed => fun I J K L => Add (E I J K L) (x_cdya_ik x_invC x_stress2 I J K L) end in
    match a with Undeformed => E | Deformed => fun i j k l => Div (x_area4 E i j k l) (Sqrt x_I3) end.
End X.
(** What hessian may return: the branch is decided by comparing the rounded entries of C4b with
    the (rounded) tolerance 1e-8 of np.allclose. *)
Definition rounded_hessian (u : R) (k : SpaceKind) (m : Comp) (f a : Config) (F : XT2) i j p q (x : R) : Prop :=
  exists (B : Mat6) (atol : R) (small : bool),
    (forall v w, rounded u (x_C4b k m F v w) (B v w)) /\ fl u (/ 10 ^ 8) atol /\
    (small = true <-> forall v w, Rabs (B v w) <= atol) /\
    rounded u (x_hessian k m F f a small i j p q) x.

(** ** Load cases: lab/_load_case.py:86-93, 111-118, 136-144 *)
Definition diag_x (x y z : expr) : XT2 := fun i j =>
  match i, j with X0, X0 => x | X1, X1 => y | X2, X2 => z | _, _ => Num 0 end.
Definition x_uniaxial (l : R) : XT2 := diag_x (Num l) (Div (Num 1) (Sqrt (Num l))) (Div (Num 1) (Sqrt (Num l))).
Definition x_biaxial (l : R) : XT2 := diag_x (Num l) (Num l) (Div (Num 1) (sq (Num l))).
Definition x_planar (l : R) : XT2 := diag_x (Num l) (Num 1) (Div (Num 1) (Num l)).
(** stress, lines 65-68: [P[i, i] - P[j, j] * F[j, j] / F[i, i]] with i = 0, j = -1 *)
Definition x_lc_stress (F P : XT2) : expr := Sub (P X0 X0) (Div (Mul (P X2 X2) (F X2 X2)) (F X0 X0)).
