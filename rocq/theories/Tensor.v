(** * Specification vocabulary: ordinary tensor algebra and calculus in 3D.

    Nothing in this file models code of the repository.  It is the independent
    vocabulary in which the property theorems are stated: full 3x3 and 3x3x3x3 tensors
    as functions of indices, their products, determinant, symmetry, orthogonality, and
    differentiable curves. *)
From Coq Require Import Reals Lra.
From Coquelicot Require Import Coquelicot.
Local Open Scope R_scope.

(** Spatial indices 0, 1, 2. *)
Inductive ix3 : Set := X0 | X1 | X2.
(** Indices of the reduced (Voigt) storage 0 .. 5. *)
Inductive ix6 : Set := V0 | V1 | V2 | V3 | V4 | V5.

Definition ix3_eqb (i j : ix3) : bool :=
  match i, j with X0, X0 | X1, X1 | X2, X2 => true | _, _ => false end.

Definition Vec3 := ix3 -> R.                     (* vectors, principal values *)
Definition T2 := ix3 -> ix3 -> R.                (* second-order tensors *)
Definition T4 := ix3 -> ix3 -> ix3 -> ix3 -> R.  (* fourth-order tensors *)
Definition Vec6 := ix6 -> R.                     (* reduced vector storage *)
Definition Mat6 := ix6 -> ix6 -> R.              (* reduced matrix storage *)

Definition sum3 (f : ix3 -> R) : R := f X0 + f X1 + f X2.
Definition sum6 (f : ix6 -> R) : R := f V0 + f V1 + f V2 + f V3 + f V4 + f V5.

Definition delta (i j : ix3) : R := if ix3_eqb i j then 1 else 0.

(** *** Second-order tensors *)
Definition one2 : T2 := delta.
Definition mmul (A B : T2) : T2 := fun i j => sum3 (fun k => A i k * B k j).
Definition mtr (A : T2) : T2 := fun i j => A j i.
Definition mscal (a : R) (A : T2) : T2 := fun i j => a * A i j.
Definition madd (A B : T2) : T2 := fun i j => A i j + B i j.
Definition tr2 (A : T2) : R := sum3 (fun i => A i i).
Definition det3 (A : T2) : R :=
    A X0 X0 * (A X1 X1 * A X2 X2 - A X1 X2 * A X2 X1)
  - A X0 X1 * (A X1 X0 * A X2 X2 - A X1 X2 * A X2 X0)
  + A X0 X2 * (A X1 X0 * A X2 X1 - A X1 X1 * A X2 X0).
Definition diag3 (d : Vec3) : T2 := fun i j => if ix3_eqb i j then d i else 0.

Definition sym2 (A : T2) : Prop := forall i j, A i j = A j i.
Definition orthogonal (Q : T2) : Prop := forall i j, mmul (mtr Q) Q i j = one2 i j.

(** Right Cauchy-Green tensor of a deformation gradient: F^T F. *)
Definition cauchy_green (F : T2) : T2 := mmul (mtr F) F.

(** *** Contractions of full tensors *)
Definition dc22 (A B : T2) : R := sum3 (fun i => sum3 (fun j => A i j * B i j)).
Definition dc42 (A : T4) (B : T2) : T2 :=
  fun i j => sum3 (fun k => sum3 (fun l => A i j k l * B k l)).
Definition dc24 (A : T2) (B : T4) : T2 :=
  fun k l => sum3 (fun i => sum3 (fun j => A i j * B i j k l)).
Definition dc44 (A B : T4) : T4 :=
  fun i j m n => sum3 (fun k => sum3 (fun l => A i j k l * B k l m n)).

Definition minor4 (A : T4) : Prop :=
  forall i j k l, A i j k l = A j i k l /\ A i j k l = A i j l k.
Definition major4 (A : T4) : Prop := forall i j k l, A i j k l = A k l i j.

(** Symmetrised crossed dyadic product
    1/4 (A_ik B_jl + A_il B_kj + B_ik A_jl + B_il A_kj). *)
Definition cdya_spec (A B : T2) : T4 := fun i j k l =>
  (A i k * B j l + A i l * B k j + B i k * A j l + B i l * A k j) / 4.

(** *** Spectral decomposition: [w] (ascending) are eigenvalues of [A], column [a] of [v]
    is a unit eigenvector of [w a] and the columns are orthonormal.  This is all that
    LAPACK promises; signs and bases of repeated eigenspaces are arbitrary. *)
Definition eig_legal (A : T2) (w : Vec3) (v : T2) : Prop :=
  (forall a b, sum3 (fun i => v i a * v i b) = delta a b) /\
  (forall i a, sum3 (fun j => A i j * v j a) = w a * v i a) /\
  (w X0 <= w X1 <= w X2).

(** *** Positive definiteness *)
Definition quad (A : T2) (x : Vec3) : R := sum3 (fun i => sum3 (fun j => x i * A i j * x j)).
Definition posdef (A : T2) : Prop :=
  forall x : Vec3, (exists i, x i <> 0) -> 0 < quad A x.

(** *** Differentiable curves: every component is differentiable at [t0]. *)
Definition dcurve3 (c : R -> Vec3) (t0 : R) (dc : Vec3) : Prop :=
  forall i, is_derive (fun t => c t i) t0 (dc i).
Definition dcurve2 (F : R -> T2) (t0 : R) (dF : T2) : Prop :=
  forall i j, is_derive (fun t => F t i j) t0 (dF i j).
Definition dcurve6 (c : R -> Vec6) (t0 : R) (dc : Vec6) : Prop :=
  forall v, is_derive (fun t => c t v) t0 (dc v).

(** *** numpy.isclose / numpy.allclose with default tolerances (rtol=1e-5, atol=1e-8),
    [isclose a b] iff |a - b| <= atol + rtol |b|. *)
Definition np_atol : R := / 10 ^ 8.
Definition np_rtol : R := / 10 ^ 5.
Definition isclose (a b : R) : bool :=
  if Rle_dec (Rabs (a - b)) (np_atol + np_rtol * Rabs b) then true else false.

(** Python's [!= 0] on numbers. *)
Definition nonzero (x : R) : bool := if Req_EM_T x 0 then false else true.
