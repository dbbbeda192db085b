(** * Model of src/hyperelastic/math/_voigt.py (one entry of the trailing axes).

    A Voigt 6-vector is [Vec6], a 6x6 matrix [Mat6]; entry order as in the code:
    11, 22, 33, 12, 23, 13.  The code is vectorised over arbitrary trailing axes; this
    file models one entry of them (the array-level transcription with shapes is in
    ND*.v).  Simplification: real numbers instead of float64. *)
From Coq Require Import Reals.
From Verif Require Import Tensor.
Local Open Scope R_scope.

(** _voigt.py:90-91  [i = [0,1,2,0,1,0]], [j = [0,1,2,1,2,2]] *)
Definition vi (v : ix6) : ix3 :=
  match v with V0 => X0 | V1 => X1 | V2 => X2 | V3 => X0 | V4 => X1 | V5 => X0 end.
Definition vj (v : ix6) : ix3 :=
  match v with V0 => X0 | V1 => X1 | V2 => X2 | V3 => X1 | V4 => X2 | V5 => X2 end.

(** asvoigt, mode=2: _voigt.py:89-93  [A[i, j]] *)
Definition asvoigt (A : T2) : Vec6 := fun v => A (vi v) (vj v).

(** asvoigt, mode=4: _voigt.py:95-122.  Assignments in the order of the code; every
    entry of [B] is written exactly once. *)
Definition asvoigt4 (A : T4) : Mat6 := fun v w =>
  match v, w with
  (* lines 97-99: for i, j in range(3): B[i, j] = A[i, i, j, j] *)
  | V0, V0 => A X0 X0 X0 X0 | V0, V1 => A X0 X0 X1 X1 | V0, V2 => A X0 X0 X2 X2
  | V1, V0 => A X1 X1 X0 X0 | V1, V1 => A X1 X1 X1 X1 | V1, V2 => A X1 X1 X2 X2
  | V2, V0 => A X2 X2 X0 X0 | V2, V1 => A X2 X2 X1 X1 | V2, V2 => A X2 X2 X2 X2
  (* lines 101-103 *)
  | V3, V3 => A X0 X1 X0 X1 | V4, V4 => A X1 X2 X1 X2 | V5, V5 => A X0 X2 X0 X2
  (* lines 105-111 *)
  | V0, V3 => A X0 X0 X0 X1 | V1, V3 => A X1 X1 X0 X1 | V2, V3 => A X2 X2 X0 X1
  | V0, V4 => A X0 X0 X1 X2 | V1, V4 => A X1 X1 X1 X2 | V2, V4 => A X2 X2 X1 X2
  | V0, V5 => A X0 X0 X0 X2 | V1, V5 => A X1 X1 X0 X2 | V2, V5 => A X2 X2 X0 X2
  | V3, V0 => A X0 X1 X0 X0 | V3, V1 => A X0 X1 X1 X1 | V3, V2 => A X0 X1 X2 X2
  | V4, V0 => A X1 X2 X0 X0 | V4, V1 => A X1 X2 X1 X1 | V4, V2 => A X1 X2 X2 X2
  | V5, V0 => A X0 X2 X0 X0 | V5, V1 => A X0 X2 X1 X1 | V5, V2 => A X0 X2 X2 X2
  (* lines 113-120 *)
  | V3, V4 => A X0 X1 X1 X2 | V3, V5 => A X0 X1 X0 X2
  | V4, V3 => A X1 X2 X0 X1 | V4, V5 => A X1 X2 X0 X2
  | V5, V3 => A X0 X2 X0 X1 | V5, V4 => A X0 X2 X1 X2
  end.

(** _voigt.py:215 / 219 / 916: [np.array([0,3,5,3,1,4,5,4,2]).reshape(3,3)] *)
Definition vix (i j : ix3) : ix6 :=
  match i, j with
  | X0, X0 => V0 | X0, X1 => V3 | X0, X2 => V5
  | X1, X0 => V3 | X1, X1 => V1 | X1, X2 => V4
  | X2, X0 => V5 | X2, X1 => V4 | X2, X2 => V2
  end.

(** astensor, mode=2: _voigt.py:214-216 *)
Definition astensor (A : Vec6) : T2 := fun i j => A (vix i j).
(** astensor, mode=4: _voigt.py:218-221 *)
Definition astensor4 (A : Mat6) : T4 := fun i j k l => A (vix i j) (vix k l).

(** tril_from_triu: _voigt.py:224-232, on a matrix indexed by nat.
    [np.triu_indices(dim, 1)] are the pairs i < j < dim; [out[j, i] = A[i, j]].
    [out] is [None] (a fresh copy of A), or [Some] contents of the given array. *)
Definition tril_from_triu (A : nat -> nat -> R) (dim : nat) (out : option (nat -> nat -> R))
  : nat -> nat -> R :=
  let out := match out with None => A | Some o => o end in
  fun r c => if (Nat.ltb c r && Nat.ltb r dim)%bool then A c r else out r c.

(** triu_from_tril: _voigt.py:235-243; [np.tril_indices(dim, -1)] are j < i < dim. *)
Definition triu_from_tril (A : nat -> nat -> R) (dim : nat) (out : option (nat -> nat -> R))
  : nat -> nat -> R :=
  let out := match out with None => A | Some o => o end in
  fun r c => if (Nat.ltb r c && Nat.ltb c dim)%bool then A c r else out r c.

(** trace: _voigt.py:286  [np.sum(A[:3], axis=0)] *)
Definition trace (A : Vec6) : R := A V0 + A V1 + A V2.

(** transpose: _voigt.py:343  [np.swapaxes(A, 0, 1)] *)
Definition transpose (A : Mat6) : Mat6 := fun v w => A w v.

(** det: _voigt.py:375-381 *)
Definition det (A : Vec6) : R :=
  A V0 * A V1 * A V2
  + 2 * A V3 * A V4 * A V5
  - A V4 ^ 2 * A V0
  - A V5 ^ 2 * A V1
  - A V3 ^ 2 * A V2.

(** inv: _voigt.py:384-447, [out=None].  Index lists of lines 434-437. *)
Definition inv_i (v : ix6) : ix6 :=
  match v with V0 => V1 | V1 => V0 | V2 => V0 | V3 => V4 | V4 => V3 | V5 => V3 end.
Definition inv_j (v : ix6) : ix6 :=
  match v with V0 => V2 | V1 => V2 | V2 => V1 | V3 => V5 | V4 => V5 | V5 => V4 end.
Definition inv_k (v : ix6) : ix6 :=
  match v with V0 => V4 | V1 => V5 | V2 => V3 | V3 => V3 | V4 => V0 | V5 => V1 end.
Definition inv_l (v : ix6) : ix6 :=
  match v with V0 => V4 | V1 => V5 | V2 => V3 | V3 => V2 | V4 => V4 | V5 => V5 end.
Definition inv (A : Vec6) (determinant : option R) : Vec6 :=
  let detA := match determinant with None => det A | Some d => d end in
  fun v => (A (inv_i v) * A (inv_j v) - A (inv_k v) * A (inv_l v)) / detA.

(** dot, mode=(2,2): _voigt.py:498-511 *)
Definition dot (A B : Vec6) : T2 := fun i j =>
  match i, j with
  | X0, X0 => A V0 * B V0 + A V3 * B V3 + A V5 * B V5
  | X1, X1 => A V3 * B V3 + A V1 * B V1 + A V4 * B V4
  | X2, X2 => A V4 * B V4 + A V5 * B V5 + A V2 * B V2
  | X0, X1 => A V0 * B V3 + A V3 * B V1 + A V5 * B V4
  | X1, X2 => A V3 * B V5 + A V1 * B V4 + A V4 * B V2
  | X0, X2 => A V0 * B V5 + A V3 * B V4 + A V5 * B V2
  | X1, X0 => A V3 * B V0 + A V1 * B V3 + A V4 * B V5
  | X2, X1 => A V5 * B V3 + A V4 * B V1 + A V2 * B V4
  | X2, X0 => A V5 * B V0 + A V4 * B V3 + A V2 * B V5
  end.

(** eye: _voigt.py:552 *)
Definition eye : Vec6 := fun v => match v with V0 | V1 | V2 => 1 | _ => 0 end.

(** ddot: _voigt.py:635 [weights = [1,1,1,2,2,2]] and the four modes, lines 636-643 *)
Definition weights (v : ix6) : R := match v with V0 | V1 | V2 => 1 | _ => 2 end.
Definition ddot22 (A B : Vec6) : R := sum6 (fun i => A i * B i * weights i).
Definition ddot44 (A B : Mat6) : Mat6 := fun i j => sum6 (fun k => A i k * B k j * weights k).
Definition ddot42 (A : Mat6) (B : Vec6) : Vec6 := fun i => sum6 (fun j => A i j * B j * weights j).
Definition ddot24 (A : Vec6) (B : Mat6) : Vec6 := fun j => sum6 (fun i => A i * B i j * weights i).

(** dya: _voigt.py:697-701 *)
Definition dya (A B : Vec6) : Mat6 := fun v w => A v * B w.

(** Elementwise array arithmetic used by callers. *)
Definition vadd (A B : Vec6) : Vec6 := fun v => A v + B v.
Definition vsub (A B : Vec6) : Vec6 := fun v => A v - B v.
Definition vscal (a : R) (A : Vec6) : Vec6 := fun v => a * A v.
Definition madd6 (A B : Mat6) : Mat6 := fun v w => A v w + B v w.
Definition msub6 (A B : Mat6) : Mat6 := fun v w => A v w - B v w.
Definition mscal6 (a : R) (A : Mat6) : Mat6 := fun v w => a * A v w.
Definition vzero : Vec6 := fun _ => 0.
Definition mzero : Mat6 := fun _ _ => 0.

(** dev: _voigt.py:725  [A - trace(A) / 3 * eye(A)] *)
Definition dev (A : Vec6) : Vec6 := vsub A (vscal (trace A / 3) eye).

(** cdya_ik: _voigt.py:779  [swapaxes(astensor(dya(A, B), 4), 1, 2)] *)
Definition cdya_ik (A B : Vec6) : T4 :=
  let D := astensor4 (dya A B) in fun i j k l => D i k j l.
(** cdya_il: _voigt.py:833  [swapaxes(astensor(dya(A, B), 4), 1, 3)] *)
Definition cdya_il (A B : Vec6) : T4 :=
  let D := astensor4 (dya A B) in fun i j k l => D i l k j.

(** cdya: _voigt.py:913-947.  [a] of line 915 is [vi]/[vj] (same table), [b] of line 916
    is [vix].  Only pairs v <= w ([np.triu_indices(6)], line 913) are computed and then
    stored at [v, w] and [w, v] (line 945).  [same] is the Python test [A is B]
    (lines 937-943). *)
Definition ix6_leb (v w : ix6) : bool :=
  let n x := match x with V0 => 0%nat | V1 => 1%nat | V2 => 2%nat | V3 => 3%nat
                        | V4 => 4%nat | V5 => 5%nat end in
  Nat.leb (n v) (n w).
Definition cdya_value (same : bool) (A B : Vec6) (v w : ix6) : R :=
  let i := vi v in let j := vj v in let k := vi w in let l := vj w in
  let ik := vix i k in let jl := vix j l in
  let il := vix i l in let kj := vix k j in
  let values := A ik * B jl + A il * B kj in
  if same then values / 2
  else (values + (B ik * A jl + B il * A kj)) / 4.
Definition cdya_obj (same : bool) (A B : Vec6) : Mat6 := fun v w =>
  if ix6_leb v w then cdya_value same A B v w else cdya_value same A B w v.
(** cdya called with two different objects / with the same object twice. *)
Definition cdya (A B : Vec6) : Mat6 := cdya_obj false A B.
Definition cdya1 (A : Vec6) : Mat6 := cdya_obj true A A.

(** eigh: _voigt.py:950-956.  [lapack] stands for [np.linalg.eigh] (an external
    routine): it returns eigenvalues [w a] and a matrix whose column [a] is the
    eigenvector of [w a].  Line 952 passes [astensor(A).T]; line 953 forms
    [MA[i,j,a] = v[i,a] v[j,a]], line 956 iterates over [MA.T] (axes a, j, i). *)
Definition Lapack := T2 -> Vec3 * T2.
Definition eigh (lapack : Lapack) (A : Vec6) (f : R -> R) : Vec3 * (ix3 -> Vec6) :=
  let '(wA, vA) := lapack (mtr (astensor A)) in
  let MA := fun i j a => vA i a * vA j a in
  (fun a => f (wA a), fun a => asvoigt (fun j i => MA i j a)).
