(** * Element types (dtypes): the code run on integer arrays.

    All other layers model arrays of reals.  NumPy arrays carry an element type, and the
    library never converts its inputs: a deformation gradient given as an array of
    integers (e.g. [np.eye(3, dtype=int)], [np.array([[1, 1, 0], [0, 1, 0], [0, 0, 1]])])
    flows through [einsum], [asvoigt], [trace], [det] as integers.  This file models the
    code with two element types, int64 (integers that wrap around modulo 2^64) and
    float64 (simplification: reals), and NumPy's rules:
    - integer (+, -, x, int power) integer is an integer array, anything mixed with a
      float, a true division, a square root or a float power is a float array;
    - a ufunc / einsum with [out=] and an in-place operator raise TypeError
      (UFuncTypeError, rule "same_kind") if the result is float and the destination is
      an integer array, and convert silently in the other direction;
    - an assignment [out[...] = values] converts silently, floats to integers by
      truncation.
    One entry of the trailing axes; attributes of the objects are modelled as local
    variables (their caching is the subject of C23). *)
From Coq Require Import Reals ZArith.
From Verif Require Import Tensor Py Voigt Models Frameworks Spaces Lab Spec.
Local Open Scope R_scope.

(** int64 arithmetic: modulo 2^64, in [-2^63, 2^63). *)
Definition wrap (z : Z) : Z := ((z + 2 ^ 63) mod 2 ^ 64 - 2 ^ 63)%Z.

(** Scalars and arrays over an index type [X]. *)
Inductive num := NI (z : Z) | NF (x : R).
Definition rv (n : num) : R := match n with NI z => IZR z | NF x => x end.
Inductive arr (X : Type) := AI (f : X -> Z) | AF (f : X -> R).
Arguments AI {X}. Arguments AF {X}.
Inductive dtype := Int | Flt.
Definition dt {X} (a : arr X) : dtype := match a with AI _ => Int | AF _ => Flt end.
(** The numbers in the array, and an item of it. *)
Definition vals {X} (a : arr X) : X -> R := match a with AI f => fun x => IZR (f x) | AF f => f end.
Definition item {X} (a : arr X) (x : X) : num := match a with AI f => NI (f x) | AF f => NF (f x) end.
(** Indexing with index arrays / views keeps the element type. *)
Definition reindex {X Y} (g : Y -> X) (a : arr X) : arr Y :=
  match a with AI f => AI (fun y => f (g y)) | AF f => AF (fun y => f (g y)) end.

(** Scalar arithmetic. *)
Definition nop (fz : Z -> Z -> Z) (fr : R -> R -> R) (a b : num) : num :=
  match a, b with NI x, NI y => NI (wrap (fz x y)) | _, _ => NF (fr (rv a) (rv b)) end.
Definition nadd := nop Z.add Rplus.
Definition nsub := nop Z.sub Rminus.
Definition nmul := nop Z.mul Rmult.
Definition nsquare (a : num) : num := match a with NI x => NI (wrap (x * x)) | NF x => NF (x ^ 2) end.
Definition ndiv (a b : num) : num := NF (rv a / rv b).
Definition nsqrt (a : num) : num := NF (sqrt (rv a)).
Definition npow (a : num) (p : R) : num := NF (Rpower (rv a) p).

(** One ufunc or einsum call on two (three) arrays: [fz] and [fr] are the same formula
    over the integers and the reals. *)
Definition ein2 {X Y W} (fz : (X -> Z) -> (Y -> Z) -> W -> Z) (fr : (X -> R) -> (Y -> R) -> W -> R)
    (a : arr X) (b : arr Y) : arr W :=
  match a, b with AI f, AI g => AI (fun w => wrap (fz f g w)) | _, _ => AF (fr (vals a) (vals b)) end.
Definition aadd {X} : arr X -> arr X -> arr X := ein2 (fun f g x => f x + g x)%Z (fun f g x => f x + g x).
Definition asub {X} : arr X -> arr X -> arr X := ein2 (fun f g x => f x - g x)%Z (fun f g x => f x - g x).
Definition amul {X} : arr X -> arr X -> arr X := ein2 (fun f g x => f x * g x)%Z (fun f g x => f x * g x).
Definition smul {X} (n : num) (a : arr X) : arr X :=
  match n, a with NI z, AI f => AI (fun x => wrap (z * f x)) | _, _ => AF (fun x => rv n * vals a x) end.
Definition adivs {X} (a : arr X) (n : num) : arr X := AF (fun x => vals a x / rv n).

(** [out=] of a ufunc or einsum, and in-place operators. *)
Definition into {X} (d : dtype) (r : arr X) : Result (arr X) :=
  match d, r with
  | Int, AF _ => Raise TypeError
  | Int, AI f => Ok (AI f)
  | Flt, _ => Ok (AF (vals r))
  end.
(** [out[...] = values] *)
Definition setitem {X} (d : dtype) (r : arr X) : arr X :=
  match d with Int => AI (match r with AI f => f | AF f => fun x => trunc (f x) end) | Flt => AF (vals r) end.

Definition sum3z (f : ix3 -> Z) : Z := (f X0 + f X1 + f X2)%Z.
Definition sum6z (f : ix6 -> Z) : Z := (f V0 + f V1 + f V2 + f V3 + f V4 + f V5)%Z.
Definition weightsz (v : ix6) : Z := match v with V0 | V1 | V2 => 1 | _ => 2 end%Z.

Definition A2 := arr (ix3 * ix3).
Definition A4 := arr (ix3 * ix3 * ix3 * ix3).
Definition A6 := arr ix6.
Definition A66 := arr (ix6 * ix6).
Definition t2 (f : ix3 * ix3 -> R) : T2 := fun i j => f (i, j).
Definition t4 (f : ix3 * ix3 * ix3 * ix3 -> R) : T4 := fun i j k l => f (i, j, k, l).
Definition m66 (f : ix6 * ix6 -> R) : Mat6 := fun v w => f (v, w).

(** ** math/_voigt.py *)
(** asvoigt/astensor, mode 2 and 4: _voigt.py:89-93, 214-221 (indexing) *)
Definition t_asvoigt (A : A2) : A6 := reindex (fun v => (vi v, vj v)) A.
Definition t_astensor (A : A6) : A2 := reindex (fun '(i, j) => vix i j) A.
Definition t_astensor4 (A : A66) : A4 := reindex (fun '(i, j, k, l) => (vix i j, vix k l)) A.
(** trace: _voigt.py:286 *)
Definition t_trace (A : A6) : num :=
  match A with AI f => NI (wrap (f V0 + f V1 + f V2)) | AF f => NF (f V0 + f V1 + f V2) end.
Definition t_transpose (A : A66) : A66 := reindex (fun '(v, w) => (w, v)) A.
(** det: _voigt.py:375-381 *)
Definition t_det (A : A6) : num :=
  let a := item A in
  nsub (nsub (nsub (nadd (nmul (nmul (a V0) (a V1)) (a V2))
                         (nmul (nmul (nmul (NI 2) (a V3)) (a V4)) (a V5)))
                   (nmul (nsquare (a V4)) (a V0)))
             (nmul (nsquare (a V5)) (a V1)))
       (nmul (nsquare (a V3)) (a V2)).
(** inv: _voigt.py:427-447.  [out] is [None] (then it is Ai, an array of A's type) or
    the element type of the given array; [detA] is the given determinant. *)
Definition t_inv (A : A6) (determinant : option num) (out : option dtype) : Result A6 :=
  let detA := match determinant with None => t_det A | Some d => d end in
  let out := match out with None => dt A | Some d => d end in
  let Aij := amul (reindex inv_i A) (reindex inv_j A) in   (* out=Ai: A's own type *)
  let Akl := amul (reindex inv_k A) (reindex inv_l A) in
  rbind (into out (asub Aij Akl)) (fun detAinvA => into out (adivs detAinvA detA)).
(** eye: _voigt.py:552, dtype=float *)
Definition t_eye : A6 := AF eye.
(** ddot: _voigt.py:635-643; the weights are integers *)
Definition t_ddot22 (A B : A6) : num :=
  match A, B with
  | AI f, AI g => NI (wrap (sum6z (fun i => f i * g i * weightsz i)%Z))
  | _, _ => NF (ddot22 (vals A) (vals B)) end.
Definition t_ddot24 (A : A6) (B : A66) : A6 :=
  ein2 (fun f g j => sum6z (fun i => f i * g (i, j) * weightsz i)%Z) (fun f g => ddot24 f (m66 g)) A B.
Definition t_ddot44 : A66 -> A66 -> A66 :=
  ein2 (fun f g '(i, j) => sum6z (fun k => f (i, k) * g (k, j) * weightsz k)%Z)
       (fun f g '(i, j) => ddot44 (m66 f) (m66 g) i j).
(** dya: _voigt.py:697-701, without and with [out] *)
Definition t_dya (A B : A6) : A66 := ein2 (fun f g '(v, w) => f v * g w)%Z (fun f g '(v, w) => f v * g w) A B.
Definition t_dya_out (A B : A6) (out : dtype) : Result A66 := into out (t_dya A B).
(** cdya_ik: _voigt.py:779 *)
Definition t_cdya_ik (A B : A6) : A4 := reindex (fun '(i, j, k, l) => (i, k, j, l)) (t_astensor4 (t_dya A B)).
(** cdya: _voigt.py:913-947; [same] is the test [A is B] of line 937.  The four gathered
    arrays, two products with [out=] an array of A's type, (two with B's type, the
    in-place sum,) the in-place division and the assignment of line 945. *)
Definition t_cdya (same : bool) (A B : A6) (out : option dtype) : Result A66 :=
  let out := match out with None => Flt | Some d => d end in
  let g f := reindex (fun '(v, w) => f (vi v) (vj v) (vi w) (vj w)) in
  let ik i j k l := vix i k in let jl i j k l := vix j l in
  let il i j k l := vix i l in let kj i j k l := vix k j in
  rbind (into (dt A) (amul (g ik A) (g jl B))) (fun p =>
  rbind (into (dt A) (amul (g il A) (g kj B))) (fun q =>
  let values := aadd p q in
  rbind (if same then into (dt values) (adivs values (NI 2))
         else
           rbind (into (dt B) (amul (g ik B) (g jl A))) (fun p =>
           rbind (into (dt B) (amul (g il B) (g kj A))) (fun q =>
           rbind (into (dt values) (aadd values (aadd p q))) (fun values =>
           into (dt values) (adivs values (NI 4)))))) (fun values =>
  Ok (setitem out (reindex (fun '(v, w) => if ix6_leb v w then (v, w) else (w, v)) values))))).
(** tril_from_triu: _voigt.py:224-232 with [out] (n x n matrices) *)
Definition t_tril_from_triu (A : arr (nat * nat)) (dim : nat) (out : option (arr (nat * nat))) : arr (nat * nat) :=
  let out := match out with None => A | Some o => o end in
  let lower r c := (Nat.ltb c r && Nat.ltb r dim)%bool in
  match out with
  | AI g => AI (fun '(r, c) => if lower r c then match A with AI f => f (c, r) | AF f => trunc (f (c, r)) end else g (r, c))
  | AF g => AF (fun '(r, c) => if lower r c then vals A (c, r) else g (r, c))
  end.

(** ** models/invariants/_third_order_deformation.py *)
Record TInvModel (SV : Type) := {
  tm_gradient : num -> num -> num -> SV -> Result (option num * option num * option num * SV);
  tm_hessian : num -> num -> num -> SV -> Result (ix6 -> option num)
}.
Arguments tm_gradient {SV}. Arguments tm_hessian {SV}.
(** Parameters are Python numbers (int or float). *)
Record TTOD := { tC10 : num; tC01 : num; tC11 : num; tC20 : num; tC30 : num; tundef : num }.
Definition tod_num (m : TTOD) : TOD :=
  {| C10 := rv (tC10 m); C01 := rv (tC01 m); C11 := rv (tC11 m); C20 := rv (tC20 m);
     C30 := rv (tC30 m); undeformed := rv (tundef m) |}.
(** [x += y] where [x] is [None], a Python number / NumPy scalar (the name is rebound)
    or an ndarray (in place); the flag of [x] says which.  [y_arr]: is y an ndarray? *)
Definition t_iadd (x : option (num * bool)) (y : num) (y_arr : bool) : Result (option (num * bool)) :=
  match x with
  | None => Raise TypeError
  | Some (x, true) =>
      match x, nadd x y with NI _, NF _ => Raise TypeError | NF _, r => Ok (Some (NF (rv r), true)) | _, r => Ok (Some (r, true)) end
  | Some (x, false) => Ok (Some (nadd x y, y_arr))
  end.
(** gradient, lines 54-84; [nd]: the invariants are ndarrays (at least one trailing axis). *)
Definition t_tod_gradient (nd : bool) (m : TTOD) (I1 I2 I3 : num)
  : Result (option num * option num * option num) :=
  let n := fun x => nonzero (rv x) in
  let dWdI1 := if (n (tC10 m) || n (tC11 m) || n (tC20 m) || n (tC30 m))%bool then Some (NI 0, false) else None in
  let dWdI2 := if (n (tC01 m) || n (tC11 m))%bool then Some (NI 0, false) else None in
  rbind (if n (tC10 m) then t_iadd dWdI1 (tC10 m) false else Ok dWdI1) (fun dWdI1 =>
  rbind (if n (tC01 m) then t_iadd dWdI2 (tC01 m) false else Ok dWdI2) (fun dWdI2 =>
  rbind (if n (tC11 m) then t_iadd dWdI1 (nmul (tC11 m) (nsub I2 (tundef m))) nd else Ok dWdI1) (fun dWdI1 =>
  rbind (if n (tC11 m) then t_iadd dWdI2 (nmul (tC11 m) (nsub I1 (tundef m))) nd else Ok dWdI2) (fun dWdI2 =>
  rbind (if n (tC20 m) then t_iadd dWdI1 (nmul (nmul (tC20 m) (NI 2)) (nsub I1 (tundef m))) nd else Ok dWdI1) (fun dWdI1 =>
  rbind (if n (tC30 m) then t_iadd dWdI1 (nmul (nmul (tC30 m) (NI 3)) (nsquare (nsub I1 (tundef m)))) nd else Ok dWdI1) (fun dWdI1 =>
  Ok (option_map fst dWdI1, option_map fst dWdI2, None))))))).
(** hessian, lines 86-103 *)
Definition t_tod_hessian (m : TTOD) (I1 I2 I3 : num) : ix6 -> option num :=
  let n := fun x => nonzero (rv x) in
  let d11 := if (n (tC20 m) || n (tC30 m))%bool
             then Some (nadd (nmul (tC20 m) (NI 2)) (nmul (nmul (tC30 m) (NI 6)) (nsub I1 (tundef m)))) else None in
  let d12 := if n (tC11 m) then Some (tC11 m) else None in
  fun v => match v with V0 => d11 | V3 => d12 | _ => None end.
Definition t_tod_model {SV} (nd : bool) (m : TTOD) : TInvModel SV :=
  {| tm_gradient := fun I1 I2 I3 sv => rbind (t_tod_gradient nd m I1 I2 I3) (fun g => Ok (g, sv));
     tm_hessian := fun I1 I2 I3 sv => Ok (t_tod_hessian m I1 I2 I3) |}.

(** ** frameworks/ *)
Record TFramework (SV : Type) := {
  tf_gradient : A6 -> SV -> Result (A6 * SV);
  tf_hessian : A6 -> SV -> Result A66
}.
Arguments tf_gradient {SV}. Arguments tf_hessian {SV}.

Section Invariants.
  Context {SV : Type} (m : TInvModel SV).
  (** What gradient keeps for hessian. *)
  Record TInvSelf := { ti_I1 : num; ti_I2 : num; ti_I3 : num;
    ti_dW : option num * option num * option num;
    ti_dI1dC : option A6; ti_dI2dC : option A6; ti_invC : option A6; ti_dI3dC : option A6 }.

  (** gradient, _invariants.py:150-181 *)
  Definition t_inv_gradient_self (C : A6) (sv : SV) : Result (A6 * SV * TInvSelf) :=
    let I := t_eye in
    let I1 := t_trace C in
    let I2 := ndiv (nsub (nsquare I1) (t_ddot22 C C)) (NI 2) in
    let I3 := t_det C in
    rbind (tm_gradient m I1 I2 I3 sv) (fun '(dWdI1, dWdI2, dWdI3, svn) =>
    let dWdC : A6 := AF vzero in                     (* np.zeros: float *)
    let '(dI1dC, dWdC) := match dWdI1 with
      | Some w => (Some I, aadd dWdC (smul w I)) | None => (None, dWdC) end in
    let '(dI2dC, dWdC) := match dWdI2 with
      | Some w => let d := asub (smul I1 I) C in (Some d, aadd dWdC (smul w d)) | None => (None, dWdC) end in
    rbind (match dWdI3 with
      | Some w => rbind (t_inv C (Some I3) None) (fun invC =>
                  let d := smul I3 invC in Ok (Some invC, Some d, aadd dWdC (smul w d)))
      | None => Ok (None, None, dWdC) end) (fun '(invC, dI3dC, dWdC) =>
    Ok (dWdC, svn, {| ti_I1 := I1; ti_I2 := I2; ti_I3 := I3; ti_dW := (dWdI1, dWdI2, dWdI3);
                      ti_dI1dC := dI1dC; ti_dI2dC := dI2dC; ti_invC := invC; ti_dI3dC := dI3dC |}))).
  Definition t_inv_gradient (C : A6) (sv : SV) : Result (A6 * SV) :=
    rbind (t_inv_gradient_self C sv) (fun '(dWdC, svn, _) => Ok (dWdC, svn)).

  Definition t_local {A} (o : option A) : Result A :=
    match o with Some a => Ok a | None => Raise UnboundLocalError end.
  Definition t_times (x : option num) (A : A66) : Result A66 :=
    match x with Some x => Ok (smul x A) | None => Raise TypeError end.
  Definition t_if {A} (x : option num) (H : A) (f : num -> Result A) : Result A :=
    match x with Some w => f w | None => Ok H end.

  (** hessian, _invariants.py:183-237 *)
  Definition t_inv_hessian (C : A6) (sv : SV) : Result A66 :=
    rbind (t_inv_gradient_self C sv) (fun '(_, sv, self) =>
    rbind (tm_hessian m (ti_I1 self) (ti_I2 self) (ti_I3 self) sv) (fun h =>
    let I := t_eye in
    let '(dWdI1, dWdI2, dWdI3) := ti_dW self in
    let H : A66 := AF (fun _ => 0) in
    let dI1dC := ti_dI1dC self in
    let dI2dC := ti_dI2dC self in
    let dI3dC := ti_dI3dC self in
    rbind (t_if dWdI2 H (fun w =>
      rbind (t_cdya true I I None) (fun II => Ok (aadd H (smul w (asub (t_dya I I) II)))))) (fun H =>
    rbind (t_if dWdI3 H (fun w =>
      rbind (t_local (ti_invC self)) (fun invC =>
      rbind (t_cdya true invC invC None) (fun ii =>
      Ok (aadd H (smul w (smul (ti_I3 self) (asub (t_dya invC invC) ii)))))))) (fun H =>
    rbind (t_if (h V0) H (fun _ => rbind (t_local dI1dC) (fun d1 =>
      rbind (t_times (h V0) (t_dya d1 d1)) (fun T => Ok (aadd H T))))) (fun H =>
    rbind (t_if (h V1) H (fun _ => rbind (t_local dI2dC) (fun d2 =>
      rbind (t_times (h V1) (t_dya d2 d2)) (fun T => Ok (aadd H T))))) (fun H =>
    rbind (t_if (h V2) H (fun _ => rbind (t_local dI2dC) (fun d2 =>
      rbind (t_times (h V1) (t_dya d2 d2)) (fun T => Ok (aadd H T))))) (fun H =>
    rbind (t_if (h V3) H (fun _ => rbind (t_local dI1dC) (fun d1 => rbind (t_local dI2dC) (fun d2 =>
      rbind (t_times (h V3) (aadd (t_dya d1 d2) (t_dya d2 d1))) (fun T => Ok (aadd H T)))))) (fun H =>
    rbind (t_if (h V4) H (fun _ => rbind (t_local dI2dC) (fun d2 => rbind (t_local dI3dC) (fun d3 =>
      rbind (t_times (h V4) (aadd (t_dya d2 d3) (t_dya d3 d2))) (fun T => Ok (aadd H T)))))) (fun H =>
    rbind (t_if (h V5) H (fun _ => rbind (t_local dI1dC) (fun d1 => rbind (t_local dI3dC) (fun d3 =>
      rbind (t_times (h V5) (aadd (t_dya d1 d3) (t_dya d3 d1))) (fun T => Ok (aadd H T)))))) (fun H =>
    Ok H)))))))))).
  Definition t_invariants : TFramework SV := {| tf_gradient := t_inv_gradient; tf_hessian := t_inv_hessian |}.
End Invariants.

(** Stretches (and GeneralizedInvariants): [np.linalg.eigh] converts to float64 and every
    later array derives from its results (_stretches.py:126-181), so the computation is
    the one on reals. *)
Definition t_stretches {SV} (lapack : Lapack) (m : StretchModel SV) (s0 : StrSelf m) : TFramework SV :=
  {| tf_gradient := fun C sv => match outcome (str_gradient lapack m (vals C) sv) s0 with
       | Ok (g, svn) => Ok (AF g, svn) | Raise e => Raise e end;
     tf_hessian := fun C sv => match outcome (str_hessian lapack m (vals C) sv) s0 with
       | Ok H => Ok (AF (fun '(v, w) => H v w)) | Raise e => Raise e end |}.

(** ** spaces/ *)
Inductive TStressOut := TStressFull (P : A2) | TStressVoigt (S : A6).
Inductive TElastOut := TElastFull (A : A4) | TElastVoigt (C4 : A66).

(** [asvoigt(einsum("kI...,kJ...->IJ...", F, F))] *)
Definition t_right_CG (F : A2) : A6 :=
  t_asvoigt (ein2 (fun f g '(i, j) => sum3z (fun k => f (k, i) * g (k, j)))%Z
                  (fun f g '(i, j) => sum3 (fun k => f (k, i) * g (k, j))) F F).
(** einsums of piola, _space.py:68, 78, 100-102, 129-135 *)
Definition t_force : A2 -> A2 -> A2 :=
  ein2 (fun F s '(i, J) => sum3z (fun I => F (i, I) * s (I, J)))%Z (fun F s '(i, J) => es_force (t2 F) (t2 s) i J).
Definition t_area : A2 -> A2 -> A2 :=
  ein2 (fun F s '(i, j) => sum3z (fun J => F (j, J) * s (i, J)))%Z (fun F s '(i, j) => es_area (t2 F) (t2 s) i j).
Definition t_force4 : A2 -> A4 -> A4 :=
  ein2 (fun F E '(i, J, k, L) => sum3z (fun I => sum3z (fun K => F (i, I) * F (k, K) * E (I, J, K, L))))%Z
       (fun F E '(i, J, k, L) => es4_force (t2 F) (t4 E) i J k L).
Definition t_area4 : A2 -> A4 -> A4 :=
  ein2 (fun F E '(i, j, k, l) => sum3z (fun J => sum3z (fun L => F (j, J) * F (l, L) * E (i, J, k, L))))%Z
       (fun F E '(i, j, k, l) => es4_area (t2 F) (t4 E) i j k l).

(** piola, stress: _space.py:52-81 *)
Definition t_piola_stress (o : SpaceOpts) (F : A2) (S : A6) (detF : option num) : Result TStressOut :=
  if finalize o then
    let stress := t_astensor S in
    rbind (match force o with Deformed => into (dt stress) (t_force F stress) | Undeformed => Ok stress end) (fun stress =>
    rbind (match area o with
      | Deformed =>
          let detF := match detF with Some d => d | None => nsqrt (t_det (t_right_CG F)) end in
          rbind (into (dt stress) (t_area F stress)) (fun s => Ok (adivs s detF))
      | Undeformed => Ok stress end) (fun stress =>
    Ok (TStressFull stress)))
  else Ok (TStressVoigt S).

(** piola, elasticity: _space.py:83-139 *)
Definition t_piola_elast (o : SpaceOpts) (F : A2) (S : A6) (detF : option num) (C4 : A66) (invC : option A6)
  : Result TElastOut :=
  if finalize o then
    let e := t_astensor4 C4 in
    rbind (match force o with
      | Deformed =>
          rbind (into (dt e) (t_force4 F e)) (fun e =>
          rbind (into (dt e) (aadd e (t_cdya_ik t_eye S))) (fun e => Ok (e, None)))
      | Undeformed =>
          rbind (match invC with
            | Some x => Ok (x, None)
            | None => let C := t_right_CG F in let I3 := t_det C in
                      rbind (t_inv C (Some I3) None) (fun x => Ok (x, Some I3)) end) (fun '(invC, I3) =>
          rbind (into (dt e) (aadd e (t_cdya_ik invC S))) (fun e => Ok (e, I3)))
      end) (fun '(e, I3) =>
    rbind (match area o with
      | Deformed =>
          let detF := match detF with
            | Some d => d
            | None => let I3 := match I3 with Some x => x | None => t_det (t_right_CG F) end in nsqrt I3 end in
          rbind (into (dt e) (t_area4 F e)) (fun e => Ok (adivs e detF))
      | Undeformed => Ok e end) (fun e =>
    Ok (TElastFull e)))
  else Ok (TElastVoigt C4).

Section Spaces.
  Context {SV : Type} (tf : TFramework SV) (o : SpaceOpts).

  (** Deformation: _deformation.py:69-91 *)
  Definition t_def_S (F : A2) (sv : SV) : Result (A6 * A6 * SV) :=
    let C := t_right_CG F in
    rbind (tf_gradient tf C sv) (fun '(dWdC, svn) => Ok (C, smul (NI 2) dWdC, svn)).
  Definition t_def_gradient (F : A2) (sv : SV) : Result (TStressOut * SV) :=
    rbind (t_def_S F sv) (fun '(_, Sv, svn) =>
    rbind (t_piola_stress o F Sv None) (fun P => Ok (P, svn))).
  Definition t_def_hessian (F : A2) (sv : SV) : Result TElastOut :=
    rbind (t_def_gradient F sv) (fun _ =>
    rbind (t_def_S F sv) (fun '(C, Sv, _) =>          (* attributes C, S *)
    rbind (tf_hessian tf C sv) (fun H =>
    t_piola_elast o F Sv None (smul (NI 4) H) None))).

  (** Distortional: _distortional.py:154-197.  Attributes: C, I3, Cu, Sb, SbC, invC, S *)
  Definition t_dis_S (F : A2) (sv : SV) : Result (A6 * num * A6 * A6 * num * A6 * A6 * SV) :=
    let C := t_right_CG F in
    let I3 := t_det C in
    let Cu := smul (npow I3 (- 1 / 3)) C in
    rbind (tf_gradient tf Cu sv) (fun '(dWudCu, svn) =>
    let Sb := smul (nmul (NI 2) (npow I3 (- 1 / 3))) dWudCu in
    let SbC := t_ddot22 Sb C in
    rbind (t_inv C (Some I3) None) (fun invC =>
    let S := asub Sb (smul (ndiv SbC (NI 3)) invC) in
    Ok (C, I3, Cu, Sb, SbC, invC, S, svn))).
  Definition t_dis_gradient (F : A2) (sv : SV) : Result (TStressOut * SV) :=
    rbind (t_dis_S F sv) (fun '(_, I3, _, _, _, _, Sv, svn) =>
    rbind (t_piola_stress o F Sv (Some (nsqrt I3))) (fun P => Ok (P, svn))).
  Definition t_dis_hessian (F : A2) (sv : SV) : Result TElastOut :=
    rbind (t_dis_gradient F sv) (fun _ =>
    rbind (t_dis_S F sv) (fun '(C, I3, Cu, Sb, SbC, invC, Sv, _) =>
    let I := t_eye in
    rbind (tf_hessian tf Cu sv) (fun d2WdCdC =>
    let C4b := smul (nmul (NI 4) (npow I3 (- 2 / 3))) d2WdCdC in
    rbind (t_cdya true I I None) (fun II =>
    let P4 := asub II (adivs (t_dya invC C) (NI 3)) in
    rbind (t_cdya true invC invC None) (fun I4 =>
    let SbinvC := t_dya Sb invC in
    let invCSb := t_transpose SbinvC in
    let invCinvC := t_dya invC invC in
    let C4 := smul (NF (2 / 3)) (aadd (asub (asub (smul SbC I4) SbinvC) invCSb) (smul (ndiv SbC (NI 3)) invCinvC)) in
    rbind (if allclose0 (m66 (vals C4b)) then Ok C4
           else into (dt C4) (aadd C4 (t_ddot44 (t_ddot44 P4 C4b) (t_transpose P4)))) (fun C4 =>
    t_piola_elast o F Sv (Some (nsqrt I3)) C4 (Some invC))))))).

  (** Dilatational: _dilatational.py:17-48 *)
  Definition t_dil_S (F : A2) (sv : SV) : Result (A6 * num * A6 * A6 * num * A6 * A6 * SV) :=
    let C := t_right_CG F in
    let I3 := t_det C in
    let Co := smul (npow I3 (1 / 3)) C in
    rbind (tf_gradient tf Co sv) (fun '(dWodCo, svn) =>
    let Sb := smul (nmul (NI 2) (npow I3 (1 / 3))) dWodCo in
    let tr_Sb := t_trace Sb in
    rbind (t_inv C (Some I3) None) (fun invC =>
    let S := smul (ndiv tr_Sb (NI 3)) invC in
    Ok (C, I3, Co, Sb, tr_Sb, invC, S, svn))).
  Definition t_dil_gradient (F : A2) (sv : SV) : Result (TStressOut * SV) :=
    rbind (t_dil_S F sv) (fun '(_, I3, _, _, _, _, Sv, svn) =>
    rbind (t_piola_stress o F Sv (Some (nsqrt I3))) (fun P => Ok (P, svn))).
  Definition t_dil_hessian (F : A2) (sv : SV) : Result TElastOut :=
    rbind (t_dil_gradient F sv) (fun _ =>
    rbind (t_dil_S F sv) (fun '(C, I3, Co, Sb, tr_Sb, invC, Sv, _) =>
    rbind (tf_hessian tf Co sv) (fun H =>
    let C4b := smul (nmul (NI 4) (npow I3 (2 / 3))) H in
    let I := t_eye in
    let tr_C4b := t_ddot22 (t_ddot24 I C4b) I in
    rbind (t_cdya true invC invC None) (fun I4 =>
    let C4 := asub (adivs (smul (nadd (nmul (NI 2) tr_Sb) tr_C4b) (t_dya invC invC)) (NI 9))
                   (smul (nmul (NF (2 / 3)) tr_Sb) I4) in
    t_piola_elast o F Sv (Some (nsqrt I3)) C4 (Some invC))))).
End Spaces.
Definition t_gradient {SV} (k : SpaceKind) (tf : TFramework SV) (o : SpaceOpts) :=
  match k with KDeformation => t_def_gradient tf o | KDistortional => t_dis_gradient tf o | KDilatational => t_dil_gradient tf o end.
Definition t_hessian {SV} (k : SpaceKind) (tf : TFramework SV) (o : SpaceOpts) :=
  match k with KDeformation => t_def_hessian tf o | KDistortional => t_dis_hessian tf o | KDilatational => t_dil_hessian tf o end.
