(** * Model of src/hyperelastic/models/ (one entry of the trailing axes).

    [SV] is the type of the state variables; the library only hands them through. *)
From Coq Require Import Reals List.
From Verif Require Import Tensor Py.
Import ListNotations.
Local Open Scope R_scope.

(** ** Interfaces (README.md "Usage"; docs/tutorial/getting_started.rst)

    An invariant-based model: [gradient(I1, I2, I3, statevars)] returns
    [dWdI1, dWdI2, dWdI3, statevars_new], [hessian] returns the six second derivatives in
    the order 11, 22, 33, 12, 23, 13.  [None] is allowed for each derivative.  The user's
    code may raise.  Assumption: the model is a function of its arguments. *)
Record InvModel (SV : Type) := {
  im_gradient : R -> R -> R -> SV -> Result (option R * option R * option R * SV);
  im_hessian : R -> R -> R -> SV -> Result (ix6 -> option R)
}.
Arguments im_gradient {SV}. Arguments im_hessian {SV}.

(** A stretch-based model object with attributes of type [sm_self] (Ogden has none,
    GeneralizedInvariantsModel caches intermediate results). *)
Record StretchModel (SV : Type) := {
  sm_self : Type;
  sm_gradient : Vec3 -> SV -> PY sm_self (Vec3 * SV);
  sm_hessian : Vec3 -> SV -> PY sm_self (ix6 -> option R)
}.
Arguments sm_self {SV}. Arguments sm_gradient {SV}. Arguments sm_hessian {SV}.

(** ** ThirdOrderDeformation: models/invariants/_third_order_deformation.py *)
Record TOD := { C10 : R; C01 : R; C11 : R; C20 : R; C30 : R; undeformed : R }.

(** __init__, lines 40-52: all parameters default to 0, strain=False. *)
Definition tod_init (C10 C01 C11 C20 C30 : R) (strain : bool) : TOD :=
  {| C10 := C10; C01 := C01; C11 := C11; C20 := C20; C30 := C30;
     undeformed := if strain then 0 else 3 |}.

(** [x += y] on a variable that holds [None] or a number; [None += y] raises TypeError. *)
Definition iadd (x : option R) (y : R) : Result (option R) :=
  match x with Some x => Ok (Some (x + y)) | None => Raise TypeError end.

(** gradient, lines 54-84 *)
Definition tod_gradient (m : TOD) (I1 I2 I3 : R)
  : Result (option R * option R * option R) :=
  let dWdI1 := None in
  let dWdI2 := None in
  let dWdI3 := None in
  (* lines 62-66 *)
  let dWdI1 := if (nonzero (C10 m) || nonzero (C11 m) || nonzero (C20 m) || nonzero (C30 m))%bool
               then Some 0 else dWdI1 in
  let dWdI2 := if (nonzero (C01 m) || nonzero (C11 m))%bool then Some 0 else dWdI2 in
  (* lines 68-82 *)
  rbind (if nonzero (C10 m) then iadd dWdI1 (C10 m) else Ok dWdI1) (fun dWdI1 =>
  rbind (if nonzero (C01 m) then iadd dWdI2 (C01 m) else Ok dWdI2) (fun dWdI2 =>
  rbind (if nonzero (C11 m) then iadd dWdI1 (C11 m * (I2 - undeformed m)) else Ok dWdI1) (fun dWdI1 =>
  rbind (if nonzero (C11 m) then iadd dWdI2 (C11 m * (I1 - undeformed m)) else Ok dWdI2) (fun dWdI2 =>
  rbind (if nonzero (C20 m) then iadd dWdI1 (C20 m * 2 * (I1 - undeformed m)) else Ok dWdI1) (fun dWdI1 =>
  rbind (if nonzero (C30 m) then iadd dWdI1 (C30 m * 3 * (I1 - undeformed m) ^ 2) else Ok dWdI1) (fun dWdI1 =>
  Ok (dWdI1, dWdI2, dWdI3))))))).

(** hessian, lines 86-103 *)
Definition tod_hessian (m : TOD) (I1 I2 I3 : R) : ix6 -> option R :=
  let d2WdI1I1 := if (nonzero (C20 m) || nonzero (C30 m))%bool
                  then Some (C20 m * 2 + C30 m * 6 * (I1 - undeformed m)) else None in
  let d2WdI1I2 := if nonzero (C11 m) then Some (C11 m) else None in
  fun v => match v with
           | V0 => d2WdI1I1 | V1 => None | V2 => None
           | V3 => d2WdI1I2 | V4 => None | V5 => None end.

Definition tod_model {SV} (m : TOD) : InvModel SV :=
  {| im_gradient := fun I1 I2 I3 sv =>
       rbind (tod_gradient m I1 I2 I3) (fun g => Ok (g, sv));
     im_hessian := fun I1 I2 I3 sv => Ok (tod_hessian m I1 I2 I3) |}.

(** ** Ogden: models/stretches/_ogden.py.  [combine] is Python's [zip] (stops at the
    shorter list). *)
Record Ogden := { og_mu : list R; og_alpha : list R }.

(** gradient, lines 43-52: [dWdλα += 2 * mu / alpha * stretches ** (alpha - 1)] *)
Definition ogden_gradient (m : Ogden) (l : Vec3) : Vec3 :=
  fold_left (fun (acc : Vec3) '(mu, alpha) =>
               fun a => acc a + 2 * mu / alpha * Rpower (l a) (alpha - 1))
            (combine (og_mu m) (og_alpha m)) (fun _ => 0).

(** hessian, lines 54-63: diagonal entries, mixed entries are [None] *)
Definition ogden_hessian (m : Ogden) (l : Vec3) : ix6 -> option R :=
  let d := fold_left (fun (acc : Vec3) '(mu, alpha) =>
               fun a => acc a + 2 * mu / alpha * (alpha - 1) * Rpower (l a) (alpha - 2))
            (combine (og_mu m) (og_alpha m)) (fun _ => 0) in
  fun v => match v with V0 => Some (d X0) | V1 => Some (d X1) | V2 => Some (d X2)
                      | _ => None end.

Definition ogden_model {SV} (m : Ogden) : StretchModel SV :=
  {| sm_self := unit;
     sm_gradient := fun l sv => ret (ogden_gradient m l, sv);
     sm_hessian := fun l sv => ret (ogden_hessian m l) |}.

(** ** Generalised strain measures: models/generalized/_stretch.py.
    A strain measure maps a stretch to (E, dE, d2E, E0, dE0, d2E0). *)
Record StrainVal := { sE : R; sdE : R; sd2E : R; sE0 : R; sdE0 : R; sd2E0 : R }.

(** strain, lines 1-15 (k = exponent); the reference values use λ=1, k=2. *)
Definition sth_E (l k : R) : R := (Rpower l k - 1) / k.
Definition sth_dE (l k : R) : R := Rpower l (k - 1).
Definition sth_d2E (l k : R) : R := (k - 1) * Rpower l (k - 2).
Definition strain (l k : R) : StrainVal :=
  {| sE := sth_E l k; sdE := sth_dE l k; sd2E := sth_d2E l k;
     sE0 := sth_E 1 2; sdE0 := sth_dE 1 2; sd2E0 := sth_d2E 1 2 |}.

(** deformation, lines 18-33 *)
Definition def_C (l k : R) : R := Rpower l k.
Definition def_dC (l k : R) : R := k * Rpower l (k - 1).
Definition def_d2C (l k : R) : R := k * (k - 1) * Rpower l (k - 2).
Definition deformation (l k : R) : StrainVal :=
  {| sE := def_C l k; sdE := def_dC l k; sd2E := def_d2C l k;
     sE0 := def_C 1 2; sdE0 := def_dC 1 2; sd2E0 := def_d2C 1 2 |}.

(** ** GeneralizedInvariantsModel: models/stretches/_generalized_invariants.py *)
Record GenConst := { gc1 : R; gc2 : R; gI10 : R; gI20 : R; gI30 : R }.

(** __init__, lines 203-225.  [fs] is the strain measure with its keyword arguments
    already applied; it returns the 6-tuple, or raises (e.g. exponent 0).  Lines 220-221
    divide Python numbers and raise on a zero divisor. *)
Definition gen_init (fs : R -> Result StrainVal) : Result GenConst :=
  rbind (fs 1) (fun s =>
  let c1_upper := 3 / 2 * (sd2E0 s + sdE0 s) in
  let c1_lower := 3 / 2 * (sd2E s + sdE s) in
  let c2_upper := 3 * (sd2E0 s + sdE0 s) * sE0 s - 3 / 2 * sdE0 s ^ 2 in
  let c2_lower := 3 * (sd2E s + sdE s) * sE s - 3 / 2 * sdE s ^ 2 in
  if nonzero c1_lower then
  if nonzero c2_lower then
    Ok {| gc1 := c1_upper / c1_lower; gc2 := c2_upper / c2_lower;
          gI10 := 3 * sE s; gI20 := 3 * sE s ^ 2; gI30 := sE s ^ 3 |}
  else Raise ZeroDivisionError
  else Raise ZeroDivisionError).

(** The library's two measures with Python's error for exponent 0:
    [strain] divides by k (line 7). *)
Definition strain_fun (k : R) (l : R) : Result StrainVal :=
  if nonzero k then Ok (strain l k) else Raise ZeroDivisionError.
Definition deformation_fun (k : R) (l : R) : Result StrainVal := Ok (deformation l k).

(** Attributes set by [gradient] (lines 232, 240-246, 251-253); [None] = not yet set. *)
Record GenSelf := {
  g_strain : option (Vec3 * Vec3 * Vec3);         (* E, dEdλ, d2Edλdλ *)
  g_I : option (R * R * R);                       (* I1, I2, I3 *)
  g_dW : option (option R * option R * option R); (* dWdI1, dWdI2, dWdI3 *)
  g_dIdE : option (Vec3 * Vec3 * Vec3)            (* dI1dE, dI2dE, dI3dE *)
}.

(** Line 248-249: [E[[1,0,0]]], [E[[2,2,1]]] *)
Definition gb (a : ix3) : ix3 := match a with X0 => X1 | X1 => X0 | X2 => X0 end.
Definition gg (a : ix3) : ix3 := match a with X0 => X2 | X1 => X2 | X2 => X1 end.
(** Lines 292-293 *)
Definition ga6 (v : ix6) : ix3 :=
  match v with V0 => X0 | V1 => X1 | V2 => X2 | V3 => X0 | V4 => X1 | V5 => X0 end.
Definition gb6 (v : ix6) : ix3 :=
  match v with V0 => X0 | V1 => X1 | V2 => X2 | V3 => X1 | V4 => X2 | V5 => X2 end.
(** Line 288: [Eγ = [2, 0, 1]] -- a list of integers which line 322-323 uses as values
    (not as an index into E); entry for the mixed components 12, 23, 13. *)
Definition gEg (v : ix6) : R := match v with V3 => 2 | V4 => 0 | V5 => 1 | _ => 0 end.

Definition mixed (v : ix6) : bool := match v with V3 | V4 | V5 => true | _ => false end.

(** Apply the strain measure to the three stretches (elementwise user function). *)
Definition strain3 (fs : R -> Result StrainVal) (l : Vec3) : Result (ix3 -> StrainVal) :=
  rbind (fs (l X0)) (fun s0 => rbind (fs (l X1)) (fun s1 => rbind (fs (l X2)) (fun s2 =>
  Ok (fun a => match a with X0 => s0 | X1 => s1 | X2 => s2 end)))).

(** [if x is not None: acc = acc + f(x)] on arrays indexed by [A]. *)
Definition accum {A : Type} (x : option R) (acc : A -> R) (f : R -> A -> R) : A -> R :=
  match x with Some w => fun a => acc a + f w a | None => acc end.

Section Gen.
  Context {SV : Type} (m : InvModel SV) (fs : R -> Result StrainVal) (c : GenConst).
  Local Open Scope py_scope.

  (** gradient, lines 227-266 *)
  Definition gen_gradient (l : Vec3) (sv : SV) : PY GenSelf (Vec3 * SV) :=
    s <- lift (strain3 fs l) ;;
    let E := fun a => sE (s a) in
    let dE := fun a => sdE (s a) in
    let d2E := fun a => sd2E (s a) in
    self <- get ;;
    put {| g_strain := Some (E, dE, d2E); g_I := g_I self; g_dW := g_dW self;
           g_dIdE := g_dIdE self |} ;;
    let I1 := E X0 + E X1 + E X2 in
    let I2 := E X0 * E X1 + E X1 * E X2 + E X2 * E X0 in
    let I3 := E X0 * E X1 * E X2 in
    let sI1 := gc1 c * I1 - gI10 c * (gc1 c - 1) in
    let sI2 := gc2 c * I2 - gI20 c * (gc2 c - 1) in
    let sI3 := I3 in
    self <- get ;;
    put {| g_strain := g_strain self; g_I := Some (sI1, sI2, sI3); g_dW := g_dW self;
           g_dIdE := g_dIdE self |} ;;
    '(dWdI1, dWdI2, dWdI3, svn) <- lift (im_gradient m sI1 sI2 sI3 sv) ;;
    let Eb := fun a => E (gb a) in
    let Eg := fun a => E (gg a) in
    let dI1dE := fun _ : ix3 => gc1 c * 1 in
    let dI2dE := fun a => gc2 c * (Eb a + Eg a) in
    let dI3dE := fun a => Eb a * Eg a in
    self <- get ;;
    put {| g_strain := g_strain self; g_I := g_I self;
           g_dW := Some (dWdI1, dWdI2, dWdI3);
           g_dIdE := Some (dI1dE, dI2dE, dI3dE) |} ;;
    let dW := fun _ : ix3 => 0 in
    let dW := accum dWdI1 dW (fun w a => w * dI1dE a * dE a) in
    let dW := accum dWdI2 dW (fun w a => w * dI2dE a * dE a) in
    let dW := accum dWdI3 dW (fun w a => w * dI3dE a * dE a) in
    ret (dW, svn).

  (** hessian, lines 268-338.  [statevars] (old) is passed on at line 280. *)
  Definition gen_hessian (l : Vec3) (sv : SV) : PY GenSelf (ix6 -> option R) :=
    '(_, _) <- gen_gradient l sv ;;
    self <- get ;;
    '(I1, I2, I3) <- attr (g_I self) ;;
    h <- lift (im_hessian m I1 I2 I3 sv) ;;
    self <- get ;;
    '(dI1, dI2, dI3) <- attr (g_dIdE self) ;;
    '(_, dE, d2E) <- attr (g_strain self) ;;
    '(dWdI1, dWdI2, dWdI3) <- attr (g_dW self) ;;
    let H := fun _ : ix6 => 0 in
    let H := accum (h V0) H (fun d v => d * dI1 (ga6 v) * dI1 (gb6 v)) in
    let H := accum (h V1) H (fun d v => d * dI2 (ga6 v) * dI2 (gb6 v)) in
    let H := accum (h V2) H (fun d v => d * dI3 (ga6 v) * dI3 (gb6 v)) in
    let H := accum (h V3) H (fun d v => d * (dI1 (ga6 v) * dI2 (gb6 v) + dI2 (ga6 v) * dI1 (gb6 v))) in
    let H := accum (h V4) H (fun d v => d * (dI2 (ga6 v) * dI3 (gb6 v) + dI3 (ga6 v) * dI2 (gb6 v))) in
    let H := accum (h V5) H (fun d v => d * (dI1 (ga6 v) * dI3 (gb6 v) + dI3 (ga6 v) * dI1 (gb6 v))) in
    (* lines 317-323: only the entries [3:] are incremented *)
    let H := accum dWdI2 H (fun w v => if mixed v then w * gc2 c else 0) in
    let H := accum dWdI3 H (fun w v => if mixed v then w * gEg v else 0) in
    (* line 327 *)
    let H := fun v => H v * (dE (ga6 v) * dE (gb6 v)) in
    (* lines 329-336: only the entries [:3] are incremented *)
    let H := accum dWdI1 H (fun w v => if mixed v then 0 else w * dI1 (ga6 v) * d2E (ga6 v)) in
    let H := accum dWdI2 H (fun w v => if mixed v then 0 else w * dI2 (ga6 v) * d2E (ga6 v)) in
    let H := accum dWdI3 H (fun w v => if mixed v then 0 else w * dI3 (ga6 v) * d2E (ga6 v)) in
    ret (fun v => Some (H v)).

  Definition gen_model : StretchModel SV :=
    {| sm_self := GenSelf; sm_gradient := gen_gradient; sm_hessian := gen_hessian |}.
End Gen.
(** A freshly constructed GeneralizedInvariantsModel has none of these attributes. *)
Definition gen_self0 : GenSelf :=
  {| g_strain := None; g_I := None; g_dW := None; g_dIdE := None |}.
