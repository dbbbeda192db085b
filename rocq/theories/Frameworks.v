(** * Model of src/hyperelastic/frameworks/ (one entry of the trailing axes). *)
From Coq Require Import Reals.
From Verif Require Import Tensor Py Voigt Models.
Local Open Scope R_scope.
Local Open Scope py_scope.

(** A framework object as seen by a space: attributes plus the two methods. *)
Record Framework (SV : Type) := {
  fw_self : Type;
  fw_gradient : Vec6 -> SV -> PY fw_self (Vec6 * SV);
  fw_hessian : Vec6 -> SV -> PY fw_self Mat6
}.
Arguments fw_self {SV}. Arguments fw_gradient {SV}. Arguments fw_hessian {SV}.

(** ** Invariants: frameworks/_invariants.py *)
Record InvSelf := {
  i_I : option Vec6; i_I1 : option R; i_I2 : option R; i_I3 : option R;
  i_dW : option (option R * option R * option R);   (* dWdI1, dWdI2, dWdI3 *)
  i_dI1dC : option Vec6; i_dI2dC : option Vec6;
  i_invC : option Vec6; i_dI3dC : option Vec6
}.
Definition inv_self0 : InvSelf :=
  {| i_I := None; i_I1 := None; i_I2 := None; i_I3 := None; i_dW := None;
     i_dI1dC := None; i_dI2dC := None; i_invC := None; i_dI3dC := None |}.

(** Attribute assignments of the code: *)
Definition set_invariants (I : Vec6) (I1 I2 I3 : R) (s : InvSelf) : InvSelf :=
  {| i_I := Some I; i_I1 := Some I1; i_I2 := Some I2; i_I3 := Some I3; i_dW := i_dW s;
     i_dI1dC := i_dI1dC s; i_dI2dC := i_dI2dC s; i_invC := i_invC s; i_dI3dC := i_dI3dC s |}.
Definition set_dW (dW : option R * option R * option R) (s : InvSelf) : InvSelf :=
  {| i_I := i_I s; i_I1 := i_I1 s; i_I2 := i_I2 s; i_I3 := i_I3 s; i_dW := Some dW;
     i_dI1dC := i_dI1dC s; i_dI2dC := i_dI2dC s; i_invC := i_invC s; i_dI3dC := i_dI3dC s |}.
Definition set_dI1dC (x : Vec6) (s : InvSelf) : InvSelf :=
  {| i_I := i_I s; i_I1 := i_I1 s; i_I2 := i_I2 s; i_I3 := i_I3 s; i_dW := i_dW s;
     i_dI1dC := Some x; i_dI2dC := i_dI2dC s; i_invC := i_invC s; i_dI3dC := i_dI3dC s |}.
Definition set_dI2dC (x : Vec6) (s : InvSelf) : InvSelf :=
  {| i_I := i_I s; i_I1 := i_I1 s; i_I2 := i_I2 s; i_I3 := i_I3 s; i_dW := i_dW s;
     i_dI1dC := i_dI1dC s; i_dI2dC := Some x; i_invC := i_invC s; i_dI3dC := i_dI3dC s |}.
Definition set_invC_dI3dC (x y : Vec6) (s : InvSelf) : InvSelf :=
  {| i_I := i_I s; i_I1 := i_I1 s; i_I2 := i_I2 s; i_I3 := i_I3 s; i_dW := i_dW s;
     i_dI1dC := i_dI1dC s; i_dI2dC := i_dI2dC s; i_invC := Some x; i_dI3dC := Some y |}.
Definition modify {S} (f : S -> S) : PY S unit := s <- get ;; put (f s).

(** [if x is not None: ...] updating an accumulator. *)
Definition if_some {S A B} (x : option A) (acc : B) (f : A -> PY S B) : PY S B :=
  match x with Some a => f a | None => ret acc end.

Section Invariants.
  Context {SV : Type} (m : InvModel SV).

  (** gradient, _invariants.py:150-181 *)
  Definition inv_gradient (C : Vec6) (sv : SV) : PY InvSelf (Vec6 * SV) :=
    let I := eye in
    let I1 := trace C in
    let I2 := (I1 ^ 2 - ddot22 C C) / 2 in
    let I3 := det C in
    modify (set_invariants I I1 I2 I3) ;;
    '(dWdI1, dWdI2, dWdI3, svn) <- lift (im_gradient m I1 I2 I3 sv) ;;
    modify (set_dW (dWdI1, dWdI2, dWdI3)) ;;
    let dWdC := vzero in
    dWdC <- if_some dWdI1 dWdC (fun w =>
      modify (set_dI1dC I) ;;
      ret (vadd dWdC (vscal w I))) ;;
    dWdC <- if_some dWdI2 dWdC (fun w =>
      let dI2dC := vsub (vscal I1 I) C in
      modify (set_dI2dC dI2dC) ;;
      ret (vadd dWdC (vscal w dI2dC))) ;;
    dWdC <- if_some dWdI3 dWdC (fun w =>
      let invC := inv C (Some I3) in
      let dI3dC := vscal I3 invC in
      modify (set_invC_dI3dC invC dI3dC) ;;
      ret (vadd dWdC (vscal w dI3dC))) ;;
    ret (dWdC, svn).

  (** [x * dya(A, B)] where the scalar is a model output that may be None:
      [None * ndarray] raises TypeError. *)
  Definition times (x : option R) (A : Mat6) : PY InvSelf Mat6 :=
    match x with Some x => ret (mscal6 x A) | None => raise TypeError end.

  (** hessian, _invariants.py:183-237.  Note line 189: [statevars] is rebound to the
      updated state variables before line 197 passes it to [material.hessian]. *)
  Definition inv_hessian (C : Vec6) (sv : SV) : PY InvSelf Mat6 :=
    '(dWdC, sv) <- inv_gradient C sv ;;
    self <- get ;;
    I1 <- attr (i_I1 self) ;;
    I2 <- attr (i_I2 self) ;;
    I3 <- attr (i_I3 self) ;;
    h <- lift (im_hessian m I1 I2 I3 sv) ;;
    I <- attr (i_I self) ;;
    '(dWdI1, dWdI2, dWdI3) <- attr (i_dW self) ;;
    let H := mzero in
    (* lines 203-206 *)
    dI1dC <- if_some dWdI1 None (fun _ => x <- attr (i_dI1dC self) ;; ret (Some x)) ;;
    (* lines 208-211 *)
    '(dI2dC, H) <- if_some dWdI2 (None, H) (fun w =>
      x <- attr (i_dI2dC self) ;;
      let d2I2dCdC := msub6 (dya I I) (cdya1 I) in
      ret (Some x, madd6 H (mscal6 w d2I2dCdC))) ;;
    (* lines 213-217 *)
    '(dI3dC, H) <- if_some dWdI3 (None, H) (fun w =>
      x <- attr (i_dI3dC self) ;;
      invC <- attr (i_invC self) ;;
      let d2I3dCdC := mscal6 I3 (msub6 (dya invC invC) (cdya1 invC)) in
      ret (Some x, madd6 H (mscal6 w d2I3dCdC))) ;;
    (* lines 219-220 *)
    H <- if_some (h V0) H (fun _ =>
      d1 <- local dI1dC ;;
      T <- times (h V0) (dya d1 d1) ;; ret (madd6 H T)) ;;
    (* lines 222-223 *)
    H <- if_some (h V1) H (fun _ =>
      d2 <- local dI2dC ;;
      T <- times (h V1) (dya d2 d2) ;; ret (madd6 H T)) ;;
    (* lines 225-226: the branch for d2WdI3dI3 adds the (2,2) term *)
    H <- if_some (h V2) H (fun _ =>
      d2 <- local dI2dC ;;
      T <- times (h V1) (dya d2 d2) ;; ret (madd6 H T)) ;;
    (* lines 228-229 *)
    H <- if_some (h V3) H (fun _ =>
      d1 <- local dI1dC ;; d2 <- local dI2dC ;;
      T <- times (h V3) (madd6 (dya d1 d2) (dya d2 d1)) ;; ret (madd6 H T)) ;;
    (* lines 231-232 *)
    H <- if_some (h V4) H (fun _ =>
      d2 <- local dI2dC ;; d3 <- local dI3dC ;;
      T <- times (h V4) (madd6 (dya d2 d3) (dya d3 d2)) ;; ret (madd6 H T)) ;;
    (* lines 234-235 *)
    H <- if_some (h V5) H (fun _ =>
      d1 <- local dI1dC ;; d3 <- local dI3dC ;;
      T <- times (h V5) (madd6 (dya d1 d3) (dya d3 d1)) ;; ret (madd6 H T)) ;;
    ret H.

  Definition invariants_fw : Framework SV :=
    {| fw_self := InvSelf; fw_gradient := inv_gradient; fw_hessian := inv_hessian |}.
End Invariants.

(** ** Stretches: frameworks/_stretches.py *)
Section Stretches.
  Context {SV : Type} (lapack : Lapack) (m : StretchModel SV).

  (** Attributes λ, M, dWdλC (and the attributes of the model object). *)
  Record StrSelf := {
    st_lM : option (Vec3 * (ix3 -> Vec6));
    st_dWdlC : option Vec3;
    st_model : sm_self m
  }.

  (** A method call on the model object [self.material]. *)
  Definition on_model {A} (f : PY (sm_self m) A) : PY StrSelf A := fun s =>
    let '(ms, r) := f (st_model s) in
    ({| st_lM := st_lM s; st_dWdlC := st_dWdlC s; st_model := ms |}, r).

  Definition set_lM x (s : StrSelf) : StrSelf :=
    {| st_lM := Some x; st_dWdlC := st_dWdlC s; st_model := st_model s |}.
  Definition set_dWdlC x (s : StrSelf) : StrSelf :=
    {| st_lM := st_lM s; st_dWdlC := Some x; st_model := st_model s |}.

  (** gradient, _stretches.py:121-135 *)
  Definition str_gradient (C : Vec6) (sv : SV) : PY StrSelf (Vec6 * SV) :=
    let '(l, M) := eigh lapack C sqrt in
    modify (set_lM (l, M)) ;;
    '(dWdl, svn) <- on_model (sm_gradient m l sv) ;;
    let dWdlC := fun a => dWdl a / (2 * l a) in
    modify (set_dWdlC dWdlC) ;;
    let dWdC := fun v => sum3 (fun a => dWdlC a * M a v) in
    ret (dWdC, svn).

  (** lines 158-159 (same tables as [vi], [vj]) *)
  Definition sa (v : ix6) : ix3 :=
    match v with V0 => X0 | V1 => X1 | V2 => X2 | V3 => X0 | V4 => X1 | V5 => X0 end.
  Definition sb (v : ix6) : ix3 :=
    match v with V0 => X0 | V1 => X1 | V2 => X2 | V3 => X1 | V4 => X2 | V5 => X2 end.
  (** position of the diagonal entry (a, a) in the order of lines 158-159 *)
  Definition sdiag (a : ix3) : ix6 := match a with X0 => V0 | X1 => V1 | X2 => V2 end.

  (** line 172-177: coefficient f for the pair of entry [k] *)
  Definition str_f (l dWdlC : Vec3) (d2 : ix6 -> R) (k : ix6) : R :=
    let al := sa k in let be := sb k in
    let v := l al ^ 2 - l be ^ 2 in
    if isclose v 0 then d2 (sdiag be) - d2 k
    else (dWdlC al - dWdlC be) / v.

  (** one iteration of the loop of lines 168-179 *)
  Definition str_iter (l : Vec3) (M : ix3 -> Vec6) (dWdlC : Vec3) (d2 : ix6 -> R)
      (H : Mat6) (k : ix6) : Mat6 :=
    let al := sa k in let be := sb k in
    let M4 := dya (M al) (M be) in
    let H := madd6 H (mscal6 (d2 k) M4) in
    if ix3_eqb be al then H
    else madd6 H (madd6 (mscal6 (d2 k) (transpose M4))
                        (mscal6 (str_f l dWdlC d2 k * 2) (cdya (M al) (M be)))).

  (** hessian, _stretches.py:137-181.  Line 143 rebinds [statevars] to the updated
      ones before line 144 passes it on.  Lines 146-152: [None] entries become 0. *)
  Definition str_hessian (C : Vec6) (sv : SV) : PY StrSelf Mat6 :=
    '(_, sv) <- str_gradient C sv ;;
    self <- get ;;
    '(l, M) <- attr (st_lM self) ;;
    d2Wdldl <- on_model (sm_hessian m l sv) ;;
    let d2Wdldl := fun v => match d2Wdldl v with Some x => x | None => 0 end in
    self <- get ;;
    dWdlC <- attr (st_dWdlC self) ;;
    let d2 := fun v => d2Wdldl v / (4 * l (sa v) * l (sb v)) in
    let d2 := fun v => match v with
       | V0 => d2 V0 - dWdlC X0 / (2 * l X0 ^ 2)
       | V1 => d2 V1 - dWdlC X1 / (2 * l X1 ^ 2)
       | V2 => d2 V2 - dWdlC X2 / (2 * l X2 ^ 2)
       | _ => d2 v end in
    let it := str_iter l M dWdlC d2 in
    ret (it (it (it (it (it (it mzero V0) V1) V2) V3) V4) V5).

  Definition stretches_fw : Framework SV :=
    {| fw_self := StrSelf; fw_gradient := str_gradient; fw_hessian := str_hessian |}.
End Stretches.

(** ** GeneralizedInvariants: frameworks/_generalized.py:204-209: a Stretches framework
    on a GeneralizedInvariantsModel; the constructor may raise. *)
Definition generalized_fw {SV} (lapack : Lapack) (m : InvModel SV) (fs : R -> Result StrainVal)
  : Result (Framework SV) :=
  rbind (gen_init fs) (fun c => Ok (stretches_fw lapack (gen_model m fs c))).
