(** Specification vocabulary for C63 (element types). *)
From Coq Require Import Reals ZArith.
From Verif Require Import Tensor Py Voigt Models Frameworks Spaces Lab Spec Typed.
Local Open Scope R_scope.

(** [t] is the outcome of a call on arrays with element types, [r] the outcome of the
    same call on the same numbers as reals: the same exception, or results related by
    [same]. *)
Definition right {A B} (same : A -> B -> Prop) (t : Result A) (r : Result B) : Prop :=
  match t, r with Ok a, Ok b => same a b | Raise e, Raise e' => e = e' | _, _ => False end.
(** ... or the call raises TypeError. *)
Definition right_or_TypeError {A B} (same : A -> B -> Prop) (t : Result A) (r : Result B) : Prop :=
  t = Raise TypeError \/ right same t r.

(** The results are floating-point arrays with exactly these numbers. *)
Definition float_stress {SV} (a : TStressOut * SV) (b : StressOut * SV) : Prop :=
  snd a = snd b /\
  match fst a, fst b with
  | TStressFull (AF f), StressFull P => forall i j, f (i, j) = P i j
  | TStressVoigt (AF f), StressVoigt s => forall v, f v = s v
  | _, _ => False end.
Definition float_elast (a : TElastOut) (b : ElastOut) : Prop :=
  match a, b with
  | TElastFull (AF f), ElastFull A => forall i j k l, f (i, j, k, l) = A i j k l
  | TElastVoigt (AF f), ElastVoigt C => forall v w, f (v, w) = C v w
  | _, _ => False end.
Definition float6 (a : A6) (b : Vec6) : Prop := exists f, a = AF f /\ forall v, f v = b v.
Definition float66 (a : A66) (b : Mat6) : Prop := exists f, a = AF f /\ forall v w, f (v, w) = b v w.

(** Deformation gradients: floats, or integers of absolute value at most 500 (far beyond
    any deformation, and small enough that no int64 operation of the code wraps around). *)
Definition integers (F : A2) (z : ix3 -> ix3 -> Z) : Prop := exists f, F = AI f /\ forall i j, f (i, j) = z i j.
Definition floats (F : A2) : Prop := exists f, F = AF f.
Definition moderate (F : A2) : Prop :=
  floats F \/ exists z, integers F z /\ forall i j, (Z.abs (z i j) <= 500)%Z.
Definition numbers (F : A2) : T2 := fun i j => vals F (i, j).

(** A user's invariant model that follows NumPy's typing: on the same numbers it either
    raises TypeError or returns the same numbers (resp. always the same, on floats). *)
Definition same_gradient {SV} (a : option num * option num * option num * SV) (b : option R * option R * option R * SV) : Prop :=
  let '(a1, a2, a3, s) := a in b = (option_map rv a1, option_map rv a2, option_map rv a3, s).
Definition same_hessian (a : ix6 -> option num) (b : ix6 -> option R) : Prop := forall v, b v = option_map rv (a v).
Definition bounded (n : num) : Prop := match n with NI z => (Z.abs z <= 2250000)%Z | NF _ => True end.
Definition typed_model {SV} (tm : TInvModel SV) (m : InvModel SV) : Prop :=
  (forall I1 I2 I3 sv, bounded I1 ->
     right_or_TypeError same_gradient (tm_gradient tm I1 (NF I2) I3 sv) (im_gradient m (rv I1) I2 (rv I3) sv) /\
     right_or_TypeError same_hessian (tm_hessian tm I1 (NF I2) I3 sv) (im_hessian m (rv I1) I2 (rv I3) sv)) /\
  (forall I1 I2 I3 sv,
     right same_gradient (tm_gradient tm (NF I1) (NF I2) (NF I3) sv) (im_gradient m I1 I2 I3 sv) /\
     right same_hessian (tm_hessian tm (NF I1) (NF I2) (NF I3) sv) (im_hessian m I1 I2 I3 sv)).

(** The materials a space can be created with. *)
Inductive material {SV : Type} : TFramework SV -> Framework SV -> Prop :=
| Mat_invariants tm m : typed_model tm m -> material (t_invariants tm) (invariants_fw m)
| Mat_stretches lapack m s0 : stateless_sm m -> material (t_stretches lapack m s0) (stretches_fw lapack m).

(** Parameters of ThirdOrderDeformation: floats or Python ints of moderate size;
    [undeformed] is 0 or 3 (set by __init__). *)
Definition param (n : num) : Prop := match n with NI z => (Z.abs z <= 100000)%Z | NF _ => True end.
Definition params (m : TTOD) : Prop :=
  param (tC10 m) /\ param (tC01 m) /\ param (tC11 m) /\ param (tC20 m) /\ param (tC30 m) /\ (tundef m = NI 0 \/ tundef m = NI 3).
Definition float_params (m : TTOD) : Prop := forall n, n = tC10 m \/ n = tC01 m \/ n = tC11 m \/ n = tC20 m \/ n = tC30 m -> exists x, n = NF x.
