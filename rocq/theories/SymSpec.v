(** * Specification for the constitutive properties C57 - C60.  Nothing here models code. *)
From Coq Require Import Reals.
From Verif Require Import Tensor Py Voigt Frameworks Spaces Spec.
Local Open Scope R_scope.

(** ** Rotating the body before it is deformed (C57) *)
(** The legs that live in the undeformed configuration: the first leg of the stress (legs 1
    and 3 of the elasticity) iff force=0, the second leg (legs 2 and 4) iff area=0. *)
Definition mleg (c : Config) (Q : T2) : T2 := match c with Deformed => one2 | Undeformed => Q end.
(** Rotating them; finalize=False returns referential quantities in Voigt storage. *)
Definition turn_stress (o : SpaceOpts) (Q : T2) (out : StressOut) : StressOut :=
  match out with
  | StressFull P => StressFull (mmul (mmul (mleg (force o) Q) P) (mtr (mleg (area o) Q)))
  | StressVoigt V => StressVoigt (asvoigt (rot2 Q (astensor V)))
  end.
Definition turn_elast (o : SpaceOpts) (Q : T2) (out : ElastOut) : ElastOut :=
  match out with
  | ElastFull A => ElastFull (push (mleg (force o) Q) (mleg (area o) Q) A)
  | ElastVoigt C4 => ElastVoigt (asvoigt4 (rot4 Q (astensor4 C4)))
  end.
(** The tensor a space hands to the material. *)
Definition argument (k : SpaceKind) (F : T2) : T2 :=
  match k with
  | KDeformation => cauchy_green F
  | KDistortional => distortional_part (cauchy_green F)
  | KDilatational => mscal (Rpower (det3 (cauchy_green F)) (1 / 3)) (cauchy_green F)
  end.
