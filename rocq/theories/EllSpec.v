(** Specification vocabulary for C64 (strong ellipticity, the Legendre-Hadamard condition). *)
From Coq Require Import Reals.
From Verif Require Import Tensor Py Models Frameworks Spaces Spec.
Local Open Scope R_scope.

(** The direction m x N: a jump of the deformation gradient across a plane with normal N (a
    plane wave with polarisation m, travelling in the direction N). *)
Definition rank_one (m N : Vec3) : T2 := fun i J => m i * N J.
Definition line (F G : T2) (t : R) : T2 := fun i J => F i J + t * G i J.
(** m_i N_J A_iJkL m_k N_L = m . Q(N) m with the acoustic tensor Q(N)_ik = A_iJkL N_J N_L;
    rho c^2 |m|^2 for the speed c of such a wave. *)
Definition acoustic (A : T4) (m N : Vec3) : R :=
  sum3 (fun i => sum3 (fun J => sum3 (fun k => sum3 (fun L => m i * N J * A i J k L * m k * N L)))).
Definition nonzero3 (m : Vec3) : Prop := exists i, m i <> 0.
(** hessian returns an elasticity tensor with a positive definite acoustic tensor for every
    direction: all plane waves have real speeds, no shear bands. *)
Definition elliptic {SV X} (hess : T2 -> SV -> PY X ElastOut) (F : T2) : Prop := forall sv s, exists A,
  returns (hess F sv) s (ElastFull A) /\ forall m N, nonzero3 m -> nonzero3 N -> 0 < acoustic A m N.
(** ... not even a non-negative one. *)
Definition not_elliptic {SV X} (hess : T2 -> SV -> PY X ElastOut) (F : T2) : Prop := forall sv s, exists A,
  returns (hess F sv) s (ElastFull A) /\ exists m N, nonzero3 m /\ nonzero3 N /\ acoustic A m N < 0.
