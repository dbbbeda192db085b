(** * The Stretches framework in IEEE arithmetic: specification for C70.

    The expressions are those of RoundedStretch.v; results may be infinite or NaN ([None]). *)
From Coq Require Import Reals List.
From Verif Require Import Tensor Py Voigt Models Frameworks Spaces Spec Rounded RoundedCode RoundedSpaces RoundedStretch IEEE.
Local Open Scope R_scope.

(** The eigenvalue routine: for a finite matrix in range the results are finite and belong to a matrix
    near A, up to a further error (as [eigh_computed], with an absolute error of the order of the
    underflow threshold).  About other matrices nothing is assumed. *)
Definition eigh_bound (c : R) (g : Fmt) (A : T2) (w : Vec3) (v : T2) : Prop := exists (E : T2) (w0 : Vec3) (v0 : T2),
  (forall i j, Rabs (E i j) <= c * (roundoff g * size2 A + tiny g)) /\ eig_legal (fun i j => A i j + E i j) w0 v0 /\
  (forall a, Rabs (w a - w0 a) <= c * (roundoff g * size2 A + tiny g)) /\ (forall i a, Rabs (v i a - v0 i a) <= c * (roundoff g + tiny g)).
Definition finite3 (w : ix3 -> option R) (w' : Vec3) : Prop := forall a, w a = Some (w' a).
Definition finite6 (A : ix6 -> option R) (A' : Vec6) : Prop := forall n, A n = Some (A' n).
Definition finite33 (v : ix3 -> ix3 -> option R) (v' : T2) : Prop := forall i a, v i a = Some (v' i a).
Definition eigh_ieee (c : R) (g : Fmt) (A : ix6 -> option R) (w : ix3 -> option R) (v : ix3 -> ix3 -> option R) : Prop :=
  forall A', finite6 A A' -> size2 (astensor A') <= huge g -> exists w' v', finite3 w w' /\ finite33 v v' /\ eigh_bound c g (astensor A') w' v'.
(** np.isclose(v, 0) decided on the computed [v] with the rounded tolerance 1e-8. *)
Definition ieee_close (g : Fmt) (w : ix3 -> expr) (close : ix6 -> bool) : Prop :=
  forall k, ix3_eqb (sb k) (sa k) = false -> exists b atol, ieee g (x_vab w k) b /\ result g (/ 10 ^ 8) (Some atol) /\
    (close k = true <-> within atol b 0).
(** What gradient and hessian of a space may return, one entry, for a deformation gradient that is
    itself computed ([XF]).  If the eigenvalue routine returns an infinity or NaN, anything may be returned. *)
Definition ieee_eigh (c : R) (g : Fmt) (k : SpaceKind) (XF : XT2) (Q : Vec3 -> T2 -> Prop) : Prop :=
  exists (A : ix6 -> option R) w v, (forall n, ieee g (x_seen k XF n) (A n)) /\ eigh_ieee c g A w v /\
    forall w' v', finite3 w w' -> finite33 v v' -> Q w' v'.
Definition ieee_stress_at c g (xm : XModel) (k : SpaceKind) (f a : Config) (XF : XT2) i j (x : option R) : Prop :=
  ieee_eigh c g k XF (fun w v => ieee g (x_gradient k (str_comp xm w v (fun _ => true)) XF f a i j) x).
Definition ieee_elasticity_at c g (xm : XModel) (k : SpaceKind) (f a : Config) (XF : XT2) i j p q (x : option R) : Prop :=
  ieee_eigh c g k XF (fun w v => exists close, ieee_close g (fun a => Num (w a)) close /\
    ieee_hessian g k (str_comp xm w v close) f a XF i j p q x).
Definition ieee_point c g (xm : XModel) (k : SpaceKind) (XF : XT2) (y : option R) : Prop :=
  ieee_eigh c g k XF (fun w v => ieee g (x_lc_stress XF (x_gradient k (str_comp xm w v (fun _ => true)) XF Deformed Undeformed)) y).
