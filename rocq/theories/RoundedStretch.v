(** * The Stretches framework in rounded arithmetic.

    The expressions that frameworks/_stretches.py evaluates on the results of LAPACK's
    eigenvalue routine (np.linalg.eigh), with the operations and the grouping of the source
    (one entry of the trailing axes), and models/stretches/_ogden.py. *)
From Coq Require Import Reals List.
From Verif Require Import Tensor Py Voigt Models Frameworks Spaces Spec Rounded RoundedCode RoundedSpaces.
Import ListNotations.
Local Open Scope R_scope.

(** ** The eigenvalue routine.  Its results are the eigenvalues and eigenvectors of a matrix
    near A, up to a further error: LAPACK's error bounds (symmetric eigenproblem), with [c] a
    modest constant times the size of the matrix.  Nothing is assumed about the choice of the
    eigenvectors. *)
Definition size2 (A : T2) : R := sum3 (fun i => sum3 (fun j => Rabs (A i j))).
Definition eigh_computed (c u : R) (A : T2) (w : Vec3) (v : T2) : Prop := exists (E : T2) (w0 : Vec3) (v0 : T2),
  (forall i j, Rabs (E i j) <= c * u * size2 A) /\ eig_legal (fun i j => A i j + E i j) w0 v0 /\
  (forall a, Rabs (w a - w0 a) <= c * u * size2 A) /\ (forall i a, Rabs (v i a - v0 i a) <= c * u).

(** ** Models of the principal stretches: expressions for the derivatives at three stretches *)
Record XModel := { xm_gradient : (ix3 -> expr) -> ix3 -> expr; xm_hessian : (ix3 -> expr) -> ix6 -> expr }.

(** Ogden: _ogden.py:43-52, 54-63.  The exponents [alpha - 1], [alpha - 2] are rounded ([Pow]);
    entries of the hessian that are None count as 0 (_stretches.py:146-152). *)
Definition x_ogden_gradient (m : Ogden) (l : expr) : expr :=
  fold_left (fun acc '(mu, alpha) => Add acc (Mul (Div (Mul (Num 2) (Num mu)) (Num alpha)) (Pow l (alpha - 1))))
            (combine (og_mu m) (og_alpha m)) (Num 0).
Definition x_ogden_hessian (m : Ogden) (l : expr) : expr :=
  fold_left (fun acc '(mu, alpha) =>
               Add acc (Mul (Mul (Div (Mul (Num 2) (Num mu)) (Num alpha)) (Sub (Num alpha) (Num 1))) (Pow l (alpha - 2))))
            (combine (og_mu m) (og_alpha m)) (Num 0).
Definition ogden_x (m : Ogden) : XModel :=
  {| xm_gradient := fun l a => x_ogden_gradient m (l a);
     xm_hessian := fun l k => match k with
       | V0 => x_ogden_hessian m (l X0) | V1 => x_ogden_hessian m (l X1) | V2 => x_ogden_hessian m (l X2) | _ => Num 0 end |}.

(** ** Stretches: eigenvalues [w] and eigenvectors [v] as computed *)
Section Str.
  Variables (xm : XModel) (w : ix3 -> expr) (v : XT2).
  (** eigh: _voigt.py:950-956; the stretches are the roots (_stretches.py:127) *)
  Definition x_lam (a : ix3) : expr := Sqrt (w a).
  Definition x_M (a : ix3) : XV := x_asvoigt (fun i j => Mul (v i a) (v j a)).
  (** gradient: _stretches.py:129-134 *)
  Definition x_dWdlC (a : ix3) : expr := Div (xm_gradient xm x_lam a) (Mul (Num 2) (x_lam a)).
  Definition x_str_gradient : XV := fun n => Sum (map (fun a => Mul (x_dWdlC a) (x_M a n)) all3).
  (** hessian: lines 158-162 *)
  Definition x_d2 (k : ix6) : expr :=
    let q := Div (xm_hessian xm x_lam k) (Mul (Mul (Num 4) (x_lam (sa k))) (x_lam (sb k))) in
    match k with
    | V0 => Sub q (Div (x_dWdlC X0) (Mul (Num 2) (sq (x_lam X0))))
    | V1 => Sub q (Div (x_dWdlC X1) (Mul (Num 2) (sq (x_lam X1))))
    | V2 => Sub q (Div (x_dWdlC X2) (Mul (Num 2) (sq (x_lam X2))))
    | _ => q end.
  (** lines 173-177; [close]: the outcome of np.isclose *)
  Definition x_vab (k : ix6) : expr := Sub (sq (x_lam (sa k))) (sq (x_lam (sb k))).
  Definition x_f (close : ix6 -> bool) (k : ix6) : expr :=
    if close k then Sub (x_d2 (sdiag (sb k))) (x_d2 k) else Div (Sub (x_dWdlC (sa k)) (x_dWdlC (sb k))) (x_vab k).
  (** one iteration of lines 168-179 *)
  Definition x_iter (close : ix6 -> bool) (H : XM) (k : ix6) : XM := fun n n' =>
    let al := sa k in let be := sb k in
    let H := Add (H n n') (Mul (x_d2 k) (x_dya (x_M al) (x_M be) n n')) in
    if ix3_eqb be al then H
    else Add H (Add (Mul (x_d2 k) (x_dya (x_M al) (x_M be) n' n))
                    (Mul (Mul (x_f close k) (Num 2)) (x_cdya false (x_M al) (x_M be) n n'))).
  Definition x_str_hessian (close : ix6 -> bool) : XM :=
    let it := x_iter close in it (it (it (it (it (it (fun _ _ => Num 0) V0) V1) V2) V3) V4) V5.
End Str.

(** np.isclose(v, 0) decided on the computed [v] with the rounded tolerance 1e-8. *)
Definition computed_close (u : R) (xm : XModel) (w : ix3 -> expr) (close : ix6 -> bool) : Prop :=
  forall k, ix3_eqb (sb k) (sa k) = false -> exists b atol, rounded u (x_vab w k) b /\ fl u (/ 10 ^ 8) atol /\
    (close k = true <-> Rabs b <= atol).

(** The framework inside a space object: [w], [v] are numbers returned by LAPACK for the
    computed array that the space passes to the framework. *)
Definition str_comp (xm : XModel) (w : Vec3) (v : T2) (close : ix6 -> bool) : Comp :=
  {| c_dWdC := fun _ => x_str_gradient xm (fun a => Num (w a)) (in33 v);
     c_d2WdCdC := fun _ => x_str_hessian xm (fun a => Num (w a)) (in33 v) close |}.
(** What gradient and hessian of a space may return, one entry, for a deformation gradient that is
    itself computed ([XF], e.g. by a load case). *)
Definition float_stress_at (c u : R) (xm : XModel) (k : SpaceKind) (f a : Config) (XF : XT2) i j (x : R) : Prop :=
  exists (A : Vec6) w v, (forall n, rounded u (x_seen k XF n) (A n)) /\ eigh_computed c u (astensor A) w v /\
    rounded u (x_gradient k (str_comp xm w v (fun _ => true)) XF f a i j) x.
Definition float_elasticity_at (c u : R) (xm : XModel) (k : SpaceKind) (f a : Config) (XF : XT2) i j p q (x : R) : Prop :=
  exists (A : Vec6) w v close, (forall n, rounded u (x_seen k XF n) (A n)) /\ eigh_computed c u (astensor A) w v /\
    computed_close u xm (fun a => Num (w a)) close /\
    rounded_hessian u k (str_comp xm w v close) f a XF i j p q x.
(** ... for a given deformation gradient. *)
Definition float_stress (c u : R) (xm : XModel) (k : SpaceKind) (f a : Config) (F : T2) := float_stress_at c u xm k f a (in33 F).
Definition float_elasticity (c u : R) (xm : XModel) (k : SpaceKind) (f a : Config) (F : T2) := float_elasticity_at c u xm k f a (in33 F).
(** One point of a simulated curve: the load case computes F from the stretch, the stress of the
    space follows (lab/_load_case.py:65-68: the lateral stress is subtracted). *)
Definition float_point (c u : R) (xm : XModel) (k : SpaceKind) (XF : XT2) (y : R) : Prop :=
  exists (A : Vec6) w v, (forall n, rounded u (x_seen k XF n) (A n)) /\ eigh_computed c u (astensor A) w v /\
    rounded u (x_lc_stress XF (x_gradient k (str_comp xm w v (fun _ => true)) XF Deformed Undeformed)) y.
