(** * Specification for C76: finite element equilibrium and Newton's method.

    A body is a list of quadrature points; each has a weight, a material (any of the library's
    space objects around a framework, called with the default options and given state variables),
    a reference deformation gradient and one matrix per degree of freedom (the gradients of the
    shape functions), so that F = F0 + u_0 B_0 + ... + u_(n-1) B_(n-1).  Total Lagrangian
    formulation with dead loads. *)
From Coq Require Import Reals List.
From Coquelicot Require Import Coquelicot.
From Verif Require Import Tensor Py Voigt Models Frameworks Spaces Spec.
Import ListNotations.
Local Open Scope R_scope.

(** f 0 + ... + f (n - 1) *)
Fixpoint sumn (n : nat) (f : nat -> R) : R := match n with O => 0 | S m => sumn m f + f m end.
(** |u a - v a| <= e for all a < n *)
Definition within (n : nat) (e : R) (u v : nat -> R) : Prop := forall a, (a < n)%nat -> Rabs (u a - v a) <= e.

(** What the space objects may return, whatever calls were made before. *)
Record PointMaterial := { pm_stress : T2 -> T2 -> Prop; pm_tangent : T2 -> T4 -> Prop }.
Definition material {SV} (k : SpaceKind) (fw : Framework SV) (sv : SV) : PointMaterial := {|
  pm_stress F P := exists s svn, outcome (sp_gradient k fw default_opts F sv) s = Ok (StressFull P, svn);
  pm_tangent F A := exists s, outcome (sp_hessian k fw default_opts F sv) s = Ok (ElastFull A) |}.

(** *** Smooth materials *)
Definition near (e : R) (F G : T2) : Prop := forall i j, Rabs (F i j - G i j) <= e.
Definition along (F H : T2) (t : R) : T2 := fun i j => F i j + t * H i j.
(** Near F0 the material returns a stress and a tangent, the tangent is the derivative of the
    stress and changes by at most K e within distance e of F0. *)
Definition smooth_at (M : PointMaterial) (F0 : T2) : Prop := exists (P : T2 -> T2) (A : T2 -> T4) d K, 0 < d /\ 0 <= K /\
  (forall F, near d F F0 -> (pm_stress M F (P F) /\ forall p, pm_stress M F p -> p = P F) /\
                            (pm_tangent M F (A F) /\ forall a, pm_tangent M F a -> a = A F)) /\
  (forall F e, 0 <= e <= d -> near e F F0 -> forall i j k l, Rabs (A F i j k l - A F0 i j k l) <= K * e) /\
  (forall F H t, near d (along F H t) F0 -> dcurve2 (fun s => P (along F H s)) t (dc42 (A (along F H t)) H)).

(** Distortional: some entry of the isochoric tangent is above the tolerance of np.allclose. *)
Definition tangent_kept {SV} (fw : Framework SV) (sv : SV) (F : T2) : Prop :=
  exists s H v w, outcome (fw_hessian fw (asvoigt (distortional_part (cauchy_green F))) sv) s = Ok H /\
    / 10 ^ 8 < Rabs (4 * Rpower (det3 (cauchy_green F)) (-2 / 3) * H v w).
(** Pairwise different eigenvalues, further apart than the tolerance of np.isclose. *)
Definition apart (w : Vec3) : Prop := / 10 ^ 8 < Rabs (w X0 - w X1) /\ / 10 ^ 8 < Rabs (w X1 - w X2) /\ / 10 ^ 8 < Rabs (w X0 - w X2).

(** The library's models in its spaces, at deformation gradients where they are smooth. *)
Inductive library_point (lapack : Lapack) : PointMaterial -> T2 -> Prop :=
| lib_tod m F : library_point lapack (material KDeformation (invariants_fw (tod_model m)) tt) F
| lib_tod_isochoric m F : tangent_kept (invariants_fw (tod_model m)) tt F ->
    library_point lapack (material KDistortional (invariants_fw (tod_model m)) tt) F
| lib_neo_hooke k c F : library_point lapack (material k (invariants_fw (tod_model (tod_init c 0 0 0 0 false))) tt) F
| lib_ogden mu alpha F : (forall m a, In (m, a) (combine mu alpha) -> a <> 0) -> apart (fst (lapack (cauchy_green F))) ->
    library_point lapack (material KDeformation (stretches_fw lapack (ogden_model {| og_mu := mu; og_alpha := alpha |})) tt) F
| lib_ogden_isochoric mu alpha F : (forall m a, In (m, a) (combine mu alpha) -> a <> 0) ->
    apart (fst (lapack (distortional_part (cauchy_green F)))) ->
    tangent_kept (stretches_fw lapack (ogden_model {| og_mu := mu; og_alpha := alpha |})) tt F ->
    library_point lapack (material KDistortional (stretches_fw lapack (ogden_model {| og_mu := mu; og_alpha := alpha |})) tt) F
| lib_generalized m fs c E E' E'' E3 F : measure_of fs E E' E'' -> (forall l, 0 < l -> is_derive E'' l (E3 l)) -> apart (fst (lapack (cauchy_green F))) ->
    library_point lapack (material KDeformation (stretches_fw lapack (gen_model (tod_model m) fs c)) tt) F
| lib_generalized_isochoric m fs c E E' E'' E3 F : measure_of fs E E' E'' -> (forall l, 0 < l -> is_derive E'' l (E3 l)) ->
    apart (fst (lapack (distortional_part (cauchy_green F)))) -> tangent_kept (stretches_fw lapack (gen_model (tod_model m) fs c)) tt F ->
    library_point lapack (material KDistortional (stretches_fw lapack (gen_model (tod_model m) fs c)) tt) F.

Record QPoint := { q_weight : R; q_material : PointMaterial; q_F0 : T2; q_shape : nat -> T2 }.
Section FE.
  Variables (n : nat) (body : list QPoint) (load : nat -> R).
  Definition deformed (u : nat -> R) (q : QPoint) : T2 := fun i j => q_F0 q i j + sumn n (fun a => u a * q_shape q a i j).
  (** r_a = sum over the points of w P : B_a, minus the load *)
  Definition residual (u r : nat -> R) : Prop := exists P, List.Forall2 (fun q p => pm_stress (q_material q) (deformed u q) p) body P /\
    forall a, (a < n)%nat -> r a = fold_right Rplus 0 (map (fun qp => q_weight (fst qp) * dc22 (snd qp) (q_shape (fst qp) a)) (combine body P)) - load a.
  (** K_ab = sum over the points of w B_a : A : B_b *)
  Definition stiffness (u : nat -> R) (K : nat -> nat -> R) : Prop := exists A, List.Forall2 (fun q p => pm_tangent (q_material q) (deformed u q) p) body A /\
    forall a b, (a < n)%nat -> (b < n)%nat ->
      K a b = fold_right Rplus 0 (map (fun qp => q_weight (fst qp) * dc22 (q_shape (fst qp) a) (dc42 (snd qp) (q_shape (fst qp) b))) (combine body A)).
  (** A solution of the equilibrium equations ... *)
  Definition equilibrium (u : nat -> R) : Prop := exists r, residual u r /\ forall a, (a < n)%nat -> r a = 0.
  (** ... at which the stiffness matrix is regular. *)
  Definition regular_stiffness (u : nat -> R) : Prop := exists K, stiffness u K /\
    forall w, (forall a, (a < n)%nat -> sumn n (fun b => K a b * w b) = 0) -> forall a, (a < n)%nat -> w a = 0.
  (** One iteration: assemble, solve K (v - u) = - r. *)
  Definition newton_step (u v : nat -> R) : Prop := exists r K, residual u r /\ stiffness u K /\
    forall a, (a < n)%nat -> sumn n (fun b => K a b * (v b - u b)) = - r a.
  (** Newton's method converges quadratically from every start near us, and the iterates are well
      defined: within distance r of us there is exactly one next iterate. *)
  Definition newton_converges (us : nat -> R) : Prop := exists r M, 0 < r /\
    (forall u e, 0 <= e <= r -> within n e u us -> exists v, newton_step u v /\
       forall v', newton_step u v' -> within n 0 v' v /\ within n (M * e ^ 2) v' us /\ within n (e / 2) v' us) /\
    (forall u : nat -> nat -> R, within n r (u O) us -> (forall i, newton_step (u i) (u (S i))) ->
       forall i, within n (r / 2 ^ i) (u i) us).
End FE.
