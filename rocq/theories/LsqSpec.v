(** * Specification for C59.  Nothing here models code. *)
From Coq Require Import Reals List String.
From Verif Require Import Tensor Py Models Lab LabSpec.
Import ListNotations.
Local Open Scope R_scope.

(** The point between p (t = 0) and q (t = 1). *)
Definition mix (t : R) (p q : list R) : list R := map (fun z => (1 - t) * fst z + t * snd z) (combine p q).
(** Fits of the documented material (ThirdOrderDeformation in Deformation or Distortional) with any of its five
    coefficients as parameters, in the three load cases, at positive stretches. *)
Definition coefficient_labels : list string := ["C10"; "C01"; "C11"; "C20"; "C30"]%string.
Definition linear_term (t : Term) : Prop :=
  (si_material (fst t) = tod_deformation \/ si_material (fst t) = tod_distortional) /\
  (defgrad (si_loadcase (fst t)) = uniaxial \/ defgrad (si_loadcase (fst t)) = planar \/ defgrad (si_loadcase (fst t)) = biaxial) /\
  (forall k, In k (si_labels (fst t)) -> In k coefficient_labels) /\
  (forall x y, In (x, y) (snd t) -> 0 < x).
Definition close (e : R) (p q : list R) : Prop := List.length p = List.length q /\ forall i, Rabs (nth i p 0 - nth i q 0) < e.
(** What every least-squares routine aims at: no parameters near popt give a smaller residual. *)
Definition scipy_local (scipy : Scipy) : Prop := forall f x y p0 popt pcov, scipy f x y p0 = Ok (popt, pcov) ->
  exists r e, scipy_residuals f x y popt = Ok r /\ 0 < e /\
  forall p r', close e p popt -> scipy_residuals f x y p = Ok r' -> sum_squares r <= sum_squares r'.
(** p minimises the total sum of squares. *)
Definition minimiser (ts : list Term) (p : list R) : Prop := exists v, total_squares ts p = Ok v /\
  forall q v', List.length q = List.length p -> total_squares ts q = Ok v' -> v <= v'.
