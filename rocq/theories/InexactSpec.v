(** * Specification for C80: Newton's method with inexact stresses, tangents and solutions. *)
From Coq Require Import Reals List.
From Verif Require Import Tensor NewtonSpec.
Local Open Scope R_scope.

Section Inexact.
  Variables (n : nat) (body : list QPoint) (load us : nat -> R).
  (** One iteration with a residual that is wrong by at most delta per entry, a matrix that is wrong by
      at most kappa per entry, and a solution that leaves at most delta in every equation. *)
  Definition inexact_step (kappa delta : R) (u v : nat -> R) : Prop := exists r K rt Kt, residual n body load u r /\ stiffness n body u K /\
    within n delta rt r /\ (forall a b, (a < n)%nat -> (b < n)%nat -> Rabs (Kt a b - K a b) <= kappa) /\
    within n delta (fun a => sumn n (fun b => Kt a b * (v b - u b))) (fun a => - rt a).
  (** One iteration with the stiffness matrix of another state u0 (modified Newton method). *)
  Definition modified_step (u0 u v : nat -> R) : Prop := exists r K, residual n body load u r /\ stiffness n body u0 K /\
    forall a, (a < n)%nat -> sumn n (fun b => K a b * (v b - u b)) = - r a.
  Definition newton_tolerates_errors : Prop := exists r kappa c, 0 < r /\ 0 < kappa /\ 0 <= c /\
    (* near the solution the wrong equations are solvable and their solution is closer, up to the error *)
    (forall u r0 K0, within n r u us -> residual n body load u r0 -> stiffness n body u K0 ->
       forall rt Kt, (forall a b, (a < n)%nat -> (b < n)%nat -> Rabs (Kt a b - K0 a b) <= kappa) ->
       exists v, forall a, (a < n)%nat -> sumn n (fun b => Kt a b * (v b - u b)) = - rt a) /\
    (forall u v e delta, 0 <= e <= r -> 0 <= delta -> within n e u us -> inexact_step kappa delta u v -> within n (e / 2 + c * delta) v us) /\
    (* whole runs: linear convergence down to a distance proportional to the error *)
    (forall (u : nat -> nat -> R) delta, 0 <= delta -> 2 * c * delta <= r -> within n r (u O) us -> (forall i, inexact_step kappa delta (u i) (u (S i))) ->
       forall i, within n (r / 2 ^ i + 2 * c * delta) (u i) us).
  Definition modified_newton_converges : Prop := exists r, 0 < r /\ forall u0, within n r u0 us ->
    (forall u, within n r u us -> exists v, modified_step u0 u v) /\
    forall u : nat -> nat -> R, within n r (u O) us -> (forall i, modified_step u0 (u i) (u (S i))) -> forall i, within n (r / 2 ^ i) (u i) us.
End Inexact.
