(** * Specification for C79: bodies described by their nodes, and rigid motions of them.

    Node p has the position x_p; at a quadrature point with the shape function gradients g_p the
    deformation gradient is F = x_0 (x) g_0 + ... + x_(m-1) (x) g_(m-1).  The internal force of a node is
    the sum over the points of w P g_p; the stiffness matrix couples component i of node p and
    component k of node r. *)
From Coq Require Import Reals List.
From Verif Require Import Tensor Py Voigt Models Frameworks Spaces Spec NewtonSpec.
Import ListNotations.
Local Open Scope R_scope.

Record NPoint := { n_weight : R; n_material : PointMaterial; n_grad : nat -> Vec3 }.
(** Any framework, the user's own included, in any of the three spaces. *)
Definition space_material (M : PointMaterial) : Prop := exists (SV : Type) (k : SpaceKind) (fw : Framework SV) (sv : SV), M = material k fw sv.
Definition act (Q : T2) (v : Vec3) : Vec3 := fun i => sum3 (fun j => Q i j * v j).
Definition skew (W : T2) : Prop := forall i j, W i j = - W j i.

Section Nodes.
  Variables (m : nat) (body : list NPoint).
  Definition gradient_at (x : nat -> Vec3) (q : NPoint) : T2 := fun i j => sumn m (fun p => x p i * n_grad q p j).
  Definition nodal_forces (x f : nat -> Vec3) : Prop := exists P, List.Forall2 (fun q s => pm_stress (n_material q) (gradient_at x q) s) body P /\
    forall p i, (p < m)%nat -> f p i = fold_right Rplus 0 (map (fun qs => n_weight (fst qs) * sum3 (fun j => snd qs i j * n_grad (fst qs) p j)) (combine body P)).
  Definition nodal_stiffness (x : nat -> Vec3) (K : nat -> ix3 -> nat -> ix3 -> R) : Prop := exists A, List.Forall2 (fun q a => pm_tangent (n_material q) (gradient_at x q) a) body A /\
    forall p i r k, (p < m)%nat -> (r < m)%nat -> K p i r k =
      fold_right Rplus 0 (map (fun qa => n_weight (fst qa) * sum3 (fun j => sum3 (fun l => n_grad (fst qa) p j * snd qa i j k l * n_grad (fst qa) r l))) (combine body A)).
  (** The gradients of the shape functions add up to zero. *)
  Definition partition_of_unity : Prop := List.Forall (fun q => forall j, sumn m (fun p => n_grad q p j) = 0) body.
  (** The stiffness matrix times a displacement of the nodes. *)
  Definition times (K : nat -> ix3 -> nat -> ix3 -> R) (w : nat -> Vec3) (p : nat) (i : ix3) : R := sumn m (fun r => sum3 (fun k => K p i r k * w r k)).
End Nodes.
