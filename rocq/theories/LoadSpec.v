(** * Specification for C78: load stepping.

    A body in equilibrium under one load, and what happens when the load is changed. *)
From Coq Require Import Reals List.
From Verif Require Import Tensor NewtonSpec.
Local Open Scope R_scope.

Section Load.
  Variables (n : nat) (body : list QPoint) (load us : nat -> R).
  (** m iterations of Newton's method for the load g, from u to w. *)
  Fixpoint newton_run (g : nat -> R) (m : nat) (u w : nat -> R) : Prop :=
    match m with O => w = u | S m => exists x, newton_run g m u x /\ newton_step n body g x w end.
  (** Within distance r of us and for loads within distance d of the given one: *)
  Definition follows_the_load : Prop := exists r d M, 0 < r /\ 0 < d /\ 0 <= M /\
    (* the new load has an equilibrium near us, which is regular again; it moves by at most M times the
       change of the load, and the stiffness matrix at us predicts the move up to second order *)
    (forall load' e, 0 <= e <= d -> within n e load' load -> exists v, equilibrium n body load' v /\ regular_stiffness n body v /\
       within n r v us /\ within n (M * e) v us /\
       forall K, stiffness n body us K -> within n (M * e ^ 2) (fun a => sumn n (fun b => K a b * (v b - us b))) (fun a => load' a - load a)) /\
    (* two equilibria near us differ by at most M times the difference of their loads; with equal loads they are the same *)
    (forall l1 l2 v1 v2 e, 0 <= e -> equilibrium n body l1 v1 -> equilibrium n body l2 v2 -> within n r v1 us -> within n r v2 us ->
       within n e l1 l2 -> within n (M * e) v1 v2) /\
    (* Newton's method for the new load, started at us or anywhere near it: no run of any length gets stuck,
       and the distance to the new equilibrium is at least halved in every step *)
    (forall load' v, within n d load' load -> equilibrium n body load' v -> within n r v us ->
       forall u m w, within n r u us -> newton_run load' m u w ->
         (exists w', newton_step n body load' w w') /\ within n (2 * r / 2 ^ m) w v).

  (** *** A whole load path: the load g(t), 0 <= t <= 1, is applied in N equal steps; in each the method
      runs m iterations from where it stopped in the step before. *)
  Variables (g v : R -> nat -> R).
  Fixpoint load_steps (N m k : nat) (u w : nat -> R) : Prop :=
    match k with O => w = u | S j => exists x, load_steps N m j u x /\ newton_run (g (INR (S j) / INR N)) m x w end.
  (** v(t) is a regular equilibrium under g(t), and both are continuous. *)
  Definition equilibrium_path : Prop := forall t, 0 <= t <= 1 ->
    equilibrium n body (g t) (v t) /\ regular_stiffness n body (v t) /\
    forall a, (a < n)%nat -> continuity_pt (fun s => g s a) t /\ continuity_pt (fun s => v s a) t.
  (** With enough steps the procedure started near v(0) never gets stuck and follows the path, as
      closely as one likes if there are enough iterations in each step. *)
  Definition load_stepping_works : Prop := exists eta N0, 0 < eta /\ forall eps, 0 < eps -> exists m0, forall N m, (N0 <= N)%nat -> (m0 <= m)%nat ->
    forall u, within n eta u (v 0) -> forall k, (k <= N)%nat ->
      (exists w, load_steps N m k u w) /\
      forall w, load_steps N m k u w -> (0 < k)%nat -> within n eps w (v (INR k / INR N)).
End Load.
