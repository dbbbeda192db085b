(** * Specification for C58.  Nothing here models code. *)
From Coq Require Import Reals List.
From Verif Require Import Tensor Py Models Lab.
Local Open Scope R_scope.

(** Parameters of ThirdOrderDeformation that are not negative. *)
Definition nonnegative (m : TOD) : Prop :=
  0 <= C10 m /\ 0 <= C01 m /\ 0 <= C11 m /\ 0 <= C20 m /\ 0 <= C30 m /\ undeformed m <= 3.
(** Larger stretches get larger forces, and only they. *)
Definition order_preserving (xs fs : list R) : Prop := length fs = length xs /\
  forall i j, (i < length xs)%nat -> (j < length xs)%nat -> (nth i xs 0 < nth j xs 0 <-> nth i fs 0 < nth j fs 0).
(** Tension for stretches above 1, compression below, nothing at 1. *)
Definition sign_preserving (xs fs : list R) : Prop := length fs = length xs /\
  forall i, (i < length xs)%nat -> (1 < nth i xs 0 <-> 0 < nth i fs 0) /\ (nth i xs 0 < 1 <-> nth i fs 0 < 0).
(** The curve is defined at all positive stretches, strictly increasing, and zero at 1. *)
Definition well_shaped (curve : list R -> Result (list R)) : Prop := forall xs, (forall x, In x xs -> 0 < x) ->
  exists fs, curve xs = Ok fs /\ order_preserving xs fs /\ sign_preserving xs fs.
(** Every force is reached at exactly one stretch. *)
Definition force_to_stretch (curve : list R -> Result (list R)) : Prop := forall v,
  exists l, 0 < l /\ curve (l :: nil) = Ok (v :: nil) /\ forall l', 0 < l' -> curve (l' :: nil) = Ok (v :: nil) -> l' = l.
(** Force per undeformed area of an Ogden material when the other principal stretch that the
    load does no work on is l^b: b = -1/2 uniaxial, -1 planar, -2 equibiaxial. *)
Definition ogden_curve (b : R) (mu alpha : list R) (l : R) : R :=
  fold_right (fun t s => 2 * fst t / snd t * (Rpower l (snd t - 1) - Rpower l (b * snd t - 1)) + s) 0 (combine mu alpha).
(** Moduli not negative, one positive; exponents alpha >= 1 or alpha <= 1/b. *)
Definition stable_ogden (b : R) (mu alpha : list R) : Prop :=
  (forall m a, In (m, a) (combine mu alpha) -> 0 <= m /\ (1 <= a \/ 1 <= b * a)) /\ exists m a, In (m, a) (combine mu alpha) /\ 0 < m.
