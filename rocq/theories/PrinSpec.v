(** * Specification for C60: principal stresses.  Nothing here models code. *)
From Coq Require Import Reals.
From Coquelicot Require Import Coquelicot.
From Verif Require Import Tensor Py Voigt Models Frameworks Spaces Spec.
Local Open Scope R_scope.

(** l are the principal stretches of F and the columns of v the principal directions in the
    deformed body: orthonormal, and F F^T = sum_a l_a^2 v_a v_a^T. *)
Definition principal_axes (F : T2) (l : Vec3) (v : T2) : Prop := positive3 l /\ orthogonal v /\
  forall i j, mmul F (mtr F) i j = sum3 (fun a => l a ^ 2 * v i a * v j a).
(** Change the a-th entry. *)
Definition poke (l : Vec3) (a : ix3) (t : R) : Vec3 := fun b => if ix3_eqb b a then t else l b.
Definition volume (l : Vec3) : R := l X0 * l X1 * l X2.
(** The stretches the material sees, and the energy of the space as a function of all stretches. *)
Definition seen_stretches (k : SpaceKind) (l : Vec3) : Vec3 :=
  match k with KDistortional => fun a => Rpower (volume l) (-1 / 3) * l a | _ => l end.
(** psi has the partial derivatives g at l, in the strong sense: along all curves. *)
Definition has_gradient (psi : Vec3 -> R) (l g : Vec3) : Prop := forall c t0 dc, (forall a, c t0 a = l a) -> dcurve3 c t0 dc ->
  is_derive (fun t => psi (c t)) t0 (sum3 (fun a => g a * dc a)).
(** A stress with the principal directions v and the principal values s. *)
Definition coaxial (sigma : T2) (s : Vec3) (v : T2) : Prop := forall i j, sigma i j = sum3 (fun a => s a * v i a * v j a).
(** Baker-Ericksen inequalities: the larger stretch carries the larger stress. *)
Definition ordered_as (l s : Vec3) : Prop := forall a b, l a < l b -> s a < s b.
(** psi is the energy W as a function of the stretches (of a body that is stretched along the axes). *)
Definition energy_in_stretches (psi : Vec3 -> R) (W : T2 -> R) : Prop := forall l, positive3 l ->
  W (cauchy_green (fun i j => if ix3_eqb i j then l i else 0)) = psi l.
(** First and second invariant of C in terms of the stretches. *)
Definition I1_of (l : Vec3) : R := l X0 ^ 2 + l X1 ^ 2 + l X2 ^ 2.
Definition I2_of (l : Vec3) : R := l X0 ^ 2 * l X1 ^ 2 + l X1 ^ 2 * l X2 ^ 2 + l X0 ^ 2 * l X2 ^ 2.
(** The mean of l_a g_a for the isochoric stretches (Distortional only): makes the stress traceless. *)
Definition pressure (k : SpaceKind) (l g : Vec3) : R :=
  match k with KDistortional => 1 / 3 * sum3 (fun a => seen_stretches k l a * g a) | _ => 0 end.
