(** * Rounded arithmetic: the standard model of floating point.

    Specification vocabulary for the rounding-error theorems (C53, C54, ...); nothing here
    models code of the repository.

    Every arithmetic operation returns a number whose relative distance to the exact
    result is at most [u] (2^-53 for float64, 2^-24 for float32).  Nothing else is assumed
    about the rounding: every rounding mode, fused multiply-add (no rounding in between)
    and extended precision are covered; [u] must also bound the error of the power function
    of the C library where one is used.  Not covered: overflow and subnormal results, for which the
    standard model does not hold.

    [Sum] and [Prod] are the sums and products of [np.sum] and [np.einsum]: numpy chooses
    the order (blocking, SIMD lanes, pairwise summation), so every order and every
    association of the operands is allowed.  Starting from an accumulator 0.0 adds nothing:
    0 + x is exact.

    An expression tree does not share subtrees: an intermediate result that the code uses
    twice may be rounded differently at each use.  That is a superset of what the code
    does, so bounds for all [rounded] values hold for the code. *)
From Coq Require Import Reals List Permutation.
Import ListNotations.
Local Open Scope R_scope.

(** [y] is an acceptable result of an operation whose exact result is [x]. *)
Definition fl (u x y : R) : Prop := Rabs (y - x) <= u * Rabs x.

Inductive expr : Type :=
| Num (x : R)                (* an input or a literal, represented exactly *)
| Add (a b : expr)
| Sub (a b : expr)
| Mul (a b : expr)
| Div (a b : expr)
| Sqrt (a : expr)
| Pow (a : expr) (p : R)     (* a ** p; the exponent (e.g. -1/3) is itself rounded *)
| Sum (l : list expr)
| Prod (l : list expr).

(** ** The exact value *)
Fixpoint exact (e : expr) : R :=
  match e with
  | Num x => x
  | Add a b => exact a + exact b
  | Sub a b => exact a - exact b
  | Mul a b => exact a * exact b
  | Div a b => exact a / exact b
  | Sqrt a => sqrt (exact a)
  | Pow a p => Rpower (exact a) p
  | Sum l => fold_right (fun e s => exact e + s) 0 l
  | Prod l => fold_right (fun e s => exact e * s) 1 l
  end.

(** ** All the values that rounded arithmetic may return *)
Inductive tree : Type := Leaf (x : R) | Node (l r : tree).
Fixpoint leaves (t : tree) : list R :=
  match t with Leaf x => [x] | Node l r => leaves l ++ leaves r end.
Fixpoint tree_val (u : R) (op : R -> R -> R) (t : tree) (v : R) : Prop :=
  match t with
  | Leaf x => v = x
  | Node l r => exists a b, tree_val u op l a /\ tree_val u op r b /\ fl u (op a b) v
  end.
(** [v] is a rounded combination of the numbers [xs] in some order. *)
Definition any_order (u : R) (op : R -> R -> R) (xs : list R) (v : R) : Prop :=
  exists t, Permutation (leaves t) xs /\ tree_val u op t v.

Fixpoint rounded (u : R) (e : expr) : R -> Prop :=
  match e with
  | Num x => fun v => v = x
  | Add a b => fun v => exists x y, rounded u a x /\ rounded u b y /\ fl u (x + y) v
  | Sub a b => fun v => exists x y, rounded u a x /\ rounded u b y /\ fl u (x - y) v
  | Mul a b => fun v => exists x y, rounded u a x /\ rounded u b y /\ fl u (x * y) v
  | Div a b => fun v => exists x y, rounded u a x /\ rounded u b y /\ (y <> 0 -> fl u (x / y) v)
  | Sqrt a => fun v => exists x, rounded u a x /\ (0 <= x -> fl u (sqrt x) v)
  | Pow a p => fun v => exists x q, rounded u a x /\ fl u p q /\ (0 < x -> fl u (Rpower x q) v)
  | Sum l => fun v => exists xs,
      (fix all (es : list expr) (xs : list R) : Prop :=
         match es, xs with [], [] => True | e :: es, x :: xs => rounded u e x /\ all es xs | _, _ => False end) l xs
      /\ any_order u Rplus xs v
  | Prod l => fun v => exists xs,
      (fix all (es : list expr) (xs : list R) : Prop :=
         match es, xs with [], [] => True | e :: es, x :: xs => rounded u e x /\ all es xs | _, _ => False end) l xs
      /\ any_order u Rmult xs v
  end.

(** ** Error bounds.  [gamma u n] is the relative error of [n] successive roundings. *)
Definition gamma (u : R) (n : nat) : R := (1 + u) ^ n - 1.
