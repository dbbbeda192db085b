(** * IEEE arithmetic with underflow, overflow and NaN.

    Specification vocabulary for C70; nothing here models code of the repository.  The
    expressions and their exact values are those of Rounded.v.

    A result is [Some v] (a finite number) or [None] (an infinity or NaN).  An operation on finite
    operands whose exact result [x] is in range returns a finite number with an error of at most
    u |x| + tiny: u is the unit roundoff, tiny the largest error of a subnormal result (gradual
    underflow, or the smallest normal number if results are flushed to zero).  About everything
    else - results out of range, division by zero, roots of negative numbers, operands that are
    infinite or NaN - nothing is assumed at all. *)
From Coq Require Import Reals List Permutation.
From Verif Require Import Tensor Rounded RoundedCode RoundedSpaces.
From Verif Require Import Py Voigt Models Frameworks Spaces Spec.
Import ListNotations.
Local Open Scope R_scope.

Record Fmt := { roundoff : R; tiny : R; huge : R }.
Definition eps (f : Fmt) : R := roundoff f + tiny f.
(** A format that is at least as good as [d]. *)
Definition fine (d : R) (f : Fmt) : Prop := 0 <= roundoff f /\ 0 <= tiny f /\ eps f <= d /\ / d <= huge f.

(** [w] is an acceptable result of an operation whose exact result is [x]. *)
Definition result (f : Fmt) (x : R) (w : option R) : Prop :=
  Rabs x <= huge f -> exists v, w = Some v /\ Rabs (v - x) <= roundoff f * Rabs x + tiny f.
(** ... of an operation that is specified for operands in [G]. *)
Definition on2 (f : Fmt) (G : R -> R -> Prop) (op : R -> R -> R) (x y w : option R) : Prop :=
  match x, y with Some x, Some y => G x y -> result f (op x y) w | _, _ => True end.
Definition always (_ _ : R) : Prop := True.

Inductive otree : Type := OLeaf (x : option R) | ONode (l r : otree).
Fixpoint oleaves (t : otree) : list (option R) :=
  match t with OLeaf x => [x] | ONode l r => oleaves l ++ oleaves r end.
Fixpoint otree_val (f : Fmt) (op : R -> R -> R) (t : otree) (w : option R) : Prop :=
  match t with
  | OLeaf x => w = x
  | ONode l r => exists a b, otree_val f op l a /\ otree_val f op r b /\ on2 f always op a b w
  end.
(** [w] combines the results [xs] in some order. *)
Definition oany_order (f : Fmt) (op : R -> R -> R) (xs : list (option R)) (w : option R) : Prop :=
  exists t, Permutation (oleaves t) xs /\ otree_val f op t w.

(** All the results that evaluating [e] may have. *)
Fixpoint ieee (f : Fmt) (e : expr) : option R -> Prop :=
  match e with
  | Num x => fun w => w = Some x
  | Add a b => fun w => exists x y, ieee f a x /\ ieee f b y /\ on2 f always Rplus x y w
  | Sub a b => fun w => exists x y, ieee f a x /\ ieee f b y /\ on2 f always Rminus x y w
  | Mul a b => fun w => exists x y, ieee f a x /\ ieee f b y /\ on2 f always Rmult x y w
  | Div a b => fun w => exists x y, ieee f a x /\ ieee f b y /\ on2 f (fun _ y => y <> 0) Rdiv x y w
  | Sqrt a => fun w => exists x, ieee f a x /\ on2 f (fun x _ => 0 <= x) (fun x _ => sqrt x) x x w
  | Pow a p => fun w => exists x q, ieee f a x /\ result f p q /\ on2 f (fun x _ => 0 < x) Rpower x q w
  | Sum l => fun w => exists xs,
      (fix all (es : list expr) (xs : list (option R)) : Prop :=
         match es, xs with [], [] => True | e :: es, x :: xs => ieee f e x /\ all es xs | _, _ => False end) l xs
      /\ oany_order f Rplus xs w
  | Prod l => fun w => exists xs,
      (fix all (es : list expr) (xs : list (option R)) : Prop :=
         match es, xs with [], [] => True | e :: es, x :: xs => ieee f e x /\ all es xs | _, _ => False end) l xs
      /\ oany_order f Rmult xs w
  end.

(** The result is a finite number within [d] of [s]. *)
Definition within (d : R) (w : option R) (s : R) : Prop := exists v, w = Some v /\ Rabs (v - s) <= d.

(** Distortional.hessian: the branch np.allclose(C4b, 0) is decided on the computed entries (an
    infinity or NaN is not close to 0). *)
Definition ieee_hessian (g : Fmt) (k : SpaceKind) (m : Comp) (f a : Config) (F : XT2) i j p q (x : option R) : Prop :=
  exists (B : ix6 -> ix6 -> option R) (atol : R) (small : bool),
    (forall v w, ieee g (x_C4b k m F v w) (B v w)) /\ result g (/ 10 ^ 8) (Some atol) /\
    (small = true <-> forall v w, within atol (B v w) 0) /\
    ieee g (x_hessian k m F f a small i j p q) x.
