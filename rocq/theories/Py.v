(** * Python execution: exceptions as values, objects with mutable attributes.

    A method call on an object with attributes of type [S] is a function
    [S -> S * Result A]: it returns the attributes after the call (also when it raises)
    and either a value or the exception. *)
Inductive exn : Set :=
| UnboundLocalError   (* a local variable is read before it is assigned *)
| TypeError           (* e.g. None * ndarray *)
| AttributeError      (* attribute never set *)
| ValueError          (* e.g. shapes cannot be broadcast *)
| IndexError
| ZeroDivisionError
| RuntimeError        (* PyTorch: graph already released, or no gradient required *)
| UserError.          (* anything raised by the user's material model or by scipy *)

Inductive Result (A : Type) : Type :=
| Ok : A -> Result A
| Raise : exn -> Result A.
Arguments Ok {A} a.
Arguments Raise {A} e.

Definition PY (S A : Type) : Type := S -> S * Result A.

Definition ret {S A} (a : A) : PY S A := fun s => (s, Ok a).
Definition raise {S A} (e : exn) : PY S A := fun s => (s, Raise e).
Definition bind {S A B} (m : PY S A) (k : A -> PY S B) : PY S B :=
  fun s => match m s with
           | (s', Ok a) => k a s'
           | (s', Raise e) => (s', Raise e)
           end.
Definition get {S} : PY S S := fun s => (s, Ok s).
Definition put {S} (s' : S) : PY S unit := fun _ => (s', Ok tt).
Definition lift {S A} (r : Result A) : PY S A := fun s => (s, r).

(** Read an attribute ([None] = never assigned). *)
Definition attr {S A} (o : option A) : PY S A :=
  match o with Some a => ret a | None => raise AttributeError end.
(** Read a local variable ([None] = not assigned on this path). *)
Definition local {S A} (o : option A) : PY S A :=
  match o with Some a => ret a | None => raise UnboundLocalError end.

Declare Scope py_scope.
Delimit Scope py_scope with py.
Notation "x <- m ;; k" := (bind m (fun x => k))
  (at level 61, m at next level, right associativity) : py_scope.
Notation "' p <- m ;; k" := (bind m (fun x => match x with p => k end))
  (at level 61, p pattern, m at next level, right associativity) : py_scope.
Notation "m ;; k" := (bind m (fun _ => k))
  (at level 61, right associativity) : py_scope.

(** [Result] alone is the exception monad of stateless functions. *)
Definition rbind {A B} (m : Result A) (k : A -> Result B) : Result B :=
  match m with Ok a => k a | Raise e => Raise e end.
