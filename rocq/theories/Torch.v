(** * TorchModel: a model of PyTorch's reverse-mode differentiation as the code uses it.

    Modelled: [src/hyperelastic/models/invariants/_torch.py] (class TorchModel).

    The user's energy function is elementwise, so one entry of the invariant arrays is
    followed; the computational graph is the same for all entries.  PyTorch records every
    operation that the energy function executes.  The record is a list of operations (the
    "tape"); an operation refers to earlier ones by their position.  Real arithmetic is
    used instead of float32 / float64.

    What is trusted about PyTorch (torch.autograd.grad, engine.cpp, derivatives.yaml):
    - only the operations between the output and the requested input are executed;
    - operations are executed in the reverse order of their creation;
    - multiplications, divisions, powers, exp, log and sqrt save tensors for the backward
      pass; sums, differences and negations do not;
    - unless retain_graph is true, an operation's saved tensors are released when it has
      been executed, and executing an operation with released tensors raises RuntimeError;
    - differentiating a tensor that does not require grad raises RuntimeError;
    - with allow_unused=True the gradient w.r.t. an input which is not used is None;
    - an operation's vector-Jacobian product is the one given in derivatives.yaml
      ([vjp1], [vjp2] below); with create_graph=True these operations are recorded, too. *)
From Coq Require Import Reals Lra Lia List Bool Arith FunctionalExtensionality.
From Verif Require Import Tensor Py Models.
Import ListNotations.
Local Open Scope R_scope.

(** Operations on tensors (and Python numbers) an energy function may use. *)
Inductive op :=
| OInp (x : ix3)                 (* one of the tensors I1, I2, I3 *)
| ONum (c : R)                   (* a number *)
| OAdd (a b : nat) | OSub (a b : nat) | OMul (a b : nat) | ODiv (a b : nat)
| ONeg (a : nat)
| OPowN (a n : nat)              (* a ** n, integer n >= 0 *)
| OPow (a : nat) (p : R)         (* a ** p, positive a *)
| OExp (a : nat) | OLog (a : nat) | OSqrt (a : nat).

Definition tape := list op.

(** Operands. *)
Definition arg1 (o : op) : option nat :=
  match o with
  | OInp _ | ONum _ => None
  | OAdd a _ | OSub a _ | OMul a _ | ODiv a _ | ONeg a | OPowN a _ | OPow a _ | OExp a | OLog a | OSqrt a => Some a
  end.
Definition arg2 (o : op) : option nat :=
  match o with OAdd _ b | OSub _ b | OMul _ b | ODiv _ b => Some b | _ => None end.
Definition is_arg (k : nat) (o : op) : Prop := arg1 o = Some k \/ arg2 o = Some k.

(** Operations which save tensors for the backward pass. *)
Definition saves (o : op) : bool :=
  match o with OMul _ _ | ODiv _ _ | OPowN _ _ | OPow _ _ | OExp _ | OLog _ | OSqrt _ => true | _ => false end.

(** ** Evaluation of a tape: [step] computes an entry from the earlier ones. *)
Definition run {A} (step : (nat -> A) -> op -> A) (d : A) (t : tape) : list A :=
  fold_left (fun l o => l ++ [step (fun i => nth i l d) o]) t [].
Definition ev {A} (step : (nat -> A) -> op -> A) (d : A) (t : tape) (i : nat) : A := nth i (run step d t) d.

(** Values. *)
Definition vstep (X : Vec3) (v : nat -> R) (o : op) : R :=
  match o with
  | OInp x => X x
  | ONum c => c
  | OAdd a b => v a + v b
  | OSub a b => v a - v b
  | OMul a b => v a * v b
  | ODiv a b => v a / v b
  | ONeg a => - v a
  | OPowN a n => v a ^ n
  | OPow a p => Rpower (v a) p
  | OExp a => exp (v a)
  | OLog a => ln (v a)
  | OSqrt a => sqrt (v a)
  end.
Definition V (X : Vec3) (t : tape) : nat -> R := ev (vstep X) 0 t.

(** Does an entry depend on the tensor x? *)
Definition rstep (x : ix3) (r : nat -> bool) (o : op) : bool :=
  match o with
  | OInp y => ix3_eqb x y
  | ONum _ => false
  | OAdd a b | OSub a b | OMul a b | ODiv a b => r a || r b
  | ONeg a | OPowN a _ | OPow a _ | OExp a | OLog a | OSqrt a => r a
  end.
Definition reach (x : ix3) (t : tape) : nat -> bool := ev (rstep x) false t.
(** requires_grad: the entry depends on one of the tensors I1, I2, I3. *)
Definition requires_grad (t : tape) (i : nat) : bool := reach X0 t i || reach X1 t i || reach X2 t i.

(** ** Vector-Jacobian products: the operations recorded (the first one gets the position
    [L]) and the position of the result.  [g] is the incoming gradient, [j] the position
    of the operation [o] itself.  [vjp1] / [vjp2]: w.r.t. the first / second operand. *)
Definition vjp1 (L g j : nat) (o : op) : list op * nat :=
  match o with
  | OInp _ | ONum _ => ([], g)
  | OAdd _ _ | OSub _ _ => ([], g)
  | OMul _ b => ([OMul g b], L)
  | ODiv _ b => ([ODiv g b], L)
  | ONeg _ => ([ONeg g], L)
  | OPowN _ O => ([ONum 0], L)
  | OPowN a (S n) => ([OPowN a n; ONum (INR (S n)); OMul L (1 + L); OMul g (2 + L)], 3 + L)%nat
  | OPow a p => if Req_EM_T p 0 then ([ONum 0], L)
                else ([OPow a (p - 1); ONum p; OMul L (1 + L); OMul g (2 + L)], 3 + L)%nat
  | OExp _ => ([OMul g j], L)
  | OLog a => ([ODiv g a], L)
  | OSqrt _ => ([ONum 2; OMul j L; ODiv g (1 + L)], 2 + L)%nat
  end.
Definition vjp2 (L g : nat) (o : op) : list op * nat :=
  match o with
  | OSub _ _ => ([ONeg g], L)
  | OMul a _ => ([OMul g a], L)
  | ODiv a b => ([ODiv a b; ODiv L b; ONeg g; OMul (2 + L) (1 + L)], 3 + L)%nat
  | _ => ([], g)
  end.

(** ** The backward pass *)
Definition upd {A} (f : nat -> A) (k : nat) (a : A) : nat -> A := fun i => if Nat.eqb i k then a else f i.
(** Tape, accumulated gradients (positions), released flags. *)
Record Engine := { tp : tape; ac : nat -> option nat; freed : nat -> bool }.

(** Send a gradient to the operand [a] if it is needed for x; gradients that arrive more
    than once are added. *)
Definition feed (x : ix3) (a : option nat) (w : nat -> list op * nat) (t : tape) (acc : nat -> option nat) : tape * (nat -> option nat) :=
  match a with
  | None => (t, acc)
  | Some k =>
      if reach x t k then
        let '(ops, c) := w (length t) in
        let t1 := t ++ ops in
        match acc k with
        | None => (t1, upd acc k (Some c))
        | Some h => (t1 ++ [OAdd h c], upd acc k (Some (length t1)))
        end
      else (t, acc)
  end.

Definition is_leaf (o : op) : bool := match o with OInp _ => true | _ => false end.
(** Execute the operation at position [j] if a gradient has arrived there. *)
Definition visit (x : ix3) (retain : bool) (j : nat) (e : Engine) : Result Engine :=
  match nth_error (tp e) j, ac e j with
  | Some o, Some g =>
      if is_leaf o then Ok e
      else if saves o && freed e j then Raise RuntimeError
      else
        let '(t1, a1) := feed x (arg1 o) (fun L => vjp1 L g j o) (tp e) (ac e) in
        let '(t2, a2) := feed x (arg2 o) (fun L => vjp2 L g o) t1 a1 in
        Ok {| tp := t2; ac := a2; freed := if retain then freed e else upd (freed e) j true |}
  | _, _ => Ok e
  end.
(** Execute the operations at the positions n-1, ..., 0. *)
Fixpoint sweep (x : ix3) (retain : bool) (n : nat) (e : Engine) : Result Engine :=
  match n with O => Ok e | S j => rbind (visit x retain j e) (sweep x retain j) end.

(** The tensors I1, I2, I3 are the first three entries of a tape. *)
Definition leaf (x : ix3) : nat := match x with X0 => 0 | X1 => 1 | X2 => 2 end.

(** torch.autograd.grad(tape[root].sum(), x, allow_unused=True, ...)[0]. *)
Definition autograd_grad (t : tape) (fl : nat -> bool) (root : nat) (x : ix3) (retain : bool)
    : Result (option nat * tape * (nat -> bool)) :=
  if requires_grad t root then
    if reach x t root then
      rbind (sweep x retain (S root)
               {| tp := t ++ [ONum 1]; ac := upd (fun _ => None) root (Some (length t)); freed := fl |})
            (fun e => Ok (ac e (leaf x), tp e, freed e))
    else Ok (None, t, fl)
  else Raise RuntimeError.

(** [_grad] (lines 41-54).  [f] is None if it has no attribute grad_fn (None or a number). *)
Definition py_grad (t : tape) (fl : nat -> bool) (f : option nat) (x : ix3) (retain : bool)
    : Result (option nat * tape * (nat -> bool)) :=
  match f with Some n => autograd_grad t fl n x retain | None => Ok (None, t, fl) end.

(** An energy function: the operations it executes after I1, I2, I3 (entries 0, 1, 2) are
    given, and the position of its result.  Simplification: the operations do not depend
    on the values (no Python branches). *)
Record Energy := { e_ops : list op; e_root : nat }.
Definition e_tape (e : Energy) : tape := [OInp X0; OInp X1; OInp X2] ++ e_ops e.
(** A result that does not involve a tensor is a Python number: no attribute grad_fn. *)
Definition e_result (e : Energy) : option nat := if requires_grad (e_tape e) (e_root e) then Some (e_root e) else None.

Definition Grads := (option nat * option nat * option nat * tape * (nat -> bool))%type.
(** [gradient] (lines 64-84): three backward passes over one graph. *)
Definition t_gradient (retain : bool) (e : Energy) : Result Grads :=
  let f := e_result e in
  rbind (py_grad (e_tape e) (fun _ => false) f X0 retain) (fun '(g1, t1, r1) =>
  rbind (py_grad t1 r1 f X1 retain) (fun '(g2, t2, r2) =>
  rbind (py_grad t2 r2 f X2 retain) (fun '(g3, t3, r3) =>
  Ok (g1, g2, g3, t3, r3)))).

(** [hessian] (lines 86-100): gradient(create_graph=True) keeps its default
    retain_graph=False; then six backward passes, each of which releases its graph. *)
Definition t_hessian (e : Energy) : Result ((ix6 -> option nat) * tape) :=
  rbind (t_gradient false e) (fun '(g1, g2, g3, t, r) =>
  rbind (py_grad t r g1 X0 false) (fun '(h11, t, r) =>
  rbind (py_grad t r g2 X1 false) (fun '(h22, t, r) =>
  rbind (py_grad t r g3 X2 false) (fun '(h33, t, r) =>
  rbind (py_grad t r g1 X1 false) (fun '(h12, t, r) =>
  rbind (py_grad t r g2 X2 false) (fun '(h23, t, r) =>
  rbind (py_grad t r g1 X2 false) (fun '(h13, t, r) =>
  Ok ((fun v => match v with V0 => h11 | V1 => h22 | V2 => h33 | V3 => h12 | V4 => h23 | V5 => h13 end), t)))))))).

(** The model object (retain_graph as in a direct call of gradient; the framework leaves
    it at False). *)
Definition torch_gradient {SV} (retain : bool) (e : Energy) (X : Vec3) (sv : SV)
    : Result (option R * option R * option R * SV) :=
  rbind (t_gradient retain e) (fun '(g1, g2, g3, t, _) =>
  Ok (option_map (V X t) g1, option_map (V X t) g2, option_map (V X t) g3, sv)).
Definition torch_model {SV} (e : Energy) : InvModel SV :=
  {| im_gradient := fun I1 I2 I3 sv =>
       torch_gradient false e (fun k => match k with X0 => I1 | X1 => I2 | X2 => I3 end) sv;
     im_hessian := fun I1 I2 I3 _ =>
       rbind (t_hessian e) (fun '(h, t) =>
       Ok (fun v => option_map (V (fun k => match k with X0 => I1 | X1 => I2 | X2 => I3 end) t) (h v))) |}.

(** ** Specification *)
(** An energy function executes operations on earlier results only. *)
Definition well_formed (e : Energy) : Prop :=
  (e_root e < length (e_tape e))%nat /\
  forall i o, nth_error (e_ops e) i = Some o ->
    (forall x, o <> OInp x) /\ forall k, is_arg k o -> (k < 3 + i)%nat.
(** The energy as a function of the invariants. *)
Definition energy (e : Energy) (X : Vec3) : R := V X (e_tape e) (e_root e).
(** The computation of entry [i] uses entry [k]. *)
Inductive uses (t : tape) : nat -> nat -> Prop :=
| uses_refl i : uses t i i
| uses_step i p o k : uses t i p -> nth_error t p = Some o -> is_arg k o -> uses t i k.
(** The energy function mentions invariant x. *)
Definition mentions (e : Energy) (x : ix3) : Prop := uses (e_tape e) (e_root e) (leaf x).
(** Where the energy function is differentiable: no division by zero; powers with real
    exponents, logarithms and square roots of positive numbers only. *)
Definition regular (t : tape) (X : Vec3) : Prop := forall i o, nth_error t i = Some o ->
  match o with
  | ODiv _ b => V X t b <> 0
  | OPow a _ | OLog a | OSqrt a => 0 < V X t a
  | _ => True
  end.
(** An operation that saves tensors, takes part in the energy and involves two different
    invariants. *)
Definition coupled (e : Energy) : Prop := exists j o x y,
  uses (e_tape e) (e_root e) j /\ nth_error (e_tape e) j = Some o /\ saves o = true /\
  x <> y /\ uses (e_tape e) j (leaf x) /\ uses (e_tape e) j (leaf y).

(** ** When second derivatives can be formed *)
(** A power with exponent 0: its derivative is recorded as the constant 0. *)
Definition zero_power (o : op) : Prop := match o with OPowN _ n => n = O | OPow _ p => p = 0 | _ => False end.
(** The derivative of the operation [o] (at position [j]) w.r.t. its operand [a] is computed
    from the value [p]: the other factor; divisor and dividend; the base of a power; the
    argument of a logarithm; the result of exp and sqrt. *)
Definition needs (j : nat) (o : op) (a p : nat) : Prop :=
  match o with
  | OMul b c => (a = b /\ p = c) \/ (a = c /\ p = b)
  | ODiv b c => (a = b /\ p = c) \/ (a = c /\ (p = b \/ p = c))
  | OPowN b n => a = b /\ p = b /\ n <> O
  | OPow b r => a = b /\ p = b /\ r <> 0
  | OLog b => a = b /\ p = b
  | OExp b | OSqrt b => a = b /\ p = j
  | _ => False
  end.
(** Entry [i] is computed from invariant x by operations none of which is a power with
    exponent 0. *)
Inductive sensitive (t : tape) (x : ix3) : nat -> Prop :=
| sens_leaf : sensitive t x (leaf x)
| sens_step i o a : nth_error t i = Some o -> is_arg a o -> ~ zero_power o -> sensitive t x a -> sensitive t x i.
(** The derivative of the energy w.r.t. invariant x is computed from the value [p]. *)
Definition reused (e : Energy) (x : ix3) (p : nat) : Prop := exists j o a,
  uses (e_tape e) (e_root e) j /\ nth_error (e_tape e) j = Some o /\ needs j o a p /\ sensitive (e_tape e) x a.
(** The derivative w.r.t. invariant x is computed from constants. *)
Definition linear (e : Energy) (x : ix3) : Prop := forall p, reused e x p -> ~ uses (e_tape e) p (leaf x).
(** The derivative w.r.t. invariant x is computed from a value that itself takes a
    multiplication, division, power, exp, log or sqrt of something that depends on x. *)
Definition nested (e : Energy) (x : ix3) : Prop := exists p i o,
  reused e x p /\ uses (e_tape e) p i /\ uses (e_tape e) i (leaf x) /\
  nth_error (e_tape e) i = Some o /\ saves o = true.
