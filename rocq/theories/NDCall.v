(** * Lists as arguments, and the attribute [x] of frameworks and spaces.

    [gradient(x)] and [hessian(x)] of a space take a Python list of arrays (or None) and return
    lists; the first entry is the deformation gradient, the last one the state variables. *)
From Coq Require Import Reals List Arith Lia.
From Verif Require Import Tensor Py Voigt Models Frameworks Spaces Spec.
From Verif Require Import NDCore NDRel NDOps NDHeap NDVoigt NDSpaces NDFrameworks NDLinks.
Import ListNotations.
Local Open Scope R_scope.
Local Open Scope py_scope.

(** Entries of the lists: arrays and None. *)
Inductive obj := Arr (a : nd) | NoneObj.

(** [x[0]] and [x[-1]] *)
Definition item_first (x : list obj) : Result obj :=
  match x with [] => Raise IndexError | a :: _ => Ok a end.
Definition item_last (x : list obj) : Result obj := item_first (rev x).

(** A framework object: its two methods and the attribute [x].
    Invariants.__init__, _invariants.py:141-148; Stretches.__init__, _stretches.py:112-119 (also
    called by GeneralizedInvariants.__init__, _generalized.py:204-209):
    [self.x = [np.eye(3), np.zeros(nstatevars)]]. *)
Record NDFw := { nf_mat : NDMat obj; nf_x : list obj }.
Definition np_eye3 : arr :=
  {| shp := [3; 3]%nat; dat := fun k => match k with [i; j] => if Nat.eqb i j then 1 else 0 | _ => 0 end |}.
Definition nd_framework (mat : NDMat obj) (nstatevars : nat) : M NDFw :=
  e <- alloc np_eye3 ;; z <- alloc (zeros [nstatevars]) ;;
  ret {| nf_mat := mat; nf_x := [Arr e; Arr z] |}.

(** A space object.  Deformation.__init__, _deformation.py:60-67 (the same in _distortional.py:145-152
    and _dilatational.py:8-15): [self.x = [material.x[0], material.x[-1]]]. *)
Record NDSpace := { ns_kind : SpaceKind; ns_mat : NDMat obj; ns_opts : SpaceOpts; ns_x : list obj }.
Definition nd_space (kd : SpaceKind) (fw : NDFw) (o : SpaceOpts) : M NDSpace :=
  a <- lift (item_first (nf_x fw)) ;; b <- lift (item_last (nf_x fw)) ;;
  ret {| ns_kind := kd; ns_mat := nf_mat fw; ns_opts := o; ns_x := [a; b] |}.

(** gradient(x): _deformation.py:69-80 and the same lines of the other spaces:
    [F, statevars = x[0], x[-1]] ... [return [self.piola(...), statevars_new]].
    A deformation gradient None makes einsum raise ValueError. *)
Definition nd_gradient_list (s : NDSpace) (x : list obj) : M (list obj) :=
  F <- lift (item_first x) ;; statevars <- lift (item_last x) ;;
  match F with
  | Arr F => '(P, svn) <- nd_sp_gradient (ns_kind s) (ns_mat s) (ns_opts s) F statevars ;; ret [Arr P; svn]
  | NoneObj => raise ValueError
  end.
(** hessian(x): _deformation.py:82-91: [return [self.piola(...)]] *)
Definition nd_hessian_list (s : NDSpace) (x : list obj) : M (list obj) :=
  F <- lift (item_first x) ;; statevars <- lift (item_last x) ;;
  match F with
  | Arr F => A <- nd_sp_hessian (ns_kind s) (ns_mat s) (ns_opts s) F statevars ;; ret [Arr A]
  | NoneObj => raise ValueError
  end.
