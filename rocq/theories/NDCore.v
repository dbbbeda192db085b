(** * A small model of numpy arrays: shapes, broadcasting, indexing, einsum, out=.

    Nothing here models code of the repository: it is the (trusted) model of the numpy
    operations which the repository calls.  An array value is a shape and a function from
    index lists to reals; only in-bounds indices matter.  Rules follow the numpy manual
    ("Broadcasting", "Indexing on ndarrays", "Universal functions: output arguments",
    "numpy.einsum").  Simplifications: real numbers instead of float64, one dtype, and an
    overlapping [out] operand is computed as if the operands were copied first (numpy
    guarantees this). *)
From Coq Require Import Reals List Arith Lia.
From Verif Require Import Tensor Py.
Import ListNotations.
Local Open Scope R_scope.

Definition shape := list nat.
Definition index := list nat.
Record arr := { shp : shape; dat : index -> R }.

(** In-bounds indices of a shape. *)
Fixpoint inb (s : shape) (k : index) : Prop :=
  match s, k with
  | [], [] => True
  | n :: s, i :: k => (i < n)%nat /\ inb s k
  | _, _ => False
  end.

(** All in-bounds indices, in C order. *)
Fixpoint indices (s : shape) : list index :=
  match s with
  | [] => [[]]
  | n :: s => flat_map (fun i => map (cons i) (indices s)) (seq 0 n)
  end.

(** *** Broadcasting (shapes are aligned at their last axes). *)
Definition bdim (a b : nat) : option nat :=
  if Nat.eqb a b then Some a else if Nat.eqb a 1 then Some b
  else if Nat.eqb b 1 then Some a else None.
Fixpoint bcr (s t : shape) : option shape :=
  match s, t with
  | [], t => Some t
  | s, [] => Some s
  | a :: s, b :: t =>
      match bdim a b, bcr s t with Some c, Some u => Some (c :: u) | _, _ => None end
  end.
(** [np.broadcast_shapes(s, t)] *)
Definition broadcast_shapes (s t : shape) : Result shape :=
  match bcr (rev s) (rev t) with Some u => Ok (rev u) | None => Raise ValueError end.

(** The index of an operand of shape [s] that is read for index [k] of the result. *)
Fixpoint projr (s : shape) (k : index) : index :=
  match s, k with
  | a :: s, i :: k => (if Nat.eqb a 1 then 0%nat else i) :: projr s k
  | _, _ => []
  end.
Definition proj (s : shape) (k : index) : index := rev (projr (rev s) (rev k)).

(** Operand [v] of shape [shp v] read at an index of a larger shape. *)
Definition read (v : arr) (k : index) : R := dat v (proj (shp v) k).

(** [np.broadcast_to(v, s)]: raises unless the shapes broadcast to exactly [s]. *)
Definition broadcast_to (v : arr) (s : shape) : Result arr :=
  rbind (broadcast_shapes (shp v) s) (fun u =>
  if list_eq_dec Nat.eq_dec u s then Ok {| shp := s; dat := read v |}
  else Raise ValueError).

(** Binary ufuncs ([+], [-], [*], [/], np.multiply, ...), [out=None]. *)
Definition vbin (op : R -> R -> R) (a b : arr) : Result arr :=
  rbind (broadcast_shapes (shp a) (shp b)) (fun u =>
  Ok {| shp := u; dat := fun k => op (read a k) (read b k) |}).
(** Unary ufuncs (np.sqrt, power with a constant exponent, ...). *)
Definition vmap (f : R -> R) (a : arr) : arr := {| shp := shp a; dat := fun k => f (dat a k) |}.

(** A Python number takes part in arithmetic like a 0-d array. *)
Definition num (r : R) : arr := {| shp := []; dat := fun _ => r |}.

(** Arithmetic on expressions that may raise. *)
Definition rbin (op : R -> R -> R) (x y : Result arr) : Result arr :=
  rbind x (fun a => rbind y (fun b => vbin op a b)).
Definition rmap (f : R -> R) (x : Result arr) : Result arr := rbind x (fun a => Ok (vmap f a)).
Definition rnum (r : R) : Result arr := Ok (num r).

Declare Scope nd_scope.
Delimit Scope nd_scope with nd.
Infix "+!" := (rbin Rplus) (at level 50, left associativity) : nd_scope.
Infix "-!" := (rbin Rminus) (at level 50, left associativity) : nd_scope.
Infix "*!" := (rbin Rmult) (at level 40, left associativity) : nd_scope.
Infix "/!" := (rbin Rdiv) (at level 40, left associativity) : nd_scope.

(** *** Indexing *)
(** [A[i]] with an integer: drops the first axis. *)
Definition row (i : nat) (v : arr) : Result arr :=
  match shp v with
  | n :: s => if Nat.ltb i n then Ok {| shp := s; dat := fun k => dat v (i :: k) |}
              else Raise IndexError
  | [] => Raise IndexError
  end.
(** [A[idx]] with a list (or an array of shape [si], given with its entries) of
    non-negative integers on the first axis: a copy of shape [si ++ rest]. *)
Definition take (si : shape) (ix : index -> nat) (v : arr) : Result arr :=
  match shp v with
  | n :: s =>
      if forallb (fun k => Nat.ltb (ix k) n) (indices si)
      then Ok {| shp := si ++ s;
                 dat := fun k => dat v (ix (firstn (length si) k) :: skipn (length si) k) |}
      else Raise IndexError
  | [] => Raise IndexError
  end.
(** [A[i, j]] with two index arrays of the same shape [si]. *)
Definition take2 (si : shape) (ix jx : index -> nat) (v : arr) : Result arr :=
  match shp v with
  | n :: m :: s =>
      if forallb (fun k => Nat.ltb (ix k) n && Nat.ltb (jx k) m)%bool (indices si)
      then Ok {| shp := si ++ s;
                 dat := fun k => let l := firstn (length si) k in
                                 dat v (ix l :: jx l :: skipn (length si) k) |}
      else Raise IndexError
  | _ => Raise IndexError
  end.
(** An index list such as [[1, 0, 0, 4, 3, 3]] as a function of a 1-d index. *)
Definition of_list (l : list nat) (k : index) : nat :=
  match k with [i] => nth i l 0%nat | _ => 0%nat end.
(** [A[:n]] *)
Definition head (n : nat) (v : arr) : Result arr :=
  match shp v with
  | m :: s => Ok {| shp := Nat.min n m :: s; dat := dat v |}
  | [] => Raise IndexError
  end.
(** [A[n:]] *)
Definition tail (n : nat) (v : arr) : Result arr :=
  match shp v with
  | m :: s => Ok {| shp := (m - n)%nat :: s;
                    dat := fun k => match k with i :: k => dat v ((n + i)%nat :: k) | [] => 0 end |}
  | [] => Raise IndexError
  end.

(** *** Reductions, axes *)
Fixpoint sumN (n : nat) (f : nat -> R) : R :=
  match n with 0%nat => 0 | S m => sumN m f + f m end.
(** [np.sum(A, axis=0)] *)
Definition sum0 (v : arr) : Result arr :=
  match shp v with
  | n :: s => Ok {| shp := s; dat := fun k => sumN n (fun i => dat v (i :: k)) |}
  | [] => Raise ValueError
  end.
(** Exchange two positions of a list; [np.swapaxes(A, i, j)]. *)
Definition swap_list (i j : nat) (l : list nat) : list nat :=
  map (fun p => nth (if Nat.eqb p i then j else if Nat.eqb p j then i else p) l 0%nat)
      (seq 0 (length l)).
Definition swapaxes (i j : nat) (v : arr) : Result arr :=
  if (Nat.ltb i (length (shp v)) && Nat.ltb j (length (shp v)))%bool
  then Ok {| shp := swap_list i j (shp v); dat := fun k => dat v (swap_list i j k) |}
  else Raise ValueError.
(** [A.T] reverses all axes. *)
Definition arrT (v : arr) : arr := {| shp := rev (shp v); dat := fun k => dat v (rev k) |}.
(** [A.reshape(-1, 1, *A.shape[1:])], [A.reshape(1, -1, *A.shape[1:])] and
    [np.expand_dims(A, 1)]. *)
Definition reshape_col (v : arr) : Result arr :=
  match shp v with
  | n :: s => Ok {| shp := n :: 1%nat :: s;
                    dat := fun k => match k with i :: _ :: k => dat v (i :: k) | _ => 0 end |}
  | [] => Raise IndexError
  end.
Definition reshape_row (v : arr) : Result arr :=
  match shp v with
  | n :: s => Ok {| shp := 1%nat :: n :: s;
                    dat := fun k => match k with _ :: i :: k => dat v (i :: k) | _ => 0 end |}
  | [] => Raise IndexError
  end.

Definition zeros (s : shape) : arr := {| shp := s; dat := fun _ => 0 |}.
Definition full (s : shape) (r : R) : arr := {| shp := s; dat := fun _ => r |}.

(** *** einsum.  A term is a list of labels before and after an (optional) ellipsis. *)
Record term := { pre : list nat; ell : bool; post : list nat }.
Definition env := nat -> nat.
Definition upd (e : env) (l v : nat) : env := fun x => if Nat.eqb x l then v else e x.

(** Split the shape of an operand into label axes and ellipsis axes. *)
Definition term_dims (t : term) (s : shape) : Result (shape * shape * shape) :=
  let a := length (pre t) in
  let b := length (post t) in
  let n := (length s - a - b)%nat in
  if (Nat.leb (a + b) (length s) && (ell t || Nat.eqb n 0))%bool
  then Ok (firstn a s, firstn n (skipn a s), skipn (a + n) s)
  else Raise ValueError.
(** Sizes of the labels over all operands; size-1 axes are broadcast. *)
Fixpoint label_size (l : nat) (ps : list (nat * nat)) : option (option nat) :=
  match ps with
  | [] => Some None
  | (x, d) :: ps =>
      match label_size l ps with
      | None => None
      | Some o => if Nat.eqb x l then
                    match o with
                    | None => Some (Some d)
                    | Some e => match bdim d e with Some c => Some (Some c) | None => None end
                    end
                  else Some o
      end
  end.
Definition size_of (ps : list (nat * nat)) (l : nat) : nat :=
  match label_size l ps with Some (Some d) => d | _ => 0%nat end.
Definition sizes_ok (ps : list (nat * nat)) : bool :=
  forallb (fun p => match label_size (fst p) ps with Some _ => true | None => false end) ps.

Record operand := { o_term : term; o_arr : arr; o_pre : shape; o_ell : shape; o_post : shape }.
Fixpoint operands (ts : list (term * arr)) : Result (list operand) :=
  match ts with
  | [] => Ok []
  | (t, v) :: ts =>
      rbind (term_dims t (shp v)) (fun '(p, e, q) =>
      rbind (operands ts) (fun os =>
      Ok ({| o_term := t; o_arr := v; o_pre := p; o_ell := e; o_post := q |} :: os)))
  end.
Definition label_pairs (os : list operand) : list (nat * nat) :=
  flat_map (fun o => combine (pre (o_term o)) (o_pre o)
                     ++ combine (post (o_term o)) (o_post o)) os.
Fixpoint ell_shape (os : list operand) : Result shape :=
  match os with
  | [] => Ok []
  | o :: os => rbind (ell_shape os) (fun s => broadcast_shapes (o_ell o) s)
  end.
(** Value of one operand under an assignment of the labels and an ellipsis index. *)
Definition op_value (e : env) (k : index) (o : operand) : R :=
  dat (o_arr o) (proj (o_pre o) (map e (pre (o_term o)))
                 ++ (proj (o_ell o) k ++ proj (o_post o) (map e (post (o_term o))))).
Fixpoint op_product (e : env) (k : index) (os : list operand) : R :=
  match os with
  | [] => 1
  | [o] => op_value e k o
  | o :: os => op_value e k o * op_product e k os
  end.
(** Sum over the labels that do not occur in the output. *)
Fixpoint sum_labels (ls : list (nat * nat)) (e : env) (body : env -> R) : R :=
  match ls with
  | [] => body e
  | (l, n) :: ls => sumN n (fun i => sum_labels ls (upd e l i) body)
  end.
Fixpoint bind_labels (ls : list nat) (k : index) (e : env) : env :=
  match ls, k with
  | l :: ls, i :: k => bind_labels ls k (upd e l i)
  | _, _ => e
  end.
Definition einsum (ts : list (term * arr)) (out : term) : Result arr :=
  rbind (operands ts) (fun os =>
  rbind (ell_shape os) (fun es =>
  let ps := label_pairs os in
  if (sizes_ok ps && (ell out || Nat.eqb (length es) 0))%bool then
    let outl := pre out ++ post out in
    let suml := nodup Nat.eq_dec
                  (filter (fun l => negb (existsb (Nat.eqb l) outl)) (map fst ps)) in
    let a := length (pre out) in
    let n := length es in
    Ok {| shp := map (size_of ps) (pre out) ++ (es ++ map (size_of ps) (post out));
          dat := fun k =>
            let e := bind_labels (pre out) (firstn a k)
                       (bind_labels (post out) (skipn (a + n) k) (fun _ => 0%nat)) in
            let ke := firstn n (skipn a k) in
            sum_labels (map (fun l => (l, size_of ps l)) suml) e
                       (fun e => op_product e ke os) |}
  else Raise ValueError)).

(** *** Comparisons over whole arrays *)
(** [np.allclose(A, 0)] *)
Definition vallclose0 (v : arr) : bool :=
  forallb (fun k => isclose (dat v k) 0) (indices (shp v)).

(** ** Mutable arrays: a heap of buffers and array objects that look at them. *)
Record heap := { hnext : nat; hcell : nat -> index -> R }.
(** An ndarray object: buffer, shape, and the position in the buffer of each entry
    (identity for a freshly allocated array, something else for a view). *)
Record nd := { loc : nat; nshp : shape; vw : index -> index }.

Definition M (A : Type) : Type := PY heap A.
(** Contents of an array object. *)
Definition contents (h : heap) (a : nd) : arr :=
  {| shp := nshp a; dat := fun k => hcell h (loc a) (vw a k) |}.
Definition load (a : nd) : M arr := fun h => (h, Ok (contents h a)).
(** A freshly allocated array. *)
Definition alloc (v : arr) : M nd := fun h =>
  ({| hnext := S (hnext h);
      hcell := fun l => if Nat.eqb l (hnext h) then dat v else hcell h l |},
   Ok {| loc := hnext h; nshp := shp v; vw := fun k => k |}).
(** Overwrite all entries of an existing array object. *)
Definition write_cell (a : nd) (f : index -> R) (c : index -> R) : index -> R := fun j =>
  match find (fun k => if list_eq_dec Nat.eq_dec (vw a k) j then true else false)
             (indices (nshp a)) with
  | Some k => f k
  | None => c j
  end.
Definition store (a : nd) (f : index -> R) : M unit := fun h =>
  ({| hnext := hnext h;
      hcell := fun l => if Nat.eqb l (loc a) then write_cell a f (hcell h l) else hcell h l |},
   Ok tt).
(** Write the value [v] into [a] (a ufunc or einsum with [out=a]; [a[...] = v]): [v] must
    broadcast to the shape of [a]. *)
Definition assign (a : nd) (v : arr) : M unit :=
  bind (lift (broadcast_to v (nshp a))) (fun w => store a (dat w)).
