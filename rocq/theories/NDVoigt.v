(** * Array-level model of src/hyperelastic/math/_voigt.py.

    Every function works on array objects ([nd]) of a heap, with numpy's shape rules,
    exceptions, views, copies and in-place writes (NDCore.v).  Axes 0.. are tensor axes,
    the remaining (trailing) axes are arbitrary.  [Voigt.v] is the same code for one entry
    of the trailing axes. *)
From Coq Require Import Reals List Arith.
From Verif Require Import Tensor Py Voigt NDCore NDOps.
Import ListNotations.
Local Open Scope R_scope.
Local Open Scope py_scope.

(** *** numpy calls on array objects *)
Definition new (e : Result arr) : M nd := bind (lift e) alloc.
(** [np.multiply(a, b)], [a + b], ... *)
Definition np_bin (op : R -> R -> R) (a b : nd) : M nd :=
  x <- load a ;; y <- load b ;; new (vbin op x y).
(** [np.multiply(a, b, out=out)]; [a += b] is [np.add(a, b, out=a)]. *)
Definition np_bin_out (op : R -> R -> R) (a b out : nd) : M nd :=
  x <- load a ;; y <- load b ;; z <- lift (vbin op x y) ;; assign out z ;; ret out.
(** [A[idx]] with an index list (a copy). *)
Definition fancy (A : nd) (l : list nat) : M nd :=
  a <- load A ;; new (take [length l] (of_list l) a).
(** [A[p, q, ...]] with integers (a view). *)
Definition subview (a : nd) (p : list nat) : nd :=
  {| loc := loc a; nshp := skipn (length p) (nshp a); vw := fun k => vw a (p ++ k) |}.
Definition in_prefix (p : list nat) (s : shape) : bool :=
  (Nat.leb (length p) (length s)
   && forallb (fun '(i, n) => Nat.ltb i n) (combine p s))%bool.
(** [A[p, q, ...] = v] *)
Definition setrow (a : nd) (p : list nat) (v : arr) : M unit :=
  if in_prefix p (nshp a) then assign (subview a p) v else raise IndexError.
(** [A[p, q, ...]] as a value *)
Fixpoint rows (p : list nat) (v : arr) : Result arr :=
  match p with [] => Ok v | i :: p => rbind (row i v) (rows p) end.
(** A sequence of statements. *)
Fixpoint each {A} (l : list A) (f : A -> M unit) : M unit :=
  match l with [] => ret tt | x :: l => f x ;; each l f end.
(** [np.swapaxes(A, i, j)] (a view). *)
Definition nd_swap (i j : nat) (a : nd) : M nd :=
  if (Nat.ltb i (length (nshp a)) && Nat.ltb j (length (nshp a)))%bool
  then ret {| loc := loc a; nshp := swap_list i j (nshp a);
              vw := fun k => vw a (swap_list i j k) |}
  else raise ValueError.

(** ** asvoigt *)
(** mode=2: _voigt.py:89-93 *)
Definition nd_asvoigt (A : nd) : M nd :=
  let i := [0; 1; 2; 0; 1; 0]%nat in
  let j := [0; 1; 2; 1; 2; 2]%nat in
  a <- load A ;; new (take2 [6%nat] (of_list i) (of_list j) a).

(** mode=4: _voigt.py:95-122.  The assignments [B[p, q] = A[i, j, k, l]] in the order of
    the code, as (position in B, position in A). *)
Definition asvoigt4_steps : list (list nat * list nat) :=
  (flat_map (fun i => map (fun j => ([i; j], [i; i; j; j])) [0; 1; 2]) [0; 1; 2]
   ++ [([3; 3], [0; 1; 0; 1]); ([4; 4], [1; 2; 1; 2]); ([5; 5], [0; 2; 0; 2])]
   ++ flat_map (fun i => [([i; 3], [i; i; 0; 1]); ([i; 4], [i; i; 1; 2]); ([i; 5], [i; i; 0; 2]);
                          ([3; i], [0; 1; i; i]); ([4; i], [1; 2; i; i]); ([5; i], [0; 2; i; i])])
               [0; 1; 2]
   ++ [([3; 4], [0; 1; 1; 2]); ([3; 5], [0; 1; 0; 2]);
       ([4; 3], [1; 2; 0; 1]); ([4; 5], [1; 2; 0; 2]);
       ([5; 3], [0; 2; 0; 1]); ([5; 4], [0; 2; 1; 2])])%nat.
Definition nd_asvoigt4 (A : nd) : M nd :=
  B <- alloc (zeros (6%nat :: 6%nat :: skipn 4 (nshp A))) ;;
  each asvoigt4_steps (fun '(p, q) =>
    a <- load A ;; v <- lift (rows q a) ;; setrow B p v) ;;
  ret B.

(** ** astensor *)
Definition table9 : list nat := [0; 3; 5; 3; 1; 4; 5; 4; 2]%nat.
(** mode=2: _voigt.py:214-216; [a.reshape(3, 3)] as a function of its index. *)
Definition table33 (k : index) : nat :=
  match k with [i; j] => nth (3 * i + j) table9 0%nat | _ => 0%nat end.
Definition nd_astensor (A : nd) : M nd :=
  a <- load A ;; new (take [3%nat; 3%nat] table33 a).
(** mode=4: _voigt.py:218-221; [np.meshgrid(a, a, indexing="ij")] has entries
    [i[p, q] = a[p]], [j[p, q] = a[q]]; after [reshape(3,3,3,3)] p = 3 i + j, q = 3 k + l. *)
Definition table_ij (k : index) : nat :=
  match k with [i; j; _; _] => nth (3 * i + j) table9 0%nat | _ => 0%nat end.
Definition table_kl (k : index) : nat :=
  match k with [_; _; i; j] => nth (3 * i + j) table9 0%nat | _ => 0%nat end.
Definition nd_astensor4 (A : nd) : M nd :=
  a <- load A ;; new (take2 [3; 3; 3; 3]%nat table_ij table_kl a).

(** ** tril_from_triu / triu_from_tril: _voigt.py:224-243.  [np.triu_indices(dim, 1)]:
    row-major pairs with i < j; [out[j, i] = A[i, j]] reads all of [A[i, j]] (a copy)
    before it writes. *)
Definition triu_pairs (dim : nat) : list (nat * nat) :=
  flat_map (fun i => map (fun j => (i, j)) (seq (S i) (dim - S i))) (seq 0 dim).
Definition tril_pairs (dim : nat) : list (nat * nat) :=
  flat_map (fun i => map (fun j => (i, j)) (seq 0 i)) (seq 0 dim).
Fixpoint collect {A B} (f : A -> Result B) (l : list A) : Result (list B) :=
  match l with
  | [] => Ok []
  | x :: l => rbind (f x) (fun y => rbind (collect f l) (fun ys => Ok (y :: ys)))
  end.
Definition copy_pairs (pairs : list (nat * nat)) (A : nd) (out : option nd) : M nd :=
  out <- (match out with None => a <- load A ;; alloc a | Some o => ret o end) ;;
  a <- load A ;;
  vs <- lift (collect (fun '(i, j) => rows [i; j] a) pairs) ;;
  each (combine pairs vs) (fun '((i, j), v) => setrow out [j; i] v) ;;
  ret out.
Definition nd_tril_from_triu (A : nd) (dim : nat) (out : option nd) : M nd :=
  copy_pairs (triu_pairs dim) A out.
Definition nd_triu_from_tril (A : nd) (dim : nat) (out : option nd) : M nd :=
  copy_pairs (tril_pairs dim) A out.

(** ** trace: _voigt.py:286 *)
Definition nd_trace (A : nd) : M nd := a <- load A ;; new (rbind (head 3 a) sum0).

(** ** transpose: _voigt.py:343 (a view) *)
Definition nd_transpose (A : nd) : M nd := nd_swap 0 1 A.

(** ** det: _voigt.py:375-381 *)
Definition v_det (a : arr) : Result arr :=
  (let A i := row i a in
   A 0%nat *! A 1%nat *! A 2%nat
   +! rnum 2 *! A 3%nat *! A 4%nat *! A 5%nat
   -! rmap (fun x => x ^ 2)%R (A 4%nat) *! A 0%nat
   -! rmap (fun x => x ^ 2)%R (A 5%nat) *! A 1%nat
   -! rmap (fun x => x ^ 2)%R (A 3%nat) *! A 2%nat)%nd.
Definition nd_det (A : nd) : M nd := a <- load A ;; new (v_det a).

(** ** inv: _voigt.py:427-447 *)
Definition nd_inv (A : nd) (determinant out : option nd) : M nd :=
  _ <- alloc (zeros (nshp A)) ;;
  detA <- (match determinant with None => nd_det A | Some d => ret d end) ;;
  Ai <- fancy A [1; 0; 0; 4; 3; 3]%nat ;;
  Aj <- fancy A [2; 2; 1; 5; 5; 4]%nat ;;
  Ak <- fancy A [4; 5; 3; 3; 0; 1]%nat ;;
  Al <- fancy A [4; 5; 3; 2; 4; 5]%nat ;;
  let out := match out with None => Ai | Some o => o end in
  Aij <- np_bin_out Rmult Ai Aj Ai ;;
  Akl <- np_bin_out Rmult Ak Al Ak ;;
  detAinvA <- np_bin_out Rminus Aij Akl out ;;
  np_bin_out Rdiv detAinvA detA out.

(** ** dot, mode=(2, 2): _voigt.py:498-511.  One triple of products per entry. *)
Definition dot_steps : list (list nat * list (nat * nat)) :=
  [([0; 0], [(0, 0); (3, 3); (5, 5)]);
   ([1; 1], [(3, 3); (1, 1); (4, 4)]);
   ([2; 2], [(4, 4); (5, 5); (2, 2)]);
   ([0; 1], [(0, 3); (3, 1); (5, 4)]);
   ([1; 2], [(3, 5); (1, 4); (4, 2)]);
   ([0; 2], [(0, 5); (3, 4); (5, 2)]);
   ([1; 0], [(3, 0); (1, 3); (4, 5)]);
   ([2; 1], [(5, 3); (4, 1); (2, 4)]);
   ([2; 0], [(5, 0); (4, 3); (2, 5)])]%nat.
Definition dot_sum (a b : arr) (l : list (nat * nat)) : Result arr :=
  match l with
  | [(i, j); (k, l); (m, n)] =>
      (row i a *! row j b +! row k a *! row l b +! row m a *! row n b)%nd
  | _ => Raise ValueError
  end.
Definition nd_dot (A B : nd) : M nd :=
  trax <- lift (broadcast_shapes (skipn 1 (nshp A)) (skipn 1 (nshp B))) ;;
  C <- alloc (zeros (3%nat :: 3%nat :: trax)) ;;
  each dot_steps (fun '(p, l) =>
    a <- load A ;; b <- load B ;; v <- lift (dot_sum a b l) ;; setrow C p v) ;;
  ret C.

(** ** eye: _voigt.py:548-552.  [s] is [Some A.shape] or [None]. *)
Definition v_eye (s : option shape) : arr :=
  {| shp := 6%nat :: match s with None => [] | Some s => repeat 1%nat (length (skipn 1 s)) end;
     dat := fun k => match k with 0%nat :: _ | 1%nat :: _ | 2%nat :: _ => 1 | _ => 0 end |}.
Definition nd_eye (A : option nd) : M nd := alloc (v_eye (option_map nshp A)).

(** ** ddot: _voigt.py:635-643 *)
Definition v_weights : arr :=
  {| shp := [6%nat]; dat := fun k => match k with [i] => nth i [1; 1; 1; 2; 2; 2] 0 | _ => 0 end |}.
Definition v_ddot22 (a b : arr) : Result arr :=
  einsum [(tm [0], a); (tm [0], b); (tm0 [0], v_weights)]%nat (tm []).
Definition v_ddot44 (a b : arr) : Result arr :=
  einsum [(tm [0; 2], a); (tm [2; 1], b); (tm0 [2], v_weights)]%nat (tm [0; 1]%nat).
Definition v_ddot42 (a b : arr) : Result arr :=
  einsum [(tm [0; 1], a); (tm [1], b); (tm0 [1], v_weights)]%nat (tm [0]%nat).
Definition v_ddot24 (a b : arr) : Result arr :=
  einsum [(tm [0], a); (tm [0; 1], b); (tm0 [0], v_weights)]%nat (tm [1]%nat).
Definition nd_ddot22 (A B : nd) : M nd := a <- load A ;; b <- load B ;; new (v_ddot22 a b).
Definition nd_ddot44 (A B : nd) : M nd := a <- load A ;; b <- load B ;; new (v_ddot44 a b).
Definition nd_ddot42 (A B : nd) : M nd := a <- load A ;; b <- load B ;; new (v_ddot42 a b).
Definition nd_ddot24 (A B : nd) : M nd := a <- load A ;; b <- load B ;; new (v_ddot24 a b).

(** ** dya: _voigt.py:697-701 *)
Definition v_dya (a b : arr) : Result arr := (reshape_col a *! reshape_row b)%nd.
Definition nd_dya (A B : nd) (out : option nd) : M nd :=
  a <- load A ;; b <- load B ;;
  match out with
  | None => new (v_dya a b)
  | Some o => z <- lift (v_dya a b) ;; assign o z ;; ret o
  end.

(** ** dev: _voigt.py:725 *)
Definition v_dev (a : arr) : Result arr :=
  (Ok a -! rbind (head 3 a) sum0 /! rnum 3 *! Ok (v_eye (Some (shp a))))%nd.
Definition nd_dev (A : nd) : M nd := a <- load A ;; new (v_dev a).

(** ** cdya_ik, cdya_il: _voigt.py:779, 833 (views of a fresh array) *)
Definition nd_cdya_ik (A B : nd) (out : option nd) : M nd :=
  D <- nd_dya A B out ;; D4 <- nd_astensor4 D ;; nd_swap 1 2 D4.
Definition nd_cdya_il (A B : nd) (out : option nd) : M nd :=
  D <- nd_dya A B out ;; D4 <- nd_astensor4 D ;; nd_swap 1 3 D4.

(** ** cdya: _voigt.py:913-947 *)
(** [np.triu_indices(6)]: the 21 pairs v <= w. *)
Definition pairs21 : list (nat * nat) :=
  flat_map (fun v => map (fun w => (v, w)) (seq v (6 - v))) (seq 0 6).
Definition a_tab : list (nat * nat) := [(0, 0); (1, 1); (2, 2); (0, 1); (1, 2); (0, 2)]%nat.
Definition b_tab (i j : nat) : nat := nth (3 * i + j) table9 0%nat.
Definition pi_ (p : nat * nat) : nat := fst (nth (fst p) a_tab (0, 0)%nat).
Definition pj_ (p : nat * nat) : nat := snd (nth (fst p) a_tab (0, 0)%nat).
Definition pk_ (p : nat * nat) : nat := fst (nth (snd p) a_tab (0, 0)%nat).
Definition pl_ (p : nat * nat) : nat := snd (nth (snd p) a_tab (0, 0)%nat).
Definition l_ij : list nat := map (fun p => b_tab (pi_ p) (pj_ p)) pairs21.
Definition l_kl : list nat := map (fun p => b_tab (pk_ p) (pl_ p)) pairs21.
Definition l_ik : list nat := map (fun p => b_tab (pi_ p) (pk_ p)) pairs21.
Definition l_jl : list nat := map (fun p => b_tab (pj_ p) (pl_ p)) pairs21.
Definition l_il : list nat := map (fun p => b_tab (pi_ p) (pl_ p)) pairs21.
Definition l_kj : list nat := map (fun p => b_tab (pk_ p) (pj_ p)) pairs21.

(** [np.broadcast_arrays(A, B)] returns views of the common shape. *)
Definition broadcast_view (a : nd) (s : shape) : M nd :=
  u <- lift (broadcast_shapes (nshp a) s) ;;
  if list_eq_dec Nat.eq_dec u s
  then ret {| loc := loc a; nshp := s; vw := fun k => vw a (proj (nshp a) k) |}
  else raise ValueError.
(** [out[r, c] = values] with index lists [r], [c]. *)
Definition set_pairs (out : nd) (rc : list (nat * nat)) (values : nd) : M unit :=
  x <- load values ;;
  w <- lift (broadcast_to x (length rc :: skipn 2 (nshp out))) ;;
  each (combine (seq 0 (length rc)) rc) (fun '(n, (r, c)) =>
    v <- lift (row n w) ;; setrow out [r; c] v).
(** [same]: the caller passes the same object twice ([A is B], line 937). *)
Definition nd_cdya (same : bool) (A B : nd) (out : option nd) : M nd :=
  s <- lift (broadcast_shapes (nshp A) (nshp B)) ;;
  out <- (match out with None => alloc (zeros (6%nat :: s)) | Some o => ret o end) ;;
  A <- broadcast_view A s ;; B <- broadcast_view B s ;;
  Aik <- fancy A l_ik ;; Bjl <- fancy B l_jl ;; Ail <- fancy A l_il ;; Bkj <- fancy B l_kj ;;
  x <- np_bin_out Rmult Aik Bjl Aik ;;
  y <- np_bin_out Rmult Ail Bkj Ail ;;
  values <- np_bin Rplus x y ;;
  values <- (if same then
               two <- alloc (num 2) ;; np_bin_out Rdiv values two values
             else
               Bik <- fancy B l_ik ;; Ajl <- fancy A l_jl ;;
               Bil <- fancy B l_il ;; Akj <- fancy A l_kj ;;
               x <- np_bin_out Rmult Bik Ajl Bik ;;
               y <- np_bin_out Rmult Bil Akj Bil ;;
               z <- np_bin Rplus x y ;;
               values <- np_bin_out Rplus values z values ;;
               four <- alloc (num 4) ;; np_bin_out Rdiv values four values) ;;
  set_pairs out (combine l_ij l_kl) values ;;
  set_pairs out (combine l_kl l_ij) values ;;
  ret out.

(** ** eigh: _voigt.py:950-956.  [np.linalg.eigh] acts on each matrix of the stack
    [astensor(A).T] (last two axes); [f] is [fun] (None: identity). *)
Definition stack_mat (v : arr) (b : index) : T2 := fun i j =>
  dat v (b ++ [match i with X0 => 0 | X1 => 1 | X2 => 2 end;
               match j with X0 => 0 | X1 => 1 | X2 => 2 end])%nat.
Definition ix3_of (n : nat) : ix3 := match n with 0 => X0 | 1 => X1 | _ => X2 end.
(** Eigenvalues (..., 3) and eigenvectors (..., 3, 3) of a stack (..., 3, 3). *)
Definition linalg_eigh (lapack : Lapack) (v : arr) : Result (arr * arr) :=
  let r := length (shp v) in
  match skipn (r - 2) (shp v) with
  | [3; 3]%nat =>
      let b := firstn (r - 2) (shp v) in
      Ok ({| shp := b ++ [3%nat];
             dat := fun k => fst (lapack (stack_mat v (firstn (length b) k)))
                               (ix3_of (nth (length b) k 0%nat)) |},
          {| shp := b ++ [3; 3]%nat;
             dat := fun k => snd (lapack (stack_mat v (firstn (length b) k)))
                               (ix3_of (nth (length b) k 0%nat))
                               (ix3_of (nth (S (length b)) k 0%nat)) |})
  | _ => Raise ValueError
  end.
Definition tail_term (l : list nat) : term := {| pre := []; ell := true; post := l |}.
(** [np.array([asvoigt(M) for M in MA.T])] *)
Definition stack_voigt (v : arr) : Result arr :=
  rbind (collect (fun a => rbind (row a v)
     (take2 [6%nat] (of_list [0; 1; 2; 0; 1; 0]%nat) (of_list [0; 1; 2; 1; 2; 2]%nat)))
     (seq 0 (hd 0%nat (shp v)))) (fun ms =>
  Ok {| shp := length ms :: match ms with m :: _ => shp m | [] => [] end;
        dat := fun k => match k with a :: k => dat (nth a ms (num 0)) k | [] => 0 end |}).
Definition v_eigh (lapack : Lapack) (f : R -> R) (a : arr) : Result (arr * arr) :=
  rbind (take [3%nat; 3%nat] table33 a) (fun A33 =>
  rbind (linalg_eigh lapack (arrT A33)) (fun '(wA, vA) =>
  rbind (einsum [(tail_term [0; 2], vA); (tail_term [1; 2], vA)]%nat (tail_term [0; 1; 2]%nat))
  (fun MA =>
  rbind (stack_voigt (arrT MA)) (fun Ms =>
  Ok (arrT (vmap f wA), Ms))))).
Definition nd_eigh (lapack : Lapack) (A : nd) (f : R -> R) : M (nd * nd) :=
  a <- load A ;; '(w, Ms) <- lift (v_eigh lapack f a) ;;
  w <- alloc w ;; Ms <- alloc Ms ;; ret (w, Ms).
