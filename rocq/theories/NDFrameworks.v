(** * Array-level model of src/hyperelastic/frameworks/ and src/hyperelastic/models/.

    [Frameworks.v] and [Models.v] are the same code for one entry of the trailing axes.
    Attributes which [gradient] caches for [hessian] are returned by the model of
    [gradient].  Arithmetic expressions allocate one new array for their value. *)
From Coq Require Import Reals List Arith.
From Verif Require Import Tensor Py Voigt Models NDCore NDOps NDVoigt NDSpaces.
Import ListNotations.
Local Open Scope R_scope.
Local Open Scope py_scope.

(** A Python number or an array (numpy scalars count as 0-d arrays). *)
Inductive pyval := PNum (r : R) | PArr (a : nd).
Definition loadv (v : pyval) : M arr :=
  match v with PNum r => ret (num r) | PArr a => load a end.
(** [x += y]: rebinds a number, writes in place into an array. *)
Definition iadd_num (x : pyval) (r : R) : M pyval :=
  match x with
  | PNum q => ret (PNum (q + r))
  | PArr a => v <- load a ;; z <- lift (vbin Rplus v (num r)) ;; assign a z ;; ret (PArr a)
  end.
Definition iadd_arr (x : pyval) (e : Result arr) : M pyval :=
  y <- lift e ;;
  match x with
  | PNum q => a <- new (vbin Rplus (num q) y) ;; ret (PArr a)
  | PArr a => v <- load a ;; z <- lift (vbin Rplus v y) ;; assign a z ;; ret (PArr a)
  end.
(** [a += e], [a -= e], [a *= e] for an array [a]. *)
Definition inplace (op : R -> R -> R) (a : nd) (e : Result arr) : M unit :=
  y <- lift e ;; v <- load a ;; z <- lift (vbin op v y) ;; assign a z.
(** Slices [a[:n]] and [a[n:]] (views). *)
Definition head_view (n : nat) (a : nd) : nd :=
  {| loc := loc a; nshp := match nshp a with m :: s => Nat.min n m :: s | [] => [] end; vw := vw a |}.
Definition tail_view (n : nat) (a : nd) : nd :=
  {| loc := loc a; nshp := match nshp a with m :: s => (m - n)%nat :: s | [] => [] end;
     vw := fun k => match k with i :: k => vw a ((n + i)%nat :: k) | [] => vw a [] end |}.

(** Material models on arrays. *)
Record NDInvModel (ST : Type) := {
  nim_gradient : nd -> nd -> nd -> ST -> M (option pyval * option pyval * option pyval * ST);
  nim_hessian : nd -> nd -> nd -> ST -> M (ix6 -> option pyval)
}.
Arguments nim_gradient {ST}. Arguments nim_hessian {ST}.
Record NDStretchModel (ST : Type) := {
  nsm_gradient : nd -> ST -> M (nd * ST);
  (** an ndarray, or a list whose entries may be None *)
  nsm_hessian : nd -> ST -> M (nd + (ix6 -> option pyval))
}.
Arguments nsm_gradient {ST}. Arguments nsm_hessian {ST}.

(** ** ThirdOrderDeformation: models/invariants/_third_order_deformation.py:54-103 *)
Definition py_opt_iadd_num (c : R) (x : option pyval) : M (option pyval) :=
  if nonzero c then
    match x with Some x => y <- iadd_num x c ;; ret (Some y) | None => raise TypeError end
  else ret x.
Definition py_opt_iadd (c : R) (x : option pyval) (e : Result arr) : M (option pyval) :=
  if nonzero c then
    match x with Some x => y <- iadd_arr x e ;; ret (Some y) | None => raise TypeError end
  else ret x.
Definition nd_tod_gradient {ST} (m : TOD) (I1 I2 I3 : nd) (sv : ST)
  : M (option pyval * option pyval * option pyval * ST) :=
  let dWdI1 := if (nonzero (C10 m) || nonzero (C11 m) || nonzero (C20 m) || nonzero (C30 m))%bool
               then Some (PNum 0) else None in
  let dWdI2 := if (nonzero (C01 m) || nonzero (C11 m))%bool then Some (PNum 0) else None in
  i1 <- load I1 ;; i2 <- load I2 ;;
  dWdI1 <- py_opt_iadd_num (C10 m) dWdI1 ;;
  dWdI2 <- py_opt_iadd_num (C01 m) dWdI2 ;;
  dWdI1 <- py_opt_iadd (C11 m) dWdI1 (rnum (C11 m) *! (Ok i2 -! rnum (undeformed m)))%nd ;;
  dWdI2 <- py_opt_iadd (C11 m) dWdI2 (rnum (C11 m) *! (Ok i1 -! rnum (undeformed m)))%nd ;;
  dWdI1 <- py_opt_iadd (C20 m) dWdI1 (rnum (C20 m * 2) *! (Ok i1 -! rnum (undeformed m)))%nd ;;
  dWdI1 <- py_opt_iadd (C30 m) dWdI1
             (rnum (C30 m * 3) *! rmap (fun x => x ^ 2)%R (Ok i1 -! rnum (undeformed m)))%nd ;;
  ret (dWdI1, dWdI2, None, sv).
Definition nd_tod_hessian {ST} (m : TOD) (I1 I2 I3 : nd) (sv : ST) : M (ix6 -> option pyval) :=
  d11 <- (if (nonzero (C20 m) || nonzero (C30 m))%bool then
            i1 <- load I1 ;;
            a <- new (rnum (C20 m * 2) +! rnum (C30 m * 6) *! (Ok i1 -! rnum (undeformed m)))%nd ;;
            ret (Some (PArr a))
          else ret None) ;;
  let d12 := if nonzero (C11 m) then Some (PNum (C11 m)) else None in
  ret (fun v => match v with V0 => d11 | V3 => d12 | _ => None end).
Definition nd_tod {ST} (m : TOD) : NDInvModel ST :=
  {| nim_gradient := nd_tod_gradient m; nim_hessian := nd_tod_hessian m |}.

(** ** Ogden: models/stretches/_ogden.py:43-63 *)
Definition nd_ogden_sum (c : R -> R -> R) (e : R -> R) (m : Ogden) (l : nd) : M nd :=
  d <- alloc (zeros (nshp l)) ;;
  each (combine (og_mu m) (og_alpha m)) (fun '(mu, alpha) =>
    x <- load l ;;
    inplace Rplus d (rnum (c mu alpha) *! rmap (fun x => Rpower x (e alpha)) (Ok x))%nd) ;;
  ret d.
Definition nd_ogden_gradient {ST} (m : Ogden) (l : nd) (sv : ST) : M (nd * ST) :=
  d <- nd_ogden_sum (fun mu alpha => 2 * mu / alpha) (fun alpha => alpha - 1) m l ;;
  ret (d, sv).
(** [[*d, None, None, None]]: the rows of [d] are views. *)
Definition nd_ogden_hessian {ST} (m : Ogden) (l : nd) (sv : ST)
  : M (nd + (ix6 -> option pyval)) :=
  d <- nd_ogden_sum (fun mu alpha => 2 * mu / alpha * (alpha - 1)) (fun alpha => alpha - 2) m l ;;
  ret (inr (fun v => match v with
    | V0 => Some (PArr (subview d [0%nat])) | V1 => Some (PArr (subview d [1%nat]))
    | V2 => Some (PArr (subview d [2%nat])) | _ => None end)).
Definition nd_ogden {ST} (m : Ogden) : NDStretchModel ST :=
  {| nsm_gradient := nd_ogden_gradient m; nsm_hessian := nd_ogden_hessian m |}.

(** ** Invariants: frameworks/_invariants.py:150-237 *)
Record InvCache := {
  ic_I : nd; ic_I1 : nd; ic_I2 : nd; ic_I3 : nd;
  ic_dW1 : option pyval; ic_dW2 : option pyval; ic_dW3 : option pyval;
  ic_dI1 : option nd; ic_dI2 : option nd; ic_dI3 : option (nd * nd)   (* invC, dI3dC *)
}.
Definition zeros6 (C : nd) : arr := zeros (6%nat :: repeat 1%nat (length (skipn 1 (nshp C)))).
Definition zeros66 (C : nd) : arr :=
  zeros (6%nat :: 6%nat :: repeat 1%nat (length (skipn 1 (nshp C)))).
(** [acc = acc + x * d] *)
Definition add_times (acc : nd) (x : pyval) (d : nd) : M nd :=
  a <- load acc ;; w <- loadv x ;; y <- load d ;; new (Ok a +! Ok w *! Ok y)%nd.
Section Inv.
  Context {ST : Type} (m : NDInvModel ST).
  Definition nd_inv_gradient_c (C : nd) (sv : ST) : M (nd * ST * InvCache) :=
    I <- nd_eye (Some C) ;;
    I1 <- nd_trace C ;;
    i1 <- load I1 ;; CC <- nd_ddot22 C C ;; cc <- load CC ;;
    I2 <- new ((rmap (fun x => x ^ 2)%R (Ok i1) -! Ok cc) /! rnum 2)%nd ;;
    I3 <- nd_det C ;;
    '(dW1, dW2, dW3, svn) <- nim_gradient m I1 I2 I3 sv ;;
    dWdC <- alloc (zeros6 C) ;;
    '(dWdC, dI1) <- (match dW1 with
      | Some w => dWdC <- add_times dWdC w I ;; ret (dWdC, Some I)
      | None => ret (dWdC, None) end) ;;
    '(dWdC, dI2) <- (match dW2 with
      | Some w =>
          i1 <- load I1 ;; i <- load I ;; c <- load C ;;
          dI2 <- new (Ok i1 *! Ok i -! Ok c)%nd ;;
          dWdC <- add_times dWdC w dI2 ;; ret (dWdC, Some dI2)
      | None => ret (dWdC, None) end) ;;
    '(dWdC, dI3) <- (match dW3 with
      | Some w =>
          invC <- nd_inv C (Some I3) None ;;
          i3 <- load I3 ;; ic <- load invC ;;
          dI3 <- new (Ok i3 *! Ok ic)%nd ;;
          dWdC <- add_times dWdC w dI3 ;; ret (dWdC, Some (invC, dI3))
      | None => ret (dWdC, None) end) ;;
    ret (dWdC, svn, {| ic_I := I; ic_I1 := I1; ic_I2 := I2; ic_I3 := I3;
      ic_dW1 := dW1; ic_dW2 := dW2; ic_dW3 := dW3;
      ic_dI1 := dI1; ic_dI2 := dI2; ic_dI3 := dI3 |}).
  Definition nd_inv_gradient (C : nd) (sv : ST) : M (nd * ST) :=
    '(r, _) <- nd_inv_gradient_c C sv ;; ret r.

  (** [acc + x * dya(a, b)] and [acc + x * (dya(a, b) + dya(b, a))]; [None * ndarray]
      raises TypeError.  The scalar is evaluated before the products. *)
  Definition add_dya (acc : nd) (x : option pyval) (a b : option nd) : M nd :=
    a <- local a ;; b <- local b ;;
    D <- nd_dya a b None ;;
    match x with Some x => add_times acc x D | None => raise TypeError end.
  Definition add_dya2 (acc : nd) (x : option pyval) (a b : option nd) : M nd :=
    a <- local a ;; b <- local b ;;
    D <- nd_dya a b None ;; E <- nd_dya b a None ;; S <- np_bin Rplus D E ;;
    match x with Some x => add_times acc x S | None => raise TypeError end.
  Definition nd_inv_hessian (C : nd) (sv : ST) : M nd :=
    '(_, sv, c) <- nd_inv_gradient_c C sv ;;
    h <- nim_hessian m (ic_I1 c) (ic_I2 c) (ic_I3 c) sv ;;
    H <- alloc (zeros66 C) ;;
    let d1 := ic_dI1 c in
    let d2 := ic_dI2 c in
    let d3 := option_map snd (ic_dI3 c) in
    (* lines 208-211 *)
    H <- (match ic_dW2 c with
      | Some w =>
          D <- nd_dya (ic_I c) (ic_I c) None ;; E <- nd_cdya true (ic_I c) (ic_I c) None ;;
          d2I2 <- np_bin Rminus D E ;; add_times H w d2I2
      | None => ret H end) ;;
    (* lines 213-217 *)
    H <- (match ic_dW3 c with
      | Some w =>
          '(invC, _) <- local (ic_dI3 c) ;;
          D <- nd_dya invC invC None ;; E <- nd_cdya true invC invC None ;;
          i3 <- load (ic_I3 c) ;; d <- load D ;; e <- load E ;;
          d2I3 <- new (Ok i3 *! (Ok d -! Ok e))%nd ;; add_times H w d2I3
      | None => ret H end) ;;
    (* lines 219-235; lines 225-226 add the (2,2) term in the branch for (3,3) *)
    H <- (match h V0 with Some _ => add_dya H (h V0) d1 d1 | None => ret H end) ;;
    H <- (match h V1 with Some _ => add_dya H (h V1) d2 d2 | None => ret H end) ;;
    H <- (match h V2 with Some _ => add_dya H (h V1) d2 d2 | None => ret H end) ;;
    H <- (match h V3 with Some _ => add_dya2 H (h V3) d1 d2 | None => ret H end) ;;
    H <- (match h V4 with Some _ => add_dya2 H (h V4) d2 d3 | None => ret H end) ;;
    match h V5 with Some _ => add_dya2 H (h V5) d1 d3 | None => ret H end.
  Definition nd_invariants : NDMat ST :=
    {| ndm_gradient := nd_inv_gradient; ndm_hessian := nd_inv_hessian |}.
End Inv.

(** ** Stretches: frameworks/_stretches.py:121-181 *)
Definition sa_list : list nat := [0; 1; 2; 0; 1; 0]%nat.
Definition sb_list : list nat := [0; 1; 2; 1; 2; 2]%nat.
(** [np.where]-like masked assignment: lines 173-177 write [f[mask]] and [f[~mask]]. *)
Definition masked (v x y : arr) : Result arr :=
  Ok {| shp := shp v; dat := fun k => if isclose (dat v k) 0 then read x k else read y k |}.
Section Str.
  Context {ST : Type} (lapack : Lapack) (m : NDStretchModel ST).
  Definition nd_str_gradient_c (C : nd) (sv : ST) : M (nd * ST * (nd * nd * nd)) :=
    '(l, Ms) <- nd_eigh lapack C sqrt ;;
    '(dWdl, svn) <- nsm_gradient m l sv ;;
    d <- load dWdl ;; x <- load l ;;
    dWdlC <- new (Ok d /! (rnum 2 *! Ok x))%nd ;;
    dc <- load dWdlC ;; ms <- load Ms ;;
    dWdC <- new (rbind (reshape_col dc *! Ok ms)%nd sum0) ;;
    ret (dWdC, svn, (l, Ms, dWdlC)).
  Definition nd_str_gradient (C : nd) (sv : ST) : M (nd * ST) :=
    '(r, _) <- nd_str_gradient_c C sv ;; ret r.

  (** lines 146-152 *)
  Definition fill6 (l : nd) (h : ix6 -> option pyval) : M nd :=
    let newshape := skipn 1 (nshp l) in
    d <- alloc (zeros (6%nat :: newshape)) ;;
    each [(0%nat, V0); (1%nat, V1); (2%nat, V2); (3%nat, V3); (4%nat, V4); (5%nat, V5)]
      (fun '(a, v) =>
         match h v with
         | Some x => y <- loadv x ;; w <- lift (broadcast_to y newshape) ;; setrow d [a] w
         | None => ret tt
         end) ;;
    ret d.
  Definition nd_str_hessian (C : nd) (sv : ST) : M nd :=
    '(_, sv, (l, Ms, dWdlC)) <- nd_str_gradient_c C sv ;;
    h <- nsm_hessian m l sv ;;
    d2 <- (match h with inl a => ret a | inr h => fill6 l h end) ;;
    (* lines 161-162 *)
    x <- load l ;; d <- load d2 ;;
    d2C <- new (Ok d /! (rnum 4 *! take [6%nat] (of_list sa_list) x
                                 *! take [6%nat] (of_list sb_list) x))%nd ;;
    dc <- load dWdlC ;;
    inplace Rminus (head_view 3 d2C) (Ok dc /! (rnum 2 *! rmap (fun x => x ^ 2)%R (Ok x)))%nd ;;
    (* lines 164-166 *)
    H <- alloc (zeros (6%nat :: 6%nat :: skipn 1 (nshp dWdlC))) ;;
    f <- alloc (zeros (skipn 1 (nshp l))) ;;
    (* lines 168-179 *)
    each (combine (seq 0 6) (combine sa_list sb_list)) (fun '(k, (al, be)) =>
      M4 <- nd_dya (subview Ms [al]) (subview Ms [be]) None ;;
      c <- load d2C ;; m4 <- load M4 ;;
      inplace Rplus H (row k c *! Ok m4)%nd ;;
      if Nat.eqb be al then ret tt else
        v <- lift (rmap (fun x => x ^ 2)%R (row al x) -! rmap (fun x => x ^ 2)%R (row be x))%nd ;;
        p <- lift (row be c -! row k c)%nd ;;
        q <- lift ((row al dc -! row be dc) /! Ok v)%nd ;;
        w <- lift (masked v p q) ;; assign f w ;;
        T4 <- nd_transpose M4 ;; D <- nd_cdya false (subview Ms [al]) (subview Ms [be]) None ;;
        t4 <- load T4 ;; dd <- load D ;; ff <- load f ;;
        inplace Rplus H (row k c *! Ok t4 +! Ok ff *! rnum 2 *! Ok dd)%nd) ;;
    ret H.
  Definition nd_stretches : NDMat ST :=
    {| ndm_gradient := nd_str_gradient; ndm_hessian := nd_str_hessian |}.
End Str.

(** ** GeneralizedInvariantsModel: models/stretches/_generalized_invariants.py:227-338.
    [fs]: the strain measure with its keyword arguments, on an array: E, dE/dλ, d2E/dλdλ
    ([self.strain(stretches)[:3]]). *)
Definition NDStrain : Type := nd -> M (nd * nd * nd).
(** models/generalized/_stretch.py: elementwise formulas *)
Definition nd_strain (k : R) : NDStrain := fun l =>
  if nonzero k then
    x <- load l ;;
    E <- new ((rmap (fun x => Rpower x k) (Ok x) -! rnum 1) /! rnum k)%nd ;;
    dE <- new (rmap (fun x => Rpower x (k - 1)) (Ok x)) ;;
    d2E <- new (rnum (k - 1) *! rmap (fun x => Rpower x (k - 2)) (Ok x))%nd ;;
    ret (E, dE, d2E)
  else raise ZeroDivisionError.
Definition nd_deformation (k : R) : NDStrain := fun l =>
  x <- load l ;;
  E <- new (rmap (fun x => Rpower x k) (Ok x)) ;;
  dE <- new (rnum k *! rmap (fun x => Rpower x (k - 1)) (Ok x))%nd ;;
  d2E <- new (rnum (k * (k - 1)) *! rmap (fun x => Rpower x (k - 2)) (Ok x))%nd ;;
  ret (E, dE, d2E).
(** [w * Eγ] with the list [Eγ = [2, 0, 1]]: an array of shape (3,); a Python float times
    a list raises TypeError. *)
Definition times_list (w : pyval) : M arr :=
  match w with
  | PNum _ => raise TypeError
  | PArr a => x <- load a ;;
      lift (Ok x *! Ok {| shp := [3%nat];
                         dat := fun k => match k with [i] => nth i [2; 0; 1] 0 | _ => 0 end |})%nd
  end.
Record GenCache := {
  nc_dE : nd; nc_d2E : nd; nc_I1 : nd; nc_I2 : nd; nc_I3 : nd;
  nc_dW1 : option pyval; nc_dW2 : option pyval; nc_dW3 : option pyval;
  nc_dI1 : nd; nc_dI2 : nd; nc_dI3 : nd
}.
(** [if w is not None: acc += w * d * e] (in place) *)
Definition iadd3 (acc : nd) (w : option pyval) (d e : nd) : M unit :=
  match w with
  | Some w => x <- loadv w ;; y <- load d ;; z <- load e ;;
      inplace Rplus acc (Ok x *! Ok y *! Ok z)%nd
  | None => ret tt
  end.
Section NDGen.
  Context {ST : Type} (m : NDInvModel ST) (fs : NDStrain) (c : GenConst).
  Definition nd_gen_gradient_c (l : nd) (sv : ST) : M (nd * ST * GenCache) :=
    '(E, dE, d2E) <- fs l ;;
    e <- load E ;;
    I1 <- new (rnum (gc1 c) *! (row 0 e +! row 1 e +! row 2 e) -! rnum (gI10 c * (gc1 c - 1)))%nd ;;
    I2 <- new (rnum (gc2 c) *! (row 0 e *! row 1 e +! row 1 e *! row 2 e +! row 2 e *! row 0 e)
               -! rnum (gI20 c * (gc2 c - 1)))%nd ;;
    I3 <- new (row 0 e *! row 1 e *! row 2 e)%nd ;;
    '(dW1, dW2, dW3, svn) <- nim_gradient m I1 I2 I3 sv ;;
    Eb <- fancy E [1; 0; 0]%nat ;; Eg <- fancy E [2; 2; 1]%nat ;;
    dI1 <- new (rnum (gc1 c) *! Ok (full (nshp E) 1))%nd ;;
    b <- load Eb ;; g <- load Eg ;;
    dI2 <- new (rnum (gc2 c) *! (Ok b +! Ok g))%nd ;;
    dI3 <- new (Ok b *! Ok g)%nd ;;
    dW <- alloc (zeros (nshp l)) ;;
    iadd3 dW dW1 dI1 dE ;; iadd3 dW dW2 dI2 dE ;; iadd3 dW dW3 dI3 dE ;;
    ret (dW, svn, {| nc_dE := dE; nc_d2E := d2E; nc_I1 := I1; nc_I2 := I2; nc_I3 := I3;
      nc_dW1 := dW1; nc_dW2 := dW2; nc_dW3 := dW3; nc_dI1 := dI1; nc_dI2 := dI2; nc_dI3 := dI3 |}).
  Definition nd_gen_gradient (l : nd) (sv : ST) : M (nd * ST) :=
    '(r, _) <- nd_gen_gradient_c l sv ;; ret r.
  (** [x * a[α] * b[β]] and [x * (a[α] * b[β] + b[α] * a[β])], added in place *)
  Definition ta (a : arr) : Result arr := take [6%nat] (of_list sa_list) a.
  Definition tb (a : arr) : Result arr := take [6%nat] (of_list sb_list) a.
  Definition iadd_ab (H : nd) (x : option pyval) (a b : nd) : M unit :=
    match x with
    | Some x => w <- loadv x ;; p <- load a ;; q <- load b ;;
        inplace Rplus H (Ok w *! ta p *! tb q)%nd
    | None => ret tt end.
  Definition iadd_ab2 (H : nd) (x : option pyval) (a b : nd) : M unit :=
    match x with
    | Some x => w <- loadv x ;; p <- load a ;; q <- load b ;;
        inplace Rplus H (Ok w *! (ta p *! tb q +! ta q *! tb p))%nd
    | None => ret tt end.
  Definition nd_gen_hessian (l : nd) (sv : ST) : M (nd + (ix6 -> option pyval)) :=
    '(dW, _, k) <- nd_gen_gradient_c l sv ;;
    h <- nim_hessian m (nc_I1 k) (nc_I2 k) (nc_I3 k) sv ;;
    H <- alloc (zeros (6%nat :: skipn 1 (nshp dW))) ;;
    iadd_ab H (h V0) (nc_dI1 k) (nc_dI1 k) ;;
    iadd_ab H (h V1) (nc_dI2 k) (nc_dI2 k) ;;
    iadd_ab H (h V2) (nc_dI3 k) (nc_dI3 k) ;;
    iadd_ab2 H (h V3) (nc_dI1 k) (nc_dI2 k) ;;
    iadd_ab2 H (h V4) (nc_dI2 k) (nc_dI3 k) ;;
    iadd_ab2 H (h V5) (nc_dI1 k) (nc_dI3 k) ;;
    (* lines 317-323 *)
    (match nc_dW2 k with
     | Some w => x <- loadv w ;; inplace Rplus (tail_view 3 H) (Ok x *! rnum (gc2 c))%nd
     | None => ret tt end) ;;
    (match nc_dW3 k with
     | Some w => x <- times_list w ;; inplace Rplus (tail_view 3 H) (Ok x)
     | None => ret tt end) ;;
    (* line 327 *)
    de <- load (nc_dE k) ;;
    inplace Rmult H (ta de *! tb de)%nd ;;
    (* lines 329-336 *)
    iadd3 (head_view 3 H) (nc_dW1 k) (nc_dI1 k) (nc_d2E k) ;;
    iadd3 (head_view 3 H) (nc_dW2 k) (nc_dI2 k) (nc_d2E k) ;;
    iadd3 (head_view 3 H) (nc_dW3 k) (nc_dI3 k) (nc_d2E k) ;;
    ret (inl H).
  Definition nd_gen : NDStretchModel ST :=
    {| nsm_gradient := nd_gen_gradient; nsm_hessian := nd_gen_hessian |}.
End NDGen.
