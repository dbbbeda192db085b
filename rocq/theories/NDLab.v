(** * Array-level model of the load cases and of Simulation.stress_curve_fit.

    [Lab.v] is the same code for one-dimensional stretches, entry by entry. *)
From Coq Require Import Reals List Arith Lia ZArith String.
From Verif Require Import Tensor Py Spaces Spec Lab NDCore NDRel NDOps NDVoigt NDSpaces NDLinks.
Import ListNotations.
Local Open Scope R_scope.
Local Open Scope py_scope.

(** ** numpy *)
(** Number of entries; position of an index in C order, and back. *)
Fixpoint size (s : shape) : nat := match s with [] => 1%nat | n :: s => (n * size s)%nat end.
Fixpoint ravel (s : shape) (k : index) : nat :=
  match s, k with n :: s, i :: k => (i * size s + ravel s k)%nat | _, _ => 0%nat end.
Fixpoint unravel (s : shape) (p : nat) : index :=
  match s with [] => [] | n :: s => (p / size s)%nat :: unravel s (p mod size s) end.
(** The shape argument of [reshape]: None is -1 (at most one; its length is inferred). *)
Definition known (l : list (option nat)) : nat :=
  fold_right (fun o n => match o with Some d => (d * n)%nat | None => n end) 1%nat l.
Definition unknowns (l : list (option nat)) : nat :=
  List.length (filter (fun o => match o with None => true | _ => false end) l).
Definition reshape_shape (l : list (option nat)) (n : nat) : Result shape :=
  match unknowns l with
  | 0%nat => if Nat.eqb (known l) n then Ok (map (fun o => match o with Some d => d | None => 0%nat end) l)
             else Raise ValueError
  | 1%nat => if Nat.eqb (known l) 0 then Raise ValueError
             else if Nat.eqb (n mod known l) 0
             then Ok (map (fun o => match o with Some d => d | None => (n / known l)%nat end) l)
             else Raise ValueError
  | _ => Raise ValueError
  end.
(** [a.reshape( *l)]: a view (numpy copies if the strides do not allow a view; the copy is
    not observable here because nothing is written through the result). *)
Definition nd_reshape (a : nd) (l : list (option nat)) : M nd :=
  s <- lift (reshape_shape l (size (nshp a))) ;;
  ret {| loc := loc a; nshp := s; vw := fun k => vw a (unravel (nshp a) (ravel s k)) |}.
(** [np.array([[a00, ...], ...])] of a 3x3 nested list of arrays: all shapes must agree. *)
Definition nd_array33 (rows : list (list nd)) : M nd :=
  vs <- (fix go (l : list nd) : M (list arr) :=
           match l with [] => ret [] | a :: l => v <- load a ;; vs <- go l ;; ret (v :: vs) end) (List.concat rows) ;;
  let s := match vs with [] => [] | v :: _ => shp v end in
  if forallb (fun v => if list_eq_dec Nat.eq_dec (shp v) s then true else false) vs
  then alloc {| shp := 3%nat :: 3%nat :: s;
                dat := fun k => match k with
                       | i :: j :: k => dat (nth (3 * i + j) vs (num 0)) k | _ => 0 end |}
  else lift (Raise ValueError).
(** [v[z]] with any Python integer. *)
Definition row_z (z : Z) (v : arr) : Result arr :=
  match shp v with
  | n :: _ => let k := if Z.ltb z 0 then (z + Z.of_nat n)%Z else z in
              if Z.ltb k 0 then Raise IndexError else row (Z.to_nat k) v
  | [] => Raise IndexError
  end.
(** [v[i, j]] *)
Definition at2 (i j : Z) (v : arr) : Result arr := rbind (row_z i v) (row_z j).

(** ** Load cases: lab/_load_case.py *)
(** Uniaxial.defgrad, lines 86-93 *)
Definition nd_uniaxial (stretch : nd) : M nd :=
  s <- load stretch ;;
  y <- new (rnum 1 /! rmap sqrt (Ok s))%nd ;;
  z <- alloc (zeros (nshp stretch)) ;;
  nd_array33 [[stretch; z; z]; [z; y; z]; [z; z; y]].
(** Biaxial.defgrad, lines 111-118 *)
Definition nd_biaxial (stretch : nd) : M nd :=
  s <- load stretch ;;
  y <- new (rnum 1 /! rmap (fun x => x ^ 2) (Ok s))%nd ;;
  z <- alloc (zeros (nshp stretch)) ;;
  nd_array33 [[stretch; z; z]; [z; stretch; z]; [z; z; y]].
(** Planar.defgrad, lines 136-144 *)
Definition nd_planar (stretch : nd) : M nd :=
  s <- load stretch ;;
  y <- new (rnum 1 /! Ok s)%nd ;;
  o <- alloc (full (nshp stretch) 1) ;;
  z <- alloc (zeros (nshp stretch)) ;;
  nd_array33 [[stretch; z; z]; [z; o; z]; [z; z; y]].
(** IncompressibleHomogeneousStretch.stress, lines 41-68 *)
Definition v_lc_stress (i j : Z) (f p : arr) : Result arr :=
  (at2 i i p -! at2 j j p *! at2 j j f /! at2 i i f)%nd.
Definition nd_lc_stress (F P : nd) (axis traction_free : Z) : M nd :=
  f <- load F ;; p <- load P ;; new (v_lc_stress axis traction_free f p).

(** ** Simulation.stress_curve_fit: lab/_simulation.py:110-118.  [defgrad] is the load case's
    method; the material function returns an object of which only the first entry of
    [gradient([F, None])] is used. *)
Definition nd_stress_curve_fit (defgrad : nd -> M nd) (labels : list string)
    (material : Dict -> Result (nd -> M nd)) (x : nd) (parameters : list R) : M nd :=
  mat <- lift (material (kwargs_of labels parameters)) ;;
  F <- defgrad x ;;
  F4 <- nd_reshape F [Some 3; Some 3; Some 1; None]%nat ;;
  P4 <- mat F4 ;;
  P <- nd_reshape P4 [Some 3; Some 3; None]%nat ;;
  nd_lc_stress F P 0 (-1).
(** [gradient([F, None])[0]] of a space object; [none] is the Python value None. *)
Definition nd_space_stress {ST} (kd : SpaceKind) (mat : NDMat ST) (o : SpaceOpts) (none : ST) (F : nd) : M nd :=
  '(P, _) <- nd_sp_gradient kd mat o F none ;; ret P.
