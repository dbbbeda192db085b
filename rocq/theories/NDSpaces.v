(** * Array-level model of src/hyperelastic/spaces/ : shapes, copies, in-place writes.

    [Spaces.v] is the same code for one entry of the trailing axes.  Attributes which
    [gradient] caches for [hessian] are returned by the model of [gradient].  Arithmetic
    expressions allocate one new array for their value (temporaries are not observable). *)
From Coq Require Import Reals List Arith.
From Verif Require Import Tensor Py Voigt Spaces NDCore NDOps NDVoigt.
Import ListNotations.
Local Open Scope R_scope.
Local Open Scope py_scope.

(** *** numpy calls *)
(** [np.einsum(terms, *operands)] and [np.einsum(..., out=out)] *)
Fixpoint load_all (ts : list (term * nd)) : M (list (term * arr)) :=
  match ts with
  | [] => ret []
  | (t, a) :: ts => x <- load a ;; xs <- load_all ts ;; ret ((t, x) :: xs)
  end.
Definition nd_einsum (ts : list (term * nd)) (o : term) : M nd :=
  xs <- load_all ts ;; new (einsum xs o).
Definition nd_einsum_out (ts : list (term * nd)) (o : term) (out : nd) : M nd :=
  xs <- load_all ts ;; z <- lift (einsum xs o) ;; assign out z ;; ret out.
(** [np.allclose(s, t)] for shape tuples with at least two entries each. *)
Definition shapes_allclose (s t : shape) : Result bool :=
  if Nat.eqb (length s) (length t)
  then Ok (forallb (fun '(a, b) => isclose (INR a) (INR b)) (combine s t))
  else Raise ValueError.

(** A material formulation handed to a space: two methods on arrays.  Its attributes and
    the arrays it allocates live in the same heap. *)
Record NDMat (ST : Type) := {
  ndm_gradient : nd -> ST -> M (nd * ST);
  ndm_hessian : nd -> ST -> M nd
}.
Arguments ndm_gradient {ST}. Arguments ndm_hessian {ST}.

(** [asvoigt(einsum("kI...,kJ...->IJ...", F, F))] *)
Definition nd_right_CG (F : nd) : M nd :=
  FF <- nd_einsum [(tm [0; 1], F); (tm [0; 2], F)]%nat (tm [1; 2]%nat) ;; nd_asvoigt FF.
(** [np.sqrt(a)] *)
Definition nd_sqrt (a : nd) : M nd := x <- load a ;; new (Ok (vmap sqrt x)).

(** ** Space.piola, stress: _space.py:52-81.  [F] has at least the tensor axes. *)
Definition nd_piola_stress (o : SpaceOpts) (F S : nd) (detF : option nd) : M nd :=
  if finalize o then
    stress <- nd_astensor S ;;
    stress <- (match force o with
      | Deformed =>
          (* lines 60-66 *)
          new_shape <- lift (broadcast_shapes (nshp F) (nshp stress)) ;;
          same <- lift (shapes_allclose new_shape (nshp stress)) ;;
          stress <- (if same then ret stress
                     else x <- load stress ;; new (broadcast_to x new_shape)) ;;
          (* line 68 *)
          nd_einsum_out [(tm [0; 1], F); (tm [1; 2], stress)]%nat (tm [0; 2]%nat) stress
      | Undeformed => ret stress
      end) ;;
    match area o with
    | Deformed =>
        (* lines 71-79 *)
        detF <- (match detF with
          | Some d => ret d
          | None => C <- nd_right_CG F ;; I3 <- nd_det C ;; nd_sqrt I3
          end) ;;
        s <- nd_einsum_out [(tm [1; 2], F); (tm [0; 2], stress)]%nat (tm [0; 1]%nat) stress ;;
        np_bin Rdiv s detF
    | Undeformed => ret stress
    end
  else ret S.

(** ** Space.piola, elasticity: _space.py:83-139 *)
Definition nd_piola_elast (o : SpaceOpts) (F S : nd) (detF : option nd) (C4 : nd)
    (invC : option nd) : M nd :=
  if finalize o then
    e <- nd_astensor4 C4 ;;
    '(e, I3) <- (match force o with
      | Deformed =>
          (* lines 92-104 *)
          new_shape <- lift (broadcast_shapes (3%nat :: 3%nat :: nshp F) (nshp e)) ;;
          same <- lift (shapes_allclose new_shape (nshp e)) ;;
          e <- (if same then ret e else x <- load e ;; new (broadcast_to x new_shape)) ;;
          e <- nd_einsum_out [(tm [0; 1], F); (tm [2; 3], F); (tm [1; 4; 3; 5], e)]%nat
                 (tm [0; 4; 2; 5]%nat) e ;;
          I <- nd_eye (Some S) ;; c <- nd_cdya_ik I S None ;;
          e <- np_bin_out Rplus e c e ;; ret (e, None)
      | Undeformed =>
          (* lines 107-115 *)
          '(invC, I3) <- (match invC with
            | Some x => ret (x, None)
            | None => C <- nd_right_CG F ;; I3 <- nd_det C ;; x <- nd_inv C (Some I3) None ;;
                      ret (x, Some I3)
            end) ;;
          c <- nd_cdya_ik invC S None ;;
          e <- np_bin_out Rplus e c e ;; ret (e, I3)
      end) ;;
    match area o with
    | Deformed =>
        (* lines 117-137 *)
        detF <- (match detF with
          | Some d => ret d
          | None =>
              I3 <- (match I3 with
                | Some x => ret x
                | None => C <- nd_right_CG F ;; nd_det C
                end) ;;
              nd_sqrt I3
          end) ;;
        e <- nd_einsum_out [(tm [0; 1], F); (tm [2; 3], F); (tm [4; 1; 5; 3], e)]%nat
               (tm [4; 0; 5; 2]%nat) e ;;
        np_bin Rdiv e detF
    | Undeformed => ret e
    end
  else ret C4.

Section S.
  Context {ST : Type} (mat : NDMat ST) (o : SpaceOpts).

  (** ** Deformation: _deformation.py:69-91 *)
  Definition nd_def_gradient_c (F : nd) (sv : ST) : M (nd * ST * (nd * nd)) :=
    C <- nd_right_CG F ;;
    '(dWdC, svn) <- ndm_gradient mat C sv ;;
    d <- load dWdC ;;
    S <- new (rnum 2 *! Ok d)%nd ;;
    P <- nd_piola_stress o F S None ;;
    ret (P, svn, (C, S)).
  Definition nd_def_gradient (F : nd) (sv : ST) : M (nd * ST) :=
    '(r, _) <- nd_def_gradient_c F sv ;; ret r.
  Definition nd_def_hessian (F : nd) (sv : ST) : M nd :=
    '(_, (C, PK2)) <- nd_def_gradient_c F sv ;;
    d2WdCdC <- ndm_hessian mat C sv ;;
    d <- load d2WdCdC ;;
    C4 <- new (rnum 4 *! Ok d)%nd ;;
    nd_piola_elast o F PK2 None C4 None.

  (** ** Distortional: _distortional.py:154-197 *)
  Definition nd_dis_gradient_c (F : nd) (sv : ST) :
      M (nd * ST * (nd * nd * nd * nd * nd * nd * nd)) :=
    C <- nd_right_CG F ;;
    I3 <- nd_det C ;;
    c <- load C ;; i3 <- load I3 ;;
    Cu <- new (rmap (fun x => Rpower x (- 1 / 3)) (Ok i3) *! Ok c)%nd ;;
    '(dWudCu, svn) <- ndm_gradient mat Cu sv ;;
    d <- load dWudCu ;; i3 <- load I3 ;;
    Sb <- new (rnum 2 *! rmap (fun x => Rpower x (- 1 / 3)) (Ok i3) *! Ok d)%nd ;;
    SbC <- nd_ddot22 Sb C ;;
    invC <- nd_inv C (Some I3) None ;;
    sb <- load Sb ;; sbc <- load SbC ;; invc <- load invC ;;
    S <- new (Ok sb -! Ok sbc /! rnum 3 *! Ok invc)%nd ;;
    J <- nd_sqrt I3 ;;
    P <- nd_piola_stress o F S (Some J) ;;
    ret (P, svn, (C, I3, Cu, Sb, SbC, invC, S)).
  Definition nd_dis_gradient (F : nd) (sv : ST) : M (nd * ST) :=
    '(r, _) <- nd_dis_gradient_c F sv ;; ret r.
  Definition nd_dis_hessian (F : nd) (sv : ST) : M nd :=
    '(_, (C, I3, Cu, Sb, SbC, invC, PK2)) <- nd_dis_gradient_c F sv ;;
    I <- nd_eye (Some C) ;;
    d2WdCdC <- ndm_hessian mat Cu sv ;;
    d <- load d2WdCdC ;; i3 <- load I3 ;;
    C4b <- new (rnum 4 *! rmap (fun x => Rpower x (- 2 / 3)) (Ok i3) *! Ok d)%nd ;;
    II <- nd_cdya true I I None ;;
    D <- nd_dya invC C None ;;
    ii <- load II ;; dd <- load D ;;
    P4 <- new (Ok ii -! Ok dd /! rnum 3)%nd ;;
    I4 <- nd_cdya true invC invC None ;;
    SbinvC <- nd_dya Sb invC None ;;
    invCSb <- nd_transpose SbinvC ;;
    invCinvC <- nd_dya invC invC None ;;
    sbc <- load SbC ;; i4 <- load I4 ;; x <- load SbinvC ;; y <- load invCSb ;;
    z <- load invCinvC ;;
    C4 <- new (rnum (2 / 3) *! (Ok sbc *! Ok i4 -! Ok x -! Ok y +! Ok sbc /! rnum 3 *! Ok z))%nd ;;
    c4b <- load C4b ;;
    C4 <- (if vallclose0 c4b then ret C4
           else
             PC <- nd_ddot44 P4 C4b ;; P4T <- nd_transpose P4 ;; PCP <- nd_ddot44 PC P4T ;;
             np_bin_out Rplus C4 PCP C4) ;;
    J <- nd_sqrt I3 ;;
    nd_piola_elast o F PK2 (Some J) C4 (Some invC).

  (** ** Dilatational: _dilatational.py:17-48 *)
  Definition nd_dil_gradient_c (F : nd) (sv : ST) : M (nd * ST * (nd * nd * nd * nd * nd * nd)) :=
    C <- nd_right_CG F ;;
    I3 <- nd_det C ;;
    c <- load C ;; i3 <- load I3 ;;
    Co <- new (rmap (fun x => Rpower x (1 / 3)) (Ok i3) *! Ok c)%nd ;;
    '(dWodCo, svn) <- ndm_gradient mat Co sv ;;
    d <- load dWodCo ;; i3 <- load I3 ;;
    Sb <- new (rnum 2 *! rmap (fun x => Rpower x (1 / 3)) (Ok i3) *! Ok d)%nd ;;
    tr_Sb <- nd_trace Sb ;;
    invC <- nd_inv C (Some I3) None ;;
    tr <- load tr_Sb ;; invc <- load invC ;;
    S <- new (Ok tr /! rnum 3 *! Ok invc)%nd ;;
    J <- nd_sqrt I3 ;;
    P <- nd_piola_stress o F S (Some J) ;;
    ret (P, svn, (C, I3, Co, tr_Sb, invC, S)).
  Definition nd_dil_gradient (F : nd) (sv : ST) : M (nd * ST) :=
    '(r, _) <- nd_dil_gradient_c F sv ;; ret r.
  Definition nd_dil_hessian (F : nd) (sv : ST) : M nd :=
    '(_, (C, I3, Co, tr_Sb, invC, PK2)) <- nd_dil_gradient_c F sv ;;
    d2WodCodCo <- ndm_hessian mat Co sv ;;
    d <- load d2WodCodCo ;; i3 <- load I3 ;;
    C4b <- new (rnum 4 *! rmap (fun x => Rpower x (2 / 3)) (Ok i3) *! Ok d)%nd ;;
    I <- nd_eye (Some C) ;;
    IC <- nd_ddot24 I C4b ;;
    tr_C4b <- nd_ddot22 IC I ;;
    I4 <- nd_cdya true invC invC None ;;
    D <- nd_dya invC invC None ;;
    tr <- load tr_Sb ;; trc <- load tr_C4b ;; i4 <- load I4 ;; d <- load D ;;
    C4 <- new ((rnum 2 *! Ok tr +! Ok trc) *! Ok d /! rnum 9
               -! rnum 2 /! rnum 3 *! Ok tr *! Ok i4)%nd ;;
    J <- nd_sqrt I3 ;;
    nd_piola_elast o F PK2 (Some J) C4 (Some invC).
End S.
