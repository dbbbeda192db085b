(** * The spaces with [self.einsum] as an attribute of the object (parallel=True / False).

    The same code as NDSpaces.v (src/hyperelastic/spaces/_space.py:29-139, _deformation.py,
    _distortional.py, _dilatational.py), with the calls of [self.einsum] going to the engine
    which [Space.__init__] stored.  The frameworks and the math functions call [np.einsum]
    directly (math/_voigt.py), also with parallel=True. *)
From Coq Require Import Reals List Arith Lia Permutation.
From Verif Require Import Tensor Py Voigt Spaces NDCore NDOps NDVoigt NDSpaces Threads NDParallel NDParallel2.
Import ListNotations.
Local Open Scope R_scope.
Local Open Scope py_scope.

Section E.
Context (E : engine).

(** [asvoigt(einsum("kI...,kJ...->IJ...", F, F))] *)
Definition pl_right_CG (F : nd) : M nd :=
  FF <- en_einsum E [(tm [0; 1], F); (tm [0; 2], F)]%nat (tm [1; 2]%nat) ;; nd_asvoigt FF.

(** ** Space.piola, stress: _space.py:52-81.  [F] has at least the tensor axes. *)
Definition pl_piola_stress (o : SpaceOpts) (F S : nd) (detF : option nd) : M nd :=
  if finalize o then
    stress <- nd_astensor S ;;
    stress <- (match force o with
      | Deformed =>
          (* lines 60-66 *)
          new_shape <- lift (broadcast_shapes (nshp F) (nshp stress)) ;;
          same <- lift (shapes_allclose new_shape (nshp stress)) ;;
          stress <- (if same then ret stress
                     else x <- load stress ;; new (broadcast_to x new_shape)) ;;
          (* line 68 *)
          en_einsum_out E [(tm [0; 1], F); (tm [1; 2], stress)]%nat (tm [0; 2]%nat) stress
      | Undeformed => ret stress
      end) ;;
    match area o with
    | Deformed =>
        (* lines 71-79 *)
        detF <- (match detF with
          | Some d => ret d
          | None => C <- pl_right_CG F ;; I3 <- nd_det C ;; nd_sqrt I3
          end) ;;
        s <- en_einsum_out E [(tm [1; 2], F); (tm [0; 2], stress)]%nat (tm [0; 1]%nat) stress ;;
        np_bin Rdiv s detF
    | Undeformed => ret stress
    end
  else ret S.

(** ** Space.piola, elasticity: _space.py:83-139 *)
Definition pl_piola_elast (o : SpaceOpts) (F S : nd) (detF : option nd) (C4 : nd)
    (invC : option nd) : M nd :=
  if finalize o then
    e <- nd_astensor4 C4 ;;
    '(e, I3) <- (match force o with
      | Deformed =>
          (* lines 92-104 *)
          new_shape <- lift (broadcast_shapes (3%nat :: 3%nat :: nshp F) (nshp e)) ;;
          same <- lift (shapes_allclose new_shape (nshp e)) ;;
          e <- (if same then ret e else x <- load e ;; new (broadcast_to x new_shape)) ;;
          e <- en_einsum_out E [(tm [0; 1], F); (tm [2; 3], F); (tm [1; 4; 3; 5], e)]%nat
                 (tm [0; 4; 2; 5]%nat) e ;;
          I <- nd_eye (Some S) ;; c <- nd_cdya_ik I S None ;;
          e <- np_bin_out Rplus e c e ;; ret (e, None)
      | Undeformed =>
          (* lines 107-115 *)
          '(invC, I3) <- (match invC with
            | Some x => ret (x, None)
            | None => C <- pl_right_CG F ;; I3 <- nd_det C ;; x <- nd_inv C (Some I3) None ;;
                      ret (x, Some I3)
            end) ;;
          c <- nd_cdya_ik invC S None ;;
          e <- np_bin_out Rplus e c e ;; ret (e, I3)
      end) ;;
    match area o with
    | Deformed =>
        (* lines 117-137 *)
        detF <- (match detF with
          | Some d => ret d
          | None =>
              I3 <- (match I3 with
                | Some x => ret x
                | None => C <- pl_right_CG F ;; nd_det C
                end) ;;
              nd_sqrt I3
          end) ;;
        e <- en_einsum_out E [(tm [0; 1], F); (tm [2; 3], F); (tm [4; 1; 5; 3], e)]%nat
               (tm [4; 0; 5; 2]%nat) e ;;
        np_bin Rdiv e detF
    | Undeformed => ret e
    end
  else ret C4.

Section S.
  Context {ST : Type} (mat : NDMat ST) (o : SpaceOpts).

  (** ** Deformation: _deformation.py:69-91 *)
  Definition pl_def_gradient_c (F : nd) (sv : ST) : M (nd * ST * (nd * nd)) :=
    C <- pl_right_CG F ;;
    '(dWdC, svn) <- ndm_gradient mat C sv ;;
    d <- load dWdC ;;
    S <- new (rnum 2 *! Ok d)%nd ;;
    P <- pl_piola_stress o F S None ;;
    ret (P, svn, (C, S)).
  Definition pl_def_gradient (F : nd) (sv : ST) : M (nd * ST) :=
    '(r, _) <- pl_def_gradient_c F sv ;; ret r.
  Definition pl_def_hessian (F : nd) (sv : ST) : M nd :=
    '(_, (C, PK2)) <- pl_def_gradient_c F sv ;;
    d2WdCdC <- ndm_hessian mat C sv ;;
    d <- load d2WdCdC ;;
    C4 <- new (rnum 4 *! Ok d)%nd ;;
    pl_piola_elast o F PK2 None C4 None.

  (** ** Distortional: _distortional.py:154-197 *)
  Definition pl_dis_gradient_c (F : nd) (sv : ST) :
      M (nd * ST * (nd * nd * nd * nd * nd * nd * nd)) :=
    C <- pl_right_CG F ;;
    I3 <- nd_det C ;;
    c <- load C ;; i3 <- load I3 ;;
    Cu <- new (rmap (fun x => Rpower x (- 1 / 3)) (Ok i3) *! Ok c)%nd ;;
    '(dWudCu, svn) <- ndm_gradient mat Cu sv ;;
    d <- load dWudCu ;; i3 <- load I3 ;;
    Sb <- new (rnum 2 *! rmap (fun x => Rpower x (- 1 / 3)) (Ok i3) *! Ok d)%nd ;;
    SbC <- nd_ddot22 Sb C ;;
    invC <- nd_inv C (Some I3) None ;;
    sb <- load Sb ;; sbc <- load SbC ;; invc <- load invC ;;
    S <- new (Ok sb -! Ok sbc /! rnum 3 *! Ok invc)%nd ;;
    J <- nd_sqrt I3 ;;
    P <- pl_piola_stress o F S (Some J) ;;
    ret (P, svn, (C, I3, Cu, Sb, SbC, invC, S)).
  Definition pl_dis_gradient (F : nd) (sv : ST) : M (nd * ST) :=
    '(r, _) <- pl_dis_gradient_c F sv ;; ret r.
  Definition pl_dis_hessian (F : nd) (sv : ST) : M nd :=
    '(_, (C, I3, Cu, Sb, SbC, invC, PK2)) <- pl_dis_gradient_c F sv ;;
    I <- nd_eye (Some C) ;;
    d2WdCdC <- ndm_hessian mat Cu sv ;;
    d <- load d2WdCdC ;; i3 <- load I3 ;;
    C4b <- new (rnum 4 *! rmap (fun x => Rpower x (- 2 / 3)) (Ok i3) *! Ok d)%nd ;;
    II <- nd_cdya true I I None ;;
    D <- nd_dya invC C None ;;
    ii <- load II ;; dd <- load D ;;
    P4 <- new (Ok ii -! Ok dd /! rnum 3)%nd ;;
    I4 <- nd_cdya true invC invC None ;;
    SbinvC <- nd_dya Sb invC None ;;
    invCSb <- nd_transpose SbinvC ;;
    invCinvC <- nd_dya invC invC None ;;
    sbc <- load SbC ;; i4 <- load I4 ;; x <- load SbinvC ;; y <- load invCSb ;;
    z <- load invCinvC ;;
    C4 <- new (rnum (2 / 3) *! (Ok sbc *! Ok i4 -! Ok x -! Ok y +! Ok sbc /! rnum 3 *! Ok z))%nd ;;
    c4b <- load C4b ;;
    C4 <- (if vallclose0 c4b then ret C4
           else
             PC <- nd_ddot44 P4 C4b ;; P4T <- nd_transpose P4 ;; PCP <- nd_ddot44 PC P4T ;;
             np_bin_out Rplus C4 PCP C4) ;;
    J <- nd_sqrt I3 ;;
    pl_piola_elast o F PK2 (Some J) C4 (Some invC).

  (** ** Dilatational: _dilatational.py:17-48 *)
  Definition pl_dil_gradient_c (F : nd) (sv : ST) : M (nd * ST * (nd * nd * nd * nd * nd * nd)) :=
    C <- pl_right_CG F ;;
    I3 <- nd_det C ;;
    c <- load C ;; i3 <- load I3 ;;
    Co <- new (rmap (fun x => Rpower x (1 / 3)) (Ok i3) *! Ok c)%nd ;;
    '(dWodCo, svn) <- ndm_gradient mat Co sv ;;
    d <- load dWodCo ;; i3 <- load I3 ;;
    Sb <- new (rnum 2 *! rmap (fun x => Rpower x (1 / 3)) (Ok i3) *! Ok d)%nd ;;
    tr_Sb <- nd_trace Sb ;;
    invC <- nd_inv C (Some I3) None ;;
    tr <- load tr_Sb ;; invc <- load invC ;;
    S <- new (Ok tr /! rnum 3 *! Ok invc)%nd ;;
    J <- nd_sqrt I3 ;;
    P <- pl_piola_stress o F S (Some J) ;;
    ret (P, svn, (C, I3, Co, tr_Sb, invC, S)).
  Definition pl_dil_gradient (F : nd) (sv : ST) : M (nd * ST) :=
    '(r, _) <- pl_dil_gradient_c F sv ;; ret r.
  Definition pl_dil_hessian (F : nd) (sv : ST) : M nd :=
    '(_, (C, I3, Co, tr_Sb, invC, PK2)) <- pl_dil_gradient_c F sv ;;
    d2WodCodCo <- ndm_hessian mat Co sv ;;
    d <- load d2WodCodCo ;; i3 <- load I3 ;;
    C4b <- new (rnum 4 *! rmap (fun x => Rpower x (2 / 3)) (Ok i3) *! Ok d)%nd ;;
    I <- nd_eye (Some C) ;;
    IC <- nd_ddot24 I C4b ;;
    tr_C4b <- nd_ddot22 IC I ;;
    I4 <- nd_cdya true invC invC None ;;
    D <- nd_dya invC invC None ;;
    tr <- load tr_Sb ;; trc <- load tr_C4b ;; i4 <- load I4 ;; d <- load D ;;
    C4 <- new ((rnum 2 *! Ok tr +! Ok trc) *! Ok d /! rnum 9
               -! rnum 2 /! rnum 3 *! Ok tr *! Ok i4)%nd ;;
    J <- nd_sqrt I3 ;;
    pl_piola_elast o F PK2 (Some J) C4 (Some invC).
End S.
End E.

(** With [np.einsum] this is the code of NDSpaces.v. *)
Lemma np_spaces {ST} (mat : NDMat ST) o F sv :
  pl_def_gradient np_engine mat o F sv = nd_def_gradient mat o F sv /\
  pl_def_hessian np_engine mat o F sv = nd_def_hessian mat o F sv /\
  pl_dis_gradient np_engine mat o F sv = nd_dis_gradient mat o F sv /\
  pl_dis_hessian np_engine mat o F sv = nd_dis_hessian mat o F sv /\
  pl_dil_gradient np_engine mat o F sv = nd_dil_gradient mat o F sv /\
  pl_dil_hessian np_engine mat o F sv = nd_dil_hessian mat o F sv.
Proof. repeat split; reflexivity. Qed.

(** ** A family of plans: new arrays are split in any way, [out=] calls along the trailing
    axes.  [deal s] deals the indices of shape [s] to threads, [turns] is the scheduler. *)
Definition nil_post (t : term) : bool := match post t with [] => true | _ => false end.
Definition same_entries (a out : nd) : bool :=
  if list_eq_dec Nat.eq_dec (nshp a) (nshp out)
  then forallb (fun k => if list_eq_dec Nat.eq_dec (vw a k) (vw out k) then true else false)
         (indices (nshp out))
  else false.
Fixpoint nodupb (l : list index) : bool :=
  match l with
  | [] => true
  | x :: l => (negb (if in_dec (list_eq_dec Nat.eq_dec) x l then true else false) && nodupb l)%bool
  end.
Definition fits (r : Result arr) (s : shape) : bool :=
  match r with Ok z => if list_eq_dec Nat.eq_dec (shp z) s then true else false | Raise _ => false end.
Definition trailing_plan (deal : shape -> list (list index)) (turns : list task -> list nat) : plan := {|
  plan_new := fun ts o h =>
    if (forallb (fun x => (Nat.ltb (loc (snd x)) (hnext h) && nil_post (fst x))%bool) ts && nil_post o)%bool
    then match einsum (views (mem_of h) ts) o with
         | Ok z => let out := {| loc := hnext h; nshp := shp z; vw := fun k => k |} in
                   let sp := map (fun c => {| p_out := c; p_in := all_cells ts |}) (deal (shp z)) in
                   Some (sp, turns (tasks_of ts o out sp), fun _ => 0)
         | Raise _ => None
         end
    else None;
  plan_out := fun ts o out h =>
    let n := length (pre o) in
    let D := firstn n (nshp out) in
    let sp := map (trailing_part ts D) (deal (skipn n (nshp out))) in
    if (forallb (fun x => (nil_post (fst x) &&
                   (negb (Nat.eqb (loc (snd x)) (loc out)) ||
                    (same_entries (snd x) out && Nat.eqb (length (pre (fst x))) n)))%bool) ts
        && nil_post o && nodupb (map (vw out) (indices (nshp out)))
        && Nat.leb n (length (nshp out)) && fits (einsum (views (mem_of h) ts) o) (nshp out))%bool
    then Some (sp, turns (tasks_of ts o out sp))
    else None |}.

Lemma nil_post_iff t : nil_post t = true -> post t = [].
Proof. unfold nil_post. now destruct (post t). Qed.
Lemma nodupb_NoDup l : nodupb l = true -> NoDup l.
Proof.
  induction l as [|x l IH]; cbn; [constructor|]. intros H. apply andb_prop in H. destruct H as [H1 H2].
  constructor; auto. destruct (in_dec (list_eq_dec Nat.eq_dec) x l); [discriminate|assumption].
Qed.
Theorem trailing_plan_good deal turns :
  (forall s, Permutation (concat (deal s)) (indices s)) -> (forall ts, enough_turns ts (turns ts)) ->
  good_plan (trailing_plan deal turns).
Proof.
  intros Hd Ht. constructor.
  - intros ts o out h sp sched. cbn [trailing_plan plan_out].
    set (n := length (pre o)).
    match goal with |- (if ?b then _ else _) = _ -> _ => destruct b eqn:Eb; [|discriminate] end.
    intros [= <- <-]. repeat (apply andb_prop in Eb; destruct Eb as [Eb ?]).
    rewrite forallb_forall in Eb. rewrite Nat.leb_le in *.
    destruct (einsum (views (mem_of h) ts) o) as [z|] eqn:Ez; [|discriminate].
    cbn [fits] in *. destruct (list_eq_dec Nat.eq_dec (shp z) (nshp out)) as [Sz|]; [|discriminate].
    apply (trailing_good (mem_of h) ts o out (firstn n (nshp out)) (skipn n (nshp out)) z); auto.
    + intros t a Ha. specialize (Eb _ Ha). cbn [fst snd] in Eb. apply andb_prop in Eb. now apply nil_post_iff.
    + now apply nil_post_iff.
    + now rewrite firstn_skipn.
    + rewrite firstn_length. fold n. lia.
    + now apply nodupb_NoDup.
    + intros t a Ha. specialize (Eb _ Ha). cbn [fst snd] in Eb. apply andb_prop in Eb. destruct Eb as [_ Eb].
      apply Bool.orb_prop in Eb. destruct Eb as [Eb|Eb].
      * left. apply Bool.negb_true_iff, Nat.eqb_neq in Eb. exact Eb.
      * right. apply andb_prop in Eb. destruct Eb as [E1 E2]. apply Nat.eqb_eq in E2.
        unfold same_entries in E1. destruct (list_eq_dec Nat.eq_dec (nshp a) (nshp out)) as [Es|]; [|discriminate].
        split; [exact Es|]. split; [rewrite E2, firstn_length; unfold n; lia|].
        intros k Hk. rewrite forallb_forall in E1. apply NDRel.in_indices in Hk. specialize (E1 k Hk).
        destruct (list_eq_dec Nat.eq_dec (vw a k) (vw out k)); [assumption|discriminate].
    + apply enough_turns_finish, Ht.
  - intros ts o h sp sched junk z h' out. cbn [trailing_plan plan_new].
    match goal with |- (if ?b then _ else _) = _ -> _ => destruct b eqn:Eb; [|discriminate] end.
    apply andb_prop in Eb. destruct Eb as [Eb Eo]. rewrite forallb_forall in Eb.
    assert (Ex : existing h ts).
    { intros t a Ha. specialize (Eb _ Ha). cbn [fst snd] in Eb. apply andb_prop in Eb. now apply Nat.ltb_lt. }
    destruct (einsum (views (mem_of h) ts) o) as [z0|] eqn:Ez; [|discriminate].
    intros [= <- <- <-]. split; [exact Ex|]. intros [= <-] Ea.
    assert (Eout : out = {| loc := hnext h; nshp := shp z0; vw := fun k => k |}).
    { injection Ea as <- <-. reflexivity. }
    rewrite <- Eout. replace (shp z0) with (nshp out) by (rewrite Eout; reflexivity).
    apply separate_good.
    + intros t a Ha. specialize (Eb _ Ha). cbn [fst snd] in Eb. apply andb_prop in Eb. now apply nil_post_iff.
    + now apply nil_post_iff.
    + unfold distinct_entries. rewrite Eout. cbn [vw nshp]. rewrite map_id. apply indices_NoDup.
    + intros t a Ha. rewrite Eout. cbn [loc]. specialize (Ex t a Ha). lia.
    + apply Hd.
    + apply enough_turns_finish, Ht.
Qed.
(** One thread per index; threads take turns. *)
Definition one_each (s : shape) : list (list index) := map (fun k => [k]) (indices s).
Definition round_robin (ts : list task) : list nat :=
  flat_map (fun _ => seq 0 (length ts)) (seq 0 (list_sum (map work ts))).
Lemma one_each_deals s : Permutation (concat (one_each s)) (indices s).
Proof.
  unfold one_each. rewrite <- flat_map_concat_map. induction (indices s); cbn; auto.
Qed.
Lemma count_seq n i : (i < n)%nat -> count_occ Nat.eq_dec (seq 0 n) i = 1%nat.
Proof.
  intros H. apply NoDup_count_occ'; [apply seq_NoDup|apply in_seq; lia].
Qed.
Lemma round_robin_turns ts : enough_turns ts (round_robin ts).
Proof.
  intros i t Hi. assert (L : (i < length ts)%nat) by (apply nth_error_Some; congruence).
  assert (C : forall n, count_occ Nat.eq_dec (flat_map (fun _ : nat => seq 0 (length ts)) (seq 0 n)) i = n).
  { intros n. generalize 0%nat at 2. induction n as [|n IH]; intros b; [reflexivity|]. cbn [seq flat_map].
    rewrite count_occ_app, IH, count_seq by exact L. reflexivity. }
  unfold round_robin. rewrite C. apply nth_error_In in Hi. clear -Hi.
  unfold list_sum.
  induction ts as [|x ts IH]; [easy|]. cbn [map fold_right].
  destruct Hi as [->|Hi]; [lia|]. specialize (IH Hi). lia.
Qed.

(** The plan really splits the calls of piola: [einsum("iI...,IJ...->iJ...", F, S, out=S)] on
    a batch of two is given to two threads, and a new array to one thread per entry. *)
Definition at_loc (l : nat) (s : shape) : nd := {| loc := l; nshp := s; vw := fun k => k |}.
Definition two_arrays : heap := {| hnext := 2; hcell := fun _ _ => 0 |}.
Example trailing_plan_splits :
  match plan_out (trailing_plan one_each round_robin)
          [(tm [0; 1], at_loc 0 [3; 3; 2]); (tm [1; 2], at_loc 1 [3; 3; 2])]%nat (tm [0; 2]%nat)
          (at_loc 1 [3; 3; 2]%nat) two_arrays with
  | Some (sp, sched) => (length sp, length sched)
  | None => (0, 0)%nat
  end = (2, 108)%nat.
Proof. vm_compute. reflexivity. Qed.
