(** * Property C66: two operands with different numbers of trailing axes.

    [field h A i6 t]: [A] is an array of shape (6, *t).  [broadcast_shapes t u = Ok T] is
    numpy's rule for the trailing axes alone (aligned at the right end).  ddot and dot follow
    it.  dya, cdya_ik, cdya_il and cdya do not: they align the complete shapes, so that an
    axis of length 6 of one operand meets a trailing axis of the other. *)
From Coq Require Import Reals Lra List Arith Lia.
From Verif Require Import Tensor Py Voigt.
From Verif Require Import NDCore NDRel NDOps NDHeap NDVoigt NDMath NDMath2 NDMath3 NDSpec NDRaise NDAxes.
Import ListNotations.
Local Open Scope R_scope.

Ltac two_ranks L HA HB HT := destruct (broadcast_sub _ _ _ HT) as [S1 [S2 S3]];
  eapply W_returns; [eapply L; [exact HT|apply le_n|eapply hrelw_value; [exact HA|exact S1]|eapply hrelw_value; [exact HB|exact S2]]
  |rewrite S3; intros; now apply gives_new].
Theorem C66_ddot22 : forall h A B t u T, field h A i6 t -> field h B i6 u -> broadcast_shapes t u = Ok T ->
  returns h (nd_ddot22 A B) (new_field h iS T T (fun k _ => ddot22 (value6 h A k) (value6 h B k))).
Proof. intros h A B t u T HA HB HT. two_ranks nd_ddot22_Ww HA HB HT. Qed.
Print Assumptions C66_ddot22.
Theorem C66_ddot44 : forall h A B t u T, field h A i66 t -> field h B i66 u -> broadcast_shapes t u = Ok T ->
  returns h (nd_ddot44 A B) (new_field h i66 T T (fun k '(v, w) => ddot44 (value66 h A k) (value66 h B k) v w)).
Proof. intros h A B t u T HA HB HT. two_ranks nd_ddot44_Ww HA HB HT. Qed.
Print Assumptions C66_ddot44.
Theorem C66_ddot42 : forall h A B t u T, field h A i66 t -> field h B i6 u -> broadcast_shapes t u = Ok T ->
  returns h (nd_ddot42 A B) (new_field h i6 T T (fun k v => ddot42 (value66 h A k) (value6 h B k) v)).
Proof. intros h A B t u T HA HB HT. two_ranks nd_ddot42_Ww HA HB HT. Qed.
Print Assumptions C66_ddot42.
Theorem C66_ddot24 : forall h A B t u T, field h A i6 t -> field h B i66 u -> broadcast_shapes t u = Ok T ->
  returns h (nd_ddot24 A B) (new_field h i6 T T (fun k v => ddot24 (value6 h A k) (value66 h B k) v)).
Proof. intros h A B t u T HA HB HT. two_ranks nd_ddot24_Ww HA HB HT. Qed.
Print Assumptions C66_ddot24.
Theorem C66_dot : forall h A B t u T, field h A i6 t -> field h B i6 u -> broadcast_shapes t u = Ok T ->
  returns h (nd_dot A B) (new_field h i33 T T (fun k '(i, j) => dot (value6 h A k) (value6 h B k) i j)).
Proof. intros h A B t u T HA HB HT. two_ranks nd_dot_Ww HA HB HT. Qed.
Print Assumptions C66_dot.

(** dya never returns an array of 6x6 components: it raises, or the array it returns has
    first axes 1, ... or 6, 1, ... *)
Theorem C66_dya : forall h A B t u, field h A i6 t -> field h B i6 u -> length t <> length u ->
  raises h (nd_dya A B None) ValueError \/
  exists h' D, nd_dya A B None h = (h', Ok D) /\ untouched h h' /\ (forall w, ~ field h' D i66 w).
Proof.
  intros h A B t u HA HB N. pose proof (dya_run h A B t u HA HB) as HD.
  destruct (col_row t u) as [s|e] eqn:E.
  - right. destruct HD as [h' [D [E1 [E2 [_ [_ [E3 _]]]]]]]. exists h', D. split; [exact E1|]. split; [exact E3|].
    intros w [_ Hw]. rewrite E2 in Hw. destruct (col_row_shape _ _ _ N E) as [r [[-> _]|[-> _]]]; discriminate Hw.
  - left. exists h. exact HD.
Qed.
Print Assumptions C66_dya.
(** A single tensor with a batch of tensors: an array of shape (1, 6, n) with the entries
    A_i B_i (no summation), 6 n numbers instead of the 36 n of the dyadic product. *)
Theorem C66_dya_single : forall h A B n, field h A i6 [] -> field h B i6 [n] ->
  returns h (nd_dya A B None) (fun D h' => fresh h h' D /\ nshp D = [1; 6; n]%nat /\
    forall v k, (k < n)%nat -> dat (contents h' D) [0%nat; n6 v; k] = value6 h A [] v * value6 h B [k] v).
Proof.
  intros h A B n HA HB. pose proof (dya_run h A B [] [n] HA HB) as HD.
  assert (E : col_row [] [n] = Ok [1; 6; n]%nat).
  { unfold col_row, broadcast_shapes. cbn [rev app bcr]. unfold bdim at 1.
    destruct (Nat.eqb_spec 1 n) as [<-|]; reflexivity. }
  rewrite E in HD. destruct HD as [h' [D [E1 [E2 [E3 [E4 [E5 E6]]]]]]].
  exists h', D. split; [exact E1|]. split; [exact E5|]. split; [exact E3|]. split; [exact E2|].
  intros v k Hk. rewrite E6. unfold read. cbn [shp].
  assert (P1 : proj [6; 1]%nat [0%nat; n6 v; k] = [n6 v; 0%nat]) by reflexivity.
  assert (P2 : proj [1; 6; n]%nat [0%nat; n6 v; k] = [0%nat; n6 v; if Nat.eqb n 1 then 0%nat else k]) by reflexivity.
  rewrite P1, P2. cbn [dat]. unfold value6, value. rewrite (proj2 HA), (proj2 HB). cbn [idim i6 app length skipn ienc]. reflexivity.
Qed.
Print Assumptions C66_dya_single.

(** cdya_ik and cdya_il always raise. *)
Theorem C66_cdya_ik : forall h A B t u, field h A i6 t -> field h B i6 u -> length t <> length u ->
  raises h (nd_cdya_ik A B None) ValueError \/ raises h (nd_cdya_ik A B None) IndexError.
Proof. intros h A B t u HA HB N. exact (cdya_swap_raises h A B t u (nd_swap 1 2) HA HB N). Qed.
Print Assumptions C66_cdya_ik.
Theorem C66_cdya_il : forall h A B t u, field h A i6 t -> field h B i6 u -> length t <> length u ->
  raises h (nd_cdya_il A B None) ValueError \/ raises h (nd_cdya_il A B None) IndexError.
Proof. intros h A B t u HA HB N. exact (cdya_swap_raises h A B t u (nd_swap 1 3) HA HB N). Qed.
Print Assumptions C66_cdya_il.

(** cdya: if A has fewer axes, its complete shape (6, *t) is broadcast against the trailing
    axes u of B.  If that fails, ValueError; otherwise every entry of the result is the one
    of a tensor with six equal components, taken from A. *)
Theorem C66_cdya_less : forall h A B t u, field h A i6 t -> field h B i6 u -> (length t < length u)%nat ->
  match broadcast_shapes (6%nat :: t) u with
  | Ok T => returns h (nd_cdya false A B None) (new_field h i66 T T (fun k '(v, w) =>
      cdya_obj false (fun _ => dat (contents h A) (proj (6%nat :: t) k)) (value6 h B k) v w))
  | Raise _ => raises h (nd_cdya false A B None) ValueError
  end.
Proof.
  intros h A B t u HA HB HL. destruct (broadcast_shapes (6%nat :: t) u) as [T|e] eqn:E.
  - eapply W_returns; [exact (nd_cdya_less (hnext h) h A B t u T (le_n _) HA HB HL E)|].
    intros. now apply gives_new.
  - exists h. exact (nd_cdya_apart h false A B t u e HA HB HL E).
Qed.
Print Assumptions C66_cdya_less.
Theorem C66_cdya_more : forall h A B t u, field h A i6 t -> field h B i6 u -> (length u < length t)%nat ->
  match broadcast_shapes t (6%nat :: u) with
  | Ok T => returns h (nd_cdya false A B None) (new_field h i66 T T (fun k '(v, w) =>
      cdya_obj false (value6 h A k) (fun _ => dat (contents h B) (proj (6%nat :: u) k)) v w))
  | Raise _ => raises h (nd_cdya false A B None) ValueError
  end.
Proof.
  intros h A B t u HA HB HL. destruct (broadcast_shapes t (6%nat :: u)) as [T|e] eqn:E.
  - eapply W_returns; [exact (nd_cdya_more (hnext h) h A B t u T (le_n _) HA HB HL E)|].
    intros. now apply gives_new.
  - exists h. unfold nd_cdya, bind, lift. rewrite (proj2 HA), (proj2 HB). cbn [idim i6 app].
    rewrite broadcast_shapes_comm, broadcast_long by (cbn [length]; lia). rewrite broadcast_shapes_comm, E.
    apply broadcast_raise in E as ->. reflexivity.
Qed.
Print Assumptions C66_cdya_more.

(** The statement with right-aligned trailing axes, which holds for ddot and dot, is false
    for cdya, without an exception: the identity (6,) and a batch (6, 6) of six identities
    give, at the fourth entry, the zero matrix. *)
Definition ax_h : heap := {| hnext := 2; hcell := fun _ j => match j with v :: _ => if Nat.ltb v 3 then 1 else 0 | _ => 0 end |}.
Definition ax_A : nd := {| loc := 0; nshp := [6%nat]; vw := fun k => k |}.
Definition ax_B : nd := {| loc := 1; nshp := [6; 6]%nat; vw := fun k => k |}.
Theorem C66_cdya_silent : exists h A B, field h A i6 [] /\ field h B i6 [6%nat] /\
  broadcast_shapes [] [6%nat] = Ok [6%nat] /\
  returns h (nd_cdya false A B None) (fun C h' => field h' C i66 [6%nat] /\
    (forall v w, value66 h' C [3%nat] v w = 0) /\ cdya (value6 h A [3%nat]) (value6 h B [3%nat]) V0 V0 = 1).
Proof.
  exists ax_h, ax_A, ax_B. assert (HA : field ax_h ax_A i6 []) by (split; cbn; auto).
  assert (HB : field ax_h ax_B i6 [6%nat]) by (split; cbn; auto).
  split; [exact HA|]. split; [exact HB|]. split; [reflexivity|].
  assert (H := C66_cdya_less ax_h ax_A ax_B [] [6%nat] HA HB ltac:(cbn; lia)).
  change (broadcast_shapes [6%nat] [6%nat]) with (@Ok shape [6%nat]) in H. cbv beta iota in H.
  destruct H as [h' [C [E [U [_ [FC VC]]]]]]. exists h', C. split; [exact E|]. split; [exact U|].
  split; [exact FC|]. split.
  - intros v w. unfold value66. rewrite (VC [3%nat] ltac:(cbn; lia) (v, w)).
    cbv beta iota. change (dat (contents ax_h ax_A) (proj [6%nat] [3%nat])) with 0.
    unfold cdya_obj, cdya_value. destruct (ix6_leb v w); field.
  - unfold cdya, cdya_obj, cdya_value, value6, value. cbn. lra.
Qed.
Print Assumptions C66_cdya_silent.
(** The hypotheses of the positive theorems with different numbers of axes. *)
Example C66_example : field ax_h ax_A i6 [] /\ field ax_h ax_B i6 [6%nat] /\ broadcast_shapes [] [6%nat] = Ok [6%nat] /\
  returns ax_h (nd_ddot22 ax_A ax_B) (fun a h' => field h' a iS [6%nat] /\ value h' a iS [5%nat] tt = 3).
Proof.
  assert (HA : field ax_h ax_A i6 []) by (split; cbn; auto).
  assert (HB : field ax_h ax_B i6 [6%nat]) by (split; cbn; auto).
  split; [exact HA|]. split; [exact HB|]. split; [reflexivity|].
  destruct (C66_ddot22 ax_h ax_A ax_B [] [6%nat] [6%nat] HA HB eq_refl) as [h' [a [E [U [_ [Fa Va]]]]]].
  exists h', a. split; [exact E|]. split; [exact U|]. split; [exact Fa|].
  rewrite (Va [5%nat] ltac:(cbn; lia) tt). unfold ddot22, value6, value. cbn. unfold sum6. cbn. ring.
Qed.
