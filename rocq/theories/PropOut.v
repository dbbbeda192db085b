(** * Property C62: the functions of hyperelastic.math called with [out=].

    [fills h m o Q] (OutSpec.v): the call returns the very array [o], no memory that existed
    before the call is changed except cells of [o], and [Q] holds afterwards.  Arguments may
    share memory with [o] (in-place use) unless a hypothesis says otherwise. *)
From Coq Require Import Reals Lra List Arith Lia.
From Verif Require Import Tensor Py Voigt.
From Verif Require Import NDCore NDRel NDOps NDHeap NDVoigt NDMath NDMath2 NDMath3 NDSpec NDTril OutSpec NDOut PropND.
Import ListNotations.
Local Open Scope R_scope.

(** inv(A, out=o).  [t]: trailing axes of A; they broadcast to those of [o] (usually equal). *)
Theorem C62_inv : forall h A o t T, field h A i6 t -> field h o i6 T -> length t = length T -> sub t T ->
  distinct o ->
  fills h (nd_inv A None (Some o)) o (fun h' => forall k, inb T k -> forall v,
    value6 h' o k v = inv (value6 h A k) None v).
Proof.
  intros h A o t T HA Ho Hl Hs Hd.
  destruct (inv_out_WO h A None o t T T _ (fun _ => 0) _ (hrel_value _ _ _ _ _ HA Hs (or_intror Hl)) Hs
              (field_hrel _ _ _ _ Ho) Hd) as [r [h' [E [X [-> H]]]]]; [discriminate|].
  exists h'. split; [exact E|]. split; [exact X|]. apply (value_hrel _ _ _ _ _ _ H).
Qed.
Print Assumptions C62_inv.
(** In place: inv(A, out=A). *)
Theorem C62_inv_in_place : forall h A T, field h A i6 T -> distinct A ->
  fills h (nd_inv A None (Some A)) A (fun h' => forall k, inb T k -> forall v,
    value6 h' A k v = inv (value6 h A k) None v).
Proof. intros h A T HA Hd. exact (C62_inv h A A T T HA HA eq_refl (sub_refl T) Hd). Qed.
Print Assumptions C62_inv_in_place.
(** inv(A, determinant=d, out=o): [d] must not share memory with [o]. *)
Theorem C62_inv_determinant : forall h A d o t u T, field h A i6 t -> field h o i6 T -> length t = length T ->
  sub t T -> distinct o -> field h d iS u -> sub u T -> apart d o ->
  fills h (nd_inv A (Some d) (Some o)) o (fun h' => forall k, inb T k -> forall v,
    value6 h' o k v = inv (value6 h A k) (Some (value1 h d k)) v).
Proof.
  intros h A d o t u T HA Ho Hl Hs Hd Hdf Hu Hap.
  destruct (inv_out_WO h A (Some d) o t T T _ (value1 h d) _ (hrel_value _ _ _ _ _ HA Hs (or_intror Hl)) Hs
              (field_hrel _ _ _ _ Ho) Hd) as [r [h' [E [X [-> H]]]]].
  { intros a [= <-]. split; [exact Hap|]. exists u. split; [exact Hu|]. eapply hrel_fun.
    - apply (hrel_value h d iS u T Hdf Hu). now left.
    - intros k Hk []. reflexivity. }
  exists h'. split; [exact E|]. split; [exact X|]. apply (value_hrel _ _ _ _ _ _ H).
Qed.
Print Assumptions C62_inv_determinant.

(** dya(A, B, out=o) and cdya(A, B, out=o). *)
Theorem C62_dya : forall h A B o t u T, field h A i6 t -> field h B i6 u -> field h o i66 T ->
  length t = length T -> length u = length T -> sub t T -> sub u T -> distinct o ->
  fills h (nd_dya A B (Some o)) o (fun h' => forall k, inb T k -> forall v w,
    value66 h' o k v w = dya (value6 h A k) (value6 h B k) v w).
Proof.
  intros h A B o t u T HA HB Ho Lt Lu Ht Hu Hd.
  destruct (dya_out_WO (hnext h) h A B o t u T T _ _ _ (hrel_value _ _ _ _ _ HA Ht (or_intror Lt))
              (hrel_value _ _ _ _ _ HB Hu (or_intror Lu)) Ht Hu (field_hrel _ _ _ _ Ho) Hd) as [r [h' [E [X [-> [_ H]]]]]].
  exists h'. split; [exact E|]. split; [exact X|]. intros k Hk v w.
  exact (proj2 (value_hrel _ _ _ _ _ _ H) k Hk (v, w)).
Qed.
Print Assumptions C62_dya.
Theorem C62_cdya : forall h same A B o t u T, field h A i6 t -> field h B i6 u -> field h o i66 T ->
  length t = length T -> length u = length T -> sub t T -> sub u T -> distinct o ->
  fills h (nd_cdya same A B (Some o)) o (fun h' => forall k, inb T k -> forall v w,
    value66 h' o k v w = cdya_obj same (value6 h A k) (value6 h B k) v w).
Proof.
  intros h same A B o t u T HA HB Ho Lt Lu Ht Hu Hd.
  destruct (cdya_out_WO h same A B o t u T T _ _ _ (hrel_value _ _ _ _ _ HA Ht (or_intror Lt))
              (hrel_value _ _ _ _ _ HB Hu (or_intror Lu)) Ht Hu (field_hrel _ _ _ _ Ho) Hd) as [r [h' [E [X [-> H]]]]].
  exists h'. split; [exact E|]. split; [exact X|]. intros k Hk v w.
  exact (proj2 (value_hrel _ _ _ _ _ _ H) k Hk (v, w)).
Qed.
Print Assumptions C62_cdya.
(** cdya_ik(A, B, out=o) and cdya_il(A, B, out=o) return a new array; [o] is used for the
    intermediate result dya(A, B). *)
Definition returns_and_fills (h : heap) (m : M nd) (o : nd) (Q : nd -> heap -> Prop) : Prop :=
  exists r h', m h = (h', Ok r) /\ only (hnext h) o h h' /\ fresh h h' r /\ Q r h'.
Theorem C62_cdya_ik : forall h A B o t u T, field h A i6 t -> field h B i6 u -> field h o i66 T ->
  length t = length T -> length u = length T -> sub t T -> sub u T -> distinct o ->
  returns_and_fills h (nd_cdya_ik A B (Some o)) o (fun r h' => field h' r i3333 T /\ forall k, inb T k ->
    (forall i j l m, value3333 h' r k i j l m = cdya_ik (value6 h A k) (value6 h B k) i j l m) /\
    (forall v w, value66 h' o k v w = dya (value6 h A k) (value6 h B k) v w)).
Proof.
  intros h A B o t u T HA HB Ho Lt Lu Ht Hu Hd.
  destruct (cdya_ik_out_WO h A B o t u T T _ _ _ (hrel_value _ _ _ _ _ HA Ht (or_intror Lt))
              (hrel_value _ _ _ _ _ HB Hu (or_intror Lu)) Ht Hu (field_hrel _ _ _ _ Ho) Hd) as [r [h' [E [X [F [H1 H2]]]]]].
  exists r, h'. split; [exact E|]. split; [exact X|]. split; [exact F|].
  destruct (value_hrel _ _ _ _ _ _ H1) as [G1 G2]. split; [exact G1|]. intros k Hk. split.
  - intros i j l m. exact (G2 k Hk (i, j, l, m)).
  - intros v w. exact (proj2 (value_hrel _ _ _ _ _ _ H2) k Hk (v, w)).
Qed.
Print Assumptions C62_cdya_ik.
Theorem C62_cdya_il : forall h A B o t u T, field h A i6 t -> field h B i6 u -> field h o i66 T ->
  length t = length T -> length u = length T -> sub t T -> sub u T -> distinct o ->
  returns_and_fills h (nd_cdya_il A B (Some o)) o (fun r h' => field h' r i3333 T /\ forall k, inb T k ->
    (forall i j l m, value3333 h' r k i j l m = cdya_il (value6 h A k) (value6 h B k) i j l m) /\
    (forall v w, value66 h' o k v w = dya (value6 h A k) (value6 h B k) v w)).
Proof.
  intros h A B o t u T HA HB Ho Lt Lu Ht Hu Hd.
  destruct (cdya_il_out_WO h A B o t u T T _ _ _ (hrel_value _ _ _ _ _ HA Ht (or_intror Lt))
              (hrel_value _ _ _ _ _ HB Hu (or_intror Lu)) Ht Hu (field_hrel _ _ _ _ Ho) Hd) as [r [h' [E [X [F [H1 H2]]]]]].
  exists r, h'. split; [exact E|]. split; [exact X|]. split; [exact F|].
  destruct (value_hrel _ _ _ _ _ _ H1) as [G1 G2]. split; [exact G1|]. intros k Hk. split.
  - intros i j l m. exact (G2 k Hk (i, j, l, m)).
  - intros v w. exact (proj2 (value_hrel _ _ _ _ _ _ H2) k Hk (v, w)).
Qed.
Print Assumptions C62_cdya_il.

(** tril_from_triu(A, dim, out=o) and triu_from_tril(A, dim, out=o): only the copied triangle
    of [o] is written; the other entries of [o] keep what they held (they are not taken from
    A).  With out=A this completes A in place. *)
Theorem C62_tril_from_triu : forall h A o n T dim, square h A n T -> square h o n T -> distinct o -> (dim <= n)%nat ->
  fills h (nd_tril_from_triu A dim (Some o)) o (fun h' => forall k, inb T k -> forall p q, (p < n)%nat -> (q < n)%nat ->
    ((q < p < dim)%nat -> entry2 h' o k p q = entry2 h A k q p) /\
    (~ (q < p < dim)%nat -> entry2 h' o k p q = entry2 h o k p q)).
Proof.
  intros h A o n T dim [_ HA] [_ Ho] Hd Hn.
  destruct (copy_pairs_WO (hnext h) (triu_pairs dim) h A o T n n HA Ho Hd) as [r [h' [E [X [-> H]]]]].
  { intros i j Hi. apply in_triu in Hi. lia. }
  exists h'. split; [exact E|]. split; [exact X|]. intros k Hk p q Hp Hq.
  destruct (H k Hk p q Hp Hq) as [H1 H2]. rewrite in_triu in H1, H2. auto.
Qed.
Print Assumptions C62_tril_from_triu.
Theorem C62_triu_from_tril : forall h A o n T dim, square h A n T -> square h o n T -> distinct o -> (dim <= n)%nat ->
  fills h (nd_triu_from_tril A dim (Some o)) o (fun h' => forall k, inb T k -> forall p q, (p < n)%nat -> (q < n)%nat ->
    ((p < q < dim)%nat -> entry2 h' o k p q = entry2 h A k q p) /\
    (~ (p < q < dim)%nat -> entry2 h' o k p q = entry2 h o k p q)).
Proof.
  intros h A o n T dim [_ HA] [_ Ho] Hd Hn.
  destruct (copy_pairs_WO (hnext h) (tril_pairs dim) h A o T n n HA Ho Hd) as [r [h' [E [X [-> H]]]]].
  { intros i j Hi. apply in_tril in Hi. lia. }
  exists h'. split; [exact E|]. split; [exact X|]. intros k Hk p q Hp Hq.
  destruct (H k Hk p q Hp Hq) as [H1 H2]. rewrite in_tril in H1, H2. auto.
Qed.
Print Assumptions C62_triu_from_tril.

(** An array [o] into which the result does not broadcast: ValueError, and nothing that
    existed is changed. *)
Theorem C62_dya_shape : forall h A B o t u T w, field h A i6 t -> field h B i6 u -> joint t u T -> (loc o < hnext h)%nat ->
  nshp o = w -> (forall s, broadcast_shapes (6 :: 6 :: T)%nat w = Ok s -> s <> w) ->
  exists h', nd_dya A B (Some o) h = (h', Raise ValueError) /\ untouched h h'.
Proof.
  intros h A B o t u T w HA HB HJ Ho Hw Hn.
  destruct (joint_sub _ _ _ HJ) as [S1 [S2 [S3 [S4 S5]]]].
  destruct (v_dya_rel _ _ _ _ _ _ _ (proj2 (hrel_value _ _ _ _ _ HA S1 (or_intror S4)))
             (proj2 (hrel_value _ _ _ _ _ HB S2 (or_intror S5)))) as [z [Hz Hr]].
  exists h. split; [|apply ext_refl].
  unfold nd_dya, bind, load, lift. rewrite Hz. unfold assign, bind, lift, broadcast_to.
  destruct Hr as [Hr _]. rewrite Hr, S3, Hw. cbn [idim i66 app].
  destruct (broadcast_shapes (6 :: 6 :: T)%nat w) as [s|e] eqn:E; cbn [rbind].
  - destruct (list_eq_dec Nat.eq_dec s w) as [->|]; [now destruct (Hn w eq_refl)|reflexivity].
  - unfold broadcast_shapes in E. destruct (bcr _ _); [discriminate|]. now injection E as <-.
Qed.
Print Assumptions C62_dya_shape.
Theorem C62_cdya_ik_il_shape : forall h A B o t u T w, field h A i6 t -> field h B i6 u -> joint t u T -> (loc o < hnext h)%nat ->
  nshp o = w -> (forall s, broadcast_shapes (6 :: 6 :: T)%nat w = Ok s -> s <> w) ->
  (exists h', nd_cdya_ik A B (Some o) h = (h', Raise ValueError) /\ untouched h h') /\
  (exists h', nd_cdya_il A B (Some o) h = (h', Raise ValueError) /\ untouched h h').
Proof.
  intros h A B o t u T w HA HB HJ Ho Hw Hn.
  destruct (C62_dya_shape h A B o t u T w HA HB HJ Ho Hw Hn) as [h' [E X]].
  split; exists h'; unfold nd_cdya_ik, nd_cdya_il, bind; rewrite E; auto.
Qed.
Print Assumptions C62_cdya_ik_il_shape.
Theorem C62_inv_shape : forall h A o t w, field h A i6 t ->
  nshp o = w -> (forall s, broadcast_shapes (6 :: t)%nat w = Ok s -> s <> w) ->
  exists h', nd_inv A None (Some o) h = (h', Raise ValueError) /\ untouched h h'.
Proof.
  intros h A o t w HA <- Hn.
  exact (inv_out_WR h A o t _ (field_hrel _ _ _ _ HA) Hn).
Qed.
Print Assumptions C62_inv_shape.
(** E.g. a too short array: the inverses of five tensors do not fit into four places. *)
Example C62_inv_shape_example : forall s, broadcast_shapes [6; 5]%nat [6; 4]%nat = Ok s -> s <> [6; 4]%nat.
Proof. intros s H. vm_compute in H. discriminate. Qed.

(** Concrete cases: a batch of two Voigt vectors, an array to write to which is a transposed
    (Fortran-order) view, and in-place use. *)
Definition ex_h : heap := {| hnext := 2; hcell := fun l j => match j with v :: k :: nil => INR (l + v + k) | _ => 0 end |}.
Definition ex_A : nd := {| loc := 0; nshp := [6; 2]%nat; vw := fun k => k |}.
Definition ex_o : nd := {| loc := 1; nshp := [6; 2]%nat; vw := fun k => rev k |}.
Example C62_example : field ex_h ex_A i6 [2%nat] /\ field ex_h ex_o i6 [2%nat] /\ distinct ex_o /\ distinct ex_A.
Proof.
  split; [split; cbn; auto|]. split; [split; cbn; auto|]. split; intros k k' _ _ H; [|exact H].
  cbn in H. rewrite <- (rev_involutive k), H. apply rev_involutive.
Qed.
