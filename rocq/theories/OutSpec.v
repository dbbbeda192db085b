(** * Specification vocabulary for functions called with [out=] (C62). *)
From Coq Require Import Reals List Arith.
From Verif Require Import Tensor Py NDCore NDRel.
Import ListNotations.

(** [(l, j)] is a memory cell of the array [o]. *)
Definition cell_of (o : nd) (l : nat) (j : index) : Prop :=
  l = loc o /\ exists k, inb (nshp o) k /\ vw o k = j.
(** Different entries of [o] are different cells (true of every numpy array that is not a
    broadcast view). *)
Definition distinct (o : nd) : Prop := forall k k', inb (nshp o) k -> inb (nshp o) k' ->
  vw o k = vw o k' -> k = k'.
(** Of the buffers below [n] only cells of [o] may have changed. *)
Definition only (n : nat) (o : nd) (h h' : heap) : Prop :=
  (hnext h <= hnext h')%nat /\
  forall l j, (l < n)%nat -> ~ cell_of o l j -> hcell h' l j = hcell h l j.
(** The arrays have no cell in common. *)
Definition apart (a o : nd) : Prop := loc a <> loc o \/
  forall k k', inb (nshp a) k -> inb (nshp o) k' -> vw a k <> vw o k'.
(** The call returns the array object [o] that it was given, has changed no memory that
    existed before except cells of [o], and [Q] holds of the memory afterwards. *)
Definition fills (h : heap) (m : M nd) (o : nd) (Q : heap -> Prop) : Prop :=
  exists h', m h = (h', Ok o) /\ only (hnext h) o h h' /\ Q h'.
