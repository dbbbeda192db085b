(** * Specification vocabulary for the array layer (C45-C47).

    An array of shape [idim I ++ t] holds one object (scalar, 3-vector, Voigt vector, 3x3
    tensor, ...) for every index of its trailing axes [t].  [value h a I k] is the object at
    the index [k] of trailing axes to which [t] broadcasts ([proj t k] replaces by 0 the
    entries of [k] along axes of length 1). *)
From Coq Require Import Reals List Arith Lia.
From Verif Require Import Tensor Py Voigt Frameworks Spaces Spec SpaceCore.
From Verif Require Import NDCore NDRel NDOps NDHeap NDVoigt NDMath NDSpaces NDSpaceProofs NDFrameworks.
Import ListNotations.
Local Open Scope R_scope.

(** [a] is an existing array of objects of kind [I] with trailing axes [t]. *)
Definition field (h : heap) (a : nd) (I : ixt) (t : shape) : Prop :=
  (loc a < hnext h)%nat /\ nshp a = idim I ++ t.
Definition value (h : heap) (a : nd) (I : ixt) (k : index) (i : ity I) : R :=
  dat (contents h a) (ienc I i ++ proj (skipn (length (idim I)) (nshp a)) k).
Definition value33 (h : heap) (a : nd) (k : index) : T2 := fun i j => value h a i33 k (i, j).
Definition value6 (h : heap) (a : nd) (k : index) : Vec6 := value h a i6 k.
Definition value66 (h : heap) (a : nd) (k : index) : Mat6 := fun i j => value h a i66 k (i, j).
Definition value3333 (h : heap) (a : nd) (k : index) : T4 :=
  fun i j l m => value h a i3333 k (i, j, l, m).
Definition value1 (h : heap) (a : nd) (k : index) : R := value h a iS k tt.

(** The call returns: a new array of objects of kind [I] with trailing axes [t], holding
    [f k] at every index [k] of [T]; and no array that existed before is changed. *)
Definition untouched (h h' : heap) : Prop := ext (hnext h) h h'.
Definition returns {A} (h : heap) (m : M A) (Q : A -> heap -> Prop) : Prop :=
  exists h' r, m h = (h', Ok r) /\ untouched h h' /\ Q r h'.
Definition new_field (h : heap) (I : ixt) (t T : shape) (f : index -> ity I -> R)
  (a : nd) (h' : heap) : Prop :=
  fresh h h' a /\ field h' a I t /\ forall k, inb T k -> forall i, value h' a I k i = f k i.
Definition raises {A} (h : heap) (m : M A) (e : exn) : Prop := exists h', m h = (h', Raise e).

(** *** Links to the relational proof layer *)
Lemma hrel_value h a I t T : field h a I t -> sub t T -> (idim I = [] \/ length t = length T) ->
  hrel h a I t T (value h a I).
Proof.
  intros [H1 H2] Hs Hl. split; [exact H1|]. split; [exact H2|]. split; [exact Hs|]. split; [exact Hl|].
  intros k Hk i. unfold value. rewrite H2, skipn_app, skipn_all, Nat.sub_diag. reflexivity.
Qed.
Lemma field_hrel h a I T : field h a I T -> hrel h a I T T (value h a I).
Proof. intros H. apply hrel_value; auto. apply sub_refl. Qed.
Lemma value_hrel h a I t T f : hrel h a I t T f ->
  field h a I t /\ forall k, inb T k -> forall i, value h a I k i = f k i.
Proof.
  intros [H1 [H2 [H3 [H4 H5]]]]. split; [split; [exact H1|exact H2]|].
  intros k Hk i. unfold value. cbn [contents shp] in H2. rewrite H2, skipn_app, skipn_all, Nat.sub_diag.
  apply H5, Hk.
Qed.
Lemma gives_new h I t T f a h' : gives h I t T f a h' -> new_field h I t T f a h'.
Proof. intros [H1 [_ [H2 _]]]. split; [exact H1|]. exact (value_hrel _ _ _ _ _ _ H2). Qed.
Lemma W_returns {A} h (m : M A) (Q Q' : A -> heap -> Prop) : W (hnext h) h m Q ->
  (forall a h', untouched h h' -> Q a h' -> Q' a h') -> returns h m Q'.
Proof. intros [a [h' [E [X H]]]] K. exists h', a. split; [exact E|]. split; [exact X|]. now apply K. Qed.
(** Broadcasting of trailing axes *)
Lemma bdim_cases a b c : bdim a b = Some c -> (a = c \/ a = 1%nat) /\ (b = c \/ b = 1%nat).
Proof.
  unfold bdim. destruct (Nat.eqb_spec a b); [intros [= <-]; auto|].
  destruct (Nat.eqb_spec a 1); [intros [= <-]; auto|].
  destruct (Nat.eqb_spec b 1); [intros [= <-]; auto|discriminate].
Qed.
Lemma bcr_subs : forall t u T, bcr t u = Some T -> subr t T /\ subr u T.
Proof.
  induction t as [|a t IH]; intros u T.
  - cbn. intros [= <-]. split; [exact I|apply subr_refl].
  - destruct u as [|b u]; cbn [bcr].
    + intros [= <-]. split; [apply subr_refl|exact I].
    + destruct (bdim a b) as [c|] eqn:Ec; [|discriminate].
      destruct (bcr t u) as [w|] eqn:Ew; [|discriminate].
      intros [= <-]. destruct (bdim_cases _ _ _ Ec) as [Ha Hb]. destruct (IH _ _ Ew) as [H1 H2].
      cbn [subr]. auto.
Qed.
Lemma bcr_len : forall t u T, bcr t u = Some T -> length T = Nat.max (length t) (length u).
Proof.
  induction t as [|a t IH]; intros u T.
  - cbn. now intros [= <-].
  - destruct u as [|b u]; cbn [bcr].
    + intros [= <-]. cbn [length]. lia.
    + destruct (bdim a b) as [c|]; [|discriminate]. destruct (bcr t u) as [w|] eqn:Ew; [|discriminate].
      intros [= <-]. cbn [length]. now rewrite (IH _ _ Ew).
Qed.
(** Two trailing shapes with the same number of axes that broadcast to [T]. *)
Definition joint (t u T : shape) : Prop := length t = length u /\ broadcast_shapes t u = Ok T.
Lemma joint_sub t u T : joint t u T ->
  sub t T /\ sub u T /\ bsh t u = T /\ length t = length T /\ length u = length T.
Proof.
  intros [Hl H]. unfold bsh. rewrite H. unfold broadcast_shapes in H.
  destruct (bcr (rev t) (rev u)) as [w|] eqn:Ew; [|discriminate]. injection H as <-.
  pose proof (bcr_len _ _ _ Ew) as L. rewrite !rev_length in L.
  destruct (bcr_subs _ _ _ Ew) as [H1 H2]. unfold sub. rewrite !rev_involutive, rev_length.
  repeat split; auto; lia.
Qed.
Lemma joint_refl t : joint t t t.
Proof. split; [reflexivity|apply broadcast_refl]. Qed.
