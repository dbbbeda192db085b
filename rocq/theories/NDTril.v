(** * tril_from_triu / triu_from_tril on arrays (proofs). *)
From Coq Require Import Reals List Arith Lia.
From Verif Require Import Tensor Py Voigt.
From Verif Require Import NDCore NDRel NDOps NDHeap NDVoigt NDSpec.
Import ListNotations.
Local Open Scope R_scope.

Definition pair_dec (x y : nat * nat) : {x = y} + {x <> y}.
Proof. decide equality; apply Nat.eq_dec. Defined.

Section C.
  Context (T : shape) (d1 d2 : nat) (a : arr) (Ha : shp a = d1 :: d2 :: T).
  Lemma rows2 i j : (i < d1)%nat -> (j < d2)%nat ->
    rows [i; j] a = Ok {| shp := T; dat := fun k => dat a (i :: j :: k) |}.
  Proof.
    intros Hi Hj. cbn [rows]. unfold row at 1. rewrite Ha.
    destruct (Nat.ltb_spec i d1); [|lia]. cbn [rbind]. unfold row. cbn [shp].
    destruct (Nat.ltb_spec j d2); [|lia]. reflexivity.
  Qed.
  Definition wr (p : nat * nat) (f : nat -> nat -> index -> R) : nat -> nat -> index -> R :=
    fun r c k => if (Nat.eqb r (snd p) && Nat.eqb c (fst p))%bool then dat a (fst p :: snd p :: k) else f r c k.
  (** [out] is a fresh array holding [f] *)
  Definition holds (h : heap) (o : nd) (f : nat -> nat -> index -> R) : Prop :=
    nshp o = d1 :: d2 :: T /\ (forall k, vw o k = k) /\
    forall r c k, (r < d1)%nat -> (c < d2)%nat -> inb T k -> hcell h (loc o) (r :: c :: k) = f r c k.

  Lemma set2_W n h o f i j : (n <= loc o)%nat -> (i < d2)%nat -> (j < d1)%nat -> (i < d1)%nat -> (j < d2)%nat -> holds h o f ->
    W n h (setrow o [j; i] {| shp := T; dat := fun k => dat a (i :: j :: k) |})
      (fun _ h' => hnext h' = hnext h /\ holds h' o (wr (i, j) f)).
  Proof.
    intros Hn Hi Hj Hi' Hj' [H1 [H2 H3]]. unfold setrow, in_prefix. rewrite H1. cbn [length Nat.leb combine forallb].
    destruct (Nat.ltb_spec j d1); [|lia]. destruct (Nat.ltb_spec i d2); [|lia]. cbn [andb].
    unfold assign.
    set (v := {| shp := T; dat := fun k => dat a (i :: j :: k) |}).
    assert (B : broadcast_to v (nshp (subview o [j; i])) = Ok {| shp := T; dat := read v |}).
    { unfold subview, broadcast_to. cbn [nshp length]. rewrite H1. cbn [skipn v shp]. rewrite broadcast_refl. cbn [rbind].
      destruct (list_eq_dec Nat.eq_dec T T); [reflexivity|congruence]. }
    rewrite B. unfold bind, lift. eexists _, _. split; [reflexivity|].
    split; [eapply wrote_ext; [exact Hn|apply (store_wrote (subview o [j; i]))]|]. split; [reflexivity|].
    split; [exact H1|]. split; [exact H2|]. intros r c k Hr Hc Hk. cbn [store fst hcell subview loc].
    rewrite Nat.eqb_refl. unfold wr. cbn [fst snd].
    destruct (Nat.eqb_spec r j) as [->|Nr]; [destruct (Nat.eqb_spec c i) as [->|Nc]|]; cbn [andb].
    - change (j :: i :: k) with ([j; i] ++ k). rewrite <- (H2 ([j; i] ++ k)).
      change (vw o ([j; i] ++ k)) with (vw (subview o [j; i]) k).
      rewrite write_cell_in.
      + unfold read. cbn [v shp dat]. now rewrite proj_self.
      + cbn [subview nshp length]. rewrite H1. exact Hk.
      + cbn [subview vw]. intros k' _. rewrite !H2. intros E. now injection E.
    - rewrite write_cell_out; [now apply H3|]. intros k' _. cbn [subview vw]. rewrite H2. cbn. congruence.
    - rewrite write_cell_out; [now apply H3|]. intros k' _. cbn [subview vw]. rewrite H2. cbn. congruence.
  Qed.
  Lemma collect_ok (l : list (nat * nat)) : (forall i j, In (i, j) l -> (i < d1)%nat /\ (j < d2)%nat) ->
    collect (fun '(i, j) => rows [i; j] a) l =
    Ok (map (fun '(i, j) => {| shp := T; dat := fun k => dat a (i :: j :: k) |}) l).
  Proof.
    induction l as [|[i j] l IH]; intros H; [reflexivity|]. cbn [collect].
    destruct (H i j (or_introl eq_refl)) as [A B]. rewrite (rows2 i j A B). cbn [rbind].
    rewrite IH by (intros; apply H; now right). reflexivity.
  Qed.
  Lemma each_W n o (l : list (nat * nat)) :
    (forall i j, In (i, j) l -> (i < d1)%nat /\ (j < d2)%nat /\ (i < d2)%nat /\ (j < d1)%nat) ->
    (n <= loc o)%nat -> forall h f, holds h o f ->
    W n h (each (combine l (map (fun '(i, j) => {| shp := T; dat := fun k => dat a (i :: j :: k) |}) l))
            (fun '((i, j), v) => setrow o [j; i] v))
      (fun _ h' => hnext h' = hnext h /\ holds h' o (fold_left (fun f p => wr p f) l f)).
  Proof.
    intros H Hn. induction l as [|[i j] l IH]; intros h f Hf; cbn [combine map each fold_left].
    - apply W_ret. auto.
    - destruct (H i j (or_introl eq_refl)) as [A1 [A2 [A3 A4]]].
      eapply W_bind; [apply (set2_W n h o f i j Hn A3 A4 A1 A2 Hf)|].
      intros _ h1 _ [E1 H1']. eapply W_conseq; [apply IH; [intros; apply H; now right|exact H1']|apply le_n|].
      intros _ h2 _ [E2 H2]. split; [congruence|exact H2].
  Qed.
  Lemma wr_out l r c k : ~ In (c, r) l -> forall f, fold_left (fun f p => wr p f) l f r c k = f r c k.
  Proof.
    induction l as [|[i j] l IH]; intros H f; [reflexivity|]. cbn [fold_left]. rewrite IH by (intro; apply H; now right).
    unfold wr. cbn [fst snd]. destruct (Nat.eqb_spec r j), (Nat.eqb_spec c i); cbn [andb]; auto.
    subst. exfalso. apply H. now left.
  Qed.
  Lemma wr_in l r c k : In (c, r) l -> forall f, fold_left (fun f p => wr p f) l f r c k = dat a (c :: r :: k).
  Proof.
    induction l as [|[i j] l IH]; intros H f; [destruct H|]. cbn [fold_left].
    destruct (in_dec pair_dec (c, r) l) as [Hi|Hi]; [now apply IH|].
    rewrite wr_out by exact Hi. destruct H as [H|H]; [|tauto]. injection H as -> ->.
    unfold wr. cbn [fst snd]. now rewrite !Nat.eqb_refl.
  Qed.
End C.

Lemma in_triu dim i j : In (i, j) (triu_pairs dim) <-> (i < j < dim)%nat.
Proof.
  unfold triu_pairs. rewrite in_flat_map. split.
  - intros [x [H1 H2]]. apply in_map_iff in H2. destruct H2 as [y [E H2]]. injection E as -> ->.
    apply in_seq in H1. apply in_seq in H2. lia.
  - intros H. exists i. split; [apply in_seq; lia|]. apply in_map_iff. exists j. split; [reflexivity|]. apply in_seq. lia.
Qed.
Lemma in_tril dim i j : In (i, j) (tril_pairs dim) <-> (j < i < dim)%nat.
Proof.
  unfold tril_pairs. rewrite in_flat_map. split.
  - intros [x [H1 H2]]. apply in_map_iff in H2. destruct H2 as [y [E H2]]. injection E as -> ->.
    apply in_seq in H1. apply in_seq in H2. lia.
  - intros H. exists i. split; [apply in_seq; lia|]. apply in_map_iff. exists j. split; [reflexivity|]. apply in_seq. lia.
Qed.

(** Entry (r, c) at trailing index [k]. *)
Definition entry2 (h : heap) (a : nd) (k : index) (r c : nat) : R := dat (contents h a) (r :: c :: k).

Lemma copy_pairs_W pairs h A T d1 d2 : (loc A < hnext h)%nat -> nshp A = d1 :: d2 :: T ->
  (forall i j, In (i, j) pairs -> (i < d1)%nat /\ (j < d2)%nat /\ (i < d2)%nat /\ (j < d1)%nat) ->
  returns h (copy_pairs pairs A None) (fun r h' =>
    fresh h h' r /\ nshp r = nshp A /\
    forall k, inb T k -> forall p q, (p < d1)%nat -> (q < d2)%nat ->
      (In (q, p) pairs -> entry2 h' r k p q = entry2 h A k q p) /\
      (~ In (q, p) pairs -> entry2 h' r k p q = entry2 h A k p q)).
Proof.
  intros HA SA Hp.
  eapply W_returns with (Q := fun r h' => fresh h h' r /\ nshp r = nshp A /\
    holds T d1 d2 h' r (fold_left (fun f p => wr (contents h A) p f) pairs (fun p q k => dat (contents h A) (p :: q :: k)))).
  2:{ intros r h' _ [H1 [H2 [_ [H3 H4]]]]. split; [exact H1|]. split; [exact H2|].
      intros k Hk p q Hp' Hq'. unfold entry2 at 1 3. cbn [contents dat]. rewrite H3, (H4 p q k Hp' Hq' Hk).
      split; intros Hi; [now rewrite wr_in|now rewrite wr_out]. }
  unfold copy_pairs.
  set (a := contents h A). assert (Sa : shp a = d1 :: d2 :: T) by exact SA.
  eapply W_bind with (Q := fun o h1 => fresh h h1 o /\ nshp o = nshp A /\ contents h1 A = a /\
    holds T d1 d2 h1 o (fun p q k => dat a (p :: q :: k))).
  { apply W_load_bind. fold a. unfold alloc. eexists _, _. split; [reflexivity|].
    assert (C : forall l, l <> hnext h -> (if Nat.eqb l (hnext h) then dat a else hcell h l) = hcell h l).
    { intros l Hl. now destruct (Nat.eqb_spec l (hnext h)). }
    split; [|split; [|split; [|split; [|split; [|split]]]]]; cbn [hnext hcell loc nshp vw fresh]; auto.
    - split; cbn [hnext]; [lia|]. intros l Hl j. cbn [hcell]. rewrite C; [reflexivity|lia].
    - split; cbn [loc hnext]; lia.
    - unfold contents at 1. cbn [hcell]. rewrite C by lia. reflexivity.
    - intros. now rewrite Nat.eqb_refl. }
  intros o h1 _ [[F1 F2] [So [Ca Ho]]]. apply W_load_bind. rewrite Ca.
  eapply W_lift_bind; [apply (collect_ok T d1 d2 a Sa); intros i j Hi; destruct (Hp i j Hi); tauto|].
  eapply W_bind; [apply (each_W T d1 d2 a (hnext h) o pairs Hp F1 h1 _ Ho)|].
  cbv beta. intros _ h2 _ [E2 H2]. apply W_ret. split; [split; lia|]. auto.
Qed.
