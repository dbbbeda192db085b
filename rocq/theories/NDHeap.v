(** * Reasoning about programs on mutable arrays. *)
From Coq Require Import Reals List Arith Lia Lra.
From Verif Require Import Tensor Py NDCore NDRel NDOps.
Import ListNotations.
Local Open Scope R_scope.

(** [ext n h h']: buffers below [n] have the same contents in [h'] as in [h]. *)
Definition ext (n : nat) (h h' : heap) : Prop :=
  (hnext h <= hnext h')%nat /\ forall l, (l < n)%nat -> forall j, hcell h' l j = hcell h l j.
Lemma ext_refl n h : ext n h h.
Proof. split; auto. Qed.
Lemma ext_trans n h1 h2 h3 : ext n h1 h2 -> ext n h2 h3 -> ext n h1 h3.
Proof. intros [A1 A2] [B1 B2]. split; [lia|]. intros l Hl j. now rewrite B2, A2. Qed.
Lemma ext_le n m h h' : (n <= m)%nat -> ext m h h' -> ext n h h'.
Proof. intros H [A1 A2]. split; auto. intros l Hl j. apply A2. lia. Qed.

(** Contents of an existing array object, pointwise. *)
Definition hrel (h : heap) (a : nd) (I : ixt) (t T : shape) (f : index -> ity I -> R) : Prop :=
  (loc a < hnext h)%nat /\ rel I t T (contents h a) f.
Lemma hrel_frame h h' a I t T f : hrel h a I t T f ->
  (hnext h <= hnext h')%nat -> (forall j, hcell h' (loc a) j = hcell h (loc a) j) ->
  hrel h' a I t T f.
Proof.
  intros [H1 [H2 [H3 [H4 H5]]]] Hn Hc. split; [lia|]. repeat split; auto.
  intros k Hk i. rewrite <- (H5 k Hk i). cbn. apply Hc.
Qed.
Lemma hrel_ext h h' a I t T f : hrel h a I t T f -> ext (hnext h) h h' -> hrel h' a I t T f.
Proof. intros H [E1 E2]. eapply hrel_frame; eauto. intros j. apply E2. apply H. Qed.
Lemma hrel_fun h a I t T f g : hrel h a I t T f ->
  (forall k, inb T k -> forall i, f k i = g k i) -> hrel h a I t T g.
Proof. intros [H1 H2] H. split; auto. eapply rel_ext; eauto. Qed.

(** ** Total correctness: from heap [h] the program returns (does not raise), buffers
    below [n] are unchanged, and [Q] holds of the result and the new heap. *)
Definition W {A} (n : nat) (h : heap) (m : M A) (Q : A -> heap -> Prop) : Prop :=
  exists a h', m h = (h', Ok a) /\ ext n h h' /\ Q a h'.
Lemma W_bind {A B} n h (m : M A) (k : A -> M B) Q Q' :
  W n h m Q -> (forall a h', ext n h h' -> Q a h' -> W n h' (k a) Q') ->
  W n h (bind m k) Q'.
Proof.
  intros [a [h' [E [X HQ]]]] H. destruct (H a h' X HQ) as [b [h'' [E' [X' HQ']]]].
  exists b, h''. split; [|split; auto].
  - unfold bind. rewrite E. exact E'.
  - eapply ext_trans; eauto.
Qed.
Lemma W_ret {A} n h (a : A) (Q : A -> heap -> Prop) : Q a h -> W n h (ret a) Q.
Proof. intros H. exists a, h. repeat split; auto. Qed.
Lemma W_conseq {A} n m h (p : M A) (Q Q' : A -> heap -> Prop) : W m h p Q -> (n <= m)%nat ->
  (forall a h', ext m h h' -> Q a h' -> Q' a h') -> W n h p Q'.
Proof.
  intros [a [h' [E [X HQ]]]] Hn H. exists a, h'. split; [exact E|]. split; [|auto].
  eapply ext_le; eauto.
Qed.
Lemma W_load n h a (Q : arr -> heap -> Prop) : Q (contents h a) h -> W n h (load a) Q.
Proof. intros H. exists (contents h a), h. repeat split; auto. Qed.
Lemma W_lift {A} n h (r : Result A) a (Q : A -> heap -> Prop) : r = Ok a -> Q a h -> W n h (lift r) Q.
Proof. intros -> H. exists a, h. repeat split; auto. Qed.

(** What is known of a fresh array. *)
Definition fresh (h h' : heap) (a : nd) : Prop :=
  (hnext h <= loc a)%nat /\ (loc a < hnext h')%nat.
(** Result of a call: fresh, related, and everything that existed is unchanged. *)
Definition gives (h : heap) (I : ixt) (t T : shape) (f : index -> ity I -> R)
  (a : nd) (h' : heap) : Prop :=
  fresh h h' a /\ (forall k, vw a k = k) /\ hrel h' a I t T f /\ ext (hnext h) h h'.

Lemma W_alloc n h v I t T f : (n <= hnext h)%nat -> rel I t T v f ->
  W n h (alloc v) (gives h I t T f).
Proof.
  intros Hn H. unfold alloc. eexists _, _. split; [reflexivity|].
  assert (X : ext (hnext h) h
     {| hnext := S (hnext h);
        hcell := fun l => if Nat.eqb l (hnext h) then dat v else hcell h l |}).
  { split; cbn; [lia|]. intros l Hl j. destruct (Nat.eqb_spec l (hnext h)); [lia|reflexivity]. }
  split; [eapply ext_le; eauto|]. repeat split; cbn; auto; try lia; try apply X.
  - apply H. - apply H. - apply H.
  - intros k Hk i. rewrite Nat.eqb_refl. now apply H.
Qed.
(** Evaluate a pure expression and store it in a new array. *)
Lemma W_new n h (e : Result arr) I t T f : (n <= hnext h)%nat -> RR I t T e f ->
  W n h (bind (lift e) alloc) (gives h I t T f).
Proof. intros Hn [v [-> H]]. unfold bind, lift. now apply W_alloc. Qed.

(** ** Writing *)
Lemma find_index (P : index -> bool) s k : inb s k -> P k = true ->
  (forall k', inb s k' -> P k' = true -> k' = k) ->
  find P (indices s) = Some k.
Proof.
  intros Hk HP Hu. destruct (find P (indices s)) as [k'|] eqn:E.
  - apply find_some in E. destruct E as [E1 E2]. f_equal. apply Hu; auto. now apply in_indices.
  - exfalso. apply in_indices in Hk. pose proof (find_none _ _ E k Hk). congruence.
Qed.
Lemma write_cell_in a f c k : inb (nshp a) k ->
  (forall k', inb (nshp a) k' -> vw a k' = vw a k -> k' = k) ->
  write_cell a f c (vw a k) = f k.
Proof.
  intros Hk Hu. unfold write_cell. rewrite (find_index _ _ k); auto.
  - destruct (list_eq_dec Nat.eq_dec (vw a k) (vw a k)); congruence.
  - intros k' Hk' H. destruct (list_eq_dec Nat.eq_dec (vw a k') (vw a k)); [auto|discriminate].
Qed.
Lemma write_cell_out a f c j : (forall k, inb (nshp a) k -> vw a k <> j) ->
  write_cell a f c j = c j.
Proof.
  intros H. unfold write_cell.
  destruct (find _ (indices (nshp a))) as [k|] eqn:E; auto.
  apply find_some in E. destruct E as [E1 E2]. apply in_indices in E1.
  destruct (list_eq_dec Nat.eq_dec (vw a k) j); [|discriminate]. now destruct (H k E1).
Qed.

(** [wrote l h h']: only buffer [l] may differ. *)
Definition wrote (l : nat) (h h' : heap) : Prop :=
  hnext h' = hnext h /\ forall l', l' <> l -> forall j, hcell h' l' j = hcell h l' j.
Lemma wrote_ext n l h h' : (n <= l)%nat -> wrote l h h' -> ext n h h'.
Proof. intros Hn [H1 H2]. split; [lia|]. intros l' Hl j. apply H2. lia. Qed.
Lemma hrel_wrote l h h' a I t T f : hrel h a I t T f -> wrote l h h' -> loc a <> l ->
  hrel h' a I t T f.
Proof. intros H [H1 H2] Hl. eapply hrel_frame; [exact H|lia|]. intros j. now apply H2. Qed.
Lemma store_wrote a f h : wrote (loc a) h (fst (store a f h)).
Proof.
  split; cbn; auto. intros l' Hl j. destruct (Nat.eqb_spec l' (loc a)); congruence.
Qed.

(** Assignment to a whole (non-view) array. *)
Lemma W_assign n h a v I t u T f g : ixt_ok I -> (n <= loc a)%nat -> (forall k, vw a k = k) ->
  hrel h a I t T f -> rel I u T v g -> sub u t ->
  W n h (assign a v) (fun _ h' => wrote (loc a) h h' /\ hrel h' a I t T g).
Proof.
  intros HI Hn Hid [Ha0 Ha] Hv Hu. pose proof Ha as [A1 [A2 [A3 A4]]].
  cbn [contents shp] in A1.
  destruct (broadcast_to_rel I u t T v g HI Hv Hu A2 A3) as [w [Hw Hr]].
  unfold assign. rewrite A1, Hw. unfold bind, lift.
  eexists _, _. split; [reflexivity|].
  pose proof (store_wrote a (dat w) h) as Hst.
  split; [eapply wrote_ext; eauto|]. split; [exact Hst|].
  split; [cbn; exact Ha0|]. destruct Hr as [R1 [R2 [R3 R4]]].
  repeat split; auto. intros k Hk i. rewrite <- (R4 k Hk i). cbn [contents dat store fst].
  cbn [hcell]. rewrite Nat.eqb_refl. apply write_cell_in.
  - rewrite A1. apply inb_app.
    + now apply ix_len.
    + split; [now apply ix_inb|]. eapply inb_proj; eauto.
  - intros k' _. now rewrite !Hid.
Qed.

(** *** Symbolic execution *)
Lemma W_load_bind {B} n h a (k : arr -> M B) Q :
  W n h (k (contents h a)) Q -> W n h (bind (load a) k) Q.
Proof. intros H. exact H. Qed.
Lemma W_lift_bind {A B} n h (r : Result A) v (k : A -> M B) Q :
  r = Ok v -> W n h (k v) Q -> W n h (bind (lift r) k) Q.
Proof. intros -> H. exact H. Qed.
Lemma W_ret_bind {A B} n h (a : A) (k : A -> M B) Q :
  W n h (k a) Q -> W n h (bind (ret a) k) Q.
Proof. intros H. exact H. Qed.
(** A call that allocates its result. *)
Lemma W_call {B} n h (m : M nd) (k : nd -> M B) I t T f Q :
  W n h m (gives h I t T f) ->
  (forall a h', fresh h h' a -> (forall k, vw a k = k) -> hrel h' a I t T f ->
     ext (hnext h) h h' -> W n h' (k a) Q) ->
  W n h (bind m k) Q.
Proof.
  intros H1 H2. eapply W_bind; [exact H1|]. intros a h' _ [A1 [A2 [A3 A4]]]. now apply H2.
Qed.
Lemma gives_conv h I t t' T f g a h' : gives h I t T f a h' -> t = t' ->
  (forall k, inb T k -> forall i, f k i = g k i) -> gives h I t' T g a h'.
Proof.
  intros [A1 [A2 [A3 A4]]] <- E. repeat split; try apply A1; auto; try apply A4; try apply A3.
  destruct A3 as [_ A3]. intros k Hk i. rewrite <- E by assumption. now apply A3.
Qed.
Lemma W_conv n h (m : M nd) h0 I t t' T f g : W n h m (gives h0 I t T f) -> t = t' ->
  (forall k, inb T k -> forall i, f k i = g k i) -> W n h m (gives h0 I t' T g).
Proof.
  intros H E1 E2. eapply W_conseq; [exact H|auto|]. intros a h' _ G. eapply gives_conv; eauto.
Qed.
(** From [h0] to [h]: everything that existed in [h0] is unchanged. *)
Lemma gives_later h0 h I t T f a h' : ext (hnext h0) h0 h -> gives h I t T f a h' ->
  gives h0 I t T f a h'.
Proof.
  intros X [[A1 A1'] [A2 [A3 A4]]]. repeat split; auto; try apply A3.
  - destruct X. lia. - destruct A4, X; lia.
  - intros l Hl j. destruct A4 as [A4 A5]. rewrite A5 by (destruct X; lia). now apply X.
Qed.
