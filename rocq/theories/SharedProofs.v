(** Proofs for [Shared]: interleavings of method calls on shared objects. *)
From Coq Require Import Reals Lra List Arith Lia FunctionalExtensionality.
From Verif Require Import Tensor Py Voigt VoigtProofs Models Frameworks Spaces Spec HistProofs SpaceCore Shared.
From Verif Require Threads.
Import ListNotations.
Local Open Scope R_scope.

Lemma upd_same h a x : upd h a x a = Some x.
Proof. unfold upd. destruct (addr_dec a a); congruence. Qed.
Lemma upd_other h a x b : b <> a -> upd h a x b = h b.
Proof. intro H. unfold upd. destruct (addr_dec b a); congruence. Qed.

(** A program which only reads what it has written itself (its view [sg]) and only writes what
    [ok] permits; it ends after [n] steps with [r]. *)
Inductive tame {A} (ok : addr -> aval -> Prop) : heap -> prog A -> nat -> Result A -> Prop :=
| T_ret sg x : tame ok sg (Ret x) 0 (Ok x)
| T_exn sg e : tame ok sg (Exn e) 0 (Raise e)
| T_rd sg a k v n r : sg a = Some v -> tame ok sg (k v) n r -> tame ok sg (Rd a k) (S n) r
| T_wr sg a x k n r : ok a x -> tame ok (upd sg a x) k n r -> tame ok sg (Wr a x k) (S n) r.
Definition tm {A} (ok : addr -> aval -> Prop) (sg : heap) (p : prog A) (r : Result A) : Prop :=
  exists n, tame ok sg p n r.
Definition nothing : heap := fun _ => None.

Section Generic.
  Context {A : Type}.
  Lemma tame_step ok sg (p : prog A) n r h : tame ok sg p n r ->
    (forall a x, sg a = Some x -> ok a x /\ h a = Some x) ->
    exists sg', tame ok sg' (snd (step1 h p)) (n - 1) r /\
      (forall a x, sg' a = Some x -> ok a x /\ fst (step1 h p) a = Some x) /\
      (forall a, fst (step1 h p) a = h a \/ exists x, fst (step1 h p) a = Some x /\ ok a x).
  Proof.
    intros T V. destruct T as [sg x|sg e|sg a k v n r E T|sg a x k n r O T]; cbn.
    - exists sg. split; [constructor|]. split; auto.
    - exists sg. split; [constructor|]. split; auto.
    - destruct (V a v E) as [_ ->]. cbn. rewrite Nat.sub_0_r. exists sg. auto.
    - rewrite Nat.sub_0_r. exists (upd sg a x). split; [exact T|]. split.
      + intros b y. unfold upd. destruct (addr_dec b a) as [->|].
        * intro Q. injection Q as <-. auto.
        * intro Q. destruct (V b y Q). auto.
      + intro b. unfold upd. destruct (addr_dec b a) as [->|]; [right; eauto|left; reflexivity].
  Qed.

  Lemma exec_tame ok sg (p : prog A) n r h : tame ok sg p n r ->
    (forall a x, sg a = Some x -> h a = Some x) -> snd (exec p h) = r.
  Proof.
    intro T. revert h. induction T as [sg x|sg e|sg a k v n r E T IH|sg a x k n r O T IH]; intros h V; cbn.
    - reflexivity.
    - reflexivity.
    - rewrite (V _ _ E). apply IH, V.
    - apply IH. intros b y. unfold upd. destruct (addr_dec b a); [auto|apply V].
  Qed.

  Section Many.
    Context (ok : nat -> addr -> aval -> Prop) (r : nat -> Result A) (n : nat -> nat) (ps0 : list (prog A)).
    Context (Hcompat : forall i j a x y, i <> j -> (i < length ps0)%nat -> (j < length ps0)%nat ->
               ok i a x -> ok j a y -> x = y).
    Definition invariant (sched : list nat) (c : heap * list (prog A)) : Prop :=
      length (snd c) = length ps0 /\
      forall i p, nth_error (snd c) i = Some p -> exists sg,
        tame (ok i) sg p (n i - count_occ Nat.eq_dec sched i) (r i) /\
        forall a x, sg a = Some x -> ok i a x /\ fst c a = Some x.
    Lemma invariant_step sched c j : invariant sched c -> invariant (sched ++ [j]) (stepn j c).
    Proof.
      intros [L I]. unfold stepn. destruct (nth_error (snd c) j) as [p|] eqn:E.
      2:{ split; [exact L|]. intros i p Hp. destruct (I i p Hp) as [sg [T V]]. exists sg. split; [|exact V].
          rewrite count_occ_app. cbn. destruct (Nat.eq_dec j i); [congruence|]. rewrite Nat.add_0_r. exact T. }
      destruct (I j p E) as [sg [T V]].
      destruct (tame_step _ _ _ _ _ (fst c) T V) as [sg' [T' [V' W]]].
      destruct (step1 (fst c) p) as [h' p']. cbn [fst snd] in *.
      assert (Lj : (j < length (snd c))%nat) by (apply nth_error_Some; congruence).
      split. { cbn [snd]. rewrite Threads.set_nth_length. exact L. }
      cbn [fst snd]. intros i q Hq. destruct (Nat.eq_dec j i) as [<-|Ne].
      - rewrite Threads.nth_set_same in Hq by exact Lj. injection Hq as <-. exists sg'. split; [|exact V'].
        rewrite count_occ_app. cbn. destruct (Nat.eq_dec j j); [|congruence].
        rewrite Nat.sub_add_distr. exact T'.
      - rewrite Threads.nth_set_other in Hq by exact Ne. destruct (I i q Hq) as [sq [Tq Vq]]. exists sq. split.
        { rewrite count_occ_app. cbn. destruct (Nat.eq_dec j i); [congruence|]. rewrite Nat.add_0_r. exact Tq. }
        intros a x Hx. destruct (Vq a x Hx) as [Hok Hh]. split; [exact Hok|].
        destruct (W a) as [->|[y [-> Hy]]]; [exact Hh|]. f_equal. symmetry.
        assert ((i < length (snd c))%nat) by (apply nth_error_Some; congruence).
        apply (Hcompat i j a); auto; lia.
    Qed.
    Lemma invariant_run : (forall i p, nth_error ps0 i = Some p -> tame (ok i) nothing p (n i) (r i)) ->
      forall h sched, invariant sched (interleave sched (h, ps0)).
    Proof.
      intros H h sched. induction sched as [|j sched IH] using rev_ind.
      - split; [reflexivity|]. cbn. intros i p Hp. exists nothing. rewrite Nat.sub_0_r. split; [auto|discriminate].
      - unfold interleave in *. rewrite fold_left_app. cbn [fold_left]. apply invariant_step, IH.
    Qed.
    Lemma tame_threads : (forall i p, nth_error ps0 i = Some p -> tame (ok i) nothing p (n i) (r i)) ->
      forall h sched i, (i < length ps0)%nat ->
      (forall x, answer (interleave sched (h, ps0)) i = Some x -> x = r i) /\
      ((n i <= count_occ Nat.eq_dec sched i)%nat -> answer (interleave sched (h, ps0)) i = Some (r i)).
    Proof.
      intros H h sched i Li. destruct (invariant_run H h sched) as [L I].
      unfold answer. destruct (nth_error (snd (interleave sched (h, ps0))) i) as [p|] eqn:E.
      2:{ apply nth_error_None in E. lia. }
      destruct (I i p E) as [sg [T V]]. split.
      - intros x Hx. inversion T; subst; cbn in Hx; try discriminate; congruence.
      - intro Hn. replace (n i - count_occ Nat.eq_dec sched i)%nat with 0%nat in T by lia.
        inversion T; subst; reflexivity.
    Qed.
  End Many.

  Lemma choose_steps (ok : nat -> addr -> aval -> Prop) (r : nat -> Result A) : forall ps : list (prog A),
    (forall i p, nth_error ps i = Some p -> tm (ok i) nothing p (r i)) ->
    exists n, forall i p, nth_error ps i = Some p -> tame (ok i) nothing p (n i) (r i).
  Proof.
    intro ps. revert ok r. induction ps as [|p ps IH]; intros ok r H.
    - exists (fun _ => 0%nat). intros [|i] p; discriminate.
    - destruct (IH (fun i => ok (S i)) (fun i => r (S i))) as [n Hn].
      { intros i q Hq. apply (H (S i) q Hq). }
      destruct (H 0%nat p eq_refl) as [n0 T0].
      exists (fun i => match i with 0%nat => n0 | S i => n i end).
      intros [|i] q Hq; cbn in Hq; [injection Hq as <-; exact T0|exact (Hn i q Hq)].
  Qed.

  (** *** With a lock *)
  Section Lock.
    Context (r : nat -> Result A).
    Definition linvariant (c : lconf A) : Prop :=
      let '(h, taken, ts) := c in
      (forall i p, nth_error ts i = Some (Waits p) -> forall h, snd (exec p h) = r i) /\
      (forall i p, nth_error ts i = Some (Inside p) -> taken = true /\ snd (exec p h) = r i) /\
      (forall i x, nth_error ts i = Some (Done x) -> x = r i) /\
      (forall i j p q, nth_error ts i = Some (Inside p) -> nth_error ts j = Some (Inside q) -> i = j).
    Lemma exec_step h (p : prog A) : snd (exec (snd (step1 h p)) (fst (step1 h p))) = snd (exec p h).
    Proof. destruct p as [x|e|a k|a x k]; cbn; try reflexivity. destruct (h a); reflexivity. Qed.
    Lemma lstep_inv c i : linvariant c -> linvariant (lstep i c).
    Proof.
      destruct c as [[h taken] ts]. intros [HW [HI [HD HU]]]. unfold lstep.
      destruct (nth_error ts i) as [[p|p|x]|] eqn:E; [| |repeat split; firstorder|repeat split; firstorder].
      - destruct taken; [repeat split; firstorder|].
        assert (Li : (i < length ts)%nat) by (apply nth_error_Some; congruence).
        assert (No : forall j q, nth_error ts j <> Some (Inside q)).
        { intros j q Hj. destruct (HI j q Hj). discriminate. }
        unfold linvariant. repeat split; intros.
        + destruct (Nat.eq_dec i i0) as [<-|Ne]; [rewrite Threads.nth_set_same in H by exact Li; discriminate|].
          rewrite Threads.nth_set_other in H by exact Ne. eapply HW; eauto.
        + destruct (Nat.eq_dec i i0) as [<-|Ne].
          * rewrite Threads.nth_set_same in H by exact Li. injection H as <-. eapply HW; eauto.
          * rewrite Threads.nth_set_other in H by exact Ne. destruct (No _ _ H).
        + destruct (Nat.eq_dec i i0) as [<-|Ne]; [rewrite Threads.nth_set_same in H by exact Li; discriminate|].
          rewrite Threads.nth_set_other in H by exact Ne. eapply HD; eauto.
        + destruct (Nat.eq_dec i i0) as [<-|Ne]; destruct (Nat.eq_dec i j) as [<-|Ne']; try reflexivity.
          * rewrite Threads.nth_set_other in H0 by exact Ne'. destruct (No _ _ H0).
          * rewrite Threads.nth_set_other in H by exact Ne. destruct (No _ _ H).
          * rewrite Threads.nth_set_other in H by exact Ne. destruct (No _ _ H).
      - assert (Li : (i < length ts)%nat) by (apply nth_error_Some; congruence).
        destruct (HI i p E) as [Ht Hp].
        assert (No : forall j q, i <> j -> nth_error ts j <> Some (Inside q)).
        { intros j q Ne Hj. apply Ne. eapply HU; eauto. }
        destruct (result p) as [x|] eqn:Rp.
        + assert (Hx : x = r i).
          { destruct p; cbn in Rp; try discriminate; injection Rp as <-; exact Hp. }
          unfold linvariant. repeat split; intros.
          * destruct (Nat.eq_dec i i0) as [<-|Ne]; [rewrite Threads.nth_set_same in H by exact Li; discriminate|].
            rewrite Threads.nth_set_other in H by exact Ne. eapply HW; eauto.
          * destruct (Nat.eq_dec i i0) as [<-|Ne]; [rewrite Threads.nth_set_same in H by exact Li; discriminate|].
            rewrite Threads.nth_set_other in H by exact Ne. destruct (No _ _ Ne H).
          * destruct (Nat.eq_dec i i0) as [<-|Ne]; [rewrite Threads.nth_set_same in H by exact Li; discriminate|].
            rewrite Threads.nth_set_other in H by exact Ne. destruct (No _ _ Ne H).
          * destruct (Nat.eq_dec i i0) as [<-|Ne]; [rewrite Threads.nth_set_same in H by exact Li; congruence|].
            rewrite Threads.nth_set_other in H by exact Ne. eapply HD; eauto.
          * destruct (Nat.eq_dec i i0) as [<-|Ne]; [rewrite Threads.nth_set_same in H by exact Li; discriminate|].
            rewrite Threads.nth_set_other in H by exact Ne. destruct (No _ _ Ne H).
        + pose proof (exec_step h p) as Hs. destruct (step1 h p) as [h' p']. cbn [fst snd] in Hs.
          unfold linvariant. repeat split; intros; auto.
          * destruct (Nat.eq_dec i i0) as [<-|Ne]; [rewrite Threads.nth_set_same in H by exact Li; discriminate|].
            rewrite Threads.nth_set_other in H by exact Ne. eapply HW; eauto.
          * destruct (Nat.eq_dec i i0) as [<-|Ne].
            -- rewrite Threads.nth_set_same in H by exact Li. injection H as <-. congruence.
            -- rewrite Threads.nth_set_other in H by exact Ne. destruct (No _ _ Ne H).
          * destruct (Nat.eq_dec i i0) as [<-|Ne]; [rewrite Threads.nth_set_same in H by exact Li; discriminate|].
            rewrite Threads.nth_set_other in H by exact Ne. eapply HD; eauto.
          * destruct (Nat.eq_dec i i0) as [<-|Ne]; destruct (Nat.eq_dec i j) as [<-|Ne']; try reflexivity.
            -- rewrite Threads.nth_set_other in H0 by exact Ne'. destruct (No _ _ Ne' H0).
            -- rewrite Threads.nth_set_other in H by exact Ne. destruct (No _ _ Ne H).
            -- rewrite Threads.nth_set_other in H by exact Ne. destruct (No _ _ Ne H).
    Qed.
    Lemma lock_threads (ps : list (prog A)) :
      (forall i p, nth_error ps i = Some p -> forall h, snd (exec p h) = r i) ->
      forall h sched i x, lanswer (linterleave sched (h, false, map Waits ps)) i = Some x -> x = r i.
    Proof.
      intros H h sched i x.
      assert (I : linvariant (linterleave sched (h, false, map Waits ps))).
      { induction sched as [|j sched IH] using rev_ind.
        - assert (Q : forall i t, nth_error (map Waits ps) i = Some t -> exists p, t = Waits p /\ nth_error ps i = Some p).
          { intros k t Hk. rewrite nth_error_map in Hk. destruct (nth_error ps k) as [p|]; [|discriminate].
            injection Hk as <-. eauto. }
          unfold linterleave. cbn [fold_left]. unfold linvariant. repeat apply conj.
          + intros k p Hk. destruct (Q _ _ Hk) as [p' [E1 E2]]. injection E1 as <-. eauto.
          + intros k p Hk. destruct (Q _ _ Hk) as [p' [E1 E2]]. discriminate.
          + intros k y Hk. destruct (Q _ _ Hk) as [p' [E1 E2]]. discriminate.
          + intros k j p q Hk. destruct (Q _ _ Hk) as [p' [E1 E2]]. discriminate.
        - unfold linterleave in *. rewrite fold_left_app. cbn [fold_left]. apply lstep_inv, IH. }
      destruct (linterleave sched _) as [[h' t] ts]. unfold lanswer. cbn [snd].
      destruct (nth_error ts i) as [[p|p|y]|] eqn:E; try discriminate. intro Q. injection Q as <-.
      destruct I as [_ [_ [HD _]]]. eauto.
    Qed.
  End Lock.
End Generic.

(** *** The lock does not dead-lock *)
Section Progress.
  Context {A : Type}.
  Lemma set_set {X} : forall (l : list X) i x y, Threads.set_nth i x (Threads.set_nth i y l) = Threads.set_nth i x l.
  Proof. induction l as [|z l IH]; intros [|i] x y; cbn; try reflexivity. f_equal. apply IH. Qed.
  Lemma linterleave_app s t (c : lconf A) : linterleave (s ++ t) c = linterleave t (linterleave s c).
  Proof. apply fold_left_app. Qed.
  Lemma run_inside (p : prog A) : forall h tk ts i, nth_error ts i = Some (Inside p) ->
    exists n h' r, linterleave (repeat i n) (h, tk, ts) = (h', false, Threads.set_nth i (Done r) ts).
  Proof.
    induction p as [x|e|a k IH|a x k IH]; intros h tk ts i E.
    - exists 1%nat, h, (Ok x). cbn. rewrite E. reflexivity.
    - exists 1%nat, h, (Raise e). cbn. rewrite E. reflexivity.
    - assert (Li : (i < length ts)%nat) by (apply nth_error_Some; congruence).
      destruct (h a) as [v|] eqn:Ea.
      + destruct (IH v h tk (Threads.set_nth i (Inside (k v)) ts) i) as (n & h' & r & H).
        { apply Threads.nth_set_same, Li. }
        exists (S n), h', r. cbn. rewrite E. cbn. rewrite Ea. rewrite set_set in H. exact H.
      + exists 2%nat, h, (Raise AttributeError). cbn. rewrite E. cbn. rewrite Ea. cbn.
        rewrite Threads.nth_set_same by exact Li. cbn. rewrite set_set. reflexivity.
    - assert (Li : (i < length ts)%nat) by (apply nth_error_Some; congruence).
      destruct (IH (upd h a x) tk (Threads.set_nth i (Inside k) ts) i) as (n & h' & r & H).
      { apply Threads.nth_set_same, Li. }
      exists (S n), h', r. cbn. rewrite E. cbn. rewrite set_set in H. exact H.
  Qed.
  (** A state without a thread inside is reached. *)
  Definition quiet (c : lconf A) : Prop := snd (fst c) = false /\ forall i p, nth_error (snd c) i <> Some (Inside p).
  Definition sane (c : lconf A) : Prop :=
    (snd (fst c) = true -> exists i p, nth_error (snd c) i = Some (Inside p)) /\
    (forall i p, nth_error (snd c) i = Some (Inside p) -> snd (fst c) = true) /\
    (forall i j p q, nth_error (snd c) i = Some (Inside p) -> nth_error (snd c) j = Some (Inside q) -> i = j).
  Lemma sane_step c i : sane c -> sane (lstep i c).
  Proof.
    destruct c as [[h tk] ts]. intros [S1 [S2 S3]]. cbn [fst snd] in *. unfold lstep.
    destruct (nth_error ts i) as [[p|p|x]|] eqn:E.
    2: destruct (result p) as [x|] eqn:Rp.
    all: try (split; [exact S1|split; [exact S2|exact S3]]).
    - destruct tk; [split; [exact S1|split; [exact S2|exact S3]]|].
      assert (Li : (i < length ts)%nat) by (apply nth_error_Some; congruence).
      split; cbn [fst snd]; [intros _; exists i, p; apply Threads.nth_set_same, Li|]. split; [reflexivity|].
      intros a b pa pb Ha Hb.
      destruct (Nat.eq_dec i a) as [<-|Na]; destruct (Nat.eq_dec i b) as [<-|Nb]; try reflexivity;
      [rewrite Threads.nth_set_other in Hb by exact Nb; discriminate (S2 _ _ Hb)
      |rewrite Threads.nth_set_other in Ha by exact Na; discriminate (S2 _ _ Ha)
      |rewrite Threads.nth_set_other in Ha by exact Na; discriminate (S2 _ _ Ha)].
    - assert (Li : (i < length ts)%nat) by (apply nth_error_Some; congruence).
      assert (No : forall a pa, nth_error (Threads.set_nth i (Done x) ts) a <> Some (Inside pa)).
      { intros a pa Ha. destruct (Nat.eq_dec i a) as [<-|Na].
        - rewrite Threads.nth_set_same in Ha by exact Li. discriminate.
        - rewrite Threads.nth_set_other in Ha by exact Na. apply Na. eapply S3; eassumption. }
      split; cbn [fst snd]; [discriminate|]. split; [intros a pa Ha; destruct (No _ _ Ha)|intros a b pa pb Ha; destruct (No _ _ Ha)].
    - assert (Li : (i < length ts)%nat) by (apply nth_error_Some; congruence).
      destruct (step1 h p) as [h' p']. split; cbn [fst snd]; [intros _; exists i, p'; apply Threads.nth_set_same, Li|].
      split; [intros a pa _; eapply S2, E|].
      intros a b pa pb Ha Hb.
      destruct (Nat.eq_dec i a) as [<-|Na]; destruct (Nat.eq_dec i b) as [<-|Nb]; try reflexivity;
      [rewrite Threads.nth_set_other in Hb by exact Nb; destruct (Nb (S3 _ _ _ _ E Hb))
      |rewrite Threads.nth_set_other in Ha by exact Na; destruct (Na (S3 _ _ _ _ E Ha))
      |rewrite Threads.nth_set_other in Ha by exact Na; destruct (Na (S3 _ _ _ _ E Ha))].
  Qed.
  Lemma sane_run ps h sched : sane (linterleave sched (h, false, map Waits ps)).
  Proof.
    induction sched as [|j sched IH] using rev_ind.
    - assert (No : forall i (p : prog A), nth_error (map Waits ps) i <> Some (Inside p)).
      { intros i p. rewrite nth_error_map. destruct (nth_error ps i); discriminate. }
      split; cbn; [discriminate|]. split; [intros i p H; destruct (No _ _ H)|intros i j p q H; destruct (No _ _ H)].
    - rewrite linterleave_app. cbn. apply sane_step, IH.
  Qed.
  Lemma llength sched : forall c : lconf A, length (snd (linterleave sched c)) = length (snd c).
  Proof.
    induction sched as [|j sched IH]; intro c; [reflexivity|]. unfold linterleave in *. cbn. rewrite IH. clear IH.
    destruct c as [[h tk] ts]. unfold lstep. destruct (nth_error ts j) as [[p|p|x]|]; try reflexivity.
    - destruct tk; cbn; [reflexivity|apply Threads.set_nth_length].
    - destruct (result p); [apply Threads.set_nth_length|]. destruct (step1 h p). apply Threads.set_nth_length.
  Qed.
  Lemma become_quiet c : sane c -> exists s, quiet (linterleave s c).
  Proof.
    destruct c as [[h tk] ts]. intros [S1 [S2 S3]]. cbn [fst snd] in *. destruct tk.
    - destruct (S1 eq_refl) as (i & p & E). destruct (run_inside p h true ts i E) as (n & h' & r & H).
      exists (repeat i n). rewrite H. split; [reflexivity|]. cbn. intros a pa Ha.
      assert (Li : (i < length ts)%nat) by (apply nth_error_Some; congruence).
      destruct (Nat.eq_dec i a) as [<-|Na].
      + rewrite Threads.nth_set_same in Ha by exact Li. discriminate.
      + rewrite Threads.nth_set_other in Ha by exact Na. apply Na. eapply S3; eassumption.
    - exists []. split; [reflexivity|]. intros i p E. discriminate (S2 _ _ E).
  Qed.
  Lemma finish_upto k : forall c : lconf A, quiet c -> exists s, quiet (linterleave s c) /\
    forall i, (i < k)%nat -> (i < length (snd c))%nat -> exists r, nth_error (snd (linterleave s c)) i = Some (Done r).
  Proof.
    induction k as [|k IH]; intros c Q; [exists []; split; [exact Q|intros i Hi; lia]|].
    destruct (IH c Q) as (s & Qs & Ds). clear Q.
    assert (L := llength s c). destruct (linterleave s c) as [[h tk] ts] eqn:Ec. destruct Qs as [Q1 Q2]. cbn [fst snd] in *. subst tk.
    destruct (nth_error ts k) as [[p|p|x]|] eqn:E.
    - assert (Lk : (k < length ts)%nat) by (apply nth_error_Some; congruence).
      destruct (run_inside p h true (Threads.set_nth k (Inside p) ts) k) as (n & h' & r & H).
      { apply Threads.nth_set_same, Lk. }
      exists (s ++ k :: repeat k n). rewrite linterleave_app, Ec.
      replace (linterleave (k :: repeat k n) (h, false, ts)) with (h', false, Threads.set_nth k (Done r) ts).
      2:{ change (linterleave (k :: repeat k n) (h, false, ts)) with (linterleave (repeat k n) (lstep k (h, false, ts))).
          unfold lstep. rewrite E. rewrite H, set_set. reflexivity. }
      split; [split; [reflexivity|]|]; cbn [fst snd].
      + intros a pa Ha. destruct (Nat.eq_dec k a) as [<-|Na].
        * rewrite Threads.nth_set_same in Ha by exact Lk. discriminate.
        * rewrite Threads.nth_set_other in Ha by exact Na. destruct (Q2 _ _ Ha).
      + intros a Ha La. destruct (Nat.eq_dec k a) as [<-|Na].
        * exists r. apply Threads.nth_set_same, Lk.
        * rewrite Threads.nth_set_other by exact Na. apply Ds; lia.
    - destruct (Q2 _ _ E).
    - exists s. rewrite Ec. split; [split; [reflexivity|exact Q2]|]. intros a Ha La. cbn [snd].
      destruct (Nat.eq_dec a k) as [->|Na]; [exists x; exact E|apply Ds; lia].
    - exists s. rewrite Ec. split; [split; [reflexivity|exact Q2]|]. intros a Ha La. cbn [snd].
      destruct (Nat.eq_dec a k) as [->|Na]; [apply nth_error_None in E; lia|apply Ds; lia].
  Qed.
  Lemma lock_progress (ps : list (prog A)) h sched : exists more, forall i, (i < length ps)%nat ->
    exists r, lanswer (linterleave (sched ++ more) (h, false, map Waits ps)) i = Some r.
  Proof.
    destruct (become_quiet _ (sane_run ps h sched)) as [s1 Q1].
    destruct (finish_upto (length ps) _ Q1) as (s2 & _ & D).
    exists (s1 ++ s2). intros i Hi. rewrite !linterleave_app. destruct (D i Hi) as [r Hr].
    - rewrite !llength. cbn. rewrite map_length. exact Hi.
    - exists r. unfold lanswer. rewrite Hr. reflexivity.
  Qed.
End Progress.
