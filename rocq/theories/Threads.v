(** * Threads that share memory: interleavings of atomic reads and writes.

    Used for [parallel=True] (src/hyperelastic/spaces/_space.py:38-42), which replaces
    [np.einsum] by [einsumt], a threaded einsum.  A task first copies the cells it needs
    into private memory, then writes cells of the shared memory.  Every read and every write
    of one cell is an atomic step, and a schedule is any list of thread numbers. *)
From Coq Require Import Reals List Arith Lia Permutation.
From Verif Require Import NDCore.
Import ListNotations.
Local Open Scope R_scope.

(** A cell: buffer and position in the buffer. *)
Definition addr : Type := nat * index.
Definition addr_eq_dec : forall a b : addr, {a = b} + {a <> b}.
Proof. decide equality; [apply (list_eq_dec Nat.eq_dec)|apply Nat.eq_dec]. Defined.
Definition mem := addr -> R.
Definition setm (m : mem) (a : addr) (r : R) : mem :=
  fun x => if addr_eq_dec x a then r else m x.

(** Cells still to be copied; then cells still to be written, with their values as functions
    of the private copy. *)
Record task := { rd : list addr; wr : list (addr * (mem -> R)) }.
(** A thread: its private copy and the rest of its task. *)
Definition thread : Type := mem * task.

Definition step1 (m : mem) (th : thread) : mem * thread :=
  let (l, t) := th in
  match rd t with
  | a :: r => (m, (setm l a (m a), {| rd := r; wr := wr t |}))
  | [] => match wr t with
          | (a, f) :: w => (setm m a (f l), (l, {| rd := []; wr := w |}))
          | [] => (m, th)
          end
  end.
Fixpoint set_nth {A} (i : nat) (x : A) (l : list A) : list A :=
  match l, i with
  | [], _ => []
  | _ :: l, 0%nat => x :: l
  | y :: l, S i => y :: set_nth i x l
  end.
(** Thread number [i] makes one step (nothing happens if there is no such thread). *)
Definition step (i : nat) (c : mem * list thread) : mem * list thread :=
  match nth_error (snd c) i with
  | Some th => let (m, th) := step1 (fst c) th in (m, set_nth i th (snd c))
  | None => c
  end.
Definition run (sched : list nat) (c : mem * list thread) : mem * list thread :=
  fold_left (fun c i => step i c) sched c.
(** All threads are started with an empty private memory. *)
Definition start (m : mem) (ts : list task) : mem * list thread :=
  (m, map (fun t => (fun _ => 0, t)) ts).
Definition finished (c : mem * list thread) : Prop :=
  forall th, In th (snd c) -> rd (snd th) = [] /\ wr (snd th) = [].

(** ** What can be expected *)
(** The values a task writes depend only on the cells it reads. *)
Definition reads_enough (t : task) : Prop :=
  forall a f, In (a, f) (wr t) -> forall l l', (forall x, In x (rd t) -> l x = l' x) -> f l = f l'.
(** No cell is written twice. *)
Definition written (ts : list task) : list addr := flat_map (fun t => map fst (wr t)) ts.
(** No task reads a cell which another task writes. *)
Definition race_free (ts : list task) : Prop :=
  forall i j ti tj, i <> j -> nth_error ts i = Some ti -> nth_error ts j = Some tj ->
  forall a, In a (rd ti) -> ~ In a (map fst (wr tj)).
(** All tasks have copied what they need before the first write (results are gathered). *)
Definition barrier (m : mem) (ts : list task) (sched : list nat) : Prop :=
  exists s1 s2, sched = s1 ++ s2 /\
    forall i ti, nth_error ts i = Some ti ->
      exists l, nth_error (snd (run s1 (start m ts))) i = Some (l, {| rd := []; wr := wr ti |}).

(** ** Proofs *)
Lemma nth_set_same {A} : forall l i (x : A), (i < length l)%nat -> nth_error (set_nth i x l) i = Some x.
Proof. induction l as [|y l IH]; intros [|i] x H; cbn in *; try lia; auto. apply IH. lia. Qed.
Lemma nth_set_other {A} : forall l i j (x : A), i <> j -> nth_error (set_nth i x l) j = nth_error l j.
Proof.
  induction l as [|y l IH]; intros [|i] [|j] x H; cbn; try reflexivity; try congruence.
  apply IH. congruence.
Qed.
Lemma set_nth_length {A} : forall l i (x : A), length (set_nth i x l) = length l.
Proof. induction l as [|y l IH]; intros [|i] x; cbn; auto. Qed.
Lemma setm_same m a r : setm m a r a = r.
Proof. unfold setm. destruct (addr_eq_dec a a); congruence. Qed.
Lemma setm_other m a r x : x <> a -> setm m a r x = m x.
Proof. unfold setm. destruct (addr_eq_dec x a); congruence. Qed.

(** Progress of one thread: what is done and what is left. *)
Definition progress (m0 : mem) (t0 : task) (th : thread) (dr : list addr)
    (dw : list (addr * (mem -> R))) : Prop :=
  rd t0 = dr ++ rd (snd th) /\ wr t0 = dw ++ wr (snd th) /\
  (dw <> [] -> rd (snd th) = []) /\ (forall x, In x dr -> fst th x = m0 x).

Lemma in_written ts i t a : nth_error ts i = Some t -> In a (map fst (wr t)) -> In a (written ts).
Proof. intros H K. apply in_flat_map. exists t. split; [eapply nth_error_In; eauto|exact K]. Qed.
Lemma NoDup_flat_other {A B} (f : A -> list B) : forall l i j x y a, NoDup (flat_map f l) ->
  nth_error l i = Some x -> nth_error l j = Some y -> In a (f x) -> In a (f y) -> i = j.
Proof.
  induction l as [|z l IH]; intros [|i] [|j] x y a ND Hi Hj Ha Hb; cbn in *; try discriminate; auto.
  - exfalso. injection Hi as ->. apply nth_error_In in Hj.
    assert (In a (flat_map f l)) by (apply in_flat_map; eauto).
    clear -ND Ha H. induction (f x) as [|b bs IHb]; [easy|].
    cbn in ND. inversion ND as [|? ? N1 N2]; subst. destruct Ha as [->|Ha]; [|auto].
    apply N1, in_or_app. auto.
  - exfalso. injection Hj as ->. apply nth_error_In in Hi.
    assert (In a (flat_map f l)) by (apply in_flat_map; eauto).
    clear -ND Hb H. induction (f y) as [|b bs IHb]; [easy|].
    cbn in ND. inversion ND as [|? ? N1 N2]; subst. destruct Hb as [->|Hb]; [|auto].
    apply N1, in_or_app. auto.
  - f_equal. eapply IH; eauto. clear -ND. induction (f z) as [|b bs IHb]; [exact ND|].
    cbn in ND. inversion ND; auto.
Qed.
Lemma NoDup_flat_one {A B} (f : A -> list B) : forall l i x, NoDup (flat_map f l) ->
  nth_error l i = Some x -> NoDup (f x).
Proof.
  induction l as [|z l IH]; intros [|i] x ND Hi; cbn in *; try discriminate.
  - injection Hi as ->. clear -ND. induction (f x) as [|b bs IHb]; [constructor|].
    cbn in ND. inversion ND as [|? ? N1 N2]; subst. constructor; auto.
    intros K. apply N1, in_or_app. auto.
  - eapply IH; eauto. clear -ND. induction (f z) as [|b bs IHb]; [exact ND|].
    cbn in ND. inversion ND; auto.
Qed.

(** The invariant of a run. *)
Record inv (m0 : mem) (ts : list task) (c : mem * list thread) : Prop := {
  inv_len : length (snd c) = length ts;
  inv_thr : forall i t0 th, nth_error ts i = Some t0 -> nth_error (snd c) i = Some th ->
    exists dr dw, progress m0 t0 th dr dw /\
      (forall a f, In (a, f) dw -> fst c a = f m0) /\
      (forall a, In a (map fst (wr (snd th))) -> fst c a = m0 a);
  inv_rest : forall a, ~ In a (written ts) -> fst c a = m0 a
}.

Lemma inv_start m ts : inv m ts (start m ts).
Proof.
  constructor.
  - cbn. now rewrite map_length.
  - intros i t0 th H1 H2. cbn in H2. rewrite nth_error_map, H1 in H2. cbn in H2. injection H2 as <-.
    exists [], []. split; [|split].
    + repeat split; cbn; try easy.
    + easy.
    + reflexivity.
  - reflexivity.
Qed.

(** The reads a thread still has to do see the initial memory. *)
Definition safe_read (m0 : mem) (c : mem * list thread) : Prop :=
  forall i th, nth_error (snd c) i = Some th -> forall a r, rd (snd th) = a :: r -> fst c a = m0 a.

Lemma inv_step m0 ts c i : NoDup (written ts) -> List.Forall reads_enough ts ->
  inv m0 ts c -> safe_read m0 c -> inv m0 ts (step i c).
Proof.
  intros ND RE [L T Rst] SR. unfold step.
  destruct (nth_error (snd c) i) as [th|] eqn:Ei; [|constructor; auto].
  assert (Hi : (i < length ts)%nat) by (rewrite <- L; apply nth_error_Some; congruence).
  destruct (nth_error ts i) as [t0|] eqn:Et; [|apply nth_error_None in Et; lia].
  destruct (T i t0 th Et Ei) as [dr [dw [[P1 [P2 [P3 P4]]] [P5 P6]]]].
  destruct th as [l t]. cbn [fst snd] in *. unfold step1.
  destruct (rd t) as [|a r] eqn:Er.
  - destruct (wr t) as [|[a f] w] eqn:Ew.
    + constructor; cbn [fst snd].
      * now rewrite set_nth_length.
      * intros j tj th Hj Hth. destruct (Nat.eq_dec i j) as [<-|Nij].
        { rewrite nth_set_same in Hth by lia. injection Hth as <-. rewrite Et in Hj. injection Hj as <-.
          exists dr, dw. split; [|split]; auto.
          - unfold progress. cbn [fst snd]. rewrite Er, Ew. repeat split; auto.
          - cbn [snd]. rewrite Ew. easy. }
        { rewrite nth_set_other in Hth by auto. eauto. }
      * exact Rst.
    + assert (Ff : f l = f m0).
      { rewrite List.Forall_forall in RE. specialize (RE t0 (nth_error_In _ _ Et)).
        apply (RE a f); [rewrite P2; apply in_or_app; right; now left|].
        intros x Hx. apply P4. rewrite P1, app_nil_r in Hx. exact Hx. }
      assert (In a (map fst (wr t0))) as Wa.
      { rewrite P2, map_app. apply in_or_app. right. now left. }
      pose proof (NoDup_flat_one _ _ _ _ ND Et) as NDi.
      cbv beta in NDi. rewrite P2, map_app in NDi. cbn [map fst] in NDi.
      assert (Na : ~ In a (map fst dw) /\ ~ In a (map fst w)).
      { apply NoDup_remove_2 in NDi. split; intros K; apply NDi, in_or_app; auto. }
      constructor; cbn [fst snd].
      * now rewrite set_nth_length.
      * intros j tj th Hj Hth. destruct (Nat.eq_dec i j) as [<-|Nij].
        { rewrite nth_set_same in Hth by lia. injection Hth as <-. rewrite Et in Hj. injection Hj as <-.
          exists dr, (dw ++ [(a, f)]). split; [|split].
          - unfold progress. cbn [fst snd rd wr]. rewrite <- app_assoc. cbn [app]. repeat split; auto.
          - intros b g Hb. apply in_app_or in Hb. destruct Hb as [Hb|[Hb|[]]].
            + rewrite setm_other; [auto|]. intros ->. destruct Na as [Na _]. apply Na.
              now apply (in_map fst) in Hb.
            + injection Hb as <- <-. now rewrite setm_same.
          - cbn [snd wr]. intros b Hb. rewrite setm_other; [apply P6; cbn [map fst]; now right|].
            intros ->. tauto. }
        { rewrite nth_set_other in Hth by auto.
          destruct (T j tj th Hj Hth) as [dr' [dw' [Q1 [Q2 Q3]]]].
          exists dr', dw'. split; [exact Q1|].
          assert (Hne : forall b, In b (map fst (wr tj)) -> b <> a).
          { intros b Hb ->. apply Nij.
            exact (NoDup_flat_other (fun t => map fst (wr t)) ts i j t0 tj a ND Et Hj Wa Hb). }
          destruct Q1 as [_ [Q1 _]]. split.
          - intros b g Hb. rewrite setm_other; [auto|]. apply Hne. rewrite Q1, map_app. apply in_or_app.
            left. now apply (in_map fst) in Hb.
          - intros b Hb. rewrite setm_other; [auto|]. apply Hne. rewrite Q1, map_app. apply in_or_app.
            now right. }
      * intros b Hb. rewrite setm_other; [auto|]. intros ->. apply Hb. eapply in_written; eauto.
  - constructor; cbn [fst snd].
    + now rewrite set_nth_length.
    + intros j tj th Hj Hth. destruct (Nat.eq_dec i j) as [<-|Nij].
      * rewrite nth_set_same in Hth by lia. injection Hth as <-. rewrite Et in Hj. injection Hj as <-.
        exists (dr ++ [a]), dw. split; [|split].
        { unfold progress. cbn [fst snd rd wr]. rewrite <- app_assoc. cbn [app].
          split; [exact P1|]. split; [exact P2|]. split.
          - intros K. specialize (P3 K). discriminate.
          - intros x Hx. apply in_app_or in Hx. destruct Hx as [Hx|[<-|[]]].
            + unfold setm. destruct (addr_eq_dec x a) as [->|]; [|auto].
              eapply (SR i (l, t)); eauto.
            + rewrite setm_same. eapply (SR i (l, t)); eauto. }
        { exact P5. }
        { exact P6. }
      * rewrite nth_set_other in Hth by auto. eauto.
    + exact Rst.
Qed.

Lemma inv_final m0 ts c : NoDup (written ts) -> inv m0 ts c -> finished c ->
  (forall t a f, In t ts -> In (a, f) (wr t) -> fst c a = f m0) /\
  (forall a, ~ In a (written ts) -> fst c a = m0 a).
Proof.
  intros ND [L T Rst] F. split; [|exact Rst].
  intros t a f Ht Hw. apply In_nth_error in Ht. destruct Ht as [i Hi].
  assert (Hl : (i < length (snd c))%nat) by (rewrite L; apply nth_error_Some; congruence).
  destruct (nth_error (snd c) i) as [th|] eqn:Ei; [|apply nth_error_None in Ei; lia].
  destruct (T i t th Hi Ei) as [dr [dw [[_ [P2 _]] [P5 _]]]].
  destruct (F th (nth_error_In _ _ Ei)) as [_ Fw]. rewrite Fw, app_nil_r in P2. apply P5.
  now rewrite <- P2.
Qed.

Lemma race_free_safe m0 ts c : race_free ts -> inv m0 ts c -> safe_read m0 c.
Proof.
  intros RF [L T Rst] i th Hi a r Er.
  assert (Hl : (i < length ts)%nat) by (rewrite <- L; apply nth_error_Some; congruence).
  destruct (nth_error ts i) as [t0|] eqn:Et; [|apply nth_error_None in Et; lia].
  destruct (T i t0 th Et Hi) as [dr [dw [[P1 [P2 [P3 P4]]] [P5 P6]]]].
  destruct (in_dec addr_eq_dec a (written ts)) as [K|K]; [|auto].
  apply in_flat_map in K. destruct K as [tj [K1 K2]]. apply In_nth_error in K1. destruct K1 as [j K1].
  destruct (Nat.eq_dec i j) as [<-|Nij].
  - rewrite Et in K1. injection K1 as <-. apply P6.
    destruct dw as [|x dw]; [rewrite P2 in K2; exact K2|]. rewrite P3 in Er by discriminate. discriminate.
  - exfalso. apply (RF i j t0 tj Nij Et K1 a); [|exact K2]. rewrite P1, Er. apply in_or_app. right. now left.
Qed.

(** *** Every interleaving gives the same result. *)
Theorem race_free_deterministic m ts sched : NoDup (written ts) -> List.Forall reads_enough ts ->
  race_free ts -> finished (run sched (start m ts)) ->
  (forall t a f, In t ts -> In (a, f) (wr t) -> fst (run sched (start m ts)) a = f m) /\
  (forall a, ~ In a (written ts) -> fst (run sched (start m ts)) a = m a).
Proof.
  intros ND RE RF. assert (I : forall sched c, inv m ts c -> inv m ts (run sched c)).
  { induction sched0 as [|i s IH]; intros c Hc; [exact Hc|]. cbn. apply IH. apply inv_step; auto.
    eapply race_free_safe; eauto. }
  intros F. apply inv_final; auto. apply I, inv_start.
Qed.

(** Up to the barrier nothing has been written. *)
Lemma step_suffix i c j th : nth_error (snd c) j = Some th ->
  exists th', nth_error (snd (step i c)) j = Some th' /\
    (exists p, wr (snd th) = p ++ wr (snd th')) /\ (exists q, rd (snd th) = q ++ rd (snd th')).
Proof.
  intros Hj. unfold step. destruct (nth_error (snd c) i) as [ti|] eqn:Ei.
  2:{ exists th. split; auto. split; exists []; auto. }
  destruct (step1 (fst c) ti) as [m' ti'] eqn:E1. cbn [snd].
  destruct (Nat.eq_dec i j) as [<-|N].
  - rewrite Ei in Hj. injection Hj as <-. exists ti'. rewrite nth_set_same.
    2:{ apply nth_error_Some. congruence. }
    split; auto. destruct ti as [l t]. unfold step1 in E1. destruct (rd t) as [|b r] eqn:Er.
    + destruct (wr t) as [|[a f] w] eqn:Ew; injection E1 as <- <-; cbn [snd wr rd].
      * split; exists []; auto.
      * split; [exists [(a, f)]; exact Ew|exists []; auto].
    + injection E1 as <- <-. cbn [snd wr rd]. split; [exists []; auto|exists [b]; auto].
  - exists th. rewrite nth_set_other by auto. split; auto. split; exists []; auto.
Qed.
Lemma run_suffix : forall s c j th, nth_error (snd c) j = Some th ->
  exists th', nth_error (snd (run s c)) j = Some th' /\
    (exists p, wr (snd th) = p ++ wr (snd th')) /\ (exists q, rd (snd th) = q ++ rd (snd th')).
Proof.
  induction s as [|i s IH]; intros c j th Hj.
  - exists th. split; auto. split; exists []; auto.
  - destruct (step_suffix i c j th Hj) as [t1 [H1 [[p H2] [q H3]]]].
    destruct (IH _ _ _ H1) as [t2 [G1 [[p' G2] [q' G3]]]]. exists t2. split; [exact G1|].
    split; [exists (p ++ p')|exists (q ++ q')]; rewrite <- app_assoc; congruence.
Qed.
Lemma run_app s1 s2 c : run (s1 ++ s2) c = run s2 (run s1 c).
Proof. apply fold_left_app. Qed.

Theorem barrier_deterministic m ts sched : NoDup (written ts) -> List.Forall reads_enough ts ->
  barrier m ts sched -> finished (run sched (start m ts)) ->
  (forall t a f, In t ts -> In (a, f) (wr t) -> fst (run sched (start m ts)) a = f m) /\
  (forall a, ~ In a (written ts) -> fst (run sched (start m ts)) a = m a).
Proof.
  intros ND RE [s1 [s2 [-> B]]] F. apply inv_final; auto. rewrite run_app.
  assert (I1 : forall s c, inv m ts c ->
    (forall i ti, nth_error ts i = Some ti -> exists l,
       nth_error (snd (run s c)) i = Some (l, {| rd := []; wr := wr ti |})) -> inv m ts (run s c)).
  { induction s as [|i s IH]; intros c Hc Hb; [exact Hc|]. cbn. apply IH; [|exact Hb].
    apply inv_step; auto. intros k th Hk a r Er.
    destruct Hc as [L T Rst].
    destruct (in_dec addr_eq_dec a (written ts)) as [K|K]; [|auto].
    apply in_flat_map in K. destruct K as [tj [K1 K2]]. apply In_nth_error in K1. destruct K1 as [j K1].
    assert (Hl : (j < length (snd c))%nat) by (rewrite L; apply nth_error_Some; congruence).
    destruct (nth_error (snd c) j) as [thj|] eqn:Ej; [|apply nth_error_None in Ej; lia].
    destruct (T j tj thj K1 Ej) as [dr [dw [[P1 [P2 _]] [_ P6]]]]. apply P6.
    destruct (run_suffix (i :: s) c j thj Ej) as [t2 [G1 [[p G2] _]]].
    destruct (Hb j tj K1) as [l Hb']. rewrite Hb' in G1. injection G1 as <-. cbn [snd wr] in G2.
    rewrite G2 in P2. assert (Ln := f_equal (@length _) P2). rewrite !app_length in Ln.
    destruct dw; [|cbn in Ln; lia]. destruct p; [|cbn in Ln; lia]. rewrite G2. exact K2. }
  specialize (I1 s1 _ (inv_start m ts) B).
  assert (I2 : forall s c, inv m ts c -> (forall j th, nth_error (snd c) j = Some th -> rd (snd th) = []) ->
    inv m ts (run s c)).
  { induction s as [|i s IH]; intros c Hc Hr; [exact Hc|]. cbn. apply IH.
    - apply inv_step; auto. intros k th Hk a r Er. rewrite (Hr k th Hk) in Er. discriminate.
    - intros j th Hj. assert (Hlt : (j < length (snd c))%nat).
      { rewrite (inv_len _ _ _ Hc).
        assert (E : length (snd (step i c)) = length (snd c)).
        { unfold step. destruct (nth_error (snd c) i); [|reflexivity].
          destruct (step1 (fst c) t). cbn [snd]. apply set_nth_length. }
        rewrite <- (inv_len _ _ _ Hc), <- E. apply nth_error_Some. congruence. }
      destruct (nth_error (snd c) j) as [tj|] eqn:Ej; [|apply nth_error_None in Ej; lia].
      destruct (step_suffix i c j tj Ej) as [t2 [G1 [_ [q G3]]]]. rewrite Hj in G1. injection G1 as <-.
      rewrite (Hr j tj Ej) in G3. destruct (rd (snd th)); [reflexivity|]. destruct q; discriminate. }
  apply I2; [exact I1|]. intros j th Hj.
  assert (Hlt : (j < length ts)%nat).
  { rewrite <- (inv_len _ _ _ I1). apply nth_error_Some. congruence. }
  destruct (nth_error ts j) as [tj|] eqn:Et; [|apply nth_error_None in Et; lia].
  destruct (B j tj Et) as [l Hl]. rewrite Hj in Hl. injection Hl as ->. reflexivity.
Qed.

(** *** A schedule that gives every thread enough turns finishes all threads. *)
Definition work (t : task) : nat := length (rd t) + length (wr t).
Lemma step_work i c j th : nth_error (snd c) j = Some th ->
  exists th', nth_error (snd (step i c)) j = Some th' /\
    work (snd th') = (work (snd th) - (if Nat.eqb i j then 1 else 0))%nat.
Proof.
  intros Hj. unfold step. destruct (nth_error (snd c) i) as [ti|] eqn:Ei.
  2:{ exists th. split; auto. destruct (Nat.eqb_spec i j); [congruence|lia]. }
  destruct (step1 (fst c) ti) as [m' ti'] eqn:E1. cbn [snd].
  destruct (Nat.eqb_spec i j) as [<-|N].
  - rewrite Ei in Hj. injection Hj as <-. exists ti'. rewrite nth_set_same.
    2:{ apply nth_error_Some. congruence. }
    split; auto. destruct ti as [l t]. unfold step1 in E1. unfold work. destruct (rd t) as [|b r] eqn:Er.
    + destruct (wr t) as [|[a f] w] eqn:Ew; injection E1 as <- <-; cbn [snd wr rd].
      * rewrite Er, Ew. reflexivity.
      * rewrite Er, Ew. cbn. lia.
    + injection E1 as <- <-. cbn [snd wr rd]. rewrite Er. cbn [length]. lia.
  - exists th. rewrite nth_set_other by auto. split; auto. lia.
Qed.
Lemma run_work : forall s c j th, nth_error (snd c) j = Some th ->
  exists th', nth_error (snd (run s c)) j = Some th' /\
    work (snd th') = (work (snd th) - count_occ Nat.eq_dec s j)%nat.
Proof.
  induction s as [|i s IH]; intros c j th Hj.
  - exists th. split; auto. cbn. lia.
  - destruct (step_work i c j th Hj) as [t1 [H1 H2]]. destruct (IH _ _ _ H1) as [t2 [G1 G2]].
    exists t2. split; [exact G1|]. rewrite G2, H2. cbn [count_occ].
    destruct (Nat.eqb_spec i j), (Nat.eq_dec i j); try congruence; lia.
Qed.
Lemma run_length : forall s c, length (snd (run s c)) = length (snd c).
Proof.
  induction s as [|i s IH]; intros c; [reflexivity|]. cbn [run fold_left]. fold (run s (step i c)).
  rewrite IH. unfold step. destruct (nth_error (snd c) i); [|reflexivity].
  destruct (step1 (fst c) t). cbn [snd]. apply set_nth_length.
Qed.
Definition enough_turns (ts : list task) (sched : list nat) : Prop :=
  forall i t, nth_error ts i = Some t -> (work t <= count_occ Nat.eq_dec sched i)%nat.
Theorem enough_turns_finish m ts sched : enough_turns ts sched <-> finished (run sched (start m ts)).
Proof.
  assert (K : forall i t, nth_error ts i = Some t ->
     exists th, nth_error (snd (run sched (start m ts))) i = Some th /\
       work (snd th) = (work t - count_occ Nat.eq_dec sched i)%nat).
  { intros i t Hi. destruct (run_work sched (start m ts) i (fun _ => 0, t)) as [th [H1 H2]].
    - cbn. now rewrite nth_error_map, Hi.
    - exists th. auto. }
  split.
  - intros E th Hth. apply In_nth_error in Hth. destruct Hth as [i Hi].
    assert (L : (i < length ts)%nat).
    { assert (X : (i < length (snd (run sched (start m ts))))%nat) by (apply nth_error_Some; congruence).
      rewrite run_length in X. cbn in X. now rewrite map_length in X. }
    destruct (nth_error ts i) as [t|] eqn:Et; [|apply nth_error_None in Et; lia].
    destruct (K i t Et) as [th' [H1 H2]]. rewrite Hi in H1. injection H1 as <-.
    specialize (E i t Et). unfold work in *. destruct (rd (snd th)), (wr (snd th)); cbn in H2; auto; lia.
  - intros F i t Hi. destruct (K i t Hi) as [th [H1 H2]].
    destruct (F th (nth_error_In _ _ H1)) as [F1 F2]. unfold work in H2 at 1. rewrite F1, F2 in H2. cbn in H2. lia.
Qed.

(** *** A barrier: every thread has had exactly as many turns as it has cells to read. *)
Lemma step_reads i (c : mem * list thread) j (th : thread) : nth_error (snd c) j = Some th ->
  ((if Nat.eqb i j then 1 else 0) <= length (rd (snd th)))%nat ->
  exists th', nth_error (snd (step i c)) j = Some th' /\ wr (snd th') = wr (snd th) /\
    length (rd (snd th')) = (length (rd (snd th)) - (if Nat.eqb i j then 1 else 0))%nat.
Proof.
  intros Hj Hc. unfold step. destruct (nth_error (snd c) i) as [ti|] eqn:Ei.
  2:{ exists th. split; [exact Hj|]. split; [reflexivity|].
      destruct (Nat.eqb_spec i j); [congruence|]. now rewrite Nat.sub_0_r. }
  destruct (step1 (fst c) ti) as [m' ti'] eqn:E1. cbn [snd].
  destruct (Nat.eqb_spec i j) as [<-|N].
  - rewrite Ei in Hj. injection Hj as <-. exists ti'. rewrite nth_set_same.
    2:{ apply nth_error_Some. congruence. }
    split; auto. destruct ti as [l t]. unfold step1 in E1. cbn [snd] in *.
    destruct (rd t) as [|b r] eqn:Er; [cbn in Hc; lia|].
    injection E1 as <- <-. cbn [snd wr rd length]. split; [reflexivity|lia].
  - exists th. rewrite nth_set_other by auto. split; [exact Hj|]. split; [reflexivity|].
    now rewrite Nat.sub_0_r.
Qed.
Lemma run_reads : forall s (c : mem * list thread) j (th : thread), nth_error (snd c) j = Some th ->
  (count_occ Nat.eq_dec s j <= length (rd (snd th)))%nat ->
  exists th', nth_error (snd (run s c)) j = Some th' /\ wr (snd th') = wr (snd th) /\
    length (rd (snd th')) = (length (rd (snd th)) - count_occ Nat.eq_dec s j)%nat.
Proof.
  induction s as [|i s IH]; intros c j th Hj Hc.
  - exists th. repeat split; auto. cbn. lia.
  - cbn [count_occ] in Hc.
    assert (Hc' : ((if Nat.eqb i j then 1 else 0) + count_occ Nat.eq_dec s j <= length (rd (snd th)))%nat).
    { destruct (Nat.eqb_spec i j), (Nat.eq_dec i j); try congruence; lia. }
    destruct (step_reads i c j th Hj) as [t1 [H1 [H2 H3]]]; [lia|].
    destruct (IH _ _ _ H1) as [t2 [G1 [G2 G3]]]; [lia|].
    exists t2. split; [exact G1|]. split; [congruence|]. rewrite G3, H3. cbn [count_occ].
    destruct (Nat.eqb_spec i j), (Nat.eq_dec i j); try congruence; lia.
Qed.
Theorem barrier_by_turns m ts s1 s2 :
  (forall i t, nth_error ts i = Some t -> count_occ Nat.eq_dec s1 i = length (rd t)) ->
  barrier m ts (s1 ++ s2).
Proof.
  intros H. exists s1, s2. split; [reflexivity|]. intros i t Hi.
  destruct (run_reads s1 (start m ts) i (fun _ => 0, t)) as [[l t'] [H1 [H2 H3]]].
  - cbn. now rewrite nth_error_map, Hi.
  - cbn [snd]. rewrite (H i t Hi). lia.
  - exists l. rewrite H1. f_equal. f_equal. cbn [snd] in *. rewrite (H i t Hi), Nat.sub_diag in H3.
    destruct t' as [r w]. cbn in *. subst w. destruct r; [reflexivity|discriminate].
Qed.
