(** * [parallel=True]: the threaded einsum of the spaces.

    src/hyperelastic/spaces/_space.py:29-44: with [parallel=True] every call of
    [self.einsum] goes to [einsumt.einsumt], which splits the work among threads.  The source
    of einsumt is not part of the repository; it is modelled as follows.  Each thread gets a
    part of the entries of the result, copies the cells of the operands it needs and then
    writes its entries, one cell at a time, in any interleaving with the other threads
    (Threads.v).  The memory which is written is the [out] array if one is given (it may be
    an operand at the same time: _space.py:68, 77, 101, 128) or a new array.  Which thread gets
    which entries, and the schedule, are decided by a [plan], an arbitrary function of the call
    and of the memory; [None] is einsumt's fallback to [np.einsum].  Splitting a label which is
    summed over is [einsum_partial] below. *)
From Coq Require Import Reals List Arith Lia Permutation FunctionalExtensionality.
From Verif Require Import Tensor Py Voigt Spaces NDCore NDRel NDOps NDVoigt NDHeap NDSpaces Threads.
Import ListNotations.
Local Open Scope R_scope.
Local Open Scope py_scope.

(** ** Memory *)
Definition mem_of (h : heap) : mem := fun a => hcell h (fst a) (snd a).
Definition heap_with (h : heap) (m : mem) : heap :=
  {| hnext := hnext h; hcell := fun l j => m (l, j) |}.
(** The contents of an array object, in a given memory. *)
Definition view (m : mem) (a : nd) : arr := {| shp := nshp a; dat := fun k => m (loc a, vw a k) |}.
Definition views (m : mem) (ts : list (term * nd)) : list (term * arr) :=
  map (fun x => (fst x, view m (snd x))) ts.
(** The value of [np.einsum(ts -> o)] in shape [s]. *)
Definition einsum_in (m : mem) (ts : list (term * nd)) (o : term) (s : shape) : Result arr :=
  rbind (einsum (views m ts) o) (fun z => broadcast_to z s).
Definition entry (ts : list (term * nd)) (o : term) (out : nd) (k : index) (m : mem) : R :=
  match einsum_in m ts o (nshp out) with Ok w => dat w k | Raise _ => 0 end.

(** ** A threaded call *)
(** The share of one thread: entries of the result, and cells it reads. *)
Record part := { p_out : list index; p_in : list addr }.
Definition task_of (ts : list (term * nd)) (o : term) (out : nd) (p : part) : task :=
  {| rd := p_in p; wr := map (fun k => ((loc out, vw out k), entry ts o out k)) (p_out p) |}.
Definition tasks_of ts o out (sp : list part) : list task := map (task_of ts o out) sp.
(** [einsumt(ts -> o, out=out)]: the arguments are checked, the threads run, all are joined. *)
Definition par_out (sp : list part) (sched : list nat) ts o (out : nd) : M nd := fun h =>
  match einsum_in (mem_of h) ts o (nshp out) with
  | Raise e => (h, Raise e)
  | Ok _ => (heap_with h (fst (run sched (start (mem_of h) (tasks_of ts o out sp)))), Ok out)
  end.
(** Contents of a new array before the threads have written: anything.  (Positions outside
    the array are no memory; they are chosen such that heaps can be compared with [=].) *)
Definition inb_dec : forall s k, {inb s k} + {~ inb s k}.
Proof.
  induction s as [|n s IH]; intros [|i k]; cbn; auto.
  destruct (lt_dec i n), (IH k); tauto.
Defined.
Definition empty_like (z : arr) (junk : index -> R) : arr :=
  {| shp := shp z; dat := fun k => if inb_dec (shp z) k then junk k else dat z k |}.
(** [einsumt(ts -> o)] *)
Definition par_new (sp : list part) (sched : list nat) (junk : index -> R) ts o : M nd := fun h =>
  match einsum (views (mem_of h) ts) o with
  | Raise e => (h, Raise e)
  | Ok z => (a <- alloc (empty_like z junk) ;; par_out sp sched ts o a) h
  end.

(** ** Plans *)
Record plan := {
  plan_new : list (term * nd) -> term -> heap -> option (list part * list nat * (index -> R));
  plan_out : list (term * nd) -> term -> nd -> heap -> option (list part * list nat)
}.
(** [self.einsum] *)
Record engine := {
  en_einsum : list (term * nd) -> term -> M nd;
  en_einsum_out : list (term * nd) -> term -> nd -> M nd
}.
Definition np_engine : engine := {| en_einsum := nd_einsum; en_einsum_out := nd_einsum_out |}.
Definition einsumt_engine (p : plan) : engine := {|
  en_einsum := fun ts o h => match plan_new p ts o h with
                             | Some (sp, sched, junk) => par_new sp sched junk ts o h
                             | None => nd_einsum ts o h
                             end;
  en_einsum_out := fun ts o out h => match plan_out p ts o out h with
                                     | Some (sp, sched) => par_out sp sched ts o out h
                                     | None => nd_einsum_out ts o out h
                                     end |}.
(** _space.py:38-44 *)
Definition self_einsum (parallel : bool) (p : plan) : engine :=
  if parallel then einsumt_engine p else np_engine.

(** ** Correct splittings *)
(** The arrays involved exist, and the entries of [out] are different cells. *)
Definition existing (h : heap) (ts : list (term * nd)) : Prop :=
  forall t a, In (t, a) ts -> (loc a < hnext h)%nat.
Definition distinct_entries (out : nd) : Prop := NoDup (map (vw out) (indices (nshp out))).
(** Every entry of [out] is computed by exactly one thread; the threads read what they need;
    no thread reads what another one writes, or all have read before one writes; all
    threads finish. *)
Record good_call (m : mem) ts o out (sp : list part) (sched : list nat) : Prop := {
  gc_entries : distinct_entries out;
  gc_split : Permutation (flat_map p_out sp) (indices (nshp out));
  gc_reads : List.Forall reads_enough (tasks_of ts o out sp);
  gc_sync : race_free (tasks_of ts o out sp) \/ barrier m (tasks_of ts o out sp) sched;
  gc_join : finished (run sched (start m (tasks_of ts o out sp)))
}.
Record good_plan (p : plan) : Prop := {
  gp_out : forall ts o out h sp sched, plan_out p ts o out h = Some (sp, sched) ->
    good_call (mem_of h) ts o out sp sched;
  gp_new : forall ts o h sp sched junk z h' out, plan_new p ts o h = Some (sp, sched, junk) ->
    existing h ts /\
    (einsum (views (mem_of h) ts) o = Ok z -> alloc (empty_like z junk) h = (h', Ok out) ->
     good_call (mem_of h') ts o out sp sched)
}.

(** ** A threaded call does what np.einsum does *)
Lemma load_all_views ts h : load_all ts h = (h, Ok (views (mem_of h) ts)).
Proof.
  induction ts as [|[t a] ts IH]; cbn [load_all]; [reflexivity|].
  unfold bind at 1. unfold load at 1. unfold bind. rewrite IH. reflexivity.
Qed.
Lemma heap_eq h h' : hnext h = hnext h' -> (forall l j, hcell h l j = hcell h' l j) -> h = h'.
Proof.
  destruct h as [n c], h' as [n' c']. cbn. intros <- E. f_equal.
  apply functional_extensionality; intros l. apply functional_extensionality; intros j. apply E.
Qed.
Lemma flat_map_map {A B C} (f : A -> B) (g : B -> list C) l :
  flat_map g (map f l) = flat_map (fun x => g (f x)) l.
Proof. induction l; cbn; congruence. Qed.
Lemma map_flat_map {A B C} (f : B -> C) (g : A -> list B) l :
  map f (flat_map g l) = flat_map (fun x => map f (g x)) l.
Proof. induction l; cbn; [reflexivity|]. now rewrite map_app, IHl. Qed.
Lemma written_tasks ts o out sp :
  written (tasks_of ts o out sp) = map (fun k => (loc out, vw out k)) (flat_map p_out sp).
Proof.
  unfold written, tasks_of. rewrite flat_map_map, map_flat_map. apply flat_map_ext. intros p.
  unfold task_of. cbn [wr]. rewrite map_map. reflexivity.
Qed.
Lemma NoDup_map_inj_on {A B} (f : A -> B) l x y : NoDup (map f l) -> In x l -> In y l -> f x = f y -> x = y.
Proof.
  induction l as [|z l IH]; cbn; [easy|]. intros ND Hx Hy E. inversion ND as [|? ? N1 N2]; subst.
  destruct Hx as [<-|Hx], Hy as [<-|Hy]; auto.
  - exfalso. apply N1. rewrite E. now apply in_map.
  - exfalso. apply N1. rewrite <- E. now apply in_map.
Qed.

Lemma good_run m ts o out sp sched : good_call m ts o out sp sched ->
  let m' := fst (run sched (start m (tasks_of ts o out sp))) in
  (forall k, inb (nshp out) k -> m' (loc out, vw out k) = entry ts o out k m) /\
  (forall l j, ~ (l = loc out /\ exists k, inb (nshp out) k /\ vw out k = j) -> m' (l, j) = m (l, j)).
Proof.
  intros [G1 G2 G3 G4 G5].
  assert (ND : NoDup (written (tasks_of ts o out sp))).
  { rewrite written_tasks. apply (Permutation_NoDup (l := map (fun k => (loc out, vw out k)) (indices (nshp out)))).
    - apply Permutation_map, Permutation_sym, G2.
    - rewrite <- (map_map (vw out) (fun j => (loc out, j))). apply FinFun.Injective_map_NoDup; [|exact G1].
      intros a b E. congruence. }
  assert (D : (forall t a f, In t (tasks_of ts o out sp) -> In (a, f) (wr t) ->
                 fst (run sched (start m (tasks_of ts o out sp))) a = f m) /\
              (forall a, ~ In a (written (tasks_of ts o out sp)) ->
                 fst (run sched (start m (tasks_of ts o out sp))) a = m a)).
  { destruct G4 as [G4|G4]; [apply race_free_deterministic|apply barrier_deterministic]; auto. }
  destruct D as [D1 D2]. cbv zeta. split.
  - intros k Hk. apply in_indices in Hk. apply (Permutation_in _ (Permutation_sym G2)) in Hk.
    apply in_flat_map in Hk. destruct Hk as [p [Hp Hk]].
    apply (D1 (task_of ts o out p)).
    + now apply in_map.
    + unfold task_of. cbn [wr]. now apply (in_map (fun k => ((loc out, vw out k), entry ts o out k))).
  - intros l j N. apply D2. rewrite written_tasks. intros K. apply in_map_iff in K.
    destruct K as [k [E K]]. apply (Permutation_in _ G2) in K. apply in_indices in K.
    apply N. injection E as <- <-. eauto.
Qed.

Theorem par_out_serial h ts o out sp sched : good_call (mem_of h) ts o out sp sched ->
  par_out sp sched ts o out h = nd_einsum_out ts o out h.
Proof.
  intros G. unfold par_out, nd_einsum_out. unfold bind at 1. rewrite load_all_views.
  unfold bind at 1. unfold lift at 1.
  destruct (good_run _ _ _ _ _ _ G) as [D1 D2].
  assert (N := gc_entries _ _ _ _ _ _ G).
  remember (fst (run sched (start (mem_of h) (tasks_of ts o out sp)))) as m' eqn:Em. clear Em G.
  unfold einsum_in. destruct (einsum (views (mem_of h) ts) o) as [z|e] eqn:Ez; [|reflexivity].
  cbn [rbind]. unfold bind at 1, assign, bind, lift.
  destruct (broadcast_to z (nshp out)) as [w|e] eqn:Ew; [|reflexivity].
  unfold store, ret. f_equal. apply heap_eq; [reflexivity|]. intros l j. cbn [heap_with hcell].
  destruct (Nat.eqb_spec l (loc out)) as [->|Nl].
  - unfold write_cell. destruct (find _ _) as [k|] eqn:Ef.
    + apply find_some in Ef. destruct Ef as [K1 K2]. apply in_indices in K1.
      destruct (list_eq_dec Nat.eq_dec (vw out k) j) as [<-|]; [|discriminate].
      rewrite D1 by auto. unfold entry, einsum_in. rewrite Ez. cbn [rbind]. now rewrite Ew.
    + rewrite D2; [reflexivity|]. intros [_ [k [K1 K2]]]. apply in_indices in K1.
      pose proof (find_none _ _ Ef _ K1) as K3. cbv beta in K3.
      destruct (list_eq_dec Nat.eq_dec (vw out k) j); [discriminate|congruence].
  - rewrite D2; [reflexivity|]. intros [K _]. contradiction.
Qed.

Lemma views_alloc h ts v h' a : existing h ts -> alloc v h = (h', Ok a) ->
  forall t b, In (t, b) ts -> view (mem_of h') b = view (mem_of h) b.
Proof.
  intros Ex E t b Hb. injection E as <- <-. unfold view, mem_of. cbn [hcell fst snd]. f_equal.
  apply functional_extensionality. intros k. specialize (Ex t b Hb).
  destruct (Nat.eqb_spec (loc b) (hnext h)); [lia|reflexivity].
Qed.
Lemma views_alloc_all h ts v h' a : existing h ts -> alloc v h = (h', Ok a) ->
  views (mem_of h') ts = views (mem_of h) ts.
Proof.
  intros Ex E. apply map_ext_in. intros [t b] Hb. cbn [fst snd]. f_equal. eapply views_alloc; eauto.
Qed.
Lemma broadcast_to_same z : exists w, broadcast_to z (shp z) = Ok w /\ shp w = shp z /\
  forall k, inb (shp z) k -> dat w k = dat z k.
Proof.
  unfold broadcast_to. rewrite broadcast_refl. cbn [rbind].
  destruct (list_eq_dec Nat.eq_dec (shp z) (shp z)) as [_|]; [|congruence].
  eexists. split; [reflexivity|]. cbn [shp dat]. split; [reflexivity|].
  intros k Hk. unfold read. now rewrite proj_self.
Qed.

Theorem par_new_serial h ts o sp sched junk : existing h ts ->
  (forall z h' out, einsum (views (mem_of h) ts) o = Ok z -> alloc (empty_like z junk) h = (h', Ok out) ->
     good_call (mem_of h') ts o out sp sched) ->
  par_new sp sched junk ts o h = nd_einsum ts o h.
Proof.
  intros Ex G. unfold par_new, nd_einsum. unfold bind at 2. rewrite load_all_views. unfold new.
  unfold bind at 2, lift.
  destruct (einsum (views (mem_of h) ts) o) as [z|e] eqn:Ez; [|reflexivity].
  unfold bind. destruct (alloc (empty_like z junk) h) as [h' [out|e]] eqn:Ea; [|discriminate].
  specialize (G z h' out eq_refl Ea).
  pose proof (good_run _ _ _ _ _ _ G) as D. cbv zeta in D. destruct D as [D1 D2].
  unfold par_out. unfold einsum_in. rewrite (views_alloc_all _ _ _ _ _ Ex Ea), Ez. cbn [rbind].
  assert (So : nshp out = shp z) by (injection Ea as <- <-; reflexivity). rewrite So.
  destruct (broadcast_to_same z) as [w [Ew [_ Dw]]]. rewrite Ew. unfold alloc.
  assert (Eo : out = {| loc := hnext h; nshp := shp z; vw := fun k => k |}).
  { injection Ea as <- <-. reflexivity. }
  rewrite <- Eo. f_equal. apply heap_eq; [injection Ea as <- <-; reflexivity|].
  intros l j. cbn [heap_with hcell].
  destruct (Nat.eqb_spec l (hnext h)) as [->|Nl].
  - destruct (inb_dec (shp z) j) as [Hj|Hj].
    + replace (hnext h, j) with (loc out, vw out j) by (rewrite Eo; reflexivity).
      rewrite D1 by (rewrite So; exact Hj). unfold entry, einsum_in.
      rewrite (views_alloc_all _ _ _ _ _ Ex Ea), Ez. cbn [rbind]. rewrite So, Ew. auto.
    + rewrite D2.
      * injection Ea as <- <-. unfold mem_of. cbn [fst snd hcell]. rewrite Nat.eqb_refl.
        cbn [empty_like dat]. destruct (inb_dec (shp z) j); [contradiction|reflexivity].
      * intros [_ [k [K1 K2]]]. rewrite Eo in K1, K2. cbn in K1, K2. subst j. contradiction.
  - rewrite D2.
    + injection Ea as <- <-. unfold mem_of. cbn [fst snd hcell].
      destruct (Nat.eqb_spec l (hnext h)); [contradiction|reflexivity].
    + rewrite Eo. cbn [loc]. intros [K _]. contradiction.
Qed.

Theorem einsumt_is_einsum p : good_plan p -> einsumt_engine p = np_engine.
Proof.
  intros [G1 G2]. unfold einsumt_engine, np_engine. f_equal.
  - apply functional_extensionality; intros ts. apply functional_extensionality; intros o.
    apply functional_extensionality; intros h.
    destruct (plan_new p ts o h) as [[[sp sched] junk]|] eqn:E; [|reflexivity].
    apply par_new_serial.
    + exact (proj1 (G2 ts o h sp sched junk (num 0) h {| loc := 0; nshp := []; vw := fun k => k |} E)).
    + intros z h' out. exact (proj2 (G2 ts o h sp sched junk z h' out E)).
  - apply functional_extensionality; intros ts. apply functional_extensionality; intros o.
    apply functional_extensionality; intros out. apply functional_extensionality; intros h.
    destruct (plan_out p ts o out h) as [[sp sched]|] eqn:E; [|reflexivity].
    apply par_out_serial. now apply G1.
Qed.
