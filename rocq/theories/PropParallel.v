(** * C49: parallel=True gives the results of parallel=False, for every schedule. *)
From Coq Require Import Reals List Arith Lia Lra Permutation.
From Verif Require Import Tensor Py Voigt Spaces NDCore NDRel NDOps NDSpaces Threads NDParallel NDParallel2 NDParSpaces.
Import ListNotations.
Local Open Scope R_scope.

(** A threaded einsum with [out=]: if every entry is computed by one thread, the threads
    read what they need and no thread reads what another one writes (or all have read
    before one writes), then, whatever the interleaving, memory and result are those of
    [np.einsum].  [out] may be one of the operands. *)
Theorem C49_einsum_out : forall h ts o out sp sched, good_call (mem_of h) ts o out sp sched ->
  par_out sp sched ts o out h = nd_einsum_out ts o out h.
Proof. exact par_out_serial. Qed.
Print Assumptions C49_einsum_out.

(** The same without [out=], whatever the new memory contains before the threads write. *)
Theorem C49_einsum_new : forall h ts o sp sched junk, existing h ts ->
  (forall z h' out, einsum (views (mem_of h) ts) o = Ok z -> alloc (empty_like z junk) h = (h', Ok out) ->
     good_call (mem_of h') ts o out sp sched) ->
  par_new sp sched junk ts o h = nd_einsum ts o h.
Proof. exact par_new_serial. Qed.
Print Assumptions C49_einsum_new.

(** The calls of the spaces: operands with trailing axes, [out] an operand (or separate
    memory) with the shape of the result.  If the trailing indices are dealt to threads in any
    way and every thread gets enough turns, in any order, the result is that of [np.einsum]. *)
Theorem C49_trailing_axes : forall h ts o out D T z chunks sched,
  (forall t a, In (t, a) ts -> post t = []) -> post o = [] ->
  einsum (views (mem_of h) ts) o = Ok z -> shp z = nshp out ->
  nshp out = D ++ T -> length (pre o) = length D -> distinct_entries out ->
  (forall t a, In (t, a) ts -> loc a <> loc out \/
     (nshp a = nshp out /\ length (pre t) = length D /\ forall k, inb (nshp out) k -> vw a k = vw out k)) ->
  Permutation (concat chunks) (indices T) ->
  let sp := map (trailing_part ts D) chunks in
  enough_turns (tasks_of ts o out sp) sched ->
  par_out sp sched ts o out h = nd_einsum_out ts o out h.
Proof.
  intros h ts o out D T z chunks sched H1 H2 H3 H4 H5 H6 H7 H8 H9 sp H10.
  apply par_out_serial. apply (trailing_good (mem_of h) ts o out D T z); auto.
  apply enough_turns_finish. exact H10.
Qed.
Print Assumptions C49_trailing_axes.

(** Every method of every space: same result, same memory, same exceptions. *)
Theorem C49_spaces : forall (p : plan), good_plan p ->
  forall (ST : Type) (mat : NDMat ST) (o : SpaceOpts) (F : nd) (sv : ST) (h : heap),
  let E := self_einsum true p in let E' := self_einsum false p in
  pl_def_gradient E mat o F sv h = pl_def_gradient E' mat o F sv h /\
  pl_def_hessian E mat o F sv h = pl_def_hessian E' mat o F sv h /\
  pl_dis_gradient E mat o F sv h = pl_dis_gradient E' mat o F sv h /\
  pl_dis_hessian E mat o F sv h = pl_dis_hessian E' mat o F sv h /\
  pl_dil_gradient E mat o F sv h = pl_dil_gradient E' mat o F sv h /\
  pl_dil_hessian E mat o F sv h = pl_dil_hessian E' mat o F sv h.
Proof.
  intros p Hp ST mat o F sv h E E'. unfold E, E', self_einsum. rewrite (einsumt_is_einsum p Hp).
  repeat split.
Qed.
Print Assumptions C49_spaces.

(** In particular for all plans that split [out=] calls along the trailing axes and other
    calls in any way ([deal]: which thread gets which index; [turns]: the scheduler). *)
Theorem C49_spaces_trailing_axes : forall deal turns,
  (forall s, Permutation (concat (deal s)) (indices s)) -> (forall ts, enough_turns ts (turns ts)) ->
  forall (ST : Type) (mat : NDMat ST) (o : SpaceOpts) (F : nd) (sv : ST) (h : heap),
  let E := self_einsum true (trailing_plan deal turns) in
  pl_def_gradient E mat o F sv h = nd_def_gradient mat o F sv h /\
  pl_def_hessian E mat o F sv h = nd_def_hessian mat o F sv h /\
  pl_dis_gradient E mat o F sv h = nd_dis_gradient mat o F sv h /\
  pl_dis_hessian E mat o F sv h = nd_dis_hessian mat o F sv h /\
  pl_dil_gradient E mat o F sv h = nd_dil_gradient mat o F sv h /\
  pl_dil_hessian E mat o F sv h = nd_dil_hessian mat o F sv h.
Proof.
  intros deal turns H1 H2 ST mat o F sv h E.
  pose proof (einsumt_is_einsum _ (trailing_plan_good deal turns H1 H2)) as EQ.
  unfold E, self_einsum. rewrite EQ. repeat split.
Qed.
Print Assumptions C49_spaces_trailing_axes.
Example C49_spaces_trailing_axes_example :
  (forall s, Permutation (concat (one_each s)) (indices s)) /\
  (forall ts, enough_turns ts (round_robin ts)).
Proof. split; [exact one_each_deals|exact round_robin_turns]. Qed.

(** Splitting a label that is summed over: the partial results, added in any order. *)
Theorem C49_summed_label : forall l ts o z cs, summed l ts o -> einsum ts o = Ok z ->
  Permutation (concat cs) (seq 0 (label_range l ts)) ->
  exists zs, map (fun c => einsum_partial l c ts o) cs = map Ok zs /\
    (forall z', In z' zs -> shp z' = shp z) /\
    forall zs', Permutation zs' zs -> forall k, dat z k = lsum zs' (fun z' => dat z' k).
Proof. exact einsum_summed_split. Qed.
Print Assumptions C49_summed_label.

(** ** Without that restriction the schedule matters *)
(** [einsum("iI...,IJ...->iJ...", F, S, out=S)] (_space.py:68) for one tensor, split by the
    rows [i] of the result, both threads writing into [out]: thread 0 computes row 0, thread
    1 the other rows.  If thread 1 reads after thread 0 has written, the result is wrong. *)
Definition ref_F (k : index) : R :=
  match k with
  | [0%nat; 0%nat] => 2 | [1%nat; 0%nat] => 1 | [1%nat; 1%nat] => 1 | [2%nat; 2%nat] => 1 | _ => 0
  end.
Definition ref_S (k : index) : R :=
  match k with
  | [0%nat; 0%nat] => 1 | [1%nat; 1%nat] => 1 | [2%nat; 2%nat] => 1 | _ => 0
  end.
Definition ref_heap : heap :=
  {| hnext := 2; hcell := fun l => match l with 0%nat => ref_F | _ => ref_S end |}.
Definition ref_ts : list (term * nd) := [(tm [0; 1], at_loc 0 [3; 3]); (tm [1; 2], at_loc 1 [3; 3])]%nat.
Definition row_part (rows : list nat) : part := {|
  p_out := flat_map (fun i => map (fun j => [i; j]) [0; 1; 2]) rows;
  p_in := flat_map (fun i => map (fun j => (0, [i; j])) [0; 1; 2]) rows
          ++ map (fun k => (1, k)) (indices [3; 3]) |}%nat.
Definition ref_split : list part := [row_part [0]; row_part [1; 2]]%nat.

Lemma ref_entry : forall m i j, (i < 3)%nat -> (j < 3)%nat ->
  entry ref_ts (tm [0; 2]%nat) (at_loc 1 [3; 3]%nat) [i; j] m =
  0 + m (0, [i; 0])%nat * m (1, [0; j])%nat + m (0, [i; 1])%nat * m (1, [1; j])%nat
    + m (0, [i; 2])%nat * m (1, [2; j])%nat.
Proof.
  intros m i j Hi Hj.
  destruct i as [|[|[|i]]]; [| | |lia]; (destruct j as [|[|[|j]]]; [| | |lia]); reflexivity.
Qed.

Theorem C49_row_split_refuted :
  exists (h : heap) (ts : list (term * nd)) (o : term) (out : nd) (sp : list part) (sched1 sched2 : list nat),
    existing h ts /\ In out (map snd ts) /\
    (* everything that C49_einsum_out asks for, except the rule on reads and writes *)
    distinct_entries out /\ Permutation (flat_map p_out sp) (indices (nshp out)) /\
    List.Forall reads_enough (tasks_of ts o out sp) /\
    enough_turns (tasks_of ts o out sp) sched1 /\ enough_turns (tasks_of ts o out sp) sched2 /\
    (* one schedule gives the result of np.einsum, the other one does not *)
    par_out sp sched1 ts o out h = nd_einsum_out ts o out h /\
    dat (contents (fst (nd_einsum_out ts o out h)) out) [1; 0]%nat = 1 /\
    dat (contents (fst (par_out sp sched2 ts o out h)) out) [1; 0]%nat = 2.
Proof.
  exists ref_heap, ref_ts, (tm [0; 2]%nat), (at_loc 1 [3; 3]%nat), ref_split,
    (repeat 0 12 ++ repeat 1 15 ++ repeat 0 3 ++ repeat 1 6)%nat, (repeat 0 15 ++ repeat 1 21)%nat.
  assert (P1 : distinct_entries (at_loc 1 [3; 3]%nat)).
  { unfold distinct_entries. cbn [vw nshp at_loc]. rewrite map_id. apply indices_NoDup. }
  assert (P2 : Permutation (flat_map p_out ref_split) (indices (nshp (at_loc 1 [3; 3]%nat)))).
  { cbn. apply Permutation_refl. }
  assert (P3 : List.Forall reads_enough (tasks_of ref_ts (tm [0; 2]%nat) (at_loc 1 [3; 3]%nat) ref_split)).
  { assert (R : forall i j (r : list addr), (i < 3)%nat -> (j < 3)%nat ->
      (forall q, (q < 3)%nat -> In (0%nat, [i; q]) r /\ In (1%nat, [q; j]) r) ->
      forall l l' : mem, (forall x, In x r -> l x = l' x) ->
      entry ref_ts (tm [0; 2]%nat) (at_loc 1 [3; 3]%nat) [i; j] l =
      entry ref_ts (tm [0; 2]%nat) (at_loc 1 [3; 3]%nat) [i; j] l').
    { intros i j r Hi Hj Hr l l' Hl. rewrite !ref_entry by auto.
      rewrite (Hl _ (proj1 (Hr 0%nat ltac:(lia)))), (Hl _ (proj1 (Hr 1%nat ltac:(lia)))),
        (Hl _ (proj1 (Hr 2%nat ltac:(lia)))), (Hl _ (proj2 (Hr 0%nat ltac:(lia)))),
        (Hl _ (proj2 (Hr 1%nat ltac:(lia)))), (Hl _ (proj2 (Hr 2%nat ltac:(lia)))). reflexivity. }
    assert (Rows : forall rows, (forall i, In i rows -> (i < 3)%nat) ->
      reads_enough (task_of ref_ts (tm [0; 2]%nat) (at_loc 1 [3; 3]%nat) (row_part rows))).
    { intros rows Hrows a f Hf l l' Hl. cbn [task_of wr row_part p_out] in Hf.
      apply in_map_iff in Hf. destruct Hf as [k [[= <- <-] Hk]]. apply in_flat_map in Hk.
      destruct Hk as [i [Hi Hk]]. apply in_map_iff in Hk. destruct Hk as [j [<- Hj]].
      apply (R i j (p_in (row_part rows))); auto.
      - cbn in Hj. intuition lia.
      - intros q Hq. cbn [row_part p_in]. split; apply in_or_app.
        + left. apply in_flat_map. exists i. split; [exact Hi|]. apply (in_map (fun j => (0%nat, [i; j]))).
          cbn. lia.
        + right. apply (in_map (fun k => (1%nat, k))). apply in_indices. cbn. cbn in Hj. intuition lia. }
    repeat constructor; apply Rows; cbn; intuition lia. }
  assert (T1 : enough_turns (tasks_of ref_ts (tm [0; 2]%nat) (at_loc 1 [3; 3]%nat) ref_split)
    (repeat 0 12 ++ repeat 1 15 ++ repeat 0 3 ++ repeat 1 6)%nat).
  { intros i t Hi. destruct i as [|[|i]]; cbn [tasks_of map ref_split nth_error] in Hi.
    - injection Hi as <-. vm_compute. lia.
    - injection Hi as <-. vm_compute. lia.
    - destruct i; discriminate. }
  assert (T2 : enough_turns (tasks_of ref_ts (tm [0; 2]%nat) (at_loc 1 [3; 3]%nat) ref_split)
    (repeat 0 15 ++ repeat 1 21)%nat).
  { intros i t Hi. destruct i as [|[|i]]; cbn [tasks_of map ref_split nth_error] in Hi.
    - injection Hi as <-. vm_compute. lia.
    - injection Hi as <-. vm_compute. lia.
    - destruct i; discriminate. }
  split.
  { intros t a [[= <- <-]|[[= <- <-]|[]]]; cbn; lia. }
  split; [cbn; auto|]. split; [exact P1|]. split; [exact P2|]. split; [exact P3|].
  split; [exact T1|]. split; [exact T2|]. split; [|split].
  - apply par_out_serial. constructor; auto.
    + right. rewrite app_assoc. apply barrier_by_turns. intros i t Hi.
      destruct i as [|[|i]]; cbn [tasks_of map ref_split nth_error] in Hi.
      * injection Hi as <-. vm_compute. reflexivity.
      * injection Hi as <-. vm_compute. reflexivity.
      * destruct i; discriminate.
    + apply enough_turns_finish. exact T1.
  - lazy -[Rplus Rmult Rminus Ropp IZR]. ring.
  - lazy -[Rplus Rmult Rminus Ropp IZR]. ring.
Qed.
Print Assumptions C49_row_split_refuted.
