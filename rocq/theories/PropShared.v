(** * Property C72: threads that share material objects. *)
From Coq Require Import Reals Lra List Arith Lia FunctionalExtensionality.
From Verif Require Import Tensor Py Voigt VoigtProofs Models Frameworks Spaces Spec HistProofs SpaceCore Algebra Shared SharedProofs SharedCore.
Import ListNotations.
Local Open Scope R_scope.

(** ** Specification *)
(** The number of the framework object below the space of a call. *)
Definition framework_of {SV} (w : world (SV := SV)) (q : request (SV := SV)) : nat := snd (spaces w (on q)).
(** The tensor which the space hands to the framework: C, the distortional part of C, or (in
    Dilatational) det(C)^(1/3) C. *)
Definition handed {SV} (w : world (SV := SV)) (q : request (SV := SV)) : Vec6 :=
  seen (fst (fst (spaces w (on q)))) (right_CG (arg q)).
(** Only for GeneralizedInvariants: the invariant-based model returns the state variables
    unchanged (its model object is called with the old and with the new ones). *)
Definition keeps_state {SV} (ob : fwobj (SV := SV)) : Prop :=
  match ob with
  | OGen _ m _ _ => forall I1 I2 I3 sv x svn, im_gradient m I1 I2 I3 sv = Ok (x, svn) -> svn = sv
  | _ => True
  end.
(** Two calls may run at the same time: on a common space only with the same F, on a common
    framework only with the same tensor and the same state variables. *)
Definition compatible {SV} (w : world (SV := SV)) (q q' : request) : Prop :=
  (on q = on q' -> arg q = arg q') /\
  (framework_of w q = framework_of w q' ->
     handed w q = handed w q' /\ state q = state q' /\ keeps_state (fws w (framework_of w q))).
Definition all_compatible {SV} (w : world (SV := SV)) (qs : list request) : Prop :=
  forall i j q q', i <> j -> nth_error qs i = Some q -> nth_error qs j = Some q' -> compatible w q q'.

(** ** Proofs *)
Section Compat.
  Context {SV : Type} (w : world (SV := SV)).
  (** The values a call may write. *)
  Definition fw_okv (f : nat) (ob : fwobj (SV := SV)) (C : Vec6) (sv : SV) (a : addr) (x : aval) : Prop :=
    match ob with
    | OInv m => match a with AFw g b => g = f /\ x = ival m C sv b | _ => False end
    | OStr la g h => match a with AFw g' b => g' = f /\ x = strval la (plain_model g h) tt C sv b | _ => False end
    | OGen la m fs c =>
        match a with
        | AFw g b => g = f /\ x = strval la (gen_model m fs c) gen_self0 C sv b
        | AMod g b => g = f /\ (x = gval m fs c (sl la C) sv b \/
             x = gval m fs c (sl la C) (snew la (gen_model m fs c) gen_self0 C sv) b)
        | _ => False
        end
    end.
  Definition okv (q : request) (a : addr) (x : aval) : Prop :=
    let '(k, o, f) := spaces w (on q) in
    match a with
    | ASpace n b => n = on q /\ x = sval k (right_CG (arg q)) (sg_of (fw_of (fws w f)) (fresh (fws w f)) k (right_CG (arg q)) (state q)) b
    | _ => fw_okv f (fws w f) (seen k (right_CG (arg q))) (state q) a x
    end.
  Lemma okv_need q : req_need w q (okv q).
  Proof.
    unfold req_need, okv. destruct (spaces w (on q)) as [[k o] f]. split; [intro a; split; reflexivity|].
    unfold fw_need. destruct (fws w f) as [m|la g h|la m fs c]; unfold fw_okv; cbn.
    - intro a. split; reflexivity.
    - split; [intro a; split; reflexivity|split; exact Logic.I].
    - split; [intro a; split; reflexivity|]. split; intro a; split; auto.
  Qed.
  Lemma gen_snew la (m : InvModel SV) fs c C sv : keeps_state (OGen la m fs c) -> snew la (gen_model m fs c) gen_self0 C sv = sv.
  Proof.
    intro K. unfold snew. cbn [gen_model sm_gradient]. unfold outcome, gen_gradient, bind, lift, get, put, ret.
    destruct (strain3 fs (sl la C)) as [st|e]; [|reflexivity]. cbv zeta.
    match goal with |- context [im_gradient m ?x ?y ?z sv] => destruct (im_gradient m x y z sv) as [[[[w1 w2] w3] svn]|e] eqn:E end;
      [|reflexivity]. cbn. exact (K _ _ _ _ _ _ E).
  Qed.
  Lemma okv_compatible q q' a x y : compatible w q q' -> okv q a x -> okv q' a y -> x = y.
  Proof.
    intros [H1 H2]. unfold okv.
    destruct (spaces w (on q)) as [[k o] f] eqn:E, (spaces w (on q')) as [[k' o'] f'] eqn:E'.
    unfold framework_of, handed in H2. rewrite E, E' in H2. cbn [fst snd] in H2.
    destruct a as [n b|n b|n b].
    - intros [-> ->] [Hn ->]. rewrite <- Hn, E in E'. injection E' as <- <- <-.
      destruct (H2 eq_refl) as [_ [-> _]]. rewrite (H1 Hn). reflexivity.
    - intros A B.
      assert (n = f /\ n = f') as [-> <-].
      { unfold fw_okv in A, B. destruct (fws w f), (fws w f'); destruct A as [-> _], B as [<- _]; auto. }
      destruct (H2 eq_refl) as [Hh [Hs _]]. rewrite <- Hh, <- Hs in B. unfold fw_okv in A, B.
      destruct (fws w f); destruct A as [_ ->], B as [_ ->]; reflexivity.
    - intros A B.
      assert (n = f /\ n = f') as [-> <-].
      { unfold fw_okv in A, B. destruct (fws w f), (fws w f'); try destruct A; try destruct B; auto; subst; auto. }
      destruct (H2 eq_refl) as [Hh [Hs Hk]]. rewrite <- Hh, <- Hs in B. unfold fw_okv in A, B.
      destruct (fws w f) as [m|la g h|la m fs c]; [destruct A|destruct A|].
      destruct A as [_ A], B as [_ B]. rewrite (gen_snew la m fs c _ _ Hk) in A, B.
      destruct A as [->| ->], B as [->| ->]; reflexivity.
  Qed.
End Compat.

(** ** C72 *)
(** A call which runs alone, step by step, from any state of the objects, returns what the
    sequential model says. *)
Theorem C72_alone : forall (SV : Type) (w : world (SV := SV)) (q : request) (h : heap),
  snd (exec (program w q) h) = expected w q.
Proof. intros. apply program_alone. Qed.
Print Assumptions C72_alone.

(** Compatible calls: under every schedule each call ends with its own result, after a number of
    its steps which does not depend on the schedule. *)
Theorem C72_every_schedule : forall (SV : Type) (w : world (SV := SV)) (qs : list request),
  all_compatible w qs -> forall i q, nth_error qs i = Some q ->
  (forall h sched x, answer (interleave sched (h, map (program w) qs)) i = Some x -> x = expected w q) /\
  exists n, forall h sched, (n <= count_occ Nat.eq_dec sched i)%nat ->
    answer (interleave sched (h, map (program w) qs)) i = Some (expected w q).
Proof.
  intros SV w qs Hc i q Hq.
  pose (def := q).
  set (ok := fun j => okv w (nth j qs def)). set (r := fun j => expected w (nth j qs def)).
  assert (Hn : forall j p, nth_error (map (program w) qs) j = Some p -> tm (ok j) nothing p (r j)).
  { intros j p Hj. rewrite nth_error_map in Hj. destruct (nth_error qs j) as [qj|] eqn:E; [|discriminate].
    injection Hj as <-. unfold ok, r. rewrite (nth_error_nth qs j def E). apply program_tame, okv_need. }
  destruct (choose_steps ok r _ Hn) as [n Hn'].
  assert (Hcompat : forall i j a x y, i <> j -> (i < length (map (program w) qs))%nat -> (j < length (map (program w) qs))%nat ->
     ok i a x -> ok j a y -> x = y).
  { intros a b ad x y Ne La Lb. rewrite map_length in La, Lb. unfold ok.
    apply okv_compatible. apply (Hc a b); [exact Ne|apply nth_error_nth'; exact La|apply nth_error_nth'; exact Lb]. }
  assert (Li : (i < length (map (program w) qs))%nat) by (rewrite map_length; apply nth_error_Some; congruence).
  assert (Hr : r i = expected w q) by (unfold r; rewrite (nth_error_nth qs i def Hq); reflexivity).
  split.
  - intros h sched x Hx. rewrite <- Hr. exact (proj1 (tame_threads ok r n _ Hcompat Hn' h sched i Li) x Hx).
  - exists (n i). intros h sched Hs. rewrite <- Hr. exact (proj2 (tame_threads ok r n _ Hcompat Hn' h sched i Li) Hs).
Qed.
Print Assumptions C72_every_schedule.

(** In particular: every thread has its own space and its own framework (models may be shared). *)
Theorem C72_own_objects : forall (SV : Type) (w : world (SV := SV)) (qs : list request),
  NoDup (map (framework_of w) qs) -> forall i q, nth_error qs i = Some q ->
  forall h sched x, answer (interleave sched (h, map (program w) qs)) i = Some x -> x = expected w q.
Proof.
  intros SV w qs Hd i q Hq. apply (C72_every_schedule SV w qs); [|exact Hq].
  intros a b qa qb Ne Ha Hb.
  assert (Nf : framework_of w qa <> framework_of w qb).
  { intro E. apply Ne. rewrite NoDup_nth_error in Hd. apply Hd.
    - rewrite map_length. apply nth_error_Some. congruence.
    - rewrite !nth_error_map, Ha, Hb. cbn. congruence. }
  split; [|intro E; destruct (Nf E)]. intro E. destruct Nf. unfold framework_of. rewrite E. reflexivity.
Qed.
Print Assumptions C72_own_objects.

(** In particular: all threads ask the same question (gradient or hessian at the same F and with
    the same state variables) on the same object. *)
Theorem C72_same_question : forall (SV : Type) (w : world (SV := SV)) (n : nat) (F : T2) (sv : SV) (hs : list bool),
  keeps_state (fws w (snd (spaces w n))) ->
  let qs := map (fun b => {| on := n; hess := b; arg := F; state := sv |}) hs in
  forall i q, nth_error qs i = Some q ->
  forall h sched x, answer (interleave sched (h, map (program w) qs)) i = Some x -> x = expected w q.
Proof.
  intros SV w n F sv hs K qs i q Hq. apply (C72_every_schedule SV w qs); [|exact Hq].
  intros a b qa qb _ Ha Hb. unfold qs in Ha, Hb. rewrite nth_error_map in Ha, Hb.
  destruct (nth_error hs a); [|discriminate]. destruct (nth_error hs b); [|discriminate].
  injection Ha as <-. injection Hb as <-. split; [reflexivity|]. intros _. split; [reflexivity|split; [reflexivity|exact K]].
Qed.
Print Assumptions C72_same_question.

(** With a lock around every call: any calls on any shared objects, every schedule. *)
Theorem C72_lock : forall (SV : Type) (w : world (SV := SV)) (qs : list request) h sched i q x,
  nth_error qs i = Some q ->
  lanswer (linterleave sched (h, false, map (fun q => Waits (program w q)) qs)) i = Some x -> x = expected w q.
Proof.
  intros SV w qs h sched i q x Hq Hx.
  rewrite <- (map_map (program w) Waits) in Hx.
  assert (Hr : expected w (nth i qs q) = expected w q) by (rewrite (nth_error_nth qs i q Hq); reflexivity).
  rewrite <- Hr. refine (lock_threads (fun j => expected w (nth j qs q)) _ _ h sched i x Hx).
  intros j p Hj hh. rewrite nth_error_map in Hj. destruct (nth_error qs j) as [qj|] eqn:E; [|discriminate].
  injection Hj as <-. rewrite (nth_error_nth qs j q E). apply program_alone.
Qed.
Print Assumptions C72_lock.

(** The lock does not dead-lock: whatever has happened so far, all calls can be completed. *)
Theorem C72_lock_progress : forall (SV : Type) (w : world (SV := SV)) (qs : list request) h sched,
  exists more, forall i q, nth_error qs i = Some q ->
  lanswer (linterleave (sched ++ more) (h, false, map (fun q => Waits (program w q)) qs)) i = Some (expected w q).
Proof.
  intros SV w qs h sched. destruct (lock_progress (map (program w) qs) h sched) as [more H]. rewrite map_map in H.
  exists more. intros i q Hq. destruct (H i) as [r Hr].
  - rewrite map_length. apply nth_error_Some. congruence.
  - rewrite Hr. f_equal. exact (C72_lock SV w qs h _ i q r Hq Hr).
Qed.
Print Assumptions C72_lock_progress.

(** ** Without a lock the object must not be shared *)
(** Mooney-Rivlin with C10 = 0, C01 = 1/2. *)
Definition mooney : InvModel unit := tod_model (tod_init 0 (1 / 2) 0 0 0 false).
(** Two spaces, number 0 and number 1, on one framework, number 0. *)
Definition two_spaces : world (SV := unit) :=
  {| spaces := fun n => (KDeformation, default_opts, 0%nat); fws := fun _ => OInv mooney |}.
Definition scaled_one (c : R) : T2 := fun i j => if ix3_eqb i j then c else 0.
Definition ask (n : nat) (c : R) : request := {| on := n; hess := false; arg := scaled_one c; state := tt |}.
Definition stress_reply (c : R) : Result (reply (SV := unit)) := Ok (GradReply (StressFull (scaled_one c), tt)).

Definition mooney_lit : InvModel unit :=
  {| im_gradient := fun _ _ _ sv => Ok ((None, Some (0 + 1 / 2), None), sv); im_hessian := fun _ _ _ _ => Ok (fun _ => None) |}.
Lemma nonzero_0 : nonzero 0 = false.
Proof. unfold nonzero. destruct (Req_EM_T 0 0); [reflexivity|congruence]. Qed.
Lemma nonzero_12 : nonzero (1 / 2) = true.
Proof. unfold nonzero. destruct (Req_EM_T (1 / 2) 0); [lra|reflexivity]. Qed.
Lemma mooney_is : mooney = mooney_lit.
Proof.
  unfold mooney, mooney_lit, tod_model. f_equal.
  - repeat (apply functional_extensionality; intro). unfold tod_gradient, tod_init.
    cbn [C10 C01 C11 C20 C30 undeformed]. rewrite nonzero_0, nonzero_12. reflexivity.
  - repeat (apply functional_extensionality; intro). unfold tod_hessian, tod_init.
    cbn [C10 C01 C11 C20 C30 undeformed]. rewrite nonzero_0. cbn.
    f_equal. apply functional_extensionality. intros []; reflexivity.
Qed.
Lemma interleave_cons {A} i s (c : heap * list (prog A)) : interleave (i :: s) c = interleave s (stepn i c).
Proof. reflexivity. Qed.
Ltac stp := rewrite interleave_cons; unfold stepn at 1; cbn [nth_error fst snd step1 Threads.set_nth pbind wr rdR rdO rd3 rd6 rdM call num pif];
  repeat first [rewrite upd_same; cbn [pbind num pif call] | rewrite upd_other by congruence]; cbn [nth_error fst snd step1 Threads.set_nth pbind wr rdR rdO rd3 rd6 rdM call num pif].
Ltac finish_race :=
  unfold answer, interleave; cbn [fold_left nth_error snd result]; unfold stress_reply; do 4 f_equal;
  unfold piola_stress; cbn [finalize force area default_opts]; f_equal; apply T2_ext; intros [] [];
  unfold es_force, astensor, right_CG, asvoigt, scaled_one, vscal, vadd, vsub, vzero, trace, eye, sum3; cbn; lra.
Ltac start_race :=
  unfold two_spaces; rewrite mooney_is; cbn [repeat app map]; unfold program;
  cbn [spaces on ask hess arg state fws fw_gradient_p sp_gradient_p]; unfold def_gradient_p, inv_gradient_p;
  cbn [pbind wr rdR rdO rd3 rd6 rdM call num pif mooney_lit im_gradient].
Lemma race_space h : answer (interleave (repeat 0%nat 19 ++ repeat 1%nat 20 ++ [0%nat]) (h, map (program two_spaces) [ask 0 1; ask 0 2])) 0%nat = Some (stress_reply 8).
Proof. start_race. do 40 stp. finish_race. Qed.
Lemma race_framework h : answer (interleave (repeat 0%nat 15 ++ repeat 1%nat 20 ++ repeat 0%nat 5) (h, map (program two_spaces) [ask 0 1; ask 1 2])) 0%nat = Some (stress_reply 8).
Proof. start_race. do 40 stp. finish_race. Qed.
Lemma ask_alone n c : expected two_spaces (ask n c) = stress_reply (2 * c ^ 3).
Proof.
  unfold expected. cbn [spaces two_spaces on ask hess fws arg state]. unfold two_spaces. rewrite mooney_is.
  cbn [fws fw_of fresh]. unfold outcome. cbn [sp_gradient]. unfold def_gradient, bind, modify, get, put, on_mat, bind, get, put, ret.
  cbn [sp_mat set_C space_self0 invariants_fw fw_gradient]. unfold inv_gradient, bind, modify, get, put, lift, ret, bind, get, put.
  cbn [mooney_lit im_gradient if_some ret snd rmap]. unfold stress_reply. do 3 f_equal.
  unfold piola_stress; cbn [finalize force area default_opts]; f_equal; apply T2_ext; intros [] [];
  unfold es_force, astensor, right_CG, asvoigt, scaled_one, vscal, vadd, vsub, vzero, trace, eye, sum3; cbn; lra.
Qed.

(** Two threads call [gradient] of one object with F = 1 and F = 2·1.  There is a schedule under
    which thread 0 returns 8·1: neither its own stress 2·1 nor the other thread's stress 16·1. *)
Theorem C72_shared_space_refuted : forall h, exists sched,
  answer (interleave sched (h, map (program two_spaces) [ask 0 1; ask 0 2])) 0%nat = Some (stress_reply 8) /\
  expected two_spaces (ask 0 1) = stress_reply 2 /\ expected two_spaces (ask 0 2) = stress_reply 16.
Proof.
  intro h. eexists. split; [apply race_space|]. rewrite !ask_alone. split; do 2 f_equal; lra.
Qed.
Print Assumptions C72_shared_space_refuted.
(** The same with two different spaces on one framework object. *)
Theorem C72_shared_framework_refuted : forall h, exists sched,
  answer (interleave sched (h, map (program two_spaces) [ask 0 1; ask 1 2])) 0%nat = Some (stress_reply 8) /\
  expected two_spaces (ask 0 1) = stress_reply 2 /\ expected two_spaces (ask 1 2) = stress_reply 16.
Proof.
  intro h. eexists. split; [apply race_framework|]. rewrite !ask_alone. split; do 2 f_equal; lra.
Qed.
Print Assumptions C72_shared_framework_refuted.

(** The hypotheses can be met: three threads, two spaces on one framework, one question. *)
Example compatible_calls : all_compatible two_spaces [ask 0 2; ask 1 2; {| on := 1%nat; hess := true; arg := scaled_one 2; state := tt |}].
Proof.
  intros i j q q' _ Hi Hj.
  assert (A : forall k p, nth_error [ask 0 2; ask 1 2; {| on := 1%nat; hess := true; arg := scaled_one 2; state := tt |}] k = Some p ->
     arg p = scaled_one 2 /\ state p = tt).
  { intros [|[|[|k]]] p E; cbn in E; try (injection E as <-; split; reflexivity). destruct k; discriminate. }
  destruct (A _ _ Hi) as [A1 A2], (A _ _ Hj) as [B1 B2]. split; [intros _; congruence|].
  intros _. unfold handed. cbn [spaces two_spaces fst]. rewrite A1, B1, A2, B2. repeat split.
Qed.
Example compatible_answer : exists n, forall h sched, (n <= count_occ Nat.eq_dec sched 1)%nat ->
  answer (interleave sched (h, map (program two_spaces) [ask 0 2; ask 1 2; {| on := 1%nat; hess := true; arg := scaled_one 2; state := tt |}])) 1%nat
  = Some (stress_reply 16).
Proof.
  destruct (C72_every_schedule _ _ _ compatible_calls 1%nat (ask 1 2) eq_refl) as [_ [n H]].
  exists n. intros h sched Hs. rewrite (H h sched Hs), ask_alone. do 3 f_equal. lra.
Qed.
