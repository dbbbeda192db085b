(** * Proofs about Torch.v *)
From Coq Require Import Reals Lra Lia List Bool Arith FunctionalExtensionality.
From Coquelicot Require Import Coquelicot.
From Verif Require Import Tensor Py Models Calc Torch.
Import ListNotations.
Local Open Scope R_scope.

(** ** Evaluation of tapes *)
Section EV.
  Context {A : Type} (step : (nat -> A) -> op -> A) (d : A).
  Lemma run_snoc t o : run step d (t ++ [o]) = run step d t ++ [step (ev step d t) o].
  Proof. unfold run at 1. rewrite fold_left_app. reflexivity. Qed.
  Lemma run_len t : length (run step d t) = length t.
  Proof.
    induction t as [|o t IH] using rev_ind; [reflexivity|].
    rewrite run_snoc, !app_length, IH. reflexivity.
  Qed.
  Lemma run_app t t' : exists l, run step d (t ++ t') = run step d t ++ l.
  Proof.
    induction t' as [|o t' IH] using rev_ind; [exists []; now rewrite !app_nil_r|].
    destruct IH as [l E]. rewrite app_assoc, run_snoc, E, <- app_assoc. eexists; reflexivity.
  Qed.
  Lemma ev_app t t' i : (i < length t)%nat -> ev step d (t ++ t') i = ev step d t i.
  Proof.
    intros L. destruct (run_app t t') as [l E]. unfold ev. rewrite E, app_nth1; [reflexivity|]. now rewrite run_len.
  Qed.
  Hypothesis local : forall f f' o, (forall k, is_arg k o -> f k = f' k) -> step f o = step f' o.
  Lemma ev_at t i o : nth_error t i = Some o -> (forall k, is_arg k o -> (k < i)%nat) ->
    ev step d t i = step (ev step d t) o.
  Proof.
    intros E L. destruct (nth_error_split t i E) as (l1 & l2 & -> & <-).
    assert (E1 : l1 ++ o :: l2 = (l1 ++ [o]) ++ l2) by (rewrite <- app_assoc; reflexivity).
    rewrite E1. rewrite ev_app by (rewrite app_length; cbn; lia).
    unfold ev at 1. rewrite run_snoc, app_nth2; rewrite run_len; [|lia]. rewrite Nat.sub_diag. cbn.
    apply local. intros k Hk. symmetry. rewrite <- app_assoc. apply ev_app. exact (L k Hk).
  Qed.
End EV.

Lemma vlocal X f f' o : (forall k, is_arg k o -> f k = f' k) -> vstep X f o = vstep X f' o.
Proof. intros H; destruct o; cbn; try reflexivity; repeat (rewrite H by (unfold is_arg; cbn; auto)); reflexivity. Qed.
Lemma rlocal x f f' o : (forall k, is_arg k o -> f k = f' k) -> rstep x f o = rstep x f' o.
Proof. intros H; destruct o; cbn; try reflexivity; repeat (rewrite H by (unfold is_arg; cbn; auto)); reflexivity. Qed.

(** Directional derivative of the entries (forward mode). *)
Definition dstep (X dX : Vec3) (v : nat -> R) (d : nat -> R) (o : op) : R :=
  match o with
  | OInp x => dX x
  | ONum _ => 0
  | OAdd a b => d a + d b
  | OSub a b => d a - d b
  | OMul a b => d a * v b + v a * d b
  | ODiv a b => (d a * v b - v a * d b) / v b ^ 2
  | ONeg a => - d a
  | OPowN a n => INR n * v a ^ pred n * d a
  | OPow a p => p * Rpower (v a) (p - 1) * d a
  | OExp a => exp (v a) * d a
  | OLog a => d a / v a
  | OSqrt a => d a / (2 * sqrt (v a))
  end.
(** Value and derivative are evaluated together. *)
Definition vdstep (X dX : Vec3) (f : nat -> R * R) (o : op) : R * R :=
  (vstep X (fun i => fst (f i)) o, dstep X dX (fun i => fst (f i)) (fun i => snd (f i)) o).
Definition D (X dX : Vec3) (t : tape) (i : nat) : R := snd (ev (vdstep X dX) (0, 0) t i).
Lemma vd_fst X dX t i : fst (ev (vdstep X dX) (0, 0) t i) = V X t i.
Proof.
  unfold V. revert i. induction t as [|o t IH] using rev_ind; intros i.
  - unfold ev, run; cbn. now destruct i.
  - unfold ev. rewrite !run_snoc. destruct (lt_eq_lt_dec i (length t)) as [[L|L]|L].
    + rewrite !app_nth1 by (rewrite run_len; auto). apply IH.
    + rewrite !app_nth2 by (rewrite run_len; lia). rewrite !run_len, L, Nat.sub_diag. cbn.
      apply vlocal. intros k _. apply IH.
    + rewrite !nth_overflow; [reflexivity| |]; rewrite app_length, run_len; cbn; lia.
Qed.
Lemma vdlocal X dX f f' o : (forall k, is_arg k o -> f k = f' k) -> vdstep X dX f o = vdstep X dX f' o.
Proof. intros H; unfold vdstep; destruct o; cbn; try reflexivity; repeat (rewrite H by (unfold is_arg; cbn; auto)); reflexivity. Qed.

(** ** Well-formed tapes *)
Record wf (t : tape) : Prop := {
  wf_args : forall i o k, nth_error t i = Some o -> is_arg k o -> (k < i)%nat;
  wf_leaf : forall x, nth_error t (leaf x) = Some (OInp x);
  wf_inp : forall i x, nth_error t i = Some (OInp x) -> i = leaf x }.

Lemma nth_error_lt {A} (t : list A) i o : nth_error t i = Some o -> (i < length t)%nat.
Proof. intros E. apply nth_error_Some. congruence. Qed.
Lemma V_app X t t' i : (i < length t)%nat -> V X (t ++ t') i = V X t i.
Proof. apply ev_app. Qed.
Lemma D_app X dX t t' i : (i < length t)%nat -> D X dX (t ++ t') i = D X dX t i.
Proof. intros L. unfold D. now rewrite ev_app. Qed.
Lemma reach_app x t t' i : (i < length t)%nat -> reach x (t ++ t') i = reach x t i.
Proof. apply ev_app. Qed.
Lemma V_at X t i o : wf t -> nth_error t i = Some o -> V X t i = vstep X (V X t) o.
Proof. intros W E. apply (ev_at _ _ (vlocal X)); auto. intros k; exact (wf_args _ W _ _ _ E). Qed.
Lemma reach_at x t i o : wf t -> nth_error t i = Some o -> reach x t i = rstep x (reach x t) o.
Proof. intros W E. apply (ev_at _ _ (rlocal x)); auto. intros k; exact (wf_args _ W _ _ _ E). Qed.
Lemma D_at X dX t i o : wf t -> nth_error t i = Some o -> D X dX t i = dstep X dX (V X t) (D X dX t) o.
Proof.
  intros W E. unfold D. rewrite (ev_at _ _ (vdlocal X dX) t i o E) by (intros k; exact (wf_args _ W _ _ _ E)).
  cbn. replace (fun i0 => fst (ev (vdstep X dX) (0, 0) t i0)) with (V X t); [reflexivity|].
  apply functional_extensionality; intro; now rewrite vd_fst.
Qed.

Lemma wf_snoc t o : wf t -> (forall x, o <> OInp x) -> (forall k, is_arg k o -> (k < length t)%nat) -> wf (t ++ [o]).
Proof.
  intros [A B C] N K. split.
  - intros i o' k E Hk. destruct (lt_dec i (length t)) as [L|L].
    + rewrite nth_error_app1 in E by auto. eauto.
    + pose proof (nth_error_lt _ _ _ E) as L'. rewrite app_length in L'; cbn in L'.
      assert (i = length t) by lia; subst i. rewrite nth_error_app2, Nat.sub_diag in E by lia.
      injection E as <-. auto.
  - intros x. rewrite nth_error_app1; [apply B|]. exact (nth_error_lt _ _ _ (B x)).
  - intros i x E. destruct (lt_dec i (length t)) as [L|L].
    + rewrite nth_error_app1 in E by auto. eauto.
    + pose proof (nth_error_lt _ _ _ E) as L'. rewrite app_length in L'; cbn in L'.
      assert (i = length t) by lia; subst i. rewrite nth_error_app2, Nat.sub_diag in E by lia.
      injection E as ->. exfalso; eapply N; reflexivity.
Qed.

(** One more operation: its value, derivative, dependence; the condition it needs. *)
Definition ok_op (X : Vec3) (t : tape) (o : op) : Prop :=
  match o with
  | ODiv _ b => V X t b <> 0
  | OPow a _ | OLog a | OSqrt a => 0 < V X t a
  | _ => True
  end.
Lemma ok_op_ext X t t' o : (forall k, is_arg k o -> (k < length t)%nat) -> ok_op X t o <-> ok_op X (t ++ t') o.
Proof. intros L; destruct o; cbn; try tauto; rewrite V_app by (apply L; unfold is_arg; cbn; auto); tauto. Qed.
Lemma regular_op X t : regular t X <-> forall i o, nth_error t i = Some o -> ok_op X t o.
Proof. unfold regular, ok_op. tauto. Qed.
Lemma regular_snoc X t o : wf t -> (forall k, is_arg k o -> (k < length t)%nat) ->
  regular (t ++ [o]) X <-> regular t X /\ ok_op X t o.
Proof.
  intros W K. rewrite !regular_op. split.
  - intros H. split.
    + intros i o' E. rewrite (ok_op_ext X t [o]). 
      * apply (H i). rewrite nth_error_app1; [exact E|exact (nth_error_lt _ _ _ E)].
      * intros k Hk. pose proof (wf_args _ W _ _ _ E Hk). pose proof (nth_error_lt _ _ _ E). lia.
    + rewrite (ok_op_ext X t [o]) by auto. apply (H (length t)). rewrite nth_error_app2, Nat.sub_diag by lia. reflexivity.
  - intros [H1 H2] i o' E. destruct (lt_dec i (length t)) as [L|L].
    + rewrite nth_error_app1 in E by auto. rewrite <- (ok_op_ext X t [o]); [eauto|].
      intros k Hk. pose proof (wf_args _ W _ _ _ E Hk). lia.
    + pose proof (nth_error_lt _ _ _ E) as L'. rewrite app_length in L'; cbn in L'.
      assert (i = length t) by lia; subst i. rewrite nth_error_app2, Nat.sub_diag in E by lia.
      injection E as <-. now rewrite <- (ok_op_ext X t [o]).
Qed.
Lemma V_snoc X t o : V X (t ++ [o]) (length t) = vstep X (V X t) o.
Proof. unfold V, ev at 1. rewrite run_snoc, app_nth2; rewrite run_len; [|lia]. now rewrite Nat.sub_diag. Qed.
Lemma reach_snoc x t o : reach x (t ++ [o]) (length t) = rstep x (reach x t) o.
Proof. unfold reach, ev at 1. rewrite run_snoc, app_nth2; rewrite run_len; [|lia]. now rewrite Nat.sub_diag. Qed.

(** ** The derivative is the derivative *)
Lemma D_exp (f : R -> R) t a : is_derive f t a -> is_derive (fun x => exp (f x)) t (exp (f t) * a).
Proof. intros H. eapply D_eq; [exact (D_comp exp f t _ _ (is_derive_exp (f t)) H)|]. ring. Qed.
Lemma D_ln (f : R -> R) t a : is_derive f t a -> 0 < f t -> is_derive (fun x => ln (f x)) t (a / f t).
Proof. intros H P. eapply D_eq; [exact (D_comp ln f t _ _ (is_derive_ln (f t) P) H)|]. unfold Rdiv; ring. Qed.
Lemma D_pown (f : R -> R) n t a : is_derive f t a -> is_derive (fun x => f x ^ n) t (INR n * f t ^ pred n * a).
Proof. intros H. eapply D_eq; [exact (is_derive_pow f n t a H)|]. ring. Qed.

Lemma D_correct t (I : R -> Vec3) s0 dI : wf t -> regular t (I s0) -> dcurve3 I s0 dI ->
  forall i, (i < length t)%nat -> is_derive (fun s => V (I s) t i) s0 (D (I s0) dI t i).
Proof.
  intros W Hr HI i. induction i as [i IH] using lt_wf_ind. intros L.
  destruct (nth_error t i) as [o|] eqn:E; [|apply nth_error_None in E; lia].
  apply D_ext with (fun s => vstep (I s) (V (I s) t) o); [intro s; symmetry; apply V_at; auto|].
  rewrite (D_at _ _ _ _ _ W E). pose proof (Hr _ _ E) as Ho.
  assert (IHk : forall k, is_arg k o -> is_derive (fun s => V (I s) t k) s0 (D (I s0) dI t k)).
  { intros k Hk. pose proof (wf_args _ W _ _ _ E Hk). apply IH; lia. }
  destruct o; cbn [vstep dstep] in *;
    try (assert (Ha := IHk a ltac:(unfold is_arg; cbn; auto)));
    try (assert (Hb := IHk b ltac:(unfold is_arg; cbn; auto))).
  - apply HI.
  - exact (D_const c s0).
  - now apply D_plus.
  - now apply D_minus.
  - now apply (D_mult (fun s => V (I s) t a) (fun s => V (I s) t b)).
  - now apply (D_div (fun s => V (I s) t a) (fun s => V (I s) t b)).
  - now apply D_opp.
  - now apply (D_pown (fun s => V (I s) t a)).
  - now apply (D_pow (fun s => V (I s) t a)).
  - now apply (D_exp (fun s => V (I s) t a)).
  - now apply (D_ln (fun s => V (I s) t a)).
  - now apply (D_sqrt (fun s => V (I s) t a)).
Qed.

(** Linear in the direction; unit directions. *)
Definition unit3 (x : ix3) : Vec3 := fun k => delta x k.
Lemma D_linear X dX t : wf t -> regular t X -> forall i, (i < length t)%nat ->
  D X dX t i = sum3 (fun k => D X (unit3 k) t i * dX k).
Proof.
  intros W Hr i. induction i as [i IH] using lt_wf_ind. intros L.
  destruct (nth_error t i) as [o|] eqn:E; [|apply nth_error_None in E; lia].
  pose proof (Hr _ _ E) as Ho.
  assert (IHk : forall k, is_arg k o -> D X dX t k = sum3 (fun l => D X (unit3 l) t k * dX l)).
  { intros k Hk. pose proof (wf_args _ W _ _ _ E Hk). apply IH; lia. }
  unfold sum3 in *. rewrite !(D_at _ _ _ _ _ W E).
  destruct o; cbn [dstep] in *;
    try rewrite (IHk a ltac:(unfold is_arg; cbn; auto));
    try rewrite (IHk b ltac:(unfold is_arg; cbn; auto)); try ring.
  - destruct x; unfold unit3, delta; cbn; ring.
  - field; auto.
  - field. lra.
  - assert (sqrt (V X t a) <> 0) by (apply Rgt_not_eq, sqrt_lt_R0; auto). field; auto.
Qed.
Lemma D_unreach X x t : wf t -> forall i, (i < length t)%nat -> reach x t i = false -> D X (unit3 x) t i = 0.
Proof.
  intros W i. induction i as [i IH] using lt_wf_ind. intros L Hx.
  destruct (nth_error t i) as [o|] eqn:E; [|apply nth_error_None in E; lia].
  rewrite (reach_at _ _ _ _ W E) in Hx. rewrite (D_at _ _ _ _ _ W E).
  assert (IHk : forall k, is_arg k o -> reach x t k = false -> D X (unit3 x) t k = 0).
  { intros k Hk. pose proof (wf_args _ W _ _ _ E Hk). apply IH; lia. }
  destruct o; cbn [dstep rstep] in *; try (apply orb_false_elim in Hx; destruct Hx as [Hx Hx']);
    try rewrite (IHk a ltac:(unfold is_arg; cbn; auto) Hx);
    try rewrite (IHk b ltac:(unfold is_arg; cbn; auto) Hx'); unfold Rdiv; try ring.
  unfold unit3, delta. now rewrite Hx.
Qed.
(** An entry that does not reach x does not change with x. *)
Lemma V_unreach (X Y : Vec3) t : wf t -> forall i, (i < length t)%nat ->
  (forall x, reach x t i = true -> X x = Y x) -> V X t i = V Y t i.
Proof.
  intros W i. induction i as [i IH] using lt_wf_ind. intros L Hx.
  destruct (nth_error t i) as [o|] eqn:E; [|apply nth_error_None in E; lia].
  assert (Hx' : forall x, rstep x (reach x t) o = true -> X x = Y x).
  { intros x. rewrite <- (reach_at _ _ _ _ W E). apply Hx. }
  rewrite !(V_at _ _ _ _ W E).
  assert (IHk : forall k, is_arg k o -> (forall x, reach x t k = true -> X x = Y x) -> V X t k = V Y t k).
  { intros k Hk. pose proof (wf_args _ W _ _ _ E Hk). apply IH; lia. }
  destruct o; cbn [vstep rstep] in *;
    try rewrite (IHk a ltac:(unfold is_arg; cbn; auto)) by (intros y Hy; apply Hx'; rewrite ?Hy; auto using orb_true_l);
    try rewrite (IHk b ltac:(unfold is_arg; cbn; auto)) by (intros y Hy; apply Hx'; rewrite ?Hy; auto using orb_true_r);
    try reflexivity.
  apply Hx'. now destruct x.
Qed.

(** ** Vector-Jacobian products *)
Definition part1 (v : nat -> R) (o : op) : R :=
  match o with
  | OAdd _ _ | OSub _ _ => 1
  | OMul _ b => v b
  | ODiv _ b => / v b
  | ONeg _ => -1
  | OPowN a n => INR n * v a ^ pred n
  | OPow a p => p * Rpower (v a) (p - 1)
  | OExp a => exp (v a)
  | OLog a => / v a
  | OSqrt a => / (2 * sqrt (v a))
  | OInp _ | ONum _ => 1
  end.
Definition part2 (v : nat -> R) (o : op) : R :=
  match o with OAdd _ _ => 1 | OSub _ _ => -1 | OMul a _ => v a | ODiv a b => - v a / v b ^ 2 | _ => 1 end.
Definition at_arg (d : nat -> R) (a : option nat) : R := match a with Some k => d k | None => 0 end.
Lemma dstep_parts X dX t d o : (forall x, o <> OInp x) -> ok_op X t o ->
  dstep X dX (V X t) d o = part1 (V X t) o * at_arg d (arg1 o) + part2 (V X t) o * at_arg d (arg2 o).
Proof.
  intros N Ho. destruct o; cbn in *; try ring.
  - exfalso; eapply N; reflexivity.
  - field; auto.
  - field; lra.
  - assert (sqrt (V X t a) <> 0) by (apply Rgt_not_eq, sqrt_lt_R0; auto). field; auto.
Qed.

(** Recording operations that are well-formed and regular. *)
Definition good (t ops : tape) : Prop := wf (t ++ ops) /\ forall X, regular t X -> regular (t ++ ops) X.
Lemma good_nil t : wf t -> good t [].
Proof. intros W; split; intros; now rewrite app_nil_r. Qed.
Lemma good_snoc t ops o : good t ops -> (forall x, o <> OInp x) ->
  (forall k, is_arg k o -> (k < length t + length ops)%nat) ->
  (forall X, regular t X -> regular (t ++ ops) X -> ok_op X (t ++ ops) o) -> good t (ops ++ [o]).
Proof.
  intros [W G] N K O. rewrite <- app_length in K. split; rewrite app_assoc.
  - now apply wf_snoc.
  - intros X Hr. apply regular_snoc; auto.
Qed.
Lemma V_new X t ops i o : wf (t ++ ops) -> nth_error ops i = Some o -> V X (t ++ ops) (i + length t) = vstep X (V X (t ++ ops)) o.
Proof.
  intros W E. apply V_at; auto. rewrite nth_error_app2 by lia. rewrite Nat.add_sub. exact E.
Qed.
Lemma reach_new x t ops i o : wf (t ++ ops) -> nth_error ops i = Some o -> reach x (t ++ ops) (i + length t) = rstep x (reach x (t ++ ops)) o.
Proof.
  intros W E. apply reach_at; auto. rewrite nth_error_app2 by lia. rewrite Nat.add_sub. exact E.
Qed.

(** [w] records operations whose result has the value [Wf] and depends on nothing that
    the entries in [from] do not depend on. *)
Definition vjp_ok (t : tape) (w : nat -> list op * nat) (Wf : Vec3 -> R) (from : nat -> Prop) : Prop :=
  let '(ops, c) := w (length t) in
  good t ops /\ (c < length (t ++ ops))%nat /\
  (forall X, regular t X -> V X (t ++ ops) c = Wf X) /\
  (forall y, (forall k, from k -> (k < length t)%nat /\ reach y t k = false) -> reach y (t ++ ops) c = false).

Ltac isarg := unfold is_arg; cbn; auto.
Ltac args_lt := intros ?k Hk; destruct Hk as [Hk|Hk]; cbn in Hk; try discriminate Hk; injection Hk as <-; cbn; try lia.
Ltac gsnoc L := first [ apply good_nil; assumption
  | match goal with |- good ?t (?o :: nil) => apply (good_snoc t [] o) end
  | match goal with |- good ?t (?a :: ?o :: nil) => apply (good_snoc t [a] o) end
  | match goal with |- good ?t (?a :: ?b :: ?o :: nil) => apply (good_snoc t [a; b] o) end
  | match goal with |- good ?t (?a :: ?b :: ?c :: ?o :: nil) => apply (good_snoc t [a; b; c] o) end ].

Ltac split3' := split; [|split; [|split]].
Section VJP.
  Context (t : tape) (W : wf t) (j g : nat) (o : op).
  Hypothesis Hj : nth_error t j = Some o.
  Hypothesis Hg : (g < length t)%nat.
  Let Lj : (j < length t)%nat := nth_error_lt _ _ _ Hj.
  Let La k : is_arg k o -> (k < length t)%nat.
  Proof. intros Hk. pose proof (wf_args _ W _ _ _ Hj Hk). lia. Qed.

  Lemma vjp1_ok : (forall x, o <> OInp x) ->
    vjp_ok t (fun L => vjp1 L g j o) (fun X => V X t g * part1 (V X t) o) (fun k => k = g \/ (saves o = true /\ (is_arg k o \/ k = j))).
  Proof.
    intros N. unfold vjp_ok.
    assert (Hok : forall X, regular t X -> ok_op X t o) by (intros X Hr; exact (Hr _ _ Hj)).
    assert (Vj : forall X, V X t j = vstep X (V X t) o) by (intros X; now apply V_at).
    assert (POW : forall a (q : op) c, (a < length t)%nat -> arg1 q = Some a -> arg2 q = None ->
              (forall X, regular t X -> ok_op X t q) -> 
              good t [q; ONum c; OMul (length t) (1 + length t); OMul g (2 + length t)]).
    { intros a q c LA E1 E2 Hq.
      assert (Ak : forall k, is_arg k q -> k = a) by (intros k [Hk|Hk]; congruence).
      gsnoc tt; [gsnoc tt; [gsnoc tt; [gsnoc tt; [gsnoc tt| | | ]| | | ]| | | ]| | | ];
        try discriminate; try (intros; exact Logic.I); try args_lt.
      - intros x ->. discriminate E1.
      - intros k Hk. rewrite (Ak k Hk). lia.
      - intros X Hr _. rewrite app_nil_r. auto. }
    assert (POWV : forall a (q : op) c X, (a < length t)%nat ->
              good t [q; ONum c; OMul (length t) (1 + length t); OMul g (2 + length t)] ->
              (vstep X (V X (t ++ [q; ONum c; OMul (length t) (1 + length t); OMul g (2 + length t)])) q = vstep X (V X t) q) ->
              V X (t ++ [q; ONum c; OMul (length t) (1 + length t); OMul g (2 + length t)]) (3 + length t)
              = V X t g * (vstep X (V X t) q * c)).
    { intros a q c X LA [Wg _] Eq.
      rewrite (V_new X t _ 3 _ Wg eq_refl). cbn [vstep].
      rewrite (V_new X t _ 2 _ Wg eq_refl). cbn [vstep].
      rewrite (V_new X t _ 1 _ Wg eq_refl). cbn [vstep].
      rewrite (V_new X t _ 0 _ Wg eq_refl : V X _ (length t) = _).
      rewrite Eq. now rewrite (V_app X t _ g) by auto. }
    assert (POWR : forall (q : op) c y,
              good t [q; ONum c; OMul (length t) (1 + length t); OMul g (2 + length t)] ->
              reach y t g = false ->
              (rstep y (reach y (t ++ [q; ONum c; OMul (length t) (1 + length t); OMul g (2 + length t)])) q = false) ->
              reach y (t ++ [q; ONum c; OMul (length t) (1 + length t); OMul g (2 + length t)]) (3 + length t) = false).
    { intros q c y [Wg _] Rg Rq.
      rewrite (reach_new y t _ 3 _ Wg eq_refl). cbn [rstep].
      rewrite (reach_new y t _ 2 _ Wg eq_refl). cbn [rstep].
      rewrite (reach_new y t _ 1 _ Wg eq_refl). cbn [rstep].
      rewrite (reach_new y t _ 0 _ Wg eq_refl : reach y _ (length t) = _).
      rewrite Rq. now rewrite (reach_app y t _ g), Rg by auto. }
    destruct o as [x|c|a b|a b|a b|a b|a|a n|a p|a|a|a]; cbn [vjp1 part1 saves].
    - exfalso; eapply N; reflexivity.
    - split3'. now apply good_nil. rewrite app_nil_r; auto. intros X Hr. rewrite app_nil_r. ring. intros y Hy. rewrite app_nil_r. apply Hy; auto.
    - split3'. now apply good_nil. rewrite app_nil_r; auto. intros X Hr. rewrite app_nil_r. ring. intros y Hy. rewrite app_nil_r. apply Hy; auto.
    - split3'. now apply good_nil. rewrite app_nil_r; auto. intros X Hr. rewrite app_nil_r. ring. intros y Hy. rewrite app_nil_r. apply Hy; auto.
    - (* Mul *) assert (Lb := La b ltac:(isarg)). split3'.
      + gsnoc tt; [gsnoc tt| discriminate | args_lt | intros; exact Logic.I].
      + rewrite app_length; cbn; lia.
      + intros X Hr. rewrite V_snoc. reflexivity.
      + intros y Hy. rewrite reach_snoc. cbn. rewrite (proj2 (Hy g ltac:(auto))). apply Hy. right; split; [reflexivity|left; isarg].
    - (* Div *) assert (Lb := La b ltac:(isarg)). split3'.
      + gsnoc tt; [gsnoc tt| discriminate | args_lt |]. intros X Hr _. rewrite app_nil_r. exact (Hok X Hr).
      + rewrite app_length; cbn; lia.
      + intros X Hr. rewrite V_snoc. reflexivity.
      + intros y Hy. rewrite reach_snoc. cbn. rewrite (proj2 (Hy g ltac:(auto))). apply Hy. right; split; [reflexivity|left; isarg].
    - (* Neg *) split3'.
      + gsnoc tt; [gsnoc tt| discriminate | args_lt | intros; exact Logic.I].
      + rewrite app_length; cbn; lia.
      + intros X Hr. rewrite V_snoc. cbn. ring.
      + intros y Hy. rewrite reach_snoc. cbn. apply Hy; auto.
    - (* PowN *) assert (Lx := La a ltac:(isarg)). destruct n as [|n].
      + split3'.
        * gsnoc tt; [gsnoc tt| discriminate | args_lt | intros; exact Logic.I].
        * rewrite app_length; cbn; lia.
        * intros X Hr. rewrite V_snoc. cbn. ring.
        * intros y Hy. rewrite reach_snoc. reflexivity.
      + assert (G := POW a (OPowN a n) (INR (S n)) Lx eq_refl eq_refl (fun _ _ => Logic.I)).
        split3'.
        * exact G.
        * rewrite app_length; cbn; lia.
        * intros X Hr. rewrite (POWV a (OPowN a n) (INR (S n)) X Lx G). 
          -- cbn [vstep pred]. ring.
          -- cbn [vstep]. now rewrite V_app.
        * intros y Hy. apply (POWR (OPowN a n) (INR (S n)) y G); [apply Hy; auto|]. cbn [rstep]. rewrite reach_app by auto.
          apply Hy. right; split; [reflexivity|left; isarg].
    - (* Pow *) assert (Lx := La a ltac:(isarg)). destruct (Req_EM_T p 0) as [->|P].
      + split3'.
        * gsnoc tt; [gsnoc tt| discriminate | args_lt | intros; exact Logic.I].
        * rewrite app_length; cbn; lia.
        * intros X Hr. rewrite V_snoc. cbn. ring.
        * intros y Hy. rewrite reach_snoc. reflexivity.
      + assert (G := POW a (OPow a (p - 1)) p Lx eq_refl eq_refl (fun X Hr => Hok X Hr)).
        split3'.
        * exact G.
        * rewrite app_length; cbn; lia.
        * intros X Hr. rewrite (POWV a (OPow a (p - 1)) p X Lx G). 
          -- cbn [vstep]. ring.
          -- cbn [vstep]. now rewrite V_app.
        * intros y Hy. apply (POWR (OPow a (p - 1)) p y G); [apply Hy; auto|]. cbn [rstep]. rewrite reach_app by auto.
          apply Hy. right; split; [reflexivity|left; isarg].
    - (* Exp *) split3'.
      + gsnoc tt; [gsnoc tt| discriminate | args_lt | intros; exact Logic.I].
      + rewrite app_length; cbn; lia.
      + intros X Hr. rewrite V_snoc. cbn. now rewrite Vj.
      + intros y Hy. rewrite reach_snoc. cbn. rewrite (proj2 (Hy g ltac:(auto))). apply Hy. auto.
    - (* Log *) assert (Lx := La a ltac:(isarg)). split3'.
      + gsnoc tt; [gsnoc tt| discriminate | args_lt |]. intros X Hr _. rewrite app_nil_r. specialize (Hok X Hr). cbn in *. lra.
      + rewrite app_length; cbn; lia.
      + intros X Hr. rewrite V_snoc. reflexivity.
      + intros y Hy. rewrite reach_snoc. cbn. rewrite (proj2 (Hy g ltac:(auto))). apply Hy. right; split; [reflexivity|left; isarg].
    - (* Sqrt *) assert (Lx := La a ltac:(isarg)).
      assert (V2 : forall X, V X (t ++ [ONum 2; OMul j (length t)]) (1 + length t) = V X t j * 2).
      { intros X. replace (t ++ [ONum 2; OMul j (length t)]) with ((t ++ [ONum 2]) ++ [OMul j (length t)]) by (rewrite <- app_assoc; reflexivity).
        replace (1 + length t)%nat with (length (t ++ [ONum 2])) by (rewrite app_length; cbn; lia).
        rewrite V_snoc. cbn [vstep]. rewrite V_snoc, V_app by auto. reflexivity. }
      assert (G : good t [ONum 2; OMul j (length t); ODiv g (1 + length t)]).
      { gsnoc tt; [gsnoc tt; [gsnoc tt; [gsnoc tt| | | ]| | | ]| | | ];
          try discriminate; try (intros; exact Logic.I); try args_lt.
        intros X Hr _. cbn [ok_op]. rewrite V2, Vj. cbn [vstep].
        specialize (Hok X Hr). cbn in Hok. pose proof (sqrt_lt_R0 _ Hok). lra. }
      destruct G as [Wg Rg].
      split3'.
      + split; auto.
      + rewrite app_length; cbn; lia.
      + intros X Hr. rewrite (V_new X t _ 2 _ Wg eq_refl). cbn [vstep].
        rewrite (V_new X t _ 1 _ Wg eq_refl). cbn [vstep].
        rewrite (V_new X t _ 0 _ Wg eq_refl : V X _ (length t) = _). cbn [vstep].
        rewrite !V_app by auto. rewrite Vj. cbn [vstep]. unfold Rdiv. now rewrite (Rmult_comm 2).
      + intros y Hy. rewrite (reach_new y t _ 2 _ Wg eq_refl). cbn [rstep].
        rewrite (reach_new y t _ 1 _ Wg eq_refl). cbn [rstep].
        rewrite (reach_new y t _ 0 _ Wg eq_refl : reach y _ (length t) = _). cbn [rstep].
        rewrite !reach_app by auto. rewrite (proj2 (Hy g ltac:(auto))), (proj2 (Hy j ltac:(auto))). reflexivity.
  Qed.

  Lemma vjp2_ok : (forall x, o <> OInp x) ->
    vjp_ok t (fun L => vjp2 L g o) (fun X => V X t g * part2 (V X t) o) (fun k => k = g \/ (saves o = true /\ (is_arg k o \/ k = j))).
  Proof.
    intros N. unfold vjp_ok.
    assert (Hok : forall X, regular t X -> ok_op X t o) by (intros X Hr; exact (Hr _ _ Hj)).
    assert (NIL : good t [] /\ (g < length (t ++ []))%nat /\ (forall X, regular t X -> V X (t ++ []) g = V X t g * 1) /\
      (forall y, (forall k, (k = g \/ (saves o = true /\ (is_arg k o \/ k = j))) -> (k < length t)%nat /\ reach y t k = false) -> reach y (t ++ []) g = false)).
    { split3'. now apply good_nil. rewrite app_nil_r; auto. intros X Hr. rewrite app_nil_r. ring. intros y Hy. rewrite app_nil_r. apply Hy; auto. }
    destruct o as [x|c|a b|a b|a b|a b|a|a n|a p|a|a|a]; cbn [vjp2 part2 saves]; try exact NIL; clear NIL.
    - (* Sub *) split3'.
      + gsnoc tt; [gsnoc tt| discriminate | args_lt | intros; exact Logic.I].
      + rewrite app_length; cbn; lia.
      + intros X Hr. rewrite V_snoc. cbn. ring.
      + intros y Hy. rewrite reach_snoc. cbn. apply Hy; auto.
    - (* Mul *) assert (Lx := La a ltac:(isarg)). split3'.
      + gsnoc tt; [gsnoc tt| discriminate | args_lt | intros; exact Logic.I].
      + rewrite app_length; cbn; lia.
      + intros X Hr. rewrite V_snoc. reflexivity.
      + intros y Hy. rewrite reach_snoc. cbn. rewrite (proj2 (Hy g ltac:(auto))). apply Hy. right; split; [reflexivity|left; isarg].
    - (* Div *) assert (Lx := La a ltac:(isarg)). assert (Lb := La b ltac:(isarg)).
      assert (G : good t [ODiv a b; ODiv (length t) b; ONeg g; OMul (2 + length t) (1 + length t)]).
      { gsnoc tt; [gsnoc tt; [gsnoc tt; [gsnoc tt; [gsnoc tt| | | ]| | | ]| | | ]| | | ];
          try discriminate; try (intros; exact Logic.I); try args_lt.
        - intros X Hr _. cbn [ok_op]. rewrite V_app by auto. exact (Hok X Hr).
        - intros X Hr _. cbn [ok_op]. rewrite V_app by auto. exact (Hok X Hr). }
      destruct G as [Wg Rg].
      split3'.
      + split; auto.
      + rewrite app_length; cbn; lia.
      + intros X Hr. specialize (Hok X Hr). cbn in Hok.
        rewrite (V_new X t _ 3 _ Wg eq_refl). cbn [vstep].
        rewrite (V_new X t _ 2 _ Wg eq_refl). cbn [vstep].
        rewrite (V_new X t _ 1 _ Wg eq_refl). cbn [vstep].
        rewrite (V_new X t _ 0 _ Wg eq_refl : V X _ (length t) = _). cbn [vstep].
        rewrite !V_app by auto. field; auto.
      + intros y Hy. 
        assert (Ra : reach y t a = false) by (apply Hy; right; split; [reflexivity|left; isarg]).
        assert (Rb : reach y t b = false) by (apply Hy; right; split; [reflexivity|left; isarg]).
        rewrite (reach_new y t _ 3 _ Wg eq_refl). cbn [rstep].
        rewrite (reach_new y t _ 2 _ Wg eq_refl). cbn [rstep].
        rewrite (reach_new y t _ 1 _ Wg eq_refl). cbn [rstep].
        rewrite (reach_new y t _ 0 _ Wg eq_refl : reach y _ (length t) = _). cbn [rstep].
        rewrite !reach_app by auto. rewrite Ra, Rb. rewrite (proj2 (Hy g ltac:(auto))). reflexivity.
  Qed.
End VJP.
