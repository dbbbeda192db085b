(** * When TorchModel.hessian raises (proofs). *)
From Coq Require Import Reals Lra Lia List Bool Arith FunctionalExtensionality.
From Verif Require Import Tensor Py Models Frameworks Spaces Spec Torch TorchProofs TorchSweep TorchMain.
Import ListNotations.
Local Open Scope nat_scope.

Lemma uses_at t i o q : nth_error t i = Some o -> uses t i q <-> i = q \/ exists k, is_arg k o /\ uses t k q.
Proof.
  intros E. split.
  - intros H. induction H as [i|i p o' k U IH E' K].
    + auto.
    + destruct (IH E) as [<-|(k' & K' & U')].
      * rewrite E in E'. injection E' as <-. right. exists k. split; [auto|constructor].
      * right. exists k'. split; [auto|]. econstructor; eauto.
  - intros [->|(k & K & U)]; [constructor|]. apply uses_trans with k; [|auto]. eapply uses_step; [constructor|exact E|exact K].
Qed.
Lemma args1 k o : is_arg k o <-> arg1 o = Some k \/ arg2 o = Some k. Proof. reflexivity. Qed.

Definition needs1 (j : nat) (o : op) (p : nat) : Prop :=
  match o with
  | OMul _ c => p = c | ODiv _ c => p = c
  | OPowN b n => p = b /\ n <> O | OPow b r => p = b /\ r <> 0%R
  | OLog b => p = b | OExp _ | OSqrt _ => p = j | _ => False
  end.
Definition needs2 (j : nat) (o : op) (p : nat) : Prop :=
  match o with OMul b _ => p = b | ODiv b c => p = b \/ p = c | _ => False end.
Lemma needs12 j o k p : needs j o k p <-> (arg1 o = Some k /\ needs1 j o p) \/ (arg2 o = Some k /\ needs2 j o p).
Proof.
  destruct o; cbn; split; intros H;
    repeat match goal with
    | H : _ \/ _ |- _ => destruct H
    | H : _ /\ _ |- _ => destruct H
    | H : Some _ = Some _ |- _ => injection H as ?
    | H : Some _ = None |- _ => discriminate H
    | H : None = Some _ |- _ => discriminate H
    end; subst; auto 6; tauto.
Qed.
Lemma needs_arg j o a p : needs j o a p -> is_arg a o.
Proof. rewrite needs12. intros [[H _]|[H _]]; [left|right]; auto. Qed.
Lemma needs_self j o a p : needs j o a p -> p = j \/ is_arg p o.
Proof.
  destruct o; cbn; intros H;
    repeat match goal with H : _ \/ _ |- _ => destruct H | H : _ /\ _ |- _ => destruct H end; subst; try contradiction; auto; right; unfold is_arg; cbn; auto.
Qed.

Section USE.
  Context (x : ix3) (retain : bool) (t0 : tape) (W0 : wf t0) (root : nat) (Lr0 : root < length t0).

  Inductive F (n : nat) : nat -> nat -> Prop :=
  | F_refl a : reach x t0 a = true -> F n a a
  | F_step a m o k : F n a m -> n <= m -> nth_error t0 m = Some o -> is_arg k o -> ~ zero_power o -> reach x t0 k = true -> F n a k.
  Lemma F_le n a k : F n a k -> k <= a.
  Proof. intros H. induction H; [auto|]. pose proof (wf_args _ W0 _ _ _ H1 H2). lia. Qed.
  Lemma F_reach n a k : F n a k -> reach x t0 k = true.
  Proof. intros H; destruct H; auto. Qed.
  Lemma F_uses n a k : F n a k -> uses t0 a k.
  Proof. intros H; induction H; [constructor|]. econstructor; eauto. Qed.
  Lemma F_mono n m a k : m <= n -> F n a k -> F m a k.
  Proof. intros L H; induction H; [now constructor|]. eapply F_step; eauto. lia. Qed.
  Lemma F_split j a k : F j a k -> F (S j) a k \/ (F (S j) a j /\ exists o, nth_error t0 j = Some o /\ is_arg k o /\ ~ zero_power o /\ reach x t0 k = true).
  Proof.
    intros H. induction H as [a Ra|a m o k H IH Lm E K Z Rk]; [left; now constructor|].
    destruct IH as [IH|(IH & o' & E' & K' & _)].
    - destruct (Nat.eq_dec m j) as [->|N]; [right; eauto 8|]. left. eapply F_step; eauto. lia.
    - pose proof (wf_args _ W0 _ _ _ E' K'). lia.
  Qed.

  Definition src (n k q : nat) : Prop := exists j o a p,
    n <= j /\ execd x t0 root j /\ nth_error t0 j = Some o /\ needs j o a p /\ F n a k /\ uses t0 p q.

  Lemma has_args j o k : nth_error t0 j = Some o -> is_arg k o -> 3 <= j.
  Proof.
    intros E K. destruct (le_lt_dec 3 j) as [L|L]; [auto|].
    destruct (leaf_small t0 j W0 L) as (y & _ & Ey). rewrite Ey in E. injection E as <-. destruct K as [K|K]; discriminate K.
  Qed.
  Lemma src_step j k q : src j k q <-> src (S j) k q \/
    (execd x t0 root j /\ exists o, nth_error t0 j = Some o /\ is_arg k o /\ reach x t0 k = true /\
       ((~ zero_power o /\ src (S j) j q) \/ exists p, needs j o k p /\ uses t0 p q)).
  Proof.
    split.
    - intros (j' & o & a & p & Lj & EX & E & Nd & HF & U).
      pose proof (needs_arg _ _ _ _ Nd) as Ka. pose proof (wf_args _ W0 _ _ _ E Ka) as La.
      destruct (Nat.eq_dec j' j) as [->|N].
      + right. split; [exact EX|]. exists o. split; [auto|].
        assert (k = a).
        { inversion HF; subst; [auto|]. pose proof (F_le _ _ _ H). lia. }
        subst k. split; [auto|]. split; [exact (F_reach _ _ _ HF)|]. right. eauto.
      + destruct (F_split _ _ _ HF) as [HF'|(HF' & o' & E' & K' & Z' & R')].
        * left. exists j', o, a, p. repeat split; auto; try apply EX. lia.
        * right. split.
          { repeat split.
            - apply uses_trans with j'; [apply EX|]. apply uses_trans with a; [eapply uses_step; [constructor|exact E|exact Ka]|exact (F_uses _ _ _ HF')].
            - exact (F_reach _ _ _ HF').
            - exact (has_args _ _ _ E' K'). }
          exists o'. split; [auto|]. split; [auto|]. split; [auto|]. left. split; [auto|].
          exists j', o, a, p. repeat split; auto; try apply EX. lia.
    - intros [(j' & o & a & p & Lj & EX & E & Nd & HF & U)|(EX & o & E & K & Rk & [(Z & j' & o' & a & p & Lj & EX' & E' & Nd & HF & U)|(p & Nd & U)])].
      + exists j', o, a, p. repeat split; auto; try apply EX; [lia|]. eapply F_mono; [|exact HF]. lia.
      + exists j', o', a, p. repeat split; auto; try apply EX'; [lia|]. eapply F_step; [eapply F_mono; [|exact HF]; lia| |eauto|auto|auto|auto]. lia.
      + exists j, o, k, p. repeat split; auto; try apply EX. now constructor.
  Qed.

  (** What the gradient that has arrived at [k] is computed from. *)
  Definition A (t : tape) (acc : nat -> option nat) (k q : nat) : Prop := exists g, acc k = Some g /\ uses t g q.
  Definition Uinv (n : nat) (t : tape) (acc : nat -> option nat) : Prop :=
    (forall k g, acc k = Some g -> length t0 <= g) /\
    forall k q, q < length t0 -> A t acc k q <-> src n k q.

  Lemma A_app t ext acc k q : wf t -> (forall i g, acc i = Some g -> g < length t) -> A (t ++ ext) acc k q <-> A t acc k q.
  Proof.
    intros W B. split; intros (g & E & U); exists g; split; auto; [rewrite uses_app in U|rewrite uses_app]; eauto.
  Qed.

  Lemma ex_arg (P : nat -> Prop) o : (exists k, is_arg k o /\ P k) <->
    (match arg1 o with Some a => P a | None => False end) \/ (match arg2 o with Some a => P a | None => False end).
  Proof.
    unfold is_arg. split.
    - intros (k & [H|H] & HP); rewrite H; auto.
    - destruct (arg1 o) as [a|]; destruct (arg2 o) as [b|]; intros [H|H]; try contradiction; eauto.
  Qed.
  Lemma uses_new t ops i o q : nth_error ops i = Some o -> q < length t ->
    uses (t ++ ops) (i + length t) q <->
    (match arg1 o with Some a => uses (t ++ ops) a q | None => False end) \/ (match arg2 o with Some a => uses (t ++ ops) a q | None => False end).
  Proof.
    intros E L. rewrite (uses_at (t ++ ops) (i + length t) o q).
    - rewrite (ex_arg (fun k => uses (t ++ ops) k q)). split; [intros [H|H]; [lia|exact H]|auto].
    - rewrite nth_error_app2 by lia. rewrite Nat.add_sub. exact E.
  Qed.

  Section VJ.
    Context (t : tape) (W : wf t) (j g : nat) (o : op) (Hj : nth_error t j = Some o) (Lg : length t0 <= g < length t)
      (L0 : length t0 <= length t) (Lj : j < length t) (No : forall y, o <> OInp y).
    Let La : forall k, is_arg k o -> k < length t.
    Proof. intros k K. pose proof (wf_args _ W _ _ _ Hj K). lia. Qed.

    Lemma vjp1_uses : arg1 o <> None -> let '(ops, c) := vjp1 (length t) g j o in
      wf (t ++ ops) /\ length t0 <= c < length (t ++ ops) /\
      forall q, q < length t0 -> uses (t ++ ops) c q <-> (~ zero_power o /\ uses t g q) \/ exists p, needs1 j o p /\ uses t p q.
    Proof.
      intros NA. pose proof (vjp1_ok t W j g o Hj ltac:(lia) No) as HV. unfold vjp_ok in HV.
      destruct (vjp1 (length t) g j o) as [ops c] eqn:EV. destruct HV as ((WT & _) & Lc & _).
      split; [exact WT|].
      assert (OLD : forall k q, k < length t -> uses (t ++ ops) k q <-> uses t k q) by (intros; now apply uses_app).
      assert (NEW : forall i o' q, nth_error ops i = Some o' -> q < length t0 -> uses (t ++ ops) (i + length t) q <->
        (match arg1 o' with Some a => uses (t ++ ops) a q | None => False end) \/ (match arg2 o' with Some a => uses (t ++ ops) a q | None => False end)).
      { intros i o' q E L. apply uses_new; [auto|lia]. }
      rewrite app_length in *.
      destruct o as [y|c'|a b|a b|a b|a b|a|a [|n]|a p|a|a|a]; cbn [vjp1] in EV; try (exfalso; now apply NA).
      1,2: injection EV as <- <-; split; [lia|]; intros q Lq; rewrite OLD by lia; cbn; split; [auto|intros [H|(p & [] & _)]; apply H].
      - (* Mul *) injection EV as <- <-. split; [cbn; lia|]. intros q Lq.
        rewrite (NEW 0 _ q eq_refl Lq : uses _ (length t) q <-> _). cbn [arg1 arg2].
        rewrite !OLD by (try lia; apply La; unfold is_arg; cbn; auto).
        cbn. split; [intros [H|H]; eauto|intros [[_ H]|(p & -> & H)]; auto].
      - (* Div *) injection EV as <- <-. split; [cbn; lia|]. intros q Lq.
        rewrite (NEW 0 _ q eq_refl Lq : uses _ (length t) q <-> _). cbn [arg1 arg2].
        rewrite !OLD by (try lia; apply La; unfold is_arg; cbn; auto).
        cbn. split; [intros [H|H]; eauto|intros [[_ H]|(p & -> & H)]; auto].
      - (* Neg *) injection EV as <- <-. split; [cbn; lia|]. intros q Lq.
        rewrite (NEW 0 _ q eq_refl Lq : uses _ (length t) q <-> _). cbn [arg1 arg2].
        rewrite !OLD by (try lia; apply La; unfold is_arg; cbn; auto).
        cbn. split; [intros [H|[]]; eauto|intros [[_ H]|(p & [] & H)]; auto].
      - (* PowN 0 *) injection EV as <- <-. split; [cbn; lia|]. intros q Lq.
        rewrite (NEW 0 _ q eq_refl Lq : uses _ (length t) q <-> _). cbn [arg1 arg2].
        cbn. split; [intros [[]|[]]|intros [[H _]|(p & [_ H] & _)]; [exfalso; now apply H|congruence]].
      - (* PowN *) injection EV as <- <-. split; [cbn; lia|]. intros q Lq.
        rewrite (NEW 3 _ q eq_refl Lq : uses _ (3 + length t) q <-> _). cbn [arg1 arg2].
        rewrite (NEW 2 _ q eq_refl Lq : uses _ (2 + length t) q <-> _). cbn [arg1 arg2].
        rewrite (NEW 1 _ q eq_refl Lq : uses _ (1 + length t) q <-> _). cbn [arg1 arg2].
        rewrite (NEW 0 _ q eq_refl Lq : uses _ (length t) q <-> _). cbn [arg1 arg2].
        rewrite !OLD by (try lia; apply La; unfold is_arg; cbn; auto).
        cbn. split.
        + intros [H|[[H|[]]|[[]|[]]]]; [left; split; auto|right; exists a; auto].
        + intros [[_ H]|(p & [-> _] & H)]; auto.
      - (* Pow *) destruct (Req_EM_T p 0) as [->|Np]; injection EV as <- <-; (split; [cbn; lia|]); intros q Lq.
        + rewrite (NEW 0 _ q eq_refl Lq : uses _ (length t) q <-> _). cbn [arg1 arg2].
          cbn. split; [intros [[]|[]]|intros [[H _]|(p & [_ H] & _)]; [exfalso; now apply H|congruence]].
        + rewrite (NEW 3 _ q eq_refl Lq : uses _ (3 + length t) q <-> _). cbn [arg1 arg2].
          rewrite (NEW 2 _ q eq_refl Lq : uses _ (2 + length t) q <-> _). cbn [arg1 arg2].
          rewrite (NEW 1 _ q eq_refl Lq : uses _ (1 + length t) q <-> _). cbn [arg1 arg2].
          rewrite (NEW 0 _ q eq_refl Lq : uses _ (length t) q <-> _). cbn [arg1 arg2].
          rewrite !OLD by (try lia; apply La; unfold is_arg; cbn; auto).
          cbn. split.
          * intros [H|[[H|[]]|[[]|[]]]]; [left; split; auto|right; exists a; auto].
          * intros [[_ H]|(p' & [-> _] & H)]; auto.
      - (* Exp *) injection EV as <- <-. split; [cbn; lia|]. intros q Lq.
        rewrite (NEW 0 _ q eq_refl Lq : uses _ (length t) q <-> _). cbn [arg1 arg2].
        rewrite !OLD by lia.
        cbn. split; [intros [H|H]; eauto|intros [[_ H]|(p & -> & H)]; auto].
      - (* Log *) injection EV as <- <-. split; [cbn; lia|]. intros q Lq.
        rewrite (NEW 0 _ q eq_refl Lq : uses _ (length t) q <-> _). cbn [arg1 arg2].
        rewrite !OLD by (try lia; apply La; unfold is_arg; cbn; auto).
        cbn. split; [intros [H|H]; eauto|intros [[_ H]|(p & -> & H)]; auto].
      - (* Sqrt *) injection EV as <- <-. split; [cbn; lia|]. intros q Lq.
        rewrite (NEW 2 _ q eq_refl Lq : uses _ (2 + length t) q <-> _). cbn [arg1 arg2].
        rewrite (NEW 1 _ q eq_refl Lq : uses _ (1 + length t) q <-> _). cbn [arg1 arg2].
        rewrite (NEW 0 _ q eq_refl Lq : uses _ (length t) q <-> _). cbn [arg1 arg2].
        rewrite !OLD by lia.
        cbn. split; [intros [H|[H|[[]|[]]]]; eauto|intros [[_ H]|(p & -> & H)]; auto].
    Qed.
    Lemma vjp2_uses : arg2 o <> None -> let '(ops, c) := vjp2 (length t) g o in
      wf (t ++ ops) /\ length t0 <= c < length (t ++ ops) /\
      forall q, q < length t0 -> uses (t ++ ops) c q <-> (~ zero_power o /\ uses t g q) \/ exists p, needs2 j o p /\ uses t p q.
    Proof.
      intros NA. pose proof (vjp2_ok t W j g o Hj ltac:(lia) No) as HV. unfold vjp_ok in HV.
      destruct (vjp2 (length t) g o) as [ops c] eqn:EV. destruct HV as ((WT & _) & Lc & _).
      split; [exact WT|].
      assert (OLD : forall k q, k < length t -> uses (t ++ ops) k q <-> uses t k q) by (intros; now apply uses_app).
      assert (NEW : forall i o' q, nth_error ops i = Some o' -> q < length t0 -> uses (t ++ ops) (i + length t) q <->
        (match arg1 o' with Some a => uses (t ++ ops) a q | None => False end) \/ (match arg2 o' with Some a => uses (t ++ ops) a q | None => False end)).
      { intros i o' q E L. apply uses_new; [auto|lia]. }
      rewrite app_length in *.
      destruct o as [y|c'|a b|a b|a b|a b|a|a n|a p|a|a|a]; cbn [vjp2] in EV; try (exfalso; now apply NA); injection EV as <- <-; (split; [cbn; lia|]); intros q Lq.
      - rewrite OLD by lia; cbn; split; [auto|intros [H|(p & [] & _)]; apply H].
      - (* Sub *) rewrite (NEW 0 _ q eq_refl Lq : uses _ (length t) q <-> _). cbn [arg1 arg2].
        rewrite !OLD by lia.
        cbn. split; [intros [H|[]]; eauto|intros [[_ H]|(p & [] & H)]; auto].
      - (* Mul *) rewrite (NEW 0 _ q eq_refl Lq : uses _ (length t) q <-> _). cbn [arg1 arg2].
        rewrite !OLD by (try lia; apply La; unfold is_arg; cbn; auto).
        cbn. split; [intros [H|H]; eauto|intros [[_ H]|(p & -> & H)]; auto].
      - (* Div *) rewrite (NEW 3 _ q eq_refl Lq : uses _ (3 + length t) q <-> _). cbn [arg1 arg2].
        rewrite (NEW 2 _ q eq_refl Lq : uses _ (2 + length t) q <-> _). cbn [arg1 arg2].
        rewrite (NEW 1 _ q eq_refl Lq : uses _ (1 + length t) q <-> _). cbn [arg1 arg2].
        rewrite (NEW 0 _ q eq_refl Lq : uses _ (length t) q <-> _). cbn [arg1 arg2].
        rewrite !OLD by (try lia; apply La; unfold is_arg; cbn; auto).
        cbn. split.
        + intros [[H|[]]|[[H|H]|H]]; [left; auto|right; exists a; auto|right; exists b; auto|right; exists b; auto].
        + intros [[_ H]|(p & [->| ->] & H)]; auto.
    Qed.
  End VJ.

  Lemma feed_uses t acc k w (Q : nat -> Prop) t' acc' : wf t -> length t0 <= length t ->
    (forall i g, acc i = Some g -> length t0 <= g < length t) ->
    (let '(ops, c) := w (length t) in wf (t ++ ops) /\ length t0 <= c < length (t ++ ops) /\ forall q, q < length t0 -> uses (t ++ ops) c q <-> Q q) ->
    feed x (Some k) w t acc = (t', acc') ->
    (forall i g, acc' i = Some g -> length t0 <= g < length t') /\
    forall i q, q < length t0 -> A t' acc' i q <-> A t acc i q \/ (i = k /\ reach x t k = true /\ Q q).
  Proof.
    intros W L0 B HW. unfold feed. destruct (reach x t k) eqn:Rk.
    2:{ intros E; injection E as <- <-. split; [auto|]. intros i q Lq. intuition discriminate. }
    destruct (w (length t)) as [ops c]. destruct HW as (W1 & Lc & HQ).
    assert (Lt1 : length (t ++ ops) = length t + length ops) by apply app_length.
    destruct (acc k) as [h|] eqn:Ek; intros E; injection E as <- <-.
    - pose proof (B _ _ Ek) as Lh. split.
      + intros i g. rewrite (app_length (t ++ ops)). cbn. unfold upd. destruct (Nat.eqb i k).
        * intros E; injection E as <-. lia.
        * intros E. specialize (B _ _ E). lia.
      + intros i q Lq. unfold A, upd. destruct (Nat.eqb i k) eqn:Ei.
        * apply Nat.eqb_eq in Ei; subst i.
          assert (EN : nth_error ((t ++ ops) ++ [OAdd h c]) (length (t ++ ops)) = Some (OAdd h c)).
          { rewrite nth_error_app2 by lia. now rewrite Nat.sub_diag. }
          assert (UU : uses ((t ++ ops) ++ [OAdd h c]) (length (t ++ ops)) q <-> uses t h q \/ Q q).
          { rewrite (uses_at _ _ _ _ EN). rewrite <- (HQ q Lq). split.
            - intros [H|(i & [Hi|Hi] & U)]; [lia| |]; cbn in Hi; injection Hi as <-.
              + left. rewrite uses_app in U by (auto; lia). rewrite uses_app in U by (auto; lia). exact U.
              + right. rewrite uses_app in U by (auto; lia). exact U.
            - intros [U|U]; right; [exists h|exists c]; (split; [unfold is_arg; cbn; auto|]).
              + rewrite uses_app by (auto; lia). rewrite uses_app by (auto; lia). exact U.
              + rewrite uses_app by (auto; lia). exact U. }
          split.
          -- intros (g & E & U). injection E as <-. apply UU in U. destruct U; eauto 6.
          -- intros [(g & E & U)|(_ & _ & U)]; (eexists; split; [reflexivity|]); apply UU; auto. left. congruence.
        * apply Nat.eqb_neq in Ei. split.
          -- intros (g & E & U). left. exists g. split; [auto|]. specialize (B _ _ E).
             rewrite uses_app in U by (auto; lia). rewrite uses_app in U by (auto; lia). exact U.
          -- intros [(g & E & U)|(? & _)]; [|contradiction]. exists g. split; [auto|]. specialize (B _ _ E).
             rewrite uses_app by (auto; lia). rewrite uses_app by (auto; lia). exact U.
    - split.
      + intros i g. unfold upd. destruct (Nat.eqb i k).
        * intros E; injection E as <-. lia.
        * intros E. specialize (B _ _ E). lia.
      + intros i q Lq. unfold A, upd. destruct (Nat.eqb i k) eqn:Ei.
        * apply Nat.eqb_eq in Ei; subst i. split.
          -- intros (g & E & U). injection E as <-. right. repeat split; auto. now apply HQ.
          -- intros [(g & E & U)|(_ & _ & U)]; [congruence|]. eexists; split; [reflexivity|]. now apply HQ.
        * apply Nat.eqb_neq in Ei. split.
          -- intros (g & E & U). left. exists g. split; [auto|]. specialize (B _ _ E).
             rewrite uses_app in U by (auto; lia). exact U.
          -- intros [(g & E & U)|(? & _)]; [|contradiction]. exists g. split; [auto|]. specialize (B _ _ E).
             rewrite uses_app by (auto; lia). exact U.
  Qed.

  Lemma visit_uses j t acc fl e' : j <= root -> (exists ext, t = t0 ++ ext) -> Ginv x root t acc -> Ainv x t0 root (S j) acc ->
    Uinv (S j) t acc -> visit x retain j {| tp := t; ac := acc; freed := fl |} = Ok e' -> Uinv j (tp e') (ac e').
  Proof.
    intros Lj (ext & Et) GI AI (UB & U). pose proof GI as (W & Lr & G).
    assert (Lt : length t0 <= length t) by (subst t; rewrite app_length; lia).
    assert (Et0 : nth_error t j = nth_error t0 j) by (subst t; apply nth_error_app1; lia).
    assert (OLD : forall k q, k < length t0 -> uses t k q <-> uses t0 k q) by (intros; subst t; now apply uses_app).
    assert (Rt : forall k, k < length t0 -> reach x t k = reach x t0 k) by (intros; subst t; now apply reach_app).
    pose proof (Ainv_exec x t0 W0 root Lr0 j acc AI) as AE.
    assert (SKIP : ~ execd x t0 root j -> Uinv j t acc).
    { intros NE. split; [exact UB|]. intros k q Lq. rewrite (U k q Lq), (src_step j). split; [auto|intros [H|(EX & _)]; [exact H|destruct (NE EX)]]. }
    unfold visit. cbn [tp ac freed]. rewrite Et0.
    destruct (nth_error t0 j) as [o|] eqn:Eo; [|apply nth_error_None in Eo; lia].
    destruct (acc j) as [g|] eqn:Eg.
    2:{ intros E; injection E as <-. cbn. apply SKIP. intros (Us & Rj & _). apply (proj2 AE); auto. }
    destruct (is_leaf o) eqn:El.
    { intros E; injection E as <-. cbn. apply SKIP. intros (Us & Rj & L3). destruct o; try discriminate El.
      exact (not_inp t0 j _ W0 L3 Eo _ eq_refl). }
    assert (No : forall y, o <> OInp y) by (intros y ->; discriminate El).
    destruct (saves o && fl j); [discriminate|].
    destruct (feed x (arg1 o) (fun L => vjp1 L g j o) t acc) as [t1 a1] eqn:F1.
    destruct (feed x (arg2 o) (fun L => vjp2 L g o) t1 a1) as [t2 a2] eqn:F2.
    intros E; injection E as <-. cbn [tp ac].
    destruct (proj1 AE ltac:(congruence)) as [Rj Uj].
    assert (L3 : 3 <= j).
    { destruct (le_lt_dec 3 j) as [L|L]; [auto|]. destruct (leaf_small t0 j W0 L) as (y & _ & Ey). rewrite Ey in Eo. injection Eo as <-. exfalso; eapply No; reflexivity. }
    assert (EX : execd x t0 root j) by (repeat split; auto).
    assert (Ks : forall k, is_arg k o -> k < j) by (intros k; exact (wf_args _ W0 _ _ _ Eo)).
    assert (B0 : forall i g, acc i = Some g -> length t0 <= g < length t).
    { intros i h Ei. split; [exact (UB _ _ Ei)|]. apply (G _ _ Ei). }
    pose proof (B0 _ _ Eg) as Lg.
    assert (Agj : forall q, uses t g q <-> A t acc j q).
    { intros q. split; [intros H; exists g; auto|intros (h & Eh & H); congruence]. }
    assert (ND1 : forall p, needs1 j o p -> p < length t0).
    { intros p Hp. destruct (arg1 o) as [a|] eqn:E1.
      - destruct (needs_self j o a p) as [->|K]; [apply needs12; auto|lia|]. specialize (Ks p K). lia.
      - destruct o; try discriminate E1; destruct Hp. }
    assert (ND2 : forall p, needs2 j o p -> p < length t0).
    { intros p Hp. destruct (arg2 o) as [a|] eqn:E1.
      - destruct (needs_self j o a p) as [->|K]; [apply needs12; auto|lia|]. specialize (Ks p K). lia.
      - destruct o; try discriminate E1; destruct Hp. }
    (* first operand *)
    assert (S1 : wf t1 /\ (exists e1, t1 = t ++ e1) /\ (forall i g, a1 i = Some g -> length t0 <= g < length t1) /\
      forall i q, q < length t0 -> A t1 a1 i q <-> A t acc i q \/ (arg1 o = Some i /\ reach x t0 i = true /\
        ((~ zero_power o /\ A t acc j q) \/ exists p, needs1 j o p /\ uses t0 p q))).
    { destruct (arg1 o) as [k|] eqn:E1.
      - assert (Lk : k < j) by (apply Ks; left; auto).
        destruct (feed_spec x root t acc k _ _ _ t1 a1 GI ltac:(lia) (vjp1_ok t W j g o ltac:(congruence) ltac:(lia) No) F1) as (C1 & C2 & _).
        split; [apply C2|]. split; [exact C1|].
        destruct (feed_uses t acc k _ (fun q => (~ zero_power o /\ uses t g q) \/ exists p, needs1 j o p /\ uses t p q) t1 a1 W Lt B0
          (vjp1_uses t W j g o ltac:(congruence) Lg ltac:(lia) ltac:(lia) No ltac:(congruence)) F1) as (D1 & D2).
        split; [exact D1|]. intros i q Lq. rewrite (D2 i q Lq). rewrite Rt by lia. rewrite Agj.
        assert (Q : (exists p, needs1 j o p /\ uses t p q) <-> (exists p, needs1 j o p /\ uses t0 p q)).
        { split; intros (p & Hp & Hu); exists p; (split; [auto|]); apply OLD; auto. }
        rewrite Q. split; (intros [H|(H1 & H2 & H3)]; [auto|right]).
        + subst i. auto.
        + injection H1 as ->. auto.
      - cbn in F1. injection F1 as <- <-. split; [auto|]. split; [exists []; now rewrite app_nil_r|]. split; [auto|].
        intros i q Lq. intuition discriminate. }
    destruct S1 as (W1 & (e1 & Et1) & B1 & U1).
    assert (Lt1 : length t <= length t1) by (subst t1; rewrite app_length; lia).
    assert (Eo1 : nth_error t1 j = Some o) by (subst t1; rewrite nth_error_app1 by lia; congruence).
    assert (OLD1 : forall k q, k < length t -> uses t1 k q <-> uses t k q) by (intros; subst t1; now apply uses_app).
    assert (Rt1 : forall k, k < length t0 -> reach x t1 k = reach x t0 k).
    { intros k Lk. rewrite <- Rt by auto. subst t1. apply reach_app. lia. }
    assert (S2 : (forall i g, a2 i = Some g -> length t0 <= g < length t2) /\
      forall i q, q < length t0 -> A t2 a2 i q <-> A t1 a1 i q \/ (arg2 o = Some i /\ reach x t0 i = true /\
        ((~ zero_power o /\ A t acc j q) \/ exists p, needs2 j o p /\ uses t0 p q))).
    { destruct (arg2 o) as [k|] eqn:E1.
      - assert (Lk : k < j) by (apply Ks; right; auto).
        destruct (feed_uses t1 a1 k _ (fun q => (~ zero_power o /\ uses t1 g q) \/ exists p, needs2 j o p /\ uses t1 p q) t2 a2 W1 ltac:(lia) B1
          (vjp2_uses t1 W1 j g o Eo1 ltac:(lia) ltac:(lia) ltac:(lia) No ltac:(congruence)) F2) as (D1 & D2).
        split; [exact D1|]. intros i q Lq. rewrite (D2 i q Lq). rewrite Rt1 by lia. rewrite OLD1 by lia. rewrite Agj.
        assert (Q : (exists p, needs2 j o p /\ uses t1 p q) <-> (exists p, needs2 j o p /\ uses t0 p q)).
        { split; intros (p & Hp & Hu); exists p; (split; [auto|]); specialize (ND2 p Hp).
          - rewrite OLD1 in Hu by lia. now apply OLD.
          - rewrite OLD1 by lia. now apply OLD. }
        rewrite Q. split; (intros [H|(H1 & H2 & H3)]; [auto|right]).
        + subst i. auto.
        + injection H1 as ->. auto.
      - cbn in F2. injection F2 as <- <-. split; [auto|]. intros i q Lq. intuition discriminate. }
    destruct S2 as (B2 & U2). split; [intros i h Hi; apply (B2 _ _ Hi)|].
    intros k q Lq. rewrite (U2 k q Lq), (U1 k q Lq), src_step, (U k q Lq), (U j q Lq). split.
    - intros [[H|(H1 & H2 & H3)]|(H1 & H2 & H3)]; [auto| |]; right; (split; [exact EX|]); exists o; (split; [auto|]).
      + split; [left; auto|]. split; [auto|]. destruct H3 as [H3|(p & Hp & Hu)]; [auto|right; exists p]. split; [apply needs12; auto|auto].
      + split; [right; auto|]. split; [auto|]. destruct H3 as [H3|(p & Hp & Hu)]; [auto|right; exists p]. split; [apply needs12; auto|auto].
    - intros [H|(_ & o' & E' & K & Rk & H)]; [auto|]. rewrite Eo in E'. injection E' as <-.
      destruct H as [H|(p & Hp & Hu)].
      + destruct K as [K|K]; [left; right|right]; auto.
      + apply needs12 in Hp. destruct Hp as [(K1 & Hp)|(K1 & Hp)]; [left; right|right]; eauto 8.
  Qed.

  Lemma sweep_uses : forall n t acc fl e', n <= S root -> (exists ext, t = t0 ++ ext) -> Ginv x root t acc -> Ainv x t0 root n acc ->
    Uinv n t acc -> sweep x retain n {| tp := t; ac := acc; freed := fl |} = Ok e' -> Uinv 0 (tp e') (ac e').
  Proof.
    induction n as [|j IH]; intros t acc fl e' Ln Et GI AI UI.
    - intros E; injection E as <-. exact UI.
    - cbn [sweep]. pose proof (visit_spec x retain t0 W0 root Lr0 j t acc fl ltac:(lia) Et GI AI) as HV.
      destruct (visit x retain j {| tp := t; ac := acc; freed := fl |}) as [e1|e] eqn:EV; cbn [rbind]; [|discriminate].
      pose proof (visit_uses j t acc fl e1 ltac:(lia) Et GI AI UI EV) as U1.
      destruct HV as (H1 & (x1 & H2) & H3 & H4 & _).
      destruct e1 as [t1 a1 f1]; cbn [tp ac freed] in *.
      apply IH; auto; [lia|]. destruct Et as (x0 & ->). exists (x0 ++ x1). rewrite H2. now rewrite app_assoc.
  Qed.

  Lemma F_sensitive a : F 0 a (leaf x) <-> sensitive t0 x a.
  Proof.
    assert (CONS : forall i o a k, nth_error t0 i = Some o -> is_arg a o -> ~ zero_power o -> reach x t0 i = true -> F 0 a k -> F 0 i k).
    { intros i o b k E K Z Ri H. induction H as [b Rb|b m o' k H IH Lm E' K' Z' Rk].
      - eapply F_step; [constructor; exact Ri|lia|exact E|auto|auto|auto].
      - eapply F_step; [apply IH; auto|lia|exact E'|auto|auto|auto]. }
    assert (SR : forall i, sensitive t0 x i -> reach x t0 i = true).
    { intros i H. induction H as [|i o b E K Z H IH].
      - rewrite (reach_at _ _ _ _ W0 (wf_leaf _ W0 x)). cbn. now destruct x.
      - eapply reach_arg; eauto. }
    split.
    - assert (BACK : forall k, F 0 a k -> sensitive t0 x k -> sensitive t0 x a).
      { intros k H. induction H as [b Rb|b m o k H IH Lm E K Z Rk]; [auto|]. intros Sk. apply IH. eapply sens_step; eauto. }
      intros H. apply BACK with (leaf x); [auto|constructor].
    - intros H. induction H as [|i o b E K Z H IH].
      + constructor. apply SR. constructor.
      + eapply CONS; eauto. apply SR. eapply sens_step; eauto.
  Qed.
End USE.

(** What the gradient recorded by torch.autograd.grad is computed from. *)
Lemma autograd_uses (t : tape) (fl : nat -> bool) (root : nat) (x : ix3) (retain : bool) g t' fl' : wf t -> root < length t ->
  autograd_grad t fl root x retain = Ok (Some g, t', fl') ->
  forall q, q < length t -> uses t' g q <-> exists j o a p, uses t root j /\ nth_error t j = Some o /\ needs j o a p /\ sensitive t x a /\ uses t p q.
Proof.
  intros W Lr. unfold autograd_grad. destruct (requires_grad t root) eqn:RG; [|discriminate].
  destruct (reach x t root) eqn:RX; [|discriminate].
  set (acc := upd (fun _ : nat => None) root (Some (length t))).
  assert (W1 : wf (t ++ [ONum 1])).
  { apply wf_snoc; auto; [discriminate|]. intros k [K|K]; discriminate K. }
  assert (L1 : length (t ++ [ONum 1]) = 1 + length t) by (rewrite app_length; cbn; lia).
  assert (Hacc : forall k g, acc k = Some g -> k = root /\ g = length t).
  { intros k h. unfold acc, upd. destruct (Nat.eqb k root) eqn:E; [|discriminate].
    apply Nat.eqb_eq in E. intros H; injection H as <-. auto. }
  assert (GI : Ginv x root (t ++ [ONum 1]) acc).
  { split; [exact W1|]. split; [lia|]. intros k h E. destruct (Hacc _ _ E) as [-> ->].
    repeat split; [lia|lia|]. now rewrite reach_app by lia. }
  assert (AI : Ainv x t root (S root) acc).
  { intros k Lk. unfold acc, upd. destruct (Nat.eqb k root) eqn:E.
    - apply Nat.eqb_eq in E; subst k. split; [auto|discriminate].
    - apply Nat.eqb_neq in E. split; [congruence|]. intros (_ & [?|(p & o & Lp & U & _)]); [contradiction|].
      pose proof (uses_le _ _ _ W U). lia. }
  assert (UI : Uinv x t root (S root) (t ++ [ONum 1]) acc).
  { split; [intros k h E; destruct (Hacc _ _ E); lia|]. intros k q Lq. split.
    - intros (h & E & U). destruct (Hacc _ _ E) as [-> ->]. exfalso.
      rewrite (uses_at (t ++ [ONum 1]) (length t) (ONum 1)) in U by (rewrite nth_error_app2 by lia; now rewrite Nat.sub_diag).
      destruct U as [?|(i & [K|K] & _)]; [lia|discriminate K|discriminate K].
    - intros (j & o & a & p & Lj & (U & _) & _). pose proof (uses_le _ _ _ W U). lia. }
  destruct (sweep x retain (S root) {| tp := t ++ [ONum 1]; ac := acc; freed := fl |}) as [e'|e] eqn:ES; cbn [rbind]; [|discriminate].
  pose proof (sweep_uses x retain t W root Lr (S root) (t ++ [ONum 1]) acc fl e' ltac:(lia) (ex_intro _ _ eq_refl) GI AI UI ES) as (_ & UE).
  intros E. injection E as E1 E2 E3. subst t'. intros q Lq. specialize (UE (leaf x) q Lq).
  assert (UA : uses (tp e') g q <-> A (tp e') (ac e') (leaf x) q).
  { split; [intros H; exists g; auto|intros (h & Eh & H); congruence]. }
  rewrite UA, UE. unfold src. split.
  - intros (j & o & a & p & _ & (U & _) & Ej & Nd & HF & Up). exists j, o, a, p. repeat split; auto. exact (proj1 (F_sensitive x t W root Lr a) HF).
  - intros (j & o & a & p & U & Ej & Nd & HS & Up). exists j, o, a, p.
    apply (F_sensitive x t W root Lr a) in HS. pose proof (needs_arg _ _ _ _ Nd) as Ka. repeat split; auto; [lia| |].
    + apply reach_arg with o a; auto.
      pose proof (F_uses _ _ _ _ _ HS) as U2. pose proof (wf_args _ W _ _ _ Ej Ka). pose proof (uses_le _ _ _ W U).
      apply reach_uses; [auto|lia|exact U2].
    + exact (has_args t W _ _ _ Ej Ka).
Qed.

Lemma sensitive_app t ext x a : wf t -> a < length t -> sensitive (t ++ ext) x a <-> sensitive t x a.
Proof.
  intros W L. split.
  - intros H. revert L. induction H as [|i o b E K Z H IH]; intros L; [constructor|].
    rewrite nth_error_app1 in E by auto. pose proof (wf_args _ W _ _ _ E K). eapply sens_step; eauto. apply IH. lia.
  - intros H. clear L. induction H as [|i o b E K Z H IH]; [constructor|].
    eapply sens_step; eauto. rewrite nth_error_app1; auto. exact (nth_error_lt _ _ _ E).
Qed.
Lemma needs_lt t j o a p : wf t -> nth_error t j = Some o -> needs j o a p -> p <= j.
Proof. intros W E Nd. destruct (needs_self _ _ _ _ Nd) as [->|K]; [lia|]. pose proof (wf_args _ W _ _ _ E K). lia. Qed.

Section HESS.
  Context (e : Energy) (WF : well_formed e).
  Let t0 := e_tape e.
  Let root := e_root e.
  Let W0 : wf t0 := wf_energy e WF.
  Let L0 : root < length t0 := proj1 WF.

  Lemma step_uses ext fl x retain g t' fl' : wf (t0 ++ ext) -> py_grad (t0 ++ ext) fl (e_result e) x retain = Ok (Some g, t', fl') ->
    forall q, q < length t0 -> uses t' g q <-> exists p, reused e x p /\ uses t0 p q.
  Proof.
    intros W E q Lq. unfold e_result in E. fold t0 root in E. destruct (requires_grad t0 root); cbn [py_grad] in E; [|discriminate].
    assert (L : root < length (t0 ++ ext)) by (rewrite app_length; lia).
    rewrite (autograd_uses _ _ _ _ _ _ _ _ W L E q) by (rewrite app_length; lia). unfold reused. fold t0 root. split.
    - intros (j & o & a & p & U & Ej & Nd & S' & Up). rewrite uses_app in U by auto. pose proof (uses_le _ _ _ W0 U).
      rewrite nth_error_app1 in Ej by lia. pose proof (needs_lt _ _ _ _ _ W0 Ej Nd).
      pose proof (wf_args _ W0 _ _ _ Ej (needs_arg _ _ _ _ Nd)).
      exists p. split; [exists j, o, a; repeat split; auto; apply (sensitive_app t0 ext x a W0); [lia|auto]|].
      apply (uses_app t0 ext p q W0); [lia|auto].
    - intros (p & (j & o & a & U & Ej & Nd & S') & Up). pose proof (uses_le _ _ _ W0 U).
      pose proof (needs_lt _ _ _ _ _ W0 Ej Nd). pose proof (wf_args _ W0 _ _ _ Ej (needs_arg _ _ _ _ Nd)).
      exists j, o, a, p. repeat split.
      + now apply uses_app.
      + rewrite nth_error_app1 by lia. auto.
      + exact Nd.
      + apply sensitive_app; auto. lia.
      + apply uses_app; auto. lia.
  Qed.

  Lemma gradient_uses g1 g2 g3 t r : t_gradient false e = Ok (g1, g2, g3, t, r) ->
    forall x g, sel g1 g2 g3 x = Some g -> forall q, q < length t0 -> uses t g q <-> exists p, reused e x p /\ uses t0 p q.
  Proof.
    unfold t_gradient. fold t0 root. intros E.
    pose proof (step_spec false e WF [] (fun _ => false) X0) as S0. fold t0 in S0. rewrite app_nil_r in S0. specialize (S0 W0).
    pose proof (step_uses [] (fun _ => false) X0 false) as T0. rewrite app_nil_r in T0.
    destruct (py_grad t0 (fun _ => false) (e_result e) X0 false) as [[[h1 t1] r1]|err]; cbn [rbind] in E; [|discriminate].
    destruct S0 as (_ & (x1 & A2) & A3 & _ & _ & A6 & _).
    pose proof (step_spec false e WF x1 r1 X1) as S1. fold t0 in S1. rewrite <- A2 in S1. specialize (S1 A3).
    pose proof (step_uses x1 r1 X1 false) as T1. rewrite <- A2 in T1.
    destruct (py_grad t1 r1 (e_result e) X1 false) as [[[h2 t2] r2]|err]; cbn [rbind] in E; [|discriminate].
    destruct S1 as (_ & (x2 & B2) & B3 & _ & _ & B6 & _).
    assert (E2 : t2 = t0 ++ (x1 ++ x2)) by (rewrite B2, A2; now rewrite app_assoc).
    pose proof (step_spec false e WF (x1 ++ x2) r2 X2) as S2. fold t0 in S2. rewrite <- E2 in S2. specialize (S2 B3).
    pose proof (step_uses (x1 ++ x2) r2 X2 false) as T2. rewrite <- E2 in T2.
    destruct (py_grad t2 r2 (e_result e) X2 false) as [[[h3 t3] r3]|err]; cbn [rbind] in E; [|discriminate].
    destruct S2 as (_ & (x3 & C2) & C3 & _ & _ & C6 & _).
    injection E as -> -> -> <- <-.
    assert (Lt12 : length t1 <= length t2) by (rewrite B2, app_length; lia).
    intros [] g Eg q Lq; cbn [sel] in Eg; subst.
    - destruct (A6 g eq_refl) as (P1 & _). rewrite <- (T0 _ _ _ W0 eq_refl q Lq).
      rewrite uses_app by (auto; lia). rewrite uses_app by auto. tauto.
    - destruct (B6 g eq_refl) as (P1 & _). rewrite <- (T1 _ _ _ A3 eq_refl q Lq).
      rewrite uses_app by (auto; lia). tauto.
    - rewrite <- (T2 _ _ _ B3 eq_refl q Lq). tauto.
  Qed.

  Lemma reused_uses x p : reused e x p -> uses t0 root p.
  Proof.
    intros (j & o & a & U & E & Nd & _). fold t0 root in U, E. destruct (needs_self _ _ _ _ Nd) as [->|K]; [auto|].
    eapply uses_step; eauto.
  Qed.

  Section PASS.
    Context (g1 g2 g3 : option nat) (t : tape) (r : nat -> bool) (EG : t_gradient false e = Ok (g1, g2, g3, t, r)).
    Let GS := gradient_spec false e WF.
    Definition flags (fl : nat -> bool) (x : ix3) : Prop :=
      (forall i, r i = true -> fl i = true) /\
      (forall i, fl i = true -> i < length t -> r i = true \/ exists y g, y <> x /\ sel g1 g2 g3 y = Some g /\ execd y t g i).
    Definition later (x y : ix3) : Prop := leaf x < leaf y.

    Lemma diag_exact ext fl x : wf (t ++ ext) -> flags fl x ->
      match py_grad (t ++ ext) fl (sel g1 g2 g3 x) x false with
      | Raise err => err = RuntimeError /\ mentions e x /\ (linear e x \/ nested e x)
      | Ok (h, t', fl') => (mentions e x -> ~ linear e x /\ ~ nested e x) /\ (exists ext', t' = t ++ ext') /\ wf t' /\
          (forall i, fl i = true -> fl' i = true) /\
          (forall i, fl' i = true -> i < length t -> fl i = true \/ exists g, sel g1 g2 g3 x = Some g /\ execd x t g i)
      end.
    Proof.
      intros W (FA & FB). pose proof GS as G. rewrite EG in G.
      destruct G as (NC & (ext0 & Et) & Wt & _ & G1 & G2 & G3). fold t0 root in Et, G1, G2, G3.
      destruct (sel g1 g2 g3 x) as [g|] eqn:Es; cbn [py_grad].
      2:{ apply G1 in Es. split; [intros M; contradiction|]. split; [eauto|]. split; [auto|]. split; [auto|]. auto. }
      assert (M : mentions e x).
      { destruct (reach x t0 root) eqn:Rx; [now apply mentions_reach|]. exfalso.
        assert (N : sel g1 g2 g3 x = None) by (apply G1; rewrite mentions_reach by auto; fold t0 root; congruence). congruence. }
      destruct (G2 x g Es) as (Lg & _ & Ng). specialize (Ng eq_refl).
      pose proof (gradient_uses _ _ _ _ _ EG x g Es) as UG.
      assert (L : g < length (t ++ ext)) by (rewrite app_length; lia).
      assert (Lt : length t0 <= length t) by (rewrite Et, app_length; lia).
      assert (LF : leaf x < length t0) by (now apply leaf_lt).
      assert (LIN : requires_grad (t ++ ext) g = false <-> linear e x).
      { transitivity (reach x t g = false).
        - unfold requires_grad. rewrite !reach_app by auto. destruct x; rewrite ?(Ng X0), ?(Ng X1), ?(Ng X2) by discriminate; cbn; rewrite ?orb_false_r; reflexivity.
        - pose proof (reach_uses x t Wt g Lg) as RU. rewrite (UG _ LF) in RU. unfold linear. split.
          + intros F' p Hp U. assert (H : reach x t g = true) by (apply RU; eauto). congruence.
          + intros H. destruct (reach x t g); [|reflexivity]. exfalso. destruct (proj1 RU eq_refl) as (p & Hp & U). exact (H p Hp U). }
      assert (TR : forall i, i < length t0 -> reach x t i = reach x t0 i) by (intros i Li; rewrite Et; now apply reach_app).
      assert (NE : conflict x (t ++ ext) g fl (S g) <-> nested e x).
      { rewrite conflict_app by auto. split.
        - intros (i & o & Li & (U & Ri & L3) & Ei & S' & Fi). pose proof (uses_le _ _ _ Wt U) as Lig.
          destruct (FB i Fi ltac:(lia)) as [Hr|(y & gy & Ny & Ey & (Uy & Ry & _))].
          + apply G3 in Hr. destruct Hr as (_ & z & (Uz & _)). pose proof (uses_le _ _ _ W0 Uz).
            assert (Li0 : i < length t0) by lia.
            apply (UG i Li0) in U. destruct U as (p & Hp & U). exists p, i, o. fold t0.
            rewrite TR in Ri by auto. repeat split; auto.
            * apply reach_uses; auto.
            * rewrite <- Ei, Et. symmetry. apply nth_error_app1; auto.
          + exfalso. assert (Q : reach y t g = true).
            { apply reach_uses; auto. apply uses_trans with i; [auto|]. apply reach_uses; auto. lia. }
            rewrite (Ng y Ny) in Q. discriminate.
        - intros (p & i & o & Hp & U & Ul & Ei & S'). fold t0 in U, Ul, Ei.
          pose proof (reused_uses _ _ Hp) as Ur. assert (Uri : uses t0 root i) by (eapply uses_trans; eauto).
          pose proof (uses_le _ _ _ W0 Uri). assert (Li : i < length t0) by lia.
          assert (L3 : 3 <= i).
          { destruct (le_lt_dec 3 i) as [?|L3]; [auto|]. destruct (leaf_small t0 i W0 L3) as (y & _ & Ey). rewrite Ey in Ei. injection Ei as <-. discriminate S'. }
          assert (Ri : reach x t0 i = true) by (apply reach_uses; auto).
          assert (Ug : uses t g i) by (apply UG; eauto). pose proof (uses_le _ _ _ Wt Ug).
          exists i, o. split; [lia|]. split; [repeat split; auto; rewrite TR; auto|]. split; [rewrite Et, nth_error_app1; auto|]. split; [auto|].
          apply FA, G3. split; [auto|]. exists x. repeat split; auto. }
      pose proof (grad_spec (t ++ ext) fl g x false W L) as GSp.
      destruct (autograd_grad (t ++ ext) fl g x false) as [[[h t'] fl']|err].
      - destruct GSp as (RG & (K1 & (e1 & K2) & K3 & _ & _ & _ & K7)). split; [|split; [|split; [|split]]].
        + intros _. split; [rewrite <- LIN; congruence|now rewrite <- NE].
        + exists (ext ++ e1). rewrite K2. now rewrite app_assoc.
        + exact K3.
        + intros i Hi. apply K7. auto.
        + intros i Hi Li. apply K7 in Hi. destruct Hi as [?|(_ & EX)]; [auto|]. right. exists g. split; [auto|]. now apply (execd_app x t ext g i).
      - destruct GSp as (-> & [H|H]); split; auto; split; auto; [left; now apply LIN|right; now apply NE].
    Qed.

    Lemma mixed_exact ext fl x y : wf (t ++ ext) -> x <> y -> (mentions e x -> ~ linear e x) ->
      py_grad (t ++ ext) fl (sel g1 g2 g3 x) y false = Ok (None, t ++ ext, fl).
    Proof.
      intros W N HL. pose proof GS as G. rewrite EG in G.
      destruct G as (_ & (ext0 & Et) & Wt & _ & G1 & G2 & _).
      destruct (sel g1 g2 g3 x) as [g|] eqn:Es; cbn [py_grad]; [|reflexivity].
      destruct (G2 x g Es) as (Lg & _ & Ng). specialize (Ng eq_refl).
      unfold autograd_grad. rewrite (reach_app y) by auto. rewrite (Ng y) by auto.
      assert (M : mentions e x).
      { destruct (reach x t0 root) eqn:Rx; [now apply mentions_reach|]. exfalso.
        assert (N' : sel g1 g2 g3 x = None) by (apply G1; rewrite mentions_reach by auto; fold t0 root; congruence). congruence. }
      assert (R : reach x t g = true).
      { destruct (reach x t g) eqn:R; [reflexivity|]. exfalso. apply (HL M). intros p Hp U.
        assert (Q : reach x t g = true).
        { apply reach_uses; auto. apply (gradient_uses _ _ _ _ _ EG x g Es); [now apply leaf_lt|eauto]. }
        congruence. }
      unfold requires_grad. rewrite !reach_app by auto. destruct x; rewrite R, ?orb_true_r; reflexivity.
    Qed.
  End PASS.

  (** [hessian] raises exactly if the energy is coupled, or linear or nested in an invariant it mentions. *)
  Lemma hessian_exact :
    match t_hessian e with
    | Raise err => err = RuntimeError /\ (coupled e \/ exists x, mentions e x /\ (linear e x \/ nested e x))
    | Ok _ => ~ coupled e /\ forall x, mentions e x -> ~ linear e x /\ ~ nested e x
    end.
  Proof.
    unfold t_hessian. pose proof (gradient_spec false e WF) as G.
    destruct (t_gradient false e) as [[[[[g1 g2] g3] t] r]|err] eqn:EG; cbn [rbind].
    2:{ destruct G as (-> & _ & C). auto. }
    destruct G as (NC & _ & Wt & _). specialize (NC eq_refl).
    assert (W' : wf (t ++ [])) by now rewrite app_nil_r.
    assert (FL0 : flags g1 g2 g3 t r r X0) by (split; auto).
    pose proof (diag_exact g1 g2 g3 t r EG [] r X0 W' FL0) as S1. rewrite app_nil_r in S1. cbn [sel] in S1.
    destruct (py_grad t r g1 X0 false) as [[[h11 t1] r1]|err]; cbn [rbind].
    2:{ destruct S1 as (-> & S1). split; [auto|]. right. exists X0. auto. }
    destruct S1 as (A1 & (x1 & ->) & W1 & A4 & A5).
    assert (FL1 : flags g1 g2 g3 t r r1 X1).
    { split; [auto|]. intros i Hi Li. destruct (A5 i Hi Li) as [?|(g & Eg & EX)]; [auto|]. right. exists X0, g. repeat split; auto; try apply EX. discriminate. }
    pose proof (diag_exact g1 g2 g3 t r EG x1 r1 X1 W1 FL1) as S2. cbn [sel] in S2.
    destruct (py_grad (t ++ x1) r1 g2 X1 false) as [[[h22 t2] r2]|err]; cbn [rbind].
    2:{ destruct S2 as (-> & S2). split; [auto|]. right. exists X1. auto. }
    destruct S2 as (B1 & (x2 & ->) & W2 & B4 & B5).
    assert (FL2 : flags g1 g2 g3 t r r2 X2).
    { split; [auto|]. intros i Hi Li. destruct (B5 i Hi Li) as [Hi1|(g & Eg & EX)].
      - destruct (A5 i Hi1 Li) as [?|(g & Eg & EX)]; [auto|]. right. exists X0, g. repeat split; auto; try apply EX. discriminate.
      - right. exists X1, g. repeat split; auto; try apply EX. discriminate. }
    pose proof (diag_exact g1 g2 g3 t r EG x2 r2 X2 W2 FL2) as S3. cbn [sel] in S3.
    destruct (py_grad (t ++ x2) r2 g3 X2 false) as [[[h33 t3] r3]|err]; cbn [rbind].
    2:{ destruct S3 as (-> & S3). split; [auto|]. right. exists X2. auto. }
    destruct S3 as (C1 & (x3 & ->) & W3 & _).
    pose proof (mixed_exact g1 g2 g3 t r EG x3 r3 X0 X1 W3 ltac:(discriminate) (fun M => proj1 (A1 M))) as M1. cbn [sel] in M1.
    rewrite M1. cbn [rbind].
    pose proof (mixed_exact g1 g2 g3 t r EG x3 r3 X1 X2 W3 ltac:(discriminate) (fun M => proj1 (B1 M))) as M2. cbn [sel] in M2.
    rewrite M2. cbn [rbind].
    pose proof (mixed_exact g1 g2 g3 t r EG x3 r3 X0 X2 W3 ltac:(discriminate) (fun M => proj1 (A1 M))) as M3. cbn [sel] in M3.
    rewrite M3. cbn [rbind]. split; [exact NC|]. intros []; auto.
  Qed.
End HESS.
