(** * The backward pass computes derivatives, and when it raises (proofs). *)
From Coq Require Import Reals Lra Lia List Bool Arith FunctionalExtensionality.
From Coquelicot Require Import Coquelicot.
From Verif Require Import Tensor Py Models Calc Torch TorchProofs.
Import ListNotations.
Local Open Scope R_scope.

Fixpoint sumn (f : nat -> R) (n : nat) : R := match n with O => 0 | S k => sumn f k + f k end.
Lemma sumn_ext f f' n : (forall k, (k < n)%nat -> f k = f' k) -> sumn f n = sumn f' n.
Proof. induction n; intros H; cbn; [reflexivity|]. rewrite IHn, (H n) by auto with arith. reflexivity. Qed.
Lemma sumn_upd f f' n k c : (k < n)%nat -> f' k = f k + c -> (forall i, i <> k -> f' i = f i) -> sumn f' n = sumn f n + c.
Proof.
  intros L E H. induction n; [lia|]. cbn. destruct (Nat.eq_dec k n) as [->|N].
  - rewrite E. rewrite (sumn_ext f' f n) by (intros i Hi; apply H; lia). ring.
  - rewrite IHn, (H n) by lia. ring.
Qed.

Definition contrib (X : Vec3) (x : ix3) (t : tape) (acc : nat -> option nat) (k : nat) : R :=
  match acc k with Some g => V X t g * D X (unit3 x) t k | None => 0 end.
Definition tot X x n t acc : R := sumn (contrib X x t acc) n.
Definition Ginv (x : ix3) (root : nat) (t : tape) (acc : nat -> option nat) : Prop :=
  wf t /\ (root < length t)%nat /\ forall k g, acc k = Some g -> (k <= root)%nat /\ (g < length t)%nat /\ reach x t k = true.
Definition NR (y : ix3) (t : tape) (acc : nat -> option nat) : Prop := forall k g, acc k = Some g -> reach y t g = false.

Lemma contrib_app X x root t acc ext k : Ginv x root t acc -> contrib X x (t ++ ext) acc k = contrib X x t acc k.
Proof.
  intros (W & Lr & G). unfold contrib. destruct (acc k) as [g|] eqn:E; [|reflexivity].
  destruct (G _ _ E) as (A & B & _). rewrite V_app, D_app by lia. reflexivity.
Qed.
Lemma upd_same {A} (f : nat -> A) k a : upd f k a k = a.
Proof. unfold upd. now rewrite Nat.eqb_refl. Qed.
Lemma upd_other {A} (f : nat -> A) k a i : i <> k -> upd f k a i = f i.
Proof. intros N. unfold upd. now rewrite (proj2 (Nat.eqb_neq i k) N). Qed.

Lemma feed_spec x root t acc k w Wf from t' acc' :
  Ginv x root t acc -> (k <= root)%nat -> vjp_ok t w Wf from -> feed x (Some k) w t acc = (t', acc') ->
  (exists ext, t' = t ++ ext) /\ Ginv x root t' acc' /\
  (forall X, regular t X -> regular t' X /\ forall n, (k < n)%nat -> tot X x n t' acc' = tot X x n t acc + Wf X * D X (unit3 x) t k) /\
  (forall i, acc' i <> None <-> acc i <> None \/ (i = k /\ reach x t k = true)) /\
  (forall i, i <> k -> acc' i = acc i) /\
  (forall y, (forall k, from k -> (k < length t)%nat /\ reach y t k = false) -> NR y t acc -> NR y t' acc').
Proof.
  intros GI Lk HW. pose proof GI as (W & Lr & G). unfold feed.
  destruct (reach x t k) eqn:Rk.
  2:{ intros E; injection E as <- <-. split; [exists []; now rewrite app_nil_r|]. split; [exact GI|].
      split; [|split; [|split]]; auto.
      - intros X Hr. split; auto. intros n _. rewrite (D_unreach X x t W k) by (auto; lia). ring.
      - intros i. intuition congruence. }
  unfold vjp_ok in HW. destruct (w (length t)) as [ops c].
  destruct HW as ((W1 & R1) & Lc & Vc & Rc).
  assert (Lt1 : (length (t ++ ops) = length t + length ops)%nat) by apply app_length.
  assert (GI1 : Ginv x root (t ++ ops) (upd acc k (Some c))).
  { split; [exact W1|]. split; [lia|]. intros i g. unfold upd. destruct (Nat.eqb i k) eqn:Ei.
    - apply Nat.eqb_eq in Ei; subst i. intros E; injection E as <-. repeat split; auto. rewrite reach_app by lia. auto.
    - intros E. destruct (G _ _ E) as (A & B & C). repeat split; try lia. now rewrite reach_app by lia. }
  destruct (acc k) as [h|] eqn:Ek.
  - destruct (G _ _ Ek) as (_ & Lh & _).
    intros E; injection E as <- <-.
    assert (Ac : forall i, is_arg i (OAdd h c) -> (i < length (t ++ ops))%nat).
    { intros i [Hi|Hi]; cbn in Hi; injection Hi as <-; lia. }
    assert (W2 : wf ((t ++ ops) ++ [OAdd h c])) by (apply wf_snoc; auto; discriminate).
    assert (L2 : (length ((t ++ ops) ++ [OAdd h c]) = 1 + length (t ++ ops))%nat) by (rewrite app_length; cbn; lia).
    split; [exists (ops ++ [OAdd h c]); now rewrite app_assoc|].
    split; [|split; [|split; [|split]]].
    + split; [exact W2|]. split; [lia|]. intros i g. unfold upd. destruct (Nat.eqb i k) eqn:Ei.
      * apply Nat.eqb_eq in Ei; subst i. intros E; injection E as <-.
        repeat split; auto; [lia|]. rewrite reach_app, reach_app by lia. auto.
      * intros E. destruct (G _ _ E) as (A & B & C). repeat split; try lia.
        rewrite reach_app, reach_app by lia. auto.
    + intros X Hr. split.
      * apply regular_snoc; auto. split; auto. exact Logic.I.
      * intros n Ln. unfold tot. eapply sumn_upd; [exact Ln| |].
        -- unfold contrib. rewrite upd_same, Ek. rewrite V_snoc. cbn [vstep]. rewrite (Vc X Hr).
           rewrite V_app by lia. rewrite D_app, D_app by lia. ring.
        -- intros i Hi. unfold contrib at 1. rewrite upd_other by auto.
           change (contrib X x ((t ++ ops) ++ [OAdd h c]) acc i = contrib X x t acc i).
           rewrite <- app_assoc. eapply contrib_app; eauto.
    + intros i. unfold upd. destruct (Nat.eqb i k) eqn:Ei.
      * apply Nat.eqb_eq in Ei; subst i. split; intros _; [auto|discriminate].
      * apply Nat.eqb_neq in Ei. intuition.
    + intros i Hi. now apply upd_other.
    + intros y Hy Hn i g. unfold upd. destruct (Nat.eqb i k).
      * intros E; injection E as <-. rewrite reach_snoc. cbn [rstep]. rewrite (Rc y Hy).
        rewrite reach_app by lia. rewrite (Hn _ _ Ek). reflexivity.
      * intros E. destruct (G _ _ E) as (_ & Lg & _). rewrite reach_app, reach_app by lia. exact (Hn _ _ E).
  - intros E; injection E as <- <-.
    split; [exists ops; reflexivity|]. split; [exact GI1|]. split; [|split; [|split]].
    + intros X Hr. split; [auto|]. intros n Ln. unfold tot. eapply sumn_upd; [exact Ln| |].
      * unfold contrib. rewrite upd_same, Ek, (Vc X Hr). rewrite D_app by lia. ring.
      * intros i Hi. unfold contrib at 1. rewrite upd_other by auto.
        change (contrib X x (t ++ ops) acc i = contrib X x t acc i). eapply contrib_app; eauto.
    + intros i. unfold upd. destruct (Nat.eqb i k) eqn:Ei.
      * apply Nat.eqb_eq in Ei; subst i. split; intros _; [auto|discriminate].
      * apply Nat.eqb_neq in Ei. intuition.
    + intros i Hi. now apply upd_other.
    + intros y Hy Hn i g. unfold upd. destruct (Nat.eqb i k).
      * intros E; injection E as <-. apply (Rc y Hy).
      * intros E. destruct (G _ _ E) as (_ & Lg & _). rewrite reach_app by lia. exact (Hn _ _ E).
Qed.

Lemma reach_arg y t j o k : wf t -> nth_error t j = Some o -> is_arg k o -> reach y t k = true -> reach y t j = true.
Proof.
  intros W E Hk R. rewrite (reach_at _ _ _ _ W E).
  destruct Hk as [Hk|Hk]; destruct o; cbn in *; try discriminate Hk; injection Hk as <-; rewrite R; auto using orb_true_r.
Qed.
Lemma reach_some y t j o : wf t -> nth_error t j = Some o -> (forall x, o <> OInp x) -> reach y t j = true ->
  exists k, is_arg k o /\ reach y t k = true.
Proof.
  intros W E N R. rewrite (reach_at _ _ _ _ W E) in R.
  destruct o as [x|c|a b|a b|a b|a b|a|a n|a p|a|a|a]; cbn in R; try discriminate R;
    try (apply orb_true_elim in R; destruct R as [R|R]); try (exists a; split; [isarg|assumption]); try (exists b; split; [isarg|assumption]).
  exfalso; eapply N; reflexivity.
Qed.
Lemma uses_le t i k : wf t -> uses t i k -> (k <= i)%nat.
Proof. intros W H; induction H; auto. pose proof (wf_args _ W _ _ _ H0 H1). lia. Qed.
Lemma uses_app t ext i k : wf t -> (i < length t)%nat -> uses (t ++ ext) i k <-> uses t i k.
Proof.
  intros W L. split; intros H; induction H; try constructor.
  - specialize (IHuses L). pose proof (uses_le _ _ _ W IHuses).
    rewrite nth_error_app1 in H0 by lia. econstructor; eauto.
  - specialize (IHuses L). econstructor; eauto. rewrite nth_error_app1; auto. exact (nth_error_lt _ _ _ H0).
Qed.
Lemma uses_trans t i j k : uses t i j -> uses t j k -> uses t i k.
Proof. intros A B; induction B; auto. eapply uses_step; [apply IHB; exact A|eassumption|assumption]. Qed.
Lemma leaf_lt t x : wf t -> (leaf x < length t)%nat.
Proof. intros W. exact (nth_error_lt _ _ _ (wf_leaf _ W x)). Qed.
Lemma wf_len3 t : wf t -> (3 <= length t)%nat.
Proof. intros W. pose proof (leaf_lt t X2 W). cbn in *. lia. Qed.
Lemma leaf_small t i : wf t -> (i < 3)%nat -> exists x, i = leaf x /\ nth_error t i = Some (OInp x).
Proof.
  intros W L. destruct i as [|[|[|]]]; [exists X0|exists X1|exists X2|lia]; split; auto.
  exact (wf_leaf _ W X0). exact (wf_leaf _ W X1). exact (wf_leaf _ W X2).
Qed.
Lemma not_inp t i o : wf t -> (3 <= i)%nat -> nth_error t i = Some o -> forall x, o <> OInp x.
Proof. intros W L E x ->. pose proof (wf_inp _ W _ _ E). destruct x; cbn in *; lia. Qed.
Lemma reach_uses x t : wf t -> forall i, (i < length t)%nat -> reach x t i = true <-> uses t i (leaf x).
Proof.
  intros W i. induction i as [i IH] using lt_wf_ind. intros L. split.
  - intros R. destruct (nth_error t i) as [o|] eqn:E; [|apply nth_error_None in E; lia].
    destruct (is_leaf o) eqn:Eo.
    + destruct o as [y| | | | | | | | | | | ]; try discriminate Eo.
      rewrite (reach_at _ _ _ _ W E) in R. cbn in R. pose proof (wf_inp _ W _ _ E); subst i.
      destruct x, y; try discriminate; constructor.
    + destruct (reach_some x t i o W E ltac:(intros y ->; discriminate Eo) R) as (k & Hk & Rk).
      pose proof (wf_args _ W i o k E Hk) as Lk.
      apply uses_trans with k; [eapply uses_step; [apply uses_refl|exact E|exact Hk]|]. apply IH; [lia|lia|exact Rk].
  - intros U. assert (B : reach x t (leaf x) = true).
    { rewrite (reach_at _ _ _ _ W (wf_leaf _ W x)). cbn. now destruct x. }
    remember (leaf x) as l. clear Heql. clear IH L. induction U; auto.
    apply IHU. eapply reach_arg; eauto.
Qed.

(** Operations executed for x. *)
Definition execd (x : ix3) (t : tape) (root j : nat) : Prop := uses t root j /\ reach x t j = true /\ (3 <= j)%nat.
Definition conflict (x : ix3) (t : tape) (root : nat) (fl : nat -> bool) (n : nat) : Prop :=
  exists j o, (j < n)%nat /\ execd x t root j /\ nth_error t j = Some o /\ saves o = true /\ fl j = true.

Section SWEEP.
  Context (x : ix3) (retain : bool) (t0 : tape) (W0 : wf t0) (root : nat) (Lr0 : (root < length t0)%nat).

  Definition Ainv (n : nat) (acc : nat -> option nat) : Prop := forall k, (k < n)%nat ->
    (acc k <> None <-> reach x t0 k = true /\
       (k = root \/ exists p o, (n <= p)%nat /\ uses t0 root p /\ nth_error t0 p = Some o /\ is_arg k o)).
  Lemma Ainv_exec j acc : Ainv (S j) acc -> acc j <> None <-> reach x t0 j = true /\ uses t0 root j.
  Proof.
    intros A. rewrite (A j ltac:(lia)). split; intros [R U]; split; auto.
    - destruct U as [->|(p & o & _ & U & E & K)]; [constructor|econstructor; eauto].
    - inversion U; subst; [auto|]. right. exists p, o. repeat split; auto.
      exact (wf_args _ W0 _ _ _ H0 H1).
  Qed.

  Lemma visit_spec j t acc fl : (j <= root)%nat -> (exists ext, t = t0 ++ ext) -> Ginv x root t acc -> Ainv (S j) acc ->
    match visit x retain j {| tp := t; ac := acc; freed := fl |} with
    | Raise e => e = RuntimeError /\ execd x t0 root j /\ fl j = true /\ exists o, nth_error t0 j = Some o /\ saves o = true
    | Ok e' =>
        (execd x t0 root j -> forall o, nth_error t0 j = Some o -> saves o = true -> fl j = false) /\
        (exists ext, tp e' = t ++ ext) /\ Ginv x root (tp e') (ac e') /\ Ainv j (ac e') /\
        (forall k, (j <= k)%nat -> ac e' k = acc k) /\
        (forall X, regular t X -> regular (tp e') X /\ tot X x (max 3 j) (tp e') (ac e') = tot X x (max 3 (S j)) t acc) /\
        (forall i, freed e' i = true <-> fl i = true \/ (retain = false /\ i = j /\ execd x t0 root j)) /\
        (forall y, (forall o, execd x t0 root j -> nth_error t0 j = Some o -> saves o = true -> reach y t0 j = false) ->
                   NR y t acc -> NR y (tp e') (ac e'))
    end.
  Proof.
    intros Lj (ext & Et) GI A. pose proof GI as (W & Lr & G).
    assert (Lj0 : (j < length t0)%nat) by lia.
    assert (Rt : forall y k, (k < length t0)%nat -> reach y t k = reach y t0 k) by (intros; subst t; now apply reach_app).
    assert (Et0 : nth_error t j = nth_error t0 j) by (subst t; now apply nth_error_app1).
    pose proof (Ainv_exec j acc A) as AE.
    (* the node is not executed *)
    assert (SKIP : ~ execd x t0 root j -> ((3 <= j)%nat -> acc j = None) ->
      (forall k o, nth_error t0 j = Some o -> is_arg k o -> (k < j)%nat -> reach x t0 k = true -> uses t0 root j -> False) ->
      let e' := {| tp := t; ac := acc; freed := fl |} in
        (execd x t0 root j -> forall o, nth_error t0 j = Some o -> saves o = true -> fl j = false) /\
        (exists ext, tp e' = t ++ ext) /\ Ginv x root (tp e') (ac e') /\ Ainv j (ac e') /\
        (forall k, (j <= k)%nat -> ac e' k = acc k) /\
        (forall X, regular t X -> regular (tp e') X /\ tot X x (max 3 j) (tp e') (ac e') = tot X x (max 3 (S j)) t acc) /\
        (forall i, freed e' i = true <-> fl i = true \/ (retain = false /\ i = j /\ execd x t0 root j)) /\
        (forall y, (forall o, execd x t0 root j -> nth_error t0 j = Some o -> saves o = true -> reach y t0 j = false) ->
                   NR y t acc -> NR y (tp e') (ac e'))).
    { intros NE N3 NA e'. subst e'; cbn [tp ac freed]. split; [intros; contradiction|]. split; [exists []; now rewrite app_nil_r|].
      split; [exact GI|]. split; [|split; [auto|split; [|split; [|auto]]]].
      - intros k Lk. rewrite (A k) by lia. split; intros (R & H); split; auto.
        + destruct H as [->|(p & o & Lp & U & E & K)]; [auto|right; exists p, o; repeat split; auto; lia].
        + destruct H as [->|(p & o & Lp & U & E & K)]; [auto|]. destruct (Nat.eq_dec p j) as [->|Np].
          * exfalso. eapply NA; eauto.
          * right; exists p, o; repeat split; auto; lia.
      - intros X Hr. split; auto. destruct (le_lt_dec 3 j) as [L3|L3].
        + rewrite (Nat.max_r 3 j), (Nat.max_r 3 (S j)) by lia. unfold tot. cbn [sumn]. unfold contrib at 3. rewrite (N3 L3). ring.
        + rewrite !Nat.max_l by lia. reflexivity.
      - intros i. intuition. }
    unfold visit. cbn [tp ac freed]. rewrite Et0.
    destruct (nth_error t0 j) as [o|] eqn:Eo; [|apply nth_error_None in Eo; lia].
    destruct (le_lt_dec 3 j) as [L3|L3].
    2:{ destruct (leaf_small t0 j W0 L3) as (y & Ey & Ey'). rewrite Ey' in Eo; injection Eo as <-.
        assert (N1 : ~ execd x t0 root j) by (intros (_ & _ & ?); lia).
        assert (N2 : (3 <= j)%nat -> acc j = None) by lia.
        assert (N3 : forall k o, Some (OInp y) = Some o -> is_arg k o -> (k < j)%nat -> reach x t0 k = true -> uses t0 root j -> False).
        { intros k o E. injection E as <-. intros [K|K]; discriminate K. }
        destruct (acc j) as [g|] eqn:Eg; cbn [is_leaf]; exact (SKIP N1 N2 N3). }
    assert (No := not_inp _ _ _ W0 L3 Eo).
    assert (Nl : is_leaf o = false) by (destruct o; auto; exfalso; eapply No; reflexivity).
    destruct (acc j) as [g|] eqn:Eg.
    2:{ apply SKIP; auto.
        - intros (U & R & _). apply (proj2 AE); auto.
        - intros k o' E K Lk R U. injection E as <-. apply (proj2 AE); auto. split; auto. eapply reach_arg; eauto. }
    rewrite Nl. destruct (G _ _ Eg) as (_ & Lg & Rj). rewrite Rt in Rj by auto.
    assert (EX : execd x t0 root j).
    { destruct (proj1 AE ltac:(congruence)) as [_ U]. repeat split; auto. }
    assert (Ks : forall k, is_arg k o -> (k < j)%nat) by (intros k; exact (wf_args _ W0 _ _ _ Eo)).
    destruct (saves o && fl j) eqn:Es.
    { apply andb_true_iff in Es. destruct Es. repeat split; auto; try apply EX. exists o; auto. }
    destruct (feed x (arg1 o) (fun L => vjp1 L g j o) t acc) as [t1 a1] eqn:F1.
    destruct (feed x (arg2 o) (fun L => vjp2 L g o) t1 a1) as [t2 a2] eqn:F2.
    set (from := fun k => k = g \/ (saves o = true /\ (is_arg k o \/ k = j))).
    (* first operand *)
    assert (S1 : (exists ext, t1 = t ++ ext) /\ Ginv x root t1 a1 /\
      (forall X, regular t X -> regular t1 X /\ forall n, (j <= n)%nat ->
         tot X x n t1 a1 = tot X x n t acc + V X t g * part1 (V X t) o * at_arg (D X (unit3 x) t) (arg1 o)) /\
      (forall i, a1 i <> None <-> acc i <> None \/ (arg1 o = Some i /\ reach x t i = true)) /\
      (forall i, (j <= i)%nat -> a1 i = acc i) /\
      (forall y, (forall k, from k -> (k < length t)%nat /\ reach y t k = false) -> NR y t acc -> NR y t1 a1)).
    { destruct (arg1 o) as [k|] eqn:E1.
      - assert (Lk : (k < j)%nat) by (apply Ks; left; auto).
        assert (HV := vjp1_ok t W j g o ltac:(congruence) Lg No).
        destruct (feed_spec x root t acc k _ _ _ t1 a1 GI ltac:(lia) HV F1) as (B1 & B2 & B3 & B4 & B5 & B6).
        split; [exact B1|]. split; [exact B2|]. split; [|split; [|split]].
        + intros X Hr. destruct (B3 X Hr) as [C1 C2]. split; auto. intros n Ln. cbn [at_arg]. rewrite (C2 n) by lia. ring.
        + intros i. rewrite B4. split; intros [H|H]; auto; right; [destruct H as [-> ?]; auto|destruct H as [H ?]; injection H as <-; auto].
        + intros i Li. apply B5. lia.
        + exact B6.
      - cbn in F1. injection F1 as <- <-. split; [exists []; now rewrite app_nil_r|]. split; [exact GI|]. split; [|split; [|split]]; auto.
        + intros X Hr. split; auto. intros n _. cbn. ring.
        + intros i. intuition discriminate. }
    destruct S1 as ((x1 & Et1) & GI1 & B3 & B4 & B5 & B6).
    pose proof GI1 as (W1 & Lr1 & G1).
    assert (Lt1 : (length t <= length t1)%nat) by (subst t1; rewrite app_length; lia).
    assert (Lg1 : (g < length t1)%nat) by lia.
    assert (Eo1 : nth_error t1 j = Some o) by (subst t1; rewrite nth_error_app1 by lia; congruence).
    assert (Vt1 : forall X k, (k < length t)%nat -> V X t1 k = V X t k) by (intros; subst t1; now apply V_app).
    assert (Dt1 : forall X k, (k < length t)%nat -> D X (unit3 x) t1 k = D X (unit3 x) t k) by (intros; subst t1; now apply D_app).
    assert (Rt1 : forall y k, (k < length t)%nat -> reach y t1 k = reach y t k) by (intros; subst t1; now apply reach_app).
    assert (P2 : forall X, part2 (V X t1) o = part2 (V X t) o).
    { intros X. assert (H : forall k, is_arg k o -> V X t1 k = V X t k) by (intros k K; apply Vt1; specialize (Ks k K); lia).
      destruct o; cbn; try reflexivity; rewrite !H by isarg; reflexivity. }
    assert (S2 : (exists ext, t2 = t1 ++ ext) /\ Ginv x root t2 a2 /\
      (forall X, regular t1 X -> regular t2 X /\ forall n, (j <= n)%nat ->
         tot X x n t2 a2 = tot X x n t1 a1 + V X t g * part2 (V X t) o * at_arg (D X (unit3 x) t) (arg2 o)) /\
      (forall i, a2 i <> None <-> a1 i <> None \/ (arg2 o = Some i /\ reach x t i = true)) /\
      (forall i, (j <= i)%nat -> a2 i = a1 i) /\
      (forall y, (forall k, from k -> (k < length t)%nat /\ reach y t k = false) -> NR y t1 a1 -> NR y t2 a2)).
    { destruct (arg2 o) as [k|] eqn:E1.
      - assert (Lk : (k < j)%nat) by (apply Ks; right; auto).
        assert (HV := vjp2_ok t1 W1 j g o Eo1 Lg1 No).
        destruct (feed_spec x root t1 a1 k _ _ _ t2 a2 GI1 ltac:(lia) HV F2) as (C1 & C2 & C3 & C4 & C5 & C6).
        split; [exact C1|]. split; [exact C2|]. split; [|split; [|split]].
        + intros X Hr. destruct (C3 X Hr) as [Q1 Q2]. split; auto. intros n Ln. cbn [at_arg].
          rewrite (Q2 n), P2, Vt1, Dt1 by lia. ring.
        + intros i. rewrite C4. rewrite Rt1 by lia. split; intros [H|H]; auto; right; [destruct H as [-> ?]; auto|destruct H as [H ?]; injection H as <-; auto].
        + intros i Li. apply C5. lia.
        + intros y Hy. apply C6. intros i Hi. destruct (Hy i Hi) as [L Q]. split; [lia|]. now rewrite Rt1.
      - cbn in F2. injection F2 as <- <-. split; [exists []; now rewrite app_nil_r|]. split; [exact GI1|]. split; [|split; [|split]]; auto.
        + intros X Hr. split; auto. intros n _. cbn. ring.
        + intros i. intuition discriminate. }
    destruct S2 as ((x2 & Et2) & GI2 & C3 & C4 & C5 & C6).
    cbn [tp ac freed].
    assert (Acc2 : forall i, a2 i <> None <-> acc i <> None \/ (is_arg i o /\ reach x t i = true)).
    { intros i. rewrite C4, B4. unfold is_arg. tauto. }
    split; [|split; [|split; [|split; [|split; [|split; [|split]]]]]].
    - intros _ o' E S'. injection E as <-. rewrite S' in Es. exact Es.
    - exists (x1 ++ x2). rewrite Et2, Et1. now rewrite app_assoc.
    - exact GI2.
    - intros k Lk. rewrite Acc2, (A k) by lia. rewrite Rt by lia. split.
      + intros [(R & H)|(K & R)].
        * split; auto. destruct H as [->|(p & o' & Lp & U & E & K)]; [auto|right; exists p, o'; repeat split; auto; lia].
        * split; auto. right. exists j, o. repeat split; auto. apply EX.
      + intros (R & H). destruct H as [->|(p & o' & Lp & U & E & K)]; [left; auto|].
        destruct (Nat.eq_dec p j) as [->|Np].
        * right. rewrite Eo in E. injection E as <-. auto.
        * left. split; auto. right. exists p, o'. repeat split; auto; lia.
    - intros k Lk. rewrite C5, B5 by auto. reflexivity.
    - intros X Hr. destruct (B3 X Hr) as [Hr1 T1]. destruct (C3 X Hr1) as [Hr2 T2]. split; [exact Hr2|].
      rewrite !Nat.max_r by lia. rewrite (T2 j), (T1 j) by lia.
      unfold tot at 2. cbn [sumn]. fold (tot X x j t acc). unfold contrib. rewrite Eg.
      rewrite (D_at X (unit3 x) t j o W ltac:(congruence)).
      rewrite (dstep_parts X _ t _ o No) by (apply (Hr j); congruence). ring.
    - intros i. destruct retain; [intuition discriminate|]. unfold upd. destruct (Nat.eqb i j) eqn:Ei.
      + apply Nat.eqb_eq in Ei. tauto.
      + apply Nat.eqb_neq in Ei. intuition.
    - intros y Hy Hn.
      assert (Hf : forall k, from k -> (k < length t)%nat /\ reach y t k = false).
      { intros k [->|(Sv & Hk)]; [split; auto; exact (Hn _ _ Eg)|].
        assert (Rj0 := Hy o EX eq_refl Sv). destruct Hk as [K| ->].
        - specialize (Ks k K). split; [lia|]. rewrite Rt by lia.
          destruct (reach y t0 k) eqn:Q; auto. rewrite (reach_arg y t0 j o k W0 Eo K Q) in Rj0. discriminate.
        - split; [lia|]. rewrite Rt by lia. exact Rj0. }
      apply C6; auto.
  Qed.

  Lemma sweep_spec : forall n t acc fl, (n <= S root)%nat -> (exists ext, t = t0 ++ ext) -> Ginv x root t acc -> Ainv n acc ->
    match sweep x retain n {| tp := t; ac := acc; freed := fl |} with
    | Raise e => e = RuntimeError /\ conflict x t0 root fl n
    | Ok e' =>
        ~ conflict x t0 root fl n /\
        (exists ext, tp e' = t ++ ext) /\ Ginv x root (tp e') (ac e') /\
        (forall k, (k < n)%nat -> ac e' k <> None <-> reach x t0 k = true /\ uses t0 root k) /\
        (forall k, (n <= k)%nat -> ac e' k = acc k) /\
        (forall X, regular t X -> regular (tp e') X /\ tot X x 3 (tp e') (ac e') = tot X x (max 3 n) t acc) /\
        (forall i, freed e' i = true <-> fl i = true \/ (retain = false /\ (i < n)%nat /\ execd x t0 root i)) /\
        (forall y, (forall j o, execd x t0 root j -> nth_error t0 j = Some o -> saves o = true -> reach y t0 j = false) ->
                   NR y t acc -> NR y (tp e') (ac e'))
    end.
  Proof.
    induction n as [|j IH]; intros t acc fl Ln Et GI A.
    - cbn. split; [intros (j & o & L & _); lia|]. split; [exists []; now rewrite app_nil_r|].
      split; [exact GI|]. split; [intros; lia|]. split; [auto|]. split; [auto|]. split; [|auto].
      intros i. split; [auto|]. intros [H|(_ & H & _)]; [auto|lia].
    - cbn [sweep]. pose proof (visit_spec j t acc fl ltac:(lia) Et GI A) as HV.
      destruct (visit x retain j {| tp := t; ac := acc; freed := fl |}) as [e1|e]; cbn [rbind].
      2:{ destruct HV as (-> & EX & F & o & E & S'). split; auto. exists j, o. repeat split; auto; apply EX. }
      destruct HV as (H1 & (x1 & H2) & H3 & H4 & H5 & H6 & H7 & H8).
      destruct e1 as [t1 a1 f1]; cbn [tp ac freed] in *.
      assert (Et1 : exists ext, t1 = t0 ++ ext).
      { destruct Et as (x0 & ->). exists (x0 ++ x1). rewrite H2. now rewrite app_assoc. }
      specialize (IH t1 a1 f1 ltac:(lia) Et1 H3 H4).
      assert (CF : forall i, (i < j)%nat -> f1 i = true <-> fl i = true).
      { intros i Li. rewrite H7. split; [intros [?|(_ & ? & _)]; [auto|lia]|auto]. }
      destruct (sweep x retain j {| tp := t1; ac := a1; freed := f1 |}) as [e'|e].
      2:{ destruct IH as (-> & (i & o & Li & EX & E & S' & F)). split; auto.
          exists i, o. repeat split; auto; try apply EX. now apply CF. }
      destruct IH as (J1 & (x2 & J2) & J3 & J4 & J5 & J6 & J7 & J8).
      split; [|split; [|split; [|split; [|split; [|split; [|split]]]]]].
      + intros (i & o & Li & EX & E & S' & F). destruct (Nat.eq_dec i j) as [->|N].
        * rewrite (H1 EX o E S') in F. discriminate.
        * apply J1. exists i, o. assert (i < j)%nat by lia. repeat split; auto; try apply EX. now apply CF.
      + exists (x1 ++ x2). rewrite J2, H2. now rewrite app_assoc.
      + exact J3.
      + intros k Lk. destruct (Nat.eq_dec k j) as [->|N].
        * rewrite J5, H5 by lia. now apply Ainv_exec.
        * apply J4. lia.
      + intros k Lk. rewrite J5, H5 by lia. reflexivity.
      + intros X Hr. destruct (H6 X Hr) as [Hr1 T1]. destruct (J6 X Hr1) as [Hr2 T2]. split; [auto|]. now rewrite T2, T1.
      + intros i. rewrite J7, H7. split.
        * intros [[?|(? & -> & ?)]|(? & ? & ?)]; auto; right; repeat split; auto; try apply H0; try lia; apply H9.
        * intros [?|(? & ? & EX)]; [auto|]. destruct (Nat.eq_dec i j) as [->|N]; [auto|]. right. split; [auto|split; [lia|auto]].
      + intros y Hy Hn. apply J8; auto. apply H8; auto. intros o EX E S'. eauto.
  Qed.
End SWEEP.

(** ** torch.autograd.grad *)
Lemma autograd_spec (t : tape) (fl : nat -> bool) (root : nat) (x : ix3) (retain : bool) : wf t -> (root < length t)%nat ->
  requires_grad t root = true -> reach x t root = true ->
  match autograd_grad t fl root x retain with
  | Raise e => e = RuntimeError /\ conflict x t root fl (S root)
  | Ok (h, t', fl') =>
      ~ conflict x t root fl (S root) /\
      exists g, h = Some g /\ (exists ext, t' = t ++ ext) /\ wf t' /\ (g < length t')%nat /\
      (forall X, regular t X -> regular t' X /\ V X t' g = D X (unit3 x) t root) /\
      (forall i, fl' i = true <-> fl i = true \/ (retain = false /\ execd x t root i)) /\
      (forall y, (forall j o, execd x t root j -> nth_error t j = Some o -> saves o = true -> reach y t j = false) ->
                 reach y t' g = false)
  end.
Proof.
  intros W Lr RG RX. unfold autograd_grad. rewrite RG, RX.
  set (acc := upd (fun _ : nat => None) root (Some (length t))).
  assert (W1 : wf (t ++ [ONum 1])).
  { apply wf_snoc; auto; [discriminate|]. intros k [K|K]; discriminate K. }
  assert (L1 : (length (t ++ [ONum 1]) = 1 + length t)%nat) by (rewrite app_length; cbn; lia).
  assert (Hacc : forall k g, acc k = Some g -> k = root /\ g = length t).
  { intros k g. unfold acc, upd. destruct (Nat.eqb k root) eqn:E; [|discriminate].
    apply Nat.eqb_eq in E. intros H; injection H as <-. auto. }
  assert (GI : Ginv x root (t ++ [ONum 1]) acc).
  { split; [exact W1|]. split; [lia|]. intros k g E. destruct (Hacc _ _ E) as [-> ->].
    repeat split; [lia|lia|]. now rewrite reach_app by lia. }
  assert (A : Ainv x t root (S root) acc).
  { intros k Lk. unfold acc, upd. destruct (Nat.eqb k root) eqn:E.
    - apply Nat.eqb_eq in E; subst k. split; [auto|discriminate].
    - apply Nat.eqb_neq in E. split; [congruence|]. intros (_ & [?|(p & o & Lp & U & _)]); [contradiction|].
      pose proof (uses_le _ _ _ W U). lia. }
  pose proof (sweep_spec x retain t W root Lr (S root) (t ++ [ONum 1]) acc fl ltac:(lia) (ex_intro _ _ eq_refl) GI A) as SS.
  destruct (sweep x retain (S root) {| tp := t ++ [ONum 1]; ac := acc; freed := fl |}) as [e'|e]; cbn [rbind]; [|exact SS].
  destruct SS as (H1 & (x1 & H2) & H3 & H4 & H5 & H6 & H7 & H8). split; [exact H1|].
  assert (LS : (leaf x <= root)%nat).
  { apply (uses_le t); auto. apply reach_uses; auto. }
  assert (HL : ac e' (leaf x) <> None).
  { apply H4; [lia|]. split; [|apply reach_uses; auto].
    rewrite (reach_at _ _ _ _ W (wf_leaf _ W x)). cbn. now destruct x. }
  destruct (ac e' (leaf x)) as [g|] eqn:Eg; [|congruence].
  destruct H3 as (W' & Lr' & G'). destruct (G' _ _ Eg) as (_ & Lg & _).
  exists g. split; [reflexivity|]. split; [exists ([ONum 1] ++ x1); rewrite H2; now rewrite app_assoc|].
  split; [exact W'|]. split; [exact Lg|]. split; [|split].
  - intros X Hr.
    assert (Hr1 : regular (t ++ [ONum 1]) X).
    { apply regular_snoc; auto. intros k [K|K]; discriminate K. split; auto. exact Logic.I. }
    destruct (H6 X Hr1) as [Hr2 T]. split; [exact Hr2|].
    assert (T0 : tot X x (max 3 (S root)) (t ++ [ONum 1]) acc = D X (unit3 x) t root).
    { unfold tot. rewrite (sumn_upd (fun _ => 0) _ _ root (D X (unit3 x) t root)).
      - assert (Z : forall n, sumn (fun _ => 0) n = 0) by (induction n; cbn; [reflexivity|rewrite IHn; ring]). rewrite Z. ring.
      - lia.
      - unfold contrib, acc. rewrite upd_same, V_snoc. cbn [vstep]. rewrite D_app by auto. ring.
      - intros i Hi. unfold contrib, acc. rewrite upd_other by auto. reflexivity. }
    rewrite T0 in T. rewrite <- T.
    assert (Dl : forall y, D X (unit3 x) (tp e') (leaf y) = delta x y).
    { intros y. rewrite (D_at _ _ _ _ _ W' (wf_leaf _ W' y)). reflexivity. }
    assert (Cl : forall y, contrib X x (tp e') (ac e') (leaf y) = if ix3_eqb x y then V X (tp e') g else 0).
    { intros y. unfold contrib. destruct (ix3_eqb x y) eqn:E.
      - assert (x = y) by (now destruct x, y). subst y. rewrite Eg, Dl. unfold delta. rewrite E. ring.
      - rewrite Dl. unfold delta. rewrite E. destruct (ac e' (leaf y)); ring. }
    unfold tot. cbn [sumn]. pose proof (Cl X0) as C0. pose proof (Cl X1) as C1. pose proof (Cl X2) as C2.
    cbn [leaf] in C0, C1, C2. rewrite C0, C1, C2. destruct x; cbn; ring.
  - intros i. rewrite H7. split; [intros [?|(? & ? & ?)]; auto|]. intros [?|(? & EX)]; [auto|].
    right. split; [auto|]. split; [|auto]. destruct EX as (U & _). pose proof (uses_le _ _ _ W U). lia.
  - intros y Hy. apply (H8 y Hy) with (leaf x); [|exact Eg].
    intros k h Ek. destruct (Hacc _ _ Ek) as [_ ->]. now rewrite reach_snoc.
Qed.
