(** Rounding-error analysis of polynomial expressions. *)
From Coq Require Import Reals List Permutation Lra Lia Psatz.
From Verif Require Import Rounded.
Import ListNotations.
Local Open Scope R_scope.

(** ** Induction with lists of subexpressions *)
Section Ind.
  Variable P : expr -> Prop.
  Hypothesis HNum : forall x, P (Num x).
  Hypothesis HAdd : forall a b, P a -> P b -> P (Add a b).
  Hypothesis HSub : forall a b, P a -> P b -> P (Sub a b).
  Hypothesis HMul : forall a b, P a -> P b -> P (Mul a b).
  Hypothesis HDiv : forall a b, P a -> P b -> P (Div a b).
  Hypothesis HSqrt : forall a, P a -> P (Sqrt a).
  Hypothesis HPow : forall a p, P a -> P (Pow a p).
  Hypothesis HSum : forall l, List.Forall P l -> P (Sum l).
  Hypothesis HProd : forall l, List.Forall P l -> P (Prod l).
  Fixpoint expr_ind' (e : expr) : P e :=
    match e with
    | Num x => HNum x
    | Add a b => HAdd a b (expr_ind' a) (expr_ind' b)
    | Sub a b => HSub a b (expr_ind' a) (expr_ind' b)
    | Mul a b => HMul a b (expr_ind' a) (expr_ind' b)
    | Div a b => HDiv a b (expr_ind' a) (expr_ind' b)
    | Sqrt a => HSqrt a (expr_ind' a)
    | Pow a p => HPow a p (expr_ind' a)
    | Sum l => HSum l ((fix go l : List.Forall P l := match l with [] => Forall_nil P | e :: l => Forall_cons e (expr_ind' e) (go l) end) l)
    | Prod l => HProd l ((fix go l : List.Forall P l := match l with [] => Forall_nil P | e :: l => Forall_cons e (expr_ind' e) (go l) end) l)
    end.
End Ind.

Lemma all_Forall2 u l xs :
  (fix all (es : list expr) (xs : list R) : Prop :=
     match es, xs with [], [] => True | e :: es, x :: xs => rounded u e x /\ all es xs | _, _ => False end) l xs
  <-> Forall2 (rounded u) l xs.
Proof.
  revert xs. induction l as [|e l IH]; intros [|x xs].
  - split; intro H; [constructor|exact I].
  - split; intro H; [destruct H|inversion H].
  - split; intro H; [destruct H|inversion H].
  - split; intro H.
    + destruct H as [H1 H2]. constructor; [exact H1|]. apply IH. exact H2.
    + inversion H; subst. split; auto. apply IH. auto.
Qed.
Lemma rounded_Sum u l v : rounded u (Sum l) v <-> exists xs, Forall2 (rounded u) l xs /\ any_order u Rplus xs v.
Proof. cbn [rounded]. split; intros [xs [H K]]; exists xs; split; auto; apply all_Forall2; auto. Qed.
Lemma rounded_Prod u l v : rounded u (Prod l) v <-> exists xs, Forall2 (rounded u) l xs /\ any_order u Rmult xs v.
Proof. cbn [rounded]. split; intros [xs [H K]]; exists xs; split; auto; apply all_Forall2; auto. Qed.

(** ** Magnitude (all signs replaced by +) and number of roundings of a polynomial expression *)
Fixpoint mag (e : expr) : R :=
  match e with
  | Num x => Rabs x
  | Add a b | Sub a b => mag a + mag b
  | Mul a b => mag a * mag b
  | Div a b => mag a / Rabs (exact b)
  | Sqrt a => 0
  | Pow a p => 0
  | Sum l => fold_right (fun e s => mag e + s) 0 l
  | Prod l => fold_right (fun e s => mag e * s) 1 l
  end.
Fixpoint depth (e : expr) : nat :=
  match e with
  | Num x => 0
  | Add a b | Sub a b => S (Nat.max (depth a) (depth b))
  | Mul a b => S (depth a + depth b)
  | Div a b => S (depth a)
  | Sqrt a => 0
  | Pow a p => 0
  | Sum l => fold_right (fun e s => Nat.max (depth e) s) 0 l + (length l - 1)
  | Prod l => fold_right (fun e s => depth e + s) 0 l + (length l - 1)
  end%nat.
(** Division only by a number. *)
Fixpoint poly (e : expr) : Prop :=
  match e with
  | Num x => True
  | Add a b | Sub a b | Mul a b => poly a /\ poly b
  | Div a b => poly a /\ match b with Num c => c <> 0 | _ => False end
  | Sqrt a => False
  | Pow a p => False
  | Sum l | Prod l => fold_right (fun e s => poly e /\ s) True l
  end.

(** ** gamma *)
Section U.
  Variable u : R.
  Hypothesis Hu : 0 <= u.
  Lemma p1 n : 1 <= (1 + u) ^ n. Proof. apply pow_R1_Rle. lra. Qed.
  Lemma p_le n m : (n <= m)%nat -> (1 + u) ^ n <= (1 + u) ^ m. Proof. intro. apply Rle_pow; lra || lia. Qed.
  Lemma gamma_pos n : 0 <= gamma u n. Proof. unfold gamma. pose proof (p1 n). lra. Qed.
  Lemma gamma_le n m : (n <= m)%nat -> gamma u n <= gamma u m. Proof. intro H. unfold gamma. pose proof (p_le _ _ H). lra. Qed.
  Lemma gamma_S n : gamma u (S n) = (1 + u) * gamma u n + u. Proof. unfold gamma. cbn [pow]. ring. Qed.
  Lemma gamma_add n m : gamma u (n + m) = gamma u n + gamma u m + gamma u n * gamma u m.
  Proof. unfold gamma. rewrite pow_add. ring. Qed.

  Definition near (x s A : R) (n : nat) : Prop := Rabs (x - s) <= gamma u n * A /\ Rabs s <= A.
  Lemma near_A x s A n : near x s A n -> 0 <= A.
  Proof. intros [_ H]. pose proof (Rabs_pos s). lra. Qed.
  Lemma near_le x s A n m : (n <= m)%nat -> near x s A n -> near x s A m.
  Proof.
    intros H N. pose proof (near_A _ _ _ _ N) as HA. destruct N as [N1 N2]. split; auto.
    eapply Rle_trans; [apply N1|]. apply Rmult_le_compat_r; auto. apply gamma_le. auto.
  Qed.
  Lemma near_abs x s A n : near x s A n -> Rabs x <= (1 + gamma u n) * A.
  Proof. intros [N1 N2]. replace x with ((x - s) + s) by ring. eapply Rle_trans; [apply Rabs_triang|]. lra. Qed.
  (** one rounding *)
  Lemma near_fl x s A n v : near x s A n -> fl u x v -> near v s A (S n).
  Proof.
    intros N F. pose proof (near_abs _ _ _ _ N) as HX. destruct N as [N1 N2]. split; auto.
    replace (v - s) with ((v - x) + (x - s)) by ring. eapply Rle_trans; [apply Rabs_triang|].
    unfold fl in F. rewrite gamma_S.
    assert (u * Rabs x <= u * ((1 + gamma u n) * A)) by (apply Rmult_le_compat_l; auto). lra.
  Qed.
  Lemma near_plus x y s t A B n : near x s A n -> near y t B n -> near (x + y) (s + t) (A + B) n.
  Proof.
    intros [N1 N2] [M1 M2]. split.
    - replace (x + y - (s + t)) with ((x - s) + (y - t)) by ring. eapply Rle_trans; [apply Rabs_triang|]. lra.
    - eapply Rle_trans; [apply Rabs_triang|]. lra.
  Qed.
  Lemma near_opp x s A n : near x s A n -> near (- x) (- s) A n.
  Proof.
    intros [N1 N2]. split; rewrite ?Rabs_Ropp; auto. replace (- x - - s) with (- (x - s)) by ring.
    rewrite Rabs_Ropp. auto.
  Qed.
  Lemma near_mult x y s t A B n m : near x s A n -> near y t B m -> near (x * y) (s * t) (A * B) (n + m).
  Proof.
    intros N M. pose proof (near_A _ _ _ _ N). pose proof (near_A _ _ _ _ M).
    destruct N as [N1 N2], M as [M1 M2]. pose proof (gamma_pos n). pose proof (gamma_pos m). split.
    - replace (x * y - s * t) with ((x - s) * (y - t) + (x - s) * t + s * (y - t)) by ring.
      eapply Rle_trans; [apply Rabs_triang|]. eapply Rle_trans; [apply Rplus_le_compat_r, Rabs_triang|].
      rewrite !Rabs_mult, gamma_add.
      assert (Rabs (x - s) * Rabs (y - t) <= (gamma u n * A) * (gamma u m * B)) by (apply Rmult_le_compat; auto using Rabs_pos).
      assert (Rabs (x - s) * Rabs t <= (gamma u n * A) * B) by (apply Rmult_le_compat; auto using Rabs_pos).
      assert (Rabs s * Rabs (y - t) <= A * (gamma u m * B)) by (apply Rmult_le_compat; auto using Rabs_pos).
      nra.
    - rewrite Rabs_mult. apply Rmult_le_compat; auto using Rabs_pos.
  Qed.
  Lemma near_exact x n : near x x (Rabs x) n.
  Proof. split; [|lra]. unfold Rminus. rewrite Rplus_opp_r, Rabs_R0. apply Rmult_le_pos; auto using gamma_pos, Rabs_pos. Qed.
  Lemma near_divc x s A n c : c <> 0 -> near x s A n -> near (x / c) (s / c) (A / Rabs c) n.
  Proof.
    intros Hc [N1 N2]. assert (0 < / Rabs c) by (apply Rinv_0_lt_compat, Rabs_pos_lt; auto). split.
    - replace (x / c - s / c) with ((x - s) * / c) by (field; auto). rewrite Rabs_mult, Rabs_inv.
      unfold Rdiv. rewrite <- Rmult_assoc. apply Rmult_le_compat_r; lra.
    - unfold Rdiv. rewrite Rabs_mult, Rabs_inv. apply Rmult_le_compat_r; lra.
  Qed.

  (** ** Sums and products in any order *)
  Definition sumR (l : list R) : R := fold_right Rplus 0 l.
  Definition prodR (l : list R) : R := fold_right Rmult 1 l.
  Lemma sumR_app l k : sumR (l ++ k) = sumR l + sumR k.
  Proof. induction l as [|a l IH]; cbn [sumR fold_right app]; unfold sumR in *; [|rewrite IH]; ring. Qed.
  Lemma prodR_app l k : prodR (l ++ k) = prodR l * prodR k.
  Proof. induction l as [|a l IH]; cbn [prodR fold_right app]; unfold prodR in *; [|rewrite IH]; ring. Qed.
  Lemma sumR_perm l k : Permutation l k -> sumR l = sumR k.
  Proof. intro H. induction H; cbn [sumR fold_right]; unfold sumR in *; try congruence; ring. Qed.
  Lemma prodR_perm l k : Permutation l k -> prodR l = prodR k.
  Proof. intro H. induction H; cbn [prodR fold_right]; unfold prodR in *; try congruence; ring. Qed.

  Lemma leaves_pos t : (1 <= length (leaves t))%nat.
  Proof. induction t; cbn [leaves]; [cbn; lia|]. rewrite app_length. lia. Qed.

  (** a leaf [x] together with its exact value, magnitude and depth *)
  Definition info := (R * R * nat)%type.
  Definition near' (x : R) (i : info) : Prop := near x (fst (fst i)) (snd (fst i)) (snd i).
  Definition sS (l : list info) := sumR (map (fun i => fst (fst i)) l).
  Definition sA (l : list info) := sumR (map (fun i => snd (fst i)) l).
  Definition mD (l : list info) := fold_right (fun (i : info) s => Nat.max (snd i) s) 0%nat l.
  Definition pS (l : list info) := prodR (map (fun i => fst (fst i)) l).
  Definition pA (l : list info) := prodR (map (fun i => snd (fst i)) l).
  Definition aD (l : list info) := fold_right (fun (i : info) s => snd i + s)%nat 0%nat l.
  Lemma mD_app l k : mD (l ++ k) = Nat.max (mD l) (mD k).
  Proof. unfold mD. induction l as [|a l IH]; cbn [fold_right app]; [reflexivity|]. rewrite IH. lia. Qed.
  Lemma aD_app l k : aD (l ++ k) = (aD l + aD k)%nat.
  Proof. unfold aD. induction l as [|a l IH]; cbn [fold_right app]; [reflexivity|]. rewrite IH. lia. Qed.
  Lemma mD_perm l k : Permutation l k -> mD l = mD k.
  Proof. unfold mD. intro H. induction H; cbn [fold_right] in *; try congruence; lia. Qed.
  Lemma aD_perm l k : Permutation l k -> aD l = aD k.
  Proof. unfold aD. intro H. induction H; cbn [fold_right] in *; try congruence; lia. Qed.

  Lemma sS_perm l k : Permutation l k -> sS l = sS k. Proof. intro H. apply sumR_perm, Permutation_map, H. Qed.
  Lemma sA_perm l k : Permutation l k -> sA l = sA k. Proof. intro H. apply sumR_perm, Permutation_map, H. Qed.
  Lemma pS_perm l k : Permutation l k -> pS l = pS k. Proof. intro H. apply prodR_perm, Permutation_map, H. Qed.
  Lemma pA_perm l k : Permutation l k -> pA l = pA k. Proof. intro H. apply prodR_perm, Permutation_map, H. Qed.

  Lemma tree_sum_near t v : tree_val u Rplus t v -> forall is_, Forall2 near' (leaves t) is_ ->
    near v (sS is_) (sA is_) (mD is_ + (length (leaves t) - 1)).
  Proof.
    revert v. induction t as [x|l IHl r IHr]; cbn [tree_val leaves]; intros v H is_ HF.
    - subst. inversion HF as [|? i ? l HN HF' e1 e2]; subst. inversion HF'; subst.
      unfold sS, sA, mD. cbn. rewrite !Rplus_0_r. unfold near' in HN. eapply near_le; [|apply HN]. lia.
    - destruct H as [a [b [Ha [Hb Hf]]]]. apply Forall2_app_inv_l in HF. destruct HF as [i1 [i2 [F1 [F2 ->]]]].
      specialize (IHl _ Ha _ F1). specialize (IHr _ Hb _ F2).
      unfold sS, sA. rewrite !map_app, !sumR_app.
      fold (sS i1) (sS i2) (sA i1) (sA i2). rewrite mD_app, app_length.
      pose proof (leaves_pos l). pose proof (leaves_pos r).
      assert (N1 : near a (sS i1) (sA i1) (Nat.max (mD i1) (mD i2) + (length (leaves l) + length (leaves r) - 1) - 1)%nat)
        by (eapply near_le; [|apply IHl]; lia).
      assert (N2 : near b (sS i2) (sA i2) (Nat.max (mD i1) (mD i2) + (length (leaves l) + length (leaves r) - 1) - 1)%nat)
        by (eapply near_le; [|apply IHr]; lia).
      eapply near_le; [|eapply near_fl; [eapply near_plus; [exact N1|exact N2]|exact Hf]]. lia.
  Qed.
  Lemma tree_prod_near t v : tree_val u Rmult t v -> forall is_, Forall2 near' (leaves t) is_ ->
    near v (pS is_) (pA is_) (aD is_ + (length (leaves t) - 1)).
  Proof.
    revert v. induction t as [x|l IHl r IHr]; cbn [tree_val leaves]; intros v H is_ HF.
    - subst. inversion HF as [|? i ? l HN HF' e1 e2]; subst. inversion HF'; subst.
      unfold pS, pA, aD. cbn. rewrite !Rmult_1_r. unfold near' in HN. eapply near_le; [|apply HN]. lia.
    - destruct H as [a [b [Ha [Hb Hf]]]]. apply Forall2_app_inv_l in HF. destruct HF as [i1 [i2 [F1 [F2 ->]]]].
      specialize (IHl _ Ha _ F1). specialize (IHr _ Hb _ F2).
      unfold pS, pA. rewrite !map_app, !prodR_app.
      fold (pS i1) (pS i2) (pA i1) (pA i2). rewrite aD_app, app_length.
      pose proof (leaves_pos l). pose proof (leaves_pos r).
      eapply near_le; [|eapply near_fl; [eapply near_mult; [apply IHl|apply IHr]|exact Hf]]. lia.
  Qed.
  Lemma any_sum_near xs v is_ : any_order u Rplus xs v -> Forall2 near' xs is_ ->
    near v (sS is_) (sA is_) (mD is_ + (length xs - 1)).
  Proof.
    intros [t [HP HT]] HF. destruct (Permutation_Forall2 (Permutation_sym HP) HF) as [is' [HP' HF']].
    pose proof (tree_sum_near _ _ HT _ HF') as N. rewrite (Permutation_length HP) in N.
    rewrite (mD_perm _ _ HP'), (sS_perm _ _ HP'), (sA_perm _ _ HP'). exact N.
  Qed.
  Lemma any_prod_near xs v is_ : any_order u Rmult xs v -> Forall2 near' xs is_ ->
    near v (pS is_) (pA is_) (aD is_ + (length xs - 1)).
  Proof.
    intros [t [HP HT]] HF. destruct (Permutation_Forall2 (Permutation_sym HP) HF) as [is' [HP' HF']].
    pose proof (tree_prod_near _ _ HT _ HF') as N. rewrite (Permutation_length HP) in N.
    rewrite (aD_perm _ _ HP'), (pS_perm _ _ HP'), (pA_perm _ _ HP'). exact N.
  Qed.

  (** ** The error bound *)
  Theorem rounded_near e : poly e -> forall v, rounded u e v -> near v (exact e) (mag e) (depth e).
  Proof.
    induction e as [x|a b IHa IHb|a b IHa IHb|a b IHa IHb|a b IHa IHb|a IHa|a p IHa|l IH|l IH] using expr_ind'; intros HP v HV.
    - cbn in HV. subst. apply near_exact.
    - destruct HV as [x [y [Hx [Hy Hf]]]]. destruct HP as [Pa Pb]. cbn [exact mag depth].
      eapply near_fl; [|exact Hf]. apply near_plus; [eapply near_le; [|apply IHa]|eapply near_le; [|apply IHb]]; auto; lia.
    - destruct HV as [x [y [Hx [Hy Hf]]]]. destruct HP as [Pa Pb]. cbn [exact mag depth].
      eapply near_fl; [|exact Hf]. apply near_plus; [|apply near_opp]; [eapply near_le; [|apply IHa]|eapply near_le; [|apply IHb]]; auto; lia.
    - destruct HV as [x [y [Hx [Hy Hf]]]]. destruct HP as [Pa Pb]. cbn [exact mag depth].
      eapply near_fl; [|exact Hf]. apply near_mult; auto.
    - destruct HV as [x [y [Hx [Hy Hf]]]]. destruct HP as [Pa Pb]. destruct b as [c| | | | | | | |]; try contradiction.
      cbn in Hy. subst y. cbn [exact mag depth]. eapply near_fl; [|exact (Hf Pb)]. apply near_divc; auto.
    - destruct HP.
    - destruct HP.
    - apply rounded_Sum in HV. destruct HV as [xs [HF HV]]. cbn [exact mag depth].
      pose proof (any_sum_near xs v (map (fun e => (exact e, mag e, depth e)) l) HV) as N.
      assert (HL : length xs = length l) by (clear - HF; induction HF; cbn [length]; congruence). rewrite HL in N.
      replace (fold_right (fun e s => exact e + s) 0 l) with (sS (map (fun e => (exact e, mag e, depth e)) l)).
      replace (fold_right (fun e s => mag e + s) 0 l) with (sA (map (fun e => (exact e, mag e, depth e)) l)).
      replace (fold_right (fun e s => Nat.max (depth e) s) 0%nat l) with (mD (map (fun e => (exact e, mag e, depth e)) l)).
      + apply N. clear - IH HF HP. induction HF as [|e x l xs He HF IHF]; [constructor|].
        destruct HP as [P1 P2]. inversion IH; subst. constructor; auto. unfold near'. cbn. auto.
      + clear. induction l as [|a l IH]; cbn; [auto|]. unfold mD in IH. rewrite IH. auto.
      + clear. induction l as [|a l IH]; cbn; [auto|]. unfold sA in IH. rewrite <- IH. auto.
      + clear. induction l as [|a l IH]; cbn; [auto|]. unfold sS in IH. rewrite <- IH. auto.
    - apply rounded_Prod in HV. destruct HV as [xs [HF HV]]. cbn [exact mag depth].
      pose proof (any_prod_near xs v (map (fun e => (exact e, mag e, depth e)) l) HV) as N.
      assert (HL : length xs = length l) by (clear - HF; induction HF; cbn [length]; congruence). rewrite HL in N.
      replace (fold_right (fun e s => exact e * s) 1 l) with (pS (map (fun e => (exact e, mag e, depth e)) l)).
      replace (fold_right (fun e s => mag e * s) 1 l) with (pA (map (fun e => (exact e, mag e, depth e)) l)).
      replace (fold_right (fun e s => depth e + s)%nat 0%nat l) with (aD (map (fun e => (exact e, mag e, depth e)) l)).
      + apply N. clear - IH HF HP. induction HF as [|e x l xs He HF IHF]; [constructor|].
        destruct HP as [P1 P2]. inversion IH; subst. constructor; auto. unfold near'. cbn. auto.
      + clear. induction l as [|a l IH]; cbn; [auto|]. unfold aD in IH. rewrite IH. auto.
      + clear. induction l as [|a l IH]; cbn; [auto|]. unfold pA in IH. rewrite <- IH. auto.
      + clear. induction l as [|a l IH]; cbn; [auto|]. unfold pS in IH. rewrite <- IH. auto.
  Qed.
  Corollary rounded_error e n : poly e -> (depth e <= n)%nat -> forall v, rounded u e v ->
    Rabs (v - exact e) <= gamma u n * mag e.
  Proof. intros HP HD v HV. apply (near_le _ _ _ _ _ HD (rounded_near e HP v HV)). Qed.
  (** n roundings: gamma u n <= n u / (1 - n u) *)
  Lemma gamma_linear n : INR n * u < 1 -> gamma u n <= INR n * u / (1 - INR n * u).
  Proof.
    intro H. assert (K : (1 + u) ^ n * (1 - INR n * u) <= 1).
    { clear H. induction n as [|n IH]; [cbn; lra|]. rewrite S_INR. cbn [pow]. pose proof (p1 n). pose proof (pos_INR n).
      assert ((1 + u) * (1 - (INR n + 1) * u) <= 1 - INR n * u) by nra.
      replace ((1 + u) * (1 + u) ^ n * (1 - (INR n + 1) * u)) with ((1 + u) ^ n * ((1 + u) * (1 - (INR n + 1) * u))) by ring.
      eapply Rle_trans; [apply Rmult_le_compat_l; [lra|eassumption]|]. auto. }
    unfold gamma. apply Rmult_le_reg_r with (1 - INR n * u); [lra|]. unfold Rdiv. rewrite Rmult_assoc, Rinv_l by lra. lra.
  Qed.
  (** ** Every operation exactly rounded is one possible behaviour *)
  Lemma fl_exact x : fl u x x.
  Proof. unfold fl, Rminus. rewrite Rplus_opp_r, Rabs_R0. apply Rmult_le_pos; auto using Rabs_pos. Qed.
End U.
