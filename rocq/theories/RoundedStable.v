(** Rounding errors are O(u): every expression whose divisors are not zero and whose roots and
    powers are taken of positive numbers is evaluated with an error of at most K u. *)
From Coq Require Import Reals List Permutation Lra Lia Psatz.
From Coquelicot Require Import Coquelicot.
From Verif Require Import Rounded RoundedProofs.
Import ListNotations.
Local Open Scope R_scope.

(** The values allowed by [P u] are within K u of [s], for all small [u]. *)
Definition order_u (P : R -> R -> Prop) (s : R) : Prop := exists K u0, 0 <= K /\ 0 < u0 /\
  forall u x, 0 <= u <= u0 -> P u x -> Rabs (x - s) <= K * u.

Fixpoint regular (e : expr) : Prop :=
  match e with
  | Num x => True
  | Add a b | Sub a b | Mul a b => regular a /\ regular b
  | Div a b => regular a /\ regular b /\ exact b <> 0
  | Sqrt a | Pow a _ => regular a /\ 0 < exact a
  | Sum l | Prod l => l <> [] /\ fold_right (fun e s => regular e /\ s) True l
  end.

(** ** Lipschitz at a point, with the condition under which the operation is specified *)
Definition calm1 (f : R -> R) (a : R) : Prop := exists L d, 0 <= L /\ 0 < d /\
  forall x, Rabs (x - a) <= d -> Rabs (f x - f a) <= L * Rabs (x - a).
Definition calm2 (op : R -> R -> R) (a b : R) : Prop := exists L d, 0 <= L /\ 0 < d /\
  forall x y, Rabs (x - a) <= d -> Rabs (y - b) <= d -> Rabs (op x y - op a b) <= L * (Rabs (x - a) + Rabs (y - b)).
Definition around (G : R -> R -> Prop) (a b : R) : Prop := exists d, 0 < d /\
  forall x y, Rabs (x - a) <= d -> Rabs (y - b) <= d -> G x y.

Lemma calm1_derive f a l : is_derive f a l -> calm1 f a.
Proof.
  intro H. apply is_derive_Reals in H. destruct (H 1 Rlt_0_1) as [d Hd].
  exists (Rabs l + 1), (d / 2). pose proof (Rabs_pos l). pose proof (cond_pos d). repeat split; try lra.
  intros x Hx. destruct (Req_dec (x - a) 0) as [E|E].
  - replace x with a by lra. unfold Rminus. rewrite !Rplus_opp_r, Rabs_R0. lra.
  - specialize (Hd (x - a) E ltac:(lra)). replace (a + (x - a)) with x in Hd by ring.
    replace (f x - f a) with (((f x - f a) / (x - a) - l + l) * (x - a)) by (field; auto).
    rewrite Rabs_mult. apply Rmult_le_compat_r; [apply Rabs_pos|].
    eapply Rle_trans; [apply Rabs_triang|]. lra.
Qed.
Lemma calm2_plus a b : calm2 Rplus a b.
Proof.
  exists 1, 1. repeat split; try lra. intros x y _ _. replace (x + y - (a + b)) with ((x - a) + (y - b)) by ring.
  rewrite Rmult_1_l. apply Rabs_triang.
Qed.
Lemma calm2_minus a b : calm2 Rminus a b.
Proof.
  exists 1, 1. repeat split; try lra. intros x y _ _. replace (x - y - (a - b)) with ((x - a) + - (y - b)) by ring.
  rewrite Rmult_1_l. eapply Rle_trans; [apply Rabs_triang|]. rewrite Rabs_Ropp. lra.
Qed.
Lemma calm2_mult a b : calm2 Rmult a b.
Proof.
  exists (Rabs a + Rabs b + 1), 1. pose proof (Rabs_pos a). pose proof (Rabs_pos b). repeat split; try lra.
  intros x y Hx Hy. replace (x * y - a * b) with ((x - a) * y + a * (y - b)) by ring.
  eapply Rle_trans; [apply Rabs_triang|]. rewrite !Rabs_mult.
  assert (Rabs y <= Rabs b + 1) by (replace y with ((y - b) + b) by ring; eapply Rle_trans; [apply Rabs_triang|]; lra).
  pose proof (Rabs_pos (x - a)). pose proof (Rabs_pos (y - b)).
  assert (Rabs (x - a) * Rabs y <= Rabs (x - a) * (Rabs b + 1)) by (apply Rmult_le_compat_l; auto).
  nra.
Qed.
Lemma calm2_div a b : b <> 0 -> calm2 Rdiv a b /\ around (fun _ y => y <> 0) a b.
Proof.
  intro Hb. pose proof (Rabs_pos_lt b Hb) as B. pose proof (Rabs_pos a).
  assert (Y : forall y, Rabs (y - b) <= Rabs b / 2 -> Rabs b / 2 <= Rabs y).
  { intros y Hy. assert (Rabs b <= Rabs y + Rabs (y - b)).
    { replace b with (y + - (y - b)) at 1 by ring. eapply Rle_trans; [apply Rabs_triang|]. rewrite Rabs_Ropp. lra. } lra. }
  assert (Y0 : forall y, Rabs (y - b) <= Rabs b / 2 -> y <> 0).
  { intros y Hy E. specialize (Y y Hy). subst. rewrite Rabs_R0 in Y. lra. }
  split.
  - exists ((Rabs b + Rabs a) * (2 / (Rabs b * Rabs b))), (Rabs b / 2). repeat split; try lra.
    + apply Rmult_le_pos; [lra|]. left. apply Rdiv_lt_0_compat; nra.
    + intros x y _ Hy. specialize (Y y Hy). specialize (Y0 y Hy).
      replace (x / y - a / b) with (((x - a) * b + a * (b - y)) * / (b * y)) by (field; auto).
      rewrite Rabs_mult, Rabs_inv, Rabs_mult.
      assert (I : / (Rabs b * Rabs y) <= 2 / (Rabs b * Rabs b)).
      { unfold Rdiv. replace (2 * / (Rabs b * Rabs b)) with (/ (Rabs b * (Rabs b / 2))) by (field; lra).
        apply Rinv_le_contravar; [apply Rmult_lt_0_compat; lra|]. apply Rmult_le_compat_l; lra. }
      assert (N : Rabs ((x - a) * b + a * (b - y)) <= (Rabs b + Rabs a) * (Rabs (x - a) + Rabs (y - b))).
      { eapply Rle_trans; [apply Rabs_triang|]. rewrite !Rabs_mult, (Rabs_minus_sym b y).
        pose proof (Rabs_pos (x - a)). pose proof (Rabs_pos (y - b)). nra. }
      replace ((Rabs b + Rabs a) * (2 / (Rabs b * Rabs b)) * (Rabs (x - a) + Rabs (y - b)))
        with ((Rabs b + Rabs a) * (Rabs (x - a) + Rabs (y - b)) * (2 / (Rabs b * Rabs b))) by ring.
      apply Rmult_le_compat; auto using Rabs_pos. left. apply Rinv_0_lt_compat. apply Rmult_lt_0_compat; lra.
  - exists (Rabs b / 2). split; [lra|]. intros; auto.
Qed.
Lemma calm2_comp f g a b : calm1 f (g a b) -> calm2 g a b -> calm2 (fun x y => f (g x y)) a b.
Proof.
  intros (L1 & d1 & HL1 & Hd1 & H1) (L2 & d2 & HL2 & Hd2 & H2).
  exists (L1 * L2), (Rmin d2 (d1 / (2 * L2 + 1))). 
  assert (P : 0 < d1 / (2 * L2 + 1)) by (apply Rdiv_lt_0_compat; lra).
  repeat split; [nra|apply Rmin_pos; auto|].
  intros x y Hx Hy.
  pose proof (Rmin_l d2 (d1 / (2 * L2 + 1))). pose proof (Rmin_r d2 (d1 / (2 * L2 + 1))).
  specialize (H2 x y ltac:(lra) ltac:(lra)).
  assert (Rabs (g x y - g a b) <= d1).
  { eapply Rle_trans; [exact H2|]. apply Rle_trans with (L2 * (2 * (d1 / (2 * L2 + 1)))).
    - apply Rmult_le_compat_l; lra.
    - replace (L2 * (2 * (d1 / (2 * L2 + 1)))) with (d1 * (2 * L2 / (2 * L2 + 1))) by (field; lra).
      assert (2 * L2 / (2 * L2 + 1) <= 1). { apply Rmult_le_reg_r with (2 * L2 + 1); [lra|]. unfold Rdiv. rewrite Rmult_assoc, Rinv_l by lra. lra. }
      nra. }
  eapply Rle_trans; [apply H1; auto|]. rewrite Rmult_assoc. apply Rmult_le_compat_l; auto.
Qed.
Lemma calm2_pre h op a b : calm1 h a -> calm2 op (h a) b -> calm2 (fun x y => op (h x) y) a b.
Proof.
  intros (L1 & d1 & HL1 & Hd1 & H1) (L2 & d2 & HL2 & Hd2 & H2).
  exists (L2 * (L1 + 1)), (Rmin (Rmin d1 d2) (d2 / (L1 + 1))).
  assert (P : 0 < d2 / (L1 + 1)) by (apply Rdiv_lt_0_compat; lra).
  repeat split; [nra|repeat apply Rmin_pos; auto|].
  intros x y Hx Hy.
  pose proof (Rmin_l (Rmin d1 d2) (d2 / (L1 + 1))). pose proof (Rmin_r (Rmin d1 d2) (d2 / (L1 + 1))).
  pose proof (Rmin_l d1 d2). pose proof (Rmin_r d1 d2).
  specialize (H1 x ltac:(lra)).
  assert (Rabs (h x - h a) <= d2).
  { eapply Rle_trans; [exact H1|]. apply Rle_trans with (L1 * (d2 / (L1 + 1))); [apply Rmult_le_compat_l; lra|].
    assert (L1 / (L1 + 1) <= 1). { apply Rmult_le_reg_r with (L1 + 1); [lra|]. unfold Rdiv. rewrite Rmult_assoc, Rinv_l by lra. lra. }
    replace (L1 * (d2 / (L1 + 1))) with (d2 * (L1 / (L1 + 1))) by (field; lra). nra. }
  eapply Rle_trans; [apply H2; auto; lra|]. rewrite Rmult_assoc. apply Rmult_le_compat_l; auto.
  pose proof (Rabs_pos (x - a)). pose proof (Rabs_pos (y - b)). nra.
Qed.
Lemma around_pos a b : 0 < a -> around (fun x _ => 0 < x) a b.
Proof.
  intro H. exists (a / 2). split; [lra|]. intros x y Hx _. unfold Rabs in Hx. destruct (Rcase_abs (x - a)); lra.
Qed.
Lemma calm2_pow a p : 0 < a -> calm2 Rpower a p.
Proof.
  intro H. unfold Rpower.
  pose proof (calm2_pre ln (fun l q => q * l) a p) as C. 
  assert (C1 : calm1 ln a) by (eapply calm1_derive; auto_derive; [lra|reflexivity]).
  assert (C2 : calm2 (fun l q => q * l) (ln a) p).
  { destruct (calm2_mult (ln a) p) as (L & d & HL & Hd & HH). exists L, d. repeat split; auto. intros x y Hx Hy.
    rewrite (Rmult_comm y x), (Rmult_comm p (ln a)). auto. }
  specialize (C C1 C2). cbv beta in C.
  assert (C3 : calm1 exp (p * ln a)) by (eapply calm1_derive; auto_derive; [exact I|reflexivity]).
  exact (calm2_comp exp (fun x q => q * ln x) a p C3 C).
Qed.
Lemma calm2_sqrt a b : 0 < a -> calm2 (fun x _ => sqrt x) a b.
Proof.
  intro H. assert (C1 : calm1 sqrt a) by (eapply calm1_derive; auto_derive; [lra|reflexivity]).
  destruct C1 as (L & d & HL & Hd & HH). exists L, d. repeat split; auto. intros x y Hx _.
  eapply Rle_trans; [apply HH; auto|]. apply Rmult_le_compat_l; auto. pose proof (Rabs_pos (y - b)). lra.
Qed.

(** ** One operation *)
Lemma order_u_op (P Q : R -> R -> Prop) (G : R -> R -> Prop) op a b : order_u P a -> order_u Q b -> calm2 op a b -> around G a b ->
  order_u (fun u v => exists x y, P u x /\ Q u y /\ (G x y -> fl u (op x y) v)) (op a b).
Proof.
  intros (K1 & u1 & HK1 & Hu1 & H1) (K2 & u2 & HK2 & Hu2 & H2) (L & d & HL & Hd & HC) (d' & Hd' & HG).
  exists (2 * (L * (K1 + K2)) + Rabs (op a b)).
  exists (Rmin 1 (Rmin (Rmin u1 u2) (Rmin d d' / (K1 + K2 + 1)))).
  assert (LK : 0 <= L * (K1 + K2)) by nra. pose proof (Rabs_pos (op a b)) as PA.
  assert (DD : 0 < Rmin d d') by (apply Rmin_pos; auto).
  assert (E : 0 < Rmin d d' / (K1 + K2 + 1)) by (apply Rdiv_lt_0_compat; lra).
  split; [lra|]. split; [apply Rmin_pos; [lra|]; repeat apply Rmin_pos; auto|].
  intros u v [U0 U1] (x & y & Hx & Hy & HF).
  pose proof (Rmin_l 1 (Rmin (Rmin u1 u2) (Rmin d d' / (K1 + K2 + 1)))).
  pose proof (Rmin_r 1 (Rmin (Rmin u1 u2) (Rmin d d' / (K1 + K2 + 1)))).
  pose proof (Rmin_l (Rmin u1 u2) (Rmin d d' / (K1 + K2 + 1))). pose proof (Rmin_r (Rmin u1 u2) (Rmin d d' / (K1 + K2 + 1))).
  pose proof (Rmin_l u1 u2). pose proof (Rmin_r u1 u2). pose proof (Rmin_l d d'). pose proof (Rmin_r d d').
  specialize (H1 u x ltac:(lra) Hx). specialize (H2 u y ltac:(lra) Hy).
  assert (UD : (K1 + K2 + 1) * u <= Rmin d d').
  { apply Rle_trans with ((K1 + K2 + 1) * (Rmin d d' / (K1 + K2 + 1))); [apply Rmult_le_compat_l; lra|]. right. field. lra. }
  assert (Rabs (x - a) <= Rmin d d') by nra. assert (Rabs (y - b) <= Rmin d d') by nra.
  specialize (HC x y ltac:(lra) ltac:(lra)). specialize (HF (HG x y ltac:(lra) ltac:(lra))). unfold fl in HF.
  assert (HC' : Rabs (op x y - op a b) <= L * (K1 + K2) * u).
  { eapply Rle_trans; [exact HC|]. rewrite Rmult_assoc. apply Rmult_le_compat_l; auto. lra. }
  replace (v - op a b) with ((v - op x y) + (op x y - op a b)) by ring.
  eapply Rle_trans; [apply Rabs_triang|].
  assert (Rabs (op x y) <= Rabs (op a b) + L * (K1 + K2) * u).
  { replace (op x y) with (op a b + (op x y - op a b)) by ring. eapply Rle_trans; [apply Rabs_triang|]. lra. }
  assert (u * Rabs (op x y) <= u * (Rabs (op a b) + L * (K1 + K2) * u)) by (apply Rmult_le_compat_l; auto).
  assert (u * (L * (K1 + K2) * u) <= L * (K1 + K2) * u). { assert (0 <= L * (K1 + K2) * u) by nra. nra. }
  lra.
Qed.
Lemma order_u_mono (P Q : R -> R -> Prop) s : (forall u x, 0 <= u -> Q u x -> P u x) -> order_u P s -> order_u Q s.
Proof. intros H (K & u0 & HK & H0 & HP). exists K, u0. repeat split; auto. intros u x U HX. apply HP; auto. apply H; auto. lra. Qed.
Lemma order_u_const s : order_u (fun _ x => x = s) s.
Proof. exists 0, 1. repeat split; try lra. intros u x _ ->. unfold Rminus. rewrite Rplus_opp_r, Rabs_R0. lra. Qed.
Lemma order_u_fl p : order_u (fun u q => fl u p q) p.
Proof. exists (Rabs p), 1. pose proof (Rabs_pos p). repeat split; try lra. intros u x _ H'. unfold fl in H'. lra. Qed.

(** ** Sums and products *)
Lemma gamma1 u : gamma u 1 = u. Proof. unfold gamma. ring. Qed.
Lemma gamma_small n : exists K u0, 0 <= K /\ 0 < u0 /\ forall u, 0 <= u <= u0 -> gamma u n <= K * u.
Proof.
  exists (2 * INR n), (/ (2 * INR n + 1)). pose proof (pos_INR n). assert (0 < / (2 * INR n + 1)) by (apply Rinv_0_lt_compat; lra).
  repeat split; try lra. intros u [U0 U1].
  assert (N : INR n * u <= 1 / 2).
  { apply Rle_trans with (INR n * / (2 * INR n + 1)); [apply Rmult_le_compat_l; lra|].
    apply Rmult_le_reg_r with (2 * INR n + 1); [lra|]. rewrite Rmult_assoc, Rinv_l by lra. lra. }
  eapply Rle_trans; [apply gamma_linear; lra|].
  apply Rmult_le_reg_r with (1 - INR n * u); [lra|]. unfold Rdiv. rewrite Rmult_assoc, Rinv_l by lra. 
  assert (0 <= INR n * u) by nra. nra.
Qed.
(** uniform constants for a list of expressions *)
Lemma order_u_list l : List.Forall (fun e => order_u (fun u => rounded u e) (exact e)) l ->
  exists K u0, 0 <= K /\ 0 < u0 /\ forall u xs, 0 <= u <= u0 -> Forall2 (rounded u) l xs ->
    Forall2 (near' u) xs (map (fun e => (exact e, K + Rabs (exact e), 1%nat)) l).
Proof.
  intro H. induction H as [|e l (K1 & u1 & HK1 & Hu1 & H1) HF (K2 & u2 & HK2 & Hu2 & H2)].
  - exists 0, 1. repeat split; try lra. intros u xs _ HX. inversion HX. constructor.
  - exists (K1 + K2), (Rmin u1 u2). split; [lra|]. split; [apply Rmin_pos; auto|].
    pose proof (Rmin_l u1 u2). pose proof (Rmin_r u1 u2).
    intros u xs U HX. inversion HX as [|? x ? xs' Hx HX' E1 E2]; subst. cbn [map]. 
    assert (N : forall x e K K', 0 <= K -> K <= K' -> near' u x (exact e, K + Rabs (exact e), 1%nat) -> near' u x (exact e, K' + Rabs (exact e), 1%nat)).
    { intros y e' K K' P1 P2 [N1 N2]. unfold near'. cbn [fst snd] in *. split; [|lra].
      eapply Rle_trans; [exact N1|]. apply Rmult_le_compat_l; [rewrite gamma1; lra|lra]. }
    constructor.
    + apply N with K1; [lra|lra|]. unfold near'. cbn [fst snd]. pose proof (Rabs_pos (exact e)). split; [|lra].
      rewrite gamma1. eapply Rle_trans; [apply (H1 u x); [lra|exact Hx]|]. nra.
    + specialize (H2 u xs' ltac:(lra) HX'). clear - H2 N HK1 HK2.
      revert xs' H2. induction l as [|e' l IH]; intros xs' H2; inversion H2; subst; cbn [map]; [constructor|].
      constructor; auto. apply N with K2; auto; lra.
Qed.
Lemma order_u_sum l : List.Forall (fun e => order_u (fun u => rounded u e) (exact e)) l ->
  order_u (fun u => rounded u (Sum l)) (exact (Sum l)) /\ order_u (fun u => rounded u (Prod l)) (exact (Prod l)).
Proof.
  intro H. destruct (order_u_list l H) as (K & u0 & HK & Hu0 & HL).
  set (is_ := map (fun e => (exact e, K + Rabs (exact e), 1%nat)) l) in *.
  assert (ES : sS is_ = exact (Sum l)) by (unfold sS, is_; cbn [exact]; clear; induction l as [|a l IH]; cbn; [auto|]; unfold sumR in *; rewrite <- IH; auto).
  assert (EP : pS is_ = exact (Prod l)) by (unfold pS, is_; cbn [exact]; clear; induction l as [|a l IH]; cbn; [auto|]; unfold prodR in *; rewrite <- IH; auto).
  assert (PA : 0 <= sA is_ /\ 0 <= pA is_).
  { unfold sA, pA, is_. clear - HK. induction l as [|a l IH]; cbn; [lra|]. unfold sumR, prodR in *. pose proof (Rabs_pos (exact a)). split; [|apply Rmult_le_pos]; lra. }
  split.
  - destruct (gamma_small (mD is_ + (length l - 1))) as (G & g0 & HG & Hg0 & HGB).
    exists (G * sA is_), (Rmin u0 g0). split; [nra|]. split; [apply Rmin_pos; auto|].
    pose proof (Rmin_l u0 g0). pose proof (Rmin_r u0 g0). intros u x U HX. apply rounded_Sum in HX. destruct HX as [xs [HF HA]].
    specialize (HL u xs ltac:(lra) HF). pose proof (any_sum_near u ltac:(lra) xs x is_ HA HL) as [N _].
    rewrite ES in N. replace (length xs) with (length l) in N by (clear - HF; induction HF; cbn [length]; congruence).
    eapply Rle_trans; [exact N|]. specialize (HGB u ltac:(lra)). nra.
  - destruct (gamma_small (aD is_ + (length l - 1))) as (G & g0 & HG & Hg0 & HGB).
    exists (G * pA is_), (Rmin u0 g0). split; [nra|]. split; [apply Rmin_pos; auto|].
    pose proof (Rmin_l u0 g0). pose proof (Rmin_r u0 g0). intros u x U HX. apply rounded_Prod in HX. destruct HX as [xs [HF HA]].
    specialize (HL u xs ltac:(lra) HF). pose proof (any_prod_near u ltac:(lra) xs x is_ HA HL) as [N _].
    rewrite EP in N. replace (length xs) with (length l) in N by (clear - HF; induction HF; cbn [length]; congruence).
    eapply Rle_trans; [exact N|]. specialize (HGB u ltac:(lra)). nra.
Qed.
Lemma around_true a b : around (fun _ _ => True) a b.
Proof. exists 1. split; [lra|auto]. Qed.

Theorem regular_order_u e : regular e -> order_u (fun u => rounded u e) (exact e).
Proof.
  induction e as [x|a b IHa IHb|a b IHa IHb|a b IHa IHb|a b IHa IHb|a IHa|a p IHa|l IH|l IH] using expr_ind'; intro HR; cbn [regular] in HR.
  - apply order_u_const.
  - destruct HR as [Ra Rb]. eapply order_u_mono; [|apply (order_u_op _ _ (fun _ _ => True) Rplus _ _ (IHa Ra) (IHb Rb)); [apply calm2_plus|apply around_true]].
    intros u v _ (x & y & H1 & H2 & H3). exists x, y. auto.
  - destruct HR as [Ra Rb]. eapply order_u_mono; [|apply (order_u_op _ _ (fun _ _ => True) Rminus _ _ (IHa Ra) (IHb Rb)); [apply calm2_minus|apply around_true]].
    intros u v _ (x & y & H1 & H2 & H3). exists x, y. auto.
  - destruct HR as [Ra Rb]. eapply order_u_mono; [|apply (order_u_op _ _ (fun _ _ => True) Rmult _ _ (IHa Ra) (IHb Rb)); [apply calm2_mult|apply around_true]].
    intros u v _ (x & y & H1 & H2 & H3). exists x, y. auto.
  - destruct HR as (Ra & Rb & N). destruct (calm2_div (exact a) (exact b) N) as [C A].
    eapply order_u_mono; [|apply (order_u_op _ _ (fun _ y => y <> 0) Rdiv _ _ (IHa Ra) (IHb Rb) C A)]. auto.
  - destruct HR as (Ra & N). 
    eapply order_u_mono; [|apply (order_u_op _ _ (fun x _ => 0 < x) (fun x _ => sqrt x) _ 0 (IHa Ra) (order_u_const 0)); [apply calm2_sqrt; auto|apply around_pos; auto]].
    intros u v _ (x & H1 & H2). exists x, 0. repeat split; auto. intro. apply H2. lra.
  - destruct HR as (Ra & N).
    eapply order_u_mono; [|apply (order_u_op _ _ (fun x _ => 0 < x) Rpower _ p (IHa Ra) (order_u_fl p)); [apply calm2_pow; auto|apply around_pos; auto]].
    intros u v _ (x & q & H1 & H2 & H3). exists x, q. auto.
  - destruct HR as [_ HR]. apply order_u_sum. clear - IH HR. induction IH as [|e l He HF IHF]; [constructor|]. destruct HR. constructor; auto.
  - destruct HR as [_ HR]. apply order_u_sum. clear - IH HR. induction IH as [|e l He HF IHF]; [constructor|]. destruct HR. constructor; auto.
Qed.
