(** Inputs that are themselves only known to O(u): leaves of an expression replaced by fuzzy ones,
    and bounds that are uniform in a parameter (no code modelled here). *)
From Coq Require Import Reals List Permutation Lra Psatz.
From Verif Require Import Rounded RoundedProofs RoundedStable.
Import ListNotations.
Local Open Scope R_scope.

(** *** Every rounded value of [e] is one of [e'] *)
Definition inc (u : R) (e e' : expr) : Prop := forall x, rounded u e x -> rounded u e' x.
Lemma inc_refl u e : inc u e e. Proof. intros x H; exact H. Qed.
Lemma inc_add u a b a' b' : inc u a a' -> inc u b b' -> inc u (Add a b) (Add a' b').
Proof. intros A B x (p & q & P & Q & F). exists p, q. auto. Qed.
Lemma inc_sub u a b a' b' : inc u a a' -> inc u b b' -> inc u (Sub a b) (Sub a' b').
Proof. intros A B x (p & q & P & Q & F). exists p, q. auto. Qed.
Lemma inc_mul u a b a' b' : inc u a a' -> inc u b b' -> inc u (Mul a b) (Mul a' b').
Proof. intros A B x (p & q & P & Q & F). exists p, q. auto. Qed.
Lemma inc_div u a b a' b' : inc u a a' -> inc u b b' -> inc u (Div a b) (Div a' b').
Proof. intros A B x (p & q & P & Q & F). exists p, q. auto. Qed.
Lemma inc_sqrt u a a' : inc u a a' -> inc u (Sqrt a) (Sqrt a').
Proof. intros A x (p & P & F). exists p. auto. Qed.
Lemma inc_pow u a a' p : inc u a a' -> inc u (Pow a p) (Pow a' p).
Proof. intros A x (y & q & P & F). exists y, q. intuition. Qed.
Lemma inc_list u l l' : Forall2 (inc u) l l' -> forall xs, Forall2 (rounded u) l xs -> Forall2 (rounded u) l' xs.
Proof. induction 1 as [|e e' l l' He HF IH]; intros xs H; inversion H; subst; constructor; auto. Qed.
Lemma inc_sum u l l' : Forall2 (inc u) l l' -> inc u (Sum l) (Sum l').
Proof. intros F x H. apply rounded_Sum in H. destruct H as (xs & HX & HA). apply rounded_Sum. exists xs. split; [eapply inc_list; eauto|exact HA]. Qed.
Lemma inc_prod u l l' : Forall2 (inc u) l l' -> inc u (Prod l) (Prod l').
Proof. intros F x H. apply rounded_Prod in H. destruct H as (xs & HX & HA). apply rounded_Prod. exists xs. split; [eapply inc_list; eauto|exact HA]. Qed.
Lemma inc_summap {I} u (f f' : I -> expr) l : (forall i, inc u (f i) (f' i)) -> inc u (Sum (map f l)) (Sum (map f' l)).
Proof. intro H. apply inc_sum. induction l; cbn; constructor; auto. Qed.

(** *** A leaf with an absolute error of K u: every y with |y - x| <= K u is a rounded value of
    (x + M) - M with M = |x| + K. *)
Definition fuzz (K x : R) : expr := Sub (Add (Num x) (Num (Rabs x + K))) (Num (Rabs x + K)).
Lemma fuzz_exact K x : exact (fuzz K x) = x. Proof. cbn [exact fuzz]. ring. Qed.
Lemma fuzz_regular K x : regular (fuzz K x). Proof. cbn. tauto. Qed.
Lemma fuzz_inc u K x y : 0 <= u -> 0 <= K -> Rabs (y - x) <= K * u -> inc u (Num y) (fuzz K x).
Proof.
  intros Hu HK H z Hz. cbn in Hz. subst z. cbn [fuzz rounded].
  assert (P : K <= Rabs (x + (Rabs x + K))).
  { pose proof (Rle_abs (x + (Rabs x + K))). pose proof (Rle_abs (- x)). rewrite Rabs_Ropp in *. lra. }
  exists (y + (Rabs x + K)), (Rabs x + K). split; [|split; [reflexivity|]].
  - exists x, (Rabs x + K). split; [reflexivity|]. split; [reflexivity|]. unfold fl.
    replace (y + (Rabs x + K) - (x + (Rabs x + K))) with (y - x) by ring. nra.
  - unfold fl. replace (y - (y + (Rabs x + K) - (Rabs x + K))) with 0 by ring. rewrite Rabs_R0. 
    pose proof (Rabs_pos (y + (Rabs x + K) - (Rabs x + K))). nra.
Qed.

(** *** Bounds uniform in a parameter.  [N p u]: the parameter [p] is admissible at precision [u]. *)
Section OU.
  Context {X : Type} (N : X -> R -> Prop).
  Definition OU (e : X -> expr) (s : X -> R) : Prop := exists B K u0, 0 <= B /\ 0 <= K /\ 0 < u0 <= 1 /\
    forall p u, 0 <= u <= u0 -> N p u -> Rabs (s p) <= B /\ forall x, rounded u (e p) x -> Rabs (x - s p) <= K * u.
  Lemma ou_leaf v s B K : 0 <= B -> 0 <= K -> (forall p u, 0 <= u -> N p u -> Rabs (s p) <= B /\ Rabs (v p - s p) <= K * u) ->
    OU (fun p => Num (v p)) s.
  Proof.
    intros HB HK H. exists B, K, 1. repeat split; try lra. 
    - apply (H p u); [lra|auto].
    - intros x Hx. cbn in Hx. subst x. apply (H p u); [lra|auto].
  Qed.
  Lemma ou_const e s : order_u (fun u x => exists p, N p u /\ rounded u (e p) x) s -> OU e (fun _ => s).
  Proof.
    intros (K & u0 & HK & Hu & H). exists (Rabs s), K, (Rmin 1 u0). pose proof (Rabs_pos s). pose proof (Rmin_l 1 u0). pose proof (Rmin_r 1 u0).
    split; [auto|]. split; [auto|]. split; [split; [apply Rmin_pos; lra|lra]|]. intros p u U NP. split; [lra|]. intros x HX. apply H; [lra|eauto].
  Qed.
  Lemma ou_fuzzy e e' : regular e' -> (exists u1, 0 < u1 /\ forall p u, 0 <= u <= u1 -> N p u -> inc u (e p) e') -> OU e (fun _ => exact e').
  Proof.
    intros HR (u1 & P1 & H). apply ou_const. destruct (regular_order_u e' HR) as (K & u0 & HK & Hu & HO).
    exists K, (Rmin u0 u1). split; [auto|]. split; [apply Rmin_pos; auto|]. pose proof (Rmin_l u0 u1). pose proof (Rmin_r u0 u1).
    intros u x U (p & NP & HX). apply HO; [lra|]. apply (H p u); auto; lra.
  Qed.
  Lemma ou_ext e e' s s' : (forall p, e p = e' p) -> (forall p, s p = s' p) -> OU e s -> OU e' s'.
  Proof. intros HE HS (B & K & u0 & HB & HK & Hu & H). exists B, K, u0. repeat split; try tauto; intros; rewrite <- HS; [|rewrite <- HE in *]; eapply H; eauto. Qed.
  Lemma ou_val e s s' : (forall p u, N p u -> s p = s' p) -> OU e s -> OU e s'.
  Proof. intros HS (B & K & u0 & HB & HK & Hu & H). exists B, K, u0. repeat split; try tauto; intros; rewrite <- (HS p u) by auto; eapply H; eauto. Qed.
  Lemma fl_bound u x y s B K : 0 <= u <= 1 -> 0 <= B -> 0 <= K -> Rabs s <= B -> Rabs (y - s) <= K * u -> fl u y x -> Rabs (x - s) <= (2 * K + B) * u.
  Proof.
    intros U HB HK HS HY HF. unfold fl in HF. replace (x - s) with ((x - y) + (y - s)) by ring. eapply Rle_trans; [apply Rabs_triang|].
    assert (Rabs y <= B + K * u). { replace y with (s + (y - s)) by ring. eapply Rle_trans; [apply Rabs_triang|]. lra. }
    assert (u * Rabs y <= u * (B + K * u)) by (apply Rmult_le_compat_l; lra). assert (K * u * u <= K * u) by (assert (0 <= K * u) by nra; nra). nra.
  Qed.
  Ltac two H1 H2 := destruct H1 as (B1 & K1 & u1 & HB1 & HK1 & Hu1 & H1); destruct H2 as (B2 & K2 & u2 & HB2 & HK2 & Hu2 & H2).
  Lemma ou_add e1 e2 s1 s2 : OU e1 s1 -> OU e2 s2 -> OU (fun p => Add (e1 p) (e2 p)) (fun p => s1 p + s2 p).
  Proof.
    intros H1 H2. two H1 H2. exists (B1 + B2), (2 * (K1 + K2) + (B1 + B2)), (Rmin u1 u2). pose proof (Rmin_l u1 u2). pose proof (Rmin_r u1 u2).
    split; [lra|]. split; [lra|]. split; [split; [apply Rmin_pos; lra|lra]|]. intros p u U NP.
    destruct (H1 p u ltac:(lra) NP) as [S1 R1]. destruct (H2 p u ltac:(lra) NP) as [S2 R2].
    assert (Rabs (s1 p + s2 p) <= B1 + B2) by (eapply Rle_trans; [apply Rabs_triang|lra]).
    split; [auto|]. intros x (a & b & HA & HB & HF). apply (fl_bound u x (a + b)); auto; try lra.
    replace (a + b - (s1 p + s2 p)) with ((a - s1 p) + (b - s2 p)) by ring. eapply Rle_trans; [apply Rabs_triang|].
    pose proof (R1 a HA). pose proof (R2 b HB). lra.
  Qed.
  Lemma ou_sub e1 e2 s1 s2 : OU e1 s1 -> OU e2 s2 -> OU (fun p => Sub (e1 p) (e2 p)) (fun p => s1 p - s2 p).
  Proof.
    intros H1 H2. two H1 H2. exists (B1 + B2), (2 * (K1 + K2) + (B1 + B2)), (Rmin u1 u2). pose proof (Rmin_l u1 u2). pose proof (Rmin_r u1 u2).
    split; [lra|]. split; [lra|]. split; [split; [apply Rmin_pos; lra|lra]|]. intros p u U NP.
    destruct (H1 p u ltac:(lra) NP) as [S1 R1]. destruct (H2 p u ltac:(lra) NP) as [S2 R2].
    assert (Rabs (s1 p - s2 p) <= B1 + B2) by (unfold Rminus; eapply Rle_trans; [apply Rabs_triang|rewrite Rabs_Ropp; lra]).
    split; [auto|]. intros x (a & b & HA & HB & HF). apply (fl_bound u x (a - b)); auto; try lra.
    replace (a - b - (s1 p - s2 p)) with ((a - s1 p) + - (b - s2 p)) by ring. eapply Rle_trans; [apply Rabs_triang|]. rewrite Rabs_Ropp.
    pose proof (R1 a HA). pose proof (R2 b HB). lra.
  Qed.
  Lemma ou_mul e1 e2 s1 s2 : OU e1 s1 -> OU e2 s2 -> OU (fun p => Mul (e1 p) (e2 p)) (fun p => s1 p * s2 p).
  Proof.
    intros H1 H2. two H1 H2. set (K := K1 * (B2 + K2) + B1 * K2). assert (0 <= K) by (unfold K; nra). assert (0 <= B1 * B2) by nra.
    exists (B1 * B2), (2 * K + B1 * B2), (Rmin u1 u2). pose proof (Rmin_l u1 u2). pose proof (Rmin_r u1 u2).
    split; [auto|]. split; [lra|]. split; [split; [apply Rmin_pos; lra|lra]|]. intros p u U NP.
    destruct (H1 p u ltac:(lra) NP) as [S1 R1]. destruct (H2 p u ltac:(lra) NP) as [S2 R2].
    assert (Rabs (s1 p * s2 p) <= B1 * B2) by (rewrite Rabs_mult; apply Rmult_le_compat; auto using Rabs_pos).
    split; [auto|]. intros x (a & b & HA & HB & HF). apply (fl_bound u x (a * b)); auto; try lra.
    replace (a * b - s1 p * s2 p) with ((a - s1 p) * b + s1 p * (b - s2 p)) by ring. eapply Rle_trans; [apply Rabs_triang|]. rewrite !Rabs_mult.
    pose proof (R1 a HA). pose proof (R2 b HB).
    assert (Rabs b <= B2 + K2). { replace b with (s2 p + (b - s2 p)) by ring. eapply Rle_trans; [apply Rabs_triang|]. nra. }
    assert (Rabs (a - s1 p) * Rabs b <= K1 * u * (B2 + K2)) by (apply Rmult_le_compat; auto using Rabs_pos).
    assert (Rabs (s1 p) * Rabs (b - s2 p) <= B1 * (K2 * u)) by (apply Rmult_le_compat; auto using Rabs_pos).
    unfold K. nra.
  Qed.
  Lemma ou_div e1 s1 c : c <> 0 -> OU e1 s1 -> OU (fun p => Div (e1 p) (Num c)) (fun p => s1 p / c).
  Proof.
    intros Hc (B1 & K1 & u1 & HB1 & HK1 & Hu1 & H1). assert (P : 0 < / Rabs c) by (apply Rinv_0_lt_compat, Rabs_pos_lt; auto).
    exists (B1 * / Rabs c), (2 * (K1 * / Rabs c) + B1 * / Rabs c), u1. assert (0 <= B1 * / Rabs c) by nra. assert (0 <= K1 * / Rabs c) by nra.
    split; [auto|]. split; [lra|]. split; [auto|]. intros p u U NP. destruct (H1 p u U NP) as [S1 R1].
    assert (Rabs (s1 p / c) <= B1 * / Rabs c) by (unfold Rdiv; rewrite Rabs_mult, Rabs_inv; nra).
    split; [auto|]. intros x (a & b & HA & HB & HF). cbn in HB. subst b. apply (fl_bound u x (a / c)); auto; try lra.
    replace (a / c - s1 p / c) with ((a - s1 p) * / c) by (field; auto). rewrite Rabs_mult, Rabs_inv. pose proof (R1 a HA). nra.
  Qed.
  Lemma ou_list (es : list (X -> expr)) (ss : list (X -> R)) : Forall2 OU es ss -> exists K u0, 0 <= K /\ 0 < u0 <= 1 /\
    forall p u xs, 0 <= u <= u0 -> N p u -> Forall2 (rounded u) (map (fun e => e p) es) xs ->
      Forall2 (near' u) xs (map (fun s => (s p, K, 1%nat)) ss).
  Proof.
    induction 1 as [|e s es ss (B1 & K1 & u1 & HB1 & HK1 & Hu1 & H1) HF (K2 & u2 & HK2 & Hu2 & H2)].
    - exists 0, 1. repeat split; try lra. intros p u xs _ _ HX. inversion HX. constructor.
    - exists (B1 + K1 + K2), (Rmin u1 u2). pose proof (Rmin_l u1 u2). pose proof (Rmin_r u1 u2). split; [lra|]. split; [split; [apply Rmin_pos; lra|lra]|].
      intros p u xs U NP HX. cbn [map] in HX. inversion HX as [|? x ? xs' Hx HX' E1 E2]; subst. cbn [map]. constructor.
      + destruct (H1 p u ltac:(lra) NP) as [S1 R1]. unfold near', near. cbn [fst snd]. rewrite gamma1. specialize (R1 x Hx). split; [nra|lra].
      + specialize (H2 p u xs' ltac:(lra) NP HX'). clear - H2 HB1 HK1 HK2 U. revert xs' H2.
        induction ss as [|s' ss IH]; intros xs' H2; inversion H2 as [|? ? ? ? HN HR]; subst; cbn [map]; constructor; auto.
        destruct HN as [N1 N2]. unfold near', near. cbn [fst snd] in *. rewrite gamma1 in *. split; [nra|lra].
  Qed.
  Lemma ou_bound (es : list (X -> expr)) (ss : list (X -> R)) : Forall2 OU es ss -> exists B u0, 0 <= B /\ 0 < u0 <= 1 /\
    forall p u, 0 <= u <= u0 -> N p u -> Rabs (fold_right (fun s a => s p + a) 0 ss) <= B.
  Proof.
    induction 1 as [|e s es ss (B1 & K1 & u1 & HB1 & HK1 & Hu1 & H1) HF (B2 & u2 & HB2 & Hu2 & H2)].
    - exists 0, 1. repeat split; try lra. intros. cbn. rewrite Rabs_R0. lra.
    - exists (B1 + B2), (Rmin u1 u2). pose proof (Rmin_l u1 u2). pose proof (Rmin_r u1 u2). split; [lra|]. split; [split; [apply Rmin_pos; lra|lra]|].
      intros p u U NP. cbn [fold_right]. destruct (H1 p u ltac:(lra) NP) as [S1 _]. specialize (H2 p u ltac:(lra) NP).
      eapply Rle_trans; [apply Rabs_triang|]. lra.
  Qed.
  Lemma ou_sum (es : list (X -> expr)) (ss : list (X -> R)) : Forall2 OU es ss ->
    OU (fun p => Sum (map (fun e => e p) es)) (fun p => fold_right (fun s a => s p + a) 0 ss).
  Proof.
    intro HF. destruct (ou_list es ss HF) as (K & u0 & HK & Hu & HL). destruct (ou_bound es ss HF) as (B & u1 & HB & Hu1 & HBD).
    assert (EA : forall p, sA (map (fun s : X -> R => (s p, K, 1%nat)) ss) = INR (length ss) * K).
    { intro p. unfold sA. rewrite map_map. cbn [fst snd]. clear. induction ss as [|s ss IH]; [cbn; ring|]. cbn [map]. unfold sumR in *. cbn [fold_right]. rewrite IH. cbn [length]. rewrite S_INR. ring. }
    assert (ES : forall p, sS (map (fun s : X -> R => (s p, K, 1%nat)) ss) = fold_right (fun s a => s p + a) 0 ss).
    { intro p. unfold sS. rewrite map_map. cbn [fst snd]. clear. induction ss as [|s ss IH]; [reflexivity|]. cbn [map]. unfold sumR in *. cbn [fold_right]. rewrite IH. reflexivity. }
    assert (EM : forall p q, mD (map (fun s : X -> R => (s p, K, 1%nat)) ss) = mD (map (fun s : X -> R => (s q, K, 1%nat)) ss)).
    { intros p q. clear. unfold mD. induction ss as [|s ss IH]; [reflexivity|]. cbn [map fold_right snd]. rewrite IH. reflexivity. }
    assert (LE : length es = length ss) by (clear - HF; induction HF; cbn [length]; congruence).
    set (A := INR (length ss) * K) in *. assert (PA : 0 <= A) by (unfold A; pose proof (pos_INR (length ss)); nra).
    (* the number of roundings does not depend on p *)
    assert (GM : exists G g0, 0 <= G /\ 0 < g0 /\ forall p u, 0 <= u <= g0 -> gamma u (mD (map (fun s : X -> R => (s p, K, 1%nat)) ss) + (length ss - 1)) <= G * u).
    { assert (M : forall p, mD (map (fun s : X -> R => (s p, K, 1%nat)) ss) = match ss with [] => 0%nat | _ => 1%nat end).
      { intro p. clear. unfold mD. induction ss as [|s ss IH]; [reflexivity|]. cbn [map fold_right snd]. rewrite IH. destruct ss; reflexivity. }
      destruct (gamma_small (match ss with [] => 0%nat | _ => 1%nat end + (length ss - 1))) as (G & g0 & HG & Hg0 & HGB).
      exists G, g0. repeat split; auto. intros p u U. rewrite M. apply HGB, U. }
    destruct GM as (G & g0 & HG & Hg0 & HGB).
    exists B, (G * A), (Rmin (Rmin u0 u1) g0). pose proof (Rmin_l (Rmin u0 u1) g0). pose proof (Rmin_r (Rmin u0 u1) g0). pose proof (Rmin_l u0 u1). pose proof (Rmin_r u0 u1).
    split; [auto|]. split; [nra|]. split; [split; [repeat apply Rmin_pos; lra|lra]|]. intros p u U NP. split; [apply (HBD p u); [lra|auto]|].
    intros x HX. apply rounded_Sum in HX. destruct HX as (xs & HX & HA). specialize (HL p u xs ltac:(lra) NP HX).
    pose proof (any_sum_near u ltac:(lra) xs x _ HA HL) as [NE _]. rewrite ES, EA in NE.
    replace (length xs) with (length ss) in NE.
    2: { rewrite <- LE. clear - HX. remember (map (fun e => e p) es) as l eqn:El. revert es El. induction HX; intros es El; destruct es; cbn in *; try discriminate; auto. injection El as -> ->. f_equal. apply IHHX; auto. }
    eapply Rle_trans; [exact NE|]. specialize (HGB p u ltac:(lra)). nra.
  Qed.
End OU.
