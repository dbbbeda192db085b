(** Inputs that are themselves only known to O(u + tiny), in IEEE arithmetic: the counterpart of
    RoundedLeaf.v (no code modelled here). *)
From Coq Require Import Reals List Permutation Lra Lia Psatz.
From Verif Require Import Rounded RoundedProofs RoundedStable IEEE IEEEProofs IEEESpaces.
Import ListNotations.
Local Open Scope R_scope.

(** *** Every result of [e] is one of [e'] *)
Definition inc (u : Fmt) (e e' : expr) : Prop := forall x, ieee u e x -> ieee u e' x.
Lemma inc_refl u e : inc u e e. Proof. intros x H; exact H. Qed.
Lemma inc_add u a b a' b' : inc u a a' -> inc u b b' -> inc u (Add a b) (Add a' b').
Proof. intros A B x (p & q & P & Q & F). exists p, q. auto. Qed.
Lemma inc_sub u a b a' b' : inc u a a' -> inc u b b' -> inc u (Sub a b) (Sub a' b').
Proof. intros A B x (p & q & P & Q & F). exists p, q. auto. Qed.
Lemma inc_mul u a b a' b' : inc u a a' -> inc u b b' -> inc u (Mul a b) (Mul a' b').
Proof. intros A B x (p & q & P & Q & F). exists p, q. auto. Qed.
Lemma inc_div u a b a' b' : inc u a a' -> inc u b b' -> inc u (Div a b) (Div a' b').
Proof. intros A B x (p & q & P & Q & F). exists p, q. auto. Qed.
Lemma inc_sqrt u a a' : inc u a a' -> inc u (Sqrt a) (Sqrt a').
Proof. intros A x (p & P & F). exists p. auto. Qed.
Lemma inc_pow u a a' p : inc u a a' -> inc u (Pow a p) (Pow a' p).
Proof. intros A x (y & q & P & F). exists y, q. intuition. Qed.
Lemma inc_list u l l' : Forall2 (inc u) l l' -> forall xs, Forall2 (ieee u) l xs -> Forall2 (ieee u) l' xs.
Proof. induction 1 as [|e e' l l' He HF IH]; intros xs H; inversion H; subst; constructor; auto. Qed.
Lemma inc_sum u l l' : Forall2 (inc u) l l' -> inc u (Sum l) (Sum l').
Proof. intros F x H. apply ieee_Sum in H. destruct H as (xs & HX & HA). apply ieee_Sum. exists xs. split; [eapply inc_list; eauto|exact HA]. Qed.
Lemma inc_prod u l l' : Forall2 (inc u) l l' -> inc u (Prod l) (Prod l').
Proof. intros F x H. apply ieee_Prod in H. destruct H as (xs & HX & HA). apply ieee_Prod. exists xs. split; [eapply inc_list; eauto|exact HA]. Qed.
Lemma inc_summap {I} u (f f' : I -> expr) l : (forall i, inc u (f i) (f' i)) -> inc u (Sum (map f l)) (Sum (map f' l)).
Proof. intro H. apply inc_sum. induction l; cbn; constructor; auto. Qed.

(** *** A leaf with an absolute error of K (u + tiny): n >= K steps e := (e + M) - M with M = |x| + K + 1,
    each of which may change the number by u + tiny. *)
Definition shake (M : R) (e : expr) : expr := Sub (Add e (Num M)) (Num M).
Definition fuzz (K x : R) : expr := Nat.iter (Z.to_nat (up K)) (shake (Rabs x + K + 1)) (Num x).
Lemma shake_exact M e n : exact (Nat.iter n (shake M) e) = exact e.
Proof. induction n as [|n IH]; [reflexivity|]. cbn [Nat.iter nat_rect]. change (exact (Nat.iter n (shake M) e) + M - M = exact e). rewrite IH. ring. Qed.
Lemma fuzz_exact K x : exact (fuzz K x) = x. Proof. unfold fuzz. rewrite shake_exact. reflexivity. Qed.
Lemma fuzz_regular K x : regular (fuzz K x).
Proof. unfold fuzz. induction (Z.to_nat (up K)) as [|n IH]; [exact Logic.I|]. cbn. tauto. Qed.
Lemma result_exact u x : 0 <= roundoff u -> 0 <= tiny u -> result u x (Some x).
Proof. intros A B _. exists x. split; [reflexivity|]. rewrite Rminus_eq_0, Rabs_R0. pose proof (Rabs_pos x). nra. Qed.
Lemma shake_step u M y z : 0 <= roundoff u -> 0 <= tiny u -> 1 <= y + M -> Rabs (z - y) <= eps u -> forall e, ieee u e (Some y) -> ieee u (shake M e) (Some z).
Proof.
  intros A B HM HZ e HE. cbn [shake ieee]. exists (Some (z + M)), (Some M). split; [|split; [reflexivity|]].
  - exists (Some y), (Some M). split; [exact HE|]. split; [reflexivity|]. intros _ _. exists (z + M). split; [reflexivity|].
    replace (z + M - (y + M)) with (z - y) by ring. eapply Rle_trans; [exact HZ|]. unfold eps. pose proof (Rle_abs (y + M)). nra.
  - intros _. replace z with (z + M - M) at 2 by ring. apply result_exact; auto.
Qed.
Lemma fuzz_within u K x w : fine 1 u -> 0 <= K -> within (K * eps u) w x -> ieee u (fuzz K x) w.
Proof.
  intros HF HK (y & -> & H). pose proof (fine_eps 1 u HF) as [E0 E1]. destruct HF as (A & B & _ & _).
  unfold fuzz. set (n := Z.to_nat (up K)). set (M := Rabs x + K + 1).
  destruct (archimed K) as [U1 _]. assert (P : (0 < up K)%Z) by (apply lt_IZR; lra).
  assert (EN : INR n = IZR (up K)) by (unfold n; rewrite INR_IZR_INZ, Z2Nat.id by lia; reflexivity).
  assert (Hn : 0 < INR n) by (rewrite EN; apply (IZR_lt 0); exact P).
  set (z := fun i : nat => x + INR i * ((y - x) / INR n)).
  assert (ST : Rabs ((y - x) / INR n) <= eps u).
  { unfold Rdiv. rewrite Rabs_mult, (Rabs_pos_eq (/ INR n)) by (left; apply Rinv_0_lt_compat; auto). 
    apply Rmult_le_reg_r with (INR n); [auto|]. rewrite Rmult_assoc, Rinv_l, Rmult_1_r by lra. eapply Rle_trans; [exact H|]. rewrite Rmult_comm. apply Rmult_le_compat_l; lra. }
  assert (I : forall i, (i <= n)%nat -> ieee u (Nat.iter i (shake M) (Num x)) (Some (z i))).
  { induction i as [|i IH]; intro L; [cbn; f_equal; unfold z; cbn; ring|].
    cbn [Nat.iter nat_rect]. change (ieee u (shake M (Nat.iter i (shake M) (Num x))) (Some (z (S i)))). apply shake_step with (z i); auto; [| |apply IH; lia].
    - assert (Z : Rabs (z i - x) <= K).
      { unfold z. replace (x + INR i * ((y - x) / INR n) - x) with ((INR i / INR n) * (y - x)) by (field; lra).
        rewrite Rabs_mult. assert (0 <= INR i / INR n <= 1).
        { pose proof (pos_INR i). assert (INR i <= INR n) by (apply le_INR; lia). split; [apply Rmult_le_pos; [auto|left; apply Rinv_0_lt_compat; auto]|].
          apply Rmult_le_reg_r with (INR n); [auto|]. unfold Rdiv. rewrite Rmult_assoc, Rinv_l, Rmult_1_r by lra. lra. }
        rewrite (Rabs_pos_eq (INR i / INR n)) by lra. pose proof (Rabs_pos (y - x)). assert (K * eps u <= K) by nra. nra. }
      pose proof (Rle_abs (- (z i - x))) as Z1. rewrite Rabs_Ropp in Z1. pose proof (Rle_abs (- x)) as Z2. rewrite Rabs_Ropp in Z2. unfold M. lra.
    - unfold z. rewrite S_INR. replace (x + (INR i + 1) * ((y - x) / INR n) - (x + INR i * ((y - x) / INR n))) with ((y - x) / INR n) by ring. exact ST. }
  specialize (I n (le_n n)). replace (z n) with y in I; [exact I|]. unfold z. field. lra.
Qed.
Lemma fuzz_inc u K x y : fine 1 u -> 0 <= K -> Rabs (y - x) <= K * eps u -> inc u (Num y) (fuzz K x).
Proof. intros HF HK H w Hw. cbn in Hw. subst w. apply fuzz_within; auto. exists y. auto. Qed.

(** *** Bounds uniform in a parameter.  [N p u]: the parameter [p] is admissible in the format [u]. *)
Section OU.
  Context {X : Type} (N : X -> Fmt -> Prop).
  Definition OU (e : X -> expr) (s : X -> R) : Prop := exists B K u0, 0 <= B /\ 0 <= K /\ 0 < u0 <= 1 /\
    forall p u, fine u0 u -> N p u -> Rabs (s p) <= B /\ forall x, ieee u (e p) x -> within (K * eps u) x (s p).
  Lemma ou_leaf v s B K : 0 <= B -> 0 <= K -> (forall p u, 0 <= eps u -> N p u -> Rabs (s p) <= B /\ Rabs (v p - s p) <= K * eps u) ->
    OU (fun p => Num (v p)) s.
  Proof.
    intros HB HK H. exists B, K, 1. repeat split; try lra.
    - apply (H p u); [apply (fine_eps 1); auto|auto].
    - intros x Hx. cbn in Hx. subst x. exists (v p). split; [reflexivity|]. apply (H p u); [apply (fine_eps 1); auto|auto].
  Qed.
  Lemma ou_const e s : accurate (fun u x => exists p, N p u /\ ieee u (e p) x) s -> OU e (fun _ => s).
  Proof.
    intros (K & d & HK & Hd & H). exists (Rabs s), K, d. pose proof (Rabs_pos s).
    split; [auto|]. split; [auto|]. split; [auto|]. intros p u U NP. split; [lra|]. intros x HX. apply H; [auto|eauto].
  Qed.
  Lemma ou_fuzzy e e' : regular e' -> (exists u1, 0 < u1 /\ forall p u, fine u1 u -> N p u -> inc u (e p) e') -> OU e (fun _ => exact e').
  Proof.
    intros HR (u1 & P1 & H). apply ou_const. destruct (regular_accurate e' HR) as (K & d & HK & Hd & HO).
    pose proof (Rmin_l d u1) as M1. pose proof (Rmin_r d u1) as M2. assert (PM : 0 < Rmin d u1) by (apply Rmin_pos; lra).
    exists K, (Rmin d u1). split; [auto|]. split; [split; [exact PM|lra]|].
    intros u x U (p & NP & HX). apply HO; [exact (fine_le _ _ u PM M1 U)|]. apply (H p u); auto. exact (fine_le _ _ u PM M2 U).
  Qed.
  Lemma ou_ext e e' s s' : (forall p, e p = e' p) -> (forall p, s p = s' p) -> OU e s -> OU e' s'.
  Proof. intros HE HS (B & K & u0 & HB & HK & Hu & H). exists B, K, u0. repeat split; try tauto; intros; rewrite <- HS; [|rewrite <- HE in *]; eapply H; eauto. Qed.
  Lemma ou_val e s s' : (forall p u, N p u -> s p = s' p) -> OU e s -> OU e s'.
  Proof. intros HS (B & K & u0 & HB & HK & Hu & H). exists B, K, u0. repeat split; try tauto; intros; rewrite <- (HS p u) by auto; eapply H; eauto. Qed.
  (** one operation: the exact result of the operands is within K (u + tiny) of [s], which is bounded by [B] *)
  Lemma op_bound u d x w s B K : fine d u -> 0 < d <= 1 -> 0 <= B -> 0 <= K -> d * (B + K + 1) <= 1 -> Rabs s <= B -> Rabs (x - s) <= K * eps u ->
    result u x w -> within ((2 * K + B + 1) * eps u) w s.
  Proof.
    intros HF HD HB HK HM HS HX HR. pose proof (fine_eps d u HF) as [E0 _].
    eapply within_le; [|apply (result_within u d x s K w); auto]; [apply Rmult_le_compat_r; lra|]. nra.
  Qed.
  Lemma ou_op e1 e2 s1 s2 (op : R -> R -> R) (E : expr -> expr -> expr) :
    (forall u a b w, ieee u (E a b) w -> exists x y, ieee u a x /\ ieee u b y /\ on2 u always op x y w) ->
    (forall B1 B2, 0 <= B1 -> 0 <= B2 -> exists B L, 0 <= B /\ 0 <= L /\ (forall a b, Rabs a <= B1 -> Rabs b <= B2 -> Rabs (op a b) <= B) /\
      forall a b x y, Rabs a <= B1 -> Rabs b <= B2 -> Rabs (x - a) <= 1 -> Rabs (y - b) <= 1 -> Rabs (op x y - op a b) <= L * (Rabs (x - a) + Rabs (y - b))) ->
    OU e1 s1 -> OU e2 s2 -> OU (fun p => E (e1 p) (e2 p)) (fun p => op (s1 p) (s2 p)).
  Proof.
    intros HE HL (B1 & K1 & u1 & HB1 & HK1 & Hu1 & H1) (B2 & K2 & u2 & HB2 & HK2 & Hu2 & H2).
    destruct (HL B1 B2 HB1 HB2) as (B & L & HB & HL0 & HBB & HLL).
    set (K := L * (K1 + K2)). assert (PK : 0 <= K) by (unfold K; nra).
    set (e := / (B + K + K1 + K2 + 1)). assert (Pe : 0 < e) by (apply Rinv_0_lt_compat; lra). assert (EE : e * (B + K + K1 + K2 + 1) = 1) by (apply Rinv_l; lra).
    pose proof (Rmin_l (Rmin u1 u2) e) as M1. pose proof (Rmin_r (Rmin u1 u2) e) as M2. pose proof (Rmin_l u1 u2) as M3. pose proof (Rmin_r u1 u2) as M4.
    assert (PM : 0 < Rmin (Rmin u1 u2) e) by (repeat apply Rmin_pos; lra).
    exists B, (2 * K + B + 1), (Rmin (Rmin u1 u2) e). split; [auto|]. split; [lra|]. split; [split; [exact PM|lra]|].
    intros p u U NP. pose proof (fine_eps _ u U) as [E0 E1].
    destruct (H1 p u (fine_le _ _ u PM (Rle_trans _ _ _ M1 M3) U) NP) as [S1 R1]. destruct (H2 p u (fine_le _ _ u PM (Rle_trans _ _ _ M1 M4) U) NP) as [S2 R2].
    split; [apply HBB; auto|]. intros w HW. destruct (HE _ _ _ _ HW) as (x & y & HX & HY & HO).
    destruct (R1 x HX) as (vx & -> & WX). destruct (R2 y HY) as (vy & -> & WY). cbn [on2] in HO. specialize (HO Logic.I).
    assert (KE : K1 * eps u <= 1 /\ K2 * eps u <= 1).
    { split; (apply Rle_trans with (e * (B + K + K1 + K2 + 1)); [|lra]); rewrite Rmult_comm; apply Rmult_le_compat; lra. }
    apply (op_bound u (Rmin (Rmin u1 u2) e) (op vx vy)); auto; try lra.
    - apply Rle_trans with (e * (B + K + K1 + K2 + 1)); [|lra]. apply Rmult_le_compat; lra.
    - eapply Rle_trans; [apply HLL; auto; lra|]. unfold K. rewrite Rmult_assoc. apply Rmult_le_compat_l; lra.
  Qed.
  Lemma ou_add e1 e2 s1 s2 : OU e1 s1 -> OU e2 s2 -> OU (fun p => Add (e1 p) (e2 p)) (fun p => s1 p + s2 p).
  Proof.
    apply (ou_op e1 e2 s1 s2 Rplus Add); [intros u a b w H; exact H|]. intros B1 B2 P1 P2. exists (B1 + B2), 1. repeat split; try lra.
    - intros. eapply Rle_trans; [apply Rabs_triang|lra].
    - intros a b x y _ _ _ _. replace (x + y - (a + b)) with ((x - a) + (y - b)) by ring. rewrite Rmult_1_l. apply Rabs_triang.
  Qed.
  Lemma ou_sub e1 e2 s1 s2 : OU e1 s1 -> OU e2 s2 -> OU (fun p => Sub (e1 p) (e2 p)) (fun p => s1 p - s2 p).
  Proof.
    apply (ou_op e1 e2 s1 s2 Rminus Sub); [intros u a b w H; exact H|]. intros B1 B2 P1 P2. exists (B1 + B2), 1. repeat split; try lra.
    - intros. unfold Rminus. eapply Rle_trans; [apply Rabs_triang|]. rewrite Rabs_Ropp. lra.
    - intros a b x y _ _ _ _. replace (x - y - (a - b)) with ((x - a) + - (y - b)) by ring. rewrite Rmult_1_l. eapply Rle_trans; [apply Rabs_triang|]. rewrite Rabs_Ropp. lra.
  Qed.
  Lemma ou_mul e1 e2 s1 s2 : OU e1 s1 -> OU e2 s2 -> OU (fun p => Mul (e1 p) (e2 p)) (fun p => s1 p * s2 p).
  Proof.
    apply (ou_op e1 e2 s1 s2 Rmult Mul); [intros u a b w H; exact H|]. intros B1 B2 P1 P2. exists (B1 * B2), (B1 + B2 + 2). repeat split; try nra.
    - intros. rewrite Rabs_mult. apply Rmult_le_compat; auto using Rabs_pos.
    - intros a b x y HA HB HX HY. eapply Rle_trans; [apply (op_lip Rmult); auto; right; reflexivity|].
      apply Rmult_le_compat_r; [pose proof (Rabs_pos (x - a)); pose proof (Rabs_pos (y - b)); lra|lra].
  Qed.
  Lemma ou_div e1 s1 c : c <> 0 -> OU e1 s1 -> OU (fun p => Div (e1 p) (Num c)) (fun p => s1 p / c).
  Proof.
    intros Hc (B1 & K1 & u1 & HB1 & HK1 & Hu1 & H1). assert (P : 0 < / Rabs c) by (apply Rinv_0_lt_compat, Rabs_pos_lt; auto).
    set (B := B1 * / Rabs c). set (K := K1 * / Rabs c). assert (PB : 0 <= B) by (unfold B; nra). assert (PK : 0 <= K) by (unfold K; nra).
    set (e := / (B + K + 1)). assert (Pe : 0 < e) by (apply Rinv_0_lt_compat; lra). assert (EE : e * (B + K + 1) = 1) by (apply Rinv_l; lra).
    pose proof (Rmin_l u1 e) as M1. pose proof (Rmin_r u1 e) as M2. assert (PM : 0 < Rmin u1 e) by (apply Rmin_pos; lra).
    exists B, (2 * K + B + 1), (Rmin u1 e). split; [auto|]. split; [lra|]. split; [split; [exact PM|lra]|].
    intros p u U NP. destruct (H1 p u (fine_le _ _ u PM M1 U) NP) as [S1 R1].
    assert (SB : Rabs (s1 p / c) <= B) by (unfold Rdiv, B; rewrite Rabs_mult, Rabs_inv; nra).
    split; [auto|]. intros w (x & y & HX & HY & HO). cbn in HY. subst y. destruct (R1 x HX) as (a & -> & WA). cbn [on2] in HO. specialize (HO Hc).
    apply (op_bound u (Rmin u1 e) (a / c)); auto; try lra.
    - apply Rle_trans with (e * (B + K + 1)); [|lra]. apply Rmult_le_compat_r; lra.
    - replace (a / c - s1 p / c) with ((a - s1 p) * / c) by (field; auto). rewrite Rabs_mult, Rabs_inv. unfold K. pose proof (Rabs_pos (a - s1 p)). nra.
  Qed.
  Lemma ou_list (es : list (X -> expr)) (ss : list (X -> R)) : Forall2 OU es ss -> exists B K u0, 0 <= B /\ 0 <= K /\ 0 < u0 <= 1 /\
    forall p u, fine u0 u -> N p u -> List.Forall (fun s => Rabs s <= B) (map (fun s => s p) ss) /\
      forall xs, Forall2 (ieee u) (map (fun e => e p) es) xs -> Forall2 (within (K * eps u)) xs (map (fun s => s p) ss).
  Proof.
    induction 1 as [|e s es ss (B1 & K1 & u1 & HB1 & HK1 & Hu1 & H1) HF (B2 & K2 & u2 & HB2 & HK2 & Hu2 & H2)].
    - exists 0, 0, 1. repeat split; try lra; [constructor|]. intros xs HX. inversion HX. constructor.
    - pose proof (Rmin_l u1 u2) as M1. pose proof (Rmin_r u1 u2) as M2. assert (PM : 0 < Rmin u1 u2) by (apply Rmin_pos; lra).
      exists (B1 + B2), (K1 + K2), (Rmin u1 u2). split; [lra|]. split; [lra|]. split; [split; [exact PM|lra]|].
      intros p u U NP. destruct (H1 p u (fine_le _ _ u PM M1 U) NP) as [S1 R1]. destruct (H2 p u (fine_le _ _ u PM M2 U) NP) as [S2 R2].
      pose proof (fine_eps _ u U) as [E0 _]. cbn [map]. split.
      + constructor; [lra|]. eapply List.Forall_impl; [|exact S2]. cbn. intros. lra.
      + intros xs HX. inversion HX as [|? x ? xs' Hx HX' E1 E2]; subst. constructor.
        * eapply within_le; [|apply R1, Hx]. nra.
        * specialize (R2 xs' HX'). clear - R2 HK1 HK2 E0. induction R2 as [|x0 s0 xs0 ss0 W R2q IH]; constructor; auto. eapply within_le; [|exact W]. nra.
  Qed.
  Lemma ou_sum (es : list (X -> expr)) (ss : list (X -> R)) : Forall2 OU es ss -> es <> [] ->
    OU (fun p => Sum (map (fun e => e p) es)) (fun p => fold_right (fun s a => s p + a) 0 ss).
  Proof.
    intros HF NE. destruct (ou_list es ss HF) as (B & K & u0 & HB & HK & Hu & HL).
    destruct (any_within Rplus 0 B K (length es) (or_introl eq_refl) unit_plus HB HK) as (K' & d & HK' & Hd & HA).
    assert (LE : length es = length ss) by (clear - HF; induction HF; cbn [length]; congruence).
    assert (EF : forall p, folded Rplus 0 (map (fun s : X -> R => s p) ss) = fold_right (fun s a => s p + a) 0 ss).
    { intro p. unfold folded. clear. induction ss as [|s ss IH]; cbn; [reflexivity|]. rewrite IH. reflexivity. }
    pose proof (Rmin_l u0 d) as M1. pose proof (Rmin_r u0 d) as M2. assert (PM : 0 < Rmin u0 d) by (apply Rmin_pos; lra).
    assert (PP : 0 <= (B + 2) ^ length ss) by (apply pow_le; lra).
    exists ((B + 2) ^ length ss), K', (Rmin u0 d). split; [auto|]. split; [auto|]. split; [split; [exact PM|lra]|].
    intros p u U NP. destruct (HL p u (fine_le _ _ u PM M1 U) NP) as [S R0]. rewrite <- EF. split.
    - assert (Q : Rabs (folded Rplus 0 (map (fun s : X -> R => s p) ss)) + 2 <= (B + 2) ^ length (map (fun s : X -> R => s p) ss)).
      { apply folded_size; auto; [left; reflexivity|apply unit_plus|]. intro E. apply map_eq_nil in E. subst ss. destruct es; [congruence|discriminate]. }
      rewrite map_length in Q. lra.
    - intros w HW. apply ieee_Sum in HW. destruct HW as (xs & HX & HO).
      apply (HA u xs (map (fun s => s p) ss) w); auto; [exact (fine_le _ _ u PM M2 U)|].
      assert (L : length (map (fun e : X -> expr => e p) es) = length xs) by (clear - HX; induction HX; cbn [length]; congruence). rewrite map_length in L. lia.
  Qed.
End OU.
