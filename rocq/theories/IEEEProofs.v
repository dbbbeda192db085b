(** IEEE arithmetic: every regular expression is evaluated without overflow and with an error of
    O(u + tiny) (no code modelled here). *)
From Coq Require Import Reals List Permutation Lra Lia Psatz.
From Verif Require Import Rounded RoundedProofs RoundedStable IEEE.
Import ListNotations.
Local Open Scope R_scope.

Definition accurate (P : Fmt -> option R -> Prop) (s : R) : Prop := exists K d, 0 <= K /\ 0 < d <= 1 /\
  forall f w, fine d f -> P f w -> within (K * eps f) w s.

Lemma fine_le d d' f : 0 < d -> d <= d' -> fine d f -> fine d' f.
Proof.
  intros P H (A & B & C & D). repeat split; auto; [lra|]. eapply Rle_trans; [|exact D]. apply Rinv_le_contravar; lra.
Qed.
Lemma fine_eps d f : fine d f -> 0 <= eps f <= d. Proof. intros (A & B & C & D). unfold eps in *. lra. Qed.

(** One operation in range. *)
Lemma result_within f d x s K w : fine d f -> 0 < d <= 1 -> 0 <= K -> Rabs (x - s) <= K * eps f -> d * (Rabs s + K + 1) <= 1 ->
  result f x w -> within ((2 * K + Rabs s + 1) * eps f) w s.
Proof.
  intros HF HD HK HX HS HR. pose proof (fine_eps d f HF) as [E0 E1]. destruct HF as (A & B & _ & D).
  assert (RX : Rabs x <= Rabs s + K * eps f). { replace x with (s + (x - s)) by ring. eapply Rle_trans; [apply Rabs_triang|]. lra. }
  pose proof (Rabs_pos s) as PS. pose proof (Rabs_pos x) as PX.
  assert (KE : K * eps f <= K) by nra.
  assert (RH : Rabs x <= huge f).
  { assert (Rabs s + K + 1 <= / d). { apply Rmult_le_reg_l with d; [lra|]. rewrite Rinv_r by lra. exact HS. } lra. }
  destruct (HR RH) as (v & -> & Hv). exists v. split; [reflexivity|].
  replace (v - s) with ((v - x) + (x - s)) by ring. eapply Rle_trans; [apply Rabs_triang|].
  assert (U : roundoff f <= eps f) by (unfold eps; lra). assert (T : tiny f <= eps f) by (unfold eps; lra).
  assert (roundoff f * Rabs x <= eps f * (Rabs s + K)).
  { apply Rmult_le_compat; auto. lra. }
  nra.
Qed.
Lemma accurate_op (P Q : Fmt -> option R -> Prop) (G : R -> R -> Prop) op a b : accurate P a -> accurate Q b -> calm2 op a b -> around G a b ->
  accurate (fun f w => exists x y, P f x /\ Q f y /\ on2 f G op x y w) (op a b).
Proof.
  intros (K1 & d1 & HK1 & Hd1 & H1) (K2 & d2 & HK2 & Hd2 & H2) (L & d & HL & Hd & HC) (d' & Hd' & HG).
  set (K := L * (K1 + K2)). assert (PK : 0 <= K) by (unfold K; nra). pose proof (Rabs_pos (op a b)) as PA.
  set (e := Rmin (Rmin d d' / (K1 + K2 + 1)) (/ (Rabs (op a b) + K + 1))).
  assert (DD : 0 < Rmin d d') by (apply Rmin_pos; auto).
  assert (P1 : 0 < Rmin d d' / (K1 + K2 + 1)) by (apply Rdiv_lt_0_compat; lra).
  assert (P2 : 0 < / (Rabs (op a b) + K + 1)) by (apply Rinv_0_lt_compat; lra).
  assert (Pe : 0 < e) by (apply Rmin_pos; auto).
  exists (2 * K + Rabs (op a b) + 1), (Rmin (Rmin d1 d2) e). split; [lra|].
  pose proof (Rmin_l (Rmin d1 d2) e). pose proof (Rmin_r (Rmin d1 d2) e). pose proof (Rmin_l d1 d2). pose proof (Rmin_r d1 d2).
  assert (PM : 0 < Rmin (Rmin d1 d2) e) by (repeat apply Rmin_pos; lra).
  split; [split; [exact PM|lra]|].
  intros f w HF (x & y & Hx & Hy & HO).
  assert (F1 : fine d1 f) by (apply (fine_le (Rmin (Rmin d1 d2) e)); auto; lra). assert (F2 : fine d2 f) by (apply (fine_le (Rmin (Rmin d1 d2) e)); auto; lra).
  destruct (H1 f x F1 Hx) as (vx & -> & HX). destruct (H2 f y F2 Hy) as (vy & -> & HY). cbn [on2] in HO.
  pose proof (fine_eps _ f HF) as [E0 E1].
  pose proof (Rmin_l (Rmin d d' / (K1 + K2 + 1)) (/ (Rabs (op a b) + K + 1))) as M1. pose proof (Rmin_r (Rmin d d' / (K1 + K2 + 1)) (/ (Rabs (op a b) + K + 1))) as M2. fold e in M1, M2.
  pose proof (Rmin_l d d'). pose proof (Rmin_r d d').
  assert (UD : (K1 + K2 + 1) * eps f <= Rmin d d').
  { apply Rle_trans with ((K1 + K2 + 1) * (Rmin d d' / (K1 + K2 + 1))); [apply Rmult_le_compat_l; lra|]. right. field. lra. }
  assert (Rabs (vx - a) <= Rmin d d') by nra. assert (Rabs (vy - b) <= Rmin d d') by nra.
  apply (result_within f (Rmin (Rmin d1 d2) e) (op vx vy)); auto; try lra.
  - eapply Rle_trans; [apply HC; lra|]. unfold K. rewrite Rmult_assoc. apply Rmult_le_compat_l; [auto|lra].
  - apply Rle_trans with (/ (Rabs (op a b) + K + 1) * (Rabs (op a b) + K + 1)); [apply Rmult_le_compat_r; lra|]. rewrite Rinv_l; lra.
  - apply HO. apply HG; lra.
Qed.
Lemma accurate_mono (P Q : Fmt -> option R -> Prop) s : (forall f x, Q f x -> P f x) -> accurate P s -> accurate Q s.
Proof. intros H (K & d & HK & H0 & HP). exists K, d. repeat split; try tauto. intros f x U HX. apply HP; auto. Qed.
Lemma accurate_const s : accurate (fun _ w => w = Some s) s.
Proof. exists 0, 1. repeat split; try lra. intros f w _ ->. exists s. split; [reflexivity|]. unfold Rminus. rewrite Rplus_opp_r, Rabs_R0. lra. Qed.
Lemma accurate_result p : accurate (fun f => result f p) p.
Proof.
  pose proof (Rabs_pos p). assert (0 < / (Rabs p + 1)) by (apply Rinv_0_lt_compat; lra).
  assert (/ (Rabs p + 1) <= 1) by (rewrite <- Rinv_1; apply Rinv_le_contravar; lra).
  exists (2 * 0 + Rabs p + 1), (/ (Rabs p + 1)). repeat split; try lra. intros f w HF HR.
  apply (result_within f (/ (Rabs p + 1)) p p 0 w); auto; try lra.
  - unfold Rminus. rewrite Rplus_opp_r, Rabs_R0. lra.
  - replace (Rabs p + 0 + 1) with (Rabs p + 1) by ring. rewrite Rinv_l; lra.
Qed.

(** ** Sums and products: any order *)
Definition additive (op : R -> R -> R) : Prop := op = Rplus \/ op = Rmult.
Lemma op_lip op a b x y : additive op -> Rabs (x - a) <= 1 -> Rabs (y - b) <= 1 ->
  Rabs (op x y - op a b) <= (Rabs a + Rabs b + 2) * (Rabs (x - a) + Rabs (y - b)).
Proof.
  intros [-> | ->] HX HY; pose proof (Rabs_pos a); pose proof (Rabs_pos b); pose proof (Rabs_pos (x - a)); pose proof (Rabs_pos (y - b)).
  - replace (x + y - (a + b)) with ((x - a) + (y - b)) by ring. eapply Rle_trans; [apply Rabs_triang|]. nra.
  - replace (x * y - a * b) with ((x - a) * y + a * (y - b)) by ring.
    eapply Rle_trans; [apply Rabs_triang|]. rewrite !Rabs_mult.
    assert (Rabs y <= Rabs b + 1) by (replace y with ((y - b) + b) by ring; eapply Rle_trans; [apply Rabs_triang|]; lra).
    assert (Rabs (x - a) * Rabs y <= Rabs (x - a) * (Rabs b + 1)) by (apply Rmult_le_compat_l; auto). nra.
Qed.
Lemma op_size op a b A B : additive op -> Rabs a + 2 <= A -> Rabs b + 2 <= B -> Rabs (op a b) + 2 <= A * B.
Proof.
  intros H HA HB. pose proof (Rabs_pos a). pose proof (Rabs_pos b). assert (X : (Rabs a + 2) * (Rabs b + 2) <= A * B) by (apply Rmult_le_compat; lra).
  destruct H as [-> | ->]; [pose proof (Rabs_triang a b)|rewrite Rabs_mult]; nra.
Qed.
Definition unit_of (op : R -> R -> R) (z : R) : Prop := (forall x, op z x = x) /\ (forall x, op x z = x) /\ (forall x y t, op x (op y t) = op (op x y) t) /\ (forall x y, op x y = op y x).
Definition folded op (z : R) (l : list R) : R := fold_right op z l.
Lemma folded_app op z l l' : unit_of op z -> folded op z (l ++ l') = op (folded op z l) (folded op z l').
Proof. intros (H1 & H2 & H3 & H4). unfold folded. induction l as [|x l IH]; cbn; [rewrite H1; auto|]. rewrite IH, H3. reflexivity. Qed.
Lemma folded_perm op z l l' : unit_of op z -> Permutation l l' -> folded op z l = folded op z l'.
Proof.
  intros (H1 & H2 & H3 & H4) P. unfold folded. induction P as [|x l l' P IH|x y l|l l1 l2 P1 IH1 P2 IH2]; cbn; [reflexivity|rewrite IH; reflexivity| |congruence].
  rewrite !H3, (H4 y x). reflexivity.
Qed.
Lemma folded_size op z l M : additive op -> unit_of op z -> l <> [] -> 0 <= M -> List.Forall (fun x => Rabs x <= M) l -> Rabs (folded op z l) + 2 <= (M + 2) ^ length l.
Proof.
  intros HO HU N HM HF. induction HF as [|x l Hx HF IH]; [congruence|]. cbn [folded fold_right length pow]. fold (folded op z l).
  destruct l as [|y l].
  - cbn. destruct HU as (_ & H2 & _). rewrite H2. lra.
  - apply op_size; [exact HO|lra|]. apply IH. discriminate.
Qed.
Lemma Forall2_app_l {A B} (R0 : A -> B -> Prop) l1 l2 l : Forall2 R0 (l1 ++ l2) l -> exists a b, l = a ++ b /\ Forall2 R0 l1 a /\ Forall2 R0 l2 b.
Proof. intro H. apply Forall2_app_inv_l in H. destruct H as (a & b & H1 & H2 & ->). eauto. Qed.
Lemma oleaves_pos t : (1 <= length (oleaves t))%nat.
Proof. induction t; cbn; [lia|]. rewrite app_length. lia. Qed.

Lemma tree_within op z M K : additive op -> unit_of op z -> 0 <= M -> 0 <= K -> forall n, exists K' d, 0 <= K' /\ 0 < d <= 1 /\
  forall f t ss w, fine d f -> (length (oleaves t) <= n)%nat -> Forall2 (within (K * eps f)) (oleaves t) ss -> List.Forall (fun s => Rabs s <= M) ss ->
    otree_val f op t w -> within (K' * eps f) w (folded op z ss).
Proof.
  intros HO HU HM HK n. induction n as [|n (K' & d & HK' & Hd & IH)].
  { exists 0, 1. repeat split; try lra. intros f t ss w _ HL. pose proof (oleaves_pos t). lia. }
  set (B := (M + 2) ^ S n). assert (PB : 1 <= B) by (unfold B; apply pow_R1_Rle; lra).
  set (K2 := (2 * B + 2) * (K' + K')). assert (P2 : 0 <= K2) by (unfold K2; nra).
  set (e := / (B * B + K2 + K' + 1)). assert (BB : 1 <= B * B) by nra. assert (Pe : 0 < e) by (apply Rinv_0_lt_compat; lra).
  assert (EB : e * (B * B + K2 + K' + 1) = 1) by (unfold e; apply Rinv_l; lra).
  exists (K + (2 * K2 + B * B + 1)), (Rmin d e).
  pose proof (Rmin_l d e) as ML. pose proof (Rmin_r d e) as MR. assert (PM : 0 < Rmin d e) by (apply Rmin_pos; lra).
  split; [lra|]. split; [split; [exact PM|lra]|].
  intros f t ss w HF HL H2 HS HV. pose proof (fine_eps _ f HF) as [E0 E1]. destruct t as [x|l r].
  - cbn in HV. subst w. cbn in H2.
    assert (W : exists s, ss = [s] /\ within (K * eps f) x s) by (clear - H2; inversion H2 as [|? s ? l' W H2' E]; subst; inversion H2'; subst; eauto).
    destruct W as (s & -> & W). cbn [folded fold_right]. unfold folded. cbn [fold_right]. destruct HU as (_ & HU & _). rewrite HU.
    destruct W as (v & -> & W). exists v. split; [reflexivity|]. eapply Rle_trans; [exact W|]. apply Rmult_le_compat_r; lra.
  - cbn [oleaves] in *. rewrite app_length in HL. pose proof (oleaves_pos l). pose proof (oleaves_pos r).
    apply Forall2_app_l in H2. destruct H2 as (sl & sr & -> & Hl & Hr). apply List.Forall_app in HS. destruct HS as [Sl Sr].
    cbn [otree_val] in HV. destruct HV as (a & b & Va & Vb & HV).
    pose proof (fine_le _ _ f PM ML HF) as HF'.
    destruct (IH f l sl a HF' ltac:(lia) Hl Sl Va) as (va & -> & Wa). destruct (IH f r sr b HF' ltac:(lia) Hr Sr Vb) as (vb & -> & Wb).
    rewrite (folded_app op z sl sr HU). cbn [on2] in HV. specialize (HV Logic.I).
    assert (SZ : forall s t, Forall2 (within (K * eps f)) (oleaves t) s -> (length (oleaves t) <= S n)%nat -> List.Forall (fun s => Rabs s <= M) s -> Rabs (folded op z s) + 2 <= B).
    { intros s t F2 L F1. assert (EL : length (oleaves t) = length s) by (clear - F2; induction F2; cbn; congruence).
      pose proof (oleaves_pos t). eapply Rle_trans; [apply (folded_size op z s M); auto|].
      - intro E. subst s. cbn in EL. lia.
      - unfold B. apply Rle_pow; [lra|lia]. }
    pose proof (SZ sl l Hl ltac:(lia) Sl) as Zl. pose proof (SZ sr r Hr ltac:(lia) Sr) as Zr.
    pose proof (op_size op _ _ B B HO Zl Zr) as ZZ.
    assert (W : within ((2 * K2 + Rabs (op (folded op z sl) (folded op z sr)) + 1) * eps f) w (op (folded op z sl) (folded op z sr))).
    { apply (result_within f (Rmin d e) (op va vb)); auto; try lra.
      - assert (K'1 : K' * eps f <= 1). { apply Rle_trans with (e * (B * B + K2 + K' + 1)); [|lra]. rewrite Rmult_comm. apply Rmult_le_compat; lra. }
        eapply Rle_trans; [apply op_lip; auto; lra|]. unfold K2. pose proof (Rabs_pos (va - folded op z sl)). pose proof (Rabs_pos (vb - folded op z sr)).
        rewrite Rmult_assoc. pose proof (Rabs_pos (folded op z sl)). pose proof (Rabs_pos (folded op z sr)). apply Rmult_le_compat; lra.
      - apply Rle_trans with (e * (B * B + K2 + K' + 1)); [|lra]. pose proof (Rabs_pos (op (folded op z sl) (folded op z sr))). apply Rmult_le_compat; lra. }
    destruct W as (v & -> & W). exists v. split; [reflexivity|]. eapply Rle_trans; [exact W|]. apply Rmult_le_compat_r; lra.
Qed.
Lemma unit_plus : unit_of Rplus 0. Proof. repeat split; intros; ring. Qed.
Lemma unit_mult : unit_of Rmult 1. Proof. repeat split; intros; ring. Qed.

Lemma ieee_Sum f l w : ieee f (Sum l) w <-> exists xs, Forall2 (ieee f) l xs /\ oany_order f Rplus xs w.
Proof.
  cbn [ieee]. split; intros (xs & H & A); exists xs; (split; [|exact A]); clear A; revert xs H.
  - induction l as [|e l IH]; intros [|x xs] H; try contradiction; constructor; try apply IH; apply H.
  - induction l as [|e l IH]; intros xs H; inversion H; subst; [exact Logic.I|]. split; [assumption|apply IH; assumption].
Qed.
Lemma ieee_Prod f l w : ieee f (Prod l) w <-> exists xs, Forall2 (ieee f) l xs /\ oany_order f Rmult xs w.
Proof.
  cbn [ieee]. split; intros (xs & H & A); exists xs; (split; [|exact A]); clear A; revert xs H.
  - induction l as [|e l IH]; intros [|x xs] H; try contradiction; constructor; try apply IH; apply H.
  - induction l as [|e l IH]; intros xs H; inversion H; subst; [exact Logic.I|]. split; [assumption|apply IH; assumption].
Qed.
(** bounds for a list of results in any order, uniform in the results *)
Lemma any_within op z M K n : additive op -> unit_of op z -> 0 <= M -> 0 <= K -> exists K' d, 0 <= K' /\ 0 < d <= 1 /\
  forall f xs ss w, fine d f -> length xs = n -> Forall2 (within (K * eps f)) xs ss -> List.Forall (fun s => Rabs s <= M) ss ->
    oany_order f op xs w -> within (K' * eps f) w (folded op z ss).
Proof.
  intros HO HU HM HK. destruct (tree_within op z M K HO HU HM HK n) as (K' & d & HK' & Hd & H). exists K', d. split; [auto|]. split; [auto|].
  intros f xs ss w HF HL H2 HS (t & HP & HV).
  assert (PS : exists ss', Forall2 (within (K * eps f)) (oleaves t) ss' /\ Permutation ss' ss).
  { apply Permutation_sym in HP. clear - HP H2. revert ss H2. induction HP as [|x l l' HP IH|x y l|l l' l'' HP1 IH1 HP2 IH2]; intros ss H2.
    - inversion H2; subst. exists []. split; constructor.
    - inversion H2 as [|? s ? ss0 W H2' E]; subst. destruct (IH _ H2') as (ss' & A & B). exists (s :: ss'). split; constructor; auto.
    - inversion H2 as [|? s ? ss0 W H2' E]; subst. inversion H2' as [|? s' ? ss1 W' H2'' E]; subst. exists (s' :: s :: ss1). split; [repeat constructor; auto|]. constructor.
    - destruct (IH1 _ H2) as (s1 & A & B). destruct (IH2 _ A) as (s2 & A' & B'). exists s2. split; [auto|]. eapply perm_trans; eauto. }
  destruct PS as (ss' & F2 & PS). rewrite <- (folded_perm op z ss' ss HU PS).
  apply (H f t ss' w); auto.
  - rewrite (Permutation_length HP). lia.
  - apply List.Forall_forall. intros s I. apply (proj1 (List.Forall_forall _ _) HS). eapply Permutation_in; eauto.
Qed.
Lemma accurate_list l : List.Forall (fun e => accurate (fun f => ieee f e) (exact e)) l ->
  exists K d, 0 <= K /\ 0 < d <= 1 /\ forall f xs, fine d f -> Forall2 (ieee f) l xs -> Forall2 (within (K * eps f)) xs (map exact l).
Proof.
  intro H. induction H as [|e l (K1 & d1 & HK1 & Hd1 & H1) HF (K2 & d2 & HK2 & Hd2 & H2)].
  - exists 0, 1. repeat split; try lra. intros f xs _ HX. inversion HX. constructor.
  - pose proof (Rmin_l d1 d2). pose proof (Rmin_r d1 d2). assert (PM : 0 < Rmin d1 d2) by (apply Rmin_pos; lra).
    exists (K1 + K2), (Rmin d1 d2). split; [lra|]. split; [split; [exact PM|lra]|].
    intros f xs U HX. inversion HX as [|? x ? xs' Hx HX' E1 E2]; subst. cbn [map]. pose proof (fine_eps _ f U) as [E0 _].
    constructor.
    + destruct (H1 f x) as (v & -> & W); [eapply fine_le; eauto|auto|]. exists v. split; [auto|]. nra.
    + assert (N : Forall2 (within (K2 * eps f)) xs' (map exact l)) by (apply H2; [eapply fine_le; eauto|auto]).
      clear - N HK1 HK2 E0. induction N as [|x s xs ss (v & -> & W) N IH]; constructor; auto. exists v. split; [auto|]. nra.
Qed.
Lemma bounded_list (l : list R) : exists M, 0 <= M /\ List.Forall (fun s => Rabs s <= M) l.
Proof.
  induction l as [|x l (M & HM & IH)]; [exists 0; split; [lra|constructor]|]. pose proof (Rabs_pos x). exists (M + Rabs x). split; [lra|].
  constructor; [lra|]. eapply List.Forall_impl; [|exact IH]. cbn. intros. lra.
Qed.
Lemma accurate_any op z l : additive op -> unit_of op z -> List.Forall (fun e => accurate (fun f => ieee f e) (exact e)) l ->
  accurate (fun f w => exists xs, Forall2 (ieee f) l xs /\ oany_order f op xs w) (folded op z (map exact l)).
Proof.
  intros HO HU H. destruct (accurate_list l H) as (K & d & HK & Hd & HL). destruct (bounded_list (map exact l)) as (M & HM & HB).
  destruct (any_within op z M K (length l) HO HU HM HK) as (K' & d' & HK' & Hd' & HA).
  pose proof (Rmin_l d d'). pose proof (Rmin_r d d'). assert (PM : 0 < Rmin d d') by (apply Rmin_pos; lra).
  exists K', (Rmin d d'). split; [auto|]. split; [split; [exact PM|lra]|]. intros f w HF (xs & H2 & HV).
  apply (HA f xs (map exact l) w); auto; [eapply fine_le; eauto|clear - H2; induction H2; cbn; congruence|].
  apply HL; [eapply fine_le; eauto|auto].
Qed.
Lemma folded_sum l : folded Rplus 0 (map exact l) = exact (Sum l).
Proof. cbn [exact]. unfold folded. induction l as [|a l IH]; cbn; [auto|]. rewrite IH. auto. Qed.
Lemma folded_prod l : folded Rmult 1 (map exact l) = exact (Prod l).
Proof. cbn [exact]. unfold folded. induction l as [|a l IH]; cbn; [auto|]. rewrite IH. auto. Qed.

Theorem regular_accurate e : regular e -> accurate (fun f => ieee f e) (exact e).
Proof.
  induction e as [x|a b IHa IHb|a b IHa IHb|a b IHa IHb|a b IHa IHb|a IHa|a p IHa|l IH|l IH] using expr_ind'; intro HR; cbn [regular] in HR.
  - apply accurate_const.
  - destruct HR as [Ra Rb]. apply (accurate_op _ _ always Rplus _ _ (IHa Ra) (IHb Rb)); [apply calm2_plus|apply around_true].
  - destruct HR as [Ra Rb]. apply (accurate_op _ _ always Rminus _ _ (IHa Ra) (IHb Rb)); [apply calm2_minus|apply around_true].
  - destruct HR as [Ra Rb]. apply (accurate_op _ _ always Rmult _ _ (IHa Ra) (IHb Rb)); [apply calm2_mult|apply around_true].
  - destruct HR as (Ra & Rb & N). destruct (calm2_div (exact a) (exact b) N) as [C A].
    apply (accurate_op _ _ (fun _ y => y <> 0) Rdiv _ _ (IHa Ra) (IHb Rb) C A).
  - destruct HR as (Ra & N).
    eapply accurate_mono; [|apply (accurate_op _ _ (fun x _ => 0 < x) (fun x _ => sqrt x) _ 0 (IHa Ra) (accurate_const 0)); [apply calm2_sqrt; auto|apply around_pos; auto]].
    intros f w (x & H1 & H2). exists x, (Some 0). split; [auto|]. split; [auto|]. destruct x; cbn in *; [|auto]. intro. apply H2. lra.
  - destruct HR as (Ra & N).
    apply (accurate_op _ _ (fun x _ => 0 < x) Rpower _ p (IHa Ra) (accurate_result p)); [apply calm2_pow; auto|apply around_pos; auto].
  - destruct HR as [_ HR]. apply (accurate_mono (fun f w => exists xs, Forall2 (ieee f) l xs /\ oany_order f Rplus xs w)); [intros f w HX; apply ieee_Sum; exact HX|]. rewrite <- folded_sum. apply accurate_any; [left; auto|apply unit_plus|].
    clear - IH HR. induction IH as [|e l He HF IHF]; [constructor|]. destruct HR. constructor; auto.
  - destruct HR as [_ HR]. apply (accurate_mono (fun f w => exists xs, Forall2 (ieee f) l xs /\ oany_order f Rmult xs w)); [intros f w HX; apply ieee_Prod; exact HX|]. rewrite <- folded_prod. apply accurate_any; [right; auto|apply unit_mult|].
    clear - IH HR. induction IH as [|e l He HF IHF]; [constructor|]. destruct HR. constructor; auto.
Qed.
