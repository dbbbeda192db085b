(** * Proofs for C78: the implicit function theorem for bodies. *)
From Coq Require Import Reals Lra Lia List Psatz Bool FunctionalExtensionality.
From Coquelicot Require Import Coquelicot.
From Verif Require Import Tensor Py Voigt Algebra Models Frameworks Spaces Spec Calc NewtonSpec NewtonLin NewtonProofs LoadSpec.
From Verif Require PotentialProofs.
Import ListNotations.
Local Open Scope R_scope.

(** A sequence with geometrically small steps converges. *)
Lemma geometric_limit (x : nat -> R) C : 0 <= C -> (forall k, Rabs (x (S k) - x k) <= C / 2 ^ k) ->
  forall k, Rabs (x k - real (Lim_seq x)) <= 2 * C / 2 ^ k.
Proof.
  intros HC HX. assert (B : forall j, 0 < 2 ^ j) by (intro; apply pow_lt; lra).
  assert (S1 : forall k j, Rabs (x (k + j)%nat - x k) <= 2 * C / 2 ^ k * (1 - / 2 ^ j)).
  { intros k j. induction j as [|j IH].
    - rewrite Nat.add_0_r, Rminus_eq_0, Rabs_R0. cbn. lra.
    - replace (k + S j)%nat with (S (k + j)) by lia.
      replace (x (S (k + j)) - x k) with ((x (S (k + j)) - x (k + j)%nat) + (x (k + j)%nat - x k)) by ring.
      eapply Rle_trans; [apply Rabs_triang|]. eapply Rle_trans; [apply Rplus_le_compat; [apply HX|exact IH]|]. right.
      rewrite pow_add. cbn [pow]. pose proof (B k). pose proof (B j). field. lra. }
  assert (S2 : forall k j, Rabs (x (k + j)%nat - x k) <= 2 * C / 2 ^ k).
  { intros k j. eapply Rle_trans; [apply S1|]. pose proof (B k). pose proof (Rinv_0_lt_compat _ (B j)).
    assert (0 <= 2 * C / 2 ^ k) by (apply Rmult_le_pos; [lra|left; apply Rinv_0_lt_compat; auto]).
    rewrite <- (Rmult_1_r (2 * C / 2 ^ k)) at 2. apply Rmult_le_compat_l; lra. }
  assert (EX : ex_finite_lim_seq x).
  { apply ex_lim_seq_cauchy_corr. intro eps. 
    assert (G : exists N, 2 * C / 2 ^ N < eps / 2).
    { destruct (pow_lt_1_zero (/ 2) ltac:(rewrite Rabs_pos_eq; lra) (eps / 2 / (2 * C + 1))) as [N HN].
      { apply Rdiv_lt_0_compat; [|lra]. pose proof (cond_pos eps). lra. }
      exists N. specialize (HN N (le_n N)). rewrite Rabs_pos_eq in HN by (apply pow_le; lra).
      rewrite pow_inv in HN by lra. pose proof (Rinv_0_lt_compat _ (B N)).
      apply Rle_lt_trans with ((2 * C + 1) * / 2 ^ N); [unfold Rdiv; apply Rmult_le_compat_r; lra|].
      apply Rmult_lt_compat_l with (r := 2 * C + 1) in HN; [|lra]. eapply Rlt_le_trans; [exact HN|]. right. field. lra. }
    destruct G as [N HN]. exists N. intros p q Lp Lq.
    replace p with (N + (p - N))%nat by lia. replace q with (N + (q - N))%nat by lia.
    pose proof (S2 N (p - N)%nat). pose proof (S2 N (q - N)%nat).
    replace (x (N + (p - N))%nat - x (N + (q - N))%nat) with ((x (N + (p - N))%nat - x N) - (x (N + (q - N))%nat - x N)) by ring.
    eapply Rle_lt_trans; [apply Rabs_triang|]. rewrite Rabs_Ropp. lra. }
  intro k. apply Lim_seq_correct' in EX. rewrite Rabs_minus_sym.
  set (l := real (Lim_seq x)) in *.
  assert (LE : is_lim_seq (fun j => Rabs (x (k + j)%nat - x k)) (Rabs (l - x k))).
  { apply (is_lim_seq_abs _ (Finite (l - x k))). apply (is_lim_seq_minus' _ _ l (x k)); [|apply is_lim_seq_const].
    apply (is_lim_seq_ext (fun j => x (j + k)%nat)); [intro j; f_equal; lia|]. apply -> is_lim_seq_incr_n. exact EX. }
  exact (is_lim_seq_le _ (fun _ => 2 * C / 2 ^ k) (Finite (Rabs (l - x k))) (Finite (2 * C / 2 ^ k)) (S2 k) LE (is_lim_seq_const _)).
Qed.
Lemma small_zero x C : (forall k, Rabs x <= C / 2 ^ k) -> x = 0.
Proof.
  intro H. destruct (Req_dec x 0) as [|N]; [auto|exfalso]. apply Rabs_pos_lt in N.
  assert (HC : 0 < C). { specialize (H 0%nat). cbn in H. lra. }
  destruct (pow_lt_1_zero (/ 2) ltac:(rewrite Rabs_pos_eq; lra) (Rabs x / C)) as [k Hk]; [apply Rdiv_lt_0_compat; auto|].
  specialize (Hk k (le_n k)). rewrite Rabs_pos_eq in Hk by (apply pow_le; lra). rewrite pow_inv in Hk by lra.
  apply Rmult_lt_compat_l with (r := C) in Hk; [|auto]. replace (C * (Rabs x / C)) with (Rabs x) in Hk by (field; lra).
  specialize (H k). unfold Rdiv in H. lra.
Qed.
Lemma within_triang n e f u v w : within n e u v -> within n f v w -> within n (e + f) u w.
Proof. intros H1 H2 a La. specialize (H1 a La). specialize (H2 a La). replace (u a - w a) with ((u a - v a) + (v a - w a)) by ring. eapply Rle_trans; [apply Rabs_triang|]. lra. Qed.
Lemma within_sym n e u v : within n e u v -> within n e v u.
Proof. intros H a La. rewrite Rabs_minus_sym. apply H; exact La. Qed.
Lemma within_le n e f u v : e <= f -> within n e u v -> within n f u v.
Proof. intros L H a La. specialize (H a La). lra. Qed.
Lemma within_refl n e u : 0 <= e -> within n e u u.
Proof. intros H a La. rewrite Rminus_eq_0, Rabs_R0. exact H. Qed.
Lemma within_nonneg n e u v : within n e u v -> 0 <= e \/ n = O.
Proof. intro H. destruct n; [right; reflexivity|left]. eapply Rle_trans; [apply Rabs_pos|apply (H O); lia]. Qed.

(** Equations If(u) = g whose derivative is locally Lipschitz at us. *)
Section Implicit.
  Variables (n : nat) (us : nat -> R) (If : (nat -> R) -> nat -> R) (Kf : (nat -> R) -> nat -> nat -> R) (L d : R).
  Hypothesis HL : 0 <= L.
  Hypothesis Hd : 0 < d.
  Hypothesis HK : forall u e, 0 <= e <= d -> within n e u us -> forall a b, (a < n)%nat -> (b < n)%nat -> Rabs (Kf u a b - Kf us a b) <= L * e.
  Hypothesis HF : forall u v e f, 0 <= e <= d -> 0 <= f -> within n e u us -> within n e v us -> within n f u v ->
    forall a, (a < n)%nat -> Rabs (If u a - If v a - mv n (Kf us) (fun b => u b - v b) a) <= L * e * f.
  Hypothesis HI : injective n (Kf us).
  Lemma right_inverse : exists X : nat -> nat -> R, forall y a, (a < n)%nat -> mv n (Kf us) (fun b => sumn n (fun p => y p * X p b)) a = y a.
  Proof.
    assert (G : forall m, exists X : nat -> nat -> R, forall p, (p < m)%nat -> forall a, (a < n)%nat -> mv n (Kf us) (X p) a = if Nat.eqb a p then 1 else 0).
    { induction m as [|m (X & HX)]; [exists (fun _ _ => 0); intros; lia|].
      destruct (solvable n (Kf us) HI (fun a => if Nat.eqb a m then 1 else 0)) as [x Hx].
      exists (fun p => if Nat.eqb p m then x else X p). intros p Lp a La. destruct (Nat.eqb_spec p m) as [->|]; [apply Hx; exact La|apply HX; [lia|exact La]]. }
    destruct (G n) as [X HX]. exists X. intros y a La. unfold mv.
    rewrite (sumn_ext n _ (fun c => sumn n (fun p => y p * (Kf us a c * X p c)))).
    2:{ intros. rewrite <- sumn_scal. apply sumn_ext. intros. ring. }
    rewrite sumn_swap. rewrite (sumn_ext n _ (fun p => if Nat.eqb p a then y p else 0)).
    2:{ intros p Lp. rewrite sumn_scal. change (sumn n (fun c => Kf us a c * X p c)) with (mv n (Kf us) (X p) a). rewrite HX by auto.
        rewrite (Nat.eqb_sym p a). destruct (Nat.eqb a p); ring. }
    apply (sumn_delta n y a La).
  Qed.
  Lemma implicit_core : exists r d' c, 0 < r /\ 2 * r <= d /\ 0 < d' /\ 0 <= c /\ 2 * c * d' <= r / 2 /\
    (forall g e, 0 <= e <= d' -> within n e g (If us) -> exists v, within n (2 * c * e) v us /\ forall a, (a < n)%nat -> If v a = g a) /\
    (forall u v e, 0 <= e -> within n (2 * r) u us -> within n (2 * r) v us -> within n e (If u) (If v) -> within n (2 * c * e) u v) /\
    (forall u, within n (2 * r) u us -> injective n (Kf u)) /\
    (forall u v w f, 0 <= f -> within n (2 * r) u us -> within n (2 * r) v us -> within n f u v ->
       (forall a, (a < n)%nat -> mv n (Kf u) (fun b => w b - u b) a = If v a - If u a) -> within n (f / 2) w v).
  Proof.
    destruct (bounded_inverse n (Kf us) HI) as (c & Hc & HB).
    destruct right_inverse as [X HX]. set (Inv := fun (y : nat -> R) b => sumn n (fun p => y p * X p b)).
    set (N := INR n). assert (HN : 0 <= N) by apply pos_INR.
    set (q := c * L * (N + 1)). assert (Hq : 0 <= q) by (unfold q; apply Rmult_le_pos; [apply Rmult_le_pos; auto|lra]).
    set (r := Rmin (d / 2) (/ (8 * q + 1))).
    assert (Hi : 0 < / (8 * q + 1)) by (apply Rinv_0_lt_compat; lra).
    assert (Hr : 0 < r) by (unfold r; apply Rmin_pos; lra).
    assert (Hr2 : 2 * r <= d) by (pose proof (Rmin_l (d / 2) (/ (8 * q + 1))); fold r in H; lra).
    assert (Hqr : q * (2 * r) <= / 4).
    { assert (r * (8 * q + 1) <= / (8 * q + 1) * (8 * q + 1)) by (apply Rmult_le_compat_r; [lra|apply Rmin_r]).
      rewrite Rinv_l in H by lra. lra. }
    assert (P1 : c * (L * (2 * r)) <= / 4).
    { eapply Rle_trans; [|exact Hqr]. unfold q. replace (c * L * (N + 1) * (2 * r)) with (c * (L * (2 * r)) + N * (c * (L * (2 * r)))) by ring.
      assert (0 <= N * (c * (L * (2 * r)))); [|lra]. repeat apply Rmult_le_pos; lra. }
    assert (P0 : 0 <= L * (2 * r)) by (apply Rmult_le_pos; lra).
    assert (PN : 0 <= c * (N * (L * (2 * r)))) by (repeat apply Rmult_le_pos; lra).
    assert (P2 : c * (L * (2 * r)) + c * (N * (L * (2 * r))) <= / 4).
    { eapply Rle_trans; [|exact Hqr]. unfold q. right. ring. }
    set (d' := r / (4 * c + 1)). assert (Hd' : 0 < d') by (apply Rdiv_lt_0_compat; lra).
    assert (Hcd : 2 * c * d' <= r / 2).
    { assert (E : d' * (4 * c + 1) = r) by (unfold d'; field; lra). nra. }
    (* inverse of the linear part *)
    assert (DIST : forall u v e, 0 <= e -> within n (2 * r) u us -> within n (2 * r) v us -> within n e (If u) (If v) -> within n (2 * c * e) u v).
    { intros u v e He Hu Hv HE.
      destruct (PotentialProofs.max_entry n (fun b => u b - v b)) as (t & T0 & T1 & T2).
      assert (B : forall a, (a < n)%nat -> Rabs (mv n (Kf us) (fun b => u b - v b) a) <= e + L * (2 * r) * t).
      { intros a La. pose proof (HF u v (2 * r) t ltac:(lra) T0 Hu Hv T1 a La) as Q. specialize (HE a La).
        replace (mv n (Kf us) (fun b => u b - v b) a) with ((If u a - If v a) - (If u a - If v a - mv n (Kf us) (fun b => u b - v b) a)) by ring.
        eapply Rle_trans; [apply Rabs_triang|]. rewrite Rabs_Ropp. lra. }
      assert (TB : t <= 2 * c * e).
      { destruct T2 as [->|(a & La & <-)]; [apply Rmult_le_pos; lra|]. pose proof (HB _ _ B a La) as Q. cbv beta in Q.
        pose proof (Rabs_pos (u a - v a)).
        assert (c * (L * (2 * r)) * Rabs (u a - v a) <= / 4 * Rabs (u a - v a)) by (apply Rmult_le_compat_r; lra). lra. }
      intros a La. eapply Rle_trans; [apply (T1 a La)|exact TB]. }
    (* bounded inverse of K(u) *)
    assert (KB : forall u w y, 0 <= y -> within n (2 * r) u us -> (forall a, (a < n)%nat -> Rabs (mv n (Kf u) w a) <= y) -> forall a, (a < n)%nat -> Rabs (w a) <= 2 * c * y).
    { intros u w y Hy Hu HW. destruct (PotentialProofs.max_entry n w) as (t & T0 & T1 & T2).
      assert (B : forall a, (a < n)%nat -> Rabs (mv n (Kf us) w a) <= y + N * (L * (2 * r) * t)).
      { intros a La. replace (mv n (Kf us) w a) with (mv n (Kf u) w a - mv n (fun a b => Kf u a b - Kf us a b) w a).
        2:{ unfold mv. rewrite <- sumn_minus. apply sumn_ext. intros. ring. }
        eapply Rle_trans; [apply Rabs_triang|]. rewrite Rabs_Ropp. apply Rplus_le_compat; [apply HW; exact La|].
        unfold mv. eapply Rle_trans; [apply (sumn_abs n _ (fun _ => L * (2 * r) * t))|rewrite sumn_const; unfold N; right; ring].
        intros b Lb. rewrite Rabs_mult. apply Rmult_le_compat; [apply Rabs_pos|apply Rabs_pos|apply (HK u (2 * r)); auto; lra|apply T1; exact Lb]. }
      assert (TB : t <= 2 * c * y).
      { destruct T2 as [->|(a & La & <-)]; [apply Rmult_le_pos; lra|]. pose proof (HB w _ B a La) as Q.
        assert (c * (N * (L * (2 * r))) * Rabs (w a) <= / 4 * Rabs (w a)).
        { apply Rmult_le_compat_r; [apply Rabs_pos|]. assert (0 <= c * (L * (2 * r))) by (repeat apply Rmult_le_pos; lra). lra. }
        lra. }
      intros a La. eapply Rle_trans; [apply (T1 a La)|exact TB]. }
    exists r, d', c. split; [exact Hr|]. split; [exact Hr2|]. split; [exact Hd'|]. split; [exact Hc|]. split; [exact Hcd|].
    split; [|split; [exact DIST|split]].
    - intros g e He Hg.
      set (x := nat_rect (fun _ => nat -> R) us (fun _ y b => y b - Inv (fun a => If y a - g a) b)).
      assert (XS : forall k b, x (S k) b = x k b - Inv (fun a => If (x k) a - g a) b) by reflexivity.
      assert (XK : forall k a, (a < n)%nat -> mv n (Kf us) (fun b => x k b - x (S k) b) a = If (x k) a - g a).
      { intros k a La. rewrite <- (HX (fun a => If (x k) a - g a) a La) at 1. unfold mv. apply sumn_ext. intros b Lb. rewrite XS. unfold Inv. ring. }
      assert (CE : 0 <= c * e) by (apply Rmult_le_pos; lra).
      assert (CE2 : 2 * (c * e) <= r). { assert (c * e <= c * d') by (apply Rmult_le_compat_l; lra). lra. }
      assert (B : forall j, 0 < 2 ^ j) by (intro; apply pow_lt; lra).
      assert (IT : forall k, within n (2 * (c * e) * (1 - / 2 ^ k)) (x k) us /\ within n (c * e / 2 ^ k) (x (S k)) (x k)).
      { assert (ST : forall k z, within n (2 * (c * e) * (1 - / 2 ^ k)) (x k) us -> 0 <= z -> within n z (x (S k)) (x k) -> within n (2 * (c * e) * (1 - / 2 ^ k) + z) (x (S k)) us).
        { intros k z H1 Hz H2. rewrite Rplus_comm. eapply within_triang; eauto. }
        assert (BD : forall k, 2 * (c * e) * (1 - / 2 ^ k) <= 2 * r).
        { intro k. pose proof (Rinv_0_lt_compat _ (B k)). assert (2 * (c * e) * (1 - / 2 ^ k) <= 2 * (c * e) * 1) by (apply Rmult_le_compat_l; lra). lra. }
        induction k as [|k [I1 I2]].
        - split; [apply within_refl; cbn; lra|]. intros a La. cbn [pow]. unfold Rdiv. rewrite Rinv_1, Rmult_1_r. revert a La.
          assert (Q : forall a, (a < n)%nat -> Rabs (mv n (Kf us) (fun b => x 0%nat b - x 1%nat b) a) <= e).
          { intros a La. rewrite XK by exact La. rewrite Rabs_minus_sym. exact (Hg a La). }
          intros a La. rewrite Rabs_minus_sym. exact (HB _ _ Q a La).
        - assert (HZ : 0 <= c * e / 2 ^ k) by (apply Rmult_le_pos; [auto|left; apply Rinv_0_lt_compat; auto]).
          assert (J1 : within n (2 * (c * e) * (1 - / 2 ^ S k)) (x (S k)) us).
          { eapply within_le; [|apply (ST k _ I1 HZ I2)]. right. cbn [pow]. pose proof (B k). field. lra. }
          split; [exact J1|]. pose proof (within_le _ _ _ _ _ (BD k) I1) as W1. pose proof (within_le _ _ _ _ _ (BD (S k)) J1) as W2.
          assert (Q : forall a, (a < n)%nat -> Rabs (mv n (Kf us) (fun b => x (S k) b - x (S (S k)) b) a) <= L * (2 * r) * (c * e / 2 ^ k)).
          { intros a La. rewrite XK by exact La. pose proof (HF (x (S k)) (x k) (2 * r) (c * e / 2 ^ k) ltac:(lra) HZ W2 W1 I2 a La) as Q.
            replace (If (x (S k)) a - g a) with (If (x (S k)) a - If (x k) a - mv n (Kf us) (fun b => x (S k) b - x k b) a); [exact Q|].
            replace (mv n (Kf us) (fun b => x (S k) b - x k b) a) with (- (If (x k) a - g a)); [ring|].
            rewrite <- XK by exact La. unfold mv. replace (- sumn n (fun b => Kf us a b * (x k b - x (S k) b))) with ((-1) * sumn n (fun b => Kf us a b * (x k b - x (S k) b))) by ring.
            rewrite <- sumn_scal. apply sumn_ext. intros. ring. }
          intros a La. rewrite Rabs_minus_sym. eapply Rle_trans; [exact (HB _ _ Q a La)|].
          replace (c * (L * (2 * r) * (c * e / 2 ^ k))) with (c * (L * (2 * r)) * (c * e / 2 ^ k)) by ring.
          eapply Rle_trans; [apply Rmult_le_compat_r; [exact HZ|exact P1]|]. cbn [pow]. pose proof (B k).
          replace (c * e / (2 * 2 ^ k)) with (/ 2 * (c * e / 2 ^ k)) by (field; lra). apply Rmult_le_compat_r; [exact HZ|lra]. }
      set (v := fun a => real (Lim_seq (fun k => x k a))).
      assert (LV : forall k, within n (2 * (c * e) / 2 ^ k) (x k) v).
      { intros k a La. apply (geometric_limit (fun k => x k a) (c * e) CE). intro j. apply (proj2 (IT j)). exact La. }
      assert (V0 : within n (2 * c * e) v us).
      { apply within_sym. intros a La. pose proof (LV 0%nat a La) as Q. cbn [pow] in Q. unfold x in Q; cbn [nat_rect] in Q. lra. }
      exists v. split; [exact V0|]. intros a La.
      assert (VR : within n (2 * r) v us) by (eapply within_le; [|exact V0]; lra).
      set (SK := sumn n (fun b => Rabs (Kf us a b))).
      assert (HSK : 0 <= SK) by (apply sumn_nonneg; intros; apply Rabs_pos).
      assert (MVB : forall w f, 0 <= f -> (forall b, (b < n)%nat -> Rabs (w b) <= f) -> Rabs (mv n (Kf us) w a) <= SK * f).
      { intros w f Hf Hw. unfold mv, SK. rewrite Rmult_comm, <- sumn_scal. apply sumn_abs. intros b Lb. rewrite Rabs_mult, Rmult_comm.
        apply Rmult_le_compat_r; [apply Rabs_pos|auto]. }
      assert (Z : If v a - g a = 0); [|lra].
      apply (small_zero _ (L * (2 * r) * (2 * (c * e)) + SK * (2 * (c * e)) + SK * (c * e))). intro k.
      assert (HZ : 0 <= c * e / 2 ^ k) by (apply Rmult_le_pos; [auto|left; apply Rinv_0_lt_compat; auto]).
      assert (HZ2 : 0 <= 2 * (c * e) / 2 ^ k) by (replace (2 * (c * e) / 2 ^ k) with (2 * (c * e / 2 ^ k)) by (unfold Rdiv; ring); lra).
      assert (WX : within n (2 * r) (x k) us).
      { eapply within_le; [|apply (proj1 (IT k))]. pose proof (Rinv_0_lt_compat _ (B k)). assert (2 * (c * e) * (1 - / 2 ^ k) <= 2 * (c * e) * 1) by (apply Rmult_le_compat_l; lra). lra. }
      pose proof (HF v (x k) (2 * r) (2 * (c * e) / 2 ^ k) ltac:(lra) HZ2 VR WX (within_sym _ _ _ _ (LV k)) a La) as Q1.
      pose proof (MVB (fun b => v b - x k b) _ HZ2 (fun b Lb => within_sym _ _ _ _ (LV k) b Lb)) as Q2.
      pose proof (MVB (fun b => x k b - x (S k) b) _ HZ (fun b Lb => within_sym _ _ _ _ (proj2 (IT k)) b Lb)) as Q3. rewrite XK in Q3 by exact La.
      replace (If v a - g a) with ((If v a - If (x k) a - mv n (Kf us) (fun b => v b - x k b) a) + mv n (Kf us) (fun b => v b - x k b) a + (If (x k) a - g a)) by ring.
      eapply Rle_trans; [apply Rabs_triang|]. eapply Rle_trans; [apply Rplus_le_compat_r, Rabs_triang|].
      replace ((L * (2 * r) * (2 * (c * e)) + SK * (2 * (c * e)) + SK * (c * e)) / 2 ^ k)
        with (L * (2 * r) * (2 * (c * e) / 2 ^ k) + SK * (2 * (c * e) / 2 ^ k) + SK * (c * e / 2 ^ k)) by (unfold Rdiv; ring).
      lra.
    - intros u Hu w HW a La. assert (Q : Rabs (w a) <= 2 * c * 0). { apply (KB u w 0); auto; [lra|]. intros b Lb. rewrite HW, Rabs_R0 by exact Lb. lra. }
      rewrite Rmult_0_r in Q. pose proof (Rabs_pos (w a)). destruct (Req_dec (w a) 0) as [|N0]; [auto|]. pose proof (Rabs_pos_lt _ N0). lra.
    - intros u v w f Hf Hu Hv Huv HW.
      assert (Q : forall a, (a < n)%nat -> Rabs (mv n (Kf u) (fun b => w b - v b) a) <= L * (2 * r) * f + N * (L * (2 * r) * f)).
      { intros a La. pose proof (HF v u (2 * r) f ltac:(lra) Hf Hv Hu (within_sym _ _ _ _ Huv) a La) as Q.
        replace (mv n (Kf u) (fun b => w b - v b) a) with
          ((If v a - If u a - mv n (Kf us) (fun b => v b - u b) a) - mv n (fun a b => Kf u a b - Kf us a b) (fun b => v b - u b) a).
        2:{ rewrite <- HW by exact La. unfold mv. rewrite <- !sumn_minus. apply sumn_ext. intros. ring. }
        eapply Rle_trans; [apply Rabs_triang|]. rewrite Rabs_Ropp. apply Rplus_le_compat; [exact Q|].
        unfold mv. eapply Rle_trans; [apply (sumn_abs n _ (fun _ => L * (2 * r) * f))|rewrite sumn_const; unfold N; right; ring].
        intros b Lb. rewrite Rabs_mult. apply Rmult_le_compat; [apply Rabs_pos|apply Rabs_pos|apply (HK u (2 * r)); auto; lra|].
        rewrite Rabs_minus_sym. apply Huv; exact Lb. }
      assert (P3 : 0 <= L * (2 * r) * f) by (apply Rmult_le_pos; auto).
      intros a La. eapply Rle_trans; [apply (KB u (fun b => w b - v b) (L * (2 * r) * f + N * (L * (2 * r) * f))); auto|].
      + assert (0 <= N * (L * (2 * r) * f)) by (apply Rmult_le_pos; auto). lra.
      + replace (2 * c * (L * (2 * r) * f + N * (L * (2 * r) * f))) with (2 * (c * (L * (2 * r)) + c * (N * (L * (2 * r)))) * f) by ring.
        apply Rle_trans with (2 * / 4 * f); [apply Rmult_le_compat_r; lra|lra].
  Qed.
End Implicit.

(** P(F) - P(G) - A(F0) : (F - G) is small compared with F - G. *)
Lemma two_points M F0 : smooth_at M F0 -> exists (P : T2 -> T2) (A : T2 -> T4) d K, 0 < d /\ 0 <= K /\
  forall F e, 0 <= e <= d -> near e F F0 ->
    (pm_stress M F (P F) /\ forall p, pm_stress M F p -> p = P F) /\ (pm_tangent M F (A F) /\ forall a, pm_tangent M F a -> a = A F) /\
    (forall i j k l, Rabs (A F i j k l - A F0 i j k l) <= K * e) /\
    (forall G, near e G F0 -> forall i j, Rabs (P F i j - P G i j - dc42 (A F0) (fun k l => F k l - G k l) i j) <= K * e * mag (fun k l => F k l - G k l)).
Proof.
  intros (P & A & d & K & Hd & HK & H1 & H2 & H3). exists P, A, d, K. split; [exact Hd|]. split; [lra|].
  intros F e He HF. assert (HFd : near d F F0) by (intros i j; specialize (HF i j); lra).
  destruct (H1 F HFd) as [Q1 Q2]. split; [exact Q1|]. split; [exact Q2|]. split.
  { intros. apply (H2 F e He HF). }
  intros G HG i j. set (H := fun k l => F k l - G k l).
  assert (N : forall t, 0 <= t <= 1 -> near e (along G H t) F0).
  { intros t Ht k l. unfold along, H. replace (G k l + t * (F k l - G k l) - F0 k l) with (t * (F k l - F0 k l) + (1 - t) * (G k l - F0 k l)) by ring.
    eapply Rle_trans; [apply Rabs_triang|]. rewrite !Rabs_mult, (Rabs_pos_eq t), (Rabs_pos_eq (1 - t)) by lra. specialize (HF k l). specialize (HG k l).
    assert (t * Rabs (F k l - F0 k l) <= t * e) by (apply Rmult_le_compat_l; lra).
    assert ((1 - t) * Rabs (G k l - F0 k l) <= (1 - t) * e) by (apply Rmult_le_compat_l; lra). lra. }
  assert (Nd : forall t, 0 <= t <= 1 -> near d (along G H t) F0) by (intros t Ht k l; specialize (N t Ht k l); lra).
  destruct (MVT_gen (fun t => P (along G H t) i j) 0 1 (fun t => dc42 (A (along G H t)) H i j)) as (t & Ht & E).
  { intros t Ht. rewrite Rmin_left, Rmax_right in Ht by lra. apply (H3 G H t (Nd t ltac:(lra)) i j). }
  { intros t Ht. rewrite Rmin_left, Rmax_right in Ht by lra. apply derivable_continuous_pt. exists (dc42 (A (along G H t)) H i j).
    apply is_derive_Reals. apply (H3 G H t (Nd t ltac:(lra)) i j). }
  rewrite Rmin_left, Rmax_right in Ht by lra. cbv beta in E.
  replace (along G H 1) with F in E by (unfold along, H; apply T2_ext; intros p q; ring).
  replace (along G H 0) with G in E by (unfold along, H; apply T2_ext; intros p q; ring).
  rewrite E, Rminus_0_r, Rmult_1_r. set (Ft := along G H t) in *.
  replace (dc42 (A Ft) H i j - dc42 (A F0) H i j) with (dc42 (fun i j k l => A Ft i j k l - A F0 i j k l) H i j) by (unfold dc42, sum3; ring).
  apply dc42_le. intros p q k l. apply (H2 Ft e He (N t Ht)).
Qed.
Section Assembly2.
  Variables (n : nat) (us : nat -> R).
  Notation stresses body u := (List.Forall2 (fun q p => pm_stress (q_material q) (deformed n u q) p) body).
  Notation tangents body u := (List.Forall2 (fun q p => pm_tangent (q_material q) (deformed n u q) p) body).
  Lemma deformed_diff2 q u v i j : deformed n u q i j - deformed n v q i j = sumn n (fun a => (u a - v a) * q_shape q a i j).
  Proof. unfold deformed. rewrite (sumn_ext n (fun a => (u a - v a) * q_shape q a i j) (fun a => u a * q_shape q a i j - v a * q_shape q a i j)) by (intros; ring). rewrite sumn_minus. ring. Qed.
  Lemma assembled2 body : List.Forall (fun q => smooth_at (q_material q) (deformed n us q)) body ->
    exists (If : (nat -> R) -> nat -> R) (Kf : (nat -> R) -> nat -> nat -> R) d L, 0 < d /\ 0 <= L /\
    forall u e, 0 <= e <= d -> within n e u us ->
      (exists P, stresses body u P) /\ (forall P, stresses body u P -> forall a, (a < n)%nat -> internal body P a = If u a) /\
      (exists A, tangents body u A) /\ (forall A, tangents body u A -> forall a b, (a < n)%nat -> (b < n)%nat -> matrix body A a b = Kf u a b) /\
      (forall a b, (a < n)%nat -> (b < n)%nat -> Rabs (Kf u a b - Kf us a b) <= L * e) /\
      (forall v f, 0 <= f -> within n e v us -> within n f u v -> forall a, (a < n)%nat -> Rabs (If u a - If v a - mv n (Kf us) (fun b => u b - v b) a) <= L * e * f).
  Proof.
    induction 1 as [|q body Hq _ (If & Kf & d1 & L1 & Hd1 & HL1 & IH)].
    - exists (fun _ _ => 0), (fun _ _ _ => 0), 1, 0. split; [lra|]. split; [lra|]. intros u e He Hu.
      split; [exists []; constructor|]. split; [intros P H a L; inversion H; reflexivity|].
      split; [exists []; constructor|]. split; [intros P H a b L L'; inversion H; reflexivity|]. split; intros.
      + rewrite Rminus_0_r, Rabs_R0. lra.
      + unfold mv. rewrite sumn_0 by (intros; ring). replace (0 - 0 - 0) with 0 by ring. rewrite Rabs_R0. lra.
    - destruct (two_points _ _ Hq) as (P & A & d2 & K & Hd2 & HK & HS).
      set (b := sumn n (fun a => mag (q_shape q a))).
      assert (Hb : 0 <= b) by (apply sumn_nonneg; intros; apply mag_pos).
      assert (Hba : forall a, (a < n)%nat -> mag (q_shape q a) <= b).
      { intros a La. apply (sumn_term n (fun a => mag (q_shape q a)) a); [intros; apply mag_pos|exact La]. }
      set (w := q_weight q). set (Lq := Rabs w * (K * (9 * b ^ 3))).
      assert (HLq : 0 <= Lq) by (apply Rmult_le_pos; [apply Rabs_pos|apply Rmult_le_pos; [auto|apply Rmult_le_pos; [lra|apply pow_le; auto]]]).
      exists (fun u a => w * dc22 (P (deformed n u q)) (q_shape q a) + If u a),
             (fun u a c => w * dc22 (q_shape q a) (dc42 (A (deformed n u q)) (q_shape q c)) + Kf u a c), (Rmin d1 (d2 / (b + 1))), (Lq + L1).
      assert (Hd3 : 0 < d2 / (b + 1)) by (apply Rdiv_lt_0_compat; lra).
      split; [apply Rmin_pos; auto|]. split; [lra|]. intros u e He Hu.
      pose proof (Rmin_l d1 (d2 / (b + 1))). pose proof (Rmin_r d1 (d2 / (b + 1))).
      assert (NB : forall x y f, 0 <= f -> within n f x y -> near (b * f) (deformed n x q) (deformed n y q)).
      { intros x y f Hf Hx i j. rewrite deformed_diff2. eapply Rle_trans; [apply (sumn_abs n _ (fun a => f * mag (q_shape q a)))|rewrite sumn_scal; fold b; right; ring].
        intros a La. rewrite Rabs_mult. apply Rmult_le_compat; [apply Rabs_pos|apply Rabs_pos|apply Hx; exact La|apply mag_entry]. }
      assert (BE : 0 <= b * e <= d2).
      { split; [apply Rmult_le_pos; lra|]. assert (e * (b + 1) <= d2 / (b + 1) * (b + 1)) by (apply Rmult_le_compat_r; lra).
        replace (d2 / (b + 1) * (b + 1)) with d2 in * by (field; lra). lra. }
      destruct (HS _ _ BE (NB u us e ltac:(lra) Hu)) as ((S1 & S2) & (T1 & T2) & HA & HP).
      destruct (IH u e ltac:(lra) Hu) as ((Ps & I1) & I2 & (As & I3) & I4 & I5 & I6).
      split; [exists (P (deformed n u q) :: Ps); constructor; auto|].
      split. { intros Q HQ a La. inversion HQ as [|q' p' b' Q' E1 E2]; subst. unfold internal. cbn [combine map fold_right fst snd]. rewrite (S2 _ E1). f_equal. apply I2; auto. }
      split; [exists (A (deformed n u q) :: As); constructor; auto|].
      split. { intros Q HQ a c La Lc. inversion HQ as [|q' p' b' Q' E1 E2]; subst. unfold matrix. cbn [combine map fold_right fst snd]. rewrite (T2 _ E1). f_equal. apply I4; auto. }
      assert (B3 : b * b * b <= 9 * b ^ 3).
      { replace (b * b * b) with (b ^ 3) by ring. assert (0 <= b ^ 3) by (apply pow_le; exact Hb). lra. }
      assert (KE : 0 <= K * e) by (apply Rmult_le_pos; lra).
      split.
      + intros a c La Lc. set (D := fun i j k l => A (deformed n u q) i j k l - A (deformed n us q) i j k l).
        replace (w * dc22 (q_shape q a) (dc42 (A (deformed n u q)) (q_shape q c)) + Kf u a c - (w * dc22 (q_shape q a) (dc42 (A (deformed n us q)) (q_shape q c)) + Kf us a c))
          with (w * dc22 (dc42 D (q_shape q c)) (q_shape q a) + (Kf u a c - Kf us a c)) by (unfold D, dc22, dc42, sum3; ring).
        eapply Rle_trans; [apply Rabs_triang|]. rewrite Rmult_plus_distr_r. apply Rplus_le_compat; [|apply I5; auto].
        rewrite Rabs_mult. unfold Lq. rewrite Rmult_assoc. apply Rmult_le_compat_l; [apply Rabs_pos|].
        assert (0 <= K * (b * e)) by (apply Rmult_le_pos; lra).
        eapply Rle_trans; [apply (dc22_le _ _ (K * (b * e) * mag (q_shape q c)))|].
        { intros i j. apply dc42_le. exact HA. }
        pose proof (mag_pos (q_shape q c)). pose proof (mag_pos (q_shape q a)). pose proof (Hba a La). pose proof (Hba c Lc).
        apply Rle_trans with (K * (b * e) * b * b).
        * apply Rmult_le_compat; [apply Rmult_le_pos; lra|lra|apply Rmult_le_compat_l; lra|lra].
        * replace (K * (b * e) * b * b) with (K * e * (b * b * b)) by ring. replace (K * (9 * b ^ 3) * e) with (K * e * (9 * b ^ 3)) by ring.
          apply Rmult_le_compat_l; auto.
      + intros v f Hf Hv Huv a La. set (Hd := fun i j => deformed n u q i j - deformed n v q i j).
        set (E := fun i j => P (deformed n u q) i j - P (deformed n v q) i j - dc42 (A (deformed n us q)) Hd i j).
        assert (MV : mv n (fun a c => w * dc22 (q_shape q a) (dc42 (A (deformed n us q)) (q_shape q c)) + Kf us a c) (fun b => u b - v b) a
          = w * dc22 (q_shape q a) (dc42 (A (deformed n us q)) Hd) + mv n (Kf us) (fun b => u b - v b) a).
        { unfold mv. rewrite (sumn_ext n _ (fun c => w * (dc22 (q_shape q a) (dc42 (A (deformed n us q)) (q_shape q c)) * (u c - v c)) + Kf us a c * (u c - v c))) by (intros; ring).
          rewrite sumn_plus, sumn_scal. f_equal. f_equal. rewrite <- dc22_sumn. f_equal. apply T2_ext. intros i j. rewrite <- dc42_sumn.
          f_equal. apply T2_ext. intros k l. unfold Hd. symmetry. apply deformed_diff2. }
        rewrite MV.
        match goal with |- Rabs ?x <= _ => replace x with (w * dc22 E (q_shape q a) + (If u a - If v a - mv n (Kf us) (fun b => u b - v b) a)) by (unfold E, dc22, sum3; ring) end.
        eapply Rle_trans; [apply Rabs_triang|]. rewrite !Rmult_plus_distr_r. apply Rplus_le_compat; [|apply I6; auto].
        rewrite Rabs_mult. unfold Lq. rewrite !Rmult_assoc. apply Rmult_le_compat_l; [apply Rabs_pos|].
        assert (MH : mag Hd <= 9 * (b * f)).
        { pose proof (NB u v f Hf Huv) as Q. unfold mag, sum3. pose proof (Q X0 X0). pose proof (Q X0 X1). pose proof (Q X0 X2). pose proof (Q X1 X0). pose proof (Q X1 X1). pose proof (Q X1 X2).
          pose proof (Q X2 X0). pose proof (Q X2 X1). pose proof (Q X2 X2). unfold Hd. lra. }
        eapply Rle_trans; [apply (dc22_le _ _ (K * (b * e) * mag Hd)); exact (HP _ (NB v us e ltac:(lra) Hv))|].
        pose proof (mag_pos (q_shape q a)). pose proof (Hba a La). pose proof (mag_pos Hd).
        assert (0 <= K * (b * e)) by (apply Rmult_le_pos; lra).
        apply Rle_trans with (K * (b * e) * (9 * (b * f)) * b); [|right; ring].
        apply Rmult_le_compat; [apply Rmult_le_pos; lra|lra|apply Rmult_le_compat_l; lra|lra].
  Qed.
End Assembly2.

Theorem load_main n body load us : List.Forall (fun q => smooth_at (q_material q) (deformed n us q)) body ->
  equilibrium n body load us -> regular_stiffness n body us -> follows_the_load n body load us.
Proof.
  intros HS (r0 & HR0 & Z0) (K0 & HK0 & HI).
  destruct (assembled2 n us body HS) as (If & Kf & d & L & Hd & HL & HB).
  assert (Hus : forall e, 0 <= e -> within n e us us) by (intros; apply within_refl; auto).
  assert (SR : forall u e, 0 <= e <= d -> within n e u us -> forall g, (exists r, residual n body g u r) /\ forall r, residual n body g u r -> forall a, (a < n)%nat -> r a = If u a - g a).
  { intros u e He Hu g. destruct (HB u e He Hu) as ((P & I1) & I2 & _). split.
    - exists (fun a => internal body P a - g a). exists P. split; [exact I1|]. reflexivity.
    - intros r (Q & F & E) a La. rewrite (E a La). f_equal. exact (I2 Q F a La). }
  assert (SK : forall u e, 0 <= e <= d -> within n e u us -> (exists K, stiffness n body u K) /\ forall K, stiffness n body u K -> forall a b, (a < n)%nat -> (b < n)%nat -> K a b = Kf u a b).
  { intros u e He Hu. destruct (HB u e He Hu) as (_ & _ & (A & I3) & I4 & _). split.
    - exists (matrix body A). exists A. split; [exact I3|]. reflexivity.
    - intros K (Q & F & E) a b La Lb. rewrite (E a b La Lb). exact (I4 Q F a b La Lb). }
  assert (E0 : forall a, (a < n)%nat -> If us a = load a).
  { intros a La. destruct (SR us 0 ltac:(lra) (Hus 0 ltac:(lra)) load) as [_ Q]. rewrite <- (Rplus_0_l (load a)), <- (Z0 a La), (Q r0 HR0 a La). ring. }
  assert (KE : forall K, stiffness n body us K -> forall a b, (a < n)%nat -> (b < n)%nat -> K a b = Kf us a b).
  { apply (SK us 0); [lra|apply Hus; lra]. }
  assert (IN : injective n (Kf us)).
  { intros w HW. apply HI. intros a La. rewrite <- (HW a La). apply sumn_ext. intros b Lb. rewrite (KE K0 HK0 a b La Lb). reflexivity. }
  assert (HF : forall u v e f, 0 <= e <= d -> 0 <= f -> within n e u us -> within n e v us -> within n f u v ->
    forall a, (a < n)%nat -> Rabs (If u a - If v a - mv n (Kf us) (fun b => u b - v b) a) <= L * e * f).
  { intros u v e f He Hf Hu Hv Huv. apply (HB u e He Hu); auto. }
  destruct (implicit_core n us If Kf L d HL Hd) as (r & d' & c & Hr & Hr2 & Hd' & Hc & Hcd & HX & HU & HJ & HN).
  { intros u e He Hu. apply (HB u e He Hu). }
  { exact HF. }
  { exact IN. }
  set (M := 2 * c + L * (2 * c) * (2 * c)).
  assert (HM : 0 <= L * (2 * c) * (2 * c)) by (repeat apply Rmult_le_pos; lra).
  assert (EQ : forall g v, within n (2 * r) v us -> (equilibrium n body g v <-> forall a, (a < n)%nat -> If v a = g a)).
  { intros g v Hv. destruct (SR v (2 * r) ltac:(lra) Hv g) as [(rr & X1) Y1]. split.
    - intros (rv & X & Z) a La. pose proof (Y1 rv X a La) as Q. rewrite (Z a La) in Q. lra.
    - intros Q. exists rr. split; [exact X1|]. intros a La. rewrite (Y1 rr X1 a La), (Q a La). ring. }
  exists r, d', M. split; [exact Hr|]. split; [exact Hd'|]. split; [unfold M; lra|].
  assert (UQ : forall l1 l2 v1 v2 e, 0 <= e -> equilibrium n body l1 v1 -> equilibrium n body l2 v2 -> within n (2 * r) v1 us -> within n (2 * r) v2 us ->
       within n e l1 l2 -> within n (2 * c * e) v1 v2).
  { intros l1 l2 v1 v2 e He E1 E2 H1 H2 HE. apply HU; auto. intros a La. rewrite (proj1 (EQ l1 v1 H1) E1 a La), (proj1 (EQ l2 v2 H2) E2 a La). exact (HE a La). }
  split; [|split].
  - intros g e He Hg. destruct (HX g e He) as (v & V1 & V2).
    { intros a La. rewrite (E0 a La). exact (Hg a La). }
    assert (CE : 0 <= 2 * c * e) by (repeat apply Rmult_le_pos; lra).
    assert (CE2 : 2 * c * e <= r / 2). { assert (c * e <= c * d') by (apply Rmult_le_compat_l; lra). lra. }
    assert (W : within n r v us) by (eapply within_le; [|exact V1]; lra).
    assert (W2 : within n (2 * r) v us) by (eapply within_le; [|exact V1]; lra).
    exists v. split; [apply (EQ g v W2); exact V2|]. split.
    { destruct (SK v (2 * r) ltac:(lra) W2) as [(K & X2) Y2]. exists K. split; [exact X2|]. intros w HW. apply (HJ v W2).
      intros a La. rewrite <- (HW a La). apply sumn_ext. intros b Lb. rewrite (Y2 K X2 a b La Lb). reflexivity. }
    split; [exact W|]. split. { eapply within_le; [|exact V1]. unfold M. rewrite Rmult_plus_distr_r. assert (0 <= L * (2 * c) * (2 * c) * e) by (apply Rmult_le_pos; lra). lra. }
    intros K HK a La. pose proof (HF v us (2 * c * e) (2 * c * e) ltac:(lra) CE V1 (Hus _ CE) V1 a La) as Q.
    rewrite (V2 a La), (E0 a La) in Q. rewrite Rabs_minus_sym.
    replace (sumn n (fun b => K a b * (v b - us b))) with (mv n (Kf us) (fun b => v b - us b) a) by (unfold mv; apply sumn_ext; intros b Lb; rewrite (KE K HK a b La Lb); reflexivity).
    eapply Rle_trans; [exact Q|]. unfold M. replace (L * (2 * c * e) * (2 * c * e)) with (L * (2 * c) * (2 * c) * e ^ 2) by ring.
    apply Rmult_le_compat_r; [apply pow2_ge_0|lra].
  - intros l1 l2 v1 v2 e He E1 E2 H1 H2 HE. eapply within_le; [|apply (UQ l1 l2 v1 v2 e He E1 E2 (within_le n r (2 * r) v1 us ltac:(lra) H1) (within_le n r (2 * r) v2 us ltac:(lra) H2) HE)].
    unfold M. rewrite Rmult_plus_distr_r. assert (0 <= L * (2 * c) * (2 * c) * e) by (apply Rmult_le_pos; lra). lra.
  - intros g v Hg Ev Hv u m w U0 US.
    assert (B : forall j, 0 < 2 ^ j) by (intro; apply pow_lt; lra).
    assert (W2 : within n (2 * r) v us) by (eapply within_le; [|exact Hv]; lra).
    assert (V : within n (r / 2) v us).
    { eapply within_le; [exact Hcd|]. apply (UQ g load v us d'); [lra|exact Ev| |exact W2|apply Hus; lra|exact Hg].
      apply (EQ load us); [apply Hus; lra|exact E0]. }
    assert (STEP : forall k w, newton_run n body g k u w -> within n (3 / 2 * r / 2 ^ k) w v /\ within n (2 * r) w us).
    { induction k as [|k IH]; intros y; cbn [newton_run].
      - intros ->. split; [|eapply within_le; [|exact U0]; lra]. replace (3 / 2 * r / 2 ^ 0) with (r + r / 2) by (cbn; field).
        eapply within_triang; [exact U0|apply within_sym; exact V].
      - intros (x & Hx & (rr & K & X1 & X2 & X3)). destruct (IH x Hx) as [I1 I2].
        assert (HZ : 0 <= 3 / 2 * r / 2 ^ k) by (apply Rmult_le_pos; [lra|left; apply Rinv_0_lt_compat; auto]).
        assert (J : within n (3 / 2 * r / 2 ^ S k) y v).
        { replace (3 / 2 * r / 2 ^ S k) with (3 / 2 * r / 2 ^ k / 2) by (cbn [pow]; field; apply Rgt_not_eq, B).
          apply (HN x v y _ HZ I2 W2 I1). intros a La.
          destruct (SR x (2 * r) ltac:(lra) I2 g) as [_ Y1]. destruct (SK x (2 * r) ltac:(lra) I2) as [_ Y2].
          rewrite (proj1 (EQ g v W2) Ev a La). replace (g a - If x a) with (- (If x a - g a)) by ring.
          rewrite <- (Y1 rr X1 a La), <- (X3 a La). apply sumn_ext. intros b Lb. rewrite (Y2 K X2 a b La Lb). reflexivity. }
        split; [exact J|]. eapply within_le; [|eapply within_triang; [exact J|exact V]].
        assert (1 <= 2 ^ k) by (apply pow_R1_Rle; lra).
        assert (3 / 2 * r / 2 ^ S k <= 3 / 2 * r / 2).
        { unfold Rdiv. apply Rmult_le_compat_l; [lra|]. apply Rinv_le_contravar; [lra|cbn [pow]; lra]. }
        lra. }
    destruct (STEP m w US) as [S1 S2]. split.
    + destruct (SR w (2 * r) ltac:(lra) S2 g) as [(rr & X1) Y1]. destruct (SK w (2 * r) ltac:(lra) S2) as [(K & X2) Y2].
      destruct (solvable n (Kf w) (HJ w S2) (fun a => - rr a)) as [x Hx].
      exists (fun b => x b + w b). exists rr, K. split; [exact X1|]. split; [exact X2|]. intros a La. rewrite <- (Hx a La). unfold mv.
      apply sumn_ext. intros b Lb. rewrite (Y2 K X2 a b La Lb). ring.
    + eapply within_le; [|exact S1]. unfold Rdiv. apply Rmult_le_compat_r; [left; apply Rinv_0_lt_compat; auto|lra].
Qed.

(** *** A whole path. *)
Section Path.
  Variables (n : nat) (body : list QPoint) (g v : R -> nat -> R).
  Hypothesis HS : forall t, 0 <= t <= 1 -> List.Forall (fun q => smooth_at (q_material q) (deformed n (v t) q)) body.
  Hypothesis HP : equilibrium_path n body g v.
  (** One delta serves around t. *)
  Definition serves (t delta : R) : Prop := 0 < delta <= 1 /\ forall s s', 0 <= s <= 1 -> 0 <= s' <= 1 -> Rabs (s - t) < 2 * delta -> Rabs (s' - t) < 2 * delta ->
    forall u m w, within n delta u (v s') -> newton_run n body (g s) m u w -> (exists w', newton_step n body (g s) w w') /\ within n (/ delta / 2 ^ m) w (v s).
  Lemma serves_less t d d' : serves t d -> 0 < d' <= d -> serves t d'.
  Proof.
    intros [H1 H2] H. split; [lra|]. intros s s' Hs Hs' D1 D2 u m w U W. destruct (H2 s s' Hs Hs' ltac:(lra) ltac:(lra) u m w) as [Q1 Q2]; [eapply within_le; [|exact U]; lra|exact W|].
    split; [exact Q1|]. eapply within_le; [|exact Q2]. unfold Rdiv. apply Rmult_le_compat_r; [left; apply Rinv_0_lt_compat, pow_lt; lra|].
    apply Rinv_le_contravar; lra.
  Qed.
  (** finitely many continuous components *)
  Lemma close (f : R -> nat -> R) t e : 0 < e -> (forall a, (a < n)%nat -> continuity_pt (fun s => f s a) t) ->
    exists d, 0 < d /\ forall s, Rabs (s - t) < d -> within n e (f s) (f t).
  Proof.
    intros He. generalize n as p. induction p as [|p IH]; intro HC.
    - exists 1. split; [lra|]. intros s _ a La. lia.
    - destruct IH as (d1 & D1 & H1); [intros; apply HC; lia|].
      destruct (HC p ltac:(lia) e He) as (d2 & D2 & H2).
      exists (Rmin d1 d2). split; [apply Rmin_pos; auto|]. intros s Hs a La.
      pose proof (Rmin_l d1 d2). pose proof (Rmin_r d1 d2).
      destruct (Nat.eq_dec a p) as [->|]; [|apply H1; [lra|lia]].
      destruct (Req_dec s t) as [->|N]; [rewrite Rminus_eq_0, Rabs_R0; lra|].
      left. apply (H2 s). split; [split; [exact Logic.I|auto]|]. unfold dist; cbn. unfold R_dist. lra.
  Qed.
  Lemma serves_somewhere t : 0 <= t <= 1 -> exists delta, serves t delta.
  Proof.
    intro Ht. destruct (HP t Ht) as (E & RS & C).
    destruct (load_main n body (g t) (v t) (HS t Ht) E RS) as (r & d & M & Hr & Hd & HM & _ & _ & HN).
    destruct (close g t d Hd) as (d1 & D1 & H1); [intros; apply C; auto|].
    destruct (close v t (r / 2) ltac:(lra)) as (d2 & D2 & H2); [intros; apply C; auto|].
    set (de := Rmin (Rmin (d1 / 2) (d2 / 2)) (Rmin (Rmin 1 (r / 2)) (/ (2 * r)))).
    assert (Hi : 0 < / (2 * r)) by (apply Rinv_0_lt_compat; lra).
    assert (L1 : 0 < de) by (unfold de; repeat apply Rmin_pos; lra).
    pose proof (Rmin_l (Rmin (d1 / 2) (d2 / 2)) (Rmin (Rmin 1 (r / 2)) (/ (2 * r)))) as Z1.
    pose proof (Rmin_r (Rmin (d1 / 2) (d2 / 2)) (Rmin (Rmin 1 (r / 2)) (/ (2 * r)))) as Z2. fold de in Z1, Z2.
    pose proof (Rmin_l (d1 / 2) (d2 / 2)). pose proof (Rmin_r (d1 / 2) (d2 / 2)).
    pose proof (Rmin_l (Rmin 1 (r / 2)) (/ (2 * r))). pose proof (Rmin_r (Rmin 1 (r / 2)) (/ (2 * r))).
    pose proof (Rmin_l 1 (r / 2)). pose proof (Rmin_r 1 (r / 2)).
    exists de. split; [lra|]. intros s s' Hs Hs' A1 A2 u m w U W.
    assert (Wv : within n r (v s) (v t)) by (eapply within_le; [|apply H2; lra]; lra).
    destruct (HN (g s) (v s) (H1 s ltac:(lra)) (proj1 (HP s Hs)) Wv u m w) as [Q1 Q2]; [|exact W|].
    - eapply within_le; [|eapply within_triang; [exact U|apply (H2 s'); lra]]. lra.
    - split; [exact Q1|]. eapply within_le; [|exact Q2]. unfold Rdiv. apply Rmult_le_compat_r; [left; apply Rinv_0_lt_compat, pow_lt; lra|].
      rewrite <- (Rinv_inv (2 * r)). apply Rinv_le_contravar; lra.
  Qed.
  (** Half the least upper bound. *)
  Lemma half_sup t : 0 <= t <= 1 -> let z := real (Lub_Rbar (serves t)) / 2 in 0 < z /\ serves t z.
  Proof.
    intros Ht z. destruct (serves_somewhere t Ht) as (de & Hde).
    destruct (Lub_Rbar_correct (serves t)) as [UB LB].
    assert (B1 : Rbar_le (Lub_Rbar (serves t)) 1) by (apply LB; intros y [Hy _]; cbn; lra).
    pose proof (UB de Hde) as B2. destruct (Lub_Rbar (serves t)) as [l| |] eqn:El; cbn in B1, B2; try contradiction.
    assert (P : 0 < de) by (destruct Hde; lra). unfold z. cbn [real].
    split; [lra|]. 
    assert (EX : exists y, serves t y /\ l / 2 < y).
    { apply Classical_Prop.NNPP. intro N. assert (Q : Rbar_le l (l / 2)); [|cbn in Q; lra].
      apply LB. intros y Hy. cbn. destruct (Rle_dec y (l / 2)) as [|G]; [auto|exfalso; apply N; exists y; split; [exact Hy|lra]]. }
    destruct EX as (y & Hy & Ly). apply (serves_less t y); [exact Hy|lra].
  Qed.
  Lemma serves_everywhere : exists d0, 0 < d0 /\ forall s s', 0 <= s <= 1 -> 0 <= s' <= 1 -> Rabs (s' - s) < d0 ->
    forall u m w, within n d0 u (v s') -> newton_run n body (g s) m u w -> (exists w', newton_step n body (g s) w w') /\ within n (/ d0 / 2 ^ m) w (v s).
  Proof.
    set (z := fun t => Rmax (/ 2 * (real (Lub_Rbar (serves t)))) 0 + (if Rle_dec 0 t then if Rle_dec t 1 then 0 else 1 else 1)).
    assert (ZE : forall t, 0 <= t <= 1 -> z t = real (Lub_Rbar (serves t)) / 2).
    { intros t Ht. unfold z. destruct (Rle_dec 0 t); [|lra]. destruct (Rle_dec t 1); [|lra]. rewrite Rmax_left; [lra|].
      destruct (half_sup t Ht). lra. }
    assert (ZP : forall t, 0 < z t).
    { intro t. destruct (Rle_dec 0 t) as [a|a]; [destruct (Rle_dec t 1) as [b|b]|].
      - rewrite ZE by lra. apply half_sup. lra.
      - unfold z. destruct (Rle_dec 0 t); [|lra]. destruct (Rle_dec t 1); [lra|]. pose proof (Rmax_r (/ 2 * (real (Lub_Rbar (serves t)))) 0). lra.
      - unfold z. destruct (Rle_dec 0 t); [lra|]. pose proof (Rmax_r (/ 2 * (real (Lub_Rbar (serves t)))) 0). lra. }
    destruct (compactness_value_1d 0 1 (fun t => mkposreal (z t) (ZP t))) as [[d0 D0] HC]. cbn in HC.
    exists d0. split; [exact D0|]. intros s s' Hs Hs' DS u m w U W.
    destruct (Classical_Prop.NNPP _ (HC s Hs)) as (t & Ht & T1 & T2). rewrite ZE in T1, T2 by exact Ht.
    destruct (half_sup t Ht) as [Z1 Z2]. set (zt := real (Lub_Rbar (serves t)) / 2) in *.
    destruct Z2 as [Z2 Z3].
    destruct (Z3 s s' Hs Hs') with (u := u) (m := m) (w := w) as [Q1 Q2].
    - lra.
    - replace (s' - t) with ((s' - s) + (s - t)) by ring. eapply Rle_lt_trans; [apply Rabs_triang|]. lra.
    - eapply within_le; [|exact U]. exact T2.
    - exact W.
    - split; [exact Q1|]. eapply within_le; [|exact Q2]. unfold Rdiv. apply Rmult_le_compat_r; [left; apply Rinv_0_lt_compat, pow_lt; lra|].
      apply Rinv_le_contravar; lra.
  Qed.
  Theorem path_main : load_stepping_works n body g v.
  Proof.
    destruct serves_everywhere as (d0 & D0 & HN).
    destruct (archimed_cor1 d0 D0) as (N0 & HN0 & PN0).
    exists d0, (S N0). split; [exact D0|]. intros eps Heps.
    assert (G : exists m0, forall m, (m0 <= m)%nat -> / d0 / 2 ^ m <= Rmin d0 eps).
    { assert (Hm : 0 < Rmin d0 eps) by (apply Rmin_pos; auto).
      destruct (pow_lt_1_zero (/ 2) ltac:(rewrite Rabs_pos_eq; lra) (Rmin d0 eps * d0)) as [m0 H0]; [apply Rmult_lt_0_compat; auto|].
      exists m0. intros m Lm. specialize (H0 m Lm). rewrite Rabs_pos_eq in H0 by (apply pow_le; lra). rewrite pow_inv in H0 by lra.
      pose proof (Rinv_0_lt_compat _ D0). apply Rmult_lt_compat_l with (r := / d0) in H0; [|auto]. left. eapply Rlt_le_trans; [exact H0|]. right. field. lra. }
    destruct G as [m0 HG]. exists m0. intros N m LN Lm u U.
    assert (PN : 0 < INR N) by (apply lt_0_INR; lia).
    assert (IN : / INR N < d0).
    { eapply Rle_lt_trans; [|exact HN0]. apply Rinv_le_contravar; [apply lt_0_INR; lia|apply le_INR; lia]. }
    assert (FR : forall k, (k <= N)%nat -> 0 <= INR k / INR N <= 1).
    { intros k Lk. split; [apply Rmult_le_pos; [apply pos_INR|left; apply Rinv_0_lt_compat; auto]|].
      apply Rmult_le_reg_r with (INR N); [auto|]. unfold Rdiv. rewrite Rmult_assoc, Rinv_l, Rmult_1_l, Rmult_1_r by lra. apply le_INR; exact Lk. }
    assert (ST : forall k, (S k <= N)%nat -> Rabs (INR k / INR N - INR (S k) / INR N) < d0).
    { intros k Lk. replace (INR k / INR N - INR (S k) / INR N) with (- / INR N) by (rewrite S_INR; field; lra).
      rewrite Rabs_Ropp, Rabs_pos_eq; [exact IN|left; apply Rinv_0_lt_compat; auto]. }
    induction k as [|k IH]; intro Lk.
    - split; [exists u; reflexivity|]. intros w _ L0. lia.
    - destruct (IH ltac:(lia)) as [(x & Hx) I2].
      assert (CL : forall x, load_steps n body g N m k u x -> within n d0 x (v (INR k / INR N))).
      { intros y Hy. destruct k as [|k']; [cbn [load_steps] in Hy; subst y; cbn [INR]; unfold Rdiv; rewrite Rmult_0_l; exact U|].
        destruct (IH ltac:(lia)) as [_ I3]. 
        (* the bound d0 needs its own induction *)
        destruct Hy as (y0 & Hy0 & Hy1).
        assert (CL' : forall j y, (j <= N)%nat -> load_steps n body g N m j u y -> within n d0 y (v (INR j / INR N))).
        { clear - U HN HG Lm D0 FR ST. induction j as [|j IHj]; intros y Lj.
          - cbn [load_steps]. intros ->. cbn [INR]. unfold Rdiv. rewrite Rmult_0_l. exact U.
          - intros (x & Hx & Hr). destruct (HN (INR (S j) / INR N) (INR j / INR N) (FR _ Lj) (FR j ltac:(lia)) (ST j Lj) x m y (IHj x ltac:(lia) Hx) Hr) as [_ Q].
            eapply within_le; [|exact Q]. eapply Rle_trans; [apply HG; exact Lm|apply Rmin_l]. }
        apply (CL' (S k') y ltac:(lia)). exists y0; auto. }
      split.
      + pose proof (CL x Hx) as Q.
        assert (RUN : forall i, exists w, newton_run n body (g (INR (S k) / INR N)) i x w).
        { induction i as [|i (w & Hw)]; [exists x; reflexivity|].
          destruct (HN _ _ (FR _ Lk) (FR k ltac:(lia)) (ST k Lk) x i w Q Hw) as [(w' & Hw') _]. exists w'. exists w. auto. }
        destruct (RUN m) as (w & Hw). exists w. exists x. auto.
      + intros w (y & Hy & Hr) _.
        destruct (HN _ _ (FR _ Lk) (FR k ltac:(lia)) (ST k Lk) y m w (CL y Hy) Hr) as [_ Q].
        eapply within_le; [|exact Q]. eapply Rle_trans; [apply HG; exact Lm|apply Rmin_r].
  Qed.
End Path.
