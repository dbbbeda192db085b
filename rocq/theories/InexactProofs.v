(** * Proofs for C80. *)
From Coq Require Import Reals Lra Lia List Psatz Bool FunctionalExtensionality.
From Verif Require Import Tensor Py Voigt Algebra Models Frameworks Spaces Spec NewtonSpec NewtonLin NewtonProofs LoadProofs InexactSpec.
From Verif Require PotentialProofs.
Import ListNotations.
Local Open Scope R_scope.

Section Core.
  Variables (n : nat) (us : nat -> R) (Rf : (nat -> R) -> nat -> R) (Kf : (nat -> R) -> nat -> nat -> R) (L d : R).
  Hypothesis HL : 0 <= L.
  Hypothesis Hd : 0 < d.
  Hypothesis HK : forall u e, 0 <= e <= d -> within n e u us -> forall a b, (a < n)%nat -> (b < n)%nat -> Rabs (Kf u a b - Kf us a b) <= L * e.
  Hypothesis HR : forall u e, 0 <= e <= d -> within n e u us -> forall a, (a < n)%nat -> Rabs (Rf u a - mv n (Kf u) (fun b => u b - us b) a) <= L * e ^ 2.
  Hypothesis HI : injective n (Kf us).
  Lemma mv_small E w t k : 0 <= t -> (forall a b, (a < n)%nat -> (b < n)%nat -> Rabs (E a b) <= k) -> (forall a, (a < n)%nat -> Rabs (w a) <= t) ->
    forall a, (a < n)%nat -> Rabs (mv n E w a) <= INR n * k * t.
  Proof.
    intros Ht HE Hw a La. unfold mv. eapply Rle_trans; [apply (sumn_abs n _ (fun _ => k * t))|rewrite sumn_const; right; ring].
    intros b Lb. rewrite Rabs_mult. apply Rmult_le_compat; [apply Rabs_pos|apply Rabs_pos|apply HE; auto|apply Hw; auto].
  Qed.
  Lemma inexact_core : exists r kap c, 0 < r <= d /\ 0 < kap /\ 0 <= c /\ L * (2 * r) <= kap /\
    forall u e, 0 <= e <= r -> within n e u us -> forall Kt, (forall a b, (a < n)%nat -> (b < n)%nat -> Rabs (Kt a b - Kf u a b) <= kap) ->
      injective n Kt /\
      forall rt dl, 0 <= dl -> (forall a, (a < n)%nat -> Rabs (rt a - Rf u a) <= dl) ->
      forall v, (forall a, (a < n)%nat -> Rabs (mv n Kt (fun b => v b - u b) a + rt a) <= dl) -> within n (e / 2 + c * dl) v us.
  Proof.
    destruct (bounded_inverse n (Kf us) HI) as (c & Hc & HB).
    set (N := INR n). assert (HN : 0 <= N) by apply pos_INR.
    assert (CN : 0 <= c * N) by (apply Rmult_le_pos; auto).
    set (kap := / (16 * (c * N) + 1)). assert (Hk : 0 < kap) by (apply Rinv_0_lt_compat; lra).
    assert (Hk1 : c * N * kap <= / 16).
    { assert (kap * (16 * (c * N) + 1) = 1) by (unfold kap; apply Rinv_l; lra). lra. }
    assert (CL : 0 <= c * L) by (apply Rmult_le_pos; auto).
    set (r := Rmin d (Rmin (kap / (2 * L + 1)) (/ (16 * (c * L) + 1)))).
    assert (P1 : 0 < kap / (2 * L + 1)) by (apply Rdiv_lt_0_compat; lra).
    assert (P2 : 0 < / (16 * (c * L) + 1)) by (apply Rinv_0_lt_compat; lra).
    assert (Hr : 0 < r) by (unfold r; repeat apply Rmin_pos; auto).
    pose proof (Rmin_l d (Rmin (kap / (2 * L + 1)) (/ (16 * (c * L) + 1)))) as R1.
    pose proof (Rmin_r d (Rmin (kap / (2 * L + 1)) (/ (16 * (c * L) + 1)))) as R2. fold r in R1, R2.
    pose proof (Rmin_l (kap / (2 * L + 1)) (/ (16 * (c * L) + 1))) as R3. pose proof (Rmin_r (kap / (2 * L + 1)) (/ (16 * (c * L) + 1))) as R4.
    assert (LR : L * (2 * r) <= kap).
    { assert (Q : r * (2 * L + 1) <= kap / (2 * L + 1) * (2 * L + 1)) by (apply Rmult_le_compat_r; lra).
      replace (kap / (2 * L + 1) * (2 * L + 1)) with kap in Q by (field; lra). lra. }
    assert (CR : c * L * r <= / 16).
    { assert (Q : r * (16 * (c * L) + 1) <= / (16 * (c * L) + 1) * (16 * (c * L) + 1)) by (apply Rmult_le_compat_r; lra).
      rewrite Rinv_l in Q by lra. lra. }
    exists r, kap, (4 * c * 2). split; [lra|]. split; [exact Hk|]. split; [lra|]. split; [exact LR|].
    intros u e He Hu Kt HKt.
    assert (KD : forall a b, (a < n)%nat -> (b < n)%nat -> Rabs (Kt a b - Kf us a b) <= 2 * kap).
    { intros a b La Lb. replace (Kt a b - Kf us a b) with ((Kt a b - Kf u a b) + (Kf u a b - Kf us a b)) by ring.
      eapply Rle_trans; [apply Rabs_triang|]. pose proof (HKt a b La Lb). pose proof (HK u e ltac:(lra) Hu a b La Lb).
      assert (L * e <= L * (2 * r)) by (apply Rmult_le_compat_l; lra). lra. }
    assert (KB : forall w y, 0 <= y -> (forall a, (a < n)%nat -> Rabs (mv n Kt w a) <= y) -> forall a, (a < n)%nat -> Rabs (w a) <= 4 * c * y).
    { intros w y Hy HW. destruct (PotentialProofs.max_entry n w) as (t & T0 & T1 & T2).
      assert (B : forall a, (a < n)%nat -> Rabs (mv n (Kf us) w a) <= y + N * (2 * kap) * t).
      { intros a La. replace (mv n (Kf us) w a) with (mv n Kt w a - mv n (fun a b => Kt a b - Kf us a b) w a).
        2:{ unfold mv. rewrite <- sumn_minus. apply sumn_ext. intros. ring. }
        eapply Rle_trans; [apply Rabs_triang|]. rewrite Rabs_Ropp. apply Rplus_le_compat; [apply HW; exact La|].
        apply mv_small; auto. }
      assert (TB : t <= 4 * c * y).
      { assert (0 <= c * y) by (apply Rmult_le_pos; auto). destruct T2 as [->|(a & La & <-)]; [lra|]. pose proof (HB w _ B a La) as Q.
        assert (c * N * kap * Rabs (w a) <= / 16 * Rabs (w a)) by (apply Rmult_le_compat_r; [apply Rabs_pos|exact Hk1]). pose proof (Rabs_pos (w a)). lra. }
      intros a La. eapply Rle_trans; [apply (T1 a La)|exact TB]. }
    split.
    - intros w HW a La. assert (Q : Rabs (w a) <= 4 * c * 0). { apply (KB w 0); auto; [lra|]. intros b Lb. rewrite HW, Rabs_R0 by exact Lb. lra. }
      rewrite Rmult_0_r in Q. pose proof (Rabs_pos (w a)). destruct (Req_dec (w a) 0) as [|N0]; [auto|]. pose proof (Rabs_pos_lt _ N0). lra.
    - intros rt dl Hdl Hrt v Hv.
      assert (NKE : 0 <= N * kap * e) by (repeat apply Rmult_le_pos; lra).
      assert (LE2 : 0 <= L * e ^ 2) by (apply Rmult_le_pos; [auto|apply pow2_ge_0]).
      assert (Q : forall a, (a < n)%nat -> Rabs (mv n Kt (fun b => v b - us b) a) <= dl + dl + L * e ^ 2 + N * kap * e).
      { intros a La.
        replace (mv n Kt (fun b => v b - us b) a) with
          ((mv n Kt (fun b => v b - u b) a + rt a) - (rt a - Rf u a) - (Rf u a - mv n (Kf u) (fun b => u b - us b) a) + mv n (fun a b => Kt a b - Kf u a b) (fun b => u b - us b) a).
        2:{ replace (mv n Kt (fun b => v b - us b) a) with (mv n Kt (fun b => v b - u b) a + mv n Kt (fun b => u b - us b) a) by (unfold mv; rewrite <- sumn_plus; apply sumn_ext; intros; ring).
            replace (mv n (fun a b => Kt a b - Kf u a b) (fun b => u b - us b) a) with (mv n Kt (fun b => u b - us b) a - mv n (Kf u) (fun b => u b - us b) a) by (unfold mv; rewrite <- sumn_minus; apply sumn_ext; intros; ring).
            ring. }
        unfold Rminus at 1 2. eapply Rle_trans; [apply Rabs_triang|]. apply Rplus_le_compat; [|apply mv_small; [lra|exact HKt|exact Hu|exact La]].
        eapply Rle_trans; [apply Rabs_triang|]. rewrite Rabs_Ropp. apply Rplus_le_compat; [|apply (HR u e); [lra|auto|auto]].
        eapply Rle_trans; [apply Rabs_triang|]. rewrite Rabs_Ropp. apply Rplus_le_compat; [apply Hv; exact La|apply Hrt; exact La]. }
      intros a La. eapply Rle_trans; [apply (KB (fun b => v b - us b) (dl + dl + L * e ^ 2 + N * kap * e)); [lra|exact Q|exact La]|].
      assert (Z1 : c * L * e <= / 16) by (eapply Rle_trans; [apply Rmult_le_compat_l; [exact CL|apply He]|exact CR]).
      assert (Z2 : c * L * e * e <= / 16 * e) by (apply Rmult_le_compat_r; lra).
      assert (Z3 : c * N * kap * e <= / 16 * e) by (apply Rmult_le_compat_r; lra).
      replace (4 * c * (dl + dl + L * e ^ 2 + N * kap * e)) with (4 * c * 2 * dl + 4 * (c * L * e * e) + 4 * (c * N * kap * e)) by ring. lra.
  Qed.
End Core.

Section Body.
  Variables (n : nat) (body : list QPoint) (load us : nat -> R).
  Hypothesis HS : List.Forall (fun q => smooth_at (q_material q) (deformed n us q)) body.
  Hypothesis HE : equilibrium n body load us.
  Hypothesis HG : regular_stiffness n body us.
  (** Everything at once, in terms of one family of residuals and matrices. *)
  Lemma body_core : exists (Rf : (nat -> R) -> nat -> R) (Kf : (nat -> R) -> nat -> nat -> R) r kap c, 0 < r /\ 0 < kap /\ 0 <= c /\
    (forall u, within n r u us -> (exists x, residual n body load u x) /\ (forall x, residual n body load u x -> forall a, (a < n)%nat -> x a = Rf u a) /\
       (exists K, stiffness n body u K) /\ (forall K, stiffness n body u K -> forall a b, (a < n)%nat -> (b < n)%nat -> K a b = Kf u a b)) /\
    (forall u w, within n r u us -> within n r w us -> forall a b, (a < n)%nat -> (b < n)%nat -> Rabs (Kf u a b - Kf w a b) <= kap) /\
    forall u e, 0 <= e <= r -> within n e u us -> forall Kt, (forall a b, (a < n)%nat -> (b < n)%nat -> Rabs (Kt a b - Kf u a b) <= kap) ->
      injective n Kt /\
      forall rt dl, 0 <= dl -> (forall a, (a < n)%nat -> Rabs (rt a - Rf u a) <= dl) ->
      forall v, (forall a, (a < n)%nat -> Rabs (mv n Kt (fun b => v b - u b) a + rt a) <= dl) -> within n (e / 2 + c * dl) v us.
  Proof.
    destruct HE as (r0 & HR0 & Z0). destruct HG as (K0 & HK0 & HI0).
    destruct (assembled n us body HS) as (If & Kf & d & L & Hd & HL & HB).
    assert (Hus : forall e, 0 <= e -> within n e us us) by (intros; apply within_refl; auto).
    destruct (HB us 0 ltac:(lra) (Hus 0 ltac:(lra))) as (_ & B2 & _ & B4 & _).
    assert (E0 : forall a, (a < n)%nat -> If us a - load a = 0).
    { intros a La. destruct HR0 as (P & F & E). rewrite <- (B2 P F a La). rewrite <- (Z0 a La), (E a La). reflexivity. }
    assert (IN : injective n (Kf us)).
    { destruct HK0 as (A & F & E). intros w HW. apply HI0. intros a La. rewrite <- (HW a La). apply sumn_ext. intros b Lb.
      rewrite <- (B4 A F a b La Lb). rewrite (E a b La Lb). reflexivity. }
    destruct (inexact_core n us (fun u a => If u a - load a) Kf L d HL Hd) as (r & kap & c & Hr & Hk & Hc & LR & HC).
    { intros u e He Hu a b La Lb. apply (HB u e He Hu); auto. }
    { intros u e He Hu a La. destruct (HB u e He Hu) as (_ & _ & _ & _ & _ & I6).
      replace (If u a - load a) with (If u a - If us a) by (specialize (E0 a La); lra). apply I6; auto. }
    { exact IN. }
    exists (fun u a => If u a - load a), Kf, r, kap, c. split; [lra|]. split; [exact Hk|]. split; [exact Hc|]. split; [|split; [|exact HC]].
    - intros u Hu. destruct (HB u r ltac:(lra) Hu) as ((P & I1) & I2 & (A & I3) & I4 & _). split; [|split; [|split]].
      + exists (fun a => internal body P a - load a). exists P. split; [exact I1|]. reflexivity.
      + intros x (Q & F & E) a La. rewrite (E a La). f_equal. exact (I2 Q F a La).
      + exists (matrix body A). exists A. split; [exact I3|]. reflexivity.
      + intros K (Q & F & E) a b La Lb. rewrite (E a b La Lb). exact (I4 Q F a b La Lb).
    - intros u w Hu Hw a b La Lb. destruct (HB u r ltac:(lra) Hu) as (_ & _ & _ & _ & Q1 & _). destruct (HB w r ltac:(lra) Hw) as (_ & _ & _ & _ & Q2 & _).
      specialize (Q1 a b La Lb). specialize (Q2 a b La Lb). replace (Kf u a b - Kf w a b) with ((Kf u a b - Kf us a b) - (Kf w a b - Kf us a b)) by ring.
      eapply Rle_trans; [apply Rabs_triang|]. rewrite Rabs_Ropp. lra.
  Qed.
  Theorem inexact_main : newton_tolerates_errors n body load us.
  Proof.
    destruct body_core as (Rf & Kf & r & kap & c & Hr & Hk & Hc & HX & _ & HC).
    exists r, kap, c. split; [exact Hr|]. split; [exact Hk|]. split; [exact Hc|].
    assert (ONE : forall u v e delta, 0 <= e <= r -> 0 <= delta -> within n e u us -> inexact_step n body load kap delta u v -> within n (e / 2 + c * delta) v us).
    { intros u v e dl He Hdl Hu (x & K & rt & Kt & X1 & X2 & X3 & X4 & X5).
      assert (W : within n r u us) by (eapply within_le; [|exact Hu]; lra).
      destruct (HX u W) as (_ & Y1 & _ & Y2).
      destruct (HC u e He Hu Kt) as [_ Q].
      { intros a b La Lb. rewrite <- (Y2 K X2 a b La Lb). apply X4; auto. }
      apply (Q rt dl Hdl).
      - intros a La. rewrite <- (Y1 x X1 a La). apply X3; exact La.
      - intros a La. specialize (X5 a La). cbv beta in X5. replace (mv n Kt (fun b => v b - u b) a + rt a) with (sumn n (fun b => Kt a b * (v b - u b)) - - rt a) by (unfold mv; ring). exact X5. }
    split; [|split; [exact ONE|]].
    - intros u x K Hu X1 X2 rt Kt X4. destruct (HX u Hu) as (_ & _ & _ & Y2).
      destruct (HC u r ltac:(lra) Hu Kt) as [J _].
      { intros a b La Lb. rewrite <- (Y2 K X2 a b La Lb). apply X4; auto. }
      destruct (solvable n Kt J (fun a => - rt a)) as [w Hw]. exists (fun b => w b + u b). intros a La. rewrite <- (Hw a La). unfold mv. apply sumn_ext. intros. ring.
    - intros u dl Hdl Hcd U0 US.
      assert (B : forall j, 0 < 2 ^ j) by (intro; apply pow_lt; lra).
      assert (CD : 0 <= c * dl) by (apply Rmult_le_pos; auto).
      assert (ST : forall i, within n (r / 2 ^ i + 2 * c * dl * (1 - / 2 ^ i)) (u i) us).
      { induction i as [|i IH].
        - eapply within_le; [|exact U0]. cbn [pow]. lra.
        - assert (J : / 2 ^ i <= 1). { rewrite <- Rinv_1. apply Rinv_le_contravar; [lra|]. apply pow_R1_Rle; lra. }
          pose proof (Rinv_0_lt_compat _ (B i)) as J0.
          assert (E : 0 <= r / 2 ^ i + 2 * c * dl * (1 - / 2 ^ i) <= r).
          { unfold Rdiv. assert (0 <= r * / 2 ^ i) by (apply Rmult_le_pos; lra). assert (0 <= 2 * c * dl * (1 - / 2 ^ i)) by (apply Rmult_le_pos; lra).
            assert (2 * c * dl * (1 - / 2 ^ i) <= r * (1 - / 2 ^ i)) by (apply Rmult_le_compat_r; lra). lra. }
          eapply within_le; [|apply (ONE (u i) (u (S i)) _ dl E Hdl IH (US i))]. right. cbn [pow]. pose proof (B i). field. lra. }
      intro i. eapply within_le; [|apply ST]. pose proof (Rinv_0_lt_compat _ (B i)). assert (2 * c * dl * (1 - / 2 ^ i) <= 2 * c * dl * 1) by (apply Rmult_le_compat_l; lra). lra.
  Qed.
  Theorem modified_main : modified_newton_converges n body load us.
  Proof.
    destruct body_core as (Rf & Kf & r & kap & c & Hr & Hk & Hc & HX & HV & HC).
    exists r. split; [exact Hr|]. intros u0 H0. destruct (HX u0 H0) as (_ & _ & (K & XK) & YK).
    assert (KT : forall K, stiffness n body u0 K -> forall u, within n r u us -> forall a b, (a < n)%nat -> (b < n)%nat -> Rabs (K a b - Kf u a b) <= kap).
    { intros K' HK' u Hu a b La Lb. rewrite (YK K' HK' a b La Lb). apply HV; auto. }
    split.
    - intros u Hu. destruct (HX u Hu) as ((x & X1) & _). destruct (HC u r ltac:(lra) Hu K (KT K XK u Hu)) as [J _].
      destruct (solvable n K J (fun a => - x a)) as [w Hw]. exists (fun b => w b + u b), x, K. split; [exact X1|]. split; [exact XK|].
      intros a La. rewrite <- (Hw a La). unfold mv. apply sumn_ext. intros. ring.
    - intros u U0 US. assert (B : forall j, 0 < 2 ^ j) by (intro; apply pow_lt; lra). induction i as [|i IH].
      + eapply within_le; [|exact U0]. cbn [pow]. lra.
      + assert (J : / 2 ^ i <= 1). { rewrite <- Rinv_1. apply Rinv_le_contravar; [lra|]. apply pow_R1_Rle; lra. }
        pose proof (Rinv_0_lt_compat _ (B i)) as J0.
        assert (E : 0 <= r / 2 ^ i <= r).
        { unfold Rdiv. split; [apply Rmult_le_pos; lra|]. rewrite <- (Rmult_1_r r) at 2. apply Rmult_le_compat_l; lra. }
        assert (W : within n r (u i) us) by (eapply within_le; [|exact IH]; lra).
        destruct (US i) as (x & K' & X1 & X2 & X3). destruct (HX (u i) W) as (_ & Y1 & _).
        destruct (HC (u i) _ E IH K' (KT K' X2 (u i) W)) as [_ Q].
        eapply within_le; [|apply (Q x 0 (Rle_refl 0))].
        * right. cbn [pow]. pose proof (B i). field. lra.
        * intros a La. rewrite (Y1 x X1 a La), Rminus_eq_0, Rabs_R0. lra.
        * intros a La. replace (mv n K' (fun b => u (S i) b - u i b) a + x a) with 0; [rewrite Rabs_R0; lra|]. unfold mv. rewrite (X3 a La). ring.
  Qed.
End Body.
