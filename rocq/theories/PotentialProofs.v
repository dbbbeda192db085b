(** * Proofs for C77. *)
From Coq Require Import Reals Lra Lia List Psatz FunctionalExtensionality.
From Coquelicot Require Import Coquelicot.
From Verif Require Import Tensor Py Voigt Algebra Models Frameworks Spaces Spec Calc NewtonSpec NewtonLin NewtonProofs NewtonCalm PotentialSpec.
Import ListNotations.
Local Open Scope R_scope.

(** ** Positive definite forms are coercive *)
Lemma max_entry n (w : nat -> R) : exists e, 0 <= e /\ (forall a, (a < n)%nat -> Rabs (w a) <= e) /\ (e = 0 \/ exists a, (a < n)%nat /\ Rabs (w a) = e).
Proof.
  induction n as [|n (e & H1 & H2 & H3)]; [exists 0; repeat split; try lra; try (intros; lia); left; reflexivity|].
  destruct (Rle_lt_dec (Rabs (w n)) e) as [L|L].
  - exists e. split; [exact H1|]. split.
    + intros a La. destruct (Nat.eq_dec a n) as [->|]; [exact L|apply H2; lia].
    + destruct H3 as [H3|(a & La & E)]; [left; exact H3|right; exists a; split; [lia|exact E]].
  - exists (Rabs (w n)). split; [apply Rabs_pos|]. split.
    + intros a La. destruct (Nat.eq_dec a n) as [->|]; [lra|]. specialize (H2 a ltac:(lia)). lra.
    + right. exists n. split; [lia|reflexivity].
Qed.
Lemma quad_ext n K K' w w' : (forall a b, (a < n)%nat -> (b < n)%nat -> K a b = K' a b) -> (forall a, (a < n)%nat -> w a = w' a) -> quad n K w = quad n K' w'.
Proof. intros HK Hw. unfold quad. apply sumn_ext. intros a La. apply sumn_ext. intros b Lb. rewrite HK, (Hw a), (Hw b) by auto. reflexivity. Qed.
Lemma quad_mv n K w : quad n K w = sumn n (fun a => w a * mv n K w a).
Proof. unfold quad, mv. apply sumn_ext. intros a La. rewrite <- sumn_scal. apply sumn_ext. intros. ring. Qed.
Lemma quad_S n K w : quad (S n) K w = quad n K w + w n * sumn n (fun b => (K n b + K b n) * w b) + K n n * w n ^ 2.
Proof.
  unfold quad. cbn [sumn]. rewrite sumn_plus.
  rewrite (sumn_ext n (fun a => w a * K a n * w n) (fun a => w n * (K a n * w a))) by (intros; ring).
  rewrite (sumn_ext n (fun b => w n * K n b * w b) (fun b => w n * (K n b * w b))) by (intros; ring).
  rewrite (sumn_ext n (fun b => (K n b + K b n) * w b) (fun b => K n b * w b + K b n * w b)) by (intros; ring).
  rewrite !sumn_scal, sumn_plus. ring.
Qed.
Lemma quad_rank1 n K (p : nat -> R) al w : quad n (fun a b => K a b - p a * p b / al) w = quad n K w - sumn n (fun b => p b * w b) ^ 2 / al.
Proof.
  unfold quad. rewrite (sumn_ext n _ (fun a => sumn n (fun b => w a * K a b * w b) - p a * w a * (sumn n (fun b => p b * w b) / al))).
  - rewrite sumn_minus. f_equal. rewrite (sumn_ext n _ (fun a => sumn n (fun b => p b * w b) / al * (p a * w a))) by (intros; ring).
    rewrite sumn_scal. unfold Rdiv. ring.
  - intros a La. replace (p a * w a * (sumn n (fun b => p b * w b) / al)) with (p a * w a / al * sumn n (fun b => p b * w b)) by (unfold Rdiv; ring).
    rewrite <- sumn_scal, <- sumn_minus. apply sumn_ext. intros. unfold Rdiv. ring.
Qed.
Lemma coercive n : forall K, positive_definite n K -> exists c, 0 < c /\ forall w a, (a < n)%nat -> c * w a ^ 2 <= quad n K w.
Proof.
  induction n as [|n IH]; intros K HP; [exists 1; split; [lra|intros; lia]|].
  set (al := K n n). set (p := fun b => (K n b + K b n) / 2). set (K' := fun a b => K a b - p a * p b / al).
  set (ext := fun (w : nat -> R) (z : R) b => if Nat.eqb b n then z else w b).
  assert (En : forall w z, ext w z n = z) by (intros; unfold ext; rewrite Nat.eqb_refl; reflexivity).
  assert (Ea : forall w z a, (a < n)%nat -> ext w z a = w a) by (intros; unfold ext; destruct (Nat.eqb_spec a n); [lia|reflexivity]).
  assert (X : forall w, quad (S n) K w = quad n K w + 2 * w n * sumn n (fun b => p b * w b) + al * w n ^ 2).
  { intro w. rewrite quad_S. fold al. rewrite (sumn_ext n (fun b => (K n b + K b n) * w b) (fun b => 2 * (p b * w b))) by (intros; unfold p; field).
    rewrite sumn_scal. ring. }
  assert (AL : 0 < al).
  { assert (P : some_entry (S n) (ext (fun _ => 0) 1)) by (exists n; split; [lia|rewrite En; lra]).
    apply HP in P. rewrite X, En in P. rewrite (quad_ext n K K _ (fun _ => 0)) in P by (auto; intros; rewrite Ea; auto).
    unfold quad in P. rewrite sumn_0 in P by (intros; apply sumn_0; intros; ring).
    rewrite (sumn_0 n (fun b => p b * ext (fun _ => 0) 1 b)) in P by (intros; rewrite Ea by auto; ring). lra. }
  assert (HP' : positive_definite n K').
  { intros w (a & La & N). set (z := - sumn n (fun b => p b * w b) / al).
    assert (P : some_entry (S n) (ext w z)) by (exists a; split; [lia|rewrite Ea; auto]).
    apply HP in P. rewrite X, En in P. rewrite (quad_ext n K K (ext w z) w) in P by (auto; intros; rewrite Ea; auto).
    rewrite (sumn_ext n (fun b => p b * ext w z b) (fun b => p b * w b)) in P by (intros; rewrite Ea; auto).
    unfold K'. rewrite quad_rank1. unfold z in P. eapply Rlt_le_trans; [exact P|]. right. field. lra. }
  destruct (IH K' HP') as (c & Hc & HQ).
  set (B := sumn n (fun b => Rabs (p b))). assert (HB : 0 <= B) by (apply sumn_nonneg; intros; apply Rabs_pos).
  set (k := / c + 2 / al + 2 * B ^ 2 / (al ^ 2 * c)).
  assert (I1 : 0 < / c) by (apply Rinv_0_lt_compat; lra). assert (I2 : 0 < / al) by (apply Rinv_0_lt_compat; lra).
  assert (I3 : 0 <= B ^ 2) by (apply pow2_ge_0).
  assert (I4 : 0 <= 2 * B ^ 2 / (al ^ 2 * c)) by (apply Rdiv_le_0_compat; [lra|apply Rmult_lt_0_compat; [apply pow_lt|]; auto]).
  assert (Hk : 0 < k) by (unfold k, Rdiv in *; lra).
  exists (/ k). split; [apply Rinv_0_lt_compat; exact Hk|]. intros w a La.
  set (s := w n + sumn n (fun b => p b * w b) / al). set (q := quad n K' w).
  assert (Q : quad (S n) K w = q + al * s ^ 2).
  { rewrite X. unfold q, K', s. rewrite quad_rank1. field. lra. }
  destruct (max_entry n w) as (e & He & Hw & Hx).
  assert (Hq : c * e ^ 2 <= q).
  { destruct Hx as [->|(b & Lb & <-)]; [|rewrite pow2_abs; exact (HQ w b Lb)].
    replace (c * 0 ^ 2) with 0 by ring. unfold q. destruct n as [|n']; [unfold quad; cbn; lra|].
    eapply Rle_trans; [|apply (HQ w 0%nat); lia]. apply Rmult_le_pos; [lra|apply pow2_ge_0]. }
  assert (Hs : 0 <= al * s ^ 2) by (apply Rmult_le_pos; [lra|apply pow2_ge_0]).
  assert (E2 : e ^ 2 <= q * / c). { apply Rmult_le_reg_l with c; [exact Hc|]. replace (c * (q * / c)) with q by (field; lra). exact Hq. }
  assert (Q0 : 0 <= q). { eapply Rle_trans; [|exact Hq]. apply Rmult_le_pos; [lra|apply pow2_ge_0]. }
  rewrite Q. apply Rmult_le_reg_l with k; [exact Hk|]. rewrite <- Rmult_assoc, Rinv_r, Rmult_1_l by lra.
  unfold k. assert (T1 : 0 <= 2 / al * q) by (apply Rmult_le_pos; unfold Rdiv; lra).
  assert (T2 : 0 <= 2 * B ^ 2 / (al ^ 2 * c) * (al * s ^ 2)) by (apply Rmult_le_pos; auto).
  assert (T3 : 0 <= / c * (al * s ^ 2)) by (apply Rmult_le_pos; lra).
  assert (T4 : 2 / al * (al * s ^ 2) = 2 * s ^ 2) by (field; lra).
  destruct (Nat.eq_dec a n) as [->|Na].
  - assert (S1 : Rabs (sumn n (fun b => p b * w b)) <= B * e).
    { unfold B. rewrite Rmult_comm, <- sumn_scal. apply sumn_abs. intros b Lb. rewrite Rabs_mult, Rmult_comm.
      apply Rmult_le_compat_r; [apply Rabs_pos|apply Hw; exact Lb]. }
    set (y := sumn n (fun b => p b * w b)) in *.
    assert (Y : y ^ 2 <= B ^ 2 * e ^ 2). { rewrite <- Rpow_mult_distr. apply pow_maj_Rabs. exact S1. }
    replace (w n) with (s - y / al) by (unfold s; fold y; field; lra).
    assert (Z : (s - y / al) ^ 2 <= 2 * s ^ 2 + 2 * (y ^ 2 / al ^ 2)).
    { pose proof (pow2_ge_0 (s + y / al)). replace (y ^ 2 / al ^ 2) with ((y / al) ^ 2) by (field; lra). nra. }
    assert (Y2 : y ^ 2 / al ^ 2 <= B ^ 2 / (al ^ 2 * c) * q).
    { apply Rle_trans with (B ^ 2 * e ^ 2 / al ^ 2).
      - unfold Rdiv. apply Rmult_le_compat_r; [left; apply Rinv_0_lt_compat, pow_lt; lra|exact Y].
      - apply Rle_trans with (B ^ 2 * (q * / c) / al ^ 2); [|right; field; lra].
        unfold Rdiv. apply Rmult_le_compat_r; [left; apply Rinv_0_lt_compat, pow_lt; lra|]. apply Rmult_le_compat_l; auto. }
    assert (T5 : 0 <= / c * q) by (apply Rmult_le_pos; lra).
    replace (2 * B ^ 2 / (al ^ 2 * c)) with (2 * (B ^ 2 / (al ^ 2 * c))) in * by (field; lra). nra.
  - specialize (Hw a ltac:(lia)). assert (W : w a ^ 2 <= e ^ 2) by (apply pow_maj_Rabs; exact Hw).
    assert (T5 : 0 <= 2 * B ^ 2 / (al ^ 2 * c) * q) by (apply Rmult_le_pos; auto). nra.
Qed.
Lemma pd_injective n K : positive_definite n K -> injective n K.
Proof.
  intros HP w HW a La. destruct (Req_dec (w a) 0) as [E|N]; [exact E|exfalso].
  assert (P : 0 < quad n K w) by (apply HP; exists a; auto). rewrite quad_mv, sumn_0 in P; [lra|]. intros b Lb. rewrite HW by exact Lb. ring.
Qed.

(** ** The residual is the gradient of the potential *)
Lemma along_0 F H : along F H 0 = F. Proof. apply T2_ext; intros. unfold along. ring. Qed.
Lemma step_deformed n u w t q : deformed n (step u t w) q = along (deformed n u q) (fun i j => sumn n (fun a => q_shape q a i j * w a)) t.
Proof.
  apply T2_ext; intros i j. unfold along, deformed, step.
  rewrite (sumn_ext n (fun a => (u a + t * w a) * q_shape q a i j) (fun a => u a * q_shape q a i j + t * (q_shape q a i j * w a))) by (intros; ring).
  rewrite sumn_plus, sumn_scal. ring.
Qed.
Section Gradient.
  Variables (n : nat) (load : nat -> R).
  Notation stresses body u := (List.Forall2 (fun q p => pm_stress (q_material q) (deformed n u q) p) body).
  Lemma stored_D u w body : forall Ps, List.Forall (fun x => energy_of (q_material (fst x)) (snd x)) body ->
    List.Forall (fun q => invertible (deformed n u q)) (points body) -> stresses (points body) u Ps ->
    is_derive (fun t => fold_right Rplus 0 (map (fun x => q_weight (fst x) * snd x (deformed n (step u t w) (fst x))) body)) 0
      (sumn n (fun a => internal (points body) Ps a * w a)).
  Proof.
    induction body as [|[q psi] body IH]; intros Ps HE HI HP; inversion HP as [|q' p qs' Ps' HP1 HP2]; subst.
    - cbn [map fold_right]. unfold internal. cbn. rewrite sumn_0 by (intros; ring). apply D_const.
    - inversion HE as [|x l HE1 HE2]; subst. inversion HI as [|x l HI1 HI2]; subst. cbn [points map fst snd] in *.
      cbn [map fold_right fst snd]. eapply D_eq.
      + apply D_plus; [|exact (IH _ HE2 HI2 HP2)]. apply D_scal.
        eapply D_ext; [|exact (HE1 _ (fun i j => sumn n (fun a => q_shape q a i j * w a)) p HI1 HP1)].
        intro t. cbv beta. rewrite step_deformed. reflexivity.
      + cbv beta. rewrite dc22_sumn, <- sumn_scal, <- sumn_plus. apply sumn_ext. intros a La.
        change (internal (q :: map fst body) (p :: Ps') a) with (q_weight q * dc22 p (q_shape q a) + internal (points body) Ps' a). ring.
  Qed.
  Lemma potential_D body u w r : List.Forall (fun x => energy_of (q_material (fst x)) (snd x)) body ->
    List.Forall (fun q => invertible (deformed n u q)) (points body) -> residual n (points body) load u r ->
    is_derive (fun t => potential n body load (step u t w)) 0 (sumn n (fun a => r a * w a)).
  Proof.
    intros HE HI (Ps & HP & HR). unfold potential. eapply D_eq.
    - apply D_minus; [exact (stored_D u w body Ps HE HI HP)|].
      apply (D_ext (fun t => sumn n (fun a => load a * u a) + t * sumn n (fun a => load a * w a)) _ 0 (sumn n (fun a => load a * w a))).
      + intro t. cbv beta. rewrite <- sumn_scal, <- sumn_plus. apply sumn_ext. intros. unfold step. ring.
      + eapply D_eq; [apply D_plus; [apply D_const|apply D_scalr, D_id]|apply eq_trans with (0 + 1 * sumn n (fun a => load a * w a)); [reflexivity|ring]].
    - cbv beta. rewrite <- sumn_minus. apply sumn_ext. intros a La. rewrite (HR a La). unfold internal. ring.
  Qed.
  Lemma step_step u w t h : step (step u t w) h w = step u (t + h) w.
  Proof. extensionality a. unfold step. ring. Qed.
  Lemma potential_Dt body u w r t : List.Forall (fun x => energy_of (q_material (fst x)) (snd x)) body ->
    List.Forall (fun q => invertible (deformed n (step u t w) q)) (points body) -> residual n (points body) load (step u t w) r ->
    is_derive (fun s => potential n body load (step u s w)) t (sumn n (fun a => r a * w a)).
  Proof.
    intros HE HI HR. pose proof (potential_D body _ w r HE HI HR) as D.
    apply (D_ext (fun s => potential n body load (step (step u t w) (s - t) w))).
    - intro s. cbv beta. rewrite step_step. f_equal. f_equal. ring.
    - eapply D_eq. { apply (D_comp (fun s => potential n body load (step (step u t w) s w)) (fun s => s - t)).
      2:{ eapply D_eq; [apply D_minus; [apply D_id|apply D_const]|reflexivity]. } replace (t - t) with 0 by ring. exact D. } cbv beta. ring.
  Qed.
  Lemma invertible_near us body : List.Forall (fun q => invertible (deformed n us q)) body ->
    exists d, 0 < d /\ forall u, within n d u us -> List.Forall (fun q => invertible (deformed n u q)) body.
  Proof.
    induction 1 as [|q body HN _ (d1 & Hd1 & IH)]; [exists 1; split; [lra|constructor]|].
    destruct (invertible_open _ HN) as (d2 & Hd2 & HO).
    set (b := sumn n (fun a => mag (q_shape q a))). assert (Hb : 0 <= b) by (apply sumn_nonneg; intros; apply mag_pos).
    assert (Hd3 : 0 < d2 / (b + 1)) by (apply Rdiv_lt_0_compat; lra).
    exists (Rmin d1 (d2 / (b + 1))). split; [apply Rmin_pos; auto|]. intros u Hu.
    pose proof (Rmin_l d1 (d2 / (b + 1))). pose proof (Rmin_r d1 (d2 / (b + 1))). set (e := Rmin _ _) in *.
    constructor; [|apply IH; intros a La; specialize (Hu a La); lra].
    apply HO. intros i j. rewrite deformed_diff. apply Rle_trans with (e * b).
    - unfold b. rewrite <- sumn_scal. apply sumn_abs. intros a La. rewrite Rabs_mult.
      apply Rmult_le_compat; [apply Rabs_pos|apply Rabs_pos|apply Hu; exact La|apply mag_entry].
    - apply Rle_trans with (d2 / (b + 1) * b); [apply Rmult_le_compat_r; lra|]. apply Rle_trans with (d2 / (b + 1) * (b + 1)); [apply Rmult_le_compat_l; lra|right; field; lra].
  Qed.

  (** Second-order expansion at an equilibrium. *)
  Section Expand.
    Variables (body : list (QPoint * (T2 -> R))) (us : nat -> R).
    Hypothesis HS : List.Forall (fun q => smooth_at (q_material q) (deformed n us q)) (points body).
    Hypothesis HE : List.Forall (fun x => energy_of (q_material (fst x)) (snd x)) body.
    Hypothesis HI : List.Forall (fun q => invertible (deformed n us q)) (points body).
    Hypothesis EQ : equilibrium n (points body) load us.
    Lemma expansion : exists d C, 0 < d /\ 0 <= C /\ forall K, stiffness n (points body) us K ->
      forall w e, 0 <= e -> (forall a, (a < n)%nat -> Rabs (w a) <= e) -> forall t, 0 <= t -> t * e <= d ->
      exists p, is_derive (fun s => potential n body load (step us s w)) t p /\ Rabs (p - t * quad n K w) <= C * t ^ 2 * e ^ 3.
    Proof.
      destruct (assembled n us _ HS) as (If & Kf & d1 & L & Hd1 & HL & HB).
      destruct (invertible_near us _ HI) as (d2 & Hd2 & HN).
      pose proof (Rmin_l d1 d2) as M1. pose proof (Rmin_r d1 d2) as M2.
      exists (Rmin d1 d2), (INR n * (L + INR n * L)). pose proof (pos_INR n) as HP.
      assert (P1 : 0 <= INR n * L) by (apply Rmult_le_pos; auto).
      split; [apply Rmin_pos; auto|]. split; [apply Rmult_le_pos; lra|]. intros K (As & KA & KE) w e He Hw t Ht Hte.
      assert (W : forall s, 0 <= s -> within n (s * e) (step us s w) us).
      { intros s Hs a La. unfold step. replace (us a + s * w a - us a) with (s * w a) by ring. rewrite Rabs_mult, (Rabs_pos_eq s) by exact Hs.
        apply Rmult_le_compat_l; auto. }
      assert (Pte : 0 <= t * e) by (apply Rmult_le_pos; lra).
      destruct (HB _ (t * e) ltac:(lra) (W t Ht)) as ((Ps & I1) & I2 & _ & _ & I5 & I6).
      assert (U0 : within n 0 us us) by (intros a La; unfold Rminus; rewrite Rplus_opp_r, Rabs_R0; lra).
      destruct (HB us 0 ltac:(lra) U0) as (_ & B2 & _ & B4 & _).
      assert (E0 : forall a, (a < n)%nat -> If us a = load a).
      { destruct EQ as (r0 & (P & F & E) & Z0). intros a La. rewrite <- (B2 P F a La). specialize (E a La). rewrite (Z0 a La) in E. unfold internal. lra. }
      assert (KQ : forall a b, (a < n)%nat -> (b < n)%nat -> K a b = Kf us a b).
      { intros a b La Lb. rewrite (KE a b La Lb). exact (B4 As KA a b La Lb). }
      set (r := fun a => internal (points body) Ps a - load a).
      exists (sumn n (fun a => r a * w a)). split.
      - apply potential_Dt; [exact HE|apply HN; intros a La; specialize (W t Ht a La); lra|]. exists Ps. split; [exact I1|]. reflexivity.
      - rewrite quad_mv, <- sumn_scal, <- sumn_minus.
        apply Rle_trans with (sumn n (fun _ => (L + INR n * L) * (t ^ 2 * e ^ 2) * e)); [|rewrite sumn_const; right; ring].
        apply sumn_abs. intros a La.
        replace (r a * w a - t * (w a * mv n K w a)) with ((r a - t * mv n K w a) * w a) by ring. rewrite Rabs_mult.
        apply Rmult_le_compat; [apply Rabs_pos|apply Rabs_pos| |apply Hw; exact La].
        assert (R1 : r a = If (step us t w) a - If us a) by (unfold r; rewrite (I2 Ps I1 a La), (E0 a La); reflexivity).
        specialize (I6 a La).
        assert (MV : mv n (Kf (step us t w)) (fun b => step us t w b - us b) a = t * mv n (Kf (step us t w)) w a).
        { unfold mv. rewrite <- sumn_scal. apply sumn_ext. intros. unfold step. ring. }
        rewrite MV, <- R1 in I6.
        assert (DK : Rabs (mv n (Kf (step us t w)) w a - mv n K w a) <= INR n * (L * (t * e) * e)).
        { unfold mv. rewrite <- sumn_minus, <- sumn_const. apply sumn_abs. intros b Lb. rewrite (KQ a b La Lb).
          replace (Kf (step us t w) a b * w b - Kf us a b * w b) with ((Kf (step us t w) a b - Kf us a b) * w b) by ring.
          rewrite Rabs_mult. apply Rmult_le_compat; [apply Rabs_pos|apply Rabs_pos|apply I5; auto|apply Hw; exact Lb]. }
        replace (r a - t * mv n K w a) with ((r a - t * mv n (Kf (step us t w)) w a) + t * (mv n (Kf (step us t w)) w a - mv n K w a)) by ring.
        eapply Rle_trans; [apply Rabs_triang|]. rewrite Rabs_mult, (Rabs_pos_eq t) by exact Ht.
        apply Rle_trans with (L * (t * e) ^ 2 + t * (INR n * (L * (t * e) * e))); [|right; ring].
        apply Rplus_le_compat; [exact I6|]. apply Rmult_le_compat_l; [exact Ht|exact DK].
    Qed.
  End Expand.
End Gradient.

Section Minimum.
  Variables (n : nat) (load : nat -> R) (body : list (QPoint * (T2 -> R))) (us : nat -> R).
  Notation Pi w := (fun s => potential n body load (step us s w)).
  Lemma step_0 w : step us 0 w = us. Proof. extensionality a. unfold step. ring. Qed.
  Lemma step_1 u : step us 1 (fun a => u a - us a) = u. Proof. extensionality a. unfold step. ring. Qed.
  Hypothesis HS : List.Forall (fun q => smooth_at (q_material q) (deformed n us q)) (points body).
  Hypothesis HE : List.Forall (fun x => energy_of (q_material (fst x)) (snd x)) body.
  Hypothesis HI : List.Forall (fun q => invertible (deformed n us q)) (points body).
  Lemma stable_minimum : equilibrium n (points body) load us -> stable n body us -> strict_minimum n body load us.
  Proof.
    intros EQ (K & HK & HP). destruct (coercive n K HP) as (c & Hc & HQ).
    destruct (expansion n load body us HS HE HI EQ) as (d & C & Hd & HC & HX).
    set (rho := Rmin d (c / (2 * (C + 1)))). assert (Hr2 : 0 < c / (2 * (C + 1))) by (apply Rdiv_lt_0_compat; lra).
    pose proof (Rmin_l d (c / (2 * (C + 1)))) as M1. pose proof (Rmin_r d (c / (2 * (C + 1)))) as M2. fold rho in M1, M2.
    exists rho, (c / 4). split; [apply Rmin_pos; auto|]. split; [lra|]. intros u Hu.
    set (w := fun a => u a - us a). destruct (max_entry n w) as (e & He & Hw & Hx).
    assert (Her : e <= rho). { destruct Hx as [->|(a & La & <-)]; [unfold rho; left; apply Rmin_pos; auto|apply Hu; exact La]. }
    assert (HQe : c * e ^ 2 <= quad n K w \/ e = 0). { destruct Hx as [E|(a & La & <-)]; [right; exact E|left]. rewrite pow2_abs. apply HQ. exact La. }
    assert (Done : c / 4 * e ^ 2 <= potential n body load u - potential n body load us).
    { destruct (HQe) as [HQ'|E0].
      2:{ rewrite E0. assert (U : u = us \/ True) by auto. clear U.
          assert (E : potential n body load u = potential n body load us).
          { unfold potential. assert (A : forall a, (a < n)%nat -> u a = us a).
            { intros a La. specialize (Hw a La). rewrite E0 in Hw. unfold w in Hw. pose proof (Rabs_pos (u a - us a)) as Q.
              assert (Rabs (u a - us a) = 0) as Q2 by lra. destruct (Req_dec (u a - us a) 0) as [Z|Z]; [lra|]. apply Rabs_no_R0 in Z. lra. }
            rewrite (sumn_ext n (fun a => load a * u a) (fun a => load a * us a)) by (intros; rewrite A; auto).
            f_equal. f_equal. apply map_ext. intro x. f_equal. f_equal. apply T2_ext; intros i j. unfold deformed. f_equal. apply sumn_ext. intros. rewrite A by auto. reflexivity. }
          rewrite E. lra. }
      assert (CE : C * e <= c / 2).
      { apply Rle_trans with (C * (c / (2 * (C + 1)))); [apply Rmult_le_compat_l; lra|].
        apply Rle_trans with ((C + 1) * (c / (2 * (C + 1)))); [apply Rmult_le_compat_r; lra|right; field; lra]. }
      assert (G : forall t, 0 <= t <= 1 -> exists p, is_derive (Pi w) t p /\ 0 <= p - c / 2 * e ^ 2 * t).
      { intros t Ht. destruct (HX K HK w e He Hw t (proj1 Ht)) as (p & Dp & Ep). { apply Rle_trans with (1 * e); [apply Rmult_le_compat_r; lra|lra]. }
        exists p. split; [exact Dp|]. apply Rabs_le_between in Ep.
        assert (Z : C * t ^ 2 * e ^ 3 <= c / 2 * e ^ 2 * t).
        { replace (C * t ^ 2 * e ^ 3) with (t * (C * e * (e ^ 2 * t))) by ring.
          assert (Z1 : 0 <= e ^ 2 * t) by (apply Rmult_le_pos; [apply pow2_ge_0|lra]).
          apply Rle_trans with (1 * (C * e * (e ^ 2 * t))). { apply Rmult_le_compat_r; [apply Rmult_le_pos; [apply Rmult_le_pos; lra|exact Z1]|lra]. }
          rewrite Rmult_1_l. apply Rle_trans with (c / 2 * (e ^ 2 * t)); [apply Rmult_le_compat_r; auto|right; ring]. }
        assert (t * (c * e ^ 2) <= t * quad n K w) by (apply Rmult_le_compat_l; lra). nra. }
      destruct (MVT_gen (fun t => Pi w t - c / 4 * e ^ 2 * t ^ 2) 0 1 (fun t => Derive (fun t => Pi w t - c / 4 * e ^ 2 * t ^ 2) t)) as (t & Ht & E).
      - intros t Ht. rewrite Rmin_left, Rmax_right in Ht by lra. destruct (G t ltac:(lra)) as (p & Dp & _). apply Derive_correct.
        exists (p - c / 4 * e ^ 2 * (2 * t * 1)). apply D_minus; [exact Dp|apply D_scal, (D_sqr (fun x => x)), D_id].
      - intros t Ht. rewrite Rmin_left, Rmax_right in Ht by lra. destruct (G t Ht) as (p & Dp & _). apply derivable_continuous_pt.
        exists (p - c / 4 * e ^ 2 * (2 * t * 1)). apply is_derive_Reals. apply D_minus; [exact Dp|apply D_scal, (D_sqr (fun x => x)), D_id].
      - rewrite Rmin_left, Rmax_right in Ht by lra. destruct (G t Ht) as (p & Dp & Hp).
        assert (D : Derive (fun t => Pi w t - c / 4 * e ^ 2 * t ^ 2) t = p - c / 4 * e ^ 2 * (2 * t * 1)).
        { apply is_derive_unique. apply D_minus; [exact Dp|apply D_scal, (D_sqr (fun x => x)), D_id]. }
        rewrite D in E. cbv beta in E. rewrite step_0 in E. unfold w in E at 1. rewrite step_1 in E. nra. }
    intros a La. eapply Rle_trans; [|exact Done]. apply Rmult_le_compat_l; [lra|]. apply pow_maj_Rabs. apply (Hw a La).
  Qed.

  (** A differentiable function is flat at a local minimum. *)
  Lemma flat (f : R -> R) l d : 0 < d -> (forall t, - d < t < d -> f 0 <= f t) -> is_derive f 0 l -> l = 0.
  Proof.
    intros Hd HM HD. apply is_derive_Reals in HD.
    assert (pr : derivable_pt f 0) by (exists l; exact HD).
    rewrite <- (deriv_minimum f (- d) d 0 pr ltac:(lra) ltac:(lra)) by (intros; apply HM; lra).
    symmetry. apply derive_pt_eq_0. exact HD.
  Qed.
  Lemma small w : forall r, 0 < r -> exists tau, 0 < tau /\ forall t, - tau < t < tau -> within n r (step us t w) us.
  Proof.
    intros r Hr. destruct (max_entry n w) as (e & He & Hw & _). exists (r / (e + 1)). split; [apply Rdiv_lt_0_compat; lra|]. intros t Ht a La. unfold step.
    replace (us a + t * w a - us a) with (t * w a) by ring. rewrite Rabs_mult.
    assert (Rabs t < r / (e + 1)) by (apply Rabs_def1; lra). specialize (Hw a La).
    apply Rle_trans with (r / (e + 1) * e); [apply Rmult_le_compat; auto using Rabs_pos; lra|].
    assert (0 < r / (e + 1)) by (apply Rdiv_lt_0_compat; lra). replace r with (r / (e + 1) * (e + 1)) at 2 by (field; lra). apply Rmult_le_compat_l; lra.
  Qed.
  Lemma minimum_necessary : local_minimum n body load us -> equilibrium n (points body) load us /\
    forall K, stiffness n (points body) us K -> forall w, 0 <= quad n K w.
  Proof.
    intros (r & Hr & HM).
    assert (EQ : equilibrium n (points body) load us).
    { destruct (assembled n us _ HS) as (If & Kf & d & L & Hd & HL & HB).
      assert (U0 : within n 0 us us) by (intros a La; unfold Rminus; rewrite Rplus_opp_r, Rabs_R0; lra).
      destruct (HB us 0 ltac:(lra) U0) as ((Ps & I1) & _). set (rr := fun a => internal (points body) Ps a - load a).
      assert (HR : residual n (points body) load us rr) by (exists Ps; split; [exact I1|reflexivity]).
      exists rr. split; [exact HR|]. intros a La.
      set (w := fun b => if Nat.eqb b a then 1 else 0).
      destruct (small w r Hr) as (tau & Ht & HT).
      assert (Z : sumn n (fun b => rr b * w b) = 0).
      { apply (flat (Pi w) _ tau Ht); [|apply potential_D; auto]. intros t H. cbv beta. rewrite step_0. apply HM. apply HT. exact H. }
      rewrite <- Z, <- (sumn_delta n rr a La). apply sumn_ext. intros b _. unfold w. destruct (Nat.eqb b a); ring. }
    split; [exact EQ|]. intros K HK w. destruct (Rle_lt_dec 0 (quad n K w)) as [P|N]; [exact P|exfalso].
    destruct (expansion n load body us HS HE HI EQ) as (d & C & Hd & HC & HX).
    destruct (max_entry n w) as (e & He & Hw & _). destruct (small w r Hr) as (tau & Ht & HT).
    set (k := C * e ^ 3 + 1). assert (Hk : 0 < k). { unfold k. assert (0 <= C * e ^ 3) by (apply Rmult_le_pos; [auto|apply pow_le; auto]). lra. }
    set (T := Rmin (tau / 2) (Rmin (d / (e + 1)) (- quad n K w / k))).
    assert (HT0 : 0 < T) by (repeat apply Rmin_pos; try apply Rdiv_lt_0_compat; lra).
    assert (B1 : T <= tau / 2) by apply Rmin_l. assert (B2 : T <= d / (e + 1)) by (eapply Rle_trans; [apply Rmin_r|apply Rmin_l]).
    assert (B3 : T <= - quad n K w / k) by (eapply Rle_trans; [apply Rmin_r|apply Rmin_r]).
    assert (G : forall t, 0 <= t <= T -> exists p, is_derive (Pi w) t p /\ (0 < t -> p < 0)).
    { intros t H. destruct (HX K HK w e He Hw t (proj1 H)) as (p & Dp & Ep).
      { apply Rle_trans with (d / (e + 1) * e); [apply Rmult_le_compat_r; lra|].
        assert (0 < d / (e + 1)) by (apply Rdiv_lt_0_compat; lra). replace d with (d / (e + 1) * (e + 1)) at 2 by (field; lra). apply Rmult_le_compat_l; lra. }
      exists p. split; [exact Dp|]. intro Pt. apply Rabs_le_between in Ep.
      assert (t * k <= - quad n K w). { apply Rle_trans with (- quad n K w / k * k); [apply Rmult_le_compat_r; lra|right; field; lra]. }
      assert (C * t ^ 2 * e ^ 3 = t * (t * k) - t ^ 2) by (unfold k; ring).
      assert (t * (t * k) <= t * (- quad n K w)) by (apply Rmult_le_compat_l; lra). assert (0 < t ^ 2) by (apply pow_lt; exact Pt). nra. }
    destruct (MVT_cor2 (Pi w) (fun t => Derive (Pi w) t) 0 T HT0) as (t & E & Ht1).
    { intros t H. destruct (G t H) as (p & Dp & _). apply is_derive_Reals. apply Derive_correct. exists p. exact Dp. }
    destruct (G t ltac:(lra)) as (p & Dp & Hp). 
    assert (E2 : potential n body load (step us T w) - potential n body load (step us 0 w) = p * (T - 0)).
    { etransitivity; [exact E|]. f_equal. apply is_derive_unique. exact Dp. }
    rewrite step_0 in E2.
    specialize (Hp (proj1 Ht1)). pose proof (HM _ (HT T ltac:(lra))) as HMT. nra.
  Qed.
End Minimum.

Lemma isolated_equilibrium n body load us : List.Forall (fun q => smooth_at (q_material q) (deformed n us q)) (points body) ->
  equilibrium n (points body) load us -> regular_stiffness n (points body) us -> isolated n body load us.
Proof.
  intros HS EQ RS. destruct (newton_main n _ load us HS EQ RS) as (r & M & Hr & HN & _).
  exists r. split; [exact Hr|]. intros v Hv (rr & HR & Z) a La.
  destruct (max_entry n (fun a => v a - us a)) as (e & He & Hw & Hx).
  assert (Her : e <= r) by (destruct Hx as [->|(b & Lb & <-)]; [lra|apply Hv; exact Lb]).
  destruct (HN v e (conj He Her) Hw) as (v1 & (r1 & K & _ & HK & _) & HV).
  assert (ST : newton_step n (points body) load v v).
  { exists rr, K. split; [exact HR|]. split; [exact HK|]. intros b Lb. rewrite (Z b Lb), sumn_0; [ring|]. intros. ring. }
  destruct (HV v ST) as (_ & _ & HH).
  assert (e = 0). { destruct Hx as [E|(b & Lb & E)]; [exact E|]. specialize (HH b Lb). rewrite E in HH. lra. }
  subst e. specialize (Hw a La). pose proof (Rabs_pos (v a - us a)). destruct (Req_dec (v a - us a) 0) as [E|N]; [lra|]. apply Rabs_no_R0 in N. lra.
Qed.
