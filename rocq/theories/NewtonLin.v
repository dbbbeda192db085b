(** * Linear systems with injective matrices; Newton's method in n unknowns (for C76). *)
From Coq Require Import Reals Lra Lia List Psatz Bool Arith.
From Verif Require Import NewtonSpec.
Import ListNotations.
Local Open Scope R_scope.

Lemma sumn_ext n f g : (forall a, (a < n)%nat -> f a = g a) -> sumn n f = sumn n g.
Proof. induction n as [|n IH]; intro H; cbn [sumn]; [reflexivity|]. rewrite IH, H by (intros; try apply H; lia). reflexivity. Qed.
Lemma sumn_0 n f : (forall a, (a < n)%nat -> f a = 0) -> sumn n f = 0.
Proof. induction n as [|n IH]; intro H; cbn [sumn]; [reflexivity|]. rewrite IH, H by (intros; try apply H; lia). ring. Qed.
Lemma sumn_plus n f g : sumn n (fun a => f a + g a) = sumn n f + sumn n g.
Proof. induction n as [|n IH]; cbn [sumn]; [ring|]. rewrite IH. ring. Qed.
Lemma sumn_scal n c f : sumn n (fun a => c * f a) = c * sumn n f.
Proof. induction n as [|n IH]; cbn [sumn]; [ring|]. rewrite IH. ring. Qed.
Lemma sumn_minus n f g : sumn n (fun a => f a - g a) = sumn n f - sumn n g.
Proof. induction n as [|n IH]; cbn [sumn]; [ring|]. rewrite IH. ring. Qed.
Lemma sumn_abs n f g : (forall a, (a < n)%nat -> Rabs (f a) <= g a) -> Rabs (sumn n f) <= sumn n g.
Proof.
  induction n as [|n IH]; intro H; cbn [sumn]; [rewrite Rabs_R0; lra|].
  eapply Rle_trans; [apply Rabs_triang|]. apply Rplus_le_compat; [apply IH; intros; apply H; lia|apply H; lia].
Qed.
Lemma sumn_const n c : sumn n (fun _ => c) = INR n * c.
Proof. induction n as [|n IH]; [cbn; ring|]. cbn [sumn]. rewrite IH, S_INR. ring. Qed.
Lemma sumn_nonneg n f : (forall a, (a < n)%nat -> 0 <= f a) -> 0 <= sumn n f.
Proof. induction n as [|n IH]; intro H; cbn [sumn]; [lra|]. apply Rplus_le_le_0_compat; [apply IH; intros; apply H; lia|apply H; lia]. Qed.
Lemma sumn_swap n m (f : nat -> nat -> R) : sumn n (fun a => sumn m (fun b => f a b)) = sumn m (fun b => sumn n (fun a => f a b)).
Proof. induction n as [|n IH]; cbn [sumn]; [symmetry; apply sumn_0; reflexivity|]. rewrite IH, <- sumn_plus. reflexivity. Qed.
Lemma sumn_term n f a : (forall b, (b < n)%nat -> 0 <= f b) -> (a < n)%nat -> f a <= sumn n f.
Proof.
  induction n as [|n IH]; intros H L; [lia|]. cbn [sumn]. destruct (Nat.eq_dec a n) as [->|].
  - assert (0 <= sumn n f) by (apply sumn_nonneg; intros; apply H; lia). lra.
  - assert (f a <= sumn n f) by (apply IH; [intros; apply H|]; lia). assert (0 <= f n) by (apply H; lia). lra.
Qed.
Lemma sumn_delta n f p : (p < n)%nat -> sumn n (fun a => if Nat.eqb a p then f a else 0) = f p.
Proof.
  induction n as [|n IH]; intro L; [lia|]. cbn [sumn]. destruct (Nat.eq_dec p n) as [->|N].
  - rewrite Nat.eqb_refl, sumn_0; [ring|]. intros a H. destruct (Nat.eqb_spec a n); [lia|reflexivity].
  - rewrite IH by lia. destruct (Nat.eqb_spec n p); [lia|ring].
Qed.

Definition mv (n : nat) (K : nat -> nat -> R) (w : nat -> R) (a : nat) : R := sumn n (fun b => K a b * w b).
Definition injective (n : nat) (K : nat -> nat -> R) : Prop :=
  forall w, (forall a, (a < n)%nat -> mv n K w a = 0) -> forall a, (a < n)%nat -> w a = 0.
Lemma mv_minus n K v w a : mv n K (fun b => v b - w b) a = mv n K v a - mv n K w a.
Proof. unfold mv. rewrite <- sumn_minus. apply sumn_ext. intros. ring. Qed.
(** Injective square matrices are surjective: elimination of the last unknown. *)
Lemma solvable n : forall K, injective n K -> forall y, exists x, forall a, (a < n)%nat -> mv n K x a = y a.
Proof.
  induction n as [|n IH]; intros K HI y; [exists (fun _ => 0); intros; lia|].
  assert (E : (exists p, (p < S n)%nat /\ K p n <> 0) \/ forall p, (p < S n)%nat -> K p n = 0).
  { clear - K. induction (S n) as [|m IHm]; [right; intros; lia|]. destruct IHm as [(p & L & N)|A].
    - left. exists p. split; [lia|exact N].
    - destruct (Req_dec (K m n) 0) as [Z|N]; [right|left; exists m; auto]. intros p L. destruct (Nat.eq_dec p m) as [->|]; [exact Z|apply A; lia]. }
  destruct E as [(p & Lp & Np)|Z].
  2:{ exfalso. assert (Q : (if Nat.eqb n n then 1 else 0) = 0); [|rewrite Nat.eqb_refl in Q; lra].
      apply (HI (fun b => if Nat.eqb b n then 1 else 0)); [|lia]. intros a L. unfold mv. apply sumn_0. intros b Lb. destruct (Nat.eqb_spec b n) as [->|]; [rewrite Z by exact L|]; ring. }
  set (t := fun a => if Nat.eqb a p then n else a).
  set (K' := fun a b => K (t a) b - K (t a) n / K p n * K p b).
  set (ext := fun (w : nat -> R) (z : R) b => if Nat.eqb b n then z else w b).
  assert (X : forall w z a, mv (S n) K (ext w z) a = mv n K w a + K a n * z).
  { intros w z a. unfold mv. cbn [sumn]. unfold ext at 2. rewrite Nat.eqb_refl. f_equal. apply sumn_ext. intros b L. unfold ext. destruct (Nat.eqb_spec b n); [lia|reflexivity]. }
  assert (R' : forall w a, mv n K' w a = mv n K w (t a) - K (t a) n / K p n * mv n K w p).
  { intros w a. unfold mv, K'. rewrite <- sumn_scal, <- sumn_minus. apply sumn_ext. intros. ring. }
  assert (C : forall a, (a < S n)%nat -> a = p \/ exists a', (a' < n)%nat /\ a = t a').
  { intros a L. destruct (Nat.eq_dec a p) as [->|N]; [left; reflexivity|right]. destruct (Nat.eq_dec a n) as [->|].
    - exists p. split; [lia|]. unfold t. rewrite Nat.eqb_refl. reflexivity.
    - exists a. split; [lia|]. unfold t. destruct (Nat.eqb_spec a p); [contradiction|reflexivity]. }
  assert (HI' : injective n K').
  { intros w HW a L. set (z := - mv n K w p / K p n).
    replace (w a) with (ext w z a) by (unfold ext; destruct (Nat.eqb_spec a n); [lia|reflexivity]).
    apply HI; [|lia]. intros b Lb. rewrite X. destruct (C b Lb) as [->|(a' & La & ->)]; unfold z.
    - field. exact Np.
    - specialize (HW a' La). rewrite R' in HW. apply (f_equal (fun x => x)) in HW.
      replace (mv n K w (t a') + K (t a') n * (- mv n K w p / K p n)) with (mv n K w (t a') - K (t a') n / K p n * mv n K w p) by (field; exact Np).
      exact HW. }
  destruct (IH K' HI' (fun a => y (t a) - K (t a) n / K p n * y p)) as [x Hx].
  exists (ext x ((y p - mv n K x p) / K p n)). intros b Lb. rewrite X. destruct (C b Lb) as [->|(a' & La & ->)].
  - field. exact Np.
  - specialize (Hx a' La). rewrite R' in Hx.
    replace (mv n K x (t a')) with (y (t a') - K (t a') n / K p n * y p + K (t a') n / K p n * mv n K x p) by lra.
    field. exact Np.
Qed.
Lemma bounded_inverse n K : injective n K -> exists c, 0 <= c /\
  forall w e, (forall a, (a < n)%nat -> Rabs (mv n K w a) <= e) -> forall a, (a < n)%nat -> Rabs (w a) <= c * e.
Proof.
  intro HI.
  assert (G : forall m, exists X : nat -> nat -> R, forall p, (p < m)%nat -> forall a, (a < n)%nat -> mv n K (X p) a = if Nat.eqb a p then 1 else 0).
  { induction m as [|m (X & HX)]; [exists (fun _ _ => 0); intros; lia|].
    destruct (solvable n K HI (fun a => if Nat.eqb a m then 1 else 0)) as [x Hx].
    exists (fun p => if Nat.eqb p m then x else X p). intros p L a La. destruct (Nat.eqb_spec p m) as [->|]; [apply Hx; exact La|apply HX; [lia|exact La]]. }
  destruct (G n) as [X HX]. exists (sumn n (fun b => sumn n (fun p => Rabs (X p b)))). split.
  { apply sumn_nonneg. intros. apply sumn_nonneg. intros. apply Rabs_pos. }
  intros w e HW a La.
  assert (W : w a = sumn n (fun p => mv n K w p * X p a)).
  { assert (Z : w a - sumn n (fun p => mv n K w p * X p a) = 0); [|lra].
    apply (HI (fun b => w b - sumn n (fun p => mv n K w p * X p b))); [|exact La]. intros b Lb. rewrite mv_minus.
    replace (mv n K (fun c => sumn n (fun p => mv n K w p * X p c)) b) with (mv n K w b); [ring|].
    unfold mv at 2. rewrite (sumn_ext n (fun c => K b c * _) (fun c => sumn n (fun p => mv n K w p * (K b c * X p c)))).
    2:{ intros. rewrite <- sumn_scal. apply sumn_ext. intros. ring. }
    rewrite sumn_swap. rewrite (sumn_ext n _ (fun p => if Nat.eqb p b then mv n K w p else 0)).
    2:{ intros p Lp. rewrite sumn_scal. change (sumn n (fun c => K b c * X p c)) with (mv n K (X p) b). rewrite HX by auto.
        rewrite (Nat.eqb_sym p b). destruct (Nat.eqb b p); ring. }
    symmetry. apply (sumn_delta n (mv n K w) b Lb). }
  rewrite W. assert (0 <= e) by (eapply Rle_trans; [apply Rabs_pos|apply (HW a La)]).
  eapply Rle_trans; [apply (sumn_abs n _ (fun p => e * Rabs (X p a)))|].
  { intros p Lp. rewrite Rabs_mult. apply Rmult_le_compat_r; [apply Rabs_pos|apply HW; exact Lp]. }
  rewrite sumn_scal, Rmult_comm. apply Rmult_le_compat_r; [assumption|].
  apply (sumn_term n (fun b => sumn n (fun p => Rabs (X p b))) a); [|exact La]. intros. apply sumn_nonneg. intros. apply Rabs_pos.
Qed.

(** Newton's method for equations R(u) = 0 whose derivative is locally Lipschitz at the solution. *)
Section Newton.
  Variables (n : nat) (us : nat -> R) (Rf : (nat -> R) -> nat -> R) (Kf : (nat -> R) -> nat -> nat -> R) (L d : R).
  Hypothesis HL : 0 <= L.
  Hypothesis Hd : 0 < d.
  Hypothesis HK : forall u e, 0 <= e <= d -> within n e u us -> forall a b, (a < n)%nat -> (b < n)%nat -> Rabs (Kf u a b - Kf us a b) <= L * e.
  Hypothesis HR : forall u e, 0 <= e <= d -> within n e u us -> forall a, (a < n)%nat -> Rabs (Rf u a - mv n (Kf u) (fun b => u b - us b) a) <= L * e ^ 2.
  Hypothesis HI : injective n (Kf us).
  Lemma newton_core : exists r M, 0 < r <= d /\ forall u e, 0 <= e <= r -> within n e u us ->
    exists v, (forall a, (a < n)%nat -> mv n (Kf u) (fun b => v b - u b) a = - Rf u a) /\
    forall v', (forall a, (a < n)%nat -> mv n (Kf u) (fun b => v' b - u b) a = - Rf u a) ->
      within n 0 v' v /\ within n (M * e ^ 2) v' us /\ within n (e / 2) v' us.
  Proof.
    destruct (bounded_inverse n (Kf us) HI) as (c & Hc & HB).
    set (N := INR n). assert (HN : 0 <= N) by apply pos_INR.
    assert (P0 : 0 <= c * N * L) by (apply Rmult_le_pos; [apply Rmult_le_pos; auto|auto]).
    assert (P1 : 0 <= c * L) by (apply Rmult_le_pos; auto).
    set (r := Rmin d (/ (2 * (c * N * L) + 4 * (c * L) + 1))).
    assert (Hq : 0 < / (2 * (c * N * L) + 4 * (c * L) + 1)) by (apply Rinv_0_lt_compat; lra).
    assert (Hr : 0 < r <= d) by (unfold r; split; [apply Rmin_pos; auto|apply Rmin_l]).
    assert (Hr2 : forall e, 0 <= e <= r -> c * N * L * e <= / 2 /\ 2 * (c * L) * e <= / 2).
    { intros e He. assert (r * (2 * (c * N * L) + 4 * (c * L) + 1) <= 1).
      { apply Rle_trans with (/ (2 * (c * N * L) + 4 * (c * L) + 1) * (2 * (c * N * L) + 4 * (c * L) + 1)).
        - apply Rmult_le_compat_r; [lra|apply Rmin_r].
        - right. apply Rinv_l. lra. }
      assert (e * (2 * (c * N * L) + 4 * (c * L) + 1) <= 1) by (eapply Rle_trans; [|eassumption]; apply Rmult_le_compat_r; lra).
      assert (0 <= e * (c * N * L)) by (apply Rmult_le_pos; lra). assert (0 <= e * (c * L)) by (apply Rmult_le_pos; lra). lra. }
    (* K(u) has a bounded inverse *)
    assert (KB : forall u e, 0 <= e <= r -> within n e u us -> forall w y, 0 <= y -> (forall a, (a < n)%nat -> Rabs (mv n (Kf u) w a) <= y) -> within n (2 * c * y) w (fun _ => 0)).
    { intros u e He Hu w y Hy HW.
      (* the largest entry *)
      assert (MX : exists t, 0 <= t /\ (forall a, (a < n)%nat -> Rabs (w a) <= t) /\ (t = 0 \/ exists a, (a < n)%nat /\ t = Rabs (w a))).
      { clear. induction n as [|m (t & T0 & T1 & T2)]; [exists 0; split; [lra|split; [intros; lia|left; reflexivity]]|].
        destruct (Rle_dec t (Rabs (w m))) as [Hle|Hgt].
        - exists (Rabs (w m)). split; [apply Rabs_pos|]. split; [|right; exists m; auto].
          intros a La. destruct (Nat.eq_dec a m) as [->|]; [lra|]. eapply Rle_trans; [apply T1; lia|lra].
        - exists t. split; [auto|]. split; [|destruct T2 as [|(a & La & Ea)]; [left; auto|right; exists a; split; [lia|auto]]].
          intros a La. destruct (Nat.eq_dec a m) as [->|]; [lra|apply T1; lia]. }
      destruct MX as (t & T0 & T1 & T2).
      assert (B : forall a, (a < n)%nat -> Rabs (mv n (Kf us) w a) <= y + N * L * e * t).
      { intros a La. replace (mv n (Kf us) w a) with (mv n (Kf u) w a - mv n (fun a b => Kf u a b - Kf us a b) w a).
        2:{ unfold mv. rewrite <- sumn_minus. apply sumn_ext. intros. ring. }
        eapply Rle_trans; [apply Rabs_triang|]. rewrite Rabs_Ropp. apply Rplus_le_compat; [apply HW; exact La|].
        unfold mv. eapply Rle_trans; [apply (sumn_abs n _ (fun _ => L * e * t))|rewrite sumn_const; unfold N; right; ring].
        intros b Lb. rewrite Rabs_mult. apply Rmult_le_compat; [apply Rabs_pos|apply Rabs_pos|apply (HK u e); [lra|auto|auto|auto]|apply T1; exact Lb]. }
      assert (B2 := HB w _ B). destruct (Hr2 e He) as [H1 _].
      assert (TB : t <= 2 * c * y).
      { destruct T2 as [->|(a & La & ->)]; [apply Rmult_le_pos; [lra|auto]|]. specialize (B2 a La).
        assert (c * N * L * e * Rabs (w a) <= / 2 * Rabs (w a)) by (apply Rmult_le_compat_r; [apply Rabs_pos|lra]).
        lra. }
      intros a La. rewrite Rminus_0_r. eapply Rle_trans; [apply T1; exact La|exact TB]. }
    exists r, (2 * c * L). split; [exact Hr|]. intros u e He Hu.
    assert (IU : injective n (Kf u)).
    { intros w HW a La. assert (K0 := KB u e He Hu w 0 (Rle_refl 0) ltac:(intros b Lb; rewrite HW, Rabs_R0 by exact Lb; lra) a La).
      cbv beta in K0. rewrite Rminus_0_r, Rmult_0_r in K0. pose proof (Rabs_pos (w a)). destruct (Req_dec (w a) 0) as [|N0]; [auto|]. pose proof (Rabs_pos_lt _ N0). lra. }
    destruct (solvable n (Kf u) IU (fun a => - Rf u a)) as [x Hx].
    exists (fun b => x b + u b). split.
    { intros a La. rewrite <- Hx by exact La. apply sumn_ext. intros. ring. }
    intros v' Hv.
    assert (Q : within n (2 * c * (L * e ^ 2)) v' us).
    { intros a La. assert (K1 := KB u e He Hu (fun b => v' b - us b) (L * e ^ 2)). cbv beta in K1.
      rewrite <- (Rminus_0_r (v' a - us a)). apply K1; [apply Rmult_le_pos; [auto|apply pow2_ge_0]| |exact La].
      intros b Lb. replace (mv n (Kf u) (fun b => v' b - us b) b) with (- (Rf u b - mv n (Kf u) (fun b => u b - us b) b)).
      - rewrite Rabs_Ropp. apply (HR u e); [lra|auto|auto].
      - rewrite Ropp_minus_distr'. rewrite <- (Ropp_involutive (Rf u b)), <- Hv by exact Lb. unfold Rminus. rewrite Ropp_involutive. unfold mv. rewrite <- sumn_plus. apply sumn_ext. intros. ring. }
    split; [|split].
    - intros a La. assert (Z : (v' a - u a) - x a = 0).
      { apply (IU (fun b => (v' b - u b) - x b)); [|exact La]. intros b Lb. rewrite mv_minus, Hv, Hx by exact Lb. ring. }
      replace (v' a - (x a + u a)) with 0 by lra. rewrite Rabs_R0. lra.
    - intros a La. eapply Rle_trans; [apply Q; exact La|]. right. ring.
    - intros a La. eapply Rle_trans; [apply Q; exact La|]. destruct (Hr2 e He) as [_ H2].
      assert (2 * (c * L) * e * e <= / 2 * e) by (apply Rmult_le_compat_r; lra).
      replace (2 * c * (L * e ^ 2)) with (2 * (c * L) * e * e) by ring. lra.
  Qed.
End Newton.
