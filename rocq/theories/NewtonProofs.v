(** * Proofs for C76: second-order consistency and assembly. *)
From Coq Require Import Reals Lra Lia List Psatz Bool FunctionalExtensionality.
From Coquelicot Require Import Coquelicot.
From Verif Require Import Tensor Py Voigt Algebra Models Frameworks Spaces Spec Calc NewtonSpec NewtonLin.
Import ListNotations.
Local Open Scope R_scope.

Lemma abs_sum3 f g : (forall i, Rabs (f i) <= g i) -> Rabs (sum3 f) <= sum3 g.
Proof.
  intro H. unfold sum3. pose proof (H X0). pose proof (H X1). pose proof (H X2).
  eapply Rle_trans; [apply Rabs_triang|]. apply Rplus_le_compat; [|auto]. eapply Rle_trans; [apply Rabs_triang|]. apply Rplus_le_compat; auto.
Qed.
Lemma sum3_mult c f : sum3 (fun i => c * f i) = c * sum3 f. Proof. unfold sum3. ring. Qed.
Lemma sum3_le f g : (forall i, f i <= g i) -> sum3 f <= sum3 g.
Proof. intro H. unfold sum3. pose proof (H X0). pose proof (H X1). pose proof (H X2). lra. Qed.
Definition mag (B : T2) : R := sum3 (fun i => sum3 (fun j => Rabs (B i j))).
Lemma mag_pos B : 0 <= mag B.
Proof. unfold mag, sum3. pose proof (fun i j => Rabs_pos (B i j)) as H. pose proof (H X0 X0). pose proof (H X0 X1). pose proof (H X0 X2).
  pose proof (H X1 X0). pose proof (H X1 X1). pose proof (H X1 X2). pose proof (H X2 X0). pose proof (H X2 X1). pose proof (H X2 X2). lra. Qed.
Lemma mag_entry B i j : Rabs (B i j) <= mag B.
Proof. unfold mag, sum3. pose proof (fun i j => Rabs_pos (B i j)) as H. pose proof (H X0 X0). pose proof (H X0 X1). pose proof (H X0 X2).
  pose proof (H X1 X0). pose proof (H X1 X1). pose proof (H X1 X2). pose proof (H X2 X0). pose proof (H X2 X1). pose proof (H X2 X2).
  destruct i, j; lra. Qed.
Lemma dc22_le A B t : (forall i j, Rabs (A i j) <= t) -> Rabs (dc22 A B) <= t * mag B.
Proof.
  intro H. unfold dc22, mag. rewrite <- sum3_mult. apply abs_sum3. intro i. rewrite <- sum3_mult. apply abs_sum3. intro j.
  rewrite Rabs_mult. apply Rmult_le_compat_r; [apply Rabs_pos|apply H].
Qed.
Lemma dc22_sym A B : dc22 A B = dc22 B A. Proof. unfold dc22, sum3. ring. Qed.
Lemma dc42_le A B t i j : (forall i j k l, Rabs (A i j k l) <= t) -> Rabs (dc42 A B i j) <= t * mag B.
Proof. intro H. exact (dc22_le (A i j) B t (H i j)). Qed.

(** P(F) - P(F0) - A(F) : (F - F0) is of second order. *)
Lemma second_order M F0 : smooth_at M F0 -> exists (P : T2 -> T2) (A : T2 -> T4) d K, 0 < d /\ 0 <= K /\
  forall F e, 0 <= e <= d -> near e F F0 ->
    (pm_stress M F (P F) /\ forall p, pm_stress M F p -> p = P F) /\ (pm_tangent M F (A F) /\ forall a, pm_tangent M F a -> a = A F) /\
    (forall i j k l, Rabs (A F i j k l - A F0 i j k l) <= K * e) /\
    (forall i j, Rabs (P F i j - P F0 i j - dc42 (A F) (fun k l => F k l - F0 k l) i j) <= K * e ^ 2).
Proof.
  intros (P & A & d & K & Hd & HK & H1 & H2 & H3). exists P, A, d, (18 * K). split; [exact Hd|]. split; [lra|].
  intros F e He HF. assert (HFd : near d F F0) by (intros i j; specialize (HF i j); lra).
  destruct (H1 F HFd) as [Q1 Q2]. split; [exact Q1|]. split; [exact Q2|]. split.
  { intros. eapply Rle_trans; [apply (H2 F e He HF)|]. apply Rmult_le_compat_r; lra. }
  intros i j. set (H := fun k l => F k l - F0 k l).
  assert (N : forall t, 0 <= t <= 1 -> near e (along F0 H t) F0).
  { intros t Ht k l. unfold along, H. replace (F0 k l + t * (F k l - F0 k l) - F0 k l) with (t * (F k l - F0 k l)) by ring.
    rewrite Rabs_mult, (Rabs_pos_eq t) by lra. specialize (HF k l). pose proof (Rabs_pos (F k l - F0 k l)).
    assert (t * Rabs (F k l - F0 k l) <= 1 * Rabs (F k l - F0 k l)) by (apply Rmult_le_compat_r; lra). lra. }
  assert (Nd : forall t, 0 <= t <= 1 -> near d (along F0 H t) F0) by (intros t Ht k l; specialize (N t Ht k l); lra).
  destruct (MVT_gen (fun t => P (along F0 H t) i j) 0 1 (fun t => dc42 (A (along F0 H t)) H i j)) as (t & Ht & E).
  { intros t Ht. rewrite Rmin_left, Rmax_right in Ht by lra. apply (H3 F0 H t (Nd t ltac:(lra)) i j). }
  { intros t Ht. rewrite Rmin_left, Rmax_right in Ht by lra. apply derivable_continuous_pt. exists (dc42 (A (along F0 H t)) H i j).
    apply is_derive_Reals. apply (H3 F0 H t (Nd t ltac:(lra)) i j). }
  rewrite Rmin_left, Rmax_right in Ht by lra. cbv beta in E.
  replace (along F0 H 1) with F in E by (unfold along, H; apply T2_ext; intros p q; ring).
  replace (along F0 H 0) with F0 in E by (unfold along, H; apply T2_ext; intros p q; ring).
  rewrite E, Rminus_0_r, Rmult_1_r. set (Ft := along F0 H t) in *.
  replace (dc42 (A Ft) H i j - dc42 (A F) H i j) with (dc42 (fun i j k l => A Ft i j k l - A F i j k l) H i j) by (unfold dc42, sum3; ring).
  eapply Rle_trans; [apply (dc42_le _ _ (2 * (K * e)))|].
  - intros p q k l. replace (A Ft p q k l - A F p q k l) with ((A Ft p q k l - A F0 p q k l) - (A F p q k l - A F0 p q k l)) by ring.
    eapply Rle_trans; [apply Rabs_triang|]. rewrite Rabs_Ropp. pose proof (H2 Ft e He (N t Ht) p q k l). pose proof (H2 F e He HF p q k l). lra.
  - assert (mag H <= 9 * e). { unfold mag, sum3. pose proof (HF X0 X0). pose proof (HF X0 X1). pose proof (HF X0 X2). pose proof (HF X1 X0). pose proof (HF X1 X1). pose proof (HF X1 X2).
      pose proof (HF X2 X0). pose proof (HF X2 X1). pose proof (HF X2 X2). unfold H. lra. }
    apply Rle_trans with (2 * (K * e) * (9 * e)); [|right; ring]. apply Rmult_le_compat_l; [|auto]. assert (0 <= K * e) by (apply Rmult_le_pos; lra). lra.
Qed.

Section Assembly.
  Variables (n : nat) (us : nat -> R).
  Definition internal (body : list QPoint) (Ps : list T2) (a : nat) : R :=
    fold_right Rplus 0 (map (fun qp => q_weight (fst qp) * dc22 (snd qp) (q_shape (fst qp) a)) (combine body Ps)).
  Definition matrix (body : list QPoint) (As : list T4) (a b : nat) : R :=
    fold_right Rplus 0 (map (fun qp => q_weight (fst qp) * dc22 (q_shape (fst qp) a) (dc42 (snd qp) (q_shape (fst qp) b))) (combine body As)).
  Notation stresses body u := (List.Forall2 (fun q p => pm_stress (q_material q) (deformed n u q) p) body).
  Notation tangents body u := (List.Forall2 (fun q p => pm_tangent (q_material q) (deformed n u q) p) body).
  Lemma deformed_diff q u i j : deformed n u q i j - deformed n us q i j = sumn n (fun a => (u a - us a) * q_shape q a i j).
  Proof. unfold deformed. rewrite (sumn_ext n (fun a => (u a - us a) * q_shape q a i j) (fun a => u a * q_shape q a i j - us a * q_shape q a i j)) by (intros; ring). rewrite sumn_minus. ring. Qed.
  Lemma dc42_sumn A (f : nat -> R) (B : nat -> T2) i j m :
    dc42 A (fun k l => sumn m (fun a => f a * B a k l)) i j = sumn m (fun a => dc42 A (B a) i j * f a).
  Proof. induction m as [|m IH]; cbn [sumn]; [unfold dc42, sum3; ring|]. rewrite <- IH. unfold dc42, sum3. ring. Qed.
  Lemma dc22_sumn A (f : nat -> R) (B : nat -> T2) m : dc22 A (fun i j => sumn m (fun a => B a i j * f a)) = sumn m (fun a => dc22 A (B a) * f a).
  Proof. induction m as [|m IH]; cbn [sumn]; [unfold dc22, sum3; ring|]. rewrite <- IH. unfold dc22, sum3. ring. Qed.

  Lemma assembled body : List.Forall (fun q => smooth_at (q_material q) (deformed n us q)) body ->
    exists (If : (nat -> R) -> nat -> R) (Kf : (nat -> R) -> nat -> nat -> R) d L, 0 < d /\ 0 <= L /\
    forall u e, 0 <= e <= d -> within n e u us ->
      (exists P, stresses body u P) /\ (forall P, stresses body u P -> forall a, (a < n)%nat -> internal body P a = If u a) /\
      (exists A, tangents body u A) /\ (forall A, tangents body u A -> forall a b, (a < n)%nat -> (b < n)%nat -> matrix body A a b = Kf u a b) /\
      (forall a b, (a < n)%nat -> (b < n)%nat -> Rabs (Kf u a b - Kf us a b) <= L * e) /\
      (forall a, (a < n)%nat -> Rabs (If u a - If us a - mv n (Kf u) (fun b => u b - us b) a) <= L * e ^ 2).
  Proof.
    induction 1 as [|q body Hq _ (If & Kf & d1 & L1 & Hd1 & HL1 & IH)].
    - exists (fun _ _ => 0), (fun _ _ _ => 0), 1, 0. split; [lra|]. split; [lra|]. intros u e He Hu.
      split; [exists []; constructor|]. split; [intros P H a L; inversion H; reflexivity|].
      split; [exists []; constructor|]. split; [intros P H a b L L'; inversion H; reflexivity|]. split; intros.
      + rewrite Rminus_0_r, Rabs_R0. lra.
      + unfold mv. rewrite sumn_0 by (intros; ring). replace (0 - 0 - 0) with 0 by ring. rewrite Rabs_R0. lra.
    - destruct (second_order _ _ Hq) as (P & A & d2 & K & Hd2 & HK & HS).
      set (b := sumn n (fun a => mag (q_shape q a))).
      assert (Hb : 0 <= b) by (apply sumn_nonneg; intros; apply mag_pos).
      assert (Hba : forall a, (a < n)%nat -> mag (q_shape q a) <= b).
      { intros a La. apply (sumn_term n (fun a => mag (q_shape q a)) a); [intros; apply mag_pos|exact La]. }
      set (w := q_weight q). set (Lq := Rabs w * (K * b ^ 3)).
      assert (HLq : 0 <= Lq) by (apply Rmult_le_pos; [apply Rabs_pos|apply Rmult_le_pos; [auto|apply pow_le; auto]]).
      exists (fun u a => w * dc22 (P (deformed n u q)) (q_shape q a) + If u a),
             (fun u a c => w * dc22 (q_shape q a) (dc42 (A (deformed n u q)) (q_shape q c)) + Kf u a c), (Rmin d1 (d2 / (b + 1))), (Lq + L1).
      assert (Hd3 : 0 < d2 / (b + 1)) by (apply Rdiv_lt_0_compat; lra).
      split; [apply Rmin_pos; auto|]. split; [lra|]. intros u e He Hu.
      pose proof (Rmin_l d1 (d2 / (b + 1))). pose proof (Rmin_r d1 (d2 / (b + 1))).
      assert (NB : near (b * e) (deformed n u q) (deformed n us q)).
      { intros i j. rewrite deformed_diff. eapply Rle_trans; [apply (sumn_abs n _ (fun a => e * mag (q_shape q a)))|rewrite sumn_scal; fold b; right; ring].
        intros a La. rewrite Rabs_mult. apply Rmult_le_compat; [apply Rabs_pos|apply Rabs_pos|apply Hu; exact La|apply mag_entry]. }
      assert (BE : 0 <= b * e <= d2).
      { split; [apply Rmult_le_pos; lra|]. assert (e * (b + 1) <= d2 / (b + 1) * (b + 1)) by (apply Rmult_le_compat_r; lra).
        replace (d2 / (b + 1) * (b + 1)) with d2 in * by (field; lra). lra. }
      destruct (HS _ _ BE NB) as ((S1 & S2) & (T1 & T2) & HA & HP).
      destruct (IH u e ltac:(lra) Hu) as ((Ps & I1) & I2 & (As & I3) & I4 & I5 & I6).
      split; [exists (P (deformed n u q) :: Ps); constructor; auto|].
      split. { intros Q HQ a La. inversion HQ as [|q' p' b' Q' E1 E2]; subst. unfold internal. cbn [combine map fold_right fst snd]. rewrite (S2 _ E1). f_equal. apply I2; auto. }
      split; [exists (A (deformed n u q) :: As); constructor; auto|].
      split. { intros Q HQ a c La Lc. inversion HQ as [|q' p' b' Q' E1 E2]; subst. unfold matrix. cbn [combine map fold_right fst snd]. rewrite (T2 _ E1). f_equal. apply I4; auto. }
      split.
      + intros a c La Lc. set (D := fun i j k l => A (deformed n u q) i j k l - A (deformed n us q) i j k l).
        replace (w * dc22 (q_shape q a) (dc42 (A (deformed n u q)) (q_shape q c)) + Kf u a c - (w * dc22 (q_shape q a) (dc42 (A (deformed n us q)) (q_shape q c)) + Kf us a c))
          with (w * dc22 (dc42 D (q_shape q c)) (q_shape q a) + (Kf u a c - Kf us a c)) by (unfold D, dc22, dc42, sum3; ring).
        eapply Rle_trans; [apply Rabs_triang|]. rewrite Rmult_plus_distr_r. apply Rplus_le_compat; [|apply I5; auto].
        rewrite Rabs_mult. unfold Lq. rewrite Rmult_assoc. apply Rmult_le_compat_l; [apply Rabs_pos|].
        assert (0 <= K * (b * e)) by (apply Rmult_le_pos; lra).
        eapply Rle_trans; [apply (dc22_le _ _ (K * (b * e) * mag (q_shape q c)))|].
        { intros i j. apply dc42_le. exact HA. }
        pose proof (mag_pos (q_shape q c)). pose proof (mag_pos (q_shape q a)). pose proof (Hba a La). pose proof (Hba c Lc).
        apply Rle_trans with (K * (b * e) * b * b); [|right; ring].
        apply Rmult_le_compat; [apply Rmult_le_pos; lra|lra|apply Rmult_le_compat_l; lra|lra].
      + intros a La. set (Hd := fun i j => deformed n u q i j - deformed n us q i j).
        set (E := fun i j => P (deformed n u q) i j - P (deformed n us q) i j - dc42 (A (deformed n u q)) Hd i j).
        assert (MV : mv n (fun a c => w * dc22 (q_shape q a) (dc42 (A (deformed n u q)) (q_shape q c)) + Kf u a c) (fun b => u b - us b) a
          = w * dc22 (q_shape q a) (dc42 (A (deformed n u q)) Hd) + mv n (Kf u) (fun b => u b - us b) a).
        { unfold mv. rewrite (sumn_ext n _ (fun c => w * (dc22 (q_shape q a) (dc42 (A (deformed n u q)) (q_shape q c)) * (u c - us c)) + Kf u a c * (u c - us c))) by (intros; ring).
          rewrite sumn_plus, sumn_scal. f_equal. f_equal. rewrite <- dc22_sumn. f_equal. apply T2_ext. intros i j. rewrite <- dc42_sumn.
          f_equal. apply T2_ext. intros k l. unfold Hd. symmetry. apply deformed_diff. }
        rewrite MV.
        match goal with |- Rabs ?x <= _ => replace x with (w * dc22 E (q_shape q a) + (If u a - If us a - mv n (Kf u) (fun b => u b - us b) a)) by (unfold E, dc22, sum3; ring) end.
        eapply Rle_trans; [apply Rabs_triang|]. rewrite Rmult_plus_distr_r. apply Rplus_le_compat; [|apply I6; auto].
        rewrite Rabs_mult. unfold Lq. rewrite Rmult_assoc. apply Rmult_le_compat_l; [apply Rabs_pos|].
        eapply Rle_trans; [apply (dc22_le _ _ (K * (b * e) ^ 2)); exact HP|].
        pose proof (mag_pos (q_shape q a)). pose proof (Hba a La).
        apply Rle_trans with (K * (b * e) ^ 2 * b); [|right; ring]. apply Rmult_le_compat_l; [|lra]. apply Rmult_le_pos; [auto|apply pow2_ge_0].
  Qed.
End Assembly.

Theorem newton_main n body load us : List.Forall (fun q => smooth_at (q_material q) (deformed n us q)) body ->
  equilibrium n body load us -> regular_stiffness n body us -> newton_converges n body load us.
Proof.
  intros HS (r0 & HR0 & Z0) (K0 & HK0 & HI).
  destruct (assembled n us body HS) as (If & Kf & d & L & Hd & HL & HB).
  assert (Hus : forall e, 0 <= e -> within n e us us) by (intros e He a La; unfold Rminus; rewrite Rplus_opp_r, Rabs_R0; exact He).
  destruct (HB us 0 ltac:(lra) (Hus 0 ltac:(lra))) as (_ & B2 & _ & B4 & _).
  assert (E0 : forall a, (a < n)%nat -> If us a - load a = 0).
  { intros a La. destruct HR0 as (P & F & E). rewrite <- (B2 P F a La). rewrite <- (Z0 a La), (E a La). reflexivity. }
  assert (IN : injective n (Kf us)).
  { destruct HK0 as (A & F & E). intros w HW. apply HI. intros a La. rewrite <- (HW a La). apply sumn_ext. intros b Lb.
    rewrite <- (B4 A F a b La Lb). rewrite (E a b La Lb). reflexivity. }
  assert (SR : forall u e, 0 <= e <= d -> within n e u us -> (exists r, residual n body load u r) /\ forall r, residual n body load u r -> forall a, (a < n)%nat -> r a = If u a - load a).
  { intros u e He Hu. destruct (HB u e He Hu) as ((P & I1) & I2 & _). split.
    - exists (fun a => internal body P a - load a). exists P. split; [exact I1|]. reflexivity.
    - intros r (Q & F & E) a La. rewrite (E a La). f_equal. exact (I2 Q F a La). }
  assert (SK : forall u e, 0 <= e <= d -> within n e u us -> (exists K, stiffness n body u K) /\ forall K, stiffness n body u K -> forall a b, (a < n)%nat -> (b < n)%nat -> K a b = Kf u a b).
  { intros u e He Hu. destruct (HB u e He Hu) as (_ & _ & (A & I3) & I4 & _). split.
    - exists (matrix body A). exists A. split; [exact I3|]. reflexivity.
    - intros K (Q & F & E) a b La Lb. rewrite (E a b La Lb). exact (I4 Q F a b La Lb). }
  destruct (newton_core n us (fun u a => If u a - load a) Kf L d HL Hd) as (r & M & Hr & HN).
  { intros u e He Hu a b La Lb. apply (HB u e He Hu); auto. }
  { intros u e He Hu a La. destruct (HB u e He Hu) as (_ & _ & _ & _ & _ & I6).
    replace (If u a - load a) with (If u a - If us a) by (specialize (E0 a La); lra). apply I6; auto. }
  { exact IN. }
  assert (ST : forall u e, 0 <= e <= r -> within n e u us -> forall v, newton_step n body load u v -> forall a, (a < n)%nat -> mv n (Kf u) (fun b => v b - u b) a = - (If u a - load a)).
  { intros u e He Hu v (rr & K & X1 & X2 & X3) a La. destruct (SR u e ltac:(lra) Hu) as [_ Y1]. destruct (SK u e ltac:(lra) Hu) as [_ Y2].
    rewrite <- (Y1 rr X1 a La), <- (X3 a La). apply sumn_ext. intros b Lb. rewrite (Y2 K X2 a b La Lb). reflexivity. }
  exists r, M. split; [lra|].
  assert (PART : forall u e, 0 <= e <= r -> within n e u us -> exists v, newton_step n body load u v /\
       forall v', newton_step n body load u v' -> within n 0 v' v /\ within n (M * e ^ 2) v' us /\ within n (e / 2) v' us).
  { intros u e He Hu. destruct (HN u e He Hu) as (v & V1 & V2). exists v. split.
    - destruct (SR u e ltac:(lra) Hu) as [(rr & X1) Y1]. destruct (SK u e ltac:(lra) Hu) as [(K & X2) Y2].
      exists rr, K. split; [exact X1|]. split; [exact X2|]. intros a La. rewrite (Y1 rr X1 a La), <- (V1 a La).
      apply sumn_ext. intros b Lb. rewrite (Y2 K X2 a b La Lb). reflexivity.
    - intros v' HV. apply V2. exact (ST u e He Hu v' HV). }
  split; [exact PART|].
  intros u U0 US i. assert (B : forall j, 0 < 2 ^ j) by (intro; apply pow_lt; lra). induction i as [|i IH].
  - replace (r / 2 ^ 0) with r by (cbn; field). exact U0.
  - assert (He : 0 <= r / 2 ^ i <= r).
    { split; [apply Rdiv_le_0_compat; [lra|apply B]|]. apply Rmult_le_reg_r with (2 ^ i); [apply B|]. unfold Rdiv. rewrite Rmult_assoc, Rinv_l by (apply Rgt_not_eq, B).
      assert (1 <= 2 ^ i) by (apply pow_R1_Rle; lra). rewrite Rmult_1_r. rewrite <- (Rmult_1_r r) at 1. apply Rmult_le_compat_l; lra. }
    destruct (PART (u i) _ He IH) as (v & _ & V). destruct (V _ (US i)) as (_ & _ & W). 
    replace (r / 2 ^ S i) with (r / 2 ^ i / 2) by (cbn [pow]; field; apply Rgt_not_eq, B). exact W.
Qed.
