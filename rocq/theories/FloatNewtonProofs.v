(** * Proofs for C80, floating point. *)
From Coq Require Import Reals Lra Lia List Psatz Bool FunctionalExtensionality.
From Verif Require Import Tensor Py Voigt Algebra Models Frameworks Spaces Spec NewtonSpec NewtonLin NewtonProofs LoadProofs InexactSpec InexactProofs FloatNewtonSpec.
From Verif Require Rounded RoundedCode RoundedSpec RoundedStable PropRounded.
Import ListNotations.
Local Open Scope R_scope.

(** Functions of F that are bounded on every ball around F0. *)
Section Bounded.
  Variable F0 : T2.
  Definition bnd (f : T2 -> R) : Prop := forall rho, exists B, 0 <= B /\ forall F, near rho F F0 -> Rabs (f F) <= B.
  Lemma bnd_const c : bnd (fun _ => c).
  Proof. intro rho. exists (Rabs c). split; [apply Rabs_pos|intros; lra]. Qed.
  Lemma bnd_entry i j : bnd (fun F => F i j).
  Proof.
    intro rho. exists (Rabs (F0 i j) + Rabs rho). pose proof (Rabs_pos (F0 i j)). pose proof (Rabs_pos rho). split; [lra|]. intros F H1. specialize (H1 i j).
    replace (F i j) with (F0 i j + (F i j - F0 i j)) by ring. eapply Rle_trans; [apply Rabs_triang|]. pose proof (Rle_abs rho). lra.
  Qed.
  Lemma bnd_plus f g : bnd f -> bnd g -> bnd (fun F => f F + g F).
  Proof.
    intros Hf Hg rho. destruct (Hf rho) as (B1 & P1 & H1). destruct (Hg rho) as (B2 & P2 & H2). exists (B1 + B2). split; [lra|]. intros F HF.
    eapply Rle_trans; [apply Rabs_triang|]. specialize (H1 F HF). specialize (H2 F HF). lra.
  Qed.
  Lemma bnd_mult f g : bnd f -> bnd g -> bnd (fun F => f F * g F).
  Proof.
    intros Hf Hg rho. destruct (Hf rho) as (B1 & P1 & H1). destruct (Hg rho) as (B2 & P2 & H2). exists (B1 * B2). split; [apply Rmult_le_pos; auto|]. intros F HF.
    rewrite Rabs_mult. apply Rmult_le_compat; auto using Rabs_pos.
  Qed.
  Lemma bnd_abs f : bnd f -> bnd (fun F => Rabs (f F)).
  Proof. intros Hf rho. destruct (Hf rho) as (B1 & P1 & H1). exists B1. split; [auto|]. intros F HF. rewrite Rabs_Rabsolu. auto. Qed.
  Lemma bnd_pow f k : bnd f -> bnd (fun F => f F ^ k).
  Proof. intro Hf. induction k as [|k IH]; cbn [pow]; [apply bnd_const|apply bnd_mult; auto]. Qed.
  Lemma bnd_sum3 f : (forall i, bnd (fun F => f F i)) -> bnd (fun F => sum3 (f F)).
  Proof. intro H. unfold sum3. repeat apply bnd_plus; apply H. Qed.
  Lemma bnd_abs2 i j : bnd (fun F => RoundedSpec.abs2 F i j).
  Proof. unfold RoundedSpec.abs2. apply bnd_abs, bnd_entry. Qed.
  Lemma bnd_C i j : bnd (fun F => RoundedSpec.abs_C F i j).
  Proof. unfold RoundedSpec.abs_C, cauchy_green, mmul, mtr. apply bnd_sum3. intro k. apply bnd_mult; apply bnd_abs2. Qed.
  Lemma bnd_I1 : bnd RoundedSpec.abs_I1.
  Proof. unfold RoundedSpec.abs_I1, tr2. apply bnd_sum3. intro. apply bnd_C. Qed.
  Lemma bnd_I2 : bnd RoundedSpec.abs_I2.
  Proof.
    unfold RoundedSpec.abs_I2, Rdiv. apply bnd_mult; [|apply bnd_const]. apply bnd_plus; [apply bnd_pow, bnd_I1|].
    unfold dc22. apply bnd_sum3. intro. apply bnd_sum3. intro. apply bnd_mult; apply bnd_C.
  Qed.
  Ltac bb := repeat first [apply bnd_const | apply bnd_I1 | apply bnd_I2 | apply bnd_C | apply bnd_plus | apply bnd_mult | apply bnd_pow].
  Lemma bnd_W1 m : bnd (RoundedSpec.abs_W1 m). Proof. unfold RoundedSpec.abs_W1. cbv zeta. bb. Qed.
  Lemma bnd_W2 m : bnd (RoundedSpec.abs_W2 m). Proof. unfold RoundedSpec.abs_W2. cbv zeta. bb. Qed.
  Lemma bnd_W11 m : bnd (RoundedSpec.abs_W11 m). Proof. unfold RoundedSpec.abs_W11. cbv zeta. bb. Qed.
  Lemma bnd_dI2 i j : bnd (fun F => RoundedSpec.abs_dI2 F i j). Proof. unfold RoundedSpec.abs_dI2. bb. Qed.
  Lemma bnd_S m i j : bnd (fun F => RoundedSpec.abs_S m F i j).
  Proof. unfold RoundedSpec.abs_S. apply bnd_mult; [bb|]. apply bnd_plus; apply bnd_mult; [apply bnd_W1|bb|apply bnd_W2|apply bnd_dI2]. Qed.
  Lemma bnd_P m i j : bnd (fun F => RoundedSpec.abs_P m F i j).
  Proof. unfold RoundedSpec.abs_P, mmul. apply bnd_sum3. intro. apply bnd_mult; [apply bnd_abs2|apply bnd_S]. Qed.
  Lemma bnd_H m i j k l : bnd (fun F => RoundedSpec.abs_H m F i j k l).
  Proof.
    unfold RoundedSpec.abs_H. repeat apply bnd_plus; apply bnd_mult; try apply bnd_const; try apply bnd_W2; try apply bnd_W11.
    apply bnd_plus; apply bnd_mult; try apply bnd_const; apply bnd_dI2.
  Qed.
  Lemma bnd_A m i j k l : bnd (fun F => RoundedSpec.abs_A m F i j k l).
  Proof.
    unfold RoundedSpec.abs_A. apply bnd_plus.
    - apply bnd_sum3. intro. apply bnd_sum3. intro. apply bnd_mult; [apply bnd_mult; apply bnd_abs, bnd_entry|]. apply bnd_mult; [apply bnd_const|apply bnd_H].
    - apply bnd_mult; [apply bnd_const|apply bnd_S].
  Qed.
  Lemma finite3 (Q : ix3 -> R -> Prop) : (forall i B B', Q i B -> B <= B' -> Q i B') -> (forall i, exists B, Q i B) -> exists B, 0 <= B /\ forall i, Q i B.
  Proof.
    intros HM H. destruct (H X0) as [a Ha]. destruct (H X1) as [b Hb]. destruct (H X2) as [c Hc].
    exists (Rabs a + Rabs b + Rabs c). pose proof (Rabs_pos a). pose proof (Rabs_pos b). pose proof (Rabs_pos c).
    pose proof (Rle_abs a). pose proof (Rle_abs b). pose proof (Rle_abs c). split; [lra|].
    intros []; eapply HM; eauto; lra.
  Qed.
  (** One bound for the whole stress and the whole tangent. *)
  Lemma all_P m rho : exists B, 0 <= B /\ forall i j F, near rho F F0 -> Rabs (RoundedSpec.abs_P m F i j) <= B.
  Proof.
    apply (finite3 (fun i B => forall j F, near rho F F0 -> Rabs (RoundedSpec.abs_P m F i j) <= B)).
    - intros i B B' H L j F HF. specialize (H j F HF). lra.
    - intro i. destruct (finite3 (fun j B => forall F, near rho F F0 -> Rabs (RoundedSpec.abs_P m F i j) <= B)) as (B & _ & HB).
      + intros j B B' H L F HF. specialize (H F HF). lra.
      + intro j. destruct (bnd_P m i j rho) as (B & _ & HB). exists B. exact HB.
      + exists B. exact HB.
  Qed.
  Lemma all_A m rho : exists B, 0 <= B /\ forall i j k l F, near rho F F0 -> Rabs (RoundedSpec.abs_A m F i j k l) <= B.
  Proof.
    apply (finite3 (fun i B => forall j k l F, near rho F F0 -> Rabs (RoundedSpec.abs_A m F i j k l) <= B)).
    - intros i B B' H L j k l F HF. specialize (H j k l F HF). lra.
    - intro i. destruct (finite3 (fun j B => forall k l F, near rho F F0 -> Rabs (RoundedSpec.abs_A m F i j k l) <= B)) as (B & _ & HB); [| |exists B; exact HB].
      + intros j B B' H L k l F HF. specialize (H k l F HF). lra.
      + intro j. destruct (finite3 (fun k B => forall l F, near rho F F0 -> Rabs (RoundedSpec.abs_A m F i j k l) <= B)) as (B & _ & HB); [| |exists B; exact HB].
        * intros k B B' H L l F HF. specialize (H l F HF). lra.
        * intro k. destruct (finite3 (fun l B => forall F, near rho F F0 -> Rabs (RoundedSpec.abs_A m F i j k l) <= B)) as (B & _ & HB); [| |exists B; exact HB].
          -- intros l B B' H L F HF. specialize (H F HF). lra.
          -- intro l. destruct (bnd_A m i j k l rho) as (B & _ & HB). exists B. exact HB.
  Qed.
End Bounded.

(** Rounding errors of one point, uniformly near F0. *)
Lemma point_errors m F0 rho : exists C e0, 0 <= C /\ 0 < e0 /\ forall F eps, near rho F F0 -> 0 <= eps <= e0 ->
  let M := material KDeformation (invariants_fw (tod_model m)) tt in
  (exists P, pm_stress M F P /\ forall Pt, computed_stress eps m F Pt -> forall i j, Rabs (Pt i j - P i j) <= C * eps) /\
  (exists A, pm_tangent M F A /\ forall At, computed_tangent eps m F At -> forall i j k l, Rabs (At i j k l - A i j k l) <= C * eps).
Proof.
  destruct (all_P F0 m rho) as (B1 & P1 & H1). destruct (all_A F0 m rho) as (B2 & P2 & H2).
  destruct (RoundedStable.gamma_small 28) as (K & u0 & HK & Hu & HG).
  assert (G27 : forall u, 0 <= u <= u0 -> Rounded.gamma u 27 <= K * u).
  { intros u Hu'. eapply Rle_trans; [apply (RoundedProofs.gamma_le u (proj1 Hu') 27 28); lia|apply HG; exact Hu']. }
  exists (K * (B1 + B2)), u0. split; [apply Rmult_le_pos; lra|]. split; [exact Hu|]. intros F eps HF He M.
  assert (KE : 0 <= K * eps) by (apply Rmult_le_pos; lra).
  split.
  - destruct (PropRounded.C54_stress unit m F tt (space_self0 (invariants_fw (tod_model m)) inv_self0)) as (P & E & HP).
    exists P. split; [exists (space_self0 (invariants_fw (tod_model m)) inv_self0), tt; exact E|].
    intros Pt Hc i j. eapply Rle_trans; [apply (HP eps i j (Pt i j) (proj1 He) (Hc i j))|].
    replace (K * (B1 + B2) * eps) with (K * eps * (B1 + B2)) by ring.
    eapply Rle_trans; [apply Rle_abs|]. rewrite Rabs_mult.
    apply Rmult_le_compat; [apply Rabs_pos|apply Rabs_pos| |specialize (H1 i j F HF); lra].
    rewrite Rabs_pos_eq by (apply RoundedProofs.gamma_pos; apply He). apply G27; exact He.
  - destruct (PropRounded.C54_elasticity unit m F tt (space_self0 (invariants_fw (tod_model m)) inv_self0)) as (A & E & HA).
    exists A. split; [exists (space_self0 (invariants_fw (tod_model m)) inv_self0); exact E|].
    intros At Hc i j k l. eapply Rle_trans; [apply (HA eps i j k l (At i j k l) (proj1 He) (Hc i j k l))|].
    replace (K * (B1 + B2) * eps) with (K * eps * (B1 + B2)) by ring.
    eapply Rle_trans; [apply Rle_abs|]. rewrite Rabs_mult.
    apply Rmult_le_compat; [apply Rabs_pos|apply Rabs_pos| |specialize (H2 i j k l F HF); lra].
    rewrite Rabs_pos_eq by (apply RoundedProofs.gamma_pos; apply He). apply HG; exact He.
Qed.

Lemma mag_small H t : (forall i j, Rabs (H i j) <= t) -> mag H <= 9 * t.
Proof.
  intro HH. unfold mag, sum3. pose proof (HH X0 X0). pose proof (HH X0 X1). pose proof (HH X0 X2). pose proof (HH X1 X0). pose proof (HH X1 X1).
  pose proof (HH X1 X2). pose proof (HH X2 X0). pose proof (HH X2 X1). pose proof (HH X2 X2). lra.
Qed.
Lemma entry4 (A : T4) : exists T, 0 <= T /\ forall i j k l, Rabs (A i j k l) <= T.
Proof.
  exists (mag (fun i j => mag (A i j))). split; [apply mag_pos|]. intros i j k l.
  eapply Rle_trans; [apply (mag_entry (A i j))|]. pose proof (mag_entry (fun i j => mag (A i j)) i j) as Q. cbv beta in Q.
  rewrite Rabs_pos_eq in Q by apply mag_pos. exact Q.
Qed.
Lemma near_trans e d F G H : near e F G -> near d G H -> near (e + d) F H.
Proof. intros A B i j. replace (F i j - H i j) with ((F i j - G i j) + (G i j - H i j)) by ring. eapply Rle_trans; [apply Rabs_triang|]. specialize (A i j). specialize (B i j). lra. Qed.
Lemma near_le e d F G : e <= d -> near e F G -> near d F G.
Proof. intros L A i j. specialize (A i j). lra. Qed.
(** Rounding errors and errors in F together, near a point where the material is smooth. *)
Lemma point_errors2 m F0 : let M := material KDeformation (invariants_fw (tod_model m)) tt in smooth_at M F0 ->
  exists C d, 0 <= C /\ 0 < d /\ forall F eps delta e, 0 <= e <= d -> near e F F0 -> 0 <= eps <= d -> 0 <= delta <= d ->
  (exists P, pm_stress M F P /\ forall Pt, stress_near eps delta m F Pt -> forall i j, Rabs (Pt i j - P i j) <= C * (eps + delta)) /\
  (exists A, pm_tangent M F A /\ forall At, tangent_near eps delta m F At -> forall i j k l, Rabs (At i j k l - A i j k l) <= C * (eps + delta + e)).
Proof.
  intros M HS. destruct (two_points M F0 HS) as (P & A & d1 & K & Hd1 & HK & H2).
  destruct (point_errors m F0 d1) as (C1 & e1 & HC1 & He1 & H1). cbv zeta in H1. fold M in H1.
  destruct (entry4 (A F0)) as (T & HT & BT).
  set (Q := 9 * (T + K * d1)).
  assert (HKd : 0 <= K * d1) by (apply Rmult_le_pos; lra). assert (HQ : 0 <= Q) by (unfold Q; lra).
  exists (C1 + Q + 2 * K), (Rmin (d1 / 2) e1). split; [lra|]. split; [apply Rmin_pos; lra|].
  intros F eps delta e He HF Heps Hdel. pose proof (Rmin_l (d1 / 2) e1). pose proof (Rmin_r (d1 / 2) e1).
  assert (HFd : near d1 F F0) by (eapply near_le; [|exact HF]; lra).
  destruct (H2 F e ltac:(lra) HF) as ((S1 & S2) & (T1 & T2') & T3 & _).
  assert (HC : 0 <= C1 * (eps + delta)) by (apply Rmult_le_pos; lra).
  assert (HQd : 0 <= Q * eps) by (apply Rmult_le_pos; lra).
  assert (HKe : 0 <= K * (eps + delta)) by (apply Rmult_le_pos; lra).
  assert (HC1d : 0 <= C1 * delta) by (apply Rmult_le_pos; lra).
  split.
  - exists (P F). split; [exact S1|]. intros Pt (f & Hf & Hc) i j.
    assert (Hf0 : near d1 f F0) by (eapply near_le; [|exact (near_trans _ _ _ _ _ Hf HF)]; lra).
    destruct (H1 f eps Hf0 ltac:(lra)) as [(P' & P1 & P2) _].
    destruct (H2 f d1 ltac:(lra) Hf0) as ((S1' & S2') & _ & _ & TP). rewrite (S2' P' P1) in P2. specialize (P2 Pt Hc i j).
    specialize (TP F HFd i j).
    assert (MH : mag (fun k l => f k l - F k l) <= 9 * delta) by (apply mag_small; exact Hf).
    pose proof (mag_pos (fun k l => f k l - F k l)) as M0.
    pose proof (dc42_le (A F0) (fun k l => f k l - F k l) T i j BT) as DL.
    assert (Q1 : T * mag (fun k l => f k l - F k l) <= T * (9 * delta)) by (apply Rmult_le_compat_l; lra).
    assert (Q2 : K * d1 * mag (fun k l => f k l - F k l) <= K * d1 * (9 * delta)) by (apply Rmult_le_compat_l; lra).
    set (D := dc42 (A F0) (fun k l => f k l - F k l) i j) in *.
    replace (Pt i j - P F i j) with ((Pt i j - P f i j) + ((P f i j - P F i j - D) + D)) by ring.
    eapply Rle_trans; [apply Rabs_triang|]. eapply Rle_trans; [apply Rplus_le_compat_l, Rabs_triang|].
    replace ((C1 + Q + 2 * K) * (eps + delta)) with (C1 * eps + C1 * delta + Q * eps + (T * (9 * delta) + K * d1 * (9 * delta)) + 2 * (K * (eps + delta))) by (unfold Q; ring). lra.
  - exists (A F). split; [exact T1|]. intros At (f & Hf & Hc) i j k l.
    assert (Hfe : near (delta + e) f F0) by exact (near_trans _ _ _ _ _ Hf HF).
    assert (Hf0 : near d1 f F0) by (eapply near_le; [|exact Hfe]; lra).
    destruct (H1 f eps Hf0 ltac:(lra)) as [_ (A' & A1 & A2)].
    destruct (H2 f (delta + e) ltac:(lra) Hfe) as (_ & (_ & U) & TA & _). rewrite (U A' A1) in A2. specialize (A2 At Hc i j k l).
    specialize (TA i j k l). specialize (T3 i j k l).
    replace (At i j k l - A F i j k l) with ((At i j k l - A f i j k l) + ((A f i j k l - A F0 i j k l) - (A F i j k l - A F0 i j k l))) by ring.
    eapply Rle_trans; [apply Rabs_triang|]. eapply Rle_trans; [apply Rplus_le_compat_l, Rabs_triang|]. rewrite Rabs_Ropp.
    assert (0 <= K * eps) by (apply Rmult_le_pos; lra). assert (0 <= K * delta) by (apply Rmult_le_pos; lra).
    assert (0 <= (C1 + Q) * e) by (apply Rmult_le_pos; lra). assert (0 <= K * e) by (apply Rmult_le_pos; lra). assert (0 <= Q * delta) by (apply Rmult_le_pos; lra).
    replace ((C1 + Q + 2 * K) * (eps + delta + e)) with (C1 * eps + C1 * delta + Q * eps + Q * delta + (C1 + Q) * e + 2 * (K * (eps + delta)) + 2 * (K * e)) by ring. lra.
Qed.

Section Assembly3.
  Variables (n : nat) (us : nat -> R).
  Lemma near_body q u rho : 0 <= rho -> within n rho u us -> near (sumn n (fun a => mag (q_shape q a)) * rho) (deformed n u q) (deformed n us q).
  Proof.
    intros Hr Hu i j. rewrite deformed_diff. eapply Rle_trans; [apply (sumn_abs n _ (fun a => rho * mag (q_shape q a)))|rewrite sumn_scal; right; ring].
    intros a La. rewrite Rabs_mult. apply Rmult_le_compat; [apply Rabs_pos|apply Rabs_pos|apply Hu; exact La|apply mag_entry].
  Qed.
  Definition fint (body : list FPoint) (P : list T2) (a : nat) : R :=
    fold_right Rplus 0 (map (fun qp => fp_weight (fst qp) * dc22 (snd qp) (fp_shape (fst qp) a)) (combine body P)).
  Definition fmat (body : list FPoint) (A : list T4) (a b : nat) : R :=
    fold_right Rplus 0 (map (fun qp => fp_weight (fst qp) * dc22 (fp_shape (fst qp) a) (dc42 (snd qp) (fp_shape (fst qp) b))) (combine body A)).
  Lemma body_errors body : List.Forall (fun q => smooth_at (q_material q) (deformed n us q)) (map exact_point body) ->
    exists B d, 0 <= B /\ 0 < d /\ forall u eps delta e, 0 <= e <= d -> within n e u us -> 0 <= eps <= d -> 0 <= delta <= d ->
    (exists P, List.Forall2 (fun q p => pm_stress (q_material q) (deformed n u q) p) (map exact_point body) P /\
      forall Pt, List.Forall2 (fun q p => stress_near eps delta (fp_model q) (deformed n u (exact_point q)) p) body Pt ->
      forall a, (a < n)%nat -> Rabs (fint body Pt a - internal (map exact_point body) P a) <= B * (eps + delta)) /\
    (exists A, List.Forall2 (fun q p => pm_tangent (q_material q) (deformed n u q) p) (map exact_point body) A /\
      forall At, List.Forall2 (fun q p => tangent_near eps delta (fp_model q) (deformed n u (exact_point q)) p) body At ->
      forall a b, (a < n)%nat -> (b < n)%nat -> Rabs (fmat body At a b - matrix (map exact_point body) A a b) <= B * (eps + delta + e)).
  Proof.
    induction body as [|q body IHb]; intro HSm.
    - exists 0, 1. split; [lra|]. split; [lra|]. intros u eps delta e He Hu Heps Hdel. split; exists []; (split; [constructor|]).
      + intros Pt H a La. inversion H. unfold fint, internal; cbn. rewrite Rminus_0_r, Rabs_R0. lra.
      + intros Pt H a b La Lb. inversion H. unfold fmat, matrix; cbn. rewrite Rminus_0_r, Rabs_R0. lra.
    - cbn [map] in HSm. inversion HSm as [|x l HSq HSb EX]; subst. destruct (IHb HSb) as (B1 & e1 & HB1 & He1 & IH).
      set (s := sumn n (fun a => mag (fp_shape q a))).
      assert (Hs : 0 <= s) by (apply sumn_nonneg; intros; apply mag_pos).
      assert (Hsa : forall a, (a < n)%nat -> mag (fp_shape q a) <= s).
      { intros a La. apply (sumn_term n (fun a => mag (fp_shape q a)) a); [intros; apply mag_pos|exact La]. }
      destruct (point_errors2 (fp_model q) (deformed n us (exact_point q)) HSq) as (C & e2 & HC & He2 & HP).
      set (w := fp_weight q). set (C' := C * (1 + s)). set (Bq := Rabs w * (C' * (s + s * s))).
      assert (HC' : 0 <= C') by (apply Rmult_le_pos; lra).
      assert (Hss : 0 <= s * s) by (apply Rmult_le_pos; auto).
      assert (HBq : 0 <= Bq) by (apply Rmult_le_pos; [apply Rabs_pos|apply Rmult_le_pos; lra]).
      exists (Bq + B1), (Rmin (Rmin e1 e2) (e2 / (1 + s))). split; [lra|].
      assert (Hes : 0 < e2 / (1 + s)) by (apply Rdiv_lt_0_compat; lra).
      split; [repeat apply Rmin_pos; auto|]. intros u eps delta e He Hu Heps Hdel.
      pose proof (Rmin_l (Rmin e1 e2) (e2 / (1 + s))). pose proof (Rmin_r (Rmin e1 e2) (e2 / (1 + s))). pose proof (Rmin_l e1 e2). pose proof (Rmin_r e1 e2).
      assert (Hse : 0 <= s * e) by (apply Rmult_le_pos; lra).
      assert (Hse2 : s * e <= e2).
      { apply Rle_trans with ((1 + s) * (e2 / (1 + s))); [|right; field; lra]. apply Rle_trans with ((1 + s) * e); [lra|apply Rmult_le_compat_l; lra]. }
      destruct (HP (deformed n u (exact_point q)) eps delta (s * e) ltac:(lra) (near_body (exact_point q) u e (proj1 He) Hu) ltac:(lra) ltac:(lra)) as [(P & P1 & P2) (A & A1 & A2)].
      destruct (IH u eps delta e ltac:(lra) Hu ltac:(lra) ltac:(lra)) as [(Ps & I1 & I2) (As & I3 & I4)].
      assert (CS : 0 <= C * s) by (apply Rmult_le_pos; auto).
      assert (CE : C * (eps + delta) <= C' * (eps + delta)). { apply Rmult_le_compat_r; [lra|]. unfold C'. lra. }
      assert (CE0 : 0 <= C * (eps + delta)) by (apply Rmult_le_pos; lra).
      assert (CF : C * (eps + delta + s * e) <= C' * (eps + delta + e)).
      { unfold C'. assert (0 <= C * e) by (apply Rmult_le_pos; lra). assert (0 <= C * s * (eps + delta)) by (apply Rmult_le_pos; lra).
        replace (C * (1 + s) * (eps + delta + e)) with (C * (eps + delta + s * e) + C * e + C * s * (eps + delta)) by ring. lra. }
      assert (CF0 : 0 <= C * (eps + delta + s * e)) by (apply Rmult_le_pos; lra).
      split.
      + exists (P :: Ps). split; [constructor; auto|]. intros Pt HPt a La. inversion HPt as [|q' p' b' Pt' Q1 Q2]; subst.
        unfold fint, internal. cbn [map combine fold_right fst snd exact_point q_weight q_shape].
        match goal with |- Rabs (?x + ?y - (?x' + ?y')) <= _ => replace (x + y - (x' + y')) with (w * dc22 (fun i j => p' i j - P i j) (fp_shape q a) + (y - y')) by (unfold w, dc22, sum3; ring) end.
        eapply Rle_trans; [apply Rabs_triang|]. rewrite (Rmult_plus_distr_r Bq). apply Rplus_le_compat; [|apply (I2 Pt' Q2 a La)].
        rewrite Rabs_mult. unfold Bq. rewrite !Rmult_assoc. apply Rmult_le_compat_l; [apply Rabs_pos|].
        eapply Rle_trans; [apply (dc22_le _ _ (C * (eps + delta))); intros i j; apply P2; exact Q1|].
        replace (C' * ((s + s * s) * (eps + delta))) with (C' * (eps + delta) * (s + s * s)) by ring.
        apply Rmult_le_compat; [exact CE0|apply mag_pos|exact CE|]. specialize (Hsa a La). lra.
      + exists (A :: As). split; [constructor; auto|]. intros At HAt a b La Lb. inversion HAt as [|q' p' b' At' Q1 Q2]; subst.
        unfold fmat, matrix. cbn [map combine fold_right fst snd exact_point q_weight q_shape].
        match goal with |- Rabs (?x + ?y - (?x' + ?y')) <= _ => replace (x + y - (x' + y')) with (w * dc22 (dc42 (fun i j k l => p' i j k l - A i j k l) (fp_shape q b)) (fp_shape q a) + (y - y')) by (unfold w, dc22, dc42, sum3; ring) end.
        eapply Rle_trans; [apply Rabs_triang|]. rewrite (Rmult_plus_distr_r Bq). apply Rplus_le_compat; [|apply (I4 At' Q2 a b La Lb)].
        rewrite Rabs_mult. unfold Bq. rewrite !Rmult_assoc. apply Rmult_le_compat_l; [apply Rabs_pos|].
        eapply Rle_trans; [apply (dc22_le _ _ (C * (eps + delta + s * e) * mag (fp_shape q b))); intros i j; apply dc42_le; intros; apply A2; exact Q1|].
        pose proof (Hsa a La). pose proof (Hsa b Lb). pose proof (mag_pos (fp_shape q a)). pose proof (mag_pos (fp_shape q b)).
        replace (C' * ((s + s * s) * (eps + delta + e))) with (C' * (eps + delta + e) * (s + s * s)) by ring. rewrite Rmult_assoc.
        apply Rmult_le_compat; [exact CF0|apply Rmult_le_pos; auto|exact CF|].
        assert (mag (fp_shape q b) * mag (fp_shape q a) <= s * s) by (apply Rmult_le_compat; auto). lra.
  Qed.
End Assembly3.

Theorem float_main n body load us : List.Forall (fun q => smooth_at (q_material q) (deformed n us q)) (map exact_point body) ->
  equilibrium n (map exact_point body) load us -> regular_stiffness n (map exact_point body) us -> float_newton_converges n body load us.
Proof.
  intros HS HE HG. destruct (inexact_main n (map exact_point body) load us HS HE HG) as (r & kap & c & Hr & Hk & Hc & _ & ONE & _).
  destruct (body_errors n us body HS) as (B & d & HB & Hd & HX).
  (* the radius: the matrices stay within kap; the errors: all iterates stay in the radius *)
  assert (Hkb : 0 < kap / (2 * (B + 1))) by (apply Rdiv_lt_0_compat; lra).
  set (r' := Rmin (Rmin r d) (kap / (2 * (B + 1)))).
  assert (Hr' : 0 < r') by (repeat apply Rmin_pos; auto).
  assert (L1 : r' <= r /\ r' <= d /\ r' <= kap / (2 * (B + 1))).
  { unfold r'. pose proof (Rmin_l (Rmin r d) (kap / (2 * (B + 1)))). pose proof (Rmin_r (Rmin r d) (kap / (2 * (B + 1)))). pose proof (Rmin_l r d). pose proof (Rmin_r r d). lra. }
  destruct L1 as (L1 & L2 & L3).
  set (D := 2 * c * (B + 1)). assert (HD : 0 <= D) by (repeat apply Rmult_le_pos; lra).
  assert (Hrd : 0 < r' / (D + 1)) by (apply Rdiv_lt_0_compat; lra).
  assert (Hke : 0 < kap / (4 * (B + 1))) by (apply Rdiv_lt_0_compat; lra).
  set (E0 := Rmin (Rmin d (kap / (4 * (B + 1)))) (r' / (D + 1) / 2)).
  assert (HE0 : 0 < E0) by (unfold E0; repeat apply Rmin_pos; lra).
  assert (M : E0 <= d /\ E0 <= kap / (4 * (B + 1)) /\ E0 <= r' / (D + 1) / 2).
  { unfold E0. pose proof (Rmin_l (Rmin d (kap / (4 * (B + 1)))) (r' / (D + 1) / 2)). pose proof (Rmin_r (Rmin d (kap / (4 * (B + 1)))) (r' / (D + 1) / 2)).
    pose proof (Rmin_l d (kap / (4 * (B + 1)))). pose proof (Rmin_r d (kap / (4 * (B + 1)))). lra. }
  destruct M as (M1 & M2 & M3).
  assert (KB : (2 * E0 + r') * (B + 1) <= kap).
  { apply Rle_trans with ((2 * (kap / (4 * (B + 1))) + kap / (2 * (B + 1))) * (B + 1)); [apply Rmult_le_compat_r; lra | right; field; lra]. }
  assert (RD : 2 * E0 * D <= r').
  { assert (Q : 2 * E0 * (D + 1) <= r' / (D + 1) * (D + 1)) by (apply Rmult_le_compat_r; lra). replace (r' / (D + 1) * (D + 1)) with r' in Q by (field; lra). lra. }
  exists r', E0, D. split; [exact Hr'|]. split; [exact HE0|]. split; [exact HD|].
  intros eps delta u He Hdl U0 US.
  set (dl := B * (eps + delta) + delta).
  assert (BE : 0 <= B * (eps + delta)) by (apply Rmult_le_pos; lra).
  assert (Hd0 : 0 <= dl) by (unfold dl; lra).
  assert (DL : dl <= (B + 1) * (eps + delta)) by (unfold dl; lra).
  assert (CDL : 2 * c * dl <= D * (eps + delta)).
  { apply Rle_trans with (2 * c * ((B + 1) * (eps + delta))); [apply Rmult_le_compat_l; [lra|exact DL]|unfold D; right; ring]. }
  assert (CD : 2 * c * dl <= r').
  { eapply Rle_trans; [exact CDL|]. assert (D * (eps + delta) <= D * (2 * E0)) by (apply Rmult_le_compat_l; lra). lra. }
  assert (STEP : forall x y, within n r' x us -> float_step n body load eps delta x y -> inexact_step n (map exact_point body) load kap dl x y).
  { intros x y Hx (Pt & At & rt & Kt & S1 & S2 & S3 & S4 & S5).
    destruct (HX x eps delta r' ltac:(lra) Hx ltac:(lra) ltac:(lra)) as [(P & P1 & P2) (A & A1 & A2)].
    exists (fun a => internal (map exact_point body) P a - load a), (matrix (map exact_point body) A), rt, Kt.
    split; [exists P; split; [exact P1|reflexivity]|]. split; [exists A; split; [exact A1|reflexivity]|]. split; [|split].
    - intros a La. specialize (S3 a La). fold (fint body Pt a) in S3. specialize (P2 Pt S1 a La).
      replace (rt a - (internal (map exact_point body) P a - load a)) with ((rt a - (fint body Pt a - load a)) + (fint body Pt a - internal (map exact_point body) P a)) by ring.
      eapply Rle_trans; [apply Rabs_triang|]. unfold dl. lra.
    - intros a b La Lb. specialize (S4 a b La Lb). fold (fmat body At a b) in S4. specialize (A2 At S2 a b La Lb).
      replace (Kt a b - matrix (map exact_point body) A a b) with ((Kt a b - fmat body At a b) + (fmat body At a b - matrix (map exact_point body) A a b)) by ring.
      eapply Rle_trans; [apply Rabs_triang|].
      assert (B * (eps + delta + r') <= B * (2 * E0 + r')) by (apply Rmult_le_compat_l; lra). lra.
    - intros a La. specialize (S5 a La). replace (sumn n (fun b => Kt a b * (y b - x b)) - - rt a) with (sumn n (fun b => Kt a b * (y b - x b)) + rt a) by ring. unfold dl. lra. }
  (* r'/2^i + 2 c dl, and never outside r' *)
  assert (P2 : forall i, 0 < r' / 2 ^ i /\ r' / 2 ^ S i = r' / 2 ^ i / 2).
  { intro i. assert (0 < 2 ^ i) by (apply pow_lt; lra). split; [apply Rdiv_lt_0_compat; lra|cbn [pow]; field; lra]. }
  assert (CN : 0 <= c * dl) by (apply Rmult_le_pos; lra).
  assert (RUN : forall i, within n (Rmin r' (r' / 2 ^ i + 2 * c * dl)) (u i) us).
  { induction i as [|i IH].
    - eapply within_le; [|exact U0]. apply Rmin_glb; [lra|]. cbn [pow]. replace (r' / 1) with r' by field. lra.
    - destruct (P2 i) as [Q1 Q2]. set (e := Rmin r' (r' / 2 ^ i + 2 * c * dl)) in *.
      pose proof (Rmin_l r' (r' / 2 ^ i + 2 * c * dl)) as e1. pose proof (Rmin_r r' (r' / 2 ^ i + 2 * c * dl)) as e2. fold e in e1, e2.
      assert (e0 : 0 <= e) by (unfold e; apply Rmin_glb; lra).
      eapply within_le; [|apply (ONE (u i) (u (S i)) e dl ltac:(lra) Hd0 IH (STEP _ _ (within_le n _ _ _ _ e1 IH) (US i)))].
      apply Rmin_glb; [lra|]. rewrite Q2. lra. }
  intro i. eapply within_le; [|exact (RUN i)]. pose proof (Rmin_r r' (r' / 2 ^ i + 2 * c * dl)). lra.
Qed.
