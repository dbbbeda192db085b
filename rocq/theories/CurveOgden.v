(** Ogden materials in the three load cases (C58). *)
From Coq Require Import Reals Lra Lia List Psatz FunctionalExtensionality.
From Coquelicot Require Import Coquelicot.
From Verif Require Import Tensor Py Voigt Algebra Models Frameworks Spaces Spec StrMore Lab LabSpec LabMech CurveSpec CurveProofs.
Import ListNotations.
Local Open Scope R_scope.

(** *** the energy of a diagonal tensor *)
Definition pm (p : ix3 -> ix3) : T2 := fun i a => delta i (p a).
Lemma eig_pm a b c p : let w := fun k => vec3 a b c (p k) in
  (forall k l, k <> l -> p k <> p l) -> w X0 <= w X1 <= w X2 -> eig_legal (dgm a b c) w (pm p).
Proof.
  intros w I O. split; [|split; [|exact O]].
  - intros k l. unfold pm, sum3. assert (J := I k l). destruct k, l; cbn [ix3_eqb delta] in *;
    try (specialize (J ltac:(discriminate))); unfold delta;
    destruct (p X0), (p X1), (p X2); cbn; try ring; congruence.
  - intros i k. unfold pm, sum3, dgm, w, delta. destruct i, (p k); cbn; ring.
Qed.
Lemma Rle_total a b : a <= b \/ b <= a.
Proof. destruct (Rle_or_lt a b); [left|right]; lra. Qed.
Section Diag.
  Context (psi : Vec3 -> R) (W : T2 -> R) (HS : symmetric_fn psi) (HW : stretch_energy psi W).
  Lemma diag_energy a b c : W (dgm a b c) = psi (vec3 (sqrt a) (sqrt b) (sqrt c)).
  Proof.
    assert (G : forall p : ix3 -> ix3, (forall k l, k <> l -> p k <> p l) ->
      vec3 a b c (p X0) <= vec3 a b c (p X1) <= vec3 a b c (p X2) ->
      W (dgm a b c) = psi (vec3 (sqrt (vec3 a b c (p X0))) (sqrt (vec3 a b c (p X1))) (sqrt (vec3 a b c (p X2))))).
    { intros p I O. rewrite (HW _ _ _ (eig_pm a b c p I O)). f_equal. apply Vec3_ext. intros []; reflexivity. }
    assert (S1 : forall x y z, psi (vec3 x y z) = psi (vec3 y x z)) by (intros; apply HS).
    assert (S2 : forall x y z, psi (vec3 x y z) = psi (vec3 x z y)) by (intros; apply HS).
    destruct (Rle_total a b) as [AB|AB], (Rle_total b c) as [BC|BC], (Rle_total a c) as [AC|AC];
    try (rewrite (G (fun k => match k with X0 => X0 | X1 => X1 | X2 => X2 end)); [reflexivity|intros [] []; congruence|cbn; lra]).
    - rewrite (G (fun k => match k with X0 => X0 | X1 => X2 | X2 => X1 end)); [cbn; apply S2|intros [] []; congruence|cbn; lra].
    - rewrite (G (fun k => match k with X0 => X2 | X1 => X0 | X2 => X1 end)); [cbn; now rewrite S1, S2|intros [] []; congruence|cbn; lra].
    - rewrite (G (fun k => match k with X0 => X1 | X1 => X0 | X2 => X2 end)); [cbn; apply S1|intros [] []; congruence|cbn; lra].
    - rewrite (G (fun k => match k with X0 => X1 | X1 => X2 | X2 => X0 end)); [cbn; now rewrite S2, S1|intros [] []; congruence|cbn; lra].
    - rewrite (G (fun k => match k with X0 => X2 | X1 => X1 | X2 => X0 end)); [cbn; now rewrite S1, S2, S1|intros [] []; congruence|cbn; lra].
  Qed.
  Lemma diag_CG_energy a b c : 0 < a -> 0 < b -> 0 < c -> W (cauchy_green (dgm a b c)) = psi (vec3 a b c).
  Proof.
    intros A B C. rewrite dgm_cg, diag_energy. now rewrite !sqrt_pow2 by lra.
  Qed.
End Diag.

(** *** Ogden: derivative of the energy along l^b *)
Definition path_energy (n k b : R) (ts : list (R * R)) (l : R) : R :=
  fold_right (fun t s => 2 * fst t / snd t ^ 2 * (n * Rpower l (snd t) + k * Rpower l (b * snd t) - (n + k)) + s) 0 ts.
Lemma is_derive_Rpower a l : 0 < l -> is_derive (fun x => Rpower x a) l (a * Rpower l (a - 1)).
Proof. intro L. apply is_derive_Reals. apply derivable_pt_lim_power. exact L. Qed.
Lemma path_derive n k b mu alpha l : 0 < l -> n = - (k * b) -> (forall m a, In (m, a) (combine mu alpha) -> a <> 0) ->
  is_derive (path_energy n k b (combine mu alpha)) l (n * ogden_curve b mu alpha l).
Proof.
  intros L N. unfold path_energy, ogden_curve. induction (combine mu alpha) as [|[m a] r IH]; intro HA; cbn [fold_right fst snd].
  - rewrite Rmult_0_r. apply (is_derive_const (V := R_NormedModule)).
  - assert (Na : a <> 0) by (apply (HA m); left; reflexivity).
    specialize (IH (fun m a H => HA m a (or_intror H))).
    rewrite Rmult_plus_distr_l. apply (is_derive_plus (V := R_NormedModule)); [|exact IH].
    assert (D1 := is_derive_Rpower a l L). assert (D2 := is_derive_Rpower (b * a) l L).
    replace (n * (2 * m / a * (Rpower l (a - 1) - Rpower l (b * a - 1)))) with
      (2 * m / a ^ 2 * (n * (a * Rpower l (a - 1)) + k * ((b * a) * Rpower l (b * a - 1)))) by (rewrite N; field; exact Na).
    apply (is_derive_scal (fun x => n * Rpower x a + k * Rpower x (b * a) - (n + k))).
    replace (n * (a * Rpower l (a - 1)) + k * (b * a * Rpower l (b * a - 1))) with
      (n * (a * Rpower l (a - 1)) + k * (b * a * Rpower l (b * a - 1)) - 0) by ring.
    apply (is_derive_minus (V := R_NormedModule)); [|apply (is_derive_const (V := R_NormedModule))].
    apply (is_derive_plus (V := R_NormedModule)); apply is_derive_scal; assumption.
Qed.
(** *** monotonicity *)
Lemma Rpower_up a : 0 < a -> up (fun l => Rpower l a).
Proof. intros A x y [X Y]. unfold Rpower. apply exp_increasing. apply Rmult_lt_compat_l; auto. apply ln_increasing; lra. Qed.
Lemma Rpower_dn a : a < 0 -> up (fun l => - Rpower l a).
Proof.
  intros A x y [X Y]. apply Ropp_lt_contravar. unfold Rpower. apply exp_increasing.
  apply Rmult_lt_gt_compat_neg_l; auto. apply ln_increasing; lra.
Qed.
Lemma Rpower_wup a : 0 <= a -> wup (fun l => Rpower l a).
Proof.
  intros A. destruct (Req_dec a 0) as [->|N]; [|apply up_wup, Rpower_up; lra].
  intros x y [X Y]. rewrite !Rpower_O by lra. lra.
Qed.
Lemma up_wup_sum f g : wup f -> up g -> up (fun l => f l + g l).
Proof. intros F G a b L. specialize (F a b L). specialize (G a b L). lra. Qed.
Lemma term_up b m a : b < 0 -> 0 < m -> 1 <= a \/ 1 <= b * a -> up (fun l => 2 * m / a * (Rpower l (a - 1) - Rpower l (b * a - 1))).
Proof.
  intros B M [A|A].
  - assert (P : 0 < 2 * m / a) by (apply Rdiv_lt_0_compat; lra).
    apply (up_scal _ (fun l => Rpower l (a - 1) - Rpower l (b * a - 1)) P).
    refine (up_wup_sum (fun l => Rpower l (a - 1)) (fun l => - Rpower l (b * a - 1)) (Rpower_wup (a - 1) ltac:(lra)) (Rpower_dn (b * a - 1) _)). nra.
  - assert (A0 : a < 0) by nra.
    assert (P : 0 < 2 * m / - a) by (apply Rdiv_lt_0_compat; lra).
    apply (up_ext (fun l => 2 * m / - a * (Rpower l (b * a - 1) + - Rpower l (a - 1)))).
    + intros l L. field. lra.
    + apply (up_scal _ (fun l => Rpower l (b * a - 1) + - Rpower l (a - 1)) P).
      exact (up_wup_sum (fun l => Rpower l (b * a - 1)) (fun l => - Rpower l (a - 1)) (Rpower_wup (b * a - 1) ltac:(lra)) (Rpower_dn (a - 1) ltac:(lra))).
Qed.
Lemma term_wup b m a : b < 0 -> 0 <= m -> 1 <= a \/ 1 <= b * a -> wup (fun l => 2 * m / a * (Rpower l (a - 1) - Rpower l (b * a - 1))).
Proof.
  intros B M A. destruct (Req_dec m 0) as [->|N]; [|apply up_wup, term_up; auto; lra].
  intros x y L. unfold Rdiv. rewrite Rmult_0_r, !Rmult_0_l. lra.
Qed.
Lemma ogden_up b mu alpha : b < 0 -> stable_ogden b mu alpha -> up (ogden_curve b mu alpha).
Proof.
  intros B [HA HE]. unfold ogden_curve.
  assert (WU : forall r, (forall m a, In (m, a) r -> 0 <= m /\ (1 <= a \/ 1 <= b * a)) ->
    wup (fun l => fold_right (fun t s => 2 * fst t / snd t * (Rpower l (snd t - 1) - Rpower l (b * snd t - 1)) + s) 0 r)).
  { induction r as [|[m a] r IH]; intro H; cbn [fold_right fst snd]; [intros x y L; lra|].
    destruct (H m a (or_introl eq_refl)) as [M A].
    exact (wup_sum _ _ (term_wup b m a B M A) (IH (fun m a I => H m a (or_intror I)))). }
  destruct HE as (m0 & a0 & I0 & P0). induction (combine mu alpha) as [|[m a] r IH]; [destruct I0|].
  cbn [fold_right fst snd]. destruct (HA m a (or_introl eq_refl)) as [M A].
  destruct I0 as [E|I0].
  - injection E as -> ->. exact (up_sum _ _ (term_up b m0 a0 B P0 A) (WU r (fun m a I => HA m a (or_intror I)))).
  - exact (up_wup_sum _ _ (term_wup b m a B M A) (IH (fun m a I => HA m a (or_intror I)) I0)).
Qed.
Lemma ogden_1 b mu alpha : ogden_curve b mu alpha 1 = 0.
Proof.
  unfold ogden_curve. induction (combine mu alpha) as [|[m a] r IH]; cbn [fold_right fst snd]; [reflexivity|].
  rewrite IH. unfold Rpower. rewrite ln_1, !Rmult_0_r, exp_0. ring.
Qed.
Lemma nz_of b mu alpha : (forall m a, In (m, a) (combine mu alpha) -> 0 <= m /\ (1 <= a \/ 1 <= b * a)) -> forall m a, In (m, a) (combine mu alpha) -> a <> 0.
Proof. intros H m a I E. destruct (H m a I) as [_ [A|A]]; subst; lra. Qed.
(** *** every force is reached *)
Lemma Rpower_ge1 x a : 1 <= x -> 0 <= a -> 1 <= Rpower x a.
Proof. intros X A. rewrite <- (Rpower_O x) by lra. apply Rle_Rpower; lra. Qed.
Lemma Rpower_le1 x a : 0 < x <= 1 -> 0 <= a -> Rpower x a <= 1.
Proof.
  intros [X X'] A. unfold Rpower. rewrite <- exp_0. destruct (Req_dec (a * ln x) 0) as [->|N]; [lra|].
  apply Rlt_le, exp_increasing. assert (ln x <= 0). { rewrite <- ln_1. destruct (Req_dec x 1) as [->|M]; [lra|]. apply Rlt_le, ln_increasing; lra. } nra.
Qed.
Lemma Rpower_neg x a : 0 < x -> Rpower x (- a) = / Rpower x a.
Proof. intro X. apply Rpower_Ropp. Qed.
Lemma power_reach f c p e : 0 < c -> 0 < p -> e < 0 ->
  (forall l, 1 <= l -> c * (Rpower l p - Rpower l e) <= f l) -> (forall l, 0 < l <= 1 -> f l <= c * (Rpower l p - Rpower l e)) -> unbounded f.
Proof.
  intros C P E U D v. set (t := 1 + (Rabs v + 1) / c).
  assert (T : c * (t - 1) = Rabs v + 1) by (unfold t; field; lra).
  assert (V1 := Rle_abs v). assert (V2 := Rle_abs (- v)). rewrite Rabs_Ropp in V2. assert (V0 := Rabs_pos v).
  assert (T1 : 1 < t). { unfold t. assert (0 < (Rabs v + 1) / c) by (apply Rdiv_lt_0_compat; lra). lra. }
  assert (LT : 0 < ln t) by (rewrite <- ln_1; apply ln_increasing; lra).
  set (lb := Rpower t (/ p)). set (la := Rpower t (/ e)).
  assert (Pb : Rpower lb p = t). { unfold lb. rewrite Rpower_mult, Rinv_l by lra. apply Rpower_1. lra. }
  assert (Pa : Rpower la e = t). { unfold la. rewrite Rpower_mult, Rinv_l by lra. apply Rpower_1. lra. }
  assert (Lb : 1 < lb). { unfold lb, Rpower. rewrite <- exp_0. apply exp_increasing. assert (0 < / p) by (apply Rinv_0_lt_compat; lra). nra. }
  assert (La : 0 < la < 1). { unfold la, Rpower. split; [apply exp_pos|]. rewrite <- exp_0. apply exp_increasing. assert (/ e < 0) by (apply Rinv_lt_0_compat; lra). nra. }
  exists la, lb. split; [lra|]. split.
  - assert (H := D la ltac:(lra)). rewrite Pa in H. assert (H' := Rpower_le1 la p ltac:(lra) ltac:(lra)).
    assert (c * (Rpower la p - t) <= c * (1 - t)) by (apply Rmult_le_compat_l; lra). lra.
  - assert (H := U lb ltac:(lra)). rewrite Pb in H.
    assert (H' : Rpower lb e <= 1). { replace e with (- - e) by ring. rewrite Rpower_neg by lra. apply inv_le1. apply Rpower_ge1; lra. }
    assert (c * (t - 1) <= c * (t - Rpower lb e)) by (apply Rmult_le_compat_l; lra). lra.
Qed.
Lemma ogden_reach b mu alpha m a : b < 0 -> stable_ogden b mu alpha -> In (m, a) (combine mu alpha) -> 0 < m -> 1 < a \/ 1 < b * a ->
  unbounded (ogden_curve b mu alpha).
Proof.
  intros B [HA _] I M A.
  assert (T1 : forall m a, 2 * m / a * (Rpower 1 (a - 1) - Rpower 1 (b * a - 1)) = 0).
  { intros. unfold Rpower. rewrite ln_1, !Rmult_0_r, exp_0. ring. }
  assert (S : forall r, (forall m a, In (m, a) r -> 0 <= m /\ (1 <= a \/ 1 <= b * a)) -> forall l, 0 < l ->
     let s := fold_right (fun t s => 2 * fst t / snd t * (Rpower l (snd t - 1) - Rpower l (b * snd t - 1)) + s) 0 r in
     ((1 <= l -> 0 <= s) /\ (l <= 1 -> s <= 0)) /\
     forall m a, In (m, a) r -> let x := 2 * m / a * (Rpower l (a - 1) - Rpower l (b * a - 1)) in (1 <= l -> x <= s) /\ (l <= 1 -> s <= x)).
  { intros r H l L. cbv zeta. induction r as [|[m1 a1] r IH]; cbn [fold_right fst snd]; [split; [lra|intros ? ? []]|].
    destruct (H m1 a1 (or_introl eq_refl)) as [M1 A1]. destruct (IH (fun m a I => H m a (or_intror I))) as [IHs IHt].
    assert (W := term_wup b m1 a1 B M1 A1). specialize (T1 m1 a1).
    set (x1 := 2 * m1 / a1 * (Rpower l (a1 - 1) - Rpower l (b * a1 - 1))).
    assert (X : (1 <= l -> 0 <= x1) /\ (l <= 1 -> x1 <= 0)).
    { split; intro G; (destruct (Req_dec l 1) as [Z|Z]; [unfold x1; rewrite Z, T1; lra|]).
      - rewrite <- T1. apply W. lra.
      - rewrite <- T1. apply W. lra. }
    split; [split; intro G; [apply Rplus_le_le_0_compat; [apply X|apply IHs]; lra|]|].
    - assert (x1 <= 0) by (apply X; lra). assert (Y := proj2 IHs G). lra.
    - intros m2 a2 [E|I2].
      + injection E as <- <-. fold x1. split; intro G; [assert (Y := proj1 IHs G)|assert (Y := proj2 IHs G)]; lra.
      + destruct (IHt m2 a2 I2) as [Y1 Y2]. split; intro G; [specialize (Y1 G); assert (Z := proj1 X G)|specialize (Y2 G); assert (Z := proj2 X G)]; lra. }
  assert (A0 : a <> 0) by (intros ->; lra).
  destruct A as [A|A].
  - apply (power_reach _ (2 * m / a) (a - 1) (b * a - 1)); [apply Rdiv_lt_0_compat; lra|lra|nra| |]; intros l L; apply (S _ HA); auto; lra.
  - assert (a < 0) by nra.
    apply (power_reach _ (2 * m / - a) (b * a - 1) (a - 1)); [apply Rdiv_lt_0_compat; lra|lra|lra| |]; intros l L;
    replace (2 * m / - a * (Rpower l (b * a - 1) - Rpower l (a - 1))) with (2 * m / a * (Rpower l (a - 1) - Rpower l (b * a - 1))) by (field; lra);
    apply (S _ HA); auto; lra.
Qed.
Lemma ogden_cont b mu alpha l : 0 < l -> continuity_pt (ogden_curve b mu alpha) l.
Proof.
  intro L. apply cont_of. unfold ogden_curve. induction (combine mu alpha) as [|[m a] r [d IH]]; cbn [fold_right fst snd].
  - exists 0. apply (is_derive_const (V := R_NormedModule)).
  - eexists. apply (is_derive_plus (V := R_NormedModule)); [|exact IH].
    apply (is_derive_scal (fun l => Rpower l (a - 1) - Rpower l (b * a - 1))).
    apply (is_derive_minus (V := R_NormedModule)); apply is_derive_Rpower; exact L.
Qed.
