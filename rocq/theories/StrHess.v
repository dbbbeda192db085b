(** Stretches.hessian is the derivative of Stretches.gradient (C19). *)
From Coq Require Import Reals Lra List Bool FunctionalExtensionality.
From Coquelicot Require Import Coquelicot.
From Verif Require Import Tensor Py Voigt VoigtProofs Algebra Calc Models Frameworks Spaces Spec VCalc EighProofs EigCore ContR EigPath StrCore StrProofs.
Local Open Scope R_scope.

Ltac groups w :=
  destruct (Req_EM_T (w X0) (w X1)) as [?E01|?N01]; destruct (Req_EM_T (w X0) (w X2)) as [?E02|?N02];
  destruct (Req_EM_T (w X1) (w X2)) as [?E12|?N12]; try (exfalso; congruence).

Lemma gsum_avg (w e f : ix3 -> R) : (forall a b, w a = w b -> e a = e b) ->
  sum3 (fun a => e a * f a) = sum3 (fun a => e a / gsum w (fun _ => 1) a * gsum w f a).
Proof.
  intros He. pose proof (He X0 X1) as e01; pose proof (He X0 X2) as e02; pose proof (He X1 X2) as e12. clear He.
  unfold gsum, sum3. groups w;
  repeat match goal with
  | |- context [Req_EM_T ?a ?b] => destruct (Req_EM_T a b); try (exfalso; congruence)
  end.
  - rewrite <- (e01 E01), <- (e02 E02). field.
  - rewrite <- (e01 E01). field.
  - rewrite <- (e02 E02). field.
  - rewrite <- (e12 E12). field.
  - field.
Qed.

(** Hermite interpolation of the coefficients by a quadratic. *)
Lemma hermite (w K : Vec3) (D : ix3 -> ix3 -> R) :
  (forall a b, w a = w b -> K a = K b) ->
  (forall a b k j, w a = w b -> D k j = D (swap3 a b k) (swap3 a b j)) ->
  (forall a b, D a b = D b a) ->
  exists q0 q1 q2, (forall a, K a = q0 + q1 * w a + q2 * w a ^ 2) /\
    (forall a c, a <> c -> w a = w c -> D a a - D a c = q1 + 2 * q2 * w a).
Proof.
  intros HK HD HS.
  pose proof (HK X0 X1) as K01; pose proof (HK X0 X2) as K02; pose proof (HK X1 X2) as K12. clear HK.
  assert (double : forall i j k, i <> j -> i <> k -> j <> k -> w i = w j -> w i <> w k -> K i = K j ->
     D i i - D i j = D j j - D j i ->
     exists q0 q1 q2, (forall a, K a = q0 + q1 * w a + q2 * w a ^ 2) /\
       (forall a c, a <> c -> w a = w c -> D a a - D a c = q1 + 2 * q2 * w a)).
  { intros i j k Nij Nik Njk E N EK ED. set (x := w i) in *. set (y := w k) in *. set (s := D i i - D i j) in *.
    pose (r := (K k - K i - s * (y - x)) / (y - x) ^ 2).
    exists (K i - s * x + r * x ^ 2), (s - 2 * r * x), r.
    assert (cases : forall b, b = i \/ b = j \/ b = k) by (intro b; destruct b, i, j, k; try congruence; auto).
    split.
    - intro a. destruct (cases a) as [->|[->| ->]].
      + fold x. ring.
      + rewrite <- E, <- EK. ring.
      + fold y. unfold r. field. lra.
    - unfold x, y in N, E. intros a c Nac Eac. destruct (cases a) as [->|[->| ->]]; destruct (cases c) as [->|[->| ->]]; try congruence.
      + fold s. fold x. ring.
      + rewrite <- ED, <- E. fold x. ring. }
  groups w.
  - (* triple *)
    assert (ED : forall a c, a <> c -> D a a - D a c = D X0 X0 - D X0 X1).
    { intros a c N.
      pose proof (HD X0 X1 X0 X0 E01) as D1. pose proof (HD X0 X2 X0 X0 E02) as D2. pose proof (HD X1 X2 X0 X1 E12) as D3.
      pose proof (HD X0 X2 X0 X1 E02) as D4. cbn in D1, D2, D3, D4.
      destruct a, c; try congruence; rewrite ?(HS X1 X0), ?(HS X2 X0), ?(HS X2 X1) in *; lra. }
    exists (K X0 - (D X0 X0 - D X0 X1) * w X0), (D X0 X0 - D X0 X1), 0. split.
    + intro a. destruct a; [|rewrite <- (K01 E01), <- E01|rewrite <- (K02 E02), <- E02]; ring.
    + intros a c N _. rewrite ED by auto. ring.
  - apply (double X0 X1 X2); try discriminate; auto. pose proof (HD X0 X1 X0 X0 E01) as D1. cbn in D1. rewrite (HS X1 X0). lra.
  - apply (double X0 X2 X1); try discriminate; auto. pose proof (HD X0 X2 X0 X0 E02) as D1. cbn in D1. rewrite (HS X2 X0). lra.
  - apply (double X1 X2 X0); try discriminate; auto. pose proof (HD X1 X2 X1 X1 E12) as D1. cbn in D1. rewrite (HS X2 X1). lra.
  - pose (a0 := K X0). pose (a1 := (K X1 - K X0) / (w X1 - w X0)).
    pose (a2 := ((K X2 - K X0) / (w X2 - w X0) - a1) / (w X2 - w X1)).
    exists (a0 - a1 * w X0 + a2 * w X0 * w X1), (a1 - a2 * (w X0 + w X1)), a2. split.
    + intro a. destruct a; unfold a2, a1, a0; field; lra.
    + intros a c N E. destruct a, c; congruence.
Qed.

(** *** Tensor algebra in the eigenbasis *)
Lemma dc42_cdya v E a b i j : sym2 E ->
  dc42 (cdya_spec (base v a) (base v b)) E i j = (frame v E a b * (v i a * v j b + v i b * v j a)) / 2.
Proof.
  intros S. unfold dc42, cdya_spec, base, frame, mmul, mtr, sum3.
  rewrite (S X1 X0), (S X2 X0), (S X2 X1). field.
Qed.
Lemma frame_sym v E a b : sym2 E -> frame v E a b = frame v E b a.
Proof. intros S. unfold frame, mmul, mtr, sum3. rewrite (S X1 X0), (S X2 X0), (S X2 X1). ring. Qed.
Lemma Hf_dc D f v E i j : sym2 E ->
  dc42 (Hf D f v) E i j =
  sum3 (fun a => sum3 (fun b => D a b * frame v E b b) * (v i a * v j a))
  + (f X0 X1 * (frame v E X0 X1 * (v i X0 * v j X1 + v i X1 * v j X0))
     + f X1 X2 * (frame v E X1 X2 * (v i X1 * v j X2 + v i X2 * v j X1))
     + f X0 X2 * (frame v E X0 X2 * (v i X0 * v j X2 + v i X2 * v j X0))).
Proof.
  intros S.
  transitivity (sum3 (fun a => sum3 (fun b => D a b * base v a i j * dc22 (base v b) E))
    + 2 * (f X0 X1 * dc42 (cdya_spec (base v X0) (base v X1)) E i j
           + f X1 X2 * dc42 (cdya_spec (base v X1) (base v X2)) E i j
           + f X0 X2 * dc42 (cdya_spec (base v X0) (base v X2)) E i j)).
  - unfold Hf, dc42. set (c01 := cdya_spec (base v X0) (base v X1)). set (c12 := cdya_spec (base v X1) (base v X2)).
    set (c02 := cdya_spec (base v X0) (base v X2)). set (B := base v). clearbody c01 c12 c02 B. unfold dc22, sum3. ring.
  - rewrite !dc42_cdya by auto.
    assert (EB : forall b, dc22 (base v b) E = frame v E b b).
    { intro b. unfold dc22, base, frame, mmul, mtr, sum3. ring. }
    unfold sum3. rewrite !EB. unfold base. field.
Qed.
Lemma unframe v X i j : (forall i j, sum3 (fun a => v i a * v j a) = delta i j) ->
  X i j = sum3 (fun a => sum3 (fun b => frame v X a b * (v i a * v j b))).
Proof.
  intros O. assert (V : mmul v (mtr v) = one2) by (apply T2_ext; exact O).
  transitivity (mmul (mmul v (frame v X)) (mtr v) i j).
  - unfold frame. rewrite mmul_assoc, !mmul_assoc, V, mmul_1_r, <- mmul_assoc, V, mmul_1_l. reflexivity.
  - unfold mmul, mtr. set (Y := frame v X). clearbody Y. unfold sum3. ring.
Qed.
Lemma frame_right A w v E a b : eig_legal A w v -> frame v (mmul E A) a b = frame v E a b * w b.
Proof.
  intros L. unfold frame. rewrite (mmul_assoc (mtr v)), (mmul_assoc E), <- (mmul_assoc (mtr v)).
  transitivity (sum3 (fun k => mmul (mtr v) E a k * mmul A v k b)); [reflexivity|].
  assert (X : forall k, mmul A v k b = w b * v k b) by (intro; apply L).
  unfold sum3. rewrite !X. set (Z := mmul (mtr v) E). clearbody Z. unfold mmul, sum3. ring.
Qed.
Lemma frame_mtr v E a b : frame v (mtr E) a b = frame v E b a.
Proof. unfold frame, mmul, mtr, sum3; ring. Qed.
Lemma frame_left A w v E a b : eig_legal A w v -> frame v (mmul A E) a b = w a * frame v E a b.
Proof.
  intros L. rewrite <- (mtr_mtr (mmul A E)), frame_mtr, mtr_mmul.
  rewrite (mtr_sym A) by apply (eig_sym _ _ _ L). rewrite (frame_right _ _ _ _ _ _ L), frame_mtr. ring.
Qed.
Lemma frame_lin v a b X Y i j : frame v (fun i j => a * X i j + b * Y i j) i j = a * frame v X i j + b * frame v Y i j.
Proof. unfold frame, mmul, mtr, sum3; ring. Qed.

(** polynomial part of the tangent *)
Lemma poly_dc A w v E q1 q2 i j : eig_legal A w v ->
  q1 * E i j + q2 * (mmul E A i j + mmul A E i j) =
  sum3 (fun a => sum3 (fun b => (q1 + q2 * (w a + w b)) * frame v E a b * (v i a * v j b))).
Proof.
  intros L. pose proof (eig_complete _ _ _ L) as O.
  rewrite (unframe v E i j O), (unframe v (mmul E A) i j O), (unframe v (mmul A E) i j O).
  assert (X : forall a b, frame v (mmul E A) a b = frame v E a b * w b) by (intros; apply (frame_right _ _ _ _ _ _ L)).
  assert (Y : forall a b, frame v (mmul A E) a b = w a * frame v E a b) by (intros; apply (frame_left _ _ _ _ _ _ L)).
  unfold sum3. rewrite !X, !Y. ring.
Qed.
Lemma poly_Gf A w v q0 q1 q2 i j : eig_legal A w v ->
  sum3 (fun a => (q0 + q1 * w a + q2 * w a ^ 2) * (v i a * v j a)) = q0 * delta i j + q1 * A i j + q2 * mmul A A i j.
Proof.
  intros L. pose proof (poly_dc A w v A (q1/1) (q2/2) i j L) as P.
  replace (q1 * A i j + q2 * mmul A A i j) with (q1 / 1 * A i j + q2 / 2 * (mmul A A i j + mmul A A i j)) by field.
  rewrite Rplus_assoc. replace (q1 * A i j + q2 * mmul A A i j) with (q1 / 1 * A i j + q2 / 2 * (mmul A A i j + mmul A A i j)) by field.
  rewrite P, <- (eig_complete _ _ _ L). unfold sum3. rewrite !(frame_diag _ _ _ _ _ L). cbn. field.
Qed.

(** The whole tangent. *)
Lemma tangent A w v E (D f : ix3 -> ix3 -> R) q1 q2 i j : eig_legal A w v -> sym2 E ->
  f X0 X1 = q1 + q2 * (w X0 + w X1) -> f X1 X2 = q1 + q2 * (w X1 + w X2) -> f X0 X2 = q1 + q2 * (w X0 + w X2) ->
  dc42 (Hf D f v) E i j = q1 * E i j + q2 * (mmul E A i j + mmul A E i j)
    + sum3 (fun a => sum3 (fun b => (D a b - delta a b * (q1 + 2 * q2 * w a)) * frame v E b b) * (v i a * v j a)).
Proof.
  intros L S F1 F2 F3. rewrite Hf_dc, (poly_dc A w v E q1 q2 i j L) by auto. rewrite F1, F2, F3.
  pose proof (frame_sym v E X0 X1 S) as S1; pose proof (frame_sym v E X0 X2 S) as S2; pose proof (frame_sym v E X1 X2 S) as S3.
  set (Y := frame v E) in *. clearbody Y. unfold sum3, delta; cbn. rewrite <- S1, <- S2, <- S3. ring.
Qed.

Section Hess.
  Context {SV : Type} (lapack : Lapack) (m : StretchModel SV) (psi : Vec3 -> R) (Dom : Vec3 -> Prop).
  Context (HL : lapack_legal lapack) (Hsym : symmetric_fn psi) (Hop : curve_open Dom)
          (Hpos : forall l, Dom l -> positive3 l) (HG : str_gradient_of m psi Dom) (HH : str_hessian_of m Dom).

  Lemma isclose0 x : isclose x 0 = true <-> Rabs x <= / 10 ^ 8.
  Proof.
    unfold isclose, np_atol, np_rtol. rewrite Rminus_0_r, Rabs_R0, Rmult_0_r, Rplus_0_r.
    destruct (Rle_dec (Rabs x) (/ 10 ^ 8)); split; intros; try tauto; discriminate.
  Qed.

  (** derivative of the coefficients along a curve of eigenvalues *)
  Lemma coef_D (c : R -> Vec3) t0 dc l h sv s sv' s' a : dcurve3 c t0 dc -> (forall b, 0 < c t0 b) ->
    (fun b => sqrt (c t0 b)) = l -> Dom l -> returns (sm_hessian m l sv') s' h ->
    is_derive (fun t => strK (fun b => sqrt (c t b)) (gval m sv s (fun b => sqrt (c t b))) a) t0
              (sum3 (fun b => strD l (gval m sv s l) h a b * dc b)).
  Proof.
    intros Dc Pc El Hl Rh. pose proof (sqrt_curve c t0 dc Dc Pc) as Dl.
    pose proof (model_hess_at m psi Dom HG Hop HH l sv' s' h Hl Rh) as HA.
    assert (Loc : locally t0 (fun t => Dom (fun b => sqrt (c t b)))).
    { apply (Hop _ _ _ Dl). rewrite El; auto. }
    assert (DG := HA (fun t b => sqrt (c t b)) t0 _ (fun t => gval m sv s (fun b => sqrt (c t b))) Dl El).
    assert (LG : locally t0 (fun t => grad_at psi (fun b => sqrt (c t b)) (gval m sv s (fun b => sqrt (c t b))))).
    { generalize Loc. apply filter_imp. intros t Ht. apply (gval_at m psi Dom HG); auto. }
    specialize (DG LG a). cbv beta in DG.
    assert (lp : forall b, 0 < l b) by (rewrite <- El; intro b; apply sqrt_lt_R0; auto).
    assert (E1 : forall b, sqrt (c t0 b) = l b) by (intro b; rewrite <- El; reflexivity).
    unfold strK. eapply D_eq.
    - apply (D_div (fun t => gval m sv s (fun b => sqrt (c t b)) a) (fun t => 2 * sqrt (c t a))).
      + exact DG.
      + apply (D_scal (fun t => sqrt (c t a))). apply Dl.
      + rewrite E1. specialize (lp a). lra.
    - cbv beta. rewrite El. rewrite !E1. unfold strD, strK, sum3.
      pose proof (lp X0); pose proof (lp X1); pose proof (lp X2).
      destruct a; cbn [ix3_eqb pos]; rewrite ?E1; field; lra.
  Qed.

  (** The exact tangent: no tolerance in the test for equal stretches. *)
  Definition exactF (l g : Vec3) (h : ix6 -> option R) (a b : ix3) : R :=
    if Req_EM_T (l a ^ 2) (l b ^ 2) then strD l g h b b - strD l g h a b
    else (strK l g a - strK l g b) / (l a ^ 2 - l b ^ 2).

  Lemma stretches_tangent (C : R -> T2) t0 dC : (forall t, sym2 (C t)) -> dcurve2 C t0 dC -> stretch_dom Dom (C t0) ->
    forall sv (s : StrSelf m), exists ms g svn ms' h s',
    let l := lam lapack (asvoigt (C t0)) in
    sm_gradient m l sv (st_model m s) = (ms, Ok (g, svn)) /\ sm_hessian m l svn ms = (ms', Ok h) /\
    str_hessian lapack m (asvoigt (C t0)) sv s = (s', Ok (strHv lapack (asvoigt (C t0)) g h)) /\
    forall (svt : R -> SV) (st : R -> StrSelf m) (G : R -> Vec6),
      locally t0 (fun t => exists svn, returns (str_gradient lapack m (asvoigt (C t)) (svt t)) (st t) (G t, svn)) ->
      dcurve2 (fun t => astensor (G t)) t0 (dc42 (Hf (strD l g h) (exactF l g h) (vec lapack (asvoigt (C t0)))) dC).
  Proof.
    intros HS HD [HP HDom] sv s.
    set (w := fun t => fst (lapack (C t))). set (v := fun t => snd (lapack (C t))).
    assert (L : forall t, eig_legal (C t) (w t) (v t)) by (intro t; apply (legal_sym lapack HL); auto).
    assert (Wp : forall a, 0 < w t0 a) by (apply (eig_posdef _ _ _ (L t0)); auto).
    pose proof (HDom _ _ (L t0)) as Hl. set (l := fun a => sqrt (w t0 a)) in Hl.
    assert (El : lam lapack (asvoigt (C t0)) = l) by (rewrite lam_sym by auto; reflexivity).
    destruct (model_grad m psi Dom HG l sv (st_model m s) Hl) as (g & svn & [ms Rm]).
    destruct (model_hess m Dom HH l svn ms Hl) as (h & [ms' Rh]).
    pose proof (model_grad_at m psi Dom HG l sv (st_model m s) g svn Hl (ex_intro _ ms Rm)) as GA.
    destruct (str_hessian_ok lapack m (asvoigt (C t0)) sv s ms g svn ms' h) as (s' & RH & _); [rewrite El; exact Rm|rewrite El; exact Rh|].
    exists ms, g, svn, ms', h, s'. cbv zeta. rewrite El. split; [exact Rm|]. split; [exact Rh|]. split; [exact RH|].
    intros svt st G HGt.
    assert (Ev : vec lapack (asvoigt (C t0)) = v t0) by (rewrite vec_sym by auto; reflexivity).
    rewrite Ev.
    set (sv0 := sv). set (s0 := st_model m s).
    assert (Eg : gval m sv0 s0 l = g).
    { apply (grad_at_unique psi l); auto. apply (gval_at m psi Dom HG); auto. }
    assert (lw : forall a, l a ^ 2 = w t0 a).
    { intro a. unfold l. replace (sqrt (w t0 a) ^ 2) with (sqrt (w t0 a) * sqrt (w t0 a)) by ring. apply sqrt_sqrt. left; auto. }
    destruct (eig_sides C t0 dC HD w v L (fun A => fst (lapack A)) (fun A => snd (lapack A)) (legal_sym lapack HL))
        as (p & q & dp & dq & Dp & Dq & Ep & Eq & Gp & Gq).
    assert (p0 : p t0 = w t0) by (symmetry; apply Ep; lra).
    assert (q0' : q t0 = w t0) by (symmetry; apply Eq; lra).
    (* the gradient near t0 *)
    pose (K := fun t => strK (fun b => sqrt (w t b)) (gval m sv0 s0 (fun b => sqrt (w t b)))).
    assert (Kt0 : K t0 = strK l g) by (unfold K; fold l; rewrite Eg; reflexivity).
    assert (LD : locally t0 (fun t => Dom (fun b => sqrt (w t b)))).
    { assert (A1 : locally t0 (fun t => Dom (fun b => sqrt (p t b)))).
      { apply (Hop _ _ _ (sqrt_curve p t0 dp Dp ltac:(rewrite p0; auto))). rewrite p0; auto. }
      assert (A2 : locally t0 (fun t => Dom (fun b => sqrt (q t b)))).
      { apply (Hop _ _ _ (sqrt_curve q t0 dq Dq ltac:(rewrite q0'; auto))). rewrite q0'; auto. }
      generalize (filter_and _ _ A1 A2). apply filter_imp. intros t [H1 H2].
      destruct (Rle_dec t0 t); [rewrite Ep by auto; exact H1|rewrite Eq by lra; exact H2]. }
    assert (GE : locally t0 (fun t => astensor (G t) = Gf (K t) (v t))).
    { generalize (filter_and _ _ LD HGt). apply filter_imp. intros t [Dt [svn' Rt]].
      destruct (str_gradient_inv lapack m _ _ _ _ _ Rt) as (g' & Rg & ->).
      rewrite strGv_full. rewrite lam_sym in * by auto. rewrite vec_sym by auto. fold (w t) (v t) in *.
      unfold K. f_equal. f_equal. symmetry.
      apply (grad_at_unique psi (fun b => sqrt (w t b))).
      - apply (gval_at m psi Dom HG); auto.
      - apply (model_grad_at m psi Dom HG _ _ _ _ _ Dt Rg). }
    (* symmetry of the coefficients *)
    set (D := strD l g h). 
    assert (HK : forall a b, w t0 a = w t0 b -> strK l g a = strK l g b).
    { intros a b E. unfold strK. assert (Ex : l a = l b) by (unfold l; rewrite E; reflexivity).
      rewrite Ex, (grad_equal psi Hsym l g a b GA Ex). reflexivity. }
    assert (Dsym : forall a b, D a b = D b a) by (intros; apply strD_sym).
    assert (HDs : forall a b k j, w t0 a = w t0 b -> D k j = D (swap3 a b k) (swap3 a b j)).
    { intros a b k j E. assert (Ex : l a = l b) by (unfold l; rewrite E; reflexivity).
      unfold D, strD. rewrite (hess_equal m psi Dom HG Hsym Hop HH l svn ms h a b k j Hl (ex_intro _ ms' Rh) Ex).
      assert (Ls : forall c, l (swap3 a b c) = l c) by (intro c; destruct a, b, c; cbn; congruence).
      assert (Ks : forall c, strK l g (swap3 a b c) = strK l g c) by (intro c; pose proof (HK a b E); destruct a, b, c; cbn; congruence).
      rewrite !Ls, !Ks. destruct a, b, k, j; cbn [swap3 ix3_eqb]; try reflexivity; unfold Rdiv; ring. }
    destruct (hermite (w t0) (strK l g) D HK HDs Dsym) as (c0 & c1 & c2 & HQ & HQ').
    set (N := fun a b => D a b - delta a b * (c1 + 2 * c2 * w t0 a)).
    assert (Ngrp : forall a b c, w t0 b = w t0 c -> N a b = N a c).
    { intros a b c E. unfold N.
      destruct (ix3_eqb b c) eqn:Ebc; [apply ix3_eqb_eq in Ebc; subst; reflexivity|].
      assert (Nbc : b <> c) by (intros ->; destruct c; discriminate).
      destruct (ix3_eqb a b) eqn:Eab.
      - apply ix3_eqb_eq in Eab; subst b. rewrite delta_same, delta_diff by auto. rewrite <- (HQ' a c) by auto. ring.
      - assert (Nab : a <> b) by (intros ->; destruct b; discriminate).
        destruct (ix3_eqb a c) eqn:Eac.
        + apply ix3_eqb_eq in Eac; subst c. rewrite delta_same, delta_diff by auto. rewrite <- (HQ' a b) by (auto; congruence). ring.
        + assert (Nac : a <> c) by (intros ->; destruct c; discriminate).
          rewrite !delta_diff by auto. rewrite (HDs b c a b E). 
          replace (swap3 b c a) with a by (destruct a, b, c; cbn; congruence).
          replace (swap3 b c b) with c by (destruct b, c; reflexivity). reflexivity. }
    assert (Nsym : forall a b, N a b = N b a).
    { intros a b. unfold N. rewrite (Dsym a b). destruct (ix3_eqb a b) eqn:E; [apply ix3_eqb_eq in E; subst; reflexivity|].
      rewrite !delta_diff; [ring| |]; intros ->; destruct b + destruct a; discriminate. }
    set (eps := fun a => sum3 (fun b => N a b * frame (v t0) dC b b)).
    assert (epsg : forall a c, w t0 a = w t0 c -> eps a = eps c).
    { intros a c E. unfold eps. apply sum3_ext; intro b. rewrite (Nsym a b), (Nsym c b), (Ngrp b a c E). reflexivity. }
    (* remainder *)
    pose (e := fun a t => K t a - (c0 + c1 * w t a + c2 * w t a ^ 2)).
    assert (eD : forall a, is_derive (e a) t0 (eps a)).
    { intro a.
      assert (side : forall (c : R -> Vec3) dc, dcurve3 c t0 dc -> c t0 = w t0 ->
         (forall a, gsum (w t0) dc a = gsum (w t0) (fun b => frame (v t0) dC b b) a) ->
         is_derive (fun t => strK (fun b => sqrt (c t b)) (gval m sv0 s0 (fun b => sqrt (c t b))) a - (c0 + c1 * c t a + c2 * c t a ^ 2)) t0 (eps a)).
      { intros c dc Dc Ec Gc. unfold eps. rewrite <- (gsum_const (w t0) (N a) dc _ (Ngrp a) Gc).
        pose proof (coef_D c t0 dc l h sv0 s0 svn ms a Dc ltac:(rewrite Ec; auto) ltac:(rewrite Ec; reflexivity) Hl (ex_intro _ ms' Rh)) as X.
        rewrite Eg in X. fold D in X. pose proof (Dc a) as Y.
        eapply D_eq. apply (D_minus (fun t => strK (fun b => sqrt (c t b)) (gval m sv0 s0 (fun b => sqrt (c t b))) a) (fun t => c0 + c1 * c t a + c2 * c t a ^ 2)).
        - exact X.
        - repeat dstep.
        - cbv beta. rewrite Ec. unfold N. destruct a; unfold sum3, delta; cbn; ring. }
      apply D_glue with (fun t => strK (fun b => sqrt (p t b)) (gval m sv0 s0 (fun b => sqrt (p t b))) a - (c0 + c1 * p t a + c2 * p t a ^ 2))
                        (fun t => strK (fun b => sqrt (q t b)) (gval m sv0 s0 (fun b => sqrt (q t b))) a - (c0 + c1 * q t a + c2 * q t a ^ 2)).
      + apply side with dp; auto.
      + apply side with dq; auto.
      + intros t Ht. unfold e, K. rewrite Ep; auto.
      + intros t Ht. unfold e, K. rewrite Eq; auto. }
    assert (e0 : forall a, e a t0 = 0).
    { intro a. unfold e. rewrite Kt0, HQ. ring. }
    assert (strF_poly : forall a b, a <> b -> exactF l g h a b = c1 + c2 * (w t0 a + w t0 b)).
    { intros a b Nab. unfold exactF. rewrite !lw.
      destruct (Req_EM_T (w t0 a) (w t0 b)) as [E|E].
      - fold D. rewrite (Dsym a b), (HQ' b a) by auto. rewrite E. ring.
      - rewrite !HQ. field. lra. }
    (* the remainder times the projectors *)
    assert (RD : forall i j, is_derive (fun t => sum3 (fun a => e a t * (v t i a * v t j a))) t0 (sum3 (fun a => eps a * (v t0 i a * v t0 j a)))).
    { intros i j.
      assert (Sl : forall a, exists n, cont n t0 /\ n t0 = eps a /\ forall t, e a t = (t - t0) * n t).
      { intro a. destruct (caratheodory (e a) t0 (eps a) (eD a) (e0 a)) as (n & H). eauto. }
      destruct (Sl X0) as (n0 & K0 & E0 & F0), (Sl X1) as (n1 & K1 & E1 & F1), (Sl X2) as (n2 & K2 & E2 & F2).
      pose (n := fun t a => match a with X0 => n0 t | X1 => n1 t | X2 => n2 t end).
      assert (Kn : forall a, cont (fun t => n t a) t0) by (intros []; auto).
      assert (En : forall a, n t0 a = eps a) by (intros []; auto).
      assert (Fn : forall a t, e a t = (t - t0) * n t a) by (intros []; auto).
      pose (M := fun t => sum3 (fun a => n t a * (v t i a * v t j a))).
      apply D_ext with (fun t => (t - t0) * M t).
      { intro t. unfold M, sum3. rewrite !Fn. ring. }
      eapply D_eq; [apply (D_slope M)|unfold M; apply sum3_ext; intro a; rewrite En; reflexivity].
      apply cont_ext with (fun t => sum3 (fun a => (n t a - eps a) * (v t i a * v t j a)) + sum3 (fun a => eps a * (v t i a * v t j a))).
      { intro t. unfold M, sum3. ring. }
      apply cont_plus.
      - apply cont_squeeze with (fun t => sum3 (fun a => Rabs (n t a - eps a))).
        + ksolve.
        + unfold sum3. rewrite !En, !Rminus_eq_0, Rabs_R0. ring.
        + intro t. unfold sum3. rewrite !En, !Rminus_eq_0, !Rmult_0_l, !Rplus_0_r, Rminus_0_r.
          assert (B : forall a, Rabs ((n t a - eps a) * (v t i a * v t j a)) <= Rabs (n t a - eps a)).
          { intro a. rewrite !Rabs_mult.
            pose proof (unit_component _ i (column_norm _ _ _ (L t) a)) as U1. pose proof (unit_component _ j (column_norm _ _ _ (L t) a)) as U2.
            unfold column in U1, U2. pose proof (Rabs_pos (v t i a)); pose proof (Rabs_pos (v t j a)); pose proof (Rabs_pos (n t a - eps a)).
            rewrite <- (Rmult_1_r (Rabs (n t a - eps a))) at 2. apply Rmult_le_compat_l; auto.
            replace 1 with (1 * 1) by ring. apply Rmult_le_compat; auto. }
          pose proof (B X0); pose proof (B X1); pose proof (B X2).
          eapply Rle_trans; [apply Rabs_triang|]. eapply Rle_trans; [apply Rplus_le_compat_r, Rabs_triang|]. lra.
      - apply cont_ext with (fun t => sum3 (fun a => eps a / gsum (w t0) (fun _ => 1) a * gsum (w t0) (fun b => v t i b * v t j b) a)).
        { intro t. symmetry. apply gsum_avg. exact epsg. }
        apply cont_sum3. intro a. apply cont_mult; [apply cont_const|]. apply (gproj_cont C t0 dC HD w v L). }
    (* assembling *)
    intros i j.
    apply D_ext_loc with (fun t => (c0 * delta i j + c1 * C t i j + c2 * mmul (C t) (C t) i j) + sum3 (fun a => e a t * (v t i a * v t j a))).
    { generalize GE. apply filter_imp. intros t ->. rewrite <- (poly_Gf _ _ _ c0 c1 c2 i j (L t)).
      unfold Gf, base, e, sum3. ring. }
    rewrite (tangent (C t0) (w t0) (v t0) dC D (exactF l g h) c1 c2 i j (L t0) (dC_sym C t0 dC HD w v L)).
    - fold N. fold eps. apply (D_plus (fun t => c0 * delta i j + c1 * C t i j + c2 * mmul (C t) (C t) i j)); [|apply RD].
      unfold mmul, sum3. pose proof (HD i j). eapply D_eq.
      + repeat dstep.
      + ring.
    - pose proof (strF_poly X0 X1 ltac:(discriminate)) as X. exact X.
    - pose proof (strF_poly X1 X2 ltac:(discriminate)) as X. exact X.
    - pose proof (strF_poly X0 X2 ltac:(discriminate)) as X. exact X.
  Qed.
  Lemma strF_exact l g h a b : l a ^ 2 = l b ^ 2 \/ / 10 ^ 8 < Rabs (l a ^ 2 - l b ^ 2) -> strF l g h a b = exactF l g h a b.
  Proof.
    intros [E|E]; unfold strF, exactF.
    - assert (Z : isclose (l a ^ 2 - l b ^ 2) 0 = true).
      { apply isclose0. rewrite E, Rminus_eq_0, Rabs_R0. left. apply Rinv_0_lt_compat. apply pow_lt. lra. }
      rewrite Z. destruct (Req_EM_T (l a ^ 2) (l b ^ 2)); [reflexivity|contradiction].
    - destruct (isclose (l a ^ 2 - l b ^ 2) 0) eqn:Z; [apply isclose0 in Z; lra|].
      destruct (Req_EM_T (l a ^ 2) (l b ^ 2)) as [X|]; [|reflexivity].
      rewrite X, Rminus_eq_0, Rabs_R0 in E. assert (0 < / 10 ^ 8) by (apply Rinv_0_lt_compat, pow_lt; lra). lra.
  Qed.
  Lemma Hf_ext D f f' v : (forall a b, a <> b -> f a b = f' a b) -> Hf D f v = Hf D f' v.
  Proof. intros H. apply T4_ext; intros. unfold Hf. rewrite !H by discriminate. reflexivity. Qed.

  Lemma lam_pow A a : sym2 A -> posdef A -> lam lapack (asvoigt A) a ^ 2 = fst (lapack A) a.
  Proof.
    intros S P. rewrite lam_sym by auto. pose proof (legal_sym lapack HL A S) as L.
    replace (sqrt (fst (lapack A) a) ^ 2) with (sqrt (fst (lapack A) a) * sqrt (fst (lapack A) a)) by ring.
    apply sqrt_sqrt. left. apply (eig_posdef _ _ _ L); auto.
  Qed.
  Lemma stretches_hess : fw_hessian_of (stretches_fw lapack m) (fun C => stretch_dom Dom C /\ separated C).
  Proof.
    intros C t0 dC HS HD [HP Hsep] sv s.
    destruct (stretches_tangent C t0 dC HS HD HP sv s) as (ms & g & svn & ms' & h & s' & Rm & Rh & RH & T).
    eexists. split; [exists s'; exact RH|]. rewrite strHv_full.
    rewrite (Hf_ext _ _ (exactF (lam lapack (asvoigt (C t0))) g h)); [exact T|].
    intros a b _. apply strF_exact. rewrite !lam_pow by (auto; apply HP).
    apply (Hsep _ _ (legal_sym lapack HL _ (HS t0))).
  Qed.
End Hess.
