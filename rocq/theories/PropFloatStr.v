(** * C68: in floating point Stretches(Ogden) is accurate to O(u), whatever eigenvectors LAPACK picks.

    For every invertible deformation gradient, in all three spaces and for all options with
    finalize=True, there are constants K and u0 such that with a unit roundoff u <= u0 every entry
    of the computed stress is within K u of the exact result of the same call - also when principal
    stretches are equal or nearly equal, where the computed eigenvectors are arbitrary.  About
    np.linalg.eigh only its error bound is assumed ([eigh_computed], RoundedStretch.v): the results
    belong to a matrix within c u |A| of the matrix passed in.  For the elasticity tensor the branches
    np.isclose and np.allclose are decided in floating point as well: the claim needs that no
    rounding error can change their outcome. *)
From Coq Require Import Reals List Lra Lia Bool FunctionalExtensionality.
From Verif Require Import Lab LabSpec LabMech.
From Verif Require Import Tensor Py Voigt VoigtProofs Algebra Models ModelProofs Frameworks Spaces Spec SpaceCore PiolaProofs SpaceProofs
  EigCore EighProofs StrCore StrIso Counter Rounded RoundedProofs RoundedStable RoundedCode RoundedSpec RoundedMath RoundedMore
  RoundedSpaces RoundedSpacesProofs RoundedLeaf RoundedStretch RoundedStretchProofs PropStable PropStretches.
Import ListNotations.
Local Open Scope R_scope.

(** No exponent is zero. *)
Definition exponents (og : Ogden) : Prop := List.Forall (fun x => snd x <> 0) (combine (og_mu og) (og_alpha og)).

Definition og_t1 (l : expr) : expr -> R * R -> expr := fun acc '(mu, alpha) => Add acc (Mul (Div (Mul (Num 2) (Num mu)) (Num alpha)) (Pow l (alpha - 1))).
Definition og_t2 (l : expr) : expr -> R * R -> expr := fun acc '(mu, alpha) =>
  Add acc (Mul (Mul (Div (Mul (Num 2) (Num mu)) (Num alpha)) (Sub (Num alpha) (Num 1))) (Pow l (alpha - 2))).
Lemma og_reg l xs : regular l -> 0 < exact l -> List.Forall (fun x => snd x <> 0) xs -> forall acc, regular acc ->
  regular (fold_left (og_t1 l) xs acc) /\ regular (fold_left (og_t2 l) xs acc).
Proof.
  intros H1 H2 HF. induction HF as [|[mu al] xs H HF IH]; intros acc HA; [split; exact HA|]. cbn [snd] in H. cbn [fold_left].
  split; apply IH; cbn [og_t1 og_t2 regular exact]; repeat split; auto.
Qed.
Lemma og_inc u l l' xs : inc u l l' -> forall acc acc', inc u acc acc' ->
  inc u (fold_left (og_t1 l) xs acc) (fold_left (og_t1 l') xs acc') /\ inc u (fold_left (og_t2 l) xs acc) (fold_left (og_t2 l') xs acc').
Proof.
  intro H. induction xs as [|[mu al] xs IH]; intros acc acc' HA; [split; exact HA|]. cbn [fold_left].
  split; apply IH; cbn [og_t1 og_t2]; (apply inc_add; [exact HA|]); (apply inc_mul; [apply inc_refl|]); apply inc_pow, H.
Qed.
Lemma ogden_sound og : exponents og -> sound (ogden_x og).
Proof.
  intro HE. split.
  - intros l H. assert (P : forall a, regular (x_ogden_gradient og (l a)) /\ regular (x_ogden_hessian og (l a))).
    { intro a. destruct (H a). exact (og_reg (l a) _ H0 H1 HE (Num 0) Logic.I). }
    split; [intro a; apply P|]. intros []; cbn [xm_hessian ogden_x]; first [apply P|exact Logic.I].
  - intros u l l' H. assert (P : forall a, inc u (x_ogden_gradient og (l a)) (x_ogden_gradient og (l' a)) /\ inc u (x_ogden_hessian og (l a)) (x_ogden_hessian og (l' a))).
    { intro a. exact (og_inc u (l a) (l' a) _ (H a) (Num 0) (Num 0) (inc_refl _ _)). }
    split; [intro a; apply P|]. intros []; cbn [xm_hessian ogden_x]; first [apply P|apply inc_refl].
Qed.
Lemma og_exact l (L : Vec3) a xs : exact l = L a -> forall acc (A : Vec3), exact acc = A a ->
  exact (fold_left (og_t1 l) xs acc) = fold_left (fun (acc : Vec3) '(mu, alpha) => fun a => acc a + 2 * mu / alpha * Rpower (L a) (alpha - 1)) xs A a /\
  exact (fold_left (og_t2 l) xs acc) = fold_left (fun (acc : Vec3) '(mu, alpha) => fun a => acc a + 2 * mu / alpha * (alpha - 1) * Rpower (L a) (alpha - 2)) xs A a.
Proof.
  intro H. induction xs as [|[mu al] xs IH]; intros acc A HA; [split; exact HA|]. cbn [fold_left].
  split; apply IH; cbn [og_t1 og_t2 exact]; rewrite HA, H; reflexivity.
Qed.
Lemma ogden_renders {SV} og : renders (ogden_model (SV := SV) og) (ogden_x og).
Proof.
  intros l H sv s. exists (ogden_gradient og (fun a => exact (l a))), (ogden_hessian og (fun a => exact (l a))), sv, s, s.
  split; [reflexivity|]. split; [reflexivity|].
  pose proof (fun a => og_exact (l a) (fun a => exact (l a)) a (combine (og_mu og) (og_alpha og)) eq_refl (Num 0) (fun _ => 0) eq_refl) as P.
  split; [intro a; symmetry; apply P|]. intros []; cbn [xm_hessian ogden_x ogden_hessian val exact]; try reflexivity; symmetry; apply P.
Qed.

Notation ogden lapack og := (stretches_fw lapack (ogden_model og)).

Theorem C68_stress : forall (SV : Type) lapack og k f a F (sv : SV) s c, lapack_legal lapack -> exponents og -> invertible F -> 0 <= c -> exists T K u0,
  outcome (sp_gradient k (ogden lapack og) (opt f a) F sv) s = Ok (StressFull T, sv) /\ 0 < u0 /\
  forall u i j x, 0 <= u <= u0 -> float_stress c u (ogden_x og) k f a F i j x -> Rabs (x - T i j) <= K * u.
Proof.
  intros SV lapack og k f a F sv s c HL HE HF Hc. destruct (ogden_exchangeable (SV := SV) og) as [E1 E2].
  destruct (fin_stress (ogden_model og) (ogden_x og) lapack (ogden_sound og HE) (ogden_renders og) HL E1 E2 k (in33 F) (in33_reg F) HF c Hc sv tt f a s) as (T & svn & K & u0 & HT & Hu & H).
  exists T, K, u0. split; [|split; auto].
  destruct (str_gradient_inv lapack (ogden_model og) (seen k (right_CG F)) sv (sp_mat s) (strGv lapack (seen k (right_CG F)) (ogden_gradient og (lam lapack (seen k (right_CG F))))) sv) as (g & R1 & _).
  { eexists. apply str_gradient_ok with (ms := st_model _ (sp_mat s)). reflexivity. }
  assert (EV : svn = sv); [|rewrite <- EV at 2; exact HT].
  assert (EQ : outcome (fw_gradient (ogden lapack og) (seen k (right_CG F)) sv) (sp_mat s) = Ok (strGv lapack (seen k (right_CG F)) (ogden_gradient og (lam lapack (seen k (right_CG F)))), sv)).
  { unfold outcome. change (fw_gradient (ogden lapack og)) with (str_gradient lapack (ogden_model (SV := SV) og)).
    rewrite (str_gradient_ok lapack (ogden_model og) (seen k (right_CG F)) sv (sp_mat s) (st_model _ (sp_mat s)) (ogden_gradient og (lam lapack (seen k (right_CG F)))) sv eq_refl). reflexivity. }
  rewrite (sp_gradient_ok _ _ k F sv s _ _ EQ) in HT. congruence.
Qed.
Print Assumptions C68_stress.

(** The tensor that the space hands to its framework (Dilatational: as the code has it). *)
Definition received (k : SpaceKind) (C : T2) : T2 := match k with
  | KDeformation => C | KDistortional => distortional_part C | KDilatational => mscal (Rpower (det3 C) (1 / 3)) C end.
Lemma seen_received k F : astensor (seen k (right_CG F)) = received k (cauchy_green F).
Proof.
  unfold received, distortional_part. rewrite det_cg, <- right_CG_full. destruct k; [reflexivity| |]; apply T2_ext; intros; reflexivity.
Qed.
(** The elasticity tensor: no two squared principal stretches of the tensor that the framework sees
    differ by exactly the tolerance of np.isclose, and the tangent is not borderline for np.allclose. *)
Theorem C68_elasticity : forall (SV : Type) lapack og k f a F (sv : SV) s c, lapack_legal lapack -> exponents og -> invertible F -> 0 <= c ->
  (forall w v, eig_legal (received k (cauchy_green F)) w v -> forall a b, Rabs (w a - w b) <> / 10 ^ 8) ->
  (k = KDistortional -> clear_cut (SV := SV) (ogden lapack og) F) -> exists A K u0,
  outcome (sp_hessian k (ogden lapack og) (opt f a) F sv) s = Ok (ElastFull A) /\ 0 < u0 /\
  forall u i j p q x, 0 <= u <= u0 -> float_elasticity c u (ogden_x og) k f a F i j p q x -> Rabs (x - A i j p q) <= K * u.
Proof.
  intros SV lapack og k f a F sv s c HL HE HF Hc HU HC. destruct (ogden_exchangeable (SV := SV) og) as [E1 E2].
  apply (fin_elasticity (ogden_model og) (ogden_x og) lapack (ogden_sound og HE) (ogden_renders og) HL E1 E2 k (in33 F) (in33_reg F) HF c Hc sv tt f a s); [|exact HC].
  intros x y. apply (HU _ (snd (lapack (astensor (seen k (right_CG F)))))). rewrite <- (seen_received k F). apply HL.
Qed.
Print Assumptions C68_elasticity.

(** Every machine with unit roundoff u that evaluates the expressions from left to right and calls a
    backward stable eigenvalue routine. *)
Definition machine_stress (rnd : R -> R) (eigh : T2 -> Vec3 * T2) xm k f a F : T2 := fun i j =>
  let A : Vec6 := fun n => float_eval rnd (x_seen k (in33 F) n) in
  let '(w, v) := eigh (astensor A) in
  float_eval rnd (x_gradient k (str_comp xm w v (fun _ => true)) (in33 F) f a i j).
Ltac fil := repeat first [exact Logic.I | discriminate | assumption | match goal with |- _ /\ _ => split end
  | progress cbn [filled fold_right map all6 all3 flat_map app] | match goal with H : forall _, _ |- _ => apply H end].
Section Filled.
  Variables (k : SpaceKind) (m : Comp) (XF : XT2).
  Hypothesis HF : forall i j, filled (XF i j).
  Lemma fil_C v : filled (x_C XF v). Proof. unfold x_C, x_right_CG, x_asvoigt. fil. Qed.
  Lemma fil_I3 : filled (x_I3 XF). Proof. pose proof fil_C. unfold x_I3, x_det, sq. fil. Qed.
  Lemma fil_seen v : filled (x_seen k XF v). Proof. pose proof fil_C. pose proof fil_I3. unfold x_seen. destruct k; fil. Qed.
  Hypothesis HG : forall v, filled (c_dWdC m (x_seen k XF) v).
  Lemma fil_Sb v : filled (x_Sb k m XF v). Proof. pose proof fil_I3. unfold x_Sb. destruct k; fil. Qed.
  Lemma fil_invC v : filled (x_invC XF v). Proof. pose proof fil_C. pose proof fil_I3. unfold x_invC, x_inv. destruct v; fil. Qed.
  Lemma fil_S v : filled (x_stress2 k m XF v).
  Proof. pose proof fil_C. pose proof fil_Sb. pose proof fil_invC. unfold x_stress2, x_SbC, x_trSb, x_ddot22, x_trace. destruct k; fil. Qed.
  Lemma fil_gradient f a i j : filled (x_gradient k m XF f a i j).
  Proof. pose proof fil_S. pose proof fil_I3. unfold x_gradient, x_area, x_force, x_astensor. destruct f, a; fil. Qed.
End Filled.
Lemma og_filled l xs : filled l -> forall acc, filled acc -> filled (fold_left (og_t1 l) xs acc).
Proof. intro H. induction xs as [|[mu al] xs IH]; intros acc HA; [exact HA|]. cbn [fold_left]. apply IH. cbn [og_t1 filled]. tauto. Qed.
Theorem C68_machine : forall (SV : Type) lapack og k f a F (sv : SV) s c, lapack_legal lapack -> exponents og -> invertible F -> 0 <= c -> exists T K u0,
  outcome (sp_gradient k (ogden lapack og) (opt f a) F sv) s = Ok (StressFull T, sv) /\ 0 < u0 /\
  forall u rnd eigh, 0 <= u <= u0 -> (forall x, fl u x (rnd x)) -> (forall A, eigh_computed c u A (fst (eigh A)) (snd (eigh A))) ->
    forall i j, Rabs (machine_stress rnd eigh (ogden_x og) k f a F i j - T i j) <= K * u.
Proof.
  intros SV lapack og k f a F sv s c HL HE HF Hc. destruct (C68_stress SV lapack og k f a F sv s c HL HE HF Hc) as (T & K & u0 & H1 & H2 & H3).
  exists T, K, u0. split; [exact H1|]. split; [exact H2|]. intros u rnd eigh U HR HEig i j. apply H3; [exact U|].
  unfold machine_stress. set (A := fun n => float_eval rnd (x_seen k (in33 F) n)). specialize (HEig (astensor A)). destruct (eigh (astensor A)) as [w v]. cbn [fst snd] in HEig.
  exists A, w, v. split; [|split; [exact HEig|]].
  - intro n. apply float_eval_rounded; [exact HR|]. apply (fil_seen k (in33 F)). intros. exact Logic.I.
  - apply float_eval_rounded; [exact HR|]. apply fil_gradient; [intros; exact Logic.I|]. intro n. cbn [c_dWdC str_comp].
    unfold x_str_gradient, x_dWdlC, x_M, x_asvoigt. assert (P : forall a, filled (xm_gradient (ogden_x og) (x_lam (fun a => Num (w a))) a)).
    { intro b. apply (og_filled (x_lam (fun a => Num (w a)) b) _); exact Logic.I. }
    set (X := xm_gradient (ogden_x og) (x_lam (fun a => Num (w a)))) in *. clearbody X. fil.
Qed.
Print Assumptions C68_machine.

(** Simulated curves (stress_curve_fit): the load case, the eigenvalue routine and the space in floating point. *)
Lemma lc_regular lc XF x : In (lc, XF) [(uniaxial, x_uniaxial); (biaxial, x_biaxial); (planar, x_planar)] -> 0 < x ->
  (forall i j, regular (XF x i j)) /\ ex33 (XF x) = lc x /\ lc x X0 X0 <> 0 /\ invertible (lc x).
Proof.
  intros HI P. pose proof (sqrt_lt_R0 x P) as Q. cbn [In] in HI. destruct HI as [HI|[HI|[HI|[]]]]; injection HI as <- <-.
  - split; [intros i j; destruct i, j; cbn; try exact Logic.I; repeat split; lra|].
    split; [apply T2_ext; intros i j; destruct i, j; reflexivity|]. split; [cbn; lra|].
    unfold invertible. rewrite (uniaxial_det x P). lra.
  - split; [intros i j; destruct i, j; cbn; try exact Logic.I; repeat split; nra|].
    split; [apply T2_ext; intros i j; destruct i, j; cbn; try reflexivity; unfold ex33, biaxial; cbn; rewrite Rmult_1_r; reflexivity|]. split; [cbn; lra|].
    unfold invertible. rewrite (biaxial_det x) by lra. lra.
  - split; [intros i j; destruct i, j; cbn; try exact Logic.I; repeat split; lra|].
    split; [apply T2_ext; intros i j; destruct i, j; reflexivity|]. split; [cbn; lra|].
    unfold invertible. rewrite (planar_det x) by lra. lra.
Qed.
Lemma str_curves {SV} (m : StretchModel SV) xm lapack (ms : sm_self m) : sound xm -> renders m xm -> lapack_legal lapack -> exchangeable_gradient m -> exchangeable_hessian m ->
  forall sim p lc XF k (none : SV) xs c, simulates sim p lc k none (stretches_fw lapack m) -> 0 <= c ->
  In (lc, XF) [(uniaxial, x_uniaxial); (biaxial, x_biaxial); (planar, x_planar)] -> (forall l, In l xs -> 0 < l) ->
  exists fs, stress_curve_fit sim xs p = Ok fs /\
  List.Forall2 (fun l f => exists K u0, 0 < u0 /\ forall u y, 0 <= u <= u0 -> float_point c u xm k (XF l) y -> Rabs (y - f) <= K * u) xs fs.
Proof.
  intros HX HR HL EG EH sim p lc XF k none xs c S Hc HI P. apply (simulate_points sim p lc k none (stretches_fw lapack m) _ xs S). intros s x I.
  destruct (lc_regular lc XF x HI (P x I)) as (RF & EF & N & HD).
  assert (HD' : invertible (ex33 (XF x))) by (rewrite EF; exact HD). assert (N' : ex33 (XF x) X0 X0 <> 0) by (rewrite EF; exact N).
  destruct (fin_point m xm lapack HX HR HL EG EH k (XF x) RF HD' c Hc none ms s N') as (T & svn & K & u0 & HT & Hu & H).
  exists (T X0 X0 - T X2 X2 * ex33 (XF x) X2 X2 / ex33 (XF x) X0 X0). split; [|exists K, u0; auto].
  rewrite EF in *. unfold point_stress. rewrite (proj1 S). cbn [space_material mat_gradient mat_none mat_now]. unfold full_only.
  unfold outcome in HT. destruct (sp_gradient k (stretches_fw lapack m) default_opts (lc x) none s) as [s' r] eqn:E. cbn [snd] in HT. subst r. reflexivity.
Qed.
Theorem C68_curves : forall (SV : Type) lapack og sim p lc XF k (none : SV) xs c, lapack_legal lapack -> exponents og ->
  simulates sim p lc k none (ogden lapack og) -> 0 <= c ->
  In (lc, XF) [(uniaxial, x_uniaxial); (biaxial, x_biaxial); (planar, x_planar)] -> (forall l, In l xs -> 0 < l) ->
  exists fs, stress_curve_fit sim xs p = Ok fs /\
  List.Forall2 (fun l f => exists K u0, 0 < u0 /\ forall u y, 0 <= u <= u0 -> float_point c u (ogden_x og) k (XF l) y -> Rabs (y - f) <= K * u) xs fs.
Proof.
  intros SV lapack og sim p lc XF k none xs c HL HE. destruct (ogden_exchangeable (SV := SV) og) as [E1 E2].
  exact (str_curves (ogden_model og) (ogden_x og) lapack tt (ogden_sound og HE) (ogden_renders og) HL E1 E2 sim p lc XF k none xs c).
Qed.
Print Assumptions C68_curves.

(** The hypotheses are met, with three equal principal stretches: F = 1, mu = 3, alpha = 2. *)
Lemma one_eig w v : eig_legal one2 w v -> forall a, w a = 1.
Proof.
  intros (H1 & H2 & _) a. pose proof (H1 a a) as N. pose proof (H2 X0 a). pose proof (H2 X1 a). pose proof (H2 X2 a).
  unfold sum3, one2, delta in *. cbn in *. replace (ix3_eqb a a) with true in N by (destruct a; reflexivity). nra.
Qed.

Lemma dg_one : cauchy_green one2 = one2.
Proof. apply T2_ext. intros i j. unfold cauchy_green, mmul, mtr, one2, delta, sum3. destruct i, j; cbn; ring. Qed.
Example C68_example : let og := {| og_mu := [3]; og_alpha := [2] |} in exists lapack, lapack_legal lapack /\ exponents og /\ invertible one2 /\
  (forall k w v, eig_legal (received k (cauchy_green one2)) w v -> forall a b, Rabs (w a - w b) <> / 10 ^ 8) /\
  clear_cut (SV := unit) (ogden lapack og) one2 /\
  (forall u A, 0 <= u -> eigh_computed 1 u (astensor A) (fst (lapack (astensor A))) (snd (lapack (astensor A)))).
Proof.
  cbv zeta. destruct C08_lapack_exists as [lapack HL]. exists lapack. split; [exact HL|].
  split; [repeat constructor; cbn; lra|]. split; [unfold invertible, det3, one2, delta; cbn; lra|].
  assert (P10 : 0 < / 10 ^ 8) by (apply Rinv_0_lt_compat, pow_lt; lra).
  assert (DO : det3 one2 = 1) by (unfold det3, one2, delta; cbn; ring).
  assert (RO : forall p, mscal (Rpower 1 p) one2 = one2) by (intro p; apply T2_ext; intros; unfold mscal, Rpower; rewrite ln_1, Rmult_0_r, exp_0; ring).
  assert (RC : forall k, received k (cauchy_green one2) = one2).
  { intro k. rewrite dg_one. destruct k; cbn [received]; unfold distortional_part; rewrite ?DO, ?RO; reflexivity. }
  split.
  { intros k w v HLg a b. rewrite RC in HLg. rewrite !(one_eig w v HLg), Rminus_eq_0, Rabs_R0. lra. }
  split.
  - intros sv s H E. left. intros v w.
    destruct (str_hessian_ok lapack (ogden_model (SV := unit) {| og_mu := [3]; og_alpha := [2] |}) (asvoigt (distortional_part (cauchy_green one2))) sv s (st_model _ s)
      (ogden_gradient {| og_mu := [3]; og_alpha := [2] |} (lam lapack (asvoigt (distortional_part (cauchy_green one2))))) sv (st_model _ s)
      (ogden_hessian {| og_mu := [3]; og_alpha := [2] |} (lam lapack (asvoigt (distortional_part (cauchy_green one2))))) eq_refl eq_refl) as (s' & EQ & _).
    unfold outcome in E. cbn [fw_hessian stretches_fw] in E. rewrite EQ in E. cbn [snd] in E. injection E as <-.
    change (distortional_part (cauchy_green one2)) with (received KDistortional (cauchy_green one2)). rewrite RC.
    set (l := lam lapack (asvoigt one2)).
    assert (EL : forall a, l a = 1).
    { intro a. unfold l, lam. pose proof (HL (asvoigt one2)) as LG. unfold lapack_at in LG.
      assert (EO : astensor (asvoigt one2) = one2) by (apply astensor_asvoigt_f; intros i j; destruct i, j; reflexivity).
      rewrite EO in *. rewrite (one_eig _ _ LG a). apply sqrt_1. }
    set (g := ogden_gradient _ l). set (h := ogden_hessian _ l).
    assert (P1 : forall p, Rpower 1 p = 1) by (intro p; unfold Rpower; rewrite ln_1, Rmult_0_r, exp_0; reflexivity).
    assert (Eg : forall a, g a = 3) by (intro a; unfold g, ogden_gradient; cbn; rewrite EL, P1; field).
    assert (Eh : forall a b, val (h (pos a b)) = if ix3_eqb a b then 3 else 0).
    { intros a b. unfold h, ogden_hessian. destruct a, b; cbn; rewrite ?EL, ?P1; try reflexivity; field. }
    assert (ED : strD l g h = fun _ _ => 0).
    { apply functional_extensionality; intro a. apply functional_extensionality; intro b. unfold strD, strK. rewrite Eh, Eg, !EL. destruct a, b; cbn; field. }
    assert (EF : strF l g h = fun _ _ => 0).
    { apply functional_extensionality; intro a. apply functional_extensionality; intro b. unfold strF. rewrite ED. unfold strK. rewrite !Eg, !EL.
      assert (isclose (1 ^ 2 - 1 ^ 2) 0 = true) as -> by (apply isclose0_true; rewrite Rminus_eq_0, Rabs_R0; lra). ring. }
    assert (EH : strHv lapack (asvoigt one2) g h = fun _ _ => 0).
    { unfold strHv. fold l. rewrite ED, EF. assert (Z : Hf (fun _ _ => 0) (fun _ _ => 0) (vec lapack (asvoigt one2)) = fun _ _ _ _ => 0) by (apply T4_ext; intros; unfold Hf, sum3; ring). rewrite Z. apply Mat6_ext. intros x y. destruct x, y; reflexivity. }
    rewrite EH, Rmult_0_r, Rabs_R0. exact P10.
  - intros u A U. pose proof (size2_pos (astensor A)) as PA. assert (0 <= 1 * u * size2 (astensor A)) by nra.
    exists (fun _ _ => 0), (fst (lapack (astensor A))), (snd (lapack (astensor A))). split; [intros; rewrite Rabs_R0; auto|].
    split; [|split; intros; rewrite Rminus_eq_0, Rabs_R0; lra].
    replace (fun i j => astensor A i j + 0) with (astensor A) by (apply T2_ext; intros; ring). apply HL.
Qed.
