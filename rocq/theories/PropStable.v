(** * C55: in floating point all three spaces and the simulated curves are accurate to O(u).

    For every deformation gradient that is invertible, and hence for every stretch l > 0, there
    are constants K and u0 such that with a unit roundoff u <= u0 every entry of the computed
    stress and elasticity tensor is within K u of the exact result of the same call.  All
    summation orders and all roundings (Rounded.v); powers of det C and roots included.  The
    branch np.allclose(C4b, 0) of Distortional.hessian is decided in floating point as well: the
    claim needs that no rounding error can change its outcome. *)
From Coq Require Import Reals List Lra Lia Bool FunctionalExtensionality.
From Verif Require Import Tensor Py Voigt VoigtProofs Algebra Models ModelProofs Frameworks Spaces Spec InvCore SpaceCore
  PiolaProofs SpaceProofs VCalc Calc Counter ScaleProofs Lab LabSpec LabMech LabCurves Rounded RoundedProofs RoundedStable RoundedCode RoundedSpec RoundedMath RoundedMore
  RoundedSpaces RoundedSpacesProofs.
Import ListNotations.
Local Open Scope R_scope.

Notation space m := (invariants_fw (tod_model m)).
Notation opt f a := {| finalize := true; force := f; area := a |}.

(** The material tangent that Distortional.hessian compares with 0 is not borderline: all entries
    are below the tolerance, or some entry is above it. *)
Definition clear_cut {SV} (fw : Framework SV) (F : T2) : Prop := forall sv s H,
  outcome (fw_hessian fw (asvoigt (distortional_part (cauchy_green F))) sv) s = Ok H ->
  (forall v w, Rabs (4 * Rpower (det3 (cauchy_green F)) (-2/3) * H v w) < / 10 ^ 8) \/
  exists v w, / 10 ^ 8 < Rabs (4 * Rpower (det3 (cauchy_green F)) (-2/3) * H v w).

Lemma in33_ex F : ex33 (in33 F) = F. Proof. reflexivity. Qed.
Lemma in33_reg F i j : regular (in33 F i j). Proof. exact Logic.I. Qed.

Lemma det_cg F : det3 (cauchy_green F) = det (right_CG F).
Proof. rewrite <- right_CG_full. symmetry. apply det_astensor. Qed.

Theorem C55_stress : forall (SV : Type) (m : TOD) k f a F (sv : SV) s, invertible F -> exists T K u0,
  outcome (sp_gradient k (space m) (opt f a) F sv) s = Ok (StressFull T, sv) /\ 0 < u0 /\
  forall u i j x, 0 <= u <= u0 -> rounded u (x_gradient k m (in33 F) f a i j) x -> Rabs (x - T i j) <= K * u.
Proof.
  intros SV m k f a F sv s HD.
  destruct (uniform2 (x_gradient k m (in33 F) f a) (reg_gradient k m (in33 F) (in33_reg F) HD f a)) as (K & u0 & Hu & H).
  exists (ex33 (x_gradient k m (in33 F) f a)), K, u0. split; [exact (ex_gradient k m (in33 F) f a SV sv s)|]. split; auto.
Qed.
Print Assumptions C55_stress.

Lemma branch_stable k m XF (D : forall v w, regular (x_C4b k m XF v w)) :
  (forall v w, Rabs (exact (x_C4b k m XF v w)) < / 10 ^ 8) \/ (exists v w, / 10 ^ 8 < Rabs (exact (x_C4b k m XF v w))) ->
  exists u0, 0 < u0 /\ forall u B atol small, 0 <= u <= u0 -> (forall v w, rounded u (x_C4b k m XF v w) (B v w)) -> fl u (/ 10 ^ 8) atol ->
    (small = true <-> forall v w, Rabs (B v w) <= atol) -> small = allclose0 (ex66 (x_C4b k m XF)).
Proof.
  intro H. destruct (uniform (flat_map (fun v => map (x_C4b k m XF v) all6) all6)) as (K & u0 & HK & Hu & HU).
  { apply List.Forall_forall. intros e I. apply in_flat_map in I. destruct I as (v & _ & I). apply in_map_iff in I. destruct I as (w & <- & _). apply D. }
  assert (A6 : forall v : ix6, In v all6) by (intros []; cbn; tauto).
  assert (HB : forall u v w b, 0 <= u <= u0 -> rounded u (x_C4b k m XF v w) b -> Rabs (b - exact (x_C4b k m XF v w)) <= K * u).
  { intros u v w b U HR. apply (HU _ u b); auto. apply in_flat_map. exists v. split; auto. apply in_map_iff. eauto. }
  clear HU. set (t := / 10 ^ 8) in *. assert (Ht : 0 < t) by (apply Rinv_0_lt_compat, pow_lt; lra).
  assert (AT : forall u atol, 0 <= u -> fl u t atol -> Rabs (atol - t) <= u * t) by (intros u atol U; unfold fl; rewrite (Rabs_pos_eq t) by lra; auto).
  destruct H as [H|(v0 & w0 & H)].
  - assert (G : exists g, 0 < g /\ forall v w, Rabs (exact (x_C4b k m XF v w)) <= t - g).
    { assert (L : forall l : list (ix6 * ix6), exists g, 0 < g /\ forall vw, In vw l -> Rabs (exact (x_C4b k m XF (fst vw) (snd vw))) <= t - g).
      { induction l as [|[v w] l (g & Hg & IH)]; [exists 1; split; [lra|intros ? []]|].
        pose proof (H v w). exists (Rmin g (t - Rabs (exact (x_C4b k m XF v w)))). split; [apply Rmin_pos; lra|].
        intros vw [<-|I]; cbn [fst snd].
        - pose proof (Rmin_r g (t - Rabs (exact (x_C4b k m XF v w)))). lra.
        - pose proof (Rmin_l g (t - Rabs (exact (x_C4b k m XF v w)))). specialize (IH vw I). lra. }
      destruct (L (list_prod all6 all6)) as (g & Hg & HL). exists g. split; auto. intros v w.
      apply (HL (v, w)). apply in_prod; auto. }
    destruct G as (g & Hg & HG). exists (Rmin u0 (g / (K + t))).
    assert (0 < g / (K + t)) by (apply Rdiv_lt_0_compat; lra). split; [apply Rmin_pos; auto|].
    intros u B atol small U HR HF HS. pose proof (Rmin_l u0 (g / (K + t))). pose proof (Rmin_r u0 (g / (K + t))).
    assert (UG : u * (K + t) <= g). { apply Rle_trans with (g / (K + t) * (K + t)); [apply Rmult_le_compat_r; lra|]. right. field. lra. }
    specialize (AT u atol ltac:(lra) HF). assert (AT1 : t - u * t <= atol <= t + u * t) by (unfold Rabs in AT; destruct (Rcase_abs (atol - t)); lra).
    rewrite (allclose_true (ex66 (x_C4b k m XF))).
    + apply HS. intros v w. specialize (HB u v w (B v w) ltac:(lra) (HR v w)). specialize (HG v w).
      replace (B v w) with ((B v w - exact (x_C4b k m XF v w)) + exact (x_C4b k m XF v w)) by ring.
      eapply Rle_trans; [apply Rabs_triang|]. lra.
    + intros v w. left. apply H.
  - set (g := Rabs (exact (x_C4b k m XF v0 w0)) - t). assert (Hg : 0 < g) by (unfold g; lra).
    exists (Rmin u0 (g / (2 * (K + t)))).
    assert (0 < g / (2 * (K + t))) by (apply Rdiv_lt_0_compat; lra). split; [apply Rmin_pos; auto|].
    intros u B atol small U HR HF HS. pose proof (Rmin_l u0 (g / (2 * (K + t)))). pose proof (Rmin_r u0 (g / (2 * (K + t)))).
    assert (UG : u * (K + t) <= g / 2). { apply Rle_trans with (g / (2 * (K + t)) * (K + t)); [apply Rmult_le_compat_r; lra|]. right. field. lra. }
    specialize (AT u atol ltac:(lra) HF). assert (AT1 : t - u * t <= atol <= t + u * t) by (unfold Rabs in AT; destruct (Rcase_abs (atol - t)); lra).
    rewrite (allclose_false (ex66 (x_C4b k m XF)) v0 w0 H).
    destruct small; [|reflexivity]. exfalso. assert (HX := proj1 HS eq_refl v0 w0).
    specialize (HB u v0 w0 (B v0 w0) ltac:(lra) (HR v0 w0)).
    assert (Rabs (exact (x_C4b k m XF v0 w0)) <= Rabs (B v0 w0) + Rabs (B v0 w0 - exact (x_C4b k m XF v0 w0))).
    { rewrite (Rabs_minus_sym (B v0 w0)). replace (exact (x_C4b k m XF v0 w0)) with (B v0 w0 + (exact (x_C4b k m XF v0 w0) - B v0 w0)) at 1 by ring. apply Rabs_triang. }
    unfold g in *. lra.
Qed.
Theorem C55_elasticity : forall (SV : Type) (m : TOD) k f a F (sv : SV) s, invertible F ->
  (k = KDistortional -> clear_cut (SV := SV) (space m) F) -> exists A K u0,
  outcome (sp_hessian k (space m) (opt f a) F sv) s = Ok (ElastFull A) /\ 0 < u0 /\
  forall u i j p q x, 0 <= u <= u0 -> rounded_hessian u k m f a (in33 F) i j p q x -> Rabs (x - A i j p q) <= K * u.
Proof.
  intros SV m k f a F sv s HD HC.
  set (XF := in33 F). set (b := allclose0 (ex66 (x_C4b k m XF))).
  assert (RB : forall v w, regular (x_C4b k m XF v w)) by (exact (reg_C4b k m XF (in33_reg F) HD)).
  destruct (uniform4 (x_hessian k m XF f a b) (reg_hessian k m XF (in33_reg F) HD f a b)) as (K & u0 & HK & Hu & H).
  assert (BR : exists u1, 0 < u1 /\ forall u B atol small i j p q x, 0 <= u <= u1 -> (forall v w, rounded u (x_C4b k m XF v w) (B v w)) -> fl u (/ 10 ^ 8) atol ->
    (small = true <-> forall v w, Rabs (B v w) <= atol) -> rounded u (x_hessian k m XF f a small i j p q) x -> rounded u (x_hessian k m XF f a b i j p q) x).
  { assert (CASE : k = KDistortional \/ k <> KDistortional) by (destruct k; [right; discriminate|left; reflexivity|right; discriminate]).
    destruct CASE as [EK|NK].
    - destruct (branch_stable k m XF RB) as (u1 & Hu1 & HB).
      + destruct (fw_gradient_x m (x_seen k XF) SV sv (sp_mat s)) as (s' & _ & H2). 
        assert (ES : ex6 (x_seen k XF) = asvoigt (distortional_part (cauchy_green F))).
        { rewrite ex_seen. subst k. cbn [seen]. unfold distortional_part. change (ex33 XF) with F.
          rewrite det_cg, <- right_CG_full. apply Vec6_ext. intro v. unfold vscal, asvoigt, mscal, astensor. destruct v; reflexivity. }
        rewrite ES in H2. pose proof (ex_C4b k m XF) as E4. change (ex33 XF) with F in E4.
        assert (EE : forall v w, exact (x_C4b k m XF v w) = 4 * Rpower (det3 (cauchy_green F)) (-2/3) * ex66 (x_d2WdCdC m (x_seen k XF)) v w).
        { intros v w. change (exact (x_C4b k m XF v w)) with (ex66 (x_C4b k m XF) v w). rewrite E4, det_cg. subst k. reflexivity. }
        destruct (HC EK sv s' _ H2) as [HL|(v & w & HL)]; [left|right; exists v, w]; intros; rewrite EE; auto.
      + exists u1. split; auto. intros u B atol small i j p q x U HR HF HS HX. pose proof (HB u B atol small U HR HF HS) as EB. unfold b. rewrite <- EB. exact HX.
    - exists 1. split; [lra|]. intros u B atol small i j p q x _ _ _ _ HX.
      replace (x_hessian k m XF f a b i j p q) with (x_hessian k m XF f a small i j p q); [exact HX|].
      clear - NK. unfold x_hessian. destruct k; [reflexivity|congruence|reflexivity]. }
  destruct BR as (u1 & Hu1 & HB).
  exists (fun i j p q => exact (x_hessian k m XF f a b i j p q)), K, (Rmin u0 u1).
  split; [exact (ex_hessian k m XF f a SV sv s)|]. split; [apply Rmin_pos; auto|].
  pose proof (Rmin_l u0 u1). pose proof (Rmin_r u0 u1).
  intros u i j p q x U (B & atol & small & HR & HF & HS & HX). apply (H u i j p q x); [lra|].
  apply (HB u B atol small i j p q x ltac:(lra) HR HF HS HX).
Qed.
Print Assumptions C55_elasticity.

(** Simulated curves: stress_curve_fit of the library's material at stretches l > 0, with the
    deformation gradient itself computed in floating point. *)
Lemma sim_point (XF : R -> XT2) lc m k s x : (forall i j, regular (XF x i j)) -> ex33 (XF x) = lc x -> lc x X0 X0 <> 0 -> invertible (lc x) ->
  forall L, defgrad L = lc -> exists f, point_stress L (space_material tt (space m) s (sp_gradient k (space m) default_opts)) x = Ok f /\
    exists K u0, 0 < u0 /\ forall u y, 0 <= u <= u0 -> rounded u (x_lc_stress (XF x) (x_gradient k m (XF x) Deformed Undeformed)) y -> Rabs (y - f) <= K * u.
Proof.
  intros RF EF N HD L EL. pose proof (ex_gradient k m (XF x) Deformed Undeformed unit tt s) as EG. rewrite EF in EG.
  unfold point_stress. rewrite EL. cbn [space_material mat_gradient mat_none mat_now]. unfold full_only.
  unfold outcome in EG. destruct (sp_gradient k (space m) default_opts (lc x) tt s) as [s' r] eqn:E.
  change (opt Deformed Undeformed) with default_opts in EG. rewrite E in EG. cbn [snd] in EG. subst r. cbn [snd].
  eexists. split; [reflexivity|].
  assert (RE : regular (x_lc_stress (XF x) (x_gradient k m (XF x) Deformed Undeformed))).
  { assert (RG : forall i j, regular (x_gradient k m (XF x) Deformed Undeformed i j)) by (apply reg_gradient; [exact RF|rewrite EF; exact HD]).
    unfold x_lc_stress. split; [apply RG|]. split; [split; [apply RG|apply RF]|]. split; [apply RF|].
    change (ex33 (XF x) X0 X0 <> 0). rewrite EF. exact N. }
  destruct (regular_order_u _ RE) as (K & u0 & _ & Hu & H). exists K, u0. split; [exact Hu|].
  intros u y U HY. specialize (H u y U HY). rewrite <- EF. exact H.
Qed.
Theorem C55_curves : forall sim p lc XF k m xs, simulates sim p lc k tt (space m) ->
  In (lc, XF) [(uniaxial, x_uniaxial); (biaxial, x_biaxial); (planar, x_planar)] -> (forall l, In l xs -> 0 < l) ->
  exists fs, stress_curve_fit sim xs p = Ok fs /\
  List.Forall2 (fun l f => exists K u0, 0 < u0 /\ forall u y, 0 <= u <= u0 ->
    rounded u (x_lc_stress (XF l) (x_gradient k m (XF l) Deformed Undeformed)) y -> Rabs (y - f) <= K * u) xs fs.
Proof.
  intros sim p lc XF k m xs S HI P. apply (simulate_points sim p lc k tt (space m) _ xs S). intros s x I.
  specialize (P x I). pose proof (sqrt_lt_R0 x P) as Q.
  assert (HX : (forall i j, regular (XF x i j)) /\ ex33 (XF x) = lc x /\ lc x X0 X0 <> 0 /\ invertible (lc x)).
  { cbn [In] in HI. destruct HI as [HI|[HI|[HI|[]]]]; injection HI as <- <-.
    - split; [intros i j; destruct i, j; cbn; try exact Logic.I; repeat split; lra|].
      split; [apply T2_ext; intros i j; destruct i, j; reflexivity|]. split; [cbn; lra|].
      unfold invertible. rewrite (uniaxial_det x P). lra.
    - split; [intros i j; destruct i, j; cbn; try exact Logic.I; repeat split; nra|].
      split; [apply T2_ext; intros i j; destruct i, j; cbn; try reflexivity; unfold ex33, biaxial; cbn; rewrite Rmult_1_r; reflexivity|]. split; [cbn; lra|].
      unfold invertible. rewrite (biaxial_det x) by lra. lra.
    - split; [intros i j; destruct i, j; cbn; try exact Logic.I; repeat split; lra|].
      split; [apply T2_ext; intros i j; destruct i, j; reflexivity|]. split; [cbn; lra|].
      unfold invertible. rewrite (planar_det x) by lra. lra. }
  destruct HX as (H1 & H2 & H3 & H4). exact (sim_point XF lc m k s x H1 H2 H3 H4 _ (proj1 S)).
Qed.
Print Assumptions C55_curves.

(** Every machine with unit roundoff u <= u0 that evaluates the expressions from left to right (float64
    with round-to-nearest-even is one: C53_float64) is covered. *)
Lemma regular_filled e : regular e -> filled e.
Proof.
  induction e as [x|a b IHa IHb|a b IHa IHb|a b IHa IHb|a b IHa IHb|a IHa|a p IHa|l IH|l IH] using expr_ind'; cbn [regular filled]; try tauto.
  - intros [N H]. split; auto. clear N. induction IH as [|e l He HF IHF]; cbn [fold_right] in *; tauto.
  - intros [N H]. split; auto. clear N. induction IH as [|e l He HF IHF]; cbn [fold_right] in *; tauto.
Qed.
Theorem C55_machine : forall (SV : Type) (m : TOD) k f a F (sv : SV) s, invertible F -> exists T K u0,
  outcome (sp_gradient k (space m) (opt f a) F sv) s = Ok (StressFull T, sv) /\ 0 < u0 /\
  forall u rnd, 0 <= u <= u0 -> (forall x, fl u x (rnd x)) ->
    forall i j, Rabs (float_eval rnd (x_gradient k m (in33 F) f a i j) - T i j) <= K * u.
Proof.
  intros SV m k f a F sv s HD. destruct (C55_stress SV m k f a F sv s HD) as (T & K & u0 & H1 & H2 & H3).
  exists T, K, u0. split; [exact H1|]. split; [exact H2|]. intros u rnd U HR i j. apply H3; [exact U|].
  apply float_eval_rounded; [exact HR|]. apply regular_filled, reg_gradient; [apply in33_reg|exact HD].
Qed.
Print Assumptions C55_machine.

(** The hypotheses are met: any tangent that C31 calls significant is clear-cut. *)
Example C55_example : invertible (Fd 0) /\ clear_cut (tod20 1) (Fd 0).
Proof.
  split; [apply Fd_inv|]. intros sv s H E. destruct (tod20_significant sv s H E) as [Z|X]; [left|right; exact X].
  intros v w. rewrite Z, Rmult_0_r, Rabs_R0. apply Rinv_0_lt_compat, pow_lt. lra.
Qed.
