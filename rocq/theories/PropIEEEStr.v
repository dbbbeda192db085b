(** * C70, part 2: Stretches(Ogden) and Stretches(GeneralizedInvariants) in IEEE arithmetic.

    C68 and C69 with underflow, overflow, infinities and NaN: in every format that is fine enough no
    operation overflows, the tensor handed to np.linalg.eigh is finite and in range, and every entry of the
    computed stress and elasticity tensor is a finite number within K (u + tiny) of the exact result of
    the same call, whatever eigenvectors are returned for (nearly) equal principal stretches.  About
    np.linalg.eigh only [eigh_ieee] (IEEEStretch.v) is assumed: for finite matrices in range the results
    are finite and backward stable. *)
From Coq Require Import ZArith Reals List Lra Lia Bool FunctionalExtensionality.
From Verif Require NDLinks2.
From Verif Require Import Lab LabSpec LabMech.
From Verif Require Import Tensor Py Voigt VoigtProofs Algebra Models ModelProofs Frameworks Spaces Spec SpaceCore PiolaProofs SpaceProofs
  EigCore EighProofs StrCore StrIso GenProofs Counter Rounded RoundedProofs RoundedStable RoundedCode RoundedSpec RoundedMath RoundedMore
  RoundedSpaces RoundedSpacesProofs RoundedLeaf RoundedStretch RoundedGen RoundedStretchProofs PropStable PropStretches PropFloatStr.
From Flocq Require Raux.
From Flocq Require Import Zaux BinarySingleNaN.
From Verif Require Import PropFloatStr PropFloatGen.
From Verif Require Import LabSpec LabMech IEEE IEEEProofs IEEESpaces IEEEFloat IEEELeaf IEEEStretch IEEEStrProofs.
Import ListNotations.
Local Open Scope R_scope.

Lemma og_inc u l l' xs : inc u l l' -> forall acc acc', inc u acc acc' ->
  inc u (fold_left (og_t1 l) xs acc) (fold_left (og_t1 l') xs acc') /\ inc u (fold_left (og_t2 l) xs acc) (fold_left (og_t2 l') xs acc').
Proof.
  intro H. induction xs as [|[mu al] xs IH]; intros acc acc' HA; [split; exact HA|]. cbn [fold_left].
  split; apply IH; cbn [og_t1 og_t2]; (apply inc_add; [exact HA|]); (apply inc_mul; [apply inc_refl|]); apply inc_pow, H.
Qed.
Lemma ogden_sound og : exponents og -> sound (ogden_x og).
Proof.
  intro HE. split; [exact (proj1 (PropFloatStr.ogden_sound og HE))|].
  intros u l l' _ H. assert (P : forall a, inc u (x_ogden_gradient og (l a)) (x_ogden_gradient og (l' a)) /\ inc u (x_ogden_hessian og (l a)) (x_ogden_hessian og (l' a))).
  { intro a. exact (og_inc u (l a) (l' a) _ (H a) (Num 0) (Num 0) (inc_refl _ _)). }
  split; [intro a; apply P|]. intros []; cbn [xm_hessian ogden_x]; first [apply P|apply inc_refl].
Qed.
Definition io (u : Fmt) (o o' : option expr) : Prop := match o, o' with Some e, Some e' => inc u e e' | None, None => True | _, _ => False end.
Lemma inc_tod u m I1 I2 J1 J2 : inc u I1 J1 -> inc u I2 J2 ->
  io u (fst (x_tod_gradient m I1 I2)) (fst (x_tod_gradient m J1 J2)) /\ io u (snd (x_tod_gradient m I1 I2)) (snd (x_tod_gradient m J1 J2)) /\
  io u (fst (x_tod_hessian m I1)) (fst (x_tod_hessian m J1)) /\ io u (snd (x_tod_hessian m I1)) (snd (x_tod_hessian m J1)).
Proof.
  intros H1 H2. unfold x_tod_gradient, x_tod_hessian, sq.
  destruct (nonzero (C10 m)), (nonzero (C01 m)), (nonzero (C11 m)), (nonzero (C20 m)), (nonzero (C30 m)); cbn [orb x_iadd fst snd io]; repeat split; incs.
Qed.
Lemma inc_accum u w w' acc acc' f f' : io u w w' -> inc u acc acc' -> (forall e e', inc u e e' -> inc u (f e) (f' e')) -> inc u (x_accum w acc f) (x_accum w' acc' f').
Proof. intros H1 H2 H3. destruct w, w'; cbn [io x_accum] in *; try contradiction; auto. apply inc_add; auto. Qed.
Ltac imul := repeat first [assumption | match goal with H : forall _, inc _ _ _ |- _ => apply H end | apply inc_refl | apply inc_mul | apply inc_add].
Lemma inc_gen u m M l l' : (forall a, inc u (l a) (l' a)) ->
  (forall a, inc u (x_gen_gradient m M l a) (x_gen_gradient m M l' a)) /\ forall k, inc u (x_gen_hessian m M l k) (x_gen_hessian m M l' k).
Proof.
  intro H.
  assert (E1 : forall a, inc u (x_gE M l a) (x_gE M l' a)) by (intro a; unfold x_gE; destruct M; cbn; incs).
  assert (E2 : forall a, inc u (x_gdE M l a) (x_gdE M l' a)) by (intro a; unfold x_gdE; destruct M; cbn; incs).
  assert (E3 : forall a, inc u (x_gd2E M l a) (x_gd2E M l' a)) by (intro a; unfold x_gd2E; destruct M; cbn; incs).
  assert (J1 : inc u (x_gI1 M l) (x_gI1 M l')) by (unfold x_gI1; apply inc_sub; [|apply inc_refl]; apply inc_mul; [apply inc_refl|]; repeat apply inc_add; apply E1).
  assert (J2 : inc u (x_gI2 M l) (x_gI2 M l')) by (unfold x_gI2; apply inc_sub; [|apply inc_refl]; apply inc_mul; [apply inc_refl|]; repeat apply inc_add; apply inc_mul; apply E1).
  assert (D1 : forall a, inc u (x_dI1 M a) (x_dI1 M a)) by (intro; apply inc_refl).
  assert (D2 : forall a, inc u (x_dI2 M l a) (x_dI2 M l' a)) by (intro; unfold x_dI2; apply inc_mul; [apply inc_refl|]; apply inc_add; apply E1).
  destruct (inc_tod u m _ _ _ _ J1 J2) as (W1 & W2 & W3 & W4).
  unfold x_gen_gradient, x_gen_hessian.
  destruct (x_tod_gradient m (x_gI1 M l) (x_gI2 M l)) as [w1 w2], (x_tod_gradient m (x_gI1 M l') (x_gI2 M l')) as [w1' w2'].
  destruct (x_tod_hessian m (x_gI1 M l)) as [w11 w12], (x_tod_hessian m (x_gI1 M l')) as [w11' w12']. cbn [fst snd] in *.
  split.
  - intro a. repeat (apply inc_accum; [assumption| |intros; imul]). apply inc_refl.
  - intro k. destruct (mixed k).
    + apply inc_mul; [|imul]. repeat (apply inc_accum; [assumption| |intros; imul]). apply inc_refl.
    + repeat (apply inc_accum; [assumption| |intros; imul]).
      apply inc_mul; [|imul]. repeat (apply inc_accum; [assumption| |intros; imul]). apply inc_refl.
Qed.
Lemma gen_sound m M : exponent M <> 0 -> sound (gen_x m M).
Proof.
  intro HK. split; [exact (proj1 (PropFloatGen.gen_sound m M HK))|]. intros u l l' _ H. exact (inc_gen u m M l l' H).
Qed.
Notation ogden lapack og := (stretches_fw lapack (ogden_model og)).

(** The stress. *)
Theorem C70_ogden_stress : forall (SV : Type) lapack og k f a F (sv : SV) s c, lapack_legal lapack -> exponents og -> invertible F -> 0 <= c -> exists T K d,
  outcome (sp_gradient k (ogden lapack og) (opt f a) F sv) s = Ok (StressFull T, sv) /\ 0 < d /\
  forall g i j x, fine d g -> ieee_stress_at c g (ogden_x og) k f a (in33 F) i j x -> within (K * (roundoff g + tiny g)) x (T i j).
Proof.
  intros SV lapack og k f a F sv s c HL HE HF Hc. destruct (ogden_exchangeable (SV := SV) og) as [E1 E2].
  destruct (fin_stress (ogden_model og) (ogden_x og) lapack (ogden_sound og HE) (ogden_renders og) HL E1 E2 k (in33 F) (in33_reg F) HF c Hc sv tt f a s) as (T & svn & K & d & HT & Hd & H).
  destruct (C68_stress SV lapack og k f a F sv s c HL HE HF Hc) as (T' & _ & _ & HT' & _).
  change (ex33 (in33 F)) with F in HT. rewrite HT in HT'. injection HT' as <- ->. exists T, K, d. split; [exact HT|]. split; [exact Hd|exact H].
Qed.
Print Assumptions C70_ogden_stress.
Theorem C70_generalized_stress : forall (SV : Type) lapack m M (fw : Framework SV) k f a F (sv : SV) s c, lapack_legal lapack ->
  generalized_fw lapack (tod_model m) (measure_fun M) = Ok fw -> invertible F -> 0 <= c -> exists T K d,
  outcome (sp_gradient k fw (opt f a) F sv) s = Ok (StressFull T, sv) /\ 0 < d /\
  forall g i j x, fine d g -> ieee_stress_at c g (gen_x m M) k f a (in33 F) i j x -> within (K * (roundoff g + tiny g)) x (T i j).
Proof.
  intros SV lapack m M fw k f a F sv s c HL HW HF Hc. destruct (constructed _ _ _ _ HW) as (HK & g & HG & ->).
  destruct (fin_stress (gen_model (tod_model m) (measure_fun M) g) (gen_x m M) lapack (gen_sound m M HK) (gen_renders m M g HK HG) HL
    (gen_exchangeable _ _ _) (gen_exchangeable_hessian _ _ _ (tod_no3 m)) k (in33 F) (in33_reg F) HF c Hc sv gen_self0 f a s) as (T & svn & K & d & HT & Hd & H).
  exists T, K, d. split; [|split; [exact Hd|exact H]]. pose proof (same_sv lapack m M g k F _ sv s _ svn HL HK HF HT). subst svn. exact HT.
Qed.
Print Assumptions C70_generalized_stress.

(** The elasticity tensor, for points where no rounding error can change the outcome of np.isclose or np.allclose. *)
Theorem C70_ogden_elasticity : forall (SV : Type) lapack og k f a F (sv : SV) s c, lapack_legal lapack -> exponents og -> invertible F -> 0 <= c ->
  (forall w v, eig_legal (received k (cauchy_green F)) w v -> forall a b, Rabs (w a - w b) <> / 10 ^ 8) ->
  (k = KDistortional -> clear_cut (SV := SV) (ogden lapack og) F) -> exists A K d,
  outcome (sp_hessian k (ogden lapack og) (opt f a) F sv) s = Ok (ElastFull A) /\ 0 < d /\
  forall g i j p q x, fine d g -> ieee_elasticity_at c g (ogden_x og) k f a (in33 F) i j p q x -> within (K * (roundoff g + tiny g)) x (A i j p q).
Proof.
  intros SV lapack og k f a F sv s c HL HE HF Hc HU HC. destruct (ogden_exchangeable (SV := SV) og) as [E1 E2].
  apply (fin_elasticity (ogden_model og) (ogden_x og) lapack (ogden_sound og HE) (ogden_renders og) HL E1 E2 k (in33 F) (in33_reg F) HF c Hc sv tt f a s); [|exact HC].
  intros x y. apply (HU _ (snd (lapack (astensor (seen k (right_CG F)))))). rewrite <- (seen_received k F). apply HL.
Qed.
Print Assumptions C70_ogden_elasticity.
Theorem C70_generalized_elasticity : forall (SV : Type) lapack m M (fw : Framework SV) k f a F (sv : SV) s c, lapack_legal lapack ->
  generalized_fw lapack (tod_model m) (measure_fun M) = Ok fw -> invertible F -> 0 <= c ->
  (forall w v, eig_legal (received k (cauchy_green F)) w v -> forall a b, Rabs (w a - w b) <> / 10 ^ 8) ->
  (k = KDistortional -> clear_cut fw F) -> exists A K d,
  outcome (sp_hessian k fw (opt f a) F sv) s = Ok (ElastFull A) /\ 0 < d /\
  forall g i j p q x, fine d g -> ieee_elasticity_at c g (gen_x m M) k f a (in33 F) i j p q x -> within (K * (roundoff g + tiny g)) x (A i j p q).
Proof.
  intros SV lapack m M fw k f a F sv s c HL HW HF Hc HU HC. destruct (constructed _ _ _ _ HW) as (HK & g & HG & ->).
  apply (fin_elasticity (gen_model (tod_model m) (measure_fun M) g) (gen_x m M) lapack (gen_sound m M HK) (gen_renders m M g HK HG) HL
    (gen_exchangeable _ _ _) (gen_exchangeable_hessian _ _ _ (tod_no3 m)) k (in33 F) (in33_reg F) HF c Hc sv gen_self0 f a s); [|exact HC].
  intros x y. apply (HU _ (snd (lapack (astensor (seen k (right_CG F)))))). rewrite <- (seen_received k F). apply HL.
Qed.
Print Assumptions C70_generalized_elasticity.

(** Simulated curves, with the deformation gradient of the load case itself computed. *)
Lemma str_curves {SV} (m : StretchModel SV) xm lapack (ms : sm_self m) : sound xm -> renders m xm -> lapack_legal lapack -> exchangeable_gradient m -> exchangeable_hessian m ->
  forall sim p lc XF k (none : SV) xs c, simulates sim p lc k none (stretches_fw lapack m) -> 0 <= c ->
  In (lc, XF) [(uniaxial, x_uniaxial); (biaxial, x_biaxial); (planar, x_planar)] -> (forall l, In l xs -> 0 < l) ->
  exists fs, stress_curve_fit sim xs p = Ok fs /\
  List.Forall2 (fun l y => exists K d, 0 < d /\ forall g w, fine d g -> ieee_point c g xm k (XF l) w -> within (K * (roundoff g + tiny g)) w y) xs fs.
Proof.
  intros HX HR HL EG EH sim p lc XF k none xs c S Hc HI P. apply (simulate_points sim p lc k none (stretches_fw lapack m) _ xs S). intros s x I.
  destruct (lc_regular lc XF x HI (P x I)) as (RF & EF & N & HD).
  assert (HD' : invertible (ex33 (XF x))) by (rewrite EF; exact HD). assert (N' : ex33 (XF x) X0 X0 <> 0) by (rewrite EF; exact N).
  destruct (fin_point m xm lapack HX HR HL EG EH k (XF x) RF HD' c Hc none ms s N') as (T & svn & K & d & HT & Hd & H).
  exists (T X0 X0 - T X2 X2 * ex33 (XF x) X2 X2 / ex33 (XF x) X0 X0). split; [|exists K, d; auto].
  rewrite EF in *. unfold point_stress. rewrite (proj1 S). cbn [space_material mat_gradient mat_none mat_now]. unfold full_only.
  unfold outcome in HT. destruct (sp_gradient k (stretches_fw lapack m) default_opts (lc x) none s) as [s' r] eqn:E. cbn [snd] in HT. subst r. reflexivity.
Qed.
Theorem C70_stretch_curves : forall (SV : Type) lapack sim p lc XF k (none : SV) (fw : Framework SV) xm xs c, lapack_legal lapack ->
  (exists og, fw = ogden lapack og /\ exponents og /\ xm = ogden_x og) \/
  (exists m M, generalized_fw lapack (tod_model m) (measure_fun M) = Ok fw /\ xm = gen_x m M) ->
  simulates sim p lc k none fw -> 0 <= c ->
  In (lc, XF) [(uniaxial, x_uniaxial); (biaxial, x_biaxial); (planar, x_planar)] -> (forall l, In l xs -> 0 < l) ->
  exists fs, stress_curve_fit sim xs p = Ok fs /\
  List.Forall2 (fun l y => exists K d, 0 < d /\ forall g w, fine d g -> ieee_point c g xm k (XF l) w -> within (K * (roundoff g + tiny g)) w y) xs fs.
Proof.
  intros SV lapack sim p lc XF k none fw xm xs c HL [(og & -> & HE & ->)|(m & M & HW & ->)].
  - destruct (ogden_exchangeable (SV := SV) og) as [E1 E2].
    exact (str_curves (ogden_model og) (ogden_x og) lapack tt (ogden_sound og HE) (ogden_renders og) HL E1 E2 sim p lc XF k none xs c).
  - destruct (constructed _ _ _ _ HW) as (HK & g & HG & ->).
    exact (str_curves (gen_model (tod_model m) (measure_fun M) g) (gen_x m M) lapack gen_self0 (gen_sound m M HK) (gen_renders m M g HK HG) HL
      (gen_exchangeable _ _ _) (gen_exchangeable_hessian _ _ _ (tod_no3 m)) sim p lc XF k none xs c).
Qed.
Print Assumptions C70_stretch_curves.

(** The machine (Flocq, as in C70_machine): the tensor handed to eigh, the results of eigh and the stress are
    binary floating-point numbers; eigh may be anything that is backward stable on finite matrices. *)
Theorem C70_stretch_machine : forall (SV : Type) lapack (fw : Framework SV) xm k f a F (sv : SV) s c, lapack_legal lapack ->
  (exists og, fw = ogden lapack og /\ exponents og /\ xm = ogden_x og) \/
  (exists m M, generalized_fw lapack (tod_model m) (measure_fun M) = Ok fw /\ xm = gen_x m M) ->
  invertible F -> 0 <= c -> exists T K p0,
  outcome (sp_gradient k fw (opt f a) F sv) s = Ok (StressFull T, sv) /\ (0 < p0)%Z /\
  forall prec emax (Hp : FLX.Prec_gt_0 prec) (He : Prec_lt_emax prec emax) pw u A w v i j b, (p0 <= prec)%Z -> u <= Raux.bpow radix2 (- prec) ->
    accurate_power prec emax pw u -> (forall n, run prec emax Hp He pw (x_seen k (in33 F) n) (A n)) ->
    eigh_ieee c (machine_fmt prec emax u) (fun n => num prec emax (A n)) (fun x => num prec emax (w x)) (fun x y => num prec emax (v x y)) ->
    run prec emax Hp He pw (x_gradient k (str_comp xm (fun x => B2R (w x)) (fun x y => B2R (v x y)) (fun _ => true)) (in33 F) f a i j) b ->
    is_finite b = true /\ Rabs (B2R b - T i j) <= K * Raux.bpow radix2 (- prec).
Proof.
  intros SV lapack fw xm k f a F sv s c HL HM HD Hc.
  assert (Q : exists T K d, outcome (sp_gradient k fw (opt f a) F sv) s = Ok (StressFull T, sv) /\ 0 < d /\
    forall g i j x, fine d g -> ieee_stress_at c g xm k f a (in33 F) i j x -> within (K * (roundoff g + tiny g)) x (T i j)).
  { destruct HM as [(og & -> & HE & ->)|(m & M & HW & ->)]; [apply C70_ogden_stress; auto|apply (C70_generalized_stress SV lapack m M); auto]. }
  destruct Q as (T & K & d & H1 & Hd & H).
  destruct (machine_fine d Hd) as (p0 & Hp0 & HF0). exists T, (3 * Rmax 0 K), p0. split; [exact H1|]. split; [exact Hp0|].
  intros prec emax Hp He pw u A w v i j b HP HU HA HRA HE HR. assert (LT : (prec < emax)%Z) by exact He.
  pose proof (HF0 prec emax u ltac:(lia) HU) as HF. 
  assert (HI : ieee_stress_at c (machine_fmt prec emax u) xm k f a (in33 F) i j (num prec emax b)).
  { exists (fun n => num prec emax (A n)), (fun x => num prec emax (w x)), (fun x y => num prec emax (v x y)).
    split; [intro n; apply (run_ieee prec emax Hp He pw u _ _ HA (HRA n))|]. split; [exact HE|]. intros w' v' FW FV.
    assert (EW : w' = fun x => B2R (w x)) by (apply functional_extensionality; intro x; specialize (FW x); unfold num in FW; destruct (is_finite (w x)); [injection FW as <-; reflexivity|discriminate]).
    assert (EV : v' = fun x y => B2R (v x y)) by (apply T2_ext; intros x y; specialize (FV x y); cbn beta in FV; unfold num in FV; destruct (is_finite (v x y)); [injection FV as <-; reflexivity|discriminate]).
    subst w' v'. exact (run_ieee prec emax Hp He pw u _ b HA HR). }
  destruct (H _ i j _ HF HI) as (z & EV & W). unfold num in EV. destruct (is_finite b); [|discriminate]. injection EV as <-. split; [reflexivity|].
  eapply Rle_trans; [exact W|]. cbn [roundoff tiny machine_fmt]. rewrite Rmax_right by exact HU.
  pose proof (Raux.bpow_gt_0 radix2 (- prec)) as B0. pose proof (Raux.bpow_gt_0 radix2 (2 - emax - prec)) as B1.
  assert (L : Raux.bpow radix2 (2 - emax - prec) <= 2 * Raux.bpow radix2 (- prec)).
  { replace (2 * Raux.bpow radix2 (- prec)) with (Raux.bpow radix2 (- prec + 1)) by (rewrite Raux.bpow_plus; cbn; ring). apply Raux.bpow_le. assert (0 < prec)%Z by exact Hp. lia. }
  pose proof (Rmax_l 0 K). pose proof (Rmax_r 0 K).
  apply Rle_trans with (Rmax 0 K * (Raux.bpow radix2 (- prec) + Raux.bpow radix2 (2 - emax - prec))); [apply Rmult_le_compat_r; lra|].
  rewrite (Rmult_comm 3), Rmult_assoc. apply Rmult_le_compat_l; lra.
Qed.
Print Assumptions C70_stretch_machine.

(** The hypotheses on the material are those of C68 and C69 (C68_example, C69_example); the eigenvalue
    routine that is exact on finite matrices, and returns NaN for all others, is acceptable in every format. *)
Example C70_eigh_example : exists lapack, lapack_legal lapack /\ forall g (A : ix6 -> option R), 0 <= roundoff g -> 0 <= tiny g ->
  let ok := forallb (fun n => match A n with Some _ => true | None => false end) all6 in
  eigh_ieee 1 g A (fun a => if ok then Some (fst (lapack (astensor (fun n => val (A n)))) a) else None)
                  (fun i a => if ok then Some (snd (lapack (astensor (fun n => val (A n)))) i a) else None).
Proof.
  destruct C08_lapack_exists as [lapack HL]. exists lapack. split; [exact HL|]. intros g A H1 H2 ok A' FA _.
  assert (OK : ok = true) by (unfold ok; cbn; rewrite !FA; reflexivity). rewrite OK.
  replace (fun n => val (A n)) with A' by (apply Vec6_ext; intro n; rewrite FA; reflexivity).
  exists (fst (lapack (astensor A'))), (snd (lapack (astensor A'))). split; [intro; reflexivity|]. split; [intros ? ?; reflexivity|].
  pose proof (size2_pos (astensor A')) as PA. exists (fun _ _ => 0), (fst (lapack (astensor A'))), (snd (lapack (astensor A'))).
  split; [intros; rewrite Rabs_R0; nra|]. split; [|split; intros; rewrite Rminus_eq_0, Rabs_R0; nra].
  replace (fun i j => astensor A' i j + 0) with (astensor A') by (apply T2_ext; intros; ring). apply HL.
Qed.
