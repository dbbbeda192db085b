(** * C69: in floating point GeneralizedInvariants(ThirdOrderDeformation) is accurate to O(u).

    As C68, for both strain functions of the library with any non-zero exponent; the normalisation
    constants of the constructor are computed in floating point as well (RoundedGen.v). *)
From Coq Require Import Reals List Lra Lia Bool FunctionalExtensionality.
From Verif Require NDLinks2.
From Verif Require Import Lab LabSpec LabMech.
From Verif Require Import Tensor Py Voigt VoigtProofs Algebra Models ModelProofs Frameworks Spaces Spec SpaceCore PiolaProofs SpaceProofs
  EigCore EighProofs StrCore StrIso GenProofs Counter Rounded RoundedProofs RoundedStable RoundedCode RoundedSpec RoundedMath RoundedMore
  RoundedSpaces RoundedSpacesProofs RoundedLeaf RoundedStretch RoundedGen RoundedStretchProofs PropStable PropStretches PropFloatStr.
Import ListNotations.
Local Open Scope R_scope.

(** *** The expressions are regular *)
Ltac rgs := cbn [x_accum regular]; repeat match goal with |- _ /\ _ => split end; auto.
Section Reg.
  Variables (M : Measure) (HK : exponent M <> 0).
  Notation S := (x_measure M).
  Lemma reg_measure l : regular l -> 0 < exact l -> regular (xE S l) /\ regular (xdE S l) /\ regular (xd2E S l).
  Proof. intros H1 H2. destruct M; cbn in *; repeat split; auto. Qed.
  Lemma reg_reference : regular (xE (x_reference M) (Num 1)) /\ regular (xdE (x_reference M) (Num 1)) /\ regular (xd2E (x_reference M) (Num 1)).
  Proof. destruct M; cbn; repeat split; auto; lra. Qed.
  Lemma lower1 : exact (x_c1_lower M) <> 0.
  Proof.
    unfold x_c1_lower. destruct M as [k|k]; cbn in *; rewrite !Rpower_1_l.
    - intro H. apply HK. lra.
    - intro H. assert (k * k <> 0) by (apply Rmult_integral_contrapositive; auto). lra.
  Qed.
  Lemma lower2 : exact (x_c2_lower M) <> 0.
  Proof.
    unfold x_c2_lower, sq. destruct M as [k|k]; cbn in *; rewrite !Rpower_1_l.
    - intro H. replace ((1 - 1) / k) with 0 in H by (field; auto). lra.
    - intro H. assert (k * k <> 0) by (apply Rmult_integral_contrapositive; auto). lra.
  Qed.
  Lemma reg_consts : regular (x_c1 M) /\ regular (x_c2 M) /\ regular (x_I10 M) /\ regular (x_I20 M).
  Proof.
    destruct (reg_measure (Num 1) Logic.I ltac:(cbn; lra)) as (A1 & A2 & A3). destruct reg_reference as (B1 & B2 & B3).
    pose proof lower1. pose proof lower2. unfold x_c1, x_c2, x_I10, x_I20, sq in *. cbn [regular].
    unfold x_c1_upper, x_c2_upper, sq. repeat split; try assumption; cbn [exact]; try lra.
    all: unfold x_c1_lower, x_c2_lower, sq; cbn [regular]; repeat split; try assumption; cbn [exact]; lra.
  Qed.
  Variables (m : TOD) (l : ix3 -> expr) (Hl : forall a, regular (l a) /\ 0 < exact (l a)).
  Lemma reg_gen : (forall a, regular (x_gen_gradient m M l a)) /\ forall k, regular (x_gen_hessian m M l k).
  Proof.
    destruct reg_consts as (C1 & C2 & C3 & C4).
    assert (E1 : forall a, regular (x_gE M l a)) by (intro a; apply (reg_measure (l a)); apply Hl).
    assert (E2 : forall a, regular (x_gdE M l a)) by (intro a; apply (reg_measure (l a)); apply Hl).
    assert (E3 : forall a, regular (x_gd2E M l a)) by (intro a; apply (reg_measure (l a)); apply Hl).
    assert (J1 : regular (x_gI1 M l)) by (unfold x_gI1; rgs).
    assert (J2 : regular (x_gI2 M l)) by (unfold x_gI2; rgs).
    assert (D1 : forall a, regular (x_dI1 M a)) by (intro; unfold x_dI1; cbn [regular]; auto).
    assert (D2 : forall a, regular (x_dI2 M l a)) by (intro; unfold x_dI2; cbn [regular]; auto).
    destruct (reg_tod m _ _ J1 J2) as [W1 W2]. destruct (reg_todh m _ J1) as [W3 W4].
    unfold x_gen_gradient, x_gen_hessian.
    destruct (x_tod_gradient m (x_gI1 M l) (x_gI2 M l)) as [[w1|] [w2|]], (x_tod_hessian m (x_gI1 M l)) as [[w11|] [w12|]]; cbn [fst snd ro] in *;
    (split; [intro a|intro k; destruct (mixed k)]); rgs.
  Qed.
End Reg.

(** *** ... and may be evaluated with inexact stretches *)
Definition io (u : R) (o o' : option expr) : Prop := match o, o' with Some e, Some e' => inc u e e' | None, None => True | _, _ => False end.
Lemma inc_tod u m I1 I2 J1 J2 : inc u I1 J1 -> inc u I2 J2 ->
  io u (fst (x_tod_gradient m I1 I2)) (fst (x_tod_gradient m J1 J2)) /\ io u (snd (x_tod_gradient m I1 I2)) (snd (x_tod_gradient m J1 J2)) /\
  io u (fst (x_tod_hessian m I1)) (fst (x_tod_hessian m J1)) /\ io u (snd (x_tod_hessian m I1)) (snd (x_tod_hessian m J1)).
Proof.
  intros H1 H2. unfold x_tod_gradient, x_tod_hessian, sq.
  destruct (nonzero (C10 m)), (nonzero (C01 m)), (nonzero (C11 m)), (nonzero (C20 m)), (nonzero (C30 m)); cbn [orb x_iadd fst snd io]; repeat split; incs.
Qed.
Lemma inc_accum u w w' acc acc' f f' : io u w w' -> inc u acc acc' -> (forall e e', inc u e e' -> inc u (f e) (f' e')) -> inc u (x_accum w acc f) (x_accum w' acc' f').
Proof. intros H1 H2 H3. destruct w, w'; cbn [io x_accum] in *; try contradiction; auto. apply inc_add; auto. Qed.
Ltac imul := repeat first [assumption | match goal with H : forall _, inc _ _ _ |- _ => apply H end | apply inc_refl | apply inc_mul | apply inc_add].
Lemma inc_gen u m M l l' : (forall a, inc u (l a) (l' a)) ->
  (forall a, inc u (x_gen_gradient m M l a) (x_gen_gradient m M l' a)) /\ forall k, inc u (x_gen_hessian m M l k) (x_gen_hessian m M l' k).
Proof.
  intro H.
  assert (E1 : forall a, inc u (x_gE M l a) (x_gE M l' a)) by (intro a; unfold x_gE; destruct M; cbn; incs).
  assert (E2 : forall a, inc u (x_gdE M l a) (x_gdE M l' a)) by (intro a; unfold x_gdE; destruct M; cbn; incs).
  assert (E3 : forall a, inc u (x_gd2E M l a) (x_gd2E M l' a)) by (intro a; unfold x_gd2E; destruct M; cbn; incs).
  assert (J1 : inc u (x_gI1 M l) (x_gI1 M l')) by (unfold x_gI1; apply inc_sub; [|apply inc_refl]; apply inc_mul; [apply inc_refl|]; repeat apply inc_add; apply E1).
  assert (J2 : inc u (x_gI2 M l) (x_gI2 M l')) by (unfold x_gI2; apply inc_sub; [|apply inc_refl]; apply inc_mul; [apply inc_refl|]; repeat apply inc_add; apply inc_mul; apply E1).
  assert (D1 : forall a, inc u (x_dI1 M a) (x_dI1 M a)) by (intro; apply inc_refl).
  assert (D2 : forall a, inc u (x_dI2 M l a) (x_dI2 M l' a)) by (intro; unfold x_dI2; apply inc_mul; [apply inc_refl|]; apply inc_add; apply E1).
  destruct (inc_tod u m _ _ _ _ J1 J2) as (W1 & W2 & W3 & W4).
  unfold x_gen_gradient, x_gen_hessian.
  destruct (x_tod_gradient m (x_gI1 M l) (x_gI2 M l)) as [w1 w2], (x_tod_gradient m (x_gI1 M l') (x_gI2 M l')) as [w1' w2'].
  destruct (x_tod_hessian m (x_gI1 M l)) as [w11 w12], (x_tod_hessian m (x_gI1 M l')) as [w11' w12']. cbn [fst snd] in *.
  split.
  - intro a. repeat (apply inc_accum; [assumption| |intros; imul]). apply inc_refl.
  - intro k. destruct (mixed k).
    + apply inc_mul; [|imul]. repeat (apply inc_accum; [assumption| |intros; imul]). apply inc_refl.
    + repeat (apply inc_accum; [assumption| |intros; imul]).
      apply inc_mul; [|imul]. repeat (apply inc_accum; [assumption| |intros; imul]). apply inc_refl.
Qed.
Lemma gen_sound m M : exponent M <> 0 -> sound (gen_x m M).
Proof.
  intro HK. split; [intros l Hl; exact (reg_gen M HK m l Hl)|]. intros u l l' H. exact (inc_gen u m M l l' H).
Qed.

(** *** Their exact values are the results of the code *)
Definition mE (M : Measure) : R -> R := match M with MStrain k => fun l => sth_E l k | MDeformation k => fun l => def_C l k end.
Definition mdE (M : Measure) : R -> R := match M with MStrain k => fun l => sth_dE l k | MDeformation k => fun l => def_dC l k end.
Definition md2E (M : Measure) : R -> R := match M with MStrain k => fun l => sth_d2E l k | MDeformation k => fun l => def_d2C l k end.
Lemma measure_ok M : exponent M <> 0 -> measure_of (measure_fun M) (mE M) (mdE M) (md2E M).
Proof. destruct M; intro H; [apply strain_measure, H|apply deformation_measure]. Qed.
Lemma ex_measure M l : exact (xE (x_measure M) l) = mE M (exact l) /\ exact (xdE (x_measure M) l) = mdE M (exact l) /\ exact (xd2E (x_measure M) l) = md2E M (exact l).
Proof. destruct M; repeat split; reflexivity. Qed.
Lemma ex_consts M c : exponent M <> 0 -> gen_init (measure_fun M) = Ok c ->
  exact (x_c1 M) = gc1 c /\ exact (x_c2 M) = gc2 c /\ exact (x_I10 M) = gI10 c /\ exact (x_I20 M) = gI20 c.
Proof.
  intros HK E. destruct M as [k|k]; cbn [exponent measure_fun] in *.
  - rewrite (gen_init_strain k HK) in E. injection E as <-. cbn [gc1 gc2 gI10 gI20].
    unfold x_c1, x_c2, x_I10, x_I20, x_c1_upper, x_c1_lower, x_c2_upper, x_c2_lower, sq. cbn. rewrite !Rpower_1_l.
    replace ((1 - 1) / k) with 0 by (field; auto). repeat split; field; auto.
  - rewrite (gen_init_deformation k HK) in E. injection E as <-. cbn [gc1 gc2 gI10 gI20].
    assert (k * k <> 0) by (apply Rmult_integral_contrapositive; auto).
    unfold x_c1, x_c2, x_I10, x_I20, x_c1_upper, x_c1_lower, x_c2_upper, x_c2_lower, sq. cbn. rewrite !Rpower_1_l.
    repeat split; field; repeat split; auto; try lra; intro Z; apply H; lra.
Qed.

Lemma gen_renders {SV} m M c : exponent M <> 0 -> gen_init (measure_fun M) = Ok c ->
  renders (gen_model (tod_model (SV := SV) m) (measure_fun M) c) (gen_x m M).
Proof.
  intros HK HC l Hl sv s. destruct (ex_consts M c HK HC) as (C1 & C2 & C3 & C4).
  set (L := fun a => exact (l a)). set (J := gen_invariants (mE M) c L).
  assert (EE : forall a, exact (x_gE M l a) = mE M (L a)) by (intro; apply ex_measure).
  assert (EdE : forall a, exact (x_gdE M l a) = mdE M (L a)) by (intro; apply ex_measure).
  assert (Ed2E : forall a, exact (x_gd2E M l a) = md2E M (L a)) by (intro; apply ex_measure).
  assert (J1 : exact (x_gI1 M l) = J X0).
  { unfold x_gI1. cbn [exact]. rewrite C1, C3, !EE. unfold J, gen_invariants. ring. }
  assert (J2 : exact (x_gI2 M l) = J X1).
  { unfold x_gI2. cbn [exact]. rewrite C2, C4, !EE. unfold J, gen_invariants. ring. }
  assert (D1 : forall a, exact (x_dI1 M a) = gdI c (mE M) L X0 a) by (intro; unfold x_dI1; cbn [exact gdI]; rewrite C1; ring).
  assert (D2 : forall a, exact (x_dI2 M l a) = gdI c (mE M) L X1 a) by (intro; unfold x_dI2; cbn [exact gdI]; rewrite C2, !EE; ring).
  set (g := (option_map exact (fst (x_tod_gradient m (x_gI1 M l) (x_gI2 M l))), option_map exact (snd (x_tod_gradient m (x_gI1 M l) (x_gI2 M l))), @None R)).
  set (h := tod_hessian m (J X0) (J X1) (J X2)).
  assert (CG : inv_call (tod_model m) J sv = Ok (g, sv)).
  { unfold inv_call. cbn [im_gradient tod_model]. rewrite <- J1, <- J2, exact_tod_gradient. reflexivity. }
  assert (CH : inv_callh (tod_model (SV := SV) m) J sv = Ok h) by reflexivity.
  assert (PL : positive3 L) by exact Hl.
  destruct (gen_gradient_ok (tod_model m) (measure_fun M) c _ _ _ (measure_ok M HK) L sv g sv PL CG s) as (s1 & EG & _).
  destruct (gen_hessian_ok (tod_model m) (measure_fun M) c _ _ _ (measure_ok M HK) L sv g sv h PL CG CH s1) as (s2 & EH).
  eexists _, _, sv, s1, s2. split; [exact EG|]. split; [exact EH|].
  assert (HH : forall v, h v = match v with V0 => option_map exact (fst (x_tod_hessian m (x_gI1 M l))) | V3 => option_map exact (snd (x_tod_hessian m (x_gI1 M l))) | _ => None end).
  { intro v. unfold h. rewrite <- J1. apply exact_tod_hessian. }
  split.
  - intro a. cbn [xm_gradient gen_x]. unfold x_gen_gradient, g, sum3. destruct (x_tod_gradient m (x_gI1 M l) (x_gI2 M l)) as [[w1|] [w2|]];
    cbn [o3 fst snd option_map val x_accum exact]; rewrite ?D1, ?D2, ?EdE; ring.
  - intro k. cbn [xm_hessian gen_x val]. unfold gen_H, sum3. cbn [pos]. rewrite !HH. unfold x_gen_hessian, g.
    destruct (x_tod_gradient m (x_gI1 M l) (x_gI2 M l)) as [[w1|] [w2|]], (x_tod_hessian m (x_gI1 M l)) as [[w11|] [w12|]]; cbn [fst snd option_map val o3];
    destruct (mixed k); cbn [x_accum exact]; rewrite ?D1, ?D2, ?EdE, ?Ed2E, ?C2; ring.
Qed.

(** What the constructor makes: GeneralizedInvariants(material, fun, exponent=k). *)
Lemma constructed {SV} lapack m M (fw : Framework SV) : generalized_fw lapack (tod_model m) (measure_fun M) = Ok fw ->
  exponent M <> 0 /\ exists g, gen_init (measure_fun M) = Ok g /\ fw = stretches_fw lapack (gen_model (tod_model m) (measure_fun M) g).
Proof.
  unfold generalized_fw. destruct (gen_init (measure_fun M)) as [g|e] eqn:E; cbn [rbind]; [|discriminate]. intro H. injection H as <-. split; [|exists g; auto].
  intro Z. destruct M as [k|k]; cbn [exponent measure_fun] in *; subst k; [rewrite gen_init_strain_0 in E|rewrite gen_init_deformation_0 in E]; discriminate.
Qed.
Lemma tod_no3 {SV} m J (sv : SV) g svn : inv_call (tod_model m) J sv = Ok (g, svn) -> val (o3 g X2) = 0.
Proof.
  unfold inv_call. cbn [im_gradient tod_model]. pose proof (exact_tod_gradient m (Num (J X0)) (Num (J X1)) (J X2)) as E. cbn [exact] in E. rewrite E. cbn [rbind].
  intro H. injection H as <- _. reflexivity.
Qed.

(** State variables are handed back unchanged. *)
Lemma same_sv {SV} lapack m M g k F o (sv : SV) s T svn : lapack_legal lapack -> exponent M <> 0 -> invertible F ->
  outcome (sp_gradient k (stretches_fw lapack (gen_model (tod_model m) (measure_fun M) g)) o F sv) s = Ok (T, svn) -> svn = sv.
Proof.
  intros HL HK HF E. set (fw := stretches_fw lapack (gen_model (tod_model m) (measure_fun M) g)) in *.
  destruct (outcome (fw_gradient fw (seen k (right_CG F)) sv) (sp_mat s)) as [[G svn']|e] eqn:EF.
  2:{ pose proof (sp_gradient_raise fw o k F sv s e EF). congruence. }
  rewrite (sp_gradient_ok fw o k F sv s G svn' EF) in E. injection E as _ <-.
  assert (RT : returns (str_gradient lapack (gen_model (tod_model m) (measure_fun M) g) (seen k (right_CG F)) sv) (sp_mat s) (G, svn')).
  { unfold outcome in EF. cbn [fw_gradient fw stretches_fw] in EF. destruct (str_gradient _ _ _ _ (sp_mat s)) as [s' r] eqn:ER. cbn [snd] in EF. subst r. exists s'. exact ER. }
  destruct (str_gradient_inv _ _ _ _ _ _ _ RT) as (g1 & R1 & _).
  assert (P : positive3 (lam lapack (seen k (right_CG F)))).
  { intro b. unfold lam. apply sqrt_lt_R0. apply (eig_posdef _ _ _ (HL (seen k (right_CG F)))). apply NDLinks2.posdef_seen. exact HF. }
  destruct (gen_gradient_inv (tod_model m) (measure_fun M) g _ _ _ (measure_ok M HK) _ _ _ _ _ P R1) as (g2 & R2 & _).
  unfold inv_call in R2. cbn [im_gradient tod_model] in R2. destruct (tod_gradient _ _ _ _); cbn [rbind] in R2; congruence.
Qed.

Theorem C69_stress : forall (SV : Type) lapack m M (fw : Framework SV) k f a F (sv : SV) s c, lapack_legal lapack ->
  generalized_fw lapack (tod_model m) (measure_fun M) = Ok fw -> invertible F -> 0 <= c -> exists T K u0,
  outcome (sp_gradient k fw (opt f a) F sv) s = Ok (StressFull T, sv) /\ 0 < u0 /\
  forall u i j x, 0 <= u <= u0 -> float_stress c u (gen_x m M) k f a F i j x -> Rabs (x - T i j) <= K * u.
Proof.
  intros SV lapack m M fw k f a F sv s c HL HW HF Hc. destruct (constructed _ _ _ _ HW) as (HK & g & HG & ->).
  destruct (fin_stress (gen_model (tod_model m) (measure_fun M) g) (gen_x m M) lapack (gen_sound m M HK) (gen_renders m M g HK HG) HL
    (gen_exchangeable _ _ _) (gen_exchangeable_hessian _ _ _ (tod_no3 m)) k (in33 F) (in33_reg F) HF c Hc sv gen_self0 f a s) as (T & svn & K & u0 & HT & Hu & H).
  exists T, K, u0. split; [|split; auto]. pose proof (same_sv lapack m M g k F _ sv s _ svn HL HK HF HT). subst svn. exact HT.
Qed.
Print Assumptions C69_stress.
Theorem C69_elasticity : forall (SV : Type) lapack m M (fw : Framework SV) k f a F (sv : SV) s c, lapack_legal lapack ->
  generalized_fw lapack (tod_model m) (measure_fun M) = Ok fw -> invertible F -> 0 <= c ->
  (forall w v, eig_legal (received k (cauchy_green F)) w v -> forall a b, Rabs (w a - w b) <> / 10 ^ 8) ->
  (k = KDistortional -> clear_cut fw F) -> exists A K u0,
  outcome (sp_hessian k fw (opt f a) F sv) s = Ok (ElastFull A) /\ 0 < u0 /\
  forall u i j p q x, 0 <= u <= u0 -> float_elasticity c u (gen_x m M) k f a F i j p q x -> Rabs (x - A i j p q) <= K * u.
Proof.
  intros SV lapack m M fw k f a F sv s c HL HW HF Hc HU HC. destruct (constructed _ _ _ _ HW) as (HK & g & HG & ->).
  apply (fin_elasticity (gen_model (tod_model m) (measure_fun M) g) (gen_x m M) lapack (gen_sound m M HK) (gen_renders m M g HK HG) HL
    (gen_exchangeable _ _ _) (gen_exchangeable_hessian _ _ _ (tod_no3 m)) k (in33 F) (in33_reg F) HF c Hc sv gen_self0 f a s); [|exact HC].
  intros x y. apply (HU _ (snd (lapack (astensor (seen k (right_CG F)))))). rewrite <- (seen_received k F). apply HL.
Qed.
Print Assumptions C69_elasticity.

(** Every machine with unit roundoff u that evaluates the expressions from left to right and calls a
    backward stable eigenvalue routine. *)
Lemma gen_filled m M l : (forall a, filled (l a)) -> forall a, filled (x_gen_gradient m M l a).
Proof.
  intros Hl a.
  assert (E0 : forall M e, filled e -> filled (xE (x_measure M) e) /\ filled (xdE (x_measure M) e) /\ filled (xd2E (x_measure M) e)) by (intros [k|k] e He; cbn; tauto).
  destruct (E0 M (Num 1) Logic.I) as (A1 & A2 & A3).
  assert (B : filled (xE (x_reference M) (Num 1)) /\ filled (xdE (x_reference M) (Num 1)) /\ filled (xd2E (x_reference M) (Num 1))) by (destruct M; cbn; tauto).
  destruct B as (B1 & B2 & B3).
  assert (C1 : filled (x_c1 M)) by (unfold x_c1, x_c1_upper, x_c1_lower; cbn [filled]; tauto).
  assert (C2 : filled (x_c2 M)) by (unfold x_c2, x_c2_upper, x_c2_lower, sq; cbn [filled]; tauto).
  assert (C3 : filled (x_I10 M)) by (unfold x_I10; cbn [filled]; tauto).
  assert (C4 : filled (x_I20 M)) by (unfold x_I20, sq; cbn [filled]; tauto).
  assert (E1 : forall a, filled (x_gE M l a)) by (intro; apply E0, Hl).
  assert (E2 : forall a, filled (x_gdE M l a)) by (intro; apply E0, Hl).
  pose proof (E1 X0). pose proof (E1 X1). pose proof (E1 X2). pose proof (E1 (gb a)). pose proof (E1 (gg a)). pose proof (E2 a).
  assert (J1 : filled (x_gI1 M l)) by (unfold x_gI1; cbn [filled]; tauto).
  assert (J2 : filled (x_gI2 M l)) by (unfold x_gI2; cbn [filled]; tauto).
  assert (D1 : filled (x_dI1 M a)) by (unfold x_dI1; cbn [filled]; tauto).
  assert (D2 : filled (x_dI2 M l a)) by (unfold x_dI2; cbn [filled]; tauto).
  assert (W : match fst (x_tod_gradient m (x_gI1 M l) (x_gI2 M l)) with Some w => filled w | None => True end /\
              match snd (x_tod_gradient m (x_gI1 M l) (x_gI2 M l)) with Some w => filled w | None => True end).
  { unfold x_tod_gradient, sq. destruct (nonzero (C10 m)), (nonzero (C01 m)), (nonzero (C11 m)), (nonzero (C20 m)), (nonzero (C30 m)); cbn; tauto. }
  destruct W as [W1 W2]. unfold x_gen_gradient. destruct (x_tod_gradient m (x_gI1 M l) (x_gI2 M l)) as [[w1|] [w2|]]; cbn [fst snd] in *; cbn [x_accum filled]; tauto.
Qed.
Theorem C69_machine : forall (SV : Type) lapack m M (fw : Framework SV) k f a F (sv : SV) s c, lapack_legal lapack ->
  generalized_fw lapack (tod_model m) (measure_fun M) = Ok fw -> invertible F -> 0 <= c -> exists T K u0,
  outcome (sp_gradient k fw (opt f a) F sv) s = Ok (StressFull T, sv) /\ 0 < u0 /\
  forall u rnd eigh, 0 <= u <= u0 -> (forall x, fl u x (rnd x)) -> (forall A, eigh_computed c u A (fst (eigh A)) (snd (eigh A))) ->
    forall i j, Rabs (machine_stress rnd eigh (gen_x m M) k f a F i j - T i j) <= K * u.
Proof.
  intros SV lapack m M fw k f a F sv s c HL HE HF Hc. destruct (C69_stress SV lapack m M fw k f a F sv s c HL HE HF Hc) as (T & K & u0 & H1 & H2 & H3).
  exists T, K, u0. split; [exact H1|]. split; [exact H2|]. intros u rnd eigh U HR HEig i j. apply H3; [exact U|].
  unfold machine_stress. set (A := fun n => float_eval rnd (x_seen k (in33 F) n)). specialize (HEig (astensor A)). destruct (eigh (astensor A)) as [w v]. cbn [fst snd] in HEig.
  exists A, w, v. split; [|split; [exact HEig|]].
  - intro n. apply float_eval_rounded; [exact HR|]. apply (fil_seen k (in33 F)). intros. exact Logic.I.
  - apply float_eval_rounded; [exact HR|]. apply fil_gradient; [intros; exact Logic.I|]. intro n. cbn [c_dWdC str_comp].
    unfold x_str_gradient, x_dWdlC, x_M, x_asvoigt. assert (P : forall a, filled (xm_gradient (gen_x m M) (x_lam (fun a => Num (w a))) a)).
    { apply gen_filled. intro; exact Logic.I. }
    set (X := xm_gradient (gen_x m M) (x_lam (fun a => Num (w a)))) in *. clearbody X. fil.
Qed.
Print Assumptions C69_machine.

(** Simulated curves. *)
Theorem C69_curves : forall (SV : Type) lapack m M (fw : Framework SV) sim p lc XF k (none : SV) xs c, lapack_legal lapack ->
  generalized_fw lapack (tod_model m) (measure_fun M) = Ok fw -> simulates sim p lc k none fw -> 0 <= c ->
  In (lc, XF) [(uniaxial, x_uniaxial); (biaxial, x_biaxial); (planar, x_planar)] -> (forall l, In l xs -> 0 < l) ->
  exists fs, stress_curve_fit sim xs p = Ok fs /\
  List.Forall2 (fun l f => exists K u0, 0 < u0 /\ forall u y, 0 <= u <= u0 -> float_point c u (gen_x m M) k (XF l) y -> Rabs (y - f) <= K * u) xs fs.
Proof.
  intros SV lapack m M fw sim p lc XF k none xs c HL HW. destruct (constructed _ _ _ _ HW) as (HK & g & HG & ->).
  exact (str_curves (gen_model (tod_model m) (measure_fun M) g) (gen_x m M) lapack gen_self0 (gen_sound m M HK) (gen_renders m M g HK HG) HL
    (gen_exchangeable _ _ _) (gen_exchangeable_hessian _ _ _ (tod_no3 m)) sim p lc XF k none xs c).
Qed.
Print Assumptions C69_curves.

(** The hypotheses are met, with three equal principal stretches and a material tangent that np.allclose keeps:
    F = 1, C10 = 1, fun=deformation with exponent 4. *)
Example C69_example : let m := tod_init 1 0 0 0 0 false in exists lapack (fw : Framework unit), lapack_legal lapack /\
  generalized_fw lapack (tod_model m) (measure_fun (MDeformation 4)) = Ok fw /\ invertible one2 /\
  (forall k w v, eig_legal (received k (cauchy_green one2)) w v -> forall a b, Rabs (w a - w b) <> / 10 ^ 8) /\ clear_cut fw one2 /\
  (forall u A, 0 <= u -> eigh_computed 1 u (astensor A) (fst (lapack (astensor A))) (snd (lapack (astensor A)))).
Proof.
  cbv zeta. set (m := tod_init 1 0 0 0 0 false). destruct C68_example as (lapack & HL & _ & HI & HU & _ & HE). exists lapack.
  assert (N4 : exponent (MDeformation 4) <> 0) by (cbn; lra).
  set (g := {| gc1 := 4 / 4 ^ 2; gc2 := 4 / 4 ^ 2; gI10 := 3; gI20 := 3; gI30 := 1 |}).
  assert (HG : gen_init (measure_fun (MDeformation 4)) = Ok g) by (cbn [measure_fun]; apply gen_init_deformation; lra).
  exists (stretches_fw lapack (gen_model (tod_model m) (measure_fun (MDeformation 4)) g)). split; [exact HL|].
  split; [unfold generalized_fw; rewrite HG; reflexivity|]. split; [exact HI|]. split; [exact HU|]. split; [|exact HE].
  assert (DO : det3 one2 = 1) by (unfold det3, one2, delta; cbn; ring).
  assert (RO : forall p, mscal (Rpower 1 p) one2 = one2) by (intro p; apply T2_ext; intros; unfold mscal; rewrite Rpower_1_l; ring).
  assert (RC : distortional_part (cauchy_green one2) = one2) by (rewrite dg_one; unfold distortional_part; rewrite DO; apply RO).
  intros sv s H E. rewrite RC in E. rewrite dg_one, DO, Rpower_1_l. right. exists V0, V0.
  set (l := lam lapack (asvoigt one2)).
  assert (EO : astensor (asvoigt one2) = one2) by (apply astensor_asvoigt_f; intros i j; destruct i, j; reflexivity).
  assert (LG : eig_legal one2 (fst (lapack one2)) (snd (lapack one2))) by (pose proof (HL (asvoigt one2)) as LG; unfold lapack_at in LG; rewrite EO in LG; exact LG).
  assert (EL : forall a, l a = 1) by (intro a; unfold l, lam; rewrite EO, (one_eig _ _ LG a); apply sqrt_1).
  assert (PL : positive3 l) by (intro a; rewrite EL; lra).
  set (J := gen_invariants (mE (MDeformation 4)) g l).
  assert (CG : inv_call (tod_model m) J sv = Ok ((Some (0 + 1), None, None), sv)).
  { unfold inv_call. cbn [im_gradient tod_model]. unfold tod_gradient. cbn [m tod_init C10 C01 C11 C20 C30].
    rewrite (proj2 (nonzero_false 0) eq_refl). assert (nonzero 1 = true) as -> by (destruct (nonzero 1) eqn:Z; auto; apply nonzero_false in Z; lra). reflexivity. }
  assert (CH : inv_callh (tod_model (SV := unit) m) J sv = Ok (fun _ => None)).
  { unfold inv_callh. cbn [im_hessian tod_model]. f_equal. apply functional_extensionality; intro v. unfold tod_hessian. cbn [m tod_init C10 C01 C11 C20 C30].
    rewrite (proj2 (nonzero_false 0) eq_refl). destruct v; reflexivity. }
  destruct (gen_gradient_ok (tod_model m) (measure_fun (MDeformation 4)) g _ _ _ (measure_ok _ N4) l sv _ sv PL CG (st_model _ s)) as (s1 & EG & _).
  destruct (gen_hessian_ok (tod_model m) (measure_fun (MDeformation 4)) g _ _ _ (measure_ok _ N4) l sv _ sv _ PL CG CH s1) as (s2 & EH).
  destruct (str_hessian_ok lapack (gen_model (tod_model m) (measure_fun (MDeformation 4)) g) (asvoigt one2) sv s _ _ _ _ _ EG EH) as (s' & EQ & _).
  unfold outcome in E. cbn [fw_hessian stretches_fw] in E. rewrite EQ in E. cbn [snd] in E. injection E as <-.
  set (gg := fun a : ix3 => _) in *. set (hh := fun v : ix6 => Some _).
  assert (Eg : forall a, gg a = 1).
  { intro a. unfold gg, sum3, gdI. cbn [o3 fst snd val mdE]. unfold def_dC. rewrite !EL, !Rpower_1_l. cbn [g gc1]. field. }
  assert (Eh : forall a b, val (hh (pos a b)) = if ix3_eqb a b then 3 else 0).
  { intros a b. unfold hh, gen_H, sum3, gdI. destruct a, b; cbn [pos mixed ga6 gb6 o3 fst snd val mdE md2E ix3_eqb]; unfold def_dC, def_d2C; rewrite !EL, !Rpower_1_l; cbn [g gc1 gc2]; field. }
  assert (ED : strD l gg hh = fun a b => if ix3_eqb a b then 1 / 2 else 0).
  { apply functional_extensionality; intro a. apply functional_extensionality; intro b. unfold strD, strK. rewrite Eh, Eg, !EL. destruct a, b; cbn; field. }
  assert (EF : forall a b, ix3_eqb a b = false -> strF l gg hh a b = 1 / 2).
  { intros a b N. unfold strF. rewrite ED, !EL, N.
    assert (isclose (1 ^ 2 - 1 ^ 2) 0 = true) as -> by (apply isclose0_true; rewrite Rminus_eq_0, Rabs_R0; left; apply Rinv_0_lt_compat, pow_lt; lra).
    replace (ix3_eqb b b) with true by (destruct b; reflexivity). ring. }
  set (v := snd (lapack one2)) in *.
  assert (EV : vec lapack (asvoigt one2) = v) by (unfold vec, v; rewrite EO; reflexivity).
  assert (NR : v X0 X0 * v X0 X0 + v X0 X1 * v X0 X1 + v X0 X2 * v X0 X2 = 1).
  { pose proof (eig_complete one2 _ v LG X0 X0) as Q. unfold sum3, delta in Q. cbn in Q. exact Q. }
  assert (EH0 : strHv lapack (asvoigt one2) gg hh V0 V0 = 1 / 2).
  { unfold strHv. fold l. rewrite EV. unfold asvoigt4; cbn [vi vj]; unfold Hf. rewrite ED, !EF by reflexivity. unfold sum3, cdya_spec, base. cbn [ix3_eqb].
    transitivity (1 / 2 * (v X0 X0 * v X0 X0 + v X0 X1 * v X0 X1 + v X0 X2 * v X0 X2) ^ 2); [field|rewrite NR; field]. }
  rewrite EH0. assert (/ 10 ^ 8 < 2).
  { apply Rle_lt_trans with (/ 1); [|rewrite Rinv_1; lra]. apply Rinv_le_contravar; [lra|]. simpl. lra. }
  replace (4 * 1 * (1 / 2)) with 2 by field. rewrite Rabs_right; lra.
Qed.
