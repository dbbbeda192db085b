(** * Property C61: small strains. *)
From Coq Require Import Reals Lra Lia List String FunctionalExtensionality.
From Coquelicot Require Import Coquelicot.
From Verif Require Import Tensor Py Voigt Algebra Calc Models ModelProofs Frameworks Spaces Spec GenProofs StrMore StrRoutes Lab LabSpec LabMech LabCurves CurveSpec CurveProofs CurveOgden
  NDLinks2 PropModels PropStretches PropLab PropCurves SlopeSpec.
Import ListNotations.
Local Open Scope R_scope.

(** ** Models in terms of the principal stretches *)
(** A load case with its path of stretches and the number of loaded directions. *)
Definition path_of_case (lc : R -> T2) (l dl : R -> Vec3) (n : R) : Prop :=
  (lc = uniaxial /\ l = lc_uniaxial /\ dl = d_uniaxial /\ n = 1) \/ (lc = planar /\ l = lc_planar /\ dl = d_planar /\ n = 1) \/
  (lc = biaxial /\ l = lc_biaxial /\ dl = d_biaxial /\ n = 2).
Section St.
  Context (SV : Type) (lapack : Lapack) (HL : lapack_legal lapack) (m : StretchModel SV) (psi : Vec3 -> R) (HS : symmetric_fn psi) (HG : str_gradient_of m psi positive3).
  Let fw := stretches_fw lapack m.
  Let W := energy_of psi.
  Lemma st_grad : fw_gradient_of fw W posdef.
  Proof.
    intros C t0 dC S HC P. exact (C18_gradient SV lapack m psi positive3 W HL (energy_of_ok psi) HS HG C t0 dC S HC (stretch_dom_positive _ P)).
  Qed.
  Lemma st_iso : isotropic_gradient fw posdef.
  Proof. exact (proj1 (C17_symmetric_energies SV lapack m psi HL HS HG)). Qed.
  Lemma case_pos lc l dl n : path_of_case lc l dl n -> forall t, 0 < t -> positive3 (l t).
  Proof. intros C t T. destruct C as [(_ & -> & _)|[(_ & -> & _)|(_ & -> & _)]]; intros []; cbn; try lra; apply exp_pos. Qed.
  Lemma case_dgm lc l dl n : path_of_case lc l dl n -> forall t, 0 < t -> lc t = dgm (l t X0) (l t X1) (l t X2).
  Proof.
    intros C t T. destruct C as [(-> & -> & _)|[(-> & -> & _)|(-> & -> & _)]]; cbn.
    - rewrite uniaxial_dg. assert (E := Rpower_isq t 1 T). rewrite Rpower_1 in E by (apply isq; exact T).
      rewrite E. replace (- (1 / 2) * 1) with (-1 / 2) by field. reflexivity.
    - rewrite planar_dg. assert (E := Rpower_iv t 1 1 T). assert (0 < / t) by (apply Rinv_0_lt_compat; exact T).
      rewrite Rpower_1 in E by (replace (1 / t ^ 1) with (/ t) by (field; lra); assumption). cbn [INR] in E. replace (- (1) * 1) with (-1) in E by ring.
      rewrite <- E. f_equal. field. lra.
    - rewrite biaxial_dg. assert (E := Rpower_iv t 2 1 T). assert (0 < t ^ 2) by (apply pow_lt; exact T).
      rewrite Rpower_1 in E by (apply Rdiv_lt_0_compat; lra). cbn [INR] in E. replace (- (1 + 1) * 1) with (-2) in E by ring.
      rewrite <- E. reflexivity.
  Qed.
  Lemma case_D lc l dl n : path_of_case lc l dl n -> forall t, 0 < t -> dcurve3 l t (dl t).
  Proof.
    intros C t T. destruct C as [(_ & -> & -> & _)|[(_ & -> & -> & _)|(_ & -> & -> & _)]]; intros []; unfold lc_uniaxial, lc_planar, lc_biaxial, d_uniaxial, d_planar, d_biaxial;
      first [apply D_id | apply D_const | apply D_Rpower; exact T].
  Qed.
  Lemma case_iso lc l dl n : path_of_case lc l dl n -> exists ddl, isochoric_path l dl ddl.
  Proof.
    intros C. destruct loadcases_isochoric as (A & B & D).
    destruct C as [(_ & -> & -> & _)|[(_ & -> & -> & _)|(_ & -> & -> & _)]]; assumption.
  Qed.
  Lemma case_W lc l dl n : path_of_case lc l dl n -> forall t, 0 < t -> W (cauchy_green (lc t)) = psi (l t).
  Proof.
    intros C t T. rewrite (case_dgm lc l dl n C t T). assert (P := case_pos lc l dl n C t T).
    rewrite (diag_CG_energy psi W HS (energy_of_ok psi)) by apply P. f_equal. apply Vec3_ext. intros []; reflexivity.
  Qed.
  (** What gradient returns for the state variables none *)
  Definition value_of (none : SV) (s0 : sm_self m) (l : Vec3) : Vec3 := match outcome (sm_gradient m l none) s0 with Ok (g, _) => g | Raise _ => fun _ => 0 end.
  Lemma value_ok none s0 l : positive3 l -> exists svn, returns (sm_gradient m l none) s0 (value_of none s0 l, svn).
  Proof.
    intro P. destruct (HG (fun _ => l) 0 (fun _ => 0) ltac:(intro a; apply D_const) P none s0) as (g & svn & [s' E] & _).
    exists svn, s'. unfold value_of, outcome. rewrite E. reflexivity.
  Qed.
  Lemma value_D none s0 l t0 dl : dcurve3 l t0 dl -> positive3 (l t0) -> is_derive (fun t => psi (l t)) t0 (sum3 (fun a => value_of none s0 (l t0) a * dl a)).
  Proof.
    intros D P. destruct (HG l t0 dl D P none s0) as (g & svn & [s' E] & D'). unfold value_of, outcome. rewrite E. exact D'.
  Qed.
  Lemma value_equal none s0 a b : value_of none s0 (fun _ => 1) a = value_of none s0 (fun _ => 1) b.
  Proof.
    destruct (value_ok none s0 (fun _ => 1)) as (svn & [s' E]); [intro; lra|].
    apply (energy_exchangeable m psi HS HG (fun _ => 1) none s0 a b ltac:(intro; lra) eq_refl _ svn).
    unfold outcome. rewrite E. reflexivity.
  Qed.
  Lemma st_curve lc l dl n sim p k (none : SV) s0 xs : path_of_case lc l dl n -> simulates sim p lc k none fw -> incompressible_kind k -> (forall x, In x xs -> 0 < x) ->
    stress_curve_fit sim xs p = Ok (map (fun x => sum3 (fun a => value_of none s0 (l x) a * dl x a) / n) xs).
  Proof.
    intros C S K P.
    assert (PD : forall x, In x xs -> 0 < x /\ posdef (cauchy_green (lc x))).
    { intros x I. split; [auto|]. rewrite (case_dgm lc l dl n C x (P x I)). apply dgm_pd; apply (case_pos lc l dl n C x (P x I)). }
    assert (N : n <> 0) by (destruct C as [(_ & _ & _ & ->)|[(_ & _ & _ & ->)|(_ & _ & _ & ->)]]; lra).
    assert (G : exists fs, stress_curve_fit sim xs p = Ok fs /\ List.Forall2 (fun x f => is_derive (fun t => W (cauchy_green (lc t))) x (n * f)) xs fs).
    { destruct C as [(-> & _ & _ & ->)|[(-> & _ & _ & ->)|(-> & _ & _ & ->)]].
      - destruct (C37_uniaxial SV sim p k none fw W posdef xs S K st_grad st_iso PD) as (fs & E & F). exists fs. split; [exact E|].
        clear - F. induction F as [|x y xs fs F1 F2 IH]; constructor; [rewrite Rmult_1_l; exact F1|exact IH].
      - destruct (C37_planar SV sim p k none fw W posdef xs S K st_grad st_iso PD) as (fs & E & F). exists fs. split; [exact E|].
        clear - F. induction F as [|x y xs fs F1 F2 IH]; constructor; [rewrite Rmult_1_l; exact F1|exact IH].
      - exact (C37_biaxial SV sim p k none fw W posdef xs S K st_grad st_iso PD). }
    destruct G as (fs & E & F). rewrite E. f_equal. apply (forall2_map _ _ _ _ F). intros x y I D. specialize (P x I).
    apply (Rmult_eq_reg_l n); [|exact N]. replace (n * (sum3 (fun a => value_of none s0 (l x) a * dl x a) / n)) with (sum3 (fun a => value_of none s0 (l x) a * dl x a)) by (field; exact N).
    assert (D' := value_D none s0 l x (dl x) (case_D lc l dl n C x P) (case_pos lc l dl n C x P)).
    apply is_derive_unique in D'. rewrite <- D'. symmetry. apply is_derive_unique.
    apply (is_derive_ext_loc (fun t => W (cauchy_green (lc t)))); [|exact D]. apply PropCurves.near_pos; [exact P|]. intros t Pt. exact (case_W lc l dl n C t Pt).
  Qed.
  Lemma st_slope lc l dl n sim p k (none : SV) s0 v : path_of_case lc l dl n -> simulates sim p lc k none fw -> incompressible_kind k ->
    is_derive (fun t => sum3 (fun a => value_of none s0 (l t) a * dl t a)) 1 v -> initial_slope (fun xs => stress_curve_fit sim xs p) (v / n).
  Proof.
    intros C S K D. exists (fun x => sum3 (fun a => value_of none s0 (l x) a * dl x a) / n). split; [|split].
    - intros xs P. exact (st_curve lc l dl n sim p k none s0 xs C S K P).
    - destruct (case_iso lc l dl n C) as [ddl HI]. destruct (isochoric_facts _ _ _ HI) as [S1 _]. destruct HI as (L1 & _).
      assert (El : l 1 = (fun _ => 1)) by (apply functional_extensionality; exact L1). unfold sum3. rewrite El.
      rewrite (value_equal none s0 X1 X0), (value_equal none s0 X2 X0).
      replace (_ + _ + _) with (value_of none s0 (fun _ => 1) X0 * (dl 1 X0 + dl 1 X1 + dl 1 X2)) by ring. rewrite S1. unfold Rdiv. ring.
    - unfold Rdiv. apply (is_derive_ext (fun x => / n * sum3 (fun a => value_of none s0 (l x) a * dl x a))); [intro t; apply Rmult_comm|].
      eapply Calc.D_eq; [apply D_scal, D|]. ring.
  Qed.
  Lemma case_unit lc l dl n c : path_of_case lc l dl n -> unit_slope lc c -> (dl 1 X0 ^ 2 + dl 1 X1 ^ 2 + dl 1 X2 ^ 2) / n = c / 2.
  Proof.
    destruct loadcase_factors as (A & B & D). intros C U.
    assert (NU : uniaxial <> planar /\ uniaxial <> biaxial /\ planar <> biaxial).
    { assert (S4 : sqrt 4 = 2) by (replace 4 with (2 * 2) by ring; apply sqrt_square; lra).
      split; [|split]; intro H; [assert (E := f_equal (fun f => f 4 X1 X1) H)|assert (E := f_equal (fun f => f 4 X1 X1) H)|assert (E := f_equal (fun f => f 4 X1 X1) H)]; cbv beta in E;
        rewrite ?uniaxial_dg, ?planar_dg, ?biaxial_dg in E; cbn in E; try rewrite S4 in E; lra. }
    destruct NU as (N1 & N2 & N3).
    destruct C as [(-> & -> & -> & ->)|[(-> & -> & -> & ->)|(-> & -> & -> & ->)]]; destruct U as [[E ->]|[[E ->]|[E ->]]]; try congruence; rewrite ?A, ?B, ?D; lra.
  Qed.
  Lemma case_path lc c : unit_slope lc c -> exists l dl n, path_of_case lc l dl n.
  Proof. intros [[-> _]|[[-> _]|[-> _]]]; unfold path_of_case; do 3 eexists; [left|right; left|right; right]; repeat split. Qed.
  Lemma value_near lc l dl n none s0 : path_of_case lc l dl n ->
    locally 1 (fun t => exists svn, returns (sm_gradient m (l t) none) s0 (value_of none s0 (l t), svn)).
  Proof. intro C. apply PropCurves.near_pos; [lra|]. intros t T. apply value_ok. exact (case_pos lc l dl n C t T). Qed.
End St.
(** Every material in terms of the stretches has one shear modulus mu: the slopes of the uniaxial, planar and
    biaxial curves are 3 mu, 4 mu and 6 mu. *)
Theorem C61_one_modulus : forall (SV : Type) lapack (m : StretchModel SV) psi (none : SV), lapack_legal lapack -> symmetric_fn psi ->
  str_gradient_of m psi positive3 -> str_hessian_of m positive3 -> inhabited (sm_self m) ->
  exists mu, forall sim p lc c k, unit_slope lc c -> simulates sim p lc k none (stretches_fw lapack m) -> incompressible_kind k ->
    initial_slope (fun xs => stress_curve_fit sim xs p) (c * mu).
Proof.
  intros SV lapack m psi none HL HS HG HH [s0].
  assert (P1 : positive3 (fun _ => 1)) by (intro; lra).
  destruct (HH (fun _ _ => 1) 1 (fun _ => 0) ltac:(intro; apply D_const) P1 none s0) as (h & Rh & _).
  assert (X := energy_exchangeable_h m psi HS HG HH (fun _ => 1) none s0).
  assert (Oh : outcome (sm_hessian m (fun _ => 1) none) s0 = Ok h) by (destruct Rh as [s' E]; unfold outcome; rewrite E; reflexivity).
  assert (A1 : val (h (pos X1 X1)) = val (h (pos X0 X0))) by (rewrite (X X1 X0 P1 eq_refl h Oh X1 X1); reflexivity).
  assert (A2 : val (h (pos X2 X2)) = val (h (pos X0 X0))) by (rewrite (X X2 X0 P1 eq_refl h Oh X2 X2); reflexivity).
  assert (B1 : val (h (pos X1 X2)) = val (h (pos X0 X1))) by (rewrite (X X2 X0 P1 eq_refl h Oh X1 X2); reflexivity).
  assert (B2 : val (h (pos X0 X2)) = val (h (pos X0 X1))) by (rewrite (X X2 X1 P1 eq_refl h Oh X0 X2); reflexivity).
  set (g := value_of SV m none s0 (fun _ => 1) X0).
  exists ((val (h (pos X0 X0)) - val (h (pos X0 X1)) + g) / 2).
  intros sim p lc c k U S K. destruct (case_path lc c U) as (l & dl & n & C).
  destruct (case_iso lc l dl n C) as [ddl HI]. destruct (isochoric_facts _ _ _ HI) as [S1 S2]. destruct HI as (L1 & HD & HD2 & _).
  assert (El : l 1 = (fun _ => 1)) by (apply functional_extensionality; exact L1).
  assert (D1 : dcurve3 l 1 (dl 1)) by exact (locally_singleton _ _ HD).
  assert (P : positive3 (l 1)) by (rewrite El; exact P1).
  destruct (HH l 1 (dl 1) D1 P none s0) as (h' & Rh' & Hd). rewrite El in Rh'.
  assert (h' = h) by (destruct Rh as [s1 E1], Rh' as [s2 E2]; rewrite E1 in E2; congruence). subst h'.
  assert (Hd' := Hd (fun _ => none) (fun _ => s0) (fun t => value_of SV m none s0 (l t)) (value_near SV m psi HG lc l dl n none s0 C)).
  replace (c * ((val (h (pos X0 X0)) - val (h (pos X0 X1)) + g) / 2)) with ((dl 1 X0 ^ 2 + dl 1 X1 ^ 2 + dl 1 X2 ^ 2) * (val (h (pos X0 X0)) - val (h (pos X0 X1)) + g) / n).
  2: { assert (CU := case_unit lc l dl n c C U). replace (_ * _ / n) with ((dl 1 X0 ^ 2 + dl 1 X1 ^ 2 + dl 1 X2 ^ 2) / n * (val (h (pos X0 X0)) - val (h (pos X0 X1)) + g)) by (unfold Rdiv; ring). rewrite CU. field. }
  apply (st_slope SV lapack HL m psi HS HG lc l dl n sim p k none s0 _ C S K).
  unfold sum3 at 1. assert (H0 := Hd' X0). assert (H1 := Hd' X1). assert (H2 := Hd' X2).
  assert (Q0 := HD2 X0). assert (Q1 := HD2 X1). assert (Q2 := HD2 X2). cbv beta in *.
  eapply Calc.D_eq; [exact (D_plus _ _ _ _ _ (D_plus _ _ _ _ _ (D_mult _ _ _ _ _ H0 Q0) (D_mult _ _ _ _ _ H1 Q1)) (D_mult _ _ _ _ _ H2 Q2))|]. cbv beta.
  rewrite El, (value_equal SV m psi HS HG none s0 X1 X0), (value_equal SV m psi HS HG none s0 X2 X0). fold g. unfold sum3.
  change (pos X1 X0) with (pos X0 X1). change (pos X2 X0) with (pos X0 X2). change (pos X2 X1) with (pos X1 X2).
  rewrite A1, A2, B1, B2.
  replace (ddl X2) with (dl 1 X0 ^ 2 + dl 1 X1 ^ 2 + dl 1 X2 ^ 2 - ddl X0 - ddl X1) by lra.
  replace (dl 1 X2) with (- dl 1 X0 - dl 1 X1) by lra. ring.
Qed.
Print Assumptions C61_one_modulus.
(** The modulus of GeneralizedInvariantsModel is that of the invariant model: 2 (W1 + W2) whatever the exponent of the
    deformation measure ... *)
Theorem C61_generalized_deformation : forall (SV : Type) lapack (m : InvModel SV) psi e cst g svn sv0 sim p lc c k (none : SV), lapack_legal lapack ->
  inv_gradient_of m psi everywhere -> inv_hessian_of m everywhere -> e <> 0 -> gen_init (deformation_fun e) = Ok cst ->
  inv_call m (vec3 3 3 1) sv0 = Ok (g, svn) ->
  unit_slope lc c -> simulates sim p lc k none (stretches_fw lapack (gen_model m (deformation_fun e) cst)) -> incompressible_kind k ->
  initial_slope (fun xs => stress_curve_fit sim xs p) (c * (2 * (val (o3 g X0) + val (o3 g X1)))).
Proof.
  intros SV lapack m psi e cst g svn sv0 sim p lc c k none HL HG HH E0 Ec Eg U S K.
  destruct (case_path lc c U) as (l & dl & n & C). destruct (case_iso lc l dl n C) as [ddl HI].
  assert (HG' : str_gradient_of (gen_model m (deformation_fun e) cst) (fun l => psi (gen_invariants (fun l => Rpower l e) cst l)) positive3).
  { intros l' t0 dl' D P. exact (C12_gradient SV m _ cst _ _ _ psi everywhere (proj2 (C12_measures e E0)) HG l' t0 dl' D (conj P Logic.I)). }
  replace (c * (2 * (val (o3 g X0) + val (o3 g X1)))) with ((dl 1 X0 ^ 2 + dl 1 X1 ^ 2 + dl 1 X2 ^ 2) * (4 * (val (o3 g X0) + val (o3 g X1))) / n).
  2: { assert (CU := case_unit lc l dl n c C U). replace (_ * _ / n) with ((dl 1 X0 ^ 2 + dl 1 X1 ^ 2 + dl 1 X2 ^ 2) / n * (4 * (val (o3 g X0) + val (o3 g X1)))) by (unfold Rdiv; ring). rewrite CU. field. }
  apply (st_slope SV lapack HL _ _ (gen_symmetric _ _ _) HG' lc l dl n sim p k none gen_self0 _ C S K).
  apply (C13_deformation SV m psi everywhere e cst l dl ddl g svn sv0 E0 Ec HG HH Logic.I Eg HI (fun _ => none) (fun _ => gen_self0)).
  exact (value_near SV _ _ HG' lc l dl n none gen_self0 C).
Qed.
Print Assumptions C61_generalized_deformation.
(** ... and W1 - W2/2 (at zero strain) for the strain measures. *)
Theorem C61_generalized_strain : forall (SV : Type) lapack (m : InvModel SV) psi e cst g svn sv0 sim p lc c k (none : SV), lapack_legal lapack ->
  inv_gradient_of m psi everywhere -> inv_hessian_of m everywhere -> e <> 0 -> gen_init (strain_fun e) = Ok cst ->
  inv_call m (vec3 0 0 0) sv0 = Ok (g, svn) ->
  unit_slope lc c -> simulates sim p lc k none (stretches_fw lapack (gen_model m (strain_fun e) cst)) -> incompressible_kind k ->
  initial_slope (fun xs => stress_curve_fit sim xs p) (c * (val (o3 g X0) - val (o3 g X1) / 2)).
Proof.
  intros SV lapack m psi e cst g svn sv0 sim p lc c k none HL HG HH E0 Ec Eg U S K.
  destruct (case_path lc c U) as (l & dl & n & C). destruct (case_iso lc l dl n C) as [ddl HI].
  assert (HG' : str_gradient_of (gen_model m (strain_fun e) cst) (fun l => psi (gen_invariants (fun l => (Rpower l e - 1) / e) cst l)) positive3).
  { intros l' t0 dl' D P. exact (C12_gradient SV m _ cst _ _ _ psi everywhere (proj1 (C12_measures e E0)) HG l' t0 dl' D (conj P Logic.I)). }
  replace (c * (val (o3 g X0) - val (o3 g X1) / 2)) with ((dl 1 X0 ^ 2 + dl 1 X1 ^ 2 + dl 1 X2 ^ 2) * (2 * val (o3 g X0) - val (o3 g X1)) / n).
  2: { assert (CU := case_unit lc l dl n c C U). replace (_ * _ / n) with ((dl 1 X0 ^ 2 + dl 1 X1 ^ 2 + dl 1 X2 ^ 2) / n * (2 * val (o3 g X0) - val (o3 g X1))) by (unfold Rdiv; ring). rewrite CU. field. }
  apply (st_slope SV lapack HL _ _ (gen_symmetric _ _ _) HG' lc l dl n sim p k none gen_self0 _ C S K).
  apply (C13_strain SV m psi everywhere e cst l dl ddl g svn sv0 E0 Ec HG HH Logic.I Eg HI (fun _ => none) (fun _ => gen_self0)).
  exact (value_near SV _ _ HG' lc l dl n none gen_self0 C).
Qed.
Print Assumptions C61_generalized_strain.
(** Ogden: the modulus is the sum of the parameters mu. *)
Theorem C61_ogden : forall (SV : Type) lapack mu alpha sim p lc c k (none : SV), lapack_legal lapack ->
  (forall m a, In (m, a) (combine mu alpha) -> a <> 0) -> unit_slope lc c -> incompressible_kind k ->
  simulates sim p lc k none (stretches_fw lapack (ogden_model (SV:=SV) {| og_mu := mu; og_alpha := alpha |})) ->
  initial_slope (fun xs => stress_curve_fit sim xs p) (c * fold_right Rplus 0 (map fst (combine mu alpha))).
Proof.
  intros SV lapack mu alpha sim p lc c k none HL HA U K S.
  assert (C : exists b, case_of lc b /\ c = 2 * (1 - b)).
  { destruct U as [[-> ->]|[[-> ->]|[-> ->]]]; [exists (- (1 / 2))|exists (- (1))|exists (- (2))]; (split; [unfold case_of; tauto|lra]). }
  destruct C as (b & C & ->). destruct (og_case SV lapack mu alpha sim p k none lc b HL C HA K S) as [B E].
  exists (ogden_curve b mu alpha). split; [exact E|]. split; [apply ogden_1|].
  unfold ogden_curve. clear - HA. induction (combine mu alpha) as [|[m a] r IH]; cbn [fold_right map fst snd].
  - eapply Calc.D_eq; [apply D_const|]. ring.
  - assert (A : a <> 0) by (apply (HA m a); left; reflexivity).
    assert (D := IH (fun m' a' I => HA m' a' (or_intror I))).
    assert (D1 := D_Rpower (a - 1) 1 Rlt_0_1). assert (D2 := D_Rpower (b * a - 1) 1 Rlt_0_1).
    eapply Calc.D_eq; [apply D_plus; [apply D_scal, D_minus; [exact D1|exact D2]|exact D]|].
    rewrite !Rpower_1_l. field. exact A.
Qed.
Print Assumptions C61_ogden.

(** ** Models in terms of the invariants *)
Lemma flat_product u w d : u 1 = 0 -> is_derive u 1 d -> (forall e, 0 < e -> exists q, 0 < q /\ forall t, Rabs (t - 1) < q -> Rabs (w t - w 1) < e) ->
  is_derive (fun t => u t * w t) 1 (d * w 1).
Proof.
  intros U D C. apply is_derive_Reals in D. apply is_derive_Reals. intros eps He.
  set (M := Rabs (w 1) + 1 + (Rabs d + 1)). assert (HM : 0 < M) by (unfold M; pose proof (Rabs_pos (w 1)); pose proof (Rabs_pos d); lra).
  set (e1 := Rmin 1 (eps / M)). assert (H1 : 0 < e1) by (apply Rmin_pos; [lra|apply Rdiv_lt_0_compat; lra]).
  assert (L1 : e1 <= 1) by apply Rmin_l. assert (L2 : e1 * M <= eps).
  { assert (e1 <= eps / M) by apply Rmin_r. apply Rle_trans with (eps / M * M); [apply Rmult_le_compat_r; lra|right; field; lra]. }
  destruct (D e1 H1) as [d1 D1]. destruct (C e1 H1) as (q & Q & C1).
  exists (mkposreal (Rmin d1 q) (Rmin_pos _ _ (cond_pos d1) Q)). cbn. intros h Hh Bh.
  assert (Bd : Rabs h < d1) by (eapply Rlt_le_trans; [exact Bh|apply Rmin_l]). assert (Bq : Rabs h < q) by (eapply Rlt_le_trans; [exact Bh|apply Rmin_r]).
  specialize (D1 h Hh Bd). specialize (C1 (1 + h) ltac:(replace (1 + h - 1) with h by ring; exact Bq)).
  rewrite U in *. set (r := (u (1 + h) - 0) / h) in *.
  replace ((u (1 + h) * w (1 + h) - 0 * w 1) / h - d * w 1) with ((r - d) * w (1 + h) + d * (w (1 + h) - w 1)) by (unfold r; field; exact Hh).
  eapply Rle_lt_trans; [apply Rabs_triang|]. rewrite !Rabs_mult.
  assert (Bw : Rabs (w (1 + h)) < Rabs (w 1) + 1).
  { replace (w (1 + h)) with (w 1 + (w (1 + h) - w 1)) by ring. eapply Rle_lt_trans; [apply Rabs_triang|]. lra. }
  assert (Rabs (r - d) * Rabs (w (1 + h)) <= e1 * (Rabs (w 1) + 1)) by (apply Rmult_le_compat; try apply Rabs_pos; lra).
  assert (Rabs d * Rabs (w (1 + h) - w 1) <= Rabs d * e1) by (apply Rmult_le_compat_l; [apply Rabs_pos|lra]).
  unfold M in L2. nra.
Qed.
Lemma eps_cont f : continuous f 1 -> forall e, 0 < e -> exists q, 0 < q /\ forall t, Rabs (t - 1) < q -> Rabs (f t - f 1) < e.
Proof.
  intros C e He. destruct (C (ball (f 1) e) (locally_ball (f 1) (mkposreal e He))) as [q H]. exists q. split; [apply cond_pos|]. intros t T. exact (H t T).
Qed.
Lemma cont_33 (W : R -> R -> R) I1 I2 : continuous_33 W -> I1 1 = 3 -> I2 1 = 3 -> continuous I1 1 -> continuous I2 1 ->
  continuous (fun t => W (I1 t) (I2 t)) 1.
Proof.
  intros HW E1 E2 C1 C2. apply filterlim_locally. intros e. destruct (HW e (cond_pos e)) as (d & D & H).
  destruct (eps_cont I1 C1 d D) as (q1 & Q1 & A1). destruct (eps_cont I2 C2 d D) as (q2 & Q2 & A2).
  exists (mkposreal _ (Rmin_pos _ _ Q1 Q2)). intros t T. unfold ball in T; cbn in T. unfold AbsRing_ball, abs, minus, plus, opp in T; cbn in T.
  assert (T1 : Rabs (t - 1) < q1) by (eapply Rlt_le_trans; [exact T|apply Rmin_l]). assert (T2 : Rabs (t - 1) < q2) by (eapply Rlt_le_trans; [exact T|apply Rmin_r]).
  specialize (A1 t T1). specialize (A2 t T2). rewrite E1 in A1. rewrite E2 in A2. rewrite E1, E2. exact (H _ _ A1 A2).
Qed.
(** Every model that returns W1 and W2 (continuous at the undeformed state): modulus 2 (W1 + W2). *)
Theorem C61_invariants : forall (SV : Type) sim p lc c k (none : SV) (m : InvModel SV) (W1 W2 : R -> R -> R),
  simulates sim p lc k none (invariants_fw m) -> incompressible_kind k -> unit_slope lc c ->
  (forall I1 I2, exists g svn, inv_call m (vec3 I1 I2 1) none = Ok (g, svn) /\ val (o3 g X0) = W1 I1 I2 /\ val (o3 g X1) = W2 I1 I2) ->
  continuous_33 W1 -> continuous_33 W2 ->
  initial_slope (fun xs => stress_curve_fit sim xs p) (c * (2 * (W1 3 3 + W2 3 3))).
Proof.
  intros SV sim p lc c k none m W1 W2 S K U HW C1 C2.
  assert (cd : forall f : R -> R, ex_derive f 1 -> continuous f 1) by (intros f H; exact (ex_derive_continuous (K := R_AbsRing) (V := R_NormedModule) f 1 H)).
  assert (go : forall u I1 I2 v, u 1 = 0 -> I1 1 = 3 -> I2 1 = 3 -> v 1 = 1 -> is_derive u 1 (2 * c) -> ex_derive I1 1 -> ex_derive I2 1 -> ex_derive v 1 ->
    is_derive (fun t => u t * (W1 (I1 t) (I2 t) + v t * W2 (I1 t) (I2 t))) 1 (c * (2 * (W1 3 3 + W2 3 3)))).
  { intros u I1 I2 v E0 E1 E2 E3 D D1 D2 D3. eapply Calc.D_eq; [apply (flat_product u (fun t => W1 (I1 t) (I2 t) + v t * W2 (I1 t) (I2 t)) (2 * c) E0 D)|].
    - apply eps_cont. apply (continuous_plus (V := R_NormedModule)); [apply cont_33; auto|].
      apply (continuous_mult (K := R_AbsRing)); [apply cd; exact D3|apply cont_33; auto].
    - rewrite E1, E2, E3. ring. }
  destruct U as [[-> ->]|[[-> ->]|[-> ->]]].
  - eexists. split; [intros xs P; exact (uniaxial_curve sim p k none m W1 W2 xs S K HW P)|]. cbv zeta. split; [field|].
    apply (is_derive_ext (fun t => 2 * (t - 1 / t ^ 2) * (W1 (t ^ 2 + 2 / t) (2 * t + 1 / t ^ 2) + / t * W2 (t ^ 2 + 2 / t) (2 * t + 1 / t ^ 2)))).
    { intro t. f_equal. f_equal. unfold Rdiv. apply Rmult_comm. }
    apply (go (fun t => 2 * (t - 1 / t ^ 2)) (fun t => t ^ 2 + 2 / t) (fun t => 2 * t + 1 / t ^ 2) (fun t => / t)); cbv beta; try (field; fail); try (auto_derive; repeat split; lra).
  - eexists. split; [intros xs P; exact (planar_curve sim p k none m W1 W2 xs S K HW P)|]. cbv zeta. split; [field|].
    apply (is_derive_ext (fun t => 2 * (t - 1 / t ^ 3) * (W1 (t ^ 2 + 1 + 1 / t ^ 2) (t ^ 2 + 1 + 1 / t ^ 2) + 1 * W2 (t ^ 2 + 1 + 1 / t ^ 2) (t ^ 2 + 1 + 1 / t ^ 2)))).
    { intro t. rewrite Rmult_1_l. reflexivity. }
    apply (go (fun t => 2 * (t - 1 / t ^ 3)) (fun t => t ^ 2 + 1 + 1 / t ^ 2) (fun t => t ^ 2 + 1 + 1 / t ^ 2) (fun t => 1)); cbv beta; try (field; fail); try (auto_derive; repeat split; lra).
  - eexists. split; [intros xs P; exact (biaxial_curve sim p k none m W1 W2 xs S K HW P)|]. cbv zeta. split; [field|].
    apply (go (fun t => 2 * (t - 1 / t ^ 5)) (fun t => 2 * t ^ 2 + 1 / t ^ 4) (fun t => t ^ 4 + 2 / t ^ 2) (fun t => t ^ 2)); cbv beta; try (field; fail); try (auto_derive; repeat split; lra).
Qed.
Print Assumptions C61_invariants.
Lemma c33 f : continuity_2d_pt f 3 3 -> continuous_33 f.
Proof. intros H e He. destruct (H (mkposreal e He)) as [d D]. exists d. split; [apply cond_pos|]. exact D. Qed.
Theorem C61_third_order_deformation : forall sim p m lc c, tod_simulation sim lc p m -> unit_slope lc c -> undeformed m = 3 ->
  initial_slope (fun xs => stress_curve_fit sim xs p) (c * (2 * (C10 m + C01 m))).
Proof.
  intros sim p m lc c T U E. destruct (tod_simulates _ _ _ _ T) as (k & K & S).
  replace (C10 m + C01 m) with (tod_W1 m 3 3 + tod_W2 m 3 3) by (unfold tod_W1, tod_W2; rewrite E; ring).
  apply (C61_invariants unit sim p lc c k tt _ (tod_W1 m) (tod_W2 m) S K U (tod_W m)); apply c33; unfold tod_W1, tod_W2; cbn [pow];
    repeat first [apply continuity_2d_pt_const | apply continuity_2d_pt_id1 | apply continuity_2d_pt_id2 | apply continuity_2d_pt_plus | apply continuity_2d_pt_minus | apply continuity_2d_pt_mult].
Qed.
Print Assumptions C61_third_order_deformation.
(** Three load cases, five parameters; modulus 2 (a + b). *)
Example C61_example : forall a b c d e,
  initial_slope (fun xs => stress_curve_fit {| si_loadcase := Planar None; si_stretch := []; si_labels := ["C10"; "C01"; "C11"; "C20"; "C30"]%string; si_material := tod_distortional |} xs [a; b; c; d; e])
    (4 * (2 * (a + b))).
Proof. intros. apply (C61_third_order_deformation _ _ _ _ 4 (C38_example a b c d e)); [right; left; auto|reflexivity]. Qed.
(** The hypotheses of C61_one_modulus hold for Ogden. *)
Example C61_one_modulus_example : forall mu alpha, (forall m a, In (m, a) (combine mu alpha) -> a <> 0) -> exists psi, symmetric_fn psi /\
  str_gradient_of (ogden_model (SV:=unit) {| og_mu := mu; og_alpha := alpha |}) psi positive3 /\
  str_hessian_of (ogden_model (SV:=unit) {| og_mu := mu; og_alpha := alpha |}) positive3 /\ inhabited (sm_self (ogden_model (SV:=unit) {| og_mu := mu; og_alpha := alpha |})).
Proof.
  intros mu alpha HA. exists (ogden_psi mu alpha). split; [apply ogden_symmetric|]. split; [exact (ogden_grad' mu alpha HA)|]. split; [|constructor; exact tt].
  apply ogden_hess. exact HA.
Qed.
