(** * Load cases and simulations (C35 - C38): proofs. *)
From Coq Require Import Reals Lra List String FunctionalExtensionality.
From Coquelicot Require Import Coquelicot.
From Verif Require Import Tensor Py Voigt VoigtProofs Algebra Calc Models Frameworks Spaces Spec VCalc InvCore InvProofs SpaceCore PiolaProofs
  SpaceProofs DistProofs Lab LabSpec.
Import ListNotations.
Local Open Scope R_scope.

(** *** Load cases are diagonal *)
Lemma uniaxial_dg x : uniaxial x = dgm x (1 / sqrt x) (1 / sqrt x).
Proof. apply T2_ext; intros [] []; reflexivity. Qed.
Lemma planar_dg x : planar x = dgm x 1 (1 / x).
Proof. apply T2_ext; intros [] []; reflexivity. Qed.
Lemma biaxial_dg x : biaxial x = dgm x x (1 / x ^ 2).
Proof. apply T2_ext; intros [] []; reflexivity. Qed.
Lemma dgm_det a b c : det3 (dgm a b c) = a * b * c.
Proof. unfold det3, dgm; cbn. ring. Qed.
Lemma dgm_diagonal a b c : diagonal (dgm a b c).
Proof. intros i j N. destruct i, j; cbn; auto; contradiction. Qed.
Lemma sqrt_inv2 x : 0 < x -> (1 / sqrt x) * (1 / sqrt x) = / x.
Proof. intro P. pose proof (sqrt_lt_R0 x P). rewrite <- (sqrt_sqrt x) at 3 by lra. field. lra. Qed.
Lemma uniaxial_det x : 0 < x -> det3 (uniaxial x) = 1.
Proof. intro P. rewrite uniaxial_dg, dgm_det, Rmult_assoc, sqrt_inv2 by auto. field. lra. Qed.
Lemma planar_det x : x <> 0 -> det3 (planar x) = 1.
Proof. intro P. rewrite planar_dg, dgm_det. field. auto. Qed.
Lemma biaxial_det x : x <> 0 -> det3 (biaxial x) = 1.
Proof. intro P. rewrite biaxial_dg, dgm_det. field. auto. Qed.
Lemma dgm_one : dgm 1 1 1 = one2.
Proof. apply T2_ext; intros [] []; reflexivity. Qed.
Lemma uniaxial_1 : uniaxial 1 = one2.
Proof. rewrite uniaxial_dg, sqrt_1. rewrite <- dgm_one. f_equal; field. Qed.
Lemma planar_1 : planar 1 = one2.
Proof. rewrite planar_dg. rewrite <- dgm_one. f_equal; field. Qed.
Lemma biaxial_1 : biaxial 1 = one2.
Proof. rewrite biaxial_dg. rewrite <- dgm_one. f_equal; field. Qed.
Lemma dgm_cg a b c : cauchy_green (dgm a b c) = dgm (a ^ 2) (b ^ 2) (c ^ 2).
Proof. apply T2_ext; intros i j. unfold cauchy_green, mmul, mtr, dgm, sum3. destruct i, j; cbn; ring. Qed.
Lemma diagonal_dgm F : diagonal F -> F = dgm (F X0 X0) (F X1 X1) (F X2 X2).
Proof. intro D. apply T2_ext; intros i j. destruct i, j; cbn; auto; apply D; discriminate. Qed.

(** *** C36: the pressure drops out *)
Lemma pressure_free F P p i j z z' : diagonal F -> det3 F <> 0 -> index3 z = Ok i -> index3 z' = Ok j ->
  lc_stress_axes F (with_pressure F p P) z z' = lc_stress_axes F P z z'.
Proof.
  intros D N Ei Ej. unfold lc_stress_axes. rewrite Ei, Ej; cbn [rbind]. f_equal.
  rewrite (diagonal_dgm F D) in *. rewrite dgm_det in N.
  assert (F X0 X0 <> 0 /\ F X1 X1 <> 0 /\ F X2 X2 <> 0) as (N0 & N1 & N2) by (repeat split; intro Z; apply N; rewrite Z; ring).
  unfold with_pressure, inv3. rewrite dgm_det. destruct i, j; cbn; field; auto.
Qed.

(** *** The framework's gradient decides: Deformation and Distortional give the same force *)
Section Point.
  Context {SV : Type} (fw : Framework SV).
  Lemma full_outcome k F sv s : snd (full_only (sp_gradient k fw default_opts) F sv s) =
    match outcome (fw_gradient fw (seen k (right_CG F)) sv) (sp_mat s) with
    | Ok (g, svn) => Ok (mmul F (astensor (kS k (right_CG F) g)), svn)
    | Raise e => Raise e end.
  Proof.
    unfold full_only. destruct (outcome (fw_gradient fw (seen k (right_CG F)) sv) (sp_mat s)) as [[g svn]|e] eqn:E.
    - pose proof (sp_gradient_ok fw default_opts k F sv s g svn E) as X. rewrite piola_stress_eq in X by reflexivity. unfold outcome in X.
      destruct (sp_gradient k fw default_opts F sv s) as [s' r]. cbn [snd] in X. subst r. cbn [snd].
      f_equal. f_equal. unfold pf_stress; cbn. rewrite mtr_one, mmul_1_r. apply T2_ext; intros; try (unfold mscal; field); reflexivity.
    - pose proof (sp_gradient_raise fw default_opts k F sv s e E) as X. unfold outcome in X.
      destruct (sp_gradient k fw default_opts F sv s) as [s' r]. cbn [snd] in X. subst r. reflexivity.
  Qed.
  Definition force_of (F : T2) (g : Vec6) : R := 2 * (F X0 X0 * g V0 - g V2 * F X2 X2 ^ 2 / F X0 X0).
  Lemma right_CG_dgm a b c : right_CG (dgm a b c) = asvoigt (dgm (a ^ 2) (b ^ 2) (c ^ 2)).
  Proof. rewrite right_CG_cauchy, dgm_cg. reflexivity. Qed.
  Lemma point_core k lc x a b c none s : incompressible_kind k -> defgrad lc x = dgm a b c -> a * b * c = 1 ->
    point_stress lc (space_material none fw s (sp_gradient k fw default_opts)) x =
    match outcome (fw_gradient fw (asvoigt (cauchy_green (defgrad lc x))) none) (sp_mat s) with
    | Ok (g, _) => Ok (force_of (defgrad lc x) g) | Raise e => Raise e end.
  Proof.
    intros K E N. unfold point_stress. cbn [space_material mat_gradient mat_none mat_now]. rewrite full_outcome, E, dgm_cg, right_CG_dgm.
    set (C := asvoigt (dgm (a ^ 2) (b ^ 2) (c ^ 2))).
    assert (N' : a <> 0 /\ b <> 0 /\ c <> 0) by (repeat split; intro Z; rewrite Z in N; lra).
    destruct N' as (Na & Nb & Nc).
    assert (DC : det C = 1). { transitivity ((a * b * c) ^ 2); [unfold C, det, asvoigt, dgm; cbn; ring|rewrite N; ring]. }
    assert (SE : seen k C = C).
    { destruct K as [-> | ->]; cbn [seen]; [reflexivity|]. rewrite DC. apply Vec6_ext; intro v. unfold vscal.
      replace (Rpower 1 (-1 / 3)) with 1 by (unfold Rpower; rewrite ln_1, Rmult_0_r, exp_0; reflexivity). ring. }
    rewrite SE. destruct (outcome (fw_gradient fw C none) (sp_mat s)) as [[g svn]|e]; [|reflexivity].
    unfold lc_stress, lc_stress_axes; cbn [index3 rbind]. f_equal.
    destruct K as [-> | ->].
    - unfold force_of, mmul, sum3, kS, astensor, vscal, dgm; cbn. field. auto.
    - unfold kS, kSb. rewrite DC. replace (Rpower 1 (-1 / 3)) with 1 by (unfold Rpower; rewrite ln_1, Rmult_0_r, exp_0; reflexivity).
      set (q := ddot22 _ _ / 3). clearbody q.
      assert (I0 : inv C (Some 1) V0 = / a ^ 2).
      { transitivity ((a * b * c) ^ 2 / a ^ 2); [unfold C, inv, asvoigt, dgm; cbn; field; auto|rewrite N; field; auto]. }
      assert (I2 : inv C (Some 1) V2 = / c ^ 2).
      { transitivity ((a * b * c) ^ 2 / c ^ 2); [unfold C, inv, asvoigt, dgm; cbn; field; auto|rewrite N; field; auto]. }
      unfold force_of, mmul, sum3, astensor, vsub, vscal, dgm; cbn. rewrite I0, I2. field. auto.
  Qed.
  (** *** Isotropy: equal stretches, equal components *)
  Definition swapQ (a b : ix3) : T2 := fun i j => delta (exchange a b i) j.
  Lemma swapQ_orth a b : orthogonal (swapQ a b).
  Proof. intros i j. unfold mmul, mtr, swapQ, one2, delta, exchange, sum3. destruct a, b, i, j; cbn; ring. Qed.
  Lemma swapQ_rot a b A i j : rot2 (swapQ a b) A i j = A (exchange a b i) (exchange a b j).
  Proof. unfold rot2, mmul, mtr, swapQ, delta, exchange, sum3. destruct a, b, i, j; cbn; ring. Qed.
  Lemma isotropic_equal Dom C sv s g svn a b : isotropic_gradient fw Dom -> sym2 C -> Dom C ->
    (forall i j, C (exchange a b i) (exchange a b j) = C i j) ->
    outcome (fw_gradient fw (asvoigt C) sv) s = Ok (g, svn) -> astensor g a a = astensor g b b.
  Proof.
    intros HI S D X E. pose proof (HI (swapQ a b) C sv s (swapQ_orth a b) S D) as Y.
    replace (rot2 (swapQ a b) C) with C in Y by (apply T2_ext; intros; rewrite swapQ_rot, X; reflexivity).
    rewrite E in Y. cbn [rmap fst snd] in Y. injection Y as Y.
    assert (Z : astensor g = rot2 (swapQ a b) (astensor g)).
    { transitivity (astensor (asvoigt (rot2 (swapQ a b) (astensor g)))); [congruence|]. apply astensor_asvoigt_f.
      intros i j. rewrite !swapQ_rot. destruct (exchange a b i), (exchange a b j); reflexivity. }
    pose proof (f_equal (fun f => f a a) Z) as W. cbv beta in W. rewrite W, swapQ_rot. unfold exchange. destruct a, b; reflexivity.
  Qed.
  Lemma g_V0 (g : Vec6) : astensor g X0 X0 = g V0. Proof. reflexivity. Qed.
  Lemma g_V1 (g : Vec6) : astensor g X1 X1 = g V1. Proof. reflexivity. Qed.
  Lemma g_V2 (g : Vec6) : astensor g X2 X2 = g V2. Proof. reflexivity. Qed.
  Lemma dgm_sym a b c : sym2 (dgm a b c).
  Proof. intros i j; destruct i, j; reflexivity. Qed.
End Point.

(** *** Lists of points *)
Lemma map_r_all {A B} (f : A -> Result B) (P : A -> B -> Prop) l :
  (forall a, In a l -> exists b, f a = Ok b /\ P a b) -> exists bs, map_r f l = Ok bs /\ List.Forall2 P l bs.
Proof.
  induction l as [|a l IH]; intro H; cbn [map_r].
  - exists []. split; constructor.
  - destruct (H a (or_introl eq_refl)) as (b & -> & Pb). destruct IH as (bs & -> & F); [intros; apply H; right; auto|].
    cbn [rbind]. exists (b :: bs). split; [reflexivity|constructor; auto].
Qed.
Lemma map_r_ext {A B} (f g : A -> Result B) l : (forall a, In a l -> f a = g a) -> map_r f l = map_r g l.
Proof.
  induction l as [|a l IH]; intro H; cbn [map_r]; [reflexivity|]. rewrite (H a (or_introl eq_refl)), IH; [reflexivity|].
  intros; apply H; right; auto.
Qed.
Lemma map_r_length {A B} (f : A -> Result B) l bs : map_r f l = Ok bs -> List.length bs = List.length l.
Proof.
  revert bs; induction l as [|a l IH]; intros bs E; cbn [map_r] in E; [injection E as <-; reflexivity|].
  destruct (f a) as [b|]; cbn in E; [|discriminate]. destruct (map_r f l) as [bs'|]; cbn in E; [|discriminate].
  injection E as <-. cbn. f_equal. apply IH; reflexivity.
Qed.
Lemma simulate_points {SV} sim p lc k (none : SV) fw (Q : R -> R -> Prop) xs : simulates sim p lc k none fw ->
  (forall s x, In x xs -> exists f, point_stress (si_loadcase sim) (space_material none fw s (sp_gradient k fw default_opts)) x = Ok f /\ Q x f) ->
  exists fs, stress_curve_fit sim xs p = Ok fs /\ List.Forall2 Q xs fs.
Proof.
  intros (L & s & E) H. unfold stress_curve_fit. rewrite E; cbn [rbind]. apply map_r_all. intros a I. apply H; auto.
Qed.

(** *** C37 *)
Section Derivative.
  Context {SV : Type} (fw : Framework SV) (W : T2 -> R) (Dom : T2 -> Prop) (HG : fw_gradient_of fw W Dom) (HI : isotropic_gradient fw Dom).
  Lemma path_D (a b c : R -> R) x da db dc none s : is_derive a x da -> is_derive b x db -> is_derive c x dc ->
    Dom (cauchy_green (dgm (a x) (b x) (c x))) ->
    exists g svn, outcome (fw_gradient fw (asvoigt (cauchy_green (dgm (a x) (b x) (c x)))) none) s = Ok (g, svn) /\
    is_derive (fun t => W (cauchy_green (dgm (a t) (b t) (c t)))) x (2 * (g V0 * a x * da + g V1 * b x * db + g V2 * c x * dc)).
  Proof.
    intros Da Db Dc D.
    destruct (HG (fun t => cauchy_green (dgm (a t) (b t) (c t))) x (dgm (2 * a x * da) (2 * b x * db) (2 * c x * dc))) with (sv := none) (s := s)
      as (g & svn & [s' E] & Dv).
    - intro t. rewrite dgm_cg. apply dgm_sym.
    - intros i j. apply D_ext with (fun t => dgm (a t ^ 2) (b t ^ 2) (c t ^ 2) i j); [intro t; rewrite dgm_cg; reflexivity|].
      destruct i, j; unfold dgm; cbn [ix3_eqb]; try exact (D_const 0 x).
      + exact (D_sqr a x da Da).
      + exact (D_sqr b x db Db).
      + exact (D_sqr c x dc Dc).
    - exact D.
    - exists g, svn. split; [unfold outcome; rewrite E; reflexivity|].
      eapply D_eq; [exact Dv|]. unfold dc22, sum3, dgm, astensor; cbn. ring.
  Qed.
  Lemma Dom_eq C C' : C = C' -> Dom C -> Dom C'. Proof. intros ->; auto. Qed.
  Lemma uniaxial_D k lc x none s : incompressible_kind k -> defgrad lc = uniaxial -> 0 < x -> Dom (cauchy_green (uniaxial x)) ->
    exists f, point_stress lc (space_material none fw s (sp_gradient k fw default_opts)) x = Ok f /\
              is_derive (fun t => W (cauchy_green (uniaxial t))) x f.
  Proof.
    intros K L P D. pose proof (sqrt_lt_R0 x P) as Ps.
    assert (Ds : is_derive (fun t => 1 / sqrt t) x (- (1 / sqrt x) ^ 3 / 2)).
    { eapply D_eq. apply D_ext with (fun t => / sqrt t); [intro t; unfold Rdiv; ring|].
      apply (D_inv (fun t => sqrt t) x). exact (D_sqrt (fun t => t) x 1 (D_id x) P). lra.
      cbv beta. field. lra. }
    rewrite uniaxial_dg in D.
    destruct (path_D (fun t => t) (fun t => 1 / sqrt t) (fun t => 1 / sqrt t) x 1 _ _ none (sp_mat s) (D_id x) Ds Ds D) as (g & svn & E & Dv).
    exists (force_of (uniaxial x) g). split.
    - rewrite (point_core fw k lc x x (1 / sqrt x) (1 / sqrt x) none s K); [|rewrite L, uniaxial_dg; reflexivity|rewrite Rmult_assoc, sqrt_inv2 by auto; field; lra].
      rewrite L, uniaxial_dg, E. reflexivity.
    - assert (Q : g V1 = g V2).
      { rewrite <- g_V1, <- g_V2. refine (isotropic_equal fw Dom _ none (sp_mat s) g svn X1 X2 HI _ D _ E).
        - rewrite dgm_cg. apply dgm_sym.
        - rewrite dgm_cg. intros i j. destruct i, j; reflexivity. }
      apply D_ext with (fun t => W (cauchy_green (dgm t (1 / sqrt t) (1 / sqrt t)))); [intro t; rewrite uniaxial_dg; reflexivity|].
      eapply D_eq; [exact Dv|]. rewrite Q, uniaxial_dg. unfold force_of, dgm; cbn.
      assert (Ex : x = sqrt x * sqrt x) by (symmetry; apply sqrt_sqrt; lra). generalize Ex, Ps. generalize (sqrt x). intros r -> Pr. field. lra.
  Qed.
  Lemma planar_D k lc x none s : incompressible_kind k -> defgrad lc = planar -> 0 < x -> Dom (cauchy_green (planar x)) ->
    exists f, point_stress lc (space_material none fw s (sp_gradient k fw default_opts)) x = Ok f /\
              is_derive (fun t => W (cauchy_green (planar t))) x f.
  Proof.
    intros K L P D.
    assert (Ds : is_derive (fun t => 1 / t) x (- / x ^ 2)).
    { eapply D_eq. apply D_ext with (fun t => / t); [intro t; unfold Rdiv; ring|]. apply (D_inv (fun t => t) x 1). exact (D_id x). lra. field. lra. }
    rewrite planar_dg in D.
    destruct (path_D (fun t => t) (fun t => 1) (fun t => 1 / t) x 1 0 _ none (sp_mat s) (D_id x) (D_const 1 x) Ds D) as (g & svn & E & Dv).
    exists (force_of (planar x) g). split.
    - rewrite (point_core fw k lc x x 1 (1 / x) none s K); [|rewrite L, planar_dg; reflexivity|field; lra].
      rewrite L, planar_dg, E. reflexivity.
    - apply D_ext with (fun t => W (cauchy_green (dgm t 1 (1 / t)))); [intro t; rewrite planar_dg; reflexivity|].
      eapply D_eq; [exact Dv|]. rewrite planar_dg. unfold force_of, dgm; cbn. field. lra.
  Qed.
  Lemma biaxial_D k lc x none s : incompressible_kind k -> defgrad lc = biaxial -> 0 < x -> Dom (cauchy_green (biaxial x)) ->
    exists f, point_stress lc (space_material none fw s (sp_gradient k fw default_opts)) x = Ok f /\
              is_derive (fun t => W (cauchy_green (biaxial t))) x (2 * f).
  Proof.
    intros K L P D.
    assert (Ds : is_derive (fun t => 1 / t ^ 2) x (- 2 / x ^ 3)).
    { eapply D_eq. apply D_ext with (fun t => / t ^ 2); [intro t; unfold Rdiv; ring|].
      apply (D_inv (fun t => t ^ 2) x (2 * x * 1)). exact (D_sqr (fun t => t) x 1 (D_id x)). nra. field. lra. }
    rewrite biaxial_dg in D.
    destruct (path_D (fun t => t) (fun t => t) (fun t => 1 / t ^ 2) x 1 1 _ none (sp_mat s) (D_id x) (D_id x) Ds D) as (g & svn & E & Dv).
    exists (force_of (biaxial x) g). split.
    - rewrite (point_core fw k lc x x x (1 / x ^ 2) none s K); [|rewrite L, biaxial_dg; reflexivity|field; lra].
      rewrite L, biaxial_dg, E. reflexivity.
    - assert (Q : g V0 = g V1).
      { rewrite <- g_V0, <- g_V1. refine (isotropic_equal fw Dom _ none (sp_mat s) g svn X0 X1 HI _ D _ E).
        - rewrite dgm_cg. apply dgm_sym.
        - rewrite dgm_cg. intros i j. destruct i, j; reflexivity. }
      apply D_ext with (fun t => W (cauchy_green (dgm t t (1 / t ^ 2)))); [intro t; rewrite biaxial_dg; reflexivity|].
      eapply D_eq; [exact Dv|]. rewrite biaxial_dg. unfold force_of, dgm; cbn. rewrite Q. field. lra.
  Qed.
End Derivative.

(** *** C38: closed forms for every invariant-based model *)
Section Closed.
  Context {SV : Type} (m : InvModel SV).
  Lemma inv_force a b c none s g svn : a * b * c = 1 -> inv_call m (invariants (cauchy_green (dgm a b c))) none = Ok (g, svn) ->
    exists G, outcome (fw_gradient (invariants_fw m) (asvoigt (cauchy_green (dgm a b c))) none) s = Ok (G, svn) /\
    force_of (dgm a b c) G = 2 * (a - c ^ 2 / a) * (val (o3 g X0) + val (o3 g X1) * b ^ 2).
  Proof.
    intros N E. assert (N' : a <> 0 /\ b <> 0 /\ c <> 0) by (repeat split; intro Z; rewrite Z in N; lra). destruct N' as (Na & Nb & Nc).
    assert (S : sym2 (cauchy_green (dgm a b c))) by (rewrite dgm_cg; apply dgm_sym).
    rewrite <- (Jv_full _ S) in E.
    exists (gradv (asvoigt (cauchy_green (dgm a b c))) g). split.
    - cbn [invariants_fw fw_gradient]. unfold outcome. rewrite (inv_gradient_ok m _ _ _ _ s E). reflexivity.
    - rewrite dgm_cg. set (C := asvoigt (dgm (a ^ 2) (b ^ 2) (c ^ 2))).
      assert (DC : det C = 1). { transitivity ((a * b * c) ^ 2); [unfold C, det, asvoigt, dgm; cbn; ring|rewrite N; ring]. }
      assert (I0 : inv C (Some 1) V0 = / a ^ 2).
      { transitivity ((a * b * c) ^ 2 / a ^ 2); [unfold C, inv, asvoigt, dgm; cbn; field; auto|rewrite N; field; auto]. }
      assert (I2 : inv C (Some 1) V2 = / c ^ 2).
      { transitivity ((a * b * c) ^ 2 / c ^ 2); [unfold C, inv, asvoigt, dgm; cbn; field; auto|rewrite N; field; auto]. }
      unfold force_of, gradv, sum3. cbn [dJv]. unfold vsub, vscal. rewrite DC, I0, I2.
      set (w1 := val _). set (w2 := val _). set (w3 := val _).
      unfold C, trace, asvoigt, dgm, eye; cbn. field. auto.
  Qed.
  Lemma closed_point k lc x a b c none s g svn : incompressible_kind k -> defgrad lc x = dgm a b c -> a * b * c = 1 ->
    inv_call m (invariants (cauchy_green (dgm a b c))) none = Ok (g, svn) ->
    point_stress lc (space_material none (invariants_fw m) s (sp_gradient k (invariants_fw m) default_opts)) x =
    Ok (2 * (a - c ^ 2 / a) * (val (o3 g X0) + val (o3 g X1) * b ^ 2)).
  Proof.
    intros K E N I. rewrite (point_core (invariants_fw m) k lc x a b c none s K E N), E.
    destruct (inv_force a b c none (sp_mat s) g svn N I) as (G & -> & ->). reflexivity.
  Qed.
End Closed.
