(** * Property C58: shape of simulated curves. *)
From Coq Require Import Reals Lra Lia List String FunctionalExtensionality.
From Coquelicot Require Import Coquelicot.
From Verif Require Import Tensor Py Voigt Algebra Models Frameworks Spaces Spec StrMore Lab LabSpec LabMech LabCurves CurveSpec CurveProofs CurveOgden
  NDLinks2 PropStretches PropLab.
Import ListNotations.
Local Open Scope R_scope.

(** ** ThirdOrderDeformation with parameters that are not negative, in Deformation or Distortional *)
Theorem C58_uniaxial : forall sim p m, tod_simulation sim uniaxial p m -> nonnegative m -> 0 < C10 m + C01 m ->
  well_shaped (fun xs => stress_curve_fit sim xs p).
Proof.
  intros sim p m T N P. apply (shaped_of _ (uni_f m)); [exact (uni_up m N P)|unfold uni_f; cbv zeta; field|].
  intros xs X. exact (C38_uniaxial sim p m xs T X).
Qed.
Print Assumptions C58_uniaxial.
Theorem C58_planar : forall sim p m, tod_simulation sim planar p m -> nonnegative m -> 0 < C10 m + C01 m ->
  well_shaped (fun xs => stress_curve_fit sim xs p).
Proof.
  intros sim p m T N P. apply (shaped_of _ (pla_f m)); [exact (pla_up m N P)|unfold pla_f; cbv zeta; field|].
  intros xs X. exact (C38_planar sim p m xs T X).
Qed.
Print Assumptions C58_planar.
Theorem C58_biaxial : forall sim p m, tod_simulation sim biaxial p m -> nonnegative m -> 0 < C10 m + C01 m ->
  well_shaped (fun xs => stress_curve_fit sim xs p).
Proof.
  intros sim p m T N P. apply (shaped_of _ (bia_f m)); [exact (bia_up m N P)|unfold bia_f; cbv zeta; field|].
  intros xs X. exact (C38_biaxial sim p m xs T X).
Qed.
Print Assumptions C58_biaxial.
(** Each force belongs to exactly one stretch. *)
Lemma to_stretch (curve : list R -> Result (list R)) f : up f -> (forall l, 0 < l -> continuity_pt f l) -> unbounded f ->
  (forall xs, (forall x, In x xs -> 0 < x) -> curve xs = Ok (map f xs)) -> force_to_stretch curve.
Proof.
  intros U C B E v. destruct (reach f U C B v) as (l & L & F & Q).
  assert (O : forall x, 0 < x -> curve [x] = Ok [f x]) by (intros x X; apply E; intros y [<-|[]]; exact X).
  exists l. split; [exact L|]. split; [rewrite O, F by exact L; reflexivity|].
  intros l' L' H. rewrite (O l' L') in H. injection H as H. apply Q; auto.
Qed.
Theorem C58_stretch_of_force : forall sim p m, nonnegative m -> 0 < C10 m ->
  tod_simulation sim uniaxial p m \/ tod_simulation sim planar p m \/ tod_simulation sim biaxial p m ->
  force_to_stretch (fun xs => stress_curve_fit sim xs p).
Proof.
  intros sim p m N P T. assert (P' : 0 < C10 m + C01 m) by (destruct N as (_ & N & _); lra).
  destruct T as [T|[T|T]].
  - apply (to_stretch _ (uni_f m) (uni_up m N P') (uni_cont m) (uni_reach m N P)). intros xs X. exact (C38_uniaxial sim p m xs T X).
  - apply (to_stretch _ (pla_f m) (pla_up m N P') (pla_cont m) (pla_reach m N P)). intros xs X. exact (C38_planar sim p m xs T X).
  - apply (to_stretch _ (bia_f m) (bia_up m N P') (bia_cont m) (bia_reach m N P)). intros xs X. exact (C38_biaxial sim p m xs T X).
Qed.
Print Assumptions C58_stretch_of_force.

(** ** Ogden: closed forms, and shape for moduli that are not negative *)
Lemma forall2_map (g : R -> R -> Prop) (f : R -> R) xs fs : List.Forall2 g xs fs ->
  (forall x y, In x xs -> g x y -> y = f x) -> fs = map f xs.
Proof.
  induction 1 as [|x y xs fs G H IH]; intro E; [reflexivity|]. cbn [map].
  rewrite <- (E x y (or_introl eq_refl) G), <- IH; [reflexivity|]. intros x' y' I'. apply E. right; exact I'.
Qed.
Lemma near_pos (P : R -> Prop) x : 0 < x -> (forall t, 0 < t -> P t) -> locally x P.
Proof.
  intros X H. exists (mkposreal x X). intros y Hy. apply H. unfold ball in Hy; cbn in Hy. unfold AbsRing_ball, abs, minus, plus, opp in Hy; cbn in Hy.
  apply Rabs_def2 in Hy. lra.
Qed.
Section Og.
  Context (SV : Type) (lapack : Lapack) (HL : lapack_legal lapack) (mu alpha : list R).
  Context (HA : forall m a, In (m, a) (combine mu alpha) -> a <> 0).
  Let fw := stretches_fw lapack (ogden_model (SV:=SV) {| og_mu := mu; og_alpha := alpha |}).
  Let W := energy_of (ogden_psi mu alpha).
  Lemma W_ok : stretch_energy (ogden_psi mu alpha) W.
  Proof. exact (energy_of_ok _). Qed.
  Lemma W_grad : fw_gradient_of fw W posdef.
  Proof. apply C18_ogden; auto. exact W_ok. Qed.
  Lemma W_iso : isotropic_gradient fw posdef.
  Proof. intros Q C sv s H1 H2 H3. exact (proj1 (C17_ogden SV lapack _ HL Q C sv s H1 H2 H3)). Qed.
  Lemma path_of n k b a1 b1 c1 l : (forall e, Rpower a1 e + Rpower b1 e + Rpower c1 e = n * Rpower l e + k * Rpower l (b * e) + (3 - n - k)) ->
    ogden_psi mu alpha (vec3 a1 b1 c1) = path_energy n k b (combine mu alpha) l.
  Proof.
    intro E. clear - E. unfold ogden_psi, path_energy. cbn [vec3].
    induction (combine mu alpha) as [|[m a] r IH]; [reflexivity|]. cbn [fold_right fst snd]. rewrite IH, E. f_equal. f_equal. ring.
  Qed.
  Lemma dgm_pd a b c : 0 < a -> 0 < b -> 0 < c -> posdef (cauchy_green (dgm a b c)).
  Proof. intros A B C. apply posdef_CG. unfold invertible. rewrite dgm_det. apply Rgt_not_eq. repeat apply Rmult_lt_0_compat; auto. Qed.
  Lemma isq x : 0 < x -> 0 < 1 / sqrt x.
  Proof. intro P. apply Rdiv_lt_0_compat; [lra|apply sqrt_lt_R0; exact P]. Qed.
  Lemma Rpower_isq x e : 0 < x -> Rpower (1 / sqrt x) e = Rpower x (- (1 / 2) * e).
  Proof.
    intro P. rewrite <- (Rpower_mult x (- (1 / 2)) e). f_equal. replace (1 / 2) with (/ 2) by field. rewrite Rpower_Ropp, Rpower_sqrt by exact P. field.
    apply Rgt_not_eq, sqrt_lt_R0; exact P.
  Qed.
  Lemma Rpower_iv x n e : 0 < x -> Rpower (1 / x ^ n) e = Rpower x (- INR n * e).
  Proof.
    intro P. rewrite <- (Rpower_mult x (- INR n) e). f_equal. rewrite Rpower_Ropp, Rpower_pow by exact P. field.
    apply pow_nonzero. lra.
  Qed.
  Lemma uni_path l : 0 < l -> W (cauchy_green (uniaxial l)) = path_energy 1 2 (- (1 / 2)) (combine mu alpha) l.
  Proof.
    intro P. assert (Q := isq l P). rewrite uniaxial_dg, (diag_CG_energy _ W (ogden_symmetric mu alpha) W_ok) by auto.
    apply path_of. intro e. rewrite Rpower_isq by exact P. ring.
  Qed.
  Lemma pla_path l : 0 < l -> W (cauchy_green (planar l)) = path_energy 1 1 (- (1)) (combine mu alpha) l.
  Proof.
    intro P. assert (Q : 0 < 1 / l) by (apply Rdiv_lt_0_compat; lra). rewrite planar_dg, (diag_CG_energy _ W (ogden_symmetric mu alpha) W_ok) by (auto; lra).
    apply path_of. intro e. replace (1 / l) with (1 / l ^ 1) by (field; lra). rewrite Rpower_iv by exact P. cbn [INR].
    unfold Rpower at 2. rewrite ln_1, Rmult_0_r, exp_0. ring.
  Qed.
  Lemma bia_path l : 0 < l -> W (cauchy_green (biaxial l)) = path_energy 2 1 (- (2)) (combine mu alpha) l.
  Proof.
    intro P. assert (Q : 0 < 1 / l ^ 2) by (apply Rdiv_lt_0_compat; [lra|apply pow_lt; lra]). rewrite biaxial_dg, (diag_CG_energy _ W (ogden_symmetric mu alpha) W_ok) by auto.
    apply path_of. intro e. rewrite Rpower_iv by exact P. cbn [INR]. replace (- (1 + 1) * e) with (- (2) * e) by ring. ring.
  Qed.
  Lemma og_uniaxial sim p k (none : SV) xs : simulates sim p uniaxial k none fw -> incompressible_kind k -> (forall x, In x xs -> 0 < x) ->
    stress_curve_fit sim xs p = Ok (map (ogden_curve (- (1 / 2)) mu alpha) xs).
  Proof.
    intros S K P. destruct (C37_uniaxial SV sim p k none fw W posdef xs S K W_grad W_iso) as (fs & E & F).
    { intros x I. specialize (P x I). split; [exact P|]. rewrite uniaxial_dg. assert (Q := isq x P). apply dgm_pd; auto. }
    rewrite E. f_equal. apply (forall2_map _ _ _ _ F). intros x y I D. specialize (P x I).
    assert (D' := path_derive 1 2 (- (1 / 2)) mu alpha x P ltac:(lra) HA).
    rewrite Rmult_1_l in D'. apply is_derive_unique in D'. rewrite <- D'. symmetry. apply is_derive_unique.
    apply (is_derive_ext_loc (fun t => W (cauchy_green (uniaxial t)))); [|exact D]. apply near_pos; [exact P|]. intros t Pt. apply uni_path; exact Pt.
  Qed.
  Lemma og_planar sim p k (none : SV) xs : simulates sim p planar k none fw -> incompressible_kind k -> (forall x, In x xs -> 0 < x) ->
    stress_curve_fit sim xs p = Ok (map (ogden_curve (- (1)) mu alpha) xs).
  Proof.
    intros S K P. destruct (C37_planar SV sim p k none fw W posdef xs S K W_grad W_iso) as (fs & E & F).
    { intros x I. specialize (P x I). split; [exact P|]. rewrite planar_dg. assert (Q : 0 < 1 / x) by (apply Rdiv_lt_0_compat; lra). apply dgm_pd; auto; lra. }
    rewrite E. f_equal. apply (forall2_map _ _ _ _ F). intros x y I D. specialize (P x I).
    assert (D' := path_derive 1 1 (- (1)) mu alpha x P ltac:(lra) HA).
    rewrite Rmult_1_l in D'. apply is_derive_unique in D'. rewrite <- D'. symmetry. apply is_derive_unique.
    apply (is_derive_ext_loc (fun t => W (cauchy_green (planar t)))); [|exact D]. apply near_pos; [exact P|]. intros t Pt. apply pla_path; exact Pt.
  Qed.
  Lemma og_biaxial sim p k (none : SV) xs : simulates sim p biaxial k none fw -> incompressible_kind k -> (forall x, In x xs -> 0 < x) ->
    stress_curve_fit sim xs p = Ok (map (ogden_curve (- (2)) mu alpha) xs).
  Proof.
    intros S K P. destruct (C37_biaxial SV sim p k none fw W posdef xs S K W_grad W_iso) as (fs & E & F).
    { intros x I. specialize (P x I). split; [exact P|]. rewrite biaxial_dg.
      assert (Q : 0 < 1 / x ^ 2) by (apply Rdiv_lt_0_compat; [lra|apply pow_lt; lra]). apply dgm_pd; auto. }
    rewrite E. f_equal. apply (forall2_map _ _ _ _ F). intros x y I D. specialize (P x I).
    assert (D' := path_derive 2 1 (- (2)) mu alpha x P ltac:(lra) HA).
    apply (Rmult_eq_reg_l 2); [|lra]. apply is_derive_unique in D'. rewrite <- D'. symmetry. apply is_derive_unique.
    apply (is_derive_ext_loc (fun t => W (cauchy_green (biaxial t)))); [|exact D]. apply near_pos; [exact P|]. intros t Pt. apply bia_path; exact Pt.
  Qed.
End Og.
(** The closed forms of the three load cases for every Ogden material (no condition on signs). *)
Theorem C58_ogden_closed_forms : forall (SV : Type) lapack mu alpha sim p k (none : SV) xs, lapack_legal lapack ->
  (forall m a, In (m, a) (combine mu alpha) -> a <> 0) -> incompressible_kind k -> (forall x, In x xs -> 0 < x) ->
  let fw := stretches_fw lapack (ogden_model (SV:=SV) {| og_mu := mu; og_alpha := alpha |}) in
  (simulates sim p uniaxial k none fw -> stress_curve_fit sim xs p = Ok (map (ogden_curve (- (1 / 2)) mu alpha) xs)) /\
  (simulates sim p planar k none fw -> stress_curve_fit sim xs p = Ok (map (ogden_curve (- (1)) mu alpha) xs)) /\
  (simulates sim p biaxial k none fw -> stress_curve_fit sim xs p = Ok (map (ogden_curve (- (2)) mu alpha) xs)).
Proof.
  intros SV lapack mu alpha sim p k none xs HL HA K P fw. split; [|split]; intro S.
  - exact (og_uniaxial SV lapack HL mu alpha HA sim p k none xs S K P).
  - exact (og_planar SV lapack HL mu alpha HA sim p k none xs S K P).
  - exact (og_biaxial SV lapack HL mu alpha HA sim p k none xs S K P).
Qed.
Print Assumptions C58_ogden_closed_forms.
(** [lc] is one of the load cases, with the exponent of [ogden_curve]. *)
Definition case_of (lc : R -> T2) (b : R) : Prop := (lc = uniaxial /\ b = - (1 / 2)) \/ (lc = planar /\ b = - (1)) \/ (lc = biaxial /\ b = - (2)).
Lemma og_case (SV : Type) lapack mu alpha sim p k (none : SV) lc b : lapack_legal lapack -> case_of lc b ->
  (forall m a, In (m, a) (combine mu alpha) -> a <> 0) -> incompressible_kind k ->
  simulates sim p lc k none (stretches_fw lapack (ogden_model (SV:=SV) {| og_mu := mu; og_alpha := alpha |})) ->
  b < 0 /\ forall xs, (forall x, In x xs -> 0 < x) -> stress_curve_fit sim xs p = Ok (map (ogden_curve b mu alpha) xs).
Proof.
  intros HL C HA K S. split; [destruct C as [[_ ->]|[[_ ->]|[_ ->]]]; lra|]. intros xs P.
  destruct (C58_ogden_closed_forms SV lapack mu alpha sim p k none xs HL HA K P) as (U & V & B).
  destruct C as [[-> ->]|[[-> ->]|[-> ->]]]; auto.
Qed.
Theorem C58_ogden : forall (SV : Type) lapack mu alpha sim p k (none : SV) lc b, lapack_legal lapack -> case_of lc b ->
  stable_ogden b mu alpha -> incompressible_kind k ->
  simulates sim p lc k none (stretches_fw lapack (ogden_model (SV:=SV) {| og_mu := mu; og_alpha := alpha |})) ->
  well_shaped (fun xs => stress_curve_fit sim xs p).
Proof.
  intros SV lapack mu alpha sim p k none lc b HL C HS K S.
  destruct (og_case SV lapack mu alpha sim p k none lc b HL C (nz_of b mu alpha (proj1 HS)) K S) as [B E].
  exact (shaped_of _ _ (ogden_up b mu alpha B HS) (ogden_1 b mu alpha) E).
Qed.
Print Assumptions C58_ogden.
Theorem C58_ogden_stretch_of_force : forall (SV : Type) lapack mu alpha sim p k (none : SV) lc b m a, lapack_legal lapack -> case_of lc b ->
  stable_ogden b mu alpha -> In (m, a) (combine mu alpha) -> 0 < m -> 1 < a \/ 1 < b * a -> incompressible_kind k ->
  simulates sim p lc k none (stretches_fw lapack (ogden_model (SV:=SV) {| og_mu := mu; og_alpha := alpha |})) ->
  force_to_stretch (fun xs => stress_curve_fit sim xs p).
Proof.
  intros SV lapack mu alpha sim p k none lc b m a HL C HS I M A K S.
  destruct (og_case SV lapack mu alpha sim p k none lc b HL C (nz_of b mu alpha (proj1 HS)) K S) as [B E].
  exact (to_stretch _ _ (ogden_up b mu alpha B HS) (ogden_cont b mu alpha) (ogden_reach b mu alpha m a B HS I M A) E).
Qed.
Print Assumptions C58_ogden_stretch_of_force.

(** ** The conditions are needed and can be met *)
(** C10 = 1, C20 = -1: the force is negative at twice the length. *)
Definition tod_neg : SimStatic := {| si_loadcase := Uniaxial None; si_stretch := []; si_labels := ["C10"; "C20"]%string; si_material := tod_deformation |}.
Lemma tod_neg_ok a b : tod_simulation tod_neg uniaxial [a; b] (tod_init a 0 0 b 0 false).
Proof.
  split; [reflexivity|]. split; [left; reflexivity|]. unfold tod_of_kwargs, kw, kwargs_of, nonzero. cbn. destruct (Req_EM_T 0 0); [reflexivity|lra].
Qed.
Theorem C58_negative_parameter_refuted : ~ well_shaped (fun xs => stress_curve_fit tod_neg xs [1; -1]).
Proof.
  intro H. destruct (H [2]) as (fs & E & _ & _ & S).
  - intros x [<-|[]]. lra.
  - rewrite (C38_uniaxial tod_neg [1; -1] _ [2] (tod_neg_ok 1 (-1))) in E by (intros x [<-|[]]; lra).
    injection E as <-. destruct (S 0%nat) as [[S1 _] _]; [cbn; lia|]. cbn [map nth] in S1. specialize (S1 ltac:(lra)).
    unfold tod_W1, tod_W2, tod_init in S1. cbn [C10 C01 C11 C20 C30 undeformed] in S1. lra.
Qed.
Print Assumptions C58_negative_parameter_refuted.
(** One Ogden term with 0 < alpha < 1: softening, the curve turns round. *)
Theorem C58_ogden_exponent_refuted : forall mu, 0 < mu -> exists a b, 1 < a < b /\
  ogden_curve (- (1 / 2)) [mu] [1 / 2] b < ogden_curve (- (1 / 2)) [mu] [1 / 2] a.
Proof.
  intros mu M. exists 16, 256. split; [lra|]. unfold ogden_curve. cbn [combine fold_right fst snd].
  assert (E : forall n e, 0 < n -> Rpower (Rpower n 16) e = Rpower n (16 * e)) by (intros; apply Rpower_mult).
  assert (B : ln 16 = 4 * ln 2). { replace 16 with (2 * 2 * (2 * 2)) by ring. rewrite !ln_mult by lra. ring. }
  assert (B' : ln 256 = 8 * ln 2). { replace 256 with (16 * 16) by ring. rewrite ln_mult, B by lra. ring. }
  assert (P : forall e, Rpower 16 e = Rpower 2 (4 * e)). { intro e. unfold Rpower. rewrite B. f_equal. ring. }
  assert (P' : forall e, Rpower 256 e = Rpower 2 (8 * e)). { intro e. unfold Rpower. rewrite B'. f_equal. ring. }
  rewrite !P, !P'.
  replace (4 * (1 / 2 - 1)) with (- INR 2) by (cbn; field). replace (4 * (- (1 / 2) * (1 / 2) - 1)) with (- INR 5) by (cbn; field).
  replace (8 * (1 / 2 - 1)) with (- INR 4) by (cbn; field). replace (8 * (- (1 / 2) * (1 / 2) - 1)) with (- INR 10) by (cbn; field).
  rewrite !Rpower_Ropp, !Rpower_pow by lra. lra.
Qed.
Print Assumptions C58_ogden_exponent_refuted.
Example C58_case : nonnegative (tod_init 1 (1 / 2) (1 / 10) 0 (1 / 100) false) /\ 0 < C10 (tod_init 1 (1 / 2) (1 / 10) 0 (1 / 100) false) /\
  tod_simulation {| si_loadcase := Planar None; si_stretch := []; si_labels := ["C10"; "C01"; "C11"; "C20"; "C30"]%string; si_material := tod_distortional |}
    planar [1; 1 / 2; 1 / 10; 0; 1 / 100] (tod_init 1 (1 / 2) (1 / 10) 0 (1 / 100) false) /\
  stable_ogden (- (1 / 2)) [1; 1 / 2; 3] [13 / 10; 5; -2].
Proof.
  split; [repeat split; cbn; lra|]. split; [cbn; lra|]. split; [apply C38_example|]. split.
  - intros m a [E|[E|[E|[]]]]; injection E as <- <-; lra.
  - exists 1, (13 / 10). split; [left; reflexivity|lra].
Qed.
