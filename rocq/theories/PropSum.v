(** * Property C75: superposition - materials in parallel add up. *)
From Coq Require Import Reals Lra FunctionalExtensionality List Bool Permutation.
From Coquelicot Require Import Coquelicot.
From Verif Require Import Tensor Py Voigt VoigtProofs Algebra Calc Models Frameworks Spaces Spec VCalc ModelProofs GenProofs
  InvCore InvProofs IsoProofs SpaceCore StrCore PiolaProofs SpaceProofs DistProofs SpaceMore ScaleProofs HistProofs Lab LabSpec LabMech SumProofs.
Import ListNotations.
Local Open Scope R_scope.

Lemma map_r_sum {A} (f1 f2 f : A -> Result R) : (forall x y1 y2, f1 x = Ok y1 -> f2 x = Ok y2 -> f x = Ok (y1 + y2)) ->
  forall l r1 r2, map_r f1 l = Ok r1 -> map_r f2 l = Ok r2 -> map_r f l = Ok (map (fun p => fst p + snd p) (combine r1 r2)).
Proof.
  intro H. induction l as [|x l IH]; intros r1 r2 E1 E2; cbn [map_r] in *; [injection E1 as <-; injection E2 as <-; reflexivity|].
  destruct (f1 x) as [y1|] eqn:F1; cbn [rbind] in E1; [|discriminate]. destruct (f2 x) as [y2|] eqn:F2; cbn [rbind] in E2; [|discriminate].
  rewrite (H _ _ _ F1 F2). cbn [rbind].
  destruct (map_r f1 l) as [q1|]; cbn [rbind] in E1; [|discriminate]. destruct (map_r f2 l) as [q2|]; cbn [rbind] in E2; [|discriminate].
  injection E1 as <-. injection E2 as <-. rewrite (IH q1 q2 eq_refl eq_refl). reflexivity.
Qed.
Lemma lc_sum F P Q x y : lc_stress F P = Ok x -> lc_stress F Q = Ok y -> lc_stress F (fun i j => P i j + Q i j) = Ok (x + y).
Proof.
  unfold lc_stress, lc_stress_axes. destruct (index3 0); cbn [rbind]; [|discriminate]. destruct (index3 (-1)); cbn [rbind]; [|discriminate].
  intros E1 E2. injection E1 as <-. injection E2 as <-. f_equal. unfold Rdiv. ring.
Qed.

(** ** C75 *)
(** Stresses of materials in parallel add up: every space, option, deformation, history. *)
Theorem C75_stress : forall (SV : Type) (fw1 fw2 fw : Framework SV) k o F sv s1 s2 s P1 P2 svn, parallel fw1 fw2 fw ->
  outcome (sp_gradient k fw1 o F sv) s1 = Ok (P1, svn) -> outcome (sp_gradient k fw2 o F sv) s2 = Ok (P2, svn) ->
  outcome (sp_gradient k fw o F sv) s = Ok (add_stress P1 P2, svn).
Proof. exact (fun SV fw1 fw2 fw k o F sv s1 s2 s P1 P2 svn H => space_sum_grad fw1 fw2 fw H k o F sv s1 s2 s P1 P2 svn). Qed.
Print Assumptions C75_stress.
(** Tangents add up; in the Distortional space if no material tangent lies below the
    tolerance of its np.allclose test. *)
Theorem C75_tangent : forall (SV : Type) (fw1 fw2 fw : Framework SV) k o F sv s1 s2 s P1 P2 A1 A2 svn, parallel fw1 fw2 fw ->
  (k = KDistortional -> significant_at fw1 F /\ significant_at fw2 F /\ significant_at fw F) ->
  outcome (sp_gradient k fw1 o F sv) s1 = Ok (P1, svn) -> outcome (sp_gradient k fw2 o F sv) s2 = Ok (P2, svn) ->
  outcome (sp_hessian k fw1 o F sv) s1 = Ok A1 -> outcome (sp_hessian k fw2 o F sv) s2 = Ok A2 ->
  outcome (sp_hessian k fw o F sv) s = Ok (add_elast A1 A2).
Proof. exact (fun SV fw1 fw2 fw k o F sv s1 s2 s P1 P2 A1 A2 svn H G E1 E2 K1 K2 => space_sum_hess fw1 fw2 fw H k o F sv s1 s2 s A1 A2 svn P1 P2 E1 E2 K1 K2 G). Qed.
Print Assumptions C75_tangent.
(** Simulated curves of materials in parallel add up point by point. *)
Theorem C75_curves : forall (fw1 fw2 fw : Framework unit) sim1 sim2 sim p1 p2 p lc k xs f1 f2, parallel fw1 fw2 fw ->
  simulates sim1 p1 lc k tt fw1 -> simulates sim2 p2 lc k tt fw2 -> simulates sim p lc k tt fw ->
  stress_curve_fit sim1 xs p1 = Ok f1 -> stress_curve_fit sim2 xs p2 = Ok f2 ->
  stress_curve_fit sim xs p = Ok (map (fun y => fst y + snd y) (combine f1 f2)).
Proof.
  intros fw1 fw2 fw sim1 sim2 sim p1 p2 p lc k xs f1 f2 HP (L1 & s1 & M1) (L2 & s2 & M2) (L & s & M).
  unfold stress_curve_fit. rewrite M1, M2, M. cbn [rbind]. revert f1 f2. 
  assert (Q : forall x y1 y2, point_stress (si_loadcase sim1) (space_material tt fw1 s1 (sp_gradient k fw1 default_opts)) x = Ok y1 ->
    point_stress (si_loadcase sim2) (space_material tt fw2 s2 (sp_gradient k fw2 default_opts)) x = Ok y2 ->
    point_stress (si_loadcase sim) (space_material tt fw s (sp_gradient k fw default_opts)) x = Ok (y1 + y2)).
  { intros x y1 y2. unfold point_stress. rewrite L1, L2, L. cbv zeta. generalize (lc x). intro F.
    cbn [space_material mat_gradient mat_none mat_now]. unfold full_only.
    destruct (sp_gradient k fw1 default_opts F tt s1) as [t1 [[[P1|?] []]|e]] eqn:E1; cbn [snd]; try discriminate.
    destruct (sp_gradient k fw2 default_opts F tt s2) as [t2 [[[P2|?] []]|e]] eqn:E2; cbn [snd]; try discriminate.
    assert (A := C75_stress unit fw1 fw2 fw k default_opts F tt s1 s2 s (StressFull P1) (StressFull P2) tt HP ltac:(unfold outcome; rewrite E1; reflexivity) ltac:(unfold outcome; rewrite E2; reflexivity)).
    unfold outcome in A. destruct (sp_gradient k fw default_opts F tt s) as [t r]. cbn [snd] in A. subst r. cbn [add_stress snd]. apply lc_sum. }
  exact (map_r_sum _ _ _ Q xs).
Qed.
Print Assumptions C75_curves.
(** The class whose gradient and hessian are the sums; models without d2W/dI3dI3. *)
Theorem C75_invariants : forall m1 m2 : InvModel unit, no_W33 m1 -> no_W33 m2 ->
  parallel (invariants_fw m1) (invariants_fw m2) (invariants_fw (sum_inv m1 m2)).
Proof. intros m1 m2. apply invariants_sum, sum_inv_adds. Qed.
Print Assumptions C75_invariants.
(** Adding coefficients is adding materials. *)
Theorem C75_third_order_deformation : forall (SV : Type) a1 a2 a3 a4 a5 b1 b2 b3 b4 b5 strain,
  parallel (invariants_fw (tod_model (SV:=SV) (tod_init a1 a2 a3 a4 a5 strain))) (invariants_fw (tod_model (tod_init b1 b2 b3 b4 b5 strain)))
    (invariants_fw (tod_model (tod_init (a1 + b1) (a2 + b2) (a3 + b3) (a4 + b4) (a5 + b5) strain))).
Proof.
  intros. exact (invariants_sum _ _ _ (tod_adds (tod_init a1 a2 a3 a4 a5 strain) (tod_init b1 b2 b3 b4 b5 strain) eq_refl) (tod_W33 _) (tod_W33 _)).
Qed.
Print Assumptions C75_third_order_deformation.
(** ... also inside GeneralizedInvariants, every strain measure. *)
Theorem C75_generalized : forall (SV : Type) lapack fs a1 a2 a3 a4 a5 b1 b2 b3 b4 b5 strain fw1 fw2,
  generalized_fw lapack (tod_model (SV:=SV) (tod_init a1 a2 a3 a4 a5 strain)) fs = Ok fw1 ->
  generalized_fw lapack (tod_model (SV:=SV) (tod_init b1 b2 b3 b4 b5 strain)) fs = Ok fw2 ->
  exists fw, generalized_fw lapack (tod_model (SV:=SV) (tod_init (a1 + b1) (a2 + b2) (a3 + b3) (a4 + b4) (a5 + b5) strain)) fs = Ok fw /\ parallel fw1 fw2 fw.
Proof.
  intros SV lapack fs a1 a2 a3 a4 a5 b1 b2 b3 b4 b5 strain fw1 fw2. unfold generalized_fw.
  destruct (gen_init fs) as [c|e]; cbn [rbind]; [|discriminate]. intros E1 E2. injection E1 as <-. injection E2 as <-.
  eexists. split; [reflexivity|]. apply stretches_sum; try apply gen_stateless.
  exact (gen_sum _ _ _ fs c (tod_adds (tod_init a1 a2 a3 a4 a5 strain) (tod_init b1 b2 b3 b4 b5 strain) eq_refl) (tod_keeps _) (tod_keeps _)).
Qed.
Print Assumptions C75_generalized.
(** Ogden: joining the lists of terms is adding materials. *)
Theorem C75_ogden : forall (SV : Type) lapack mu alpha mu' alpha', List.length mu = List.length alpha ->
  parallel (stretches_fw lapack (ogden_model (SV:=SV) {| og_mu := mu; og_alpha := alpha |}))
    (stretches_fw lapack (ogden_model {| og_mu := mu'; og_alpha := alpha' |}))
    (stretches_fw lapack (ogden_model {| og_mu := mu ++ mu'; og_alpha := alpha ++ alpha' |})).
Proof.
  intros SV lapack mu alpha mu' alpha' L. apply stretches_sum; try apply ogden_stateless.
  assert (CA : combine (mu ++ mu') (alpha ++ alpha') = combine mu alpha ++ combine mu' alpha').
  { revert alpha L. induction mu as [|x mu IH]; intros [|y al] L; cbn in L; try discriminate; cbn [app combine]; [reflexivity|]. rewrite IH; auto. }
  intros l sv s1 s2 s g1 g2 svn E1 E2. unfold outcome in *. cbn [ogden_model sm_gradient sm_hessian ret snd] in *. injection E1 as <- <-. injection E2 as <-. split.
  - f_equal. f_equal. rewrite !ogden_g_sum. cbn [og_mu og_alpha]. apply functional_extensionality; intro k. rewrite CA. apply term_app.
  - intros tv t1 t2 t h1 h2 K1 K2. injection K1 as <-. injection K2 as <-. eexists. split; [reflexivity|].
    intro v. rewrite !ogden_h_sum. cbn [og_mu og_alpha]. rewrite CA. destruct v; rewrite ?term_app; ring.
Qed.
Print Assumptions C75_ogden.
(** Two lists of terms with the same sums are the same material. *)
Lemma ogden_same {SV} m m' : (forall f k, (forall al x, f 0 al x = 0) -> (forall a b al x, f (a + b) al x = f a al x + f b al x) ->
    term_sum f (combine (og_mu m) (og_alpha m)) k = term_sum f (combine (og_mu m') (og_alpha m')) k) ->
  ogden_model (SV:=SV) m = ogden_model m'.
Proof.
  intro H. unfold ogden_model.
  assert (G : forall l, ogden_gradient m l = ogden_gradient m' l).
  { intro l. rewrite !ogden_g_sum. apply functional_extensionality; intro k. apply H; intros; unfold og_g, Rdiv; ring. }
  assert (K : forall l, ogden_hessian m l = ogden_hessian m' l).
  { intro l. apply functional_extensionality; intro v. assert (A := ogden_h_none m m' l v). assert (B := ogden_h_sum m l v). assert (C := ogden_h_sum m' l v).
    assert (D : val (ogden_hessian m l v) = val (ogden_hessian m' l v)).
    { rewrite B, C. destruct v; try reflexivity; apply H; intros; unfold og_h, Rdiv; ring. }
    destruct (ogden_hessian m l v), (ogden_hessian m' l v); cbn [val] in D; [f_equal; exact D|exfalso; destruct A as [_ A]; discriminate (A eq_refl)|exfalso; destruct A as [A _]; discriminate (A eq_refl)|reflexivity]. }
  f_equal; do 2 (apply functional_extensionality_dep; intro); [rewrite G|rewrite K]; reflexivity.
Qed.
(** The order of the terms does not matter. *)
Theorem C75_ogden_order : forall (SV : Type) mu alpha mu' alpha', Permutation (combine mu alpha) (combine mu' alpha') ->
  ogden_model (SV:=SV) {| og_mu := mu; og_alpha := alpha |} = ogden_model {| og_mu := mu'; og_alpha := alpha' |}.
Proof. intros SV mu alpha mu' alpha' H. apply ogden_same. intros f k _ _. cbn [og_mu og_alpha]. apply term_perm; exact H. Qed.
Print Assumptions C75_ogden_order.
(** Two terms with the same exponent are one term; a term with modulus zero is none. *)
Theorem C75_ogden_merge : forall (SV : Type) a b al mu alpha, al <> 0 ->
  ogden_model (SV:=SV) {| og_mu := a :: b :: mu; og_alpha := al :: al :: alpha |} = ogden_model {| og_mu := (a + b) :: mu; og_alpha := al :: alpha |} /\
  ogden_model (SV:=SV) {| og_mu := 0 :: mu; og_alpha := al :: alpha |} = ogden_model {| og_mu := mu; og_alpha := alpha |}.
Proof.
  intros SV a b al mu alpha _. split; apply ogden_same; intros f k Z A; cbn [og_mu og_alpha combine]; unfold term_sum; cbn [fold_right fst snd]; [rewrite A|rewrite Z]; ring.
Qed.
Print Assumptions C75_ogden_merge.
(** Because of the wrong product in Invariants.hessian (C15) the tangents of two models do
    not add up if one of them has d2W/dI3dI3: psi = I2^2/2 + I3^2/2 and psi = I2^2/2. *)
Definition model_22_33 (c : option R) : InvModel unit :=
  {| im_gradient := fun I1 I2 I3 sv => Ok ((None, Some I2, option_map (fun c => c * I3) c), sv);
     im_hessian := fun I1 I2 I3 sv => Ok (fun v => match v with V1 => Some 1 | V2 => c | _ => None end) |}.
Theorem C75_W33_refuted :
  (forall C, inv_gradient_of (model_22_33 C) (fun J => J X1 ^ 2 / 2 + val C * J X2 ^ 2 / 2) everywhere) /\
  ~ parallel (invariants_fw (model_22_33 (Some 1))) (invariants_fw (model_22_33 None)) (invariants_fw (sum_inv (model_22_33 (Some 1)) (model_22_33 None))).
Proof.
  split.
  - intros C I t0 dI HI _ sv. eexists _, sv. split; [reflexivity|].
    assert (D1 := HI X1). assert (D2 := HI X2).
    replace (sum3 _) with (I t0 X1 * dI X1 + val C * I t0 X2 * dI X2) by (unfold sum3; destruct C; cbn; ring).
    apply D_ext with (fun t => / 2 * (I t X1 * I t X1) + val C * / 2 * (I t X2 * I t X2)); [intro t; field|].
    eapply D_eq; [apply D_plus; apply D_scal; apply D_mult; eauto|]. cbn. field.
  - intro HP. pose (mA := model_22_33 (Some 1)). pose (mB := model_22_33 None). pose (J := Jv eye).
    pose (gA := (@None R, Some (J X1), Some (1 * J X2)) : opt3). pose (gB := (@None R, Some (J X1), @None R) : opt3).
    pose (gC := (@None R, Some (J X1 + J X1), Some (1 * J X2 + 0)) : opt3).
    pose (hA := fun v : ix6 => match v with V1 => Some 1 | V2 => Some 1 | _ => None end). pose (hB := fun v : ix6 => match v with V1 => Some 1 | V2 => @None R | _ => None end).
    pose (hC := fun v : ix6 => oadd (hA v) (hB v)).
    assert (A := inv_hessian_eq mA eye tt gA tt hA inv_self0 eq_refl eq_refl).
    assert (B := inv_hessian_eq mB eye tt gB tt hB inv_self0 eq_refl eq_refl).
    assert (C := inv_hessian_eq (sum_inv mA mB) eye tt gC tt hC inv_self0 eq_refl eq_refl).
    cbn [hess_exn gA gB gC hA hB hC isN negb andb o3 fst snd oadd] in A, B, C.
    assert (OA : outcome (fw_hessian (invariants_fw mA) eye tt) inv_self0 = Ok (hessv_bug eye gA hA)) by (unfold outcome; cbn [invariants_fw fw_hessian]; rewrite A; reflexivity).
    assert (OB : outcome (fw_hessian (invariants_fw mB) eye tt) inv_self0 = Ok (hessv eye gB hB)) by (unfold outcome; cbn [invariants_fw fw_hessian]; rewrite B; reflexivity).
    assert (OC : outcome (fw_hessian (invariants_fw (sum_inv mA mB)) eye tt) inv_self0 = Ok (hessv_bug eye gC hC)) by (unfold outcome; cbn [invariants_fw fw_hessian]; rewrite C; reflexivity).
    destruct (HP eye tt inv_self0 inv_self0 inv_self0 _ _ tt eq_refl eq_refl) as [_ H].
    assert (Q := H inv_self0 inv_self0 inv_self0 _ _ OA OB). fold mA mB in Q. rewrite OC in Q. injection Q as Q.
    assert (Q0 := f_equal (fun M : Mat6 => M V0 V0) Q). cbv beta in Q0.
    unfold hessv_bug, hessv, sum3 in Q0. cbn [o3 fst snd val gA gB gC hA hB hC pos oadd] in Q0.
    unfold dya, dJv in Q0. cbn [d2Jv] in Q0. unfold vsub, vscal, eye, trace in Q0. lra.
Qed.
Print Assumptions C75_W33_refuted.
(** A concrete case: C10 = 1 and C01 = 2 in parallel are the Mooney-Rivlin material (1, 2): the
    stresses of any deformation add up. *)
Example parallel_instance : forall F s1 s2 s, exists P1 P2,
  outcome (sp_gradient KDistortional (invariants_fw (tod_model (SV:=unit) (tod_init 1 0 0 0 0 false))) default_opts F tt) s1 = Ok (P1, tt) /\
  outcome (sp_gradient KDistortional (invariants_fw (tod_model (SV:=unit) (tod_init 0 2 0 0 0 false))) default_opts F tt) s2 = Ok (P2, tt) /\
  outcome (sp_gradient KDistortional (invariants_fw (tod_model (SV:=unit) (tod_init 1 2 0 0 0 false))) default_opts F tt) s = Ok (add_stress P1 P2, tt).
Proof.
  intros F s1 s2 s.
  assert (R1 : forall p s, exists P, outcome (sp_gradient KDistortional (invariants_fw (tod_model (SV:=unit) p)) default_opts F tt) s = Ok (P, tt)).
  { intros p t. destruct (tod_gradient_ok p (Jv (seen KDistortional (right_CG F)) X0) (Jv (seen KDistortional (right_CG F)) X1) (Jv (seen KDistortional (right_CG F)) X2)) as (g & E & _).
    eexists. refine (sp_gradient_ok (invariants_fw (tod_model p)) default_opts KDistortional F tt t _ tt _).
    unfold outcome. cbn [invariants_fw fw_gradient]. rewrite (inv_gradient_ok (tod_model p) _ tt g tt); [reflexivity|]. unfold inv_call. cbn [tod_model im_gradient]. rewrite E. reflexivity. }
  destruct (R1 (tod_init 1 0 0 0 0 false) s1) as [P1 E1]. destruct (R1 (tod_init 0 2 0 0 0 false) s2) as [P2 E2]. exists P1, P2. split; [exact E1|]. split; [exact E2|].
  assert (HP := C75_third_order_deformation unit 1 0 0 0 0 0 2 0 0 0 false). rewrite !Rplus_0_r, Rplus_0_l in HP.
  exact (C75_stress _ _ _ _ _ _ _ _ _ _ _ _ _ _ HP E1 E2).
Qed.
