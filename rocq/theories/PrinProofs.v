(** Principal stresses (C60). *)
From Coq Require Import Reals Lra List Psatz FunctionalExtensionality.
From Coquelicot Require Import Coquelicot.
From Verif Require Import Tensor Py Voigt VoigtProofs Algebra Calc Models Frameworks Spaces Spec StrMore IsoProofs SpaceCore PiolaProofs SpaceProofs Lab LabSpec LabMech
  CurveOgden NDLinks2 SymSpec SymProofs PrinSpec PropSpaces PropSym PropCurves.
Local Open Scope R_scope.

Definition cauchy_opts : SpaceOpts := opts Deformed Deformed.
Section Fw.
  Context {SV : Type} (fw : Framework SV) (HI : isotropic_gradient fw posdef) (k : SpaceKind) (sv : SV) (s : SpaceSelf (fw_self fw)).
  Let out F := outcome (sp_gradient k fw cauchy_opts F sv) s.
  Definition reflect (c : ix3) : T2 := fun i j => if ix3_eqb i j then (if ix3_eqb i c then -1 else 1) else 0.
  Lemma reflect_orth c : orthogonal (reflect c).
  Proof. intros i j. destruct c, i, j; unfold mmul, mtr, reflect, one2, delta, sum3; cbn; ring. Qed.
  Lemma out_turn F Q : orthogonal Q -> invertible F -> out (mmul F (mtr Q)) = out F.
  Proof. intros HQ N. exact (C57_cauchy SV fw posdef HI k Q F sv s HQ N (argument_posdef k F N)). Qed.
  Lemma out_rot F Q P svn : orthogonal Q -> out F = Ok (StressFull P, svn) -> out (mmul Q F) = Ok (StressFull (mmul (mmul Q P) (mtr Q)), svn).
  Proof. intros HQ E. exact (proj1 (proj2 (C24_named_cases SV fw k Q F sv s P svn HQ)) E). Qed.
  Lemma diag_stress a b c P svn : invertible (dgm a b c) -> out (dgm a b c) = Ok (StressFull P, svn) -> forall i j, i <> j -> P i j = 0.
  Proof.
    intros N E i j D.
    assert (G : mmul (reflect i) (mmul (dgm a b c) (mtr (reflect i))) = dgm a b c).
    { apply T2_ext; intros x y. destruct i, x, y; unfold mmul, mtr, reflect, dgm, sum3; cbn; ring. }
    assert (E1 := out_turn (dgm a b c) (reflect i) (reflect_orth i) N). rewrite E in E1.
    assert (E2 := out_rot _ (reflect i) P svn (reflect_orth i) E1). rewrite G, E in E2. injection E2 as E2.
    assert (E3 := f_equal (fun X => X i j) E2). cbv beta in E3.
    destruct i, j; try contradiction; unfold mmul, mtr, reflect, sum3 in E3; cbn in E3; lra.
  Qed.
  (** *** singular value decomposition *)
  Definition right_axes (F : T2) (l : Vec3) (v : T2) : T2 := fun i a => sum3 (fun m => F m i * v m a) / l a.
  Lemma orth_cols v : orthogonal v -> forall a b, sum3 (fun i => v i a * v i b) = delta a b.
  Proof. intros H a b. exact (H a b). Qed.
  Lemma FFt_v F l v a b : principal_axes F l v -> sum3 (fun i => sum3 (fun j => v i a * mmul F (mtr F) i j * v j b)) = l a ^ 2 * delta a b.
  Proof.
    intros (P & O & E). assert (H := orth_cols v O).
    transitivity (sum3 (fun c => l c ^ 2 * sum3 (fun i => v i a * v i c) * sum3 (fun j => v j c * v j b))).
    - unfold sum3. rewrite !E. unfold sum3. ring.
    - unfold sum3 at 1. rewrite !H. destruct a, b; unfold delta; cbn; ring.
  Qed.
  Lemma right_orth F l v : principal_axes F l v -> orthogonal (right_axes F l v).
  Proof.
    intros H a b. assert (P := proj1 H). assert (E := FFt_v F l v a b H). assert (Pa := P a). assert (Pb := P b).
    transitivity (sum3 (fun i => sum3 (fun j => v i a * mmul F (mtr F) i j * v j b)) / (l a * l b)).
    - unfold mmul, mtr, right_axes, sum3. field. lra.
    - rewrite E. unfold one2. destruct a, b; unfold delta; cbn; field; lra.
  Qed.
  Lemma svd F l v : principal_axes F l v -> mmul (mtr v) (mmul F (right_axes F l v)) = dgm (l X0) (l X1) (l X2).
  Proof.
    intros H. apply T2_ext; intros a b. assert (P := proj1 H). assert (E := FFt_v F l v a b H). assert (Pa := P a). assert (Pb := P b).
    transitivity (sum3 (fun i => sum3 (fun j => v i a * mmul F (mtr F) i j * v j b)) / l b).
    - unfold mmul, mtr, right_axes, sum3. field. lra.
    - rewrite E. unfold dgm, delta. destruct a, b; cbn; field; lra.
  Qed.
  Lemma mtr_orth v : orthogonal v -> orthogonal (mtr v).
  Proof. intros H i j. exact (f_equal (fun X : T2 => X i j) (QQt v H)). Qed.
  Lemma axes_inv F l v : principal_axes F l v -> invertible F.
  Proof.
    intros H Z. assert (P := proj1 H). assert (E := f_equal det3 (svd F l v H)). rewrite dgm_det in E.
    rewrite !VoigtProofs.det3_mmul, Z in E. assert (0 < l X0 * l X1 * l X2) by (repeat apply Rmult_lt_0_compat; apply P). lra.
  Qed.
  Lemma to_diag F l v : principal_axes F l v -> forall P svn, out (dgm (l X0) (l X1) (l X2)) = Ok (StressFull P, svn) ->
    exists sigma, out F = Ok (StressFull sigma, svn) /\ coaxial sigma (fun a => P a a) v.
  Proof.
    intros H P svn E. assert (N := axes_inv F l v H). assert (O : orthogonal v) by apply H.
    assert (HQ := mtr_orth _ (right_orth F l v H)).
    assert (T := out_turn F (mtr (right_axes F l v)) HQ N).
    change (mtr (mtr (right_axes F l v))) with (right_axes F l v) in T.
    assert (E' := out_rot (dgm (l X0) (l X1) (l X2)) v P svn O E).
    rewrite <- (svd F l v H) in E'.
    assert (A : mmul v (mmul (mtr v) (mmul F (right_axes F l v))) = mmul F (right_axes F l v)).
    { rewrite <- mmul_assoc. rewrite (QQt v O). apply mmul_one_l. }
    rewrite A, T in E'. eexists. split; [exact E'|].
    assert (ND : invertible (dgm (l X0) (l X1) (l X2))).
    { unfold invertible. rewrite dgm_det. apply Rgt_not_eq. repeat apply Rmult_lt_0_compat; apply (proj1 H). }
    assert (Z := diag_stress _ _ _ P svn ND E).
    intros i j. unfold mmul, mtr, sum3.
    rewrite (Z X0 X1), (Z X0 X2), (Z X1 X0), (Z X1 X2), (Z X2 X0), (Z X2 X1) by discriminate. ring.
  Qed.
End Fw.
Section Energy.
  Context {SV : Type} (fw : Framework SV) (HI : isotropic_gradient fw posdef) (k : SpaceKind) (K : k <> KDilatational) (sv : SV) (s : SpaceSelf (fw_self fw)).
  Context (psi : Vec3 -> R) (W : T2 -> R) (HW : energy_in_stretches psi W) (HG : fw_gradient_of fw W posdef).
  Lemma cauchy_of_P F P svn : invertible F -> outcome (sp_gradient k fw default_opts F sv) s = Ok (StressFull P, svn) ->
    exists sigma, outcome (sp_gradient k fw cauchy_opts F sv) s = Ok (StressFull sigma, svn) /\ forall i j, mmul P (mtr F) i j = Rabs (det3 F) * sigma i j.
  Proof.
    intros N E. destruct (C28_configurations SV fw k Deformed Undeformed F sv s N) as [C _].
    change (opts Deformed Undeformed) with default_opts in C. rewrite E in C.
    destruct (outcome (sp_gradient k fw (opts Undeformed Undeformed) F sv) s) as [[[S|V] svn']|e] eqn:EU; cbn [rmap fst snd on_full] in C; try discriminate.
    destruct (C28_stresses SV fw k F sv s S svn' N EU) as (P' & sigma & E1 & E2 & _ & _ & _ & _ & H).
    change (opts Deformed Undeformed) with default_opts in E1. rewrite E in E1. injection E1 as <- <-. exists sigma. auto.
  Qed.
  Definition seen_part (C : T2) : T2 := match k with KDistortional => distortional_part C | _ => C end.
  Lemma stress_of F0 t0 dF : dcurve2 F0 t0 dF -> invertible (F0 t0) -> exists P svn,
    outcome (sp_gradient k fw default_opts (F0 t0) sv) s = Ok (StressFull P, svn) /\ is_derive (fun t => W (seen_part (cauchy_green (F0 t)))) t0 (dc22 P dF).
  Proof.
    intros D N. assert (A := argument_posdef k _ N). unfold seen_part. destruct k; try contradiction.
    - destruct (C25_stress SV fw W posdef HG F0 t0 dF D A sv s) as (P & svn & [s' E] & D'). exists P, svn. split; [|exact D'].
      unfold outcome. cbn [sp_gradient]. rewrite E. reflexivity.
    - destruct (C30_stress SV fw W posdef HG F0 t0 dF D (conj N A) sv s) as (P & svn & [s' E] & D'). exists P, svn. split; [|exact D'].
      unfold outcome. cbn [sp_gradient]. rewrite E. reflexivity.
  Qed.
  Lemma in_dgm a b c : 0 < a -> 0 < b -> 0 < c -> W (cauchy_green (dgm a b c)) = psi (vec3 a b c).
  Proof.
    intros A B C. rewrite <- (HW (vec3 a b c)) by (intros []; assumption). apply (f_equal (fun F => W (cauchy_green F))). apply T2_ext; intros i j; destruct i, j; reflexivity.
  Qed.
  Lemma energy_diag a b c : 0 < a -> 0 < b -> 0 < c ->
    W (seen_part (cauchy_green (dgm a b c))) = psi (seen_stretches k (vec3 a b c)).
  Proof.
    intros A B C. unfold seen_part, seen_stretches. destruct k; try (apply in_dgm; assumption).
    set (q := Rpower (volume (vec3 a b c)) (-1 / 3)).
    assert (V : 0 < volume (vec3 a b c)) by (unfold volume; cbn; repeat apply Rmult_lt_0_compat; assumption).
    assert (Q : 0 < q) by apply exp_pos.
    assert (E : distortional_part (cauchy_green (dgm a b c)) = cauchy_green (dgm (q * a) (q * b) (q * c))).
    { unfold distortional_part. rewrite !dgm_cg, dgm_det.
      assert (Z : Rpower (a ^ 2 * b ^ 2 * c ^ 2) (-1 / 3) = q ^ 2).
      { unfold q. replace (a ^ 2 * b ^ 2 * c ^ 2) with (volume (vec3 a b c) ^ 2) by (unfold volume; cbn; ring).
        rewrite <- !Rpower_pow by (apply exp_pos || exact V). rewrite !Rpower_mult. f_equal. ring. }
      rewrite Z. apply T2_ext; intros i j. unfold mscal, dgm. destruct i, j; cbn; ring. }
    rewrite E, in_dgm by (apply Rmult_lt_0_compat; assumption).
    f_equal. apply Vec3_ext. intros []; reflexivity.
  Qed.
  Lemma poke_vec l a t : poke l a t = vec3 (poke l a t X0) (poke l a t X1) (poke l a t X2).
  Proof. apply Vec3_ext. intros []; reflexivity. Qed.
  Lemma diag_partials l : positive3 l -> exists sigma svn d,
    outcome (sp_gradient k fw cauchy_opts (dgm (l X0) (l X1) (l X2)) sv) s = Ok (StressFull sigma, svn) /\
    (forall a, is_derive (fun t => psi (seen_stretches k (poke l a t))) (l a) (d a)) /\
    forall a, sigma a a = l a * d a / volume l.
  Proof.
    intro P. set (D := dgm (l X0) (l X1) (l X2)).
    assert (V : 0 < volume l) by (unfold volume; repeat apply Rmult_lt_0_compat; apply P).
    assert (N : invertible D) by (unfold invertible, D; rewrite dgm_det; apply Rgt_not_eq; exact V).
    (* the curves that change one stretch *)
    assert (G : forall a, exists S svn, outcome (sp_gradient k fw default_opts D sv) s = Ok (StressFull S, svn) /\
       is_derive (fun t => psi (seen_stretches k (poke l a t))) (l a) (S a a)).
    { intro a. set (F0 := fun t => dgm (poke l a t X0) (poke l a t X1) (poke l a t X2)).
      assert (F00 : F0 (l a) = D). { unfold F0, D. f_equal; destruct a; reflexivity. }
      destruct (stress_of F0 (l a) (fun i j => if ix3_eqb i a then if ix3_eqb j a then 1 else 0 else 0)) as (S & svn & E & Dv).
      - intros i j. unfold F0, dgm, poke. destruct a, i, j; cbn; try (apply (is_derive_const (V := R_NormedModule))); apply (is_derive_id (K := R_AbsRing)).
      - rewrite F00. exact N.
      - rewrite F00 in E. exists S, svn. split; [exact E|].
        replace (dc22 S (fun i j => if ix3_eqb i a then if ix3_eqb j a then 1 else 0 else 0)) with (S a a) in Dv by (unfold dc22, sum3; destruct a; cbn; ring).
        apply (is_derive_ext_loc (fun t => W (seen_part (cauchy_green (F0 t))))); [|exact Dv].
        apply PropCurves.near_pos; [apply P|]. intros t T. unfold F0. rewrite energy_diag; [rewrite <- poke_vec; reflexivity| | |]; unfold poke; destruct (ix3_eqb _ a); auto. }
    destruct (G X0) as (S0 & sv0 & E0 & D0). destruct (G X1) as (S1 & sv1 & E1 & D1). destruct (G X2) as (S2 & sv2 & E2 & D2).
    rewrite E0 in E1, E2. injection E1 as <- <-. injection E2 as <- <-.
    destruct (cauchy_of_P D S0 sv0 N E0) as (sigma & Es & H).
    exists sigma, sv0, (fun a => S0 a a). split; [exact Es|]. split; [intros []; assumption|].
    intro a. specialize (H a a). unfold D at 2 in H. rewrite dgm_det in H. fold (volume l) in H. rewrite (Rabs_pos_eq (volume l)) in H by lra.
    apply (Rmult_eq_reg_l (volume l)); [|lra]. rewrite <- H. unfold mmul, mtr, D, dgm, sum3. destruct a; cbn; field; lra.
  Qed.
  Theorem principal F l v : principal_axes F l v -> exists sigma svn d,
    outcome (sp_gradient k fw cauchy_opts F sv) s = Ok (StressFull sigma, svn) /\
    (forall a, is_derive (fun t => psi (seen_stretches k (poke l a t))) (l a) (d a)) /\
    coaxial sigma (fun a => l a * d a / volume l) v.
  Proof.
    intro H. destruct (diag_partials l (proj1 H)) as (P & svn & d & E & D & Pa).
    destruct (to_diag fw HI k sv s F l v H P svn E) as (sigma & Es & C). exists sigma, svn, d. split; [exact Es|]. split; [exact D|].
    intros i j. rewrite C. unfold sum3. rewrite !Pa. reflexivity.
  Qed.
  (** *** differences of principal stresses *)
  Lemma seen_curve l a : positive3 l -> dcurve3 (fun t => seen_stretches KDistortional (poke l a t)) (l a)
    (fun b => Rpower (volume l) (-1 / 3) * (delta a b - 1 / 3 * l b / l a)).
  Proof.
    intros P b. cbn [seen_stretches].
    assert (V : 0 < volume l) by (unfold volume; repeat apply Rmult_lt_0_compat; apply P). assert (Pa := P a).
    assert (D1 : is_derive (fun t => volume (poke l a t)) (l a) (volume l / l a)).
    { unfold volume, poke. destruct a; cbn; auto_derive; auto; field; lra. }
    assert (E1 : volume (poke l a (l a)) = volume l) by (unfold volume, poke; destruct a; reflexivity).
    assert (D2 : is_derive (fun t => Rpower (volume (poke l a t)) (-1 / 3)) (l a) ((volume l / l a) * ((-1 / 3) * Rpower (volume l) (-1 / 3 - 1)))).
    { rewrite <- E1 at 2. apply (is_derive_comp (fun x => Rpower x (-1 / 3)) (fun t => volume (poke l a t))); [|exact D1].
      apply is_derive_Rpower. rewrite E1. exact V. }
    assert (D3 : is_derive (fun t => poke l a t b) (l a) (delta a b)).
    { unfold poke, delta. destruct a, b; cbn; try (apply (is_derive_const (V := R_NormedModule))); apply (is_derive_id (K := R_AbsRing)). }
    assert (D4 := is_derive_mult _ _ _ _ _ D2 D3 Rmult_comm). cbv beta in D4. rewrite E1 in D4.
    replace (poke l a (l a) b) with (l b) in D4 by (unfold poke; destruct a, b; reflexivity).
    eapply Calc.D_eq; [exact D4|]. unfold plus, mult; cbn.
    replace (Rpower (volume l) (-1 / 3 - 1)) with (Rpower (volume l) (-1 / 3) / volume l).
    2: { unfold Rminus. rewrite Rpower_plus, Rpower_Ropp, Rpower_1 by exact V. field. lra. }
    field. lra.
  Qed.
  Lemma partials_of l g : positive3 l -> has_gradient psi (seen_stretches k l) g -> forall a d,
    is_derive (fun t => psi (seen_stretches k (poke l a t))) (l a) d -> l a * d = seen_stretches k l a * g a - pressure k l g.
  Proof.
    intros P H. assert (PV : forall a, poke l a (l a) = l) by (intro b; apply Vec3_ext; intros c; unfold poke; destruct b, c; reflexivity).
    destruct k; try contradiction.
    - intros b d D. cbn [seen_stretches pressure] in *.
      assert (D' := H (fun t => poke l b t) (l b) (delta b)).
      assert (D2 : is_derive (fun t => psi (poke l b t)) (l b) (sum3 (fun c => g c * delta b c))).
      { apply D'; [intro c; now rewrite PV|]. intro c. unfold poke, delta. destruct b, c; cbn; try (apply (is_derive_const (V := R_NormedModule))); apply (is_derive_id (K := R_AbsRing)). }
      apply is_derive_unique in D. apply is_derive_unique in D2. rewrite D in D2. rewrite D2. unfold sum3, delta. destruct b; cbn; ring.
    - intros b d D.
      assert (D2 := H _ (l b) _ (fun c => f_equal (fun x => seen_stretches KDistortional x c) (PV b)) (seen_curve l b P)).
      cbv beta in D2. apply is_derive_unique in D. apply is_derive_unique in D2. rewrite D in D2. rewrite D2.
      assert (Pb := P b). unfold pressure, sum3, delta, seen_stretches. destruct b; cbn; field; lra.
  Qed.
  (** Principal Cauchy stresses, up to a hydrostatic part in Distortional *)
  Lemma principal_diff F l v g : principal_axes F l v -> has_gradient psi (seen_stretches k l) g ->
    exists sigma svn sp, outcome (sp_gradient k fw cauchy_opts F sv) s = Ok (StressFull sigma, svn) /\ coaxial sigma sp v /\
    forall a, sp a = (seen_stretches k l a * g a - pressure k l g) / volume l.
  Proof.
    intros H G. destruct (principal F l v H) as (sigma & svn & d & E & D & C).
    assert (Hp := partials_of l g (proj1 H) G).
    exists sigma, svn, (fun a => l a * d a / volume l). split; [exact E|]. split; [exact C|]. intro a. rewrite (Hp a (d a) (D a)). reflexivity.
  Qed.
End Energy.
