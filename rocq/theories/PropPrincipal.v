(** Property C60: the principal stresses returned by the spaces. *)
From Coq Require Import Reals Lra Lia List Psatz FunctionalExtensionality.
From Coquelicot Require Import Coquelicot.
From Verif Require Import Tensor Py Voigt VoigtProofs Algebra Calc Models ModelProofs Frameworks Spaces Spec InvProofs EigCore Spectral StrMore IsoProofs SpaceCore PiolaProofs SpaceProofs
  Lab LabSpec LabMech CurveSpec CurveProofs CurveOgden NDLinks2 SymSpec SymProofs PrinSpec PrinProofs PropInvariants PropStretches PropSpaces PropLab PropSym PropCurves.
Import ListNotations.
Local Open Scope R_scope.

(** Every invertible deformation gradient has principal stretches and directions. *)
Theorem C60_axes_exist : forall F, invertible F -> exists l v, principal_axes F l v.
Proof.
  intros F N. set (B := mmul F (mtr F)).
  assert (SB : sym2 B) by (intros i j; unfold B, mmul, mtr, sum3; ring).
  destruct (spectral B SB) as [[w v] L]. cbn [fst snd] in L.
  assert (PB : posdef B).
  { apply (posdef_CG (mtr F)). unfold invertible. replace (det3 (mtr F)) with (det3 F) by (unfold det3, mtr; ring). exact N. }
  assert (W := proj1 (eig_posdef _ _ _ L) PB). destruct L as (O & E & _).
  assert (OV : orthogonal v) by (intros a b; apply (O a b)).
  exists (fun a => sqrt (w a)), v. split; [intro a; apply sqrt_lt_R0, W|]. split; [exact OV|].
  intros i j. fold B.
  transitivity (sum3 (fun a => sum3 (fun m => B i m * v m a) * v j a)).
  - assert (Q := QQt v OV). assert (Q' : forall m, sum3 (fun a => v m a * v j a) = delta m j).
    { intro m. exact (f_equal (fun X : T2 => X m j) Q). }
    transitivity (sum3 (fun m => B i m * sum3 (fun a => v m a * v j a))); [unfold sum3 at 1; rewrite !Q'; destruct j; unfold delta; cbn; ring|unfold sum3; ring].
  - unfold sum3 at 1. rewrite !E. unfold sum3. rewrite !pow2_sqrt by (left; apply W). ring.
Qed.
Print Assumptions C60_axes_exist.

(** For an isotropic material with the energy psi(stretches): the Cauchy stress (force=None i.e.
    deformed, area = deformed) has the principal directions of F, and its principal values are
    l_a (d psi / d l_a) / J. *)
Theorem C60_principal_stresses : forall (SV : Type) (fw : Framework SV) k psi W, isotropic_gradient fw posdef -> k <> KDilatational ->
  energy_in_stretches psi W -> fw_gradient_of fw W posdef ->
  forall F l v sv s, principal_axes F l v -> exists sigma svn d,
    outcome (sp_gradient k fw (opts Deformed Deformed) F sv) s = Ok (StressFull sigma, svn) /\
    (forall a, is_derive (fun t => psi (seen_stretches k (poke l a t))) (l a) (d a)) /\
    coaxial sigma (fun a => l a * d a / volume l) v.
Proof. intros SV fw k psi W HI K HW HG F l v sv s H. exact (principal fw HI k K sv s psi W HW HG F l v H). Qed.
Print Assumptions C60_principal_stresses.

(** ** ThirdOrderDeformation *)
Lemma posdef_inv C : sym2 C -> posdef C -> invertible C.
Proof.
  intros S P. destruct (spectral C S) as [[w v] L]. cbn [fst snd] in L. assert (W := proj1 (eig_posdef _ _ _ L) P).
  assert (E := f_equal (fun I => I X2) (eig_invariants _ _ _ L)). cbn in E. unfold inv3' in E.
  unfold invertible. rewrite E. apply Rgt_not_eq. repeat apply Rmult_lt_0_compat; apply W.
Qed.
Definition tod_psi (m : TOD) (l : Vec3) : R := tod_energy m (vec3 (I1_of l) (I2_of l) 0).
Lemma tod_psi_ok m : energy_in_stretches (tod_psi m) (fun C => tod_energy m (invariants C)).
Proof.
  intros l P. unfold tod_psi, tod_energy. cbn [invariants vec3].
  replace (inv1 (cauchy_green (fun i j => if ix3_eqb i j then l i else 0))) with (I1_of l)
    by (unfold inv1, tr2, cauchy_green, mmul, mtr, sum3, I1_of; cbn; ring).
  replace (inv2 (cauchy_green (fun i j => if ix3_eqb i j then l i else 0))) with (I2_of l); [reflexivity|].
  unfold inv2, tr2, cauchy_green, mmul, mtr, sum3, I2_of; cbn; field.
Qed.
Definition tod_slope (m : TOD) (l : Vec3) : Vec3 := fun a =>
  2 * l a * (tod_W1 m (I1_of l) (I2_of l) + tod_W2 m (I1_of l) (I2_of l) * (I1_of l - l a ^ 2)).
Lemma tod_psi_grad m l : has_gradient (tod_psi m) l (tod_slope m l).
Proof.
  intros c t0 dc E D. unfold tod_psi, tod_energy, I1_of, I2_of. cbn [vec3].
  assert (D0 := D X0). assert (D1 := D X1). assert (D2 := D X2).
  dsolve. cbv beta. rewrite !E. unfold tod_slope, tod_W1, tod_W2, I1_of, I2_of, sum3. ring.
Qed.
Lemma tod_iso {SV} m : isotropic_gradient (invariants_fw (tod_model (SV:=SV) m)) posdef.
Proof. intros Q C sv s HQ S P. exact (isotropic_inv _ Q C sv s HQ S (posdef_inv C S P)). Qed.
Lemma tod_fw_grad {SV} m : fw_gradient_of (invariants_fw (tod_model (SV:=SV) m)) (fun C => tod_energy m (invariants C)) posdef.
Proof. intros C t0 dC S HC P. exact (inv_fw_grad _ _ _ (tod_grad m) C t0 dC S HC (conj (posdef_inv _ (S t0) P) Logic.I)). Qed.

(** The principal Cauchy stresses of ThirdOrderDeformation; in Distortional with the stretches of
    the isochoric part and made traceless. *)
Theorem C60_third_order_deformation : forall (SV : Type) m k F l v (sv : SV) s, k <> KDilatational -> principal_axes F l v ->
  let y := seen_stretches k l in
  exists sigma svn sp p, outcome (sp_gradient k (invariants_fw (tod_model m)) (opts Deformed Deformed) F sv) s = Ok (StressFull sigma, svn) /\
    coaxial sigma sp v /\ (k = KDeformation -> p = 0) /\ (k = KDistortional -> sum3 sp = 0) /\
    forall a, sp a = (2 * y a ^ 2 * (tod_W1 m (I1_of y) (I2_of y) + tod_W2 m (I1_of y) (I2_of y) * (I1_of y - y a ^ 2)) - p) / volume l.
Proof.
  intros SV m k F l v sv s K H y.
  destruct (principal_diff (invariants_fw (tod_model m)) (tod_iso m) k K sv s (tod_psi m) _ (tod_psi_ok m) (tod_fw_grad m) F l v _ H (tod_psi_grad m _)) as (sigma & svn & sp & E & C & P).
  assert (V : 0 < volume l) by (unfold volume; repeat apply Rmult_lt_0_compat; apply (proj1 H)).
  exists sigma, svn, sp, (pressure k l (tod_slope m y)). split; [exact E|]. split; [exact C|]. split; [intros ->; reflexivity|]. split.
  - intros ->. unfold sum3. rewrite !P. unfold pressure, sum3. field. lra.
  - intro a. rewrite P. unfold tod_slope. fold y. field. lra.
Qed.
Print Assumptions C60_third_order_deformation.

(** *** The larger stretch carries the larger stress *)
Lemma amgm3 a b c : 0 < a -> 0 < b -> 0 < c -> a * b * c = 1 -> 3 <= a + b + c.
Proof.
  intros A B C E. apply Rnot_lt_le. intro L.
  assert (27 * (a * b * c) <= (a + b + c) ^ 3).
  { assert (0 <= a * (b - c) ^ 2) by (apply Rmult_le_pos; [lra|apply pow2_ge_0]).
    assert (0 <= b * (c - a) ^ 2) by (apply Rmult_le_pos; [lra|apply pow2_ge_0]).
    assert (0 <= c * (a - b) ^ 2) by (apply Rmult_le_pos; [lra|apply pow2_ge_0]).
    assert (0 <= (a + b + c) * ((a - b) ^ 2 + (b - c) ^ 2 + (c - a) ^ 2)) by (apply Rmult_le_pos; [lra|]; pose proof (pow2_ge_0 (a - b)); pose proof (pow2_ge_0 (b - c)); pose proof (pow2_ge_0 (c - a)); lra).
    nra. }
  assert ((a + b + c) ^ 3 < 3 ^ 3) by (set (t := a + b + c) in *; assert (0 < t) by (unfold t; lra); assert (t * t < 9) by nra; nra). lra.
Qed.
Lemma seen_pos k l : positive3 l -> positive3 (seen_stretches k l).
Proof. intros P a. unfold seen_stretches. destruct k; try apply P. apply Rmult_lt_0_compat; [apply exp_pos|apply P]. Qed.
Lemma seen_volume l : positive3 l -> volume (seen_stretches KDistortional l) = 1.
Proof.
  intro P. assert (V : 0 < volume l) by (unfold volume; repeat apply Rmult_lt_0_compat; apply P).
  unfold seen_stretches. transitivity (Rpower (volume l) (-1 / 3) ^ 3 * volume l); [unfold volume; ring|].
  rewrite <- Rpower_pow by apply exp_pos. rewrite Rpower_mult. replace (-1 / 3 * INR 3) with (Ropp 1) by (cbn; field).
  rewrite Rpower_Ropp, Rpower_1 by exact V. field. lra.
Qed.
Lemma seen_lt k l a b : l a < l b -> seen_stretches k l a < seen_stretches k l b.
Proof. intro H. unfold seen_stretches. destruct k; try exact H. apply Rmult_lt_compat_l; [apply exp_pos|exact H]. Qed.
Lemma ordered_diff y w1 w2 a b : positive3 y -> y a < y b -> 0 <= w1 -> 0 <= w2 -> 0 < w1 + w2 ->
  2 * y a ^ 2 * (w1 + w2 * (I1_of y - y a ^ 2)) < 2 * y b ^ 2 * (w1 + w2 * (I1_of y - y b ^ 2)).
Proof.
  intros P L A B S.
  assert (Q : y a ^ 2 < y b ^ 2) by (assert (PA := P a); nra).
  assert (G : exists z, 0 < z /\ I1_of y = y a ^ 2 + y b ^ 2 + z).
  { unfold I1_of. assert (P0 := pow_lt _ 2 (P X0)). assert (P1 := pow_lt _ 2 (P X1)). assert (P2 := pow_lt _ 2 (P X2)).
    destruct a, b; try lra; [exists (y X2 ^ 2)|exists (y X1 ^ 2)|exists (y X2 ^ 2)|exists (y X0 ^ 2)|exists (y X1 ^ 2)|exists (y X0 ^ 2)]; (split; [assumption|ring]). }
  destruct G as (z & Z & ->).
  assert (0 < (y b ^ 2 - y a ^ 2) * (w1 + w2 * z)); [|nra].
  apply Rmult_lt_0_compat; [lra|]. destruct (Rle_lt_or_eq_dec 0 w1 A) as [A'|<-]; [assert (0 <= w2 * z) by (apply Rmult_le_pos; lra); lra|].
  assert (0 < w2 * z) by (apply Rmult_lt_0_compat; lra). lra.
Qed.
(** Distortional: nonnegative parameters suffice. *)
Theorem C60_ordered_distortional : forall (SV : Type) m F l v (sv : SV) s, nonnegative m -> 0 < C10 m + C01 m -> principal_axes F l v ->
  exists sigma svn sp, outcome (sp_gradient KDistortional (invariants_fw (tod_model m)) (opts Deformed Deformed) F sv) s = Ok (StressFull sigma, svn) /\
    coaxial sigma sp v /\ ordered_as l sp.
Proof.
  intros SV m F l v sv s N S H.
  destruct (C60_third_order_deformation SV m KDistortional F l v sv s ltac:(discriminate) H) as (sigma & svn & sp & p & E & C & _ & _ & P).
  exists sigma, svn, sp. split; [exact E|]. split; [exact C|]. intros a b L.
  assert (V : 0 < volume l) by (unfold volume; repeat apply Rmult_lt_0_compat; apply (proj1 H)).
  rewrite !P. apply Rmult_lt_compat_r; [apply Rinv_0_lt_compat, V|]. apply Rplus_lt_compat_r.
  assert (PY := seen_pos KDistortional l (proj1 H)). assert (VY := seen_volume l (proj1 H)). assert (LY := seen_lt KDistortional l a b L).
  set (y := seen_stretches KDistortional l) in *.
  assert (Q := fun a => pow_lt _ 2 (PY a)).
  assert (VY2 : y X0 ^ 2 * y X1 ^ 2 * y X2 ^ 2 = 1) by (transitivity (volume y ^ 2); [unfold volume; ring|rewrite VY; ring]).
  assert (A1 : 3 <= I1_of y) by (apply amgm3; auto).
  assert (A2 : 3 <= I2_of y).
  { unfold I2_of. replace (y X0 ^ 2 * y X1 ^ 2 + y X1 ^ 2 * y X2 ^ 2 + y X0 ^ 2 * y X2 ^ 2) with (y X0 ^ 2 * y X1 ^ 2 + y X1 ^ 2 * y X2 ^ 2 + y X0 ^ 2 * y X2 ^ 2) by ring.
    apply amgm3; try (apply Rmult_lt_0_compat; auto). transitivity ((y X0 ^ 2 * y X1 ^ 2 * y X2 ^ 2) ^ 2); [ring|rewrite VY2; ring]. }
  destruct (W_bounds m N _ _ A1 A2) as [w1 w2].
  assert (w3 : C01 m <= tod_W2 m (I1_of y) (I2_of y)).
  { destruct N as (_ & _ & N & _ & _ & U). unfold tod_W2. assert (0 <= C11 m * (I1_of y - undeformed m)) by (apply Rmult_le_pos; lra). lra. }
  destruct N as (N1 & N2 & _). apply ordered_diff; auto; lra.
Qed.
Print Assumptions C60_ordered_distortional.
(** Deformation: where the derivatives of the energy are not negative; everywhere for
    Neo-Hooke and Mooney-Rivlin parameters. *)
Theorem C60_ordered_deformation : forall (SV : Type) m F l v (sv : SV) s, principal_axes F l v ->
  0 <= tod_W1 m (I1_of l) (I2_of l) -> 0 <= tod_W2 m (I1_of l) (I2_of l) -> 0 < tod_W1 m (I1_of l) (I2_of l) + tod_W2 m (I1_of l) (I2_of l) ->
  exists sigma svn sp, outcome (sp_gradient KDeformation (invariants_fw (tod_model m)) (opts Deformed Deformed) F sv) s = Ok (StressFull sigma, svn) /\
    coaxial sigma sp v /\ ordered_as l sp.
Proof.
  intros SV m F l v sv s H A B S.
  destruct (C60_third_order_deformation SV m KDeformation F l v sv s ltac:(discriminate) H) as (sigma & svn & sp & p & E & C & _ & _ & P).
  exists sigma, svn, sp. split; [exact E|]. split; [exact C|]. intros a b L.
  assert (V : 0 < volume l) by (unfold volume; repeat apply Rmult_lt_0_compat; apply (proj1 H)).
  rewrite !P. apply Rmult_lt_compat_r; [apply Rinv_0_lt_compat, V|]. apply Rplus_lt_compat_r. cbn [seen_stretches].
  apply ordered_diff; auto. exact (proj1 H).
Qed.
Print Assumptions C60_ordered_deformation.
Theorem C60_ordered_mooney_rivlin : forall (SV : Type) c10 c01 strain F l v (sv : SV) s, principal_axes F l v -> 0 <= c10 -> 0 <= c01 -> 0 < c10 + c01 ->
  exists sigma svn sp, outcome (sp_gradient KDeformation (invariants_fw (tod_model (tod_init c10 c01 0 0 0 strain))) (opts Deformed Deformed) F sv) s = Ok (StressFull sigma, svn) /\
    coaxial sigma sp v /\ ordered_as l sp.
Proof.
  intros SV c10 c01 strain F l v sv s H A B S.
  apply C60_ordered_deformation; auto; unfold tod_W1, tod_W2, tod_init; cbn [C10 C01 C11 C20 C30]; lra.
Qed.
Print Assumptions C60_ordered_mooney_rivlin.

(** ** Ogden *)
Section Og.
  Context (SV : Type) (lapack : Lapack) (HL : lapack_legal lapack) (mu alpha : list R).
  Context (HA : forall m a, In (m, a) (combine mu alpha) -> a <> 0).
  Definition ogden_slope (x : R) : R := fold_right (fun t s => 2 * fst t / snd t * Rpower x (snd t - 1) + s) 0 (combine mu alpha).
  Lemma og_in_stretches : energy_in_stretches (ogden_psi mu alpha) (energy_of (ogden_psi mu alpha)).
  Proof.
    intros l P. replace (fun i j => if ix3_eqb i j then l i else 0) with (dgm (l X0) (l X1) (l X2)).
    - rewrite (diag_CG_energy (ogden_psi mu alpha) (energy_of (ogden_psi mu alpha)) (ogden_symmetric mu alpha) (energy_of_ok _)) by apply P.
      f_equal. apply Vec3_ext. intros []; reflexivity.
    - apply T2_ext. intros i j. destruct i, j; reflexivity.
  Qed.
  Lemma og_has_gradient l : positive3 l -> has_gradient (ogden_psi mu alpha) l (fun a => ogden_slope (l a)).
  Proof.
    intros P c t0 dc E D. unfold ogden_psi, ogden_slope. revert HA.
    induction (combine mu alpha) as [|[m a] r IH]; intro HA'; cbn [fold_right fst snd].
    - eapply Calc.D_eq; [apply (is_derive_const (V := R_NormedModule))|]. unfold sum3, zero; cbn. ring.
    - assert (A : a <> 0) by (apply (HA' m a); left; reflexivity).
      assert (Dp : forall i, is_derive (fun t => Rpower (c t i) a) t0 (dc i * (a * Rpower (l i) (a - 1)))).
      { intro i. rewrite <- (E i). apply (is_derive_comp (fun x => Rpower x a) (fun t => c t i)); [|exact (D i)].
        apply is_derive_Rpower. rewrite E. apply P. }
      assert (DI := IH (fun m' a' I => HA' m' a' (or_intror I))).
      assert (G : forall f0 f1 f2 g d0 d1 d2 d : R -> R, is_derive f0 t0 (d0 t0) -> is_derive f1 t0 (d1 t0) -> is_derive f2 t0 (d2 t0) -> is_derive g t0 (d t0) ->
        is_derive (fun t => 2 * m / a ^ 2 * (f0 t + f1 t + f2 t - 3) + g t) t0 (2 * m / a ^ 2 * (d0 t0 + d1 t0 + d2 t0) + d t0)).
      { clear. generalize (2 * m / a ^ 2); intro q; intros f0 f1 f2 g d0 d1 d2 d D0 D1 D2 D3. auto_derive; [repeat split; eexists; eauto|].
        rewrite (is_derive_unique (fun x : R => f0 x) _ _ D0), (is_derive_unique (fun x : R => f1 x) _ _ D1), (is_derive_unique (fun x : R => f2 x) _ _ D2), (is_derive_unique (fun x : R => g x) _ _ D3). ring. }
      eapply Calc.D_eq; [exact (G _ _ _ _ (fun _ => _) (fun _ => _) (fun _ => _) (fun _ => _) (Dp X0) (Dp X1) (Dp X2) DI)|].
      cbv beta. unfold sum3. field. exact A.
  Qed.
End Og.
Theorem C60_ogden : forall (SV : Type) lapack mu alpha k F l v (sv : SV) s, lapack_legal lapack ->
  (forall m a, In (m, a) (combine mu alpha) -> a <> 0) -> k <> KDilatational -> principal_axes F l v ->
  let y := seen_stretches k l in
  exists sigma svn sp p,
    outcome (sp_gradient k (stretches_fw lapack (ogden_model {| og_mu := mu; og_alpha := alpha |})) (opts Deformed Deformed) F sv) s = Ok (StressFull sigma, svn) /\
    coaxial sigma sp v /\ (k = KDeformation -> p = 0) /\ (k = KDistortional -> sum3 sp = 0) /\
    forall a, sp a = (fold_right (fun t s => 2 * fst t / snd t * Rpower (y a) (snd t) + s) 0 (combine mu alpha) - p) / volume l.
Proof.
  intros SV lapack mu alpha k F l v sv s HL HA K H y.
  destruct (principal_diff _ (W_iso SV lapack HL mu alpha) k K sv s (ogden_psi mu alpha) _ (og_in_stretches mu alpha) (W_grad SV lapack HL mu alpha HA) F l v _ H
    (og_has_gradient mu alpha HA (seen_stretches k l) (seen_pos k l (proj1 H)))) as (sigma & svn & sp & E & C & P).
  assert (V : 0 < volume l) by (unfold volume; repeat apply Rmult_lt_0_compat; apply (proj1 H)).
  exists sigma, svn, sp, (pressure k l (fun a => ogden_slope mu alpha (y a))). split; [exact E|]. split; [exact C|]. split; [intros ->; reflexivity|]. split.
  - intros ->. unfold sum3. rewrite !P. unfold pressure, sum3. fold y. field. lra.
  - intro a. rewrite P. fold y. f_equal. f_equal. unfold ogden_slope.
    assert (Y : 0 < y a) by (apply seen_pos, (proj1 H)). clear - Y. induction (combine mu alpha) as [|[m e] r IH]; cbn [fold_right fst snd]; [ring|].
    rewrite <- IH. replace (Rpower (y a) e) with (y a * Rpower (y a) (e - 1)).
    + unfold Rdiv. ring.
    + rewrite <- (Rpower_1 (y a)) at 1 by exact Y. rewrite <- Rpower_plus. f_equal. ring.
Qed.
Print Assumptions C60_ogden.
Lemma ogden_term_lt x z m a : 0 < x -> x < z -> 0 < m -> a <> 0 -> 2 * m / a * Rpower x a < 2 * m / a * Rpower z a.
Proof.
  intros X L M A. destruct (Rdichotomy _ _ A) as [N|N].
  - assert (P := Rpower_dn a N x z (conj X L)). cbv beta in P.
    assert (Q : 0 < 2 * m / - a) by (apply Rdiv_lt_0_compat; lra).
    replace (2 * m / a) with (- (2 * m / - a)) by (field; lra). nra.
  - assert (P := Rpower_up a N x z (conj X L)). cbv beta in P. apply Rmult_lt_compat_l; [apply Rdiv_lt_0_compat; lra|exact P].
Qed.
Lemma ogden_term_le x z m a : 0 < x -> x < z -> 0 <= m -> a <> 0 -> 2 * m / a * Rpower x a <= 2 * m / a * Rpower z a.
Proof.
  intros X L M A. destruct (Rle_lt_or_eq_dec 0 m M) as [M'|<-]; [left; apply ogden_term_lt; auto|apply Req_le; unfold Rdiv; ring].
Qed.
Theorem C60_ordered_ogden : forall (SV : Type) lapack mu alpha k F l v (sv : SV) s, lapack_legal lapack ->
  (forall m a, In (m, a) (combine mu alpha) -> 0 <= m /\ a <> 0) -> (exists m a, In (m, a) (combine mu alpha) /\ 0 < m) ->
  k <> KDilatational -> principal_axes F l v ->
  exists sigma svn sp,
    outcome (sp_gradient k (stretches_fw lapack (ogden_model {| og_mu := mu; og_alpha := alpha |})) (opts Deformed Deformed) F sv) s = Ok (StressFull sigma, svn) /\
    coaxial sigma sp v /\ ordered_as l sp.
Proof.
  intros SV lapack mu alpha k F l v sv s HL HA HP K H.
  destruct (C60_ogden SV lapack mu alpha k F l v sv s HL (fun m a I => proj2 (HA m a I)) K H) as (sigma & svn & sp & p & E & C & _ & _ & P).
  exists sigma, svn, sp. split; [exact E|]. split; [exact C|]. intros a b L.
  assert (V : 0 < volume l) by (unfold volume; repeat apply Rmult_lt_0_compat; apply (proj1 H)).
  rewrite !P. apply Rmult_lt_compat_r; [apply Rinv_0_lt_compat, V|]. apply Rplus_lt_compat_r.
  assert (LY := seen_lt k l a b L). assert (PY := seen_pos k l (proj1 H) a).
  set (x := seen_stretches k l a) in *. set (z := seen_stretches k l b) in *. clearbody x z. clear - HA HP LY PY.
  revert HA HP. induction (combine mu alpha) as [|[m e] r IH]; intros HA (m0 & e0 & I0 & M0); [destruct I0|].
  cbn [fold_right fst snd]. destruct (HA m e (or_introl eq_refl)) as [M A].
  assert (T := ogden_term_le x z m e PY LY M A).
  assert (G : fold_right (fun t s => 2 * fst t / snd t * Rpower x (snd t) + s) 0 r <= fold_right (fun t s => 2 * fst t / snd t * Rpower z (snd t) + s) 0 r).
  { assert (HA' : forall m a, In (m, a) r -> 0 <= m /\ a <> 0) by (intros m' a' I'; apply HA; right; exact I').
    clear - HA' LY PY. induction r as [|[m' e'] r IH]; cbn [fold_right fst snd]; [lra|].
    destruct (HA' m' e' (or_introl eq_refl)) as [M A]. assert (T := ogden_term_le x z m' e' PY LY M A).
    assert (IH' := IH (fun m a I => HA' m a (or_intror I))). lra. }
  destruct I0 as [Q|I0].
  - injection Q as <- <-. assert (T' := ogden_term_lt x z m e PY LY M0 A). lra.
  - assert (IH' := IH (fun m a I => HA m a (or_intror I)) (ex_intro _ m0 (ex_intro _ e0 (conj I0 M0)))). lra.
Qed.
Print Assumptions C60_ordered_ogden.

(** ** The conditions can be met and are needed *)
Lemma axes_diag a b c : 0 < a -> 0 < b -> 0 < c -> principal_axes (dgm a b c) (vec3 a b c) one2.
Proof.
  intros A B C. split; [intros []; assumption|]. split.
  - intros i j. destruct i, j; unfold mmul, mtr, one2, delta, sum3; cbn; ring.
  - intros i j. destruct i, j; unfold mmul, mtr, one2, delta, dgm, sum3; cbn; ring.
Qed.
(** A simple shear (by 3/2): stretches 2, 1/2, 1. *)
Example C60_example : exists v, principal_axes (fun i j => match i, j with X0, X1 => 3 / 2 | _, _ => delta i j end) (vec3 2 (1 / 2) 1) v.
Proof.
  set (q := / sqrt 5). assert (Q : q * q = 1 / 5).
  { unfold q. rewrite <- Rinv_mult. rewrite sqrt_sqrt by lra. field. }
  exists (fun i j => match i, j with X0, X0 => 2 * q | X1, X0 => q | X0, X1 => - q | X1, X1 => 2 * q | X2, X2 => 1 | _, _ => 0 end).
  split; [intros []; cbn; lra|]. split; intros i j; destruct i, j; unfold mmul, mtr, one2, delta, sum3; cbn; nra.
Qed.
(** C10 = 1, C20 = -1 (Distortional): stretches 4 and 1/2, and the stress at 1/2 is the larger one. *)
Theorem C60_negative_parameter_refuted : exists F l v, principal_axes F l v /\ l X1 < l X0 /\
  forall s, exists sigma sp, outcome (sp_gradient KDistortional (invariants_fw (tod_model (tod_init 1 0 0 (-1) 0 false))) (opts Deformed Deformed) F tt) s = Ok (StressFull sigma, tt) /\
    coaxial sigma sp v /\ sp X0 < sp X1.
Proof.
  assert (A := axes_diag 4 (1 / 2) (1 / 2) ltac:(lra) ltac:(lra) ltac:(lra)).
  exists (dgm 4 (1 / 2) (1 / 2)), (vec3 4 (1 / 2) (1 / 2)), one2. split; [exact A|]. split; [cbn; lra|]. intro s.
  destruct (C60_third_order_deformation unit (tod_init 1 0 0 (-1) 0 false) KDistortional _ _ _ tt s ltac:(discriminate) A) as (sigma & [] & sp & p & E & C & _ & _ & P).
  exists sigma, sp. split; [exact E|]. split; [exact C|]. rewrite !P.
  assert (V : volume (vec3 4 (1 / 2) (1 / 2)) = 1) by (unfold volume; cbn; lra).
  assert (Y : seen_stretches KDistortional (vec3 4 (1 / 2) (1 / 2)) = vec3 4 (1 / 2) (1 / 2)).
  { apply Vec3_ext. intro a. unfold seen_stretches. rewrite V. unfold Rpower. rewrite ln_1, Rmult_0_r, exp_0. ring. }
  rewrite Y, V. unfold tod_W1, tod_W2, tod_init, I1_of, I2_of. cbn [C10 C01 C11 C20 C30 undeformed vec3]. lra.
Qed.
Print Assumptions C60_negative_parameter_refuted.
