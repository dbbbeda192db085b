(** Lemmas for C64. *)
From Coq Require Import Reals Lra Lia.
From Coquelicot Require Import Coquelicot.
From Verif Require Import Tensor Py Voigt Models Frameworks Spaces Spec Algebra Calc VoigtProofs
  VCalc InvCore ModelProofs SpaceCore PiolaProofs DistProofs SpaceProofs Counter PropInvariants PropSpaces EllSpec.
Local Open Scope R_scope.

Lemma acoustic_dc A m N : acoustic A m N = dc22 (dc42 A (rank_one m N)) (rank_one m N).
Proof. unfold acoustic, dc22, dc42, rank_one, sum3. ring. Qed.
Lemma line0 F G : line F G 0 = F.
Proof. apply T2_ext; intros i j. unfold line. ring. Qed.
Lemma line_D F G t : dcurve2 (line F G) t G.
Proof. intros i j. unfold line. auto_derive; [exact Logic.I|ring]. Qed.

(** det along a rank-one line is affine. *)
Definition cof (F : T2) : T2 := fun i j =>
  match i, j with
  | X0, X0 => F X1 X1 * F X2 X2 - F X1 X2 * F X2 X1 | X0, X1 => F X1 X2 * F X2 X0 - F X1 X0 * F X2 X2 | X0, X2 => F X1 X0 * F X2 X1 - F X1 X1 * F X2 X0
  | X1, X0 => F X2 X1 * F X0 X2 - F X2 X2 * F X0 X1 | X1, X1 => F X2 X2 * F X0 X0 - F X2 X0 * F X0 X2 | X1, X2 => F X2 X0 * F X0 X1 - F X2 X1 * F X0 X0
  | X2, X0 => F X0 X1 * F X1 X2 - F X0 X2 * F X1 X1 | X2, X1 => F X0 X2 * F X1 X0 - F X0 X0 * F X1 X2 | X2, X2 => F X0 X0 * F X1 X1 - F X0 X1 * F X1 X0
  end.
(** Its derivative in the direction G. *)
Definition dcof (F G : T2) : T2 := fun i j => cof (fun a b => F a b + G a b) i j - cof F i j - cof G i j.
Lemma det_line F m N t : det3 (line F (rank_one m N) t) = det3 F + t * dc22 (cof F) (rank_one m N).
Proof. unfold det3, line, rank_one, dc22, sum3, cof. ring. Qed.
Lemma inv1_line F m N t : inv1 (cauchy_green (line F (rank_one m N) t)) =
  inv1 (cauchy_green F) + 2 * dc22 F (rank_one m N) * t + dc22 (rank_one m N) (rank_one m N) * t ^ 2.
Proof. unfold inv1, tr2, cauchy_green, mmul, mtr, line, rank_one, dc22, sum3. ring. Qed.
Lemma inv2_cof F : inv2 (cauchy_green F) = dc22 (cof F) (cof F).
Proof. unfold inv2, tr2, cauchy_green, mmul, mtr, dc22, sum3, cof. field. Qed.
Lemma cof_line F m N t : cof (line F (rank_one m N) t) = line (cof F) (dcof F (rank_one m N)) t.
Proof. apply T2_ext; intros i j. unfold dcof, line, rank_one, cof. destruct i, j; ring. Qed.
Lemma inv2_line F m N t : inv2 (cauchy_green (line F (rank_one m N) t)) =
  inv2 (cauchy_green F) + 2 * dc22 (cof F) (dcof F (rank_one m N)) * t + dc22 (dcof F (rank_one m N)) (dcof F (rank_one m N)) * t ^ 2.
Proof. rewrite !inv2_cof, cof_line. unfold dc22, line, sum3. ring. Qed.
Lemma dc22_pos G i j : G i j <> 0 -> 0 < dc22 G G.
Proof.
  intro N. assert (0 < G i j * G i j) by (apply Rlt_0_sqr; exact N).
  unfold dc22, sum3. pose proof (Rle_0_sqr (G X0 X0)); pose proof (Rle_0_sqr (G X0 X1)); pose proof (Rle_0_sqr (G X0 X2)).
  pose proof (Rle_0_sqr (G X1 X0)); pose proof (Rle_0_sqr (G X1 X1)); pose proof (Rle_0_sqr (G X1 X2)).
  pose proof (Rle_0_sqr (G X2 X0)); pose proof (Rle_0_sqr (G X2 X1)); pose proof (Rle_0_sqr (G X2 X2)).
  unfold Rsqr in *. destruct i, j; lra.
Qed.
Lemma rank_one_pos m N : nonzero3 m -> nonzero3 N -> 0 < dc22 (rank_one m N) (rank_one m N).
Proof. intros [i Hi] [j Hj]. apply dc22_pos with i j. unfold rank_one. apply Rmult_integral_contrapositive; split; assumption. Qed.
Lemma dc22_nonneg G : 0 <= dc22 G G.
Proof.
  unfold dc22, sum3. pose proof (Rle_0_sqr (G X0 X0)); pose proof (Rle_0_sqr (G X0 X1)); pose proof (Rle_0_sqr (G X0 X2)).
  pose proof (Rle_0_sqr (G X1 X0)); pose proof (Rle_0_sqr (G X1 X1)); pose proof (Rle_0_sqr (G X1 X2)).
  pose proof (Rle_0_sqr (G X2 X0)); pose proof (Rle_0_sqr (G X2 X1)); pose proof (Rle_0_sqr (G X2 X2)). unfold Rsqr in *. lra.
Qed.
Lemma dc22_zero G : dc22 G G = 0 -> forall i j, G i j = 0.
Proof. intros E i j. destruct (Req_dec (G i j) 0) as [|N]; [assumption|]. pose proof (dc22_pos G i j N). lra. Qed.
(** Cauchy-Schwarz *)
Lemma dc22_cs F G : (dc22 F G) ^ 2 <= dc22 F F * dc22 G G.
Proof.
  destruct (Req_dec (dc22 G G) 0) as [Z|Z].
  - pose proof (dc22_zero G Z) as H. replace (dc22 F G) with 0; [rewrite Z; lra|]. unfold dc22, sum3. rewrite !H. ring.
  - pose proof (dc22_nonneg G). set (a := dc22 F G). set (g := dc22 G G) in *. set (f := dc22 F F).
    assert (0 <= dc22 (fun i j => g * F i j - a * G i j) (fun i j => g * F i j - a * G i j)) by apply dc22_nonneg.
    assert (E : dc22 (fun i j => g * F i j - a * G i j) (fun i j => g * F i j - a * G i j) = g * (g * f - a ^ 2)).
    { unfold f. transitivity (g ^ 2 * dc22 F F - 2 * g * a * dc22 F G + a ^ 2 * dc22 G G); [unfold dc22, sum3; ring|]. fold a g. ring. }
    rewrite E in H0. assert (0 < g) by lra. assert (0 <= g * f - a ^ 2); [|lra].
    apply Rmult_le_reg_l with g; [assumption|]. lra.
Qed.
(** The derivative of the cofactor in a rank-one direction vanishes only for singular F. *)
Lemma dcof_pos F m N : invertible F -> nonzero3 m -> nonzero3 N ->
  0 < dc22 (dcof F (rank_one m N)) (dcof F (rank_one m N)).
Proof.
  intros HF Hm HN. pose proof (dc22_nonneg (dcof F (rank_one m N))) as P.
  destruct (Req_dec (dc22 (dcof F (rank_one m N)) (dcof F (rank_one m N))) 0) as [Z|Z]; [exfalso|lra].
  pose proof (dc22_zero _ Z) as D. clear P Z.
  set (u := fun J => sum3 (fun i => cof F i J * m i)).
  set (be := dc22 (cof F) (rank_one m N)).
  (* (Dcof)^T F + cof^T (m x N) = (cof : m x N) 1 *)
  assert (E : forall I J, sum3 (fun i => dcof F (rank_one m N) i I * F i J) + u I * N J = if ix3_eqb I J then be else 0).
  { intros I J. unfold u, be, dc22, dcof, rank_one, sum3, cof. destruct I, J; cbn; ring. }
  assert (E' : forall I J, u I * N J = if ix3_eqb I J then be else 0).
  { intros I J. rewrite <- E. unfold sum3. rewrite !D. ring. }
  assert (U : forall I, u I = 0).
  { pose proof (E' X0 X0) as e00; pose proof (E' X0 X1) as e01; pose proof (E' X0 X2) as e02.
    pose proof (E' X1 X0) as e10; pose proof (E' X1 X1) as e11; pose proof (E' X1 X2) as e12.
    pose proof (E' X2 X0) as e20; pose proof (E' X2 X1) as e21; pose proof (E' X2 X2) as e22. cbn in *.
    assert (K : forall a b, a * b = 0 -> b <> 0 -> a = 0) by (intros a b H Nb; destruct (Rmult_integral _ _ H); [assumption|contradiction]).
    destruct HN as [[] Hj].
    - pose proof (K _ _ e10 Hj) as u1. pose proof (K _ _ e20 Hj) as u2. assert (be = 0) by (rewrite <- e11, u1; ring).
      assert (u X0 = 0) by (apply (K _ (N X0)); [lra|assumption]). intros []; assumption.
    - pose proof (K _ _ e01 Hj) as u0. pose proof (K _ _ e21 Hj) as u2. assert (be = 0) by (rewrite <- e00, u0; ring).
      assert (u X1 = 0) by (apply (K _ (N X1)); [lra|assumption]). intros []; assumption.
    - pose proof (K _ _ e02 Hj) as u0. pose proof (K _ _ e12 Hj) as u1. assert (be = 0) by (rewrite <- e00, u0; ring).
      assert (u X2 = 0) by (apply (K _ (N X2)); [lra|assumption]). intros []; assumption. }
  assert (M : forall i, det3 F * m i = 0).
  { intro i. transitivity (sum3 (fun J => F i J * u J)); [|unfold sum3; rewrite !U; ring].
    unfold u, det3, cof, sum3. destruct i; ring. }
  destruct Hm as [i Hi]. destruct (Rmult_integral _ _ (M i)); [apply HF|apply Hi]; assumption.
Qed.

(** ** The acoustic tensor is the second derivative of the energy along the line. *)
Section Second.
  Context {SV X : Type} (grad : T2 -> SV -> PY X (StressOut * SV)) (hess : T2 -> SV -> PY X ElastOut) (W : T2 -> R) (D1 D2 : T2 -> Prop).
  Context (HG : sp_gradient_of grad W D1) (HH : sp_hessian_of grad hess D2).
  Lemma second_D F : D2 F -> forall sv s, exists A, returns (hess F sv) s (ElastFull A) /\
    forall G, locally 0 (fun t => D1 (line F G t)) ->
    is_derive (Derive (fun t => W (line F G t))) 0 (dc22 (dc42 A G) G).
  Proof.
    intros L2 sv s.
    assert (HA0 : forall G, exists A, returns (hess F sv) s (ElastFull A) /\
      forall (svt : R -> SV) (st : R -> X) (P : R -> T2),
        locally 0 (fun t => exists svn, returns (grad (line F G t) (svt t)) (st t) (StressFull (P t), svn)) ->
        dcurve2 P 0 (dc42 A G)).
    { intro G. destruct (HH (line F G) 0 G (line_D F G 0)) with (sv := sv) (s := s) as (A & R1 & HA); [rewrite line0; exact L2|].
      rewrite line0 in R1. exists A. split; assumption. }
    destruct (HA0 F) as (A & R1 & _). exists A. split; [exact R1|].
    intros G L1. destruct (HA0 G) as (A' & R2 & HA).
    assert (A' = A) as ->. { destruct R1 as [x1 e1], R2 as [x2 e2]. rewrite e1 in e2. injection e2 as _ e2. symmetry. exact e2. }
    set (P := fun t => match outcome (grad (line F G t) sv) s with Ok (StressFull P, _) => P | _ => fun _ _ => 0 end).
    assert (LP : locally 0 (fun t => exists svn, returns (grad (line F G t) sv) s (StressFull (P t), svn))).
    { revert L1. apply filter_imp. intros t Ht. destruct (HG (line F G) t G (line_D F G t) Ht sv s) as (Q & svn & E & _).
      exists svn. assert (P t = Q) as ->; [|exact E]. unfold P, outcome. destruct E as [s' E]. rewrite E. reflexivity. }
    pose proof (HA (fun _ => sv) (fun _ => s) P LP) as HD. cbv beta in HD.
    assert (E1 : locally 0 (fun t => dc22 (P t) G = Derive (fun t => W (line F G t)) t)).
    { assert (L' := filter_and _ _ L1 LP). revert L'. apply filter_imp. intros t (Ht & (svn & Er)).
      destruct (HG (line F G) t G (line_D F G t) Ht sv s) as (Q & svn' & E & HQ).
      destruct E as [s1 E], Er as [s2 Er]. rewrite Er in E. injection E as _ E _. rewrite <- E in HQ.
      symmetry. apply is_derive_unique. exact HQ. }
    assert (E3 : is_derive (fun t => dc22 (P t) G) 0 (dc22 (dc42 A G) G)).
    { unfold dc22. refine (D_sum3 (fun t i => sum3 (fun j => P t i j * G i j)) 0 (fun i => sum3 (fun j => dc42 A G i j * G i j)) _). intro i.
      refine (D_sum3 (fun t j => P t i j * G i j) 0 (fun j => dc42 A G i j * G i j) _). intro j. exact (D_scalr (fun t => P t i j) _ _ _ (HD i j)). }
    exact (is_derive_ext_loc _ _ _ _ E1 E3).
  Qed.
  Lemma second F : D2 F -> forall sv s, exists A, returns (hess F sv) s (ElastFull A) /\
    forall G, locally 0 (fun t => D1 (line F G t)) ->
    forall w1 w2, locally 0 (fun t => is_derive (fun t => W (line F G t)) t (w1 t)) -> is_derive w1 0 w2 ->
      dc22 (dc42 A G) G = w2.
  Proof.
    intros L2 sv s. destruct (second_D F L2 sv s) as (A & R1 & H). exists A. split; [exact R1|]. intros G L1 w1 w2 L Hw.
    rewrite <- (is_derive_unique _ _ _ (H G L1)). apply is_derive_unique. refine (is_derive_ext_loc _ _ _ _ _ Hw).
    revert L. apply filter_imp. intros t Ht. symmetry. apply is_derive_unique. exact Ht.
  Qed.
End Second.

Lemma returns_unique {S0 A} (c : PY S0 A) s a b : returns c s a -> returns c s b -> a = b.
Proof. intros [x1 e1] [x2 e2]. rewrite e1 in e2. injection e2 as _ e2. exact e2. Qed.

Lemma line_inv F m N : invertible F -> locally 0 (fun t => invertible (line F (rank_one m N) t)).
Proof.
  intro HF. unfold invertible in *. set (be := dc22 (cof F) (rank_one m N)).
  assert (C : continuous (fun t => det3 F + t * be) 0).
  { apply (@ex_derive_continuous R_AbsRing R_NormedModule). auto_derive. exact Logic.I. }
  assert (L := C (fun y => y <> 0)). assert (L' : locally 0 (fun t => det3 F + t * be <> 0)).
  { apply L. rewrite Rmult_0_l, Rplus_0_r. apply (open_neq 0 _ HF). }
  revert L'. apply filter_imp. intros t Ht. rewrite det_line. exact Ht.
Qed.

(** ** ThirdOrderDeformation in the Deformation space: closed form. *)
Definition tod1 (c10 c11 c20 c30 u I1 I2 : R) : R := c10 + c11 * (I2 - u) + 2 * c20 * (I1 - u) + 3 * c30 * (I1 - u) ^ 2.
Definition tod11 (c20 c30 u I1 : R) : R := 2 * c20 + 6 * c30 * (I1 - u).
Lemma def_acoustic (SV : Type) c10 c01 c11 c20 c30 (strain : bool) F : let u := if strain then 0 else 3 in
  let fw := invariants_fw (tod_model (SV:=SV) (tod_init c10 c01 c11 c20 c30 strain)) in
  invertible F -> forall sv s, exists A, returns (def_hessian fw default_opts F sv) s (ElastFull A) /\
  forall m N, let G := rank_one m N in let D := dcof F G in
    let I1 := inv1 (cauchy_green F) in let I2 := inv2 (cauchy_green F) in
    acoustic A m N = tod1 c10 c11 c20 c30 u I1 I2 * (2 * dc22 G G) + (c01 + c11 * (I1 - u)) * (2 * dc22 D D)
      + tod11 c20 c30 u I1 * (2 * dc22 F G) ^ 2 + 2 * c11 * (2 * dc22 F G) * (2 * dc22 (cof F) D).
Proof.
  intros u fw HF sv s.
  destruct (second _ _ _ _ _ (C25_third_order_deformation SV c10 c01 c11 c20 c30 strain)
    (C26_third_order_deformation SV (tod_init c10 c01 c11 c20 c30 strain)) F HF sv s) as (A & R1 & HA).
  exists A. split; [exact R1|]. intros m N G D I1 I2. rewrite acoustic_dc.
  set (a := I1). set (b := dc22 F G). set (d := dc22 G G). set (e := I2). set (f := dc22 (cof F) D). set (g := dc22 D D).
  set (y := fun t : R => a + 2 * b * t + d * t ^ 2). set (z := fun t : R => e + 2 * f * t + g * t ^ 2).
  set (y1 := fun t : R => 2 * b + 2 * d * t). set (z1 := fun t : R => 2 * f + 2 * g * t).
  refine (HA G (line_inv F m N HF) (fun t => (c10 + c11 * (z t - u) + 2 * c20 * (y t - u) + 3 * c30 * (y t - u) ^ 2) * y1 t + (c01 + c11 * (y t - u)) * z1 t) _ _ _).
  - apply filter_forall. intro t.
    apply (is_derive_ext (fun t => c10 * (y t - u) + c01 * (z t - u) + c11 * ((y t - u) * (z t - u)) + c20 * (y t - u) ^ 2 + c30 * (y t - u) ^ 3)).
    + intro x. cbv zeta. unfold G. rewrite inv1_line, inv2_line. fold u G D I1 I2 a b d e f g. reflexivity.
    + unfold y, z, y1, z1. auto_derive; [exact Logic.I|]. ring.
  - unfold y, z, y1, z1, tod1, tod11. auto_derive; [exact Logic.I|]. ring.
Qed.

(** ** Distortional *)
Section Dist.
  Context (J be a b d : R) (HJ : J <> 0).
  Let p (t : R) : R := J + t * be.
  Let j (t : R) : R := Rpower (p t ^ 2) (-1/3).
  Let q (t : R) : R := a + 2 * b * t + d * t ^ 2.
  Definition dy (t : R) : R := j t * (- (2 / 3) * (be / p t) * q t + (2 * b + 2 * d * t)).
  Lemma near_p : locally 0 (fun t => p t <> 0).
  Proof.
    assert (C : continuous p 0). { apply (@ex_derive_continuous R_AbsRing R_NormedModule). unfold p. auto_derive. exact Logic.I. }
    apply (C (fun y => y <> 0)). unfold p. rewrite Rmult_0_l, Rplus_0_r. apply (open_neq 0 _ HJ).
  Qed.
  Lemma sq_pos x : x <> 0 -> 0 < x ^ 2.
  Proof. intro N. replace (x ^ 2) with (x * x) by ring. apply Rlt_0_sqr. exact N. Qed.
  Lemma j_D t : p t <> 0 -> is_derive j t (- (2 / 3) * (be / p t) * j t).
  Proof.
    intro N. pose proof (sq_pos _ N) as P. unfold j, Rpower. unfold p in *. auto_derive; [rewrite Rmult_1_r; replace ((J + t * be) * (J + t * be)) with ((J + t * be) ^ 2) by ring; exact P|].
    match goal with |- _ = _ * exp ?x => match goal with |- context [_ * exp ?y = _] => change (exp y) with (exp x) end; generalize (exp x) end. intro E. field. exact N.
  Qed.
  Lemma y_D t : p t <> 0 -> is_derive (fun t => j t * q t) t (dy t).
  Proof.
    intro N. refine (D_eq _ _ _ _ (D_mult j q t _ (2 * b + 2 * d * t) (j_D t N) _) _).
    - unfold q. auto_derive; [exact Logic.I|ring].
    - unfold dy. ring.
  Qed.
  Definition d2y : R := j 0 * (10 / 9 * (be / J) ^ 2 * a - 8 / 3 * (be / J) * b + 2 * d).
  Lemma p0 : p 0 = J.
  Proof. unfold p. ring. Qed.
  Lemma dy_D : is_derive dy 0 d2y.
  Proof.
    assert (N : p 0 <> 0) by (rewrite p0; exact HJ).
    refine (D_eq _ _ _ _ (D_mult j (fun t => - (2 / 3) * (be / p t) * q t + (2 * b + 2 * d * t)) 0 _ (- (2/3) * (- (be / J) ^ 2 * a + (be / J) * (2 * b)) + 2 * d) (j_D 0 N) _) _).
    - unfold p, q. auto_derive; [rewrite Rmult_0_l, Rplus_0_r; exact HJ|]. field. exact HJ.
    - unfold d2y. cbv beta. rewrite p0. generalize (j 0). intro E. unfold q. field. exact HJ.
  Qed.
  Lemma j_pos t : 0 < j t.
  Proof. unfold j, Rpower. apply exp_pos. Qed.
  (** b^2 <= a d makes it positive. *)
  Lemma d2y_pos : 0 < d -> 0 < a -> b ^ 2 <= a * d -> 0 < d2y.
  Proof.
    intros Hd Ha Hb. unfold d2y. apply Rmult_lt_0_compat; [apply j_pos|]. set (r := be / J).
    assert (S : 0 <= a * (r - 6 / 5 * (b / a)) ^ 2) by (apply Rmult_le_pos; [lra|apply pow2_ge_0]).
    assert (B : b ^ 2 / a <= d) by (apply Rle_div_l; lra).
    replace (10 / 9 * r ^ 2 * a - 8 / 3 * r * b + 2 * d) with (10 / 9 * (a * (r - 6 / 5 * (b / a)) ^ 2) - 8 / 5 * (b ^ 2 / a) + 2 * d); [nra|field; lra].
  Qed.
End Dist.

Lemma det_cg F : det3 (cauchy_green F) = det3 F ^ 2.
Proof. unfold det3, cauchy_green, mmul, mtr, sum3. ring. Qed.
Lemma inv1_scal x C : inv1 (mscal x C) = x * inv1 C.
Proof. unfold inv1, tr2, mscal, sum3. ring. Qed.
Lemma inv2_scal x C : inv2 (mscal x C) = x ^ 2 * inv2 C.
Proof. unfold inv2, tr2, mmul, mscal, sum3. field. Qed.
Lemma inv1_dist F : inv1 (distortional_part (cauchy_green F)) = Rpower (det3 F ^ 2) (-1/3) * inv1 (cauchy_green F).
Proof. unfold distortional_part. rewrite inv1_scal, det_cg. reflexivity. Qed.
Lemma inv2_dist F : inv2 (distortional_part (cauchy_green F)) = Rpower (det3 F ^ 2) (-1/3) ^ 2 * inv2 (cauchy_green F).
Proof. unfold distortional_part. rewrite inv2_scal, det_cg. reflexivity. Qed.
Lemma inv1_cg F : inv1 (cauchy_green F) = dc22 F F.
Proof. unfold inv1, tr2, cauchy_green, mmul, mtr, dc22, sum3. ring. Qed.
Lemma inv1_pos F : invertible F -> 0 < inv1 (cauchy_green F).
Proof.
  intro HF. rewrite inv1_cg. pose proof (dc22_nonneg F). destruct (Req_dec (dc22 F F) 0) as [Z|]; [|lra].
  exfalso. apply HF. pose proof (dc22_zero F Z) as E. unfold det3. rewrite !E. ring.
Qed.

Lemma dis_acoustic (SV : Type) c10 c20 c30 (strain : bool) F : let u := if strain then 0 else 3 in
  let fw := invariants_fw (tod_model (SV:=SV) (tod_init c10 0 0 c20 c30 strain)) in
  invertible F -> (forall sv s, significant fw KDistortional (asvoigt (cauchy_green F)) sv s) -> forall sv s, exists A, returns (dis_hessian fw default_opts F sv) s (ElastFull A) /\
  forall m N, let G := rank_one m N in let be := dc22 (cof F) G in
    let I1 := inv1 (cauchy_green F) in let b := dc22 F G in let d := dc22 G G in
    let y := inv1 (distortional_part (cauchy_green F)) in
    acoustic A m N = tod1 c10 0 c20 c30 u y 0 * d2y (det3 F) be I1 b d + tod11 c20 c30 u y * dy (det3 F) be I1 b d 0 ^ 2.
Proof.
  intros u fw HF Sg sv s.
  destruct (second _ _ _ _ _ (C30_third_order_deformation SV c10 0 0 c20 c30 strain)
    (distortional_hess fw _ invertible (C14_third_order_deformation SV c10 0 0 c20 c30 strain) (C15_third_order_deformation _ _)) F
    (conj HF (conj (dist_inv _ HF) Sg)) sv s) as (A & R1 & HA).
  exists A. split; [exact R1|]. intros m N G be I1 b d y0. rewrite acoustic_dc.
  set (y := fun t : R => Rpower ((det3 F + t * be) ^ 2) (-1/3) * (I1 + 2 * b * t + d * t ^ 2)).
  set (y1 := dy (det3 F) be I1 b d). set (y2 := d2y (det3 F) be I1 b d).
  assert (Y0 : y 0 = y0).
  { unfold y, y0. rewrite inv1_dist. fold I1. replace ((det3 F + 0 * be) ^ 2) with (det3 F ^ 2) by ring. ring. }
  assert (D0 : is_derive y 0 (y1 0)).
  { apply (y_D (det3 F) be I1 b d 0). rewrite Rmult_0_l, Rplus_0_r. exact HF. }
  refine (HA G (line_inv F m N HF) (fun t => tod1 c10 0 c20 c30 u (y t) 0 * y1 t) _ _ _).
  - generalize (near_p (det3 F) be HF). apply filter_imp. intros t Ht. cbv zeta.
    pose proof (y_D (det3 F) be I1 b d t Ht) as Dt. fold y y1 in Dt.
    apply (is_derive_ext (fun t => c10 * (y t - u) + c20 * (y t - u) ^ 2 + c30 * (y t - u) ^ 3)).
    + intro x. unfold G. rewrite inv1_dist, det_line, inv1_line. fold u G be I1 b d. unfold y. set (Y := Rpower _ _ * _). match goal with |- ?l = ?r => change (@eq R l r) end. ring.
    + assert (E : is_derive (fun t => (fun v => c10 * (v - u) + c20 * (v - u) ^ 2 + c30 * (v - u) ^ 3) (y t)) t (tod1 c10 0 c20 c30 u (y t) 0 * y1 t)); [|exact E].
      refine (D_eq _ _ _ _ (is_derive_comp (fun v : R => c10 * (v - u) + c20 * (v - u) ^ 2 + c30 * (v - u) ^ 3) y t _ _ _ Dt) _).
      * auto_derive; [exact Logic.I|reflexivity].
      * unfold scal; cbn. unfold mult; cbn. unfold tod1. ring.
  - refine (D_eq _ _ _ _ (D_mult (fun t => tod1 c10 0 c20 c30 u (y t) 0) y1 0 (tod11 c20 c30 u (y 0) * y1 0) _ _ (dy_D (det3 F) be I1 b d HF)) _).
    + refine (D_eq _ _ _ _ (is_derive_comp (fun v : R => tod1 c10 0 c20 c30 u v 0) y 0 _ _ _ D0) _).
      * unfold tod1. auto_derive; [exact Logic.I|reflexivity].
      * unfold scal; cbn. unfold mult; cbn. unfold tod11. ring.
    + rewrite Y0. fold y2. ring.
Qed.

(** ** What Invariants(ThirdOrderDeformation) returns, in closed form. *)
Definition G_tod (m : TOD) (C : Vec6) : Vec6 := fun v =>
  (C10 m + C11 m * (Jv C X1 - undeformed m) + 2 * C20 m * (Jv C X0 - undeformed m) + 3 * C30 m * (Jv C X0 - undeformed m) ^ 2) * dJv C X0 v
  + (C01 m + C11 m * (Jv C X0 - undeformed m)) * dJv C X1 v.
Definition H_tod (m : TOD) (C : Vec6) : Mat6 := fun v w =>
  (C10 m + C11 m * (Jv C X1 - undeformed m) + 2 * C20 m * (Jv C X0 - undeformed m) + 3 * C30 m * (Jv C X0 - undeformed m) ^ 2) * d2Jv C X0 v w
  + (C01 m + C11 m * (Jv C X0 - undeformed m)) * d2Jv C X1 v w
  + (2 * C20 m + 6 * C30 m * (Jv C X0 - undeformed m)) * dya (dJv C X0) (dJv C X0) v w
  + C11 m * (dya (dJv C X0) (dJv C X1) v w + dya (dJv C X1) (dJv C X0) v w).
Lemma tod_plain {SV} m C (sv : SV) s : let fw := invariants_fw (tod_model m) in
  outcome (fw_gradient fw C sv) s = Ok (G_tod m C, sv) /\ outcome (fw_hessian fw C sv) s = Ok (H_tod m C).
Proof.
  intro fw. destruct (tod_gradient_ok m (Jv C X0) (Jv C X1) (Jv C X2)) as (g & E & H1 & H2 & H3 & N1 & N2).
  assert (Eg : inv_call (tod_model m) (Jv C) sv = Ok (g, sv)) by (unfold inv_call; cbn [tod_model im_gradient]; rewrite E; reflexivity).
  set (h := tod_hessian m (Jv C X0) (Jv C X1) (Jv C X2)).
  assert (Eh : inv_callh (tod_model m) (Jv C) sv = Ok h) by reflexivity.
  split.
  - cbn [fw invariants_fw fw_gradient]. unfold outcome. rewrite (inv_gradient_ok _ _ _ _ _ s Eg). cbn [snd]. f_equal. f_equal.
    apply Vec6_ext; intro v. unfold gradv, sum3, G_tod. rewrite H1, H2, H3. cbn [val]. ring.
  - cbn [fw invariants_fw fw_hessian]. unfold outcome. rewrite (inv_hessian_eq _ _ _ _ _ _ s Eg Eh).
    assert (Z : forall c, nonzero c = false -> c = 0) by (intro c; unfold nonzero; destruct (Req_EM_T c 0); auto; discriminate).
    assert (Z' : forall c, nonzero c = true -> c <> 0) by (intro c; unfold nonzero; destruct (Req_EM_T c 0); auto; discriminate).
    assert (X : hess_exn g h = None).
    { unfold hess_exn, h, tod_hessian. destruct (o3 g X0) eqn:G0, (o3 g X1) eqn:G1; rewrite ?H3; cbn.
      all: destruct (nonzero (C20 m)) eqn:E20, (nonzero (C30 m)) eqn:E30, (nonzero (C11 m)) eqn:E11; cbn; try reflexivity; exfalso.
      all: try (destruct (proj1 N1 eq_refl) as (z0 & z1 & z2 & z3); first [exact (Z' _ E20 z2)|exact (Z' _ E30 z3)|exact (Z' _ E11 z1)]).
      all: try (destruct (proj1 N2 eq_refl) as (z0 & z1); exact (Z' _ E11 z1)). }
    rewrite X. replace (h V2) with (@None R) by reflexivity. cbn [isN snd]. f_equal.
    apply Mat6_ext; intros v w. unfold hessv, sum3, H_tod. rewrite H1, H2, H3. cbn [val pos].
    assert (h0 : val (h V0) = 2 * C20 m + 6 * C30 m * (Jv C X0 - undeformed m)).
    { unfold h, tod_hessian. destruct (nonzero (C20 m)) eqn:E20, (nonzero (C30 m)) eqn:E30; cbn [orb val]; try ring. rewrite (Z _ E20), (Z _ E30). ring. }
    assert (h3 : val (h V3) = C11 m).
    { unfold h, tod_hessian. destruct (nonzero (C11 m)) eqn:E11; cbn [val]; [reflexivity|]. rewrite (Z _ E11). reflexivity. }
    rewrite h0, h3. replace (h V1) with (@None R) by reflexivity. replace (h V2) with (@None R) by reflexivity. replace (h V4) with (@None R) by reflexivity. replace (h V5) with (@None R) by reflexivity. cbn [val]. ring.
Qed.

Lemma tod_dis_hess {SV} m F (sv : SV) s : let c := right_CG F in let g := G_tod m (seen KDistortional c) in
  outcome (dis_hessian (invariants_fw (tod_model m)) default_opts F sv) s =
  Ok (ElastFull (t4add (legs13 F (astensor4 (kC4 KDistortional c g (H_tod m (seen KDistortional c))))) (geo one2 (astensor (kS KDistortional c g))))).
Proof.
  intros c g. set (fw := invariants_fw (tod_model m)).
  assert (E1 : snd (fw_gradient fw (seen KDistortional c) sv (sp_mat s)) = Ok (g, sv)) by exact (proj1 (tod_plain m (seen KDistortional c) sv (sp_mat s))).
  destruct (fw_gradient fw (seen KDistortional c) sv (sp_mat s)) as [ms r] eqn:E. cbn in E1. subst r.
  change (dis_hessian fw) with (sp_hessian KDistortional fw). rewrite (sp_hessian_ok fw default_opts KDistortional F sv s _ _ ms E).
  assert (E2 : outcome (fw_hessian fw (seen KDistortional (right_CG F)) sv) ms = Ok (H_tod m (seen KDistortional c))) by exact (proj2 (tod_plain m (seen KDistortional c) sv ms)).
  rewrite E2, default_elast. reflexivity.
Qed.
(** Is the material tangent dropped (np.allclose)? *)
Definition dropped_at (m : TOD) (F : T2) : bool := let c := right_CG F in
  allclose0 (mscal6 (4 * Rpower (det c) (- 2 / 3)) (H_tod m (seen KDistortional c))).
Lemma yeoh_G c10 c20 c30 strain C : let m := tod_init c10 0 0 c20 c30 strain in
  G_tod m C = vscal (tod1 c10 0 c20 c30 (undeformed m) (trace C) 0) eye.
Proof. intro m. apply Vec6_ext; intro v. unfold G_tod, m, tod_init, tod1, vscal; cbn [C10 C01 C11 C20 C30 undeformed Jv dJv]. ring. Qed.
Lemma yeoh_H c10 c20 c30 strain C : let m := tod_init c10 0 0 c20 c30 strain in
  H_tod m C = mscal6 (tod11 c20 c30 (undeformed m) (trace C)) (dya eye eye).
Proof. intro m. apply Mat6_ext; intros v w. unfold H_tod, m, tod_init, tod11, mscal6; cbn [C10 C01 C11 C20 C30 undeformed Jv dJv d2Jv]. unfold mzero. ring. Qed.
Lemma trace_seen F : trace (seen KDistortional (right_CG F)) = inv1 (distortional_part (cauchy_green F)).
Proof.
  rewrite inv1_dist. cbn [seen]. rewrite det_right_CG. unfold trace, vscal, right_CG, asvoigt, inv1, tr2, cauchy_green, mmul, mtr, sum3. cbn. ring.
Qed.
Lemma zero_dropped m F : (forall v w, H_tod m (seen KDistortional (right_CG F)) v w = 0) -> dropped_at m F = true.
Proof. intro Z. unfold dropped_at. apply allclose_true. intros v w. unfold mscal6. rewrite Z, Rmult_0_r, Rabs_R0. pose proof (pow_lt 10 8 ltac:(lra)). apply Rlt_le, Rinv_0_lt_compat. assumption. Qed.
(** If it is dropped, the result is the one of Neo-Hooke with the current dW/dI1. *)
Lemma yeoh_dropped {SV} c10 c20 c30 strain F (sv : SV) s s' : let m := tod_init c10 0 0 c20 c30 strain in
  dropped_at m F = true ->
  let c := tod1 c10 0 c20 c30 (undeformed m) (inv1 (distortional_part (cauchy_green F))) 0 in
  outcome (dis_hessian (invariants_fw (tod_model m)) default_opts F sv) s =
  outcome (dis_hessian (invariants_fw (tod_model (tod_init c 0 0 0 0 strain))) default_opts F sv) s'.
Proof.
  intros m Dr c. rewrite !tod_dis_hess. cbv zeta.
  assert (EG : G_tod (tod_init c 0 0 0 0 strain) (seen KDistortional (right_CG F)) = G_tod m (seen KDistortional (right_CG F))).
  { unfold m. rewrite !yeoh_G, trace_seen. fold m. fold c. unfold tod1. f_equal. ring. }
  rewrite EG.
  assert (Z : dropped_at (tod_init c 0 0 0 0 strain) F = true).
  { apply zero_dropped. intros v w. rewrite yeoh_H. unfold mscal6, tod11. ring. }
  assert (EK : forall H, allclose0 (mscal6 (4 * Rpower (det (right_CG F)) (- 2 / 3)) H) = true ->
    kC4 KDistortional (right_CG F) (G_tod m (seen KDistortional (right_CG F))) H = kC4 KDistortional (right_CG F) (G_tod m (seen KDistortional (right_CG F))) mzero).
  { intros H E. unfold kC4. rewrite E. destruct (allclose0 (mscal6 _ mzero)) eqn:E0; [reflexivity|].
    exfalso. rewrite allclose_true in E0; [discriminate|]. intros v w. unfold mscal6, mzero. rewrite Rmult_0_r, Rabs_R0. pose proof (pow_lt 10 8 ltac:(lra)). apply Rlt_le, Rinv_0_lt_compat. assumption. }
  rewrite (EK _ Dr), (EK _ Z). reflexivity.
Qed.
Lemma yeoh_acoustic (SV : Type) c10 c20 c30 (strain : bool) F : let u := if strain then 0 else 3 in
  let m := tod_init c10 0 0 c20 c30 strain in
  let fw := invariants_fw (tod_model (SV:=SV) m) in
  invertible F -> forall sv s, exists A, returns (dis_hessian fw default_opts F sv) s (ElastFull A) /\
  forall p N, let G := rank_one p N in let be := dc22 (cof F) G in
    let I1 := inv1 (cauchy_green F) in let b := dc22 F G in let d := dc22 G G in
    let y := inv1 (distortional_part (cauchy_green F)) in
    acoustic A p N = tod1 c10 0 c20 c30 u y 0 * d2y (det3 F) be I1 b d +
      (if dropped_at m F then 0 else tod11 c20 c30 u y * dy (det3 F) be I1 b d 0 ^ 2).
Proof.
  intros u m fw HF sv s.
  assert (EC : asvoigt (cauchy_green F) = right_CG F).
  { rewrite <- right_CG_full. apply Vec6_ext; intro v. apply asvoigt_astensor. }
  destruct (dropped_at m F) eqn:Dr.
  - set (c := tod1 c10 0 c20 c30 u (inv1 (distortional_part (cauchy_green F))) 0).
    destruct (dis_acoustic SV c 0 0 strain F HF) with (sv := sv) (s := s) as (A & R1 & HA).
    { intros sv' s' H E. right. rewrite EC, (proj2 (tod_plain _ _ _ _)) in E. injection E as <-. intros v w. rewrite yeoh_H. unfold mscal6, tod11. ring. }
    exists A. split.
    + apply returns_outcome. refine (eq_trans (yeoh_dropped c10 c20 c30 strain F sv s s Dr) _). apply returns_outcome. exact R1.
    + intros p N G be I1 b d y. specialize (HA p N). cbv zeta in HA. rewrite HA. fold u G be I1 b d y c.
      change (tod1 c10 0 c20 c30 u y 0) with c. unfold tod1, tod11. ring.
  - destruct (dis_acoustic SV c10 c20 c30 strain F HF) with (sv := sv) (s := s) as (A & R1 & HA).
    { intros sv' s' H E. left. rewrite EC in E |- *. rewrite (proj2 (tod_plain _ _ _ _)) in E. injection E as <-. exact Dr. }
    exists A. split; [exact R1|]. intros p N G be I1 b d y. rewrite HA. reflexivity.
Qed.
