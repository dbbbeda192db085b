(** Eigenvalues of symmetric 3x3 tensors: Rayleigh quotients, perturbation, dependence on
    a parameter (no code modelled here). *)
From Coq Require Import Reals Lra Lia FunctionalExtensionality.
From Coquelicot Require Import Coquelicot.
From Verif Require Import Tensor Py Voigt VoigtProofs Algebra Calc.
Local Open Scope R_scope.

Lemma ix3_eqb_eq a b : ix3_eqb a b = true <-> a = b.
Proof. destruct a, b; cbn; split; congruence. Qed.
Lemma delta_same a : delta a a = 1. Proof. destruct a; reflexivity. Qed.
Lemma delta_diff a b : a <> b -> delta a b = 0.
Proof. destruct a, b; unfold delta; cbn; intros; congruence. Qed.

Lemma sum3_ext f g : (forall a, f a = g a) -> sum3 f = sum3 g.
Proof. intros H; unfold sum3; rewrite !H; reflexivity. Qed.

(** Coordinates with respect to the columns of v. *)
Definition coord (v : T2) (x : Vec3) (a : ix3) : R := sum3 (fun i => v i a * x i).
Definition column (v : T2) (a : ix3) : Vec3 := fun i => v i a.
Definition norm2 (x : Vec3) : R := sum3 (fun i => x i ^ 2).

Section Eig.
  Context (A : T2) (w : Vec3) (v : T2) (L : eig_legal A w v).
  Lemma eig_sym : sym2 A.
  Proof. intros i j. rewrite <- (eig_rebuild A w v L i j), <- (eig_rebuild A w v L j i). unfold sum3; ring. Qed.
  Lemma eig_norm x : norm2 x = sum3 (fun a => coord v x a ^ 2).
  Proof.
    transitivity (sum3 (fun i => sum3 (fun j => x i * x j * sum3 (fun a => v i a * v j a)))).
    - transitivity (sum3 (fun i => sum3 (fun j => x i * x j * delta i j))).
      + unfold norm2, sum3, delta; cbn; ring.
      + apply sum3_ext; intro i; apply sum3_ext; intro j. rewrite (eig_complete A w v L). reflexivity.
    - unfold coord, sum3; ring.
  Qed.
  Lemma eig_quad x : quad A x = sum3 (fun a => w a * coord v x a ^ 2).
  Proof.
    unfold quad. transitivity (sum3 (fun i => sum3 (fun j => x i * sum3 (fun a => w a * (v i a * v j a)) * x j))).
    - apply sum3_ext; intro i; apply sum3_ext; intro j. rewrite (eig_rebuild A w v L). reflexivity.
    - unfold coord, sum3; ring.
  Qed.
  Lemma eig_upper x : quad A x <= w X2 * norm2 x.
  Proof.
    rewrite eig_quad, eig_norm. destruct L as (_ & _ & H1 & H2). unfold sum3.
    pose proof (pow2_ge_0 (coord v x X0)); pose proof (pow2_ge_0 (coord v x X1)). nra.
  Qed.
  Lemma eig_lower x : w X0 * norm2 x <= quad A x.
  Proof.
    rewrite eig_quad, eig_norm. destruct L as (_ & _ & H1 & H2). unfold sum3.
    pose proof (pow2_ge_0 (coord v x X2)); pose proof (pow2_ge_0 (coord v x X1)). nra.
  Qed.
  Lemma column_norm a : norm2 (column v a) = 1.
  Proof. destruct L as (O & _). specialize (O a a). rewrite delta_same in O. rewrite <- O.
    unfold norm2, column, sum3; ring. Qed.
  Lemma column_quad a : quad A (column v a) = w a.
  Proof.
    unfold quad. transitivity (sum3 (fun i => v i a * sum3 (fun j => A i j * v j a))).
    { unfold column, sum3; ring. }
    destruct L as (O & E & _). unfold sum3 at 1. rewrite !E.
    specialize (O a a). rewrite delta_same in O. unfold sum3 in O. 
    transitivity (w a * (v X0 a * v X0 a + v X1 a * v X1 a + v X2 a * v X2 a)); [ring|rewrite O; ring].
  Qed.
  Lemma eig_trace : w X0 + w X1 + w X2 = tr2 A.
  Proof.
    unfold tr2, sum3. rewrite <- !(eig_rebuild A w v L). destruct L as (O & _).
    pose proof (O X0 X0) as O0; pose proof (O X1 X1) as O1; pose proof (O X2 X2) as O2.
    unfold sum3 in *; unfold delta in *; cbn in *.
    transitivity (w X0 * 1 + w X1 * 1 + w X2 * 1); [ring|]. rewrite <- O0 at 1. rewrite <- O1 at 1. rewrite <- O2 at 1. ring.
  Qed.
  Lemma eig_posdef : posdef A <-> forall a, 0 < w a.
  Proof.
    split.
    - intros P a. rewrite <- column_quad. apply P.
      destruct (Req_dec (v X0 a) 0) as [E0|]; [|exists X0; auto].
      destruct (Req_dec (v X1 a) 0) as [E1|]; [|exists X1; auto].
      exists X2. intros E2. pose proof (column_norm a) as N. unfold norm2, column, sum3 in N.
      unfold column in *. rewrite E0, E1, E2 in N. lra.
    - intros P x [i Hi]. apply Rlt_le_trans with (w X0 * norm2 x); [|apply eig_lower].
      apply Rmult_lt_0_compat; auto. unfold norm2, sum3.
      pose proof (pow2_ge_0 (x X0)); pose proof (pow2_ge_0 (x X1)); pose proof (pow2_ge_0 (x X2)).
      assert (0 < x i ^ 2) by (apply pow2_gt_0; auto). destruct i; lra.
  Qed.
  Lemma eig_root a : det3 (fun i j => A i j - w a * delta i j) = 0.
  Proof.
    assert (E : det3 (fun i j => A i j - w a * delta i j) * det3 v = 0).
    { transitivity (det3 (mmul (fun i j => A i j - w a * delta i j) v)).
      { unfold det3, mmul, sum3; ring. }
      assert (Z : forall i, mmul (fun i j => A i j - w a * delta i j) v i a = 0).
      { intro i. destruct L as (_ & E & _). specialize (E i a). unfold mmul.
        transitivity (sum3 (fun j => A i j * v j a) - w a * v i a); [|rewrite E; ring].
        destruct i; unfold sum3, delta; cbn; ring. }
      unfold det3. destruct a; rewrite !Z; ring. }
    apply Rmult_integral in E. destruct E as [E|E]; auto.
    pose proof (orthogonal_det v (eig_orth A w v L)) as D. rewrite E in D. lra.
  Qed.
End Eig.

(** Perturbation of the eigenvalues (Weyl). *)
Definition dist2 (A B : T2) : R := sum3 (fun i => sum3 (fun j => Rabs (A i j - B i j))).
Lemma dist2_ge A B i j : Rabs (A i j - B i j) <= dist2 A B.
Proof.
  unfold dist2, sum3. 
  pose proof (fun i j => Rabs_pos (A i j - B i j)) as P.
  pose proof (P X0 X0); pose proof (P X0 X1); pose proof (P X0 X2); pose proof (P X1 X0); pose proof (P X1 X1);
  pose proof (P X1 X2); pose proof (P X2 X0); pose proof (P X2 X1); pose proof (P X2 X2).
  destruct i, j; lra.
Qed.
Lemma dist2_pos A B : 0 <= dist2 A B.
Proof. eapply Rle_trans; [apply Rabs_pos|apply (dist2_ge A B X0 X0)]. Qed.
Lemma dist2_comm A B : dist2 A B = dist2 B A.
Proof. unfold dist2, sum3. rewrite (Rabs_minus_sym (A X0 X0)), (Rabs_minus_sym (A X0 X1)), (Rabs_minus_sym (A X0 X2)),
  (Rabs_minus_sym (A X1 X0)), (Rabs_minus_sym (A X1 X1)), (Rabs_minus_sym (A X1 X2)),
  (Rabs_minus_sym (A X2 X0)), (Rabs_minus_sym (A X2 X1)), (Rabs_minus_sym (A X2 X2)). ring. Qed.
Lemma unit_component x i : norm2 x = 1 -> Rabs (x i) <= 1.
Proof.
  intros N. apply Rabs_le. unfold norm2, sum3 in N.
  pose proof (pow2_ge_0 (x X0)); pose proof (pow2_ge_0 (x X1)); pose proof (pow2_ge_0 (x X2)).
  destruct i; nra.
Qed.
Lemma quad_dist A B x : norm2 x = 1 -> Rabs (quad A x - quad B x) <= 9 * dist2 A B.
Proof.
  intros N. replace (quad A x - quad B x) with (sum3 (fun i => sum3 (fun j => x i * x j * (A i j - B i j))))
    by (unfold quad, sum3; ring).
  assert (P : forall i j, Rabs (x i * x j * (A i j - B i j)) <= dist2 A B).
  { intros i j. rewrite !Rabs_mult. pose proof (unit_component x i N). pose proof (unit_component x j N).
    pose proof (Rabs_pos (x i)); pose proof (Rabs_pos (x j)); pose proof (Rabs_pos (A i j - B i j)).
    pose proof (dist2_ge A B i j).
    apply Rle_trans with (1 * Rabs (A i j - B i j)); [|lra]. apply Rmult_le_compat_r; auto.
    replace 1 with (1 * 1) by ring. apply Rmult_le_compat; auto. }
  apply Rle_trans with (sum3 (fun i => sum3 (fun j => Rabs (x i * x j * (A i j - B i j))))).
  - unfold sum3. repeat (eapply Rle_trans; [apply Rabs_triang|]; apply Rplus_le_compat); apply Rle_refl.
  - unfold sum3. 
    pose proof (P X0 X0); pose proof (P X0 X1); pose proof (P X0 X2); pose proof (P X1 X0); pose proof (P X1 X1);
    pose proof (P X1 X2); pose proof (P X2 X0); pose proof (P X2 X1); pose proof (P X2 X2). lra.
Qed.
Lemma trace_dist A B : Rabs (tr2 A - tr2 B) <= 3 * dist2 A B.
Proof.
  replace (tr2 A - tr2 B) with ((A X0 X0 - B X0 X0) + (A X1 X1 - B X1 X1) + (A X2 X2 - B X2 X2)) by (unfold tr2, sum3; ring).
  pose proof (dist2_ge A B X0 X0); pose proof (dist2_ge A B X1 X1); pose proof (dist2_ge A B X2 X2).
  eapply Rle_trans; [apply Rabs_triang|]. pose proof (Rabs_triang (A X0 X0 - B X0 X0) (A X1 X1 - B X1 X1)). lra.
Qed.
Lemma weyl_one A B w v w' v' : eig_legal A w v -> eig_legal B w' v' ->
  w X2 <= w' X2 + 9 * dist2 A B /\ w' X0 - 9 * dist2 A B <= w X0.
Proof.
  intros LA LB. split.
  - rewrite <- (column_quad A w v LA X2). pose proof (column_norm A w v LA X2) as N.
    pose proof (quad_dist A B _ N) as Q. pose proof (eig_upper B w' v' LB (column v X2)) as U. rewrite N in U.
    apply Rabs_le_between in Q. lra.
  - rewrite <- (column_quad A w v LA X0). pose proof (column_norm A w v LA X0) as N.
    pose proof (quad_dist A B _ N) as Q. pose proof (eig_lower B w' v' LB (column v X0)) as U. rewrite N in U.
    apply Rabs_le_between in Q. lra.
Qed.
Lemma weyl A B w v w' v' a : eig_legal A w v -> eig_legal B w' v' -> Rabs (w a - w' a) <= 21 * dist2 A B.
Proof.
  intros LA LB.
  destruct (weyl_one A B w v w' v' LA LB) as [H1 H2]. destruct (weyl_one B A w' v' w v LB LA) as [H3 H4].
  rewrite (dist2_comm B A) in H3, H4. pose proof (dist2_pos A B).
  pose proof (eig_trace A w v LA) as T1. pose proof (eig_trace B w' v' LB) as T2.
  pose proof (trace_dist A B) as T. rewrite <- T1, <- T2 in T. apply Rabs_le_between in T.
  apply Rabs_le. destruct a; lra.
Qed.
Lemma eig_unique A w v w' v' : eig_legal A w v -> eig_legal A w' v' -> w = w'.
Proof.
  intros L L'. apply Vec3_ext; intro a. pose proof (weyl A A w v w' v' a L L') as H.
  assert (Z : dist2 A A = 0) by (unfold dist2, sum3; rewrite !Rminus_eq_0, Rabs_R0; ring).
  rewrite Z, Rmult_0_r in H. apply Rabs_le_between in H. lra.
Qed.

(** *** Change of basis *)
Definition frame (v A : T2) : T2 := mmul (mmul (mtr v) A) v.
Lemma frame_legal A w v u : orthogonal u -> eig_legal A w v -> eig_legal (frame u A) w (mmul (mtr u) v).
Proof.
  intros O (H1 & H2 & H3). assert (U := orthogonal_right u O).
  assert (V : mmul (mtr v) v = one2) by (apply T2_ext; exact H1).
  split; [|split]; auto.
  - intros a b. change (mmul (mtr (mmul (mtr u) v)) (mmul (mtr u) v) a b = one2 a b).
    rewrite mtr_mmul, mtr_mtr, mmul_assoc, <- (mmul_assoc u), U, mmul_1_l, V. reflexivity.
  - intros i a. change (mmul (frame u A) (mmul (mtr u) v) i a = w a * mmul (mtr u) v i a).
    unfold frame. rewrite mmul_assoc, <- (mmul_assoc u), U, mmul_1_l, mmul_assoc.
    transitivity (sum3 (fun k => mtr u i k * mmul A v k a)); [reflexivity|].
    assert (E : forall k, mmul A v k a = w a * v k a) by (intro; apply H2).
    unfold sum3; rewrite !E. unfold mmul, sum3; ring.
Qed.
Lemma frame_diag A w v i j : eig_legal A w v -> frame v A i j = if ix3_eqb i j then w j else 0.
Proof.
  intros (H1 & H2 & H3). unfold frame. rewrite mmul_assoc.
  transitivity (sum3 (fun k => v k i * mmul A v k j)); [reflexivity|].
  assert (E : forall k, mmul A v k j = w j * v k j) by (intro; apply H2).
  transitivity (w j * sum3 (fun k => v k i * v k j)); [unfold sum3; rewrite !E; ring|].
  rewrite H1. unfold delta. destruct (ix3_eqb i j); ring.
Qed.
Lemma frame_D u C t0 dC : dcurve2 C t0 dC -> dcurve2 (fun t => frame u (C t)) t0 (frame u dC).
Proof. intros H i j. unfold frame, mmul, mtr. dsolve. reflexivity. Qed.
Lemma frame_quad v A a : frame v A a a = quad A (column v a).
Proof. unfold frame, quad, column, mmul, mtr, sum3; ring. Qed.
