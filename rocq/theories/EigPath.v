(** Eigenvalues and spectral projectors along a differentiable path of symmetric tensors,
    also where eigenvalues coalesce (no code modelled here). *)
From Coq Require Import Reals Lra Lia FunctionalExtensionality.
From Coquelicot Require Import Coquelicot.
From Verif Require Import Tensor Py Voigt VoigtProofs Algebra Calc EigCore ContR.
Local Open Scope R_scope.

(** Sum over the indices whose eigenvalue equals that of [a]. *)
Definition gsum (w : Vec3) (f : ix3 -> R) (a : ix3) : R :=
  sum3 (fun b => if Req_EM_T (w b) (w a) then f b else 0).

Lemma gsum_const (w K f g : ix3 -> R) :
  (forall a b, w a = w b -> K a = K b) -> (forall a, gsum w f a = gsum w g a) ->
  sum3 (fun a => K a * f a) = sum3 (fun a => K a * g a).
Proof.
  intros HK H. pose proof (HK X0 X1) as K01; pose proof (HK X0 X2) as K02; pose proof (HK X1 X2) as K12. clear HK.
  pose proof (H X0) as H0; pose proof (H X1) as H1; pose proof (H X2) as H2. clear H. unfold gsum, sum3 in *.
  destruct (Req_EM_T (w X0) (w X1)) as [E01|N01]; destruct (Req_EM_T (w X0) (w X2)) as [E02|N02];
  destruct (Req_EM_T (w X1) (w X2)) as [E12|N12]; try (exfalso; congruence);
  repeat match goal with
  | H : context [Req_EM_T ?a ?b] |- _ => destruct (Req_EM_T a b); try (exfalso; congruence)
  end.
  - rewrite <- (K01 E01), <- (K02 E02). replace (f X0) with (g X0 + g X1 + g X2 - f X1 - f X2) by lra. ring.
  - rewrite <- (K01 E01). replace (f X2) with (g X2) by lra. replace (f X0) with (g X0 + g X1 - f X1) by lra. ring.
  - rewrite <- (K02 E02). replace (f X1) with (g X1) by lra. replace (f X0) with (g X0 + g X2 - f X2) by lra. ring.
  - rewrite <- (K12 E12). replace (f X0) with (g X0) by lra. replace (f X1) with (g X1 + g X2 - f X2) by lra. ring.
  - replace (f X0) with (g X0) by lra. replace (f X1) with (g X1) by lra. replace (f X2) with (g X2) by lra. ring.
Qed.

Lemma weyl_cont (C : R -> T2) (w : R -> Vec3) (v : R -> T2) t0 :
  (forall i j, cont (fun t => C t i j) t0) -> (forall t, eig_legal (C t) (w t) (v t)) -> forall a, cont (fun t => w t a) t0.
Proof.
    intros K L a.
    apply cont_squeeze with (fun t => 21 * dist2 (C t) (C t0)).
    - unfold dist2. ksolve.
    - unfold dist2, sum3. rewrite !Rminus_eq_0, Rabs_R0. ring.
    - intro t. apply (weyl _ _ _ (v t) _ (v t0)); apply L.
Qed.


Section Path.
  Context (C : R -> T2) (t0 : R) (dC : T2) (HD : dcurve2 C t0 dC).
  Context (w : R -> Vec3) (v : R -> T2) (L : forall t, eig_legal (C t) (w t) (v t)).

  Lemma C_cont i j : cont (fun t => C t i j) t0.
  Proof. apply (cont_D _ _ (dC i j)). apply HD. Qed.
  Lemma w_cont a : cont (fun t => w t a) t0.
  Proof. apply weyl_cont with C v; auto. apply C_cont. Qed.

  Let A t := frame (v t0) (C t).
  Let dA := frame (v t0) dC.
  Let AD : dcurve2 A t0 dA.
  Proof. apply frame_D; auto. Qed.
  Let LA t : eig_legal (A t) (w t) (mmul (mtr (v t0)) (v t)).
  Proof. apply frame_legal; auto. apply (eig_orth _ _ _ (L t0)). Qed.
  Let A0 i j : A t0 i j = if ix3_eqb i j then w t0 j else 0.
  Proof. apply frame_diag, L. Qed.
  Let AK i j : cont (fun t => A t i j) t0.
  Proof. apply (cont_D _ _ (dA i j)). apply AD. Qed.

  (** A simple eigenvalue is differentiable. *)
  Lemma simple_D k i j : k <> i -> k <> j -> i <> j -> w t0 k <> w t0 i -> w t0 k <> w t0 j ->
    is_derive (fun t => w t k) t0 (dA k k).
  Proof.
    intros Nki Nkj Nij Di Dj. pose proof (w_cont k) as Kx.
    pose (D := fun t => (A t i i - w t k) * (A t j j - w t k) - A t i j ^ 2).
    assert (KD : cont D t0) by (unfold D; ksolve).
    assert (D0 : D t0 <> 0).
    { unfold D. rewrite !A0. assert (E : forall a, ix3_eqb a a = true) by (intros []; reflexivity). rewrite !E.
      replace (ix3_eqb i j) with false by (destruct i, j; try reflexivity; congruence).
      replace ((w t0 i - w t0 k) * (w t0 j - w t0 k) - 0 ^ 2) with ((w t0 i - w t0 k) * (w t0 j - w t0 k)) by ring.
      apply Rmult_integral_contrapositive_currified; lra. }
    assert (S : forall t, sym2 (A t)) by (intro t; apply (eig_sym _ _ _ (LA t))).
    pose (p := fun t => (A t k i * (A t j j - w t k) - A t k j * A t i j) / D t).
    pose (q := fun t => (A t k j * (A t i i - w t k) - A t k i * A t i j) / D t).
    assert (Kp : cont p t0) by (unfold p; ksolve; auto).
    assert (Kq : cont q t0) by (unfold q; ksolve; auto).
    assert (Zi : A t0 k i = 0) by (rewrite A0; destruct k, i; cbn; congruence).
    assert (Zj : A t0 k j = 0) by (rewrite A0; destruct k, j; cbn; congruence).
    assert (Zp : p t0 = 0) by (unfold p; rewrite Zi, Zj; unfold Rdiv; ring).
    assert (Zq : q t0 = 0) by (unfold q; rewrite Zi, Zj; unfold Rdiv; ring).
    assert (E : locally t0 (fun t => A t k k - (A t k i * p t + A t k j * q t) = w t k)).
    { eapply filter_imp; [|exact (cont_neq D t0 KD D0)]. cbn. intros t Ht.
      pose proof (eig_root _ _ _ (LA t) k) as Rt.
      assert (Id : det3 (fun i j => A t i j - w t k * delta i j) =
         (A t k k - w t k) * D t - (A t k i * (A t k i * (A t j j - w t k) - A t k j * A t i j)
                                  + A t k j * (A t k j * (A t i i - w t k) - A t k i * A t i j))).
      { unfold D, det3, delta. pose proof (S t X0 X1) as S1; pose proof (S t X0 X2) as S2; pose proof (S t X1 X2) as S3.
        destruct k, i, j; try congruence; cbn; rewrite ?S1, ?S2, ?S3; ring. }
      rewrite Rt in Id. unfold p, q.
      apply Rmult_eq_reg_r with (D t); auto. field_simplify; auto. lra. }
    apply (D_ext_loc _ _ _ _ E).
    eapply D_eq.
    - apply (D_minus (fun t => A t k k) (fun t => A t k i * p t + A t k j * q t)); [apply AD|].
      apply (D_plus (fun t => A t k i * p t) (fun t => A t k j * q t)); apply D_mult_cont; auto; apply AD.
    - rewrite Zp, Zq. ring.
  Qed.

  (** The sum of the other two. *)
  Lemma trace_D i j k : k <> i -> k <> j -> i <> j ->
    is_derive (fun t => w t k) t0 (dA k k) -> is_derive (fun t => w t i + w t j) t0 (dA i i + dA j j).
  Proof.
    intros N1 N2 N3 Dk.
    apply D_ext with (fun t => A t X0 X0 + A t X1 X1 + A t X2 X2 - w t k).
    - intro t. pose proof (eig_trace _ _ _ (LA t)) as T. unfold tr2, sum3 in T. rewrite <- T.
      destruct i, j, k; try congruence; ring.
    - pose proof (AD X0 X0); pose proof (AD X1 X1); pose proof (AD X2 X2). dsolve.
      destruct i, j, k; try congruence; ring.
  Qed.

  (** Two coalescing eigenvalues split like |t - t0| c(t). *)
  Lemma double_split i j k : k <> i -> k <> j -> i <> j -> (forall t, w t i <= w t j) ->
    w t0 i = w t0 j -> w t0 k <> w t0 i ->
    exists c, cont c t0 /\ forall t, w t j - w t i = 2 * (Rabs (t - t0) * c t).
  Proof.
    intros Nki Nkj Nij Hle Eij Nk.
    assert (Dk : is_derive (fun t => w t k) t0 (dA k k)) by (apply (simple_D k i j); auto; lra).
    pose proof (trace_D i j k Nki Nkj Nij Dk) as Ds.
    pose (s := fun t => (w t i + w t j) / 2).
    assert (Dsh : is_derive s t0 ((dA i i + dA j j) / 2)).
    { unfold s. apply (D_divc (fun t => w t i + w t j)). exact Ds. }
    pose (N := fun t => mmul (fun a b => A t a b - s t * delta a b) (fun a b => A t a b - w t k * delta a b)).
    assert (DN : forall a b, exists d, is_derive (fun t => N t a b) t0 d).
    { intros a b. eexists. unfold N, mmul. repeat dstep. }
    assert (N0 : forall a b, N t0 a b = 0).
    { intros a b. unfold N, mmul, sum3, s. rewrite !A0. rewrite <- Eij.
      replace ((w t0 i + w t0 i) / 2) with (w t0 i) by field.
      destruct i, j, k; try congruence; destruct a, b; unfold delta; cbn; rewrite <- ?Eij; ring. }
    assert (Sl : forall a b, exists n, cont n t0 /\ forall t, N t a b = (t - t0) * n t).
    { intros a b. destruct (DN a b) as [d Hd]. destruct (caratheodory _ t0 d Hd (N0 a b)) as (n & K & _ & E). eauto. }
    assert (Sl2 : forall a b, exists n, cont n t0 /\ forall t, N t a b ^ 2 = (t - t0) ^ 2 * n t).
    { intros a b. destruct (Sl a b) as (n & K & E). exists (fun t => n t ^ 2). split; [ksolve|]. intro t; rewrite E; ring. }
    assert (Q : exists n, cont n t0 /\ forall t, sum3 (fun a => sum3 (fun b => N t a b ^ 2)) = (t - t0) ^ 2 * n t).
    { destruct (Sl2 X0 X0) as (n00 & K00 & E00), (Sl2 X0 X1) as (n01 & K01 & E01), (Sl2 X0 X2) as (n02 & K02 & E02),
        (Sl2 X1 X0) as (n10 & K10 & E10), (Sl2 X1 X1) as (n11 & K11 & E11), (Sl2 X1 X2) as (n12 & K12 & E12),
        (Sl2 X2 X0) as (n20 & K20 & E20), (Sl2 X2 X1) as (n21 & K21 & E21), (Sl2 X2 X2) as (n22 & K22 & E22).
      exists (fun t => (n00 t + n01 t + n02 t) + (n10 t + n11 t + n12 t) + (n20 t + n21 t + n22 t)). split; [ksolve|].
      intro t. unfold sum3. rewrite E00, E01, E02, E10, E11, E12, E20, E21, E22. ring. }
    destruct Q as (n & Kn & En).
    (* in the eigenbasis *)
    assert (Fr : forall t, sum3 (fun a => sum3 (fun b => N t a b ^ 2)) =
       ((w t j - w t i) / 2) ^ 2 * ((w t i - w t k) ^ 2 + (w t j - w t k) ^ 2)).
    { intro t. set (u := mmul (mtr (v t0)) (v t)). assert (Lu := LA t). fold u in Lu.
      pose (f := fun a => (w t a - s t) * (w t a - w t k)).
      assert (EN : forall a b, N t a b = sum3 (fun c => f c * (u a c * u b c))).
      { intros a b. unfold N, mmul.
        transitivity (sum3 (fun m => sum3 (fun c => (w t c - s t) * (u a c * u m c)) * sum3 (fun c => (w t c - w t k) * (u m c * u b c)))).
        - apply sum3_ext; intro m. rewrite <- !(eig_rebuild _ _ _ Lu), <- !(eig_complete _ _ _ Lu). unfold sum3; ring.
        - transitivity (sum3 (fun c => sum3 (fun d => (w t c - s t) * (w t d - w t k) * u a c * u b d * sum3 (fun m => u m c * u m d)))).
          { unfold sum3; ring. }
          assert (O := proj1 Lu). 
          transitivity (sum3 (fun c => sum3 (fun d => (w t c - s t) * (w t d - w t k) * u a c * u b d * delta c d))).
          { apply sum3_ext; intro c; apply sum3_ext; intro d. rewrite O. reflexivity. }
          unfold f, sum3, delta; cbn; ring. }
      transitivity (sum3 (fun c => f c ^ 2)).
      - transitivity (sum3 (fun c => sum3 (fun d => f c * f d * (sum3 (fun a => u a c * u a d)) ^ 2))).
        + unfold sum3 at 1 2 3 4. rewrite !EN. unfold sum3; ring.
        + assert (O := proj1 Lu). transitivity (sum3 (fun c => sum3 (fun d => f c * f d * (delta c d) ^ 2))).
          { apply sum3_ext; intro c; apply sum3_ext; intro d. rewrite O. reflexivity. }
          unfold sum3, delta; cbn; ring.
      - assert (Fi : f i = - ((w t j - w t i) / 2) * (w t i - w t k)) by (unfold f, s; field).
        assert (Fj : f j = (w t j - w t i) / 2 * (w t j - w t k)) by (unfold f, s; field).
        assert (Fk : f k = 0) by (unfold f; ring).
        transitivity (f i ^ 2 + f j ^ 2 + f k ^ 2).
        + destruct i, j, k; try congruence; unfold sum3; ring.
        + rewrite Fi, Fj, Fk. ring. }
    pose (D := fun t => (w t i - w t k) ^ 2 + (w t j - w t k) ^ 2).
    pose proof w_cont as Kw.
    assert (KD : cont D t0) by (unfold D; ksolve).
    assert (Dp : 0 < D t0).
    { unfold D. rewrite <- Eij. assert (0 < (w t0 i - w t0 k) ^ 2) by (apply pow2_gt_0; lra). lra. }
    (* c is defined by the quotient away from t0 and by continuity at t0 *)
    assert (n0 : 0 <= n t0).
    { destruct (Rle_dec 0 (n t0)) as [|X]; auto. exfalso.
      assert (Hneg : locally t0 (fun t => 0 < - n t)).
      { apply (cont_gt (fun t => - n t) t0 0); [ksolve|lra]. }
      destruct Hneg as [d Hd]. specialize (Hd (t0 + d / 2)).
      assert (B : ball t0 d (t0 + d / 2)).
      { change (Rabs (t0 + d / 2 - t0) < d). replace (t0 + d / 2 - t0) with (d / 2) by lra. rewrite Rabs_pos_eq; destruct d; cbn; lra. }
      specialize (Hd B). specialize (En (t0 + d / 2)). rewrite Fr in En.
      replace (t0 + d / 2 - t0) with (d / 2) in En by lra.
      assert (0 < (d / 2) ^ 2) by (apply pow2_gt_0; destruct d; cbn; lra).
      assert (0 <= ((w (t0 + d / 2) j - w (t0 + d / 2) i) / 2) ^ 2 *
        ((w (t0 + d / 2) i - w (t0 + d / 2) k) ^ 2 + (w (t0 + d / 2) j - w (t0 + d / 2) k) ^ 2)).
      { apply Rmult_le_pos; [apply pow2_ge_0|]. apply Rplus_le_le_0_compat; apply pow2_ge_0. }
      nra. }
    pose (c0 := fun t => sqrt (n t / D t)).
    assert (Kc0 : cont c0 t0).
    { unfold c0. apply (cont_sqrt (fun t => n t / D t)); [apply (cont_div n D); auto; lra|].
      apply Rmult_le_pos; auto. left. apply Rinv_0_lt_compat; auto. }
    exists (fun t => if Req_EM_T t t0 then c0 t0 else (w t j - w t i) / 2 / Rabs (t - t0)). split.
    - apply cont_ext_loc with c0; auto.
      eapply filter_imp; [|exact (cont_gt D t0 0 KD Dp)]. cbn. intros t Ht.
      destruct (Req_EM_T t t0) as [->|Ne]; auto.
      assert (Ab : 0 < Rabs (t - t0)) by (apply Rabs_pos_lt; lra).
      apply Rsqr_inj.
      + apply sqrt_pos.
      + apply Rmult_le_pos; [specialize (Hle t); lra|left; apply Rinv_0_lt_compat; auto].
      + unfold c0. specialize (En t). rewrite Fr in En. fold (D t) in En.
        assert (En' : n t / D t = ((w t j - w t i) / 2 / Rabs (t - t0)) ^ 2).
        { replace (((w t j - w t i) / 2 / Rabs (t - t0)) ^ 2) with (((w t j - w t i) / 2) ^ 2 / (Rabs (t - t0) ^ 2)) by (field; lra).
          rewrite pow2_abs.
          set (x := (w t j - w t i) / 2) in *. clearbody x. set (y := D t) in *. clearbody y.
          assert (y0 : (t - t0) <> 0) by lra.
          replace (n t) with (x ^ 2 * y / (t - t0) ^ 2).
          - field. lra.
          - rewrite En. field. auto. }
        rewrite En'. unfold Rsqr. rewrite sqrt_sqrt; [ring|apply pow2_ge_0].
    - intro t. destruct (Req_EM_T t t0) as [->|Ne].
      + rewrite Rminus_eq_0, Rabs_R0, Eij. ring.
      + field. apply Rabs_no_R0. lra.
  Qed.
End Path.

Definition rev3 (a : ix3) : ix3 := match a with X0 => X2 | X1 => X1 | X2 => X0 end.

Section Sides.
  Context (C : R -> T2) (t0 : R) (dC : T2) (HD : dcurve2 C t0 dC).
  Context (w : R -> Vec3) (v : R -> T2) (L : forall t, eig_legal (C t) (w t) (v t)).
  Context (eigw : T2 -> Vec3) (eigv : T2 -> T2) (LL : forall A, sym2 A -> eig_legal A (eigw A) (eigv A)).

  Lemma dC_sym : sym2 dC.
  Proof.
    intros i j. apply (D_unique (fun t => C t i j) t0); [apply HD|].
    apply D_ext with (fun t => C t j i); [|apply HD]. intro t. apply (eig_sym _ _ _ (L t)).
  Qed.

  Lemma triple a : (forall b, w t0 b = a) ->
    exists mu : R -> Vec3, (forall b, cont (fun t => mu t b) t0) /\
      mu t0 X0 + mu t0 X1 + mu t0 X2 = tr2 dC /\
      (forall t, t0 <= t -> forall b, w t b = a + (t - t0) * mu t b) /\
      (forall t, t <= t0 -> forall b, w t b = a + (t - t0) * mu t (rev3 b)).
  Proof.
    intros Ha.
    assert (C0 : forall i j, C t0 i j = a * delta i j).
    { intros i j. rewrite <- (eig_rebuild _ _ _ (L t0)), <- (eig_complete _ _ _ (L t0)). unfold sum3; rewrite !Ha; ring. }
    pose (B := fun t i j => if Req_EM_T t t0 then dC i j else (C t i j - C t0 i j) / (t - t0)).
    assert (BE : forall t i j, C t i j = a * delta i j + (t - t0) * B t i j).
    { intros t i j. unfold B. destruct (Req_EM_T t t0) as [->|N]; rewrite ?C0; [ring|field; lra]. }
    assert (B0 : B t0 = dC).
    { unfold B. destruct (Req_EM_T t0 t0); [reflexivity|contradiction]. }
    assert (Bs : forall t, sym2 (B t)).
    { intros t i j. unfold B. destruct (Req_EM_T t t0); [apply dC_sym|].
      rewrite (eig_sym _ _ _ (L t) i j), (eig_sym _ _ _ (L t0) i j). reflexivity. }
    assert (BK : forall i j, cont (fun t => B t i j) t0).
    { intros i j. destruct (caratheodory (fun t => C t i j - C t0 i j) t0 (dC i j)) as (n & K & E0 & E).
      - eapply D_eq; [apply (D_minus (fun t => C t i j) (fun _ => C t0 i j)); [apply HD|exact (D_const _ _)]|ring].
      - ring.
      - apply cont_ext with n; auto. intro t. unfold B. destruct (Req_EM_T t t0) as [->|N]; auto.
        rewrite E. field. lra. }
    exists (fun t => eigw (B t)).
    assert (LB : forall t, eig_legal (B t) (eigw (B t)) (eigv (B t))) by (intro t; apply LL, Bs).
    split; [|split; [|split]].
    - apply weyl_cont with B (fun t => eigv (B t)); auto.
    - rewrite (eig_trace _ _ _ (LB t0)), B0. reflexivity.
    - intros t Ht.
      assert (LC : eig_legal (C t) (fun b => a + (t - t0) * eigw (B t) b) (eigv (B t))).
      { destruct (LB t) as (O & E & S). split; [exact O|split].
        - intros i b. transitivity (a * sum3 (fun j => delta i j * eigv (B t) j b) + (t - t0) * sum3 (fun j => B t i j * eigv (B t) j b)).
          { unfold sum3; rewrite !BE; ring. }
          rewrite E. destruct i; unfold sum3, delta; cbn; ring.
        - destruct S; split; apply Rplus_le_compat_l; apply Rmult_le_compat_l; auto; lra. }
      intro b. rewrite (eig_unique _ _ _ _ _ (L t) LC). reflexivity.
    - intros t Ht.
      assert (LC : eig_legal (C t) (fun b => a + (t - t0) * eigw (B t) (rev3 b)) (fun i b => eigv (B t) i (rev3 b))).
      { destruct (LB t) as (O & E & S). split; [|split].
        - intros b c. rewrite O. destruct b, c; reflexivity.
        - intros i b. transitivity (a * sum3 (fun j => delta i j * eigv (B t) j (rev3 b)) + (t - t0) * sum3 (fun j => B t i j * eigv (B t) j (rev3 b))).
          { unfold sum3; rewrite !BE; ring. }
          rewrite E. destruct i; unfold sum3, delta; cbn; ring.
        - destruct S. cbn. split; apply Rplus_le_compat_l; apply Rmult_le_compat_neg_l; auto; lra. }
      intro b. rewrite (eig_unique _ _ _ _ _ (L t) LC). reflexivity.
  Qed.

  (** From each side the sorted eigenvalues are given by a differentiable curve; the sums of
      its derivatives over groups of equal eigenvalues are those of the diagonal of dC in
      the eigenbasis. *)
  Definition sides (p m : R -> Vec3) (dp dm : Vec3) : Prop :=
    dcurve3 p t0 dp /\ dcurve3 m t0 dm /\
    (forall t, t0 <= t -> w t = p t) /\ (forall t, t <= t0 -> w t = m t) /\
    (forall a, gsum (w t0) dp a = gsum (w t0) (fun b => frame (v t0) dC b b) a) /\
    (forall a, gsum (w t0) dm a = gsum (w t0) (fun b => frame (v t0) dC b b) a).

  Lemma sides_distinct : w t0 X0 <> w t0 X1 -> w t0 X0 <> w t0 X2 -> w t0 X1 <> w t0 X2 ->
    exists p m dp dm, sides p m dp dm.
  Proof.
    intros N1 N2 N3.
    assert (D : dcurve3 w t0 (fun b => frame (v t0) dC b b)).
    { intro a. destruct a.
      - apply (simple_D C t0 dC HD w v L X0 X1 X2); auto; discriminate.
      - apply (simple_D C t0 dC HD w v L X1 X0 X2); auto; discriminate.
      - apply (simple_D C t0 dC HD w v L X2 X0 X1); auto; discriminate. }
    exists w, w, (fun b => frame (v t0) dC b b), (fun b => frame (v t0) dC b b).
    split; [exact D|split; [exact D|split; [auto|split; [auto|split; auto]]]].
  Qed.
  Lemma sides_double i j k : k <> i -> k <> j -> i <> j -> (forall t, w t i <= w t j) ->
    w t0 i = w t0 j -> w t0 k <> w t0 i -> exists p m dp dm, sides p m dp dm.
  Proof.
    intros Nki Nkj Nij Hle Eij Nk.
    assert (Dk : is_derive (fun t => w t k) t0 (frame (v t0) dC k k)) by (apply (simple_D C t0 dC HD w v L k i j); auto; lra).
    pose proof (trace_D C t0 dC HD w v L i j k Nki Nkj Nij Dk) as Ds.
    destruct (double_split C t0 dC HD w v L i j k Nki Nkj Nij Hle Eij Nk) as (c & Kc & Ec).
    pose proof (D_slope c t0 Kc) as Dc.
    pose (s := fun t => (w t i + w t j) / 2). pose (ds := (frame (v t0) dC i i + frame (v t0) dC j j) / 2).
    assert (Dsh : is_derive s t0 ds) by (apply (D_divc (fun t => w t i + w t j)); exact Ds).
    pose (cv := fun (sg : R) t b => if ix3_eqb b i then s t - sg * ((t - t0) * c t) else if ix3_eqb b j then s t + sg * ((t - t0) * c t) else w t k).
    pose (dv := fun (sg : R) b => if ix3_eqb b i then ds - sg * c t0 else if ix3_eqb b j then ds + sg * c t0 else frame (v t0) dC k k).
    assert (Ii : ix3_eqb i i = true) by (destruct i; reflexivity).
    assert (Ij : ix3_eqb j j = true) by (destruct j; reflexivity).
    assert (Iji : ix3_eqb j i = false) by (destruct i, j; try reflexivity; congruence).
    assert (Iki : ix3_eqb k i = false) by (destruct i, k; try reflexivity; congruence).
    assert (Ikj : ix3_eqb k j = false) by (destruct k, j; try reflexivity; congruence).
    assert (cases : forall b, b = i \/ b = j \/ b = k) by (intro b; destruct b, i, j, k; try congruence; auto).
    assert (DV : forall sg, dcurve3 (cv sg) t0 (dv sg)).
    { intros sg b. unfold cv, dv. destruct (cases b) as [->|[->| ->]]; rewrite ?Ii, ?Iji, ?Ij, ?Iki, ?Ikj.
      - apply (D_minus s (fun t => sg * ((t - t0) * c t))); auto. apply (D_scal (fun t => (t - t0) * c t)); auto.
      - apply (D_plus s (fun t => sg * ((t - t0) * c t))); auto. apply (D_scal (fun t => (t - t0) * c t)); auto.
      - exact Dk. }
    assert (EQ : forall sg t, Rabs (t - t0) = sg * (t - t0) -> w t = cv sg t).
    { intros sg t Ha. apply Vec3_ext; intro b. specialize (Ec t). rewrite Ha in Ec. unfold cv, s.
      destruct (cases b) as [->|[->| ->]]; rewrite ?Ii, ?Iji, ?Ij, ?Iki, ?Ikj; lra. }
    assert (GS : forall sg a, gsum (w t0) (dv sg) a = gsum (w t0) (fun b => frame (v t0) dC b b) a).
    { intros sg a.
      assert (Sm : forall f, gsum (w t0) f a = (if Req_EM_T (w t0 i) (w t0 a) then f i else 0) + (if Req_EM_T (w t0 j) (w t0 a) then f j else 0) + (if Req_EM_T (w t0 k) (w t0 a) then f k else 0)).
      { intro f. unfold gsum, sum3. destruct i, j, k; try congruence; ring. }
      rewrite !Sm. unfold dv. rewrite ?Ii, ?Iji, ?Ij, ?Iki, ?Ikj. rewrite <- Eij.
      destruct (Req_EM_T (w t0 i) (w t0 a)), (Req_EM_T (w t0 k) (w t0 a)); unfold ds; lra. }
    exists (cv 1), (cv (-1)), (dv 1), (dv (-1)). split; [apply DV|split; [apply DV|split; [|split; [|split; apply GS]]]].
    - intros t Ht. apply EQ. rewrite Rabs_pos_eq; lra.
    - intros t Ht. apply EQ. rewrite Rabs_left1; lra.
  Qed.
  Lemma sides_triple : w t0 X0 = w t0 X1 -> w t0 X1 = w t0 X2 -> exists p m dp dm, sides p m dp dm.
  Proof.
    intros E1 E2. set (a := w t0 X0).
    destruct (triple a) as (mu & K & T & Rt & Lt).
    { intros []; unfold a; congruence. }
    exists (fun t b => a + (t - t0) * mu t b), (fun t b => a + (t - t0) * mu t (rev3 b)), (mu t0), (fun b => mu t0 (rev3 b)).
    assert (DD : forall f, cont f t0 -> is_derive (fun t => a + (t - t0) * f t) t0 (f t0)).
    { intros f Kf. eapply D_eq; [apply (D_plus (fun _ => a) (fun t => (t - t0) * f t)); [exact (D_const _ _)|apply D_slope; auto]|ring]. }
    assert (FT : frame (v t0) dC X0 X0 + frame (v t0) dC X1 X1 + frame (v t0) dC X2 X2 = tr2 dC).
    { transitivity (tr2 (frame (v t0) dC)); [reflexivity|]. unfold frame. rewrite tr2_mmul, <- mmul_assoc.
      rewrite (orthogonal_right _ (eig_orth _ _ _ (L t0))), mmul_1_l. reflexivity. }
    assert (AE : forall x y, Req_EM_T (w t0 x) (w t0 y) = Req_EM_T (w t0 x) (w t0 y)) by auto.
    assert (GS : forall f : ix3 -> R, forall x, gsum (w t0) f x = f X0 + f X1 + f X2).
    { intros f x. unfold gsum, sum3. destruct (Req_EM_T (w t0 X0) (w t0 x)), (Req_EM_T (w t0 X1) (w t0 x)), (Req_EM_T (w t0 X2) (w t0 x));
       try reflexivity; exfalso; destruct x; congruence. }
    split; [|split; [|split; [|split; [|split]]]].
    - intro b. apply (DD (fun t => mu t b)), K.
    - intro b. apply (DD (fun t => mu t (rev3 b))), K.
    - intros t Ht. apply Vec3_ext; intro b. apply Rt; auto.
    - intros t Ht. apply Vec3_ext; intro b. apply Lt; auto.
    - intro x. rewrite !GS, FT. exact T.
    - intro x. rewrite !GS, FT. cbn. lra.
  Qed.
  Lemma eig_sides : exists p m dp dm, sides p m dp dm.
  Proof.
    assert (S : forall t, w t X0 <= w t X1 /\ w t X1 <= w t X2) by (intro t; destruct (L t) as (_ & _ & H); tauto).
    destruct (Req_EM_T (w t0 X0) (w t0 X1)) as [E1|N1]; destruct (Req_EM_T (w t0 X1) (w t0 X2)) as [E2|N2].
    - apply sides_triple; auto.
    - apply (sides_double X0 X1 X2); try discriminate; auto; [intro; apply S|congruence].
    - apply (sides_double X1 X2 X0); try discriminate; auto; intro; apply S.
    - apply sides_distinct; auto. destruct (S t0). lra.
  Qed.

  (** *** Spectral projectors *)
  Lemma simple_proj t k i j p q : k <> i -> k <> j -> i <> j -> w t k <> w t i -> w t k <> w t j ->
    v t p k * v t q k = mmul (fun a b => C t a b - w t i * delta a b) (fun a b => C t a b - w t j * delta a b) p q
                        / ((w t k - w t i) * (w t k - w t j)).
  Proof.
    intros Nki Nkj Nij Di Dj.
    assert (EN : mmul (fun a b => C t a b - w t i * delta a b) (fun a b => C t a b - w t j * delta a b) p q
       = sum3 (fun c => (w t c - w t i) * (w t c - w t j) * (v t p c * v t q c))).
    { unfold mmul.
      transitivity (sum3 (fun m => sum3 (fun c => (w t c - w t i) * (v t p c * v t m c)) * sum3 (fun c => (w t c - w t j) * (v t m c * v t q c)))).
      - apply sum3_ext; intro m. rewrite <- !(eig_rebuild _ _ _ (L t)), <- !(eig_complete _ _ _ (L t)). unfold sum3; ring.
      - transitivity (sum3 (fun c => sum3 (fun d => (w t c - w t i) * (w t d - w t j) * v t p c * v t q d * sum3 (fun m => v t m c * v t m d)))).
        { unfold sum3; ring. }
        transitivity (sum3 (fun c => sum3 (fun d => (w t c - w t i) * (w t d - w t j) * v t p c * v t q d * delta c d))).
        { apply sum3_ext; intro c; apply sum3_ext; intro d. rewrite (proj1 (L t)). reflexivity. }
        unfold sum3, delta; cbn; ring. }
    rewrite EN.
    replace (sum3 (fun c => (w t c - w t i) * (w t c - w t j) * (v t p c * v t q c)))
      with ((w t k - w t i) * (w t k - w t j) * (v t p k * v t q k)).
    - field. lra.
    - destruct i, j, k; try congruence; unfold sum3; ring.
  Qed.
  Let Kw := w_cont C t0 dC HD w v L.
  Let KC := C_cont C t0 dC HD.
  Lemma simple_proj_cont k i j p q : k <> i -> k <> j -> i <> j -> w t0 k <> w t0 i -> w t0 k <> w t0 j ->
    cont (fun t => v t p k * v t q k) t0.
  Proof.
    intros Nki Nkj Nij Di Dj.
    apply cont_ext_loc with (fun t => mmul (fun a b => C t a b - w t i * delta a b) (fun a b => C t a b - w t j * delta a b) p q
                        / ((w t k - w t i) * (w t k - w t j))).
    - assert (K1 : cont (fun t => w t k - w t i) t0) by ksolve. assert (K2 : cont (fun t => w t k - w t j) t0) by ksolve.
      assert (F1 := cont_neq _ t0 K1 ltac:(cbn; lra)). assert (F2 := cont_neq _ t0 K2 ltac:(cbn; lra)).
      generalize (filter_and _ _ F1 F2). apply filter_imp. cbn. intros t [H1 H2]. symmetry. apply simple_proj; auto; lra.
    - unfold mmul. ksolve. apply Rmult_integral_contrapositive_currified; lra.
  Qed.
  Lemma gproj_cont a p q : cont (fun t => gsum (w t0) (fun b => v t p b * v t q b) a) t0.
  Proof.
    assert (S : forall t, w t X0 <= w t X1 /\ w t X1 <= w t X2) by (intro t; destruct (L t) as (_ & _ & H); tauto).
    assert (Cm : forall t, v t p X0 * v t q X0 + v t p X1 * v t q X1 + v t p X2 * v t q X2 = delta p q).
    { intro t. apply (eig_complete _ _ _ (L t)). }
    assert (Full : cont (fun t => v t p X0 * v t q X0 + v t p X1 * v t q X1 + v t p X2 * v t q X2) t0).
    { apply cont_ext with (fun _ => delta p q); [intro; rewrite Cm; reflexivity|apply cont_const]. }
    destruct (Req_EM_T (w t0 X0) (w t0 X1)) as [E1|N1]; destruct (Req_EM_T (w t0 X1) (w t0 X2)) as [E2|N2].
    - apply cont_ext with (fun _ => delta p q); [|apply cont_const]. intro t. rewrite <- (Cm t). unfold gsum, sum3.
      destruct (Req_EM_T (w t0 X0) (w t0 a)), (Req_EM_T (w t0 X1) (w t0 a)), (Req_EM_T (w t0 X2) (w t0 a)); try reflexivity; exfalso; destruct a; congruence.
    - pose proof (simple_proj_cont X2 X0 X1 p q ltac:(discriminate) ltac:(discriminate) ltac:(discriminate) ltac:(congruence) ltac:(congruence)) as K.
      unfold gsum, sum3. destruct a.
      + destruct (Req_EM_T (w t0 X0) (w t0 X0)); [|congruence]. destruct (Req_EM_T (w t0 X1) (w t0 X0)); [|congruence].
        destruct (Req_EM_T (w t0 X2) (w t0 X0)); [congruence|].
        apply cont_ext with (fun t => delta p q - v t p X2 * v t q X2); [intro t; rewrite <- (Cm t); ring|ksolve].
      + destruct (Req_EM_T (w t0 X0) (w t0 X1)); [|congruence]. destruct (Req_EM_T (w t0 X1) (w t0 X1)); [|congruence].
        destruct (Req_EM_T (w t0 X2) (w t0 X1)); [congruence|].
        apply cont_ext with (fun t => delta p q - v t p X2 * v t q X2); [intro t; rewrite <- (Cm t); ring|ksolve].
      + destruct (Req_EM_T (w t0 X0) (w t0 X2)); [congruence|]. destruct (Req_EM_T (w t0 X1) (w t0 X2)); [congruence|].
        destruct (Req_EM_T (w t0 X2) (w t0 X2)); [|congruence].
        apply cont_ext with (fun t => v t p X2 * v t q X2); [intro t; ring|auto].
    - pose proof (simple_proj_cont X0 X1 X2 p q ltac:(discriminate) ltac:(discriminate) ltac:(discriminate) ltac:(congruence) ltac:(congruence)) as K.
      unfold gsum, sum3. destruct a.
      + destruct (Req_EM_T (w t0 X0) (w t0 X0)); [|congruence]. destruct (Req_EM_T (w t0 X1) (w t0 X0)); [congruence|].
        destruct (Req_EM_T (w t0 X2) (w t0 X0)); [congruence|].
        apply cont_ext with (fun t => v t p X0 * v t q X0); [intro t; ring|auto].
      + destruct (Req_EM_T (w t0 X0) (w t0 X1)); [congruence|]. destruct (Req_EM_T (w t0 X1) (w t0 X1)); [|congruence].
        destruct (Req_EM_T (w t0 X2) (w t0 X1)); [|congruence].
        apply cont_ext with (fun t => delta p q - v t p X0 * v t q X0); [intro t; rewrite <- (Cm t); ring|ksolve].
      + destruct (Req_EM_T (w t0 X0) (w t0 X2)); [congruence|]. destruct (Req_EM_T (w t0 X1) (w t0 X2)); [|congruence].
        destruct (Req_EM_T (w t0 X2) (w t0 X2)); [|congruence].
        apply cont_ext with (fun t => delta p q - v t p X0 * v t q X0); [intro t; rewrite <- (Cm t); ring|ksolve].
    - assert (N3 : w t0 X0 <> w t0 X2) by (destruct (S t0); lra).
      pose proof (simple_proj_cont X0 X1 X2 p q ltac:(discriminate) ltac:(discriminate) ltac:(discriminate) ltac:(congruence) ltac:(congruence)) as K0.
      pose proof (simple_proj_cont X1 X0 X2 p q ltac:(discriminate) ltac:(discriminate) ltac:(discriminate) ltac:(congruence) ltac:(congruence)) as K1.
      pose proof (simple_proj_cont X2 X0 X1 p q ltac:(discriminate) ltac:(discriminate) ltac:(discriminate) ltac:(congruence) ltac:(congruence)) as K2.
      apply cont_ext with (fun t => v t p a * v t q a); [|destruct a; auto].
      intro t. unfold gsum, sum3.
      destruct (Req_EM_T (w t0 X0) (w t0 a)), (Req_EM_T (w t0 X1) (w t0 a)), (Req_EM_T (w t0 X2) (w t0 a)); destruct a; try (exfalso; congruence); ring.
  Qed.
End Sides.
