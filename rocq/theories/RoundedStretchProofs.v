(** The Stretches framework in rounded arithmetic: proofs for C68 (no code modelled here). *)
From Coq Require Import Reals List Lra Lia Bool FunctionalExtensionality.
From Verif Require Import Tensor Py Voigt VoigtProofs Algebra Models ModelProofs Frameworks Spaces Spec SpaceCore PiolaProofs SpaceProofs
  EigCore EigNear EighProofs StrCore StrHess StrIso Counter
  Rounded RoundedProofs RoundedStable RoundedCode RoundedSpec RoundedMath RoundedSpaces RoundedSpacesProofs RoundedLeaf RoundedStretch PropStable.
From Verif Require NDLinks2.
Import ListNotations.
Local Open Scope R_scope.

(** *** The space around a framework whose results are only known to O(u) *)
Ltac incs := repeat first
  [ assumption | apply inc_refl | apply inc_add | apply inc_sub | apply inc_mul | apply inc_div | apply inc_sqrt | apply inc_pow
  | apply inc_summap; intro | apply inc_sum | apply inc_prod | apply List.Forall2_cons | apply List.Forall2_nil
  | match goal with H : forall _, _ |- _ => apply H end ].
Section Inc.
  Variables (u : R) (k : SpaceKind) (m m' : Comp) (F : XT2).
  Hypothesis HG : forall n, inc u (c_dWdC m (x_seen k F) n) (c_dWdC m' (x_seen k F) n).
  Lemma inc_Sb n : inc u (x_Sb k m F n) (x_Sb k m' F n).
  Proof. unfold x_Sb. destruct k; incs. Qed.
  Lemma inc_ddot22 A B A' B' : (forall n, inc u (A n) (A' n)) -> (forall n, inc u (B n) (B' n)) -> inc u (x_ddot22 A B) (x_ddot22 A' B').
  Proof. intros H1 H2. unfold x_ddot22. incs. Qed.
  Lemma inc_ddot44 A B A' B' n n' : (forall n n', inc u (A n n') (A' n n')) -> (forall n n', inc u (B n n') (B' n n')) -> inc u (x_ddot44 A B n n') (x_ddot44 A' B' n n').
  Proof. intros H1 H2. unfold x_ddot44. incs. Qed.
  Lemma inc_ddot24 A B A' B' n : (forall n, inc u (A n) (A' n)) -> (forall n n', inc u (B n n') (B' n n')) -> inc u (x_ddot24 A B n) (x_ddot24 A' B' n).
  Proof. intros H1 H2. unfold x_ddot24. incs. Qed.
  Lemma inc_SbC : inc u (x_SbC k m F) (x_SbC k m' F).
  Proof. apply inc_ddot22; [apply inc_Sb|intro; apply inc_refl]. Qed.
  Lemma inc_trSb : inc u (x_trSb k m F) (x_trSb k m' F).
  Proof. pose proof inc_Sb. unfold x_trSb, x_trace. incs. Qed.
  Lemma inc_S n : inc u (x_stress2 k m F n) (x_stress2 k m' F n).
  Proof. pose proof inc_Sb. pose proof inc_SbC. pose proof inc_trSb. unfold x_stress2. destruct k; incs. Qed.
  Lemma inc_gradient f a i j : inc u (x_gradient k m F f a i j) (x_gradient k m' F f a i j).
  Proof.
    pose proof inc_S as HS. unfold x_gradient.
    assert (X : forall i j, inc u (match f with Deformed => x_force F (x_astensor (x_stress2 k m F)) | Undeformed => x_astensor (x_stress2 k m F) end i j)
      (match f with Deformed => x_force F (x_astensor (x_stress2 k m' F)) | Undeformed => x_astensor (x_stress2 k m' F) end i j)).
    { intros. destruct f; unfold x_force, x_astensor; incs. }
    destruct a; [|apply X]. unfold x_area. apply inc_div; [|apply inc_refl]. apply inc_summap. intro J. apply inc_mul; [apply inc_refl|apply X].
  Qed.
  Hypothesis HH : forall n n', inc u (c_d2WdCdC m (x_seen k F) n n') (c_d2WdCdC m' (x_seen k F) n n').
  Lemma inc_C4b n n' : inc u (x_C4b k m F n n') (x_C4b k m' F n n').
  Proof. unfold x_C4b. destruct k; incs. Qed.
  Lemma inc_dya A B A' B' n n' : (forall n, inc u (A n) (A' n)) -> (forall n, inc u (B n) (B' n)) -> inc u (x_dya A B n n') (x_dya A' B' n n').
  Proof. intros H1 H2. unfold x_dya. incs. Qed.
  Lemma inc_proj n n' : inc u (x_C4_projection k m F n n') (x_C4_projection k m' F n n').
  Proof. pose proof inc_Sb. pose proof inc_SbC. unfold x_C4_projection, x_dya. incs. Qed.
  Lemma inc_C4 small n n' : inc u (x_C4 k m F small n n') (x_C4 k m' F small n n').
  Proof.
    pose proof inc_C4b as HB. pose proof inc_proj as HP. pose proof inc_trSb as HT. unfold x_C4.
    assert (Q : inc u (x_ddot44 (x_ddot44 (x_P4 F) (x_C4b k m F)) (fun v w => x_P4 F w v) n n') (x_ddot44 (x_ddot44 (x_P4 F) (x_C4b k m' F)) (fun v w => x_P4 F w v) n n')).
    { apply inc_ddot44; intros; [apply inc_ddot44; intros; [apply inc_refl|apply HB]|apply inc_refl]. }
    assert (T : inc u (x_ddot22 (x_ddot24 x_eye (x_C4b k m F)) x_eye) (x_ddot22 (x_ddot24 x_eye (x_C4b k m' F)) x_eye)).
    { apply inc_ddot22; intros; [apply inc_ddot24; intros; [apply inc_refl|apply HB]|apply inc_refl]. }
    destruct k; [apply HB|destruct small; [apply HP|apply inc_add; [apply HP|exact Q]]|].
    apply inc_sub; [|apply inc_mul; [apply inc_mul; [apply inc_refl|exact HT]|apply inc_refl]].
    apply inc_div; [|apply inc_refl]. apply inc_mul; [|apply inc_refl]. apply inc_add; [apply inc_mul; [apply inc_refl|exact HT]|exact T].
  Qed.
  Lemma inc_hessian small f a i j p q : inc u (x_hessian k m F f a small i j p q) (x_hessian k m' F f a small i j p q).
  Proof.
    pose proof inc_S as HS. pose proof (inc_C4 small) as H4. unfold x_hessian.
    assert (X : forall i j p q, inc u
      (match f with Deformed => fun i J k_ L => Add (x_force4 F (x_astensor4 (x_C4 k m F small)) i J k_ L) (x_cdya_ik x_eye (x_stress2 k m F) i J k_ L)
       | Undeformed => fun I J K L => Add (x_astensor4 (x_C4 k m F small) I J K L) (x_cdya_ik (x_invC F) (x_stress2 k m F) I J K L) end i j p q)
      (match f with Deformed => fun i J k_ L => Add (x_force4 F (x_astensor4 (x_C4 k m' F small)) i J k_ L) (x_cdya_ik x_eye (x_stress2 k m' F) i J k_ L)
       | Undeformed => fun I J K L => Add (x_astensor4 (x_C4 k m' F small) I J K L) (x_cdya_ik (x_invC F) (x_stress2 k m' F) I J K L) end i j p q)).
    { intros. assert (Y : forall A i j p q, inc u (x_cdya_ik A (x_stress2 k m F) i j p q) (x_cdya_ik A (x_stress2 k m' F) i j p q)).
      { intros. unfold x_cdya_ik, x_astensor4, x_dya. apply inc_mul; [apply inc_refl|apply HS]. }
      destruct f; (apply inc_add; [|apply Y]); [|apply H4].
      unfold x_force4, x_astensor4. cbn [flat_map map all3 app]. apply inc_sum. repeat (apply List.Forall2_cons || apply List.Forall2_nil);
      (apply inc_prod; repeat (apply List.Forall2_cons || apply List.Forall2_nil); first [apply inc_refl|apply H4]). }
    destruct a; [|apply X]. apply inc_div; [|apply inc_refl]. unfold x_area4. cbn [flat_map map all3 app].
    apply inc_sum. repeat (apply List.Forall2_cons || apply List.Forall2_nil);
      (apply inc_prod; repeat (apply List.Forall2_cons || apply List.Forall2_nil); first [apply inc_refl|apply X]).
  Qed.
End Inc.

(** *** Stability of the space around any framework with regular results *)
Definition cut (k : SpaceKind) (m : Comp) (XF : XT2) : Prop := k = KDistortional ->
  (forall v w, Rabs (exact (x_C4b k m XF v w)) < / 10 ^ 8) \/ (exists v w, / 10 ^ 8 < Rabs (exact (x_C4b k m XF v w))).
Lemma comp_elasticity k m XF f a : (forall i j, regular (XF i j)) -> invertible (ex33 XF) ->
  (forall v, regular (c_dWdC m (x_seen k XF) v)) -> (forall v w, regular (c_d2WdCdC m (x_seen k XF) v w)) -> cut k m XF ->
  exists K u0, 0 < u0 /\ forall u i j p q x, 0 <= u <= u0 -> rounded_hessian u k m f a XF i j p q x ->
    Rabs (x - exact (x_hessian k m XF f a (allclose0 (ex66 (x_C4b k m XF))) i j p q)) <= K * u.
Proof.
  intros HF HD HG HH HC. set (b := allclose0 (ex66 (x_C4b k m XF))).
  assert (RB : forall v w, regular (x_C4b k m XF v w)) by (exact (fw_reg_C4b k m XF HF HD HG HH)).
  destruct (uniform4 (x_hessian k m XF f a b) (fw_reg_hessian k m XF HF HD HG HH f a b)) as (K & u0 & HK & Hu & H).
  assert (BR : exists u1, 0 < u1 /\ forall u B atol small i j p q x, 0 <= u <= u1 -> (forall v w, rounded u (x_C4b k m XF v w) (B v w)) -> fl u (/ 10 ^ 8) atol ->
    (small = true <-> forall v w, Rabs (B v w) <= atol) -> rounded u (x_hessian k m XF f a small i j p q) x -> rounded u (x_hessian k m XF f a b i j p q) x).
  { assert (CASE : k = KDistortional \/ k <> KDistortional) by (destruct k; [right; discriminate|left; reflexivity|right; discriminate]).
    destruct CASE as [EK|NK].
    - destruct (branch_stable k m XF RB (HC EK)) as (u1 & Hu1 & HB).
      exists u1. split; auto. intros u B atol small i j p q x U HR HFL HS HX. pose proof (HB u B atol small U HR HFL HS) as EB. unfold b. rewrite <- EB. exact HX.
    - exists 1. split; [lra|]. intros u B atol small i j p q x _ _ _ _ HX.
      replace (x_hessian k m XF f a b i j p q) with (x_hessian k m XF f a small i j p q); [exact HX|].
      clear - NK. unfold x_hessian. destruct k; [reflexivity|congruence|reflexivity]. }
  destruct BR as (u1 & Hu1 & HB).
  exists K, (Rmin u0 u1). split; [apply Rmin_pos; auto|].
  pose proof (Rmin_l u0 u1). pose proof (Rmin_r u0 u1).
  intros u i j p q x U (B & atol & small & HR & HFL & HS & HX). apply (H u i j p q x); [lra|].
  apply (HB u B atol small i j p q x ltac:(lra) HR HFL HS HX).
Qed.

(** *** What LAPACK returns for a computed array that is close to A *)
Lemma size2_pos A : 0 <= size2 A.
Proof. unfold size2, sum3. pose proof (fun i j => Rabs_pos (A i j)) as P. pose proof (P X0 X0). pose proof (P X0 X1). pose proof (P X0 X2). pose proof (P X1 X0). pose proof (P X1 X1). pose proof (P X1 X2). pose proof (P X2 X0). pose proof (P X2 X1). pose proof (P X2 X2). lra. Qed.
Lemma sum9_le (f : ix3 -> ix3 -> R) e : (forall i j, f i j <= e) -> sum3 (fun i => sum3 (f i)) <= 9 * e.
Proof. intro H. unfold sum3. pose proof (H X0 X0). pose proof (H X0 X1). pose proof (H X0 X2). pose proof (H X1 X0). pose proof (H X1 X1). pose proof (H X1 X2). pose proof (H X2 X0). pose proof (H X2 X1). pose proof (H X2 X2). lra. Qed.
Lemma size2_near A B e : (forall i j, Rabs (A i j - B i j) <= e) -> size2 A <= size2 B + 9 * e.
Proof.
  intro H. assert (X : forall i j, Rabs (A i j) <= Rabs (B i j) + e).
  { intros. replace (A i j) with (B i j + (A i j - B i j)) by ring. eapply Rle_trans; [apply Rabs_triang|]. specialize (H i j). lra. }
  unfold size2. assert (Y : sum3 (fun i => sum3 (fun j => Rabs (A i j) - Rabs (B i j))) <= 9 * e) by (apply sum9_le; intros i j; specialize (X i j); lra).
  unfold sum3 in *. lra.
Qed.
Lemma near_data c M ws v0 K1 : 0 <= c -> 0 <= K1 -> eig_legal M ws v0 -> exists K2 u0, 0 <= K2 /\ 0 < u0 /\
  forall u A w v, 0 <= u <= u0 -> (forall i j, Rabs (A i j - M i j) <= K1 * u) -> eigh_computed c u A w v ->
  exists vs, eig_legal M ws vs /\ (forall a, Rabs (w a - ws a) <= K2 * u) /\ (forall i a, Rabs (v i a - vs i a) <= K2 * u).
Proof.
  intros Hc HK L. destruct (near_eig M ws v0 L) as (K & d & HK0 & Hd & HN).
  set (S := size2 M + 9 * K1). pose proof (size2_pos M) as PM. assert (PS : 0 <= S) by (unfold S; lra).
  set (e := K1 + c * S). assert (Pe : 0 <= e) by (unfold e; nra).
  set (K2 := 21 * (9 * e) + c * S + K * (9 * e) + c). assert (P2 : 0 <= K2) by (unfold K2; nra).
  exists K2, (Rmin 1 (d / (9 * e + 1))). assert (0 < d / (9 * e + 1)) by (apply Rdiv_lt_0_compat; lra). split; [auto|]. split; [apply Rmin_pos; lra|].
  pose proof (Rmin_l 1 (d / (9 * e + 1))). pose proof (Rmin_r 1 (d / (9 * e + 1))).
  intros u A w v U HA (E & w0 & v1 & HE & LB & HW & HV).
  assert (U1 : u <= 1) by lra. assert (UD : u * (9 * e + 1) <= d).
  { apply Rle_trans with (d / (9 * e + 1) * (9 * e + 1)); [apply Rmult_le_compat_r; lra|]. right. field. lra. }
  assert (SA : size2 A <= S). { pose proof (size2_near A M _ HA). unfold S. assert (K1 * u <= K1) by nra. lra. }
  pose proof (size2_pos A) as PA. assert (CU : c * u * size2 A <= c * S * u) by (assert (0 <= c * u) by nra; nra).
  assert (DB : dist2 M (fun i j => A i j + E i j) <= 9 * (e * u)).
  { unfold dist2. apply sum9_le. intros i j. replace (M i j - (A i j + E i j)) with (- (A i j - M i j) + - E i j) by ring.
    eapply Rle_trans; [apply Rabs_triang|]. rewrite !Rabs_Ropp. specialize (HA i j). specialize (HE i j). unfold e. lra. }
  assert (PD := dist2_pos M (fun i j => A i j + E i j)).
  destruct (HN _ _ _ LB) as (vs & LV & HVS); [lra|]. exists vs. split; [exact LV|].
  assert (U0 : 0 <= u) by lra. assert (0 <= e * u) by (apply Rmult_le_pos; auto). assert (0 <= c * S * u) by (repeat apply Rmult_le_pos; auto). assert (0 <= c * u) by (apply Rmult_le_pos; auto). assert (0 <= K * (e * u)) by (apply Rmult_le_pos; auto).
  split.
  - intro a. replace (w a - ws a) with ((w a - w0 a) + - (ws a - w0 a)) by ring. eapply Rle_trans; [apply Rabs_triang|]. rewrite Rabs_Ropp.
    pose proof (weyl _ _ _ _ _ _ a L LB). specialize (HW a). unfold K2. lra.
  - intros i a. replace (v i a - vs i a) with ((v i a - v1 i a) + (v1 i a - vs i a)) by ring. eapply Rle_trans; [apply Rabs_triang|].
    specialize (HV i a). specialize (HVS i a). assert (K * dist2 M (fun i j => A i j + E i j) <= K * (9 * (e * u))) by (apply Rmult_le_compat_l; auto). unfold K2. lra.
Qed.

(** *** Models whose expressions may be evaluated with inexact stretches *)
Definition sound (xm : XModel) : Prop :=
  (forall l, (forall a, regular (l a) /\ 0 < exact (l a)) -> (forall a, regular (xm_gradient xm l a)) /\ forall k, regular (xm_hessian xm l k)) /\
  (forall u l l', (forall a, inc u (l a) (l' a)) -> (forall a, inc u (xm_gradient xm l a) (xm_gradient xm l' a)) /\ forall k, inc u (xm_hessian xm l k) (xm_hessian xm l' k)).

Section Core.
  Variables (xm : XModel) (HX : sound xm) (M : T2) (ws : Vec3) (K2 : R) (PK : 0 <= K2) (Pw : forall a, 0 < ws a).
  Notation X := (Vec3 * T2 * T2)%type.
  Definition pw (p : X) : ix3 -> expr := fun a => Num (fst (fst p) a).
  Definition pv (p : X) : XT2 := in33 (snd (fst p)).
  Definition N (p : X) (u : R) : Prop := eig_legal M ws (snd p) /\ (forall a, Rabs (fst (fst p) a - ws a) <= K2 * u) /\
    (forall i a, Rabs (snd (fst p) i a - snd p i a) <= K2 * u).
  Definition fz (a : ix3) : expr := fuzz K2 (ws a).
  Definition l0 : Vec3 := fun a => sqrt (ws a).
  Definition g0 : Vec3 := fun a => exact (xm_gradient xm (x_lam fz) a).
  Definition h0 : ix6 -> option R := fun k => Some (exact (xm_hessian xm (x_lam fz) k)).
  Lemma ex_lam a : exact (x_lam fz a) = l0 a.
  Proof. unfold x_lam, fz, l0. cbn [exact]. rewrite fuzz_exact. reflexivity. Qed.
  Lemma l0_pos a : 0 < l0 a. Proof. apply sqrt_lt_R0, Pw. Qed.
  Lemma reg_lam a : regular (x_lam fz a) /\ 0 < exact (x_lam fz a).
  Proof. split; [|rewrite ex_lam; apply l0_pos]. split; [apply fuzz_regular|]. unfold fz. rewrite fuzz_exact. apply Pw. Qed.
  Lemma inc_lam p u a : 0 <= u -> N p u -> inc u (x_lam (pw p) a) (x_lam fz a).
  Proof. intros U (_ & H & _). apply inc_sqrt. apply fuzz_inc; auto. Qed.
  Lemma reg_K a : regular (x_dWdlC xm fz a) /\ exact (x_dWdlC xm fz a) = strK l0 g0 a.
  Proof.
    destruct HX as [HR _]. destruct (HR _ reg_lam) as [H1 _]. unfold x_dWdlC. pose proof (reg_lam a) as [R1 R2]. split.
    - split; [apply H1|]. split; [split; [exact Logic.I|exact R1]|]. cbn [exact]. cbn [exact] in R2. nra.
    - cbn [exact]. rewrite ex_lam. reflexivity.
  Qed.
  Lemma inc_K p u a : 0 <= u -> N p u -> inc u (x_dWdlC xm (pw p) a) (x_dWdlC xm fz a).
  Proof.
    intros U HN. destruct HX as [_ HI]. pose proof (fun a => inc_lam p u a U HN) as L. destruct (HI u _ _ L) as [H1 _].
    unfold x_dWdlC. apply inc_div; [apply H1|]. apply inc_mul; [apply inc_refl|apply L].
  Qed.
  Lemma reg_d2 k : regular (x_d2 xm fz k) /\ exact (x_d2 xm fz k) = strD l0 g0 h0 (sa k) (sb k).
  Proof.
    destruct HX as [HR _]. destruct (HR _ reg_lam) as [_ H2]. specialize (H2 k).
    assert (Q : regular (Div (xm_hessian xm (x_lam fz) k) (Mul (Mul (Num 4) (x_lam fz (sa k))) (x_lam fz (sb k))))).
    { split; [exact H2|]. split; [split; [split; [exact Logic.I|apply reg_lam]|apply reg_lam]|]. cbn [exact]. 
      pose proof (proj2 (reg_lam (sa k))). pose proof (proj2 (reg_lam (sb k))). cbn [exact] in *. apply Rgt_not_eq. repeat apply Rmult_lt_0_compat; lra. }
    assert (Z : forall a, regular (Div (x_dWdlC xm fz a) (Mul (Num 2) (sq (x_lam fz a))))).
    { intro a. pose proof (proj2 (reg_lam a)) as P. split; [apply reg_K|]. split; [split; [exact Logic.I|split; apply reg_lam]|].
      cbn [exact sq] in *. apply Rgt_not_eq. repeat apply Rmult_lt_0_compat; lra. }
    assert (EQ : exact (Div (xm_hessian xm (x_lam fz) k) (Mul (Mul (Num 4) (x_lam fz (sa k))) (x_lam fz (sb k)))) = val (h0 k) / (4 * l0 (sa k) * l0 (sb k))).
    { cbn [exact]. rewrite !ex_lam. reflexivity. }
    assert (EZ : forall a, exact (Div (x_dWdlC xm fz a) (Mul (Num 2) (sq (x_lam fz a)))) = strK l0 g0 a / (2 * l0 a ^ 2)).
    { intro a. cbn [exact sq]. rewrite (proj2 (reg_K a)), !ex_lam. cbn [pow]. rewrite Rmult_1_r. reflexivity. }
    split.
    - unfold x_d2. cbv zeta. destruct k; first [exact Q | split; [exact Q|apply Z]].
    - unfold x_d2. cbv zeta. set (q := Div (xm_hessian _ _ k) _) in *. clearbody q. clear Q Z.
      unfold strD. replace (pos (sa k) (sb k)) with k by (destruct k; reflexivity).
      destruct k; cbn [sa sb ix3_eqb] in *; rewrite <- ?EZ, <- EQ; cbn [exact]; ring.
  Qed.
  Lemma inc_d2 p u k : 0 <= u -> N p u -> inc u (x_d2 xm (pw p) k) (x_d2 xm fz k).
  Proof.
    intros U HN. destruct HX as [_ HI]. pose proof (fun a => inc_lam p u a U HN) as L. destruct (HI u _ _ L) as [_ H2].
    pose proof (fun a => inc_K p u a U HN) as HK. unfold x_d2. cbv zeta.
    assert (Q : inc u (Div (xm_hessian xm (x_lam (pw p)) k) (Mul (Mul (Num 4) (x_lam (pw p) (sa k))) (x_lam (pw p) (sb k))))
                      (Div (xm_hessian xm (x_lam fz) k) (Mul (Mul (Num 4) (x_lam fz (sa k))) (x_lam fz (sb k))))).
    { apply inc_div; [apply H2|]. apply inc_mul; [|apply L]. apply inc_mul; [apply inc_refl|apply L]. }
    assert (Z : forall a, inc u (Div (x_dWdlC xm (pw p) a) (Mul (Num 2) (sq (x_lam (pw p) a)))) (Div (x_dWdlC xm fz a) (Mul (Num 2) (sq (x_lam fz a))))).
    { intro a. apply inc_div; [apply HK|]. apply inc_mul; [apply inc_refl|]. apply inc_mul; apply L. }
    destruct k; first [exact Q | apply inc_sub; [exact Q|apply Z]].
  Qed.
  Definition close0 (k : ix6) : bool := isclose (l0 (sa k) ^ 2 - l0 (sb k) ^ 2) 0.
  Lemma reg_vab k : regular (x_vab fz k) /\ exact (x_vab fz k) = l0 (sa k) ^ 2 - l0 (sb k) ^ 2.
  Proof. split; [repeat split; try apply reg_lam; try apply fuzz_regular; unfold fz; rewrite fuzz_exact; apply Pw|]. unfold x_vab. cbn [exact sq]. rewrite !ex_lam. ring. Qed.
  Lemma inc_vab p u k : 0 <= u -> N p u -> inc u (x_vab (pw p) k) (x_vab fz k).
  Proof. intros U HN. pose proof (fun a => inc_lam p u a U HN) as L. unfold x_vab. apply inc_sub; apply inc_mul; apply L. Qed.
  Definition d0 (k : ix6) : R := strD l0 g0 h0 (sa k) (sb k).
  Lemma reg_f k : regular (x_f xm fz close0 k) /\ exact (x_f xm fz close0 k) = str_f l0 (strK l0 g0) d0 k.
  Proof.
    unfold x_f, str_f. cbv zeta. fold (close0 k). destruct (close0 k) eqn:EC.
    - split; [split; apply reg_d2|]. cbn [exact]. rewrite !(proj2 (reg_d2 _)). unfold d0. reflexivity.
    - destruct (reg_vab k) as [R1 E1]. assert (NZ : l0 (sa k) ^ 2 - l0 (sb k) ^ 2 <> 0).
      { intro E. unfold close0 in EC. rewrite E in EC. assert (isclose 0 0 = true) by (apply isclose0; rewrite Rabs_R0; left; apply Rinv_0_lt_compat, pow_lt; lra). congruence. }
      split; [split; [split; apply reg_K|split; [exact R1|rewrite E1; exact NZ]]|]. cbn [exact]. rewrite !(proj2 (reg_K _)), E1. reflexivity.
  Qed.
  Lemma inc_f p u k : 0 <= u -> N p u -> inc u (x_f xm (pw p) close0 k) (x_f xm fz close0 k).
  Proof.
    intros U HN. unfold x_f. destruct (close0 k); [apply inc_sub; apply inc_d2; auto|]. apply inc_div; [apply inc_sub; apply inc_K; auto|apply inc_vab; auto].
  Qed.
  Ltac fuzzy H := apply ou_fuzzy; [apply H|exists 1; split; [lra|]; intros p u U HN].
  Lemma ou_K a : OU N (fun p => x_dWdlC xm (pw p) a) (fun _ => strK l0 g0 a).
  Proof. rewrite <- (proj2 (reg_K a)). fuzzy reg_K. apply inc_K; auto. lra. Qed.
  Lemma ou_d2 k : OU N (fun p => x_d2 xm (pw p) k) (fun _ => d0 k).
  Proof. unfold d0. rewrite <- (proj2 (reg_d2 k)). fuzzy reg_d2. apply inc_d2; auto. lra. Qed.
  Lemma ou_f k : OU N (fun p => x_f xm (pw p) close0 k) (fun _ => str_f l0 (strK l0 g0) d0 k).
  Proof. rewrite <- (proj2 (reg_f k)). fuzzy reg_f. apply inc_f; auto. lra. Qed.
  Lemma ou_v i a : OU N (fun p => pv p i a) (fun p => snd p i a).
  Proof. unfold pv, in33. apply ou_leaf with 1 K2; [lra|auto|]. intros p u U (L & _ & H). split; [apply (col_le M ws); auto|apply H]. Qed.
  Definition mb (p : X) (a : ix3) : Vec6 := asvoigt (base (snd p) a).
  Lemma ou_M a n : OU N (fun p => x_M (pv p) a n) (fun p => mb p a n).
  Proof. exact (ou_mul N _ _ _ _ (ou_v (vi n) a) (ou_v (vj n) a)). Qed.
  Lemma ou_gradient n : OU N (fun p => x_str_gradient xm (pw p) (pv p) n) (fun p => asvoigt (Gf (strK l0 g0) (snd p)) n).
  Proof.
    pose proof (fun a => ou_mul N _ _ _ _ (ou_K a) (ou_M a n)) as T.
    pose proof (ou_sum N [fun p => Mul (x_dWdlC xm (pw p) X0) (x_M (pv p) X0 n); fun p => Mul (x_dWdlC xm (pw p) X1) (x_M (pv p) X1 n); fun p => Mul (x_dWdlC xm (pw p) X2) (x_M (pv p) X2 n)]
      [fun p => strK l0 g0 X0 * mb p X0 n; fun p => strK l0 g0 X1 * mb p X1 n; fun p => strK l0 g0 X2 * mb p X2 n]) as Q.
    eapply ou_ext; [| |apply Q; repeat constructor; apply T]; intro p; [reflexivity|].
    cbn [fold_right]. unfold mb, Gf, sum3, asvoigt. ring.
  Qed.
  (** one entry of the elasticity tensor *)
  Lemma ou_cdya a b n n' : OU N (fun p => x_cdya false (x_M (pv p) a) (x_M (pv p) b) n n') (fun p => cdya (mb p a) (mb p b) n n').
  Proof.
    pose proof ou_M as OM.
    assert (V : forall n n', OU N (fun p => x_cdya_value false (x_M (pv p) a) (x_M (pv p) b) n n') (fun p => exact (x_cdya_value false (in6 (mb p a)) (in6 (mb p b)) n n'))).
    { clear n n'. intros. unfold x_cdya_value. cbv zeta. cbn [exact in6]. apply (ou_div N _ _ 4); [lra|].
      repeat first [apply OM | apply (ou_add N) | apply (ou_mul N)]. }
    eapply ou_ext; [intro p; reflexivity|intro p; exact (exact_cdya false (in6 (mb p a)) (in6 (mb p b)) n n')|].
    unfold x_cdya. destruct (ix6_leb n n'); apply V.
  Qed.
  Lemma ou_iter H s k n n' : (forall n n', OU N (fun p => H p n n') (fun p => s p n n')) ->
    OU N (fun p => x_iter xm (pw p) (pv p) close0 (H p) k n n') (fun p => str_iter l0 (mb p) (strK l0 g0) d0 (s p) k n n').
  Proof.
    intro HO. unfold x_iter, str_iter. cbv zeta.
    assert (A : OU N (fun p => Add (H p n n') (Mul (x_d2 xm (pw p) k) (x_dya (x_M (pv p) (sa k)) (x_M (pv p) (sb k)) n n')))
                     (fun p => s p n n' + d0 k * (mb p (sa k) n * mb p (sb k) n'))).
    { apply (ou_add N); [apply HO|]. apply (ou_mul N); [apply ou_d2|]. apply (ou_mul N); apply ou_M. }
    destruct (ix3_eqb (sb k) (sa k)).
    - eapply ou_ext; [intro; reflexivity| |exact A]. intro p. reflexivity.
    - assert (B : OU N (fun p => Mul (x_d2 xm (pw p) k) (x_dya (x_M (pv p) (sa k)) (x_M (pv p) (sb k)) n' n))
                       (fun p => d0 k * (mb p (sa k) n' * mb p (sb k) n))).
      { apply (ou_mul N); [apply ou_d2|]. exact (ou_mul N _ _ _ _ (ou_M (sa k) n') (ou_M (sb k) n)). }
      assert (TW : OU N (fun _ => Num 2) (fun _ => 2)).
      { apply ou_leaf with 2 0; try lra. intros. rewrite Rminus_eq_0, Rabs_R0, Rabs_pos_eq; lra. }
      assert (D : OU N (fun p => Mul (Mul (x_f xm (pw p) close0 k) (Num 2)) (x_cdya false (x_M (pv p) (sa k)) (x_M (pv p) (sb k)) n n'))
                       (fun p => str_f l0 (strK l0 g0) d0 k * 2 * cdya (mb p (sa k)) (mb p (sb k)) n n')).
      { apply (ou_mul N); [|apply ou_cdya]. exact (ou_mul N _ _ _ _ (ou_f k) TW). }
      eapply ou_ext; [intro; reflexivity| |exact (ou_add N _ _ _ _ A (ou_add N _ _ _ _ B D))].
      intro p. reflexivity.
  Qed.
  Lemma ou_hessian n n' : OU N (fun p => x_str_hessian xm (pw p) (pv p) close0 n n') (fun p => asvoigt4 (Hf (strD l0 g0 h0) (strF l0 g0 h0) (snd p)) n n').
  Proof.
    assert (Z : forall n n', OU N (fun p => (fun (_ : X) (_ _ : ix6) => Num 0) p n n') (fun p => (fun _ : X => mzero) p n n')).
    { intros. apply ou_leaf with 0 0; try lra. intros. unfold mzero. rewrite Rminus_eq_0, Rabs_R0. lra. }
    eapply ou_ext; [intro; reflexivity| |
      exact (ou_iter _ _ V5 n n' (fun n n' => ou_iter _ _ V4 n n' (fun n n' => ou_iter _ _ V3 n n' (fun n n' => ou_iter _ _ V2 n n' (fun n n' => ou_iter _ _ V1 n n' (fun n n' => ou_iter _ _ V0 n n' Z))))))].
    intro p. cbn beta.
    match goal with |- ?x n n' = _ => rewrite <- (asvoigt4_astensor4 x n n') end.
    match goal with |- asvoigt4 ?x _ _ = _ => assert (EX : x = Hf (strD l0 g0 h0) (strF l0 g0 h0) (snd p)); [|rewrite EX; reflexivity] end.
    apply T4_ext. intros i j p' q. apply (iter_eq l0 (snd p) (strK l0 g0) d0 (strD l0 g0 h0) (strF l0 g0 h0)).
    - intro k. reflexivity.
    - apply strD_sym.
    - intro k. unfold strF, str_f, d0. destruct k; reflexivity.
    - intros. reflexivity.
  Qed.
End Core.

(** *** The result does not depend on the choice of the eigenvectors *)
Lemma basis_G M ws v v' l g : eig_legal M ws v -> eig_legal M ws v' -> (forall a b, ws a = ws b -> l a = l b /\ g a = g b) ->
  Gf (strK l g) v = Gf (strK l g) v'.
Proof.
  intros L L' H. apply T2_ext; intros i j. unfold Gf. apply (group_sum M ws); auto.
  intros a b E. unfold strK. destruct (H a b E) as [-> ->]. reflexivity.
Qed.
Lemma basis_H M ws v v' l g h : eig_legal M ws v -> eig_legal M ws v' -> (forall a b, ws a = ws b -> l a = l b /\ g a = g b /\
    forall k j, val (h (pos k j)) = val (h (pos (exchange a b k) (exchange a b j)))) ->
  Hf (strD l g h) (strF l g h) v = Hf (strD l g h) (strF l g h) v'.
Proof.
  intros L L' H. assert (lw : forall a b, ws a = ws b -> l a = l b) by (intros a b E; apply (H a b E)).
  assert (Hg : forall a b, ws a = ws b -> g a = g b) by (intros a b E; apply (H a b E)).
  assert (HD : forall a b k j, ws a = ws b -> strD l g h k j = strD l g h (exchange a b k) (exchange a b j)).
  { intros a b k j E. apply strD_exchange; auto. apply (H a b E). }
  assert (close : forall x, x = 0 -> isclose x 0 = true) by (intros x ->; apply isclose0; rewrite Rabs_R0; left; apply Rinv_0_lt_compat, pow_lt; lra).
  apply (Hf_indep ws) with M; auto.
  + apply L.
  + apply strD_sym.
  + intro E. unfold strF. rewrite close; [reflexivity|]. rewrite (lw _ _ E); ring.
  + intro E. unfold strF. rewrite close; [reflexivity|]. rewrite (lw _ _ E); ring.
  + intro E. unfold strF. rewrite close; [reflexivity|]. rewrite (lw _ _ E); ring.
  + intro E. pose proof (HD X0 X1 X0 X2 E) as Y. cbn in Y. unfold strF. rewrite Y, (lw _ _ E). unfold strK. rewrite (lw _ _ E), (Hg _ _ E). reflexivity.
  + intro E. pose proof (HD X1 X2 X0 X1 E) as Y. pose proof (HD X1 X2 X1 X1 E) as Z. cbn in Y, Z. unfold strF. rewrite Y, Z, (lw _ _ E). unfold strK. rewrite (lw _ _ E), (Hg _ _ E). reflexivity.
Qed.

(** *** A bound for all entries at once *)
Lemma ou_entries {Y} (N : Y -> R -> Prop) {I} (l : list I) (e : I -> Y -> expr) (s : I -> R) : (forall i, In i l) -> (forall i, OU N (e i) (fun _ => s i)) ->
  exists K u0, 0 <= K /\ 0 < u0 /\ forall i p u x, 0 <= u <= u0 -> N p u -> rounded u (e i p) x -> Rabs (x - s i) <= K * u.
Proof.
  intros HI HO. assert (H : exists K u0, 0 <= K /\ 0 < u0 /\ forall i p u x, In i l -> 0 <= u <= u0 -> N p u -> rounded u (e i p) x -> Rabs (x - s i) <= K * u).
  { clear HI. induction l as [|i0 l (K & u0 & HK & Hu & H)]; [exists 0, 1; repeat split; try lra; intros ? ? ? ? []|].
    destruct (HO i0) as (B & K1 & u1 & HB & HK1 & Hu1 & H1). exists (K + K1), (Rmin u0 u1). split; [lra|]. split; [apply Rmin_pos; lra|].
    pose proof (Rmin_l u0 u1). pose proof (Rmin_r u0 u1). intros i p u x [<-|In_] U HN HX.
    - destruct (H1 p u ltac:(lra) HN) as [_ Hx]. specialize (Hx x HX). nra.
    - specialize (H i p u x In_ ltac:(lra) HN HX). nra. }
  destruct H as (K & u0 & HK & Hu & H). exists K, u0. repeat split; auto. intros. eapply H; eauto.
Qed.

(** *** A framework object *)
Definition renders {SV} (m : StretchModel SV) (xm : XModel) : Prop :=
  forall l, (forall a, 0 < exact (l a)) -> forall sv s, exists g h svn s1 s2,
    sm_gradient m (fun a => exact (l a)) sv s = (s1, Ok (g, svn)) /\ sm_hessian m (fun a => exact (l a)) svn s1 = (s2, Ok h) /\
    (forall a, g a = exact (xm_gradient xm l a)) /\ (forall k, val (h k) = exact (xm_hessian xm l k)).
Section Final.
  Context {SV : Type} (m : StretchModel SV) (xm : XModel) (lapack : Lapack).
  Context (HX : sound xm) (HR : renders m xm) (HL : lapack_legal lapack) (EG : exchangeable_gradient m) (EH : exchangeable_hessian m).
  Context (k : SpaceKind) (XF : XT2) (RF : forall i j, regular (XF i j)) (HF : invertible (ex33 XF)) (c : R) (Hc : 0 <= c).
  Notation F := (ex33 XF).
  Notation Cs := (seen k (right_CG F)).
  Notation M := (astensor Cs).
  Notation ws := (fst (lapack M)).
  Notation v0 := (snd (lapack M)).
  Lemma fin_legal : eig_legal M ws v0. Proof. apply HL. Qed.
  Lemma fin_pos a : 0 < ws a.
  Proof. apply (eig_posdef _ _ _ fin_legal). apply NDLinks2.posdef_seen. exact HF. Qed.
  Lemma fin_input : exists K1 u0, 0 <= K1 /\ 0 < u0 /\ forall u A, 0 <= u <= u0 -> (forall n, rounded u (x_seen k XF n) (A n)) ->
    forall i j, Rabs (astensor A i j - M i j) <= K1 * u.
  Proof.
    destruct (uniform (map (x_seen k XF) all6)) as (K & u0 & HK & Hu & H).
    { apply List.Forall_forall. intros e I. apply in_map_iff in I. destruct I as (n & <- & _). apply reg_seen; [exact RF|exact HF]. }
    exists K, u0. repeat split; auto. intros u A U HA i j. unfold astensor.
    specialize (H (x_seen k XF (vix i j)) u (A (vix i j))). replace (seen k (right_CG F)) with (ex6 (x_seen k XF)) by exact (ex_seen k XF). apply H; auto.
    apply in_map_iff. exists (vix i j). split; [reflexivity|]. destruct (vix i j); cbn; tauto.
  Qed.
  (** the numbers that the framework works with *)
  Definition numbers (u : R) (w : Vec3) (v : T2) : Prop :=
    exists A : Vec6, (forall n, rounded u (x_seen k XF n) (A n)) /\ eigh_computed c u (astensor A) w v.
  Lemma fin_numbers : exists K2 u0, 0 <= K2 /\ 0 < u0 /\ forall u w v, 0 <= u <= u0 -> numbers u w v -> exists vs, N M ws K2 (w, v, vs) u.
  Proof.
    destruct fin_input as (K1 & u1 & HK1 & Hu1 & H1). destruct (near_data c M ws v0 K1 Hc HK1 fin_legal) as (K2 & u2 & HK2 & Hu2 & H2).
    exists K2, (Rmin u1 u2). split; auto. split; [apply Rmin_pos; auto|]. pose proof (Rmin_l u1 u2). pose proof (Rmin_r u1 u2).
    intros u w v U (A & HA & HE). destruct (H2 u (astensor A) w v ltac:(lra) (H1 u A ltac:(lra) HA) HE) as (vs & L & HW & HV).
    exists vs. split; [exact L|]. split; [exact HW|exact HV].
  Qed.
  (** the results of the model *)
  Lemma fin_model K2 sv s : exists svn s1 s2 h,
    sm_gradient m (lam lapack Cs) sv s = (s1, Ok (g0 xm ws K2, svn)) /\ sm_hessian m (lam lapack Cs) svn s1 = (s2, Ok h) /\
    (forall n, val (h n) = val (h0 xm ws K2 n)).
  Proof.
    destruct (HR (x_lam (fz ws K2))) with sv s as (g & h & svn & s1 & s2 & E1 & E2 & E3 & E4).
    { intro a. rewrite ex_lam. apply l0_pos. apply fin_pos. }
    assert (EL : (fun a => exact (x_lam (fz ws K2) a)) = lam lapack Cs).
    { apply functional_extensionality. intro a. rewrite ex_lam. reflexivity. }
    rewrite EL in E1, E2. exists svn, s1, s2, h. split; [|split; [exact E2|exact E4]]. rewrite E1. 
    replace (g0 xm ws K2) with g; [reflexivity|]. apply functional_extensionality. exact E3.
  Qed.
  Lemma fin_groups K2 (sv : SV) (s : sm_self m) a b : ws a = ws b -> l0 ws a = l0 ws b /\ g0 xm ws K2 a = g0 xm ws K2 b /\
    forall x y, val (h0 xm ws K2 (pos x y)) = val (h0 xm ws K2 (pos (exchange a b x) (exchange a b y))).
  Proof.
    intro E. destruct (fin_model K2 sv s) as (svn & s1 & s2 & h & E1 & E2 & E3).
    assert (EL : lam lapack Cs a = lam lapack Cs b) by (unfold lam; rewrite E; reflexivity).
    assert (PL : positive3 (lam lapack Cs)) by (intro; apply sqrt_lt_R0, fin_pos).
    split; [unfold l0; rewrite E; reflexivity|]. split.
    - apply (EG (lam lapack Cs) sv s a b PL EL _ svn). unfold outcome. rewrite E1. reflexivity.
    - intros x y. rewrite <- !E3. apply (EH (lam lapack Cs) svn s1 a b PL EL h). unfold outcome. rewrite E2. reflexivity.
  Qed.
  Context (sv : SV) (ms : sm_self m).
  Notation wl w := (fun a => Num (w a)).
  Notation Gx0 K2 := (asvoigt (Gf (strK (l0 ws) (g0 xm ws K2)) v0)).
  Notation Hx0 K2 := (asvoigt4 (Hf (strD (l0 ws) (g0 xm ws K2) (h0 xm ws K2)) (strF (l0 ws) (g0 xm ws K2) (h0 xm ws K2)) v0)).
  Lemma fin_gradient K2 : 0 <= K2 -> exists K u0, 0 <= K /\ 0 < u0 /\ forall n p u x, 0 <= u <= u0 -> N M ws K2 p u ->
    rounded u (x_str_gradient xm (pw p) (pv p) n) x -> Rabs (x - Gx0 K2 n) <= K * u.
  Proof.
    intro HK2. destruct (ou_entries (N M ws K2) all6 (fun n p => x_str_gradient xm (pw p) (pv p) n) (Gx0 K2)) as (K & u0 & HK & Hu & H).
    - intros []; cbn; tauto.
    - intro n. eapply ou_val; [|exact (ou_gradient xm HX M ws K2 HK2 fin_pos n)]. intros p u (L & _). cbn beta. f_equal.
      rewrite (basis_G M ws (snd p) v0); [reflexivity|exact L|apply fin_legal|]. intros a b E. destruct (fin_groups K2 sv ms a b E) as (E1 & E2 & _). auto.
    - exists K, u0. auto.
  Qed.
  Lemma fin_hessian K2 : 0 <= K2 -> exists K u0, 0 <= K /\ 0 < u0 /\ forall n n' p u x, 0 <= u <= u0 -> N M ws K2 p u ->
    rounded u (x_str_hessian xm (pw p) (pv p) (close0 ws) n n') x -> Rabs (x - Hx0 K2 n n') <= K * u.
  Proof.
    intro HK2. destruct (ou_entries (N M ws K2) (list_prod all6 all6) (fun n p => x_str_hessian xm (pw p) (pv p) (close0 ws) (fst n) (snd n)) (fun n => Hx0 K2 (fst n) (snd n))) as (K & u0 & HK & Hu & H).
    - assert (A6 : forall v : ix6, In v all6) by (intros []; cbn; tauto). intros [n n']. apply in_prod; auto.
    - intro n. eapply ou_val; [|exact (ou_hessian xm HX M ws K2 HK2 fin_pos (fst n) (snd n))]. intros p u (L & _). cbn beta.
      rewrite (basis_H M ws (snd p) v0); [reflexivity|exact L|apply fin_legal|]. intros a b E. exact (fin_groups K2 sv ms a b E).
    - exists K, u0. split; auto. split; auto. intros n n' p u x U HN HR'. exact (H (n, n') p u x U HN HR').
  Qed.
  (** the branch np.isclose *)
  Definition unambiguous : Prop := forall a b, Rabs (ws a - ws b) <> / 10 ^ 8.
  Lemma fin_close K2 : 0 <= K2 -> unambiguous -> exists u0, 0 < u0 /\ forall u p close, 0 <= u <= u0 -> N M ws K2 p u ->
    computed_close u xm (pw p) close -> forall n, ix3_eqb (sb n) (sa n) = false -> close n = close0 ws n.
  Proof.
    intros HK2 HU. set (t := / 10 ^ 8). assert (Ht : 0 < t) by (apply Rinv_0_lt_compat, pow_lt; lra).
    assert (LW : forall a, l0 ws a ^ 2 = ws a) by (intro a; unfold l0; cbn [pow]; rewrite Rmult_1_r; apply sqrt_sqrt; pose proof (fin_pos a); lra).
    destruct (uniform (map (x_vab (fz ws K2)) all6)) as (K & u0 & HK & Hu & H).
    { apply List.Forall_forall. intros e I. apply in_map_iff in I. destruct I as (n & <- & _). apply reg_vab. exact fin_pos. }
    assert (GAP : exists g, 0 < g /\ forall n, g <= Rabs (Rabs (ws (sa n) - ws (sb n)) - t)).
    { assert (L : forall l : list ix6, exists g, 0 < g /\ forall n, In n l -> g <= Rabs (Rabs (ws (sa n) - ws (sb n)) - t)).
      { induction l as [|n l (g & Hg & IH)]; [exists 1; split; [lra|intros ? []]|].
        assert (P : 0 < Rabs (Rabs (ws (sa n) - ws (sb n)) - t)) by (apply Rabs_pos_lt; intro E; apply (HU (sa n) (sb n)); fold t; lra).
        exists (Rmin g (Rabs (Rabs (ws (sa n) - ws (sb n)) - t))). split; [apply Rmin_pos; auto|].
        intros n' [<-|I]; [apply Rmin_r|]. eapply Rle_trans; [apply Rmin_l|auto]. }
      destruct (L all6) as (g & Hg & HG). exists g. split; auto. intro n. apply HG. destruct n; cbn; tauto. }
    destruct GAP as (g & Hg & HG). exists (Rmin u0 (g / (2 * (K + t)))).
    assert (0 < g / (2 * (K + t))) by (apply Rdiv_lt_0_compat; lra). split; [apply Rmin_pos; auto|].
    pose proof (Rmin_l u0 (g / (2 * (K + t)))). pose proof (Rmin_r u0 (g / (2 * (K + t)))).
    intros u p close U HN HC n Hn. destruct (HC n Hn) as (b & atol & HB & HF' & HI).
    assert (UG : u * (K + t) <= g / 2). { apply Rle_trans with (g / (2 * (K + t)) * (K + t)); [apply Rmult_le_compat_r; lra|]. right. field. lra. }
    assert (AT : Rabs (atol - t) <= u * t) by (unfold fl in HF'; fold t in HF'; rewrite (Rabs_pos_eq t) in HF' by lra; auto).
    assert (BB : Rabs (b - (ws (sa n) - ws (sb n))) <= K * u).
    { assert (E : exact (x_vab (fz ws K2) n) = ws (sa n) - ws (sb n)) by (rewrite (proj2 (reg_vab ws K2 fin_pos n)), !LW; reflexivity).
      rewrite <- E. apply (H _ u b); [apply in_map; destruct n; cbn; tauto|lra|]. apply (inc_vab M ws K2 HK2 p u n); [lra|exact HN|exact HB]. }
    assert (C0 : close0 ws n = true <-> Rabs (ws (sa n) - ws (sb n)) <= t) by (unfold close0; rewrite !LW; apply isclose0).
    specialize (HG n). set (d := ws (sa n) - ws (sb n)) in *.
    assert (BD : Rabs (Rabs b - Rabs d) <= K * u) by (eapply Rle_trans; [apply Rabs_triang_inv2|exact BB]).
    apply EigNear.Rabs_le_inv in BD. apply EigNear.Rabs_le_inv in AT. 
    destruct (Rle_dec (Rabs d) t) as [D|D].
    - rewrite (proj2 C0 D). apply HI. rewrite Rabs_left1 in HG by lra. lra.
    - assert (close0 ws n = false) as -> by (destruct (close0 ws n); [exfalso; apply D, C0; reflexivity|reflexivity]).
      destruct (close n); [|reflexivity]. exfalso. pose proof (proj1 HI eq_refl). rewrite Rabs_pos_eq in HG by lra. lra.
  Qed.
  Lemma close_ext w v close close' : (forall n, ix3_eqb (sb n) (sa n) = false -> close n = close' n) ->
    forall n n', x_str_hessian xm w v close n n' = x_str_hessian xm w v close' n n'.
  Proof.
    intros H n n'. assert (I : forall Q k, x_iter xm w v close Q k = x_iter xm w v close' Q k).
    { intros Q k'. apply functional_extensionality; intro a. apply functional_extensionality; intro b. unfold x_iter. cbv zeta.
      destruct (ix3_eqb (sb k') (sa k')) eqn:E; [reflexivity|]. unfold x_f. rewrite (H k' E). reflexivity. }
    unfold x_str_hessian. cbv zeta. rewrite !I. reflexivity.
  Qed.
  (** exact results *)
  Definition exact_comp (K2 K : R) : Comp := {| c_dWdC := fun _ n => fuzz K (Gx0 K2 n); c_d2WdCdC := fun _ n n' => fuzz K (Hx0 K2 n n') |}.
  Lemma fin_exact_g K2 K : ex6 (c_dWdC (exact_comp K2 K) (x_seen k XF)) = Gx0 K2.
  Proof. apply Vec6_ext. intro n. unfold ex6. cbn [c_dWdC exact_comp]. apply fuzz_exact. Qed.
  Lemma fin_exact_h K2 K : ex66 (c_d2WdCdC (exact_comp K2 K) (x_seen k XF)) = Hx0 K2.
  Proof. apply Mat6_ext. intros n n'. unfold ex66. cbn [c_d2WdCdC exact_comp]. apply fuzz_exact. Qed.
  Lemma fin_fw K2 (s : StrSelf m) : exists svn s', str_gradient lapack m Cs sv s = (s', Ok (Gx0 K2, svn)).
  Proof.
    destruct (fin_model K2 sv (st_model m s)) as (svn & s1 & s2 & h & E1 & E2 & E3). exists svn.
    rewrite (str_gradient_ok lapack m Cs sv s s1 _ svn E1). eexists. reflexivity.
  Qed.
  Lemma fin_fwh K2 (s : StrSelf m) : outcome (str_hessian lapack m Cs sv) s = Ok (Hx0 K2).
  Proof.
    destruct (fin_model K2 sv (st_model m s)) as (svn & s1 & s2 & h & E1 & E2 & E3).
    destruct (str_hessian_ok lapack m Cs sv s s1 _ svn s2 h E1 E2) as (s' & E & _). unfold outcome. rewrite E. cbn [snd]. f_equal. unfold strHv.
    change (lam lapack Cs) with (l0 ws). change (vec lapack Cs) with v0.
    assert (ED : strD (l0 ws) (g0 xm ws K2) h = strD (l0 ws) (g0 xm ws K2) (h0 xm ws K2)).
    { apply functional_extensionality; intro a. apply functional_extensionality; intro b. unfold strD. rewrite E3. reflexivity. }
    assert (EF : strF (l0 ws) (g0 xm ws K2) h = strF (l0 ws) (g0 xm ws K2) (h0 xm ws K2)).
    { apply functional_extensionality; intro a. apply functional_extensionality; intro b. unfold strF. rewrite ED. reflexivity. }
    rewrite ED, EF. reflexivity.
  Qed.
  Notation fw := (stretches_fw lapack m).
  Lemma fin_stress f a (s : SpaceSelf (StrSelf m)) : exists T svn K u0,
    outcome (sp_gradient k fw {| finalize := true; force := f; area := a |} F sv) s = Ok (StressFull T, svn) /\ 0 < u0 /\
    forall u i j x, 0 <= u <= u0 -> float_stress_at c u xm k f a XF i j x -> Rabs (x - T i j) <= K * u.
  Proof.
    destruct fin_numbers as (K2 & u1 & HK2 & Hu1 & H1). destruct (fin_gradient K2 HK2) as (K & u2 & HK & Hu2 & H2).
    destruct (fin_fw K2 (sp_mat s)) as (svn & s' & E).
    set (m' := exact_comp K2 K).
    assert (XG : ex6 (c_dWdC m' (x_seen k XF)) = Gx0 K2) by exact (fin_exact_g K2 K).
    assert (XH : ex66 (c_d2WdCdC m' (x_seen k XF)) = Hx0 K2) by exact (fin_exact_h K2 K).
    assert (RG : forall v, regular (c_dWdC m' (x_seen k XF) v)) by (intro; apply fuzz_regular).
    assert (RH : forall v w, regular (c_d2WdCdC m' (x_seen k XF) v w)) by (intros; apply fuzz_regular).
    destruct (uniform2 (x_gradient k m' XF f a) (fw_reg_gradient k m' XF RF HF RG RH f a)) as (K' & u3 & Hu3 & H3).
    exists (ex33 (x_gradient k m' XF f a)), svn, K', (Rmin (Rmin u1 u2) u3).
    split; [|split; [repeat apply Rmin_pos; auto|]].
    - apply (fw_ex_gradient k m' XF f a SV fw sv svn s). rewrite XG. exact (f_equal snd E).
    - pose proof (Rmin_l (Rmin u1 u2) u3). pose proof (Rmin_r (Rmin u1 u2) u3). pose proof (Rmin_l u1 u2). pose proof (Rmin_r u1 u2).
      intros u i j x U (A & w & v & HA & HE & HX'). destruct (H1 u w v ltac:(lra)) as (vs & HN); [exists A; auto|].
      apply (H3 u i j x); [lra|]. revert x HX'. apply inc_gradient. intros n y HY.
      apply (fuzz_inc u K (Gx0 K2 n) y); [lra|exact HK| |reflexivity]. apply (H2 n (w, v, vs) u y); [lra|exact HN|exact HY].
  Qed.
  (** one point of a curve *)
  Lemma fin_point (s : SpaceSelf (StrSelf m)) : F X0 X0 <> 0 -> exists T svn K u0,
    outcome (sp_gradient k fw default_opts F sv) s = Ok (StressFull T, svn) /\ 0 < u0 /\
    forall u y, 0 <= u <= u0 -> float_point c u xm k XF y -> Rabs (y - (T X0 X0 - T X2 X2 * F X2 X2 / F X0 X0)) <= K * u.
  Proof.
    intro N0. destruct fin_numbers as (K2 & u1 & HK2 & Hu1 & H1). destruct (fin_gradient K2 HK2) as (K & u2 & HK & Hu2 & H2).
    destruct (fin_fw K2 (sp_mat s)) as (svn & s' & E).
    set (m' := exact_comp K2 K).
    assert (XG : ex6 (c_dWdC m' (x_seen k XF)) = Gx0 K2) by exact (fin_exact_g K2 K).
    assert (XH : ex66 (c_d2WdCdC m' (x_seen k XF)) = Hx0 K2) by exact (fin_exact_h K2 K).
    assert (RG : forall v, regular (c_dWdC m' (x_seen k XF) v)) by (intro; apply fuzz_regular).
    assert (RH : forall v w, regular (c_d2WdCdC m' (x_seen k XF) v w)) by (intros; apply fuzz_regular).
    pose proof (fw_reg_gradient k m' XF RF HF RG RH Deformed Undeformed) as RP.
    assert (RE : regular (x_lc_stress XF (x_gradient k m' XF Deformed Undeformed))).
    { unfold x_lc_stress. split; [apply RP|]. split; [split; [apply RP|apply RF]|]. split; [apply RF|exact N0]. }
    destruct (regular_order_u _ RE) as (K' & u3 & _ & Hu3 & H3).
    exists (ex33 (x_gradient k m' XF Deformed Undeformed)), svn, K', (Rmin (Rmin u1 u2) u3).
    split; [|split; [repeat apply Rmin_pos; auto|]].
    - apply (fw_ex_gradient k m' XF Deformed Undeformed SV fw sv svn s). rewrite XG. exact (f_equal snd E).
    - pose proof (Rmin_l (Rmin u1 u2) u3). pose proof (Rmin_r (Rmin u1 u2) u3). pose proof (Rmin_l u1 u2). pose proof (Rmin_r u1 u2).
      intros u x U (A & w & v & HA & HE & HX'). destruct (H1 u w v ltac:(lra)) as (vs & HN); [exists A; auto|].
      apply (H3 u x); [lra|]. revert x HX'. assert (IG : forall i j, inc u (x_gradient k (str_comp xm w v (fun _ => true)) XF Deformed Undeformed i j) (x_gradient k m' XF Deformed Undeformed i j)).
      { intros i j. apply inc_gradient. intros n y HY.
        apply (fuzz_inc u K (Gx0 K2 n) y); [lra|exact HK| |reflexivity]. apply (H2 n (w, v, vs) u y); [lra|exact HN|exact HY]. }
      unfold x_lc_stress. apply inc_sub; [apply IG|]. apply inc_div; [|apply inc_refl]. apply inc_mul; [apply IG|apply inc_refl].
  Qed.
  Lemma fin_elasticity f a (s : SpaceSelf (StrSelf m)) : unambiguous -> (k = KDistortional -> clear_cut fw F) -> exists A K u0,
    outcome (sp_hessian k fw {| finalize := true; force := f; area := a |} F sv) s = Ok (ElastFull A) /\ 0 < u0 /\
    forall u i j p q x, 0 <= u <= u0 -> float_elasticity_at c u xm k f a XF i j p q x -> Rabs (x - A i j p q) <= K * u.
  Proof.
    intros HU HC. destruct fin_numbers as (K2 & u1 & HK2 & Hu1 & H1). destruct (fin_gradient K2 HK2) as (Kg & u2 & HKg & Hu2 & H2).
    destruct (fin_hessian K2 HK2) as (Kh & u3 & HKh & Hu3 & H3). destruct (fin_close K2 HK2 HU) as (u4 & Hu4 & H4).
    destruct (fin_fw K2 (sp_mat s)) as (svn & s' & E).
    set (K := Kg + Kh). assert (HK : 0 <= K) by (unfold K; lra). set (m' := exact_comp K2 K).
    assert (XG : ex6 (c_dWdC m' (x_seen k XF)) = Gx0 K2) by exact (fin_exact_g K2 K).
    assert (XH : ex66 (c_d2WdCdC m' (x_seen k XF)) = Hx0 K2) by exact (fin_exact_h K2 K).
    assert (RG : forall v, regular (c_dWdC m' (x_seen k XF) v)) by (intro; apply fuzz_regular).
    assert (RH : forall v w, regular (c_d2WdCdC m' (x_seen k XF) v w)) by (intros; apply fuzz_regular).
    assert (CUT : cut k m' XF).
    { intro EK. assert (ES : Cs = asvoigt (distortional_part (cauchy_green F))).
      { rewrite EK. cbn [seen]. unfold distortional_part. rewrite det_cg, <- right_CG_full.
        apply Vec6_ext. intro v. unfold vscal, asvoigt, mscal, astensor. destruct v; reflexivity. }
      pose proof (fin_fwh K2 s') as EH'. pose proof (ex_C4b k m' XF) as E4.
      assert (EE : forall v w, exact (x_C4b k m' XF v w) = 4 * Rpower (det3 (cauchy_green F)) (-2/3) * Hx0 K2 v w).
      { intros v w. change (exact (x_C4b k m' XF v w)) with (ex66 (x_C4b k m' XF) v w). rewrite E4, XH, det_cg. rewrite EK. reflexivity. }
      specialize (HC EK sv s' (Hx0 K2)). rewrite <- ES in HC. 
      destruct (HC EH') as [HB|(v & w & HB)]; [left|right; exists v, w]; intros; rewrite EE; auto. }
    destruct (comp_elasticity k m' XF f a RF HF RG RH CUT) as (K' & u5 & Hu5 & H5).
    exists (fun i j p q => exact (x_hessian k m' XF f a (allclose0 (ex66 (x_C4b k m' XF))) i j p q)), K', (Rmin (Rmin (Rmin u1 u2) (Rmin u3 u4)) u5).
    split; [|split; [repeat apply Rmin_pos; auto|]].
    - apply (fw_ex_hessian k m' XF f a SV fw sv svn s s').
      + rewrite XG. exact E.
      + rewrite XH. exact (fin_fwh K2 s').
    - pose proof (Rmin_l (Rmin (Rmin u1 u2) (Rmin u3 u4)) u5). pose proof (Rmin_r (Rmin (Rmin u1 u2) (Rmin u3 u4)) u5).
      pose proof (Rmin_l (Rmin u1 u2) (Rmin u3 u4)). pose proof (Rmin_r (Rmin u1 u2) (Rmin u3 u4)).
      pose proof (Rmin_l u1 u2). pose proof (Rmin_r u1 u2). pose proof (Rmin_l u3 u4). pose proof (Rmin_r u3 u4).
      intros u i j p q x U (A & w & v & close & HA & HE & HCl & B & atol & small & HB & HFl & HS & HX').
      destruct (H1 u w v ltac:(lra)) as (vs & HN); [exists A; auto|].
      pose proof (H4 u (w, v, vs) close ltac:(lra) HN HCl) as EC.
      assert (IG : forall n, inc u (c_dWdC (str_comp xm w v close) (x_seen k XF) n) (c_dWdC m' (x_seen k XF) n)).
      { intros n y HY. apply (fuzz_inc u K (Gx0 K2 n) y); [lra|exact HK| |reflexivity].
        eapply Rle_trans; [apply (H2 n (w, v, vs) u y); [lra|exact HN|exact HY]|]. unfold K. nra. }
      assert (IH : forall n n', inc u (c_d2WdCdC (str_comp xm w v close) (x_seen k XF) n n') (c_d2WdCdC m' (x_seen k XF) n n')).
      { intros n n' y HY. apply (fuzz_inc u K (Hx0 K2 n n') y); [lra|exact HK| |reflexivity].
        cbn [c_d2WdCdC str_comp] in HY. rewrite (close_ext _ _ close (close0 ws) EC) in HY.
        eapply Rle_trans; [apply (H3 n n' (w, v, vs) u y); [lra|exact HN|exact HY]|]. unfold K. nra. }
      apply (H5 u i j p q x); [lra|]. exists B, atol, small. split; [|split; [exact HFl|split; [exact HS|]]].
      + intros v' w'. apply (inc_C4b u k (str_comp xm w v close) m' XF IG IH). apply HB.
      + revert x HX'. apply (inc_hessian u k (str_comp xm w v close) m' XF IG IH).
  Qed.
End Final.
