(** Eigenvectors of a perturbed symmetric tensor: near every eigensystem of B, close to A,
    there is an eigensystem of A (also if eigenvalues of A coincide; no code modelled here). *)
From Coq Require Import Reals Lra Psatz.
From Verif Require Import Tensor Algebra EigCore.
Local Open Scope R_scope.

Lemma Rabs_le_inv x e : Rabs x <= e -> - e <= x <= e.
Proof. intro H. unfold Rabs in H. destruct (Rcase_abs x); lra. Qed.
(** *** An almost orthogonal block has an orthogonal matrix nearby *)
Lemma near_one x a b e : x ^ 2 = 1 - a ^ 2 - b ^ 2 -> Rabs a <= e -> Rabs b <= e -> e <= / 4 ->
  exists s, s ^ 2 = 1 /\ Rabs (s - x) <= e.
Proof.
  intros E Ha Hb He. assert (0 <= e) by (pose proof (Rabs_pos a); lra).
  assert (A2 : a ^ 2 <= e ^ 2) by (apply Rabs_le_inv in Ha; nra).
  assert (B2 : b ^ 2 <= e ^ 2) by (apply Rabs_le_inv in Hb; nra).
  destruct (Rle_dec 0 x) as [P|P].
  - exists 1. split; [ring|]. assert (x <= 1) by nra. rewrite Rabs_pos_eq by lra. nra.
  - exists (-1). split; [ring|]. assert (-1 <= x) by nra. rewrite Rabs_left1 by lra. nra.
Qed.
Lemma near_block x0 y0 x1 y1 a0 a1 e :
  x0 ^ 2 + y0 ^ 2 = 1 - a0 ^ 2 -> x1 ^ 2 + y1 ^ 2 = 1 - a1 ^ 2 -> x0 * x1 + y0 * y1 = - (a0 * a1) ->
  Rabs a0 <= e -> Rabs a1 <= e -> e <= / 4 ->
  exists p0 q0 p1 q1, p0 ^ 2 + q0 ^ 2 = 1 /\ p1 ^ 2 + q1 ^ 2 = 1 /\ p0 * p1 + q0 * q1 = 0 /\
    Rabs (p0 - x0) <= e /\ Rabs (q0 - y0) <= e /\ Rabs (p1 - x1) <= e /\ Rabs (q1 - y1) <= e.
Proof.
  intros E0 E1 EO H0 H1 He. assert (Pe : 0 <= e) by (pose proof (Rabs_pos a0); lra).
  apply Rabs_le_inv in H0. apply Rabs_le_inv in H1.
  assert (A0 : a0 ^ 2 <= e ^ 2) by nra. assert (A1 : a1 ^ 2 <= e ^ 2) by nra.
  assert (S0 : 15 / 16 <= x0 ^ 2 + y0 ^ 2 <= 1) by nra.
  set (n := sqrt (x0 ^ 2 + y0 ^ 2)).
  assert (N2 : n ^ 2 = x0 ^ 2 + y0 ^ 2) by (unfold n; rewrite <- Rsqr_pow2; apply Rsqr_sqrt; lra).
  assert (Pn0 : 0 <= n) by apply sqrt_pos.
  assert (Pn : 1 / 2 < n) by nra. assert (Pn1 : n <= 1) by nra.
  set (c := x0 / n). set (s := y0 / n).
  assert (Ec : x0 = n * c) by (unfold c; field; lra). assert (Es : y0 = n * s) by (unfold s; field; lra).
  assert (CS : c ^ 2 + s ^ 2 = 1).
  { rewrite Ec, Es in N2. assert (n ^ 2 * (c ^ 2 + s ^ 2 - 1) = 0) by nra.
    apply Rmult_integral in H. destruct H; [nra|lra]. }
  (* the second column in the basis (c, s), (-s, c) *)
  set (p := c * x1 + s * y1). set (q := c * y1 - s * x1).
  assert (PQ : p ^ 2 + q ^ 2 = 1 - a1 ^ 2).
  { rewrite <- E1. unfold p, q. replace (x1 ^ 2 + y1 ^ 2) with ((c ^ 2 + s ^ 2) * (x1 ^ 2 + y1 ^ 2)) by (rewrite CS; ring). ring. }
  assert (Pp : n * p = - (a0 * a1)) by (rewrite <- EO, Ec, Es; unfold p; ring).
  assert (Bp : Rabs p <= 2 * e ^ 2).
  { assert (Hq : Rabs (n * p) <= e ^ 2). { rewrite Pp, Rabs_Ropp, Rabs_mult. 
      assert (Rabs a0 <= e) by (apply Rabs_le; lra). assert (Rabs a1 <= e) by (apply Rabs_le; lra).
      pose proof (Rabs_pos a0). pose proof (Rabs_pos a1). nra. }
    rewrite Rabs_mult, (Rabs_pos_eq n) in Hq by lra. pose proof (Rabs_pos p). nra. }
  assert (X1 : x1 = c * p - s * q). { unfold p, q. replace (c * (c * x1 + s * y1) - s * (c * y1 - s * x1)) with ((c ^ 2 + s ^ 2) * x1) by ring. rewrite CS. ring. }
  assert (Y1 : y1 = s * p + c * q). { unfold p, q. replace (s * (c * x1 + s * y1) + c * (c * y1 - s * x1)) with ((c ^ 2 + s ^ 2) * y1) by ring. rewrite CS. ring. }
  apply Rabs_le_inv in Bp.
  assert (Bc : -1 <= c <= 1) by nra. assert (Bs : -1 <= s <= 1) by nra.
  assert (n2e : 1 - n <= e ^ 2) by nra. assert (ee : 4 * e ^ 2 <= e) by nra.
  assert (p2 : p ^ 2 <= e ^ 2) by nra.
  assert (Q : exists g, g ^ 2 = 1 /\ Rabs (g - q) <= 2 * e ^ 2).
  { destruct (Rle_dec 0 q) as [P|P].
    - exists 1. split; [ring|]. assert (q <= 1) by nra. rewrite Rabs_pos_eq by lra. nra.
    - exists (-1). split; [ring|]. assert (-1 <= q) by nra. rewrite Rabs_left1 by lra. nra. }
  destruct Q as (g & G1 & G2). apply Rabs_le_inv in G2.
  exists c, s, (- (g * s)), (g * c).
  split; [exact CS|]. split; [replace ((- (g * s)) ^ 2 + (g * c) ^ 2) with (g ^ 2 * (c ^ 2 + s ^ 2)) by ring; rewrite G1, CS; ring|].
  split; [ring|]. 
  assert (D : forall z t z' t' B C, -1 <= z <= 1 -> -1 <= z' <= 1 -> Rabs t <= B -> Rabs t' <= C -> Rabs (z * t + z' * t') <= B + C).
  { intros z t z' t' B C Hz Hz' Ht Ht'. eapply Rle_trans; [apply Rabs_triang|]. rewrite !Rabs_mult.
    assert (Rabs z <= 1) by (apply Rabs_le; lra). assert (Rabs z' <= 1) by (apply Rabs_le; lra).
    pose proof (Rabs_pos t). pose proof (Rabs_pos t'). pose proof (Rabs_pos z). pose proof (Rabs_pos z'). nra. }
  assert (Dp : Rabs p <= 2 * e ^ 2) by (apply Rabs_le; lra). assert (Dg : Rabs (g - q) <= 2 * e ^ 2) by (apply Rabs_le; lra).
  assert (Dn : Rabs (1 - n) <= e ^ 2) by (rewrite Rabs_pos_eq; lra).
  assert (Dz : Rabs 0 <= e ^ 2) by (rewrite Rabs_R0; nra).
  split; [|split; [|split]].
  - replace (c - x0) with (c * (1 - n) + s * 0) by (rewrite Ec; ring). eapply Rle_trans; [apply (D _ _ _ _ (e ^ 2) (e ^ 2)); auto|lra].
  - replace (s - y0) with (s * (1 - n) + c * 0) by (rewrite Es; ring). eapply Rle_trans; [apply (D _ _ _ _ (e ^ 2) (e ^ 2)); auto|lra].
  - replace (- (g * s) - x1) with ((- c) * p + (- s) * (g - q)) by (rewrite X1; ring). eapply Rle_trans; [apply (D _ _ _ _ (2 * e ^ 2) (2 * e ^ 2)); auto; lra|lra].
  - replace (g * c - y1) with ((- s) * p + c * (g - q)) by (rewrite Y1; ring). eapply Rle_trans; [apply (D _ _ _ _ (2 * e ^ 2) (2 * e ^ 2)); auto; lra|lra].
Qed.

(** *** Respecting the multiplicities of the eigenvalues *)
Definition tab3 (a b c d e f g h k : R) : T2 := fun i j =>
  match i, j with
  | X0, X0 => a | X0, X1 => b | X0, X2 => c | X1, X0 => d | X1, X1 => e | X1, X2 => f | X2, X0 => g | X2, X1 => h | X2, X2 => k
  end.
Lemma near_orth (c : T2) (w : Vec3) e : orthogonal c -> w X0 <= w X1 <= w X2 -> 0 <= e <= / 4 ->
  (forall b a, w b <> w a -> Rabs (c b a) <= e) ->
  exists r, orthogonal r /\ (forall b a, w b <> w a -> r b a = 0) /\ forall b a, Rabs (r b a - c b a) <= e.
Proof.
  intros O S He H.
  assert (O' : forall a b, c X0 a * c X0 b + c X1 a * c X1 b + c X2 a * c X2 b = delta a b) by (intros a b; specialize (O a b); unfold mmul, mtr, one2, sum3 in O; exact O).
  pose proof (O' X0 X0) as O00. pose proof (O' X1 X1) as O11. pose proof (O' X2 X2) as O22.
  pose proof (O' X0 X1) as O01. pose proof (O' X0 X2) as O02. pose proof (O' X1 X2) as O12.
  unfold delta in O00, O11, O22, O01, O02, O12. cbn [ix3_eqb] in *. clear O'.
  destruct (Req_EM_T (w X0) (w X1)) as [E01|N01]; destruct (Req_EM_T (w X1) (w X2)) as [E12|N12].
  - exists c. split; [exact O|]. split.
    + intros b a Hba. exfalso. apply Hba. destruct b, a; congruence.
    + intros b a. unfold Rminus. rewrite Rplus_opp_r, Rabs_R0. lra.
  - assert (N02 : w X0 <> w X2) by congruence.
    assert (H02 := H X0 X2 N02). assert (H20 := H X2 X0 (not_eq_sym N02)). assert (H12 := H X1 X2 N12). assert (H21 := H X2 X1 (not_eq_sym N12)).
    destruct (near_block (c X0 X0) (c X1 X0) (c X0 X1) (c X1 X1) (c X2 X0) (c X2 X1) e) as (p0 & q0 & p1 & q1 & B1 & B2 & B3 & D1 & D2 & D3 & D4); try lra; auto.
    destruct (near_one (c X2 X2) (c X0 X2) (c X1 X2) e) as (s & S1 & D5); try lra; auto.
    exists (tab3 p0 p1 0 q0 q1 0 0 0 s). split; [|split].
    + intros a b. unfold mmul, mtr, one2, sum3, delta. destruct a, b; cbn; lra.
    + intros b a Hba. destruct b, a; cbn; try reflexivity; exfalso; congruence.
    + intros b a. destruct b, a; cbn [tab3]; auto; unfold Rminus; rewrite Rplus_0_l, Rabs_Ropp; auto.
  - assert (N02 : w X0 <> w X2) by congruence.
    assert (H02 := H X0 X2 N02). assert (H20 := H X2 X0 (not_eq_sym N02)). assert (H01 := H X0 X1 N01). assert (H10 := H X1 X0 (not_eq_sym N01)).
    destruct (near_block (c X1 X1) (c X2 X1) (c X1 X2) (c X2 X2) (c X0 X1) (c X0 X2) e) as (p0 & q0 & p1 & q1 & B1 & B2 & B3 & D1 & D2 & D3 & D4); try lra; auto.
    destruct (near_one (c X0 X0) (c X1 X0) (c X2 X0) e) as (s & S1 & D5); try lra; auto.
    exists (tab3 s 0 0 0 p0 p1 0 q0 q1). split; [|split].
    + intros a b. unfold mmul, mtr, one2, sum3, delta. destruct a, b; cbn; lra.
    + intros b a Hba. destruct b, a; cbn; try reflexivity; exfalso; congruence.
    + intros b a. destruct b, a; cbn [tab3]; auto; unfold Rminus; rewrite Rplus_0_l, Rabs_Ropp; auto.
  - assert (N02 : w X0 <> w X2) by lra.
    assert (H02 := H X0 X2 N02). assert (H20 := H X2 X0 (not_eq_sym N02)). assert (H01 := H X0 X1 N01). assert (H10 := H X1 X0 (not_eq_sym N01)).
    assert (H12 := H X1 X2 N12). assert (H21 := H X2 X1 (not_eq_sym N12)).
    destruct (near_one (c X0 X0) (c X1 X0) (c X2 X0) e) as (s0 & S0 & D0); try lra; auto.
    destruct (near_one (c X1 X1) (c X0 X1) (c X2 X1) e) as (s1 & S1 & D1); try lra; auto.
    destruct (near_one (c X2 X2) (c X0 X2) (c X1 X2) e) as (s2 & S2 & D2); try lra; auto.
    exists (tab3 s0 0 0 0 s1 0 0 0 s2). split; [|split].
    + intros a b. unfold mmul, mtr, one2, sum3, delta. destruct a, b; cbn; lra.
    + intros b a Hba. destruct b, a; cbn; try reflexivity; exfalso; congruence.
    + intros b a. destruct b, a; cbn [tab3]; auto; unfold Rminus; rewrite Rplus_0_l, Rabs_Ropp; auto.
Qed.

(** *** The smallest distance between different eigenvalues *)
Lemma eig_gap (w : Vec3) : exists g, 0 < g /\ forall b a, w b <> w a -> g <= Rabs (w b - w a).
Proof.
  assert (P : forall x y : R, exists g, 0 < g /\ (x <> y -> g <= Rabs (x - y))).
  { intros x y. destruct (Req_EM_T x y) as [E|N]; [exists 1; split; [lra|contradiction]|].
    exists (Rabs (x - y)). split; [apply Rabs_pos_lt; lra|lra]. }
  destruct (P (w X0) (w X1)) as (g1 & P1 & G1). destruct (P (w X0) (w X2)) as (g2 & P2 & G2). destruct (P (w X1) (w X2)) as (g3 & P3 & G3).
  exists (Rmin g1 (Rmin g2 g3)). pose proof (Rmin_l g1 (Rmin g2 g3)). pose proof (Rmin_r g1 (Rmin g2 g3)). pose proof (Rmin_l g2 g3). pose proof (Rmin_r g2 g3).
  split; [repeat apply Rmin_pos; auto|]. intros b a N.
  assert (M : forall x y : R, x <> y -> y <> x) by auto.
  destruct b, a; try congruence; [specialize (G1 N)|specialize (G2 N)|specialize (G1 (M _ _ N)); rewrite Rabs_minus_sym|specialize (G3 N)|specialize (G2 (M _ _ N)); rewrite Rabs_minus_sym|specialize (G3 (M _ _ N)); rewrite Rabs_minus_sym]; lra.
Qed.

Lemma col_le A w v i a : eig_legal A w v -> Rabs (v i a) <= 1.
Proof. intro L. apply (unit_component (column v a) i). apply (column_norm A w v L a). Qed.

Lemma near_eig A w v : eig_legal A w v -> exists K d, 0 <= K /\ 0 < d /\
  forall B w' v', eig_legal B w' v' -> dist2 A B <= d ->
    exists vs, eig_legal A w vs /\ forall i a, Rabs (v' i a - vs i a) <= K * dist2 A B.
Proof.
  intro LA. destruct (eig_gap w) as (g & Pg & Hg).
  exists (3 * (2 / g)), (Rmin (g / 42) (g / 8)). assert (0 < 2 / g) by (apply Rdiv_lt_0_compat; lra).
  split; [lra|]. split; [apply Rmin_pos; lra|]. intros B w' v' LB HD. pose proof (Rmin_l (g / 42) (g / 8)). pose proof (Rmin_r (g / 42) (g / 8)).
  set (ep := dist2 A B) in *. assert (Pe : 0 <= ep) by apply dist2_pos.
  set (c := mmul (mtr v) v').
  assert (OV : mmul (mtr v) v = one2) by (apply T2_ext; intros; apply (proj1 LA)).
  assert (OV' : mmul (mtr v') v' = one2) by (apply T2_ext; intros; apply (proj1 LB)).
  assert (OVr : mmul v (mtr v) = one2) by (apply orthogonal_right; intros i j; rewrite OV; reflexivity).
  assert (OC : orthogonal c).
  { intros i j. unfold c. rewrite mtr_mmul, mtr_mtr, mmul_assoc, <- (mmul_assoc v), OVr, mmul_1_l, OV'. reflexivity. }
  assert (EV : v' = mmul v c) by (unfold c; rewrite <- mmul_assoc, OVr, mmul_1_l; reflexivity).
  assert (Off : forall b a, (w b - w' a) * c b a = sum3 (fun i => sum3 (fun j => v i b * (A i j - B i j) * v' j a))).
  { intros b a.
    assert (SA : sym2 A) by (apply (eig_sym A w v LA)).
    transitivity (sum3 (fun j => sum3 (fun i => A j i * v i b) * v' j a) - sum3 (fun i => v i b * sum3 (fun j => B i j * v' j a))).
    - assert (E1 : forall j, sum3 (fun i => A j i * v i b) = w b * v j b) by (intro; apply (proj1 (proj2 LA))).
      assert (E2 : forall i, sum3 (fun j => B i j * v' j a) = w' a * v' i a) by (intro; apply (proj1 (proj2 LB))).
      transitivity (sum3 (fun j => w b * v j b * v' j a) - sum3 (fun i => v i b * (w' a * v' i a))).
      + unfold c, mmul, mtr, sum3. ring.
      + f_equal; apply sum3_ext; intro; [rewrite E1|rewrite E2]; reflexivity.
    - unfold sum3. rewrite (SA X1 X0), (SA X2 X0), (SA X2 X1). ring. }
  assert (OffB : forall b a, Rabs ((w b - w' a) * c b a) <= ep).
  { intros b a. rewrite Off.
    assert (T : forall i j, Rabs (v i b * (A i j - B i j) * v' j a) <= Rabs (A i j - B i j)).
    { intros i j. rewrite !Rabs_mult. pose proof (col_le A w v i b LA). pose proof (col_le B w' v' j a LB).
      pose proof (Rabs_pos (v i b)). pose proof (Rabs_pos (v' j a)). pose proof (Rabs_pos (A i j - B i j)).
      assert (Rabs (v i b) * Rabs (A i j - B i j) <= Rabs (A i j - B i j)) by nra.
      assert (0 <= Rabs (v i b) * Rabs (A i j - B i j)) by nra. nra. }
    assert (T3 : forall f h : ix3 -> R, (forall i, Rabs (f i) <= h i) -> Rabs (sum3 f) <= sum3 h).
    { intros f h Hf. unfold sum3. eapply Rle_trans; [apply Rabs_triang|]. pose proof (Rabs_triang (f X0) (f X1)). pose proof (Hf X0). pose proof (Hf X1). pose proof (Hf X2). lra. }
    unfold ep, dist2. apply T3. intro i. apply T3. intro j. apply T. }
  assert (HC : forall b a, w b <> w a -> Rabs (c b a) <= 2 / g * ep).
  { intros b a N. specialize (OffB b a). rewrite Rabs_mult in OffB. specialize (Hg b a N).
    assert (W := weyl A B w v w' v' a LA LB). fold ep in W.
    assert (G : g / 2 <= Rabs (w b - w' a)).
    { replace (w b - w a) with ((w b - w' a) + - (w a - w' a)) in Hg by ring.
      assert (Tr := Rabs_triang (w b - w' a) (- (w a - w' a))). rewrite Rabs_Ropp in Tr. lra. }
    pose proof (Rabs_pos (c b a)). apply Rmult_le_reg_l with (g / 2); [lra|].
    replace (g / 2 * (2 / g * ep)) with ep by (field; lra). nra. }
  destruct (near_orth c w (2 / g * ep) OC (proj2 (proj2 LA))) as (r & OR & Z & HR); [|exact HC|].
  { split; [nra|]. apply Rmult_le_reg_l with (g / 2); [lra|]. replace (g / 2 * (2 / g * ep)) with ep by (field; lra). lra. }
  exists (mmul v r). split; [split; [|split]|].
  - intros a b. change (mmul (mtr (mmul v r)) (mmul v r) a b = one2 a b).
    rewrite mtr_mmul, mmul_assoc, <- (mmul_assoc (mtr v)), OV, mmul_1_l. apply OR.
  - intros i a. change (mmul A (mmul v r) i a = w a * mmul v r i a). rewrite <- mmul_assoc.
    assert (E1 : forall b, mmul A v i b = w b * v i b) by (intro; apply (proj1 (proj2 LA))).
    transitivity (sum3 (fun b => mmul A v i b * r b a)); [reflexivity|].
    transitivity (sum3 (fun b => w a * (v i b * r b a))); [|unfold mmul, sum3; ring].
    apply sum3_ext; intro b. rewrite E1. destruct (Req_EM_T (w b) (w a)) as [E|N]; [rewrite E; ring|]. rewrite (Z b a N). ring.
  - exact (proj2 (proj2 LA)).
  - intros i a. replace (v' i a) with (mmul v c i a) by (rewrite <- EV; reflexivity).
    replace (mmul v c i a - mmul v r i a) with (v i X0 * (c X0 a - r X0 a) + v i X1 * (c X1 a - r X1 a) + v i X2 * (c X2 a - r X2 a)) by (unfold mmul, sum3; ring).
    assert (T : forall b, Rabs (v i b * (c b a - r b a)) <= 2 / g * ep).
    { intro b. rewrite Rabs_mult, (Rabs_minus_sym (c b a)). specialize (HR b a). pose proof (col_le A w v i b LA).
      pose proof (Rabs_pos (v i b)). pose proof (Rabs_pos (r b a - c b a)). nra. }
    eapply Rle_trans; [apply Rabs_triang|]. pose proof (Rabs_triang (v i X0 * (c X0 a - r X0 a)) (v i X1 * (c X1 a - r X1 a))).
    pose proof (T X0). pose proof (T X1). pose proof (T X2). lra.
Qed.
