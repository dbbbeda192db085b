(** Every symmetric 3x3 matrix has a legal spectral decomposition, and there is a function
    that computes one: the hypothesis [lapack_legal] of the theorems about the Stretches
    framework can be met (no code modelled here). *)
From Coq Require Import Reals Lra Lia FunctionalExtensionality.
From Coquelicot Require Import Coquelicot.
From Verif Require Import Tensor Py Voigt VoigtProofs Algebra Calc Models Frameworks Spaces Spec EigCore.
Local Open Scope R_scope.

Definition apply2 (B : T2) (u : Vec3) (i : ix3) : R := sum3 (fun j => B i j * u j).
Definition dotv (u v : Vec3) : R := sum3 (fun i => u i * v i).
Definition cross (u v : Vec3) : Vec3 := fun i =>
  match i with X0 => u X1 * v X2 - u X2 * v X1 | X1 => u X2 * v X0 - u X0 * v X2 | X2 => u X0 * v X1 - u X1 * v X0 end.
Definition unitv (k : ix3) : Vec3 := delta k.

Lemma nonzero_dec (u : Vec3) : {exists i, u i <> 0} + {forall i, u i = 0}.
Proof.
  destruct (Req_EM_T (u X0) 0) as [E0|N0]; [|left; exists X0; auto].
  destruct (Req_EM_T (u X1) 0) as [E1|N1]; [|left; exists X1; auto].
  destruct (Req_EM_T (u X2) 0) as [E2|N2]; [|left; exists X2; auto].
  right; intros []; auto.
Qed.
Lemma norm2_pos u : (exists i, u i <> 0) -> 0 < norm2 u.
Proof.
  intros [i H]. unfold norm2, sum3. pose proof (pow2_ge_0 (u X0)); pose proof (pow2_ge_0 (u X1)); pose proof (pow2_ge_0 (u X2)).
  assert (0 < u i ^ 2) by (apply pow2_gt_0; auto). destruct i; lra.
Qed.
Lemma normalise (B : T2) (u : Vec3) : (exists i, u i <> 0) -> (forall i, apply2 B u i = 0) ->
  { x : Vec3 | norm2 x = 1 /\ forall i, apply2 B x i = 0 }.
Proof.
  intros N H. pose proof (norm2_pos u N) as P. exists (fun i => u i / sqrt (norm2 u)).
  assert (S : 0 < sqrt (norm2 u)) by (apply sqrt_lt_R0; auto).
  assert (SS : sqrt (norm2 u) ^ 2 = norm2 u) by (replace (sqrt (norm2 u) ^ 2) with (sqrt (norm2 u) * sqrt (norm2 u)) by ring; apply sqrt_sqrt; lra).
  set (n := sqrt (norm2 u)) in *. clearbody n. split.
  - unfold norm2, sum3 in *. 
    replace ((u X0 / n) ^ 2 + (u X1 / n) ^ 2 + (u X2 / n) ^ 2) with ((u X0 ^ 2 + u X1 ^ 2 + u X2 ^ 2) / n ^ 2) by (field; lra).
    rewrite SS. field. lra.
  - intro i. specialize (H i). unfold apply2, sum3 in *.
    replace (B i X0 * (u X0 / n) + B i X1 * (u X1 / n) + B i X2 * (u X2 / n)) with ((B i X0 * u X0 + B i X1 * u X1 + B i X2 * u X2) / n) by (field; lra).
    rewrite H. field. lra.
Qed.

(** A singular matrix has a unit vector in its kernel. *)
Lemma kernel (B : T2) : det3 B = 0 -> { x : Vec3 | norm2 x = 1 /\ forall i, apply2 B x i = 0 }.
Proof.
  intros D.
  assert (adjk : forall k i, apply2 B (fun j => adj3 B j k) i = 0).
  { intros k i. transitivity (det3 B * delta i k); [|rewrite D; ring].
    destruct i, k; unfold apply2, sum3, adj3, det3, delta; cbn; ring. }
  destruct (nonzero_dec (fun j => adj3 B j X0)) as [N|Z0]; [apply (normalise B _ N (adjk X0))|].
  destruct (nonzero_dec (fun j => adj3 B j X1)) as [N|Z1]; [apply (normalise B _ N (adjk X1))|].
  destruct (nonzero_dec (fun j => adj3 B j X2)) as [N|Z2]; [apply (normalise B _ N (adjk X2))|].
  assert (Z : forall j k, adj3 B j k = 0) by (intros j []; auto). clear Z0 Z1 Z2 adjk.
  assert (row : forall r k i, apply2 B (cross (B r) (unitv k)) i = 0).
  { intros r k i. pose proof (Z X0 X0); pose proof (Z X0 X1); pose proof (Z X0 X2); pose proof (Z X1 X0); pose proof (Z X1 X1);
    pose proof (Z X1 X2); pose proof (Z X2 X0); pose proof (Z X2 X1); pose proof (Z X2 X2).
    unfold adj3 in *. destruct r, i, k; unfold apply2, cross, unitv, delta, sum3; cbn in *; lra. }
  destruct (nonzero_dec (B X0)) as [N|Z0]; [|destruct (nonzero_dec (B X1)) as [N|Z1]; [|destruct (nonzero_dec (B X2)) as [N|Z2]]].
  4: { exists (unitv X0). split; [unfold norm2, unitv, delta, sum3; cbn; ring|].
       intro i. unfold apply2, sum3. destruct i; rewrite ?Z0, ?Z1, ?Z2; ring. }
  all: match type of N with exists i, ?BB ?r i <> 0 =>
    destruct (nonzero_dec (cross (BB r) (unitv X0))) as [M|W0]; [exact (normalise BB _ M (row r X0))|];
    destruct (nonzero_dec (cross (BB r) (unitv X1))) as [M|W1]; [exact (normalise BB _ M (row r X1))|];
    destruct (nonzero_dec (cross (BB r) (unitv X2))) as [M|W2]; [exact (normalise BB _ M (row r X2))|] end;
    exfalso; destruct N as [i N]; apply N;
    pose proof (W0 X1); pose proof (W0 X2); pose proof (W1 X0); pose proof (W1 X2); pose proof (W2 X0); pose proof (W2 X1);
    unfold cross, unitv, delta in *; destruct i; cbn in *; lra.
Qed.

(** The characteristic polynomial has a real root. *)
Lemma root (A : T2) : { x : R | det3 (fun i j => A i j - x * delta i j) = 0 }.
Proof.
  pose (a := tr2 A). pose (b := (tr2 A ^ 2 - tr2 (mmul A A)) / 2). pose (c := det3 A).
  assert (E : forall x, det3 (fun i j => A i j - x * delta i j) = - x ^ 3 + a * x ^ 2 - b * x + c).
  { intro x. unfold a, b, c, det3, tr2, mmul, delta, sum3; cbn. field. }
  pose (p := fun x => - x ^ 3 + a * x ^ 2 - b * x + c).
  assert (Kp : continuity p).
  { intro x. apply derivable_continuous_pt. unfold p. apply derivable_pt_plus; [apply derivable_pt_minus; [apply derivable_pt_plus|]|].
    - apply derivable_pt_opp, derivable_pt_pow.
    - apply derivable_pt_mult; [apply derivable_pt_const|apply derivable_pt_pow].
    - apply derivable_pt_mult; [apply derivable_pt_const|apply derivable_pt_id].
    - apply derivable_pt_const. }
  pose (M := 1 + Rabs a + Rabs b + Rabs c).
  pose proof (Rabs_pos a); pose proof (Rabs_pos b); pose proof (Rabs_pos c).
  pose proof (Rle_abs a); pose proof (Rle_abs b); pose proof (Rle_abs c).
  pose proof (Rle_abs (-a)); pose proof (Rle_abs (-b)); pose proof (Rle_abs (-c)). rewrite !Rabs_Ropp in *.
  assert (M1 : 1 <= M) by (unfold M; lra).
  assert (Ub : Rabs a * M ^ 2 + Rabs b * M + Rabs c <= M ^ 3).
  { assert (M <= M ^ 2) by nra. assert (1 <= M ^ 2) by nra.
    apply Rle_trans with ((Rabs a + Rabs b + Rabs c) * M ^ 2); [nra|].
    replace (M ^ 3) with (M * M ^ 2) by ring. apply Rmult_le_compat_r; [nra|unfold M; lra]. }
  assert (M2 : 0 <= M ^ 2) by nra.
  assert (P1 : p M <= 0) by (unfold p; nra).
  assert (P2 : 0 <= p (- M)) by (unfold p; nra).
  destruct (IVT_cor p (- M) M Kp) as (z & _ & Hz).
  - lra.
  - nra.
  - exists z. rewrite E. exact Hz.
Qed.

Lemma complete_basis (u : Vec3) : norm2 u = 1 -> { p : Vec3 | norm2 p = 1 /\ dotv u p = 0 }.
Proof.
  intros N.
  destruct (kernel (fun i j => match i with X0 => u j | _ => 0 end)) as (p & P1 & P2).
  - unfold det3; ring.
  - exists p. split; auto. apply (P2 X0).
Qed.

(** 2x2 block: a unit eigenvector. *)
Lemma block (al be ga : R) : { x : R * R * R | match x with (mu, c, s) =>
  c ^ 2 + s ^ 2 = 1 /\ al * c + be * s = mu * c /\ be * c + ga * s = mu * s end }.
Proof.
  pose (d := sqrt ((al - ga) ^ 2 + 4 * be ^ 2)).
  assert (d2 : d * d = (al - ga) ^ 2 + 4 * be ^ 2) by (apply sqrt_sqrt; pose proof (pow2_ge_0 (al - ga)); pose proof (pow2_ge_0 be); lra).
  pose (mu := (al + ga + d) / 2).
  assert (Q : (mu - al) * (mu - ga) = be ^ 2) by (unfold mu; nra).
  destruct (Req_EM_T be 0) as [Eb|Nb].
  - destruct (Req_EM_T mu al) as [Em|Nm].
    + exists (mu, 1, 0). split; [ring|split; rewrite Eb, Em; ring].
    + assert (Eg : mu = ga).
      { rewrite Eb in Q. replace (0 ^ 2) with 0 in Q by ring. destruct (Rmult_integral _ _ Q); lra. }
      exists (mu, 0, 1). split; [ring|split; rewrite Eb, ?Eg; ring].
  - pose (n := sqrt (be ^ 2 + (mu - al) ^ 2)).
    assert (P : 0 < be ^ 2) by (apply pow2_gt_0; auto).
    pose proof (pow2_ge_0 (mu - al)).
    assert (n2 : n * n = be ^ 2 + (mu - al) ^ 2) by (apply sqrt_sqrt; lra).
    assert (np : 0 < n) by (apply sqrt_lt_R0; lra).
    clearbody n mu. clear d d2.
    exists (mu, be / n, (mu - al) / n). repeat split.
    + replace ((be / n) ^ 2 + ((mu - al) / n) ^ 2) with ((be ^ 2 + (mu - al) ^ 2) / (n * n)) by (field; lra). rewrite n2. field. nra.
    + field. lra.
    + replace (be * (be / n) + ga * ((mu - al) / n)) with ((be ^ 2 + ga * (mu - al)) / n) by (field; lra).
      rewrite <- Q. field. lra.
Qed.

Definition cols (x y z : Vec3) : T2 := fun i a => match a with X0 => x i | X1 => y i | X2 => z i end.
Definition diagonalised (A : T2) (w : Vec3) (v : T2) : Prop :=
  (forall a b, sum3 (fun i => v i a * v i b) = delta a b) /\ (forall i a, sum3 (fun j => A i j * v j a) = w a * v i a).

Lemma decompose (A : T2) : sym2 A -> { p : Vec3 * T2 | diagonalised A (fst p) (snd p) }.
Proof.
  intros S. destruct (root A) as [x Hx].
  destruct (kernel _ Hx) as (u & Nu & Ku).
  destruct (complete_basis u Nu) as (p & Np & Op).
  pose (q := cross u p).
  assert (Au : forall i, apply2 A u i = x * u i).
  { intro i. specialize (Ku i). unfold apply2 in *. destruct i; unfold sum3, delta in *; cbn in *; lra. }
  assert (Nq : norm2 q = 1).
  { transitivity (norm2 u * norm2 p - dotv u p ^ 2); [unfold q, norm2, cross, dotv, sum3; ring|]. rewrite Nu, Np, Op; ring. }
  assert (Ouq : dotv u q = 0) by (unfold dotv, q, cross, sum3; ring).
  assert (Opq : dotv p q = 0) by (unfold dotv, q, cross, sum3; ring).
  clearbody q.
  assert (O : orthogonal (cols u p q)).
  { intros a b. unfold mmul, mtr. unfold norm2, dotv, sum3 in Nu, Np, Nq, Op, Ouq, Opq. 
    destruct a, b; unfold cols, one2, delta, sum3; cbn; nra. }
  assert (R := orthogonal_right _ O).
  assert (Full : forall i j, u i * u j + p i * p j + q i * q j = delta i j).
  { intros i j. change (mmul (cols u p q) (mtr (cols u p q)) i j = one2 i j). rewrite R. reflexivity. }
  (* block *)
  pose (bl := fun y z : Vec3 => sum3 (fun i => y i * apply2 A z i)).
  assert (blS : forall y z, bl y z = bl z y).
  { intros y z. unfold bl, apply2, sum3. rewrite (S X1 X0), (S X2 X0), (S X2 X1). ring. }
  assert (up : bl u p = 0). { rewrite blS. unfold bl. transitivity (x * dotv u p); [unfold sum3; rewrite !Au; unfold dotv, sum3; ring|rewrite Op; ring]. }
  assert (uq : bl u q = 0). { rewrite blS. unfold bl. transitivity (x * dotv u q); [unfold sum3; rewrite !Au; unfold dotv, sum3; ring|rewrite Ouq; ring]. }
  assert (exp : forall z i, apply2 A z i = bl u z * u i + bl p z * p i + bl q z * q i).
  { intros z i. transitivity (sum3 (fun k => delta i k * apply2 A z k)).
    - set (Y := apply2 A z); clearbody Y; destruct i; unfold delta, sum3; cbn; ring.
    - unfold bl, sum3. rewrite <- !Full. ring. }
  destruct (block (bl p p) (bl p q) (bl q q)) as [[[mu c] s] (N & E1 & E2)].
  assert (Ap : forall i, apply2 A p i = bl p p * p i + bl p q * q i) by (intro i; rewrite exp, up, (blS q p); ring).
  assert (Aq : forall i, apply2 A q i = bl p q * p i + bl q q * q i) by (intro i; rewrite exp, uq; ring).
  assert (alin : forall y z a b i, apply2 A (fun j => a * y j + b * z j) i = a * apply2 A y i + b * apply2 A z i).
  { intros. unfold apply2, sum3. ring. }
  set (al := bl p p) in *. set (be := bl p q) in *. set (ga := bl q q) in *. clearbody al be ga.
  (* the second eigenvalue of the block *)
  pose (nu := al + ga - mu).
  assert (F1 : al * (- s) + be * c = nu * (- s) /\ be * (- s) + ga * c = nu * c).
  { unfold nu. (* multiply by c^2+s^2 = 1 *)
    assert (Z1 : (al - mu) * c + be * s = 0) by lra.
    assert (Z2 : be * c + (ga - mu) * s = 0) by lra.
    (* from  Z1*s and Z2*c : the adjugate relations *)
    assert (Hm : mu = al * c ^ 2 + 2 * be * s * c + ga * s ^ 2).
    { transitivity (mu * (c ^ 2 + s ^ 2) + ((al - mu) * c + be * s) * c + (be * c + (ga - mu) * s) * s); [rewrite N, Z1, Z2; ring|ring]. }
    split; [|]; lra. }
  destruct F1 as [F1 F2]. clearbody nu.
  exists (vec3 x mu nu, cols u (fun j => c * p j + s * q j) (fun j => (- s) * p j + c * q j)). split.
  - intros a b. cbn [fst snd]. unfold norm2, dotv, sum3 in Nu, Np, Nq, Op, Ouq, Opq.
    destruct a, b; unfold cols, delta, sum3; cbn.
    + lra.
    + transitivity (c * (u X0 * p X0 + u X1 * p X1 + u X2 * p X2) + s * (u X0 * q X0 + u X1 * q X1 + u X2 * q X2)); [ring|rewrite Op, Ouq; ring].
    + transitivity (- s * (u X0 * p X0 + u X1 * p X1 + u X2 * p X2) + c * (u X0 * q X0 + u X1 * q X1 + u X2 * q X2)); [ring|rewrite Op, Ouq; ring].
    + transitivity (c * (u X0 * p X0 + u X1 * p X1 + u X2 * p X2) + s * (u X0 * q X0 + u X1 * q X1 + u X2 * q X2)); [ring|rewrite Op, Ouq; ring].
    + transitivity (c ^ 2 * (p X0 ^ 2 + p X1 ^ 2 + p X2 ^ 2) + 2 * c * s * (p X0 * q X0 + p X1 * q X1 + p X2 * q X2) + s ^ 2 * (q X0 ^ 2 + q X1 ^ 2 + q X2 ^ 2)); [ring|rewrite Np, Nq, Opq; lra].
    + transitivity (- c * s * (p X0 ^ 2 + p X1 ^ 2 + p X2 ^ 2) + (c ^ 2 - s ^ 2) * (p X0 * q X0 + p X1 * q X1 + p X2 * q X2) + s * c * (q X0 ^ 2 + q X1 ^ 2 + q X2 ^ 2)); [ring|rewrite Np, Nq, Opq; lra].
    + transitivity (- s * (u X0 * p X0 + u X1 * p X1 + u X2 * p X2) + c * (u X0 * q X0 + u X1 * q X1 + u X2 * q X2)); [ring|rewrite Op, Ouq; ring].
    + transitivity (- c * s * (p X0 ^ 2 + p X1 ^ 2 + p X2 ^ 2) + (c ^ 2 - s ^ 2) * (p X0 * q X0 + p X1 * q X1 + p X2 * q X2) + s * c * (q X0 ^ 2 + q X1 ^ 2 + q X2 ^ 2)); [ring|rewrite Np, Nq, Opq; lra].
    + transitivity (s ^ 2 * (p X0 ^ 2 + p X1 ^ 2 + p X2 ^ 2) - 2 * c * s * (p X0 * q X0 + p X1 * q X1 + p X2 * q X2) + c ^ 2 * (q X0 ^ 2 + q X1 ^ 2 + q X2 ^ 2)); [ring|rewrite Np, Nq, Opq; lra].
  - intros i a. cbn [fst snd]. destruct a.
    + apply (Au i).
    + change (apply2 A (fun j => c * p j + s * q j) i = mu * (c * p i + s * q i)). rewrite alin, Ap, Aq.
      transitivity ((al * c + be * s) * p i + (be * c + ga * s) * q i); [ring|rewrite E1, E2; ring].
    + change (apply2 A (fun j => - s * p j + c * q j) i = nu * (- s * p i + c * q i)). rewrite alin, Ap, Aq.
      transitivity ((al * - s + be * c) * p i + (be * - s + ga * c) * q i); [ring|rewrite F1, F2; ring].
Qed.

(** Sorting by permuting the columns. *)
Definition permc (s : ix3 -> ix3) (w : Vec3) (v : T2) : Vec3 * T2 := (fun a => w (s a), fun i a => v i (s a)).
Lemma perm_diag A w v s : (forall a b, s a = s b -> a = b) -> diagonalised A w v -> diagonalised A (fst (permc s w v)) (snd (permc s w v)).
Proof.
  intros Inj [H1 H2]. split; cbn.
  - intros a b. rewrite H1. unfold delta.
    destruct (ix3_eqb a b) eqn:E.
    + apply ix3_eqb_eq in E; subst. replace (ix3_eqb (s b) (s b)) with true by (destruct (s b); reflexivity). reflexivity.
    + destruct (ix3_eqb (s a) (s b)) eqn:E'; auto. apply ix3_eqb_eq in E'. apply Inj in E'. subst. destruct b; discriminate.
  - intros i a. apply H2.
Qed.
Definition p3 (x y z : ix3) (a : ix3) : ix3 := match a with X0 => x | X1 => y | X2 => z end.
Lemma spectral (A : T2) : sym2 A -> { p : Vec3 * T2 | eig_legal A (fst p) (snd p) }.
Proof.
  intros S. destruct (decompose A S) as [[w v] H]. cbn in H.
  assert (go : forall s, (forall a b, s a = s b -> a = b) -> w (s X0) <= w (s X1) <= w (s X2) -> { p : Vec3 * T2 | eig_legal A (fst p) (snd p) }).
  { intros s I O. exists (permc s w v). destruct (perm_diag A w v s I H) as [H1 H2]. split; [exact H1|split; [exact H2|exact O]]. }
  destruct (Rle_dec (w X0) (w X1)), (Rle_dec (w X1) (w X2)), (Rle_dec (w X0) (w X2)).
  - apply (go (p3 X0 X1 X2)); [intros [] []; cbn; congruence|cbn; lra].
  - exfalso; lra.
  - apply (go (p3 X0 X2 X1)); [intros [] []; cbn; congruence|cbn; lra].
  - apply (go (p3 X2 X0 X1)); [intros [] []; cbn; congruence|cbn; lra].
  - apply (go (p3 X1 X0 X2)); [intros [] []; cbn; congruence|cbn; lra].
  - apply (go (p3 X1 X2 X0)); [intros [] []; cbn; congruence|cbn; lra].
  - exfalso; lra.
  - apply (go (p3 X2 X1 X0)); [intros [] []; cbn; congruence|cbn; lra].
Qed.

(** A legal LAPACK. *)
Definition lapack0 : Lapack := fun A => proj1_sig (spectral (astensor (asvoigt A)) (astensor_sym _)).
Lemma lapack0_legal : lapack_legal lapack0.
Proof.
  intro a. unfold lapack_at, lapack0. destruct (spectral _ _) as [p H]; cbn [proj1_sig].
  rewrite asvoigt_astensor_f in H. exact H.
Qed.
