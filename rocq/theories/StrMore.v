(** Instances, the near-coalescing error (C19) and the agreement of different routes to one
    energy (C21). *)
From Coq Require Import Reals Lra List Bool FunctionalExtensionality.
From Coquelicot Require Import Coquelicot.
From Verif Require Import Tensor Py Voigt VoigtProofs Algebra Calc Models Frameworks Spaces Spec VCalc EighProofs EigCore ContR EigPath StrCore StrProofs StrHess IsoProofs StrIso StrLimit ModelProofs GenProofs ScaleProofs InvCore InvProofs Spectral.
Import ListNotations.
Local Open Scope R_scope.

(** *** domains *)
Lemma positive_box : box_open positive3.
Proof.
  intros l P. exists (Rmin (l X0) (Rmin (l X1) (l X2))). split.
  - repeat apply Rmin_glb_lt; apply P.
  - intros l' N a. specialize (N a). apply Rabs_def2 in N.
    pose proof (Rmin_l (l X0) (Rmin (l X1) (l X2))). pose proof (Rmin_r (l X0) (Rmin (l X1) (l X2))).
    pose proof (Rmin_l (l X1) (l X2)). pose proof (Rmin_r (l X1) (l X2)). destruct a; lra.
Qed.
Lemma positive_curve : curve_open positive3.
Proof. apply box_curve, positive_box. Qed.
Lemma stretch_dom_positive C : posdef C -> stretch_dom positive3 C.
Proof. intros P. split; auto. intros w v L a. apply sqrt_lt_R0. apply (eig_posdef _ _ _ L); auto. Qed.

(** *** energies *)
Definition ogden_psi (mu alpha : list R) (l : Vec3) : R :=
  fold_right (fun t s => 2 * fst t / snd t ^ 2 *
        (Rpower (l X0) (snd t) + Rpower (l X1) (snd t) + Rpower (l X2) (snd t) - 3) + s) 0 (combine mu alpha).
Lemma ogden_symmetric mu alpha : symmetric_fn (ogden_psi mu alpha).
Proof.
  intros x y z. unfold ogden_psi. induction (combine mu alpha) as [|[m a] r IH]; cbn -[vec3 pow] in *; [auto|].
  destruct IH as [I1 I2]. rewrite <- I1, <- I2. cbn [vec3]. split; ring.
Qed.
Lemma gen_symmetric E c psi : symmetric_fn (fun l => psi (gen_invariants E c l)).
Proof.
  intros x y z. split; f_equal; apply Vec3_ext; intros []; cbn; ring.
Qed.
Definition energy_of (psi : Vec3 -> R) (C : T2) : R := psi (fun a => sqrt (fst (lapack0 C) a)).
Lemma energy_of_ok psi : stretch_energy psi (energy_of psi).
Proof.
  intros C w v L. unfold energy_of. rewrite (eig_unique C w v _ _ L (legal_sym lapack0 lapack0_legal C (eig_sym _ _ _ L))). reflexivity.
Qed.

(** *** continuity of Ogden's derivatives *)
Lemma ogden_diag og l a : ogden_gradient og l a = ogden_gradient og (fun _ => l a) X0.
Proof.
  unfold ogden_gradient.
  assert (X : forall xs (acc acc' : Vec3), acc a = acc' X0 ->
    fold_left (fun (acc : Vec3) '(mu, alpha) => fun b => acc b + 2 * mu / alpha * Rpower (l b) (alpha - 1)) xs acc a =
    fold_left (fun (acc : Vec3) '(mu, alpha) => fun b => acc b + 2 * mu / alpha * Rpower (l a) (alpha - 1)) xs acc' X0).
  { induction xs as [|[mu al] xs IH]; intros acc acc' H; cbn [fold_left]; [exact H|]. apply IH. rewrite H. reflexivity. }
  apply X. reflexivity.
Qed.
Definition og_d (og : Ogden) (x : R) : R :=
  fold_left (fun s t => s + 2 * fst t / snd t * (snd t - 1) * Rpower x (snd t - 2)) (combine (og_mu og) (og_alpha og)) 0.
Lemma ogden_hdiag og l a : val (ogden_hessian og l (pos a a)) = og_d og (l a).
Proof.
  assert (X : forall xs (acc : Vec3) s, acc a = s ->
    fold_left (fun (acc : Vec3) '(mu, alpha) => fun b => acc b + 2 * mu / alpha * (alpha - 1) * Rpower (l b) (alpha - 2)) xs acc a =
    fold_left (fun s t => s + 2 * fst t / snd t * (snd t - 1) * Rpower (l a) (snd t - 2)) xs s).
  { induction xs as [|[mu al] xs IH]; intros acc s H; cbn [fold_left]; [exact H|]. apply IH. rewrite H. reflexivity. }
  unfold og_d. rewrite <- (X _ (fun _ => 0) 0 eq_refl). destruct a; reflexivity.
Qed.
Lemma fold_cont {T : Type} (f : T -> R -> R) (xs : list T) x : (forall t, cont (f t) x) -> forall g : R -> R, cont g x ->
  cont (fun y => fold_left (fun s t => s + f t y) xs (g y)) x.
Proof.
  intros H. induction xs as [|t xs IH]; intros g Hg; cbn [fold_left]; [exact Hg|].
  apply (IH (fun y => g y + f t y)). apply cont_plus; auto.
Qed.
Lemma Rpower_cont k x : 0 < x -> cont (fun y => Rpower y k) x.
Proof. intros P. eapply cont_D. apply D_Rpower; auto. Qed.
Lemma og_d_cont og x : 0 < x -> cont (og_d og) x.
Proof.
  intros P. unfold og_d. apply (fold_cont (fun t y => 2 * fst t / snd t * (snd t - 1) * Rpower y (snd t - 2))); [|apply cont_const].
  intros t. apply cont_mult; [apply cont_const|apply Rpower_cont; auto].
Qed.
Definition og_g1 (og : Ogden) (x : R) : R :=
  fold_left (fun s t => s + 2 * fst t / snd t * Rpower x (snd t - 1)) (combine (og_mu og) (og_alpha og)) 0.
Lemma ogden_g1 og l a : ogden_gradient og l a = og_g1 og (l a).
Proof.
  assert (X : forall xs (acc : Vec3) s, acc a = s ->
    fold_left (fun (acc : Vec3) '(mu, alpha) => fun b => acc b + 2 * mu / alpha * Rpower (l b) (alpha - 1)) xs acc a =
    fold_left (fun s t => s + 2 * fst t / snd t * Rpower (l a) (snd t - 1)) xs s).
  { induction xs as [|[mu al] xs IH]; intros acc s H; cbn [fold_left]; [exact H|]. apply IH. rewrite H. reflexivity. }
  unfold og_g1. rewrite <- (X _ (fun _ => 0) 0 eq_refl). reflexivity.
Qed.
Lemma og_g1_cont og x : 0 < x -> cont (og_g1 og) x.
Proof.
  intros P. unfold og_g1. apply (fold_cont (fun t y => 2 * fst t / snd t * Rpower y (snd t - 1))); [|apply cont_const].
  intros t. apply cont_mult; [apply cont_const|apply Rpower_cont; auto].
Qed.
Lemma cont_eps f x eps : cont f x -> 0 < eps -> exists d, 0 < d /\ forall y, Rabs (y - x) < d -> Rabs (f y - f x) < eps.
Proof.
  intros H He. apply cont_continuous in H. destruct (H (ball (f x) eps) (locally_ball (f x) (mkposreal eps He))) as [d Hd].
  exists d. split; [apply d|]. intros y Hy. apply (Hd y Hy).
Qed.
Lemma ogden_continuous {SV} og : continuous_model (ogden_model (SV:=SV) og) positive3.
Proof.
  intros l0 P0 eps He.
  assert (X : forall a, exists d, 0 < d /\ forall y, Rabs (y - l0 a) < d -> Rabs (og_g1 og y - og_g1 og (l0 a)) < eps /\ Rabs (og_d og y - og_d og (l0 a)) < eps).
  { intro a. destruct (cont_eps _ _ eps (og_g1_cont og _ (P0 a)) He) as (d1 & H1 & K1). destruct (cont_eps _ _ eps (og_d_cont og _ (P0 a)) He) as (d2 & H2 & K2).
    exists (Rmin d1 d2). split; [apply Rmin_glb_lt; auto|]. pose proof (Rmin_l d1 d2); pose proof (Rmin_r d1 d2).
    intros y Hy. split; [apply K1|apply K2]; lra. }
  destruct (X X0) as (d0 & H0 & K0), (X X1) as (d1 & H1 & K1), (X X2) as (d2 & H2 & K2).
  exists (Rmin d0 (Rmin d1 d2)). split; [repeat apply Rmin_glb_lt; auto|].
  pose proof (Rmin_l d0 (Rmin d1 d2)); pose proof (Rmin_r d0 (Rmin d1 d2)); pose proof (Rmin_l d1 d2); pose proof (Rmin_r d1 d2).
  intros l P N.
  assert (K : forall a, Rabs (og_g1 og (l a) - og_g1 og (l0 a)) < eps /\ Rabs (og_d og (l a) - og_d og (l0 a)) < eps).
  { intro a. specialize (N a). destruct a; [apply K0|apply K1|apply K2]; lra. }
  split.
  - intros sv s sv0 s0 g svn g0 svn0 [s1 E1] [s2 E2] a. cbn in E1, E2. unfold ret in E1, E2. injection E1 as _ <- _. injection E2 as _ <- _.
    rewrite !ogden_g1. apply K.
  - intros sv s sv0 s0 h h0 [s1 E1] [s2 E2] v. cbn in E1, E2. unfold ret in E1, E2. injection E1 as _ <-. injection E2 as _ <-.
    assert (D : forall a, Rabs (val (ogden_hessian og l (pos a a)) - val (ogden_hessian og l0 (pos a a))) < eps) by (intro a; rewrite !ogden_hdiag; apply K).
    destruct v; [apply (D X0)|apply (D X1)|apply (D X2)| | |]; cbn; rewrite Rminus_eq_0, Rabs_R0; exact He.
Qed.

(** *** The error for nearly equal stretches (C19) *)
Lemma frame_Hf D f v E a b : (forall a b, sum3 (fun i => v i a * v i b) = delta a b) -> sym2 E ->
  frame v (dc42 (Hf D f v) E) a b = if ix3_eqb a b then sum3 (fun c => D a c * frame v E c c) else fs (fun _ => 0) f a b * frame v E a b.
Proof.
  intros O S.
  assert (X : forall (T : ix3 -> ix3 -> R), frame v (fun i j => sum3 (fun c => sum3 (fun d => T c d * (v i c * v j d)))) a b = T a b).
  { intro T. transitivity (sum3 (fun c => sum3 (fun d => T c d * (sum3 (fun i => v i a * v i c) * sum3 (fun j => v j d * v j b))))).
    - unfold frame, mmul, mtr, sum3. ring.
    - assert (O' : forall c d, T c d * (sum3 (fun i => v i a * v i c) * sum3 (fun j => v j d * v j b)) = T c d * (delta a c * delta d b)) by (intros; rewrite !O; reflexivity).
      unfold sum3 in *. rewrite !O'. unfold delta. destruct a, b; cbn; ring. }
  pose (T := fun a b => if ix3_eqb a b then sum3 (fun c => D a c * frame v E c c) else fs (fun _ => 0) f a b * frame v E a b).
  transitivity (frame v (fun i j => sum3 (fun c => sum3 (fun d => T c d * (v i c * v j d)))) a b); [|apply X].
  f_equal. f_equal. f_equal. apply T2_ext; intros i j. rewrite Hf_dc by auto. unfold T.
  set (F := frame v E). assert (FS : forall a b, F a b = F b a) by (intros; apply frame_sym; auto). clearbody F.
  unfold sum3. cbn [ix3_eqb fs]. rewrite (FS X1 X0), (FS X2 X0), (FS X2 X1). ring.
Qed.

Section Near.
  Context {SV : Type} (lapack : Lapack) (m : StretchModel SV) (psi : Vec3 -> R) (Dom : Vec3 -> Prop).
  Context (HL : lapack_legal lapack) (Hsym : symmetric_fn psi) (Hop : curve_open Dom)
          (Hpos : forall l, Dom l -> positive3 l) (HG : str_gradient_of m psi Dom) (HH : str_hessian_of m Dom).
  Lemma near_error (C : R -> T2) t0 dC : (forall t, sym2 (C t)) -> dcurve2 C t0 dC -> stretch_dom Dom (C t0) ->
    forall sv (s : StrSelf m), exists H,
    returns (str_hessian lapack m (asvoigt (C t0)) sv) s H /\
    forall (svt : R -> SV) (st : R -> StrSelf m) (G : R -> Vec6),
      locally t0 (fun t => exists svn, returns (str_gradient lapack m (asvoigt (C t)) (svt t)) (st t) (G t, svn)) ->
      exists dG, dcurve2 (fun t => astensor (G t)) t0 dG /\
      forall a b, (let w := fst (lapack (C t0)) in a = b \/ w a = w b \/ / 10 ^ 8 < Rabs (w a - w b)) ->
      frame (snd (lapack (C t0))) (fun i j => dG i j - dc42 (astensor4 H) dC i j) a b = 0.
  Proof.
    intros HS HD HP sv s.
    destruct (stretches_tangent lapack m psi Dom HL Hsym Hop HG HH C t0 dC HS HD HP sv s) as (ms & g & svn & ms' & h & s' & Rm & Rh & RH & T).
    eexists. split; [exists s'; exact RH|]. intros svt st G HGt. eexists. split; [exact (T svt st G HGt)|].
    intros a b. cbv zeta. intros Hab. rewrite strHv_full.
    pose proof (legal_sym lapack HL _ (HS t0)) as L.
    assert (SE : sym2 dC) by (exact (dC_sym C t0 dC HD (fun t => fst (lapack (C t))) (fun t => snd (lapack (C t))) (fun t => legal_sym lapack HL _ (HS t)))).
    set (l := lam lapack (asvoigt (C t0))) in *.
    assert (lw : forall c, l c ^ 2 = fst (lapack (C t0)) c) by (intro c; apply lam_pow; auto; apply HP).
    rewrite vec_sym by auto. set (v := snd (lapack (C t0))) in *.
    transitivity (frame v (dc42 (Hf (strD l g h) (exactF l g h) v) dC) a b - frame v (dc42 (Hf (strD l g h) (strF l g h) v) dC) a b).
    { unfold frame, mmul, mtr, sum3. ring. }
    rewrite !frame_Hf by (auto; apply L).
    destruct (ix3_eqb a b) eqn:Eab; [ring|].
    assert (Hab' : l a ^ 2 = l b ^ 2 \/ / 10 ^ 8 < Rabs (l a ^ 2 - l b ^ 2)).
    { rewrite !lw. destruct Hab as [->|]; auto. }
    assert (Hba' : l b ^ 2 = l a ^ 2 \/ / 10 ^ 8 < Rabs (l b ^ 2 - l a ^ 2)) by (rewrite Rabs_minus_sym; destruct Hab'; auto).
    destruct a, b; try discriminate; cbn [fs]; rewrite <- (strF_exact l g h) by auto; ring.
  Qed.
End Near.

(** Ogden with exponent 6: K = lambda^4 / 6. *)
Definition og6 : Ogden := {| og_mu := [1]; og_alpha := [6] |}.
Definition dg (x y z : R) : T2 := fun i j => if ix3_eqb i j then vec3 x y z i else 0.
Lemma dg_legal x y z : x <= y <= z -> eig_legal (dg x y z) (vec3 x y z) one2.
Proof.
  intros O. split; [|split].
  - intros a b. unfold one2, delta, sum3. destruct a, b; cbn; ring.
  - intros i a. unfold dg, one2, delta, sum3. destruct i, a; cbn; ring.
  - exact O.
Qed.
Lemma dg_sym x y z : sym2 (dg x y z).
Proof. intros i j; destruct i, j; reflexivity. Qed.
Lemma Rpower_nat n x : 0 < x -> Rpower x (INR n) = x ^ n.
Proof. intros; apply Rpower_pow; auto. Qed.

Lemma og6_grad : str_gradient_of (ogden_model (SV:=unit) og6) (ogden_psi [1] [6]) positive3.
Proof. apply ogden_grad'. intros m a H; cbn in H. destruct H as [H|[]]. injection H as _ <-. lra. Qed.
Lemma og6_hess : str_hessian_of (ogden_model (SV:=unit) og6) positive3.
Proof. apply ogden_hess. intros m a H; cbn in H. destruct H as [H|[]]. injection H as _ <-. lra. Qed.

Lemma near_refuted lapack : lapack_legal lapack -> ~ fw_hessian_of (stretches_fw lapack (ogden_model (SV:=unit) og6)) (stretch_dom positive3).
Proof.
  intros HL HF.
  set (y := 1 + / 10 ^ 9). assert (Hy : 1 < y < 1 + / 10 ^ 8) by (unfold y; split; lra).
  assert (L0 := dg_legal 1 y 2 ltac:(unfold y; lra)).
  pose (dC := fun i j : ix3 => 1). pose (C := fun t : R => fun i j => dg 1 y 2 i j + t * dC i j).
  assert (C0 : C 0 = dg 1 y 2) by (apply T2_ext; intros; unfold C; ring).
  assert (HS : forall t, sym2 (C t)). { intros t i j. unfold C, dC. rewrite (dg_sym 1 y 2 i j). reflexivity. }
  assert (HD : dcurve2 C 0 dC).
  { intros i j. unfold C. eapply D_eq; [apply (D_plus (fun _ => dg 1 y 2 i j) (fun t => t * dC i j)); [exact (D_const _ _)|]|].
    - apply (D_scalr (fun t => t)). exact (D_id 0).
    - ring. }
  assert (HP : stretch_dom positive3 (C 0)).
  { apply stretch_dom_positive. rewrite C0. apply (eig_posdef _ _ _ L0). intros []; cbn; unfold y; lra. }
  set (m := ogden_model (SV:=unit) og6) in *.
  pose (s0 := str_self0 m tt).
  destruct (HF C 0 dC HS HD HP tt s0) as (H & RH & T).
  destruct (stretches_tangent lapack m (ogden_psi [1] [6]) positive3 HL (ogden_symmetric _ _) positive_curve og6_grad og6_hess C 0 dC HS HD HP tt s0)
    as (ms & g & svn & ms' & h & s' & Rm & Rh & RH' & T').
  pose proof (returns_det _ _ _ _ RH (ex_intro _ s' RH')) as ->.
  pose (G := fun t => match outcome (str_gradient lapack m (asvoigt (C t)) tt) s0 with Ok (g, _) => g | Raise _ => vzero end).
  assert (RG : locally 0 (fun t => exists svn, returns (str_gradient lapack m (asvoigt (C t)) tt) s0 (G t, svn))).
  { apply filter_forall. intro t. exists tt. eexists. unfold G, outcome.
    rewrite (str_gradient_ok lapack m (asvoigt (C t)) tt s0 tt (ogden_gradient og6 (lam lapack (asvoigt (C t)))) tt eq_refl). reflexivity. }
  specialize (T (fun _ => tt) (fun _ => s0) G RG). specialize (T' (fun _ => tt) (fun _ => s0) G RG).
  assert (ED : dc42 (Hf (strD (lam lapack (asvoigt (C 0))) g h) (strF (lam lapack (asvoigt (C 0))) g h) (vec lapack (asvoigt (C 0)))) dC =
               dc42 (Hf (strD (lam lapack (asvoigt (C 0))) g h) (exactF (lam lapack (asvoigt (C 0))) g h) (vec lapack (asvoigt (C 0)))) dC).
  { rewrite strHv_full in T. apply T2_ext; intros i j. apply (D_unique (fun t => astensor (G t) i j) 0); [apply T|apply T']. }
  pose proof (legal_sym lapack HL _ (HS 0)) as L.
  pose proof (f_equal (fun A => frame (vec lapack (asvoigt (C 0))) A X0 X1) ED) as E. cbv beta in E.
  rewrite vec_sym in E by auto. 
  assert (SE : sym2 dC) by (intros i j; reflexivity).
  rewrite !frame_Hf in E by (auto; apply L). cbn [ix3_eqb fs] in E.
  set (l := lam lapack (asvoigt (C 0))) in *.
  assert (Ew : fst (lapack (C 0)) = vec3 1 y 2) by (rewrite C0 in L |- *; exact (eig_unique _ _ _ _ _ L L0)).
  assert (lw : forall a, l a ^ 2 = vec3 1 y 2 a) by (intro a; unfold l; rewrite lam_pow, Ew by (auto; apply HP); reflexivity).
  assert (lp : forall a, 0 < l a).
  { intro a. unfold l. rewrite lam_sym, Ew by auto. apply sqrt_lt_R0. destruct a; cbn; unfold y; lra. }
  injection Rm as _ Eg _. injection Rh as _ Eh. subst g h.
  (* the eigenvector components cannot vanish *)
  assert (NF : frame (snd (lapack (C 0))) dC X0 X1 <> 0).
  { rewrite Ew in L. rewrite C0 in L |- *. set (v := snd (lapack (dg 1 y 2))) in *.
    destruct L as (O & A & _).
    assert (Z : forall i a, vec3 1 y 2 i <> vec3 1 y 2 a -> v i a = 0).
    { intros i a N. specialize (A i a). assert (Y : vec3 1 y 2 i * v i a = vec3 1 y 2 a * v i a).
      { rewrite <- A. unfold dg, sum3. destruct i; cbn; ring. }
      apply Rmult_eq_reg_l with (vec3 1 y 2 i - vec3 1 y 2 a); lra. }
    assert (Z10 : v X1 X0 = 0) by (apply Z; cbn; lra). assert (Z20 : v X2 X0 = 0) by (apply Z; cbn; lra).
    assert (Z01 : v X0 X1 = 0) by (apply Z; cbn; lra). assert (Z21 : v X2 X1 = 0) by (apply Z; cbn; lra).
    pose proof (O X0 X0) as O0. pose proof (O X1 X1) as O1. unfold sum3, delta in O0, O1. cbn in O0, O1. rewrite Z10, Z20 in O0. rewrite Z01, Z21 in O1.
    unfold frame, mmul, mtr, sum3, dC. rewrite Z10, Z20, Z01, Z21. 
    intro X. assert (v X0 X0 * v X1 X1 = 0) by lra. destruct (Rmult_integral _ _ H) as [Y|Y]; rewrite Y in *; lra. }
  apply Rmult_eq_reg_r in E; [|exact NF]. clear NF.
  unfold strF, exactF in E. rewrite !lw in E.
  replace (isclose (vec3 1 y 2 X0 - vec3 1 y 2 X1) 0) with true in E.
  2: { symmetry. apply isclose0. cbn [vec3]. rewrite Rabs_minus_sym, Rabs_pos_eq; lra. }
  destruct (Req_EM_T (vec3 1 y 2 X0) (vec3 1 y 2 X1)) as [X|_]; [cbn in X; lra|].
  unfold strD, strK in E. cbn [ix3_eqb pos] in E.
  assert (R4 : forall a, Rpower (l a) (6 - 2) = vec3 1 y 2 a ^ 2).
  { intro a. replace (6 - 2) with (INR 4) by (cbn; ring). rewrite Rpower_nat by auto. rewrite <- lw. ring. }
  assert (R5 : forall a, Rpower (l a) (6 - 1) = vec3 1 y 2 a ^ 2 * l a).
  { intro a. replace (6 - 1) with (INR 5) by (cbn; ring). rewrite Rpower_nat by auto. rewrite <- lw. ring. }
  unfold ogden_hessian, ogden_gradient, og6 in E. cbn -[pow vec3] in E. rewrite !R4, !R5 in E. rewrite !lw in E. cbn [vec3] in E.
  pose proof (lp X0); pose proof (lp X1). pose proof (lw X1) as l1. pose proof (lw X0) as l0. cbn [vec3] in l0, l1.
  match type of E with ?A = ?B => assert (EA : A = y / 3) end.
  { replace (4 * l X1 * l X1) with (4 * l X1 ^ 2) by ring. rewrite l1. field. unfold y in *. split; lra. }
  match type of E with ?A = ?B => assert (EB : B = (1 + y) / 6) end.
  { field. lra. }
  rewrite EA, EB in E. lra.
Qed.

(** *** Invariants in terms of eigenvalues; Cayley-Hamilton *)
Lemma det3_mmul A B : det3 (mmul A B) = det3 A * det3 B.
Proof. unfold det3, mmul, sum3. ring. Qed.
Section Inv.
  Context (A : T2) (w : Vec3) (v : T2) (L : eig_legal A w v).
  Lemma eig_det : det3 A = w X0 * w X1 * w X2.
  Proof.
    assert (O := eig_orth _ _ _ L).
    assert (E : det3 (frame v A) = det3 A).
    { unfold frame. rewrite !det3_mmul. pose proof (orthogonal_det v O) as D.
      replace (det3 (mtr v)) with (det3 v) by (unfold det3, mtr; ring).
      transitivity (det3 A * det3 v ^ 2); [ring|rewrite D; ring]. }
    rewrite <- E. unfold det3. rewrite !(frame_diag _ _ _ _ _ L). cbn. ring.
  Qed.
  Lemma eig_trace2 : tr2 (mmul A A) = w X0 ^ 2 + w X1 ^ 2 + w X2 ^ 2.
  Proof.
    unfold tr2, sum3.
    assert (X : forall i, mmul A A i i = sum3 (fun a => (0 + 0 * w a + 1 * w a ^ 2) * (v i a * v i a))).
    { intro i. rewrite (poly_Gf _ _ _ 0 0 1 i i L). ring. }
    rewrite !X. destruct L as (O & _). pose proof (O X0 X0) as O0; pose proof (O X1 X1) as O1; pose proof (O X2 X2) as O2.
    unfold sum3, delta in *; cbn in O0, O1, O2.
    transitivity (w X0 ^ 2 * (v X0 X0 * v X0 X0 + v X1 X0 * v X1 X0 + v X2 X0 * v X2 X0)
      + w X1 ^ 2 * (v X0 X1 * v X0 X1 + v X1 X1 * v X1 X1 + v X2 X1 * v X2 X1)
      + w X2 ^ 2 * (v X0 X2 * v X0 X2 + v X1 X2 * v X1 X2 + v X2 X2 * v X2 X2)); [ring|rewrite O0, O1, O2; ring].
  Qed.
  Lemma eig_invariants : invariants A = vec3 (w X0 + w X1 + w X2) (w X0 * w X1 + w X1 * w X2 + w X2 * w X0) (w X0 * w X1 * w X2).
  Proof.
    apply Vec3_ext; intros []; cbn [invariants vec3]; unfold inv1, inv2, inv3'.
    - symmetry. apply (eig_trace _ _ _ L).
    - rewrite eig_trace2, <- (eig_trace _ _ _ L). field.
    - apply eig_det.
  Qed.
End Inv.
Lemma cayley A : adj3 A = fun i j => inv2 A * delta i j - tr2 A * A i j + mmul A A i j.
Proof. apply T2_ext; intros i j. unfold inv2, adj3, tr2, mmul, delta, sum3. destruct i, j; cbn; field. Qed.
Lemma Rpower_2 x : 0 < x -> Rpower x 2 = x ^ 2.
Proof. intro P. rewrite <- (Rpower_pow 2 x P). f_equal. Qed.

(** *** C21: GeneralizedInvariants(deformation, exponent=2) in Stretches is Invariants *)
Section Routes.
  Context {SV : Type} (lapack : Lapack) (HL : lapack_legal lapack).
  Lemma gen2_K c l g1 g2 g3 st a : gen_init (deformation_fun 2) = Ok c -> positive3 l -> (forall a, st a = deformation (l a) 2) ->
    strK l (genG c st g1 g2 g3) a = val g1 + val g2 * (l (gb a) ^ 2 + l (gg a) ^ 2) + val g3 * (l (gb a) ^ 2 * l (gg a) ^ 2).
  Proof.
    intros Ec P Hst. rewrite gen_init_deformation in Ec by lra. injection Ec as <-.
    unfold strK, genG. rewrite !accum_val by ring. cbn [gc1 gc2]. rewrite !Hst. cbn [deformation sE sdE]. unfold def_C, def_dC.
    rewrite !Rpower_2 by apply P. replace (2 - 1) with 1 by ring. rewrite Rpower_1 by apply P.
    specialize (P a). field. lra.
  Qed.
  Lemma routes_gen (m : InvModel SV) c C sv s s' : gen_init (deformation_fun 2) = Ok c -> sym2 C -> posdef C ->
    outcome (str_gradient lapack (gen_model m (deformation_fun 2) c) (asvoigt C) sv) s =
    outcome (inv_gradient m (asvoigt C) sv) s'.
  Proof.
    intros Ec S P. set (M := gen_model m (deformation_fun 2) c).
    pose proof (legal_sym lapack HL C S) as L. set (w := fst (lapack C)) in *. set (v := snd (lapack C)) in *.
    pose proof (proj1 (eig_posdef _ _ _ L) P) as Pw.
    set (l := fun a => sqrt (w a)). assert (El : lam lapack (asvoigt C) = l) by (rewrite lam_sym; auto).
    assert (Pl : positive3 l) by (intro a; apply sqrt_lt_R0; auto).
    assert (lw : forall a, l a ^ 2 = w a).
    { intro a. unfold l. replace (sqrt (w a) ^ 2) with (sqrt (w a) * sqrt (w a)) by ring. apply sqrt_sqrt. left; auto. }
    pose (st := fun a => deformation (l a) 2).
    assert (ES : strain3 (deformation_fun 2) l = Ok st).
    { unfold strain3, deformation_fun, rbind, st. f_equal. apply functional_extensionality; intros []; reflexivity. }
    assert (EI : genI c st = Jv (asvoigt C)).
    { rewrite (Jv_full C S), (eig_invariants C w v L). pose proof Ec as Ec'. rewrite gen_init_deformation in Ec' by lra. injection Ec' as <-.
      unfold genI, st; cbn [deformation sE gc1 gc2 gI10 gI20]. unfold def_C. rewrite !Rpower_2 by apply Pl. rewrite !lw.
      apply Vec3_ext; intros []; cbn [vec3]; field. }
    pose proof (gen_grad_core m (deformation_fun 2) c l sv (st_model M s)) as GC. rewrite ES in GC. cbn [rbind] in GC. rewrite EI in GC.
    unfold outcome in GC.
    destruct (inv_call m (Jv (asvoigt C)) sv) as [[g svn]|e] eqn:EC.
    - destruct g as [[g1 g2] g3] eqn:Egg. cbn [rbind] in GC.
      destruct (gen_gradient m (deformation_fun 2) c l sv (st_model M s)) as [ms r] eqn:EG. cbn [snd] in GC. subst r.
      unfold outcome. rewrite (str_gradient_ok lapack M (asvoigt C) sv s ms (genG c st g1 g2 g3) svn) by (rewrite El; exact EG).
      rewrite (inv_gradient_ok m _ _ _ _ s' EC). cbn [snd]. f_equal. f_equal.
      unfold strGv. rewrite El, vec_sym by auto. fold v.
      rewrite <- (asvoigt_astensor_f (gradv (asvoigt C) (g1, g2, g3))). f_equal.
      assert (N : det3 C <> 0). { rewrite (eig_det C w v L). pose proof (Pw X0); pose proof (Pw X1); pose proof (Pw X2). apply Rgt_not_eq. repeat apply Rmult_lt_0_compat; auto. }
      apply T2_ext; intros i j.
      transitivity (val g1 * astensor (dJv (asvoigt C) X0) i j + val g2 * astensor (dJv (asvoigt C) X1) i j + val g3 * astensor (dJv (asvoigt C) X2) i j); [|reflexivity].
      rewrite !dJv_full by auto. cbn [dJf].
      replace (det3 C * inv3 C i j) with (adj3 C i j) by (unfold inv3; field; auto). rewrite cayley.
      pose proof (f_equal (fun f => f X1) (eig_invariants C w v L)) as I2. cbn [invariants vec3] in I2. rewrite I2, <- (eig_trace _ _ _ L).
      transitivity (sum3 (fun a => (val g1 + val g2 * (w X0 + w X1 + w X2) + val g3 * (w X0 * w X1 + w X1 * w X2 + w X2 * w X0)
          + (- val g2 - val g3 * (w X0 + w X1 + w X2)) * w a + val g3 * w a ^ 2) * (v i a * v j a))).
      + unfold Gf, base. apply sum3_ext; intro a. f_equal. rewrite (gen2_K c l g1 g2 g3 st a Ec Pl (fun _ => eq_refl)).
        rewrite !lw. destruct a; cbn [gb gg]; ring.
      + rewrite (poly_Gf _ _ _ _ _ _ _ _ L). unfold one2. ring.
    - cbn [rbind] in GC. destruct (gen_gradient m (deformation_fun 2) c l sv (st_model M s)) as [ms r] eqn:EG. cbn [snd] in GC. subst r.
      rewrite (str_gradient_raise lapack M (asvoigt C) sv s ms e) by (rewrite El; exact EG).
      unfold outcome; destruct (inv_gradient_raise m _ _ _ s' EC) as [s'' ->]. reflexivity.
  Qed.

  (** Ogden([mu], [2]): gradient mu/2 I, hessian 0. *)
  Lemma routes_ogden mu C sv s : sym2 C -> posdef C ->
    outcome (str_gradient lapack (ogden_model (SV:=SV) {| og_mu := [mu]; og_alpha := [2] |}) (asvoigt C) sv) s = Ok (vscal (mu / 2) eye, sv) /\
    outcome (str_hessian lapack (ogden_model (SV:=SV) {| og_mu := [mu]; og_alpha := [2] |}) (asvoigt C) sv) s = Ok mzero.
  Proof.
    intros S P. set (og := {| og_mu := [mu]; og_alpha := [2] |}). set (m := ogden_model (SV:=SV) og).
    pose proof (legal_sym lapack HL C S) as L. set (w := fst (lapack C)) in *.
    pose proof (proj1 (eig_posdef _ _ _ L) P) as Pw.
    set (l := fun a => sqrt (w a)). assert (El : lam lapack (asvoigt C) = l) by (rewrite lam_sym; auto).
    assert (Pl : positive3 l) by (intro a; apply sqrt_lt_R0; auto).
    assert (EK : forall a, strK l (ogden_gradient og l) a = mu / 2).
    { intro a. unfold strK, ogden_gradient; cbn. replace (2 - 1) with 1 by ring. rewrite Rpower_1 by apply Pl. specialize (Pl a). field. lra. }
    assert (ED : forall a b, strD l (ogden_gradient og l) (ogden_hessian og l) a b = 0).
    { intros a b. unfold strD. rewrite EK. assert (R0 : forall x, 0 < x -> Rpower x (2 - 2) = 1) by (intros x Hx; replace (2 - 2) with 0 by ring; apply Rpower_O; auto).
      pose proof (Pl a) as Pa. pose proof (Pl b) as Pb.
      destruct a, b; cbn; rewrite ?R0 by auto; try (field; lra). }
    assert (EF : forall a b, strF l (ogden_gradient og l) (ogden_hessian og l) a b = 0).
    { intros a b. unfold strF. rewrite !ED, !EK. destruct (isclose _ _); [ring|]. unfold Rdiv; ring. }
    split.
    - unfold outcome. rewrite (str_gradient_ok lapack m (asvoigt C) sv s (st_model m s) (ogden_gradient og l) sv) by (rewrite El; reflexivity).
      cbn [snd]. f_equal. f_equal. unfold strGv. rewrite El, vec_sym by auto.
      replace (vscal (mu / 2) eye) with (asvoigt (fun i j => mu / 2 * delta i j)) by (apply Vec6_ext; intros []; unfold vscal, eye, asvoigt, delta; cbn; ring).
      f_equal. apply T2_ext; intros i j. rewrite <- (eig_complete _ _ _ L i j). unfold Gf, base, sum3. rewrite !EK. ring.
    - destruct (str_hessian_ok lapack m (asvoigt C) sv s (st_model m s) (ogden_gradient og l) sv (st_model m s) (ogden_hessian og l)) as (s1 & E1 & _); [rewrite El; reflexivity|rewrite El; reflexivity|].
      unfold outcome. rewrite E1. cbn [snd]. f_equal. unfold strHv. rewrite El.
      apply Mat6_ext; intros u x. unfold asvoigt4.
      assert (Z : forall i j p q, Hf (strD l (ogden_gradient og l) (ogden_hessian og l)) (strF l (ogden_gradient og l) (ogden_hessian og l)) (vec lapack (asvoigt C)) i j p q = 0).
      { intros. unfold Hf, sum3. rewrite !ED, !EF. ring. }
      destruct u, x; cbn; apply Z.
  Qed.
End Routes.
