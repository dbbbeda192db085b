(** * The tangent of Stretches inside np.isclose's tolerance (C19): size of the error. *)
From Coq Require Import Reals Lra List.
From Coquelicot Require Import Coquelicot.
From Verif Require Import Tensor Py Voigt Algebra Calc Models Frameworks Spec VCalc EighProofs EigCore ContR EigPath StrCore StrProofs StrHess IsoProofs StrIso StrLimit ModelProofs GenProofs Spectral StrMore.
Import ListNotations.
Local Open Scope R_scope.

Section Value.
  Context {SV : Type} (lapack : Lapack) (m : StretchModel SV) (psi : Vec3 -> R) (Dom : Vec3 -> Prop).
  Context (HL : lapack_legal lapack) (Hsym : symmetric_fn psi) (Hop : curve_open Dom)
          (HG : str_gradient_of m psi Dom) (HH : str_hessian_of m Dom).
  (** The error in the eigenbasis: the difference of the two shear coefficients. *)
  Lemma near_value (C : R -> T2) t0 dC : (forall t, sym2 (C t)) -> dcurve2 C t0 dC -> stretch_dom Dom (C t0) ->
    forall sv (s : StrSelf m), exists H ms g svn ms' h, let l := lam lapack (asvoigt (C t0)) in
    sm_gradient m l sv (st_model m s) = (ms, Ok (g, svn)) /\ sm_hessian m l svn ms = (ms', Ok h) /\
    (forall c, l c ^ 2 = fst (lapack (C t0)) c) /\ (forall c, 0 < fst (lapack (C t0)) c) /\
    (forall c, l c = sqrt (fst (lapack (C t0)) c)) /\
    returns (str_hessian lapack m (asvoigt (C t0)) sv) s H /\
    forall (svt : R -> SV) (st : R -> StrSelf m) (G : R -> Vec6),
      locally t0 (fun t => exists svn, returns (str_gradient lapack m (asvoigt (C t)) (svt t)) (st t) (G t, svn)) ->
      exists dG, dcurve2 (fun t => astensor (G t)) t0 dG /\
      forall a b, frame (snd (lapack (C t0))) (fun i j => dG i j - dc42 (astensor4 H) dC i j) a b =
        if ix3_eqb a b then 0 else (fs (fun _ => 0) (exactF l g h) a b - fs (fun _ => 0) (strF l g h) a b) * frame (snd (lapack (C t0))) dC a b.
  Proof.
    intros HS HD HP sv s.
    destruct (stretches_tangent lapack m psi Dom HL Hsym Hop HG HH C t0 dC HS HD HP sv s) as (ms & g & svn & ms' & h & s' & Rm & Rh & RH & T).
    exists (strHv lapack (asvoigt (C t0)) g h), ms, g, svn, ms', h. cbv zeta. split; [exact Rm|]. split; [exact Rh|].
    pose proof (legal_sym lapack HL _ (HS t0)) as L.
    assert (lw : forall c, lam lapack (asvoigt (C t0)) c ^ 2 = fst (lapack (C t0)) c) by (intro c; apply lam_pow; auto; apply HP).
    split; [exact lw|]. split; [intro c; apply (eig_posdef _ _ _ L); apply HP|].
    split; [intro c; rewrite lam_sym by auto; reflexivity|].
    split; [exists s'; exact RH|]. intros svt st G HGt. eexists. split; [exact (T svt st G HGt)|].
    intros a b. rewrite strHv_full.
    assert (SE : sym2 dC) by (exact (dC_sym C t0 dC HD (fun t => fst (lapack (C t))) (fun t => snd (lapack (C t))) (fun t => legal_sym lapack HL _ (HS t)))).
    set (l := lam lapack (asvoigt (C t0))) in *.
    rewrite vec_sym by auto. set (v := snd (lapack (C t0))) in *.
    transitivity (frame v (dc42 (Hf (strD l g h) (exactF l g h) v) dC) a b - frame v (dc42 (Hf (strD l g h) (strF l g h) v) dC) a b).
    { unfold frame, mmul, mtr, sum3. ring. }
    rewrite !frame_Hf by (auto; apply L).
    destruct (ix3_eqb a b) eqn:Eab; ring.
  Qed.
End Value.

(** ** Ogden: the stress in terms of the squared stretch and its derivatives *)
Definition ogk (ts : list (R * R)) (w : R) : R := fold_right (fun t s => fst t / snd t * Rpower w (snd t / 2 - 1) + s) 0 ts.
Definition ogk1 (ts : list (R * R)) (w : R) : R := fold_right (fun t s => fst t / snd t * (snd t / 2 - 1) * Rpower w (snd t / 2 - 2) + s) 0 ts.
Definition ogk2 (ts : list (R * R)) (w : R) : R := fold_right (fun t s => fst t / snd t * (snd t / 2 - 1) * (snd t / 2 - 2) * Rpower w (snd t / 2 - 3) + s) 0 ts.
Lemma D_fold (f f' : R * R -> R -> R) ts x : (forall t, is_derive (f t) x (f' t x)) ->
  is_derive (fun w => fold_right (fun t s => f t w + s) 0 ts) x (fold_right (fun t s => f' t x + s) 0 ts).
Proof.
  intro H. induction ts as [|t ts IH]; cbn [fold_right]; [apply (D_const 0)|]. exact (D_plus _ _ _ _ _ (H t) IH).
Qed.
Lemma D_pow c p x : 0 < x -> is_derive (fun w => c * Rpower w p) x (c * p * Rpower x (p - 1)).
Proof.
  intro P. eapply Calc.D_eq; [exact (D_mult _ _ _ _ _ (D_const c x) (D_Rpower p x P))|].
  cbv beta. ring.
Qed.
Lemma ogk_D ts x : 0 < x -> is_derive (ogk ts) x (ogk1 ts x).
Proof.
  intro P. apply (D_fold (fun t w => fst t / snd t * Rpower w (snd t / 2 - 1)) (fun t w => fst t / snd t * (snd t / 2 - 1) * Rpower w (snd t / 2 - 2))).
  intro t. eapply Calc.D_eq; [exact (D_pow (fst t / snd t) (snd t / 2 - 1) x P)|]. replace (snd t / 2 - 1 - 1) with (snd t / 2 - 2) by lra. reflexivity.
Qed.
Lemma ogk1_D ts x : 0 < x -> is_derive (ogk1 ts) x (ogk2 ts x).
Proof.
  intro P. apply (D_fold (fun t w => fst t / snd t * (snd t / 2 - 1) * Rpower w (snd t / 2 - 2)) (fun t w => fst t / snd t * (snd t / 2 - 1) * (snd t / 2 - 2) * Rpower w (snd t / 2 - 3))).
  intro t. eapply Calc.D_eq; [exact (D_pow (fst t / snd t * (snd t / 2 - 1)) (snd t / 2 - 2) x P)|]. replace (snd t / 2 - 2 - 1) with (snd t / 2 - 3) by lra. reflexivity.
Qed.
Lemma Rpower_between x y z p : 0 < x -> x <= z <= y -> Rpower z p <= Rpower x p + Rpower y p.
Proof.
  intros P [A B]. pose proof (exp_pos (p * ln x)) as Ex. pose proof (exp_pos (p * ln y)) as Ey. fold (Rpower x p) in Ex. fold (Rpower y p) in Ey.
  destruct (Rle_lt_dec 0 p) as [N|N].
  - pose proof (Rle_Rpower_l z y p N (conj (Rlt_le_trans _ _ _ P A) B)). lra.
  - assert (Rpower z p <= Rpower x p); [|lra].
    replace p with (- - p) by ring. rewrite !(Rpower_Ropp _ (- p)). apply Rinv_le_contravar; [apply exp_pos|].
    apply Rle_Rpower_l; lra.
Qed.
Definition ogden_bound (ts : list (R * R)) (x y : R) : R :=
  fold_right (fun t s => Rabs (fst t / snd t * (snd t / 2 - 1) * (snd t / 2 - 2)) * (Rpower x (snd t / 2 - 3) + Rpower y (snd t / 2 - 3)) + s) 0 ts.
Lemma bound_sym ts x y : ogden_bound ts x y = ogden_bound ts y x.
Proof. unfold ogden_bound. induction ts as [|t ts IH]; cbn [fold_right]; [reflexivity|]. rewrite IH. ring. Qed.
Lemma bound_pos ts x y : 0 <= ogden_bound ts x y.
Proof.
  unfold ogden_bound. induction ts as [|t ts IH]; cbn [fold_right]; [lra|].
  pose proof (Rabs_pos (fst t / snd t * (snd t / 2 - 1) * (snd t / 2 - 2))).
  pose proof (exp_pos ((snd t / 2 - 3) * ln x)). pose proof (exp_pos ((snd t / 2 - 3) * ln y)). unfold Rpower in *. nra.
Qed.
Lemma ogk2_bound ts x y z : 0 < x -> x <= z <= y -> Rabs (ogk2 ts z) <= ogden_bound ts x y.
Proof.
  intros P Z. unfold ogk2, ogden_bound. induction ts as [|t ts IH]; cbn [fold_right]; [rewrite Rabs_R0; lra|].
  eapply Rle_trans; [apply Rabs_triang|]. apply Rplus_le_compat; [|exact IH].
  rewrite Rabs_mult. apply Rmult_le_compat_l; [apply Rabs_pos|]. rewrite Rabs_pos_eq by (left; apply exp_pos). apply Rpower_between; auto.
Qed.
Lemma is_derive_lim f x l : is_derive f x l -> derivable_pt_lim f x l.
Proof. apply is_derive_Reals. Qed.
Lemma quotient_error ts x y : 0 < x -> 0 < y -> x <> y ->
  Rabs ((ogk ts x - ogk ts y) / (x - y) - ogk1 ts y) <= ogden_bound ts x y * Rabs (x - y).
Proof.
  assert (K : forall p q, 0 < p -> p < q -> forall e, e = p \/ e = q -> Rabs ((ogk ts q - ogk ts p) / (q - p) - ogk1 ts e) <= ogden_bound ts p q * (q - p)).
  { intros p q P L e He.
    destruct (MVT_cor2 (ogk ts) (ogk1 ts) p q L) as (c & Ec & Lc). { intros c Hc. apply is_derive_lim, ogk_D. lra. }
    replace ((ogk ts q - ogk ts p) / (q - p)) with (ogk1 ts c) by (rewrite Ec; field; lra).
    assert (exists d, p <= d <= q /\ ogk1 ts c - ogk1 ts e = ogk2 ts d * (c - e)) as (d & Hd & Ed).
    { destruct He as [-> | ->].
      - destruct (MVT_cor2 (ogk1 ts) (ogk2 ts) p c (proj1 Lc)) as (d & Ed & Ld). { intros d Hd. apply is_derive_lim, ogk1_D. lra. } exists d. split; [lra|exact Ed].
      - destruct (MVT_cor2 (ogk1 ts) (ogk2 ts) c q (proj2 Lc)) as (d & Ed & Ld). { intros d Hd. apply is_derive_lim, ogk1_D. lra. } exists d. split; [lra|]. lra. }
    rewrite Ed, Rabs_mult. apply Rmult_le_compat; [apply Rabs_pos|apply Rabs_pos|apply ogk2_bound; auto|].
    destruct He as [-> | ->]; unfold Rabs; destruct (Rcase_abs _); lra. }
  intros Px Py N. destruct (Rlt_le_dec x y) as [L|L].
  - replace ((ogk ts x - ogk ts y) / (x - y)) with ((ogk ts y - ogk ts x) / (y - x)) by (field; lra).
    rewrite Rabs_minus_sym with (x := x), (Rabs_pos_eq (y - x)) by lra. apply K; auto.
  - rewrite (Rabs_pos_eq (x - y)), bound_sym by lra. apply K; [auto|lra|auto].
Qed.

(** The code's quantities for Ogden. *)
Lemma fold_lr {A} (f : A -> R) (l : list A) (s : R) : fold_left (fun s t => s + f t) l s = s + fold_right (fun t s => f t + s) 0 l.
Proof. revert s; induction l as [|x l IH]; intro s; cbn [fold_left fold_right]; [ring|]. rewrite IH. ring. Qed.
Lemma fold_ext (f g : R * R -> R) ts : (forall t, f t = g t) -> fold_right (fun t s => f t + s) 0 ts = fold_right (fun t s => g t + s) 0 ts.
Proof. intro H. induction ts as [|t ts IH]; cbn [fold_right]; [reflexivity|]. rewrite IH, H. reflexivity. Qed.
Lemma fold_scal c (f : R * R -> R) ts : fold_right (fun t s => f t + s) 0 ts * c = fold_right (fun t s => f t * c + s) 0 ts.
Proof. induction ts as [|t ts IH]; cbn [fold_right]; [ring|]. rewrite <- IH. ring. Qed.
Lemma pow_square x p q : 0 < x -> q = 2 * p -> Rpower (x ^ 2) p = Rpower x q.
Proof. intros P ->. rewrite <- (Rpower_pow 2 x P), Rpower_mult. reflexivity. Qed.
Lemma pow_div x p : 0 < x -> Rpower x (p - 1) = Rpower x p / x.
Proof. intro P. unfold Rminus. rewrite Rpower_plus, Rpower_Ropp, Rpower_1 by auto. reflexivity. Qed.
Lemma ogden_strK og l a : 0 < l a -> strK l (ogden_gradient og l) a = ogk (combine (og_mu og) (og_alpha og)) (l a ^ 2).
Proof.
  intro P. unfold strK, ogk. rewrite ogden_g1. unfold og_g1. rewrite (fold_lr (fun t => 2 * fst t / snd t * Rpower (l a) (snd t - 1))), Rplus_0_l.
  unfold Rdiv at 1. rewrite fold_scal. apply fold_ext. intro t. rewrite (pow_square (l a) _ (snd t - 2)) by (auto; lra).
  replace (snd t - 2) with (snd t - 1 - 1) by lra. rewrite (pow_div _ (snd t - 1) P).
  replace (2 * fst t / snd t) with (2 * (fst t / snd t)) by (unfold Rdiv; ring). set (c := fst t / snd t). field. lra.
Qed.
Lemma ogden_strD og l a : 0 < l a -> strD l (ogden_gradient og l) (ogden_hessian og l) a a = ogk1 (combine (og_mu og) (og_alpha og)) (l a ^ 2).
Proof.
  intro P. unfold strD. rewrite ogden_hdiag. replace (ix3_eqb a a) with true by (destruct a; reflexivity).
  rewrite ogden_strK by auto. unfold og_d, ogk, ogk1. rewrite (fold_lr (fun t => 2 * fst t / snd t * (snd t - 1) * Rpower (l a) (snd t - 2))), Rplus_0_l.
  assert (forall t : R * R, 2 * fst t / snd t * (snd t - 1) * Rpower (l a) (snd t - 2) / (4 * l a * l a) - fst t / snd t * Rpower (l a ^ 2) (snd t / 2 - 1) / (2 * l a ^ 2) =
    fst t / snd t * (snd t / 2 - 1) * Rpower (l a ^ 2) (snd t / 2 - 2)) as Ht.
  { intro t. rewrite (pow_square (l a) (snd t / 2 - 1) (snd t - 2)), (pow_square (l a) (snd t / 2 - 2) (snd t - 4)) by (auto; lra).
    replace (snd t - 4) with (snd t - 2 - 1 - 1) by lra. rewrite (pow_div _ (snd t - 2 - 1) P), (pow_div _ (snd t - 2) P).
    replace (2 * fst t / snd t) with (2 * (fst t / snd t)) by (unfold Rdiv; ring). set (c := fst t / snd t). field. lra. }
  induction (combine (og_mu og) (og_alpha og)) as [|t ts IH]; cbn [fold_right]; [field; lra|].
  rewrite <- IH, <- (Ht t). unfold Rdiv. ring.
Qed.

Lemma ogden_gap og l a b : 0 < l a -> 0 < l b -> a <> b ->
  let g := ogden_gradient og l in let h := ogden_hessian og l in
  Rabs (exactF l g h a b - strF l g h a b) <= / 10 ^ 8 * ogden_bound (combine (og_mu og) (og_alpha og)) (l a ^ 2) (l b ^ 2).
Proof.
  intros Pa Pb Nab g h. pose proof (bound_pos (combine (og_mu og) (og_alpha og)) (l a ^ 2) (l b ^ 2)) as Bp.
  assert (0 < / 10 ^ 8) as E8 by (apply Rinv_0_lt_compat, pow_lt; lra).
  assert (0 <= / 10 ^ 8 * ogden_bound (combine (og_mu og) (og_alpha og)) (l a ^ 2) (l b ^ 2)) as Z by (apply Rmult_le_pos; lra).
  destruct (Req_dec (l a ^ 2) (l b ^ 2)) as [E|N].
  - rewrite <- (strF_exact l g h a b (or_introl E)). rewrite Rminus_eq_0, Rabs_R0. exact Z.
  - destruct (Rle_lt_dec (Rabs (l a ^ 2 - l b ^ 2)) (/ 10 ^ 8)) as [Hc|Hf].
    + unfold exactF, strF. assert (isclose (l a ^ 2 - l b ^ 2) 0 = true) as -> by (apply isclose0; exact Hc).
      destruct (Req_EM_T (l a ^ 2) (l b ^ 2)); [contradiction|].
      assert (strD l g h a b = 0) as ->.
      { unfold strD. replace (ix3_eqb a b) with false by (destruct a, b; try reflexivity; contradiction).
        replace (val (h (pos a b))) with 0 by (unfold h; destruct a, b; try reflexivity; contradiction). unfold Rdiv. ring. }
      unfold g, h. rewrite ogden_strD, !ogden_strK, Rminus_0_r by auto.
      eapply Rle_trans; [apply quotient_error; [apply pow_lt; auto|apply pow_lt; auto|exact N]|]. rewrite Rmult_comm. apply Rmult_le_compat_r; auto.
    + rewrite <- (strF_exact l g h a b (or_intror Hf)). rewrite Rminus_eq_0, Rabs_R0. exact Z.
Qed.
Lemma ogden_near {SV} lapack og : lapack_legal lapack -> alphas_ok og ->
  forall (C : R -> T2) t0 dC, (forall t, sym2 (C t)) -> dcurve2 C t0 dC -> posdef (C t0) ->
  forall (sv : SV) (s : StrSelf (ogden_model (SV:=SV) og)), exists H,
  returns (str_hessian lapack (ogden_model og) (asvoigt (C t0)) sv) s H /\
  forall (svt : R -> SV) (st : R -> StrSelf (ogden_model (SV:=SV) og)) (G : R -> Vec6),
    locally t0 (fun t => exists svn, returns (str_gradient lapack (ogden_model og) (asvoigt (C t)) (svt t)) (st t) (G t, svn)) ->
    exists dG, dcurve2 (fun t => astensor (G t)) t0 dG /\
    forall a b, let w := fst (lapack (C t0)) in let v := snd (lapack (C t0)) in
    Rabs (frame v (fun i j => dG i j - dc42 (astensor4 H) dC i j) a b) <=
      / 10 ^ 8 * ogden_bound (combine (og_mu og) (og_alpha og)) (w a) (w b) * Rabs (frame v dC a b).
Proof.
  intros HL HA C t0 dC HS HD HP sv s. destruct og as [mu alpha].
  destruct (near_value lapack (ogden_model (SV:=SV) {| og_mu := mu; og_alpha := alpha |}) (ogden_psi mu alpha) positive3 HL (ogden_symmetric _ _) positive_curve
    (ogden_grad' mu alpha HA) (ogden_hess {| og_mu := mu; og_alpha := alpha |} HA) C t0 dC HS HD (stretch_dom_positive _ HP) sv s)
    as (H & ms & g & svn & ms' & h & Eg & Eh & lw & wp & ls & RH & X). cbv zeta in *.
  exists H. split; [exact RH|]. intros svt st G HG. destruct (X svt st G HG) as (dG & DG & Y). exists dG. split; [exact DG|].
  intros a b. rewrite (Y a b). cbn in Eg, Eh. unfold ret in Eg, Eh. injection Eg as _ <- _. injection Eh as _ <-.
  set (l := lam lapack (asvoigt (C t0))) in *.
  assert (lp : forall c, 0 < l c) by (intro c; rewrite ls; apply sqrt_lt_R0, wp).
  assert (E8 : 0 < / 10 ^ 8) by (apply Rinv_0_lt_compat, pow_lt; lra).
  cbn [og_mu og_alpha]. rewrite <- !lw.
  destruct (ix3_eqb a b) eqn:Eab.
  - rewrite Rabs_R0. apply Rmult_le_pos; [|apply Rabs_pos]. apply Rmult_le_pos; [lra|apply bound_pos].
  - rewrite Rabs_mult. apply Rmult_le_compat_r; [apply Rabs_pos|].
    assert (forall c d, c <> d -> Rabs (exactF l (ogden_gradient {| og_mu := mu; og_alpha := alpha |} l) (ogden_hessian {| og_mu := mu; og_alpha := alpha |} l) c d -
      strF l (ogden_gradient {| og_mu := mu; og_alpha := alpha |} l) (ogden_hessian {| og_mu := mu; og_alpha := alpha |} l) c d) <= / 10 ^ 8 * ogden_bound (combine mu alpha) (l c ^ 2) (l d ^ 2)) as K.
    { intros c d Ncd. exact (ogden_gap {| og_mu := mu; og_alpha := alpha |} l c d (lp c) (lp d) Ncd). }
    destruct a, b; try discriminate; cbn [fs]; first [apply K; discriminate | rewrite bound_sym; apply K; discriminate].
Qed.
