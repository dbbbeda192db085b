(** Isotropy of the Stretches framework: results do not depend on LAPACK's choice of the
    eigenbasis and rotate with the tensor (C17). *)
From Coq Require Import Reals Lra List Bool FunctionalExtensionality.
From Coquelicot Require Import Coquelicot.
From Verif Require Import Tensor Py Voigt VoigtProofs Algebra Calc Models Frameworks Spaces Spec VCalc EighProofs EigCore ContR EigPath StrCore StrProofs StrHess IsoProofs GenProofs ScaleProofs.
Local Open Scope R_scope.

Definition gconst (w : Vec3) (K : ix3 -> R) : Prop := forall a b, w a = w b -> K a = K b.
Lemma group_sum A w v v' K i j : eig_legal A w v -> eig_legal A w v' -> gconst w K ->
  sum3 (fun a => K a * base v a i j) = sum3 (fun a => K a * base v' a i j).
Proof.
  intros L L' HK.
  destruct (hermite w K (fun _ _ => 0) HK ltac:(auto) ltac:(auto)) as (q0 & q1 & q2 & E & _).
  unfold base. transitivity (sum3 (fun a => (q0 + q1 * w a + q2 * w a ^ 2) * (v i a * v j a))).
  - apply sum3_ext; intro a; rewrite E; reflexivity.
  - rewrite (poly_Gf _ _ _ _ _ _ _ _ L), <- (poly_Gf _ _ _ _ _ _ _ _ L').
    apply sum3_ext; intro a; rewrite E; reflexivity.
Qed.
Lemma sum3_swap (f : ix3 -> ix3 -> R) : sum3 (fun a => sum3 (f a)) = sum3 (fun b => sum3 (fun a => f a b)).
Proof. unfold sum3; ring. Qed.
Lemma sum3_scal c f : sum3 (fun a => c * f a) = c * sum3 f.
Proof. unfold sum3; ring. Qed.
(** Double sums with coefficients that are constant on groups in both indices. *)
Lemma group_sum2 A w v v' (Q : ix3 -> ix3 -> R) i j p q : eig_legal A w v -> eig_legal A w v' ->
  (forall b, gconst w (fun a => Q a b)) -> (forall a, gconst w (Q a)) ->
  sum3 (fun a => sum3 (fun b => Q a b * (base v a i j * base v b p q))) =
  sum3 (fun a => sum3 (fun b => Q a b * (base v' a i j * base v' b p q))).
Proof.
  intros L L' H1 H2.
  transitivity (sum3 (fun a => sum3 (fun b => Q a b * base v b p q) * base v a i j)).
  { apply sum3_ext; intro a. unfold sum3; ring. }
  rewrite (group_sum A w v v' (fun a => sum3 (fun b => Q a b * base v b p q)) i j L L').
  2: { intros a a' E. apply sum3_ext; intro b. rewrite (H1 b a a' E). reflexivity. }
  apply sum3_ext; intro a. rewrite (group_sum A w v v' (Q a) p q L L' (H2 a)). unfold sum3; ring.
Qed.

Definition phi (w : Vec3) (f : ix3 -> ix3 -> R) (a : ix3) : R :=
  match a with
  | X0 => if Req_EM_T (w X0) (w X1) then f X0 X1 else if Req_EM_T (w X0) (w X2) then f X0 X2 else 0
  | X1 => if Req_EM_T (w X0) (w X1) then f X0 X1 else if Req_EM_T (w X1) (w X2) then f X1 X2 else 0
  | X2 => if Req_EM_T (w X0) (w X2) then f X0 X2 else if Req_EM_T (w X1) (w X2) then f X1 X2 else 0
  end.
Definition fs (w : Vec3) (f : ix3 -> ix3 -> R) (a b : ix3) : R :=
  match a, b with
  | X0, X1 | X1, X0 => f X0 X1 | X1, X2 | X2, X1 => f X1 X2 | X0, X2 | X2, X0 => f X0 X2
  | a, _ => phi w f a end.
Lemma Hf_split w D f v i j p q :
  Hf D f v i j p q =
  sum3 (fun a => sum3 (fun b => (D a b - delta a b * phi w f a) * (base v a i j * base v b p q)))
  + (sum3 (fun a => sum3 (fun b => fs w f a b * (base v a i p * base v b j q)))
     + sum3 (fun a => sum3 (fun b => fs w f a b * (base v a i q * base v b j p)))) / 2.
Proof.
  unfold Hf, sum3, delta; cbn [ix3_eqb fs]. set (x := phi w f). clearbody x. unfold cdya_spec, base. field.
Qed.

(** Coefficients as they come out of the framework. *)
Section Coef.
  Context (w : Vec3) (D f : ix3 -> ix3 -> R) (Hw : w X0 <= w X1 <= w X2).
  Context (HS : forall a b, D a b = D b a)
          (HD : forall a b k j, w a = w b -> D k j = D (exchange a b k) (exchange a b j))
          (F01 : w X0 = w X1 -> f X0 X1 = D X1 X1 - D X0 X1) (F12 : w X1 = w X2 -> f X1 X2 = D X2 X2 - D X1 X2)
          (F02 : w X0 = w X2 -> f X0 X2 = D X2 X2 - D X0 X2)
          (G0 : w X0 = w X1 -> f X0 X2 = f X1 X2) (G2 : w X1 = w X2 -> f X0 X1 = f X0 X2).
  Lemma coef_groups :
    (forall b, gconst w (fun a => D a b - delta a b * phi w f a)) /\ (forall a, gconst w (fun b => D a b - delta a b * phi w f a)) /\
    (forall b, gconst w (fun a => fs w f a b)) /\ (forall a, gconst w (fs w f a)).
  Proof.
    pose proof (HD X0 X1) as D01. pose proof (HD X1 X2) as D12.
    assert (S10 := HS X1 X0). assert (S20 := HS X2 X0). assert (S21 := HS X2 X1). clear HD HS.
    destruct (Req_dec (w X0) (w X1)) as [E01|N01]; destruct (Req_dec (w X1) (w X2)) as [E12|N12];
      [| | |].
    - assert (E02 : w X0 = w X2) by lra.
      pose proof (D01 X0 X0 E01) as A1. pose proof (D01 X0 X2 E01) as A2. pose proof (D12 X1 X1 E12) as A3. pose proof (D12 X0 X1 E12) as A4.
      specialize (F01 E01). specialize (F12 E12). specialize (F02 E02). clear D01 D12 G0 G2. cbn in A1, A2, A3, A4.
      repeat split; intros x a b _; unfold fs, phi, delta; destruct a, b, x; cbn;
        repeat (destruct (Req_EM_T _ _); [|lra]); try reflexivity; lra.
    - assert (N02 : w X0 <> w X2) by lra.
      pose proof (D01 X0 X0 E01) as A1. pose proof (D01 X0 X2 E01) as A2.
      specialize (F01 E01). specialize (G0 E01). clear D01 D12 F12 F02 G2. cbn in A1, A2.
      repeat split; intros x a b E; unfold fs, phi, delta; destruct a, b, x; cbn; try (exfalso; congruence); try (exfalso; lra);
        repeat (destruct (Req_EM_T _ _); try lra); try reflexivity; lra.
    - assert (N02 : w X0 <> w X2) by lra.
      pose proof (D12 X1 X1 E12) as A1. pose proof (D12 X0 X1 E12) as A2.
      specialize (F12 E12). specialize (G2 E12). clear D01 D12 F01 F02 G0. cbn in A1, A2.
      repeat split; intros x a b E; unfold fs, phi, delta; destruct a, b, x; cbn; try (exfalso; congruence); try (exfalso; lra);
        repeat (destruct (Req_EM_T _ _); try lra); try reflexivity; lra.
    - assert (N02 : w X0 <> w X2) by lra.
      repeat split; intros x a b E; (assert (a = b) as -> by (destruct a, b; try reflexivity; exfalso; congruence)); reflexivity.
  Qed.
  Lemma Hf_indep A v v' : eig_legal A w v -> eig_legal A w v' -> Hf D f v = Hf D f v'.
  Proof.
    intros L L'. destruct coef_groups as (H1 & H2 & H3 & H4).
    apply T4_ext; intros i j p q. rewrite !(Hf_split w).
    rewrite (group_sum2 A w v v' (fun a b => D a b - delta a b * phi w f a) i j p q L L' H1 H2).
    rewrite (group_sum2 A w v v' (fs w f) i p j q L L' H3 H4).
    rewrite (group_sum2 A w v v' (fs w f) i q j p L L' H3 H4). reflexivity.
  Qed.
End Coef.

Section Iso.
  Context {SV : Type} (lapack lapack' : Lapack) (m : StretchModel SV) (HL : lapack_legal lapack) (HL' : lapack_legal lapack') (HE : exchangeable_gradient m).

  Lemma strD_exchange l g h a b k j : l a = l b -> g a = g b ->
    (forall k j, val (h (pos k j)) = val (h (pos (exchange a b k) (exchange a b j)))) ->
    strD l g h k j = strD l g h (exchange a b k) (exchange a b j).
  Proof.
    intros El Eg Eh. unfold strD, strK. rewrite (Eh k j).
    assert (X : forall c, l (exchange a b c) = l c) by (intro c; destruct a, b, c; cbn; congruence).
    assert (Y : forall c, g (exchange a b c) = g c) by (intro c; destruct a, b, c; cbn; congruence).
    rewrite !X, !Y. replace (ix3_eqb (exchange a b k) (exchange a b j)) with (ix3_eqb k j); [reflexivity|].
    destruct a, b, k, j; reflexivity.
  Qed.
  Lemma rot_legal Q C : orthogonal Q -> sym2 C -> eig_legal (rot2 Q C) (fst (lapack C)) (mmul Q (snd (lapack C))).
  Proof.
    intros O S. pose proof (frame_legal C _ _ (mtr Q) (orthogonal_mtr Q O) (legal_sym lapack HL C S)) as H.
    unfold frame in H. rewrite mtr_mtr in H. exact H.
  Qed.
  Lemma rot_w Q C : orthogonal Q -> sym2 C -> fst (lapack' (rot2 Q C)) = fst (lapack C).
  Proof.
    intros O S. exact (eig_unique _ _ _ _ _ (legal_sym lapack' HL' _ (rot2_sym Q C S)) (rot_legal Q C O S)).
  Qed.
  Lemma base_rot Q v a : base (mmul Q v) a = rot2 Q (base v a).
  Proof. apply T2_ext; intros i j. unfold base, rot2, mmul, mtr, sum3. ring. Qed.
  Lemma Gf_rot Q K v : Gf K (mmul Q v) = rot2 Q (Gf K v).
  Proof. apply T2_ext; intros i j. unfold Gf, sum3. rewrite !base_rot. unfold rot2, mmul, mtr. set (B := base v). clearbody B. unfold sum3. ring. Qed.
  Lemma Hf_rot Q D f v : Hf D f (mmul Q v) = rot4 Q (Hf D f v).
  Proof.
    assert (E : forall a b i j p q, rot2 Q (base v a) i j * rot2 Q (base v b) p q = rot4 Q (fun i j p q => base v a i j * base v b p q) i j p q).
    { intros. symmetry. apply (rot4_dyf Q (base v a) (base v b)). }
    assert (E' : forall a b i j p q, cdya_spec (rot2 Q (base v a)) (rot2 Q (base v b)) i j p q = rot4 Q (fun i j p q => cdya_spec (base v a) (base v b) i j p q) i j p q).
    { intros. symmetry. apply rot4_cdya. }
    apply T4_ext; intros i j p q. unfold Hf, sum3. rewrite !base_rot, !E, !E'. clear E E'.
    repeat first [rewrite rot4_plus | rewrite rot4_scal]. reflexivity.
  Qed.

  Lemma stretches_isotropic2 Q C sv (s : StrSelf m) : orthogonal Q -> sym2 C -> posdef C ->
  outcome (str_gradient lapack' m (asvoigt (rot2 Q C)) sv) s =
    rmap (fun r => (asvoigt (rot2 Q (astensor (fst r))), snd r)) (outcome (str_gradient lapack m (asvoigt C) sv) s) /\
  (exchangeable_hessian m -> outcome (str_hessian lapack' m (asvoigt (rot2 Q C)) sv) s =
    rmap (fun H => asvoigt4 (rot4 Q (astensor4 H))) (outcome (str_hessian lapack m (asvoigt C) sv) s)).
  Proof.
    intros O S P.
    assert (L := legal_sym lapack HL C S). assert (S' := rot2_sym Q C S). assert (L' := legal_sym lapack' HL' _ S').
    assert (EW := rot_w Q C O S). assert (LR := rot_legal Q C O S). rewrite EW in L'.
    set (w := fst (lapack C)) in *. set (l := fun a => sqrt (w a)).
    assert (Pw : forall a, 0 < w a) by (apply (eig_posdef _ _ _ L); auto).
    assert (Pl : positive3 l) by (intro a; apply sqrt_lt_R0; auto).
    assert (lw : forall a b, w a = w b -> l a = l b) by (intros a b E; unfold l; rewrite E; reflexivity).
    assert (El : lam lapack (asvoigt C) = l) by (rewrite lam_sym; auto).
    assert (El' : lam lapack' (asvoigt (rot2 Q C)) = l) by (rewrite lam_sym, EW; auto).
    destruct (sm_gradient m l sv (st_model m s)) as [ms [[g svn]|e]] eqn:EG.
    2: { split; [|intros _].
      - rewrite (str_gradient_raise lapack m (asvoigt C) sv s ms e) by (rewrite El; exact EG).
        rewrite (str_gradient_raise lapack' m (asvoigt (rot2 Q C)) sv s ms e) by (rewrite El'; exact EG). reflexivity.
      - rewrite (str_hessian_graise lapack m (asvoigt C) sv s ms e) by (rewrite El; exact EG).
        rewrite (str_hessian_graise lapack' m (asvoigt (rot2 Q C)) sv s ms e) by (rewrite El'; exact EG). reflexivity. }
    assert (Hg : forall a b, w a = w b -> g a = g b).
    { intros a b E. apply (HE l sv (st_model m s) a b Pl (lw a b E) g svn). unfold outcome. rewrite EG. reflexivity. }
    split.
    - unfold outcome. rewrite (str_gradient_ok lapack m (asvoigt C) sv s ms g svn) by (rewrite El; exact EG).
      rewrite (str_gradient_ok lapack' m (asvoigt (rot2 Q C)) sv s ms g svn) by (rewrite El'; exact EG).
      cbn [snd rmap fst]. f_equal. f_equal. unfold strGv. rewrite astensor_asvoigt_f by apply Gf_sym.
      rewrite El, El', !vec_sym by auto. f_equal. rewrite <- Gf_rot.
      apply T2_ext; intros i j. unfold Gf. apply (group_sum (rot2 Q C) w); auto.
      intros a b E. unfold strK. rewrite (lw a b E), (Hg a b E). reflexivity.
    - intros HH. destruct (sm_hessian m l svn ms) as [ms' [h|e]] eqn:EH.
      2: { rewrite (str_hessian_hraise lapack m (asvoigt C) sv s ms g svn ms' e) by (rewrite El; auto).
           rewrite (str_hessian_hraise lapack' m (asvoigt (rot2 Q C)) sv s ms g svn ms' e) by (rewrite El'; auto). reflexivity. }
      destruct (str_hessian_ok lapack m (asvoigt C) sv s ms g svn ms' h) as (s1 & E1 & _); [rewrite El; auto|rewrite El; auto|].
      destruct (str_hessian_ok lapack' m (asvoigt (rot2 Q C)) sv s ms g svn ms' h) as (s2 & E2 & _); [rewrite El'; auto|rewrite El'; auto|].
      unfold outcome. rewrite E1, E2. cbn [snd rmap]. f_equal.
      unfold strHv at 1. rewrite strHv_full. rewrite El, El', !vec_sym by auto. f_equal. rewrite <- Hf_rot.
      assert (HD : forall a b k j, w a = w b -> strD l g h k j = strD l g h (exchange a b k) (exchange a b j)).
      { intros a b k j E. apply strD_exchange; auto.
        apply (HH l svn ms a b Pl (lw a b E) h). unfold outcome. rewrite EH. reflexivity. }
      assert (close : forall x, x = 0 -> isclose x 0 = true) by (intros x ->; apply isclose0; rewrite Rabs_R0; lra).
      apply (Hf_indep w) with (rot2 Q C); auto.
      + apply L.
      + apply strD_sym.
      + intro E. unfold strF. rewrite close; [reflexivity|]. rewrite (lw _ _ E); ring.
      + intro E. unfold strF. rewrite close; [reflexivity|]. rewrite (lw _ _ E); ring.
      + intro E. unfold strF. rewrite close; [reflexivity|]. rewrite (lw _ _ E); ring.
      + intro E. pose proof (HD X0 X1 X0 X2 E) as X. cbn in X. unfold strF. rewrite X, (lw _ _ E). unfold strK. rewrite (lw _ _ E), (Hg _ _ E). reflexivity.
      + intro E. pose proof (HD X1 X2 X0 X1 E) as X. pose proof (HD X1 X2 X1 X1 E) as Y. cbn in X, Y. unfold strF. rewrite X, Y, (lw _ _ E). unfold strK. rewrite (lw _ _ E), (Hg _ _ E). reflexivity.
  Qed.
End Iso.
Lemma rot2_one_l C : rot2 one2 C = C.
Proof. apply T2_ext; intros i j. unfold rot2, mmul, mtr, one2, delta, sum3. destruct i, j; cbn; ring. Qed.
Lemma delta_pick i (f : ix3 -> R) : sum3 (fun I => delta i I * f I) = f i.
Proof. unfold sum3. destruct i; unfold delta; cbn; ring. Qed.
Lemma rot4_one_l A : rot4 one2 A = A.
Proof.
  apply T4_ext; intros i j k l.
  transitivity (sum3 (fun I => delta i I * sum3 (fun J => delta j J * sum3 (fun K => delta k K * sum3 (fun L => delta l L * A I J K L))))).
  - unfold rot4, one2. set (di := delta i). set (dj := delta j). set (dk := delta k). set (dl := delta l). clearbody di dj dk dl. unfold sum3. ring.
  - rewrite (delta_pick i (fun I => sum3 (fun J => delta j J * sum3 (fun K => delta k K * sum3 (fun L => delta l L * A I J K L))))).
    rewrite (delta_pick j (fun J => sum3 (fun K => delta k K * sum3 (fun L => delta l L * A i J K L)))).
    rewrite (delta_pick k (fun K => sum3 (fun L => delta l L * A i j K L))). apply delta_pick.
Qed.
Lemma orthogonal_one : orthogonal one2.
Proof. intros i j. unfold mmul, mtr, one2, delta, sum3. destruct i, j; cbn; ring. Qed.
Lemma stretches_isotropic_gradient {SV} lapack (m : StretchModel SV) : lapack_legal lapack -> exchangeable_gradient m ->
  isotropic_gradient (stretches_fw lapack m) posdef.
Proof. intros HL HE Q C sv s O S P. exact (proj1 (stretches_isotropic2 lapack lapack m HL HL HE Q C sv s O S P)). Qed.
Lemma stretches_isotropic {SV} lapack (m : StretchModel SV) : lapack_legal lapack -> exchangeable_gradient m -> exchangeable_hessian m ->
  isotropic_fw (stretches_fw lapack m) posdef.
Proof. intros HL HE HH Q C sv s O S P. destruct (stretches_isotropic2 lapack lapack m HL HL HE Q C sv s O S P). split; auto. Qed.
Lemma stretches_basis_free {SV} lapack lapack' (m : StretchModel SV) : lapack_legal lapack -> lapack_legal lapack' -> exchangeable_gradient m ->
  forall C sv s, sym2 C -> posdef C ->
  outcome (str_gradient lapack' m (asvoigt C) sv) s = outcome (str_gradient lapack m (asvoigt C) sv) s /\
  (exchangeable_hessian m -> outcome (str_hessian lapack' m (asvoigt C) sv) s = outcome (str_hessian lapack m (asvoigt C) sv) s).
Proof.
  intros HL HL' HE C sv s S P.
  destruct (stretches_isotropic2 lapack lapack' m HL HL' HE one2 C sv s orthogonal_one S P) as [A B].
  rewrite rot2_one_l in A, B. split.
  - rewrite A. destruct (outcome (str_gradient lapack m (asvoigt C) sv) s) as [[g svn]|e]; cbn; [|reflexivity].
    rewrite rot2_one_l, asvoigt_astensor_f. reflexivity.
  - intro HH. rewrite (B HH). destruct (outcome (str_hessian lapack m (asvoigt C) sv) s) as [H|e]; cbn; [|reflexivity].
    rewrite rot4_one_l, asvoigt4_astensor4_f. reflexivity.
Qed.

(** *** The library's stretch models are exchangeable and have symmetric energies. *)
Lemma ogden_at (og : Ogden) a b l : l a = l b -> ogden_gradient og l a = ogden_gradient og l b.
Proof.
  intro E. unfold ogden_gradient.
  assert (X : forall xs (acc : Vec3), acc a = acc b ->
    fold_left (fun (acc : Vec3) '(mu, alpha) => fun a => acc a + 2 * mu / alpha * Rpower (l a) (alpha - 1)) xs acc a =
    fold_left (fun (acc : Vec3) '(mu, alpha) => fun a => acc a + 2 * mu / alpha * Rpower (l a) (alpha - 1)) xs acc b).
  { induction xs as [|[mu al] xs IH]; intros acc H; cbn [fold_left]; [exact H|]. apply IH. rewrite E, H. reflexivity. }
  apply X. reflexivity.
Qed.
Lemma ogden_hess_at (og : Ogden) a b l k j : l a = l b ->
  val (ogden_hessian og l (pos k j)) = val (ogden_hessian og l (pos (exchange a b k) (exchange a b j))).
Proof.
  intro E. unfold ogden_hessian.
  set (d := fold_left _ _ _).
  assert (X : forall xs (acc : Vec3), acc a = acc b ->
    fold_left (fun (acc : Vec3) '(mu, alpha) => fun a => acc a + 2 * mu / alpha * (alpha - 1) * Rpower (l a) (alpha - 2)) xs acc a =
    fold_left (fun (acc : Vec3) '(mu, alpha) => fun a => acc a + 2 * mu / alpha * (alpha - 1) * Rpower (l a) (alpha - 2)) xs acc b).
  { induction xs as [|[mu al] xs IH]; intros acc H; cbn [fold_left]; [exact H|]. apply IH. rewrite E, H. reflexivity. }
  assert (Ed : d a = d b) by (apply X; reflexivity). clearbody d. clear X.
  destruct a, b, k, j; cbn in *; congruence.
Qed.
Lemma ogden_exchangeable {SV} og : exchangeable_gradient (ogden_model (SV:=SV) og) /\ exchangeable_hessian (ogden_model (SV:=SV) og).
Proof.
  split; intros l sv s a b _ E; cbn [ogden_model sm_gradient sm_hessian]; unfold outcome, ret; cbn.
  - intros g svn H. injection H as <- _. apply ogden_at; auto.
  - intros h H k j. injection H as <-. apply ogden_hess_at; auto.
Qed.
Lemma strain3_inv fs l st : strain3 fs l = Ok st -> forall a, fs (l a) = Ok (st a).
Proof.
  unfold strain3, rbind. destruct (fs (l X0)) eqn:E0; [|discriminate]. destruct (fs (l X1)) eqn:E1; [|discriminate].
  destruct (fs (l X2)) eqn:E2; [|discriminate]. intros H. injection H as <-. intros []; auto.
Qed.
Lemma gen_exchangeable {SV} (m : InvModel SV) fs c : exchangeable_gradient (gen_model m fs c).
Proof.
  intros l sv s a b _ E g svn. cbn [gen_model sm_gradient sm_self] in *. rewrite gen_grad_core.
  unfold rbind. destruct (strain3 fs l) as [st|e] eqn:ES; [|discriminate].
  destruct (inv_call m (genI c st) sv) as [[[[g1 g2] g3] svn']|e]; [|discriminate].
  intros H. injection H as <- _.
  assert (X : st a = st b). { pose proof (strain3_inv fs l st ES) as I. pose proof (I a) as A. rewrite E, (I b) in A. congruence. }
  unfold genG. rewrite !accum_val by ring. destruct a, b; cbn [gb gg] in *; rewrite ?X in *; try rewrite <- X; ring.
Qed.
Lemma genH_val c st g1 g2 g3 h v : genH c st g1 g2 g3 h v =
  (val (h V0) * gc1 c * gc1 c
   + val (h V1) * (gc2 c * (sE (st (gb (ga6 v))) + sE (st (gg (ga6 v))))) * (gc2 c * (sE (st (gb (gb6 v))) + sE (st (gg (gb6 v)))))
   + val (h V2) * (sE (st (gb (ga6 v))) * sE (st (gg (ga6 v)))) * (sE (st (gb (gb6 v))) * sE (st (gg (gb6 v))))
   + val (h V3) * (gc1 c * (gc2 c * (sE (st (gb (gb6 v))) + sE (st (gg (gb6 v))))) + (gc2 c * (sE (st (gb (ga6 v))) + sE (st (gg (ga6 v))))) * gc1 c)
   + val (h V4) * ((gc2 c * (sE (st (gb (ga6 v))) + sE (st (gg (ga6 v))))) * (sE (st (gb (gb6 v))) * sE (st (gg (gb6 v))))
                   + (sE (st (gb (ga6 v))) * sE (st (gg (ga6 v)))) * (gc2 c * (sE (st (gb (gb6 v))) + sE (st (gg (gb6 v))))))
   + val (h V5) * (gc1 c * (sE (st (gb (gb6 v))) * sE (st (gg (gb6 v)))) + (sE (st (gb (ga6 v))) * sE (st (gg (ga6 v)))) * gc1 c)
   + (if mixed v then val g2 * gc2 c + val g3 * gEg v else 0)) * (sdE (st (ga6 v)) * sdE (st (gb6 v)))
  + (if mixed v then 0 else (val g1 * gc1 c + val g2 * (gc2 c * (sE (st (gb (ga6 v))) + sE (st (gg (ga6 v)))))
       + val g3 * (sE (st (gb (ga6 v))) * sE (st (gg (ga6 v))))) * sd2E (st (ga6 v))).
Proof.
  unfold genH; cbv zeta; cbv beta. rewrite !accum_val by (destruct (mixed v); ring).
  destruct (mixed v); ring.
Qed.
Lemma gen_exchangeable_hessian {SV} (m : InvModel SV) fs c :
  (forall J sv g svn, inv_call m J sv = Ok (g, svn) -> val (o3 g X2) = 0) -> exchangeable_hessian (gen_model m fs c).
Proof.
  intros HZ l sv s a b _ E h. cbn [gen_model sm_hessian sm_self] in *. rewrite gen_hess_core.
  unfold rbind. destruct (strain3 fs l) as [st|e] eqn:ES; [|discriminate].
  destruct (inv_call m (genI c st) sv) as [[[[g1 g2] g3] svn']|e] eqn:EI; [|discriminate].
  pose proof (HZ _ _ _ _ EI) as Z. cbn in Z.
  destruct (inv_callh m (genI c st) sv) as [h'|e]; [|discriminate].
  intros H k j. injection H as <-. cbn [val].
  assert (X : st a = st b). { pose proof (strain3_inv fs l st ES) as I. pose proof (I a) as A. rewrite E, (I b) in A. congruence. }
  rewrite !genH_val, Z. clear - X.
  destruct a, b, k, j; cbn [exchange ix3_eqb pos ga6 gb6 gb gg mixed] in *; rewrite ?X; ring.
Qed.
