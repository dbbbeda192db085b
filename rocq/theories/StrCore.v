(** Closed forms of the Stretches framework (C17 - C21). *)
From Coq Require Import Reals Lra List Bool FunctionalExtensionality.
From Coquelicot Require Import Coquelicot.
From Verif Require Import Tensor Py Voigt VoigtProofs Algebra Calc Models Frameworks Spaces Spec VCalc EighProofs EigCore.
Local Open Scope R_scope.

(** Coefficients of the returned tensors. *)
Definition strK (l g : Vec3) (a : ix3) : R := g a / (2 * l a).
Definition strD (l g : Vec3) (h : ix6 -> option R) (a b : ix3) : R :=
  val (h (pos a b)) / (4 * l a * l b) - (if ix3_eqb a b then strK l g a / (2 * l a ^ 2) else 0).
Definition strF (l g : Vec3) (h : ix6 -> option R) (a b : ix3) : R :=
  if isclose (l a ^ 2 - l b ^ 2) 0 then strD l g h b b - strD l g h a b
  else (strK l g a - strK l g b) / (l a ^ 2 - l b ^ 2).
Definition base (v : T2) (a : ix3) : T2 := fun i j => v i a * v j a.
Definition Gf (K : Vec3) (v : T2) : T2 := fun i j => sum3 (fun a => K a * base v a i j).
Definition Hf (D f : ix3 -> ix3 -> R) (v : T2) : T4 := fun i j p q =>
  sum3 (fun a => sum3 (fun b => D a b * (base v a i j * base v b p q)))
  + 2 * (f X0 X1 * cdya_spec (base v X0) (base v X1) i j p q
         + f X1 X2 * cdya_spec (base v X1) (base v X2) i j p q
         + f X0 X2 * cdya_spec (base v X0) (base v X2) i j p q).
Lemma base_sym v a : sym2 (base v a).
Proof. intros i j; unfold base; ring. Qed.
Lemma Gf_sym K v : sym2 (Gf K v).
Proof. intros i j; unfold Gf, base, sum3; ring. Qed.

Section S.
  Context {SV : Type} (lapack : Lapack) (m : StretchModel SV).
  Definition lam (C : Vec6) : Vec3 := fun a => sqrt (fst (lapack (astensor C)) a).
  Definition vec (C : Vec6) : T2 := snd (lapack (astensor C)).

  Definition strGv (C : Vec6) (g : Vec3) : Vec6 := asvoigt (Gf (strK (lam C) g) (vec C)).
  Definition strHv (C : Vec6) (g : Vec3) (h : ix6 -> option R) : Mat6 :=
    asvoigt4 (Hf (strD (lam C) g h) (strF (lam C) g h) (vec C)).

  Lemma strGv_eq C g : (fun u => sum3 (fun a => g a / (2 * lam C a) * asvoigt (base (vec C) a) u)) = strGv C g.
  Proof. apply Vec6_ext; intro u. unfold strGv, Gf, strK. destruct u; reflexivity. Qed.
  Lemma eigh_lam C : eigh lapack C sqrt = (lam C, fun a => asvoigt (base (vec C) a)).
  Proof. rewrite eigh_unfold. reflexivity. Qed.

  Lemma str_gradient_ok C sv s ms g svn : sm_gradient m (lam C) sv (st_model m s) = (ms, Ok (g, svn)) ->
    str_gradient lapack m C sv s =
      ({| st_lM := Some (lam C, fun a => asvoigt (base (vec C) a)); st_dWdlC := Some (strK (lam C) g); st_model := ms |},
       Ok (strGv C g, svn)).
  Proof.
    intro E. unfold str_gradient. rewrite eigh_lam.
    unfold bind, modify, get, put, on_model, ret, bind, get, put; cbn [st_model set_lM st_lM st_dWdlC set_dWdlC].
    rewrite E. cbn [st_model set_lM st_lM st_dWdlC set_dWdlC]. rewrite <- strGv_eq. reflexivity.
  Qed.
  Lemma str_gradient_raise C sv s ms e : sm_gradient m (lam C) sv (st_model m s) = (ms, Raise e) ->
    outcome (str_gradient lapack m C sv) s = Raise e.
  Proof.
    intro E. unfold str_gradient, outcome. rewrite eigh_lam.
    unfold bind, modify, get, put, on_model, ret, bind, get, put; cbn [st_model set_lM st_lM st_dWdlC set_dWdlC].
    rewrite E. reflexivity.
  Qed.
  Lemma str_gradient_inv C sv s G svn : returns (str_gradient lapack m C sv) s (G, svn) ->
    exists g, returns (sm_gradient m (lam C) sv) (st_model m s) (g, svn) /\ G = strGv C g.
  Proof.
    intros [s' H]. destruct (sm_gradient m (lam C) sv (st_model m s)) as [ms [[g svn']|e]] eqn:E.
    - rewrite (str_gradient_ok _ _ _ _ _ _ E) in H. injection H as _ <- <-. exists g. split; [exists ms; exact E|reflexivity].
    - pose proof (str_gradient_raise _ _ _ _ _ E) as R. unfold outcome in R. rewrite H in R. discriminate.
  Qed.

  Lemma iter_eq l v K d D f H : (forall k, D (sa k) (sb k) = d k) -> (forall a b, D a b = D b a) ->
    (forall k, f (sa k) (sb k) = str_f l K d k) ->
    let it := str_iter l (fun a => asvoigt (base v a)) K d in
    (forall i j p q, astensor4 H i j p q = 0) ->
    forall i j p q, astensor4 (it (it (it (it (it (it H V0) V1) V2) V3) V4) V5) i j p q = Hf D f v i j p q.
  Proof.
    intros HD HS HF it HZ i j p q.
    assert (step : forall H k i j p q, astensor4 (it H k) i j p q = astensor4 H i j p q +
      D (sa k) (sb k) * (base v (sa k) i j * base v (sb k) p q) +
      (if ix3_eqb (sb k) (sa k) then 0 else D (sa k) (sb k) * (base v (sb k) i j * base v (sa k) p q)
        + 2 * f (sa k) (sb k) * cdya_spec (base v (sa k)) (base v (sb k)) i j p q)).
    { clear i j p q H HZ. intros H k i j p q. unfold it, str_iter.
      set (M a := asvoigt (base v a)).
      assert (EM : forall a x y, astensor (M a) x y = base v a x y) by (intros; apply astensor_asvoigt, base_sym).
      destruct (ix3_eqb (sb k) (sa k)).
      - transitivity (astensor4 H i j p q + d k * astensor4 (dya (M (sa k)) (M (sb k))) i j p q); [reflexivity|].
        rewrite dya_full, !EM, HD. ring.
      - transitivity (astensor4 H i j p q + d k * astensor4 (dya (M (sa k)) (M (sb k))) i j p q
          + (d k * astensor4 (transpose (dya (M (sa k)) (M (sb k)))) i j p q
             + str_f l K d k * 2 * astensor4 (cdya (M (sa k)) (M (sb k))) i j p q)); [reflexivity|].
        replace (transpose (dya (M (sa k)) (M (sb k)))) with (dya (M (sb k)) (M (sa k)))
          by (apply Mat6_ext; intros; symmetry; apply dya_transpose).
        rewrite !dya_full, cdya_full, !EM, HD, HF.
        replace (astensor (M (sa k))) with (base v (sa k)) by (apply T2_ext; intros; symmetry; apply EM).
        replace (astensor (M (sb k))) with (base v (sb k)) by (apply T2_ext; intros; symmetry; apply EM).
        ring. }
    rewrite !step, HZ. cbn [sa sb ix3_eqb].
    unfold Hf, sum3. rewrite (HS X1 X0), (HS X2 X0), (HS X2 X1). ring.
  Qed.

  Lemma Hf_minor D f v : (forall a b, D a b = D b a) -> minor4 (Hf D f v).
  Proof. intros HS i j p q. split; unfold Hf, cdya_spec, base, sum3; field. Qed.
  Lemma Hf_major D f v : (forall a b, D a b = D b a) -> major4 (Hf D f v).
  Proof. intros HS i j p q. unfold Hf, cdya_spec, base, sum3. rewrite (HS X1 X0), (HS X2 X0), (HS X2 X1). field. Qed.
  Lemma strD_sym l g h a b : strD l g h a b = strD l g h b a.
  Proof. unfold strD. destruct a, b; cbn; unfold Rdiv; try reflexivity; f_equal; f_equal; f_equal; ring. Qed.

  Lemma str_hessian_ok C sv s ms g svn ms' h : sm_gradient m (lam C) sv (st_model m s) = (ms, Ok (g, svn)) ->
    sm_hessian m (lam C) svn ms = (ms', Ok h) ->
    exists s', str_hessian lapack m C sv s = (s', Ok (strHv C g h)) /\ st_model m s' = ms'.
  Proof.
    intros E E'. unfold str_hessian, bind. rewrite (str_gradient_ok _ _ _ _ _ _ E).
    unfold get, attr, on_model, ret, bind; cbn [st_model set_lM st_lM st_dWdlC set_dWdlC].
    rewrite E'. cbn [st_model st_lM st_dWdlC].
    eexists {| st_lM := _; st_dWdlC := _; st_model := ms' |}. split; [|reflexivity]. f_equal. f_equal.
    set (l := lam C). set (K := strK l g).
    match goal with |- context [str_iter l ?M K ?dd] => set (d := dd) end.
    apply Mat6_ext. intros u w.
    match goal with |- ?x u w = _ => rewrite <- (asvoigt4_astensor4 x u w) end.
    match goal with |- asvoigt4 ?x _ _ = _ => assert (EX : x = Hf (strD l g h) (strF l g h) (vec C)); [|rewrite EX; reflexivity] end.
    apply T4_ext.
    apply (iter_eq l (vec C) K d (strD l g h) (strF l g h) mzero).
    - intro k. unfold d, strD, val, K. destruct k; cbn [sa sb pos ix3_eqb]; unfold Rdiv; ring.
    - apply strD_sym.
    - intro k. unfold strF, str_f, K. 
      replace (d (sdiag (sb k))) with (strD l g h (sb k) (sb k)).
      replace (d k) with (strD l g h (sa k) (sb k)). reflexivity.
      + unfold d, strD, val, K. destruct k; cbn [sa sb pos ix3_eqb]; unfold Rdiv; ring.
      + unfold d, strD, val, K. destruct k; cbn [sa sb sdiag pos ix3_eqb]; unfold Rdiv; ring.
    - intros i j p q. unfold astensor4, mzero; reflexivity.
  Qed.
  Lemma str_hessian_graise C sv s ms e : sm_gradient m (lam C) sv (st_model m s) = (ms, Raise e) ->
    outcome (str_hessian lapack m C sv) s = Raise e.
  Proof.
    intro E. pose proof (str_gradient_raise _ _ _ _ _ E) as R. unfold outcome in *. unfold str_hessian, bind at 1.
    destruct (str_gradient lapack m C sv s) as [s' r]. cbn in R. subst r. reflexivity.
  Qed.
  Lemma str_hessian_hraise C sv s ms g svn ms' e : sm_gradient m (lam C) sv (st_model m s) = (ms, Ok (g, svn)) ->
    sm_hessian m (lam C) svn ms = (ms', Raise e) -> outcome (str_hessian lapack m C sv) s = Raise e.
  Proof.
    intros E E'. unfold outcome, str_hessian, bind. rewrite (str_gradient_ok _ _ _ _ _ _ E).
    unfold get, attr, on_model, ret, bind; cbn [st_model set_lM st_lM st_dWdlC set_dWdlC].
    rewrite E'. reflexivity.
  Qed.
  Lemma strGv_full C g : astensor (strGv C g) = Gf (strK (lam C) g) (vec C).
  Proof. apply astensor_asvoigt_f, Gf_sym. Qed.
  Lemma strHv_full C g h : astensor4 (strHv C g h) = Hf (strD (lam C) g h) (strF (lam C) g h) (vec C).
  Proof. apply T4_ext. intros. apply astensor4_asvoigt4. apply Hf_minor, strD_sym. Qed.
End S.
