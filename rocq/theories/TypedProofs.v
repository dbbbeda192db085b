From Coq Require Import Reals ZArith Lra Lia FunctionalExtensionality Bool.
From Verif Require Import Tensor Py Voigt VoigtProofs Algebra Models Frameworks Spaces Lab Spec VCalc InvCore SpaceCore HistProofs Typed TypedSpec.
Local Open Scope R_scope.

Lemma wrap_id z : (- 2 ^ 63 <= z < 2 ^ 63)%Z -> wrap z = z.
Proof. intro H. unfold wrap. rewrite Z.mod_small; lia. Qed.

Lemma wrap_abs z B : (Z.abs z <= B)%Z -> (B <? 2 ^ 63)%Z = true -> wrap z = z.
Proof. intros H L. apply Z.ltb_lt in L. apply wrap_id. lia. Qed.
Lemma abs_mul a b A B : (Z.abs a <= A -> Z.abs b <= B -> Z.abs (a * b) <= A * B)%Z.
Proof. intros. rewrite Z.abs_mul. apply Z.mul_le_mono_nonneg; lia. Qed.

Definition fineZ (B : Z) (n : num) (x : R) : Prop := rv n = x /\ match n with NI z => (Z.abs z <= B)%Z | NF _ => True end.
Definition fine (C : A6) (C0 : Vec6) : Prop :=
  (forall v, vals C v = C0 v) /\ match C with AI f => forall v, (Z.abs (f v) <= 750000)%Z | AF _ => True end.

Lemma fine_CG F : moderate F -> fine (t_right_CG F) (right_CG (numbers F)).
Proof.
  unfold numbers. intros [[f ->]|(z & (f & -> & E) & B)].
  - split; [|exact Logic.I]. intro v. reflexivity.
  - assert (B' : forall i j, (Z.abs (f (i, j)) <= 500)%Z) by (intros i j; rewrite E; apply B).
    assert (S : forall i j, (Z.abs (sum3z (fun k => f (k, i) * f (k, j))) <= 750000)%Z).
    { intros i j. unfold sum3z. pose proof (abs_mul _ _ _ _ (B' X0 i) (B' X0 j)) as Q0.
      pose proof (abs_mul _ _ _ _ (B' X1 i) (B' X1 j)) as Q1. pose proof (abs_mul _ _ _ _ (B' X2 i) (B' X2 j)) as Q2.
      revert Q0 Q1 Q2. clear. generalize (f (X0, i) * f (X0, j))%Z (f (X1, i) * f (X1, j))%Z (f (X2, i) * f (X2, j))%Z. lia. }
    split.
    + intro v. cbn. rewrite wrap_id by (specialize (S (vi v) (vj v)); lia).
      unfold sum3z, right_CG, asvoigt, sum3. rewrite !plus_IZR, !mult_IZR. reflexivity.
    + intro v. cbn. rewrite wrap_id by (specialize (S (vi v) (vj v)); lia). apply S.
Qed.

Lemma fine_trace C C0 : fine C C0 -> fineZ 2250000 (t_trace C) (trace C0).
Proof.
  intros [E B]. unfold fineZ, trace. rewrite <- !E. destruct C as [f|f]; cbn.
  - pose proof (B V0); pose proof (B V1); pose proof (B V2). rewrite wrap_id by lia. split; [|lia].
    rewrite !plus_IZR. reflexivity.
  - split; [reflexivity|exact Logic.I].
Qed.
Lemma fine_ddot C C0 : fine C C0 -> fineZ 5062500000000 (t_ddot22 C C) (ddot22 C0 C0).
Proof.
  intros [E B]. unfold fineZ. assert (E' : C0 = vals C) by (apply Vec6_ext; intro v; symmetry; apply E). rewrite E'.
  destruct C as [f|f]; [|split; [reflexivity|exact Logic.I]].
  assert (Q : forall v, (0 <= f v * f v <= 562500000000)%Z).
  { intro v. pose proof (abs_mul _ _ _ _ (B v) (B v)) as Q. rewrite Z.abs_eq in Q by apply Z.square_nonneg. split; [apply Z.square_nonneg|exact Q]. }
  cbn. unfold sum6z. cbn [weightsz].
  pose proof (Q V0); pose proof (Q V1); pose proof (Q V2); pose proof (Q V3); pose proof (Q V4); pose proof (Q V5).
  assert (L : (Z.abs (f V0 * f V0 * 1 + f V1 * f V1 * 1 + f V2 * f V2 * 1 + f V3 * f V3 * 2 + f V4 * f V4 * 2 + f V5 * f V5 * 2) <= 5062500000000)%Z).
  { revert H H0 H1 H2 H3 H4. clear. generalize (f V0 * f V0)%Z (f V1 * f V1)%Z (f V2 * f V2)%Z (f V3 * f V3)%Z (f V4 * f V4)%Z (f V5 * f V5)%Z. lia. }
  rewrite (wrap_abs _ _ L ltac:(reflexivity)). split; [|exact L].
  rewrite !plus_IZR, !mult_IZR. unfold ddot22, sum6. cbn [vals weights]. ring.
Qed.
Lemma fine_I2 C C0 : fine C C0 ->
  ndiv (nsub (nsquare (t_trace C)) (t_ddot22 C C)) (NI 2) = NF ((trace C0 ^ 2 - ddot22 C0 C0) / 2).
Proof.
  intro H. destruct (fine_trace _ _ H) as [T BT]. destruct (fine_ddot _ _ H) as [D BD]. unfold ndiv. f_equal. cbn [rv]. f_equal.
  rewrite <- T, <- D. revert BT BD. generalize (t_trace C) (t_ddot22 C C). intros [z|x] [y|y] BT BD; cbn [nsquare nsub nop rv]; try reflexivity.
  - pose proof (abs_mul _ _ _ _ BT BT) as Q. rewrite (wrap_abs _ _ Q ltac:(reflexivity)).
    rewrite wrap_id; [rewrite minus_IZR, mult_IZR; ring|]. revert Q BD. clear. generalize (z * z)%Z. lia.
  - pose proof (abs_mul _ _ _ _ BT BT) as Q. rewrite (wrap_abs _ _ Q ltac:(reflexivity)). rewrite mult_IZR. ring.
Qed.
Lemma fine_det C C0 : fine C C0 -> rv (t_det C) = det C0.
Proof.
  intros [E B]. unfold det. rewrite <- !E. destruct C as [f|f]; cbn [vals] in *.
  - unfold t_det. cbn [item nsub nadd nmul nsquare nop rv].
    assert (P2 : forall v w, (Z.abs (f v * f w) <= 562500000000)%Z)
      by (intros v w; exact (abs_mul _ _ _ _ (B v) (B w))).
    assert (P3 : forall u v w, (Z.abs (f u * f v * f w) <= 421875000000000000)%Z)
      by (intros u v w; exact (abs_mul _ _ _ _ (P2 u v) (B w))).
    assert (P4 : (Z.abs (2 * f V3) <= 1500000)%Z) by exact (abs_mul 2 _ 2 _ ltac:(lia) (B V3)).
    assert (P5 : (Z.abs (2 * f V3 * f V4) <= 1125000000000)%Z) by exact (abs_mul _ _ _ _ P4 (B V4)).
    assert (P6 : (Z.abs (2 * f V3 * f V4 * f V5) <= 843750000000000000)%Z) by exact (abs_mul _ _ _ _ P5 (B V5)).
    rewrite (wrap_abs _ _ (P2 V0 V1) ltac:(reflexivity)), (wrap_abs _ _ P4 ltac:(reflexivity)), (wrap_abs _ _ P5 ltac:(reflexivity)), (wrap_abs _ _ P6 ltac:(reflexivity)).
    rewrite (wrap_abs _ _ (P2 V4 V4) ltac:(reflexivity)), (wrap_abs _ _ (P2 V5 V5) ltac:(reflexivity)), (wrap_abs _ _ (P2 V3 V3) ltac:(reflexivity)).
    pose proof (P3 V0 V1 V2) as Q1; pose proof (P3 V4 V4 V0) as Q2; pose proof (P3 V5 V5 V1) as Q3; pose proof (P3 V3 V3 V2) as Q4.
    rewrite (wrap_abs _ _ Q1 ltac:(reflexivity)), (wrap_abs _ _ Q2 ltac:(reflexivity)), (wrap_abs _ _ Q3 ltac:(reflexivity)), (wrap_abs _ _ Q4 ltac:(reflexivity)).
    transitivity (IZR (f V0 * f V1 * f V2 + 2 * f V3 * f V4 * f V5 - f V4 * f V4 * f V0 - f V5 * f V5 * f V1 - f V3 * f V3 * f V2)).
    2: { rewrite !minus_IZR, plus_IZR, !mult_IZR. ring. }
    revert Q1 P6 Q2 Q3 Q4. clear.
    generalize (f V0 * f V1 * f V2)%Z (2 * f V3 * f V4 * f V5)%Z (f V4 * f V4 * f V0)%Z (f V5 * f V5 * f V1)%Z (f V3 * f V3 * f V2)%Z.
    intros a b c d e Qa Qb Qc Qd Qe.
    rewrite (wrap_id (a + b)) by lia. rewrite (wrap_id (a + b - c)) by lia. rewrite (wrap_id (a + b - c - d)) by lia.
    rewrite wrap_id by lia. reflexivity.
  - reflexivity.
Qed.

Lemma t_inv_int f d : t_inv (AI f) d None = Raise TypeError.
Proof. reflexivity. Qed.
Lemma t_inv_flt f d : t_inv (AF f) (Some d) None = Ok (AF (inv f (Some (rv d)))).
Proof. reflexivity. Qed.
Lemma t_cdya_flt f : exists g, t_cdya true (AF f) (AF f) None = Ok (AF g) /\ forall v w, g (v, w) = cdya1 f v w.
Proof. eexists. split; [reflexivity|]. intros v w. unfold cdya1, cdya_obj. cbn -[ix6_leb]. destruct (ix6_leb v w); reflexivity. Qed.
Lemma arr_float {X} (f g : X -> R) : (forall x, f x = g x) -> AF f = AF g.
Proof. intro H. f_equal. apply functional_extensionality. exact H. Qed.

(** ** Frameworks *)
Definition sameG {SV} (a : A6 * SV) (b : Vec6 * SV) : Prop := a = (AF (fst b), snd b).
Definition sameH (a : A66) (b : Mat6) : Prop := a = AF (fun '(v, w) => b v w).
Definition tf_right {SV} (tf : TFramework SV) (fw : Framework SV) : Prop :=
  (forall C C0 sv s, fine C C0 ->
     right_or_TypeError sameG (tf_gradient tf C sv) (outcome (fw_gradient fw C0 sv) s) /\
     right_or_TypeError sameH (tf_hessian tf C sv) (outcome (fw_hessian fw C0 sv) s)) /\
  (forall C0 sv s,
     right sameG (tf_gradient tf (AF C0) sv) (outcome (fw_gradient fw C0 sv) s) /\
     right sameH (tf_hessian tf (AF C0) sv) (outcome (fw_hessian fw C0 sv) s)).

Section Inv.
  Context {SV : Type} (tm : TInvModel SV) (m : InvModel SV).

  (** The parts of gradient once the model has returned. *)
  Definition dI2 (C : A6) : A6 := asub (smul (t_trace C) t_eye) C.
  Lemma dI2_eq C C0 : fine C C0 -> dI2 C = AF (dJv C0 X1).
  Proof.
    intro H. destruct (fine_trace _ _ H) as [T _]. destruct H as [E _]. unfold dI2, t_eye.
    assert (S : smul (t_trace C) (AF eye) = AF (vscal (trace C0) eye)).
    { destruct (t_trace C); cbn in *; apply arr_float; intro v; unfold vscal; rewrite T; reflexivity. }
    rewrite S. destruct C; cbn; apply arr_float; intro v; unfold vsub; rewrite <- E; reflexivity.
  Qed.

  Lemma smul_eq {X} n x (f : X -> R) : rv n = x -> smul n (AF f) = AF (fun y => x * f y).
  Proof. intros <-. destruct n; reflexivity. Qed.
  (** What gradient keeps, when it returns. *)
  Definition keeps (C : A6) (C0 : Vec6) (a1 a2 a3 : option num) : TInvSelf :=
    {| ti_I1 := t_trace C; ti_I2 := NF ((trace C0 ^ 2 - ddot22 C0 C0) / 2); ti_I3 := t_det C; ti_dW := (a1, a2, a3);
       ti_dI1dC := match a1 with Some _ => Some (AF (dJv C0 X0)) | None => None end;
       ti_dI2dC := match a2 with Some _ => Some (AF (dJv C0 X1)) | None => None end;
       ti_invC := match a3 with Some _ => Some (AF (inv C0 (Some (det C0)))) | None => None end;
       ti_dI3dC := match a3 with Some _ => Some (AF (dJv C0 X2)) | None => None end |}.
  Lemma t_gradient_self C C0 sv a1 a2 a3 svn : fine C C0 ->
    tm_gradient tm (t_trace C) (NF (Jv C0 X1)) (t_det C) sv = Ok (a1, a2, a3, svn) ->
    t_inv_gradient_self tm C sv =
      match C, a3 with
      | AI _, Some _ => Raise TypeError
      | _, _ => Ok (AF (gradv C0 (option_map rv a1, option_map rv a2, option_map rv a3)), svn, keeps C C0 a1 a2 a3)
      end.
  Proof.
    intros H E. unfold t_inv_gradient_self. cbv zeta. rewrite (fine_I2 _ _ H). cbn [Jv] in E. rewrite E. cbn [rbind].
    fold (dI2 C). rewrite (dI2_eq _ _ H). pose proof (fine_det _ _ H) as D. unfold t_eye.
    assert (G : forall f, (forall v, f v = gradv C0 (option_map rv a1, option_map rv a2, option_map rv a3) v) ->
       AF f = AF (gradv C0 (option_map rv a1, option_map rv a2, option_map rv a3))) by (intros f Hf; apply arr_float, Hf).
    destruct C as [f|f].
    - destruct a3 as [w3|]; [destruct a1, a2; reflexivity|].
      destruct a1 as [w1|], a2 as [w2|]; cbn [rbind]; rewrite ?(smul_eq _ _ _ eq_refl); cbn [aadd ein2 vals];
      unfold keeps; f_equal; f_equal; f_equal; apply G; intro v;
      unfold gradv, sum3; cbn [o3 fst snd option_map val]; unfold vzero, dJv; ring.
    - destruct H as [Ef _]. assert (E0 : f = C0) by (apply Vec6_ext; exact Ef). subst f. clear Ef.
      rewrite t_inv_flt, D.
      destruct a1 as [w1|], a2 as [w2|], a3 as [w3|]; cbn [rbind]; rewrite ?(smul_eq _ _ _ D), ?(smul_eq _ _ _ eq_refl); cbn [aadd ein2 vals];
      unfold keeps; f_equal; f_equal; f_equal; apply G; intro v;
      unfold gradv, sum3; cbn [o3 fst snd option_map val]; unfold vzero, dJv, vscal; ring.
  Qed.

  (** The hessian after the gradient, with everything float. *)
  Lemma t_hessian_tail C C0 sv a1 a2 a3 svn (h : ix6 -> option num) : fine C C0 ->
    t_inv_gradient_self tm C sv = Ok (AF (gradv C0 (option_map rv a1, option_map rv a2, option_map rv a3)), svn, keeps C C0 a1 a2 a3) ->
    tm_hessian tm (t_trace C) (NF (Jv C0 X1)) (t_det C) svn = Ok h ->
    let g := (option_map rv a1, option_map rv a2, option_map rv a3) in
    let h' := fun v => option_map rv (h v) in
    right sameH (t_inv_hessian tm C sv)
      (match hess_exn g h' with Some e => Raise e | None => Ok (if isN (h' V2) then hessv C0 g h' else hessv_bug C0 g h') end).
  Proof.
    intros H E Eh g h'. unfold t_inv_hessian. rewrite E. cbn [rbind]. unfold keeps at 1 2 3. cbn [ti_I1 ti_I2 ti_I3]. cbn [Jv] in Eh. rewrite Eh. cbn [rbind].
    unfold keeps. cbn [ti_dW ti_dI1dC ti_dI2dC ti_dI3dC ti_invC ti_I3]. unfold t_eye.
    destruct (t_cdya_flt eye) as (k1 & K1 & K1'). destruct (t_cdya_flt (inv C0 (Some (det C0)))) as (k3 & K3 & K3'). rewrite K1.
    pose proof (fine_det _ _ H) as D. subst g h'.
    assert (EX : forall (f : ix6 * ix6 -> R) (B : Mat6), (forall v w, f (v, w) = B v w) -> right sameH (Ok (AF f)) (Ok B)).
    { intros f B Hf. cbn. unfold sameH. apply arr_float. intros [v w]. apply Hf. }
    unfold hess_exn. cbn [o3 fst snd].
    destruct a1 as [g1|], a2 as [g2|], a3 as [g3|], (h V0) as [h0|] eqn:E0, (h V1) as [h1|] eqn:E1, (h V2) as [h2|] eqn:E2,
      (h V3) as [h3|] eqn:E3, (h V4) as [h4|] eqn:E4, (h V5) as [h5|] eqn:E5;
    cbn [t_if t_local t_times rbind option_map isN negb andb]; rewrite ?K3; cbn [t_if t_local t_times rbind];
    try reflexivity;
    cbn [aadd asub t_dya ein2 vals]; rewrite ?(smul_eq _ _ _ D), ?(smul_eq _ _ _ eq_refl); cbn [aadd asub t_dya ein2 vals];
    rewrite ?(smul_eq _ _ _ eq_refl); cbn [aadd asub ein2 vals];
    apply EX; intros v w; unfold hessv_bug, hessv, sum3; cbn [pos]; rewrite ?E0, ?E1, ?E2, ?E3, ?E4, ?E5;
    cbn [val option_map o3 fst snd dJv d2Jv]; rewrite ?K1', ?K3'; unfold msub6, mscal6, mzero, dya; ring.
  Qed.
End Inv.
