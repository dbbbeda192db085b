From Coq Require Import Reals ZArith Lra Lia FunctionalExtensionality Bool.
From Verif Require Import Tensor Py Voigt VoigtProofs Algebra Models Frameworks Spaces Lab Spec VCalc InvCore SpaceCore HistProofs Typed TypedSpec TypedProofs.
Local Open Scope R_scope.

Lemma rv_det_flt C0 : rv (t_det (AF C0)) = det C0.
Proof. reflexivity. Qed.
Lemma fine_flt C0 : fine (AF C0) C0.
Proof. split; [reflexivity|exact Logic.I]. Qed.

Lemma invariants_right {SV} (tm : TInvModel SV) (m : InvModel SV) : typed_model tm m -> tf_right (t_invariants tm) (invariants_fw m).
Proof.
  intros [HI HF].
  (* once the model's calls agree *)
  assert (G : forall C C0 sv s, fine C C0 ->
     right same_gradient (tm_gradient tm (t_trace C) (NF (Jv C0 X1)) (t_det C) sv) (inv_call m (Jv C0) sv) ->
     right_or_TypeError sameG (t_inv_gradient tm C sv) (outcome (inv_gradient m C0 sv) s) /\
     (dt C = Flt -> right sameG (t_inv_gradient tm C sv) (outcome (inv_gradient m C0 sv) s))).
  { intros C C0 sv s H R. destruct (tm_gradient tm (t_trace C) (NF (Jv C0 X1)) (t_det C) sv) as [[[[a1 a2] a3] svn]|e] eqn:E.
    - destruct (inv_call m (Jv C0) sv) as [[g svn']|e'] eqn:E'; [|destruct R]. cbn in R. injection R as -> ->.
      unfold t_inv_gradient. rewrite (t_gradient_self tm C C0 sv a1 a2 a3 svn H E). unfold outcome. rewrite (inv_gradient_ok m C0 sv _ _ s E'). cbn [snd].
      destruct C as [f|f]; [destruct a3|]; cbn [rbind]; (split; [|intro A; try discriminate A; reflexivity]);
      try (right; reflexivity). left. reflexivity.
    - destruct (inv_call m (Jv C0) sv) as [[g svn']|e'] eqn:E'; [destruct R|]. cbn in R. subst e'.
      destruct (inv_gradient_raise m C0 sv e s E') as [s' Es]. unfold outcome. rewrite Es. unfold t_inv_gradient, t_inv_gradient_self.
      rewrite (fine_I2 _ _ H). cbn [Jv] in E. cbv zeta. rewrite E. cbn [rbind snd]. split; [right; reflexivity|intros _; reflexivity]. }
  assert (Hs : forall C C0 sv s, fine C C0 ->
     right same_gradient (tm_gradient tm (t_trace C) (NF (Jv C0 X1)) (t_det C) sv) (inv_call m (Jv C0) sv) ->
     (forall svn, right_or_TypeError same_hessian (tm_hessian tm (t_trace C) (NF (Jv C0 X1)) (t_det C) svn) (inv_callh m (Jv C0) svn)) ->
     right_or_TypeError sameH (t_inv_hessian tm C sv) (outcome (inv_hessian m C0 sv) s) /\
     (dt C = Flt -> (forall svn, right same_hessian (tm_hessian tm (t_trace C) (NF (Jv C0 X1)) (t_det C) svn) (inv_callh m (Jv C0) svn)) ->
        right sameH (t_inv_hessian tm C sv) (outcome (inv_hessian m C0 sv) s))).
  { intros C C0 sv s H R RH. destruct (tm_gradient tm (t_trace C) (NF (Jv C0 X1)) (t_det C) sv) as [[[[a1 a2] a3] svn]|e] eqn:E.
    - destruct (inv_call m (Jv C0) sv) as [[g svn']|e'] eqn:E'; [|destruct R]. cbn in R. injection R as -> ->.
      pose proof (t_gradient_self tm C C0 sv a1 a2 a3 svn H E) as T.
      assert (Main : t_inv_gradient_self tm C sv = Ok (AF (gradv C0 (option_map rv a1, option_map rv a2, option_map rv a3)), svn, keeps C C0 a1 a2 a3) ->
         right same_hessian (tm_hessian tm (t_trace C) (NF (Jv C0 X1)) (t_det C) svn) (inv_callh m (Jv C0) svn) ->
         right sameH (t_inv_hessian tm C sv) (outcome (inv_hessian m C0 sv) s)).
      { intros T' Q. destruct (tm_hessian tm (t_trace C) (NF (Jv C0 X1)) (t_det C) svn) as [h|e] eqn:Eh.
        - destruct (inv_callh m (Jv C0) svn) as [h'|e'] eqn:Eh'; [|destruct Q]. cbn in Q.
          assert (Eq : h' = fun v => option_map rv (h v)) by (apply functional_extensionality; exact Q). subst h'.
          unfold outcome. rewrite (inv_hessian_eq m C0 sv _ svn _ s E' Eh'). cbn [snd].
          exact (t_hessian_tail tm C C0 sv a1 a2 a3 svn h H T' Eh).
        - destruct (inv_callh m (Jv C0) svn) as [h'|e'] eqn:Eh'; [destruct Q|]. cbn in Q. subst e'.
          unfold outcome. rewrite (inv_hessian_hraise m C0 sv _ svn _ s E' Eh'). unfold t_inv_hessian. rewrite T'. cbn [rbind].
          unfold keeps. cbn [ti_I1 ti_I2 ti_I3]. cbn [Jv] in Eh. rewrite Eh. reflexivity. }
      assert (TE : tm_hessian tm (t_trace C) (NF (Jv C0 X1)) (t_det C) svn = Raise TypeError ->
         t_inv_gradient_self tm C sv = Ok (AF (gradv C0 (option_map rv a1, option_map rv a2, option_map rv a3)), svn, keeps C C0 a1 a2 a3) ->
         t_inv_hessian tm C sv = Raise TypeError).
      { intros Q T'. unfold t_inv_hessian. rewrite T'. cbn [rbind]. unfold keeps. cbn [ti_I1 ti_I2 ti_I3]. cbn [Jv] in Q. rewrite Q. reflexivity. }
      split.
      + destruct C as [f|f]; [destruct a3|].
        * left. unfold t_inv_hessian. rewrite T. reflexivity.
        * destruct (RH svn) as [Q|Q]; [left; exact (TE Q T)|right; exact (Main T Q)].
        * destruct (RH svn) as [Q|Q]; [left; exact (TE Q T)|right; exact (Main T Q)].
      + intros A RF. destruct C as [f|f]; [discriminate A|]. exact (Main T (RF svn)).
    - destruct (inv_call m (Jv C0) sv) as [[g svn']|e'] eqn:E'; [destruct R|]. cbn in R. subst e'.
      destruct (inv_hessian_graise m C0 sv e s E') as [s' Es]. unfold outcome. rewrite Es.
      assert (T : t_inv_hessian tm C sv = Raise e).
      { unfold t_inv_hessian, t_inv_gradient_self. rewrite (fine_I2 _ _ H). cbn [Jv] in E. cbv zeta. rewrite E. reflexivity. }
      rewrite T. cbn [snd]. split; [right; reflexivity|intros; reflexivity]. }
  split.
  - intros C C0 sv s H. pose proof (fine_trace _ _ H) as [T BT]. pose proof (fine_det _ _ H) as D.
    assert (HI' : forall sv, right_or_TypeError same_gradient (tm_gradient tm (t_trace C) (NF (Jv C0 X1)) (t_det C) sv) (inv_call m (Jv C0) sv) /\
       right_or_TypeError same_hessian (tm_hessian tm (t_trace C) (NF (Jv C0 X1)) (t_det C) sv) (inv_callh m (Jv C0) sv)).
    { intro sv'. unfold inv_call, inv_callh. cbn [Jv]. rewrite <- T at 2 5. rewrite <- D at 1 2. apply HI. exact BT. }
    cbn [tf_gradient tf_hessian t_invariants fw_gradient fw_hessian invariants_fw].
    destruct (proj1 (HI' sv)) as [Q|Q].
    + split; left; unfold t_inv_gradient, t_inv_hessian, t_inv_gradient_self; rewrite (fine_I2 _ _ H); cbv zeta; cbn [Jv] in Q; rewrite Q; reflexivity.
    + split; [exact (proj1 (G C C0 sv s H Q))|exact (proj1 (Hs C C0 sv s H Q (fun svn => proj2 (HI' svn))))].
  - intros C0 sv s. assert (H := fine_flt C0).
    cbn [tf_gradient tf_hessian t_invariants fw_gradient fw_hessian invariants_fw].
    assert (Q : forall sv, right same_gradient (tm_gradient tm (t_trace (AF C0)) (NF (Jv C0 X1)) (t_det (AF C0)) sv) (inv_call m (Jv C0) sv) /\
       right same_hessian (tm_hessian tm (t_trace (AF C0)) (NF (Jv C0 X1)) (t_det (AF C0)) sv) (inv_callh m (Jv C0) sv))
      by (intro sv'; exact (HF (trace C0) (Jv C0 X1) (det C0) sv')).
    split; [exact (proj2 (G _ C0 sv s H (proj1 (Q sv))) eq_refl)|].
    exact (proj2 (Hs _ C0 sv s H (proj1 (Q sv)) (fun svn => or_intror (proj2 (Q svn)))) eq_refl (fun svn => proj2 (Q svn))).
Qed.

Lemma lift_G {SV} (r : Result (Vec6 * SV)) : right sameG (match r with Ok (g, svn) => Ok (AF g, svn) | Raise e => Raise e end) r.
Proof. destruct r as [[g svn]|e]; reflexivity. Qed.
Lemma lift_H (r : Result Mat6) : right sameH (match r with Ok H => Ok (AF (fun '(v, w) => H v w)) | Raise e => Raise e end) r.
Proof. destruct r as [g|e]; reflexivity. Qed.
Lemma stretches_right {SV} lapack (m : StretchModel SV) s0 : stateless_sm m -> tf_right (t_stretches lapack m s0) (stretches_fw lapack m).
Proof.
  intro ST. pose proof (stretches_stateless lapack m ST) as SL.
  assert (Main : forall C C0 sv s, (forall v, vals C v = C0 v) ->
    right sameG (tf_gradient (t_stretches lapack m s0) C sv) (outcome (fw_gradient (stretches_fw lapack m) C0 sv) s) /\
    right sameH (tf_hessian (t_stretches lapack m s0) C sv) (outcome (fw_hessian (stretches_fw lapack m) C0 sv) s)).
  { intros C C0 sv s E. assert (E' : vals C = C0) by (apply Vec6_ext; exact E). subst C0.
    destruct (SL (vals C) sv s0 s) as [S1 S2]. rewrite <- S1, <- S2.
    cbn [tf_gradient tf_hessian t_stretches fw_gradient fw_hessian stretches_fw].
    split.
    - exact (lift_G _).
    - exact (lift_H _). }
  split.
  - intros C C0 sv s [E _]. destruct (Main C C0 sv s E) as [A B]. split; right; assumption.
  - intros C0 sv s. apply Main. reflexivity.
Qed.

Lemma material_right {SV} (tf : TFramework SV) fw : material tf fw -> tf_right tf fw.
Proof. intros [tm m H|lapack m s0 H]; [apply invariants_right, H|apply stretches_right, H]. Qed.

(** ** Piola transformation of float results with a float or integer F *)
Definition nums (F : A2) : T2 := numbers F.
Lemma force_eq F f : t_force F (AF f) = AF (fun '(i, j) => es_force (numbers F) (t2 f) i j).
Proof. destruct F; reflexivity. Qed.
Lemma area_eq F f : t_area F (AF f) = AF (fun '(i, j) => es_area (numbers F) (t2 f) i j).
Proof. destruct F; reflexivity. Qed.
Lemma force4_eq F f : t_force4 F (AF f) = AF (fun '(i, j, k, l) => es4_force (numbers F) (t4 f) i j k l).
Proof. destruct F; reflexivity. Qed.
Lemma area4_eq F f : t_area4 F (AF f) = AF (fun '(i, j, k, l) => es4_area (numbers F) (t4 f) i j k l).
Proof. destruct F; reflexivity. Qed.

Definition detF_ok (d : option num) (d0 : option R) : Prop := option_map rv d = d0.
Definition float_P (a : TStressOut) (b : StressOut) : Prop := float_stress (SV:=unit) (a, tt) (b, tt).

Lemma piola_right o F S0 d d0 : moderate F -> detF_ok d d0 ->
  exists P, t_piola_stress o F (AF S0) d = Ok P /\ float_P P (piola_stress o (numbers F) S0 d0).
Proof.
  intros HF Hd. pose proof (fine_CG F HF) as HC. pose proof (fine_det _ _ HC) as D.
  assert (E : rv (match d with Some x => x | None => nsqrt (t_det (t_right_CG F)) end) =
              match d0 with Some x => x | None => sqrt (det (right_CG (numbers F))) end).
  { unfold detF_ok in Hd. subst d0. destruct d; cbn; [reflexivity|rewrite D; reflexivity]. }
  unfold t_piola_stress, piola_stress, float_P, float_stress. cbn [fst snd].
  destruct (finalize o); [|eexists; split; [reflexivity|split; [reflexivity|intro v; reflexivity]]].
  destruct (force o), (area o); cbn [t_astensor reindex dt into rbind]; rewrite ?force_eq; cbn [into rbind dt]; rewrite ?area_eq; cbn [into rbind dt vals];
  eexists; (split; [reflexivity|split; [reflexivity|intros i j; try reflexivity]]); cbn [adivs vals]; rewrite E; reflexivity.
Qed.

Lemma CG_flt f : t_right_CG (AF f) = AF (right_CG (numbers (AF f))).
Proof. reflexivity. Qed.
Lemma cdya_ik_eq A B : t_cdya_ik (AF A) (AF B) = AF (fun '(i, j, k, l) => cdya_ik A B i j k l).
Proof. cbn. apply arr_float. intros [[[i j] k] l]. reflexivity. Qed.

Lemma piola_elast_right o F S0 d d0 C4 C40 i i0 : moderate F -> detF_ok d d0 -> i = option_map AF i0 ->
  (forall v w, C4 (v, w) = C40 v w) ->
  (dt F = Int /\ finalize o = true /\ force o = Undeformed /\ i = None /\ t_piola_elast o F (AF S0) d (AF C4) i = Raise TypeError) \/
  exists P, t_piola_elast o F (AF S0) d (AF C4) i = Ok P /\ float_elast P (piola_elast o (numbers F) S0 d0 C40 i0).
Proof.
  intros HF Hd -> H4. pose proof (fine_CG F HF) as HC. pose proof (fine_det _ _ HC) as D.
  assert (E : forall n n0, option_map rv n = n0 ->
     rv (match d with Some x => x | None => nsqrt (match n with Some x => x | None => t_det (t_right_CG F) end) end) =
     match d0 with Some x => x | None => sqrt (match n0 with Some x => x | None => det (right_CG (numbers F)) end) end).
  { intros n n0 <-. unfold detF_ok in Hd. subst d0. destruct d; cbn; [reflexivity|]. destruct n; cbn; [reflexivity|rewrite D; reflexivity]. }
  unfold t_piola_elast, piola_elast, float_elast.
  destruct (finalize o); [|right; eexists; split; [reflexivity|intros v w; apply H4]].
  assert (A4 : t_astensor4 (AF C4) = AF (fun '(i, j, k, l) => astensor4 C40 i j k l)).
  { cbn. apply arr_float. intros [[[x y] z] w]. unfold astensor4. apply H4. }
  rewrite A4. unfold t_eye. cbn [dt].
  destruct (force o).
  - right. rewrite force4_eq. cbn [into rbind dt vals]. rewrite cdya_ik_eq. cbn [aadd ein2 into rbind vals dt].
    destruct (area o).
    + rewrite area4_eq. cbn [into rbind vals]. eexists. split; [reflexivity|]. cbn [adivs]. intros x y z w.
      cbn [vals]. rewrite (E None None eq_refl). reflexivity.
    + eexists. split; [reflexivity|]. intros x y z w. reflexivity.
  - destruct i0 as [iv|]; cbn [option_map].
    + right. cbn [rbind]. rewrite cdya_ik_eq. cbn [aadd ein2 into rbind vals dt].
      destruct (area o).
      * rewrite area4_eq. cbn [into rbind vals]. eexists. split; [reflexivity|]. cbn [adivs]. intros x y z w.
        cbn [vals]. rewrite (E None None eq_refl). reflexivity.
      * eexists. split; [reflexivity|]. intros x y z w. reflexivity.
    + destruct F as [f|f]; [left; repeat split; reflexivity|]. right.
      rewrite CG_flt in *. rewrite t_inv_flt. cbn [rbind]. rewrite cdya_ik_eq. cbn [aadd ein2 into rbind vals dt].
      rewrite D. destruct (area o).
      * rewrite area4_eq. cbn [into rbind vals]. eexists. split; [reflexivity|]. cbn [adivs]. intros x y z w.
        cbn [vals]. rewrite (E (Some (t_det (AF (right_CG (numbers (AF f)))))) (Some (det (right_CG (numbers (AF f))))) ltac:(cbn [option_map]; rewrite D; reflexivity)). reflexivity.
      * eexists. split; [reflexivity|]. intros x y z w. reflexivity.
Qed.

Section Sp.
  Context {SV : Type} (tf : TFramework SV) (fw : Framework SV) (o : SpaceOpts) (HT : tf_right tf fw).

  (** The tensor handed to the framework, typed. *)
  Definition t_seen (k : SpaceKind) (C : A6) : A6 :=
    match k with
    | KDeformation => C
    | KDistortional => smul (npow (t_det C) (- 1 / 3)) C
    | KDilatational => smul (npow (t_det C) (1 / 3)) C
    end.
  Lemma t_seen_flt k C C0 : fine C C0 -> k <> KDeformation -> t_seen k C = AF (seen k C0).
  Proof.
    intros H N. pose proof (fine_det _ _ H) as D. destruct H as [E _].
    destruct k; [congruence| |]; cbn [t_seen seen]; unfold npow; rewrite D; destruct C; cbn; apply arr_float; intro v; unfold vscal; rewrite <- E; reflexivity.
  Qed.

  Lemma t_raise k F sv e : tf_gradient tf (t_seen k (t_right_CG F)) sv = Raise e ->
    t_gradient k tf o F sv = Raise e /\ t_hessian k tf o F sv = Raise e.
  Proof.
    intro E. destruct k; cbn [t_gradient t_hessian t_seen] in *;
    unfold t_def_hessian, t_dis_hessian, t_dil_hessian, t_def_gradient, t_dis_gradient, t_dil_gradient, t_def_S, t_dis_S, t_dil_S; cbv zeta; rewrite E; split; reflexivity.
  Qed.
  Lemma t_int_raise k f sv g svn : k <> KDeformation -> tf_gradient tf (t_seen k (t_right_CG (AI f))) sv = Ok (g, svn) ->
    t_gradient k tf o (AI f) sv = Raise TypeError /\ t_hessian k tf o (AI f) sv = Raise TypeError.
  Proof.
    intros N E. destruct k; [congruence| |]; cbn [t_gradient t_hessian t_seen] in *;
    unfold t_dis_hessian, t_dil_hessian, t_dis_gradient, t_dil_gradient, t_dis_S, t_dil_S; cbv zeta; rewrite E; cbn [rbind];
    split; reflexivity.
  Qed.

  Definition kd (k : SpaceKind) (C : A6) : option num := match k with KDeformation => None | _ => Some (nsqrt (t_det C)) end.
  Lemma kd_ok k C C0 : fine C C0 -> detF_ok (kd k C) (kdetF k C0).
  Proof. intro H. unfold detF_ok, kd, kdetF. destruct k; cbn; rewrite ?(fine_det _ _ H); reflexivity. Qed.

  Lemma t_grad_ok k F sv g svn : moderate F -> (k = KDeformation \/ floats F) ->
    tf_gradient tf (t_seen k (t_right_CG F)) sv = Ok (AF g, svn) ->
    t_gradient k tf o F sv =
      rbind (t_piola_stress o F (AF (kS k (right_CG (numbers F)) g)) (kd k (t_right_CG F))) (fun P => Ok (P, svn)).
  Proof.
    intros HF Hk E. destruct k; cbn [t_gradient t_seen kd] in *.
    - unfold t_def_gradient, t_def_S. cbv zeta. rewrite E. cbn [rbind]. reflexivity.
    - destruct Hk as [A|[f ->]]; [discriminate A|]. unfold t_dis_gradient, t_dis_S. cbv zeta. rewrite E. cbn [rbind]. rewrite CG_flt, t_inv_flt. reflexivity.
    - destruct Hk as [A|[f ->]]; [discriminate A|]. unfold t_dil_gradient, t_dil_S. cbv zeta. rewrite E. cbn [rbind]. rewrite CG_flt, t_inv_flt. reflexivity.
  Qed.

  Lemma t_hess_ok k F sv g svn H0 : moderate F -> (k = KDeformation \/ floats F) ->
    tf_gradient tf (t_seen k (t_right_CG F)) sv = Ok (AF g, svn) ->
    tf_hessian tf (t_seen k (t_right_CG F)) sv = Ok (AF (fun '(v, w) => H0 v w)) ->
    exists C4, (forall v w, C4 (v, w) = kC4 k (right_CG (numbers F)) g H0 v w) /\
    t_hessian k tf o F sv =
      rbind (t_gradient k tf o F sv) (fun _ =>
      t_piola_elast o F (AF (kS k (right_CG (numbers F)) g)) (kd k (t_right_CG F)) (AF C4) (option_map AF (kinvC k (right_CG (numbers F))))).
  Proof.
    intros HF Hk E Eh. destruct k; cbn [t_hessian t_gradient t_seen kd kinvC option_map] in *.
    - eexists. split; [|unfold t_def_hessian at 1; unfold t_def_S at 1; cbv zeta; rewrite E; cbn [rbind]; rewrite Eh; cbn [rbind]; reflexivity].
      intros v w. reflexivity.
    - destruct Hk as [A|[f ->]]; [discriminate A|].
      set (C0 := right_CG (numbers (AF f))). 
      destruct (t_cdya_flt eye) as (k1 & K1 & K1'). destruct (t_cdya_flt (inv C0 (Some (det C0)))) as (k3 & K3 & K3').
      unfold t_dis_hessian at 1. unfold t_dis_S at 1. cbv zeta. rewrite E. cbn [rbind].
      rewrite CG_flt in *. fold C0. fold C0 in Eh. rewrite t_inv_flt. cbn [rbind]. unfold t_eye. rewrite K1. rewrite Eh. cbn [rbind].
      rewrite rv_det_flt. rewrite K3. cbn [rbind].
      cbn [kC4]. fold C0.
      assert (AC : m66 (vals (smul (nmul (NI 4) (npow (t_det (AF C0)) (-2 / 3))) (AF (fun '(v, w) => H0 v w)))) = mscal6 (4 * Rpower (det C0) (-2 / 3)) H0) by reflexivity.
      rewrite AC. destruct (allclose0 (mscal6 (4 * Rpower (det C0) (-2 / 3)) H0)).
      + cbn [rbind]. eexists. split; [|reflexivity]. intros v w. cbn [smul aadd asub ein2 vals t_ddot22 t_dya t_transpose reindex ndiv rv nmul nop npow].
        rewrite K3'. reflexivity.
      + eexists. split; [|reflexivity]. intros v w. cbn [smul aadd asub ein2 vals t_ddot22 t_ddot44 t_dya t_transpose reindex adivs ndiv rv nmul nop npow].
        rewrite K3'. unfold madd6. f_equal.
        assert (PE : m66 (vals (asub (AF k1) (adivs (t_dya (AF (inv C0 (Some (det C0)))) (AF C0)) (NI 3)))) =
                     msub6 (cdya1 eye) (mscal6 (/ 3) (dya (inv C0 (Some (det C0))) C0))).
        { apply Mat6_ext. intros x y. unfold m66, msub6, mscal6, dya. cbn. rewrite K1'. unfold Rdiv. ring. }
        rewrite <- PE. reflexivity.
    - destruct Hk as [A|[f ->]]; [discriminate A|].
      set (C0 := right_CG (numbers (AF f))).
      destruct (t_cdya_flt (inv C0 (Some (det C0)))) as (k3 & K3 & K3').
      unfold t_dil_hessian at 1. unfold t_dil_S at 1. cbv zeta. rewrite E. cbn [rbind].
      rewrite CG_flt in *. fold C0. fold C0 in Eh. rewrite t_inv_flt. cbn [rbind]. unfold t_eye. rewrite Eh. cbn [rbind].
      rewrite rv_det_flt. rewrite K3. cbn [rbind kC4]. fold C0.
      eexists. split; [|reflexivity]. intros v w.
      cbn [smul aadd asub ein2 vals t_ddot22 t_ddot24 t_dya t_transpose reindex adivs ndiv rv nmul nadd nop npow t_trace].
      rewrite K3'. unfold msub6, mscal6, dya. unfold Rdiv at 1. f_equal. rewrite (Rmult_comm _ (/ 9)). reflexivity.
  Qed.
End Sp.

Section Main.
  Context {SV : Type} (tf : TFramework SV) (fw : Framework SV) (o : SpaceOpts) (HT : tf_right tf fw).

  Lemma seen_right k F sv : moderate F ->
    (forall s, right_or_TypeError sameG (tf_gradient tf (t_seen k (t_right_CG F)) sv) (outcome (fw_gradient fw (seen k (right_CG (numbers F))) sv) s) /\
       right_or_TypeError sameH (tf_hessian tf (t_seen k (t_right_CG F)) sv) (outcome (fw_hessian fw (seen k (right_CG (numbers F))) sv) s)) /\
    (k <> KDeformation \/ floats F ->
     forall s, right sameG (tf_gradient tf (t_seen k (t_right_CG F)) sv) (outcome (fw_gradient fw (seen k (right_CG (numbers F))) sv) s) /\
       right sameH (tf_hessian tf (t_seen k (t_right_CG F)) sv) (outcome (fw_hessian fw (seen k (right_CG (numbers F))) sv) s)).
  Proof.
    intro HF. pose proof (fine_CG F HF) as HC. destruct HT as [HT1 HT2].
    assert (N : k <> KDeformation \/ floats F -> forall s, right sameG (tf_gradient tf (t_seen k (t_right_CG F)) sv) (outcome (fw_gradient fw (seen k (right_CG (numbers F))) sv) s) /\
       right sameH (tf_hessian tf (t_seen k (t_right_CG F)) sv) (outcome (fw_hessian fw (seen k (right_CG (numbers F))) sv) s)).
    { intros A s. assert (E : t_seen k (t_right_CG F) = AF (seen k (right_CG (numbers F)))).
      { destruct A as [A|[f ->]]; [exact (t_seen_flt k _ _ HC A)|]. rewrite CG_flt in *. destruct k; reflexivity. }
      rewrite E. exact (HT2 _ sv s). }
    split; [|exact N]. intro s. destruct k.
    - exact (HT1 (t_right_CG F) (right_CG (numbers F)) sv s HC).
    - assert (D : forall a b : SpaceKind, a = b \/ a <> b) by (intros [] []; (left; reflexivity) || (right; discriminate)). match goal with |- right_or_TypeError _ (tf_gradient _ (t_seen ?k _) _) _ /\ _ => destruct (D k KDeformation) as [A|A]; [discriminate A|] end. destruct (N (or_introl A) s) as [B1 B2]. split; right; assumption.
    - assert (D : forall a b : SpaceKind, a = b \/ a <> b) by (intros [] []; (left; reflexivity) || (right; discriminate)). match goal with |- right_or_TypeError _ (tf_gradient _ (t_seen ?k _) _) _ /\ _ => destruct (D k KDeformation) as [A|A]; [discriminate A|] end. destruct (N (or_introl A) s) as [B1 B2]. split; right; assumption.
  Qed.

  Lemma floats_dec (F : A2) : floats F \/ exists f, F = AI f.
  Proof. destruct F as [f|f]; [right|left]; exists f; reflexivity. Qed.

  Lemma gradient_right k F sv s : moderate F ->
    right_or_TypeError float_stress (t_gradient k tf o F sv) (outcome (sp_gradient k fw o (numbers F) sv) s) /\
    (floats F -> right float_stress (t_gradient k tf o F sv) (outcome (sp_gradient k fw o (numbers F) sv) s)).
  Proof.
    intro HF. destruct (seen_right k F sv HF) as [R1 R2]. pose proof (fine_CG F HF) as HC.
    assert (Main : right sameG (tf_gradient tf (t_seen k (t_right_CG F)) sv) (outcome (fw_gradient fw (seen k (right_CG (numbers F))) sv) (sp_mat s)) ->
       (k = KDeformation \/ floats F) -> right float_stress (t_gradient k tf o F sv) (outcome (sp_gradient k fw o (numbers F) sv) s)).
    { intros R Hk. destruct (tf_gradient tf (t_seen k (t_right_CG F)) sv) as [[a svn]|e] eqn:E;
      destruct (outcome (fw_gradient fw (seen k (right_CG (numbers F))) sv) (sp_mat s)) as [[g svn']|e'] eqn:E'; cbn in R; try contradiction.
      - cbn in R. unfold sameG in R. cbn in R. injection R as -> ->.
        rewrite (t_grad_ok tf o k F sv g svn' HF Hk E). rewrite (sp_gradient_ok fw o k _ sv s g svn' E').
        destruct (piola_right o F (kS k (right_CG (numbers F)) g) _ _ HF (kd_ok k _ _ HC)) as (P & -> & FP). cbn [rbind right].
        unfold float_P, float_stress in *. cbn [fst snd] in *. split; [reflexivity|apply FP].
      - cbn in R. rewrite (sp_gradient_raise fw o k _ sv s _ E'). rewrite (proj1 (t_raise tf o k F sv _ E)). exact R. }
    split.
    - destruct (proj1 (R1 (sp_mat s))) as [Q|Q].
      + left. exact (proj1 (t_raise tf o k F sv _ Q)).
      + destruct (floats_dec F) as [Fl|[f ->]]; [right; apply Main; auto|].
        destruct (match k with KDeformation => true | _ => false end) eqn:Ek; [right; apply Main; [exact Q|left; destruct k; [reflexivity|discriminate Ek|discriminate Ek]]|].
        assert (Nk : k <> KDeformation) by (destruct k; congruence).
        destruct (tf_gradient tf (t_seen k (t_right_CG (AI f))) sv) as [[a svn]|e] eqn:E.
        * left. exact (proj1 (t_int_raise tf o k f sv a svn Nk E)).
        * right. rewrite (proj1 (t_raise tf o k (AI f) sv e E)).
          destruct (outcome (fw_gradient fw (seen k (right_CG (numbers (AI f)))) sv) (sp_mat s)) as [[g svn']|e'] eqn:E'; [destruct Q|].
          rewrite (sp_gradient_raise fw o k _ sv s _ E'). exact Q.
    - intro Fl. apply Main; [|auto]. apply (R2 (or_intror Fl)).
  Qed.

  Lemma hessian_right k F sv s : moderate F ->
    right_or_TypeError float_elast (t_hessian k tf o F sv) (outcome (sp_hessian k fw o (numbers F) sv) s) /\
    (floats F -> right float_elast (t_hessian k tf o F sv) (outcome (sp_hessian k fw o (numbers F) sv) s)).
  Proof.
    intro HF. destruct (seen_right k F sv HF) as [R1 R2]. pose proof (fine_CG F HF) as HC.
    destruct (fw_gradient fw (seen k (right_CG (numbers F))) sv (sp_mat s)) as [ms r] eqn:EF.
    assert (EO : outcome (fw_gradient fw (seen k (right_CG (numbers F))) sv) (sp_mat s) = r) by (unfold outcome; rewrite EF; reflexivity).
    (* everything else once both framework calls agree *)
    assert (Main : right sameG (tf_gradient tf (t_seen k (t_right_CG F)) sv) r ->
       right sameH (tf_hessian tf (t_seen k (t_right_CG F)) sv) (outcome (fw_hessian fw (seen k (right_CG (numbers F))) sv) ms) ->
       (k = KDeformation \/ floats F) ->
       (t_hessian k tf o F sv = Raise TypeError /\ dt F = Int) \/ right float_elast (t_hessian k tf o F sv) (outcome (sp_hessian k fw o (numbers F) sv) s)).
    { intros R Rh Hk. destruct (tf_gradient tf (t_seen k (t_right_CG F)) sv) as [[a svn]|e] eqn:E; destruct r as [[g svn']|e']; cbn in R; try contradiction.
      - cbn in R. unfold sameG in R. cbn in R. injection R as -> ->.
        rewrite (sp_hessian_ok fw o k _ sv s g svn' ms EF).
        destruct (piola_right o F (kS k (right_CG (numbers F)) g) _ _ HF (kd_ok k _ _ HC)) as (P & EP & FP).
        assert (EG : t_gradient k tf o F sv = Ok (P, svn')) by (rewrite (t_grad_ok tf o k F sv g svn' HF Hk E), EP; reflexivity).
        destruct (tf_hessian tf (t_seen k (t_right_CG F)) sv) as [h|e] eqn:Eh;
        destruct (outcome (fw_hessian fw (seen k (right_CG (numbers F))) sv) ms) as [H0|e']; cbn in Rh; try contradiction.
        + cbn in Rh. unfold sameH in Rh. subst h.
          destruct (t_hess_ok tf o k F sv g svn' H0 HF Hk E Eh) as (C4 & E4 & ->). rewrite EG. cbn [rbind].
          destruct (piola_elast_right o F (kS k (right_CG (numbers F)) g) _ _ C4 _ _ (kinvC k (right_CG (numbers F))) HF (kd_ok k _ _ HC) eq_refl E4) as [(D & _ & _ & _ & ->)|(Q & -> & FQ)].
          * left. auto.
          * right. exact FQ.
        + right. cbn in Rh. cbn [right].
          assert (T : t_hessian k tf o F sv = Raise e).
          { clear - EG Eh E Hk. destruct k; cbn [t_hessian t_gradient t_seen] in *.
            - unfold t_def_hessian. rewrite EG. cbn [rbind]. unfold t_def_S. cbv zeta. rewrite E. cbn [rbind]. rewrite Eh. reflexivity.
            - destruct Hk as [A|[f ->]]; [discriminate A|]. unfold t_dis_hessian. rewrite EG. cbn [rbind]. unfold t_dis_S. cbv zeta. rewrite E. cbn [rbind].
              rewrite CG_flt in *. rewrite t_inv_flt. cbn [rbind]. rewrite Eh. reflexivity.
            - destruct Hk as [A|[f ->]]; [discriminate A|]. unfold t_dil_hessian. rewrite EG. cbn [rbind]. unfold t_dil_S. cbv zeta. rewrite E. cbn [rbind].
              rewrite CG_flt in *. rewrite t_inv_flt. cbn [rbind]. rewrite Eh. reflexivity. }
          rewrite T. exact Rh.
      - right. cbn in R. rewrite (sp_hessian_graise fw o k _ sv s _ EO). rewrite (proj2 (t_raise tf o k F sv _ E)). exact R. }
    split.
    - destruct (proj1 (R1 (sp_mat s))) as [Q|Q]; [left; exact (proj2 (t_raise tf o k F sv _ Q))|]. rewrite EO in Q.
      assert (Go : k = KDeformation \/ floats F -> right_or_TypeError float_elast (t_hessian k tf o F sv) (outcome (sp_hessian k fw o (numbers F) sv) s)).
      { intro Hk. destruct (proj2 (R1 ms)) as [Qh|Qh].
        - (* the framework's hessian raises TypeError *)
          destruct (tf_gradient tf (t_seen k (t_right_CG F)) sv) as [[a svn]|e] eqn:E.
          + destruct r as [[g svn']|e']; [|destruct Q]. cbn in Q. unfold sameG in Q. cbn in Q. injection Q as -> ->.
            destruct (piola_right o F (kS k (right_CG (numbers F)) g) _ _ HF (kd_ok k _ _ HC)) as (P & EP & FP).
            assert (EG : t_gradient k tf o F sv = Ok (P, svn')) by (rewrite (t_grad_ok tf o k F sv g svn' HF Hk E), EP; reflexivity).
            left. clear - EG Qh E Hk. destruct k; cbn [t_hessian t_gradient t_seen] in *.
            * unfold t_def_hessian. rewrite EG. cbn [rbind]. unfold t_def_S. cbv zeta. rewrite E. cbn [rbind]. rewrite Qh. reflexivity.
            * destruct Hk as [A|[f ->]]; [discriminate A|]. unfold t_dis_hessian. rewrite EG. cbn [rbind]. unfold t_dis_S. cbv zeta. rewrite E. cbn [rbind].
              rewrite CG_flt in *. rewrite t_inv_flt. cbn [rbind]. rewrite Qh. reflexivity.
            * destruct Hk as [A|[f ->]]; [discriminate A|]. unfold t_dil_hessian. rewrite EG. cbn [rbind]. unfold t_dil_S. cbv zeta. rewrite E. cbn [rbind].
              rewrite CG_flt in *. rewrite t_inv_flt. cbn [rbind]. rewrite Qh. reflexivity.
          + destruct r as [[g svn']|e']; [destruct Q|]. cbn in Q. subst e'. right.
            rewrite (sp_hessian_graise fw o k _ sv s _ EO), (proj2 (t_raise tf o k F sv _ E)). reflexivity.
        - destruct (Main Q Qh Hk) as [[A _]|A]; [left; exact A|right; exact A]. }
      destruct (floats_dec F) as [Fl|[f ->]]; [apply Go; auto|].
      destruct (match k with KDeformation => true | _ => false end) eqn:Ek; [apply Go; left; destruct k; [reflexivity|discriminate Ek|discriminate Ek]|].
      assert (Nk : k <> KDeformation) by (destruct k; congruence).
      destruct (tf_gradient tf (t_seen k (t_right_CG (AI f))) sv) as [[a svn]|e] eqn:E.
      + left. exact (proj2 (t_int_raise tf o k f sv a svn Nk E)).
      + right. destruct r as [[g svn']|e']; [destruct Q|]. rewrite (sp_hessian_graise fw o k _ sv s _ EO), (proj2 (t_raise tf o k _ sv _ E)). exact Q.
    - intro Fl. pose proof (proj1 (R2 (or_intror Fl) (sp_mat s))) as Q. rewrite EO in Q.
      destruct (Main Q (proj2 (R2 (or_intror Fl) ms)) (or_intror Fl)) as [[_ A]|A]; [|exact A].
      destruct Fl as [f ->]. discriminate A.
  Qed.
End Main.
