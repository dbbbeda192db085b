(** * Proofs for C76: calmness |f F - f F0| <= K |F - F0| of what the spaces compute. *)
From Coq Require Import Reals Lra Lia List Psatz Bool FunctionalExtensionality.
From Coquelicot Require Import Coquelicot.
From Verif Require Import Tensor Py Voigt VoigtProofs Algebra Calc Models Frameworks Spaces Spec VCalc ModelProofs GenProofs
  PiolaProofs SpaceCore SpaceProofs InvCore HistProofs DistProofs NewtonSpec NewtonLin NewtonProofs.
Local Open Scope R_scope.

Section Calm.
  Variable F0 : T2.
  Definition calmd (d K : R) (f : T2 -> R) : Prop := forall F e, 0 <= e <= d -> near e F F0 -> Rabs (f F - f F0) <= K * e.
  Definition calm (f : T2 -> R) : Prop := exists d K, 0 < d /\ 0 <= K /\ calmd d K f.

  Lemma calmd_mono d K d' K' f : d' <= d -> K <= K' -> calmd d K f -> calmd d' K' f.
  Proof.
    intros Hd HK H F e He HF. eapply Rle_trans; [apply (H F e); [lra|exact HF]|]. apply Rmult_le_compat_r; lra.
  Qed.
  Lemma near_refl e : 0 <= e -> near e F0 F0.
  Proof. intros He i j. unfold Rminus. rewrite Rplus_opp_r, Rabs_R0. exact He. Qed.
  Lemma calm_const c : calm (fun _ => c).
  Proof. exists 1, 0. split; [lra|]. split; [lra|]. intros F e He _. unfold Rminus. rewrite Rplus_opp_r, Rabs_R0. lra. Qed.
  Lemma calm_entry i j : calm (fun F => F i j).
  Proof. exists 1, 1. split; [lra|]. split; [lra|]. intros F e He H. specialize (H i j). lra. Qed.
  Lemma calm_both f g : calm f -> calm g -> exists d K, 0 < d /\ 0 <= K /\ calmd d K f /\ calmd d K g.
  Proof.
    intros (d1 & K1 & H1 & P1 & Q1) (d2 & K2 & H2 & P2 & Q2). exists (Rmin d1 d2), (K1 + K2).
    split; [apply Rmin_pos; auto|]. split; [lra|].
    split; [apply (calmd_mono d1 K1)|apply (calmd_mono d2 K2)]; auto; try apply Rmin_l; try apply Rmin_r; lra.
  Qed.
  Lemma calm_add f g : calm f -> calm g -> calm (fun F => f F + g F).
  Proof.
    intros A B. destruct (calm_both f g A B) as (d & K & Hd & HK & P & Q). exists d, (2 * K). split; [auto|]. split; [lra|].
    intros F e He HF. specialize (P F e He HF). specialize (Q F e He HF).
    replace (f F + g F - (f F0 + g F0)) with ((f F - f F0) + (g F - g F0)) by ring. eapply Rle_trans; [apply Rabs_triang|]. lra.
  Qed.
  Lemma calm_mul f g : calm f -> calm g -> calm (fun F => f F * g F).
  Proof.
    intros A B. destruct (calm_both f g A B) as (d & K & Hd & HK & P & Q).
    exists d, (K * (Rabs (g F0) + K * d) + Rabs (f F0) * K). split; [auto|]. pose proof (Rabs_pos (g F0)). pose proof (Rabs_pos (f F0)).
    assert (0 <= K * d) by (apply Rmult_le_pos; lra). split; [nra|].
    intros F e He HF. specialize (P F e He HF). specialize (Q F e He HF).
    replace (f F * g F - f F0 * g F0) with ((f F - f F0) * g F + f F0 * (g F - g F0)) by ring.
    eapply Rle_trans; [apply Rabs_triang|]. rewrite !Rabs_mult.
    assert (Gb : Rabs (g F) <= Rabs (g F0) + K * d).
    { replace (g F) with (g F0 + (g F - g F0)) by ring. eapply Rle_trans; [apply Rabs_triang|]. assert (K * e <= K * d) by (apply Rmult_le_compat_l; lra). lra. }
    assert (T1 : Rabs (f F - f F0) * Rabs (g F) <= K * e * (Rabs (g F0) + K * d)).
    { apply Rmult_le_compat; try apply Rabs_pos; auto. }
    assert (T2 : Rabs (f F0) * Rabs (g F - g F0) <= Rabs (f F0) * (K * e)) by (apply Rmult_le_compat_l; auto).
    apply Rle_trans with (K * e * (Rabs (g F0) + K * d) + Rabs (f F0) * (K * e)); [lra|right; ring].
  Qed.
  Lemma calm_ext f g : (exists d, 0 < d /\ forall F, near d F F0 -> f F = g F) -> calm f -> calm g.
  Proof.
    intros (d & Hd & E) (d' & K & Hd' & HK & H). exists (Rmin d d'), K. split; [apply Rmin_pos; auto|]. split; [auto|].
    assert (A := Rmin_l d d'). assert (B := Rmin_r d d').
    intros F e He HF. rewrite <- !E; [apply H; [lra|auto]|apply near_refl; lra|]. intros i j. specialize (HF i j). lra.
  Qed.
  Lemma calm_comp g l f : calm f -> derivable_pt_lim g (f F0) l -> calm (fun F => g (f F)).
  Proof.
    intros (d & K & Hd & HK & H) D. destruct (D 1 ltac:(lra)) as [[y Hy] Q]. cbn in Q.
    exists (Rmin d (y / (2 * (K + 1)))), ((Rabs l + 1) * K). assert (B1 := Rmin_l d (y / (2 * (K + 1)))). assert (B2 := Rmin_r d (y / (2 * (K + 1)))).
    split. { apply Rmin_pos; [auto|]. apply Rdiv_lt_0_compat; lra. }
    pose proof (Rabs_pos l). split; [apply Rmult_le_pos; lra|]. intros F e He HF. specialize (H F e ltac:(lra) HF).
    destruct (Req_dec (f F - f F0) 0) as [E|N].
    - replace (f F) with (f F0) by lra. unfold Rminus. rewrite Rplus_opp_r, Rabs_R0. apply Rmult_le_pos; [apply Rmult_le_pos; lra|lra].
    - assert (L : Rabs (f F - f F0) < y).
      { eapply Rle_lt_trans; [exact H|]. apply Rle_lt_trans with (K * (y / (2 * (K + 1)))); [apply Rmult_le_compat_l; lra|].
        apply Rmult_lt_reg_r with (2 * (K + 1)); [lra|]. replace (K * (y / (2 * (K + 1))) * (2 * (K + 1))) with (K * y) by (field; lra). nra. }
      specialize (Q (f F - f F0) N L). replace (f F0 + (f F - f F0)) with (f F) in Q by ring.
      assert (T : Rabs ((g (f F) - g (f F0)) / (f F - f F0)) <= Rabs l + 1).
      { replace ((g (f F) - g (f F0)) / (f F - f F0)) with (l + ((g (f F) - g (f F0)) / (f F - f F0) - l)) by ring.
        eapply Rle_trans; [apply Rabs_triang|]. lra. }
      replace (g (f F) - g (f F0)) with ((g (f F) - g (f F0)) / (f F - f F0) * (f F - f F0)) by (field; auto).
      rewrite Rabs_mult. rewrite Rmult_assoc. apply Rmult_le_compat; auto using Rabs_pos.
  Qed.
  Lemma calm_opp f : calm f -> calm (fun F => - f F).
  Proof.
    intro H. apply calm_ext with (fun F => (-1) * f F); [exists 1; split; [lra|intros; ring]|]. apply calm_mul; [apply calm_const|auto].
  Qed.
  Lemma calm_sub f g : calm f -> calm g -> calm (fun F => f F - g F).
  Proof. intros A B. exact (calm_add f (fun F => - g F) A (calm_opp g B)). Qed.
  Lemma calm_inv f : calm f -> f F0 <> 0 -> calm (fun F => / f F).
  Proof.
    intros A N. apply (calm_comp Rinv (- / (f F0) ^ 2) f A). apply is_derive_Reals. auto_derive; [exact N|]. field; exact N.
  Qed.
  Lemma calm_div f g : calm f -> calm g -> g F0 <> 0 -> calm (fun F => f F / g F).
  Proof. intros A B N. exact (calm_mul f (fun F => / g F) A (calm_inv g B N)). Qed.
  Lemma calm_power f a : calm f -> 0 < f F0 -> calm (fun F => Rpower (f F) a).
  Proof. intros A N. exact (calm_comp (fun x => Rpower x a) _ f A (derivable_pt_lim_power _ _ N)). Qed.
  Lemma calm_pow f n : calm f -> calm (fun F => f F ^ n).
  Proof. intro A. induction n as [|n IH]; [exact (calm_const 1)|exact (calm_mul f _ A IH)]. Qed.
  Lemma calm_sum3 (f : T2 -> ix3 -> R) : (forall i, calm (fun F => f F i)) -> calm (fun F => sum3 (f F)).
  Proof. intro H. unfold sum3. repeat apply calm_add; apply H. Qed.
  Lemma calm_sum6 (f : T2 -> ix6 -> R) : (forall i, calm (fun F => f F i)) -> calm (fun F => sum6 (f F)).
  Proof. intro H. unfold sum6. repeat apply calm_add; apply H. Qed.

  (** Strict inequalities persist. *)
  Lemma calm_open f c : calm f -> c < f F0 -> exists d, 0 < d /\ forall F, near d F F0 -> c < f F.
  Proof.
    intros (d & K & Hd & HK & H) L. set (e := (f F0 - c) / (2 * (K + 1))). assert (He : 0 < e) by (apply Rdiv_lt_0_compat; lra).
    exists (Rmin d e). split; [apply Rmin_pos; auto|]. intros F HF. assert (B1 := Rmin_l d e). assert (B2 := Rmin_r d e).
    assert (B3 := Rmin_pos d e Hd He). specialize (H F (Rmin d e) ltac:(lra) HF).
    assert (T : K * Rmin d e < f F0 - c).
    { apply Rle_lt_trans with (K * e); [apply Rmult_le_compat_l; auto|]. unfold e. apply Rmult_lt_reg_r with (2 * (K + 1)); [lra|].
      replace (K * ((f F0 - c) / (2 * (K + 1))) * (2 * (K + 1))) with (K * (f F0 - c)) by (field; lra). nra. }
    apply Rabs_le_between in H. lra.
  Qed.
  Lemma calm_abs f : calm f -> calm (fun F => Rabs (f F)).
  Proof.
    intros (d & K & Hd & HK & H). exists d, K. split; [auto|]. split; [auto|]. intros F e He HF.
    eapply Rle_trans; [apply Rabs_triang_inv2|]. apply H; auto.
  Qed.

  (** Tensors and the functions of math/_voigt.py. *)
  Definition calmV (f : T2 -> Vec6) : Prop := forall v, calm (fun F => f F v).
  Definition calmM (f : T2 -> Mat6) : Prop := forall v w, calm (fun F => f F v w).
  Lemma cV_right_CG : calmV right_CG.
  Proof. intro v. unfold right_CG. destruct v; cbn [asvoigt]; apply calm_sum3; intro; apply calm_mul; apply calm_entry. Qed.
  Lemma cR_det f : calmV f -> calm (fun F => det (f F)).
  Proof. intro H. unfold det. repeat first [apply calm_sub|apply calm_add|apply calm_mul|apply calm_pow|apply calm_const|apply H]. Qed.
  Lemma cR_trace f : calmV f -> calm (fun F => trace (f F)).
  Proof. intro H. unfold trace. repeat first [apply calm_add|apply H]. Qed.
  Lemma cV_inv f d : calmV f -> calm d -> d F0 <> 0 -> calmV (fun F => inv (f F) (Some (d F))).
  Proof. intros H Hd N v. unfold inv. apply calm_div; [|auto|auto]. apply calm_sub; apply calm_mul; apply H. Qed.
  Lemma cR_ddot22 f g : calmV f -> calmV g -> calm (fun F => ddot22 (f F) (g F)).
  Proof. intros A B. unfold ddot22. apply calm_sum6. intro. repeat apply calm_mul; [apply A|apply B|apply calm_const]. Qed.
  Lemma cM_ddot44 f g : calmM f -> calmM g -> calmM (fun F => ddot44 (f F) (g F)).
  Proof. intros A B v w. unfold ddot44. apply calm_sum6. intro. repeat apply calm_mul; [apply A|apply B|apply calm_const]. Qed.
  Lemma cV_ddot24 f g : calmV f -> calmM g -> calmV (fun F => ddot24 (f F) (g F)).
  Proof. intros A B v. unfold ddot24. apply calm_sum6. intro. repeat apply calm_mul; [apply A|apply B|apply calm_const]. Qed.
  Lemma cM_dya f g : calmV f -> calmV g -> calmM (fun F => dya (f F) (g F)).
  Proof. intros A B v w. unfold dya. apply calm_mul; [apply A|apply B]. Qed.
  Lemma cM_cdya1 f : calmV f -> calmM (fun F => cdya1 (f F)).
  Proof.
    intros A v w. unfold cdya1, cdya_obj. destruct (ix6_leb v w); unfold cdya_value; destruct v, w; cbn;
      repeat first [apply calm_sub|apply calm_add|apply calm_div|apply calm_mul|apply calm_const|apply A|lra].
  Qed.
  Lemma cV_vscal a f : calm a -> calmV f -> calmV (fun F => vscal (a F) (f F)).
  Proof. intros A B v. apply calm_mul; [exact A|apply B]. Qed.
  Lemma cV_vadd f g : calmV f -> calmV g -> calmV (fun F => vadd (f F) (g F)).
  Proof. intros A B v. apply calm_add; [apply A|apply B]. Qed.
  Lemma cV_vsub f g : calmV f -> calmV g -> calmV (fun F => vsub (f F) (g F)).
  Proof. intros A B v. apply calm_sub; [apply A|apply B]. Qed.
  Lemma cM_mscal6 a f : calm a -> calmM f -> calmM (fun F => mscal6 (a F) (f F)).
  Proof. intros A B v w. apply calm_mul; [exact A|apply B]. Qed.
  Lemma cM_madd6 f g : calmM f -> calmM g -> calmM (fun F => madd6 (f F) (g F)).
  Proof. intros A B v w. apply calm_add; [apply A|apply B]. Qed.
  Lemma cM_msub6 f g : calmM f -> calmM g -> calmM (fun F => msub6 (f F) (g F)).
  Proof. intros A B v w. apply calm_sub; [apply A|apply B]. Qed.
  Lemma cM_transpose f : calmM f -> calmM (fun F => transpose (f F)).
  Proof. intros A v w. apply (A w v). Qed.
  Lemma cV_const c : calmV (fun _ => c). Proof. intro v. apply calm_const. Qed.
  Lemma cM_const c : calmM (fun _ => c). Proof. intros v w. apply calm_const. Qed.
End Calm.

Ltac calm1 := lazymatch goal with
  | |- calm _ (fun F => msub6 (@?a F) (@?b F) ?v ?w) => apply (cM_msub6 _ a b)
  | |- calm _ (fun F => madd6 (@?a F) (@?b F) ?v ?w) => apply (cM_madd6 _ a b)
  | |- calm _ (fun F => mscal6 (@?a F) (@?b F) ?v ?w) => apply (cM_mscal6 _ a b)
  | |- calmM _ (fun F => msub6 (@?a F) (@?b F)) => apply (cM_msub6 _ a b)
  | |- calmM _ (fun F => madd6 (@?a F) (@?b F)) => apply (cM_madd6 _ a b)
  | |- calmM _ (fun F => mscal6 (@?a F) (@?b F)) => apply (cM_mscal6 _ a b)
  | |- calmM _ (fun F => dya (@?a F) (@?b F)) => apply (cM_dya _ a b)
  | |- calmM _ (fun F => cdya1 eye) => apply (cM_const _ (cdya1 eye))
  | |- calmM _ (fun F => cdya1 (@?a F)) => apply (cM_cdya1 _ a)
  | |- calmM _ (fun F => ddot44 (@?a F) (@?b F)) => apply (cM_ddot44 _ a b)
  | |- calmM _ (fun F => transpose (@?a F)) => apply (cM_transpose _ a)
  | |- calmV _ (fun F => vscal (@?a F) (@?b F)) => apply (cV_vscal _ a b)
  | |- calmV _ (fun F => vsub (@?a F) (@?b F)) => apply (cV_vsub _ a b)
  | |- calmV _ (fun F => vadd (@?a F) (@?b F)) => apply (cV_vadd _ a b)
  | |- calmV _ (fun F => ddot24 (@?a F) (@?b F)) => apply (cV_ddot24 _ a b)
  | |- calmV _ (fun F => right_CG F) => apply cV_right_CG
  | |- calmV _ right_CG => apply cV_right_CG
  | |- calmV _ (fun _ => eye) => apply cV_const
  | |- calm _ (fun F => ddot22 (@?a F) (@?b F)) => apply (cR_ddot22 _ a b)
  | |- calm _ (fun F => trace (@?a F)) => apply (cR_trace _ a)
  | |- calm _ (fun F => det (@?a F)) => apply (cR_det _ a)
  | |- calm _ (fun _ => ?c) => apply (calm_const _ c)
  | |- calm _ (fun F => @?a F - @?b F) => apply (calm_sub _ a b)
  | |- calm _ (fun F => @?a F + @?b F) => apply (calm_add _ a b)
  | |- calm _ (fun F => @?a F / @?b F) => apply (calm_div _ a b)
  | |- calm _ (fun F => @?a F * @?b F) => apply (calm_mul _ a b)
  | |- calm _ (fun F => @?a F ^ ?n) => apply (calm_pow _ a n)
  end.
Ltac calms := repeat (first [assumption|calm1]; cbv beta).

(** *** Invertibility persists *)
Lemma calm_det3 F0 : calm F0 det3.
Proof. unfold det3. repeat first [apply calm_sub|apply calm_add|apply calm_mul|apply calm_entry]. Qed.
Lemma invertible_open F0 : invertible F0 -> exists d, 0 < d /\ forall F, near d F F0 -> invertible F.
Proof.
  intro N. destruct (calm_open F0 _ 0 (calm_abs _ _ (calm_det3 F0)) (Rabs_pos_lt _ N)) as (d & Hd & H).
  exists d. split; [auto|]. intros F HF. specialize (H F HF). intro E. rewrite E, Rabs_R0 in H. lra.
Qed.
Lemma near_mono d d' F G : d <= d' -> near d F G -> near d' F G.
Proof. intros L H i j. specialize (H i j). lra. Qed.
Lemma near_along d F0 F H t : 0 < d -> near (d / 2) (along F H t) F0 -> locally t (fun s => near d (along F H s) F0).
Proof.
  intros Hd HN. set (m := 1 + mag H). assert (Hm : 0 < m) by (unfold m; pose proof (mag_pos H); lra).
  exists (mkposreal (d / 2 / m) (Rdiv_lt_0_compat _ _ (ltac:(lra) : 0 < d / 2) Hm)). intros s Hs i j.
  change (Rabs (s - t) < d / 2 / m) in Hs. specialize (HN i j). unfold along in *.
  replace (F i j + s * H i j - F0 i j) with ((F i j + t * H i j - F0 i j) + (s - t) * H i j) by ring.
  eapply Rle_trans; [apply Rabs_triang|]. rewrite Rabs_mult. pose proof (mag_entry H i j). pose proof (Rabs_pos (s - t)).
  assert (Rabs (s - t) * Rabs (H i j) <= d / 2 / m * m). { apply Rmult_le_compat; auto using Rabs_pos; [lra|unfold m; lra]. }
  replace (d / 2 / m * m) with (d / 2) in H2 by (field; lra). lra.
Qed.
Lemma along_D F H t : dcurve2 (along F H) t H.
Proof. intros i j. unfold along. auto_derive; [exact Logic.I|ring]. Qed.

(** Uniform constants over the indices. *)
Lemma uni3 (Q : ix3 -> R -> R -> Prop) : (forall i d K d' K', d' <= d -> K <= K' -> Q i d K -> Q i d' K') ->
  (forall i, exists d K, 0 < d /\ 0 <= K /\ Q i d K) -> exists d K, 0 < d /\ 0 <= K /\ forall i, Q i d K.
Proof.
  intros M H. destruct (H X0) as (d0 & K0 & A0 & B0 & C0), (H X1) as (d1 & K1 & A1 & B1 & C1), (H X2) as (d2 & K2 & A2 & B2 & C2).
  exists (Rmin d0 (Rmin d1 d2)), (K0 + (K1 + K2)). split; [repeat apply Rmin_pos; auto|]. split; [lra|].
  assert (M1 := Rmin_l d0 (Rmin d1 d2)). assert (M2 := Rmin_r d0 (Rmin d1 d2)). assert (M3 := Rmin_l d1 d2). assert (M4 := Rmin_r d1 d2).
  intros []; [apply (M X0 d0 K0)|apply (M X1 d1 K1)|apply (M X2 d2 K2)]; auto; lra.
Qed.
Lemma uni4 F0 (f : ix3 -> ix3 -> ix3 -> ix3 -> T2 -> R) : (forall i j k l, calm F0 (f i j k l)) ->
  exists d K, 0 < d /\ 0 <= K /\ forall i j k l, calmd F0 d K (f i j k l).
Proof.
  intro H. apply (uni3 (fun i d K => forall j k l, calmd F0 d K (f i j k l))); [intros i d K d' K' A B Q j k l; exact (calmd_mono F0 d K d' K' _ A B (Q j k l))|intro i].
  apply (uni3 (fun j d K => forall k l, calmd F0 d K (f i j k l))); [intros j d K d' K' A B Q k l; exact (calmd_mono F0 d K d' K' _ A B (Q k l))|intro j].
  apply (uni3 (fun k d K => forall l, calmd F0 d K (f i j k l))); [intros k d K d' K' A B Q l; exact (calmd_mono F0 d K d' K' _ A B (Q l))|intro k].
  apply (uni3 (fun l d K => calmd F0 d K (f i j k l))); [intros l d K d' K' A B Q; exact (calmd_mono F0 d K d' K' _ A B Q)|intro l].
  exact (H i j k l).
Qed.

Section Space.
  Context {SV : Type} (fw : Framework SV) (k : SpaceKind) (sv : SV) (F0 : T2) (Dom : T2 -> Prop).
  Hypothesis (HH : sp_hessian_of (sp_gradient k fw default_opts) (sp_hessian k fw default_opts) Dom).
  Variables (g : T2 -> Vec6) (H : T2 -> Mat6) (d0 : R).
  Hypotheses (Hd0 : 0 < d0) (HDom : forall F, near d0 F F0 -> Dom F).
  Hypothesis Hg : forall F s, near d0 F F0 -> exists svn, outcome (fw_gradient fw (seen k (right_CG F)) sv) s = Ok (g F, svn).
  Hypothesis Hh : forall F s, near d0 F F0 -> outcome (fw_hessian fw (seen k (right_CG F)) sv) s = Ok (H F).
  Hypotheses (Cg : calmV F0 g) (CH : calmM F0 H) (N0 : invertible F0) (s0 : SpaceSelf (fw_self fw)).
  Let C4b F : Mat6 := mscal6 (4 * Rpower (det (right_CG F)) (- 2 / 3)) (H F).
  Hypothesis Branch : k = KDistortional -> exists b, forall F, near d0 F F0 -> allclose0 (C4b F) = b.

  Definition spP F : T2 := mmul F (astensor (kS k (right_CG F) (g F))).
  Definition spA F : T4 := t4add (legs13 F (astensor4 (kC4 k (right_CG F) (g F) (H F)))) (geo one2 (astensor (kS k (right_CG F) (g F)))).

  Lemma sp_P F s : near d0 F F0 -> exists svn, outcome (sp_gradient k fw default_opts F sv) s = Ok (StressFull (spP F), svn).
  Proof.
    intro HF. destruct (Hg F (sp_mat s) HF) as [svn E]. exists svn. rewrite (sp_gradient_ok fw default_opts _ _ _ _ _ _ E), default_stress. reflexivity.
  Qed.
  Lemma sp_A F s : near d0 F F0 -> outcome (sp_hessian k fw default_opts F sv) s = Ok (ElastFull (spA F)).
  Proof.
    intro HF. destruct (Hg F (sp_mat s) HF) as [svn E]. destruct (outcome_pair _ _ _ E) as [ms E'].
    rewrite (sp_hessian_ok fw default_opts _ _ _ _ _ _ _ E'), (Hh F ms HF), default_elast. reflexivity.
  Qed.
  Let PC : det (right_CG F0) > 0 := pos_right_CG F0 N0.

  Lemma calm_pow_det a : calm F0 (fun F => Rpower (det (right_CG F)) a).
  Proof. apply calm_power; [apply cR_det, cV_right_CG|exact PC]. Qed.
  Lemma calm_invC : calmV F0 (fun F => inv (right_CG F) (Some (det (right_CG F)))).
  Proof. apply cV_inv; [apply cV_right_CG|apply cR_det, cV_right_CG|]. apply Rgt_not_eq, PC. Qed.
  Ltac cs := pose proof calm_pow_det as PD; pose proof calm_invC as IC; repeat (first [assumption|apply PD|calm1|lra]; cbv beta).
  Lemma calm_kSb : calmV F0 (fun F => kSb k (right_CG F) (g F)).
  Proof. unfold kSb. destruct k; cs. Qed.
  Lemma calm_kS : calmV F0 (fun F => kS k (right_CG F) (g F)).
  Proof. pose proof calm_kSb as B. unfold kS. destruct k; cbv zeta; cbn [kSb] in *; cs. Qed.
  Lemma calm_kC4 : calmM F0 (fun F => kC4 k (right_CG F) (g F) (H F)).
  Proof.
    pose proof calm_kSb as B. intros v w. destruct k eqn:Ek; unfold kC4; cbv zeta.
    - cs.
    - destruct (Branch eq_refl) as [b Hb].
      apply (calm_ext F0 (fun F => (let Sb := kSb KDistortional (right_CG F) (g F) in let invC := inv (right_CG F) (Some (det (right_CG F))) in
        let SbC := ddot22 Sb (right_CG F) in let C4 := mscal6 (2 / 3)
                (madd6 (msub6 (msub6 (mscal6 SbC (cdya1 invC)) (dya Sb invC)) (transpose (dya Sb invC)))
                       (mscal6 (SbC / 3) (dya invC invC))) in
        let P4 := msub6 (cdya1 eye) (mscal6 (/ 3) (dya invC (right_CG F))) in
        if b then C4 else madd6 C4 (ddot44 (ddot44 P4 (C4b F)) (transpose P4))) v w)).
      { exists d0. split; [exact Hd0|]. intros F HF. rewrite <- (Hb F HF). reflexivity. }
      cbv zeta. unfold C4b. destruct b; cs.
    - cs.
  Qed.

  Theorem space_smooth : smooth_at (material k fw sv) F0.
  Proof.
    destruct (uni4 F0 (fun i j p q F => spA F i j p q)) as (d & K & Hd & HK & HC).
    { intros i j p q. unfold spA, t4add, legs13, geo, astensor4, astensor. apply calm_add.
      - apply calm_sum3; intro. apply calm_sum3; intro. repeat apply calm_mul; try apply calm_entry. apply calm_kC4.
      - apply calm_mul; [apply calm_const|apply calm_kS]. }
    exists spP, spA, (Rmin d (d0 / 2)), K. assert (B1 := Rmin_l d (d0 / 2)). assert (B2 := Rmin_r d (d0 / 2)).
    split; [apply Rmin_pos; lra|]. split; [exact HK|]. split; [|split].
    - intros F HF. assert (HF' : near d0 F F0) by (apply near_mono with (Rmin d (d0 / 2)); [lra|auto]). split; split.
      + destruct (sp_P F s0 HF') as [svn E]. exists s0, svn. exact E.
      + intros p (s & svn & E). destruct (sp_P F s HF') as [svn' E']. rewrite E in E'. injection E' as <- _. reflexivity.
      + exists s0. apply sp_A; auto.
      + intros a (s & E). rewrite (sp_A F s HF') in E. injection E as <-. reflexivity.
    - intros F e He HF i j p q. apply (HC i j p q F e); [lra|exact HF].
    - intros F V t HN. assert (HN' : near (d0 / 2) (along F V t) F0) by (apply near_mono with (Rmin d (d0 / 2)); [lra|auto]).
      assert (HN0 : near d0 (along F V t) F0) by (apply near_mono with (d0 / 2); [lra|auto]).
      destruct (HH (along F V) t V (along_D F V t) (HDom _ HN0) sv s0) as (A & RA & DA).
      assert (EA : A = spA (along F V t)).
      { destruct RA as [s' RA]. assert (E := sp_A (along F V t) s0 HN0). unfold outcome in E. rewrite RA in E. cbn in E. injection E as E. exact E. }
      rewrite <- EA. apply (DA (fun _ => sv) (fun _ => s0)).
      assert (L := near_along d0 F0 F V t Hd0 HN'). revert L. apply filter_imp. intros s Hs.
      destruct (sp_P (along F V s) s0 Hs) as [svn E]. exists svn. apply returns_outcome. exact E.
  Qed.
End Space.
