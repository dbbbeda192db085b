(** * Property C59: fitting ThirdOrderDeformation is a linear least-squares problem. *)
From Coq Require Import Reals Lra Lia List String.
From Verif Require Import Tensor Py Models Spec Lab LabSpec LabMech LabCurves LabOpt LabFit CurveProofs LsqSpec LsqProofs PropLab.
Import ListNotations.
Local Open Scope R_scope.

Lemma app_inv_len {A} (a b c d : list A) : List.length a = List.length b -> a ++ c = b ++ d -> a = b /\ c = d.
Proof.
  revert b; induction a as [|x a IH]; intros [|y b] L E; cbn in *; try discriminate; [auto|].
  injection E as -> E. destruct (IH b ltac:(lia) E) as [-> ->]. auto.
Qed.
(** The residuals exist for all parameters and depend on them affinely: on a straight line of
    parameters the residuals follow a straight line. *)
Theorem C59_affine : forall ts, List.Forall linear_term ts -> forall p q, List.length p = List.length q ->
  exists r s, all_residuals ts p = Ok r /\ all_residuals ts q = Ok s /\ List.length r = List.length s /\
    forall t, all_residuals ts (mix t p q) = Ok (mix t r s).
Proof.
  intros ts H p q L. destruct (all_affine ts H) as (res & E & HL & HA). exists (res p), (res q).
  split; [apply E|]. split; [apply E|]. split; [auto|]. intro t. rewrite E, HA by exact L. reflexivity.
Qed.
Print Assumptions C59_affine.
(** The total sum of squares is convex. *)
Theorem C59_convex : forall ts, List.Forall linear_term ts -> forall p q, List.length p = List.length q ->
  exists v w, total_squares ts p = Ok v /\ total_squares ts q = Ok w /\
    forall t, 0 <= t <= 1 -> exists u, total_squares ts (mix t p q) = Ok u /\ u <= (1 - t) * v + t * w.
Proof.
  intros ts H p q L. destruct (all_affine ts H) as (res & E & HL & HA).
  exists (sum_squares (res p)), (sum_squares (res q)).
  split; [exact (C41_squares ts p _ (E p))|]. split; [exact (C41_squares ts q _ (E q))|]. intros t T.
  exists (sum_squares (res (mix t p q))). split; [exact (C41_squares ts _ _ (E _))|]. apply convex; auto.
Qed.
Print Assumptions C59_convex.
(** Hence it is enough that scipy returns a local minimiser: the fit is globally optimal. *)
Theorem C59_fit : forall sims experiments simulations mask scipy w w' loc pcov, matching experiments simulations mask ->
  scipy_shapes scipy -> scipy_local scipy -> List.Forall linear_term (terms sims experiments simulations mask) ->
  curve_fit sims experiments simulations mask scipy w = (w', Ok (loc, pcov)) -> (forall l, heap w (op_par w) <> IntArray l) ->
  minimiser (terms sims experiments simulations mask) (elements (heap w' loc)).
Proof.
  intros sims experiments simulations mask scipy w w' loc pcov M HS HM HT E NI.
  destruct (success_reports sims experiments simulations mask scipy M HS w w' loc pcov E NI) as (-> & _ & popt & Es & -> & _ & (r & _ & Er) & _).
  set (ts := terms sims experiments simulations mask) in *.
  destruct (HM _ _ _ _ _ _ Es) as (r' & e & Er' & Pe & Mn).
  rewrite (handed sims experiments simulations mask popt M) in Er'. fold ts in Er'.
  destruct (all_affine ts HT) as (res & ER & HL & HA).
  rewrite ER in Er'. injection Er' as <-.
  exists (sum_squares (res popt)). split; [exact (C41_squares ts _ _ (ER popt))|].
  intros q v' L T. rewrite (C41_squares ts q _ (ER q)) in T. injection T as <-.
  apply (local_global res HL HA popt e Pe); [|exact L].
  intros q' C. apply (Mn q' (res q') C). rewrite (handed sims experiments simulations mask q' M). exact (ER q').
Qed.
Print Assumptions C59_fit.
(** All minimisers reproduce the data equally, point by point. *)
Theorem C59_same_residuals : forall ts, List.Forall linear_term ts -> forall p q, List.length p = List.length q ->
  minimiser ts p -> minimiser ts q -> all_residuals ts p = all_residuals ts q.
Proof.
  intros ts H p q L (v & Ev & Mv) (w & Ew & Mw). destruct (all_affine ts H) as (res & E & HL & HA).
  rewrite !E. f_equal. rewrite (C41_squares ts p _ (E p)) in Ev. rewrite (C41_squares ts q _ (E q)) in Ew. injection Ev as <-. injection Ew as <-.
  apply (same_residuals res HL HA p q L).
  - intros s Ls. exact (Mv s _ Ls (C41_squares ts s _ (E s))).
  - intros s Ls. exact (Mw s _ Ls (C41_squares ts s _ (E s))).
Qed.
Print Assumptions C59_same_residuals.
(** The initial values, the method and everything that happened before do not matter: any two
    successful fits with the same number of parameters report the same residuals. *)
Theorem C59_initial_values : forall sims experiments simulations mask scipy1 scipy2 w1 w2 w1' w2' loc1 loc2 pcov1 pcov2,
  matching experiments simulations mask -> List.Forall linear_term (terms sims experiments simulations mask) ->
  scipy_shapes scipy1 -> scipy_local scipy1 -> scipy_shapes scipy2 -> scipy_local scipy2 ->
  curve_fit sims experiments simulations mask scipy1 w1 = (w1', Ok (loc1, pcov1)) -> (forall l, heap w1 (op_par w1) <> IntArray l) ->
  curve_fit sims experiments simulations mask scipy2 w2 = (w2', Ok (loc2, pcov2)) -> (forall l, heap w2 (op_par w2) <> IntArray l) ->
  List.length (elements (heap w1' loc1)) = List.length (elements (heap w2' loc2)) ->
  op_residuals w1' = op_residuals w2' /\ norm_residuals w1' = norm_residuals w2'.
Proof.
  intros sims experiments simulations mask scipy1 scipy2 w1 w2 w1' w2' loc1 loc2 pcov1 pcov2 M HT S1 L1 S2 L2 E1 N1 E2 N2 L.
  assert (M1 := C59_fit _ _ _ _ _ _ _ _ _ M S1 L1 HT E1 N1). assert (M2 := C59_fit _ _ _ _ _ _ _ _ _ M S2 L2 HT E2 N2).
  assert (R := C59_same_residuals _ HT _ _ L M1 M2).
  destruct (success_reports _ _ _ _ _ M S1 w1 w1' loc1 pcov1 E1 N1) as (-> & _ & popt1 & _ & H1 & _ & (r1 & R1 & Q1) & _).
  destruct (success_reports _ _ _ _ _ M S2 w2 w2' loc2 pcov2 E2 N2) as (-> & _ & popt2 & _ & H2 & _ & (r2 & R2 & Q2) & _).
  rewrite H1, H2, Q1, Q2 in R. injection R as ->. split; [congruence|]. unfold norm_residuals. rewrite R1, R2. reflexivity.
Qed.
Print Assumptions C59_initial_values.
(** Mooney-Rivlin parameters are determined by two different uniaxial stretches. *)
Theorem C59_mooney_rivlin : forall ts sim pts, List.Forall linear_term ts -> In (sim, pts) ts ->
  defgrad (si_loadcase sim) = uniaxial -> si_labels sim = ["C10"; "C01"]%string ->
  (exists x1 y1 x2 y2, In (x1, y1) pts /\ In (x2, y2) pts /\ x1 <> 1 /\ x2 <> 1 /\ x1 <> x2) ->
  forall p q, List.length p = 2%nat -> List.length q = 2%nat -> minimiser ts p -> minimiser ts q -> p = q.
Proof.
  intros ts sim pts H I C K (x1 & y1 & x2 & y2 & I1 & I2 & N1 & N2 & N12) p q Lp Lq Mp Mq.
  assert (R := C59_same_residuals ts H p q ltac:(congruence) Mp Mq).
  destruct (in_split _ _ I) as (ta & tb & ->).
  assert (HT : linear_term (sim, pts)) by (rewrite Forall_forall in H; apply H; exact I).
  assert (P : forall x y, In (x, y) pts -> 0 < x) by apply HT.
  (* the residuals of this term agree *)
  assert (T : term_residuals (sim, pts) p = term_residuals (sim, pts) q).
  { apply Forall_app in H. destruct H as [Ha Hb]. inversion Hb as [|t' l' Ht Hb']; subst.
    destruct (all_affine ta Ha) as (ra & Ea & La & _). destruct (all_affine tb Hb') as (rb & Eb & Lb & _).
    destruct (term_affine _ Ht) as (f & _ & Ef). rewrite !Ef. f_equal.
    assert (G : forall s, all_residuals (ta ++ (sim, pts) :: tb) s =
       Ok (ra s ++ (map (fun z => f (tod_for (si_labels sim) s) (fst z) - snd z) pts ++ rb s))).
    { intro s. specialize (Ea s). specialize (Eb s). unfold all_residuals in *.
      revert Ea. generalize (ra s). clear - Ef Eb. induction ta as [|t ta IH]; intros rs Ea; cbn [map_r app] in *.
      - injection Ea as <-. rewrite Ef. cbn [rbind fst snd]. destruct (map_r (fun t => term_residuals t s) tb) as [l|]; cbn [rbind] in *; [|discriminate]. injection Eb as <-. reflexivity.
      - destruct (term_residuals t s) as [r|]; cbn [rbind] in *; [|discriminate].
        destruct (map_r (fun t => term_residuals t s) ta) as [l|]; cbn [rbind] in *; [|discriminate]. injection Ea as <-.
        specialize (IH _ eq_refl). destruct (map_r (fun t => term_residuals t s) (ta ++ (sim, pts) :: tb)) as [l'|]; cbn [rbind] in *; [|discriminate].
        injection IH as IH. cbn [List.concat]. rewrite IH, app_assoc. reflexivity. }
    rewrite !G in R. injection R as R. apply app_inv_len in R; [|apply La; congruence]. destruct R as [_ R].
    apply app_inv_len in R; [|rewrite !map_length; reflexivity]. apply R. }
  assert (TS : forall s, tod_simulation sim uniaxial s (tod_for (si_labels sim) s)).
  { intro s. split; [exact C|]. split; [apply HT|]. apply tod_for_ok. apply HT. }
  assert (X : forall x, In x (map fst pts) -> 0 < x).
  { intros x J. apply in_map_iff in J. destruct J as ([x' y] & <- & J). exact (P x' y J). }
  unfold term_residuals in T. cbn [fst snd] in T.
  rewrite (C38_uniaxial sim p _ _ (TS p) X), (C38_uniaxial sim q _ _ (TS q) X) in T. cbn [rbind] in T. injection T as T.
  assert (TT : forall x y, In (x, y) pts -> uni_f (tod_for (si_labels sim) p) x = uni_f (tod_for (si_labels sim) q) x).
  { intros x y J. unfold uni_f. clear - T J. induction pts as [|[x' y'] l IH]; [destruct J|]. cbn [map combine fst snd] in T. injection T as T0 T.
    destruct J as [E|J]; [injection E as -> ->|auto].
    apply (Rplus_eq_reg_r (- y)). exact T0. }
  assert (V1 := TT _ _ I1). assert (V2 := TT _ _ I2). rewrite K in V1, V2.
  destruct p as [|a [|b [|? ?]]]; cbn in Lp; try discriminate. destruct q as [|a' [|b' [|? ?]]]; cbn in Lq; try discriminate.
  assert (F : forall a b x, 0 < x -> uni_f (tod_for ["C10"; "C01"]%string [a; b]) x = 2 * (x - 1 / x ^ 2) * (a + b / x)).
  { intros u v x Px. unfold uni_f, tod_for, tod_W1, tod_W2, kwargs_of, kw, tod_init. cbn. field. lra. }
  rewrite !F in V1, V2 by eauto. assert (P1 := P _ _ I1). assert (P2 := P _ _ I2).
  assert (Z : forall x, 0 < x -> x <> 1 -> 2 * (x - 1 / x ^ 2) <> 0).
  { intros x Px N Q. assert (x ^ 3 - 1 = 0). { replace (x ^ 3 - 1) with (x ^ 2 * (x - 1 / x ^ 2)) by (field; lra). nra. }
    assert ((x - 1) * (x ^ 2 + x + 1) = 0) by (ring_simplify; lra). nra. }
  apply Rmult_eq_reg_l in V1; [|apply Z; auto]. apply Rmult_eq_reg_l in V2; [|apply Z; auto].
  assert (W1 : (a - a') * x1 + (b - b') = 0).
  { replace ((a - a') * x1 + (b - b')) with (x1 * ((a + b / x1) - (a' + b' / x1))) by (field; lra). rewrite V1. ring. }
  assert (W2 : (a - a') * x2 + (b - b') = 0).
  { replace ((a - a') * x2 + (b - b')) with (x2 * ((a + b / x2) - (a' + b' / x2))) by (field; lra). rewrite V2. ring. }
  assert (Wa : (a - a') * (x1 - x2) = 0) by lra. apply Rmult_integral in Wa. destruct Wa as [Wa|Wa]; [|lra].
  assert (a = a') by lra. subst a'. assert (b = b') by nra. subst b'. reflexivity.
Qed.
Print Assumptions C59_mooney_rivlin.
(** Planar data alone determine C10 + C01 only. *)
Theorem C59_planar_not_identifiable : forall sim pts a b c, linear_term (sim, pts) ->
  defgrad (si_loadcase sim) = planar -> si_labels sim = ["C10"; "C01"]%string ->
  all_residuals [(sim, pts)] [a; b] = all_residuals [(sim, pts)] [a + c; b - c].
Proof.
  intros sim pts a b c HT C K.
  assert (TS : forall s, tod_simulation sim planar s (tod_for (si_labels sim) s)).
  { intro s. split; [exact C|]. split; [apply HT|]. apply tod_for_ok. apply HT. }
  assert (X : forall x, In x (map fst pts) -> 0 < x).
  { intros x J. apply in_map_iff in J. destruct J as ([x' y] & <- & J). destruct HT as (_ & _ & _ & P). exact (P x' y J). }
  unfold all_residuals, term_residuals. cbn [map_r fst snd]. rewrite (C38_planar sim _ _ _ (TS [a; b]) X), (C38_planar sim _ _ _ (TS [a + c; b - c]) X).
  rewrite K. cbn [rbind]. f_equal. f_equal. f_equal. f_equal. f_equal. apply map_ext_in. intros x J. specialize (X x J).
  unfold tod_for, tod_W1, tod_W2, kwargs_of, kw, tod_init. cbn. field. lra.
Qed.
Print Assumptions C59_planar_not_identifiable.
(** The optimiser and the fit of C41_example satisfy the hypotheses. *)
Example C59_case : List.Forall linear_term (terms (fun _ => sim_ex) [exp_ex] [0%nat] mask_ex) /\ scipy_local scipy_ex.
Proof.
  split.
  - constructor; [|constructor]. split; [left; reflexivity|]. split; [left; reflexivity|]. split.
    + intros k [<-|[]]. left; reflexivity.
    + cbn. intros x y H. repeat (destruct H as [H|H]; [injection H as <- _; lra|]). destruct H.
  - intros f x y p0 popt pcov E. destruct (scipy_ex_minimises f x y p0 popt pcov E) as (r & Er & Mn).
    exists r, 1. split; [exact Er|]. split; [lra|]. intros p r' [L _] H. apply (Mn p r'); [|exact H].
    rewrite L. exact (proj1 (scipy_ex_shapes _ _ _ _ _ _ E)).
Qed.
