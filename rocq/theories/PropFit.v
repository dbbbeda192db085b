(** * Property C73: what a fit of linear parameters guarantees. *)
From Coq Require Import Reals Lra Lia List String Psatz Bool.
From Verif Require Import Tensor Py Voigt Models Frameworks Spaces Spec Lab LabSpec LabMech LabCurves LabOpt LabFit CurveProofs CurveSpec LsqSpec LsqProofs FitSpec FitProofs PropLab PropCurves PropLsq.
Import ListNotations.
Local Open Scope R_scope.

(** ** Which simulated curves are linear in the parameters *)
(** ThirdOrderDeformation: any of the five coefficients. *)
Theorem C73_third_order_deformation : forall n t, linear_term t -> linear_in_parameters n t.
Proof.
  intros n t H p q a b Lp Lq. destruct H as (M & C & K & X).
  assert (T : forall lc p, defgrad (si_loadcase (fst t)) = lc -> tod_simulation (fst t) lc p (tod_for (si_labels (fst t)) p)).
  { intros lc r E. split; [exact E|]. split; [exact M|]. apply tod_for_ok; exact K. }
  assert (P : forall x, In x (map fst (snd t)) -> 0 < x).
  { intros x I'. apply in_map_iff in I'. destruct I' as ([x' y] & <- & I'). exact (X x' y I'). }
  assert (KW : forall k, kw (kwargs_of (si_labels (fst t)) (comb a p b q)) k = a * kw (kwargs_of (si_labels (fst t)) p) k + b * kw (kwargs_of (si_labels (fst t)) q) k).
  { intro k. unfold kw. rewrite !kwargs_last. clear - Lp Lq. assert (L : List.length p = List.length q) by congruence. clear Lp Lq.
    generalize (si_labels (fst t)) as ls. intro ls.
    assert (G : match last_of (combine ls p) k, last_of (combine ls q) k, last_of (combine ls (comb a p b q)) k with
                | Some x, Some y, Some z => z = a * x + b * y | None, None, None => True | _, _, _ => False end).
    { revert p q L. induction ls as [|l ls IH]; intros [|x p] [|y q] L; cbn in L; try discriminate; cbn; auto.
      specialize (IH p q ltac:(lia)). unfold comb in *.
      destruct (last_of (combine ls p) k), (last_of (combine ls q) k), (last_of (combine ls (map (fun z => a * fst z + b * snd z) (combine p q))) k); try tauto.
      destruct (String.eqb l k); auto. }
    destruct (last_of (combine ls p) k), (last_of (combine ls q) k), (last_of (combine ls (comb a p b q)) k); try tauto. ring. }
  assert (G : forall f, (forall p, stress_curve_fit (fst t) (map fst (snd t)) p = Ok (map (f (tod_for (si_labels (fst t)) p)) (map fst (snd t)))) ->
     (forall x, 0 < x -> f (tod_for (si_labels (fst t)) (comb a p b q)) x = a * f (tod_for (si_labels (fst t)) p) x + b * f (tod_for (si_labels (fst t)) q) x) ->
     exists y z, stress_curve_fit (fst t) (map fst (snd t)) p = Ok y /\ stress_curve_fit (fst t) (map fst (snd t)) q = Ok z /\
       List.length y = List.length (map fst (snd t)) /\ List.length z = List.length (map fst (snd t)) /\
       stress_curve_fit (fst t) (map fst (snd t)) (comb a p b q) = Ok (comb a y b z)).
  { intros f E LF. rewrite !E. do 2 eexists. split; [reflexivity|]. split; [reflexivity|]. rewrite !map_length. split; [reflexivity|]. split; [reflexivity|].
    f_equal. clear - LF P. induction (map fst (snd t)) as [|x l IH]; [reflexivity|]. unfold comb in *. cbn [map combine fst snd]. f_equal.
    - apply LF, P; left; reflexivity.
    - apply IH. intros x' I'. apply P; right; exact I'. }
  destruct C as [C|[C|C]].
  - apply (G uni_f); [intro r; exact (C38_uniaxial _ r _ _ (T uniaxial r C) P)|]. intros x Px.
    unfold uni_f, tod_for, tod_W1, tod_W2, tod_init; cbv zeta; cbn [C10 C01 C11 C20 C30 undeformed]. rewrite !KW. field. lra.
  - apply (G pla_f); [intro r; exact (C38_planar _ r _ _ (T planar r C) P)|]. intros x Px.
    unfold pla_f, tod_for, tod_W1, tod_W2, tod_init; cbv zeta; cbn [C10 C01 C11 C20 C30 undeformed]. rewrite !KW. field. lra.
  - apply (G bia_f); [intro r; exact (C38_biaxial _ r _ _ (T biaxial r C) P)|]. intros x Px.
    unfold bia_f, tod_for, tod_W1, tod_W2, tod_init; cbv zeta; cbn [C10 C01 C11 C20 C30 undeformed]. rewrite !KW. field. lra.
Qed.
Print Assumptions C73_third_order_deformation.

Lemma ogden_curve_comb c alpha : forall p q a b l, List.length p = List.length alpha -> List.length q = List.length alpha ->
  ogden_curve c (comb a p b q) alpha l = a * ogden_curve c p alpha l + b * ogden_curve c q alpha l.
Proof.
  induction alpha as [|e alpha IH]; intros [|x p] [|y q] a b l Lp Lq; cbn in Lp, Lq; try discriminate; unfold ogden_curve, comb in *; cbn [combine map fold_right fst snd]; [ring|].
  rewrite (IH p q a b l) by lia. unfold Rdiv. ring.
Qed.
Lemma kwargs_values names : forall p, NoDup names -> List.length p = List.length names ->
  map (fun s => match dict_get (kwargs_of names p) s with Some x => x | None => 0 end) names = p.
Proof.
  intros p ND L. apply nth_ext with (d := 0) (d' := 0); [rewrite map_length; auto|]. intros i Hi. rewrite map_length in Hi.
  destruct (nth_error names i) as [k|] eqn:En; [|apply nth_error_None in En; lia].
  destruct (nth_error p i) as [v|] eqn:Ep; [|apply nth_error_None in Ep; lia].
  rewrite (nth_error_nth p i 0 Ep).
  apply nth_error_nth. rewrite nth_error_map, En. cbn. rewrite (C39_by_label names p i k v ND En Ep). reflexivity.
Qed.
Lemma ogden_material_ok k lapack names alpha p : NoDup names -> List.length p = List.length names ->
  let m := ogden_model (SV := unit) {| og_mu := p; og_alpha := alpha |} in let fw := stretches_fw lapack m in
  ogden_material k lapack names alpha (kwargs_of names p) =
  Ok (space_material tt fw (space_self0 fw (Build_StrSelf m None None tt)) (sp_gradient k fw default_opts)).
Proof.
  intros ND L. cbv zeta. unfold ogden_material. rewrite (kwargs_values names p ND L).
  replace (forallb (fun kv : string * R => existsb (String.eqb (fst kv)) names) (kwargs_of names p)) with true.
  2:{ symmetry. apply forallb_forall. intros [s v] I'. apply existsb_exists. exists s. split; [exact (keys_kwargs _ _ _ _ I')|apply String.eqb_refl]. }
  replace (forallb (fun s => existsb (fun kv : string * R => String.eqb (fst kv) s) (kwargs_of names p)) names) with true; [reflexivity|].
  symmetry. apply forallb_forall. intros s I'. apply existsb_exists.
  apply In_nth_error in I'. destruct I' as [i En]. destruct (nth_error p i) as [v|] eqn:Ep; [|apply nth_error_None in Ep; assert (i < List.length names)%nat by (apply nth_error_Some; congruence); lia].
  exists (s, v). split; [apply get_in; exact (C39_by_label names p i s v ND En Ep)|apply String.eqb_refl].
Qed.
(** Ogden with given exponents: the moduli are the parameters. *)
Theorem C73_ogden : forall k lapack alpha sim pts, lapack_legal lapack -> incompressible_kind k ->
  si_material sim = ogden_material k lapack (si_labels sim) alpha -> NoDup (si_labels sim) -> List.length (si_labels sim) = List.length alpha ->
  (forall e, In e alpha -> e <> 0) ->
  (defgrad (si_loadcase sim) = uniaxial \/ defgrad (si_loadcase sim) = planar \/ defgrad (si_loadcase sim) = biaxial) ->
  (forall x y, In (x, y) pts -> 0 < x) ->
  linear_in_parameters (List.length alpha) (sim, pts).
Proof.
  intros k lapack alpha sim pts HL K M ND LL HA C X p q a b Lp Lq. cbn [fst snd].
  assert (P : forall x, In x (map fst pts) -> 0 < x).
  { intros x I'. apply in_map_iff in I'. destruct I' as ([x' y] & <- & I'). exact (X x' y I'). }
  assert (S : forall lc, defgrad (si_loadcase sim) = lc -> forall r, List.length r = List.length alpha -> simulates sim r lc k tt (stretches_fw lapack (ogden_model (SV := unit) {| og_mu := r; og_alpha := alpha |}))).
  { intros lc E r Lr. split; [exact E|]. eexists. rewrite M. apply ogden_material_ok; [exact ND|congruence]. }
  assert (G : forall c, (forall r, List.length r = List.length alpha -> stress_curve_fit sim (map fst pts) r = Ok (map (ogden_curve c r alpha) (map fst pts))) ->
     exists y z, stress_curve_fit sim (map fst pts) p = Ok y /\ stress_curve_fit sim (map fst pts) q = Ok z /\
       List.length y = List.length (map fst pts) /\ List.length z = List.length (map fst pts) /\
       stress_curve_fit sim (map fst pts) (comb a p b q) = Ok (comb a y b z)).
  { intros c E. rewrite (E p Lp), (E q Lq), (E (comb a p b q)) by (rewrite comb_length; congruence).
    do 2 eexists. split; [reflexivity|]. split; [reflexivity|]. rewrite !map_length. split; [reflexivity|]. split; [reflexivity|]. f_equal.
    clear - Lp Lq. induction (map fst pts) as [|x l IH]; [reflexivity|]. unfold comb in *. cbn [map combine fst snd]. f_equal; [|exact IH].
    apply (ogden_curve_comb c alpha p q a b x Lp Lq). }
  assert (HA' : forall (r : list R) (m e : R), In (m, e) (combine r alpha) -> e <> 0).
  { intros r m e I'. apply HA. exact (in_combine_r _ _ _ _ I'). }
  destruct C as [C|[C|C]].
  - apply (G (- (1 / 2))). intros r Lr. exact (proj1 (C58_ogden_closed_forms unit lapack r alpha sim r k tt _ HL (HA' r) K P) (S _ C r Lr)).
  - apply (G (- (1))). intros r Lr. exact (proj1 (proj2 (C58_ogden_closed_forms unit lapack r alpha sim r k tt _ HL (HA' r) K P)) (S _ C r Lr)).
  - apply (G (- (2))). intros r Lr. exact (proj2 (proj2 (C58_ogden_closed_forms unit lapack r alpha sim r k tt _ HL (HA' r) K P)) (S _ C r Lr)).
Qed.
Print Assumptions C73_ogden.

(** ** What a fit guarantees *)
(** It is enough that scipy returns a local minimiser: the fit is globally optimal. *)
Theorem C73_fit : forall sims experiments simulations mask scipy w w' loc pcov, matching experiments simulations mask ->
  scipy_shapes scipy -> scipy_local scipy ->
  List.Forall (linear_in_parameters (List.length (elements (heap w (op_par w))))) (terms sims experiments simulations mask) ->
  curve_fit sims experiments simulations mask scipy w = (w', Ok (loc, pcov)) -> (forall l, heap w (op_par w) <> IntArray l) ->
  minimiser (terms sims experiments simulations mask) (elements (heap w' loc)).
Proof.
  intros sims experiments simulations mask scipy w w' loc pcov M HS HM HT E NI.
  destruct (success_reports sims experiments simulations mask scipy M HS w w' loc pcov E NI) as (-> & _ & popt & Es & -> & _ & (r & _ & Er) & _).
  set (ts := terms sims experiments simulations mask) in *. set (n := List.length (elements (heap w (op_par w)))) in *.
  assert (Lp : List.length popt = n) by exact (proj1 (HS _ _ _ _ _ _ Es)).
  destruct (HM _ _ _ _ _ _ Es) as (r' & e & Er' & Pe & Mn).
  rewrite (handed sims experiments simulations mask popt M) in Er'. fold ts in Er'.
  destruct (whole_residuals n ts HT) as (res & ER & HL & HA).
  rewrite ER in Er' by exact Lp. injection Er' as <-.
  exists (sum_squares (res popt)). split; [exact (C41_squares ts _ _ (ER popt Lp))|].
  intros q v' L T. assert (Lq : List.length q = n) by congruence.
  rewrite (C41_squares ts q _ (ER q Lq)) in T. injection T as <-.
  apply (local_global res HL HA popt e Pe); [|exact L].
  intros q' C. assert (Lq' : List.length q' = n) by (destruct C; congruence).
  apply (Mn q' (res q') C). rewrite (handed sims experiments simulations mask q' M). exact (ER q' Lq').
Qed.
Print Assumptions C73_fit.
(** All minimisers reproduce the data equally, point by point ... *)
Theorem C73_same_residuals : forall n ts, List.Forall (linear_in_parameters n) ts -> forall p q, List.length p = n -> List.length q = n ->
  minimiser ts p -> minimiser ts q -> all_residuals ts p = all_residuals ts q.
Proof.
  intros n ts H p q Lp Lq (v & Ev & Mv) (w & Ew & Mw). destruct (whole_residuals n ts H) as (res & E & HL & HA).
  rewrite !E by auto. f_equal. rewrite (C41_squares ts p _ (E p Lp)) in Ev. rewrite (C41_squares ts q _ (E q Lq)) in Ew. injection Ev as <-. injection Ew as <-.
  apply (same_residuals res HL HA p q ltac:(congruence)).
  - intros s Ls. exact (Mv s _ Ls (C41_squares ts s _ (E s ltac:(congruence)))).
  - intros s Ls. exact (Mw s _ Ls (C41_squares ts s _ (E s ltac:(congruence)))).
Qed.
Print Assumptions C73_same_residuals.
(** ... so initial values, method and history do not matter. *)
Theorem C73_initial_values : forall n sims experiments simulations mask scipy1 scipy2 w1 w2 w1' w2' loc1 loc2 pcov1 pcov2,
  matching experiments simulations mask -> List.Forall (linear_in_parameters n) (terms sims experiments simulations mask) ->
  scipy_shapes scipy1 -> scipy_local scipy1 -> scipy_shapes scipy2 -> scipy_local scipy2 ->
  curve_fit sims experiments simulations mask scipy1 w1 = (w1', Ok (loc1, pcov1)) -> (forall l, heap w1 (op_par w1) <> IntArray l) ->
  curve_fit sims experiments simulations mask scipy2 w2 = (w2', Ok (loc2, pcov2)) -> (forall l, heap w2 (op_par w2) <> IntArray l) ->
  List.length (elements (heap w1 (op_par w1))) = n -> List.length (elements (heap w2 (op_par w2))) = n ->
  op_residuals w1' = op_residuals w2' /\ norm_residuals w1' = norm_residuals w2'.
Proof.
  intros n sims experiments simulations mask scipy1 scipy2 w1 w2 w1' w2' loc1 loc2 pcov1 pcov2 M HT S1 L1 S2 L2 E1 N1 E2 N2 Ln1 Ln2.
  assert (M1 := C73_fit _ _ _ _ _ _ _ _ _ M S1 L1 ltac:(rewrite Ln1; exact HT) E1 N1). assert (M2 := C73_fit _ _ _ _ _ _ _ _ _ M S2 L2 ltac:(rewrite Ln2; exact HT) E2 N2).
  destruct (success_reports _ _ _ _ _ M S1 w1 w1' loc1 pcov1 E1 N1) as (-> & _ & popt1 & Es1 & H1 & _ & (r1 & R1 & Q1) & _).
  destruct (success_reports _ _ _ _ _ M S2 w2 w2' loc2 pcov2 E2 N2) as (-> & _ & popt2 & Es2 & H2 & _ & (r2 & R2 & Q2) & _).
  rewrite H1 in M1. rewrite H2 in M2.
  assert (RR := C73_same_residuals n _ HT _ _ ltac:(rewrite <- Ln1; exact (proj1 (S1 _ _ _ _ _ _ Es1))) ltac:(rewrite <- Ln2; exact (proj1 (S2 _ _ _ _ _ _ Es2))) M1 M2).
  rewrite Q1, Q2 in RR. injection RR as ->. split; [congruence|]. unfold norm_residuals. rewrite R1, R2. reflexivity.
Qed.
Print Assumptions C73_initial_values.

Lemma squares_zeros l : sum_squares l = 0 <-> zeros l.
Proof.
  unfold zeros, sum_squares. induction l as [|x l IH]; cbn -[pow].
  - split; [constructor|reflexivity].
  - assert (P := squares_pos l). unfold sum_squares in P. assert (Q := pow2_ge_0 x). split.
    + intro E. constructor; [nra|]. apply IH. nra.
    + intro F. inversion F; subst. rewrite (proj2 IH) by assumption. ring.
Qed.
(** Data that some parameters reproduce exactly are reproduced exactly by every fit. *)
Theorem C73_recovers : forall sims experiments simulations mask scipy w w' loc pcov p r, matching experiments simulations mask ->
  scipy_shapes scipy -> scipy_local scipy ->
  List.Forall (linear_in_parameters (List.length (elements (heap w (op_par w))))) (terms sims experiments simulations mask) ->
  List.length p = List.length (elements (heap w (op_par w))) -> all_residuals (terms sims experiments simulations mask) p = Ok r -> zeros r ->
  curve_fit sims experiments simulations mask scipy w = (w', Ok (loc, pcov)) -> (forall l, heap w (op_par w) <> IntArray l) ->
  op_residuals w' = Some r /\ norm_residuals w' = Ok 0.
Proof.
  intros sims experiments simulations mask scipy w w' loc pcov p r M HS HM HT Lp Er Z E NI.
  assert (MM := C73_fit _ _ _ _ _ _ _ _ _ M HS HM HT E NI).
  destruct (success_reports _ _ _ _ _ M HS w w' loc pcov E NI) as (-> & _ & popt & Es & H1 & _ & (r1 & R1 & Q1) & _).
  rewrite H1 in MM.
  assert (Lo := proj1 (HS _ _ _ _ _ _ Es)).
  assert (MP : minimiser (terms sims experiments simulations mask) p).
  { exists 0. rewrite (C41_squares _ _ _ Er), (proj2 (squares_zeros r) Z). split; [reflexivity|]. intros q v' Lq T.
    destruct (whole_residuals _ _ HT) as (res & ER & _). rewrite (C41_squares _ q _ (ER q ltac:(congruence))) in T. injection T as <-. apply squares_pos. }
  assert (RR := C73_same_residuals _ _ HT _ _ Lo Lp MM MP). rewrite Q1, Er in RR. injection RR as ->.
  split; [exact R1|]. unfold norm_residuals. rewrite R1. fold (sum_squares r). rewrite (proj2 (squares_zeros r) Z), sqrt_0. reflexivity.
Qed.
Print Assumptions C73_recovers.

(** The normal equations: a list of parameters is a minimiser exactly if its residuals are
    orthogonal to everything that can be simulated. *)
Theorem C73_normal_equations : forall n ts p r, List.Forall (linear_in_parameters n) ts -> List.length p = n -> all_residuals ts p = Ok r ->
  (minimiser ts p <-> forall q c, List.length q = n -> simulated ts q = Ok c -> inner r c = 0).
Proof.
  intros n ts p r H Lp Er. destruct (whole_simulated n ts H) as (cv & ES & E & HL & HA).
  assert (E' : forall q, List.length q = n -> all_residuals ts q = Ok (sub (cv q) (measured ts))).
  { intros q Lq. specialize (E (fun x => x) q Lq). rewrite redata_id, map_id in E. exact E. }
  rewrite E' in Er by exact Lp. injection Er as <-.
  assert (ST : forall t q, List.length q = n -> sum_squares (sub (cv (comb 1 p t q)) (measured ts)) =
     sum_squares (sub (cv p) (measured ts)) + 2 * t * inner (sub (cv p) (measured ts)) (cv q) + t ^ 2 * sum_squares (cv q)).
  { intros t q Lq. rewrite HA by auto. rewrite sub_comb by (apply HL; auto).
    rewrite squares_inner by (rewrite sub_length by (apply HL; auto); symmetry; apply HL; auto). ring. }
  split.
  - intros (v & Ev & Mv) q c Lq Ec. rewrite ES in Ec by exact Lq. injection Ec as <-.
    rewrite (C41_squares ts p _ (E' p Lp)) in Ev. injection Ev as <-.
    set (g := inner (sub (cv p) (measured ts)) (cv q)). set (k := sum_squares (cv q)).
    assert (Pk : 0 <= k) by apply squares_pos.
    assert (Q : forall t, 0 <= 2 * t * g + t ^ 2 * k).
    { intro t. assert (Lc : List.length (comb 1 p t q) = n) by (rewrite comb_length; congruence).
      assert (M := Mv (comb 1 p t q) _ ltac:(congruence) (C41_squares ts _ _ (E' _ Lc))). rewrite ST in M by exact Lq. fold g k in M. lra. }
    destruct (Req_dec g 0) as [Z|N]; [exact Z|exfalso].
    assert (X := Q (- g / (1 + k))). replace (2 * (- g / (1 + k)) * g + (- g / (1 + k)) ^ 2 * k) with (- (g ^ 2 * (2 + k) / (1 + k) ^ 2)) in X by (field; lra).
    assert (0 < g ^ 2 * (2 + k) / (1 + k) ^ 2); [|lra]. apply Rdiv_lt_0_compat; [|nra]. apply Rmult_lt_0_compat; [nra|lra].
  - intro O. exists (sum_squares (sub (cv p) (measured ts))). split; [exact (C41_squares ts p _ (E' p Lp))|].
    intros q v' Lq T. assert (Lq' : List.length q = n) by congruence. rewrite (C41_squares ts q _ (E' q Lq')) in T. injection T as <-.
    assert (Ld : List.length (comb 1 q (-1) p) = n) by (rewrite comb_length; congruence).
    rewrite <- (comb_diff p q ltac:(congruence)) at 1. rewrite ST by exact Ld. rewrite (O _ _ Ld (ES _ Ld)).
    assert (0 <= sum_squares (cv (comb 1 q (-1) p))) by apply squares_pos. lra.
Qed.
Print Assumptions C73_normal_equations.
(** One parameter: the fitted value in closed form. *)
Theorem C73_one_parameter : forall ts x c, List.Forall (linear_in_parameters 1) ts -> simulated ts [1] = Ok c -> sum_squares c <> 0 ->
  (minimiser ts [x] <-> x = inner c (measured ts) / sum_squares c).
Proof.
  intros ts x c H Ec N. destruct (whole_simulated 1 ts H) as (cv & ES & E & HL & HA).
  rewrite ES in Ec by reflexivity. injection Ec as <-.
  assert (CV : forall y, cv [y] = map (Rmult y) (cv [1])).
  { intro y. rewrite <- comb_scale, <- HA by reflexivity. f_equal. unfold comb. cbn. f_equal. ring. }
  assert (E' : all_residuals ts [x] = Ok (sub (cv [x]) (measured ts))).
  { specialize (E (fun x => x) [x] eq_refl). rewrite redata_id, map_id in E. exact E. }
  assert (IN : inner (sub (cv [x]) (measured ts)) (cv [1]) = x * sum_squares (cv [1]) - inner (cv [1]) (measured ts)).
  { rewrite inner_sub by (apply HL; reflexivity). rewrite CV, inner_scale, inner_self, (inner_comm (measured ts)). reflexivity. }
  rewrite (C73_normal_equations 1 ts [x] _ H eq_refl E'). split.
  - intro O. specialize (O [1] (cv [1]) eq_refl (ES [1] eq_refl)). rewrite IN in O. apply (Rmult_eq_reg_r (sum_squares (cv [1]))); [|exact N]. field_simplify; [lra|exact N].
  - intros Hx q c' Lq Ec'. destruct q as [|y [|? ?]]; cbn in Lq; try discriminate. rewrite ES in Ec' by reflexivity. injection Ec' as <-.
    rewrite (CV y), inner_comm, inner_scale, inner_comm, IN, Hx. field. exact N.
Qed.
Print Assumptions C73_one_parameter.

(** Another unit of force (or stress): the minimisers are scaled, ... *)
Lemma minimiser_units n a ts p : a <> 0 -> List.Forall (linear_in_parameters n) ts -> List.length p = n ->
  minimiser ts p -> minimiser (redata (Rmult a) ts) (map (Rmult a) p).
Proof.
  intros A H Lp (v & Ev & Mv). destruct (whole_simulated n ts H) as (cv & ES & E & HL & HA).
  assert (E1 : forall q, List.length q = n -> all_residuals ts q = Ok (sub (cv q) (data ts))).
  { intros q Lq. specialize (E (fun x => x) q Lq). rewrite redata_id, map_id in E. exact E. }
  assert (E2 : forall q, List.length q = n -> all_residuals (redata (Rmult a) ts) (map (Rmult a) q) = Ok (map (Rmult a) (sub (cv q) (data ts)))).
  { intros q Lq. rewrite (E (Rmult a) (map (Rmult a) q)) by (rewrite map_length; exact Lq). f_equal.
    rewrite <- (comb_scale a q), HA, comb_scale by auto. apply sub_scale. }
  rewrite (C41_squares _ _ _ (E1 p Lp)) in Ev. injection Ev as <-.
  exists (a ^ 2 * sum_squares (sub (cv p) (data ts))). split.
  - rewrite (C41_squares _ _ _ (E2 p Lp)), squares_scale. reflexivity.
  - intros q v' Lq T. rewrite map_length in Lq.
    assert (Q : q = map (Rmult a) (map (Rmult (/ a)) q)).
    { rewrite map_map. rewrite <- (map_id q) at 1. apply map_ext. intro x. field. exact A. }
    assert (Lq' : List.length (map (Rmult (/ a)) q) = n) by (rewrite map_length; congruence).
    rewrite Q in T. rewrite (C41_squares _ _ _ (E2 _ Lq')), squares_scale in T. injection T as <-.
    apply Rmult_le_compat_l; [nra|]. apply (Mv (map (Rmult (/ a)) q)); [congruence|]. exact (C41_squares _ _ _ (E1 _ Lq')).
Qed.
Theorem C73_units_parameters : forall a sims experiments simulations mask n p, a <> 0 -> List.length p = n ->
  List.Forall (linear_in_parameters n) (terms sims experiments simulations mask) ->
  (minimiser (terms sims experiments simulations mask) p <->
   minimiser (terms sims (map (in_units a) experiments) simulations mask) (map (Rmult a) p)).
Proof.
  intros a sims experiments simulations mask n p A Lp H. rewrite terms_units. split.
  - exact (minimiser_units n a _ p A H Lp).
  - intro M.
    assert (H' : List.Forall (linear_in_parameters n) (redata (Rmult a) (terms sims experiments simulations mask))).
    { clear - H. induction H as [|t l Ht _ IH]; constructor; [|exact IH]. unfold linear_in_parameters in *. cbn [fst snd]. rewrite map_map. exact Ht. }
    assert (A' : / a <> 0) by (apply Rinv_neq_0_compat; exact A).
    assert (X := minimiser_units n (/ a) _ _ A' H' ltac:(rewrite map_length; exact Lp) M).
    replace (redata (Rmult (/ a)) (redata (Rmult a) (terms sims experiments simulations mask))) with (terms sims experiments simulations mask) in X.
    2:{ rewrite <- (redata_id (terms sims experiments simulations mask)) at 1. unfold redata. rewrite map_map. apply map_ext. intros [s l]. cbn [fst snd]. f_equal.
        rewrite map_map. apply map_ext. intros [x y]. cbn [fst snd]. f_equal. field. exact A. }
    replace (map (Rmult (/ a)) (map (Rmult a) p)) with p in X; [exact X|].
    rewrite map_map. rewrite <- (map_id p) at 1. apply map_ext. intro x. field. exact A.
Qed.
Print Assumptions C73_units_parameters.
(** ... and so are the residuals which any two fits report. *)
Theorem C73_units : forall a n sims experiments simulations mask scipy1 scipy2 w1 w2 w1' w2' loc1 loc2 pcov1 pcov2 r, a <> 0 ->
  matching experiments simulations mask -> List.Forall (linear_in_parameters n) (terms sims experiments simulations mask) ->
  scipy_shapes scipy1 -> scipy_local scipy1 -> scipy_shapes scipy2 -> scipy_local scipy2 ->
  curve_fit sims experiments simulations mask scipy1 w1 = (w1', Ok (loc1, pcov1)) -> (forall l, heap w1 (op_par w1) <> IntArray l) ->
  curve_fit sims (map (in_units a) experiments) simulations mask scipy2 w2 = (w2', Ok (loc2, pcov2)) -> (forall l, heap w2 (op_par w2) <> IntArray l) ->
  List.length (elements (heap w1 (op_par w1))) = n -> List.length (elements (heap w2 (op_par w2))) = n ->
  op_residuals w1' = Some r -> op_residuals w2' = Some (map (Rmult a) r).
Proof.
  intros a n sims experiments simulations mask scipy1 scipy2 w1 w2 w1' w2' loc1 loc2 pcov1 pcov2 r A M HT S1 L1 S2 L2 E1 N1 E2 N2 Ln1 Ln2 Hr.
  assert (M' := matching_units a _ _ _ M).
  assert (HT' : List.Forall (linear_in_parameters n) (terms sims (map (in_units a) experiments) simulations mask)).
  { rewrite terms_units. clear - HT. induction HT as [|t l Ht _ IH]; constructor; [|exact IH]. unfold linear_in_parameters in *. cbn [fst snd]. rewrite map_map. exact Ht. }
  assert (M1 := C73_fit _ _ _ _ _ _ _ _ _ M S1 L1 ltac:(rewrite Ln1; exact HT) E1 N1). assert (M2 := C73_fit _ _ _ _ _ _ _ _ _ M' S2 L2 ltac:(rewrite Ln2; exact HT') E2 N2).
  destruct (success_reports _ _ _ _ _ M S1 w1 w1' loc1 pcov1 E1 N1) as (-> & _ & popt1 & Es1 & H1 & _ & (r1 & R1 & Q1) & _).
  destruct (success_reports _ _ _ _ _ M' S2 w2 w2' loc2 pcov2 E2 N2) as (-> & _ & popt2 & Es2 & H2 & _ & (r2 & R2 & Q2) & _).
  rewrite H1 in M1. rewrite H2 in M2. rewrite R1 in Hr. injection Hr as ->. rewrite R2. f_equal.
  assert (Lo1 : List.length popt1 = n) by (rewrite <- Ln1; exact (proj1 (S1 _ _ _ _ _ _ Es1))).
  assert (Lo2 : List.length popt2 = n) by (rewrite <- Ln2; exact (proj1 (S2 _ _ _ _ _ _ Es2))).
  apply (C73_units_parameters a _ _ _ _ n popt1 A Lo1 HT) in M1.
  assert (RR := C73_same_residuals n _ HT' _ _ Lo2 ltac:(rewrite map_length; exact Lo1) M2 M1). rewrite Q2 in RR.
  destruct (whole_simulated n _ HT) as (cv & ES & E & HL & HA).
  rewrite terms_units, (E (Rmult a) (map (Rmult a) popt1)) in RR by (rewrite map_length; exact Lo1). injection RR as ->.
  specialize (E (fun x => x) popt1 Lo1). rewrite redata_id, map_id, Q1 in E. injection E as ->.
  rewrite <- (comb_scale a popt1), HA, comb_scale by auto. apply sub_scale.
Qed.
Print Assumptions C73_units.

(** Passing all experiments twice changes nothing (for any materials). *)
Lemma total_app l1 l2 : total (l1 ++ l2) = total l1 + total l2.
Proof. unfold total. induction l1 as [|x l1 IH]; cbn; [ring|]. rewrite IH. ring. Qed.
Lemma map_r_app {A B} (f : A -> Result B) l1 l2 : map_r f (l1 ++ l2) = rbind (map_r f l1) (fun a => rbind (map_r f l2) (fun b => Ok (a ++ b))).
Proof.
  induction l1 as [|x l1 IH]; cbn [map_r app].
  - cbn [rbind]. destruct (map_r f l2); reflexivity.
  - destruct (f x) as [y|]; cbn [rbind]; [|reflexivity]. rewrite IH. destruct (map_r f l1) as [a|]; cbn [rbind]; [|reflexivity].
    destruct (map_r f l2); reflexivity.
Qed.
Theorem C73_repeated : forall ts p, minimiser (ts ++ ts) p <-> minimiser ts p.
Proof.
  assert (T : forall ts p, total_squares (ts ++ ts) p = match total_squares ts p with Ok v => Ok (2 * v) | Raise e => Raise e end).
  { intros ts p. unfold total_squares. rewrite map_r_app. destruct (map_r _ ts) as [l|e]; cbn [rbind]; [|reflexivity]. rewrite total_app. f_equal. ring. }
  intros ts p. split; intros (v & Ev & Mv).
  - rewrite T in Ev. destruct (total_squares ts p) as [u|] eqn:E; [|discriminate]. injection Ev as <-. exists u. split; [exact E|].
    intros q v' Lq Eq. assert (X := Mv q (2 * v') Lq). rewrite T, Eq in X. specialize (X eq_refl). lra.
  - exists (2 * v). rewrite T, Ev. split; [reflexivity|]. intros q v' Lq Eq. rewrite T in Eq. destruct (total_squares ts q) as [u|] eqn:E; [|discriminate].
    injection Eq as <-. assert (X := Mv q u Lq E). lra.
Qed.
Print Assumptions C73_repeated.

(** The hypotheses can be met: the fit of C41_example, and an Ogden material with two terms. *)
Example C73_case : List.Forall (linear_in_parameters 1) (terms (fun _ => sim_ex) [exp_ex] [0%nat] mask_ex) /\
  minimiser (terms (fun _ => sim_ex) [exp_ex] [0%nat] mask_ex) [1 / 2].
Proof.
  assert (H : List.Forall (linear_in_parameters 1) (terms (fun _ => sim_ex) [exp_ex] [0%nat] mask_ex)).
  { eapply Forall_impl; [|exact (proj1 C59_case)]. intros t Ht. apply C73_third_order_deformation; exact Ht. }
  split; [exact H|]. apply (C73_normal_equations 1 _ [1 / 2] _ H eq_refl (residuals_ex (1 / 2))).
  intros q c Lq _. replace (7 / 2 * (1 / 2) - 7 / 4) with 0 by field. unfold inner. destruct c as [|a [|b c]]; cbn; ring.
Qed.
Example C73_ogden_case lapack : lapack_legal lapack ->
  let names := ["mu1"; "mu2"]%string in
  let sim := {| si_loadcase := Uniaxial None; si_stretch := [1; 2]; si_labels := names; si_material := ogden_material KDistortional lapack names [2; -2] |} in
  linear_in_parameters 2 (sim, [(1, 0); (2, 5); (3, 7)]).
Proof.
  intros HL names sim. apply (C73_ogden KDistortional lapack [2; -2] sim); auto.
  - right; reflexivity.
  - unfold sim, names. cbn. repeat constructor; cbn; intuition discriminate.
  - cbn. intros e [<-|[<-|[]]]; lra.
  - cbn. intros x y I'. repeat (destruct I' as [I'|I']; [injection I' as <- _; lra|]). destruct I'.
Qed.
