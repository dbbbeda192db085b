(** * C50: what the plotting methods draw (lab/_plotting.py, Optimize.plot and the statistics shown).

    A [Canvas] is the list of all axes that exist; [target ax c k]: the plot goes to axes k, those
    passed as [ax] or those of a new figure (ax=None); [only_changed c c' k a]: axes k are now
    [a], all others are as before; [was c k]: axes k before (empty if new). *)
From Coq Require Import Reals List String ZArith Bool Lra Lia Arith.
From Verif Require Import Tensor Py Models Lab LabSpec LabFit LabMech LabCurves LabPlot LabPlotProofs.
Import ListNotations.
Local Open Scope R_scope.

(** [before] with one more line. *)
Definition one_more_line (before after : Axes) (pts : list (R * R)) (style : list string) (label : string) (lw : option R)
    (xlabel ylabel : string) : Prop :=
  (exists l, ax_lines after = ax_lines before ++ [l] /\ line_points l = pts /\ List.length (ln_x l) = List.length pts /\
     ln_style l = style /\ ln_label l = label /\ ln_width l = lw) /\
  ax_xlabel after = xlabel /\ ax_ylabel after = ylabel /\
  ax_legend after = ax_legend before /\ ax_texts after = ax_texts before /\ ax_title after = ax_title before.
Lemma one_more a x y style label lw xl yl : List.length x = List.length y ->
  one_more_line a {| ax_lines := ax_lines a ++ [{| ln_x := x; ln_y := y; ln_style := style; ln_label := label; ln_width := lw |}];
       ax_xlabel := xl; ax_ylabel := yl; ax_legend := ax_legend a; ax_texts := ax_texts a; ax_title := ax_title a |} (combine x y) style label lw xl yl.
Proof.
  intro L. split; [|repeat split]. eexists. split; [reflexivity|]. cbn. rewrite combine_length, <- L, Nat.min_id. repeat split.
Qed.

(** Experiment.plot_stress_stretch: all measured points. *)
Theorem C50_experiment_curve : forall e pts style xl yl ax label lw c k, well_formed e -> points e = Ok pts -> target ax c k ->
  exists c' a, experiment_stress_stretch e style xl yl ax label lw c = (c', Ok k) /\ only_changed c c' k a /\
    one_more_line (was c k) a pts style (default_label (ex_label e) label) lw xl yl.
Proof.
  intros e pts style xl yl ax label lw c k We Ep T. unfold points in Ep. destruct (experiment_stress e) as [s|] eqn:Es; [|discriminate].
  injection Ep as <-. pose proof (experiment_stress_length e s We Es) as L.
  destruct (lab_plot_ok (ex_stretch e) s (ex_label e) style xl yl ax label lw c k (eq_sym L) T) as (c' & E & O).
  exists c'. eexists. split; [unfold experiment_stress_stretch; rewrite Es; exact E|]. split; [exact O|]. apply one_more. congruence.
Qed.
Print Assumptions C50_experiment_curve.
(** Simulation.plot_stress_stretch: the stress at the parameters the Simulation has at this moment,
    at the stretches given to its constructor; the default label is that of the load case. *)
Theorem C50_simulation_curve : forall sims w i s style xl yl ax label lw c k,
  stress_curve_fit (sims i) (si_stretch (sims i)) (elements (heap w (sim_par w i))) = Ok s -> target ax c k ->
  exists c' a, simulation_stress_stretch sims w i style xl yl ax label lw c = (c', Ok k) /\ only_changed c c' k a /\
    one_more_line (was c k) a (combine (si_stretch (sims i)) s) style (default_label (lc_label (si_loadcase (sims i))) label) lw xl yl.
Proof.
  intros sims w i s style xl yl ax label lw c k Es T. pose proof (curve_length _ _ _ _ Es) as L.
  destruct (lab_plot_ok (si_stretch (sims i)) s (lc_label (si_loadcase (sims i))) style xl yl ax label lw c k (eq_sym L) T) as (c' & E & O).
  exists c'. eexists. split; [unfold simulation_stress_stretch, simulation_stress; rewrite Es; exact E|]. split; [exact O|]. apply one_more. congruence.
Qed.
Print Assumptions C50_simulation_curve.
(** plot_force_displacement of an Experiment; of a Simulation, inherited from the same class, it
    raises AttributeError for every Simulation (there is no displacement), leaving an empty figure if
    no axes were given. *)
Theorem C50_force_displacement : forall e d f style xl yl ax label lw c k,
  displacement e = NdArray d -> ex_force e = NdArray f -> List.length d = List.length f -> target ax c k ->
  exists c' a, experiment_force_displacement e style xl yl ax label lw c = (c', Ok k) /\ only_changed c c' k a /\
    one_more_line (was c k) a (combine d f) style (default_label (ex_label e) label) lw xl yl.
Proof.
  intros e d f style xl yl ax label lw c k Hd Hf L T.
  destruct (lab_plot_ok d f (ex_label e) style xl yl ax label lw c k L T) as (c' & E & O).
  exists c'. eexists. split; [unfold experiment_force_displacement; rewrite Hd, Hf; exact E|]. split; [exact O|]. apply one_more. exact L.
Qed.
Print Assumptions C50_force_displacement.
Theorem C50_force_displacement_refuted : forall sims i style xl yl ax label lw c,
  simulation_force_displacement sims i style xl yl ax label lw c =
  (match ax with None => c ++ [empty_axes] | Some _ => c end, Raise AttributeError).
Proof. intros. apply lab_plot_raises. left. reflexivity. Qed.
Print Assumptions C50_force_displacement_refuted.
(** An Experiment with more forces than displacements (or fewer) can be constructed but not
    plotted: ValueError; no line is drawn. *)
Theorem C50_unequal_data : forall label d f area length style xl yl ax lb lw c e, List.length d <> List.length f ->
  experiment_init label (NdArray d) (NdArray f) area length = Ok e ->
  experiment_stress_stretch e style xl yl ax lb lw c = (opened ax c, Raise ValueError) /\
  experiment_force_displacement e style xl yl ax lb lw c = (opened ax c, Raise ValueError).
Proof.
  intros label d f area length style xl yl ax lb lw c e N E. injection E as <-. split; apply lab_plot_raises; right; right.
  - do 2 eexists. split; [reflexivity|]. split; [reflexivity|]. split; [|reflexivity]. cbn. rewrite !map_length. exact N.
  - do 2 eexists. split; [reflexivity|]. split; [reflexivity|]. split; [|reflexivity]. exact N.
Qed.
Print Assumptions C50_unequal_data.

(** ** Optimize.plot after a successful curve_fit (of [w], with result [w'] and [pcov]): one new
    figure; for the j-th pair two lines, the simulation at the fitted parameters and the
    experiment (all its points, also those not selected by the mask), in the same colour; the text
    shows the fitted parameters named by the labels of the last simulation, plus/minus twice the
    standard deviation, the mean relative standard deviation (described by C50_mean_relative_std
    below) and the norm of the residuals of the selected points. *)
Theorem C50_optimize_plot : forall sims experiments simulations mask scipy w w' loc pcov title c last,
  matching experiments simulations mask -> scipy_shapes scipy ->
  curve_fit sims experiments simulations mask scipy w = (w', Ok (loc, pcov)) -> (forall l, heap w (op_par w) <> IntArray l) ->
  (forall i, In i simulations -> exists s, stress_curve_fit (sims i) (si_stretch (sims i)) (elements (heap w' loc)) = Ok s) ->
  nth_error simulations (List.length simulations - 1) = Some last ->
  exists a t v, optimize_plot sims experiments simulations w' title c = (c ++ [a], Ok (List.length c)) /\
    List.length (ax_lines a) = (2 * List.length experiments)%nat /\
    (forall j i e s pts, nth_error simulations j = Some i -> nth_error experiments j = Some e ->
       stress_curve_fit (sims i) (si_stretch (sims i)) (elements (heap w' loc)) = Ok s -> points e = Ok pts ->
       exists l1 l2, nth_error (ax_lines a) (2 * j) = Some l1 /\ nth_error (ax_lines a) (2 * j + 1) = Some l2 /\
         line_points l1 = combine (si_stretch (sims i)) s /\ ln_label l1 = ex_label e /\
         line_points l2 = pts /\ ln_label l2 = (ex_label e ++ " (Experiment)")%string /\
         ln_style l1 = [color j] /\ ln_style l2 = [color j]) /\
    ax_xlabel a = "Stretch $l/L$"%string /\ ax_ylabel a = "Force per undeformed area $F/A$"%string /\ ax_legend a = true /\
    ax_title a = title /\ ax_texts a = [t] /\ mean_relative_std_of w' = Ok (tx_std t) /\
    (forall j n p e, nth_error (si_labels (sims last)) j = Some n -> nth_error (elements (heap w' loc)) j = Some p ->
       nth_error (np_diag pcov) j = Some e -> nth_error (tx_params t) j = Some (n, p, ext_scale 2 (sqrt_ext e))) /\
    List.length (tx_params t) = Nat.min (List.length (si_labels (sims last))) (List.length (elements (heap w' loc))) /\
    total_squares (terms sims experiments simulations mask) (elements (heap w' loc)) = Ok v /\ tx_norm t = sqrt v.
Proof.
  intros sims experiments simulations mask scipy w w' loc pcov title c last M HS E NI Hs Hl.
  destruct (norm_reports sims experiments simulations mask scipy M HS w w' loc pcov E NI) as (v & Ev & En).
  destruct (success_reports sims experiments simulations mask scipy M HS w w' loc pcov E NI) as (-> & B & popt & Es & Ep & Sim & _ & Ee & _).
  destruct (HS _ _ _ _ _ _ Es) as [Lp Lc]. destruct M as (Ne & Ls & Lm & Wf & _).
  assert (D : List.Forall (drawable sims w') (combine simulations experiments)).
  { apply List.Forall_forall. intros [i e] I. split; cbn [fst snd].
    - pose proof (in_combine_l _ _ _ _ I) as Ii. destruct (Sim i Ii) as [_ ->]. rewrite <- Ep. exact (Hs i Ii).
    - apply in_combine_r in I. exact (proj1 (List.Forall_forall _ _) Wf e I). }
  assert (LS : last_simulation experiments simulations = Some last).
  { destruct experiments as [|e0 es]; [congruence|]. cbn [List.length] in Ls. rewrite Ls in Hl. cbn [Nat.sub] in Hl. rewrite Nat.sub_0_r in Hl.
    rewrite (last_simulation_nth (e0 :: es) simulations (List.length es)); auto. }
  assert (Dl : forall rows i, List.length (diag_from i rows) = List.length rows).
  { induction rows as [|r rows IH]; intro i; [reflexivity|]. cbn. rewrite IH. reflexivity. }
  assert (Ed : exists std, mean_relative_std_of w' = Ok std).
  { unfold mean_relative_std_of. rewrite Ee. unfold broadcast1. rewrite B, Ep, map_length. unfold np_diag. rewrite Dl, Lc, Lp, Nat.eqb_refl. cbn. eauto. }
  destruct Ed as [std Ed].
  destruct (plot_ok sims experiments simulations w' title c _ last _ _ D LS Ee En Ed) as (a & Ea & EL & EX & EY & EG & ET & ETi).
  exists a. eexists. exists v. split; [exact Ea|]. split.
  { rewrite EL, pair_lines_length, combine_length, Ls, Nat.min_id. reflexivity. }
  split.
  { intros j i e s pts Hi He Hst Hpt.
    assert (Hc : nth_error (combine simulations experiments) j = Some (i, e)).
    { clear - Hi He. revert simulations experiments Hi He. induction j as [|j IH]; intros [|x xs] [|y ys] H1 H2; try discriminate.
      - cbn in *. congruence. - cbn in *. apply IH; assumption. }
    destruct (pair_lines_nth sims w' _ 0%nat j i e Hc) as [A1 A2]. rewrite <- EL in A1, A2. do 2 eexists. split; [exact A1|]. split; [exact A2|].
    assert (Ii : In i simulations) by (eapply nth_error_In; exact Hi). destruct (Sim i Ii) as [_ ->].
    rewrite <- Ep, Hst. unfold points in Hpt. destruct (experiment_stress e) as [z|]; [|discriminate]. injection Hpt as <-.
    unfold line_points. cbn. repeat split. }
  split; [exact EX|]. split; [exact EY|]. split; [exact EG|]. split; [exact ETi|]. split; [exact ET|]. split; [exact Ed|]. cbn [tx_params tx_norm].
  split.
  { rewrite B. intros j n p e Hn Hp He. unfold zip3.
    assert (Z : forall A B C (x : list A) (y : list B) (z : list C) j u v q, nth_error x j = Some u -> nth_error y j = Some v -> nth_error z j = Some q ->
      nth_error (combine (combine x y) z) j = Some (u, v, q)).
    { clear. intros A B C x y z j. revert x y z. induction j as [|j IH]; intros [|x xs] [|y ys] [|z zs] u v q H1 H2 H3; try discriminate.
      - cbn in *. congruence. - cbn in *. apply IH; assumption. }
    rewrite nth_error_map. rewrite (Z _ _ _ _ _ _ j n p (sqrt_ext e) Hn Hp) by (rewrite nth_error_map, He; reflexivity). reflexivity. }
  split.
  { unfold zip3. rewrite map_length, !combine_length, map_length. unfold np_diag. rewrite Dl, Lc, B, Ep. rewrite Lp. lia. }
  split; [exact Ev|reflexivity].
Qed.
Print Assumptions C50_optimize_plot.

(** Optimize.plot before any fit raises although all curves could be drawn: AttributeError, because
    errors and residuals do not exist yet; with no simulation or no experiment UnboundLocalError.  A
    figure with the curves and without the text stays. *)
Theorem C50_plot_before_fit : forall sims experiments simulations w title c,
  List.Forall well_formed experiments ->
  (forall i, In i simulations -> exists s, stress_curve_fit (sims i) (si_stretch (sims i)) (elements (heap w (sim_par w i))) = Ok s) ->
  op_errors w = None \/ simulations = [] \/ experiments = [] ->
  exists a, optimize_plot sims experiments simulations w title c =
      (c ++ [a], Raise (match simulations, experiments with _ :: _, _ :: _ => AttributeError | _, _ => UnboundLocalError end)) /\
    List.length (ax_lines a) = (2 * Nat.min (List.length simulations) (List.length experiments))%nat /\ ax_texts a = [] /\ ax_title a = None.
Proof.
  intros sims experiments simulations w title c Wf Hs H.
  assert (D : List.Forall (drawable sims w) (combine simulations experiments)).
  { apply List.Forall_forall. intros [i e] I. split; cbn [fst snd].
    - apply in_combine_l in I. exact (Hs i I).
    - apply in_combine_r in I. exact (proj1 (List.Forall_forall _ _) Wf e I). }
  destruct (plot_no_fit sims experiments simulations w title c D) as (a & Ea & EL & _ & ET & ETi).
  { destruct H as [H|[->| ->]]; [left; exact H|right; reflexivity|right; apply combine_nil]. }
  exists a. rewrite Ea, EL, pair_lines_length, combine_length. split; [|auto]. destruct simulations, experiments; reflexivity.
Qed.
Print Assumptions C50_plot_before_fit.

(** Optimize.mean_relative_std: the mean of 100 * error / |parameter|; nan as soon as one error is
    nan (in particular before the fit is done or after it raised: C43); inf when the
    covariance could not be estimated (scipy returns inf). *)
Theorem C50_mean_relative_std : forall w es ps, op_errors w = Some (map Fin es) -> elements (heap w (op_par w)) = ps -> ps <> [] ->
  List.length es = List.length ps -> List.Forall (fun p => p <> 0) ps ->
  mean_relative_std_of w = Ok (Fin (total (map (fun q => 100 * (fst q / Rabs (snd q))) (combine es ps)) / INR (List.length ps))).
Proof.
  intros w es ps Ee <- Ne L N. set (ps := elements (heap w (op_par w))) in *. unfold mean_relative_std_of. rewrite Ee. fold ps. unfold broadcast1. rewrite map_length, L, Nat.eqb_refl.
  cbn [rbind]. rewrite std_finite by assumption. f_equal. rewrite ext_mean_fin.
  2: { destruct es, ps; try discriminate. congruence. }
  rewrite map_length, combine_length, L, Nat.min_id. cbn [ext_scale]. f_equal.
  assert (T : forall l, total (map (fun q => 100 * (fst q / Rabs (snd q))) l) = 100 * total (map (fun q => fst q / Rabs (snd q)) l)).
  { induction l as [|q l IH]; unfold total in *; cbn [map fold_right] in *; [lra|]. rewrite IH. ring. }
  rewrite T. unfold Rdiv. ring.
Qed.
Print Assumptions C50_mean_relative_std.
Theorem C50_mean_relative_std_undefined : forall w e, 
  (op_errors w = None -> mean_relative_std_of w = Raise AttributeError) /\
  (op_errors w = Some e -> List.length e = List.length (elements (heap w (op_par w))) ->
     (In NaN e -> mean_relative_std_of w = Ok NaN) /\
     (e <> [] -> List.Forall (fun x => x = Inf) e -> mean_relative_std_of w = Ok Inf)).
Proof.
  intros w e. split; intro He; unfold mean_relative_std_of; rewrite He; [reflexivity|]. intro L.
  unfold broadcast1. rewrite L, Nat.eqb_refl. cbn [rbind]. set (ps := elements (heap w (op_par w))) in *. clearbody ps. split.
  - intro I. f_equal. rewrite ext_mean_nan; [reflexivity|]. clear He. revert ps L I. induction e as [|x e IH]; intros [|p ps] L I; try discriminate; [destruct I|].
    cbn in L |- *. destruct I as [->|I]; [left; reflexivity|right]. apply IH; [lia|assumption].
  - intros Ne I.
    assert (Q : map (fun p => ext_div_abs (fst p) (snd p)) (combine e ps) = e).
    { clear He Ne. revert ps L I. induction e as [|x e IH]; intros [|p ps] L I; try discriminate; [reflexivity|]. apply List.Forall_cons_iff in I. destruct I as [-> I]. cbn. rewrite IH; [reflexivity|cbn in L; lia|assumption]. }
    rewrite Q. unfold ext_mean. destruct e as [|x e]; [congruence|]. rewrite ext_sum_inf; [reflexivity| |].
    + left. apply List.Forall_cons_iff in I. destruct I as [-> _]. reflexivity.
    + intro Z. apply (proj1 (List.Forall_forall _ _) I) in Z. discriminate.
Qed.
Print Assumptions C50_mean_relative_std_undefined.

(** ** Examples *)
Example C50_example_fit : exists w' a, curve_fit (fun _ => sim_ex) [exp_ex] [0%nat] mask_ex scipy_ex (world_ex (ListObj [3])) = (w', Ok (0%nat, [[Fin 4]])) /\
  optimize_plot (fun _ => sim_ex) [exp_ex] [0%nat] w' None [] = ([a], Ok 0%nat) /\ List.length (ax_lines a) = 2%nat /\
  exists t, ax_texts a = [t] /\ List.length (tx_params t) = 1%nat.
Proof.
  destruct (fit_ex (ListObj [3]) 3 eq_refl Logic.I) as (w' & E). exists w'.
  assert (NI : forall l, heap (world_ex (ListObj [3])) (op_par (world_ex (ListObj [3]))) <> IntArray l) by (intro; discriminate).
  assert (L1 : exists p, elements (heap w' 0%nat) = [p]).
  { destruct (success_reports _ _ _ _ _ matching_ex scipy_ex_shapes _ _ _ _ E NI) as (_ & _ & popt & Es & Ep & _). destruct (scipy_ex_shapes _ _ _ _ _ _ Es) as [Lp _].
    cbn in Lp. cbn [world_ex op_par] in Ep. rewrite Ep. destruct popt as [|p [|]]; try discriminate. eauto. }
  destruct L1 as [p Lp].
  destruct (C50_optimize_plot (fun _ => sim_ex) [exp_ex] [0%nat] mask_ex scipy_ex _ w' 0%nat [[Fin 4]] None [] 0%nat matching_ex scipy_ex_shapes E NI) as (a & t & v & A1 & A2 & _ & _ & _ & _ & _ & A3 & _ & _ & A4 & _).
  - intros i _. rewrite Lp. eexists. apply sim_ex_stress. intros x [<-|[<-|[]]]; lra.
  - reflexivity.
  - exists a. split; [exact E|]. split; [exact A1|]. split; [exact A2|]. exists t. split; [exact A3|]. rewrite A4, Lp. reflexivity.
Qed.
Example C50_example_std : mean_relative_std_of {| heap := fun _ => FloatArray [2; -4]; sim_par := fun i => i; op_par := 0%nat; op_f := None; op_x := None; op_y := None;
    op_errors := Some [Fin 1; Fin 1]; op_residuals := None |} = Ok (Fin (75 / 2)).
Proof.
  rewrite (C50_mean_relative_std _ [1; 1] [2; -4]); cbn; try reflexivity; try discriminate.
  - f_equal. f_equal. rewrite (Rabs_right 2), (Rabs_left (-4)) by lra. field.
  - repeat constructor; lra.
Qed.
