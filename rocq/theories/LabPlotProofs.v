(** * Proofs about LabPlot.v. *)
From Coq Require Import Reals List String ZArith Bool Lra Lia Arith DecimalString.
From Verif Require Import Tensor Py Lab LabSpec LabFit LabPlot.
Import ListNotations.
Local Open Scope R_scope.

(** ** Specification *)
(** The axes that a plot goes to: the given ones, or those of a new figure. *)
Definition target (ax : option nat) (c : Canvas) (k : nat) : Prop :=
  match ax with None => k = List.length c | Some j => (j < List.length c)%nat /\ k = j end.
(** Only axes [k] changed (or were created): they are now [a]. *)
Definition only_changed (c c' : Canvas) (k : nat) (a : Axes) : Prop :=
  nth_error c' k = Some a /\ forall j, j <> k -> nth_error c' j = nth_error c j.
(** The axes before the plot; a new figure is empty. *)
Definition was (c : Canvas) (k : nat) : Axes := nth k c empty_axes.
(** The points of a line. *)
Definition line_points (l : Line) : list (R * R) := combine (ln_x l) (ln_y l).
Definition default_label (own : string) (label : option string) : string :=
  match label with None => own | Some l => l end.

Lemma upd_axes_nth k f c j : nth_error (upd_axes k f c) j = if Nat.eqb j k then option_map f (nth_error c j) else nth_error c j.
Proof.
  revert k j. induction c as [|a c IH]; intros k j.
  - destruct k, j; cbn; try reflexivity. destruct (Nat.eqb j k); reflexivity.
  - destruct k, j; cbn; try reflexivity. apply IH.
Qed.
Lemma upd_axes_length k f c : List.length (upd_axes k f c) = List.length c.
Proof. revert k. induction c as [|a c IH]; intros [|k]; cbn; auto. Qed.
Lemma upd_axes_last c a f : upd_axes (List.length c) f (c ++ [a]) = c ++ [f a].
Proof. induction c as [|b c IH]; cbn; [reflexivity|]. rewrite IH. reflexivity. Qed.

Lemma map_r_length {A B} (f : A -> Result B) l r : map_r f l = Ok r -> List.length r = List.length l.
Proof.
  revert r. induction l as [|a l IH]; cbn; intros r E; [injection E as <-; reflexivity|].
  destruct (f a); cbn in E; [|discriminate]. destruct (map_r f l) as [bs|]; cbn in E; [|discriminate]. injection E as <-. cbn. rewrite (IH bs eq_refl). reflexivity.
Qed.
Lemma curve_length sim x p s : stress_curve_fit sim x p = Ok s -> List.length s = List.length x.
Proof.
  unfold stress_curve_fit. destruct (si_material sim _); cbn; [|discriminate]. apply map_r_length.
Qed.
Lemma experiment_stress_length e s : well_formed e -> experiment_stress e = Ok s -> List.length s = List.length (ex_stretch e).
Proof.
  intros (d & f & Hd & Hf & L1 & L2) E. unfold experiment_stress, div_data in E. rewrite Hf in E. injection E as <-. rewrite map_length. congruence.
Qed.
Lemma experiment_stress_ok e : well_formed e -> exists s, experiment_stress e = Ok s.
Proof. intros (d & f & Hd & Hf & L1 & L2). unfold experiment_stress, div_data. rewrite Hf. eauto. Qed.

(** ** LabPlotter *)
Lemma lab_plot_ok x y own style xl yl ax label lw c k : List.length x = List.length y -> target ax c k ->
  exists c', lab_plot (Ok x) (Ok y) own style xl yl ax label lw c = (c', Ok k) /\
    only_changed c c' k {| ax_lines := ax_lines (was c k) ++ [{| ln_x := x; ln_y := y; ln_style := style; ln_label := default_label own label; ln_width := lw |}];
       ax_xlabel := xl; ax_ylabel := yl; ax_legend := ax_legend (was c k); ax_texts := ax_texts (was c k); ax_title := ax_title (was c k) |}.
Proof.
  intros L T. unfold lab_plot, ax_plot, subplots, bind, lift, ret, on_axes. apply Nat.eqb_eq in L.
  destruct ax as [j|]; cbn [target] in T.
  - destruct T as [Lj ->]. cbn [ln_x ln_y]. rewrite L. eexists. split; [reflexivity|]. split.
    + rewrite !upd_axes_nth, Nat.eqb_refl. destruct (nth_error c j) as [a|] eqn:E; [|apply nth_error_None in E; lia].
      assert (Wa : was c j = a) by (unfold was; now apply nth_error_nth). rewrite Wa. reflexivity.
    + intros i N. apply Nat.eqb_neq in N. rewrite !upd_axes_nth, N. reflexivity.
  - subst k. cbn [ln_x ln_y]. rewrite L. eexists. split; [reflexivity|].
    rewrite !upd_axes_last. unfold only_changed, was. rewrite nth_overflow by lia. split.
    + rewrite nth_error_app2, Nat.sub_diag by lia. reflexivity.
    + intros i N. destruct (Nat.lt_ge_cases i (List.length c)) as [Li|Li].
      * now rewrite nth_error_app1.
      * rewrite (proj2 (nth_error_None c i)) by lia. apply nth_error_None. rewrite app_length. cbn. lia.
Qed.
(** When the data cannot be read, or x and y have different lengths: nothing is drawn, but a new figure stays. *)
Definition opened (ax : option nat) (c : Canvas) : Canvas := match ax with None => c ++ [empty_axes] | Some _ => c end.
Lemma lab_plot_raises x y own style xl yl ax label lw c e :
  x = Raise e \/ (exists a, x = Ok a /\ y = Raise e) \/ (exists a b, x = Ok a /\ y = Ok b /\ List.length a <> List.length b /\ e = ValueError) ->
  lab_plot x y own style xl yl ax label lw c = (opened ax c, Raise e).
Proof.
  intros [->|[(a & -> & ->)|(a & b & -> & -> & N & ->)]]; unfold lab_plot, ax_plot, subplots, bind, ret, lift; destruct ax; cbn [ln_x ln_y opened]; try reflexivity;
    apply Nat.eqb_neq in N; rewrite N; reflexivity.
Qed.

(** ** Optimize.plot *)
Definition sim_line (i : nat) (sims : nat -> SimStatic) (s : nat) (e : Experiment) (y : list R) : Line :=
  {| ln_x := si_stretch (sims s); ln_y := y; ln_style := [color i]; ln_label := ex_label e; ln_width := Some 3 |}.
Definition exp_line (i : nat) (e : Experiment) (y : list R) : Line :=
  {| ln_x := ex_stretch e; ln_y := y; ln_style := [color i]; ln_label := (ex_label e ++ " (Experiment)")%string; ln_width := Some (7 / 10) |}.
Definition ok_or {A} (d : A) (r : Result A) : A := match r with Ok a => a | Raise _ => d end.
Fixpoint pair_lines sims w (i : nat) (l : list (nat * Experiment)) : list Line :=
  match l with
  | [] => []
  | (s, e) :: l => sim_line i sims s e (ok_or [] (simulation_stress sims w s)) :: exp_line i e (ok_or [] (experiment_stress e)) :: pair_lines sims w (S i) l
  end.
Definition drawable sims w (p : nat * Experiment) : Prop :=
  (exists y, simulation_stress sims w (fst p) = Ok y) /\ well_formed (snd p).

Lemma lab_plot_last x y own style xl yl label lw c a : List.length x = List.length y ->
  lab_plot (Ok x) (Ok y) own style xl yl (Some (List.length c)) label lw (c ++ [a]) =
  (c ++ [{| ax_lines := ax_lines a ++ [{| ln_x := x; ln_y := y; ln_style := style; ln_label := default_label own label; ln_width := lw |}];
       ax_xlabel := xl; ax_ylabel := yl; ax_legend := ax_legend a; ax_texts := ax_texts a; ax_title := ax_title a |}], Ok (List.length c)).
Proof.
  intros L. unfold lab_plot, ax_plot, bind, ret, lift, on_axes. cbn [ln_x ln_y]. apply Nat.eqb_eq in L. rewrite L.
  rewrite !upd_axes_last. reflexivity.
Qed.
Lemma plot_pairs_ok sims w l : forall i c a, List.Forall (drawable sims w) l -> 
  exists a', plot_pairs sims w i l (List.length c) (c ++ [a]) = (c ++ [a'], Ok (List.length c)) /\
    ax_lines a' = ax_lines a ++ pair_lines sims w i l /\
    (l <> [] -> ax_xlabel a' = stretch_label /\ ax_ylabel a' = stress_label) /\
    ax_legend a' = ax_legend a /\ ax_texts a' = ax_texts a /\ ax_title a' = ax_title a.
Proof.
  induction l as [|[s e] l IH]; intros i c a D.
  - exists a. cbn. rewrite app_nil_r. repeat split; congruence.
  - apply List.Forall_cons_iff in D. destruct D as [[(y & Ey) We] D]. cbn [fst snd] in Ey, We.
    destruct (experiment_stress_ok e We) as (z & Ez). pose proof (experiment_stress_length e z We Ez) as Lz.
    pose proof Ey as Ly. unfold simulation_stress in Ly. apply curve_length in Ly.
    set (a1 := {| ax_lines := ax_lines a ++ [sim_line i sims s e y]; ax_xlabel := stretch_label; ax_ylabel := stress_label; ax_legend := ax_legend a; ax_texts := ax_texts a; ax_title := ax_title a |}).
    set (a2 := {| ax_lines := ax_lines a1 ++ [exp_line i e z]; ax_xlabel := stretch_label; ax_ylabel := stress_label; ax_legend := ax_legend a; ax_texts := ax_texts a; ax_title := ax_title a |}).
    destruct (IH (S i) c a2 D) as (a' & E & EL & EX & R1 & R2 & R3). exists a'. cbn [plot_pairs].
    unfold bind at 1. unfold simulation_stress_stretch. rewrite Ey, lab_plot_last by congruence.
    cbn [default_label]. fold (sim_line i sims s e y). fold a1.
    unfold bind at 1. unfold experiment_stress_stretch. rewrite Ez, lab_plot_last by congruence.
    cbn [default_label]. fold (exp_line i e z). change (ax_legend a1) with (ax_legend a). change (ax_texts a1) with (ax_texts a). change (ax_title a1) with (ax_title a). fold a2.
    split; [exact E|]. split.
    { rewrite EL. cbn [pair_lines]. rewrite Ey, Ez. cbn [ok_or]. subst a2 a1. cbn [ax_lines]. rewrite <- !app_assoc. reflexivity. }
    split; [|repeat split; assumption]. intros _. destruct l as [|p l].
    + cbn in E. apply (f_equal fst) in E. cbn in E. apply app_inj_tail in E. destruct E as [_ <-]. split; reflexivity.
    + apply EX. discriminate.
Qed.
Lemma pair_lines_nth sims w l : forall i j s e, nth_error l j = Some (s, e) ->
  nth_error (pair_lines sims w i l) (2 * j) = Some (sim_line (i + j) sims s e (ok_or [] (simulation_stress sims w s))) /\
  nth_error (pair_lines sims w i l) (2 * j + 1) = Some (exp_line (i + j) e (ok_or [] (experiment_stress e))).
Proof.
  induction l as [|[s0 e0] l IH]; intros i j s e E; [destruct j; discriminate|]. destruct j as [|j].
  - injection E as -> ->. rewrite Nat.add_0_r. split; reflexivity.
  - cbn [nth_error] in E. destruct (IH (S i) j s e E) as [A B].
    replace (2 * S j)%nat with (S (S (2 * j))) by lia. replace (S (S (2 * j)) + 1)%nat with (S (S (2 * j + 1))) by lia.
    replace (i + S j)%nat with (S i + j)%nat by lia. cbn [pair_lines nth_error]. split; assumption.
Qed.
Lemma pair_lines_length sims w l : forall i, List.length (pair_lines sims w i l) = (2 * List.length l)%nat.
Proof. induction l as [|[s e] l IH]; intro i; [reflexivity|]. cbn [pair_lines List.length]. rewrite IH. lia. Qed.

Lemma plot_ok sims experiments simulations w title c errors s norm std :
  List.Forall (drawable sims w) (combine simulations experiments) ->
  last_simulation experiments simulations = Some s ->
  op_errors w = Some errors -> norm_residuals w = Ok norm -> mean_relative_std_of w = Ok std ->
  exists a, optimize_plot sims experiments simulations w title c = (c ++ [a], Ok (List.length c)) /\
    ax_lines a = pair_lines sims w 0 (combine simulations experiments) /\
    ax_xlabel a = stretch_label /\ ax_ylabel a = stress_label /\ ax_legend a = true /\
    ax_texts a = [{| tx_params := map (fun x => (fst x, ext_scale 2 (snd x))) (zip3 (si_labels (sims s)) (elements (heap w (op_par w))) errors);
                     tx_norm := norm; tx_std := std |}] /\ ax_title a = title.
Proof.
  intros D Ls Ee En Es. unfold optimize_plot. unfold bind at 1, subplots.
  destruct (plot_pairs_ok sims w _ 0%nat c empty_axes D) as (a' & E & EL & EX & R1 & R2 & R3).
  unfold bind at 1. rewrite E. rewrite Ls, Ee, En, Es. unfold bind, on_axes, local, attr, ret, lift. rewrite !upd_axes_last.
  assert (NE : combine simulations experiments <> []).
  { intro Z. unfold last_simulation in Ls. rewrite Z in Ls. discriminate. }
  destruct (EX NE) as [X1 X2].
  destruct title as [t|]; rewrite ?upd_axes_last; eexists; (split; [reflexivity|]); cbn; rewrite EL, R2, ?R3, X1, X2; repeat split.
Qed.
Lemma plot_no_fit sims experiments simulations w title c :
  List.Forall (drawable sims w) (combine simulations experiments) -> op_errors w = None \/ combine simulations experiments = [] ->
  exists a, optimize_plot sims experiments simulations w title c =
    (c ++ [a], Raise (if match combine simulations experiments with [] => true | _ => false end then UnboundLocalError else AttributeError)) /\
    ax_lines a = pair_lines sims w 0 (combine simulations experiments) /\ ax_legend a = true /\ ax_texts a = [] /\ ax_title a = None.
Proof.
  intros D H. unfold optimize_plot. unfold bind at 1, subplots.
  destruct (plot_pairs_ok sims w _ 0%nat c empty_axes D) as (a' & E & EL & EX & R1 & R2 & R3).
  unfold bind at 1. rewrite E. unfold bind, on_axes. rewrite upd_axes_last. unfold last_simulation.
  destruct (combine simulations experiments) as [|p l] eqn:Z.
  - cbn. eexists. split; [reflexivity|]. cbn. rewrite EL, R2, R3. repeat split.
  - destruct H as [H|H]; [|discriminate]. rewrite H.
    destruct (List.rev (p :: l)) as [|[s e] q] eqn:Y.
    { apply (f_equal (@List.length _)) in Y. rewrite rev_length in Y. discriminate. }
    cbn. eexists. split; [reflexivity|]. cbn. rewrite EL, R2, R3. repeat split.
Qed.

Lemma last_simulation_nth experiments simulations n : List.length simulations = S n -> List.length experiments = S n ->
  last_simulation experiments simulations = nth_error simulations n.
Proof.
  intros Ls Le. unfold last_simulation.
  destruct (@exists_last _ simulations) as (s1 & s & ->); [intro Z; subst; discriminate|].
  destruct (@exists_last _ experiments) as (e1 & e & ->); [intro Z; subst; discriminate|].
  rewrite app_length in Ls, Le. cbn in Ls, Le.
  assert (H : combine (s1 ++ [s]) (e1 ++ [e]) = combine s1 e1 ++ [(s, e)]).
  { clear - Ls Le. assert (L : List.length s1 = List.length e1) by lia. clear Ls Le. revert e1 L. induction s1 as [|x s1 IH]; intros [|y e1] L; try discriminate; [reflexivity|]. cbn. rewrite IH; [reflexivity|]. cbn in L. lia. }
  rewrite H, rev_app_distr. cbn. rewrite nth_error_app2 by lia. replace (n - List.length s1)%nat with 0%nat by lia. reflexivity.
Qed.

(** ** Statistics *)
Lemma std_finite es ps : List.length es = List.length ps -> List.Forall (fun p => p <> 0) ps ->
  map (fun p => ext_div_abs (fst p) (snd p)) (combine (map Fin es) ps) = map Fin (map (fun q => fst q / Rabs (snd q)) (combine es ps)).
Proof.
  revert ps. induction es as [|e es IH]; intros [|p ps] L N; try discriminate; [reflexivity|].
  apply List.Forall_cons_iff in N. destruct N as [N0 N]. cbn in L |- *. rewrite IH by (auto; lia).
  destruct (Req_EM_T p 0); [contradiction|]. reflexivity.
Qed.
Lemma ext_sum_fin l : fold_right ext_add (Fin 0) (map Fin l) = Fin (total l).
Proof. induction l as [|x l IH]; [reflexivity|]. cbn. rewrite IH. reflexivity. Qed.
Lemma ext_mean_fin l : l <> [] -> ext_mean (map Fin l) = Fin (/ INR (List.length l) * total l).
Proof. intro N. unfold ext_mean. rewrite ext_sum_fin, map_length. destruct l; [congruence|reflexivity]. Qed.
Lemma ext_sum_nan l : In NaN l -> fold_right ext_add (Fin 0) l = NaN.
Proof.
  induction l as [|x l IH]; [intros []|]. intros [->|H]; [reflexivity|]. cbn. rewrite (IH H). destruct x; reflexivity.
Qed.
Lemma ext_mean_nan l : In NaN l -> ext_mean l = NaN.
Proof. intro H. unfold ext_mean. destruct l; [reflexivity|]. rewrite ext_sum_nan by assumption. reflexivity. Qed.
Lemma ext_sum_inf l : In Inf l -> ~ In NaN l -> fold_right ext_add (Fin 0) l = Inf.
Proof.
  induction l as [|x l IH]; [intros []|]. intros H N. cbn.
  assert (Ns : ~ In NaN l) by (intro; apply N; right; assumption).
  destruct H as [->|H].
  - destruct (fold_right ext_add (Fin 0) l) eqn:E; try reflexivity. exfalso.
    clear - E Ns. induction l as [|y l IH]; [discriminate|]. cbn in E.
    assert (y <> NaN) by (intro; subst; apply Ns; left; reflexivity).
    assert (fold_right ext_add (Fin 0) l <> NaN) by (intro Z; apply IH; [assumption|]; intro; apply Ns; right; assumption).
    destruct y, (fold_right ext_add (Fin 0) l); cbn in E; congruence.
  - rewrite (IH H Ns). destruct x; try reflexivity. exfalso. apply N. left. reflexivity.
Qed.
