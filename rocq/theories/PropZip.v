(** * Property C65: lists of different lengths passed to Optimize.

    Optimize matches experiments, simulations and masks by position with zip
    (lab/_optimize.py:165-215): the surplus of the longer list is dropped without a message. *)
From Coq Require Import Reals Lra List String ZArith Bool Lia FunctionalExtensionality.
From Verif Require Import Tensor Py Lab LabSpec LabOpt LabFit LabCurves.
Import ListNotations.
Local Open Scope R_scope.

(** ** Nothing to fit *)
Theorem C65_nothing_to_fit : forall sims experiments simulations mask scipy w,
  experiments = [] \/ mask = [] ->
  let r := curve_fit sims experiments simulations mask scipy w in
  snd r = Raise ValueError /\ heap (fst r) = heap w /\ op_par (fst r) = op_par w /\ sim_par (fst r) = sim_par w /\
  op_errors (fst r) = op_errors w /\ op_residuals (fst r) = op_residuals w.
Proof.
  intros sims experiments simulations mask scipy w H. cbv zeta.
  assert (combine mask experiments = []) as E by (destruct H as [-> | ->]; [destruct mask|]; reflexivity).
  unfold curve_fit, init_curve_fit, bind, upd_world, lift, get, ret. rewrite E. cbn [map_r].
  cbv beta iota. unfold eval_all. assert (forall A B (l : list A), combine l (@nil B) = []) as N by (intros A B [|]; reflexivity).
  rewrite N. cbn. repeat split; reflexivity.
Qed.
Print Assumptions C65_nothing_to_fit.
Theorem C65_no_simulations : forall sims experiments mask scipy w, matching experiments (map (fun _ => 0%nat) experiments) mask ->
  let r := curve_fit sims experiments [] mask scipy w in
  snd r = Raise ValueError /\ heap (fst r) = heap w /\ op_par (fst r) = op_par w /\ sim_par (fst r) = sim_par w /\
  op_errors (fst r) = op_errors w /\ op_residuals (fst r) = op_residuals w.
Proof.
  intros sims experiments mask scipy w M. cbv zeta.
  unfold curve_fit, init_curve_fit, bind, upd_world, lift, get, ret.
  rewrite (matching_x _ _ _ M). cbv beta iota. rewrite (matching_y _ _ _ M). cbv beta iota. cbn. repeat split; reflexivity.
Qed.
Print Assumptions C65_no_simulations.

(** ** Experiments without a mask, and masks without an experiment, are left out *)
Theorem C65_short_mask : forall sims experiments extra simulations mask scipy w, List.length mask = List.length experiments ->
  curve_fit sims (experiments ++ extra) simulations mask scipy w = curve_fit sims experiments simulations mask scipy w.
Proof. intros. unfold curve_fit, init_curve_fit. rewrite combine_app_r by (rewrite H; auto). reflexivity. Qed.
Print Assumptions C65_short_mask.
Theorem C65_long_mask : forall sims experiments simulations mask extra scipy w, List.length mask = List.length experiments ->
  curve_fit sims experiments simulations (mask ++ extra) scipy w = curve_fit sims experiments simulations mask scipy w.
Proof. intros. unfold curve_fit, init_curve_fit. rewrite combine_app_l by (rewrite H; auto). reflexivity. Qed.
Print Assumptions C65_long_mask.

(** ** Simulations without an experiment do not take part in the fit; they get its parameters *)
Section Extra.
  Context (sims : nat -> SimStatic) (experiments : list Experiment) (simulations extra : list nat) (mask : list Mask) (scipy : Scipy).
  Context (M : matching experiments simulations mask).
  Notation ex := (simulations ++ extra).

  Lemma eval_extra x p : List.length x = List.length simulations ->
    eval_all (map (callable sims) ex) x p = eval_all (map (callable sims) simulations) x p.
  Proof. intro L. unfold eval_all. rewrite map_app, combine_app_l by (rewrite map_length, L; auto). reflexivity. Qed.
  Lemma xs_length x : map_r (fun me => np_index (ex_stretch (snd me)) (fst me)) (combine mask experiments) = Ok x ->
    List.length x = List.length simulations.
  Proof.
    rewrite (matching_x _ _ _ M). intro E. injection E as <-. rewrite map_length, (zip_length experiments simulations mask M). reflexivity.
  Qed.

  (** The same world, apart from the list of callables and the parameters of the simulations. *)
  Definition alike (w w' : World) : Prop :=
    heap w = heap w' /\ op_par w = op_par w' /\ op_x w = op_x w' /\ op_y w = op_y w' /\ op_errors w = op_errors w' /\ op_residuals w = op_residuals w'.


  Lemma set_mutable s p v : setitem_all s p = Ok v -> mutable v.
  Proof.
    destruct s; cbn [setitem_all]; intro E; try discriminate.
    - destruct (assign_all _ l p); cbn in E; [injection E as <-; exact Logic.I|discriminate].
    - destruct (assign_all _ l p); cbn in E; [injection E as <-; exact Logic.I|discriminate].
    - injection E as <-. exact Logic.I.
  Qed.
  Lemma extra_run w : let a := curve_fit sims experiments ex mask scipy w in let b := curve_fit sims experiments simulations mask scipy w in
    snd a = snd b /\ alike (fst a) (fst b) /\
    (forall r, snd a = Ok r -> forall i, In i ex -> sim_par (fst a) i = op_par w).
  Proof.
    cbv zeta. unfold curve_fit, init_curve_fit, bind, upd_world, lift, get, attr, ret.
    rewrite (matching_x _ _ _ M). cbv beta iota. rewrite (matching_y _ _ _ M). cbv beta iota. cbn [heap op_par set_y set_x set_f].
    set (xs := map (fun me => map fst (sel me)) (combine mask experiments)).
    set (ys := map (fun me => map snd (sel me)) (combine mask experiments)).
    assert (List.length xs = List.length simulations) as L by (unfold xs; rewrite map_length, <- (zip_length experiments simulations mask M); reflexivity).
    rewrite (eval_extra _ _ L). set (p0 := elements (heap w (op_par w))).
    destruct (eval_all (map (callable sims) simulations) xs p0) as [f0|e]; [|repeat split; discriminate].
    cbv beta iota. destruct (np_concatenate ys) as [yc|e] eqn:Ey; [|repeat split; discriminate].
    cbv beta iota. destruct (np_sub f0 yc) as [r0|e]; [|repeat split; discriminate].
    cbv beta iota. rewrite !fold_sim.
    cbn [heap op_par op_f op_x op_y op_errors op_residuals sim_par set_f set_x set_y set_errors set_residuals set_heap]. fold p0.
    assert (concatenate_f (map (callable sims) ex) xs = concatenate_f (map (callable sims) simulations) xs) as Ec.
    { unfold concatenate_f. do 2 (apply functional_extensionality; intro). apply eval_extra; auto. }
    unfold concatenate_curve_fit. rewrite Ec.
    destruct (rbind (np_concatenate xs) _) as [[popt pcov]|e]; [|repeat split; discriminate].
    cbv beta iota. rewrite (eval_extra _ _ L). destruct (eval_all (map (callable sims) simulations) xs popt) as [fopt|e]; [|repeat split; discriminate].
    cbv beta iota. destruct (setitem_all (heap w (op_par w)) popt) as [v|e] eqn:Ev; [|repeat split; discriminate].
    apply set_mutable in Ev.
    cbv beta iota. cbn [heap op_par op_f op_x op_y op_errors op_residuals sim_par set_f set_x set_y set_errors set_residuals set_heap].
    destruct (assign_all (fun v : Ext => v) _ _) as [er|e]; [|repeat split; discriminate].
    cbv beta iota. rewrite ?Ey. destruct (np_sub fopt yc) as [r1|e]; [|repeat split; discriminate].
    cbv beta iota. cbn [heap op_par op_f op_x op_y op_errors op_residuals sim_par set_f set_x set_y set_errors set_residuals set_heap].
    destruct (assign_all (fun v : R => v) r0 r1) as [r2|e]; [|repeat split; discriminate].
    cbv beta iota.
    rewrite !copy_mutable.
    - cbn [heap op_par op_f op_x op_y op_errors op_residuals sim_par set_f set_x set_y set_errors set_residuals set_heap fst snd].
      split; [reflexivity|]. split; [repeat split; reflexivity|]. intros r _ i I. apply existsb_in in I. rewrite I. reflexivity.
    - cbn [heap op_par sim_par set_errors set_residuals set_heap]. intros i I. apply existsb_in in I. rewrite I. reflexivity.
    - cbn [heap op_par sim_par set_errors set_residuals set_heap]. rewrite upd_same. exact Ev.
    - cbn [heap op_par sim_par set_errors set_residuals set_heap]. intros i I. apply existsb_in in I. rewrite I. reflexivity.
    - cbn [heap op_par sim_par set_errors set_residuals set_heap]. rewrite upd_same. exact Ev.
  Qed.
End Extra.
Theorem C65_extra_simulations : forall sims experiments simulations extra mask scipy w, matching experiments simulations mask ->
  let a := curve_fit sims experiments (simulations ++ extra) mask scipy w in
  let b := curve_fit sims experiments simulations mask scipy w in
  snd a = snd b /\ heap (fst a) = heap (fst b) /\ op_par (fst a) = op_par (fst b) /\
  op_errors (fst a) = op_errors (fst b) /\ op_residuals (fst a) = op_residuals (fst b) /\
  (forall r, snd a = Ok r -> forall i, In i (simulations ++ extra) -> sim_par (fst a) i = op_par w).
Proof.
  intros sims experiments simulations extra mask scipy w M. cbv zeta.
  destruct (extra_run sims experiments simulations extra mask scipy M w) as (A & (B & C & _ & _ & D & E) & F).
  exact (conj A (conj B (conj C (conj D (conj E F))))).
Qed.
Print Assumptions C65_extra_simulations.

(** ** Experiments without a simulation.  The terms of the simulations there are give [n] simulated
    points, all experiments together have [m] measured points.  If they differ and neither is one,
    the fit raises ValueError before the optimiser is called and nothing the user sees is changed. *)
Lemma eval_prefix sims experiments simulations mask p : List.length mask = List.length experiments -> simulations <> [] -> experiments <> [] ->
  eval_all (map (callable sims) simulations) (map (fun me => map fst (sel me)) (combine mask experiments)) p =
  rbind (map_r (fun t : Term => stress_curve_fit (fst t) (map fst (snd t)) p) (terms sims experiments simulations mask)) (fun q => Ok (List.concat q)).
Proof.
  intros L N1 N2. unfold eval_all. rewrite eval_terms. unfold terms.
  destruct simulations as [|s ss]; [contradiction|]. destruct experiments as [|e es]; [contradiction|]. destruct mask as [|m ms]; [discriminate|].
  eapply concat_ok. reflexivity.
Qed.
Lemma np_sub_bad a b : List.length a <> List.length b -> List.length a <> 1%nat -> List.length b <> 1%nat -> np_sub a b = Raise ValueError.
Proof.
  intros N A B. unfold np_sub, broadcast1. destruct (Nat.eqb_spec (List.length a) (List.length b)); [contradiction|].
  destruct a as [|x [|y a]]; [| cbn in A; lia |]; (destruct b as [|u [|v b]]; [|cbn in B; lia|]; reflexivity).
Qed.
Lemma points_length (ts : list Term) p : forall l, map_r (fun t : Term => stress_curve_fit (fst t) (map fst (snd t)) p) ts = Ok l ->
  List.length (List.concat l) = List.length (List.concat (map snd ts)).
Proof.
  induction ts as [|t ts IH]; intros l E; cbn [map_r] in E.
  - injection E as <-. reflexivity.
  - destruct (stress_curve_fit (fst t) (map fst (snd t)) p) as [f|] eqn:Ef; cbn [rbind] in E; [|discriminate].
    destruct (map_r _ ts) as [fs|]; cbn [rbind] in E; [|discriminate]. injection E as <-. cbn [List.concat map].
    rewrite !app_length, (IH _ eq_refl), (scf_length _ _ _ _ Ef), map_length. reflexivity.
Qed.
Lemma concat_snd (ts : list Term) : List.length (List.concat (map (fun t : Term => map snd (snd t)) ts)) = List.length (List.concat (map snd ts)).
Proof. induction ts as [|t ts IH]; [reflexivity|]. cbn [List.concat map]. rewrite !app_length, map_length, IH. reflexivity. Qed.
Theorem C65_missing_simulations : forall sims experiments simulations mask scipy w n m, simulations <> [] -> matching experiments (map (fun _ => 0%nat) experiments) mask ->
  (** the simulations there are can be evaluated *)
  (exists l, map_r (fun t : Term => stress_curve_fit (fst t) (map fst (snd t)) (elements (heap w (op_par w)))) (terms sims experiments simulations mask) = Ok l) ->
  n = List.length (List.concat (map snd (terms sims experiments simulations mask))) ->
  m = List.length (List.concat (map snd (terms sims experiments (map (fun _ => 0%nat) experiments) mask))) ->
  n <> m -> n <> 1%nat -> m <> 1%nat ->
  let r := curve_fit sims experiments simulations mask scipy w in
  snd r = Raise ValueError /\ heap (fst r) = heap w /\ op_par (fst r) = op_par w /\ sim_par (fst r) = sim_par w.
Proof.
  intros sims experiments simulations mask scipy w n m N M (l & El) En Em Nn N1 M1. cbv zeta.
  unfold curve_fit, init_curve_fit, bind, upd_world, lift, get, attr, ret.
  rewrite (matching_x _ _ _ M). cbv beta iota. rewrite (matching_y _ _ _ M). cbv beta iota. cbn [heap op_par set_y set_x set_f].
  rewrite eval_prefix; [|apply M|exact N|apply M]. rewrite El. cbn [rbind]. cbv beta iota.
  rewrite (ys_cat sims experiments (map (fun _ => 0%nat) experiments) mask M). cbv beta iota.
  rewrite np_sub_bad; [repeat split; reflexivity| | |].
  - rewrite (points_length _ _ _ El), <- En. rewrite (ys_terms sims experiments _ mask M), concat_snd, <- Em. exact Nn.
  - rewrite (points_length _ _ _ El), <- En. exact N1.
  - rewrite (ys_terms sims experiments _ mask M), concat_snd, <- Em. exact M1.
Qed.
Print Assumptions C65_missing_simulations.

(** The full claim (a missing simulation is reported) fails: a single simulated point is compared
    with every measured point of all experiments.  Here one simulation (one selected point) is
    passed with two experiments; the fit returns, and the residuals have three entries. *)
Definition exps2 : list Experiment := [exp_ex; exp_ex].
Definition mask2 : list Mask := [MIndex [1%Z]; MBool [true; true; false]].
Lemma matching2 : matching exps2 (map (fun _ => 0%nat) exps2) mask2.
Proof.
  split; [discriminate|]. split; [reflexivity|]. split; [reflexivity|]. split.
  - repeat constructor; exists [0; 1; 1], [0; 7 / 4; 5]; repeat split.
  - repeat constructor; cbn; try lia.
Qed.
Theorem C65_missing_simulations_refuted : exists sims experiments simulations mask scipy w w' loc pcov,
  simulations <> [] /\ matching experiments (map (fun _ => 0%nat) experiments) mask /\
  (List.length simulations < List.length experiments)%nat /\
  curve_fit sims experiments simulations mask scipy w = (w', Ok (loc, pcov)) /\
  op_residuals w' = Some [0; 7 / 4; 0].
Proof.
  exists (fun _ => sim_ex), exps2, [0%nat], mask2, (fun _ _ _ _ => Ok ([1 / 2], [[Fin 4]])), (world_ex (FloatArray [3])).
  assert (forall c, eval_all (map (callable (fun _ => sim_ex)) [0%nat]) (map (fun me => map fst (sel me)) (combine mask2 exps2)) [c] = Ok [2 * (2 - 1 / 2 ^ 2) * c]) as Ev.
  { intro c. unfold eval_all.
    change (map (fun me => map fst (sel me)) (combine mask2 exps2)) with [[2]; [1; 2]]. cbn [combine map map_r fst snd]. unfold callable.
    rewrite sim_ex_stress; [reflexivity|]. intros x [<-|[]]; lra. }
  assert (np_concatenate (map (fun me => map snd (sel me)) (combine mask2 exps2)) = Ok [7 / 4 / 1; 0 / 1; 7 / 4 / 1]) as Ey by reflexivity.
  assert (forall c, np_sub [2 * (2 - 1 / 2 ^ 2) * c] [7 / 4 / 1; 0 / 1; 7 / 4 / 1] = Ok [7 / 2 * c - 7 / 4; 7 / 2 * c; 7 / 2 * c - 7 / 4]) as Es.
  { intro c. cbn [np_sub broadcast1 List.length Nat.eqb map].
    assert (2 * (2 - 1 / 2 ^ 2) * c = 7 / 2 * c) as -> by field. assert (7 / 4 / 1 = 7 / 4) as -> by field. assert (7 / 2 * c - 0 / 1 = 7 / 2 * c) as -> by field. reflexivity. }
  do 3 eexists. split; [discriminate|]. split; [exact matching2|]. split; [cbn; lia|].
  unfold curve_fit, init_curve_fit, bind, upd_world, lift, get, attr, ret.
  rewrite (matching_x _ _ _ matching2). cbv beta iota. rewrite (matching_y _ _ _ matching2). cbv beta iota.
  cbn [heap op_par set_y set_x set_f world_ex elements]. rewrite Ev. cbv beta iota. rewrite Ey. cbv beta iota. rewrite Es. cbv beta iota.
  cbn [fold_left heap op_par set_y set_x set_f set_sim set_errors set_residuals world_ex elements op_x op_y op_f sim_par].
  unfold concatenate_curve_fit. change (np_concatenate (map (fun me => map fst (sel me)) (combine mask2 exps2))) with (Ok [2; 1; 2]). cbn [rbind]. rewrite Ey. cbn [rbind].
  cbv beta iota. rewrite Ev. cbv beta iota. cbn [setitem_all assign_all List.length Nat.eqb map rbind].
  cbn [heap op_par set_y set_x set_f set_sim set_errors set_residuals set_heap world_ex elements op_x op_y op_f sim_par op_errors op_residuals].
  cbn [np_diag diag_from nth map sqrt_ext assign_all List.length Nat.eqb].
  rewrite Es. cbn [assign_all List.length Nat.eqb map copy_parameters].
  unfold bind, upd_world, lift, get, ret. cbn [heap op_par set_heap set_sim set_errors set_residuals sim_par upd Nat.eqb elements setitem_all assign_all List.length rbind map].
  split; [reflexivity|]. cbn [op_residuals set_heap set_residuals].
  assert (7 / 2 * (1 / 2) - 7 / 4 = 0) as -> by field. assert (7 / 2 * (1 / 2) = 7 / 4) as -> by field. reflexivity.
Qed.
Print Assumptions C65_missing_simulations_refuted.

(** Non-trivial cases meeting the hypotheses: two experiments with two selected points each and
    one simulation raise; an extra simulation does not change a successful fit. *)
Definition mask4 : list Mask := [MBool [true; true; false]; MBool [true; true; false]].
Example C65_example :
  (exists w', curve_fit (fun _ => sim_ex) [exp_ex] ([0%nat] ++ [1%nat; 5%nat]) mask_ex scipy_ex (world_ex (ListObj [3])) = (w', Ok (0%nat, [[Fin 4]])) /\
     sim_par w' 5%nat = 0%nat /\ heap w' 0%nat = ListObj [1 / 2]) /\
  (forall scipy, snd (curve_fit (fun _ => sim_ex) exps2 [0%nat] mask4 scipy (world_ex (ListObj [3]))) = Raise ValueError).
Proof.
  split.
  - destruct (fit_ex (ListObj [3]) 3 eq_refl Logic.I) as (w1 & E1).
    pose proof (C65_extra_simulations (fun _ => sim_ex) [exp_ex] [0%nat] [1%nat; 5%nat] mask_ex scipy_ex (world_ex (ListObj [3])) matching_ex) as H.
    cbv zeta in H. destruct H as (A & B & C & D & E & F). rewrite E1 in A, B. cbn [fst snd] in A, B.
    destruct (curve_fit _ [exp_ex] ([0%nat] ++ _) _ _ _) as [w' r]. cbn [fst snd] in *. subst r. exists w'. split; [reflexivity|].
    split; [exact (F _ eq_refl 5%nat (or_intror (or_intror (or_introl eq_refl))))|].
    rewrite B. destruct (success_inv (fun _ => sim_ex) [exp_ex] [0%nat] mask_ex scipy_ex matching_ex scipy_ex_shapes _ _ _ E1) as (popt & pc & r & v & Q & Es & Er & St & _ & _ & ->).
    cbn [world_ex op_par heap setitem_all] in St. injection St as <-. injection Q as <- . cbn [done heap op_par world_ex]. rewrite upd_same. f_equal.
    revert Es. unfold scipy_ex. cbn [world_ex heap op_par elements]. destruct (scipy_residuals _ _ _ _); [|discriminate]. destruct (Req_EM_T _ 0); [|discriminate]. intro Es. injection Es as <-. reflexivity.
  - intro scipy. refine (proj1 (C65_missing_simulations (fun _ => sim_ex) exps2 [0%nat] mask4 scipy (world_ex (ListObj [3])) 2 4 _ _ _ eq_refl eq_refl _ _ _)); try discriminate.
    + split; [discriminate|]. split; [reflexivity|]. split; [reflexivity|]. split.
      * repeat constructor; exists [0; 1; 1], [0; 7 / 4; 5]; repeat split.
      * repeat constructor.
    + cbn [terms combine mask4 exps2 map fst snd map_r points experiment_stress exp_ex ex_force div_data rbind ex_stretch chosen filter ex_area world_ex heap op_par elements].
      rewrite sim_ex_stress by (cbn; intros x [<-|[<-|[]]]; lra). eexists. reflexivity.
Qed.
