(** * The outcome of Optimize.curve_fit (C41 - C44). *)
From Coq Require Import Reals Lra List String ZArith Bool Permutation Lia FunctionalExtensionality.
From Verif Require Import Tensor Py Voigt Models Frameworks Spaces Spec SpaceCore Lab LabSpec LabMech LabOpt.
Import ListNotations.
Local Open Scope R_scope.

Lemma int_part_IZR z : Int_part (IZR z) = z.
Proof. pose proof (base_Int_part (IZR z)) as [A B]. assert (IZR (Int_part (IZR z)) <= IZR z) by lra. apply le_IZR in H.
  assert (IZR z < IZR (Int_part (IZR z) + 1)) by (rewrite plus_IZR; lra). apply lt_IZR in H0. lia. Qed.
Lemma trunc_IZR z : trunc (IZR z) = z.
Proof. unfold trunc. destruct (Rle_dec 0 (IZR z)); [apply int_part_IZR|]. rewrite <- opp_IZR, int_part_IZR. lia. Qed.
Definition mutable (s : Seq) : Prop := match s with TupleObj _ => False | _ => True end.
Lemma set_same v : mutable v -> setitem_all v (elements v) = Ok v.
Proof.
  destruct v as [l|l|l|l]; cbn [setitem_all elements mutable]; intro; try contradiction; unfold assign_all.
  - rewrite Nat.eqb_refl, map_id. reflexivity.
  - rewrite map_length, Nat.eqb_refl, map_map. cbn [rbind]. rewrite (map_ext _ (fun z => z)) by apply trunc_IZR. rewrite map_id. reflexivity.
  - reflexivity.
Qed.
Lemma set_heap_same w : set_heap (op_par w) (heap w (op_par w)) w = w.
Proof.
  unfold set_heap. destruct w as [h sp op f x y er rs]; cbn. f_equal. apply functional_extensionality; intro k. unfold upd.
  destruct (Nat.eqb_spec k op); [subst; reflexivity|reflexivity].
Qed.
Lemma copy_mutable l w : (forall i, In i l -> sim_par w i = op_par w) -> mutable (heap w (op_par w)) -> copy_parameters l w = (w, Ok tt).
Proof.
  intros S HT. induction l as [|i l IH]; [reflexivity|].
  cbn [copy_parameters]. unfold bind, get, lift, upd_world. rewrite (S i (or_introl eq_refl)), (set_same _ HT).
  cbv beta iota. rewrite set_heap_same. apply IH. intros j I; apply S; right; auto.
Qed.
(** The assignment of scipy's result. *)
Lemma set_popt s popt : mutable s -> List.length popt = List.length (elements s) -> exists v, setitem_all s popt = Ok v /\ mutable v /\
  (forall l, s = FloatArray l -> v = FloatArray popt) /\ (forall l, s = ListObj l -> v = ListObj popt) /\
  (forall l, s = IntArray l -> v = IntArray (map trunc popt)).
Proof.
  destruct s as [l|l|l|l]; cbn [setitem_all elements mutable]; intros Mu L; try contradiction.
  - exists (FloatArray popt). rewrite assign_eq by auto. repeat split; try discriminate.
  - exists (IntArray (map trunc popt)). unfold assign_all. rewrite map_length in L. rewrite L, Nat.eqb_refl. repeat split; discriminate.
  - exists (ListObj popt). repeat split; discriminate.
Qed.

Section Outcome.
  Context (sims : nat -> SimStatic) (experiments : list Experiment) (simulations : list nat) (mask : list Mask) (scipy : Scipy)
    (M : matching experiments simulations mask) (HS : scipy_shapes scipy).
  Let ts := terms sims experiments simulations mask.
  Let the_f := handed_f sims experiments simulations mask.
  Let the_x := List.concat (map (fun me => map fst (sel me)) (combine mask experiments)).
  Let the_y := List.concat (map (fun me => map snd (sel me)) (combine mask experiments)).

  Lemma done_settled w v pcov r i : In i simulations ->
    sim_par (done experiments simulations mask w v pcov r) i = op_par (done experiments simulations mask w v pcov r).
  Proof. intro I. cbn [done sim_par op_par]. apply existsb_in in I. rewrite I. reflexivity. Qed.
  (** If nothing raises. *)
  Lemma fit_success w r0 popt pcov r v : all_residuals ts (elements (heap w (op_par w))) = Ok r0 ->
    scipy the_f the_x the_y (elements (heap w (op_par w))) = Ok (popt, pcov) -> all_residuals ts popt = Ok r ->
    setitem_all (heap w (op_par w)) popt = Ok v -> mutable v ->
    curve_fit sims experiments simulations mask scipy w = (done experiments simulations mask w v pcov r, Ok (op_par w, pcov)).
  Proof.
    intros E0 Es Er St Mu. rewrite (fit_sets sims experiments simulations mask scipy w r0 M E0 popt pcov r v Es Er St (proj2 (HS _ _ _ _ _ _ Es))).
    rewrite copy_mutable; [reflexivity|apply done_settled|]. cbn [done heap op_par]. rewrite upd_same. exact Mu.
  Qed.
  Lemma curve_fit_init_raise w e : all_residuals ts (elements (heap w (op_par w))) = Raise e ->
    exists w', curve_fit sims experiments simulations mask scipy w = (w', Raise e) /\ heap w' = heap w /\ op_par w' = op_par w.
  Proof.
    intro E. pose proof (init_raise sims experiments simulations mask w e M E) as X. pose proof (init_heap sims experiments simulations mask w) as [H1 H2].
    unfold curve_fit, bind at 1. destruct (init_curve_fit sims experiments simulations mask w) as [w' r]. cbn [snd fst] in *. subst r. eauto.
  Qed.
  (** All outcomes. *)
  Lemma fit_outcomes w :
    (exists e, (exists w', curve_fit sims experiments simulations mask scipy w = (w', Raise e) /\ heap w' = heap w /\ op_par w' = op_par w)) \/
    (exists r0 popt pcov r v, all_residuals ts (elements (heap w (op_par w))) = Ok r0 /\
       scipy the_f the_x the_y (elements (heap w (op_par w))) = Ok (popt, pcov) /\ all_residuals ts popt = Ok r /\
       setitem_all (heap w (op_par w)) popt = Ok v /\ mutable v /\ mutable (heap w (op_par w)) /\
       curve_fit sims experiments simulations mask scipy w = (done experiments simulations mask w v pcov r, Ok (op_par w, pcov))).
  Proof.
    destruct (all_residuals ts (elements (heap w (op_par w)))) as [r0|e] eqn:E0; [|left; exists e; apply curve_fit_init_raise; auto].
    destruct (scipy the_f the_x the_y (elements (heap w (op_par w)))) as [[popt pcov]|e] eqn:Es.
    2: left; exists e; eexists; split; [exact (fit_scipy_raises sims experiments simulations mask scipy w r0 M E0 e Es)|split; reflexivity].
    destruct (all_residuals ts popt) as [r|e] eqn:Er.
    2: left; exists e; eexists; split; [exact (fit_eval_raises sims experiments simulations mask scipy w r0 M E0 popt pcov e Es Er)|split; reflexivity].
    assert (Mx : mutable (heap w (op_par w)) \/ exists l, heap w (op_par w) = TupleObj l) by (destruct (heap w (op_par w)) eqn:Hh; cbn; eauto).
    destruct Mx as [Mu|[l T]].
    - destruct (set_popt (heap w (op_par w)) popt Mu (proj1 (HS _ _ _ _ _ _ Es))) as (v & St & Mv & _). right. exists r0, popt, pcov, r, v.
      split; [reflexivity|]. split; [reflexivity|]. split; [exact Er|]. split; [exact St|]. split; [exact Mv|]. split; [exact Mu|].
      exact (fit_success w r0 popt pcov r v E0 Es Er St Mv).
    - left; exists TypeError; eexists; split; [refine (fit_set_raises sims experiments simulations mask scipy w r0 M E0 popt pcov r TypeError Es Er _); rewrite T; reflexivity|split; reflexivity].
  Qed.
  Lemma success_inv w w' res : curve_fit sims experiments simulations mask scipy w = (w', Ok res) ->
    exists popt pcov r v, res = (op_par w, pcov) /\
       scipy the_f the_x the_y (elements (heap w (op_par w))) = Ok (popt, pcov) /\ all_residuals ts popt = Ok r /\
       setitem_all (heap w (op_par w)) popt = Ok v /\ mutable v /\ mutable (heap w (op_par w)) /\
       w' = done experiments simulations mask w v pcov r.
  Proof.
    intro E. destruct (fit_outcomes w) as [(e & w1 & E1 & _)|(r0 & popt & pcov & r & v & _ & Es & Er & St & Mv & Mu & E1)]; rewrite E in E1; [discriminate|].
    injection E1 as -> ->. exists popt, pcov, r, v. split; [reflexivity|]. split; [exact Es|]. split; [exact Er|]. split; [exact St|]. split; [exact Mv|]. split; [exact Mu|reflexivity].
  Qed.
  (** *** C43: all or nothing *)
  Lemma raise_keeps w w' e : curve_fit sims experiments simulations mask scipy w = (w', Raise e) -> heap w' = heap w /\ op_par w' = op_par w.
  Proof.
    intro E. destruct (fit_outcomes w) as [(e' & w1 & E1 & H)|(r0 & popt & pcov & r & v & _ & _ & _ & _ & _ & _ & E1)]; rewrite E in E1; [|discriminate].
    injection E1 as <- _. exact H.
  Qed.
  (** *** C42 *)
  Lemma success_reports w w' loc pcov : curve_fit sims experiments simulations mask scipy w = (w', Ok (loc, pcov)) ->
    (forall l, heap w (op_par w) <> IntArray l) ->
    loc = op_par w /\ op_par w' = op_par w /\
    exists popt, scipy the_f the_x the_y (elements (heap w (op_par w))) = Ok (popt, pcov) /\
      elements (heap w' (op_par w)) = popt /\
      (forall i, In i simulations -> sim_par w' i = op_par w /\
         simulation_stress sims w' i = stress_curve_fit (sims i) (si_stretch (sims i)) popt) /\
      (exists r, op_residuals w' = Some r /\ all_residuals ts popt = Ok r) /\
      op_errors w' = Some (map sqrt_ext (np_diag pcov)) /\
      (forall k, k <> op_par w -> heap w' k = heap w k).
  Proof.
    intros E NI. destruct (success_inv w w' _ E) as (popt & pc & r & v & Q & Es & Er & St & Mv & Mu & ->). injection Q as -> ->.
    split; [reflexivity|]. split; [reflexivity|]. exists popt. split; [exact Es|].
    assert (Ev : elements v = popt).
    { destruct (set_popt (heap w (op_par w)) popt Mu (proj1 (HS _ _ _ _ _ _ Es))) as (v' & St' & _ & HF & HL & _).
      rewrite St in St'. injection St' as <-. destruct (heap w (op_par w)) as [l|l|l|l] eqn:Hh.
      - rewrite (HF l eq_refl). reflexivity.
      - exfalso. apply (NI l). reflexivity.
      - rewrite (HL l eq_refl). reflexivity.
      - contradiction. }
    split; [cbn [done heap]; rewrite upd_same; exact Ev|].
    split; [|split; [exists r; split; [reflexivity|exact Er]|split; [reflexivity|]]].
    - intros i I. pose proof (done_settled w v pc r i I) as Sp. split; [exact Sp|]. unfold simulation_stress. rewrite Sp. cbn [done heap op_par]. rewrite upd_same, Ev. reflexivity.
    - intros k N. cbn [done heap]. unfold upd. destruct (Nat.eqb_spec k (op_par w)); [contradiction|reflexivity].
  Qed.
  (** Integer arrays: truncated parameters, but residuals of the untruncated ones. *)
  Lemma success_integers w w' loc pcov l : curve_fit sims experiments simulations mask scipy w = (w', Ok (loc, pcov)) ->
    heap w (op_par w) = IntArray l ->
    exists popt, scipy the_f the_x the_y (elements (heap w (op_par w))) = Ok (popt, pcov) /\
      elements (heap w' (op_par w)) = map (fun x => IZR (trunc x)) popt /\
      (exists r, op_residuals w' = Some r /\ all_residuals ts popt = Ok r).
  Proof.
    intros E HI. destruct (success_inv w w' _ E) as (popt & pc & r & v & Q & Es & Er & St & Mv & Mu & ->). injection Q as -> ->.
    exists popt. split; [exact Es|]. split; [|exists r; split; [reflexivity|exact Er]].
    destruct (set_popt (heap w (op_par w)) popt Mu (proj1 (HS _ _ _ _ _ _ Es))) as (v' & St' & _ & _ & _ & HIv).
    rewrite St in St'. injection St' as <-. cbn [done heap]. rewrite upd_same, (HIv l HI). cbn [elements]. rewrite map_map. reflexivity.
  Qed.
  (** Tuples: always TypeError. *)
  Lemma tuple_raises w l : heap w (op_par w) = TupleObj l -> exists w' e, curve_fit sims experiments simulations mask scipy w = (w', Raise e).
  Proof.
    intro T. destruct (fit_outcomes w) as [(e & w1 & E1 & _)|(r0 & popt & pcov & r & v & _ & _ & _ & _ & _ & Mu & _)]; [eauto|]. rewrite T in Mu. contradiction.
  Qed.
  (** *** C41 *)
  Lemma minimises w w' loc pcov : scipy_minimises scipy ->
    curve_fit sims experiments simulations mask scipy w = (w', Ok (loc, pcov)) -> (forall l, heap w (op_par w) <> IntArray l) ->
    exists v, total_squares ts (elements (heap w' loc)) = Ok v /\
      forall p v', List.length p = List.length (elements (heap w loc)) -> total_squares ts p = Ok v' -> v <= v'.
  Proof.
    intros HM E NI. destruct (success_reports w w' loc pcov E NI) as (-> & _ & popt & Es & -> & _ & (r & _ & Er) & _).
    destruct (HM _ _ _ _ _ _ Es) as (r' & Er' & Mn). unfold the_f, the_x, the_y in *. rewrite (handed sims experiments simulations mask popt M) in Er'. fold ts in Er'. rewrite Er in Er'. injection Er' as <-.
    exists (sum_squares r). rewrite squares_total, Er. split; [reflexivity|]. intros p v' L T. rewrite squares_total in T.
    destruct (all_residuals ts p) as [r'|] eqn:Ep; cbn [rbind] in T; [|discriminate]. injection T as <-. apply (Mn p r' L).
    rewrite (handed sims experiments simulations mask p M). exact Ep.
  Qed.
  (** The norm reported is the square root of the total. *)
  Lemma norm_reports w w' loc pcov : curve_fit sims experiments simulations mask scipy w = (w', Ok (loc, pcov)) -> (forall l, heap w (op_par w) <> IntArray l) ->
    exists v, total_squares ts (elements (heap w' loc)) = Ok v /\ norm_residuals w' = Ok (sqrt v).
  Proof.
    intros E NI. destruct (success_reports w w' loc pcov E NI) as (-> & _ & popt & Es & -> & _ & (r & R & Er) & _).
    exists (sum_squares r). rewrite squares_total, Er. split; [reflexivity|]. unfold norm_residuals. rewrite R. reflexivity.
  Qed.
End Outcome.

(** What scipy is given; nothing else about scipy matters. *)
Lemma scipy_called sims experiments simulations mask w : matching experiments simulations mask ->
  let ts := terms sims experiments simulations mask in
  let p0 := elements (heap w (op_par w)) in
  exists f x y,
    x = List.concat (map (fun t => map fst (snd t)) ts) /\ y = List.concat (map (fun t => map snd (snd t)) ts) /\
    (forall p, scipy_residuals f x y p = all_residuals ts p) /\
    (forall scipy scipy', scipy f x y p0 = scipy' f x y p0 ->
       curve_fit sims experiments simulations mask scipy w = curve_fit sims experiments simulations mask scipy' w) /\
    (forall scipy e, (exists r0, all_residuals ts p0 = Ok r0) -> scipy f x y p0 = Raise e -> snd (curve_fit sims experiments simulations mask scipy w) = Raise e).
Proof.
  intros M ts p0. exists (handed_f sims experiments simulations mask),
    (List.concat (map (fun me => map fst (sel me)) (combine mask experiments))),
    (List.concat (map (fun me => map snd (sel me)) (combine mask experiments))).
  split; [|split; [|split; [|split]]].
  - f_equal. unfold ts. rewrite (terms_ts sims experiments simulations mask), map_map. pose proof (zip_length experiments simulations mask M) as L.
    rewrite <- (map_snd_combine simulations (combine mask experiments) L) at 1. rewrite map_map. reflexivity.
  - f_equal. apply (ys_terms sims experiments simulations mask M).
  - intro p. apply handed; auto.
  - intros sp sp' E. destruct (all_residuals ts p0) as [r0|e] eqn:E0.
    + unfold curve_fit, bind, get, lift. rewrite (init_ok sims experiments simulations mask w r0 M E0). cbv beta iota.
      cbn [fits_world op_f op_x op_y op_par heap attr ret]. rewrite !(ccf sims experiments simulations mask _ _ M). fold p0. rewrite E. reflexivity.
    + pose proof (init_raise sims experiments simulations mask w e M E0) as X. unfold curve_fit, bind.
      destruct (init_curve_fit sims experiments simulations mask w) as [w' r]. cbn [snd] in X. subst r. reflexivity.
  - intros sp e (r0 & E0) Es. rewrite (fit_scipy_raises sims experiments simulations mask sp w r0 M E0 e Es). reflexivity.
Qed.

(** *** C43: other sequence objects are never written, whatever happens *)
Section Frame.
  Context (sims : nat -> SimStatic) (experiments : list Experiment) (simulations : list nat) (mask : list Mask).
  Definition same_but (w w' : World) : Prop := op_par w' = op_par w /\ forall k, k <> op_par w -> heap w' k = heap w k.
  Lemma same_refl w : same_but w w. Proof. split; auto. Qed.
  Lemma same_trans a b c : same_but a b -> same_but b c -> same_but a c.
  Proof. intros [A1 A2] [B1 B2]. split; [congruence|]. intros k N. rewrite B2, A2; auto. rewrite A1; auto. Qed.
  Lemma init_frame w : same_but w (fst (init_curve_fit sims experiments simulations mask w)) /\
    forall p, snd (init_curve_fit sims experiments simulations mask w) = Ok p ->
      forall i, In i simulations -> sim_par (fst (init_curve_fit sims experiments simulations mask w)) i = op_par (fst (init_curve_fit sims experiments simulations mask w)).
  Proof.
    split. { pose proof (init_heap sims experiments simulations mask w) as [A B]. split; [exact B|]. intros k _. rewrite A. reflexivity. }
    unfold init_curve_fit, bind, upd_world, lift, get, ret.
    destruct (map_r _ (combine mask experiments)) as [x|]; cbv beta iota; [|discriminate].
    destruct (map_r _ (combine mask experiments)) as [y|]; cbv beta iota; [|discriminate].
    cbn [heap op_par set_y set_x set_f].
    destruct (eval_all _ x _) as [f0|]; cbv beta iota; [|discriminate].
    destruct (np_concatenate y) as [yc|]; cbv beta iota; [|discriminate].
    destruct (np_sub f0 yc) as [r|]; cbv beta iota; [|discriminate].
    intros p _ i I. cbn [fst]. rewrite fold_sim. cbn. apply existsb_in in I. rewrite I. reflexivity.
  Qed.
  Lemma copy_frame l w : (forall i, In i l -> sim_par w i = op_par w) -> same_but w (fst (copy_parameters l w)).
  Proof.
    revert w; induction l as [|i l IH]; intros w S; [apply same_refl|].
    cbn [copy_parameters]. unfold bind, get, lift, upd_world. rewrite (S i (or_introl eq_refl)).
    destruct (setitem_all _ _) as [v|e]; [|apply same_refl]. cbv beta iota.
    apply same_trans with (set_heap (op_par w) v w).
    - split; [reflexivity|]. intros k N. cbn. unfold upd. destruct (Nat.eqb_spec k (op_par w)); [contradiction|reflexivity].
    - apply IH. intros j I. cbn. apply S. right; auto.
  Qed.
  Lemma fit_frame scipy w : same_but w (fst (curve_fit sims experiments simulations mask scipy w)).
  Proof.
    destruct (init_frame w) as [F S]. unfold curve_fit, bind at 1.
    destruct (init_curve_fit sims experiments simulations mask w) as [w1 [p0|e]]; cbn [fst snd] in *; [|exact F].
    specialize (S p0 eq_refl). refine (same_trans _ _ _ F _). clear F w. rename w1 into w.
    unfold bind, get, lift, upd_world, attr, ret, raise.
    destruct (op_f w) as [f|]; [|apply same_refl]. destruct (op_x w) as [x|]; [|apply same_refl]. destruct (op_y w) as [y|]; [|apply same_refl].
    destruct (concatenate_curve_fit _ _ _ _ _) as [[popt pcov]|e]; [|apply same_refl].
    destruct (eval_all _ _ _) as [fopt|e]; [|apply same_refl].
    destruct (setitem_all _ _) as [v|e]; [|apply same_refl].
    assert (W : same_but w (set_heap (op_par w) v w)).
    { split; [reflexivity|]. intros k N. cbn. unfold upd. destruct (Nat.eqb_spec k (op_par w)); [contradiction|reflexivity]. }
    destruct (op_errors w) as [er|]; [|exact W].
    destruct (assign_all _ er _) as [er'|]; [|exact W].
    destruct (op_residuals w) as [rs|]; [|exact W].
    destruct (np_concatenate y) as [yc|]; [|exact W].
    destruct (np_sub fopt yc) as [rr|]; [|exact W].
    destruct (assign_all _ rs rr) as [rr'|]; [|exact W].
    set (w2 := set_residuals rr' _).
    assert (W2 : same_but w w2) by exact W.
    pose proof (copy_frame simulations w2 S) as W3. destruct (copy_parameters simulations w2) as [w3 [u|e]]; exact (same_trans _ _ _ W2 W3).
  Qed.
  Lemma history_frame scipys w : same_but w (fit_history sims experiments simulations mask scipys w).
  Proof.
    unfold fit_history. revert w; induction scipys as [|sp l IH]; intro w; [apply same_refl|]. cbn [fold_left].
    refine (same_trans _ _ _ _ (IH _)). unfold after. pose proof (fit_frame sp w). destruct (curve_fit _ _ _ _ sp w); exact H.
  Qed.
End Frame.
