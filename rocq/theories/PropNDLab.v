(** * Property C52: simulations of whole arrays of stretches.

    [nd_stress_curve_fit] (NDLab.v) is Simulation.stress_curve_fit with numpy's shapes, reshapes,
    views and broadcasting; [stress_curve_fit] (Lab.v, about which C36-C44, C50 and C51 are
    proved) works entry by entry on a list. *)
From Coq Require Import Reals Lra List Arith Lia ZArith String FunctionalExtensionality.
From Verif Require Import Tensor Py Voigt VoigtProofs Algebra VCalc EigCore PiolaProofs Models Frameworks Spaces Spec GenProofs ModelProofs InvCore StrCore SpaceCore Lab LabSpec LabMech PropLab.
From Verif Require Import NDCore NDRel NDOps NDHeap NDVoigt NDMath NDMath2 NDMath3 NDSpaces
  NDSpaceProofs NDSpaceMain NDFrameworks NDInvProofs NDModels NDEigh NDViews NDStrProofs NDGenProofs NDSpec NDTril NDLinks NDLinks2 NDRaise NDCounter PropND NDLab NDLabProofs.
Import ListNotations.
Local Open Scope R_scope.

(** The library's load cases, on arrays and on one stretch. *)
Definition loadcases : list ((nd -> M nd) * (R -> T2)) :=
  [(nd_uniaxial, uniaxial); (nd_planar, planar); (nd_biaxial, biaxial)].
(** The entries of a one-dimensional array of length [n]. *)
Definition entries (h : heap) (a : nd) (n : nat) : list R := map (fun p => value1 h a [p]) (seq 0 n).
(** [mat] is the object returned by the array version of the simulation's material function for
    these parameters, and [fw] in the space [kd] with options [o] is the one of the list version. *)
Definition same_material {ST SV} (sim : SimStatic) (material : Dict -> Result (nd -> M nd)) (params : list R)
  (kd : SpaceKind) (mat : NDMat ST) (fw : Framework SV) (o : SpaceOpts) (none : ST) (none' : SV) : Prop :=
  material (kwargs_of (si_labels sim) params) = Ok (nd_space_stress kd mat o none) /\
  exists s, si_material sim (kwargs_of (si_labels sim) params) = Ok (space_material none' fw s (sp_gradient kd fw o)).
(** One call with an array of [n] stretches returns a new one-dimensional array with the [n]
    stresses of the list version; the array of stretches is not changed. *)
Definition simulates_array (nlc : nd -> M nd) (sim : SimStatic) (material : Dict -> Result (nd -> M nd))
  (params : list R) (h : heap) (x : nd) (n : nat) : Prop :=
  returns h (nd_stress_curve_fit nlc (si_labels sim) material x params) (fun r h' =>
    fresh h h' r /\ field h' r iS [n] /\ entries h' x n = entries h x n /\
    stress_curve_fit sim (entries h x n) params = Ok (entries h' r n)).

Lemma loadcase_points nlc lc : In (nlc, lc) loadcases -> lc_points nlc lc.
Proof.
  intros [E|[E|[E|[]]]]; injection E as <- <-.
  - exact nd_uniaxial_points. - exact nd_planar_points. - exact nd_biaxial_points.
Qed.
(** defgrad on an array of any shape: one deformation gradient per entry. *)
Theorem C52_defgrad : forall nlc lc h x s, In (nlc, lc) loadcases -> field h x iS s ->
  returns h (nlc x) (new_field h i33 s s (fun k '(i, j) => lc (value1 h x k) i j)).
Proof. intros nlc lc h x s HI HF. exact (loadcase_points nlc lc HI h x s HF). Qed.
Print Assumptions C52_defgrad.

Section Points.
  Context {ST SV : Type} (sv_at : ST -> index -> SV) (kd : SpaceKind) (mat : NDMat ST) (fw : Framework SV)
    (o : SpaceOpts) (none : ST) (none' : SV) (s0 : SpaceSelf (fw_self fw))
    (Hf : finalize o = true) (Hn : forall k, sv_at none k = none').
  Definition point_P (F : T2) : T2 :=
    match snd (full_only (sp_gradient kd fw o) F none' s0) with Ok (P, _) => P | Raise _ => fun _ _ => 0 end.
  Definition evaluates_at (F : T2) : Prop :=
    exists P svn, snd (full_only (sp_gradient kd fw o) F none' s0) = Ok (P, svn).
  Lemma space_points (Dom : T2 -> Prop) n m :
    (forall h F, field h F i33 [1%nat; n] -> (forall p, (p < n)%nat -> Dom (value33 h F [0%nat; p])) ->
      gradient_pointwise sv_at kd mat fw o [1%nat; n] [1%nat; m] h F none) ->
    mat_points (nd_space_stress kd mat o none) point_P Dom n m.
  Proof.
    intros H h F HF HD. destruct (H h F HF HD) as [h' [[P svn] [E [X [H1 [H2 H3]]]]]].
    exists h', P. split; [unfold nd_space_stress, bind, ret; rewrite E; reflexivity|].
    split; [exact X|]. unfold stress_kind in H2. rewrite Hf in H2. split; [exact H2|].
    intros p Hp. specialize (H3 [0%nat; p] s0). rewrite Hn in H3.
    unfold point_P, full_only. unfold outcome, stress_at in H3. rewrite Hf in H3.
    destruct (sp_gradient kd fw o (value33 h F [0%nat; p]) none' s0) as [s' r]. cbn [snd] in *.
    rewrite H3 by (cbn; lia). reflexivity.
  Qed.

  Context (nlc : nd -> M nd) (lc : R -> T2) (HL : lc_points nlc lc) (h : heap) (x : nd) (s : shape) (m : nat)
    (Hx : field h x iS s) (Dom : T2 -> Prop) (HD : forall k, inb s k -> Dom (lc (value1 h x k)))
    (HG : forall h F, field h F i33 [1%nat; size s] -> (forall p, (p < size s)%nat -> Dom (value33 h F [0%nat; p])) ->
      gradient_pointwise sv_at kd mat fw o [1%nat; size s] [1%nat; m] h F none).
  Lemma points_evaluate k : inb s k -> evaluates_at (lc (value1 h x k)).
  Proof.
    intros Hk. destruct (HL h x s Hx) as [h1 [F [E1 [X1' [F1 [F2 F3]]]]]].
    assert (VF : forall k, inb s k -> value33 h1 F k = lc (value1 h x k)).
    { intros k' Hk'. unfold value33. do 2 (apply functional_extensionality; intro). exact (F3 k' Hk' (_, _)). }
    destruct (reshape_in h1 F s F2) as [F4 [E2 [G1 G2]]].
    destruct (HG h1 F4 G1) as [h' [[P svn] [E [X [H1 [H2 H3]]]]]].
    { intros p Hp. rewrite G2 by assumption. rewrite VF by (now apply unravel_in). apply HD. now apply unravel_in. }
    pose proof (ravel_lt s k Hk) as Hr.
    specialize (H3 [0%nat; ravel s k] s0). rewrite Hn in H3. rewrite (G2 _ Hr), (unravel_ravel s k Hk), (VF k Hk) in H3.
    unfold evaluates_at, full_only. unfold outcome, stress_at in H3. rewrite Hf in H3.
    destruct (sp_gradient kd fw o (lc (value1 h x k)) none' s0) as [s' r]. cbn [snd] in *.
    rewrite H3 by (cbn; lia). eexists _, _. reflexivity.
  Qed.
  Lemma point_mixed LC k : defgrad LC = lc -> inb s k ->
    point_stress LC (space_material none' fw s0 (sp_gradient kd fw o)) (value1 h x k) =
    Ok (mixed (lc (value1 h x k)) (point_P (lc (value1 h x k))) X0 X2).
  Proof.
    intros E Hk. destruct (points_evaluate k Hk) as [P [svn EP]].
    unfold point_stress, point_P. rewrite E.
    transitivity (match snd (full_only (sp_gradient kd fw o) (lc (value1 h x k)) none' s0) with
      | Ok (P, _) => lc_stress (lc (value1 h x k)) P | Raise e => Raise e end); [reflexivity|].
    rewrite EP. reflexivity.
  Qed.
End Points.

Lemma map_r_all {A B} (f : A -> Result B) (g : A -> B) l : (forall a, In a l -> f a = Ok (g a)) -> map_r f l = Ok (map g l).
Proof.
  induction l as [|a l IH]; intros H; [reflexivity|]. cbn [map_r map]. rewrite (H a) by (now left). cbn [rbind].
  rewrite IH by (intros; apply H; now right). reflexivity.
Qed.
Lemma entries_ext h h' x n : field h x iS [n] -> untouched h h' -> entries h' x n = entries h x n.
Proof. intros H X. unfold entries. apply map_ext. intros p. exact (value_ext h h' x iS [n] [p] tt H X). Qed.

(** For every material on arrays that acts pointwise (C45: the library's do) and every one-dimensional
    array of stretches.  [m]: length of the stress array, 1 if no entry depends on the deformation. *)
Theorem C52_pointwise : forall ST SV (sv_at : ST -> index -> SV) kd (mat : NDMat ST) (fw : Framework SV) o none none'
    nlc lc sim material params h x n m,
  In (nlc, lc) loadcases -> defgrad (si_loadcase sim) = lc ->
  same_material sim material params kd mat fw o none none' -> finalize o = true -> (forall k, sv_at none k = none') ->
  field h x iS [n] -> m = n \/ m = 1%nat ->
  (forall h' F, field h' F i33 [1%nat; n] ->
     (forall p, (p < n)%nat -> exists l, In l (entries h x n) /\ value33 h' F [0%nat; p] = lc l) ->
     gradient_pointwise sv_at kd mat fw o [1%nat; n] [1%nat; m] h' F none) ->
  simulates_array nlc sim material params h x n.
Proof.
  intros ST SV sv_at kd mat fw o none none' nlc lc sim material params h x n m HI HE [HM1 [s0 HM2]] Hf Hn Hx Hm HG.
  assert (HL := loadcase_points nlc lc HI).
  set (Dom := fun F => exists l, In l (entries h x n) /\ F = lc l).
  assert (Sz : size [n] = n) by (cbn; lia).
  assert (HD : forall k, inb [n] k -> Dom (lc (value1 h x k))).
  { intros [|p [|]] Hk; cbn in Hk; try tauto. exists (value1 h x [p]). split; [|reflexivity].
    apply in_map_iff. exists p. split; [reflexivity|]. apply in_seq. lia. }
  assert (HG' : forall h F, field h F i33 [1%nat; size [n]] -> (forall p, (p < size [n])%nat -> Dom (value33 h F [0%nat; p])) ->
      gradient_pointwise sv_at kd mat fw o [1%nat; size [n]] [1%nat; m] h F none).
  { rewrite Sz. exact HG. }
  assert (Hb : broadcast_shapes [m] [n] = Ok [n]).
  { apply broadcast_sub_l. unfold sub. cbn. tauto. }
  pose proof (space_points sv_at kd mat fw o none none' s0 Hf Hn Dom (size [n]) m HG') as MP.
  destruct (fit_general nlc lc HL (si_labels sim) material params _ HM1 _ Dom h x [n] m Hx MP HD [n] Hb)
    as [h' [r [E [X [R1 [R2 R3]]]]]].
  exists h', r. split; [exact E|]. split; [exact X|]. split; [exact R1|]. split; [exact R2|].
  split; [now apply entries_ext|].
  unfold stress_curve_fit. rewrite HM2. cbn [rbind]. unfold entries at 1.
  rewrite (map_r_all _ (fun l => mixed (lc l) (point_P kd fw o none' s0 (lc l)) X0 X2)).
  - unfold entries. rewrite map_map. f_equal. apply map_ext_in. intros p Hp. apply in_seq in Hp.
    assert (Kp : inb [n] [p]) by (cbn; lia).
    rewrite (R3 [p] Kp p).
    + rewrite (proj_self [n] [p] Kp). replace (unravel [n] p) with [p] by (cbn [unravel size]; now rewrite Nat.div_1_r). reflexivity.
    + rewrite Sz. lia.
    + unfold proj. cbn [rev app projr]. destruct (Nat.eqb m 1); reflexivity.
  - intros l Hl. apply in_map_iff in Hl. destruct Hl as [p [<- Hp]]. apply in_seq in Hp.
    apply (point_mixed sv_at kd mat fw o none none' s0 Hf Hn nlc lc HL h x [n] m Hx Dom HD HG' _ [p] HE). cbn. lia.
Qed.
Print Assumptions C52_pointwise.

(** *** The library's models *)
Lemma out_shape_row n kd o b : exists m, (m = n \/ m = 1%nat) /\
  out_shape [1%nat; n] (tail_axes b [1%nat; n]) kd o = [1%nat; m].
Proof.
  unfold out_shape, stress_shape, tail_axes, ones. destruct kd, (finalize o), (force o), (area o), b; cbn; eauto.
Qed.
(** ThirdOrderDeformation with any parameters, in every space and configuration that accepts it. *)
Theorem C52_third_order : forall (m : TOD) kd o nlc lc sim material params h x n,
  In (nlc, lc) loadcases -> defgrad (si_loadcase sim) = lc ->
  same_material sim material params kd (nd_invariants (nd_tod m)) (invariants_fw (tod_model m)) o tt tt ->
  finalize o = true -> ~ blocked_gradient kd o (stress_varies m) [1%nat; n] -> field h x iS [n] ->
  simulates_array nlc sim material params h x n.
Proof.
  intros m kd o nlc lc sim material params h x n HI HE HM Hf NB Hx.
  destruct (out_shape_row n kd o (stress_varies m)) as [l [Hl El]].
  apply (C52_pointwise unit unit (fun s _ => s) kd _ _ o tt tt nlc lc sim material params h x n l HI HE HM Hf (fun _ => eq_refl) Hx Hl).
  intros h' F HF _. rewrite <- El. apply C45_third_order_gradient; [exact HF|].
  intros Y1 Y2 Y3 Y4. destruct (shp_dec (tail_axes (stress_varies m) [1%nat; n]) [1%nat; n]) as [|N]; [assumption|].
  apply tail_T in N. exfalso. apply NB. unfold blocked_gradient. tauto.
Qed.
Print Assumptions C52_third_order.
(** Ogden. *)
Theorem C52_ogden : forall lapack (m : Ogden) kd o nlc lc sim material params h x n,
  In (nlc, lc) loadcases -> defgrad (si_loadcase sim) = lc ->
  same_material sim material params kd (nd_stretches lapack (nd_ogden m)) (stretches_fw lapack (ogden_model m)) o tt tt ->
  finalize o = true -> field h x iS [n] ->
  simulates_array nlc sim material params h x n.
Proof.
  intros lapack m kd o nlc lc sim material params h x n HI HE HM Hf Hx.
  apply (C52_pointwise unit unit (fun s _ => s) kd _ _ o tt tt nlc lc sim material params h x n n HI HE HM Hf (fun _ => eq_refl) Hx (or_introl eq_refl)).
  intros h' F HF _. now apply C45_ogden_gradient.
Qed.
Print Assumptions C52_ogden.
(** GeneralizedInvariantsModel with ThirdOrderDeformation and positive stretches. *)
Lemma loadcase_invertible nlc lc l : In (nlc, lc) loadcases -> 0 < l -> invertible (lc l).
Proof.
  intros [E|[E|[E|[]]]] Hl; injection E as _ <-; unfold invertible.
  - destruct (C35_uniaxial l Hl) as (_ & _ & D). cbn in D. rewrite D. lra.
  - destruct (C35_planar l Hl) as (_ & _ & D). cbn in D. rewrite D. lra.
  - destruct (C35_biaxial l Hl) as (_ & _ & D). cbn in D. rewrite D. lra.
Qed.
Theorem C52_generalized : forall lapack (m : TOD) (f : measure) c kd o nlc lc sim material params h x n,
  lapack_legal lapack -> In (nlc, lc) loadcases -> defgrad (si_loadcase sim) = lc ->
  same_material sim material params kd (nd_stretches lapack (nd_gen (nd_tod m) (nd_meas f) c))
    (stretches_fw lapack (gen_model (tod_model m) (meas f) c)) o tt tt ->
  finalize o = true -> field h x iS [n] -> (forall l, In l (entries h x n) -> 0 < l) ->
  simulates_array nlc sim material params h x n.
Proof.
  intros lapack m f c kd o nlc lc sim material params h x n HL HI HE HM Hf Hx HP.
  apply (C52_pointwise unit unit (fun s _ => s) kd _ _ o tt tt nlc lc sim material params h x n n HI HE HM Hf (fun _ => eq_refl) Hx (or_introl eq_refl)).
  intros h' F HF HD. apply C45_generalized_gradient; auto.
  intros k Hk. destruct k as [|a [|p [|]]]; cbn in Hk; try tauto. replace a with 0%nat by lia.
  destruct (HD p) as [l [H1 H2]]; [tauto|]. rewrite H2. apply (loadcase_invertible nlc lc l HI). auto.
Qed.
Print Assumptions C52_generalized.

(** *** Stretches that are not one-dimensional arrays.
    [point_result sim params l P]: the object returned by the material function returns the stress
    tensor [P] for the stretch [l].  [acts_on]: the array code of the material acts pointwise (C45)
    on the deformation gradients of the stretches in [x], and returns one tensor per gradient. *)
Definition point_result (sim : SimStatic) (params : list R) (l : R) (P : T2) : Prop :=
  exists mat sv, si_material sim (kwargs_of (si_labels sim) params) = Ok mat /\
    snd (mat_gradient mat (defgrad (si_loadcase sim) l) (mat_none mat) (mat_now mat)) = Ok (P, sv).
Definition acts_on {ST SV} (sv_at : ST -> index -> SV) (kd : SpaceKind) (mat : NDMat ST) (fw : Framework SV) (o : SpaceOpts)
    (none : ST) (lc : R -> T2) (h : heap) (x : nd) (s : shape) : Prop :=
  forall h' F, field h' F i33 [1%nat; size s] ->
    (forall p, (p < size s)%nat -> exists k, inb s k /\ value33 h' F [0%nat; p] = lc (value1 h x k)) ->
    gradient_pointwise sv_at kd mat fw o [1%nat; size s] [1%nat; size s] h' F none.
(** The library's models do. *)
Theorem C52_library_acts : forall lapack kd o nlc lc h x s, In (nlc, lc) loadcases ->
  (forall m : TOD, finalize o = true -> force o = Deformed ->
     acts_on (fun (u : unit) _ => u) kd (nd_invariants (nd_tod m)) (invariants_fw (tod_model m)) o tt lc h x s) /\
  (forall m : Ogden,
     acts_on (fun (u : unit) _ => u) kd (nd_stretches lapack (nd_ogden m)) (stretches_fw lapack (ogden_model m)) o tt lc h x s) /\
  (forall (m : TOD) (f : measure) c, lapack_legal lapack -> (forall k, inb s k -> 0 < value1 h x k) ->
     acts_on (fun (u : unit) _ => u) kd (nd_stretches lapack (nd_gen (nd_tod m) (nd_meas f) c))
       (stretches_fw lapack (gen_model (tod_model m) (meas f) c)) o tt lc h x s).
Proof.
  intros lapack kd o nlc lc h x s HI. split; [|split].
  - intros m Hf Ho h' F HF _.
    assert (E : out_shape [1%nat; size s] (tail_axes (stress_varies m) [1%nat; size s]) kd o = [1%nat; size s]).
    { unfold out_shape, stress_shape. rewrite Hf, Ho. destruct kd; reflexivity. }
    rewrite <- E at 2. apply C45_third_order_gradient; [exact HF|]. unfold roomy_g. rewrite Ho. intuition congruence.
  - intros m h' F HF _. now apply C45_ogden_gradient.
  - intros m f c HL HP h' F HF HD. apply C45_generalized_gradient; auto.
    intros k Hk. destruct k as [|a [|p [|]]]; cbn in Hk; try tauto. replace a with 0%nat by lia.
    destruct (HD p) as [k [H1 H2]]; [tauto|]. rewrite H2. apply (loadcase_invertible nlc lc _ HI). auto.
Qed.
Print Assumptions C52_library_acts.
Section Shapes.
  Context {ST SV : Type} (sv_at : ST -> index -> SV) (kd : SpaceKind) (nmat : NDMat ST) (fw : Framework SV) (o : SpaceOpts) (none : ST) (none' : SV)
    (nlc : nd -> M nd) (lc : R -> T2) (sim : SimStatic)
    (material : Dict -> Result (nd -> M nd)) (params : list R) (h : heap) (x : nd) (s : shape)
    (HI : In (nlc, lc) loadcases) (HE : defgrad (si_loadcase sim) = lc)
    (HM : same_material sim material params kd nmat fw o none none')
    (Hf : finalize o = true) (Hn : forall k, sv_at none k = none') (HA : acts_on sv_at kd nmat fw o none lc h x s) (Hx : field h x iS s).
  Let Dom : T2 -> Prop := fun F => exists k, inb s k /\ F = lc (value1 h x k).
  Lemma any_grad : forall h F, field h F i33 [1%nat; size s] -> (forall p, (p < size s)%nat -> Dom (value33 h F [0%nat; p])) ->
    gradient_pointwise sv_at kd nmat fw o [1%nat; size s] [1%nat; size s] h F none.
  Proof. exact HA. Qed.
  Lemma any_dom : forall k, inb s k -> Dom (lc (value1 h x k)).
  Proof. intros k Hk. exists k. auto. Qed.
  Lemma any_shape u : broadcast_shapes [size s] s = Ok u ->
    returns h (nd_stress_curve_fit nlc (si_labels sim) material x params) (fun r h' =>
      fresh h h' r /\ field h' r iS u /\
      forall k, inb u k -> forall q, (q < size s)%nat -> proj [size s] k = [if Nat.eqb (size s) 1 then 0%nat else q] ->
        exists P, point_result sim params (value1 h x (unravel s q)) P /\
          value1 h' r k = mixed (lc (value1 h x (proj s k))) P X0 X2).
  Proof.
    intros Hu. destruct HM as [HM1 [s0 HM2]]. assert (HL := loadcase_points nlc lc HI).
    pose proof (space_points sv_at kd nmat fw o none none' s0 Hf Hn Dom (size s) (size s) any_grad) as MP.
    destruct (fit_general nlc lc HL (si_labels sim) material params _ HM1 _ Dom h x s (size s) Hx MP any_dom u Hu)
      as [h' [r [E [X [R1 [R2 R3]]]]]].
    exists h', r. split; [exact E|]. split; [exact X|]. split; [exact R1|]. split; [exact R2|].
    intros k Hk q Hq Hp. rewrite (R3 k Hk q Hq Hp).
    destruct (points_evaluate sv_at kd nmat fw o none none' s0 Hf Hn nlc lc HL h x s (size s) Hx
      Dom any_dom any_grad (unravel s q) (unravel_in s q Hq)) as [P [svn EP]].
    exists P. split.
    - exists (space_material none' fw s0 (sp_gradient kd fw o)), svn.
      split; [exact HM2|]. rewrite HE. exact EP.
    - unfold point_P. rewrite EP. reflexivity.
  Qed.
  Lemma shape_raises : broadcast_shapes [size s] s = Raise ValueError ->
    raises h (nd_stress_curve_fit nlc (si_labels sim) material x params) ValueError.
  Proof.
    intros Hu. destruct HM as [HM1 [s0 HM2]]. assert (HL := loadcase_points nlc lc HI).
    pose proof (space_points sv_at kd nmat fw o none none' s0 Hf Hn Dom (size s) (size s) any_grad) as MP.
    exact (fit_raises nlc lc HL (si_labels sim) material params _ HM1 _ Dom h x s (size s) Hx MP any_dom Hu).
  Qed.
End Shapes.
(** A number (0-d array): an array of length one with its stress. *)
Theorem C52_number : forall ST SV (sv_at : ST -> index -> SV) kd (mat : NDMat ST) (fw : Framework SV) o none none' nlc lc sim material params h x,
  In (nlc, lc) loadcases -> defgrad (si_loadcase sim) = lc ->
  same_material sim material params kd mat fw o none none' -> finalize o = true -> (forall k, sv_at none k = none') ->
  acts_on sv_at kd mat fw o none lc h x [] -> field h x iS [] ->
  returns h (nd_stress_curve_fit nlc (si_labels sim) material x params) (fun r h' =>
    fresh h h' r /\ field h' r iS [1%nat] /\
    stress_curve_fit sim [value1 h x []] params = Ok [value1 h' r [0%nat]]).
Proof.
  intros ST SV sv_at kd nmat fw o none none' nlc lc sim material params h x HI HE HM Hf Hn HA Hx.
  destruct (any_shape sv_at kd nmat fw o none none' nlc lc sim material params h x [] HI HE HM Hf Hn HA Hx [1%nat] eq_refl) as [h' [r [E [X [R1 [R2 R3]]]]]].
  exists h', r. split; [exact E|]. split; [exact X|]. split; [exact R1|]. split; [exact R2|].
  destruct (R3 [0%nat] (conj (le_n 1) I) 0%nat (le_n 1) eq_refl) as [P [[mat [sv [Em EP]]] ->]].
  unfold stress_curve_fit. rewrite Em. cbn [rbind map_r]. unfold point_stress. cbn [unravel] in EP. rewrite EP, HE. reflexivity.
Qed.
Print Assumptions C52_number.
(** A column of [n >= 2] stretches: not the [n] stresses but an (n, n) array that combines the
    stress tensor of stretch [j] with the deformation gradient of stretch [i]. *)
Theorem C52_column : forall ST SV (sv_at : ST -> index -> SV) kd (mat : NDMat ST) (fw : Framework SV) o none none' nlc lc sim material params h x n,
  In (nlc, lc) loadcases -> defgrad (si_loadcase sim) = lc ->
  same_material sim material params kd mat fw o none none' -> finalize o = true -> (forall k, sv_at none k = none') ->
  acts_on sv_at kd mat fw o none lc h x [n; 1%nat] -> field h x iS [n; 1%nat] -> (2 <= n)%nat ->
  returns h (nd_stress_curve_fit nlc (si_labels sim) material x params) (fun r h' =>
    fresh h h' r /\ field h' r iS [n; n] /\
    forall i j, (i < n)%nat -> (j < n)%nat -> exists P, point_result sim params (value1 h x [j; 0%nat]) P /\
      let F := lc (value1 h x [i; 0%nat]) in value1 h' r [i; j] = P X0 X0 - P X2 X2 * F X2 X2 / F X0 X0).
Proof.
  intros ST SV sv_at kd nmat fw o none none' nlc lc sim material params h x n HI HE HM Hf Hz HA Hx Hn.
  assert (Sz : size [n; 1%nat] = n) by (cbn; lia).
  assert (Hu : broadcast_shapes [size [n; 1%nat]] [n; 1%nat] = Ok [n; n]).
  { rewrite Sz. unfold broadcast_shapes. cbn [rev app bcr]. unfold bdim. destruct (Nat.eqb_spec n 1); [lia|]. reflexivity. }
  destruct (any_shape sv_at kd nmat fw o none none' nlc lc sim material params h x _ HI HE HM Hf Hz HA Hx _ Hu) as [h' [r [E [X [R1 [R2 R3]]]]]].
  exists h', r. split; [exact E|]. split; [exact X|]. split; [exact R1|]. split; [exact R2|]. rewrite Sz in R3.
  intros i j Hi Hj. destruct (R3 [i; j]) with (q := j) as [P [H1 H2]].
  - cbn. lia.
  - exact Hj.
  - unfold proj. cbn [rev app projr]. destruct (Nat.eqb_spec n 1); [lia|]. reflexivity.
  - exists P. split.
    + replace [j; 0%nat] with (unravel [n; 1%nat] j); [exact H1|].
      rewrite <- (unravel_ravel [n; 1%nat] [j; 0%nat]) by (cbn; lia). f_equal. cbn. lia.
    + rewrite H2. unfold mixed. unfold proj. cbn [rev app projr Nat.eqb]. destruct (Nat.eqb_spec n 1); [lia|]. reflexivity.
Qed.
Print Assumptions C52_column.
(** Two axes of length at least 2: ValueError. *)
Theorem C52_matrix_raises : forall ST SV (sv_at : ST -> index -> SV) kd (mat : NDMat ST) (fw : Framework SV) o none none' nlc lc sim material params h x a b,
  In (nlc, lc) loadcases -> defgrad (si_loadcase sim) = lc ->
  same_material sim material params kd mat fw o none none' -> finalize o = true -> (forall k, sv_at none k = none') ->
  acts_on sv_at kd mat fw o none lc h x [a; b] -> field h x iS [a; b] -> (2 <= a)%nat -> (2 <= b)%nat ->
  raises h (nd_stress_curve_fit nlc (si_labels sim) material x params) ValueError.
Proof.
  intros ST SV sv_at kd nmat fw o none none' nlc lc sim material params h x a b HI HE HM Hf Hn HA Hx Ha Hb.
  apply (shape_raises sv_at kd nmat fw o none none' nlc lc sim material params h x [a; b] HI HM Hf Hn HA Hx).
  unfold broadcast_shapes. cbn [rev app bcr size]. unfold bdim.
  destruct (Nat.eqb_spec (a * (b * 1)) b); [nia|]. destruct (Nat.eqb_spec (a * (b * 1)) 1); [nia|].
  destruct (Nat.eqb_spec b 1); [lia|]. reflexivity.
Qed.
Print Assumptions C52_matrix_raises.

(** *** The material function of the documentation *)
Definition nd_tod_deformation (d : Dict) : Result (nd -> M nd) :=
  rbind (tod_of_kwargs d) (fun m => Ok (nd_space_stress KDeformation (nd_invariants (nd_tod m)) default_opts tt)).
Lemma documented_same sim params m : si_material sim = tod_deformation ->
  tod_of_kwargs (kwargs_of (si_labels sim) params) = Ok m ->
  same_material sim nd_tod_deformation params KDeformation (nd_invariants (nd_tod m)) (invariants_fw (SV := unit) (tod_model m)) default_opts tt tt.
Proof.
  intros E1 E2. split; [unfold nd_tod_deformation; now rewrite E2|]. rewrite E1. unfold tod_deformation. rewrite E2.
  eexists. reflexivity.
Qed.
Theorem C52_documented : forall nlc lc sim params m h x n, In (nlc, lc) loadcases -> defgrad (si_loadcase sim) = lc ->
  si_material sim = tod_deformation -> tod_of_kwargs (kwargs_of (si_labels sim) params) = Ok m -> field h x iS [n] ->
  simulates_array nlc sim nd_tod_deformation params h x n.
Proof.
  intros nlc lc sim params m h x n HI HE E1 E2 Hx.
  apply (C52_third_order m KDeformation default_opts nlc lc sim nd_tod_deformation params h x n HI HE (documented_same sim params m E1 E2) eq_refl); [|exact Hx].
  unfold blocked_gradient. cbn. intuition congruence.
Qed.
Print Assumptions C52_documented.
(** Hypotheses are met: two stretches 1 and 4, Neo-Hooke, uniaxial tension. *)
Definition nh_sim : SimStatic :=
  {| si_loadcase := Uniaxial None; si_stretch := []; si_labels := ["C10"%string]; si_material := tod_deformation |}.
Definition stretches_heap : heap := {| hnext := 1; hcell := fun _ k => match k with 0%nat :: _ => 1 | _ => 4 end |}.
Definition stretches_1d : nd := {| loc := 0; nshp := [2%nat]; vw := fun k => k |}.
Definition stretches_2d : nd := {| loc := 0; nshp := [2%nat; 1%nat]; vw := fun k => k |}.
Definition nh (c : R) : TOD := tod_init c 0 0 0 0 (nonzero 0).
Lemma nh_kwargs c : tod_of_kwargs (kwargs_of (si_labels nh_sim) [c]) = Ok (nh c).
Proof. reflexivity. Qed.
Example C52_example : entries stretches_heap stretches_1d 2 = [1; 4] /\
  simulates_array nd_uniaxial nh_sim nd_tod_deformation [/ 2] stretches_heap stretches_1d 2.
Proof.
  split; [reflexivity|]. apply (C52_documented nd_uniaxial uniaxial nh_sim [/ 2] (nh (/ 2))); cbn; auto.
  split; cbn; [lia|reflexivity].
Qed.
Lemma nh_P c F s : snd (full_only (sp_gradient KDeformation (invariants_fw (SV := unit) (tod_model (nh c))) default_opts) F tt s) =
  Ok (mscal (2 * c) F, tt).
Proof.
  rewrite full_outcome. cbn [seen]. destruct (tod_call (nh c) (Jv (right_CG F)) tt) as (g & E & H1 & H2 & H3).
  cbn [invariants_fw fw_gradient]. unfold outcome. rewrite (inv_gradient_ok _ _ _ _ _ _ E). cbn [snd].
  f_equal. f_equal. apply T2_ext; intros i j. unfold mmul, mscal, astensor, kS, vscal, gradv, sum3.
  rewrite H1, H2, H3. cbn [val dJv]. unfold nh, tod_init. cbn [C10 C01 C11 C20 C30 undeformed].
  destruct j; cbn; ring.
Qed.
(** The shape of the stretches is not kept in general: a (2, 1) array of stretches gives a (2, 2)
    array, and its entry (0, 1) is the stress of neither of the two stretches. *)
Theorem C52_shape_refuted : exists sim material params h x, field h x iS [2%nat; 1%nat] /\
  (forall i, (i < 2)%nat -> 0 < value1 h x [i; 0%nat]) /\
  returns h (nd_stress_curve_fit nd_uniaxial (si_labels sim) material x params) (fun r h' => field h' r iS [2%nat; 2%nat] /\
    exists f0 f1, stress_curve_fit sim [value1 h x [0%nat; 0%nat]; value1 h x [1%nat; 0%nat]] params = Ok [f0; f1] /\
      value1 h' r [0%nat; 1%nat] <> f0 /\ value1 h' r [0%nat; 1%nat] <> f1).
Proof.
  exists nh_sim, nd_tod_deformation, [/ 2], stretches_heap, stretches_2d.
  assert (HF : field stretches_heap stretches_2d iS [2%nat; 1%nat]) by (split; cbn; [lia|reflexivity]).
  split; [exact HF|]. split.
  { intros i Hi. unfold value1, value. cbn. destruct i; cbn; lra. }
  assert (S4 : sqrt 4 = 2) by (replace 4 with (2 * 2) by ring; apply sqrt_square; lra).
  destruct (C52_column unit unit (fun u _ => u) KDeformation (nd_invariants (nd_tod (nh (/ 2)))) (invariants_fw (tod_model (nh (/ 2))))
    default_opts tt tt nd_uniaxial uniaxial nh_sim nd_tod_deformation [/ 2]
    stretches_heap stretches_2d 2) as [h' [r [E [X [R1 [R2 R3]]]]]]; auto.
  { now left. } { apply documented_same; reflexivity. }
  { refine (proj1 (C52_library_acts (fun _ => ((fun _ => 1), one2)) KDeformation default_opts nd_uniaxial uniaxial _ _ _ _) (nh (/ 2)) eq_refl eq_refl). now left. }
  exists h', r. split; [exact E|]. split; [exact X|]. split; [exact R2|].
  destruct (R3 0%nat 1%nat) as [P [HP V]]; [lia|lia|]. cbv zeta in V.
  change (value1 stretches_heap stretches_2d [0%nat; 0%nat]) with 1 in V |- *.
  change (value1 stretches_heap stretches_2d [1%nat; 0%nat]) with 4 in HP |- *.
  assert (ES : stress_curve_fit nh_sim [1; 4] [/ 2] = Ok [0; 4 - / 4 ^ 2]).
  { rewrite (C38_uniaxial nh_sim [/ 2] (nh (/ 2)) [1; 4]).
    - cbn [map]. cbv zeta. unfold tod_W1, tod_W2, nh, tod_init. cbn [C10 C01 C11 C20 C30 undeformed].
      f_equal. f_equal; [field|f_equal; field].
    - split; [reflexivity|]. split; [now left|]. reflexivity.
    - intros l [<-|[<-|[]]]; lra. }
  exists 0, (4 - / 4 ^ 2). split; [exact ES|].
  assert (VP : P X0 X0 = 4 /\ P X2 X2 = / 2).
  { destruct HP as [mat [sv [Em EP]]]. cbn in Em. injection Em as <-.
    change (snd (full_only (sp_gradient KDeformation (invariants_fw (SV := unit) (tod_model (nh (/ 2)))) default_opts) (uniaxial 4) tt
      (space_self0 (invariants_fw (tod_model (nh (/ 2)))) inv_self0)) = Ok (P, sv)) in EP.
    rewrite nh_P in EP. injection EP as <- _. unfold mscal, uniaxial. rewrite S4. split; field. }
  destruct VP as [V0' V2']. rewrite V, V0', V2'. unfold uniaxial. rewrite sqrt_1. split; lra.
Qed.
Print Assumptions C52_shape_refuted.
(** A space with finalize=False returns (6, ...) arrays: every simulation with at least one stretch
    raises ValueError (the array either cannot be reshaped to (3, 3, -1) or has a wrong length). *)
Theorem C52_not_finalized_raises : forall ST SV (sv_at : ST -> index -> SV) kd (mat : NDMat ST) (fw : Framework SV) o none
    nlc lc sim material params h x n l,
  In (nlc, lc) loadcases ->
  material (kwargs_of (si_labels sim) params) = Ok (nd_space_stress kd mat o none) ->
  finalize o = false -> field h x iS [n] -> (1 <= n)%nat -> l = n \/ l = 1%nat ->
  (forall h' F, field h' F i33 [1%nat; n] ->
     (forall p, (p < n)%nat -> value33 h' F [0%nat; p] = lc (value1 h x [p])) ->
     gradient_pointwise sv_at kd mat fw o [1%nat; n] [1%nat; l] h' F none) ->
  raises h (nd_stress_curve_fit nlc (si_labels sim) material x params) ValueError.
Proof.
  intros ST SV sv_at kd mat fw o none nlc lc sim material params h x n l HI HM Hf Hx Hn Hl HG.
  destruct (loadcase_points nlc lc HI h x [n] Hx) as [h1 [F [E1 [X1' [F1 [F2 F3]]]]]].
  destruct (reshape_in h1 F [n] F2) as [F4 [E2 [G1 G2]]]. replace (size [n]) with n in * by (cbn; lia).
  destruct (HG h1 F4 G1) as [h2 [[P svn] [E3 [X2' [_ [H2 _]]]]]].
  { intros p Hp. rewrite (G2 p Hp). replace (unravel [n] p) with [p] by (cbn [unravel size]; now rewrite Nat.div_1_r).
    apply T2_ext; intros i j. exact (F3 [p] (conj Hp Logic.I) (i, j)). }
  unfold stress_kind in H2. rewrite Hf in H2.
  destruct H2 as [P1 P2]. cbn [idim i6 app] in P2.
  unfold raises, nd_stress_curve_fit, bind, lift. rewrite HM, E1, E2. unfold nd_space_stress, bind, ret. rewrite E3.
  unfold nd_reshape, bind, lift. rewrite P2. unfold reshape_shape. cbn [unknowns filter List.length known fold_right].
  change (3 * (3 * 1))%nat with 9%nat. cbn [Nat.eqb].
  replace (size [6; 1; l]%nat) with (6 * l)%nat by (cbn [size]; lia).
  destruct (Nat.eqb_spec ((6 * l) mod 9) 0) as [Z|Z]; [|exists h2; reflexivity].
  pose proof (Nat.div_mod (6 * l) 9 ltac:(lia)) as D. rewrite Z in D.
  assert (l = n) as ->. { destruct Hl as [->| ->]; [reflexivity|]. cbn in Z. lia. }
  cbn [map ret]. unfold ret, nd_lc_stress, bind, load. cbn [contents shp nshp].
  rewrite (v_lc_stress_raises _ _ [n] (6 * n / 9)).
  - exists h2. reflexivity.
  - cbn [shp contents]. exact (proj2 F2).
  - reflexivity.
  - unfold broadcast_shapes. cbn [rev app bcr]. unfold bdim.
    destruct (Nat.eqb_spec (6 * n / 9) n); [lia|]. destruct (Nat.eqb_spec (6 * n / 9) 1); [lia|].
    destruct (Nat.eqb_spec n 1); [lia|]. reflexivity.
Qed.
Print Assumptions C52_not_finalized_raises.
Theorem C52_not_finalized_library : forall lapack kd o nlc lc sim material params h x n,
  In (nlc, lc) loadcases -> finalize o = false -> field h x iS [n] -> (1 <= n)%nat ->
  (exists m : TOD, material (kwargs_of (si_labels sim) params) = Ok (nd_space_stress kd (nd_invariants (nd_tod m)) o tt)) \/
  (exists m : Ogden, material (kwargs_of (si_labels sim) params) = Ok (nd_space_stress kd (nd_stretches lapack (nd_ogden m)) o tt)) \/
  (exists (m : TOD) (f : measure) c, lapack_legal lapack /\ (forall l, In l (entries h x n) -> 0 < l) /\
     material (kwargs_of (si_labels sim) params) = Ok (nd_space_stress kd (nd_stretches lapack (nd_gen (nd_tod m) (nd_meas f) c)) o tt)) ->
  raises h (nd_stress_curve_fit nlc (si_labels sim) material x params) ValueError.
Proof.
  intros lapack kd o nlc lc sim material params h x n HI Hf Hx Hn [[m HM]|[[m HM]|[m [f [c [HL [HP HM]]]]]]].
  - destruct (out_shape_row n kd o (stress_varies m)) as [l [Hl El]].
    refine (C52_not_finalized_raises unit unit (fun s _ => s) kd _ (invariants_fw (tod_model m)) o tt nlc lc sim material params h x n l HI HM Hf Hx Hn Hl _).
    intros h' F HF _. rewrite <- El. apply C45_third_order_gradient; [exact HF|]. unfold roomy_g. rewrite Hf. intuition congruence.
  - refine (C52_not_finalized_raises unit unit (fun s _ => s) kd _ (stretches_fw lapack (ogden_model m)) o tt nlc lc sim material params h x n n HI HM Hf Hx Hn (or_introl eq_refl) _).
    intros h' F HF _. now apply C45_ogden_gradient.
  - refine (C52_not_finalized_raises unit unit (fun s _ => s) kd _ (stretches_fw lapack (gen_model (tod_model m) (meas f) c)) o tt nlc lc sim material params h x n n HI HM Hf Hx Hn (or_introl eq_refl) _).
    intros h' F HF HD. apply C45_generalized_gradient; auto.
    intros k Hk. destruct k as [|a [|p [|]]]; cbn in Hk; try tauto. replace a with 0%nat by lia.
    rewrite HD by tauto. apply (loadcase_invertible nlc lc _ HI). apply HP. apply in_map_iff. exists p. split; [reflexivity|]. apply in_seq. lia.
Qed.
Print Assumptions C52_not_finalized_library.
