(** * Properties C35 - C44: the lab. *)
From Coq Require Import Reals Lra List String ZArith Bool Permutation Lia.
From Coquelicot Require Import Coquelicot.
From Verif Require Import Tensor Py Voigt Algebra Calc Models Frameworks Spaces Spec ModelProofs InvCore InvProofs IsoProofs SpaceCore HistProofs
  VCalc Lab LabSpec LabMech LabOpt LabFit LabCurves.
Import ListNotations.
Local Open Scope R_scope.

(** ** C35 *)
Theorem C35_uniaxial : forall l, 0 < l ->
  defgrad (Uniaxial None) l = dgm l (1 / sqrt l) (1 / sqrt l) /\ diagonal (defgrad (Uniaxial None) l) /\ det3 (defgrad (Uniaxial None) l) = 1.
Proof. exact (fun l P => conj (uniaxial_dg l) (conj (eq_ind_r diagonal (dgm_diagonal _ _ _) (uniaxial_dg l)) (uniaxial_det l P))). Qed.
Print Assumptions C35_uniaxial.
Theorem C35_planar : forall l, 0 < l ->
  defgrad (Planar None) l = dgm l 1 (1 / l) /\ diagonal (defgrad (Planar None) l) /\ det3 (defgrad (Planar None) l) = 1.
Proof. exact (fun l P => conj (planar_dg l) (conj (eq_ind_r diagonal (dgm_diagonal _ _ _) (planar_dg l)) (planar_det l (Rgt_not_eq _ _ P)))). Qed.
Print Assumptions C35_planar.
Theorem C35_biaxial : forall l, 0 < l ->
  defgrad (Biaxial None) l = dgm l l (1 / l ^ 2) /\ diagonal (defgrad (Biaxial None) l) /\ det3 (defgrad (Biaxial None) l) = 1.
Proof. exact (fun l P => conj (biaxial_dg l) (conj (eq_ind_r diagonal (dgm_diagonal _ _ _) (biaxial_dg l)) (biaxial_det l (Rgt_not_eq _ _ P)))). Qed.
Print Assumptions C35_biaxial.
Theorem C35_undeformed : forall lc, In lc [Uniaxial None; Planar None; Biaxial None] -> defgrad lc 1 = one2.
Proof. intros lc [<-|[<-|[<-|[]]]]; [exact uniaxial_1|exact planar_1|exact biaxial_1]. Qed.
Print Assumptions C35_undeformed.
Example C35_example : defgrad (Uniaxial None) 4 X0 X0 = 4 /\ defgrad (Uniaxial None) 4 X1 X1 = / 2.
Proof. cbn. split; [reflexivity|]. replace 4 with (2 * 2) by ring. rewrite sqrt_square by lra. field. Qed.

(** ** C36 *)
(** For every diagonal F (in particular the load cases), any pressure and any pair of axes. *)
Theorem C36_pressure : forall F P p axis traction_free i j, diagonal F -> det3 F <> 0 ->
  index3 axis = Ok i -> index3 traction_free = Ok j ->
  lc_stress_axes F (with_pressure F p P) axis traction_free = lc_stress_axes F P axis traction_free.
Proof. exact (fun F P p z z' i j => pressure_free F P p i j z z'). Qed.
Print Assumptions C36_pressure.
Theorem C36_load_cases : forall lc l P p, In lc [Uniaxial None; Planar None; Biaxial None] -> 0 < l ->
  lc_stress (defgrad lc l) (with_pressure (defgrad lc l) p P) = lc_stress (defgrad lc l) P.
Proof.
  intros lc l P p I Pl. unfold lc_stress. apply (pressure_free _ _ _ X0 X2); [| |reflexivity|reflexivity];
    (destruct I as [<-|[<-|[<-|[]]]]; [destruct (C35_uniaxial l Pl) as (_ & D & J)|destruct (C35_planar l Pl) as (_ & D & J)|destruct (C35_biaxial l Pl) as (_ & D & J)]);
    auto; rewrite J; lra.
Qed.
Print Assumptions C36_load_cases.
(** Every isotropic material is free of force in the undeformed state (at any stress level). *)
Theorem C36_undeformed : forall (SV : Type) sim p lc k (none : SV) fw Dom xs,
  simulates sim p lc k none fw -> incompressible_kind k -> isotropic_gradient fw Dom -> Dom one2 -> evaluates fw none one2 ->
  (forall x, In x xs -> lc x = one2) ->
  stress_curve_fit sim xs p = Ok (map (fun _ => 0) xs).
Proof. exact (fun SV sim p lc k none fw Dom xs => rest_force sim p lc k none fw Dom xs). Qed.
Print Assumptions C36_undeformed.
Lemma evaluates_tod m : evaluates (invariants_fw (tod_model (SV:=unit) m)) tt one2.
Proof.
  intro s. assert (S : sym2 one2) by (rewrite <- dgm_one; apply dgm_sym).
  destruct (tod_call m (invariants one2) tt) as (g & E & _). rewrite <- (Jv_full _ S) in E.
  exists (gradv (asvoigt one2) g), tt. cbn [invariants_fw fw_gradient]. unfold outcome. rewrite (inv_gradient_ok _ _ _ _ _ s E). reflexivity.
Qed.
Lemma isotropic_inv {SV} (m : InvModel SV) : isotropic_gradient (invariants_fw m) invertible.
Proof. intros Q C sv s HQ S D. exact (proj1 (invariants_isotropic m Q C sv s HQ S D)). Qed.
Example C36_example : forall c n, stress_curve_fit sim_ex (repeat 1 n) [c] = Ok (repeat 0 n).
Proof.
  intros c n. destruct (tod_simulates _ _ _ _ (sim_ex_tod c)) as (k & K & S).
  rewrite (C36_undeformed unit sim_ex [c] uniaxial k tt _ invertible (repeat 1 n) S K (isotropic_inv _)).
  - f_equal. induction n; cbn; f_equal; auto.
  - unfold invertible. rewrite <- dgm_one, dgm_det. lra.
  - apply evaluates_tod.
  - intros x I. apply repeat_spec in I. subst. exact uniaxial_1.
Qed.

(** ** C37.  [W] is the stored energy per unit volume as a function of C; the isochoric parts of the
    deformation gradients along the three load cases are these deformation gradients themselves,
    so that W(C(lambda)) is the stored energy for both spaces. *)
Theorem C37_uniaxial : forall (SV : Type) sim p k (none : SV) fw W Dom xs,
  simulates sim p uniaxial k none fw -> incompressible_kind k -> fw_gradient_of fw W Dom -> isotropic_gradient fw Dom ->
  (forall x, In x xs -> 0 < x /\ Dom (cauchy_green (uniaxial x))) ->
  exists fs, stress_curve_fit sim xs p = Ok fs /\
    List.Forall2 (fun x f => is_derive (fun t => W (cauchy_green (uniaxial t))) x f) xs fs.
Proof.
  intros SV sim p k none fw W Dom xs S K HG HI H. apply (simulate_points sim p uniaxial k none fw _ xs S). intros s x I.
  destruct (H x I) as [P D]. exact (uniaxial_D fw W Dom HG HI k _ x none s K (proj1 S) P D).
Qed.
Print Assumptions C37_uniaxial.
Theorem C37_planar : forall (SV : Type) sim p k (none : SV) fw W Dom xs,
  simulates sim p planar k none fw -> incompressible_kind k -> fw_gradient_of fw W Dom -> isotropic_gradient fw Dom ->
  (forall x, In x xs -> 0 < x /\ Dom (cauchy_green (planar x))) ->
  exists fs, stress_curve_fit sim xs p = Ok fs /\
    List.Forall2 (fun x f => is_derive (fun t => W (cauchy_green (planar t))) x f) xs fs.
Proof.
  intros SV sim p k none fw W Dom xs S K HG HI H. apply (simulate_points sim p planar k none fw _ xs S). intros s x I.
  destruct (H x I) as [P D]. exact (planar_D fw W Dom HG k _ x none s K (proj1 S) P D).
Qed.
Print Assumptions C37_planar.
Theorem C37_biaxial : forall (SV : Type) sim p k (none : SV) fw W Dom xs,
  simulates sim p biaxial k none fw -> incompressible_kind k -> fw_gradient_of fw W Dom -> isotropic_gradient fw Dom ->
  (forall x, In x xs -> 0 < x /\ Dom (cauchy_green (biaxial x))) ->
  exists fs, stress_curve_fit sim xs p = Ok fs /\
    List.Forall2 (fun x f => is_derive (fun t => W (cauchy_green (biaxial t))) x (2 * f)) xs fs.
Proof.
  intros SV sim p k none fw W Dom xs S K HG HI H. apply (simulate_points sim p biaxial k none fw _ xs S). intros s x I.
  destruct (H x I) as [P D]. exact (biaxial_D fw W Dom HG HI k _ x none s K (proj1 S) P D).
Qed.
Print Assumptions C37_biaxial.
Example C37_example : forall c xs, (forall x, In x xs -> 0 < x) -> exists fs, stress_curve_fit sim_ex xs [c] = Ok fs /\
  List.Forall2 (fun x f => is_derive (fun t => tod_energy (tod10 c) (invariants (cauchy_green (uniaxial t)))) x f) xs fs.
Proof.
  intros c xs P. destruct (tod_simulates _ _ _ _ (sim_ex_tod c)) as (k & K & S).
  apply (C37_uniaxial unit sim_ex [c] k tt _ (fun C => tod_energy (tod10 c) (invariants C)) (fun C => invertible C /\ everywhere (invariants C)) xs S K).
  - exact (inv_fw_grad _ _ _ (tod_grad (tod10 c))).
  - intros Q C sv s HQ SC [D _]. exact (isotropic_inv _ Q C sv s HQ SC D).
  - intros x I. split; [auto|]. split; [|exact Logic.I]. unfold invertible. rewrite uniaxial_dg, dgm_cg, dgm_det.
    pose proof (P x I) as Px. replace (_ * _ * _) with (det3 (uniaxial x) ^ 2) by (rewrite uniaxial_dg, dgm_det; ring). rewrite (uniaxial_det x Px). lra.
Qed.

(** ** C38 *)
Theorem C38_uniaxial : forall sim p m xs, tod_simulation sim uniaxial p m -> (forall l, In l xs -> 0 < l) ->
  stress_curve_fit sim xs p = Ok (map (fun l => let I1 := l ^ 2 + 2 / l in let I2 := 2 * l + 1 / l ^ 2 in
    2 * (l - 1 / l ^ 2) * (tod_W1 m I1 I2 + tod_W2 m I1 I2 / l)) xs).
Proof. intros sim p m xs T P. destruct (tod_simulates _ _ _ _ T) as (k & K & S). exact (uniaxial_curve sim p k tt _ _ _ xs S K (tod_W m) P). Qed.
Print Assumptions C38_uniaxial.
Theorem C38_planar : forall sim p m xs, tod_simulation sim planar p m -> (forall l, In l xs -> 0 < l) ->
  stress_curve_fit sim xs p = Ok (map (fun l => let I := l ^ 2 + 1 + 1 / l ^ 2 in
    2 * (l - 1 / l ^ 3) * (tod_W1 m I I + tod_W2 m I I)) xs).
Proof. intros sim p m xs T P. destruct (tod_simulates _ _ _ _ T) as (k & K & S). exact (planar_curve sim p k tt _ _ _ xs S K (tod_W m) P). Qed.
Print Assumptions C38_planar.
Theorem C38_biaxial : forall sim p m xs, tod_simulation sim biaxial p m -> (forall l, In l xs -> 0 < l) ->
  stress_curve_fit sim xs p = Ok (map (fun l => let I1 := 2 * l ^ 2 + 1 / l ^ 4 in let I2 := l ^ 4 + 2 / l ^ 2 in
    2 * (l - 1 / l ^ 5) * (tod_W1 m I1 I2 + l ^ 2 * tod_W2 m I1 I2)) xs).
Proof. intros sim p m xs T P. destruct (tod_simulates _ _ _ _ T) as (k & K & S). exact (biaxial_curve sim p k tt _ _ _ xs S K (tod_W m) P). Qed.
Print Assumptions C38_biaxial.
(** The same for every invariant-based model that returns W1 and W2 (not only the shipped one). *)
Theorem C38_any_invariant_model : forall (SV : Type) sim p k (none : SV) (m : InvModel SV) (W1 W2 : R -> R -> R) xs,
  simulates sim p uniaxial k none (invariants_fw m) -> incompressible_kind k ->
  (forall I1 I2, exists g svn, inv_call m (vec3 I1 I2 1) none = Ok (g, svn) /\ val (o3 g X0) = W1 I1 I2 /\ val (o3 g X1) = W2 I1 I2) ->
  (forall x, In x xs -> 0 < x) ->
  stress_curve_fit sim xs p = Ok (map (fun l => let I1 := l ^ 2 + 2 / l in let I2 := 2 * l + 1 / l ^ 2 in
    2 * (l - 1 / l ^ 2) * (W1 I1 I2 + W2 I1 I2 / l)) xs).
Proof. exact (fun SV sim p k none m W1 W2 xs => uniaxial_curve sim p k none m W1 W2 xs). Qed.
Print Assumptions C38_any_invariant_model.
(** Deformation and Distortional give the same curve: for every framework whose results do not
    depend on its history (C23: all shipped ones), every isochoric stretch, exceptions included. *)
Theorem C38_same_curve : forall (SV : Type) sim sim' p p' lc k k' (none : SV) fw xs,
  simulates sim p lc k none fw -> simulates sim' p' lc k' none fw -> incompressible_kind k -> incompressible_kind k' ->
  stateless_fw fw -> (forall x, In x xs -> diagonal (lc x) /\ det3 (lc x) = 1) ->
  stress_curve_fit sim xs p = stress_curve_fit sim' xs p'.
Proof.
  intros SV sim sim' p p' lc k k' none fw xs S S' K K' H D. apply (same_curve sim sim' p p' lc k k' none fw xs S S' K K'); [|exact D].
  intros s s' C. exact (proj1 (H C none s s')).
Qed.
Print Assumptions C38_same_curve.
(** The hypotheses hold for the documented five-parameter material. *)
Example C38_example : forall a b c d e,
  tod_simulation {| si_loadcase := Planar None; si_stretch := []; si_labels := ["C10"; "C01"; "C11"; "C20"; "C30"]%string; si_material := tod_distortional |}
    planar [a; b; c; d; e] (tod_init a b c d e false).
Proof.
  intros. split; [reflexivity|]. split; [right; reflexivity|]. unfold tod_of_kwargs, kw, kwargs_of, nonzero. cbn. destruct (Req_EM_T 0 0); [reflexivity|lra].
Qed.

(** ** C39 *)
Theorem C39_by_label : forall labels ps i k v, NoDup labels -> nth_error labels i = Some k -> nth_error ps i = Some v ->
  dict_get (kwargs_of labels ps) k = Some v.
Proof.
  intros labels ps i k v N El Ep. rewrite kwargs_last. apply (last_of_nth labels ps i k v El Ep). intros j Lj E.
  pose proof (proj1 (NoDup_nth_error labels) N i j) as X. assert (Li : (i < List.length labels)%nat) by (apply nth_error_Some; congruence).
  specialize (X Li (eq_trans El (eq_sym E))). lia.
Qed.
Print Assumptions C39_by_label.
Theorem C39_last_wins : forall labels ps i k v, nth_error labels i = Some k -> nth_error ps i = Some v ->
  (forall j, (i < j < List.length ps)%nat -> nth_error labels j <> Some k) -> dict_get (kwargs_of labels ps) k = Some v.
Proof. intros labels ps i k v El Ep H. rewrite kwargs_last. exact (last_of_nth labels ps i k v El Ep H). Qed.
Print Assumptions C39_last_wins.
(** Nothing else is passed: a keyword is passed only if it is a label with a parameter. *)
Theorem C39_only_labels : forall labels ps k v, dict_get (kwargs_of labels ps) k = Some v ->
  exists i, nth_error labels i = Some k /\ nth_error ps i = Some v.
Proof.
  intros labels ps k v E. rewrite kwargs_last in E. apply last_of_in in E.
  revert ps E. induction labels as [|a l IH]; intros [|b ps] I; try contradiction.
  destruct I as [X|I]; [injection X as -> ->; exists 0%nat; auto|]. destruct (IH ps I) as (i & A & B). exists (S i). auto.
Qed.
Print Assumptions C39_only_labels.
Theorem C39_surplus : forall labels ps extra, List.length labels = List.length ps -> kwargs_of labels (ps ++ extra) = kwargs_of labels ps.
Proof. intros labels ps extra L. unfold kwargs_of. rewrite combine_app_r by lia. reflexivity. Qed.
Print Assumptions C39_surplus.
Theorem C39_missing : forall labels extra ps, List.length labels = List.length ps -> kwargs_of (labels ++ extra) ps = kwargs_of labels ps.
Proof. intros labels extra ps L. unfold kwargs_of. rewrite combine_app_l by lia. reflexivity. Qed.
Print Assumptions C39_missing.
(** The order of the (label, parameter) pairs does not matter to a function of keywords. *)
Theorem C39_order : forall sim sim' ps ps' x, si_loadcase sim' = si_loadcase sim -> si_material sim' = si_material sim ->
  by_keyword (si_material sim) -> NoDup (si_labels sim) ->
  Permutation (combine (si_labels sim) ps) (combine (si_labels sim') ps') ->
  stress_curve_fit sim' x ps' = stress_curve_fit sim x ps.
Proof.
  intros sim sim' ps ps' x L Mt B N Pm. unfold stress_curve_fit. rewrite L, Mt. rewrite (B _ (kwargs_of (si_labels sim) ps)); [reflexivity|].
  intro k. symmetry. apply kwargs_perm; auto.
Qed.
Print Assumptions C39_order.
Theorem C39_documented_material : by_keyword tod_deformation /\ by_keyword tod_distortional /\
  (forall d k, dict_get d k <> None -> ~ In k tod_keywords -> tod_deformation d = Raise TypeError) /\
  (forall d, (forall k, dict_get d k <> None -> In k tod_keywords) ->
     tod_of_kwargs d = Ok (tod_init (kw d "C10") (kw d "C01") (kw d "C11") (kw d "C20") (kw d "C30") (nonzero (kw d "strain")))).
Proof.
  split; [exact (by_keyword_bind _ _ tod_by_keyword)|]. split; [exact (by_keyword_bind _ _ tod_by_keyword)|]. split; [|exact tod_known].
  intros d k H N. unfold tod_deformation. rewrite (tod_unknown d k H N). reflexivity.
Qed.
Print Assumptions C39_documented_material.
(** Permuted labels, a missing parameter (default 0) and a surplus parameter. *)
(** C38 with the parameters given by name: the labels are the five coefficient names in any order. *)
Lemma nth_label (labels : list string) (v : string -> R) k : In k labels -> exists i, nth_error labels i = Some k /\ nth_error (map v labels) i = Some (v k).
Proof. intro I. apply In_nth_error in I. destruct I as [i E]. exists i. split; [exact E|]. now apply map_nth_error. Qed.
Lemma named_simulation sim lc v : defgrad (si_loadcase sim) = lc -> (si_material sim = tod_deformation \/ si_material sim = tod_distortional) ->
  Permutation ["C10"; "C01"; "C11"; "C20"; "C30"]%string (si_labels sim) ->
  tod_simulation sim lc (map v (si_labels sim)) (tod_init (v "C10") (v "C01") (v "C11") (v "C20") (v "C30") false)%string.
Proof.
  intros L M P. split; [exact L|]. split; [exact M|].
  assert (N : NoDup (si_labels sim)).
  { apply (Permutation_NoDup P). repeat constructor; cbn; intuition discriminate. }
  assert (G : forall k, In k ["C10"; "C01"; "C11"; "C20"; "C30"]%string -> kw (kwargs_of (si_labels sim) (map v (si_labels sim))) k = v k).
  { intros k I. apply (Permutation_in _ P) in I. destruct (nth_label _ v k I) as (i & A & B). unfold kw. now rewrite (C39_by_label _ _ i k (v k) N A B). }
  assert (G0 : kw (kwargs_of (si_labels sim) (map v (si_labels sim))) "strain" = 0).
  { unfold kw. destruct (dict_get _ "strain") as [w|] eqn:E; [|reflexivity]. apply C39_only_labels in E. destruct E as (i & E & _).
    apply nth_error_In in E. apply (Permutation_in _ (Permutation_sym P)) in E. cbn in E. intuition discriminate. }
  rewrite (proj2 (proj2 (proj2 C39_documented_material))).
  - rewrite G0, !G by (cbn; tauto). unfold nonzero. destruct (Req_EM_T 0 0); [reflexivity|lra].
  - intros k E. destruct (dict_get _ k) as [w|] eqn:E'; [|congruence]. apply C39_only_labels in E'. destruct E' as (i & E' & _).
    apply nth_error_In in E'. apply (Permutation_in _ (Permutation_sym P)) in E'. cbn in *. intuition.
Qed.
Theorem C38_named_parameters : forall sim v xs, (si_material sim = tod_deformation \/ si_material sim = tod_distortional) ->
  Permutation ["C10"; "C01"; "C11"; "C20"; "C30"]%string (si_labels sim) -> (forall l, In l xs -> 0 < l) ->
  let W1 := fun I1 I2 : R => (v "C10" + v "C11" * (I2 - 3) + 2 * v "C20" * (I1 - 3) + 3 * v "C30" * (I1 - 3) ^ 2)%string in
  let W2 := fun I1 I2 : R => (v "C01" + v "C11" * (I1 - 3))%string in
  (defgrad (si_loadcase sim) = uniaxial -> stress_curve_fit sim xs (map v (si_labels sim)) =
    Ok (map (fun l => let I1 := l ^ 2 + 2 / l in let I2 := 2 * l + 1 / l ^ 2 in 2 * (l - 1 / l ^ 2) * (W1 I1 I2 + W2 I1 I2 / l)) xs)) /\
  (defgrad (si_loadcase sim) = planar -> stress_curve_fit sim xs (map v (si_labels sim)) =
    Ok (map (fun l => let I := l ^ 2 + 1 + 1 / l ^ 2 in 2 * (l - 1 / l ^ 3) * (W1 I I + W2 I I)) xs)) /\
  (defgrad (si_loadcase sim) = biaxial -> stress_curve_fit sim xs (map v (si_labels sim)) =
    Ok (map (fun l => let I1 := 2 * l ^ 2 + 1 / l ^ 4 in let I2 := l ^ 4 + 2 / l ^ 2 in 2 * (l - 1 / l ^ 5) * (W1 I1 I2 + l ^ 2 * W2 I1 I2)) xs)).
Proof.
  intros sim v xs M P X W1 W2.
  assert (E1 : forall a b, tod_W1 (tod_init (v "C10") (v "C01") (v "C11") (v "C20") (v "C30") false)%string a b = W1 a b) by (intros; unfold tod_W1, tod_init, W1; cbn; ring).
  assert (E2 : forall a b, tod_W2 (tod_init (v "C10") (v "C01") (v "C11") (v "C20") (v "C30") false)%string a b = W2 a b) by (intros; unfold tod_W2, tod_init, W2; cbn; ring).
  split; [|split]; intro L.
  - etransitivity; [exact (C38_uniaxial _ _ _ xs (named_simulation sim _ v L M P) X)|]. apply (f_equal (@Ok _)). apply map_ext. intro l. cbv zeta. now rewrite E1, E2.
  - etransitivity; [exact (C38_planar _ _ _ xs (named_simulation sim _ v L M P) X)|]. apply (f_equal (@Ok _)). apply map_ext. intro l. cbv zeta. now rewrite E1, E2.
  - etransitivity; [exact (C38_biaxial _ _ _ xs (named_simulation sim _ v L M P) X)|]. apply (f_equal (@Ok _)). apply map_ext. intro l. cbv zeta. now rewrite E1, E2.
Qed.
Print Assumptions C38_named_parameters.
(** A Simulation without parameters uses one for every label, one with parameters these. *)
Theorem C38_default_parameters : forall sims w i, let sim := sims i in
  (si_material sim = tod_deformation \/ si_material sim = tod_distortional) ->
  Permutation ["C10"; "C01"; "C11"; "C20"; "C30"]%string (si_labels sim) -> (forall l, In l (si_stretch sim) -> 0 < l) ->
  defgrad (si_loadcase sim) = uniaxial ->
  let curve := fun v : string -> R => map (fun l => let I1 := l ^ 2 + 2 / l in let I2 := 2 * l + 1 / l ^ 2 in
    2 * (l - 1 / l ^ 2) * ((v "C10" + v "C11" * (I2 - 3) + 2 * v "C20" * (I1 - 3) + 3 * v "C30" * (I1 - 3) ^ 2) +
      (v "C01" + v "C11" * (I1 - 3)) / l))%string (si_stretch sim) in
  (heap w (sim_par w i) = sim_init (si_labels sim) None -> simulation_stress sims w i = Ok (curve (fun _ => 1))) /\
  (forall (seq : Seq) v, elements seq = map v (si_labels sim) ->
     heap w (sim_par w i) = sim_init (si_labels sim) (Some seq) -> simulation_stress sims w i = Ok (curve v)).
Proof.
  intros sims w i sim Hm Hl Hx Hd curve. unfold simulation_stress. fold sim. split; [intro E|intros seq v Ev E]; rewrite E; cbn [sim_init elements].
  - exact (proj1 (C38_named_parameters sim (fun _ => 1) (si_stretch sim) Hm Hl Hx) Hd).
  - rewrite Ev. exact (proj1 (C38_named_parameters sim v (si_stretch sim) Hm Hl Hx) Hd).
Qed.
Print Assumptions C38_default_parameters.
Example C39_example : tod_of_kwargs (kwargs_of ["C20"; "C10"]%string [7; 8; 9]) = Ok (tod_init 8 0 0 7 0 false).
Proof. unfold tod_of_kwargs, kw, kwargs_of, nonzero. cbn. destruct (Req_EM_T 0 0); [reflexivity|lra]. Qed.

(** ** C40 *)
Theorem C40_stretch_stress : forall label d f area length e,
  experiment_init label (NdArray d) (NdArray f) area length = Ok e ->
  ex_stretch e = map (fun u => 1 + u / length) d /\ experiment_stress e = Ok (map (fun q => q / area) f).
Proof.
  intros label d f area length e E. unfold experiment_init in E; cbn [div_data rbind] in E. injection E as <-. cbn [ex_stretch]. rewrite map_map. split; reflexivity.
Qed.
Print Assumptions C40_stretch_stress.
Theorem C40_total : forall label d f area length, exists e, experiment_init label (NdArray d) (NdArray f) area length = Ok e /\
  List.length (ex_stretch e) = List.length d /\ exists s, experiment_stress e = Ok s /\ List.length s = List.length f.
Proof.
  intros. eexists. split; [reflexivity|]. cbn [ex_stretch]. rewrite !map_length. split; [reflexivity|]. eexists. split; [reflexivity|]. apply map_length.
Qed.
Print Assumptions C40_total.
Theorem C40_recover : forall label d f area length e s, length <> 0 -> area <> 0 ->
  experiment_init label (NdArray d) (NdArray f) area length = Ok e -> experiment_stress e = Ok s ->
  d = map (fun l => (l - 1) * length) (ex_stretch e) /\ f = map (fun q => q * area) s.
Proof.
  intros label d f area length e s NL NA E Es. destruct (C40_stretch_stress _ _ _ _ _ _ E) as [A B]. rewrite A. rewrite B in Es. injection Es as <-.
  rewrite !map_map. split; [rewrite <- (map_id d) at 1|rewrite <- (map_id f) at 1]; apply map_ext; intro y; field; auto.
Qed.
Print Assumptions C40_recover.
(** Other units: lengths times c, forces times g. *)
Theorem C40_units : forall label d f area length c g e e', length <> 0 -> area <> 0 -> c <> 0 ->
  experiment_init label (NdArray d) (NdArray f) area length = Ok e ->
  experiment_init label (NdArray (map (fun u => c * u) d)) (NdArray (map (fun q => g * q) f)) (c ^ 2 * area) (c * length) = Ok e' ->
  ex_stretch e' = ex_stretch e /\
  exists s, experiment_stress e = Ok s /\ experiment_stress e' = Ok (map (fun q => g / c ^ 2 * q) s).
Proof.
  intros label d f area length c g e e' NL NA NC E E'. destruct (C40_stretch_stress _ _ _ _ _ _ E) as [A B]. destruct (C40_stretch_stress _ _ _ _ _ _ E') as [A' B'].
  rewrite A, A', map_map. split; [apply map_ext; intro; field; auto|]. eexists. split; [exact B|]. rewrite B', !map_map. f_equal. apply map_ext. intro. field. auto.
Qed.
Print Assumptions C40_units.
(** Python lists (documented as array_like) are not accepted: displacement raises in the
    constructor, force only when the stress is asked for. *)
Theorem C40_python_lists : forall label d frc area length,
  experiment_init label (PyList d) frc area length = Raise TypeError /\
  forall disp f e, experiment_init label disp (PyList f) area length = Ok e -> experiment_stress e = Raise TypeError.
Proof.
  intros. split; [reflexivity|]. intros disp f e E. unfold experiment_init in E. destruct (div_data disp length); cbn [rbind] in E; [|discriminate].
  injection E as <-. reflexivity.
Qed.
Print Assumptions C40_python_lists.
Example C40_example : experiment_init "Uniaxial" (NdArray [0; 1; 1]) (NdArray [0; 7 / 4; 5]) 1 1 = Ok exp_ex.
Proof. destruct exp_ex_ok as (e & E & ->). exact E. Qed.

(** ** C41.  [terms] pairs each simulation with the selected points of its experiment; [f], [x],
    [y] are the arguments scipy.optimize.curve_fit is called with (the result of curve_fit
    depends on scipy only through this one call); its residual vector f(x, *p) - y is, for every p,
    the concatenation of the residuals of the terms. *)
Theorem C41_residual_vector : forall sims experiments simulations mask w, matching experiments simulations mask ->
  let ts := terms sims experiments simulations mask in
  let p0 := elements (heap w (op_par w)) in
  exists f x y,
    x = List.concat (map (fun t => map fst (snd t)) ts) /\ y = List.concat (map (fun t => map snd (snd t)) ts) /\
    (forall p, scipy_residuals f x y p = all_residuals ts p) /\
    (forall scipy scipy', scipy f x y p0 = scipy' f x y p0 ->
       curve_fit sims experiments simulations mask scipy w = curve_fit sims experiments simulations mask scipy' w) /\
    (forall scipy e, (exists r0, all_residuals ts p0 = Ok r0) -> scipy f x y p0 = Raise e ->
       snd (curve_fit sims experiments simulations mask scipy w) = Raise e).
Proof. exact scipy_called. Qed.
Print Assumptions C41_residual_vector.
Theorem C41_squares : forall ts p r, all_residuals ts p = Ok r -> total_squares ts p = Ok (sum_squares r).
Proof. intros ts p r E. rewrite squares_total, E. reflexivity. Qed.
Print Assumptions C41_squares.
(** Reordering the (simulation, mask, experiment) triples does not change the total. *)
Theorem C41_order : forall sims experiments simulations mask experiments' simulations' mask' p v,
  Permutation (combine simulations (combine mask experiments)) (combine simulations' (combine mask' experiments')) ->
  total_squares (terms sims experiments simulations mask) p = Ok v -> total_squares (terms sims experiments' simulations' mask') p = Ok v.
Proof. intros until v. intros Pm. apply total_squares_perm. unfold terms. apply Permutation_map. exact Pm. Qed.
Print Assumptions C41_order.
(** If scipy returns a minimiser of the residual vector it is given, the fitted parameters minimise
    the total sum of squares over all experiments. *)
Theorem C41_minimises : forall sims experiments simulations mask scipy w w' loc pcov, matching experiments simulations mask ->
  scipy_shapes scipy -> scipy_minimises scipy ->
  curve_fit sims experiments simulations mask scipy w = (w', Ok (loc, pcov)) -> (forall l, heap w (op_par w) <> IntArray l) ->
  exists v, total_squares (terms sims experiments simulations mask) (elements (heap w' loc)) = Ok v /\
    forall p v', List.length p = List.length (elements (heap w loc)) ->
      total_squares (terms sims experiments simulations mask) p = Ok v' -> v <= v'.
Proof. exact (fun sims experiments simulations mask scipy w w' loc pcov M HS => minimises sims experiments simulations mask scipy M HS w w' loc pcov). Qed.
Print Assumptions C41_minimises.
Example C41_example : scipy_shapes scipy_ex /\ scipy_minimises scipy_ex /\ matching [exp_ex] [0%nat] mask_ex /\
  exists w', curve_fit (fun _ => sim_ex) [exp_ex] [0%nat] mask_ex scipy_ex (world_ex (ListObj [3])) = (w', Ok (0%nat, [[Fin 4]])).
Proof. split; [exact scipy_ex_shapes|]. split; [exact scipy_ex_minimises|]. split; [exact matching_ex|]. exact (fit_ex (ListObj [3]) 3 eq_refl Logic.I). Qed.

(** ** C42.  Location [op_par w] is the object the user passed as parameters (an array of floats or
    a list).  Missing for the full claim: integer arrays (refuted below). *)
Theorem C42_reports_partial : forall sims experiments simulations mask scipy w w' loc pcov, matching experiments simulations mask -> scipy_shapes scipy ->
  curve_fit sims experiments simulations mask scipy w = (w', Ok (loc, pcov)) -> (forall l, heap w (op_par w) <> IntArray l) ->
  loc = op_par w /\ op_par w' = op_par w /\
  exists f x y popt, scipy f x y (elements (heap w (op_par w))) = Ok (popt, pcov) /\
    (forall p, scipy_residuals f x y p = all_residuals (terms sims experiments simulations mask) p) /\
    elements (heap w' (op_par w)) = popt /\
    (forall i, In i simulations -> sim_par w' i = op_par w /\
       simulation_stress sims w' i = stress_curve_fit (sims i) (si_stretch (sims i)) popt) /\
    (exists r, op_residuals w' = Some r /\ all_residuals (terms sims experiments simulations mask) popt = Ok r) /\
    op_errors w' = Some (map sqrt_ext (np_diag pcov)) /\
    (forall k, k <> op_par w -> heap w' k = heap w k).
Proof.
  intros sims experiments simulations mask scipy w w' loc pcov M HS E NI.
  destruct (success_reports sims experiments simulations mask scipy M HS w w' loc pcov E NI) as (A & B & popt & Es & X).
  split; [exact A|]. split; [exact B|]. do 3 eexists. exists popt. split; [exact Es|]. split; [|exact X]. intro p. apply (handed sims experiments simulations mask p M).
Qed.
Print Assumptions C42_reports_partial.
(** The errors are the standard deviations: square roots of the variances on the diagonal of the
    covariance matrix; nan where the variance is negative or nan, inf where it is infinite. *)
Inductive deviation : Ext -> Ext -> Prop :=
| dev_root x y : 0 <= y -> y * y = x -> deviation (Fin x) (Fin y)
| dev_negative x : x < 0 -> deviation (Fin x) NaN
| dev_inf : deviation Inf Inf
| dev_nan : deviation NaN NaN.
Lemma diag_nth rows : forall k i row v, nth_error rows i = Some row -> nth_error row (k + i) = Some v -> nth_error (diag_from k rows) i = Some v.
Proof.
  induction rows as [|r rows IH]; intros k i row v Hr Hv; [destruct i; discriminate|]. destruct i as [|i]; cbn [nth_error] in Hr.
  - injection Hr as ->. cbn [diag_from nth_error]. rewrite Nat.add_0_r in Hv. f_equal. apply nth_error_nth with (d := NaN) in Hv. exact Hv.
  - cbn [diag_from nth_error]. apply (IH (S k) i row v Hr). rewrite Nat.add_succ_comm. exact Hv.
Qed.
Lemma diag_length rows : forall k, List.length (diag_from k rows) = List.length rows.
Proof. induction rows as [|r rows IH]; intro k; [reflexivity|]. cbn. rewrite IH. reflexivity. Qed.
Lemma sqrt_deviation v : deviation v (sqrt_ext v).
Proof.
  destruct v as [x| |]; cbn [sqrt_ext]; try constructor. destruct (Rle_dec 0 x); constructor; [apply sqrt_pos|apply sqrt_sqrt; auto|lra].
Qed.
Theorem C42_errors : forall sims experiments simulations mask scipy w w' loc pcov, matching experiments simulations mask -> scipy_shapes scipy ->
  curve_fit sims experiments simulations mask scipy w = (w', Ok (loc, pcov)) -> (forall l, heap w (op_par w) <> IntArray l) ->
  exists es, op_errors w' = Some es /\ List.length es = List.length pcov /\
    forall i row v, nth_error pcov i = Some row -> nth_error row i = Some v -> exists e, nth_error es i = Some e /\ deviation v e.
Proof.
  intros sims experiments simulations mask scipy w w' loc pcov M HS E NI.
  destruct (C42_reports_partial sims experiments simulations mask scipy w w' loc pcov M HS E NI) as (_ & _ & f & x & y & popt & _ & _ & _ & _ & _ & HE & _).
  exists (map sqrt_ext (np_diag pcov)). split; [exact HE|]. split; [rewrite map_length; apply diag_length|].
  intros i row v Hr Hv. exists (sqrt_ext v). split; [|apply sqrt_deviation]. rewrite nth_error_map. unfold np_diag. rewrite (diag_nth pcov 0 i row v Hr Hv). reflexivity.
Qed.
Print Assumptions C42_errors.
Theorem C42_norm : forall sims experiments simulations mask scipy w w' loc pcov, matching experiments simulations mask -> scipy_shapes scipy ->
  curve_fit sims experiments simulations mask scipy w = (w', Ok (loc, pcov)) -> (forall l, heap w (op_par w) <> IntArray l) ->
  exists v, total_squares (terms sims experiments simulations mask) (elements (heap w' loc)) = Ok v /\ norm_residuals w' = Ok (sqrt v).
Proof. exact (fun sims experiments simulations mask scipy w w' loc pcov M HS => norm_reports sims experiments simulations mask scipy M HS w w' loc pcov). Qed.
Print Assumptions C42_norm.
(** With an array of integers (e.g. np.array([1, 1])) the parameters are rounded towards zero, while
    the residuals are those of the optimum that was thrown away. *)
Theorem C42_integers : forall sims experiments simulations mask scipy w w' loc pcov l, matching experiments simulations mask -> scipy_shapes scipy ->
  curve_fit sims experiments simulations mask scipy w = (w', Ok (loc, pcov)) -> heap w (op_par w) = IntArray l ->
  exists f x y popt, scipy f x y (elements (heap w (op_par w))) = Ok (popt, pcov) /\
    elements (heap w' (op_par w)) = map (fun v => IZR (trunc v)) popt /\
    (exists r, op_residuals w' = Some r /\ all_residuals (terms sims experiments simulations mask) popt = Ok r).
Proof.
  intros sims experiments simulations mask scipy w w' loc pcov l M HS E HI.
  destruct (success_integers sims experiments simulations mask scipy M HS w w' loc pcov l E HI) as (popt & X). do 3 eexists. exists popt. exact X.
Qed.
Print Assumptions C42_integers.
Theorem C42_integers_refuted : exists sims experiments simulations mask scipy w w' loc pcov,
  matching experiments simulations mask /\ scipy_shapes scipy /\ scipy_minimises scipy /\
  curve_fit sims experiments simulations mask scipy w = (w', Ok (loc, pcov)) /\
  elements (heap w loc) = [1] /\ elements (heap w' loc) = [0] /\
  op_residuals w' = Some [0; 0] /\ all_residuals (terms sims experiments simulations mask) (elements (heap w' loc)) = Ok [0; - (7 / 4)].
Proof.
  exists (fun _ => sim_ex), [exp_ex], [0%nat], mask_ex, scipy_ex, (world_ex (IntArray [1%Z])).
  destruct (fit_ex (IntArray [1%Z]) 1 eq_refl Logic.I) as (w' & E). exists w', 0%nat, [[Fin 4]].
  split; [exact matching_ex|]. split; [exact scipy_ex_shapes|]. split; [exact scipy_ex_minimises|]. split; [exact E|]. split; [reflexivity|].
  destruct (success_inv (fun _ => sim_ex) [exp_ex] [0%nat] mask_ex scipy_ex matching_ex scipy_ex_shapes _ _ _ E) as (popt & pc & r & v & Q & Es & Er & St & _ & _ & ->).
  assert (P : popt = [1 / 2]).
  { unfold scipy_ex in Es at 1. cbn [world_ex heap op_par elements map] in Es. destruct (scipy_residuals _ _ _ _); [|discriminate].
    destruct (Req_EM_T _ 0); [|discriminate]. injection Es as <- _. reflexivity. }
  subst popt. rewrite residuals_ex in Er. injection Er as Er.
  assert (T : trunc (1 / 2) = 0%Z).
  { unfold trunc. destruct (Rle_dec 0 (1 / 2)); [|lra]. pose proof (base_Int_part (1 / 2)) as [A B].
    assert (X : IZR (Int_part (1 / 2)) < IZR 1) by lra. apply lt_IZR in X. assert (Y : IZR (-1) < IZR (Int_part (1 / 2))) by lra. apply lt_IZR in Y. lia. }
  cbn [world_ex heap op_par setitem_all assign_all List.length Nat.eqb map rbind] in St. rewrite T in St. injection St as <-.
  assert (H0 : elements (heap (done [exp_ex] [0%nat] mask_ex (world_ex (IntArray [1%Z])) (IntArray [0%Z]) pc r) 0%nat) = [0]) by reflexivity.
  rewrite H0. split; [reflexivity|]. split.
  - cbn [done op_residuals]. rewrite <- Er. f_equal. f_equal. f_equal. field.
  - rewrite residuals_ex. f_equal. f_equal. f_equal. field.
Qed.
Print Assumptions C42_integers_refuted.
(** A tuple of parameters always raises (after the optimisation). *)
Theorem C42_tuples : forall sims experiments simulations mask scipy w l, matching experiments simulations mask -> scipy_shapes scipy ->
  heap w (op_par w) = TupleObj l -> exists w' e, curve_fit sims experiments simulations mask scipy w = (w', Raise e).
Proof. exact (fun sims experiments simulations mask scipy w l M HS => tuple_raises sims experiments simulations mask scipy M HS w l). Qed.
Print Assumptions C42_tuples.
Example C42_example : scipy_shapes scipy_ex /\ matching [exp_ex] [0%nat] mask_ex /\ (forall l, heap (world_ex (ListObj [3])) 0%nat <> IntArray l) /\
  exists w', curve_fit (fun _ => sim_ex) [exp_ex] [0%nat] mask_ex scipy_ex (world_ex (ListObj [3])) = (w', Ok (0%nat, [[Fin 4]])).
Proof. split; [exact scipy_ex_shapes|]. split; [exact matching_ex|]. split; [discriminate|]. exact (fit_ex (ListObj [3]) 3 eq_refl Logic.I). Qed.

(** ** C43.  [f], [x], [y]: what the optimiser is called with (C41); it raises in this one call. *)
Theorem C43_optimiser_raises : forall sims experiments simulations mask scipy w r0 e, matching experiments simulations mask ->
  all_residuals (terms sims experiments simulations mask) (elements (heap w (op_par w))) = Ok r0 ->
  (forall f x y, (forall p, scipy_residuals f x y p = all_residuals (terms sims experiments simulations mask) p) ->
     scipy f x y (elements (heap w (op_par w))) = Raise e) ->
  exists w', curve_fit sims experiments simulations mask scipy w = (w', Raise e) /\
    heap w' = heap w /\ op_par w' = op_par w /\ op_residuals w' = Some r0 /\
    (exists er, op_errors w' = Some er /\ List.length er = List.length (elements (heap w (op_par w))) /\ all_nan er) /\
    (forall i, In i simulations -> sim_par w' i = op_par w).
Proof.
  intros sims experiments simulations mask scipy w r0 e M E0 Es. eexists.
  split; [exact (fit_scipy_raises sims experiments simulations mask scipy w r0 M E0 e (Es _ _ _ (fun p => handed sims experiments simulations mask p M)))|].
  cbn [fits_world heap op_par op_residuals op_errors sim_par]. split; [reflexivity|]. split; [reflexivity|]. split; [reflexivity|]. split.
  - eexists. split; [reflexivity|]. rewrite map_length. split; [reflexivity|]. apply List.Forall_forall. intros v I. apply in_map_iff in I. destruct I as (x & <- & _). reflexivity.
  - intros i I. apply existsb_in in I. rewrite I. reflexivity.
Qed.
Print Assumptions C43_optimiser_raises.
(** All or nothing, whatever raises: the material function, the data, scipy, the assignment. *)
Theorem C43_all_or_nothing : forall sims experiments simulations mask scipy w w' e, matching experiments simulations mask -> scipy_shapes scipy ->
  curve_fit sims experiments simulations mask scipy w = (w', Raise e) -> heap w' = heap w /\ op_par w' = op_par w.
Proof. exact (fun sims experiments simulations mask scipy w w' e M HS => raise_keeps sims experiments simulations mask scipy M HS w w' e). Qed.
Print Assumptions C43_all_or_nothing.
(** Any sequence of calls, successful or not, with any optimisers and any lists: no other
    sequence object is written (in particular the arrays passed to the Simulation constructors). *)
Theorem C43_other_arrays : forall sims experiments simulations mask scipys w k, k <> op_par w ->
  heap (fit_history sims experiments simulations mask scipys w) k = heap w k /\
  op_par (fit_history sims experiments simulations mask scipys w) = op_par w.
Proof.
  intros sims experiments simulations mask scipys w k N. destruct (history_frame sims experiments simulations mask scipys w) as [A B]. split; auto.
Qed.
Print Assumptions C43_other_arrays.
Example C43_example : exists w', curve_fit (fun _ => sim_ex) [exp_ex] [0%nat] mask_ex (fun _ _ _ _ => Raise UserError) (world_ex (FloatArray [3])) = (w', Raise UserError) /\
  heap w' 0%nat = FloatArray [3] /\ op_residuals w' = Some [0; 7 / 2 * 3 - 7 / 4] /\ op_errors w' = Some [NaN].
Proof.
  eexists. split; [exact (fit_scipy_raises (fun _ => sim_ex) [exp_ex] [0%nat] mask_ex _ (world_ex (FloatArray [3])) _ matching_ex (residuals_ex 3) UserError eq_refl)|].
  split; [reflexivity|]. split; reflexivity.
Qed.

(** ** C44.  Attributes x and y of the Optimize object hold, for each experiment, the stretches and
    the stresses of the same selected points ([chosen]). *)
Theorem C44_masks : forall sims experiments simulations mask w, matching experiments simulations mask ->
  exists pts, List.Forall2 (fun me p => exists all, points (snd me) = Ok all /\ p = chosen (0, 0) (fst me) all) (combine mask experiments) pts /\
    op_x (after (init_curve_fit sims experiments simulations mask) w) = Some (map (map fst) pts) /\
    op_y (after (init_curve_fit sims experiments simulations mask) w) = Some (map (map snd) pts).
Proof.
  intros sims experiments simulations mask w M. exists (map sel (combine mask experiments)). rewrite !map_map. split; [|exact (init_data sims experiments simulations mask w M)].
  pose proof (fun me => matching_in experiments simulations mask me M) as H. induction (combine mask experiments) as [|me l IH]; [constructor|].
  cbn [map]. constructor; [|apply IH; intros; apply H; right; auto].
  destruct (H me (or_introl eq_refl)) as [(d & f & _ & Ef & _) _]. unfold sel, points, experiment_stress. rewrite Ef. cbn [div_data rbind]. eexists. split; reflexivity.
Qed.
Print Assumptions C44_masks.
(** Point j is chosen iff flag j is true, in order ... *)
Theorem C44_boolean_mask : forall (b : list bool) (pts : list (R * R)), List.length b = List.length pts ->
  chosen (0, 0) (MBool b) pts = map (fun j => nth j pts (0, 0)) (filter (fun j => nth j b false) (seq 0 (List.length pts))).
Proof. exact (fun b pts => chosen_bool (0, 0) b pts). Qed.
Print Assumptions C44_boolean_mask.
(** ... and without a mask every point of every experiment is chosen exactly once. *)
Theorem C44_no_mask : forall sims experiments simulations w, experiments <> [] -> List.length simulations = List.length experiments -> List.Forall well_formed experiments ->
  let w' := after (init_curve_fit sims experiments simulations (mask_init experiments None)) w in
  op_x w' = Some (map ex_stretch experiments) /\
  exists ss, map_r experiment_stress experiments = Ok ss /\ op_y w' = Some ss.
Proof.
  intros sims experiments simulations w N L W.
  assert (M : matching experiments simulations (mask_init experiments None)).
  { split; [exact N|]. split; [exact L|]. split; [apply map_length|]. split; [exact W|]. clear. unfold mask_init, default_mask. induction experiments; constructor; cbn; auto. }
  cbv zeta. destruct (init_data sims experiments simulations _ w M) as [A B]. unfold after. rewrite A, B. clear A B M N L.
  assert (E : map_r experiment_stress experiments = Ok (map (fun me => map snd (sel me)) (combine (mask_init experiments None) experiments)) /\
    map (fun me => map fst (sel me)) (combine (mask_init experiments None) experiments) = map ex_stretch experiments).
  { induction experiments as [|e es IH]; [split; reflexivity|]. inversion W as [|? ? We Wes]; subst. destruct (IH Wes) as [IH1 IH2].
    cbn [mask_init default_mask map combine map_r]. fold (default_mask es). change (default_mask es) with (mask_init es None).
    rewrite IH1, IH2. pose proof (sel_x MSlice e We Logic.I) as Sx. pose proof (sel_y MSlice e We Logic.I) as Sy. cbn [np_index] in Sx, Sy.
    injection Sx as <-. destruct (experiment_stress e) as [s|]; cbn [rbind] in *; [|discriminate]. injection Sy as <-. split; reflexivity. }
  destruct E as [E1 E2]. rewrite E2. split; [reflexivity|]. eexists. split; [exact E1|reflexivity].
Qed.
Print Assumptions C44_no_mask.
(** A boolean mask of the wrong length raises IndexError; nothing is fitted. *)
Theorem C44_wrong_mask : forall b e, List.length b <> List.length (ex_stretch e) -> np_index (ex_stretch e) (MBool b) = Raise IndexError.
Proof. exact (fun b e => bool_index_bad b (ex_stretch e)). Qed.
Print Assumptions C44_wrong_mask.
(** A list with fewer masks than experiments silently drops the remaining experiments. *)
Theorem C44_short_mask_list : forall sims experiments more simulations mask, List.length mask = List.length experiments ->
  init_curve_fit sims (experiments ++ more) simulations mask = init_curve_fit sims experiments simulations mask.
Proof. intros. unfold init_curve_fit. rewrite combine_app_r by lia. reflexivity. Qed.
Print Assumptions C44_short_mask_list.
Example C44_example : op_x (after (init_curve_fit (fun _ => sim_ex) [exp_ex] [0%nat] mask_ex) (world_ex (FloatArray [3]))) = Some [[1; 2]] /\
  op_y (after (init_curve_fit (fun _ => sim_ex) [exp_ex] [0%nat] mask_ex) (world_ex (FloatArray [3]))) = Some [[0 / 1; 7 / 4 / 1]].
Proof. exact (init_data (fun _ => sim_ex) [exp_ex] [0%nat] mask_ex (world_ex (FloatArray [3])) matching_ex). Qed.
