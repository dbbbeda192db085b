(** * Force-stretch curves (C36 - C38) and an example of a fit. *)
From Coq Require Import Reals Lra List String ZArith Bool Permutation Lia.
From Coquelicot Require Import Coquelicot.
From Verif Require Import Tensor Py Voigt Algebra Calc Models Frameworks Spaces Spec ModelProofs InvCore SpaceCore Lab LabSpec LabMech LabOpt LabFit.
Import ListNotations.
Local Open Scope R_scope.

Lemma inv_dgm a b c : invariants (dgm a b c) = vec3 (a + b + c) (a * b + b * c + a * c) (a * b * c).
Proof.
  apply Vec3_ext. intro k. unfold invariants, inv1, inv2, inv3', tr2, mmul, det3, dgm, sum3, vec3. destruct k; cbn; field.
Qed.
(** Deformation = Distortional along isochoric diagonal deformations, exceptions included *)
Lemma same_curve {SV} sim sim' p p' lc k k' (none : SV) fw xs : simulates sim p lc k none fw -> simulates sim' p' lc k' none fw ->
  incompressible_kind k -> incompressible_kind k' -> (forall s s' C, outcome (fw_gradient fw C none) s = outcome (fw_gradient fw C none) s') ->
  (forall x, In x xs -> diagonal (lc x) /\ det3 (lc x) = 1) ->
  stress_curve_fit sim xs p = stress_curve_fit sim' xs p'.
Proof.
  intros (L & s & E) (L' & s' & E') K K' H D. unfold stress_curve_fit. rewrite E, E'; cbn [rbind]. apply map_r_ext. intros x I.
  destruct (D x I) as [Dx J]. rewrite (diagonal_dgm _ Dx), dgm_det in J.
  rewrite (point_core fw k _ x (lc x X0 X0) (lc x X1 X1) (lc x X2 X2) none s K) by (rewrite ?L; auto using diagonal_dgm).
  rewrite (point_core fw k' _ x (lc x X0 X0) (lc x X1 X1) (lc x X2 X2) none s' K') by (rewrite ?L'; auto using diagonal_dgm).
  rewrite L, L', (H (sp_mat s) (sp_mat s')). reflexivity.
Qed.
(** Zero force in the undeformed state *)
Lemma map_r_const {A B} (f : A -> Result B) (b : B) l : (forall a, In a l -> f a = Ok b) -> map_r f l = Ok (map (fun _ => b) l).
Proof. intro H. apply map_r_map. exact H. Qed.
Lemma one_cg : cauchy_green one2 = one2.
Proof. rewrite <- dgm_one, dgm_cg. f_equal; ring. Qed.
Lemma rest_force {SV} sim p lc k (none : SV) fw Dom xs : simulates sim p lc k none fw -> incompressible_kind k ->
  isotropic_gradient fw Dom -> Dom one2 -> evaluates fw none one2 -> (forall x, In x xs -> lc x = one2) ->
  stress_curve_fit sim xs p = Ok (map (fun _ => 0) xs).
Proof.
  intros (L & s & E) K HI D Ev H. unfold stress_curve_fit. rewrite E; cbn [rbind]. apply map_r_const. intros x I.
  assert (Lx : defgrad (si_loadcase sim) x = dgm 1 1 1) by (rewrite L, dgm_one; auto).
  rewrite (point_core fw k _ x 1 1 1 none s K Lx) by ring. rewrite Lx, dgm_one, one_cg.
  destruct (Ev (sp_mat s)) as (g & svn & Eg). rewrite Eg. f_equal.
  assert (Q : astensor g X0 X0 = astensor g X2 X2).
  { refine (isotropic_equal fw Dom one2 none (sp_mat s) g svn X0 X2 HI _ D _ Eg).
    - rewrite <- dgm_one. apply dgm_sym.
    - intros i j. destruct i, j; reflexivity. }
  rewrite g_V0, g_V2 in Q. unfold force_of. rewrite Q. cbn. field.
Qed.
(** The three closed forms for every invariant-based model *)
Lemma curve {SV} sim p lc k (none : SV) (m : InvModel SV) (f : R -> R) xs : simulates sim p lc k none (invariants_fw m) -> incompressible_kind k ->
  (forall x, In x xs -> exists a b c g svn, lc x = dgm a b c /\ a * b * c = 1 /\
     inv_call m (vec3 (a ^ 2 + b ^ 2 + c ^ 2) (a ^ 2 * b ^ 2 + b ^ 2 * c ^ 2 + a ^ 2 * c ^ 2) 1) none = Ok (g, svn) /\
     f x = 2 * (a - c ^ 2 / a) * (val (o3 g X0) + val (o3 g X1) * b ^ 2)) ->
  stress_curve_fit sim xs p = Ok (map f xs).
Proof.
  intros (L & s & E) K H. unfold stress_curve_fit. rewrite E; cbn [rbind]. apply map_r_map. intros x I.
  destruct (H x I) as (a & b & c & g & svn & Lx & N & C & ->).
  refine (closed_point m k _ x a b c none s g svn K _ N _).
  - rewrite L; exact Lx.
  - rewrite dgm_cg, inv_dgm. replace (a ^ 2 * b ^ 2 * c ^ 2) with 1; [exact C|]. transitivity ((a * b * c) ^ 2); [rewrite N; ring|ring].
Qed.
Lemma uniaxial_curve {SV} sim p k (none : SV) (m : InvModel SV) (W1 W2 : R -> R -> R) xs :
  simulates sim p uniaxial k none (invariants_fw m) -> incompressible_kind k ->
  (forall I1 I2, exists g svn, inv_call m (vec3 I1 I2 1) none = Ok (g, svn) /\ val (o3 g X0) = W1 I1 I2 /\ val (o3 g X1) = W2 I1 I2) ->
  (forall x, In x xs -> 0 < x) ->
  stress_curve_fit sim xs p = Ok (map (fun l => let I1 := l ^ 2 + 2 / l in let I2 := 2 * l + 1 / l ^ 2 in
    2 * (l - 1 / l ^ 2) * (W1 I1 I2 + W2 I1 I2 / l)) xs).
Proof.
  intros S K HW HP. apply (curve sim p uniaxial k none m _ xs S K). intros x I. pose proof (HP x I) as Px.
  destruct (HW (x ^ 2 + 2 / x) (2 * x + 1 / x ^ 2)) as (g & svn & C & E1 & E2).
  exists x, (1 / sqrt x), (1 / sqrt x), g, svn. rewrite uniaxial_dg. split; [reflexivity|].
  assert (S2 : (1 / sqrt x) ^ 2 = / x) by (rewrite <- (sqrt_inv2 x Px); ring).
  split; [rewrite Rmult_assoc, (sqrt_inv2 x Px); field; lra|]. rewrite S2. split.
  - replace (x ^ 2 + / x + / x) with (x ^ 2 + 2 / x) by (field; lra).
    replace (x ^ 2 * / x + / x * / x + x ^ 2 * / x) with (2 * x + 1 / x ^ 2) by (field; lra). exact C.
  - cbv zeta. rewrite E1, E2. field. lra.
Qed.
Lemma planar_curve {SV} sim p k (none : SV) (m : InvModel SV) (W1 W2 : R -> R -> R) xs :
  simulates sim p planar k none (invariants_fw m) -> incompressible_kind k ->
  (forall I1 I2, exists g svn, inv_call m (vec3 I1 I2 1) none = Ok (g, svn) /\ val (o3 g X0) = W1 I1 I2 /\ val (o3 g X1) = W2 I1 I2) ->
  (forall x, In x xs -> 0 < x) ->
  stress_curve_fit sim xs p = Ok (map (fun l => let I := l ^ 2 + 1 + 1 / l ^ 2 in
    2 * (l - 1 / l ^ 3) * (W1 I I + W2 I I)) xs).
Proof.
  intros S K HW HP. apply (curve sim p planar k none m _ xs S K). intros x I. pose proof (HP x I) as Px.
  destruct (HW (x ^ 2 + 1 + 1 / x ^ 2) (x ^ 2 + 1 + 1 / x ^ 2)) as (g & svn & C & E1 & E2).
  exists x, 1, (1 / x), g, svn. rewrite planar_dg. split; [reflexivity|].
  split; [field; lra|]. split.
  - replace (x ^ 2 + 1 ^ 2 + (1 / x) ^ 2) with (x ^ 2 + 1 + 1 / x ^ 2) by (field; lra).
    replace (x ^ 2 * 1 ^ 2 + 1 ^ 2 * (1 / x) ^ 2 + x ^ 2 * (1 / x) ^ 2) with (x ^ 2 + 1 + 1 / x ^ 2) by (field; lra). exact C.
  - cbv zeta. rewrite E1, E2. field. lra.
Qed.
Lemma biaxial_curve {SV} sim p k (none : SV) (m : InvModel SV) (W1 W2 : R -> R -> R) xs :
  simulates sim p biaxial k none (invariants_fw m) -> incompressible_kind k ->
  (forall I1 I2, exists g svn, inv_call m (vec3 I1 I2 1) none = Ok (g, svn) /\ val (o3 g X0) = W1 I1 I2 /\ val (o3 g X1) = W2 I1 I2) ->
  (forall x, In x xs -> 0 < x) ->
  stress_curve_fit sim xs p = Ok (map (fun l => let I1 := 2 * l ^ 2 + 1 / l ^ 4 in let I2 := l ^ 4 + 2 / l ^ 2 in
    2 * (l - 1 / l ^ 5) * (W1 I1 I2 + l ^ 2 * W2 I1 I2)) xs).
Proof.
  intros S K HW HP. apply (curve sim p biaxial k none m _ xs S K). intros x I. pose proof (HP x I) as Px.
  destruct (HW (2 * x ^ 2 + 1 / x ^ 4) (x ^ 4 + 2 / x ^ 2)) as (g & svn & C & E1 & E2).
  exists x, x, (1 / x ^ 2), g, svn. rewrite biaxial_dg. split; [reflexivity|].
  split; [field; lra|]. split.
  - replace (x ^ 2 + x ^ 2 + (1 / x ^ 2) ^ 2) with (2 * x ^ 2 + 1 / x ^ 4) by (field; lra).
    replace (x ^ 2 * x ^ 2 + x ^ 2 * (1 / x ^ 2) ^ 2 + x ^ 2 * (1 / x ^ 2) ^ 2) with (x ^ 4 + 2 / x ^ 2) by (field; lra). exact C.
  - cbv zeta. rewrite E1, E2. field. lra.
Qed.
Lemma tod_W m I1 I2 : exists g svn, inv_call (tod_model (SV:=unit) m) (vec3 I1 I2 1) tt = Ok (g, svn) /\
  val (o3 g X0) = tod_W1 m I1 I2 /\ val (o3 g X1) = tod_W2 m I1 I2.
Proof. destruct (tod_call m (vec3 I1 I2 1) tt) as (g & E & H1 & H2 & _). exists g, tt. split; [exact E|]. split; [exact H1|exact H2]. Qed.
Lemma tod_simulates sim lc p m : tod_simulation sim lc p m -> exists k, incompressible_kind k /\ simulates sim p lc k tt (invariants_fw (tod_model m)).
Proof.
  intros (L & Mt & E). destruct Mt as [Mt|Mt].
  - exists KDeformation. split; [left; reflexivity|]. split; [exact L|]. eexists. rewrite Mt. unfold tod_deformation. rewrite E. reflexivity.
  - exists KDistortional. split; [right; reflexivity|]. split; [exact L|]. eexists. rewrite Mt. unfold tod_distortional. rewrite E. reflexivity.
Qed.

(** ** An example: one parameter, one experiment with three points *)
Definition sim_ex : SimStatic := {| si_loadcase := Uniaxial None; si_stretch := [1; 2]; si_labels := ["C10"%string]; si_material := tod_deformation |}.
Definition tod10 (c : R) : TOD := tod_init c 0 0 0 0 false.
Lemma tod10_kw c : tod_of_kwargs (kwargs_of ["C10"%string] [c]) = Ok (tod10 c).
Proof. unfold kwargs_of, tod_of_kwargs, kw, tod10, nonzero. cbn. destruct (Req_EM_T 0 0); [reflexivity|lra]. Qed.
Lemma sim_ex_tod c : tod_simulation sim_ex uniaxial [c] (tod10 c).
Proof. split; [reflexivity|]. split; [left; reflexivity|]. exact (tod10_kw c). Qed.
Lemma sim_ex_stress c xs : (forall x, In x xs -> 0 < x) -> stress_curve_fit sim_ex xs [c] = Ok (map (fun l => 2 * (l - 1 / l ^ 2) * c) xs).
Proof.
  intro P. destruct (tod_simulates _ _ _ _ (sim_ex_tod c)) as (k & K & S).
  rewrite (uniaxial_curve sim_ex [c] k tt (tod_model (tod10 c)) _ _ xs S K (tod_W (tod10 c)) P). f_equal. apply map_ext_in. intros l I.
  cbv zeta. unfold tod_W1, tod_W2, tod10, tod_init; cbn [C10 C01 C11 C20 C30]. unfold Rdiv. ring.
Qed.
(** displacements 0, 1, 1 and forces 0, 7/4, 5 of a specimen with length 1 and area 1: the
    exact fit to the first two points is C10 = 1/2; the third is masked out. *)
Definition exp_ex : Experiment := {| ex_label := "Uniaxial"%string; displacement := NdArray [0; 1; 1]; ex_force := NdArray [0; 7 / 4; 5];
  ex_area := 1; ex_length := 1; ex_stretch := [1; 2; 2] |}.
Definition mask_ex : list Mask := [MBool [true; true; false]].
Lemma matching_ex : matching [exp_ex] [0%nat] mask_ex.
Proof.
  split; [discriminate|]. split; [reflexivity|]. split; [reflexivity|]. split.
  - repeat constructor. exists [0; 1; 1], [0; 7 / 4; 5]. repeat split.
  - repeat constructor.
Qed.
Lemma exp_ex_ok : exists e, experiment_init "Uniaxial" (NdArray [0; 1; 1]) (NdArray [0; 7 / 4; 5]) 1 1 = Ok e /\ e = exp_ex.
Proof.
  eexists. split; [reflexivity|]. unfold exp_ex. f_equal. cbn.
  assert (A : 1 + 0 / 1 = 1) by field. assert (B : 1 + 1 / 1 = 2) by field. rewrite A, B. reflexivity.
Qed.
Definition world_ex (v : Seq) : World := {| heap := fun _ => v; sim_par := fun i => S i; op_par := 0%nat; op_f := None; op_x := None; op_y := None;
  op_errors := None; op_residuals := None |}.
Lemma residuals_ex c : all_residuals (terms (fun _ => sim_ex) [exp_ex] [0%nat] mask_ex) [c] = Ok [0; 7 / 2 * c - 7 / 4].
Proof.
  unfold terms, all_residuals, term_residuals. cbn [combine mask_ex map fst snd map_r points experiment_stress exp_ex ex_force div_data rbind ex_stretch chosen filter ex_area].
  rewrite sim_ex_stress by (intros x [<-|[<-|[]]]; lra). cbn. f_equal. f_equal; [field|]. f_equal. field.
Qed.
(** An optimiser that only finds exact fits: it returns 1/2 if the sum of squares is zero there
    and raises otherwise. *)
Definition scipy_ex : Scipy := fun f x y p0 =>
  match p0 with
  | [_] => match scipy_residuals f x y [1 / 2] with
           | Ok r => if Req_EM_T (sum_squares r) 0 then Ok ([1 / 2], [[Fin 4]]) else Raise UserError
           | Raise e => Raise e end
  | _ => Raise UserError end.
Lemma scipy_ex_shapes : scipy_shapes scipy_ex.
Proof.
  intros f x y p0 popt pcov E. unfold scipy_ex in E. destruct p0 as [|a [|]]; try discriminate.
  destruct (scipy_residuals f x y [1 / 2]); [|discriminate]. destruct (Req_EM_T _ 0); [|discriminate]. injection E as <- <-. split; reflexivity.
Qed.
Lemma sum_squares_pos r : 0 <= sum_squares r.
Proof. unfold sum_squares. induction r as [|x r IH]; cbn [fold_right]; [lra|]. pose proof (pow2_ge_0 x). lra. Qed.
Lemma scipy_ex_minimises : scipy_minimises scipy_ex.
Proof.
  intros f x y p0 popt pcov E. unfold scipy_ex in E. destruct p0 as [|a [|]]; try discriminate.
  destruct (scipy_residuals f x y [1 / 2]) as [r|] eqn:Er; [|discriminate]. destruct (Req_EM_T _ 0) as [Z|]; [|discriminate]. injection E as <- <-.
  exists r. split; [exact Er|]. intros p r' _ _. rewrite Z. apply sum_squares_pos.
Qed.
Lemma fit_ex v a : elements v = [a] -> mutable v ->
  exists w', curve_fit (fun _ => sim_ex) [exp_ex] [0%nat] mask_ex scipy_ex (world_ex v) = (w', Ok (0%nat, [[Fin 4]])).
Proof.
  intros Ev Mu.
  assert (Es : scipy_ex (handed_f (fun _ => sim_ex) [exp_ex] [0%nat] mask_ex)
     (List.concat (map (fun me => map fst (sel me)) (combine mask_ex [exp_ex]))) (List.concat (map (fun me => map snd (sel me)) (combine mask_ex [exp_ex])))
     (elements (heap (world_ex v) (op_par (world_ex v)))) = Ok ([1 / 2], [[Fin 4]])).
  { cbn [world_ex heap op_par]. rewrite Ev. unfold scipy_ex. rewrite (handed (fun _ => sim_ex) [exp_ex] [0%nat] mask_ex _ matching_ex), residuals_ex.
    destruct (Req_EM_T _ 0) as [|N]; [reflexivity|]. exfalso. apply N. unfold sum_squares; cbn [fold_right]. field. }
  destruct (set_popt v [1 / 2] Mu) as (v' & St & Mv & _); [rewrite Ev; reflexivity|].
  eexists. refine (fit_success (fun _ => sim_ex) [exp_ex] [0%nat] mask_ex scipy_ex matching_ex scipy_ex_shapes (world_ex v) _ [1 / 2] [[Fin 4]] _ v' _ Es _ St Mv).
  - cbn [world_ex heap op_par]. rewrite Ev. apply residuals_ex.
  - apply residuals_ex.
Qed.
