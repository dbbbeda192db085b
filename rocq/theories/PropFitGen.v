(** * Property C73, continued: fits of materials that are linear in their parameters, any
    loading; GeneralizedInvariants. *)
From Coq Require Import Reals Lra Lia List String Psatz Bool FunctionalExtensionality.
From Verif Require Import Tensor Py Voigt Algebra VCalc Models ModelProofs Frameworks Spaces Spec Lab LabSpec LabMech LabCurves LabOpt LabFit CurveProofs CurveSpec
  LsqSpec LsqProofs FitSpec FitProofs SpaceCore StrCore InvCore ScaleProofs SumProofs GenProofs NDLinks2 DistProofs PropLab PropCurves PropLsq PropFit.
Import ListNotations.
Local Open Scope R_scope.

(** ** Specification *)
(** ThirdOrderDeformation( **kwargs, strain=b): the reference values 3 or 0 of the invariants
    (_third_order_deformation.py:46-52). *)
Definition with_strain (b : bool) (m : TOD) : TOD := tod_init (C10 m) (C01 m) (C11 m) (C20 m) (C30 m) b.
(** The user's function [material( **kwargs)] that returns
    space(Stretches(GeneralizedInvariants(ThirdOrderDeformation( **kwargs, strain=b), strain measure))). *)
Definition generalized_material (k : SpaceKind) (lapack : Lapack) (b : bool) (fs : R -> Result StrainVal) : MaterialFn := fun d =>
  rbind (tod_of_kwargs d) (fun m => rbind (gen_init fs) (fun c =>
    let g := gen_model (tod_model (SV:=unit) (with_strain b m)) fs c in
    let fw := stretches_fw lapack g in
    Ok (space_material tt fw (space_self0 fw (Build_StrSelf g None None gen_self0)) (sp_gradient k fw default_opts)))).
(** The frameworks FW p (p: lists of n parameters) return gradients at C, and the gradient
    depends linearly on p. *)
Definition linear_framework (n : nat) (FW : list R -> Framework unit) (C : Vec6) : Prop :=
  forall p q a b s1 s2 s, List.length p = n -> List.length q = n -> exists G H,
    outcome (fw_gradient (FW p) C tt) s1 = Ok (G, tt) /\ outcome (fw_gradient (FW q) C tt) s2 = Ok (H, tt) /\
    outcome (fw_gradient (FW (comb a p b q)) C tt) s = Ok (fun v => a * G v + b * H v, tt).

(** ** Proofs *)
Lemma kS_comb k C a g b h : kS k C (fun v => a * g v + b * h v) = fun v => a * kS k C g v + b * kS k C h v.
Proof. rewrite (kS_add k C (fun v => a * g v) (fun v => b * h v)). apply functional_extensionality; intro v. rewrite !kS_prop. reflexivity. Qed.
(** Materials whose gradients depend linearly on the parameters have linear curves, whatever the loading. *)
Theorem C73_linear_materials : forall n sim lc k FW xs, (forall p, List.length p = n -> simulates sim p lc k tt (FW p)) ->
  (forall x, In x xs -> linear_framework n FW (seen k (right_CG (lc x)))) -> linear_curve n sim xs.
Proof.
  intros n sim lc k FW xs HS HL p q a b Lp Lq.
  assert (Lc : List.length (comb a p b q) = n) by (rewrite comb_length; congruence).
  destruct (HS p Lp) as (D & s1 & M1). destruct (HS q Lq) as (_ & s2 & M2). destruct (HS _ Lc) as (_ & s & M).
  unfold stress_curve_fit. rewrite M1, M2, M. cbn [rbind]. rewrite D || idtac.
  assert (Q : forall x, In x xs -> exists y z,
    point_stress (si_loadcase sim) (space_material tt (FW p) s1 (sp_gradient k (FW p) default_opts)) x = Ok y /\
    point_stress (si_loadcase sim) (space_material tt (FW q) s2 (sp_gradient k (FW q) default_opts)) x = Ok z /\
    point_stress (si_loadcase sim) (space_material tt (FW (comb a p b q)) s (sp_gradient k (FW (comb a p b q)) default_opts)) x = Ok (a * y + b * z)).
  { intros x I'. destruct (HL x I' p q a b (sp_mat s1) (sp_mat s2) (sp_mat s) Lp Lq) as (G & H & E1 & E2 & E3).
    apply (sp_gradient_ok (FW p) default_opts) in E1. apply (sp_gradient_ok (FW q) default_opts) in E2. apply (sp_gradient_ok (FW (comb a p b q)) default_opts) in E3.
    rewrite kS_comb in E3. unfold outcome in E1, E2, E3.
    unfold point_stress. rewrite D. cbv zeta. cbn [space_material mat_gradient mat_none mat_now]. unfold full_only.
    destruct (sp_gradient k (FW p) default_opts (lc x) tt s1) as [t1 r1]. destruct (sp_gradient k (FW q) default_opts (lc x) tt s2) as [t2 r2].
    destruct (sp_gradient k (FW (comb a p b q)) default_opts (lc x) tt s) as [t3 r3]. cbn [snd] in E1, E2, E3. subst r1 r2 r3.
    unfold piola_stress. cbn [default_opts finalize force area snd]. do 2 eexists. split; [reflexivity|]. split; [reflexivity|].
    unfold lc_stress, lc_stress_axes. cbn [index3 rbind]. f_equal. unfold es_force, astensor, sum3, Rdiv. ring. }
  clear HL. induction xs as [|x xs IH]; cbn [map_r].
  - exists [], []. repeat split.
  - destruct IH as (y & z & Ey & Ez & Ly & Lz & Ec); [intros; apply Q; right; auto|].
    destruct (Q x (or_introl eq_refl)) as (y0 & z0 & -> & -> & ->). rewrite Ey, Ez, Ec. cbn [rbind].
    exists (y0 :: y), (z0 :: z). cbn [List.length]. repeat split; try congruence.
Qed.
Print Assumptions C73_linear_materials.

(** ** GeneralizedInvariants *)
Lemma kw_comb labels p q a b : List.length p = List.length q -> forall k,
  kw (kwargs_of labels (comb a p b q)) k = a * kw (kwargs_of labels p) k + b * kw (kwargs_of labels q) k.
Proof.
  intros L k. unfold kw. rewrite !kwargs_last. revert p q L.
  assert (G : forall ls p q, List.length p = List.length q -> match last_of (combine ls p) k, last_of (combine ls q) k, last_of (combine ls (comb a p b q)) k with
                | Some x, Some y, Some z => z = a * x + b * y | None, None, None => True | _, _, _ => False end).
  { induction ls as [|l ls IH]; intros [|x p] [|y q] L; cbn in L; try discriminate; cbn; auto.
    specialize (IH p q ltac:(lia)). unfold comb in *.
    destruct (last_of (combine ls p) k), (last_of (combine ls q) k), (last_of (combine ls (map (fun z => a * fst z + b * snd z) (combine p q))) k); try tauto.
    destruct (String.eqb l k); auto. }
  intros p q L. specialize (G labels p q L).
  destruct (last_of (combine labels p) k), (last_of (combine labels q) k), (last_of (combine labels (comb a p b q)) k); try tauto. ring.
Qed.
Lemma genG_val c st g1 g2 g3 : genG c st g1 g2 g3 = fun a =>
  0 + val g1 * (gc1 c * 1) * sdE (st a) + val g2 * (gc2 c * (sE (st (gb a)) + sE (st (gg a)))) * sdE (st a)
  + val g3 * (sE (st (gb a)) * sE (st (gg a))) * sdE (st a).
Proof. apply functional_extensionality; intro a. unfold genG. cbv zeta. destruct g1, g2, g3; cbn [accum val]; ring. Qed.
Lemma strG_comb l C a g b h : strGv l C (fun v => a * g v + b * h v) = fun v => a * strGv l C g v + b * strGv l C h v.
Proof. apply Vec6_ext; intro v. unfold strGv, asvoigt, Gf, strK, sum3, Rdiv. ring. Qed.

Theorem C73_generalized : forall n k lapack b fs sim pts, lapack_legal lapack ->
  si_material sim = generalized_material k lapack b fs ->
  (forall l, 0 < l -> exists v, fs l = Ok v) -> (exists c, gen_init fs = Ok c) ->
  (forall l, In l (si_labels sim) -> In l coefficient_labels) ->
  (defgrad (si_loadcase sim) = uniaxial \/ defgrad (si_loadcase sim) = planar \/ defgrad (si_loadcase sim) = biaxial) ->
  (forall x y, In (x, y) pts -> 0 < x) ->
  linear_in_parameters n (sim, pts).
Proof.
  intros n k lapack b fs sim pts HL M HF [c HC] K C X.
  set (FW := fun p => stretches_fw lapack (gen_model (tod_model (SV:=unit) (with_strain b (tod_for (si_labels sim) p))) fs c)).
  assert (P : forall x, In x (map fst pts) -> 0 < x).
  { intros x I'. apply in_map_iff in I'. destruct I' as ([x' y] & <- & I'). exact (X x' y I'). }
  apply (C73_linear_materials n sim (defgrad (si_loadcase sim)) k FW (map fst pts)).
  - intros p _. split; [reflexivity|]. eexists. rewrite M. unfold generalized_material. rewrite (tod_for_ok _ p K), HC. cbn [rbind]. reflexivity.
  - intros x Ix. specialize (P x Ix). pose proof (defgrad (si_loadcase sim)) as lc0.
    assert (N : invertible (defgrad (si_loadcase sim) x)).
    { unfold invertible. destruct C as [-> |[-> | ->]]; rewrite ?uniaxial_det, ?planar_det, ?biaxial_det; lra. }
    clear lc0. pose proof (lam_positive lapack k _ HL N) as LP. set (Cb := seen k (right_CG (defgrad (si_loadcase sim) x))) in *.
    destruct (HF _ (LP X0)) as [v0 E0]. destruct (HF _ (LP X1)) as [v1 E1]. destruct (HF _ (LP X2)) as [v2 E2].
    assert (ST : strain3 fs (lam lapack Cb) = Ok (fun a => match a with X0 => v0 | X1 => v1 | X2 => v2 end)).
    { unfold strain3. rewrite E0, E1, E2. reflexivity. }
    set (st := fun a => match a with X0 => v0 | X1 => v1 | X2 => v2 end) in ST.
    set (gr := fun p => let m := with_strain b (tod_for (si_labels sim) p) in
      match tod_gradient m (genI c st X0) (genI c st X1) (genI c st X2) with Ok g => genG c st (o3 g X0) (o3 g X1) (o3 g X2) | Raise _ => fun _ => 0 end).
    assert (O : forall p s, outcome (fw_gradient (FW p) Cb tt) s = Ok (strGv lapack Cb (gr p), tt)).
    { intros p s. change (outcome (str_gradient lapack (gen_model (tod_model (SV:=unit) (with_strain b (tod_for (si_labels sim) p))) fs c) Cb tt) s = Ok (strGv lapack Cb (gr p), tt)).
      assert (G : outcome (sm_gradient (gen_model (tod_model (SV:=unit) (with_strain b (tod_for (si_labels sim) p))) fs c) (lam lapack Cb) tt) (st_model _ s) = Ok (gr p, tt)).
      { cbn [gen_model sm_gradient]. rewrite gen_grad_core, ST. cbn [rbind]. unfold inv_call. cbn [tod_model im_gradient].
        destruct (tod_gradient_ok (with_strain b (tod_for (si_labels sim) p)) (genI c st X0) (genI c st X1) (genI c st X2)) as (g & Eg & _).
        unfold gr. cbv zeta. rewrite Eg. destruct g as [[g1 g2] g3]. reflexivity. }
      destruct (outcome_pair _ _ _ G) as [ms G']. unfold outcome. rewrite (str_gradient_ok _ _ _ _ _ _ _ _ G'). reflexivity. }
    intros p q a d s1 s2 s Lp Lq. exists (strGv lapack Cb (gr p)), (strGv lapack Cb (gr q)). rewrite !O.
    split; [reflexivity|]. split; [reflexivity|]. f_equal. f_equal. rewrite <- strG_comb. f_equal.
    unfold gr. cbv zeta.
    destruct (tod_gradient_ok (with_strain b (tod_for (si_labels sim) p)) (genI c st X0) (genI c st X1) (genI c st X2)) as (g & -> & A1 & A2 & A3 & _).
    destruct (tod_gradient_ok (with_strain b (tod_for (si_labels sim) q)) (genI c st X0) (genI c st X1) (genI c st X2)) as (h & -> & B1 & B2 & B3 & _).
    destruct (tod_gradient_ok (with_strain b (tod_for (si_labels sim) (comb a p d q))) (genI c st X0) (genI c st X1) (genI c st X2)) as (w & -> & D1 & D2 & D3 & _).
    rewrite !genG_val, A1, A2, A3, B1, B2, B3, D1, D2, D3. cbn [val].
    unfold with_strain, tod_for, tod_init. cbv zeta. cbn [C10 C01 C11 C20 C30 undeformed].
    rewrite !(kw_comb (si_labels sim) p q a d ltac:(congruence)).
    apply functional_extensionality; intro i. ring.
Qed.
Print Assumptions C73_generalized.
(** The measures of the library: strain(lambda, k) and deformation(lambda, k), k <> 0. *)
Theorem C73_measures : forall k, k <> 0 -> forall fs, fs = strain_fun k \/ fs = deformation_fun k ->
  (forall l, 0 < l -> exists v, fs l = Ok v) /\ exists c, gen_init fs = Ok c.
Proof.
  intros k Hk fs [-> | ->]; (split; [intros l _|]).
  - unfold strain_fun. destruct (nonzero k) eqn:E; [eauto|]. exfalso. apply nonzero_false in E. tauto.
  - rewrite (gen_init_strain k Hk). eauto.
  - unfold deformation_fun. eauto.
  - rewrite (gen_init_deformation k Hk). eauto.
Qed.
Print Assumptions C73_measures.
(** Seth-Hill strain of exponent -1/2, the parameters C10 and C20, biaxial loading. *)
Example C73_generalized_ex : forall lapack, lapack_legal lapack ->
  let sim := {| si_loadcase := Biaxial None; si_stretch := [1; 3 / 2; 2]; si_labels := ["C10"; "C20"]%string;
                si_material := generalized_material KDistortional lapack true (strain_fun (- (1 / 2))) |} in
  linear_in_parameters 2 (sim, [(1, 0); (3 / 2, 2); (2, 4)]).
Proof.
  intros lapack HL sim. destruct (C73_measures (- (1 / 2)) ltac:(lra) _ (or_introl eq_refl)) as [A B].
  apply (C73_generalized 2 KDistortional lapack true (strain_fun (- (1 / 2)))); auto; try reflexivity.
  - unfold sim, coefficient_labels. cbn. tauto.
  - intros x y I'. cbn in I'. destruct I' as [E|[E|[E|[]]]]; injection E as <- _; lra.
Qed.
