(** * Property C67: the formulas printed in the documentation, as statements about the results.

    The left sides are what the public methods return, the right sides are transcribed from
    the docstrings, in full index notation.  [odot] and [otimes] are the products of the
    docstring of cdya and dya. *)
From Coq Require Import Reals Lra List.
From Coquelicot Require Import Coquelicot.
From Verif Require Import Tensor Py Voigt VoigtProofs Algebra Models Frameworks Spaces Spec VCalc ModelProofs GenProofs InvCore InvProofs.
From Verif Require Import EighProofs EigCore StrCore StrHess PiolaProofs SpaceCore SpaceProofs DistProofs Counter PropInvariants PropStretches PropSpaces.
Import ListNotations.
Local Open Scope R_scope.

(** (A (.) B)_ijkl = (A_ik B_jl + A_il B_kj) / 2,  (A (x) B)_ijkl = A_ij B_kl *)
Definition odot (A B : T2) : T4 := fun i j k l => (A i k * B j l + A i l * B k j) / 2.
Definition otimes (A B : T2) : T4 := fun i j k l => A i j * B k l.
Definition t4 (f : ix3 -> ix3 -> ix3 -> ix3 -> R) : T4 := f.
Definition T4tr (A : T4) : T4 := fun i j k l => A k l i j.
Definition dev2 (A : T2) : T2 := fun i j => A i j - tr2 A / 3 * one2 i j.
Definition raw : SpaceOpts := {| finalize := false; force := Deformed; area := Undeformed |}.

(** ** Deformation (_deformation.py:52-56): P = F S, A_iJkL = F_iI F_kK C_IJKL + delta_ik S_JL,
    with S = 2 dpsi/dC and C = 4 d2psi/dCdC as returned by the framework. *)
Theorem C67_deformation : forall (SV : Type) (fw : Framework SV) F sv s g svn ms H,
  fw_gradient fw (asvoigt (cauchy_green F)) sv (sp_mat s) = (ms, Ok (g, svn)) ->
  outcome (fw_hessian fw (asvoigt (cauchy_green F)) sv) ms = Ok H ->
  let S := mscal 2 (astensor g) in
  let C4 := t4 (fun i j k l => 4 * astensor4 H i j k l) in
  outcome (def_gradient fw default_opts F sv) s = Ok (StressFull (mmul F S), svn) /\
  outcome (def_hessian fw default_opts F sv) s = Ok (ElastFull (fun i J k L =>
    sum3 (fun I => sum3 (fun K => F i I * F k K * C4 I J K L)) + delta i k * S J L)).
Proof.
  intros SV fw F sv s g svn ms H Eg Eh S C4.
  change (asvoigt (cauchy_green F)) with (seen KDeformation (right_CG F)) in Eg, Eh. split.
  - assert (E := sp_gradient_ok fw default_opts KDeformation F sv s g svn (f_equal snd Eg)).
    cbn [sp_gradient] in E. rewrite E, default_stress. f_equal; f_equal; f_equal.
  - assert (E := sp_hessian_ok fw default_opts KDeformation F sv s g svn ms Eg). rewrite Eh in E.
    cbn [sp_hessian] in E. rewrite E, default_elast. reflexivity.
Qed.
Print Assumptions C67_deformation.

(** ** Distortional (_distortional.py:71-118) *)
Definition doc_P (C Ci : T2) : T4 := fun i j k l => odot one2 one2 i j k l - 1 / 3 * otimes Ci C i j k l.
Definition doc_dis_elast (C Ci Sb : T2) (C4b : T4) : T4 := fun i j k l =>
  dc44 (dc44 (doc_P C Ci) C4b) (T4tr (doc_P C Ci)) i j k l
  + 2 / 3 * (dc22 Sb C * odot Ci Ci i j k l - otimes Sb Ci i j k l - otimes Ci Sb i j k l
             + 1 / 3 * dc22 Sb C * otimes Ci Ci i j k l).

Lemma cg_seen F : asvoigt (distortional_part (cauchy_green F)) = seen KDistortional (right_CG F).
Proof. rewrite <- right_CG_full, <- dist_part. apply asvoigt_astensor_f. Qed.
Lemma cg_inv3 F Ci : invertible F -> mmul (cauchy_green F) Ci = one2 -> astensor (inv (right_CG F) (Some (det (right_CG F)))) = Ci.
Proof.
  intros N HC. change (inv (right_CG F) (Some (det (right_CG F)))) with (inv (right_CG F) None).
  assert (D : det (right_CG F) <> 0) by (rewrite det_right_CG; apply pow_nonzero; exact N).
  apply inverse_unique with (cauchy_green F); [|exact HC]. rewrite <- right_CG_full. apply T2_ext, inv_right, D.
Qed.
Lemma vscal_full x a : astensor (vscal x a) = mscal x (astensor a).
Proof. apply T2_ext; intros i j. reflexivity. Qed.

(** The stress, in both printed forms, for the tensor dpsi/dC returned by the framework at
    the distortional part of C; S_hat = 2 dpsi/dC, S_bar = I3^(-1/3) S_hat. *)
Theorem C67_distortional_stress : forall (SV : Type) (fw : Framework SV) F sv s g svn Ci, invertible F ->
  outcome (fw_gradient fw (asvoigt (distortional_part (cauchy_green F))) sv) (sp_mat s) = Ok (g, svn) ->
  mmul (cauchy_green F) Ci = one2 ->
  let C := cauchy_green F in
  let Sb := mscal (Rpower (det3 C) (-1/3)) (mscal 2 (astensor g)) in
  exists S, outcome (dis_gradient fw raw F sv) s = Ok (StressVoigt S, svn) /\
    astensor S = (fun i j => Sb i j - dc22 Sb C / 3 * Ci i j) /\
    astensor S = mmul (dev2 (mmul Sb C)) Ci /\
    astensor S = dc42 (doc_P C Ci) Sb.
Proof.
  intros SV fw F sv s g svn Ci N E HC C Sb. rewrite cg_seen in E.
  assert (E1 := sp_gradient_ok fw raw KDistortional F sv s g svn E). cbn [sp_gradient] in E1.
  exists (kS KDistortional (right_CG F) g). split; [exact E1|].
  assert (ESb : astensor (kSb KDistortional (right_CG F) g) = Sb).
  { unfold Sb, C. rewrite <- right_CG_full, <- det_astensor. apply T2_ext; intros i j. cbn [kSb].
    unfold astensor, vscal, mscal. ring. }
  assert (ES : astensor (kS KDistortional (right_CG F) g) = (fun i j => Sb i j - dc22 Sb C / 3 * Ci i j)).
  { apply T2_ext; intros i j. cbn [kS]. rewrite ddot22_full, ESb, right_CG_full. fold C.
    rewrite <- (cg_inv3 F Ci N HC), <- ESb. unfold astensor, vsub, vscal. reflexivity. }
  split; [exact ES|].
  assert (HS : sym2 Sb) by (rewrite <- ESb; apply astensor_sym).
  assert (HCs : sym2 C) by (unfold C; apply cauchy_green_sym).
  rewrite ES. split; apply T2_ext; intros i j.
  - assert (A : mmul (mmul Sb C) Ci i j = Sb i j).
    { rewrite mmul_assoc. fold C in HC. rewrite HC. unfold mmul, one2, sum3, delta. destruct j; cbn; ring. }
    replace (mmul (dev2 (mmul Sb C)) Ci i j) with (mmul (mmul Sb C) Ci i j - tr2 (mmul Sb C) / 3 * Ci i j)
      by (unfold dev2, mmul, one2, delta, sum3; destruct i; cbn; ring).
    rewrite A. f_equal. f_equal. f_equal. unfold tr2, mmul, dc22, sum3.
    rewrite (HCs X1 X0), (HCs X2 X0), (HCs X2 X1). ring.
  - unfold dc42, doc_P, otimes, odot, one2, delta, dc22, sum3. 
    destruct i, j; cbn; rewrite ?(HS X1 X0), ?(HS X2 X0), ?(HS X2 X1); field.
Qed.
Print Assumptions C67_distortional_stress.

(** The elasticity tensor, unless np.allclose takes the framework's tensor for zero (C31). *)
Theorem C67_distortional_elasticity : forall (SV : Type) (fw : Framework SV) F sv s g svn ms H Ci, invertible F ->
  fw_gradient fw (asvoigt (distortional_part (cauchy_green F))) sv (sp_mat s) = (ms, Ok (g, svn)) ->
  outcome (fw_hessian fw (asvoigt (distortional_part (cauchy_green F))) sv) ms = Ok H ->
  significant_at fw F -> mmul (cauchy_green F) Ci = one2 ->
  let C := cauchy_green F in
  let Sb := mscal (Rpower (det3 C) (-1/3)) (mscal 2 (astensor g)) in
  let C4b := t4 (fun i j k l => Rpower (det3 C) (-2/3) * (4 * astensor4 H i j k l)) in
  exists C4, outcome (dis_hessian fw raw F sv) s = Ok (ElastVoigt C4) /\
    astensor4 C4 = doc_dis_elast C Ci Sb C4b.
Proof.
  intros SV fw F sv s g svn ms H Ci N Eg Eh Sg HC C Sb C4b. rewrite cg_seen in Eg.
  assert (Hsig := Sg sv ms H Eh). rewrite cg_seen in Eh.
  assert (E := sp_hessian_ok fw raw KDistortional F sv s g svn ms Eg). rewrite Eh in E. cbn [sp_hessian] in E.
  exists (kC4 KDistortional (right_CG F) g H). split; [exact E|].
  assert (ESb : astensor (kSb KDistortional (right_CG F) g) = Sb).
  { unfold Sb, C. rewrite <- right_CG_full, <- det_astensor. apply T2_ext; intros i j. cbn [kSb].
    unfold astensor, vscal, mscal. ring. }
  rewrite kC4_exact.
  2: { destruct Hsig as [Hz|[v [w Hvw]]]; [now right|]. left. apply (allclose_false _ v w).
       unfold mscal6. rewrite det_astensor, right_CG_full. exact Hvw. }
  unfold dis_C4. cbv zeta. change (inv (right_CG F) None) with (inv (right_CG F) (Some (det (right_CG F)))).
  assert (EP : astensor4 (msub6 (cdya1 eye) (mscal6 (/ 3) (dya (inv (right_CG F) (Some (det (right_CG F)))) (right_CG F)))) = doc_P C Ci).
  { apply T4_ext; intros i j k l. unfold doc_P, otimes.
    transitivity (astensor4 (cdya1 eye) i j k l - / 3 * astensor4 (dya (inv (right_CG F) (Some (det (right_CG F)))) (right_CG F)) i j k l); [reflexivity|].
    rewrite dya_full, (cg_inv3 F Ci N HC), right_CG_full, cdya1_cdya, cdya_full.
    unfold cdya_spec, odot. rewrite !eye_full. fold C. unfold one2. field. }
  set (P4 := msub6 _ _) in *. set (B4 := mscal6 (4 * _) H).
  assert (EB : astensor4 B4 = C4b).
  { apply T4_ext; intros i j k l. unfold B4, C4b, t4, mscal6, astensor4, C. rewrite det_astensor, right_CG_full. ring. }
  apply T4_ext; intros i j k l. unfold doc_dis_elast.
  match goal with |- astensor4 (madd6 (mscal6 ?x ?A) ?B) i j k l = _ =>
    transitivity (x * astensor4 A i j k l + astensor4 B i j k l); [reflexivity|] end.
  rewrite ddot44_full.
  assert (E44 : astensor4 (ddot44 P4 B4) = dc44 (doc_P C Ci) C4b) by (apply T4_ext; intros; rewrite ddot44_full, EP, EB; reflexivity).
  assert (ETr : astensor4 (transpose P4) = T4tr (doc_P C Ci)) by (rewrite <- EP; reflexivity).
  rewrite E44, ETr. rewrite Rplus_comm. f_equal. f_equal.
  set (Iv := inv (right_CG F) (Some (det (right_CG F)))). set (sb := kSb KDistortional (right_CG F) g).
  transitivity (ddot22 sb (right_CG F) * astensor4 (cdya1 Iv) i j k l - astensor4 (dya sb Iv) i j k l
    - astensor4 (transpose (dya sb Iv)) i j k l + ddot22 sb (right_CG F) / 3 * astensor4 (dya Iv Iv) i j k l); [reflexivity|].
  rewrite transpose_dya, !dya_full, cdya1_cdya, cdya_full, ddot22_full. unfold Iv, sb.
  rewrite (cg_inv3 F Ci N HC), ESb, right_CG_full. fold C. unfold cdya_spec, odot, otimes. field.
Qed.
Print Assumptions C67_distortional_elasticity.

(** ** Invariants (_invariants.py:18-137).  [g], [h]: first and second derivatives returned
    by the model (None counts as zero). *)
Definition doc_dI (C Ci : T2) (k : ix3) : T2 :=
  match k with
  | X0 => one2
  | X1 => fun i j => inv1 C * one2 i j - C i j
  | X2 => fun i j => det3 C * Ci i j
  end.
Definition doc_d2I (C Ci : T2) (k : ix3) : T4 :=
  match k with
  | X0 => fun _ _ _ _ => 0
  | X1 => fun i j k l => otimes one2 one2 i j k l - odot one2 one2 i j k l
  | X2 => fun i j k l => det3 C * (otimes Ci Ci i j k l - odot Ci Ci i j k l)
  end.
Definition doc_inv_hessian (C Ci : T2) (g : opt3) (h : ix6 -> option R) : T4 := fun i j k l =>
  val (h (pos X0 X0)) * otimes (doc_dI C Ci X0) (doc_dI C Ci X0) i j k l
  + val (h (pos X1 X1)) * otimes (doc_dI C Ci X1) (doc_dI C Ci X1) i j k l
  + val (h (pos X2 X2)) * otimes (doc_dI C Ci X2) (doc_dI C Ci X2) i j k l
  + val (h (pos X0 X1)) * (otimes (doc_dI C Ci X0) (doc_dI C Ci X1) i j k l + otimes (doc_dI C Ci X1) (doc_dI C Ci X0) i j k l)
  + val (h (pos X1 X2)) * (otimes (doc_dI C Ci X1) (doc_dI C Ci X2) i j k l + otimes (doc_dI C Ci X2) (doc_dI C Ci X1) i j k l)
  + val (h (pos X0 X2)) * (otimes (doc_dI C Ci X0) (doc_dI C Ci X2) i j k l + otimes (doc_dI C Ci X2) (doc_dI C Ci X0) i j k l)
  + val (o3 g X0) * doc_d2I C Ci X0 i j k l + val (o3 g X1) * doc_d2I C Ci X1 i j k l + val (o3 g X2) * doc_d2I C Ci X2 i j k l.

Section Inv.
  Context (C Ci : T2) (HS : sym2 C) (N : invertible C) (HC : mmul C Ci = one2).
  Lemma inv_is : astensor (inv (asvoigt C) (Some (det (asvoigt C)))) = Ci.
  Proof.
    change (inv (asvoigt C) (Some (det (asvoigt C)))) with (inv (asvoigt C) None).
    apply inverse_unique with C; [|exact HC]. apply T2_ext. intros i j.
    assert (D : det (asvoigt C) <> 0) by (rewrite det_full; auto).
    assert (E := inv_right (asvoigt C) D i j). rewrite astensor_asvoigt_f in E by exact HS. exact E.
  Qed.
  Lemma dI_is k : astensor (dJv (asvoigt C) k) = doc_dI C Ci k.
  Proof.
    apply T2_ext; intros i j. destruct k; cbn [dJv doc_dI].
    - apply eye_full.
    - transitivity (trace (asvoigt C) * astensor eye i j - astensor (asvoigt C) i j); [reflexivity|].
      rewrite eye_full, trace_full, astensor_asvoigt_f by exact HS. reflexivity.
    - transitivity (det (asvoigt C) * astensor (inv (asvoigt C) (Some (det (asvoigt C)))) i j); [reflexivity|].
      rewrite inv_is, det_full by exact HS. reflexivity.
  Qed.
  Lemma d2I_is k a b c d : astensor4 (d2Jv (asvoigt C) k) a b c d = doc_d2I C Ci k a b c d.
  Proof.
    destruct k; cbn [d2Jv doc_d2I].
    - reflexivity.
    - transitivity (astensor4 (dya eye eye) a b c d - astensor4 (cdya1 eye) a b c d); [reflexivity|].
      rewrite dya_full, cdya1_cdya, cdya_full, !eye_full. unfold otimes, odot, cdya_spec, one2. rewrite !eye_full. field.
    - set (iv := inv (asvoigt C) (Some (det (asvoigt C)))).
      transitivity (det (asvoigt C) * (astensor4 (dya iv iv) a b c d - astensor4 (cdya1 iv) a b c d)); [reflexivity|].
      rewrite dya_full, cdya1_cdya, cdya_full, det_full by exact HS. unfold iv. rewrite inv_is.
      unfold otimes, odot, cdya_spec. field.
  Qed.
End Inv.

Theorem C67_invariants_gradient : forall (SV : Type) (m : InvModel SV) C Ci sv s g svn,
  sym2 C -> invertible C -> mmul C Ci = one2 -> inv_call m (invariants C) sv = Ok (g, svn) ->
  exists G, returns (fw_gradient (invariants_fw m) (asvoigt C) sv) s (G, svn) /\
    astensor G = (fun i j => val (o3 g X0) * doc_dI C Ci X0 i j + val (o3 g X1) * doc_dI C Ci X1 i j
                             + val (o3 g X2) * doc_dI C Ci X2 i j).
Proof.
  intros SV m C Ci sv s g svn HS N HC E. rewrite <- Jv_full in E by exact HS.
  exists (gradv (asvoigt C) g). split; [eexists; exact (inv_gradient_ok m _ _ _ _ s E)|].
  apply T2_ext; intros i j. rewrite <- !(dI_is C Ci HS N HC). reflexivity.
Qed.
Print Assumptions C67_invariants_gradient.
(** If the model returns d2WdI3dI3 = None and gives second derivatives only where it gives
    first ones; otherwise see C15_hessian_error and C16. *)
Theorem C67_invariants_hessian : forall (SV : Type) (m : InvModel SV) C Ci sv s g svn h,
  sym2 C -> invertible C -> mmul C Ci = one2 ->
  inv_call m (invariants C) sv = Ok (g, svn) -> inv_callh m (invariants C) svn = Ok h ->
  none_consistent g h -> h (pos X2 X2) = None ->
  exists H, returns (fw_hessian (invariants_fw m) (asvoigt C) sv) s H /\ astensor4 H = doc_inv_hessian C Ci g h.
Proof.
  intros SV m C Ci sv s g svn h HS N HC E Eh NC H2. rewrite <- Jv_full in E, Eh by exact HS.
  exists (hessv (asvoigt C) g h). split.
  - eexists. cbn [fw_hessian invariants_fw]. rewrite (inv_hessian_eq m _ _ _ _ _ s E Eh).
    cbn [pos] in H2. rewrite (none_exn g h NC H2), H2. reflexivity.
  - apply T4_ext; intros i j k l.
    transitivity (sum3 (fun a => val (o3 g a) * astensor4 (d2Jv (asvoigt C) a) i j k l) +
      sum3 (fun a => sum3 (fun b => val (h (pos a b)) * astensor4 (dya (dJv (asvoigt C) a) (dJv (asvoigt C) b)) i j k l))); [reflexivity|].
    unfold sum3. rewrite !dya_full, !(d2I_is C Ci HS N HC), !(dI_is C Ci HS N HC).
    unfold doc_inv_hessian, otimes. cbn [pos]. ring.
Qed.
Print Assumptions C67_invariants_hessian.

(** ** GeneralizedInvariants (_generalized.py, _generalized_invariants.py): the first
    derivatives w.r.t. the principal stretches. *)
Theorem C67_generalized_gradient : forall (SV : Type) (m : InvModel SV) fs c E E' E'' l sv s g svn,
  measure_of fs E E' E'' -> positive3 l ->
  inv_call m (gen_invariants E c l) sv = Ok (g, svn) ->
  exists G, returns (sm_gradient (gen_model m fs c) l sv) s (G, svn) /\
    let e a := E (l a) in
    G X0 = val (o3 g X0) * gc1 c * E' (l X0) + val (o3 g X1) * (gc2 c * (e X1 + e X2)) * E' (l X0) + val (o3 g X2) * (e X1 * e X2) * E' (l X0) /\
    G X1 = val (o3 g X0) * gc1 c * E' (l X1) + val (o3 g X1) * (gc2 c * (e X2 + e X0)) * E' (l X1) + val (o3 g X2) * (e X2 * e X0) * E' (l X1) /\
    G X2 = val (o3 g X0) * gc1 c * E' (l X2) + val (o3 g X1) * (gc2 c * (e X0 + e X1)) * E' (l X2) + val (o3 g X2) * (e X0 * e X1) * E' (l X2).
Proof.
  intros SV m fs c E E' E'' l sv s g svn HM P Eg.
  destruct (gen_gradient_ok m fs c E E' E'' HM l sv g svn P Eg s) as (s' & Er & _).
  eexists. split; [exists s'; exact Er|]. cbv zeta beta. unfold sum3, gdI. cbn [gb gg]. repeat split; ring.
Qed.
Print Assumptions C67_generalized_gradient.

(** ** Stretches (_stretches.py:17-108).  [l a]: principal stretch, [M a]: eigenbase, as
    computed by LAPACK. *)
Definition eigenbase (N : T2) (a : ix3) : T2 := fun i j => N i a * N j a.
Theorem C67_stretches_gradient : forall (SV : Type) lapack (m : StretchModel SV) C sv s g svn ms, sym2 C ->
  let l := fun a => sqrt (fst (lapack C) a) in
  let M := eigenbase (snd (lapack C)) in
  sm_gradient m l sv (st_model m s) = (ms, Ok (g, svn)) ->
  exists G, returns (str_gradient lapack m (asvoigt C) sv) s (G, svn) /\
    astensor G = (fun i j => sum3 (fun a => g a * (1 / (2 * l a) * M a i j))).
Proof.
  intros SV lapack m C sv s g svn ms HS l M E.
  assert (EC : astensor (asvoigt C) = C) by (apply astensor_asvoigt_f, HS).
  assert (El : lam lapack (asvoigt C) = l) by (unfold lam; rewrite EC; reflexivity).
  assert (Ev : vec lapack (asvoigt C) = snd (lapack C)) by (unfold vec; rewrite EC; reflexivity).
  exists (strGv lapack (asvoigt C) g). split.
  - eexists. rewrite <- El in E. exact (str_gradient_ok lapack m _ _ _ _ _ _ E).
  - rewrite strGv_full, El, Ev. apply T2_ext; intros i j. unfold Gf, strK, base, M, eigenbase, sum3, Rdiv. ring.
Qed.
Print Assumptions C67_stretches_gradient.
(** The hessian, with the second derivatives w.r.t. the squares of the stretches,
    psi_ab = h_ab / (4 l_a l_b) - delta_ab psi_a / (2 l_a^2), and each pair (a, b) once:
    one half of the printed second sum. *)
Definition str_hessian_formula (l g : Vec3) (h : ix6 -> option R) (M : ix3 -> T2) : T4 := fun i j p q =>
  let k a := g a / (2 * l a) in
  sum3 (fun a => sum3 (fun b =>
    (val (h (pos a b)) / (4 * l a * l b) - delta a b * (k a / (2 * l a ^ 2))) * otimes (M a) (M b) i j p q))
  + sum3 (fun a => sum3 (fun b => if ix3_eqb a b then 0 else
      (k a - k b) / (l a ^ 2 - l b ^ 2) * ((odot (M a) (M b) i j p q + odot (M b) (M a) i j p q) / 2))).
(** The formula as printed. *)
Definition doc_str_hessian (l g : Vec3) (h : ix6 -> option R) (M : ix3 -> T2) : T4 := fun i j p q =>
  let k a := g a / (2 * l a) in
  sum3 (fun a => sum3 (fun b =>
    val (h (pos a b)) * otimes (fun i j => 1 / (2 * l a) * M a i j) (fun i j => 1 / (2 * l b) * M b i j) i j p q))
  + sum3 (fun a => sum3 (fun b => if ix3_eqb a b then 0 else
      (k a - k b) / (l a ^ 2 - l b ^ 2) * (odot (M a) (M b) i j p q + odot (M b) (M a) i j p q))).
Definition apart3 (l : Vec3) : Prop := forall a b, a <> b -> / 10 ^ 8 < Rabs (l a ^ 2 - l b ^ 2).
Theorem C67_stretches_hessian : forall (SV : Type) lapack (m : StretchModel SV) C sv s g svn ms ms' h, sym2 C ->
  let l := fun a => sqrt (fst (lapack C) a) in
  let M := eigenbase (snd (lapack C)) in
  apart3 l ->
  sm_gradient m l sv (st_model m s) = (ms, Ok (g, svn)) -> sm_hessian m l svn ms = (ms', Ok h) ->
  exists H, returns (str_hessian lapack m (asvoigt C) sv) s H /\ astensor4 H = str_hessian_formula l g h M.
Proof.
  intros SV lapack m C sv s g svn ms ms' h HS l M Ha E Eh.
  assert (EC : astensor (asvoigt C) = C) by (apply astensor_asvoigt_f, HS).
  assert (El : lam lapack (asvoigt C) = l) by (unfold lam; rewrite EC; reflexivity).
  assert (Ev : vec lapack (asvoigt C) = snd (lapack C)) by (unfold vec; rewrite EC; reflexivity).
  rewrite <- El in E, Eh. destruct (str_hessian_ok lapack m _ _ _ _ _ _ _ _ E Eh) as [s' [ER _]].
  exists (strHv lapack (asvoigt C) g h). split; [exists s'; exact ER|].
  rewrite strHv_full, El, Ev. apply T4_ext; intros i j p q.
  assert (F : forall a b, a <> b -> strF l g h a b = (g a / (2 * l a) - g b / (2 * l b)) / (l a ^ 2 - l b ^ 2)).
  { intros a b Hab. unfold strF. assert (Hc := Ha a b Hab). destruct (isclose _ 0) eqn:Ec; [|reflexivity].
    apply isclose0 in Ec. lra. }
  assert (Z : forall a b, a <> b -> l a ^ 2 - l b ^ 2 <> 0).
  { intros a b Hab Z. assert (Hc := Ha a b Hab). rewrite Z, Rabs_R0 in Hc. assert (0 < / 10 ^ 8) by (apply Rinv_0_lt_compat; apply pow_lt; lra). lra. }
  assert (Y : forall a b, a <> b -> forall x y, (x - y) / (l a ^ 2 - l b ^ 2) = (y - x) / (l b ^ 2 - l a ^ 2)).
  { intros a b Hab x y. field. split; [apply Z; congruence|apply Z; exact Hab]. }
  unfold Hf, str_hessian_formula. cbv zeta. f_equal.
  - assert (ED : forall a b, strD l g h a b = val (h (pos a b)) / (4 * l a * l b) - delta a b * (g a / (2 * l a) / (2 * l a ^ 2))).
    { intros a b. unfold strD, strK, delta. destruct (ix3_eqb a b); unfold Rdiv; ring. }
    unfold sum3. rewrite !ED. reflexivity.
  - rewrite !F by discriminate. unfold sum3. cbn [ix3_eqb].
    rewrite (Y X1 X0), (Y X2 X0), (Y X2 X1) by discriminate.
    set (f01 := _ / (l X0 ^ 2 - l X1 ^ 2)). set (f02 := _ / (l X0 ^ 2 - l X2 ^ 2)). set (f12 := _ / (l X1 ^ 2 - l X2 ^ 2)).
    unfold cdya_spec, odot, M, eigenbase, base. field.
Qed.
Print Assumptions C67_stretches_hessian.
(** For the Ogden model with mu = 1, alpha = 2 the printed formula is wrong at every
    positive definite C: the hessian is zero, the printed sum is not (it lacks the second
    derivatives of the stretches and counts every pair twice). *)
Lemma og2_g a l : 0 < l a -> ogden_gradient {| og_mu := [1]; og_alpha := [2] |} l a = l a.
Proof.
  intro P. rewrite ogden_gradient_eq. cbn. replace (2 - 1) with 1 by ring. rewrite Rpower_1 by exact P. field.
Qed.
Lemma og2_h a l : 0 < l a -> val (ogden_hessian {| og_mu := [1]; og_alpha := [2] |} l (pos a a)) = 1.
Proof.
  intro P. rewrite ogden_hessian_eq. destruct a; cbn; replace (2 - 2) with 0 by ring; rewrite Rpower_O by exact P; field.
Qed.
Theorem C67_stretches_hessian_refuted : forall lapack C (sv : unit) s, sym2 C -> posdef C ->
  eig_legal C (fst (lapack C)) (snd (lapack C)) ->
  let m := ogden_model {| og_mu := [1]; og_alpha := [2] |} in
  let l := fun a => sqrt (fst (lapack C) a) in
  let M := eigenbase (snd (lapack C)) in
  exists g h H, outcome (sm_gradient m l sv) (st_model m s) = Ok (g, sv) /\ outcome (sm_hessian m l sv) (st_model m s) = Ok h /\
    returns (str_hessian lapack m (asvoigt C) sv) s H /\ astensor4 H <> doc_str_hessian l g h M.
Proof.
  intros lapack C sv s HS HP HL m l M.
  assert (Pl : forall a, 0 < l a) by (intro a; apply sqrt_lt_R0; apply (eig_posdef _ _ _ HL); exact HP).
  set (g := ogden_gradient {| og_mu := [1]; og_alpha := [2] |} l).
  set (h := ogden_hessian {| og_mu := [1]; og_alpha := [2] |} l).
  exists g, h, (strHv lapack (asvoigt C) g h). split; [reflexivity|]. split; [reflexivity|].
  assert (EC : astensor (asvoigt C) = C) by (apply astensor_asvoigt_f, HS).
  assert (El : lam lapack (asvoigt C) = l) by (unfold lam; rewrite EC; reflexivity).
  assert (Ev : vec lapack (asvoigt C) = snd (lapack C)) by (unfold vec; rewrite EC; reflexivity).
  split.
  - destruct (str_hessian_ok lapack m (asvoigt C) sv s (st_model m s) g sv (st_model m s) h) as [s' [ER _]].
    + rewrite El. reflexivity.
    + rewrite El. reflexivity.
    + exists s'. exact ER.
  - intro E. rewrite strHv_full, El, Ev in E.
    assert (Hg : forall a, g a = l a) by (intro a; apply og2_g, Pl).
    assert (Hh : forall a, val (h (pos a a)) = 1) by (intro a; apply og2_h, Pl).
    assert (Hm : forall a b, a <> b -> val (h (pos a b)) = 0).
    { intros a b Hab. unfold h. rewrite ogden_hessian_eq. destruct a, b; try congruence; reflexivity. }
    assert (K : forall a, g a / (2 * l a) = 1 / 2) by (intro a; rewrite Hg; field; apply Rgt_not_eq, Pl).
    (* contract both sides with the identity twice *)
    assert (Q : sum3 (fun i => sum3 (fun p => Hf (strD l g h) (strF l g h) (snd (lapack C)) i i p p)) =
                sum3 (fun i => sum3 (fun p => doc_str_hessian l g h M i i p p))) by (rewrite E; reflexivity).
    assert (D0 : forall a b, strD l g h a b = 0).
    { intros a b. unfold strD, strK. assert (Pa := Pl a). destruct (ix3_eqb a b) eqn:Eab.
      - assert (a = b) as <- by (destruct a, b; (reflexivity || discriminate)). rewrite Hh, Hg. field. lra.
      - rewrite Hm by (intro Hq; rewrite Hq in Eab; destruct b; discriminate). unfold Rdiv. ring. }
    assert (F0 : forall a b, strF l g h a b = 0).
    { intros a b. unfold strF. rewrite !D0. unfold strK. rewrite !K. destruct (isclose _ _); unfold Rdiv; ring. }
    assert (L0 : sum3 (fun i => sum3 (fun p => Hf (strD l g h) (strF l g h) (snd (lapack C)) i i p p)) = 0).
    { unfold Hf, sum3. rewrite !D0, !F0. ring. }
    rewrite L0 in Q.
    assert (T : forall a, sum3 (fun i => M a i i) = 1).
    { intro a. unfold M, eigenbase. rewrite (proj1 HL a a). unfold delta. destruct a; reflexivity. }
    assert (Q1 : forall i p, doc_str_hessian l g h M i i p p = sum3 (fun a => 1 / (4 * l a ^ 2) * (M a i i * M a p p))).
    { intros i p. unfold doc_str_hessian, sum3. cbv zeta. cbn [ix3_eqb]. rewrite !K, !Hh, !Hm by discriminate.
      unfold otimes. replace (1 / 2 - 1 / 2) with 0 by ring. unfold Rdiv at 7 8 9 10 11 12.
      assert (P0 := Pl X0). assert (P1 := Pl X1). assert (P2 := Pl X2).
      replace (1 / (4 * l X0 ^ 2)) with (1 / (2 * l X0) * (1 / (2 * l X0))) by (field; lra).
      replace (1 / (4 * l X1 ^ 2)) with (1 / (2 * l X1) * (1 / (2 * l X1))) by (field; lra).
      replace (1 / (4 * l X2 ^ 2)) with (1 / (2 * l X2) * (1 / (2 * l X2))) by (field; lra).
      unfold Rdiv. ring. }
    assert (Q2 : sum3 (fun i => sum3 (fun p => doc_str_hessian l g h M i i p p)) =
      sum3 (fun a => 1 / (4 * l a ^ 2) * (sum3 (fun i => M a i i) * sum3 (fun i => M a i i)))).
    { unfold sum3 at 1 2 3 4. rewrite !Q1. unfold sum3. ring. }
    rewrite Q2 in Q. unfold sum3 at 1 in Q. rewrite !T in Q.
    assert (PP : forall a, 0 < 1 / (4 * l a ^ 2)).
    { intro a. apply Rdiv_lt_0_compat; [lra|]. apply Rmult_lt_0_compat; [lra|]. apply pow_lt, Pl. }
    assert (A0 := PP X0). assert (A1 := PP X1). assert (A2 := PP X2). lra.
Qed.
Print Assumptions C67_stretches_hessian_refuted.
(** ** Concrete cases: a sheared body with all five coefficients (deformation, distortional
    stress, invariants); one coefficient at the distortion Fd 0 (elasticity tensor); three
    different stretches for the eigenvalue formulas. *)
Example C67_example : forall ms ms', exists Ci g m1 H, invertible F_shear /\ mmul (cauchy_green F_shear) Ci = one2 /\
  fw_gradient tod_ex (asvoigt (distortional_part (cauchy_green F_shear))) tt ms = (m1, Ok (g, tt)) /\
  outcome (fw_hessian tod_ex (asvoigt (distortional_part (cauchy_green F_shear))) tt) ms' = Ok H /\
  significant_at (tod20 1) (Fd 0) /\ invertible (Fd 0).
Proof.
  intros ms ms'. assert (N : invertible F_shear) by (unfold invertible, det3, F_shear, delta; cbn; lra).
  assert (D : det3 (cauchy_green F_shear) <> 0) by (rewrite <- right_CG_full, <- det_astensor, det_right_CG; apply pow_nonzero; exact N).
  set (C := distortional_part (cauchy_green F_shear)).
  assert (SY : sym2 C).
  { unfold C. rewrite <- right_CG_full, <- dist_part. apply astensor_sym. }
  destruct (tod_call (tod_init 1 2 3 4 5 false) (invariants C) tt) as (g & E & _).
  assert (G : exists r, returns (fw_gradient tod_ex (asvoigt C) tt) ms r)
    by (apply (C16_gradient_returns unit (tod_model (tod_init 1 2 3 4 5 false)) _ _ _ SY); eexists; exact E).
  destruct G as ([G []] & m1 & EG).
  destruct (C16_third_order_deformation unit (tod_init 1 2 3 4 5 false) C tt ms' SY) as (H & m2 & EH).
  exists (inv3 (cauchy_green F_shear)), G, m1, H. split; [exact N|]. split; [apply inv3_r, D|]. split; [exact EG|].
  split; [exact (f_equal snd EH)|]. split; [exact (proj2 C31_significant)|exact (proj1 C31_significant)].
Qed.
Example C67_stretches_example : forall lapack, lapack_legal lapack ->
  exists C, sym2 C /\ posdef C /\ C X0 X1 = 1 /\ apart3 (fun a => sqrt (fst (lapack C) a)).
Proof.
  intros lapack L. assert (E := eig_example). unfold lapack_at in E. cbn [fst snd] in E.
  set (c := fun v => match v with V0 => 2 | V1 => 2 | V2 => 5 | V3 => 1 | _ => 0 end) in *.
  exists (astensor c). split; [apply astensor_sym|]. split.
  - apply (eig_posdef _ _ _ E). intros []; lra.
  - split; [reflexivity|]. assert (U := eig_unique _ _ _ _ _ (L c) E).
    assert (B : / 10 ^ 8 < 1) by lra.
    intros a b Hab. change ((fun x => astensor c x)) with (astensor c). rewrite U.
    rewrite !pow2_sqrt by (destruct a, b; lra). destruct a, b; try congruence; unfold Rabs; destruct (Rcase_abs _); lra.
Qed.
