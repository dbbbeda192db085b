(** C63: integer arrays.  See Typed.v for the modelled NumPy rules and TypedSpec.v for
    the vocabulary. *)
From Coq Require Import Reals ZArith Lra Lia FunctionalExtensionality Bool List.
From Verif Require Import Tensor Py Voigt VoigtProofs Algebra Models Frameworks Spaces Lab Spec VCalc InvCore SpaceCore HistProofs Typed TypedSpec TypedProofs TypedSpaces TypedModels.
Local Open Scope R_scope.

(** Every space, every option, every material: with an integer deformation gradient (entries up
    to 500) a call raises TypeError or returns float arrays with exactly the numbers of the
    call on the same deformation gradient as floats -- never silently truncated ones. *)
Theorem C63_gradient : forall (SV : Type) (tf : TFramework SV) fw, material tf fw ->
  forall k o F (sv : SV) s, moderate F ->
  right_or_TypeError float_stress (t_gradient k tf o F sv) (outcome (sp_gradient k fw o (numbers F) sv) s).
Proof. intros SV tf fw M k o F sv s HF. exact (proj1 (gradient_right tf fw o (material_right tf fw M) k F sv s HF)). Qed.
Theorem C63_hessian : forall (SV : Type) (tf : TFramework SV) fw, material tf fw ->
  forall k o F (sv : SV) s, moderate F ->
  right_or_TypeError float_elast (t_hessian k tf o F sv) (outcome (sp_hessian k fw o (numbers F) sv) s).
Proof. intros SV tf fw M k o F sv s HF. exact (proj1 (hessian_right tf fw o (material_right tf fw M) k F sv s HF)). Qed.

(** With floats there is no TypeError from element types: the real-number model of the other
    layers is exactly what runs. *)
Theorem C63_floats : forall (SV : Type) (tf : TFramework SV) fw, material tf fw ->
  forall k o F (sv : SV) s, floats F ->
  right float_stress (t_gradient k tf o F sv) (outcome (sp_gradient k fw o (numbers F) sv) s) /\
  right float_elast (t_hessian k tf o F sv) (outcome (sp_hessian k fw o (numbers F) sv) s).
Proof.
  intros SV tf fw M k o F sv s HF. split.
  - exact (proj2 (gradient_right tf fw o (material_right tf fw M) k F sv s (or_introl HF)) HF).
  - exact (proj2 (hessian_right tf fw o (material_right tf fw M) k F sv s (or_introl HF)) HF).
Qed.

(** The shipped models are such materials. *)
Theorem C63_third_order_deformation : forall (SV : Type) nd m, params m ->
  material (SV:=SV) (t_invariants (t_tod_model nd m)) (invariants_fw (tod_model (tod_num m))).
Proof. intros SV nd m P. apply Mat_invariants, tod_typed, P. Qed.
Theorem C63_ogden : forall (SV : Type) lapack og s0,
  material (SV:=SV) (t_stretches lapack (ogden_model og) s0) (stretches_fw lapack (ogden_model og)).
Proof. intros SV lapack og s0. apply Mat_stretches, ogden_stateless. Qed.
Theorem C63_generalized : forall (SV : Type) lapack (m : InvModel SV) fs c s0,
  material (t_stretches lapack (gen_model m fs c) s0) (stretches_fw lapack (gen_model m fs c)).
Proof. intros SV lapack m fs c s0. apply Mat_stretches, gen_stateless. Qed.

(** Distortional and Dilatational never accept an integer deformation gradient: TypeError
    from inv (or the framework's own exception, which comes first). *)
Theorem C63_projected_spaces_reject : forall (SV : Type) (tf : TFramework SV) fw, material tf fw ->
  forall k o F z (sv : SV) s, k <> KDeformation -> integers F z -> (forall i j, (Z.abs (z i j) <= 500)%Z) ->
  match outcome (sp_gradient k fw o (numbers F) sv) s with
  | Ok _ => t_gradient k tf o F sv = Raise TypeError /\ t_hessian k tf o F sv = Raise TypeError
  | Raise e => t_gradient k tf o F sv = Raise e /\ t_hessian k tf o F sv = Raise e
  end.
Proof.
  intros SV tf fw M k o F z sv s N HI B. assert (HF : moderate F) by (right; exists z; split; assumption).
  destruct HI as (f & -> & E). pose proof (material_right tf fw M) as HT.
  pose proof (proj1 (proj2 (seen_right tf fw HT k (AI f) sv HF) (or_introl N) (sp_mat s))) as Q.
  destruct (tf_gradient tf (t_seen k (t_right_CG (AI f))) sv) as [[a svn]|e] eqn:Et;
  destruct (outcome (fw_gradient fw (seen k (right_CG (numbers (AI f)))) sv) (sp_mat s)) as [[g svn']|e'] eqn:Ef; cbn in Q; try contradiction.
  - rewrite (sp_gradient_ok fw o k _ sv s g svn' Ef). exact (t_int_raise tf o k f sv a svn N Et).
  - subst e'. rewrite (sp_gradient_raise fw o k _ sv s e Ef). exact (t_raise tf o k (AI f) sv e Et).
Qed.

(** Deformation with ThirdOrderDeformation accepts it: the gradient always returns the right
    numbers, the hessian too unless force=0 needs the inverse of C (then TypeError).  For
    arrays with trailing axes ([nd]) the parameters must be floats. *)
Theorem C63_deformation_accepts : forall (SV : Type) nd m o F (sv : SV) s, params m -> nd = false \/ float_params m -> moderate F ->
  right float_stress (t_gradient KDeformation (t_invariants (t_tod_model nd m)) o F sv)
    (outcome (sp_gradient KDeformation (invariants_fw (tod_model (tod_num m))) o (numbers F) sv) s) /\
  (finalize o = false \/ force o = Deformed ->
   right float_elast (t_hessian KDeformation (t_invariants (t_tod_model nd m)) o F sv)
    (outcome (sp_hessian KDeformation (invariants_fw (tod_model (tod_num m))) o (numbers F) sv) s)).
Proof. intros SV nd m o F sv s P C HF. destruct (def_int nd m o F sv s P C HF) as (A & B & _). split; assumption. Qed.
Theorem C63_deformation_force0 : forall (SV : Type) nd m o F z (sv : SV), params m -> nd = false \/ float_params m ->
  integers F z -> (forall i j, (Z.abs (z i j) <= 500)%Z) -> finalize o = true -> force o = Undeformed ->
  t_hessian KDeformation (t_invariants (t_tod_model nd m)) o F sv = Raise TypeError.
Proof.
  intros SV nd m o F z sv P C HI B A1 A2. assert (HF : moderate F) by (right; exists z; split; assumption).
  pose (s0 := {| sp_C := None; sp_I3 := None; sp_Cx := None; sp_Sb := None; sp_sc := None; sp_invC := None; sp_S := None; sp_mat := inv_self0 |}).
  destruct HI as (f & -> & E). exact (proj2 (proj2 (def_int nd m o (AI f) sv s0 P C HF)) A1 A2 eq_refl).
Qed.
(** ... and that condition on the parameters is needed: with an integer C20 and a float C30 the
    in-place sum of the model fails on integer arrays. *)
Theorem C63_integer_parameter : forall (SV : Type) o F z (sv : SV) c20 c30,
  integers F z -> (forall i j, (Z.abs (z i j) <= 500)%Z) -> (0 < Z.abs c20 <= 100000)%Z -> c30 <> 0 ->
  t_gradient KDeformation (t_invariants (t_tod_model true
    {| tC10 := NI 0; tC01 := NI 0; tC11 := NI 0; tC20 := NI c20; tC30 := NF c30; tundef := NI 3 |})) o F sv = Raise TypeError.
Proof.
  intros SV o F z sv c20 c30 HI B H2 H3. destruct HI as (f & -> & E).
  assert (N2 : nonzero (IZR c20) = true). { unfold nonzero. destruct (Req_EM_T (IZR c20) 0) as [A|A]; [apply eq_IZR in A; lia|reflexivity]. }
  assert (N3 : nonzero c30 = true). { unfold nonzero. destruct (Req_EM_T c30 0); [contradiction|reflexivity]. }
  assert (N0 : nonzero 0 = false). { unfold nonzero. destruct (Req_EM_T 0 0); [reflexivity|contradiction]. }
  apply (t_raise _ o KDeformation). cbn [tf_gradient t_invariants t_seen]. unfold t_inv_gradient, t_inv_gradient_self. cbv zeta.
  match goal with |- rbind (rbind ?X _) _ = _ => assert (T : X = Raise TypeError) end; [|rewrite T; reflexivity].
  cbn [tm_gradient t_tod_model]. unfold t_tod_gradient. cbn [tC10 tC01 tC11 tC20 tC30 tundef rv]. rewrite N0, N2, N3. reflexivity.
Qed.

(** Beyond the bound the numbers may be wrong without an exception: int64 wraps around. *)
Definition big_z (i j : ix3) : Z := match i, j with X0, X0 => 4294967296 | X1, X1 | X2, X2 => 1 | _, _ => 0 end%Z.
Theorem C63_overflow : let F := AI (fun '(i, j) => big_z i j) in
  let m := {| tC10 := NI 0; tC01 := NI 0; tC11 := NI 0; tC20 := NF (1 / 2); tC30 := NI 0; tundef := NI 3 |} in
  forall s, exists P P',
    t_gradient KDeformation (t_invariants (t_tod_model true m)) default_opts F tt = Ok (TStressFull (AF P), tt) /\
    outcome (sp_gradient KDeformation (invariants_fw (tod_model (tod_num m))) default_opts (numbers F) tt) s = Ok (StressFull P', tt) /\
    P (X1, X1) = - 2 /\ P' X1 X1 = 2 * (18446744073709551616 - 1).
Proof.
  intros F m s.
  assert (N0 : nonzero 0 = false). { unfold nonzero. destruct (Req_EM_T 0 0); [reflexivity|contradiction]. }
  assert (N2 : nonzero (1 / 2) = true). { unfold nonzero. destruct (Req_EM_T (1 / 2) 0); [lra|reflexivity]. }
  set (C := t_right_CG F). set (C0 := right_CG (numbers F)).
  assert (TC : t_trace C = NI 2) by (vm_compute; reflexivity).
  assert (EM : forall nd I1 I2 I3, t_tod_gradient nd m I1 I2 I3 = Ok (Some (nadd (NI 0) (nmul (nmul (NF (1 / 2)) (NI 2)) (nsub I1 (NI 3)))), None, None)).
  { intros nd I1 I2 I3. unfold t_tod_gradient. cbn [m tC10 tC01 tC11 tC20 tC30 tundef rv]. rewrite N0, N2. reflexivity. }
  assert (EM0 : forall I1 I2 I3, tod_gradient (tod_num m) I1 I2 I3 = Ok (Some (0 + 1 / 2 * 2 * (I1 - 3)), None, None)).
  { intros I1 I2 I3. unfold tod_gradient. cbn [tod_num m tC10 tC01 tC11 tC20 tC30 tundef C10 C01 C11 C20 C30 undeformed rv]. rewrite N0, N2. reflexivity. }
  assert (G : tf_gradient (t_invariants (t_tod_model (SV:=unit) true m)) C tt = Ok (AF (fun v => 0 + (0 + 1 / 2 * 2 * (2 - 3)) * eye v), tt)).
  { cbn [tf_gradient t_invariants]. unfold t_inv_gradient, t_inv_gradient_self. cbv zeta. cbn [tm_gradient t_tod_model]. rewrite EM, TC.
    cbn [rbind]. assert (W : nsub (NI 2) (NI 3) = NI (-1)) by (vm_compute; reflexivity). rewrite W. cbn [rbind nadd nmul nop rv smul t_eye aadd ein2 vals].
    do 2 f_equal. apply arr_float. intro v. unfold vzero. ring. }
  destruct F as [f|f] eqn:EF; [|discriminate EF].
  assert (E1 : t_gradient KDeformation (t_invariants (t_tod_model (SV:=unit) true m)) default_opts (AI f) tt =
     rbind (t_piola_stress default_opts (AI f) (smul (NI 2) (AF (fun v => 0 + (0 + 1 / 2 * 2 * (2 - 3)) * eye v))) None) (fun P => Ok (P, tt))).
  { cbn [t_gradient]. unfold t_def_gradient, t_def_S. cbv zeta. fold C. rewrite G. reflexivity. }
  pose proof (inv_gradient_ok (tod_model (tod_num m)) C0 tt (Some (0 + 1 / 2 * 2 * (Jv C0 X0 - 3)), None, None) tt (sp_mat s)
     ltac:(unfold inv_call; cbn [im_gradient tod_model]; rewrite EM0; reflexivity)) as I0.
  assert (TR : Jv C0 X0 = 18446744073709551616 + 2).
  { cbn [Jv]. unfold C0, trace, right_CG, asvoigt, sum3, numbers. injection EF as <-. cbn. lra. }
  eexists. eexists. split; [|split; [|split]].
  - rewrite E1. reflexivity.
  - rewrite (sp_gradient_ok (invariants_fw (tod_model (tod_num m))) default_opts KDeformation (numbers (AI f)) tt s _ tt (f_equal snd I0)). reflexivity.
  - cbn [smul t_astensor reindex vals into t_force ein2]. cbv beta iota. unfold es_force, sum3, t2. cbn [vals]. injection EF as <-. cbn. lra.
  - cbn [kS]. unfold es_force, sum3, astensor, vscal, gradv, sum3. cbn [vix o3 fst snd val dJv eye]. rewrite TR. unfold numbers. injection EF as <-. cbn. lra.
Qed.

(** ** The functions of hyperelastic.math *)
(** inv raises exactly if its destination (A's own element type without [out]) is an integer array. *)
Theorem C63_inv : forall A d out,
  let o := match out with None => dt A | Some t => t end in
  (o = Int -> t_inv A d out = Raise TypeError) /\
  (o = Flt -> exists x, t_inv A d out = Ok (AF x)) /\
  (dt A = Flt -> o = Flt -> t_inv A d out = Ok (AF (inv (vals A) (option_map rv d)))).
Proof.
  intros A d out o. subst o. split; [|split].
  - intro E. unfold t_inv. rewrite E. destruct A as [f|f]; reflexivity.
  - intro E. unfold t_inv. rewrite E. destruct A as [f|f]; cbn; eexists; reflexivity.
  - intros EA E. unfold t_inv. rewrite E. destruct A as [f|f]; [discriminate EA|]. destruct d as [d|]; reflexivity.
Qed.
(** cdya raises exactly if one of its arguments is an integer array. *)
Theorem C63_cdya : forall same A B out, (same = true -> A = B) ->
  (dt A = Int \/ dt B = Int -> t_cdya same A B out = Raise TypeError) /\
  (dt A = Flt -> dt B = Flt -> exists x, t_cdya same A B out = Ok x).
Proof.
  intros same A B out S. destruct A as [f|f], B as [g|g]; (split; [intro H|intros H1 H2]).
  all: try (destruct H as [H|H]; discriminate H). all: try discriminate H1; try discriminate H2.
  all: destruct same; try reflexivity; try discriminate (S eq_refl).
  all: eexists; reflexivity.
Qed.
(** On floats it is the documented product, also in a float [out]... *)
Theorem C63_cdya_floats : forall same f g out, out = None \/ out = Some Flt ->
  exists x, t_cdya same (AF f) (AF g) out = Ok (AF x) /\ forall v w, x (v, w) = cdya_obj same f g v w.
Proof.
  intros same f g out H. destruct H as [->| ->], same; (eexists; split; [reflexivity|]; intros v w; unfold cdya_obj; cbn -[ix6_leb]; destruct (ix6_leb v w); reflexivity).
Qed.
(** ... but an integer [out] is filled with truncated values and no exception (unlike inv and dya). *)
Theorem C63_cdya_out_truncates : forall same f g,
  exists x, t_cdya same (AF f) (AF g) (Some Int) = Ok (AI x) /\ forall v w, x (v, w) = trunc (cdya_obj same f g v w).
Proof.
  intros same f g. destruct same; (eexists; split; [reflexivity|]; intros v w; unfold cdya_obj; cbn -[ix6_leb trunc]; destruct (ix6_leb v w); reflexivity).
Qed.
Theorem C63_tril_out_truncates : forall f g dim r c, (c < r < dim)%nat ->
  exists x, t_tril_from_triu (AF f) dim (Some (AI g)) = AI x /\ x (r, c) = trunc (f (c, r)).
Proof.
  intros f g dim r c H. eexists. split; [reflexivity|]. cbn -[Nat.ltb trunc].
  replace (Nat.ltb c r) with true by (symmetry; apply Nat.ltb_lt; lia). replace (Nat.ltb r dim) with true by (symmetry; apply Nat.ltb_lt; lia). reflexivity.
Qed.
Theorem C63_dya_out : forall A B,
  (dt A = Flt \/ dt B = Flt -> t_dya_out A B Int = Raise TypeError) /\
  (exists x, t_dya_out A B Flt = Ok (AF x)).
Proof. intros A B. split; [intro H|]; destruct A, B; try reflexivity; try (destruct H as [H|H]; discriminate H); eexists; reflexivity. Qed.

(** ** A concrete case: simple shear given as integers. *)
Definition shear_z (i j : ix3) : Z := match i, j with X0, X1 => 2 | X0, X0 | X1, X1 | X2, X2 => 1 | _, _ => 0 end%Z.
Example C63_example : let F := AI (fun '(i, j) => shear_z i j) in
  integers F shear_z /\ moderate F /\ (forall i j, (Z.abs (shear_z i j) <= 500)%Z) /\
  params {| tC10 := NF (1 / 2); tC01 := NI 1; tC11 := NI 0; tC20 := NF (- 1 / 100); tC30 := NI 0; tundef := NI 3 |} /\
  params {| tC10 := NI 0; tC01 := NI 0; tC11 := NI 0; tC20 := NI 1; tC30 := NF (1 / 10); tundef := NI 3 |} /\
  float_params {| tC10 := NF (1 / 2); tC01 := NF 0; tC11 := NF 0; tC20 := NF (- 1 / 100); tC30 := NF 0; tundef := NI 3 |} /\
  floats (AF (fun '(i, j) => delta i j)).
Proof.
  intro F. assert (B : forall i j, (Z.abs (shear_z i j) <= 500)%Z) by (intros [] []; cbn; lia).
  assert (HI : integers F shear_z) by (eexists; split; [reflexivity|intros i j; reflexivity]).
  split; [exact HI|]. split; [right; exists shear_z; split; assumption|]. split; [exact B|].
  split; [|split; [|split]].
  - unfold params, param. cbn. repeat split; try lia; auto.
  - unfold params, param. cbn. repeat split; try lia; auto.
  - intros n Hn. cbn in Hn. destruct Hn as [->|[->|[->|[->| ->]]]]; eexists; reflexivity.
  - eexists. reflexivity.
Qed.

(** ** The math functions on integer arrays.  Entries of absolute value up to 10^6 do not wrap around,
    and every function returns the numbers it returns on floats. *)
Definition modest {X} (a : arr X) : Prop := match a with AI f => forall x, (Z.abs (f x) <= 1000000)%Z | AF _ => True end.
Definition both {X Y} (a : arr X) (b : arr Y) : dtype := match dt a, dt b with Int, Int => Int | _, _ => Flt end.
Definition num_dt (n : num) : dtype := match n with NI _ => Int | NF _ => Flt end.
Lemma izr_sum6 f : IZR (sum6z f) = sum6 (fun v => IZR (f v)).
Proof. unfold sum6z, sum6. rewrite !plus_IZR. ring. Qed.
Lemma weightsz_eq v : IZR (weightsz v) = weights v. Proof. destruct v; reflexivity. Qed.
Lemma sum6z_wrap f : (forall v, (Z.abs (f v) <= 2000000000000)%Z) -> wrap (sum6z f) = sum6z f.
Proof.
  intro H. apply (wrap_abs _ 12000000000000); [|reflexivity]. unfold sum6z.
  pose proof (H V0). pose proof (H V1). pose proof (H V2). pose proof (H V3). pose proof (H V4). pose proof (H V5). lia.
Qed.
Lemma wprod a b v : (Z.abs a <= 1000000 -> Z.abs b <= 1000000 -> Z.abs (a * b * weightsz v) <= 2000000000000)%Z.
Proof. intros H1 H2. pose proof (abs_mul _ _ _ _ H1 H2) as H. apply (abs_mul (a * b) (weightsz v) (1000000 * 1000000) 2 H). destruct v; cbn; lia. Qed.
Theorem C63_math : forall (A B : A6) (S T : A66) (G : A2), modest A -> modest B -> modest S -> modest T ->
  (num_dt (t_trace A) = dt A /\ rv (t_trace A) = trace (vals A)) /\
  (num_dt (t_det A) = dt A /\ rv (t_det A) = det (vals A)) /\
  (num_dt (t_ddot22 A B) = both A B /\ rv (t_ddot22 A B) = ddot22 (vals A) (vals B)) /\
  (dt (t_ddot24 A T) = both A T /\ forall v, vals (t_ddot24 A T) v = ddot24 (vals A) (m66 (vals T)) v) /\
  (dt (t_ddot44 S T) = both S T /\ forall v w, vals (t_ddot44 S T) (v, w) = ddot44 (m66 (vals S)) (m66 (vals T)) v w) /\
  (dt (t_dya A B) = both A B /\ forall v w, vals (t_dya A B) (v, w) = vals A v * vals B w) /\
  (dt (t_cdya_ik A B) = both A B /\ forall i j k l, vals (t_cdya_ik A B) (i, j, k, l) = cdya_ik (vals A) (vals B) i j k l) /\
  (dt (t_transpose S) = dt S /\ forall v w, vals (t_transpose S) (v, w) = vals S (w, v)) /\
  (dt (t_asvoigt G) = dt G /\ forall v, vals (t_asvoigt G) v = asvoigt (numbers G) v) /\
  (dt (t_astensor A) = dt A /\ forall i j, vals (t_astensor A) (i, j) = astensor (vals A) i j) /\
  (dt (t_astensor4 S) = dt S /\ forall i j k l, vals (t_astensor4 S) (i, j, k, l) = astensor4 (m66 (vals S)) i j k l).
Proof.
  intros A B S T G HA HB HS HT.
  assert (BD : forall (f g : ix6 -> Z) v w, (forall x, (Z.abs (f x) <= 1000000)%Z) -> (forall x, (Z.abs (g x) <= 1000000)%Z) -> wrap (f v * g w) = (f v * g w)%Z).
  { intros f g v w H1 H2. apply (wrap_abs _ 1000000000000); [|reflexivity]. apply (abs_mul _ _ _ _ (H1 v) (H2 w)). }
  split; [|split; [|split; [|split; [|split; [|split; [|split; [|split; [|split; [|split]]]]]]]]].
  - destruct A as [f|f]; (split; [reflexivity|]); [|reflexivity]. cbn [t_trace rv vals]. cbn [modest] in HA.
    rewrite (wrap_abs _ 3000000); [rewrite !plus_IZR; unfold trace; ring| |reflexivity]. pose proof (HA V0). pose proof (HA V1). pose proof (HA V2). lia.
  - destruct A as [f|f]; (split; [reflexivity|]); [|cbn; unfold det; ring]. cbn [modest] in HA.
    pose proof (HA V0) as H0. pose proof (HA V1) as H1. pose proof (HA V2) as H2. pose proof (HA V3) as H3. pose proof (HA V4) as H4. pose proof (HA V5) as H5.
    unfold t_det, item, nsub, nadd, nmul, nop, nsquare, vals, det. 
    assert (P2 : forall a b, (Z.abs a <= 1000000 -> Z.abs b <= 1000000 -> Z.abs (a * b) <= 1000000000000)%Z) by (intros a b Ha Hb; exact (abs_mul _ _ _ _ Ha Hb)).
    assert (P3 : forall a b, (Z.abs a <= 1000000000000 -> Z.abs b <= 1000000 -> Z.abs (a * b) <= 1000000000000000000)%Z) by (intros a b Ha Hb; exact (abs_mul _ _ _ _ Ha Hb)).
    pose proof (P2 _ _ H0 H1) as Q01. pose proof (P2 _ _ H4 H4) as Q44. pose proof (P2 _ _ H5 H5) as Q55. pose proof (P2 _ _ H3 H3) as Q33.
    assert (Q23 : (Z.abs (2 * f V3) <= 2000000)%Z) by (clear - H3; lia). pose proof (abs_mul _ _ _ _ Q23 H4) as Q234.
    pose proof (P3 _ _ Q01 H2) as R1. pose proof (P3 _ _ Q44 H0) as R2. pose proof (P3 _ _ Q55 H1) as R3. pose proof (P3 _ _ Q33 H2) as R4. pose proof (abs_mul _ _ _ _ Q234 H5) as R5.
    assert (W : forall z B, (Z.abs z <= B)%Z -> (B <? 2 ^ 63)%Z = true -> wrap z = z) by (exact wrap_abs).
    rewrite (W _ _ Q01 eq_refl), (W _ _ Q44 eq_refl), (W _ _ Q55 eq_refl), (W _ _ Q33 eq_refl), (W _ _ Q23 eq_refl).
    rewrite (W _ _ Q234 eq_refl), (W _ _ R1 eq_refl), (W _ _ R2 eq_refl), (W _ _ R3 eq_refl), (W _ _ R4 eq_refl), (W _ _ R5 eq_refl).
    assert (ER : IZR (f V0 * f V1 * f V2 + 2 * f V3 * f V4 * f V5 - f V4 * f V4 * f V0 - f V5 * f V5 * f V1 - f V3 * f V3 * f V2) =
      IZR (f V0) * IZR (f V1) * IZR (f V2) + 2 * IZR (f V3) * IZR (f V4) * IZR (f V5) - IZR (f V4) ^ 2 * IZR (f V0) - IZR (f V5) ^ 2 * IZR (f V1) - IZR (f V3) ^ 2 * IZR (f V2))
      by (rewrite !minus_IZR, plus_IZR, !mult_IZR; ring).
    revert R1 R2 R3 R4 R5 ER. generalize (f V0 * f V1 * f V2)%Z (2 * f V3 * f V4 * f V5)%Z (f V4 * f V4 * f V0)%Z (f V5 * f V5 * f V1)%Z (f V3 * f V3 * f V2)%Z.
    clear - W. intros p q r s t R1 R2 R3 R4 R5 ER.
    assert (T1 : (Z.abs (p + q) <= 3000000000000000000)%Z) by (clear - R1 R5; lia). rewrite (W _ _ T1 eq_refl).
    assert (T2 : (Z.abs (p + q - r) <= 4000000000000000000)%Z) by (clear - R1 R5 R2; lia). rewrite (W _ _ T2 eq_refl).
    assert (T3 : (Z.abs (p + q - r - s) <= 5000000000000000000)%Z) by (clear - R1 R5 R2 R3; lia). rewrite (W _ _ T3 eq_refl).
    assert (T4 : (Z.abs (p + q - r - s - t) <= 6000000000000000000)%Z) by (clear - R1 R5 R2 R3 R4; lia). rewrite (W _ _ T4 eq_refl).
    cbn [rv]. rewrite ER. ring.
  - destruct A as [f|f], B as [g|g]; (split; [reflexivity|]); try reflexivity. cbn [modest] in *. cbn [t_ddot22 rv vals].
    rewrite sum6z_wrap by (intro v; apply wprod; auto). rewrite izr_sum6. unfold ddot22. unfold sum6. rewrite !mult_IZR, !weightsz_eq. ring.
  - destruct A as [f|f], T as [g|g]; (split; [reflexivity|]); try reflexivity. cbn [modest] in *. intro v. unfold t_ddot24, ein2, vals, ddot24, m66.
    rewrite sum6z_wrap by (intro v'; apply wprod; auto). rewrite izr_sum6. unfold sum6. rewrite !mult_IZR, !weightsz_eq. ring.
  - destruct S as [f|f], T as [g|g]; (split; [reflexivity|]); try reflexivity. cbn [modest] in *. intros v w. unfold t_ddot44, ein2, vals, ddot44, m66.
    rewrite sum6z_wrap by (intro v'; apply wprod; auto). rewrite izr_sum6. unfold sum6. rewrite !mult_IZR, !weightsz_eq. ring.
  - destruct A as [f|f], B as [g|g]; (split; [reflexivity|]); try reflexivity. cbn [modest] in *. intros v w. unfold t_dya, ein2, vals. rewrite BD by auto. apply mult_IZR.
  - destruct A as [f|f], B as [g|g]; (split; [reflexivity|]); try reflexivity. cbn [modest] in *. intros i j k l. unfold t_cdya_ik, t_astensor4, t_dya, ein2, reindex, vals. rewrite BD by auto. rewrite mult_IZR. reflexivity.
  - destruct S; split; reflexivity.
  - destruct G; split; reflexivity.
  - destruct A; split; reflexivity.
  - destruct S; split; reflexivity.
Qed.
Print Assumptions C63_math.
Example C63_math_example : modest (AI (fun v : ix6 => match v with V0 => 3 | V4 => -7 | _ => 2 end%Z)) /\
  t_det (AI (fun v : ix6 => match v with V0 => 3 | V4 => -7 | _ => 2 end%Z)) = NI (-207)%Z.
Proof. split; [intros []; cbn; lia|reflexivity]. Qed.
Print Assumptions C63_gradient.
Print Assumptions C63_hessian.
Print Assumptions C63_floats.
Print Assumptions C63_third_order_deformation.
Print Assumptions C63_ogden.
Print Assumptions C63_generalized.
Print Assumptions C63_projected_spaces_reject.
Print Assumptions C63_deformation_accepts.
Print Assumptions C63_deformation_force0.
Print Assumptions C63_integer_parameter.
Print Assumptions C63_overflow.
Print Assumptions C63_inv.
Print Assumptions C63_cdya.
Print Assumptions C63_cdya_floats.
Print Assumptions C63_cdya_out_truncates.
Print Assumptions C63_tril_out_truncates.
Print Assumptions C63_dya_out.
