(** * Property C81: Ogden with one set of parameters per quadrature point. *)
From Coq Require Import Reals Lra List Arith Lia.
From Verif Require Import Tensor Py Voigt VoigtProofs Algebra VCalc EigCore PiolaProofs Models Frameworks Spaces Spec GenProofs InvCore StrCore SpaceCore.
From Verif Require Import NDCore NDRel NDOps NDHeap NDVoigt NDMath NDMath2 NDMath3 NDSpaces
  NDSpaceProofs NDSpaceMain NDFrameworks NDInvProofs NDModels NDEigh NDViews NDStrProofs NDGenProofs NDSpec NDLinks NDLinks2 NDCounter NDFields NDFieldRaise NDFieldShapes Counter PropND.
Import ListNotations.
Local Open Scope R_scope.

Lemma sp_gradient_same {A B} (fa : Framework A) (fb : Framework B) kd o F a b (sa : SpaceSelf (fw_self fa)) (sb : SpaceSelf (fw_self fb)) g a' b' :
  (forall C s, C = seen kd (right_CG F) -> outcome (fw_gradient fa C a) s = Ok (g, a')) ->
  (forall C s, C = seen kd (right_CG F) -> outcome (fw_gradient fb C b) s = Ok (g, b')) ->
  forall x y, outcome (sp_gradient kd fa o F a) sa = Ok (x, y) ->
  outcome (sp_gradient kd fb o F b) sb = Ok (x, b') /\ y = a'.
Proof.
  intros Ha Hb x y H.
  rewrite (sp_gradient_ok fa o kd F a sa g a' (Ha _ _ eq_refl)) in H.
  rewrite (sp_gradient_ok fb o kd F b sb g b' (Hb _ _ eq_refl)). injection H as <- <-. split; reflexivity.
Qed.
Lemma sp_hessian_same {A B} (fa : Framework A) (fb : Framework B) kd o F a b (sa : SpaceSelf (fw_self fa)) (sb : SpaceSelf (fw_self fb)) g a' b' H :
  (forall C s, C = seen kd (right_CG F) -> outcome (fw_gradient fa C a) s = Ok (g, a')) ->
  (forall C s, C = seen kd (right_CG F) -> outcome (fw_gradient fb C b) s = Ok (g, b')) ->
  (forall C s, C = seen kd (right_CG F) -> outcome (fw_hessian fa C a) s = Ok H) ->
  (forall C s, C = seen kd (right_CG F) -> outcome (fw_hessian fb C b) s = Ok H) ->
  outcome (sp_hessian kd fa o F a) sa = outcome (sp_hessian kd fb o F b) sb.
Proof.
  intros Ga Gb Ha Hb.
  destruct (fw_gradient fa (seen kd (right_CG F)) a (sp_mat sa)) as [ma ra] eqn:Ea.
  destruct (fw_gradient fb (seen kd (right_CG F)) b (sp_mat sb)) as [mb rb] eqn:Eb.
  pose proof (Ga _ (sp_mat sa) eq_refl) as Xa. pose proof (Gb _ (sp_mat sb) eq_refl) as Xb.
  unfold outcome in Xa, Xb. rewrite Ea in Xa. rewrite Eb in Xb. cbn [snd] in Xa, Xb. subst ra rb.
  rewrite (sp_hessian_ok fa o kd F a sa g a' ma Ea), (sp_hessian_ok fb o kd F b sb g b' mb Eb).
  rewrite (Ha _ ma eq_refl), (Hb _ mb eq_refl). reflexivity.
Qed.

Section Link.
  Context {SV : Type} (lapack : Lapack) (p : Ogden).
  Lemma og_g C (sv : SV) s : outcome (fw_gradient (stretches_fw lapack (ogden_model p)) C sv) s =
    Ok (strGv lapack C (ogden_gradient p (lam lapack C)), sv).
  Proof.
    apply (str_link_g lapack (ogden_model p) (fun l v => (ogden_gradient p l, v)) (fun _ => True) (fun _ => True)); try exact Logic.I; intros; (reflexivity || (split; [reflexivity|exact Logic.I])).
  Qed.
  Lemma og_h C (sv : SV) s : outcome (fw_hessian (stretches_fw lapack (ogden_model p)) C sv) s =
    Ok (strHv lapack C (ogden_gradient p (lam lapack C)) (ogden_hessian p (lam lapack C))).
  Proof.
    apply (str_link_h lapack (ogden_model p) (fun l v => (ogden_gradient p l, v)) (fun l _ => ogden_hessian p l) (fun _ => True) (fun _ => True)); try exact Logic.I; intros; (reflexivity || (split; [reflexivity|exact Logic.I])).
  Qed.
  Lemma of_g C (sv : SV) s : outcome (fw_gradient (stretches_fw lapack ogf_pm) C (p, sv)) s =
    Ok (strGv lapack C (ogden_gradient p (lam lapack C)), (p, sv)).
  Proof.
    apply (str_link_g lapack (ogf_pm (SV := SV)) ogf_pg (fun _ => True) (fun _ => True)); try exact Logic.I; intros; (reflexivity || (split; [reflexivity|exact Logic.I])).
  Qed.
  Lemma of_h C (sv : SV) s : outcome (fw_hessian (stretches_fw lapack ogf_pm) C (p, sv)) s =
    Ok (strHv lapack C (ogden_gradient p (lam lapack C)) (ogden_hessian p (lam lapack C))).
  Proof.
    apply (str_link_h lapack (ogf_pm (SV := SV)) ogf_pg ogf_ph (fun _ => True) (fun _ => True)); try exact Logic.I; intros; (reflexivity || (split; [reflexivity|exact Logic.I])).
  Qed.
End Link.
Lemma ogf_acts {ST SV} (sv_at : ST -> index -> SV) (m : OgdenField) T :
  acts_as (ogf_sv sv_at m) T ogf_pm ogf_pg ogf_ph (fun _ => True).
Proof. intros l sv k s _ _. split; [reflexivity|]. split; [exists sv; reflexivity|reflexivity]. Qed.
Definition some_state {SV} (lapack : Lapack) : SpaceSelf (fw_self (stretches_fw lapack (ogf_pm (SV := SV)))) :=
  {| sp_C := None; sp_I3 := None; sp_Cx := None; sp_Sb := None; sp_sc := None; sp_invC := None; sp_S := None;
     sp_mat := {| st_lM := None; st_dWdlC := None; st_model := (tt : sm_self ogf_pm) |} |}.

(** ** C81 *)
(** The material point [k] of the batch: the Ogden model with the parameters of [k]. *)
Definition material_at {SV} (lapack : Lapack) (m : OgdenField) (k : index) : Framework SV :=
  stretches_fw lapack (ogden_model (ogden_at m k)).

(** Stress: every entry is the stress of the material with that entry's parameters, for all
    parameter arrays that broadcast to the trailing axes, in every space and configuration. *)
Theorem C81_gradient : forall ST SV lapack (sv_at : ST -> index -> SV) (m : OgdenField) T kd o h F sv,
  fits_field m T -> field h F i33 T ->
  returns h (nd_sp_gradient kd (nd_stretches lapack (nd_ogdenf m)) o F sv) (fun '(P, svn) h' =>
    fresh h h' P /\ field h' P (stress_kind o) T /\
    forall k s, inb T k ->
      outcome (sp_gradient kd (material_at lapack m k) o (value33 h F k) (sv_at sv k)) s = Ok (stress_at o h' P k, sv_at svn k)).
Proof.
  intros ST SV lapack sv_at m T kd o h F sv Hm HF.
  destruct (C45_stretches_gradient ST (Ogden * SV) lapack _ _ _ _ _ _ T (ogdenf_ok sv_at T m Hm) (ogf_acts sv_at m T) kd o h F sv HF
    (fun _ _ => Logic.I)) as [h' [[P svn] [E [U [H1 [H2 H3]]]]]].
  exists h', (P, svn). split; [exact E|]. split; [exact U|]. split; [exact H1|]. split; [exact H2|].
  intros k s Hk. destruct (sp_gradient_same _ (material_at lapack m k) kd o (value33 h F k) (ogf_sv sv_at m sv k) (sv_at sv k)
    (some_state lapack) s (strGv lapack (seen kd (right_CG (value33 h F k))) (ogden_gradient (ogden_at m k) (lam lapack (seen kd (right_CG (value33 h F k))))))
    (ogden_at m k, sv_at sv k) (sv_at sv k)
    ltac:(intros C s' ->; apply of_g) ltac:(intros C s' ->; apply og_g) _ _ (H3 k (some_state lapack) Hk)) as [X Y].
  injection Y as Y. rewrite Y. exact X.
Qed.
Print Assumptions C81_gradient.

(** Elasticity tensor; in the distortional space the entries must agree on numpy's test whether the
    distortional part vanishes (as for any batch, C45). *)
Definition uniform_field {ST SV} (lapack : Lapack) (sv_at : ST -> index -> SV) (m : OgdenField) (T : shape) (kd : SpaceKind)
  (h : heap) (F : nd) (sv : ST) : Prop := kd = KDistortional ->
  (forall k, inb T k -> small_at (material_at lapack m k) (value33 h F k) (sv_at sv k)) \/
  (forall k, inb T k -> large_at (material_at lapack m k) (value33 h F k) (sv_at sv k)).
Theorem C81_hessian : forall ST SV lapack (sv_at : ST -> index -> SV) (m : OgdenField) T kd o h F sv,
  fits_field m T -> field h F i33 T -> uniform_field lapack sv_at m T kd h F sv ->
  returns h (nd_sp_hessian kd (nd_stretches lapack (nd_ogdenf m)) o F sv) (fun A h' =>
    fresh h h' A /\ field h' A (elast_kind o) T /\
    forall k s, inb T k ->
      outcome (sp_hessian kd (material_at lapack m k) o (value33 h F k) (sv_at sv k)) s = Ok (elast_at o h' A k)).
Proof.
  intros ST SV lapack sv_at m T kd o h F sv Hm HF Hu.
  assert (Tr : forall k sv0 C s1 s2, outcome (fw_hessian (material_at lapack m k) C sv0) s1 =
     outcome (fw_hessian (stretches_fw lapack (ogf_pm (SV := SV))) C (ogden_at m k, sv0)) s2).
  { intros. unfold material_at. now rewrite og_h, of_h. }
  assert (Hu' : uniform (ogf_sv sv_at m) T (stretches_fw lapack ogf_pm) kd h F sv).
  { intros Ek. destruct (Hu Ek) as [U|U]; [left|right]; intros k Hk; destruct (U k Hk) as [s [H [E1 E2]]];
      exists (sp_mat (some_state lapack)), H; (split; [|exact E2]); rewrite <- E1; symmetry; apply Tr. }
  destruct (C45_stretches_hessian ST (Ogden * SV) lapack _ _ _ _ _ _ T (ogdenf_ok sv_at T m Hm) (ogf_acts sv_at m T) kd o h F sv HF
    (fun _ _ => Logic.I) Hu') as [h' [A [E [U [H1 [H2 H3]]]]]].
  exists h', A. split; [exact E|]. split; [exact U|]. split; [exact H1|]. split; [exact H2|].
  intros k s Hk. rewrite <- (H3 k (some_state lapack) Hk).
  apply (sp_hessian_same _ _ kd o (value33 h F k) _ _ s (some_state lapack)
    (strGv lapack (seen kd (right_CG (value33 h F k))) (ogden_gradient (ogden_at m k) (lam lapack (seen kd (right_CG (value33 h F k))))))
    (sv_at sv k) (ogden_at m k, sv_at sv k)
    (strHv lapack (seen kd (right_CG (value33 h F k))) (ogden_gradient (ogden_at m k) (lam lapack (seen kd (right_CG (value33 h F k)))))
       (ogden_hessian (ogden_at m k) (lam lapack (seen kd (right_CG (value33 h F k))))))); intros C s' ->.
  - apply og_g.
  - apply of_g.
  - apply og_h.
  - apply of_h.
Qed.
Print Assumptions C81_hessian.

(** A point's stress and state do not depend on the parameters, deformation gradients and states of
    the other points: two batches (of any shapes) which agree at one point agree there. *)
Theorem C81_local : forall ST SV lapack (sv_at : ST -> index -> SV) (m m' : OgdenField) T T' kd o h h' F F' sv sv' k k',
  fits_field m T -> fits_field m' T' -> field h F i33 T -> field h' F' i33 T' -> inb T k -> inb T' k' ->
  ogden_at m k = ogden_at m' k' -> value33 h F k = value33 h' F' k' -> sv_at sv k = sv_at sv' k' ->
  returns h (nd_sp_gradient kd (nd_stretches lapack (nd_ogdenf m)) o F sv) (fun '(P, svn) h1 =>
    returns h' (nd_sp_gradient kd (nd_stretches lapack (nd_ogdenf m')) o F' sv') (fun '(P', svn') h1' =>
      stress_at o h1 P k = stress_at o h1' P' k' /\ sv_at svn k = sv_at svn' k')).
Proof.
  intros ST SV lapack sv_at m m' T T' kd o h h' F F' sv sv' k k' Hm Hm' HF HF' Hk Hk' Ep EF Es.
  destruct (C81_gradient ST SV lapack sv_at m T kd o h F sv Hm HF) as [h1 [[P svn] [E [U [_ [_ H]]]]]].
  destruct (C81_gradient ST SV lapack sv_at m' T' kd o h' F' sv' Hm' HF') as [h1' [[P' svn'] [E' [U' [_ [_ H']]]]]].
  exists h1, (P, svn). split; [exact E|]. split; [exact U|]. exists h1', (P', svn'). split; [exact E'|]. split; [exact U'|].
  set (s := {| sp_C := None; sp_I3 := None; sp_Cx := None; sp_Sb := None; sp_sc := None; sp_invC := None; sp_S := None;
     sp_mat := {| st_lM := None; st_dWdlC := None; st_model := (tt : sm_self (ogden_model (SV := SV) (ogden_at m k))) |} |}
     : SpaceSelf (fw_self (material_at (SV := SV) lapack m k))).
  assert (X := H k s Hk). assert (X' := H' k').
  unfold material_at in *. rewrite <- Ep, <- EF, <- Es in X'. specialize (X' s Hk').
  rewrite X in X'. injection X' as X1 X2. split; [exact X1|exact X2].
Qed.
Print Assumptions C81_local.

(** The same for the elasticity tensor, except in the distortional space, where one point can make the
    code keep or drop the material's tangent at another (C45_batch_coupling_refuted). *)
Theorem C81_local_hessian : forall ST SV lapack (sv_at : ST -> index -> SV) (m m' : OgdenField) T T' kd o h h' F F' sv sv' k k',
  kd <> KDistortional ->
  fits_field m T -> fits_field m' T' -> field h F i33 T -> field h' F' i33 T' -> inb T k -> inb T' k' ->
  ogden_at m k = ogden_at m' k' -> value33 h F k = value33 h' F' k' -> sv_at sv k = sv_at sv' k' ->
  returns h (nd_sp_hessian kd (nd_stretches lapack (nd_ogdenf m)) o F sv) (fun A h1 =>
    returns h' (nd_sp_hessian kd (nd_stretches lapack (nd_ogdenf m')) o F' sv') (fun A' h1' =>
      elast_at o h1 A k = elast_at o h1' A' k')).
Proof.
  intros ST SV lapack sv_at m m' T T' kd o h h' F F' sv sv' k k' Hkd Hm Hm' HF HF' Hk Hk' Ep EF Es.
  destruct (C81_hessian ST SV lapack sv_at m T kd o h F sv Hm HF ltac:(intros E; contradiction)) as [h1 [A [E [U [_ [_ H]]]]]].
  destruct (C81_hessian ST SV lapack sv_at m' T' kd o h' F' sv' Hm' HF' ltac:(intros E'; contradiction)) as [h1' [A' [E' [U' [_ [_ H']]]]]].
  exists h1, A. split; [exact E|]. split; [exact U|]. exists h1', A'. split; [exact E'|]. split; [exact U'|].
  set (s := {| sp_C := None; sp_I3 := None; sp_Cx := None; sp_Sb := None; sp_sc := None; sp_invC := None; sp_S := None;
     sp_mat := {| st_lM := None; st_dWdlC := None; st_model := (tt : sm_self (ogden_model (SV := SV) (ogden_at m k))) |} |}
     : SpaceSelf (fw_self (material_at (SV := SV) lapack m k))).
  assert (X := H k s Hk). assert (X' := H' k').
  unfold material_at in *. rewrite <- Ep, <- EF, <- Es in X'. specialize (X' s Hk').
  rewrite X in X'. injection X' as X1. exact X1.
Qed.
Print Assumptions C81_local_hessian.

(** Two points with different parameters: mu = [1, 2], alpha = [2, 3] (and a second term with a
    number, -2, for all points). The hypotheses are met, and the points really are two materials. *)
Definition pair_arr (x y : R) : arr := {| shp := [2%nat]; dat := fun k => match k with [0%nat] => x | _ => y end |}.
Definition two_ogden : OgdenField := {| ogf_mu := [pair_arr 1 2; num 1]; ogf_alpha := [pair_arr 2 3; num (-2)] |}.
Example C81_example : fits_field two_ogden [2%nat] /\
  ogden_at two_ogden [0%nat] = {| og_mu := [1; 1]; og_alpha := [2; -2] |} /\
  ogden_at two_ogden [1%nat] = {| og_mu := [2; 1]; og_alpha := [3; -2] |} /\
  forall lapack kd o, returns two_heap (nd_sp_gradient kd (nd_stretches lapack (nd_ogdenf two_ogden)) o two_F tt) (fun '(P, svn) h' =>
    field h' P (stress_kind o) [2%nat] /\
    (forall s, outcome (sp_gradient kd (stretches_fw lapack (ogden_model {| og_mu := [1; 1]; og_alpha := [2; -2] |})) o
        (diag3 (fun _ => 1)) tt) s = Ok (stress_at o h' P [0%nat], tt)) /\
    (forall s, outcome (sp_gradient kd (stretches_fw lapack (ogden_model {| og_mu := [2; 1]; og_alpha := [3; -2] |})) o
        (diag3 (fun i => match i with X0 => 4 | X1 => 2 | X2 => 1 end)) tt) s = Ok (stress_at o h' P [1%nat], tt))).
Proof.
  assert (Hf : fits_field two_ogden [2%nat]) by (unfold fits_field; cbn [two_ogden ogf_mu ogf_alpha combine]; repeat (apply List.Forall_cons; [split; unfold sub; cbn; auto|]); apply List.Forall_nil).
  assert (E0 : ogden_at two_ogden [0%nat] = {| og_mu := [1; 1]; og_alpha := [2; -2] |}) by reflexivity.
  assert (E1 : ogden_at two_ogden [1%nat] = {| og_mu := [2; 1]; og_alpha := [3; -2] |}) by reflexivity.
  split; [exact Hf|]. split; [exact E0|]. split; [exact E1|]. intros lapack kd o.
  destruct (C81_gradient unit unit lapack (fun s _ => s) two_ogden [2%nat] kd o two_heap two_F tt Hf two_field)
    as [h' [[P svn] [E [U [_ [H2 H]]]]]].
  exists h', (P, svn). split; [exact E|]. split; [exact U|]. split; [exact H2|]. destruct svn.
  split; intros s.
  - rewrite <- two_0. apply (H [0%nat] s). cbn; lia.
  - rewrite <- two_1. apply (H [1%nat] s). cbn; lia.
Qed.
Print Assumptions C81_example.

(** ThirdOrderDeformation has no parameter fields: its code asks [if self.C10 != 0], and an array
    with several entries has no truth value.  Whichever of the five parameters it is, whatever the
    other parameters and whatever their shapes, the stress and the elasticity tensor of every field of
    deformation gradients raise ValueError, in every space and configuration. *)
Theorem C81_third_order_raises : forall ST (m : TODField) T kd o h F (sv : ST),
  List.Exists several_values (parameters m) -> field h F i33 T ->
  raises h (nd_sp_gradient kd (nd_invariants (nd_todf m)) o F sv) ValueError /\
  raises h (nd_sp_hessian kd (nd_invariants (nd_todf m)) o F sv) ValueError.
Proof.
  intros ST m T kd o h F sv Hx HF.
  apply (sp_raises (nd_invariants (nd_todf m)) o ValueError T); [|exact HF].
  intros h' C f sv' HC. cbn [ndm_gradient nd_invariants]. unfold nd_inv_gradient. apply R_bind.
  eapply (inv_raises (nd_todf m) ValueError T); [|exact HC].
  intros I1 I2 I3 sv0. apply (todf_raises m I1 I2 I3 sv0 Hx).
Qed.
Print Assumptions C81_third_order_raises.
(** ... and the model itself raises nothing but ValueError, and returns only if all five parameters
    are single values. *)
Theorem C81_third_order_parameters : forall ST (m : TODField) h I1 I2 I3 (sv : ST), exists h',
  (exists g, nd_todf_gradient m I1 I2 I3 sv h = (h', Ok g) /\ List.Forall (fun p => entries p = 1%nat) (parameters m)) \/
  nd_todf_gradient m I1 I2 I3 sv h = (h', Raise ValueError).
Proof. intros ST m h I1 I2 I3 sv. exact (nd_todf_VE m I1 I2 I3 sv h). Qed.
Print Assumptions C81_third_order_parameters.
(** Two values of C11 only; and one value, as a number or in an array with one entry, is accepted. *)
Example C81_third_order_example :
  let two := {| F10 := num (1/2); F01 := num 0; F11 := pair_arr 0 0; F20 := num 0; F30 := num 0; Fundef := 3 |} in
  let one := {| F10 := {| shp := [1%nat]; dat := fun _ => 1/2 |}; F01 := num 0; F11 := num 0; F20 := num 0; F30 := num 0; Fundef := 3 |} in
  (forall kd o, raises two_heap (nd_sp_gradient kd (nd_invariants (nd_todf two)) o two_F tt) ValueError) /\
  (forall h I1 I2 I3, exists h' a, nd_todf_gradient one I1 I2 I3 tt h = (h', Ok (Some (PArr a), None, None, tt)) /\
     forall k, dat (contents h' a) k = 1/2).
Proof.
  intros two one. split.
  - intros kd o. eapply C81_third_order_raises; [|exact two_field].
    apply List.Exists_cons_tl, List.Exists_cons_tl, List.Exists_cons_hd. unfold several_values. cbn. lia.
  - intros h I1 I2 I3. unfold nd_todf_gradient, one. cbn [F10 F01 F11 F20 F30 Fundef test_any].
    assert (H : nonzero (1/2) = true) by (apply nonzeroT; lra).
    assert (T1 : test_ne0 {| shp := [1%nat]; dat := fun _ => 1/2 |} = Ok true) by (unfold test_ne0; cbn; now rewrite H).
    assert (T0 : test_ne0 (num 0) = Ok false) by (unfold test_ne0; cbn; now rewrite nonzero0).
    rewrite T1, T0. cbn [rbind]. unfold bind, lift, load, ret, if_iadd, iadd_arr, new, alloc. cbn.
    eexists _, _. split; [reflexivity|]. intros k. unfold contents. cbn. rewrite Nat.eqb_refl. cbn. lra.
Qed.

(** Which parameter arrays Ogden accepts: the loop adds into an array of the shape of the stretches, so
    the model returns if the arrays of all used pairs broadcast to that shape; otherwise gradient and
    hessian raise ValueError. *)
Theorem C81_ogden_accepts : forall ST (m : OgdenField) h (l : nd) (sv : ST),
  (fits_field m (nshp l) ->
     (exists h' d, nd_ogdenf_gradient m l sv h = (h', Ok (d, sv))) /\
     (exists h' r, nd_ogdenf_hessian m l sv h = (h', Ok r))) /\
  (~ fits_field m (nshp l) ->
     raises h (nd_ogdenf_gradient m l sv) ValueError /\ raises h (nd_ogdenf_hessian m l sv) ValueError).
Proof.
  intros ST m h l sv.
  destruct (ogf_sum_dec ogf_term1 m l h vE_term1 okto_term1) as [[G [h1 [d1 E1]]]|[G [h1 E1]]];
  destruct (ogf_sum_dec ogf_term2 m l h vE_term2 okto_term2) as [[G2 [h2 [d2 E2]]]|[G2 [h2 E2]]];
    try contradiction; split; intros H; try contradiction.
  - split; [exists h1, d1|exists h2; eexists]; unfold nd_ogdenf_gradient, nd_ogdenf_hessian, bind; [rewrite E1|rewrite E2]; reflexivity.
  - split; [exists h1|exists h2]; unfold nd_ogdenf_gradient, nd_ogdenf_hessian, bind; [rewrite E1|rewrite E2]; reflexivity.
Qed.
Print Assumptions C81_ogden_accepts.
(** Two values of mu do not fit three quadrature points; one value, or three, do. *)
Example C81_accepts_example :
  let l := {| loc := 0; nshp := [3; 3]%nat; vw := fun k => k |} in
  ~ fits_field {| ogf_mu := [pair_arr 1 2]; ogf_alpha := [num 2] |} (nshp l) /\
  fits_field {| ogf_mu := [{| shp := [3%nat]; dat := fun _ => 1 |}; num 1; num 5]; ogf_alpha := [num 2; {| shp := [1%nat]; dat := fun _ => -2 |}] |} (nshp l).
Proof.
  intros l. split.
  - intros H. apply List.Forall_inv in H. destruct H as [H _]. unfold sub in H. cbn in H. destruct H as [[E|E] _]; discriminate.
  - unfold fits_field. cbn [ogf_mu ogf_alpha combine]. repeat (apply List.Forall_cons; [split; unfold sub; cbn; auto|]). apply List.Forall_nil.
Qed.
