(** Independence of call history and handling of state variables (C22, C23). *)
From Coq Require Import Reals Lra List Bool FunctionalExtensionality.
From Coquelicot Require Import Coquelicot.
From Verif Require Import Tensor Py Voigt VoigtProofs Algebra Calc Models Frameworks Spaces Spec VCalc ModelProofs GenProofs InvCore SpaceCore.
Local Open Scope R_scope.

Lemma invariants_stateless {SV} (m : InvModel SV) : stateless_fw (invariants_fw m).
Proof.
  intros C sv s s'. unfold outcome. cbn [invariants_fw fw_gradient fw_hessian].
  destruct (inv_call m (Jv C) sv) as [[g svn]|e] eqn:E.
  - rewrite (inv_gradient_ok m _ _ _ _ s E), (inv_gradient_ok m _ _ _ _ s' E). split; [reflexivity|].
    destruct (inv_callh m (Jv C) svn) as [h|e] eqn:Eh.
    + rewrite (inv_hessian_eq m _ _ _ _ _ s E Eh), (inv_hessian_eq m _ _ _ _ _ s' E Eh). reflexivity.
    + rewrite (inv_hessian_hraise m _ _ _ _ _ s E Eh), (inv_hessian_hraise m _ _ _ _ _ s' E Eh). reflexivity.
  - destruct (inv_gradient_raise m _ _ _ s E) as [a ->], (inv_gradient_raise m _ _ _ s' E) as [b ->].
    destruct (inv_hessian_graise m _ _ _ s E) as [a' ->], (inv_hessian_graise m _ _ _ s' E) as [b' ->].
    split; reflexivity.
Qed.
Lemma ogden_stateless {SV} og : stateless_sm (ogden_model (SV:=SV) og).
Proof. intros l sv s s'. split; reflexivity. Qed.
Lemma gen_stateless {SV} (m : InvModel SV) fs c : stateless_sm (gen_model m fs c).
Proof.
  intros l sv s s'. unfold outcome. cbn [gen_model sm_gradient sm_hessian].
  unfold gen_hessian, gen_gradient, bind, lift, get, put, ret, attr.
  destruct (strain3 fs l) as [st|e]; cbv zeta; [|split; reflexivity].
  cbn [g_I g_dW g_strain g_dIdE].
  destruct (im_gradient m _ _ _ sv) as [[[[g1 g2] g3] svn]|e]; [|split; reflexivity].
  cbn [g_I g_dW g_strain g_dIdE].
  split; [reflexivity|]. unfold ret. cbv beta iota. destruct (im_hessian m _ _ _ sv) as [h|e]; reflexivity.
Qed.

Lemma stretches_stateless {SV} lapack (m : StretchModel SV) : stateless_sm m -> stateless_fw (stretches_fw lapack m).
Proof.
  intros Hm C sv s s'. unfold outcome. cbn [stretches_fw fw_gradient fw_hessian].
  unfold str_hessian, str_gradient. destruct (eigh lapack C sqrt) as [l M].
  unfold bind, modify, get, put, on_model, ret, attr, bind, get, put; cbn [st_model set_lM].
  destruct (Hm l sv (st_model m s) (st_model m s')) as [H1 _]. unfold outcome in H1.
  destruct (sm_gradient m l sv (st_model m s)) as [a ra], (sm_gradient m l sv (st_model m s')) as [b rb].
  cbn in H1. subst rb. destruct ra as [[dW svn]|e]; cbn; [|split; reflexivity].
  split; [reflexivity|].
  destruct (Hm l svn a b) as [_ H2]. unfold outcome in H2.
  destruct (sm_hessian m l svn a) as [a' ra], (sm_hessian m l svn b) as [b' rb].
  cbn in H2. subst rb. destruct ra as [h|e]; reflexivity.
Qed.

Section Sp.
  Context {SV : Type} (fw : Framework SV) (Hfw : stateless_fw fw) (o : SpaceOpts).
  Lemma space_stateless k F sv s s' :
    outcome (sp_gradient k fw o F sv) s = outcome (sp_gradient k fw o F sv) s' /\
    outcome (sp_hessian k fw o F sv) s = outcome (sp_hessian k fw o F sv) s'.
  Proof.
    destruct (Hfw (seen k (right_CG F)) sv (sp_mat s) (sp_mat s')) as [H1 _].
    destruct (fw_gradient fw (seen k (right_CG F)) sv (sp_mat s)) as [a [[g svn]|e]] eqn:E.
    - assert (E1 : outcome (fw_gradient fw (seen k (right_CG F)) sv) (sp_mat s) = Ok (g, svn)) by (unfold outcome; rewrite E; reflexivity).
      assert (E2 := E1). rewrite H1 in E2.
      rewrite (sp_gradient_ok fw o _ _ _ _ _ _ E1), (sp_gradient_ok fw o _ _ _ _ _ _ E2). split; [reflexivity|].
      unfold outcome in E2. destruct (fw_gradient fw (seen k (right_CG F)) sv (sp_mat s')) as [b r] eqn:E'. cbn in E2; subst r.
      rewrite (sp_hessian_ok fw o _ _ _ _ _ _ _ E), (sp_hessian_ok fw o _ _ _ _ _ _ _ E').
      destruct (Hfw (seen k (right_CG F)) sv a b) as [_ ->]. reflexivity.
    - assert (E1 : outcome (fw_gradient fw (seen k (right_CG F)) sv) (sp_mat s) = Raise e) by (unfold outcome; rewrite E; reflexivity).
      assert (E2 := E1). rewrite H1 in E2.
      rewrite (sp_gradient_raise fw o _ _ _ _ _ E1), (sp_gradient_raise fw o _ _ _ _ _ E2).
      rewrite (sp_hessian_graise fw o _ _ _ _ _ E1), (sp_hessian_graise fw o _ _ _ _ _ E2). split; reflexivity.
  Qed.
End Sp.

(** *** State variables *)
Lemma inv_hessian_uses_new {SV} (m : InvModel SV) C sv s g svn : inv_call m (Jv C) sv = Ok (g, svn) ->
  inv_hessian m C sv s = inv_hessian (freeze m svn) C sv s.
Proof.
  intro E. assert (E' : inv_call (freeze m svn) (Jv C) sv = Ok (g, svn)) by exact E.
  destruct (inv_callh m (Jv C) svn) as [h|e] eqn:Eh.
  - rewrite (inv_hessian_eq m _ _ _ _ _ s E Eh). symmetry. apply inv_hessian_eq with svn; auto.
  - rewrite (inv_hessian_hraise m _ _ _ _ _ s E Eh). symmetry. apply inv_hessian_hraise with svn; auto.
Qed.
(** A model that counts its evaluations in the state variable. *)
Definition counting : InvModel R :=
  {| im_gradient := fun I1 I2 I3 n => Ok ((Some 0, None, None), n + 1);
     im_hessian := fun I1 I2 I3 n => Ok (fun v => match v with V0 => Some n | _ => None end) |}.
Lemma counting_refutes : exists C sv s,
  outcome (inv_hessian counting C sv) s <> outcome (inv_hessian (freeze counting sv) C sv) s.
Proof.
  exists eye, 0, inv_self0. unfold outcome.
  assert (E : inv_call counting (Jv eye) 0 = Ok ((Some 0, None, None), 0 + 1)) by reflexivity.
  assert (E' : inv_call (freeze counting 0) (Jv eye) 0 = Ok ((Some 0, None, None), 0 + 1)) by reflexivity.
  rewrite (inv_hessian_eq _ _ _ _ _ _ _ E eq_refl), (inv_hessian_eq _ _ _ _ _ _ _ E' eq_refl).
  cbn [snd hess_exn isN negb andb o3 fst]. intro X. injection X as X.
  apply (f_equal (fun f => f V0 V0)) in X. revert X. unfold hessv, sum3, dya, dJv, mzero, vsub, vscal, d2Jv, eye; cbn. unfold mzero. lra.
Qed.
Lemma gen_hessian_uses_old {SV} (m : InvModel SV) fs c l sv s :
  gen_hessian m fs c l sv s = gen_hessian (freeze m sv) fs c l sv s.
Proof. reflexivity. Qed.
Lemma str_hessian_uses_new {SV} lapack (m : StretchModel SV) C sv s dW svn s1 :
  str_gradient lapack m C sv s = (s1, Ok (dW, svn)) ->
  outcome (str_hessian lapack m C sv) s =
  outcome (str_hessian lapack (freeze_sm m svn) C sv)
     {| st_lM := st_lM m s; st_dWdlC := st_dWdlC m s; st_model := (st_model m s : sm_self (freeze_sm m svn)) |}.
Proof.
  unfold outcome, str_hessian, str_gradient. destruct (eigh lapack C sqrt) as [l M].
  unfold bind, modify, get, put, on_model, ret, attr, bind, get, put; cbn [st_model set_lM freeze_sm sm_gradient sm_hessian].
  destruct (sm_gradient m l sv (st_model m s)) as [a [[g svn']|e]]; cbn; intro E; [|discriminate].
  injection E as _ _ <-. destruct (sm_hessian m l svn' a) as [b [h|e]]; reflexivity.
Qed.
Lemma str_returned_state {SV} lapack (m : StretchModel SV) C sv s G svn :
  returns (fw_gradient (stretches_fw lapack m) C sv) s (G, svn) ->
  exists dW s', outcome (sm_gradient m (fun a => sqrt (fst (lapack (astensor C)) a)) sv) s' = Ok (dW, svn).
Proof.
  intro E0. assert (E1 : outcome (str_gradient lapack m C sv) s = Ok (G, svn)) by (destruct E0 as [q E0]; exact (f_equal snd E0)). clear E0. revert E1.
  unfold outcome, str_gradient, eigh.
  replace (mtr (astensor C)) with (astensor C) by (apply T2_ext; intros [] []; reflexivity).
  destruct (lapack (astensor C)) as [w v]. cbn [fst].
  unfold bind, modify, get, put, on_model, ret, attr, bind, get, put; cbn [st_model set_lM].
  match goal with |- context [sm_gradient m ?l sv ?st] => destruct (sm_gradient m l sv st) as [a [[g svn']|e]] eqn:Q end; cbn; intro E; [|discriminate].
  injection E as _ <-. exists g, (st_model m s). rewrite Q. reflexivity.
Qed.
(** A stretch model that counts its evaluations. *)
Definition counting_sm : StretchModel R :=
  {| sm_self := unit; sm_gradient := fun l n => ret ((fun _ => 0), n + 1);
     sm_hessian := fun l n => ret (fun v => match v with V0 => Some n | _ => Some 0 end) |}.
Definition lapack1 : Lapack := fun _ => ((fun _ => 1), one2).
Lemma lapack1_legal : lapack_at lapack1 eye.
Proof.
  split; [|split]; cbn; [| |split; apply Rle_refl].
  - intros a b. destruct a, b; unfold sum3, one2, delta; cbn; ring.
  - intros i a. destruct i, a; unfold sum3, one2, delta, astensor, eye; cbn; ring.
Qed.
Lemma counting_sm_refutes : lapack_at lapack1 eye /\ exists sv,
  outcome (str_hessian lapack1 counting_sm eye sv) (str_self0 counting_sm tt) <>
  outcome (str_hessian lapack1 (freeze_sm counting_sm sv) eye sv) (str_self0 (freeze_sm counting_sm sv) tt).
Proof.
  split; [exact lapack1_legal|].
  exists 0.
  unfold outcome, str_hessian, str_gradient, eigh, lapack1; cbn. intro X. injection X as X.
  apply (f_equal (fun f => f V0 V0)) in X. revert X.
  unfold str_iter, str_f, madd6, mscal6, mzero, dya, transpose, cdya, cdya_obj, cdya_value, asvoigt, one2, delta; cbn.
  rewrite sqrt_1. intro X.
  lra.
Qed.

(** *** Histories *)
Lemma fw_history_free {SV} (fw : Framework SV) : stateless_fw fw -> forall calls s s' C sv,
  outcome (fw_gradient fw C sv) (fw_history fw calls s) = outcome (fw_gradient fw C sv) s' /\
  outcome (fw_hessian fw C sv) (fw_history fw calls s) = outcome (fw_hessian fw C sv) s'.
Proof. intros H calls s s' C sv. apply H. Qed.
Lemma sp_history_free {SV} (fw : Framework SV) o : stateless_fw fw -> forall calls w w' k F sv,
  outcome (on_space k (sp_gradient k fw (o k) F sv)) (sp_history fw o calls w) = outcome (on_space k (sp_gradient k fw (o k) F sv)) w' /\
  outcome (on_space k (sp_hessian k fw (o k) F sv)) (sp_history fw o calls w) = outcome (on_space k (sp_hessian k fw (o k) F sv)) w'.
Proof.
  intros H calls w w' k F sv. generalize (sp_history fw o calls w). intro w1.
  assert (OS : forall A (f : PY (SpaceSelf (fw_self fw)) A) x, outcome (on_space k f) x = outcome f (with_mat (snd x) (fst x k))).
  { intros A f x. unfold outcome, on_space. destruct (f (with_mat (snd x) (fst x k))); reflexivity. }
  rewrite !OS. apply space_stateless; auto.
Qed.
