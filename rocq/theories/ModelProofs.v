(** Lemmas about the models (C09 - C13). *)
From Coq Require Import Reals Lra List Bool FunctionalExtensionality.
From Coquelicot Require Import Coquelicot.
From Verif Require Import Tensor Py Voigt VoigtProofs Algebra Calc Models Frameworks Spaces Spec.
Import ListNotations.
Local Open Scope R_scope.

Lemma nonzero_true x : nonzero x = true <-> x <> 0.
Proof. unfold nonzero; destruct (Req_EM_T x 0); split; intros; congruence. Qed.
Lemma nonzero_false x : nonzero x = false <-> x = 0.
Proof. unfold nonzero; destruct (Req_EM_T x 0); split; intros; congruence. Qed.

(** *** ThirdOrderDeformation *)
Definition tod_energy (m : TOD) (I : Vec3) : R :=
  C10 m * (I X0 - undeformed m) + C01 m * (I X1 - undeformed m)
  + C11 m * ((I X0 - undeformed m) * (I X1 - undeformed m))
  + C20 m * (I X0 - undeformed m) ^ 2 + C30 m * (I X0 - undeformed m) ^ 3.

Lemma tod_gradient_ok m I1 I2 I3 : exists g,
  tod_gradient m I1 I2 I3 = Ok g /\
  val (o3 g X0) = C10 m + C11 m * (I2 - undeformed m) + 2 * C20 m * (I1 - undeformed m)
                  + 3 * C30 m * (I1 - undeformed m) ^ 2 /\
  val (o3 g X1) = C01 m + C11 m * (I1 - undeformed m) /\
  o3 g X2 = None /\
  (o3 g X0 = None <-> C10 m = 0 /\ C11 m = 0 /\ C20 m = 0 /\ C30 m = 0) /\
  (o3 g X1 = None <-> C01 m = 0 /\ C11 m = 0).
Proof.
  unfold tod_gradient.
  destruct (nonzero (C10 m)) eqn:H1; destruct (nonzero (C01 m)) eqn:H2;
  destruct (nonzero (C11 m)) eqn:H3; destruct (nonzero (C20 m)) eqn:H4;
  destruct (nonzero (C30 m)) eqn:H5;
  rewrite ?nonzero_true, ?nonzero_false in *; cbn;
  eexists; (split; [reflexivity|]); cbn;
  rewrite ?H1, ?H2, ?H3, ?H4, ?H5; repeat split; try ring; try discriminate; try tauto; intros; try (exfalso; tauto).
Qed.
Lemma tod_hessian_val m I1 I2 I3 v : val (tod_hessian m I1 I2 I3 v) =
  match v with V0 => 2 * C20 m + 6 * C30 m * (I1 - undeformed m) | V3 => C11 m | _ => 0 end.
Proof.
  unfold tod_hessian. destruct v; cbn; try reflexivity.
  - destruct (nonzero (C20 m)) eqn:H4; destruct (nonzero (C30 m)) eqn:H5;
    rewrite ?nonzero_true, ?nonzero_false in *; cbn; rewrite ?H4, ?H5; ring.
  - destruct (nonzero (C11 m)) eqn:H3; rewrite ?nonzero_true, ?nonzero_false in *; cbn; rewrite ?H3; ring.
Qed.

Lemma tod_call {SV} m I (sv : SV) : exists g, inv_call (tod_model m) I sv = Ok (g, sv) /\
  val (o3 g X0) = C10 m + C11 m * (I X1 - undeformed m) + 2 * C20 m * (I X0 - undeformed m)
                  + 3 * C30 m * (I X0 - undeformed m) ^ 2 /\
  val (o3 g X1) = C01 m + C11 m * (I X0 - undeformed m) /\
  o3 g X2 = None.
Proof. destruct (tod_gradient_ok m (I X0) (I X1) (I X2)) as (g & E & H1 & H2 & H3 & _).
  exists g. unfold inv_call, tod_model; cbn. rewrite E; cbn. auto. Qed.

Lemma tod_grad {SV} m : inv_gradient_of (tod_model (SV:=SV) m) (tod_energy m) everywhere.
Proof.
  intros I t0 dI HI _ sv. destruct (tod_call m (I t0) sv) as (g & E & H1 & H2 & H3).
  exists g, sv. split; [exact E|].
  unfold sum3. rewrite H1, H2, H3; cbn [val]. unfold tod_energy. dsolve. ring.
Qed.
Lemma tod_hess {SV} m : inv_hessian_of (tod_model (SV:=SV) m) everywhere.
Proof.
  intros I t0 dI HI _ sv. exists (tod_hessian m (I t0 X0) (I t0 X1) (I t0 X2)).
  split; [reflexivity|]. intros svt G HG k.
  set (f := fun t k => match k with
     | X0 => C10 m + C11 m * (I t X1 - undeformed m) + 2 * C20 m * (I t X0 - undeformed m)
                  + 3 * C30 m * (I t X0 - undeformed m) ^ 2
     | X1 => C01 m + C11 m * (I t X0 - undeformed m) | X2 => 0 end).
  apply D_ext_loc with (fun t => f t k).
  { revert HG; apply filter_imp. intros t (svn & E).
    destruct (tod_call m (I t) (svt t)) as (g & E' & H1 & H2 & H3).
    rewrite E in E'. injection E' as <- _. destruct k; cbn; unfold o3 in *; rewrite ?H1, ?H2, ?H3; reflexivity. }
  unfold sum3; rewrite !tod_hessian_val.
  destruct k; cbn [f pos]; dsolve; ring.
Qed.
Lemma tod_none {SV} m I (sv : SV) g svn h :
  inv_call (tod_model m) I sv = Ok (g, svn) -> inv_callh (tod_model m) I sv = Ok h -> none_consistent g h.
Proof.
  unfold inv_call, inv_callh, tod_model; cbn.
  destruct (tod_gradient_ok m (I X0) (I X1) (I X2)) as (g' & E & _ & _ & _ & H1 & H2). rewrite E; cbn.
  intros Eg Eh. injection Eg as <- _. injection Eh as <-.
  intros k l. unfold tod_hessian.
  destruct k, l; cbn [pos]; intro N; try congruence;
  repeat match goal with
  | H : (if ?b then _ else _) <> None |- _ => destruct b eqn:?; [clear H|congruence]
  | H : (_ || _)%bool = true |- _ => apply orb_true_iff in H
  | H : nonzero _ = true |- _ => rewrite nonzero_true in H
  end; repeat split; rewrite ?H1, ?H2; try tauto;
  intros (? & ? & ? & ?); destruct Heqb as [Hb|Hb]; rewrite nonzero_true in Hb; tauto.
Qed.

(** *** Ogden *)
(** The documented energy: sum over the terms. *)
Fixpoint ogden_energy (terms : list (R * R)) (l : Vec3) : R :=
  match terms with
  | [] => 0
  | (mu, alpha) :: r =>
      2 * mu / alpha ^ 2 * (Rpower (l X0) alpha + Rpower (l X1) alpha + Rpower (l X2) alpha - 3)
      + ogden_energy r l
  end.
Fixpoint og_g (terms : list (R * R)) (l : Vec3) (a : ix3) : R :=
  match terms with [] => 0 | (mu, alpha) :: r => 2 * mu / alpha * Rpower (l a) (alpha - 1) + og_g r l a end.
Fixpoint og_h (terms : list (R * R)) (l : Vec3) (a : ix3) : R :=
  match terms with [] => 0 | (mu, alpha) :: r =>
    2 * mu / alpha * (alpha - 1) * Rpower (l a) (alpha - 2) + og_h r l a end.
Lemma og_fold {T} (f : T -> ix3 -> R) (terms : list T) (acc : Vec3) a :
  fold_left (fun (acc : Vec3) x => fun a => acc a + f x a) terms acc a =
  acc a + fold_right (fun x s => f x a + s) 0 terms.
Proof. revert acc; induction terms as [|x r IH]; intro acc; cbn; [ring|]. rewrite IH. ring. Qed.
Lemma ogden_gradient_eq m l a : ogden_gradient m l a = og_g (combine (og_mu m) (og_alpha m)) l a.
Proof.
  unfold ogden_gradient.
  transitivity (fold_left (fun (acc : Vec3) x => fun a => acc a + (2 * fst x / snd x * Rpower (l a) (snd x - 1)))
     (combine (og_mu m) (og_alpha m)) (fun _ => 0) a).
  { f_equal. f_equal. apply functional_extensionality; intro acc. apply functional_extensionality; intros [mu al]. reflexivity. }
  rewrite (og_fold (fun x a => 2 * fst x / snd x * Rpower (l a) (snd x - 1))). rewrite Rplus_0_l.
  induction (combine (og_mu m) (og_alpha m)) as [|[mu al] r IH]; cbn; [reflexivity|]. rewrite IH; reflexivity.
Qed.
Lemma ogden_hessian_eq m l v : ogden_hessian m l v =
  match v with
  | V0 => Some (og_h (combine (og_mu m) (og_alpha m)) l X0)
  | V1 => Some (og_h (combine (og_mu m) (og_alpha m)) l X1)
  | V2 => Some (og_h (combine (og_mu m) (og_alpha m)) l X2)
  | _ => None end.
Proof.
  assert (E : forall a, fold_left (fun (acc : Vec3) '(mu, alpha) =>
               fun a => acc a + 2 * mu / alpha * (alpha - 1) * Rpower (l a) (alpha - 2))
            (combine (og_mu m) (og_alpha m)) (fun _ => 0) a = og_h (combine (og_mu m) (og_alpha m)) l a).
  { intro a. transitivity (fold_left (fun (acc : Vec3) x => fun a => acc a + (2 * fst x / snd x * (snd x - 1) * Rpower (l a) (snd x - 2)))
     (combine (og_mu m) (og_alpha m)) (fun _ => 0) a).
  { f_equal. f_equal. apply functional_extensionality; intro acc. apply functional_extensionality; intros [mu al]. reflexivity. }
  rewrite (og_fold (fun x a => 2 * fst x / snd x * (snd x - 1) * Rpower (l a) (snd x - 2))). rewrite Rplus_0_l.
  induction (combine (og_mu m) (og_alpha m)) as [|[mu al] r IH]; cbn; [reflexivity|]. rewrite IH; reflexivity. }
  unfold ogden_hessian. destruct v; rewrite ?E; reflexivity.
Qed.

Definition alphas_ok (m : Ogden) : Prop := forall mu alpha, In (mu, alpha) (combine (og_mu m) (og_alpha m)) -> alpha <> 0.

Lemma ogden_grad {SV} m : alphas_ok m ->
  str_gradient_of (ogden_model (SV:=SV) m) (ogden_energy (combine (og_mu m) (og_alpha m))) positive3.
Proof.
  intros HA l t0 dl Hl P sv s. exists (ogden_gradient m (l t0)), sv. split; [eexists; reflexivity|].
  unfold alphas_ok in HA. unfold sum3; rewrite !ogden_gradient_eq.
  induction (combine (og_mu m) (og_alpha m)) as [|[mu al] r IH]; cbn [ogden_energy og_g].
  - dsolve; ring.
  - assert (IH' := IH (fun mu' al' Hin => HA mu' al' (or_intror Hin))). clear IH.
    assert (al <> 0) by (apply (HA mu al); left; auto).
    eapply D_eq; [apply D_plus; [repeat dstep; apply P|exact IH']|].
    cbn beta. field; auto.
Qed.
Lemma ogden_hess {SV} m : alphas_ok m -> str_hessian_of (ogden_model (SV:=SV) m) positive3.
Proof.
  intros HA l t0 dl Hl P sv s. exists (ogden_hessian m (l t0)). split; [eexists; reflexivity|].
  intros svt st G HG k.
  apply D_ext_loc with (fun t => og_g (combine (og_mu m) (og_alpha m)) (l t) k).
  { revert HG; apply filter_imp. intros t (svn & s' & E). cbn in E. injection E as _ <- _.
    symmetry; apply ogden_gradient_eq. }
  apply D_eq with (og_h (combine (og_mu m) (og_alpha m)) (l t0) k * dl k).
  2:{ unfold sum3; rewrite !ogden_hessian_eq. destruct k; cbn; ring. }
  induction (combine (og_mu m) (og_alpha m)) as [|[mu al] r IH]; cbn [og_h og_g].
  - dsolve; ring.
  - eapply D_eq; [apply D_plus; [repeat dstep; apply P|exact IH]|].
    replace (al - 1 - 1) with (al - 2) by ring. ring.
Qed.

(** *** Strain measures *)
Lemma strain_D l k : 0 < l -> k <> 0 ->
  is_derive (fun x => sE (strain x k)) l (sdE (strain l k)) /\
  is_derive (fun x => sdE (strain x k)) l (sd2E (strain l k)).
Proof.
  intros Hl Hk; cbn; unfold sth_E, sth_dE, sth_d2E; split.
  - eapply D_eq. apply D_divc. apply D_minus; [apply D_Rpower; auto|apply D_const]. field; auto.
  - eapply D_eq. apply D_Rpower; auto. f_equal. f_equal. ring.
Qed.
Lemma deformation_D l k : 0 < l ->
  is_derive (fun x => sE (deformation x k)) l (sdE (deformation l k)) /\
  is_derive (fun x => sdE (deformation x k)) l (sd2E (deformation l k)).
Proof.
  intros Hl; cbn; unfold def_C, def_dC, def_d2C; split.
  - apply D_Rpower; auto.
  - eapply D_eq. apply D_scal. apply D_Rpower; auto. replace (k - 1 - 1) with (k - 2) by ring. ring.
Qed.
Lemma Rpower_1_l k : Rpower 1 k = 1.
Proof. unfold Rpower. rewrite ln_1, Rmult_0_r. apply exp_0. Qed.

Lemma Rpower_2 x : 0 < x -> Rpower x 2 = x ^ 2.
Proof. intro P. rewrite <- (Rpower_pow 2 x P). f_equal. Qed.
Lemma tod_none_exactly {SV} m I (sv : SV) : exists g, inv_call (tod_model m) I sv = Ok (g, sv) /\
  (o3 g X0 = None <-> C10 m = 0 /\ C11 m = 0 /\ C20 m = 0 /\ C30 m = 0) /\
  (o3 g X1 = None <-> C01 m = 0 /\ C11 m = 0) /\ o3 g X2 = None.
Proof. destruct (tod_gradient_ok m (I X0) (I X1) (I X2)) as (g & E & _ & _ & H3 & H1 & H2).
  exists g. unfold inv_call, tod_model; cbn. rewrite E; cbn. auto. Qed.
Lemma ogden_grad' {SV} mu alpha : (forall m a, In (m, a) (combine mu alpha) -> a <> 0) ->
  str_gradient_of (ogden_model (SV:=SV) {| og_mu := mu; og_alpha := alpha |})
    (fun l => fold_right (fun t s => 2 * fst t / snd t ^ 2 *
        (Rpower (l X0) (snd t) + Rpower (l X1) (snd t) + Rpower (l X2) (snd t) - 3) + s) 0 (combine mu alpha))
    positive3.
Proof.
  intro H. 
  replace (fun l : Vec3 => fold_right (fun t s => 2 * fst t / snd t ^ 2 *
        (Rpower (l X0) (snd t) + Rpower (l X1) (snd t) + Rpower (l X2) (snd t) - 3) + s) 0 (combine mu alpha))
  with (ogden_energy (combine mu alpha)).
  - apply (ogden_grad {| og_mu := mu; og_alpha := alpha |}). exact H.
  - clear H. apply functional_extensionality; intro l. induction (combine mu alpha) as [|[m a] r IH]; cbn; [reflexivity|].
    rewrite IH; reflexivity.
Qed.
Lemma combine_app_l {A B} (l : list A) (l' : list B) x : length l = length l' -> combine (l ++ x) l' = combine l l'.
Proof. revert l'; induction l as [|a l IH]; intros [|b l'] H; cbn in *; try discriminate.
  - destruct x; reflexivity. - rewrite IH; auto. Qed.
Lemma combine_app_r {A B} (l : list A) (l' : list B) x : length l = length l' -> combine l (l' ++ x) = combine l l'.
Proof. revert l'; induction l as [|a l IH]; intros [|b l'] H; cbn in *; try discriminate; auto.
  rewrite IH; auto. Qed.
Lemma ogden_surplus mu alpha x l a : length mu = length alpha ->
  ogden_gradient {| og_mu := mu ++ x; og_alpha := alpha |} l a = ogden_gradient {| og_mu := mu; og_alpha := alpha |} l a /\
  ogden_gradient {| og_mu := mu; og_alpha := alpha ++ x |} l a = ogden_gradient {| og_mu := mu; og_alpha := alpha |} l a.
Proof. intro H. unfold ogden_gradient; cbn [og_mu og_alpha]. rewrite combine_app_l, combine_app_r; auto. Qed.
Lemma ogden_surplus_hessian mu alpha x l v : length mu = length alpha ->
  ogden_hessian {| og_mu := mu ++ x; og_alpha := alpha |} l v = ogden_hessian {| og_mu := mu; og_alpha := alpha |} l v /\
  ogden_hessian {| og_mu := mu; og_alpha := alpha ++ x |} l v = ogden_hessian {| og_mu := mu; og_alpha := alpha |} l v.
Proof. intro H. unfold ogden_hessian; cbn [og_mu og_alpha]. rewrite combine_app_l, combine_app_r; auto. Qed.
Lemma measure_values l k :
  sE (strain l k) = (Rpower l k - 1) / k /\ sE (deformation l k) = Rpower l k /\
  (sE0 (strain l k) = 0 /\ sdE0 (strain l k) = 1 /\ sd2E0 (strain l k) = 1) /\
  (sE0 (deformation l k) = 1 /\ sdE0 (deformation l k) = 2 /\ sd2E0 (deformation l k) = 2).
Proof. cbn. unfold sth_E, sth_dE, sth_d2E, def_C, def_dC, def_d2C. rewrite !Rpower_1_l.
  repeat split; lra. Qed.
Lemma strain_fun_0 l : strain_fun 0 l = Raise ZeroDivisionError.
Proof. unfold strain_fun, nonzero. destruct (Req_EM_T 0 0); [reflexivity|congruence]. Qed.
