(** * C48: TorchModel - derivatives by automatic differentiation.

    An [Energy] is what the user's function executes on the tensors I1, I2, I3 (Torch.v);
    [energy e] is its value as a function of the invariants, [mentions e k] says that the
    k-th invariant takes part in it. *)
From Coq Require Import Reals Lra Lia List Bool Arith FunctionalExtensionality.
From Coquelicot Require Import Coquelicot.
From Verif Require Import Tensor Py Voigt Models Frameworks Spaces Spec Calc InvCore InvProofs VCalc Torch TorchProofs TorchSweep TorchMain TorchHess.
Import ListNotations.
Local Open Scope R_scope.

(** Whenever [gradient] returns (with retain_graph True or False): state variables are
    passed through, an entry is None exactly if the energy function does not mention the
    invariant, and the entries are the partial derivatives of the energy. *)
Theorem C48_gradient : forall (SV : Type) (e : Energy) (retain : bool) (I : R -> Vec3) s0 dI (sv svn : SV) g,
  well_formed e -> dcurve3 I s0 dI -> regular (e_tape e) (I s0) ->
  torch_gradient retain e (I s0) sv = Ok (g, svn) ->
  svn = sv /\ (forall k, o3 g k = None <-> ~ mentions e k) /\
  is_derive (fun s => energy e (I s)) s0 (sum3 (fun k => val (o3 g k) * dI k)).
Proof.
  intros SV e retain I s0 dI sv svn g WF HI Hr E. unfold torch_gradient in E.
  destruct (t_gradient retain e) as [[[[[g1 g2] g3] t] r]|err] eqn:EG; cbn [rbind] in E; [|discriminate].
  assert (E2 : (vals (I s0) t g1 g2 g3, sv) = (g, svn)) by (injection E as E1 E2; unfold vals; now rewrite E1, E2).
  assert (Q1 : vals (I s0) t g1 g2 g3 = g) by exact (f_equal fst E2).
  assert (Q2 : sv = svn) by exact (f_equal snd E2). subst g svn.
  split; [reflexivity|]. split.
  - pose proof (gradient_spec retain e WF) as G. rewrite EG in G. destruct G as (_ & _ & _ & _ & G1 & _).
    intros k. rewrite o3_vals, <- G1. destruct (sel g1 g2 g3 k); cbn; split; congruence.
  - exact (gradient_path retain e g1 g2 g3 t r WF EG I s0 dI HI Hr).
Qed.
Print Assumptions C48_gradient.

(** [gradient] raises (always RuntimeError) exactly if retain_graph is False, its default,
    and some multiplication, division, power, exp, log or sqrt involves two different
    invariants.  With retain_graph=True it returns for every energy. *)
Theorem C48_gradient_raises : forall (SV : Type) (e : Energy) (retain : bool) X (sv : SV) err,
  well_formed e ->
  torch_gradient retain e X sv = Raise err <-> err = RuntimeError /\ retain = false /\ coupled e.
Proof.
  intros SV e retain X sv err WF. unfold torch_gradient.
  pose proof (gradient_spec retain e WF) as G.
  destruct (t_gradient retain e) as [[[[[g1 g2] g3] t] r]|err']; cbn [rbind].
  - destruct G as (NC & _). split; [discriminate|]. intros (_ & Rt & C). now apply NC in C.
  - destruct G as (-> & Rt & C). split; [intros E; injection E as <-; auto|]. intros (-> & _). reflexivity.
Qed.
Print Assumptions C48_gradient_raises.

(** So, as the framework calls it, TorchModel only works for energies that are sums of
    functions of one invariant each. *)
Theorem C48_only_separable : forall (SV : Type) (e : Energy) X0' (sv : SV) r,
  well_formed e -> inv_call (torch_model e) X0' sv = Ok r ->
  exists f : ix3 -> R -> R, forall X, energy e X = f X0 (X X0) + f X1 (X X1) + f X2 (X X2).
Proof.
  intros SV e X0' sv r WF E. rewrite torch_call in E. apply uncoupled_separable; auto.
  intros C. assert (H : torch_gradient false e X0' sv = Raise RuntimeError) by (apply C48_gradient_raises; auto). congruence.
Qed.
Print Assumptions C48_only_separable.

(** If [hessian] returns for some arguments, then everywhere: it is the derivative of what
    gradient returns (order 11, 22, 33, 12, 23, 13); mixed derivatives are None, the others
    are None exactly for invariants which are not mentioned. *)
Theorem C48_hessian : forall (SV : Type) (e : Energy) X0' (sv0 : SV) h0,
  well_formed e -> inv_callh (torch_model e) X0' sv0 = Ok h0 ->
  inv_gradient_of (torch_model (SV:=SV) e) (energy e) (regular (e_tape e)) /\
  inv_hessian_of (torch_model (SV:=SV) e) (regular (e_tape e)) /\
  forall X (sv : SV), exists g h, inv_call (torch_model e) X sv = Ok (g, sv) /\ inv_callh (torch_model e) X sv = Ok h /\
    none_consistent g h /\ (forall k, h (pos k k) = None <-> ~ mentions e k) /\ (forall k l, k <> l -> h (pos k l) = None).
Proof.
  intros SV e X0' sv0 h0 WF E. rewrite torch_callh in E.
  destruct (t_hessian e) as [[h T]|err] eqn:EH; cbn [rbind] in E; [|discriminate].
  pose proof (hessian_spec e WF) as HS. rewrite EH in HS.
  destruct HS as (g1 & g2 & g3 & t & r & EG & (HT & P1 & P2 & P3)).
  assert (NC : ~ coupled e).
  { pose proof (gradient_spec false e WF) as G. rewrite EG in G. now apply G. }
  pose proof (gradient_spec false e WF) as G. rewrite EG in G. destruct G as (_ & _ & _ & _ & G1 & _).
  split; [now apply torch_grad|]. split; [eapply torch_hess; eauto|].
  intros X sv. exists (vals X t g1 g2 g3), (fun v => option_map (Torch.V X T) (h v)).
  split; [rewrite torch_call; unfold torch_gradient; rewrite EG; reflexivity|].
  split; [rewrite torch_callh, EH; reflexivity|].
  assert (Q1 : forall k, option_map (Torch.V X T) (h (pos k k)) = None <-> o3 (vals X t g1 g2 g3) k = None).
  { intros k. rewrite o3_vals. specialize (P1 k). destruct (h (pos k k)), (sel g1 g2 g3 k); cbn; split; intros; try discriminate; auto; exfalso.
    - destruct P1 as [_ P1]. specialize (P1 eq_refl). discriminate.
    - destruct P1 as [P1 _]. specialize (P1 eq_refl). discriminate. }
  assert (Q2 : forall k l, k <> l -> option_map (Torch.V X T) (h (pos k l)) = None).
  { intros k l N. now rewrite (P2 k l N). }
  split; [|split].
  - intros k l N. destruct (ix3_eqb k l) eqn:Ekl.
    + assert (k = l) by (destruct k, l; auto; discriminate). subst l. rewrite Q1 in N. auto.
    + exfalso. apply N, Q2. intros ->. destruct l; discriminate.
  - intros k. rewrite Q1, o3_vals, <- G1. destruct (sel g1 g2 g3 k); cbn; split; congruence.
  - exact Q2.
Qed.
Print Assumptions C48_hessian.

(** [hessian] raises nothing but RuntimeError. *)
Theorem C48_hessian_error : forall (SV : Type) (e : Energy) X (sv : SV) err,
  well_formed e -> inv_callh (torch_model e) X sv = Raise err -> err = RuntimeError.
Proof.
  intros SV e X sv err WF E. rewrite torch_callh in E. pose proof (hessian_spec e WF) as HS.
  destruct (t_hessian e) as [[h T]|err']; cbn [rbind] in E; [discriminate|]. congruence.
Qed.
Print Assumptions C48_hessian_error.

(** [hessian] raises (always RuntimeError) exactly if some saving operation involves two
    invariants, or the derivative w.r.t. an invariant that is mentioned is computed from
    constants only ([linear]), or from a value which itself needed a multiplication,
    division, power, exp, log or sqrt of something that depends on this invariant
    ([nested]; its tensors were released by gradient). *)
Theorem C48_hessian_raises : forall (SV : Type) (e : Energy) X (sv : SV) err,
  well_formed e ->
  inv_callh (torch_model e) X sv = Raise err <->
  err = RuntimeError /\ (coupled e \/ exists k, mentions e k /\ (linear e k \/ nested e k)).
Proof.
  intros SV e X sv err WF. rewrite torch_callh. pose proof (hessian_exact e WF) as HX.
  destruct (t_hessian e) as [[h T]|err']; cbn [rbind].
  - destruct HX as (NC & HX). split; [discriminate|]. intros (_ & [C|(k & M & [H|H])]); [contradiction| |]; destruct (HX k M); contradiction.
  - destruct HX as (-> & HX). split; [intros E; injection E as <-; auto|]. intros (-> & _). reflexivity.
Qed.
Print Assumptions C48_hessian_raises.

(** exp and sqrt of anything that depends on an invariant are never accepted: an energy in
    which the derivative passes through them is [nested]. *)
Theorem C48_hessian_exp_sqrt : forall (SV : Type) (e : Energy) X (sv : SV) j o a k,
  well_formed e -> uses (e_tape e) (e_root e) j -> nth_error (e_tape e) j = Some o -> o = OExp a \/ o = OSqrt a ->
  sensitive (e_tape e) k a -> inv_callh (torch_model e) X sv = Raise RuntimeError.
Proof.
  intros SV e X sv j o a k WF U E Ho Sa. apply C48_hessian_raises; [auto|]. split; [auto|]. right.
  pose proof (wf_energy e WF) as W.
  assert (SU : forall i, sensitive (e_tape e) k i -> uses (e_tape e) i (leaf k)).
  { intros i H. induction H as [|i o' b E' K Z H IH]; [constructor|].
    apply uses_trans with b; [|auto]. eapply uses_step; [constructor|exact E'|exact K]. }
  assert (Ka : is_arg a o) by (destruct Ho as [-> | ->]; isarg).
  assert (Uj : uses (e_tape e) j (leaf k)).
  { apply uses_trans with a; [|auto]. eapply uses_step; [constructor|exact E|exact Ka]. }
  exists k. split; [unfold mentions; eapply uses_trans; eauto|]. right.
  exists j, j, o. split; [|split; [constructor|split; [auto|split; [auto|destruct Ho as [-> | ->]; reflexivity]]]].
  exists j, o, a. repeat split; auto. destruct Ho as [-> | ->]; cbn; auto.
Qed.
Print Assumptions C48_hessian_exp_sqrt.

(** ** Inside the framework *)
(** Stress: 2 dW/dC of psi(I1(C), I2(C), I3(C)) for every energy without coupling. *)
Theorem C48_framework_gradient_partial : forall (SV : Type) (e : Energy), well_formed e -> ~ coupled e ->
  fw_gradient_of (invariants_fw (torch_model (SV:=SV) e)) (fun C => energy e (invariants C))
    (fun C => invertible C /\ regular (e_tape e) (invariants C)).
Proof. intros SV e WF NC. exact (inv_fw_grad _ _ _ (torch_grad e WF NC)). Qed.
Print Assumptions C48_framework_gradient_partial.
(** Missing for the full claim: energies with coupling (refuted below).
    Elasticity: provided that [hessian] returns and the energy does not mention I3 (the
    framework itself is wrong for models that return d2W/dI3dI3, see C15). *)
Theorem C48_framework_hessian_partial : forall (SV : Type) (e : Energy) X0' (sv0 : SV) h0,
  well_formed e -> inv_callh (torch_model e) X0' sv0 = Ok h0 -> ~ mentions e X2 ->
  fw_hessian_of (invariants_fw (torch_model (SV:=SV) e)) (fun C => invertible C /\ regular (e_tape e) (invariants C)).
Proof.
  intros SV e X0' sv0 h0 WF E NM C t0 dC S HC (N & Hr).
  destruct (C48_hessian SV e X0' sv0 h0 WF E) as (HG & HH & HA).
  refine (inv_fw_hess _ _ _ HG HH C t0 dC S HC (conj N (conj Hr _))).
  intros sv g svn h Eg Eh. destruct (HA (invariants (C t0)) sv) as (g' & h' & A1 & A2 & A3 & A4 & A5).
  rewrite A1 in Eg. assert (Eg2 : (g', sv) = (g, svn)) by congruence.
  assert (Q1 : g' = g) by exact (f_equal fst Eg2). assert (Q2 : sv = svn) by exact (f_equal snd Eg2). subst g' svn.
  rewrite A2 in Eh. assert (h' = h) by congruence. subst h'. split; [exact A3|]. exact (proj2 (A4 X2) NM).
Qed.
Print Assumptions C48_framework_hessian_partial.
(** With coupling the framework raises for every deformation. *)
Theorem C48_framework_raises : forall (SV : Type) (e : Energy) C (sv : SV) s, well_formed e -> coupled e ->
  outcome (fw_gradient (invariants_fw (torch_model e)) C sv) s = Raise RuntimeError /\
  outcome (fw_hessian (invariants_fw (torch_model e)) C sv) s = Raise RuntimeError.
Proof.
  intros SV e C sv s WF NC.
  assert (H : forall X (sv' : SV), inv_call (torch_model e) X sv' = Raise RuntimeError).
  { intros X sv'. rewrite torch_call. now apply C48_gradient_raises. }
  assert (H' : forall I1 I2 I3 (sv' : SV), im_gradient (torch_model e) I1 I2 I3 sv' = Raise RuntimeError).
  { intros I1 I2 I3 sv'. exact (H (fun k => match k with X0 => I1 | X1 => I2 | X2 => I3 end) sv'). }
  assert (G : outcome (fw_gradient (invariants_fw (torch_model e)) C sv) s = Raise RuntimeError).
  { cbn. unfold outcome, inv_gradient, bind, modify, lift, get. rewrite H'. reflexivity. }
  split; [exact G|]. revert G. cbn. unfold outcome, inv_hessian, bind.
  destruct (inv_gradient (torch_model e) C sv s) as [s' [?|?]]; cbn; congruence.
Qed.
Print Assumptions C48_framework_raises.

(** An energy of I1 and I3 or of I3 alone (any energy whose gradient does not mention I2), e.g.
    C10 (I1 - 3)^2 + (I3 - 1)^2: whenever the model's own hessian returns, that of the framework
    raises UnboundLocalError for every deformation. *)
Theorem C48_framework_hessian_raises : forall (SV : Type) (e : Energy) X0' (sv0 : SV) h0 C (sv : SV) s, sym2 C ->
  well_formed e -> inv_callh (torch_model e) X0' sv0 = Ok h0 -> mentions e X2 -> ~ mentions e X1 ->
  raises (fw_hessian (invariants_fw (torch_model e)) (asvoigt C) sv) s UnboundLocalError.
Proof.
  intros SV e X0' sv0 h0 C sv s S WF E M2 NM1.
  destruct (C48_hessian SV e X0' sv0 h0 WF E) as (HG & HH & HA).
  destruct (HA (invariants C) sv) as (g & h & A1 & A2 & A3 & A4 & A5).
  assert (N1 : o3 g X1 = None).
  { rewrite torch_call in A1. unfold torch_gradient in A1.
    destruct (t_gradient false e) as [[[[[g1 g2] g3] t] r]|err] eqn:EG; cbn [rbind] in A1; [|discriminate].
    assert (Q1 : vals (invariants C) t g1 g2 g3 = g) by (injection A1 as A1; unfold vals; congruence).
    pose proof (gradient_spec false e WF) as G. rewrite EG in G. destruct G as (_ & _ & _ & _ & G1 & _).
    rewrite <- Q1, o3_vals. rewrite <- (G1 X1) in NM1. destruct (sel g1 g2 g3 X1); cbn; [|reflexivity]. exfalso. congruence. }
  assert (H1 : h V1 = None) by (apply (A4 X1); exact NM1).
  assert (H2 : h V2 <> None) by (intro Z; apply (proj1 (A4 X2)) in Z; contradiction).
  rewrite <- (Jv_full C S) in A1, A2. unfold raises. cbn [invariants_fw fw_hessian].
  rewrite (inv_hessian_eq _ _ _ _ _ _ s A1 A2). eexists.
  replace (hess_exn g h) with (Some UnboundLocalError); [reflexivity|].
  unfold hess_exn. rewrite N1, H1. destruct (h V2) as [x|] eqn:E2; [|contradiction]. cbn [isN negb].
  destruct (h V0) as [y|] eqn:E0; cbn [isN]; [|reflexivity].
  destruct (o3 g X0) as [z|] eqn:G0; [reflexivity|]. exfalso. apply (A3 X0 X0); [|exact G0]. cbn. congruence.
Qed.
Print Assumptions C48_framework_hessian_raises.

(** ** Concrete energy functions *)
(** C10 * (I1 - 3) *)
Definition neo_hooke_fun (C10 : R) : Energy := {| e_ops := [ONum 3; OSub 0 3; ONum C10; OMul 4 5]; e_root := 6 |}.
(** C10 * (I1 - 3) + C20 * (I1 - 3) ** 2 + C30 * (I1 - 3) ** 3 (the example in the docs) *)
Definition yeoh_fun (C10 C20 C30 : R) : Energy :=
  {| e_ops := [ONum 3; OSub 0 3; ONum C10; OMul 4 5;
               OSub 0 3; OPowN 7 2; ONum C20; OMul 8 9; OAdd 6 10;
               OSub 0 3; OPowN 12 3; ONum C30; OMul 13 14; OAdd 11 15]; e_root := 16 |}.
(** C10 * (I1 * I3 ** (-1/3) - 3) *)
Definition iso_neo_hooke_fun (C10 : R) : Energy :=
  {| e_ops := [OPow 2 (-1/3); OMul 0 3; ONum 3; OSub 4 5; ONum C10; OMul 6 7]; e_root := 8 |}.
(** C * (exp(b * (I1 - 3)) - 1) *)
Definition fung_fun (C b : R) : Energy :=
  {| e_ops := [ONum 3; OSub 0 3; ONum b; OMul 4 5; OExp 6; ONum 1; OSub 7 8; ONum C; OMul 9 10]; e_root := 11 |}.

Ltac wf_tac := split; [cbn; lia|]; intros i o E; repeat (destruct i as [|i]; [cbn in E; injection E as <-; split; [discriminate|intros k [K|K]; cbn in K; try discriminate K; injection K as <-; lia]|]); destruct i; discriminate E.
Lemma wf_neo C10 : well_formed (neo_hooke_fun C10). Proof. wf_tac. Qed.
Lemma wf_yeoh a b c : well_formed (yeoh_fun a b c). Proof. wf_tac. Qed.
Lemma wf_iso a : well_formed (iso_neo_hooke_fun a). Proof. wf_tac. Qed.
Lemma wf_fung a b : well_formed (fung_fun a b). Proof. wf_tac. Qed.
Ltac reg_tac := intros i o E; repeat (destruct i as [|i]; [cbn in E; injection E as <-; cbn; auto|]); destruct i; discriminate E.

(** The documented example works: gradient and hessian return, and these are the values. *)
Theorem C48_yeoh : forall (SV : Type) C10 C20 C30 X (sv : SV),
  (forall Y, energy (yeoh_fun C10 C20 C30) Y = C10 * (Y X0 - 3) + C20 * (Y X0 - 3) ^ 2 + C30 * (Y X0 - 3) ^ 3) /\
  inv_call (torch_model (yeoh_fun C10 C20 C30)) X sv =
    Ok (Some (C10 + 2 * C20 * (X X0 - 3) + 3 * C30 * (X X0 - 3) ^ 2), None, None, sv) /\
  inv_callh (torch_model (yeoh_fun C10 C20 C30)) X sv =
    Ok (fun v => match v with V0 => Some (2 * C20 + 6 * C30 * (X X0 - 3)) | _ => None end).
Proof.
  intros SV C10 C20 C30 X sv. split; [intros Y; cbv [energy Torch.V ev run fold_left app nth vstep pow e_tape e_ops e_root yeoh_fun iso_neo_hooke_fun]; ring|]. split.
  - rewrite torch_call. unfold torch_gradient.
    remember (t_gradient false (yeoh_fun C10 C20 C30)) as G eqn:EG. vm_compute in EG. subst G. cbn [rbind option_map].
    cbv [Torch.V ev run fold_left app nth vstep pow]. do 5 f_equal. ring.
  - rewrite torch_callh. remember (t_hessian (yeoh_fun C10 C20 C30)) as G eqn:EG. vm_compute in EG. subst G. cbn [rbind].
    f_equal. apply functional_extensionality. intros []; try reflexivity. cbn [option_map]. f_equal.
    cbv [Torch.V ev run fold_left app nth vstep pow]. ring.
Qed.
Print Assumptions C48_yeoh.

(** C10 (I1 - 3)^2 + (I3 - 1)^2 meets the hypotheses of C48_framework_hessian_raises. *)
Definition vol_fun (C10 : R) : Energy :=
  {| e_ops := [ONum 3; OSub 0 3; OPowN 4 2; ONum C10; OMul 5 6; ONum 1; OSub 2 8; OPowN 9 2; OAdd 7 10]; e_root := 11 |}.
Example C48_vol : forall C10 X (sv : unit), well_formed (vol_fun C10) /\ mentions (vol_fun C10) X2 /\ ~ mentions (vol_fun C10) X1 /\
  (forall Y, energy (vol_fun C10) Y = C10 * (Y X0 - 3) ^ 2 + (Y X2 - 1) ^ 2) /\
  exists h, inv_callh (torch_model (vol_fun C10)) X sv = Ok h.
Proof.
  intros C10 X sv. assert (WF : well_formed (vol_fun C10)) by wf_tac.
  assert (EH : exists h, inv_callh (torch_model (vol_fun C10)) X sv = Ok h).
  { rewrite torch_callh. remember (t_hessian (vol_fun C10)) as G eqn:EG. vm_compute in EG. subst G. eexists. reflexivity. }
  split; [exact WF|]. destruct EH as [h EH]. 
  destruct (C48_hessian unit _ X sv h WF EH) as (_ & _ & HA). destruct (HA X sv) as (g & h' & _ & E' & _ & A4 & _).
  rewrite torch_callh in E'. remember (t_hessian (vol_fun C10)) as G eqn:EG. vm_compute in EG. subst G.
  cbn [rbind] in E'. injection E' as <-.
  split; [|split; [|split; [|eauto]]].
  - destruct (Classical_Prop.classic (mentions (vol_fun C10) X2)) as [M|N]; [exact M|]. apply (A4 X2) in N. discriminate N.
  - apply (A4 X1). reflexivity.
  - intros Y; cbv [energy Torch.V ev run fold_left app nth vstep pow e_tape e_ops e_root vol_fun]; ring.
Qed.

(** ** Refuted *)
(** The isochoric Neo-Hooke energy C10 (I1 I3^(-1/3) - 3): smooth for I3 > 0, but gradient
    raises for all arguments ... *)
Theorem C48_gradient_refuted : forall (SV : Type) C10,
  (forall X, energy (iso_neo_hooke_fun C10) X = C10 * (X X0 * Rpower (X X2) (-1/3) - 3)) /\
  (forall X, 0 < X X2 -> regular (e_tape (iso_neo_hooke_fun C10)) X) /\
  (forall X (sv : SV), inv_call (torch_model (iso_neo_hooke_fun C10)) X sv = Raise RuntimeError) /\
  (forall C (sv : SV) s, outcome (fw_gradient (invariants_fw (torch_model (iso_neo_hooke_fun C10))) C sv) s = Raise RuntimeError).
Proof.
  intros SV C10. assert (CP : coupled (iso_neo_hooke_fun C10)).
  { exists 4%nat, (OMul 0 3), X0, X2. split; [|split; [|split; [|split; [|split]]]]; try reflexivity; try discriminate.
    - apply uses_trans with 6%nat.
      + eapply uses_step; [apply uses_refl|reflexivity|left; reflexivity].
      + eapply uses_step; [apply uses_refl|reflexivity|left; reflexivity].
    - eapply uses_step; [apply uses_refl|reflexivity|left; reflexivity].
    - apply uses_trans with 3%nat.
      + eapply uses_step; [apply uses_refl|reflexivity|right; reflexivity].
      + eapply uses_step; [apply uses_refl|reflexivity|left; reflexivity]. }
  split; [intros X; cbv [energy Torch.V ev run fold_left app nth vstep pow e_tape e_ops e_root yeoh_fun iso_neo_hooke_fun]; ring|]. split.
  - intros X HX. reg_tac.
  - split; [intros X sv; rewrite torch_call; apply C48_gradient_raises; auto using wf_iso|].
    intros C sv s. now apply C48_framework_raises; auto using wf_iso.
Qed.
Print Assumptions C48_gradient_refuted.
(** ... hessian raises for the Neo-Hooke energy C10 (I1 - 3), and the gradient does not ... *)
Theorem C48_hessian_refuted : forall (SV : Type) C10 X (sv : SV),
  inv_call (torch_model (neo_hooke_fun C10)) X sv = Ok (Some C10, None, None, sv) /\
  inv_callh (torch_model (neo_hooke_fun C10)) X sv = Raise RuntimeError.
Proof.
  intros SV C10 X sv. split.
  - rewrite torch_call. unfold torch_gradient.
    remember (t_gradient false (neo_hooke_fun C10)) as G eqn:EG. vm_compute in EG. subst G. cbn [rbind option_map].
    cbv [Torch.V ev run fold_left app nth vstep pow]. do 5 f_equal. ring.
  - rewrite torch_callh. remember (t_hessian (neo_hooke_fun C10)) as G eqn:EG. vm_compute in EG. subst G. reflexivity.
Qed.
Print Assumptions C48_hessian_refuted.
(** ... and for the exponential energy C (exp(b (I1 - 3)) - 1). *)
Theorem C48_hessian_refuted_exp : forall (SV : Type) C b X (sv : SV),
  inv_call (torch_model (fung_fun C b)) X sv = Ok (Some (C * b * exp (b * (X X0 - 3))), None, None, sv) /\
  inv_callh (torch_model (fung_fun C b)) X sv = Raise RuntimeError.
Proof.
  intros SV C b X sv. split.
  - rewrite torch_call. unfold torch_gradient.
    remember (t_gradient false (fung_fun C b)) as G eqn:EG. vm_compute in EG. subst G. cbn [rbind option_map].
    cbv [Torch.V ev run fold_left app nth vstep pow]. do 5 f_equal.
    replace ((X X0 - (R1 + (R1 + R1))) * b) with (b * (X X0 - 3)) by ring. ring.
  - rewrite torch_callh. remember (t_hessian (fung_fun C b)) as G eqn:EG. vm_compute in EG. subst G. reflexivity.
Qed.
Print Assumptions C48_hessian_refuted_exp.

(** ** Concrete cases: an energy that reads two invariants in separate terms, and a coupled one. *)
(** a * (I1 - 3) ** 2 + b * log(I2) *)
Definition mixed_fun (a b : R) : Energy :=
  {| e_ops := [ONum 3; OSub 0 3; OPowN 4 2; ONum a; OMul 5 6; OLog 1; ONum b; OMul 8 9; OAdd 7 10]; e_root := 11 |}.
Example C48_example : forall a b X, 0 < X X1 -> well_formed (mixed_fun a b) /\ regular (e_tape (mixed_fun a b)) X /\
  energy (mixed_fun a b) X = a * (X X0 - 3) ^ 2 + b * ln (X X1) /\
  (exists g, inv_call (torch_model (mixed_fun a b)) X tt = Ok (g, tt)) /\ ~ coupled (mixed_fun a b) /\
  well_formed (iso_neo_hooke_fun a) /\ coupled (iso_neo_hooke_fun a).
Proof.
  intros a b X P. assert (W : well_formed (mixed_fun a b)) by wf_tac. split; [exact W|]. split; [reg_tac|]. split.
  { cbv [energy Torch.V ev run fold_left app nth vstep pow e_tape e_ops e_root mixed_fun]. ring. }
  assert (G : exists g, inv_call (torch_model (mixed_fun a b)) X tt = Ok (g, tt)).
  { rewrite torch_call. unfold torch_gradient. remember (t_gradient false (mixed_fun a b)) as G eqn:EG. vm_compute in EG. subst G. cbn [rbind]. eexists. reflexivity. }
  split; [exact G|]. split.
  - intro C. destruct G as [g G]. rewrite torch_call in G.
    rewrite (proj2 (C48_gradient_raises unit (mixed_fun a b) false X tt RuntimeError W)) in G; [discriminate G|auto].
  - split; [apply wf_iso|]. apply (C48_gradient_raises unit (iso_neo_hooke_fun a) false X tt RuntimeError (wf_iso a)).
    rewrite <- torch_call. apply (proj1 (proj2 (proj2 (C48_gradient_refuted unit a)))).
Qed.

(** The three reasons occur one at a time: the Yeoh energy has none of them, Neo-Hooke is
    linear only, the exponential energy and (I1 * I1) * I1 are nested only. *)
Definition cubic_fun : Energy := {| e_ops := [OMul 0 0; OMul 3 0]; e_root := 4 |}.
Example C48_reasons : forall a b c,
  (~ coupled (yeoh_fun a b c) /\ mentions (yeoh_fun a b c) X0 /\ ~ linear (yeoh_fun a b c) X0 /\ ~ nested (yeoh_fun a b c) X0) /\
  (~ coupled (neo_hooke_fun a) /\ mentions (neo_hooke_fun a) X0 /\ linear (neo_hooke_fun a) X0) /\
  (well_formed cubic_fun /\ (forall X, energy cubic_fun X = X X0 ^ 3) /\ ~ coupled cubic_fun /\ ~ linear cubic_fun X0 /\ nested cubic_fun X0) /\
  (~ coupled (fung_fun a b) /\ ~ linear (fung_fun a b) X0 /\ nested (fung_fun a b) X0).
Proof.
  intros a b c.
  assert (NC : forall e X (sv : unit) r, well_formed e -> inv_call (torch_model e) X sv = Ok r -> ~ coupled e).
  { intros e X sv r WF E C. rewrite torch_call in E.
    rewrite (proj2 (C48_gradient_raises unit e false X sv RuntimeError WF)) in E; [discriminate E|auto]. }
  split; [|split; [|split]].
  - destruct (C48_yeoh unit a b c (fun _ => 0) tt) as (_ & G & H).
    assert (N : ~ (coupled (yeoh_fun a b c) \/ exists k, mentions (yeoh_fun a b c) k /\ (linear (yeoh_fun a b c) k \/ nested (yeoh_fun a b c) k))).
    { intros C. rewrite (proj2 (C48_hessian_raises unit _ (fun _ => 0) tt RuntimeError (wf_yeoh a b c))) in H; [discriminate H|auto]. }
    assert (M : mentions (yeoh_fun a b c) X0) by (apply mentions_reach; [apply wf_yeoh|reflexivity]).
    split; [tauto|]. split; [exact M|]. split; intros C; apply N; right; exists X0; auto.
  - destruct (C48_hessian_refuted unit a (fun _ => 0) tt) as (G & H).
    assert (M : mentions (neo_hooke_fun a) X0) by (apply mentions_reach; [apply wf_neo|reflexivity]).
    split; [exact (NC _ _ _ _ (wf_neo a) G)|]. split; [exact M|].
    intros p (j & o & d & _ & E & Nd & Sd) U.
    do 7 (destruct j as [|j]; [cbn in E; injection E as <-; cbn in Nd; try contradiction|]); [|destruct j; discriminate E].
    destruct Nd as [(-> & ->)|(-> & ->)].
    + apply reach_uses in U; [|apply wf_energy, wf_neo|cbn; lia]. discriminate U.
    + inversion Sd as [|i o d E K Z S']; subst. cbn in E. injection E as <-. destruct K as [K|K]; discriminate K.
  - assert (WC : well_formed cubic_fun) by wf_tac.
    assert (R0 : forall i, (i < 5)%nat -> reach X0 (e_tape cubic_fun) i = true -> uses (e_tape cubic_fun) i 0).
    { intros i L H. apply (reach_uses X0) in H; [exact H|now apply wf_energy|exact L]. }
    assert (RU : reused cubic_fun X0 3).
    { exists 4%nat, (OMul 3 0), 0%nat. split; [constructor|]. split; [reflexivity|]. split; [right; auto|]. apply (sens_leaf _ X0). }
    split; [exact WC|]. split; [intros X; cbv [energy Torch.V ev run fold_left app nth vstep pow e_tape e_ops e_root cubic_fun]; ring|].
    split.
    { apply (NC cubic_fun (fun _ => 0) tt (Some 0, None, None, tt) WC). rewrite torch_call. unfold torch_gradient.
      remember (t_gradient false cubic_fun) as G eqn:EG. vm_compute in EG. subst G. cbn [rbind option_map].
      cbv [Torch.V ev run fold_left app nth vstep pow]. do 5 f_equal. ring. }
    split.
    + intros L. apply (L 3%nat RU). apply R0; [lia|reflexivity].
    + exists 3%nat, 3%nat, (OMul 0 0). split; [exact RU|]. split; [constructor|]. split; [apply R0; [lia|reflexivity]|]. split; reflexivity.
  - destruct (C48_hessian_refuted_exp unit a b (fun _ => 0) tt) as (G & _).
    assert (RU : reused (fung_fun a b) X0 7).
    { exists 7%nat, (OExp 6), 6%nat.
      assert (S4 : sensitive (e_tape (fung_fun a b)) X0 4).
      { eapply sens_step; [reflexivity|left; reflexivity|auto|]. apply (sens_leaf _ X0). }
      split; [|split; [reflexivity|split; [cbn; auto|]]].
      - apply (uses_step _ _ 9 (OSub 7 8)); [|reflexivity|left; reflexivity]. apply (uses_step _ _ 11 (OMul 9 10)); [constructor|reflexivity|left; reflexivity].
      - eapply sens_step; [reflexivity|left; reflexivity|auto|exact S4]. }
    assert (U7 : uses (e_tape (fung_fun a b)) 7 (leaf X0)).
    { apply reach_uses; [apply wf_energy, wf_fung|cbn; lia|reflexivity]. }
    split; [exact (NC _ _ _ _ (wf_fung a b) G)|]. split.
    + intros L. exact (L 7%nat RU U7).
    + exists 7%nat, 7%nat, (OExp 6). split; [exact RU|]. split; [constructor|]. split; [exact U7|]. split; reflexivity.
Qed.
