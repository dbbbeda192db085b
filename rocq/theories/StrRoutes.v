(** * Further facts about the Stretches framework: models derived from a symmetric energy are
    exchangeable (C17); two frameworks with the same gradient that are both consistent return the
    same hessian (C21). *)
From Coq Require Import Reals Lra FunctionalExtensionality List.
From Coquelicot Require Import Coquelicot.
From Verif Require Import Tensor Py Voigt VoigtProofs Algebra Calc Models Frameworks Spaces Spec EigCore ContR EigPath VCalc
  ModelProofs GenProofs InvCore InvProofs StrCore StrProofs StrHess StrIso StrMore Counter ScaleProofs.
Import ListNotations.
Local Open Scope R_scope.

Lemma outcome_returns {X A} (c : PY X A) s a : outcome c s = Ok a -> returns c s a.
Proof. unfold outcome, returns. destruct (c s) as [s' r]; cbn. intros ->. eauto. Qed.

Lemma energy_exchangeable {SV} (m : StretchModel SV) psi : symmetric_fn psi -> str_gradient_of m psi positive3 -> exchangeable_gradient m.
Proof.
  intros Hs HG l sv s a b P E g svn O. apply outcome_returns in O.
  exact (grad_equal psi Hs l g a b (model_grad_at m psi positive3 HG l sv s g svn P O) E).
Qed.
Lemma energy_exchangeable_h {SV} (m : StretchModel SV) psi : symmetric_fn psi -> str_gradient_of m psi positive3 ->
  str_hessian_of m positive3 -> exchangeable_hessian m.
Proof.
  intros Hs HG HH l sv s a b P E h O k j. apply outcome_returns in O.
  pose proof (hess_equal m psi positive3 HG Hs positive_curve HH l sv s h a b k j P O E) as X.
  rewrite X. unfold exchange. destruct a, b, k, j; reflexivity.
Qed.

(** *** Positive definiteness is kept for a while along a differentiable curve *)
Lemma posdef_curve lapack (HL : lapack_legal lapack) C t0 dC : (forall t, sym2 (C t)) -> dcurve2 C t0 dC -> posdef (C t0) ->
  locally t0 (fun t => posdef (C t)).
Proof.
  intros S D P. pose (w := fun t => fst (lapack (C t))). pose (v := fun t => snd (lapack (C t))).
  assert (L : forall t, eig_legal (C t) (w t) (v t)) by (intro t; apply legal_sym; auto).
  pose proof (proj1 (eig_posdef _ _ _ (L t0)) P) as Pw.
  assert (X : forall a, locally t0 (fun t => 0 < w t a)).
  { intro a. apply (cont_gt (fun t => w t a)); [|apply Pw]. apply (w_cont C t0 dC) with v; auto. }
  generalize (filter_and _ _ (X X0) (filter_and _ _ (X X1) (X X2))). apply filter_imp. intros t (A & B & E).
  apply (eig_posdef _ _ _ (L t)). intros []; auto.
Qed.

(** *** Uniqueness of the consistent hessian *)
Definition ix6_eqb (u v : ix6) : bool := match u, v with V0, V0 | V1, V1 | V2, V2 | V3, V3 | V4, V4 | V5, V5 => true | _, _ => false end.
Definition unit_sym (u : ix6) : T2 := astensor (fun v => if ix6_eqb u v then 1 else 0).
Lemma dc42_unit_eq (H H' : Mat6) : (forall u, dc42 (astensor4 H) (unit_sym u) = dc42 (astensor4 H') (unit_sym u)) -> H = H'.
Proof.
  intro X. apply Mat6_ext; intros x y.
  assert (Y : forall i j, dc42 (astensor4 H) (unit_sym y) i j = dc42 (astensor4 H') (unit_sym y) i j) by (intros; rewrite X; reflexivity).
  clear X. unfold dc42, sum3, unit_sym, astensor4, astensor in Y.
  destruct x; [specialize (Y X0 X0)|specialize (Y X1 X1)|specialize (Y X2 X2)|specialize (Y X0 X1)|specialize (Y X1 X2)|specialize (Y X0 X2)];
  destruct y; cbn in Y; lra.
Qed.
Lemma hessian_unique {SV} (fw fw' : Framework SV) (Dom Dom' Near : T2 -> Prop) sv s s' :
  fw_hessian_of fw Dom -> fw_hessian_of fw' Dom' ->
  (forall C t0 dC, (forall t, sym2 (C t)) -> dcurve2 C t0 dC -> Near (C t0) -> locally t0 (fun t => Near (C t))) ->
  (forall C, sym2 C -> Near C -> exists r, outcome (fw_gradient fw (asvoigt C) sv) s = Ok r /\ outcome (fw_gradient fw' (asvoigt C) sv) s' = Ok r) ->
  forall C, sym2 C -> Near C -> Dom C -> Dom' C ->
  exists H, outcome (fw_hessian fw (asvoigt C) sv) s = Ok H /\ outcome (fw_hessian fw' (asvoigt C) sv) s' = Ok H.
Proof.
  intros HF HF' Hop Hag C SC NC DC DC'.
  assert (Hret : forall u, exists H H', returns (fw_hessian fw (asvoigt C) sv) s H /\ returns (fw_hessian fw' (asvoigt C) sv) s' H' /\
     dc42 (astensor4 H) (unit_sym u) = dc42 (astensor4 H') (unit_sym u)).
  { intro u. pose (c := fun t : R => fun i j => C i j + t * unit_sym u i j).
    assert (Cs : forall t, sym2 (c t)). { intros t i j. unfold c. rewrite (SC i j). f_equal. f_equal. destruct i, j; reflexivity. }
    assert (C0 : c 0 = C) by (apply T2_ext; intros; unfold c; ring).
    assert (Cd : dcurve2 c 0 (unit_sym u)).
    { intros i j. unfold c. eapply D_eq. apply (D_plus (fun _ => C i j) (fun t => t * unit_sym u i j)). exact (D_const _ _).
      apply (D_mult (fun t => t) (fun _ => unit_sym u i j)). exact (D_id _). exact (D_const _ _). cbv beta; ring. }
    destruct (HF c 0 _ Cs Cd ltac:(rewrite C0; auto) sv s) as (H & RH & LH).
    destruct (HF' c 0 _ Cs Cd ltac:(rewrite C0; auto) sv s') as (H' & RH' & LH').
    rewrite C0 in RH, RH'. exists H, H'. split; [auto|split;[auto|]].
    pose (G := fun t => match outcome (fw_gradient fw (asvoigt (c t)) sv) s with Ok (g, _) => g | Raise _ => vzero end).
    assert (NL : locally 0 (fun t => Near (c t))) by (apply (Hop c 0 _ Cs Cd); rewrite C0; auto).
    assert (A1 : dcurve2 (fun t => astensor (G t)) 0 (dc42 (astensor4 H) (unit_sym u))).
    { apply (LH (fun _ => sv) (fun _ => s) G). generalize NL. apply filter_imp. intros t Nt.
      destruct (Hag (c t) (Cs t) Nt) as ([g svn] & E1 & E2). exists svn. apply outcome_returns. unfold G. rewrite E1. reflexivity. }
    assert (A2 : dcurve2 (fun t => astensor (G t)) 0 (dc42 (astensor4 H') (unit_sym u))).
    { apply (LH' (fun _ => sv) (fun _ => s') G). generalize NL. apply filter_imp. intros t Nt.
      destruct (Hag (c t) (Cs t) Nt) as ([g svn] & E1 & E2). exists svn. apply outcome_returns. unfold G. rewrite E1. exact E2. }
    apply T2_ext; intros i j. exact (D_unique _ _ _ _ (A1 i j) (A2 i j)). }
  destruct (Hret V0) as (H & H' & [x E] & [x' E'] & _).
  exists H. unfold outcome. rewrite E, E'. cbn [snd]. split; [reflexivity|]. f_equal. symmetry. apply dc42_unit_eq. intro u.
  destruct (Hret u) as (K & K' & [y F] & [y' F'] & Q).
  rewrite E in F. rewrite E' in F'. injection F as _ <-. injection F' as _ <-. exact Q.
Qed.

(** GeneralizedInvariants(model, deformation, exponent 2) in Stretches, ThirdOrderDeformation *)
Lemma tod_no_I3 {SV} md J (sv : SV) g svn : inv_call (tod_model md) J sv = Ok (g, svn) -> val (o3 g X2) = 0.
Proof.
  intro E. destruct (tod_none_exactly md J sv) as (g' & E' & _ & _ & N). rewrite E in E'. injection E' as -> _. rewrite N. reflexivity.
Qed.
Lemma gen_tod_grad {SV} md fs E E' E'' c : measure_of fs E E' E'' ->
  exists psi, symmetric_fn psi /\ str_gradient_of (gen_model (tod_model (SV:=SV) md) fs c) psi positive3.
Proof.
  intro HM. exists (fun l => tod_energy md (gen_invariants E c l)). split; [apply gen_symmetric|].
  intros l t0 dl Hl P. apply (gen_grad _ fs c E E' E'' HM _ everywhere (tod_grad md) l t0 dl Hl (conj P Logic.I)).
Qed.

Lemma gen_tod_hess {SV} md fs E E' E'' c : measure_of fs E E' E'' ->
  str_hessian_of (gen_model (tod_model (SV:=SV) md) fs c) positive3.
Proof.
  intros HM l t0 dl Hl P. apply (gen_hess_partial _ fs c E E' E'' HM _ everywhere (tod_grad md) (tod_hess md) l t0 dl Hl).
  split; [auto|split; [exact Logic.I|]]. intros sv g svn. apply tod_no_I3.
Qed.

(** ... and Invariants: same hessian where the principal stretches are separated. *)
Lemma routes_gen_hessian {SV} lapack (HL : lapack_legal lapack) md c C (sv : SV) s s' :
  gen_init (deformation_fun 2) = Ok c -> sym2 C -> posdef C -> separated C ->
  exists H, outcome (str_hessian lapack (gen_model (tod_model md) (deformation_fun 2) c) (asvoigt C) sv) s = Ok H /\
            outcome (inv_hessian (tod_model md) (asvoigt C) sv) s' = Ok H.
Proof.
  intros Ec S P Sep. pose proof (deformation_measure 2) as HM.
  destruct (gen_tod_grad (SV:=SV) md _ _ _ _ c HM) as (psi & Hs & HG).
  pose proof (gen_tod_hess (SV:=SV) md _ _ _ _ c HM) as HH.
  pose proof (stretches_hess lapack _ psi positive3 HL Hs positive_curve HG HH) as H1.
  assert (H2 : fw_hessian_of (invariants_fw (tod_model (SV:=SV) md)) invertible).
  { intros C1 t0 dC S1 HC N.
    refine (inv_fw_hess _ _ _ (tod_grad md) (tod_hess md) C1 t0 dC S1 HC (conj N (conj Logic.I _))).
    intros sv1 g svn h Eg Eh. split.
    - eapply (tod_none md); [exact Eg|]. exact Eh.
    - unfold inv_callh, tod_model in Eh; cbn in Eh. injection Eh as <-. reflexivity. }
  refine (hessian_unique (stretches_fw lapack (gen_model (tod_model md) (deformation_fun 2) c)) (invariants_fw (tod_model md)) _ _ posdef sv s s' H1 H2 _ _ C S P _ _).
  - intros C1 t0 dC S1 D1 P1. exact (posdef_curve lapack HL C1 t0 dC S1 D1 P1).
  - intros C1 S1 P1. destruct (tod_none_exactly md (Jv (asvoigt C1)) sv) as (g & E & _).
    exists (gradv (asvoigt C1) g, sv).
    cbn [stretches_fw invariants_fw fw_gradient fw_hessian fw_self].
    rewrite (routes_gen lapack HL (tod_model md) c C1 sv s s' Ec S1 P1).
    unfold outcome. rewrite (inv_gradient_ok _ _ _ _ _ s' E). auto.
  - split; [apply stretch_dom_positive; auto|auto].
  - intro D. pose proof (legal_sym lapack HL C S) as L. pose proof (proj1 (eig_posdef _ _ _ L) P) as Pw.
    rewrite (eig_det C _ _ L) in D. apply Rmult_integral in D as [D|D]; [apply Rmult_integral in D as [D|D]|].
    specialize (Pw X0); lra. specialize (Pw X1); lra. specialize (Pw X2); lra.
Qed.
Lemma nh_plain {SV} c C (sv : SV) s :
  outcome (inv_gradient (tod_model (tod_init c 0 0 0 0 false)) C sv) s = Ok (vscal c eye, sv) /\
  outcome (inv_hessian (tod_model (tod_init c 0 0 0 0 false)) C sv) s = Ok mzero.
Proof.
  assert (Eg : inv_call (tod_model (tod_init c 0 0 0 0 false)) (Jv C) sv = Ok ((if nonzero c then Some (0 + c) else None, None, None), sv)).
  { unfold inv_call, tod_model, tod_init, tod_gradient; cbn. rewrite !nonzero0. destruct (nonzero c); reflexivity. }
  assert (Eh : inv_callh (tod_model (tod_init c 0 0 0 0 false)) (Jv C) sv = Ok (fun v => None)).
  { unfold inv_callh, tod_model, tod_init, tod_hessian; cbn. rewrite !nonzero0. cbn. f_equal.
    apply functional_extensionality; intro v; destruct v; reflexivity. }
  assert (Z : nonzero c = false -> c = 0) by (unfold nonzero; destruct (Req_EM_T c 0); auto; discriminate).
  split.
  - unfold outcome. rewrite (inv_gradient_ok _ _ _ _ _ s Eg). cbn [snd].
    f_equal. f_equal. apply Vec6_ext; intro v. unfold gradv, vscal, sum3; cbn [o3 fst snd val dJv Jv].
    destruct (nonzero c); cbn [val]; [ring|]. rewrite Z by auto. ring.
  - unfold outcome. rewrite (inv_hessian_eq _ _ _ _ _ _ s Eg Eh).
    change (hess_exn _ _) with (@None exn). cbv iota. cbn [snd isN]. f_equal. apply Mat6_ext; intros v w.
    unfold hessv, sum3, dya; cbn [o3 fst snd val dJv Jv d2Jv pos]. unfold mzero. ring.
Qed.
Lemma routes_neo_hooke {SV} lapack (HL : lapack_legal lapack) mu C (sv : SV) s s' : sym2 C -> posdef C ->
  let str := stretches_fw lapack (ogden_model (SV:=SV) {| og_mu := [mu]; og_alpha := [2] |}) in
  let inv := invariants_fw (tod_model (SV:=SV) (tod_init (mu / 2) 0 0 0 0 false)) in
  outcome (fw_gradient str (asvoigt C) sv) s = outcome (fw_gradient inv (asvoigt C) sv) s' /\
  outcome (fw_hessian str (asvoigt C) sv) s = outcome (fw_hessian inv (asvoigt C) sv) s'.
Proof.
  intros S P str inv. destruct (routes_ogden (SV:=SV) lapack HL mu C sv s S P) as [E1 E2].
  subst str inv. cbn [stretches_fw invariants_fw fw_gradient fw_hessian fw_self] in *. rewrite E1, E2.
  destruct (nh_plain (mu / 2) (asvoigt C) sv s') as [-> ->]. auto.
Qed.
