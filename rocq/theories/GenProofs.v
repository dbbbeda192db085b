(** Lemmas about GeneralizedInvariantsModel (C12, C13). *)
From Coq Require Import Reals Lra List Bool FunctionalExtensionality.
From Coquelicot Require Import Coquelicot.
From Verif Require Import Tensor Py Voigt VoigtProofs Algebra Calc Models Frameworks Spaces Spec ModelProofs.
Local Open Scope R_scope.

Lemma measure_val fs E E' E'' l : measure_of fs E E' E'' -> 0 < l ->
  exists s, fs l = Ok s /\ sE s = E l /\ sdE s = E' l /\ sd2E s = E'' l.
Proof. intros H P; apply (H l P). Qed.

Lemma strain3_ok fs E E' E'' l : measure_of fs E E' E'' -> positive3 l ->
  exists s, strain3 fs l = Ok s /\ forall a, sE (s a) = E (l a) /\ sdE (s a) = E' (l a) /\ sd2E (s a) = E'' (l a).
Proof.
  intros H P. unfold strain3.
  destruct (measure_val _ _ _ _ _ H (P X0)) as (s0 & E0 & H0).
  destruct (measure_val _ _ _ _ _ H (P X1)) as (s1 & E1 & H1).
  destruct (measure_val _ _ _ _ _ H (P X2)) as (s2 & E2 & H2).
  rewrite E0, E1, E2; cbn. eexists; split; [reflexivity|]. intro a; destruct a; cbn; tauto.
Qed.

Lemma accum_val {A} x (acc : A -> R) f a : f 0 a = 0 -> accum x acc f a = acc a + f (val x) a.
Proof. intro H. destruct x; cbn; [reflexivity|rewrite H; ring]. Qed.

(** The values of the derivatives do not depend on the state variables. *)
Definition line3 (J e : Vec3) : R -> Vec3 := fun t k => J k + t * e k.
Lemma line3_D J e : dcurve3 (line3 J e) 0 e.
Proof. intro k. unfold line3. eapply D_eq. apply D_plus; [apply D_const|].
  apply (D_scalr (fun t => t)). apply D_id. ring. Qed.
Lemma line3_0 J e : line3 J e 0 = J.
Proof. apply functional_extensionality; intro k; unfold line3; ring. Qed.
Lemma inv_gradient_exists {SV} (m : InvModel SV) psi Dom : inv_gradient_of m psi Dom ->
  forall J, Dom J -> forall sv, exists g svn, inv_call m J sv = Ok (g, svn).
Proof. intros H J D sv. destruct (H (line3 J (fun _ => 0)) 0 _ (line3_D _ _)) with (sv := sv) as (g & svn & E & _).
  rewrite line3_0; auto. rewrite line3_0 in E. eauto. Qed.
Lemma inv_gradient_unique {SV} (m : InvModel SV) psi Dom : inv_gradient_of m psi Dom ->
  forall J, Dom J -> forall sv1 sv2 g1 g2 svn1 svn2,
  inv_call m J sv1 = Ok (g1, svn1) -> inv_call m J sv2 = Ok (g2, svn2) ->
  forall k, val (o3 g1 k) = val (o3 g2 k).
Proof.
  intros H J D sv1 sv2 g1 g2 svn1 svn2 E1 E2 k.
  set (e := fun j => delta k j).
  destruct (H (line3 J e) 0 e (line3_D _ _)) with (sv := sv1) as (g1' & s1 & E1' & D1). { rewrite line3_0; auto. }
  destruct (H (line3 J e) 0 e (line3_D _ _)) with (sv := sv2) as (g2' & s2 & E2' & D2). { rewrite line3_0; auto. }
  rewrite line3_0 in E1', E2'. rewrite E1 in E1'; rewrite E2 in E2'.
  injection E1' as -> _. injection E2' as -> _.
  apply is_derive_unique in D1, D2. rewrite D1 in D2.
  unfold sum3, e, delta in D2. destruct k; cbn [ix3_eqb] in D2; lra.
Qed.

Section G.
  Context {SV : Type} (m : InvModel SV) (fs : R -> Result StrainVal) (c : GenConst).
  Context (E E' E'' : R -> R) (HM : measure_of fs E E' E'').
  Notation gI := (gen_invariants E c).

  (** derivative of the k-th scaled invariant w.r.t. E_a *)
  Definition gdI (l : Vec3) (k a : ix3) : R :=
    match k with
    | X0 => gc1 c
    | X1 => gc2 c * (E (l (gb a)) + E (l (gg a)))
    | X2 => E (l (gb a)) * E (l (gg a))
    end.

  Lemma gen_gradient_ok l sv g svn : positive3 l -> inv_call m (gI l) sv = Ok (g, svn) ->
    forall self, exists self',
    gen_gradient m fs c l sv self =
      (self', Ok ((fun a => sum3 (fun k => val (o3 g k) * gdI l k a) * E' (l a)), svn)) /\
    g_strain self' = Some ((fun a => E (l a)), (fun a => E' (l a)), (fun a => E'' (l a))) /\
    g_I self' = Some (gI l X0, gI l X1, gI l X2) /\
    g_dW self' = Some g /\
    g_dIdE self' = Some (gdI l X0, gdI l X1, gdI l X2).
  Proof.
    intros P Hg self. destruct (strain3_ok _ _ _ _ l HM P) as (s & Es & Hs).
    assert (HE : (fun a => sE (s a)) = (fun a => E (l a))) by (apply functional_extensionality; intro a; apply Hs).
    assert (HE' : (fun a => sdE (s a)) = (fun a => E' (l a))) by (apply functional_extensionality; intro a; apply Hs).
    assert (HE'' : (fun a => sd2E (s a)) = (fun a => E'' (l a))) by (apply functional_extensionality; intro a; apply Hs).
    unfold gen_gradient, bind, lift, get, put, ret. rewrite Es.
    assert (J1 : gc1 c * (sE (s X0) + sE (s X1) + sE (s X2)) - gI10 c * (gc1 c - 1) = gI l X0).
    { unfold gen_invariants. rewrite !(proj1 (Hs _)). ring. }
    assert (J2 : gc2 c * (sE (s X0) * sE (s X1) + sE (s X1) * sE (s X2) + sE (s X2) * sE (s X0)) - gI20 c * (gc2 c - 1) = gI l X1).
    { unfold gen_invariants. rewrite !(proj1 (Hs _)). ring. }
    assert (J3 : sE (s X0) * sE (s X1) * sE (s X2) = gI l X2).
    { unfold gen_invariants. rewrite !(proj1 (Hs _)). ring. }
    rewrite J1, J2, J3. unfold inv_call in Hg. rewrite Hg.
    destruct g as [[g1 g2] g3]. cbn [g_strain g_I g_dW g_dIdE].
    eexists. split.
    - f_equal. f_equal. f_equal. apply functional_extensionality; intro a.
      unfold sum3; cbn [o3 fst snd]. rewrite !accum_val by (intros; ring). unfold gdI;
      rewrite ?(proj1 (Hs _)), ?(proj1 (proj2 (Hs _))); ring.
    - cbn. rewrite HE, HE', HE''. repeat split.
      f_equal. f_equal; [f_equal|];  apply functional_extensionality; intro a; unfold gdI; rewrite ?(proj1 (Hs _)); ring.
  Qed.

  (** Chain rule for the invariants. *)
  Lemma gen_invariants_D l t0 dl : dcurve3 l t0 dl -> positive3 (l t0) ->
    dcurve3 (fun t => gI (l t)) t0 (fun k => sum3 (fun a => gdI (l t0) k a * (E' (l t0 a) * dl a))).
  Proof.
    intros Hl P.
    assert (HE : forall a, is_derive (fun t => E (l t a)) t0 (E' (l t0 a) * dl a)).
    { intro a. eapply D_eq; [exact (D_comp E (fun t => l t a) t0 (E' (l t0 a)) (dl a) (proj1 (proj2 (HM _ (P a)))) (Hl a))|ring]. }
    intro k. destruct k; unfold gen_invariants; cbv zeta; dsolve; unfold sum3, gdI; cbn [gb gg]; ring.
  Qed.

  Lemma gen_grad psi Dom : inv_gradient_of m psi Dom ->
    str_gradient_of (gen_model m fs c) (fun l => psi (gI l)) (fun l => positive3 l /\ Dom (gI l)).
  Proof.
    intros Hm l t0 dl Hl [P D] sv self.
    destruct (Hm (fun t => gI (l t)) t0 _ (gen_invariants_D l t0 dl Hl P) D sv) as (g & svn & Eg & Hd).
    destruct (gen_gradient_ok (l t0) sv g svn P Eg self) as (self' & Er & _).
    eexists _, svn. split; [exists self'; exact Er|].
    eapply D_eq; [exact Hd|]. unfold sum3; ring.
  Qed.

  (** Exact hessian that the code computes when dWdI3 is None. *)
  Definition gen_H (g : opt3) (h : ix6 -> option R) (l : Vec3) (v : ix6) : R :=
    let a := ga6 v in let b := gb6 v in
    (sum3 (fun i => sum3 (fun j => val (h (pos i j)) * gdI l i a * gdI l j b))
     + (if mixed v then val (o3 g X1) * gc2 c + val (o3 g X2) * gEg v else 0)) * (E' (l a) * E' (l b))
    + (if mixed v then 0 else sum3 (fun i => val (o3 g i) * gdI l i a) * E'' (l a)).

  Lemma gen_hessian_ok l sv g svn h : positive3 l ->
    inv_call m (gI l) sv = Ok (g, svn) -> inv_callh m (gI l) sv = Ok h ->
    forall self, exists self', gen_hessian m fs c l sv self = (self', Ok (fun v => Some (gen_H g h l v))).
  Proof.
    intros P Hg Hh self. destruct (gen_gradient_ok l sv g svn P Hg self) as (self' & Er & A1 & A2 & A3 & A4).
    unfold gen_hessian, bind, get, lift, attr, ret. rewrite Er. cbv beta iota. rewrite A2. cbv beta iota.
    unfold inv_callh in Hh. rewrite Hh. cbv beta iota. rewrite A4. cbv beta iota. rewrite A1. cbv beta iota.
    rewrite A3. cbv beta iota.
    destruct g as [[g1 g2] g3].
    eexists. f_equal. f_equal. apply functional_extensionality; intro v. f_equal.
    unfold gen_H, sum3. cbn [pos o3 fst snd].
    repeat rewrite accum_val by (try destruct (mixed v); ring).
    destruct (mixed v); ring.
  Qed.

  Lemma gen_gradient_raise l sv e : positive3 l -> inv_call m (gI l) sv = Raise e ->
    forall self, exists self', gen_gradient m fs c l sv self = (self', Raise e).
  Proof.
    intros P Hg self. destruct (strain3_ok _ _ _ _ l HM P) as (s & Es & Hs).
    unfold gen_gradient, bind, lift, get, put, ret. rewrite Es.
    assert (J1 : gc1 c * (sE (s X0) + sE (s X1) + sE (s X2)) - gI10 c * (gc1 c - 1) = gI l X0).
    { unfold gen_invariants. rewrite !(proj1 (Hs _)). ring. }
    assert (J2 : gc2 c * (sE (s X0) * sE (s X1) + sE (s X1) * sE (s X2) + sE (s X2) * sE (s X0)) - gI20 c * (gc2 c - 1) = gI l X1).
    { unfold gen_invariants. rewrite !(proj1 (Hs _)). ring. }
    assert (J3 : sE (s X0) * sE (s X1) * sE (s X2) = gI l X2).
    { unfold gen_invariants. rewrite !(proj1 (Hs _)). ring. }
    rewrite J1, J2, J3. unfold inv_call in Hg. rewrite Hg. eexists; reflexivity.
  Qed.
  Lemma gen_gradient_inv l sv self G svn : positive3 l -> returns (gen_gradient m fs c l sv) self (G, svn) ->
    exists g, inv_call m (gI l) sv = Ok (g, svn) /\
      G = (fun a => sum3 (fun k => val (o3 g k) * gdI l k a) * E' (l a)).
  Proof.
    intros P [self' R]. destruct (inv_call m (gI l) sv) as [[g svn']|e] eqn:Eg.
    - destruct (gen_gradient_ok l sv g svn' P Eg self) as (self2 & Er & _).
      rewrite R in Er. injection Er as _ -> ->. eauto.
    - destruct (gen_gradient_raise l sv e P Eg self) as (self2 & Er). congruence.
  Qed.

  Definition dW3_zero (J : Vec3) : Prop := forall sv g svn, inv_call m J sv = Ok (g, svn) -> val (o3 g X2) = 0.

  Lemma positive3_loc (l : R -> Vec3) t0 dl : dcurve3 l t0 dl -> positive3 (l t0) -> locally t0 (fun t => positive3 (l t)).
  Proof.
    intros Hl P.
    assert (H := fun a => locally_pos (fun t => l t a) t0 (dl a) (Hl a) (P a)).
    generalize (filter_and _ _ (H X0) (filter_and _ _ (H X1) (H X2))). apply filter_imp.
    intros t (H0 & H1 & H2) a. destruct a; auto.
  Qed.

  (** Derivative of the values returned by gradient, for any model. *)
  Definition gen_dG (g : opt3) (h : ix6 -> option R) (l dl : Vec3) (k : ix3) : R :=
    let dJ i := sum3 (fun a => gdI l i a * (E' (l a) * dl a)) in
    let dE a := E' (l a) * dl a in
    (sum3 (fun i => sum3 (fun j => val (h (pos i j)) * dJ j) * gdI l i k)
     + val (o3 g X1) * (gc2 c * (dE (gb k) + dE (gg k)))
     + val (o3 g X2) * (dE (gb k) * E (l (gg k)) + E (l (gb k)) * dE (gg k))) * E' (l k)
    + sum3 (fun i => val (o3 g i) * gdI l i k) * (E'' (l k) * dl k).

  Lemma gen_dG_ok Dom : inv_hessian_of m Dom ->
    forall l t0 dl, dcurve3 l t0 dl -> positive3 (l t0) -> Dom (gI (l t0)) ->
    forall sv, exists h, inv_callh m (gI (l t0)) sv = Ok h /\
    forall svt st G, locally t0 (fun t => exists svn, returns (gen_gradient m fs c (l t) (svt t)) (st t) (G t, svn)) ->
    exists g svn, inv_call m (gI (l t0)) (svt t0) = Ok (g, svn) /\
    forall k, is_derive (fun t => G t k) t0 (gen_dG g h (l t0) dl k).
  Proof.
    intros Hm l t0 dl Hl P D sv.
    destruct (Hm _ t0 _ (gen_invariants_D l t0 dl Hl P) D sv) as (h & Eh & Hd).
    exists h. split; [exact Eh|]. intros svt st G HG.
    assert (HE : forall a, is_derive (fun t => E (l t a)) t0 (E' (l t0 a) * dl a)).
    { intro a. eapply D_eq; [exact (D_comp E (fun t => l t a) t0 (E' (l t0 a)) (dl a) (proj1 (proj2 (HM _ (P a)))) (Hl a))|ring]. }
    assert (HE' : forall a, is_derive (fun t => E' (l t a)) t0 (E'' (l t0 a) * dl a)).
    { intro a. eapply D_eq; [exact (D_comp E' (fun t => l t a) t0 (E'' (l t0 a)) (dl a) (proj2 (proj2 (HM _ (P a)))) (Hl a))|ring]. }
    set (Gm := fun t => match inv_call m (gI (l t)) (svt t) with Ok (g, _) => g | Raise _ => (None, None, None) end).
    assert (HL : locally t0 (fun t => exists svn, inv_call m (gI (l t)) (svt t) = Ok (Gm t, svn) /\
        G t = (fun a => sum3 (fun k => val (o3 (Gm t) k) * gdI (l t) k a) * E' (l t a)))).
    { generalize (filter_and _ _ HG (positive3_loc l t0 dl Hl P)). apply filter_imp.
      intros t ((svn & R) & Pt). destruct (gen_gradient_inv _ _ _ _ _ Pt R) as (g & Eg & EG).
      exists svn. unfold Gm. rewrite Eg. auto. }
    assert (HL1 : locally t0 (fun t => exists svn, inv_call m (gI (l t)) (svt t) = Ok (Gm t, svn))).
    { revert HL. apply filter_imp. intros t (svn & H & _); eauto. }
    specialize (Hd svt Gm HL1).
    destruct (locally_singleton _ _ HL1) as (svn & E0).
    exists (Gm t0), svn. split; [exact E0|]. intro k.
    apply D_ext_loc with (fun t => sum3 (fun i => val (o3 (Gm t) i) * gdI (l t) i k) * E' (l t k)).
    { revert HL. apply filter_imp. intros t (? & _ & ->). reflexivity. }
    assert (HdI : forall i, is_derive (fun t => gdI (l t) i k) t0
       (match i with X0 => 0 | X1 => gc2 c * (E' (l t0 (gb k)) * dl (gb k) + E' (l t0 (gg k)) * dl (gg k))
        | X2 => E' (l t0 (gb k)) * dl (gb k) * E (l t0 (gg k)) + E (l t0 (gb k)) * (E' (l t0 (gg k)) * dl (gg k)) end)).
    { intro i. destruct i; unfold gdI.
      - apply D_const.
      - dsolve; ring.
      - dsolve; ring. }
    eapply D_eq.
    { apply D_mult; [|apply HE'].
      apply (D_sum3 (fun t i => val (o3 (Gm t) i) * gdI (l t) i k)). intro i.
      apply D_mult; [apply Hd|apply HdI]. }
    unfold gen_dG. cbv beta zeta. unfold sum3. cbn [pos]. ring.
  Qed.

  Lemma gen_hess_partial psi Dom : inv_gradient_of m psi Dom -> inv_hessian_of m Dom ->
    str_hessian_of (gen_model m fs c) (fun l => positive3 l /\ Dom (gI l) /\ dW3_zero (gI l)).
  Proof.
    intros Hg Hm l t0 dl Hl (P & D & Z) sv self.
    destruct (inv_gradient_exists m psi Dom Hg _ D sv) as (g0 & svn0 & E0).
    destruct (gen_dG_ok Dom Hm l t0 dl Hl P D sv) as (h & Eh & Hd).
    exists (fun v => Some (gen_H g0 h (l t0) v)). split.
    { destruct (gen_hessian_ok (l t0) sv g0 svn0 h P E0 Eh self) as (self' & Er). exists self'; exact Er. }
    intros svt st G HG k. destruct (Hd svt st G HG) as (g & svn & Eg & HD).
    eapply D_eq; [apply HD|].
    assert (U := inv_gradient_unique m psi Dom Hg _ D _ _ _ _ _ _ Eg E0).
    assert (Z0 := Z _ _ _ E0).
    unfold gen_dG, gen_H. cbv zeta. unfold sum3. rewrite !U, Z0.
    destruct k; cbn [pos ga6 gb6 mixed val gb gg gEg gdI]; ring.
  Qed.
End G.

(** *** The library's strain measures *)
Lemma strain_measure k : k <> 0 ->
  measure_of (strain_fun k) (fun l => sth_E l k) (fun l => sth_dE l k) (fun l => sth_d2E l k).
Proof.
  intros Hk l P. split; [|apply (strain_D l k P Hk)].
  unfold strain_fun. destruct (nonzero k) eqn:E; [|rewrite nonzero_false in E; contradiction].
  exists (strain l k); cbn; auto.
Qed.
Lemma deformation_measure k :
  measure_of (deformation_fun k) (fun l => def_C l k) (fun l => def_dC l k) (fun l => def_d2C l k).
Proof. intros l P. split; [|apply (deformation_D l k P)]. exists (deformation l k); cbn; auto. Qed.

Lemma gen_init_deformation k : k <> 0 ->
  gen_init (deformation_fun k) =
    Ok {| gc1 := 4 / k ^ 2; gc2 := 4 / k ^ 2; gI10 := 3; gI20 := 3; gI30 := 1 |}.
Proof.
  intro Hk. unfold gen_init, deformation_fun; cbn [rbind sE sdE sd2E sE0 sdE0 sd2E0 deformation].
  unfold def_C, def_dC, def_d2C. rewrite !Rpower_1_l.
  assert (k * k <> 0) by (apply Rmult_integral_contrapositive; auto).
  destruct (nonzero (3 / 2 * (k * (k - 1) * 1 + k * 1))) eqn:E1.
  2:{ rewrite nonzero_false in E1. exfalso; lra. }
  destruct (nonzero (3 * (k * (k - 1) * 1 + k * 1) * 1 - 3 / 2 * (k * 1) ^ 2)) eqn:E2.
  2:{ rewrite nonzero_false in E2. exfalso; lra. }
  f_equal. f_equal; try lra.
  - field. split; auto. intro; apply H; lra.
  - field. split; auto. intro; apply H; lra.
Qed.
Lemma gen_init_strain k : k <> 0 ->
  gen_init (strain_fun k) =
    Ok {| gc1 := 2 / k; gc2 := 1; gI10 := 0; gI20 := 0; gI30 := 0 |}.
Proof.
  intro Hk. unfold gen_init, strain_fun.
  destruct (nonzero k) eqn:E; [|rewrite nonzero_false in E; contradiction].
  cbn [rbind sE sdE sd2E sE0 sdE0 sd2E0 strain].
  unfold sth_E, sth_dE, sth_d2E. rewrite !Rpower_1_l.
  replace ((1 - 1) / k) with 0 by (field; auto).
  destruct (nonzero (3 / 2 * ((k - 1) * 1 + 1))) eqn:E1.
  2:{ rewrite nonzero_false in E1. exfalso; lra. }
  destruct (nonzero (3 * ((k - 1) * 1 + 1) * 0 - 3 / 2 * 1 ^ 2)) eqn:E2.
  2:{ rewrite nonzero_false in E2. exfalso; lra. }
  f_equal. f_equal; try lra; field; auto.
Qed.
Lemma gen_init_deformation_0 : gen_init (deformation_fun 0) = Raise ZeroDivisionError.
Proof.
  unfold gen_init, deformation_fun; cbn [rbind sE sdE sd2E sE0 sdE0 sd2E0 deformation].
  unfold def_C, def_dC, def_d2C.
  destruct (nonzero (3 / 2 * (0 * (0 - 1) * Rpower 1 (0 - 2) + 0 * Rpower 1 (0 - 1)))) eqn:E1; [|reflexivity].
  rewrite nonzero_true in E1. exfalso; apply E1; ring.
Qed.
Lemma gen_init_strain_0 : gen_init (strain_fun 0) = Raise ZeroDivisionError.
Proof. unfold gen_init, strain_fun, nonzero. destruct (Req_EM_T 0 0); [reflexivity|congruence]. Qed.

(** *** Isochoric paths through the undeformed state *)
Lemma locally_R (P : R -> Prop) (t : R) : locally t P -> locally t (fun x => locally x P).
Proof. apply locally_locally. Qed.
Lemma isochoric_facts l dl ddl : isochoric_path l dl ddl ->
  dl 1 X0 + dl 1 X1 + dl 1 X2 = 0 /\
  ddl X0 + ddl X1 + ddl X2 = dl 1 X0 ^ 2 + dl 1 X1 ^ 2 + dl 1 X2 ^ 2.
Proof.
  intros (L1 & HD & HD2 & HV).
  assert (Hz : locally 1 (fun t => (dl t X0 * l t X1 + l t X0 * dl t X1) * l t X2 + l t X0 * l t X1 * dl t X2 = 0)).
  { generalize (filter_and _ _ HD (locally_R _ _ HV)). apply filter_imp. intros t (Ht & HVt).
    assert (A : is_derive (fun t => l t X0 * l t X1 * l t X2) t
       ((dl t X0 * l t X1 + l t X0 * dl t X1) * l t X2 + l t X0 * l t X1 * dl t X2)).
    { dsolve. ring. }
    assert (B : is_derive (fun t => l t X0 * l t X1 * l t X2) t 0).
    { apply D_ext_loc with (fun _ => 1); [|apply D_const].
      revert HVt; apply filter_imp; auto. }
    apply is_derive_unique in A, B. rewrite <- A. exact B. }
  assert (S1 : dl 1 X0 + dl 1 X1 + dl 1 X2 = 0).
  { generalize (locally_singleton _ _ Hz). rewrite !L1. lra. }
  split; [exact S1|].
  assert (HD1 : dcurve3 l 1 (dl 1)) by exact (locally_singleton _ _ HD).
  assert (A : is_derive (fun t => (dl t X0 * l t X1 + l t X0 * dl t X1) * l t X2 + l t X0 * l t X1 * dl t X2) 1
     (ddl X0 + ddl X1 + ddl X2 + 2 * (dl 1 X0 * dl 1 X1 + dl 1 X1 * dl 1 X2 + dl 1 X2 * dl 1 X0))).
  { dsolve. rewrite !L1. ring. }
  assert (B : is_derive (fun t => (dl t X0 * l t X1 + l t X0 * dl t X1) * l t X2 + l t X0 * l t X1 * dl t X2) 1 0).
  { apply D_ext_loc with (fun _ => 0); [|apply D_const].
    revert Hz; apply filter_imp; auto. }
  apply is_derive_unique in A, B. rewrite A in B.
  replace (dl 1 X2) with (- dl 1 X0 - dl 1 X1) in * by lra. lra.
Qed.

(** Slope of the force along an isochoric path, for any strain measure with constants
    from __init__. *)
Section Stiff.
  Context {SV : Type} (m : InvModel SV) (fs : R -> Result StrainVal) (c : GenConst).
  Context (E E' E'' : R -> R) (HM : measure_of fs E E' E'').
  Lemma stiffness_gen psi Dom l dl ddl g svn sv0 :
    inv_gradient_of m psi Dom -> inv_hessian_of m Dom -> isochoric_path l dl ddl ->
    Dom (gen_invariants E c (fun _ => 1)) -> inv_call m (gen_invariants E c (fun _ => 1)) sv0 = Ok (g, svn) ->
    forall svt st G,
    locally 1 (fun t => exists svn, returns (gen_gradient m fs c (l t) (svt t)) (st t) (G t, svn)) ->
    is_derive (fun t => sum3 (fun a => G t a * dl t a)) 1
      ((dl 1 X0 ^ 2 + dl 1 X1 ^ 2 + dl 1 X2 ^ 2) *
       (val (o3 g X0) * (gc1 c * (E' 1 + E'' 1))
        + val (o3 g X1) * (gc2 c * (2 * E 1 * (E' 1 + E'' 1) - E' 1 ^ 2))
        + val (o3 g X2) * (E 1 ^ 2 * (E' 1 + E'' 1) - E 1 * E' 1 ^ 2))).
  Proof.
    intros Hg Hh HI D E0 svt st G HG.
    destruct (isochoric_facts _ _ _ HI) as (S1 & S2).
    destruct HI as (L1 & HD & HD2 & _).
    assert (El : l 1 = (fun _ => 1)) by (apply functional_extensionality; exact L1).
    assert (HD1 : dcurve3 l 1 (dl 1)) by exact (locally_singleton _ _ HD).
    assert (P : positive3 (l 1)) by (intro a; rewrite L1; lra).
    assert (D' : Dom (gen_invariants E c (l 1))) by (rewrite El; exact D).
    destruct (gen_dG_ok m fs c E E' E'' HM Dom Hh l 1 (dl 1) HD1 P D' sv0) as (h & _ & Hd).
    destruct (Hd svt st G HG) as (g' & svn' & Eg' & HG').
    rewrite El in Eg'.
    assert (U := inv_gradient_unique m psi Dom Hg _ D _ _ _ _ _ _ Eg' E0).
    destruct (locally_singleton _ _ HG) as (svn1 & R1).
    destruct (gen_gradient_inv m fs c E E' E'' HM _ _ _ _ _ P R1) as (g1 & Eg1 & EG1).
    rewrite El in Eg1. assert (U1 := inv_gradient_unique m psi Dom Hg _ D _ _ _ _ _ _ Eg1 E0).
    unfold sum3 at 1.
    eapply D_eq; [repeat dstep|].
    rewrite EG1. unfold gen_dG. cbv zeta. unfold sum3. rewrite !El, !U, !U1. cbn [gdI gb gg].
    set (a := dl 1 X0) in *. set (b := dl 1 X1) in *. set (d := dl 1 X2) in *.
    replace d with (- a - b) in * by lra.
    replace (ddl X2) with (a ^ 2 + b ^ 2 + (- a - b) ^ 2 - ddl X0 - ddl X1) by lra.
    ring.
  Qed.
End Stiff.

Lemma Rpower_path_D (k t : R) : 0 < t -> is_derive (fun t => Rpower t k) t (k * Rpower t (k - 1)).
Proof. apply D_Rpower. Qed.

Lemma near_pos : locally 1 (fun t => 0 < t).
Proof. apply (open_gt 0); lra. Qed.
Lemma Rpower_m1 t : 0 < t -> t * Rpower t (-1) = 1.
Proof. intro P. rewrite <- (Rpower_1 t) at 1 by auto. rewrite <- Rpower_plus.
  replace (1 + -1) with 0 by ring. apply Rpower_O; auto. Qed.
Ltac lc_D := intro; let a := fresh in match goal with a : ix3 |- _ => destruct a end;
  first [apply D_const | apply D_id | apply D_scal, D_Rpower; lra | apply D_Rpower; assumption].
Lemma loadcases_isochoric :
  (exists dd, isochoric_path lc_uniaxial d_uniaxial dd) /\
  (exists dd, isochoric_path lc_planar d_planar dd) /\
  (exists dd, isochoric_path lc_biaxial d_biaxial dd).
Proof.
  split; [|split].
  - exists (fun a => match a with X0 => 0 | _ => -1/2 * ((-1/2 - 1) * Rpower 1 (-1/2 - 1 - 1)) end).
    split; [intro a; destruct a; cbn; rewrite ?Rpower_1_l; reflexivity|].
    split; [generalize near_pos; apply filter_imp; intros t P a; destruct a; unfold lc_uniaxial, d_uniaxial;
      [apply D_id|apply D_Rpower; auto|apply D_Rpower; auto]|].
    split; [intro a; destruct a; unfold d_uniaxial; [apply D_const|apply D_scal, D_Rpower; lra|apply D_scal, D_Rpower; lra]|].
    generalize near_pos; apply filter_imp; intros t P. unfold lc_uniaxial.
    rewrite Rmult_assoc, <- Rpower_plus. replace (-1/2 + -1/2) with (-1) by field. apply Rpower_m1; auto.
  - exists (fun a => match a with X2 => -1 * ((-1 - 1) * Rpower 1 (-1 - 1 - 1)) | _ => 0 end).
    split; [intro a; destruct a; cbn; rewrite ?Rpower_1_l; reflexivity|].
    split; [generalize near_pos; apply filter_imp; intros t P a; destruct a; unfold lc_planar, d_planar;
      [apply D_id|apply D_const|apply D_Rpower; auto]|].
    split; [intro a; destruct a; unfold d_planar; [apply D_const|apply D_const|apply D_scal, D_Rpower; lra]|].
    generalize near_pos; apply filter_imp; intros t P. unfold lc_planar. rewrite Rmult_1_r. apply Rpower_m1; auto.
  - exists (fun a => match a with X2 => -2 * ((-2 - 1) * Rpower 1 (-2 - 1 - 1)) | _ => 0 end).
    split; [intro a; destruct a; cbn; rewrite ?Rpower_1_l; reflexivity|].
    split; [generalize near_pos; apply filter_imp; intros t P a; destruct a; unfold lc_biaxial, d_biaxial;
      [apply D_id|apply D_id|apply D_Rpower; auto]|].
    split; [intro a; destruct a; unfold d_biaxial; [apply D_const|apply D_const|apply D_scal, D_Rpower; lra]|].
    generalize near_pos; apply filter_imp; intros t P. unfold lc_biaxial.
    replace (-2) with (-1 + -1) by ring. rewrite Rpower_plus.
    transitivity ((t * Rpower t (-1)) * (t * Rpower t (-1))); [ring|]. rewrite Rpower_m1; auto. ring.
Qed.

Lemma stiffness_deformation {SV} (m : InvModel SV) psi Dom k c l dl ddl g svn sv0 :
  k <> 0 -> gen_init (deformation_fun k) = Ok c ->
  inv_gradient_of m psi Dom -> inv_hessian_of m Dom -> Dom (vec3 3 3 1) ->
  inv_call m (vec3 3 3 1) sv0 = Ok (g, svn) ->
  isochoric_path l dl ddl ->
  forall svt st G,
  locally 1 (fun t => exists svn, returns (gen_gradient m (deformation_fun k) c (l t) (svt t)) (st t) (G t, svn)) ->
  is_derive (fun t => sum3 (fun a => G t a * dl t a)) 1
    ((dl 1 X0 ^ 2 + dl 1 X1 ^ 2 + dl 1 X2 ^ 2) * (4 * (val (o3 g X0) + val (o3 g X1)))).
Proof.
  intros Hk Hc Hg Hh D E0 HI svt st G HG.
  rewrite gen_init_deformation in Hc by auto. injection Hc as <-.
  set (c := {| gc1 := _ |}) in *.
  assert (EI : gen_invariants (fun l => def_C l k) c (fun _ => 1) = vec3 3 3 1).
  { apply functional_extensionality; intro i. destruct i; unfold gen_invariants, def_C, vec3, c; cbn [gc1 gc2 gI10 gI20];
    rewrite Rpower_1_l; field; auto. }
  eapply D_eq.
  { eapply (stiffness_gen m (deformation_fun k) c _ _ _ (deformation_measure k) psi Dom l dl ddl g svn sv0);
    eauto; rewrite EI; auto. }
  unfold def_C, def_dC, def_d2C, c; cbn [gc1 gc2]. rewrite !Rpower_1_l. field; auto.
Qed.
Lemma stiffness_strain {SV} (m : InvModel SV) psi Dom k c l dl ddl g svn sv0 :
  k <> 0 -> gen_init (strain_fun k) = Ok c ->
  inv_gradient_of m psi Dom -> inv_hessian_of m Dom -> Dom (vec3 0 0 0) ->
  inv_call m (vec3 0 0 0) sv0 = Ok (g, svn) ->
  isochoric_path l dl ddl ->
  forall svt st G,
  locally 1 (fun t => exists svn, returns (gen_gradient m (strain_fun k) c (l t) (svt t)) (st t) (G t, svn)) ->
  is_derive (fun t => sum3 (fun a => G t a * dl t a)) 1
    ((dl 1 X0 ^ 2 + dl 1 X1 ^ 2 + dl 1 X2 ^ 2) * (2 * val (o3 g X0) - val (o3 g X1))).
Proof.
  intros Hk Hc Hg Hh D E0 HI svt st G HG.
  rewrite gen_init_strain in Hc by auto. injection Hc as <-.
  set (c := {| gc1 := _ |}) in *.
  assert (EI : gen_invariants (fun l => sth_E l k) c (fun _ => 1) = vec3 0 0 0).
  { apply functional_extensionality; intro i. destruct i; unfold gen_invariants, sth_E, vec3, c; cbn [gc1 gc2 gI10 gI20];
    rewrite Rpower_1_l; field; auto. }
  eapply D_eq.
  { eapply (stiffness_gen m (strain_fun k) c _ _ _ (strain_measure k Hk) psi Dom l dl ddl g svn sv0);
    eauto; rewrite EI; auto. }
  unfold sth_E, sth_dE, sth_d2E, c; cbn [gc1 gc2]. rewrite !Rpower_1_l. field; auto.
Qed.

(** *** The hessian is wrong when dWdI3 is given (line 288) *)
Definition volumetric : InvModel unit :=   (* psi = I3 *)
  {| im_gradient := fun I1 I2 I3 sv => Ok (None, None, Some 1, sv);
     im_hessian := fun I1 I2 I3 sv => Ok (fun _ => None) |}.
Lemma volumetric_grad : inv_gradient_of volumetric (fun J => J X2) everywhere.
Proof. intros I t0 dI HI _ sv. exists (None, None, Some 1), sv. split; [reflexivity|].
  unfold sum3; cbn. eapply D_eq; [apply HI|ring]. Qed.
Lemma volumetric_hess : inv_hessian_of volumetric everywhere.
Proof. intros I t0 dI HI _ sv. exists (fun _ => None). split; [reflexivity|].
  intros svt G HG k. apply D_ext_loc with (fun _ => match k with X2 => 1 | _ => 0 end).
  { revert HG; apply filter_imp. intros t (svn & E). cbn in E. injection E as <- _. destruct k; reflexivity. }
  unfold sum3; cbn. eapply D_eq; [apply D_const|ring]. Qed.

Lemma gen_hessian_wrong : exists c, gen_init (deformation_fun 2) = Ok c /\
  ~ str_hessian_of (gen_model volumetric (deformation_fun 2) c) positive3.
Proof.
  eexists. split; [apply gen_init_deformation; lra|]. set (c := {| gc1 := _ |}). intro H.
  set (l := fun t a => match a with X1 => 1 + t | _ => 1 end : R).
  set (dl := fun a => match a with X1 => 1 | _ => 0 end : R).
  assert (Hl : dcurve3 l 0 dl).
  { intro a; destruct a; unfold l, dl; [apply D_const| |apply D_const].
    eapply D_eq; [apply D_plus; [apply D_const|apply D_id]|ring]. }
  assert (P : positive3 (l 0)) by (intro a; destruct a; unfold l; lra).
  destruct (H l 0 dl Hl P tt gen_self0) as (h & (s' & Eh) & Hd).
  assert (Vh := gen_hessian_ok volumetric (deformation_fun 2) c _ _ _ (deformation_measure 2) (l 0) tt
      (None, None, Some 1) tt (fun _ => None) P eq_refl eq_refl gen_self0).
  destruct Vh as (s2 & Vh). cbn [gen_model sm_hessian] in Eh. rewrite Eh in Vh. injection Vh as _ ->.
  set (E := fun l => def_C l 2) in *. set (E' := fun l => def_dC l 2) in *.
  specialize (Hd (fun _ => tt) (fun _ => gen_self0)
    (fun t a => sum3 (fun k => val (o3 (None, None, Some 1) k) * gdI c E (l t) k a) * E' (l t a))).
  assert (HL : locally 0 (fun t => positive3 (l t))).
  { apply (positive3_loc l 0 dl Hl P). }
  match type of Hd with ?X -> _ => assert (HX : X) end.
  { revert HL; apply filter_imp. intros t Pt.
    destruct (gen_gradient_ok volumetric (deformation_fun 2) c _ _ _ (deformation_measure 2) (l t) tt
      (None, None, Some 1) tt Pt eq_refl gen_self0) as (s & Er & _).
    exists tt, s. exact Er. }
  assert (Hd' := Hd HX X0). clear Hd HX.
  assert (A : is_derive (fun t => sum3 (fun k => val (o3 (None, None, Some 1) k) * gdI c E (l t) k X0) * E' (l t X0)) 0 4).
  { apply D_ext_loc with (fun t => 2 * (1 + t) ^ 2).
    - revert HL; apply filter_imp; intros t Pt. specialize (Pt X1). unfold l in Pt.
      unfold sum3; cbn. unfold E, E', def_C, def_dC. rewrite !Rpower_1_l.
      rewrite Rpower_2 by auto. ring.
    - eapply D_eq. repeat dstep. apply D_id. cbn beta. ring. }
  apply is_derive_unique in A, Hd'. rewrite A in Hd'. revert Hd'.
  cbv [sum3 gen_H gdI pos mixed ga6 gb6 gb gg gEg val o3 fst snd]. unfold E', E, def_C, def_dC, dl, l. rewrite !Rplus_0_r, !Rpower_1_l. intro Hx. lra.
Qed.
Lemma gen_hessian_refuted : exists (m : InvModel unit) psi c,
  inv_gradient_of m psi everywhere /\ inv_hessian_of m everywhere /\
  gen_init (deformation_fun 2) = Ok c /\
  ~ str_hessian_of (gen_model m (deformation_fun 2) c) positive3.
Proof. destruct gen_hessian_wrong as (c & H1 & H2). exists volumetric, (fun J => J X2), c.
  auto using volumetric_grad, volumetric_hess. Qed.
Lemma loadcase_factors :
  let q d := d X0 ^ 2 + d X1 ^ 2 + d X2 ^ 2 in
  q (d_uniaxial 1) = 3 / 2 /\ q (d_planar 1) = 2 /\ q (d_biaxial 1) = 6.
Proof. cbn. unfold d_uniaxial, d_planar, d_biaxial. rewrite !Rpower_1_l. lra. Qed.
Lemma gen_example k m c : k <> 0 -> gen_init (deformation_fun k) = Ok c ->
  (exists g svn, inv_call (tod_model m) (vec3 3 3 1) tt = Ok (g, svn)) /\
  exists G, locally 1 (fun t => exists svn,
    returns (sm_gradient (gen_model (tod_model m) (deformation_fun k) c) (lc_uniaxial t) tt) gen_self0 (G t, svn)).
Proof.
  intros Hk Hc. split.
  - destruct (tod_call m (vec3 3 3 1) tt) as (g & E & _). eauto.
  - exists (fun t => match gen_gradient (tod_model m) (deformation_fun k) c (lc_uniaxial t) tt gen_self0 with
      | (_, Ok (G, _)) => G | _ => fun _ => 0 end).
    generalize near_pos; apply filter_imp; intros t P.
    assert (Pt : positive3 (lc_uniaxial t)).
    { intro a; destruct a; unfold lc_uniaxial; auto; unfold Rpower; apply exp_pos. }
    destruct (tod_call m (gen_invariants (fun l => def_C l k) c (lc_uniaxial t)) tt) as (g & E & _).
    destruct (gen_gradient_ok _ _ c _ _ _ (deformation_measure k) _ tt g tt Pt E gen_self0) as (s' & Er & _).
    exists tt, s'. cbn [sm_gradient gen_model]. rewrite Er. reflexivity.
Qed.
