(** The coefficient for repeated stretches is the limit of the one for distinct stretches (C20). *)
From Coq Require Import Reals Lra List Bool FunctionalExtensionality.
From Coquelicot Require Import Coquelicot.
From Verif Require Import Tensor Py Voigt VoigtProofs Algebra Calc Models Frameworks Spaces Spec VCalc EighProofs EigCore ContR EigPath StrCore StrProofs StrHess IsoProofs StrIso.
Local Open Scope R_scope.

Lemma exchange_swap3 a b c : exchange a b c = swap3 a b c.
Proof. reflexivity. Qed.

(** shear component in the eigenbasis *)
Lemma shear_plus A B n k : shear (fun i j p q => A i j p q + B i j p q) n k = shear A n k + shear B n k.
Proof. unfold shear, sum3; ring. Qed.
Lemma shear_scal a A n k : shear (fun i j p q => a * A i j p q) n k = a * shear A n k.
Proof. unfold shear, sum3; ring. Qed.
Lemma shear_dyad (A B : T2) n k : shear (fun i j p q => A i j * B p q) n k =
  sum3 (fun i => sum3 (fun j => n i * A i j * k j)) * sum3 (fun p => sum3 (fun q => n p * B p q * k q)).
Proof. unfold shear, sum3; ring. Qed.
Lemma shear_Hf D f v a b : (forall a b, sum3 (fun i => v i a * v i b) = delta a b) -> a <> b ->
  forall w, shear (Hf D f v) (column v a) (column v b) = fs w f a b / 2.
Proof.
  intros O N w.
  assert (B : forall c, sum3 (fun i => sum3 (fun j => column v a i * base v c i j * column v b j)) = 0).
  { intro c. transitivity (sum3 (fun i => v i a * v i c) * sum3 (fun j => v j c * v j b)).
    - unfold column, base, sum3; ring.
    - rewrite !O. unfold delta. destruct a, b, c; cbn; try congruence; ring. }
  assert (P : forall x y, shear (fun i j p q => base v x i j * base v y p q) (column v a) (column v b) = 0).
  { intros. rewrite shear_dyad, !B. ring. }
  assert (Cd : forall c d, shear (fun i j p q => cdya_spec (base v c) (base v d) i j p q) (column v a) (column v b) =
     ((delta a c * delta b d) ^ 2 + (delta a d * delta b c) ^ 2 + 2 * (delta a c * delta a d) * (delta b c * delta b d)) / 4).
  { intros c d. rewrite <- !O. unfold shear, cdya_spec, base, column, sum3. field. }
  unfold Hf, sum3. repeat first [rewrite shear_plus | rewrite shear_scal]. rewrite !P, !Cd.
  unfold delta. destruct a, b; cbn [ix3_eqb]; try congruence; cbn [fs]; field.
Qed.

(** Continuity of the coefficient formulas. *)
Definition phi1 (p : R * (R * (R * (R * R)))) : R :=
  match p with (c, (haa, (hab, (g, s)))) => ((haa - hab) / (2 * c) - g / (2 * c ^ 2)) / s end.
Definition phi2 (p : R * (R * (R * (R * R)))) : R :=
  match p with (la, (lb, (hbb, (hab, g)))) => hbb / (4 * lb * lb) - g / (2 * lb) / (2 * lb ^ 2) - hab / (4 * la * lb) end.
Section Cont.
  Context {U : UniformSpace}.
  Lemma cn_mult (f g : U -> R) x : continuous f x -> continuous g x -> continuous (fun y => f y * g y) x.
  Proof. intros. apply (continuous_mult f g); auto. Qed.
  Lemma cn_minus (f g : U -> R) x : continuous f x -> continuous g x -> continuous (fun y => f y - g y) x.
  Proof. intros. apply (continuous_minus f g); auto. Qed.
  Lemma cn_inv (f : U -> R) x : continuous f x -> f x <> 0 -> continuous (fun y => / f y) x.
  Proof. intros. apply (continuous_comp f Rinv); auto. apply continuous_Rinv; auto. Qed.
  Lemma cn_div (f g : U -> R) x : continuous f x -> continuous g x -> g x <> 0 -> continuous (fun y => f y / g y) x.
  Proof. intros. apply cn_mult; auto. apply cn_inv; auto. Qed.
  Lemma cn_pow2 (f : U -> R) x : continuous f x -> continuous (fun y => f y ^ 2) x.
  Proof. intros. apply continuous_ext with (fun y => f y * f y); [intro y; exact (Rsqr_pow2 (f y))|]. apply cn_mult; auto. Qed.
End Cont.
Definition P5 : UniformSpace := prod_UniformSpace R_UniformSpace (prod_UniformSpace R_UniformSpace (prod_UniformSpace R_UniformSpace (prod_UniformSpace R_UniformSpace R_UniformSpace))).
Lemma c_fst (U V : UniformSpace) (W : UniformSpace) (f : W -> prod_UniformSpace U V) (x : W) : continuous f x -> continuous (fun y => fst (f y)) x.
Proof. intros H. apply (continuous_comp f fst); auto. apply continuous_fst. Qed.
Lemma c_snd (U V : UniformSpace) (W : UniformSpace) (f : W -> prod_UniformSpace U V) (x : W) : continuous f x -> continuous (fun y => snd (f y)) x.
Proof. intros H. apply (continuous_comp f snd); auto. apply continuous_snd. Qed.
Ltac proj5 := repeat first [apply continuous_id | apply continuous_const | apply c_fst | apply c_snd].
Lemma phi1_cont (p : P5) : fst p <> 0 -> snd (snd (snd (snd p))) <> 0 -> continuous (phi1 : P5 -> R_UniformSpace) p.
Proof.
  intros H1 H2. destruct p as [c [haa [hab [g t]]]]; cbn in H1, H2.
  apply continuous_ext with (fun p : P5 => ((fst (snd p) - fst (snd (snd p))) / (2 * fst p) - fst (snd (snd (snd p))) / (2 * fst p ^ 2)) / snd (snd (snd (snd p)))).
  { intros [? [? [? [? ?]]]]. reflexivity. }
  apply cn_div; [|proj5|exact H2].
  apply cn_minus; apply cn_div; cbn [fst snd].
  - apply cn_minus; proj5.
  - apply cn_mult; proj5.
  - lra.
  - proj5.
  - apply cn_mult; [proj5|]. apply cn_pow2. proj5.
  - pose proof (pow_nonzero c 2 H1). lra.
Qed.
Lemma phi2_cont (p : P5) : fst p <> 0 -> fst (snd p) <> 0 -> continuous (phi2 : P5 -> R_UniformSpace) p.
Proof.
  intros H1 H2. destruct p as [la [lb [hbb [hab g]]]]; cbn in H1, H2.
  apply continuous_ext with (fun p : P5 => fst (snd (snd p)) / (4 * fst (snd p) * fst (snd p)) - snd (snd (snd (snd p))) / (2 * fst (snd p)) / (2 * fst (snd p) ^ 2) - fst (snd (snd (snd p))) / (4 * fst p * fst (snd p))).
  { intros [? [? [? [? ?]]]]. reflexivity. }
  assert (lb ^ 2 <> 0) by (apply pow_nonzero; auto). assert (lb * lb <> 0) by (apply Rmult_integral_contrapositive; auto). assert (la * lb <> 0) by (apply Rmult_integral_contrapositive; auto).
  apply cn_minus; [apply cn_minus|].
  - apply cn_div; [proj5| |cbn; nra]. apply cn_mult; [apply cn_mult|]; proj5.
  - apply cn_div; [apply cn_div| |cbn [fst snd]; lra]; [proj5| |cbn [fst snd]; lra|].
    + apply cn_mult; proj5.
    + apply cn_mult; [proj5|]. apply cn_pow2; proj5.
  - apply cn_div; [proj5| |cbn; nra]. apply cn_mult; [apply cn_mult|]; proj5.
Qed.
Lemma cont5 (f : P5 -> R_UniformSpace) (p : P5) : continuous f p -> forall eps, 0 < eps -> exists d, 0 < d /\
  forall a b c e g, Rabs (a - fst p) < d -> Rabs (b - fst (snd p)) < d -> Rabs (c - fst (snd (snd p))) < d ->
  Rabs (e - fst (snd (snd (snd p)))) < d -> Rabs (g - snd (snd (snd (snd p)))) < d -> Rabs (f (a, (b, (c, (e, g)))) - f p) < eps.
Proof.
  intros H eps He. specialize (H (ball (f p) eps) (locally_ball (f p) (mkposreal eps He))).
  destruct H as [d H]. exists d. split; [apply d|]. intros a b c e g Ha Hb Hc Hd Hg.
  apply (H (a, (b, (c, (e, g))))). repeat split; assumption.
Qed.

Lemma box_curve Dom : box_open Dom -> curve_open Dom.
Proof.
  intros H l t0 dl Dl Hl. destruct (H _ Hl) as (d & Hd & B).
  assert (N : forall c, locally t0 (fun t => Rabs (l t c - l t0 c) < d)).
  { intro c. assert (K := cont_D _ _ _ (Dl c)). apply cont_continuous in K. exact (K (ball (l t0 c) d) (locally_ball (l t0 c) (mkposreal d Hd))). }
  generalize (filter_and _ _ (N X0) (filter_and _ _ (N X1) (N X2))). apply filter_imp. intros t (A1 & A2 & A3).
  apply B. intros []; assumption.
Qed.

Section Limit.
  Context {SV : Type} (m : StretchModel SV) (psi : Vec3 -> R) (Dom : Vec3 -> Prop).
  Context (Hsym : symmetric_fn psi) (Hbox : box_open Dom)
          (Hpos : forall l, Dom l -> positive3 l) (HG : str_gradient_of m psi Dom) (HH : str_hessian_of m Dom)
          (HC : continuous_model m Dom).
  Let Hop : curve_open Dom := box_curve Dom Hbox.
  Definition hval (sv : SV) (s : sm_self m) (l : Vec3) : ix6 -> option R :=
    match outcome (sm_hessian m l sv) s with Ok h => h | Raise _ => fun _ => None end.
  Lemma hval_ret sv s l : Dom l -> returns (sm_hessian m l sv) s (hval sv s l).
  Proof.
    intros Hl. destruct (model_hess m Dom HH l sv s Hl) as (h & [s' R]). unfold hval, outcome. rewrite R. exists s'. exact R.
  Qed.
  Lemma gval_ret sv s l : Dom l -> exists svn, returns (sm_gradient m l sv) s (gval m sv s l, svn).
  Proof.
    intros Hl. destruct (model_grad m psi Dom HG l sv s Hl) as (g & svn & [s' R]). unfold gval, outcome. rewrite R. exists svn, s'. exact R.
  Qed.
  Lemma any_g sv s sv' s' l g svn : Dom l -> returns (sm_gradient m l sv') s' (g, svn) -> g = gval m sv s l.
  Proof.
    intros Hl R. apply (grad_at_unique psi l); [apply (model_grad_at m psi Dom HG _ _ _ _ _ Hl R)|apply (gval_at m psi Dom HG); auto].
  Qed.

  Definition seg (l : Vec3) (a b : ix3) (t : R) : Vec3 := fun c => l c + t * (l (swap3 a b c) - l c).
  Definition EE (l g : Vec3) (h : ix6 -> option R) (a b : ix3) (s : R) : R :=
    phi1 (l a, (val (h (pos a a)), (val (h (pos a b)), (g a, s)))).

  Lemma quotient_mvt sv s l a b : a <> b -> l a <> l b -> (forall t, 0 <= t <= 1 -> Dom (seg l a b t)) ->
    exists t, 0 < t < 1 /\
    quotient l (gval m sv s l) a b = EE (seg l a b t) (gval m sv s (seg l a b t)) (hval sv s (seg l a b t)) a b (l a + l b).
  Proof.
    intros Nab Nl HD.
    pose (f := fun t => gval m sv s (seg l a b t) a / (2 * seg l a b t a)).
    pose (dc := fun c => l (swap3 a b c) - l c).
    pose (f' := fun t => (sum3 (fun j => val (hval sv s (seg l a b t) (pos a j)) * dc j) * (2 * seg l a b t a)
                  - gval m sv s (seg l a b t) a * (2 * dc a)) / (2 * seg l a b t a) ^ 2).
    assert (Dseg : forall t, dcurve3 (seg l a b) t dc).
    { intros t c. unfold seg, dc. eapply D_eq; [apply (D_plus (fun _ => l c) (fun t => t * (l (swap3 a b c) - l c))); [exact (D_const _ _)|]|].
      - apply (D_scalr (fun t => t)). exact (D_id t).
      - ring. }
    assert (Df : forall t, 0 <= t <= 1 -> is_derive f t (f' t)).
    { intros t Ht. pose proof (Hpos _ (HD t Ht) a) as P.
      pose proof (model_hess_at m psi Dom HG Hop HH (seg l a b t) sv s (hval sv s (seg l a b t)) (HD t Ht) (hval_ret sv s _ (HD t Ht))) as HA.
      assert (LG : locally t (fun x => grad_at psi (seg l a b x) (gval m sv s (seg l a b x)))).
      { generalize (Hop _ _ _ (Dseg t) (HD t Ht)). apply filter_imp. intros x Hx. apply (gval_at m psi Dom HG); auto. }
      pose proof (HA (seg l a b) t dc (fun x => gval m sv s (seg l a b x)) (Dseg t) eq_refl LG a) as DG. cbv beta in DG.
      unfold f, f'. eapply D_eq.
      - apply (D_div (fun x => gval m sv s (seg l a b x) a) (fun x => 2 * seg l a b x a)); [exact DG| |lra].
        apply (D_scal (fun x => seg l a b x a)). apply (Dseg t a).
      - cbv beta. field. lra. }
    destruct (MVT_cor2 f f' 0 1 Rlt_0_1) as (t & E & Ht).
    { intros c Hc. apply is_derive_Reals. apply Df; auto. }
    exists t. split; auto.
    assert (S0 : seg l a b 0 = l) by (apply Vec3_ext; intro c; unfold seg; ring).
    assert (S1 : seg l a b 1 = fun c => l (swap3 a b c)) by (apply Vec3_ext; intro c; unfold seg; ring).
    assert (D0 : Dom l) by (rewrite <- S0; apply HD; lra).
    assert (D1 : Dom (fun c => l (swap3 a b c))) by (rewrite <- S1; apply HD; lra).
    assert (Sa : swap3 a b a = b) by (destruct a, b; reflexivity).
    assert (Sb : swap3 a b b = a) by (destruct a, b; reflexivity).
    assert (G1 : gval m sv s (fun c => l (swap3 a b c)) a = gval m sv s l b).
    { pose proof (grad_swap psi Hsym _ _ a b (gval_at m psi Dom HG sv s l D0)) as A.
      pose proof (gval_at m psi Dom HG sv s _ D1) as B.
      pose proof (f_equal (fun f => f a) (grad_at_unique psi _ _ _ B A)) as X. cbv beta in X. rewrite X, Sa. reflexivity. }
    assert (Ht' : 0 <= t <= 1) by lra.
    pose proof (Hpos _ (HD t Ht')) as P. pose proof (Hpos _ D0) as P0.
    unfold f in E at 1 2. rewrite S0, S1, G1 in E. cbv beta in E. rewrite Sa in E.
    set (c := seg l a b t) in *. set (g := gval m sv s c) in *. set (h := hval sv s c) in *.
    assert (Ef : f' t = (l b - l a) * ((val (h (pos a a)) - val (h (pos a b))) / (2 * c a) - g a / (2 * c a ^ 2))).
    { unfold f'. fold c g h.
      assert (Es : sum3 (fun j => val (h (pos a j)) * dc j) = (l b - l a) * (val (h (pos a a)) - val (h (pos a b)))).
      { unfold dc. destruct a, b; try congruence; unfold sum3; cbn; ring. }
      rewrite Es. unfold dc. rewrite Sa. specialize (P a). field. lra. }
    rewrite Ef in E. unfold quotient, EE, phi1.
    replace (gval m sv s l a / (2 * l a) - gval m sv s l b / (2 * l b)) with
      ((l a - l b) * ((val (h (pos a a)) - val (h (pos a b))) / (2 * c a) - g a / (2 * c a ^ 2))) by lra.
    set (Z := (val (h (pos a a)) - val (h (pos a b))) / (2 * c a) - g a / (2 * c a ^ 2)). clearbody Z.
    pose proof (P0 a); pose proof (P0 b). field. split; nra.
  Qed.

  (** the value at equal stretches *)
  Lemma EE_limit l g h a b : l a = l b -> g a = g b -> val (h (pos a a)) = val (h (pos b b)) -> 0 < l a -> a <> b ->
    EE l g h a b (l a + l b) = strD l g h b b - strD l g h a b.
  Proof.
    intros El Eg Eh P N. unfold EE, phi1, strD, strK.
    replace (ix3_eqb b b) with true by (destruct b; reflexivity). replace (ix3_eqb a b) with false by (destruct a, b; reflexivity || (exfalso; apply N; reflexivity)).
    rewrite <- El, <- Eg, <- Eh. field. lra.
  Qed.
  Lemma phi2_strD l g h a b : a <> b -> phi2 (l a, (l b, (val (h (pos b b)), (val (h (pos a b)), g b)))) = strD l g h b b - strD l g h a b.
  Proof.
    intros N. unfold phi2, strD, strK.
    replace (ix3_eqb b b) with true by (destruct b; reflexivity). replace (ix3_eqb a b) with false by (destruct a, b; reflexivity || (exfalso; apply N; reflexivity)).
    ring.
  Qed.

  Lemma cont_g sv0 s0 l0 : Dom l0 -> forall eps, 0 < eps -> exists d, 0 < d /\ forall l, Dom l -> near3 d l l0 -> forall sv s,
    near3 eps (gval m sv s l) (gval m sv0 s0 l0) /\ forall v, Rabs (val (hval sv s l v) - val (hval sv0 s0 l0 v)) < eps.
  Proof.
    intros H0 eps He. destruct (HC l0 H0 eps He) as (d & Hd & X). exists d. split; auto. intros l Hl Nl sv s.
    destruct (X l Hl Nl) as [A B].
    destruct (gval_ret sv s l Hl) as [svn R], (gval_ret sv0 s0 l0 H0) as [svn0 R0]. split.
    - apply (A sv s sv0 s0 _ _ _ _ R R0).
    - apply (B sv s sv0 s0 _ _ (hval_ret sv s l Hl) (hval_ret sv0 s0 l0 H0)).
  Qed.
  Lemma seg_near l l0 a b d t : l0 a = l0 b -> near3 d l l0 -> 0 <= t <= 1 -> near3 (3 * d) (seg l a b t) l0.
  Proof.
    intros E N Ht c. unfold seg.
    assert (Nc := N c). assert (Ns := N (swap3 a b c)).
    assert (Es : l0 (swap3 a b c) = l0 c) by (destruct a, b, c; cbn; congruence). rewrite Es in Ns.
    apply Rabs_def2 in Nc, Ns. apply Rabs_def1; nra.
  Qed.

  Definition limit (l0 : Vec3) (g0 : Vec3) h0 a b := strD l0 g0 h0 b b - strD l0 g0 h0 a b.
  Lemma coefficient_limit sv0 s0 l0 a b : Dom l0 -> a <> b -> l0 a = l0 b -> forall eps, 0 < eps ->
    exists d, 0 < d /\ forall l, near3 d l l0 -> Dom l /\ forall sv s,
      (l a <> l b -> Rabs (quotient l (gval m sv s l) a b - limit l0 (gval m sv0 s0 l0) (hval sv0 s0 l0) a b) < eps) /\
      Rabs (strD l (gval m sv s l) (hval sv s l) b b - strD l (gval m sv s l) (hval sv s l) a b - limit l0 (gval m sv0 s0 l0) (hval sv0 s0 l0) a b) < eps.
  Proof.
    intros H0 Nab E eps He. set (g0 := gval m sv0 s0 l0). set (h0 := hval sv0 s0 l0).
    assert (P0 := Hpos _ H0 a). assert (Pb : 0 < l0 b) by (rewrite <- E; auto).
    assert (Eg : g0 a = g0 b) by (apply (grad_equal psi Hsym l0 g0 a b (gval_at m psi Dom HG sv0 s0 l0 H0) E)).
    assert (Eh : val (h0 (pos a a)) = val (h0 (pos b b))).
    { rewrite (hess_equal m psi Dom HG Hsym Hop HH l0 sv0 s0 h0 a b a a H0 (hval_ret sv0 s0 l0 H0) E). destruct a, b; reflexivity. }
    pose (p1 := (l0 a, (val (h0 (pos a a)), (val (h0 (pos a b)), (g0 a, l0 a + l0 b)))) : P5).
    pose (p2 := (l0 a, (l0 b, (val (h0 (pos b b)), (val (h0 (pos a b)), g0 b)))) : P5).
    destruct (cont5 phi1 p1 (phi1_cont p1 ltac:(cbn; lra) ltac:(cbn; lra)) eps He) as (d1 & Hd1 & C1).
    destruct (cont5 phi2 p2 (phi2_cont p2 ltac:(cbn; lra) ltac:(cbn; lra)) eps He) as (d2 & Hd2 & C2).
    destruct (Hbox l0 H0) as (d3 & Hd3 & B).
    assert (Hm : 0 < Rmin d1 d2) by (apply Rmin_glb_lt; auto).
    destruct (cont_g sv0 s0 l0 H0 _ Hm) as (d4 & Hd4 & CG).
    pose proof (Rmin_l d1 d2) as M1. pose proof (Rmin_r d1 d2) as M2.
    pose (d := Rmin (Rmin d3 d4) (Rmin d1 d2) / 3).
    assert (Hd : 0 < d) by (unfold d; assert (0 < Rmin (Rmin d3 d4) (Rmin d1 d2)) by (apply Rmin_glb_lt; auto; apply Rmin_glb_lt; auto); lra).
    assert (L3 : 3 * d <= d3 /\ 3 * d <= d4 /\ 3 * d <= Rmin d1 d2).
    { unfold d. pose proof (Rmin_l (Rmin d3 d4) (Rmin d1 d2)); pose proof (Rmin_r (Rmin d3 d4) (Rmin d1 d2)).
      pose proof (Rmin_l d3 d4); pose proof (Rmin_r d3 d4). lra. }
    destruct L3 as (L3 & L4 & L1). clearbody d.
    exists d. split; auto. intros l N.
    assert (mono : forall e x y, e <= 3 * d -> near3 e x y -> near3 (3 * d) x y) by (intros e x y He' H c; specialize (H c); lra).
    assert (DD : forall x, near3 (3 * d) x l0 -> Dom x) by (intros x Hx; apply B; intro c; specialize (Hx c); lra).
    assert (GG : forall x, near3 (3 * d) x l0 -> forall sv s, near3 (Rmin d1 d2) (gval m sv s x) g0 /\ forall v, Rabs (val (hval sv s x v) - val (h0 v)) < Rmin d1 d2).
    { intros x Hx sv s. apply CG; [apply DD; auto|]. intro c; specialize (Hx c); lra. }
    assert (N3 : near3 (3 * d) l l0) by (apply (mono d); auto; lra).
    split; [apply DD; auto|]. intros sv s. split.
    - intros Nl.
      destruct (quotient_mvt sv s l a b Nab Nl) as (t & Ht & ->).
      { intros t Ht. apply DD. apply seg_near; auto. }
      set (c := seg l a b t). assert (Nc : near3 (3 * d) c l0) by (apply seg_near; auto; lra).
      destruct (GG c Nc sv s) as [G1 G2].
      unfold limit. rewrite <- (EE_limit l0 g0 h0 a b E Eg Eh P0 Nab). fold p1. unfold EE at 2. fold p1.
      apply C1; cbn [fst snd p1].
      + specialize (Nc a). lra.
      + specialize (G2 (pos a a)). lra.
      + specialize (G2 (pos a b)). lra.
      + specialize (G1 a). lra.
      + pose proof (N a) as Na. pose proof (N b) as Nb. apply Rabs_def2 in Na, Nb. apply Rabs_def1; lra.
    - destruct (GG l N3 sv s) as [G1 G2]. unfold limit. rewrite <- !phi2_strD by auto. fold p2.
      apply C2; cbn [fst snd p2].
      + specialize (N3 a). lra.
      + specialize (N3 b). lra.
      + specialize (G2 (pos b b)). lra.
      + specialize (G2 (pos a b)). lra.
      + specialize (G1 b). lra.
  Qed.
End Limit.

Section Shear.
  Context {SV : Type} (lapack : Lapack) (m : StretchModel SV) (psi : Vec3 -> R) (Dom : Vec3 -> Prop).
  Context (HL : lapack_legal lapack) (Hsym : symmetric_fn psi) (Hbox : box_open Dom)
          (Hpos : forall l, Dom l -> positive3 l) (HG : str_gradient_of m psi Dom) (HH : str_hessian_of m Dom).

  Lemma dom_legal C w v : sym2 C -> eig_legal C w v -> Dom (fun a => sqrt (w a)) -> posdef C.
  Proof.
    intros S L D. apply (eig_posdef _ _ _ L). intro a. pose proof (Hpos _ D a) as P. cbv beta in P.
    destruct (Rle_dec (w a) 0) as [N|]; [rewrite (sqrt_neg_0 _ N) in P; lra|lra].
  Qed.
  (** The returned tensor in any eigenbasis. *)
  Lemma hessian_any C w v sv s H : sym2 C -> eig_legal C w v -> Dom (fun a => sqrt (w a)) ->
    returns (str_hessian lapack m (asvoigt C) sv) s H ->
    exists svn ms, let l := fun a => sqrt (w a) in
      astensor4 H = Hf (strD l (gval m svn ms l) (hval m svn ms l)) (strF l (gval m svn ms l) (hval m svn ms l)) v.
  Proof.
    intros S L D [s' RH]. pose proof (dom_legal C w v S L D) as P.
    pose proof (legal_sym lapack HL C S) as L0. pose proof (eig_unique _ _ _ _ _ L L0) as Ew.
    assert (El : lam lapack (asvoigt C) = fun a => sqrt (w a)) by (rewrite lam_sym, Ew; auto).
    set (l := fun a => sqrt (w a)) in *.
    destruct (model_grad m psi Dom HG l sv (st_model m s) D) as (g & svn & [ms Rm]).
    destruct (model_hess m Dom HH l svn ms D) as (h & [ms' Rh]).
    destruct (str_hessian_ok lapack m (asvoigt C) sv s ms g svn ms' h) as (s1 & R1 & _); [rewrite El; exact Rm|rewrite El; exact Rh|].
    rewrite R1 in RH. injection RH as _ <-. exists svn, ms. cbv zeta.
    assert (Eg : g = gval m svn ms l) by (apply (any_g m psi Dom HG svn ms _ _ _ _ _ D (ex_intro _ ms Rm))).
    assert (Eh : h = hval m svn ms l) by (unfold hval, outcome; rewrite Rh; reflexivity).
    rewrite <- Eg, <- Eh, strHv_full, El, vec_sym by auto.
    assert (lw : forall a b, w a = w b -> l a = l b) by (intros a b E; unfold l; rewrite E; reflexivity).
    assert (GA := model_grad_at m psi Dom HG l sv (st_model m s) g svn D (ex_intro _ ms Rm)).
    assert (Hg : forall a b, w a = w b -> g a = g b) by (intros; apply (grad_equal psi Hsym l g a b GA); auto).
    assert (HD : forall a b k j, w a = w b -> strD l g h k j = strD l g h (exchange a b k) (exchange a b j)).
    { intros a b k j E. apply strD_exchange; auto.
      intros k' j'. rewrite !exchange_swap3.
      apply (hess_equal m psi Dom HG Hsym (box_curve Dom Hbox) HH l svn ms h a b k' j' D (ex_intro _ ms' Rh) (lw a b E)). }
    assert (close : forall x, x = 0 -> isclose x 0 = true) by (intros x ->; apply isclose0; rewrite Rabs_R0; lra).
    rewrite <- Ew in L0.
    apply (Hf_indep w) with C; auto.
      + apply L.
      + apply strD_sym.
      + intro E. unfold strF. rewrite close; [reflexivity|]. rewrite (lw _ _ E); ring.
      + intro E. unfold strF. rewrite close; [reflexivity|]. rewrite (lw _ _ E); ring.
      + intro E. unfold strF. rewrite close; [reflexivity|]. rewrite (lw _ _ E); ring.
      + intro E. pose proof (HD X0 X1 X0 X2 E) as X. cbn in X. unfold strF. rewrite X, (lw _ _ E). unfold strK. rewrite (lw _ _ E), (Hg _ _ E). reflexivity.
      + intro E. pose proof (HD X1 X2 X0 X1 E) as X. pose proof (HD X1 X2 X1 X1 E) as Y. cbn in X, Y. unfold strF. rewrite X, Y, (lw _ _ E). unfold strK. rewrite (lw _ _ E), (Hg _ _ E). reflexivity.
  Qed.

  Context (HC : continuous_model m Dom).
  Lemma limit_sym sv s l a b : Dom l -> l a = l b -> a <> b -> 
    limit l (gval m sv s l) (hval m sv s l) a b = limit l (gval m sv s l) (hval m sv s l) b a.
  Proof.
    intros D E N. unfold limit. rewrite (strD_sym l _ _ b a). f_equal.
    rewrite (strD_exchange l (gval m sv s l) (hval m sv s l) a b b b E).
    - destruct a, b; reflexivity.
    - apply (grad_equal psi Hsym l _ a b (gval_at m psi Dom HG sv s l D) E).
    - intros k j. rewrite !exchange_swap3.
      apply (hess_equal m psi Dom HG Hsym (box_curve Dom Hbox) HH l sv s _ a b k j D (hval_ret m Dom HH sv s l D) E).
  Qed.
  Lemma shear_limit C0 w0 v0 a b sv0 s0 H0 : sym2 C0 -> eig_legal C0 w0 v0 -> Dom (fun c => sqrt (w0 c)) ->
    a <> b -> w0 a = w0 b -> returns (str_hessian lapack m (asvoigt C0) sv0) s0 H0 ->
    forall eps, 0 < eps -> exists d, 0 < d /\ forall C w v, sym2 C -> eig_legal C w v ->
      near3 d (fun c => sqrt (w c)) (fun c => sqrt (w0 c)) ->
      (forall sv s H, returns (str_hessian lapack m (asvoigt C) sv) s H ->
        Rabs (shear (astensor4 H) (column v a) (column v b) - shear (astensor4 H0) (column v0 a) (column v0 b)) < eps) /\
      (forall sv s g svn, w a <> w b -> returns (sm_gradient m (fun c => sqrt (w c)) sv) s (g, svn) ->
        Rabs (quotient (fun c => sqrt (w c)) g a b / 2 - shear (astensor4 H0) (column v0 a) (column v0 b)) < eps).
  Proof.
    intros S0 L0 D0 Nab Ew R0 eps He.
    destruct (hessian_any C0 w0 v0 sv0 s0 H0 S0 L0 D0 R0) as (svn0 & ms0 & E0). cbv zeta in E0.
    set (l0 := fun c => sqrt (w0 c)) in *.
    assert (El : l0 a = l0 b) by (unfold l0; rewrite Ew; reflexivity).
    set (g0 := gval m svn0 ms0 l0) in *. set (h0 := hval m svn0 ms0 l0) in *.
    assert (SH : shear (astensor4 H0) (column v0 a) (column v0 b) = limit l0 g0 h0 a b / 2).
    { rewrite E0, (shear_Hf _ _ v0 a b (proj1 L0) Nab w0). f_equal.
      assert (close : forall a b, l0 a = l0 b -> strF l0 g0 h0 a b = limit l0 g0 h0 a b).
      { intros x y E. unfold strF, limit. replace (isclose (l0 x ^ 2 - l0 y ^ 2) 0) with true; [reflexivity|].
        symmetry. apply isclose0. rewrite E, Rminus_eq_0, Rabs_R0. left. apply Rinv_0_lt_compat, pow_lt; lra. }
      destruct a, b; try congruence; cbn [fs]; rewrite close by auto; try reflexivity; apply limit_sym; auto; discriminate. }
    destruct (coefficient_limit m psi Dom Hsym Hbox Hpos HG HH HC svn0 ms0 l0 a b D0 Nab El eps He) as (d1 & Hd1 & X1').
    destruct (coefficient_limit m psi Dom Hsym Hbox Hpos HG HH HC svn0 ms0 l0 b a D0 (not_eq_sym Nab) (eq_sym El) eps He) as (d2 & Hd2 & X2').
    exists (Rmin d1 d2). split; [apply Rmin_glb_lt; auto|]. intros C w v S L N.
    pose proof (Rmin_l d1 d2); pose proof (Rmin_r d1 d2).
    set (l := fun c => sqrt (w c)) in *.
    destruct (X1' l) as [D B1]; [intro c; specialize (N c); lra|]. destruct (X2' l) as [_ B2]; [intro c; specialize (N c); lra|].
    fold g0 h0 in B1, B2. rewrite SH.
    assert (LS := limit_sym svn0 ms0 l0 a b D0 El Nab). fold g0 h0 in LS.
    split.
    - intros sv s H' RH. destruct (hessian_any C w v sv s H' S L D RH) as (svn & ms & E). cbv zeta in E. fold l in E.
      rewrite E, (shear_Hf _ _ v a b (proj1 L) Nab w).
      specialize (B1 svn ms). specialize (B2 svn ms). rewrite <- LS in B2.
      set (g := gval m svn ms l) in *. set (h := hval m svn ms l) in *.
      assert (Z : forall x y, (l x <> l y -> Rabs (quotient l g x y - limit l0 g0 h0 a b) < eps) /\ Rabs (strD l g h y y - strD l g h x y - limit l0 g0 h0 a b) < eps ->
         Rabs (strF l g h x y / 2 - limit l0 g0 h0 a b / 2) < eps).
      { intros x y [Q1 Q2].
        assert (Y : Rabs (strF l g h x y - limit l0 g0 h0 a b) < eps).
        { unfold strF. destruct (isclose (l x ^ 2 - l y ^ 2) 0) eqn:Ec; [exact Q2|].
          apply Q1. intros Exy. rewrite Exy in Ec. 
          assert (isclose (l y ^ 2 - l y ^ 2) 0 = true) by (apply isclose0; rewrite Rminus_eq_0, Rabs_R0; left; apply Rinv_0_lt_compat, pow_lt; lra). congruence. }
        apply Rabs_def2 in Y. apply Rabs_def1; lra. }
      destruct a, b; try congruence; cbn [fs]; auto.
    - intros sv s g svn Nw Rg. pose proof (any_g m psi Dom HG sv s _ _ _ _ _ D Rg) as ->.
      destruct (B1 sv s) as [Q _].
      assert (Nl : l a <> l b).
      { intro E. apply Nw. unfold l in E. pose proof (dom_legal C w v S L D) as P. pose proof (proj1 (eig_posdef _ _ _ L) P) as Pw.
        apply sqrt_inj; auto; left; auto. }
      specialize (Q Nl). apply Rabs_def2 in Q. apply Rabs_def1; lra.
  Qed.
End Shear.
