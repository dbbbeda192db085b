(** The Stretches framework returns derivatives, also at coalescing stretches (C18, C19). *)
From Coq Require Import Reals Lra List Bool FunctionalExtensionality.
From Coquelicot Require Import Coquelicot.
From Verif Require Import Tensor Py Voigt VoigtProofs Algebra Calc Models Frameworks Spaces Spec VCalc EighProofs EigCore ContR EigPath StrCore.
Local Open Scope R_scope.

Definition swap3 (a b c : ix3) : ix3 := if ix3_eqb c a then b else if ix3_eqb c b then a else c.
Lemma sym_swap psi a b l : symmetric_fn psi -> psi (fun c => l (swap3 a b c)) = psi l.
Proof.
  intros H.
  assert (E : forall l, psi l = psi (vec3 (l X0) (l X1) (l X2))).
  { intro f. f_equal. apply Vec3_ext; intros []; reflexivity. }
  rewrite (E l), (E (fun c => l (swap3 a b c))). destruct a, b; cbn; try reflexivity.
  - symmetry. apply H.
  - transitivity (psi (vec3 (l X2) (l X0) (l X1))); [apply H|]. transitivity (psi (vec3 (l X0) (l X2) (l X1))); apply H.
  - symmetry. apply H.
  - symmetry. apply H.
  - transitivity (psi (vec3 (l X2) (l X0) (l X1))); [apply H|]. transitivity (psi (vec3 (l X0) (l X2) (l X1))); apply H.
  - symmetry. apply H.
Qed.
Lemma returns_det {X A} (c : PY X A) s a b : returns c s a -> returns c s b -> a = b.
Proof. intros [s1 H1] [s2 H2]. rewrite H1 in H2. congruence. Qed.
Lemma vec3_eta l : l = vec3 (l X0) (l X1) (l X2).
Proof. apply Vec3_ext; intros []; reflexivity. Qed.

(** The line through [l] in direction [a]. *)
Definition line (l : Vec3) (a : ix3) (t : R) : Vec3 := fun b => l b + t * delta a b.
Lemma line_0 l a : line l a 0 = l.
Proof. apply Vec3_ext; intro b; unfold line; ring. Qed.
Lemma line_D l a t : dcurve3 (line l a) t (delta a).
Proof. intro b. unfold line. eapply D_eq; [apply (D_plus (fun _ => l b) (fun t => t * delta a b)); [exact (D_const _ _)|]|].
  - apply (D_scalr (fun t => t)). exact (D_id t).
  - ring. Qed.
Lemma line_swap l a b t : l a = l b -> (fun c => line l a t (swap3 a b c)) = line l b t.
Proof. intros E. apply Vec3_ext; intro c. unfold line. destruct a, b, c; cbn; unfold delta; cbn; try rewrite E; ring. Qed.
Lemma sum3_delta f a : sum3 (fun b => f b * delta a b) = f a.
Proof. destruct a; unfold sum3, delta; cbn; ring. Qed.

Section Model.
  Context {SV : Type} (m : StretchModel SV) (psi : Vec3 -> R) (Dom : Vec3 -> Prop).
  Context (HG : str_gradient_of m psi Dom).
  Definition grad_at (l : Vec3) (g : Vec3) : Prop :=
    forall (c : R -> Vec3) t0 dc, dcurve3 c t0 dc -> c t0 = l -> is_derive (fun t => psi (c t)) t0 (sum3 (fun k => g k * dc k)).
  Lemma grad_at_unique l g g' : grad_at l g -> grad_at l g' -> g = g'.
  Proof.
    intros H H'. apply Vec3_ext; intro a.
    rewrite <- (sum3_delta g a), <- (sum3_delta g' a).
    apply (D_unique (fun t => psi (line l a t)) 0).
    - apply H; [apply line_D|apply line_0].
    - apply H'; [apply line_D|apply line_0].
  Qed.
  Lemma model_grad l sv s : Dom l -> exists g svn, returns (sm_gradient m l sv) s (g, svn).
  Proof.
    intros Hl. destruct (HG (fun _ => l) 0 (fun _ => 0) (fun i => D_const (l i) 0) Hl sv s) as (g & svn & R & _). eauto.
  Qed.
  Lemma model_grad_at l sv s g svn : Dom l -> returns (sm_gradient m l sv) s (g, svn) -> grad_at l g.
  Proof.
    intros Hl R c t0 dc Hc E. subst l. destruct (HG c t0 dc Hc Hl sv s) as (g' & svn' & R' & D).
    pose proof (returns_det _ _ _ _ R R') as X. injection X as -> _. exact D.
  Qed.
  Context (Hsym : symmetric_fn psi).
  (** The gradient is equivariant. *)
  Lemma grad_swap l g a b : grad_at l g -> grad_at (fun c => l (swap3 a b c)) (fun c => g (swap3 a b c)).
  Proof.
    intros H c t0 dc Hc E.
    apply D_ext with (fun t => psi (fun d => c t (swap3 a b d))); [intro; apply sym_swap; auto|].
    eapply D_eq. apply (H (fun t d => c t (swap3 a b d)) t0 (fun d => dc (swap3 a b d))).
    - intro d. apply Hc.
    - rewrite E. apply Vec3_ext; intro d. f_equal. destruct a, b, d; reflexivity.
    - destruct a, b; unfold sum3; cbn; ring.
  Qed.
  Lemma grad_equal l g a b : grad_at l g -> l a = l b -> g a = g b.
  Proof.
    intros H E. assert (El : (fun c => l (swap3 a b c)) = l).
    { apply Vec3_ext; intro c. destruct a, b, c; cbn; congruence. }
    pose proof (grad_swap l g a b H) as H'. rewrite El in H'.
    pose proof (f_equal (fun f => f a) (grad_at_unique _ _ _ H H')) as X. cbv beta in X. rewrite X. destruct a, b; reflexivity.
  Qed.

  (** Second derivatives. *)
  Context (Hop : curve_open Dom) (HH : str_hessian_of m Dom).
  Definition hess_at (l : Vec3) (h : ix6 -> option R) : Prop :=
    forall (c : R -> Vec3) t0 dc (G : R -> Vec3), dcurve3 c t0 dc -> c t0 = l ->
      locally t0 (fun t => grad_at (c t) (G t)) ->
      forall k, is_derive (fun t => G t k) t0 (sum3 (fun j => val (h (pos k j)) * dc j)).
  (** value of the gradient as a function *)
  Definition gval (sv : SV) (s : sm_self m) (l : Vec3) : Vec3 :=
    match outcome (sm_gradient m l sv) s with Ok (g, _) => g | Raise _ => fun _ => 0 end.
  Lemma gval_at sv s l : Dom l -> grad_at l (gval sv s l).
  Proof.
    intros Hl. destruct (model_grad l sv s Hl) as (g & svn & R). unfold gval, outcome. pose proof R as R'. destruct R as [s' ->]. cbn [snd].
    exact (model_grad_at _ _ _ _ _ Hl R').
  Qed.
  Lemma model_hess l sv s : Dom l -> exists h, returns (sm_hessian m l sv) s h.
  Proof.
    intros Hl. destruct (HH (fun _ => l) 0 (fun _ => 0) (fun i => D_const (l i) 0) Hl sv s) as (h & R & _). eauto.
  Qed.
  Lemma model_hess_at l sv s h : Dom l -> returns (sm_hessian m l sv) s h -> hess_at l h.
  Proof.
    intros Hl R c t0 dc G Hc E HGc k. subst l.
    destruct (HH c t0 dc Hc Hl sv s) as (h' & R' & D).
    pose proof (returns_det _ _ _ _ R R') as ->.
    apply (D (fun _ => sv) (fun _ => s)).
    generalize (filter_and _ _ HGc (Hop c t0 dc Hc Hl)). apply filter_imp. intros t [Gt Dt].
    destruct (model_grad (c t) sv s Dt) as (g & svn & Rt). exists svn.
    rewrite (grad_at_unique _ _ _ Gt (model_grad_at _ _ _ _ _ Dt Rt)). exact Rt.
  Qed.
  Lemma hess_equal l sv s h a b k j : Dom l -> returns (sm_hessian m l sv) s h -> l a = l b ->
    val (h (pos k j)) = val (h (pos (swap3 a b k) (swap3 a b j))).
  Proof.
    intros Hl R E. pose proof (model_hess_at l sv s h Hl R) as H.
    assert (DL : forall x, locally 0 (fun t => Dom (line l x t))).
    { intro x. apply (Hop (line l x) 0 (delta x)); [apply line_D|rewrite line_0; auto]. }
    pose (G := fun x t => gval sv s (line l x t)).
    assert (GA : forall x, locally 0 (fun t => grad_at (line l x t) (G x t))).
    { intro x. generalize (DL x). apply filter_imp. intros t Ht. apply gval_at; auto. }
    assert (Dv : forall x k, is_derive (fun t => G x t k) 0 (val (h (pos k x)))).
    { intros x k'. eapply D_eq; [apply (H (line l x) 0 (delta x) (G x) (line_D l x 0) (line_0 l x) (GA x) k')|].
      apply (sum3_delta (fun j => val (h (pos k' j)))). }
    assert (El : forall t, (fun c => line l j t (swap3 a b c)) = line l (swap3 a b j) t).
    { intro t. apply Vec3_ext; intro c. unfold line. destruct a, b, j, c; cbn; unfold delta; cbn; try rewrite E; ring. }
    apply (D_unique (fun t => G j t k) 0); [apply Dv|].
    apply D_ext_loc with (fun t => G (swap3 a b j) t (swap3 a b k)); [|apply Dv].
    generalize (filter_and _ _ (GA j) (GA (swap3 a b j))). apply filter_imp. intros t [G1 G2].
    pose proof (grad_swap _ _ a b G1) as G3. rewrite El in G3.
    pose proof (f_equal (fun f => f (swap3 a b k)) (grad_at_unique _ _ _ G2 G3)) as X. cbv beta in X. rewrite X. f_equal. destruct a, b, k; reflexivity.
  Qed.
End Model.

(** *** The gradient *)
Section Grad.
  Context {SV : Type} (lapack : Lapack) (m : StretchModel SV) (psi : Vec3 -> R) (Dom : Vec3 -> Prop) (W : T2 -> R).
  Context (HL : lapack_legal lapack) (HW : stretch_energy psi W) (Hsym : symmetric_fn psi)
          (Hpos : forall l, Dom l -> positive3 l) (HG : str_gradient_of m psi Dom).

  Lemma legal_sym A : sym2 A -> eig_legal A (fst (lapack A)) (snd (lapack A)).
  Proof. intros S. pose proof (HL (asvoigt A)) as H. unfold lapack_at in H. rewrite astensor_asvoigt_f in H; auto. Qed.
  Lemma lam_sym A : sym2 A -> lam lapack (asvoigt A) = fun a => sqrt (fst (lapack A) a).
  Proof. intros S. unfold lam. rewrite astensor_asvoigt_f; auto. Qed.
  Lemma vec_sym A : sym2 A -> vec lapack (asvoigt A) = snd (lapack A).
  Proof. intros S. unfold vec. rewrite astensor_asvoigt_f; auto. Qed.

  Lemma Gf_dc K v E : dc22 (Gf K v) E = sum3 (fun a => K a * frame v E a a).
  Proof. unfold dc22, Gf, base, frame, mmul, mtr, sum3. ring. Qed.

  Lemma sqrt_curve (p : R -> Vec3) t0 dp : dcurve3 p t0 dp -> (forall a, 0 < p t0 a) ->
    dcurve3 (fun t a => sqrt (p t a)) t0 (fun a => dp a / (2 * sqrt (p t0 a))).
  Proof. intros H P a. apply (D_sqrt (fun t => p t a)); auto. Qed.

  Lemma stretches_grad : fw_gradient_of (stretches_fw lapack m) W (stretch_dom Dom).
  Proof.
    intros C t0 dC HS HD [HP HDom] sv s.
    set (w := fun t => fst (lapack (C t))). set (v := fun t => snd (lapack (C t))).
    assert (L : forall t, eig_legal (C t) (w t) (v t)) by (intro t; apply legal_sym; auto).
    assert (Wp : forall a, 0 < w t0 a) by (apply (eig_posdef _ _ _ (L t0)); auto).
    pose proof (HDom _ _ (L t0)) as Hl. set (l := fun a => sqrt (w t0 a)) in Hl.
    destruct (model_grad m psi Dom HG l sv (st_model m s) Hl) as (g & svn & [ms Rm]).
    pose proof (model_grad_at m psi Dom HG l sv (st_model m s) g svn Hl (ex_intro _ ms Rm)) as GA.
    exists (strGv lapack (asvoigt (C t0)) g), svn. split.
    - unfold fw_gradient, stretches_fw. eexists. apply (str_gradient_ok lapack m _ _ _ ms). rewrite lam_sym by auto. exact Rm.
    - rewrite strGv_full, Gf_dc, vec_sym by auto. rewrite lam_sym by auto. fold (w t0). fold l. fold (v t0).
      destruct (eig_sides C t0 dC HD w v L (fun A => fst (lapack A)) (fun A => snd (lapack A)) legal_sym)
        as (p & q & dp & dq & Dp & Dq & Ep & Eq & Gp & Gq).
      assert (HK : forall a b, w t0 a = w t0 b -> strK l g a = strK l g b).
      { intros a b E. unfold strK. assert (El : l a = l b) by (unfold l; rewrite E; reflexivity).
        rewrite El, (grad_equal psi Hsym l g a b GA El). reflexivity. }
      assert (side : forall (c : R -> Vec3) dc, dcurve3 c t0 dc -> c t0 = w t0 ->
         (forall a, gsum (w t0) dc a = gsum (w t0) (fun b => frame (v t0) dC b b) a) ->
         is_derive (fun t => psi (fun a => sqrt (c t a))) t0 (sum3 (fun a => strK l g a * frame (v t0) dC a a))).
      { intros c dc Dc Ec Gc. rewrite <- (gsum_const (w t0) (strK l g) dc _ HK Gc).
        eapply D_eq. apply (GA (fun t a => sqrt (c t a)) t0 _ (sqrt_curve c t0 dc Dc ltac:(rewrite Ec; auto))).
        - rewrite Ec. reflexivity.
        - rewrite Ec. unfold strK, l. apply sum3_ext; intro a. unfold Rdiv; ring. }
      apply D_glue with (fun t => psi (fun a => sqrt (p t a))) (fun t => psi (fun a => sqrt (q t a))).
      + apply side with dp; auto. symmetry; apply Ep; lra.
      + apply side with dq; auto. symmetry; apply Eq; lra.
      + intros t Ht. rewrite (HW _ _ _ (L t)), Ep; auto.
      + intros t Ht. rewrite (HW _ _ _ (L t)), Eq; auto.
  Qed.
End Grad.
