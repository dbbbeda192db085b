(** * Proofs for C76: the stretch-based models at pairwise different principal stretches. *)
From Coq Require Import Reals Lra Lia List Psatz Bool FunctionalExtensionality.
From Coquelicot Require Import Coquelicot.
From Verif Require Import Tensor Py Voigt VoigtProofs Algebra Calc Models Frameworks Spaces Spec VCalc ModelProofs GenProofs
  PiolaProofs SpaceCore SpaceProofs EigCore StrCore HistProofs DistProofs ScaleProofs Counter NewtonSpec NewtonLin NewtonProofs NewtonCalm NewtonInv
  StrProofs StrHess StrMore StrRoutes NDLinks2 PropStretches PropSpaces PropEnd.
Local Open Scope R_scope.

(** The projectors of pairwise different eigenvalues (Lagrange). *)
Definition sq (A : T2) : T2 := mmul A A.
Definition lagrange (A : T2) (x y z : R) : T2 := fun i j => (mmul A A i j - (y + z) * A i j + y * z * delta i j) / ((x - y) * (x - z)).
Definition nxt (a : ix3) : ix3 := match a with X0 => X1 | X1 => X2 | X2 => X0 end.
Lemma sq_rebuild A w v i j : eig_legal A w v -> mmul A A i j = sum3 (fun a => w a ^ 2 * base v a i j).
Proof.
  intro L. pose proof L as (_ & E & _). 
  assert (R0 : forall p q, A p q = sum3 (fun a => w a * base v a p q)).
  { intros p q. rewrite <- (eig_rebuild A w v L). unfold base, sum3; ring. }
  unfold mmul. transitivity (sum3 (fun k => A i k * sum3 (fun a => w a * base v a k j))).
  - unfold sum3 at 1 2. rewrite <- !R0. reflexivity.
  - transitivity (sum3 (fun a => w a * v j a * sum3 (fun k => A i k * v k a))).
    + unfold base, sum3; ring.
    + unfold sum3 at 1 3. rewrite !E. unfold base. ring.
Qed.
Lemma projector A w v a : eig_legal A w v -> w a - w (nxt a) <> 0 -> w a - w (nxt (nxt a)) <> 0 ->
  base v a = lagrange A (w a) (w (nxt a)) (w (nxt (nxt a))).
Proof.
  intros L N1 N2. apply T2_ext; intros i j. unfold lagrange. rewrite (sq_rebuild A w v i j L).
  rewrite <- (eig_rebuild A w v L i j), <- (eig_complete A w v L i j). unfold sum3, base.
  destruct a; cbn [nxt] in *; field; auto.
Qed.

Section Eig.
  Variables (lapack : Lapack) (HL : lapack_legal lapack) (F0 : T2) (c : T2 -> Vec6) (Hc : calmV F0 c).
  Notation wF F := (fst (lapack (astensor (c F)))).
  Notation vF F := (snd (lapack (astensor (c F)))).
  Lemma calm_w a : calm F0 (fun F => wF F a).
  Proof.
    assert (CD : calm F0 (fun F => dist2 (astensor (c F)) (astensor (c F0)))).
    { unfold dist2. apply calm_sum3; intro i. apply calm_sum3; intro j.
      apply (calm_abs F0 (fun F => astensor (c F) i j - astensor (c F0) i j)). apply calm_sub; [apply Hc|apply calm_const]. }
    destruct CD as (d & K & Hd & HK & H). exists d, (21 * K). split; [auto|]. split; [lra|]. intros F e He HF. specialize (H F e He HF).
    assert (Z : dist2 (astensor (c F0)) (astensor (c F0)) = 0) by (unfold dist2, sum3; rewrite !Rminus_eq_0, Rabs_R0; ring).
    cbv beta in H. rewrite Z, Rminus_0_r, Rabs_pos_eq in H by apply dist2_pos.
    eapply Rle_trans; [apply (weyl _ _ _ _ _ _ a (HL (c F)) (HL (c F0)))|]. lra.
  Qed.
  Hypothesis Hap : apart (wF F0).
  Lemma pairs_apart : exists d, 0 < d /\ forall F, near d F F0 -> apart (wF F).
  Proof.
    destruct Hap as (A1 & A2 & A3).
    assert (CP : forall a b, calm F0 (fun F => Rabs (wF F a - wF F b))) by (intros a b; apply (calm_abs F0 (fun F => wF F a - wF F b)), calm_sub; apply calm_w).
    destruct (calm_open F0 _ _ (CP X0 X1) A1) as (d1 & P1 & Q1), (calm_open F0 _ _ (CP X1 X2) A2) as (d2 & P2 & Q2), (calm_open F0 _ _ (CP X0 X2) A3) as (d3 & P3 & Q3).
    exists (Rmin d1 (Rmin d2 d3)). split; [repeat apply Rmin_pos; auto|]. intros F HF.
    assert (B1 := Rmin_l d1 (Rmin d2 d3)). assert (B2 := Rmin_r d1 (Rmin d2 d3)). assert (B3 := Rmin_l d2 d3). assert (B4 := Rmin_r d2 d3).
    split; [|split]; [apply Q1|apply Q2|apply Q3]; apply near_mono with (Rmin d1 (Rmin d2 d3)); auto; lra.
  Qed.
  Lemma apart_ne w a b : apart w -> a <> b -> w a - w b <> 0.
  Proof.
    intros (A1 & A2 & A3) N E. assert (B : w b - w a = 0) by lra. assert (T : 0 < / 10 ^ 8) by lra.
    destruct a, b; try congruence; rewrite ?E, ?B, Rabs_R0 in *; lra.
  Qed.
  Lemma calm_base a i j : calm F0 (fun F => base (vF F) a i j).
  Proof.
    destruct pairs_apart as (d & Hd & HD).
    apply (calm_ext F0 (fun F => lagrange (astensor (c F)) (wF F a) (wF F (nxt a)) (wF F (nxt (nxt a))) i j)).
    - exists d. split; [auto|]. intros F HF. rewrite <- (projector _ _ _ a (HL (c F))); [reflexivity| |]; apply apart_ne; auto; destruct a; discriminate.
    - unfold lagrange, mmul. assert (CA : forall p q, calm F0 (fun F => astensor (c F) p q)) by (intros p q; apply Hc).
      apply calm_div; [apply calm_add; [apply calm_sub|]|..].
      + apply calm_sum3; intro k. apply calm_mul; apply CA.
      + apply calm_mul; [apply calm_add; apply calm_w|apply CA].
      + apply calm_mul; [|apply calm_const]. apply calm_mul; apply calm_w.
      + apply calm_mul; apply calm_sub; apply calm_w.
      + apply Rmult_integral_contrapositive_currified; apply apart_ne; auto; destruct a; discriminate.
  Qed.
  Hypothesis Hpos : forall a, 0 < wF F0 a.
  Lemma calm_lam a : calm F0 (fun F => lam lapack (c F) a).
  Proof.
    unfold lam. apply (calm_comp F0 sqrt (/ (2 * sqrt (wF F0 a))) (fun F => wF F a) (calm_w a)). apply derivable_pt_lim_sqrt, Hpos.
  Qed.
  Lemma lam_pos0 a : 0 < lam lapack (c F0) a.
  Proof. apply sqrt_lt_R0, Hpos. Qed.

  (** Coefficient functions of the model. *)
  Variables (g : T2 -> Vec3) (h : T2 -> ix6 -> option R).
  Hypotheses (Cg : forall a, calm F0 (fun F => g F a)) (Ch : forall v, calm F0 (fun F => val (h F v))).
  Notation L F := (lam lapack (c F)).
  Lemma calm_K a : calm F0 (fun F => strK (L F) (g F) a).
  Proof.
    unfold strK. apply calm_div; [apply Cg|apply calm_mul; [apply calm_const|apply calm_lam]|]. pose proof (lam_pos0 a). lra.
  Qed.
  Lemma calm_D a b : calm F0 (fun F => strD (L F) (g F) (h F) a b).
  Proof.
    unfold strD. pose proof (lam_pos0 a) as P. pose proof (lam_pos0 b) as Q. apply calm_sub.
    - apply calm_div; [apply Ch|apply calm_mul; [apply calm_mul; [apply calm_const|]|]; apply calm_lam|]. nra.
    - destruct (ix3_eqb a b); [|apply calm_const]. apply calm_div; [apply calm_K|apply calm_mul; [apply calm_const|apply calm_pow, calm_lam]|].
      pose proof (pow_lt _ 2 P). lra.
  Qed.
  Lemma calm_wpos : exists d, 0 < d /\ forall F, near d F F0 -> forall a, 0 < wF F a.
  Proof.
    destruct (calm_open F0 _ _ (calm_w X0) (Hpos X0)) as (d & Hd & H). exists d. split; [auto|]. intros F HF a.
    specialize (H F HF). destruct (HL (c F)) as (_ & _ & O). destruct a; lra.
  Qed.
  Lemma calm_F a b : a <> b -> calm F0 (fun F => strF (L F) (g F) (h F) a b).
  Proof.
    intro N. destruct pairs_apart as (d1 & Hd1 & H1), calm_wpos as (d2 & Hd2 & H2).
    apply (calm_ext F0 (fun F => (strK (L F) (g F) a - strK (L F) (g F) b) / (wF F a - wF F b))).
    - exists (Rmin d1 d2). split; [apply Rmin_pos; auto|]. intros F HF.
      specialize (H1 F (near_mono _ _ _ _ (Rmin_l d1 d2) HF)). specialize (H2 F (near_mono _ _ _ _ (Rmin_r d1 d2) HF)).
      unfold strF. assert (S : forall k, L F k ^ 2 = wF F k). { intro k. unfold lam. rewrite <- Rsqr_pow2. apply Rsqr_sqrt. left; apply H2. }
      rewrite !S. rewrite isclose0_false; [reflexivity|]. destruct H1 as (A1 & A2 & A3).
      destruct a, b; try congruence; auto; rewrite Rabs_minus_sym; auto.
    - apply calm_div; [apply calm_sub; apply calm_K|apply calm_sub; apply calm_w|]. apply apart_ne; auto.
  Qed.
  Lemma calm_cdya a b i j p q : calm F0 (fun F => cdya_spec (base (vF F) a) (base (vF F) b) i j p q).
  Proof. unfold cdya_spec. apply calm_div; [repeat apply calm_add; apply calm_mul; apply calm_base|apply calm_const|lra]. Qed.
  Lemma calm_strG : calmV F0 (fun F => strGv lapack (c F) (g F)).
  Proof.
    assert (CG : forall i j, calm F0 (fun F => Gf (strK (L F) (g F)) (vF F) i j)).
    { intros i j. unfold Gf. apply calm_sum3; intro a. apply calm_mul; [apply calm_K|apply calm_base]. }
    intro v. unfold strGv, asvoigt, vec. destruct v; apply CG.
  Qed.
  Lemma calm_strH : calmM F0 (fun F => strHv lapack (c F) (g F) (h F)).
  Proof.
    assert (CH : forall i j p q, calm F0 (fun F => Hf (strD (L F) (g F) (h F)) (strF (L F) (g F) (h F)) (vF F) i j p q)).
    { intros i j p q. unfold Hf. apply calm_add.
      - apply calm_sum3; intro a. apply calm_sum3; intro b. apply calm_mul; [apply calm_D|apply calm_mul; apply calm_base].
      - apply calm_mul; [apply calm_const|]. repeat apply calm_add; (apply calm_mul; [apply calm_F; discriminate|apply calm_cdya]). }
    intros v w. unfold strHv, asvoigt4, vec. destruct v, w; apply CH.
  Qed.
End Eig.

(** *** A stretch model in a space *)
Section StrSpace.
  Context {SV : Type} (lapack : Lapack) (HL : lapack_legal lapack) (m : StretchModel SV) (sv : SV) (ms0 : sm_self m).
  Variables (w1 : Vec3 -> Vec3) (w2 : Vec3 -> ix6 -> option R).
  Hypothesis HM : forall l ms, positive3 l -> exists svn ms', sm_gradient m l sv ms = (ms', Ok (w1 l, svn)) /\
    exists ms'', sm_hessian m l svn ms' = (ms'', Ok (w2 l)).
  Let fw := stretches_fw lapack m.
  Lemma str_closed C s : positive3 (lam lapack C) ->
    (exists svn, outcome (fw_gradient fw C sv) s = Ok (strGv lapack C (w1 (lam lapack C)), svn)) /\
    outcome (fw_hessian fw C sv) s = Ok (strHv lapack C (w1 (lam lapack C)) (w2 (lam lapack C))).
  Proof.
    intro P. destruct (HM (lam lapack C) (st_model m s) P) as (svn & ms' & E1 & ms'' & E2). split.
    - exists svn. unfold fw; cbn [stretches_fw fw_gradient]. unfold outcome. rewrite (str_gradient_ok lapack m C sv s ms' _ svn E1). reflexivity.
    - destruct (str_hessian_ok lapack m C sv s ms' _ svn ms'' _ E1 E2) as (s' & E & _). unfold fw; cbn [stretches_fw fw_hessian]. unfold outcome. rewrite E. reflexivity.
  Qed.
  Variable F0 : T2.
  Hypothesis CM : forall l : T2 -> Vec3, (forall a, calm F0 (fun F => l F a)) -> positive3 (l F0) ->
    (forall a, calm F0 (fun F => w1 (l F) a)) /\ (forall v, calm F0 (fun F => val (w2 (l F) v))).
  Hypothesis N0 : invertible F0.
  Notation sn k F := (seen k (right_CG F)).
  Notation wF k F := (fst (lapack (astensor (sn k F)))).
  Notation vF k F := (snd (lapack (astensor (sn k F)))).
  Lemma eig_seen k F : eig_legal (astensor (sn k F)) (wF k F) (vF k F). Proof. apply HL. Qed.
  Lemma w_pos k F : invertible F -> forall a, 0 < wF k F a.
  Proof. intro N. apply (proj1 (eig_posdef _ _ _ (eig_seen k F))). apply (posdef_seen k F N). Qed.
  Lemma lam_pos k F : invertible F -> positive3 (lam lapack (sn k F)).
  Proof. intros N a. apply sqrt_lt_R0, w_pos, N. Qed.
  Definition hvS k F : Mat6 := strHv lapack (sn k F) (w1 (lam lapack (sn k F))) (w2 (lam lapack (sn k F))).
  Section K.
    Variables (k : SpaceKind) (Hap : apart (wF k F0)).
    Lemma CM_lam : (forall a, calm F0 (fun F => w1 (lam lapack (sn k F)) a)) /\ (forall v, calm F0 (fun F => val (w2 (lam lapack (sn k F)) v))).
    Proof.
      apply (CM (fun F => lam lapack (sn k F))); [|apply lam_pos, N0].
      intro a. apply (calm_lam lapack HL F0 (fun F => sn k F) (calm_seen F0 k N0) (w_pos k F0 N0)).
    Qed.
    Lemma calm_g : calmV F0 (fun F => strGv lapack (sn k F) (w1 (lam lapack (sn k F)))).
    Proof. exact (calm_strG lapack HL F0 (fun F => sn k F) (calm_seen F0 k N0) Hap (w_pos k F0 N0) (fun F => w1 (lam lapack (sn k F))) (proj1 CM_lam)). Qed.
    Lemma calm_h : calmM F0 (hvS k).
    Proof. exact (calm_strH lapack HL F0 (fun F => sn k F) (calm_seen F0 k N0) Hap (w_pos k F0 N0) (fun F => w1 (lam lapack (sn k F))) (fun F => w2 (lam lapack (sn k F))) (proj1 CM_lam) (proj2 CM_lam)). Qed.

    Lemma str_smooth (Dom : T2 -> Prop) d0 : 0 < d0 -> (forall F, near d0 F F0 -> Dom F) -> (forall F, near d0 F F0 -> invertible F) ->
      sp_hessian_of (sp_gradient k fw default_opts) (sp_hessian k fw default_opts) Dom ->
      (k = KDistortional -> exists b, forall F, near d0 F F0 ->
         allclose0 (mscal6 (4 * Rpower (det (right_CG F)) (- 2 / 3)) (hvS k F)) = b) ->
      smooth_at (material k fw sv) F0.
    Proof.
      intros Hd HD HI HH HB.
      refine (space_smooth fw k sv F0 Dom HH (fun F => strGv lapack (sn k F) (w1 (lam lapack (sn k F)))) (hvS k) d0 Hd HD _ _ calm_g calm_h N0
        (space_self0 fw (Build_StrSelf m None None ms0)) HB).
      - intros F s HF. apply str_closed, lam_pos, HI, HF.
      - intros F s HF. apply str_closed, lam_pos, HI, HF.
    Qed.
    Lemma sep_near : exists d, 0 < d /\ forall F, near d F F0 -> invertible F /\ separated (astensor (sn k F)).
    Proof.
      destruct (invertible_open F0 N0) as (d1 & Hd1 & HI), (pairs_apart lapack HL F0 (fun F => sn k F) (calm_seen F0 k N0) Hap) as (d2 & Hd2 & HA).
      exists (Rmin d1 d2). split; [apply Rmin_pos; auto|]. intros F HF. split; [apply HI; revert HF; apply near_mono, Rmin_l|].
      assert (A : apart (wF k F)) by (apply HA; revert HF; apply near_mono, Rmin_r). destruct A as (A1 & A2 & A3).
      intros w v L a b. rewrite (eig_unique _ _ _ _ _ L (eig_seen k F)).
      destruct a, b; auto; right; auto; rewrite Rabs_minus_sym; auto.
    Qed.
  End K.
  Lemma str_deformation : sp_hessian_of (def_gradient fw default_opts) (def_hessian fw default_opts) (fun F => invertible F /\ separated (cauchy_green F)) ->
    apart (wF KDeformation F0) -> smooth_at (material KDeformation fw sv) F0.
  Proof.
    intros HH Hap. destruct (sep_near KDeformation Hap) as (d & Hd & HS).
    refine (str_smooth KDeformation Hap (fun F => invertible F /\ separated (cauchy_green F)) d Hd _ (fun F HF => proj1 (HS F HF)) HH _); [|discriminate].
    intros F HF. destruct (HS F HF) as [I1 S1]. split; [exact I1|]. rewrite <- right_CG_full. exact S1.
  Qed.
  Lemma str_distortional : sp_hessian_of (dis_gradient fw default_opts) (dis_hessian fw default_opts)
      (fun F => invertible F /\ separated (distortional_part (cauchy_green F)) /\ significant_at fw F) ->
    apart (wF KDistortional F0) ->
    (forall F sv' s H, outcome (fw_hessian fw (sn KDistortional F) sv') s = Ok H -> invertible F -> H = hvS KDistortional F) ->
    (exists v w, / 10 ^ 8 < Rabs (4 * Rpower (det (right_CG F0)) (-2 / 3) * hvS KDistortional F0 v w)) ->
    smooth_at (material KDistortional fw sv) F0.
  Proof.
    intros HH Hap HU (v & w & LL). destruct (sep_near KDistortional Hap) as (d1 & Hd1 & HS).
    assert (CE : calm F0 (fun F => 4 * Rpower (det (right_CG F)) (-2 / 3) * hvS KDistortional F v w)).
    { apply calm_mul; [apply calm_mul; [apply calm_const|apply calm_pow_det; exact N0]|]. apply calm_h, Hap. }
    destruct (calm_open F0 _ _ (calm_abs _ _ CE) LL) as (d2 & Hd2 & HLl).
    assert (NM : forall F, near (Rmin d1 d2) F F0 -> near d1 F F0 /\ near d2 F F0) by (intros F HF; split; revert HF; apply near_mono; [apply Rmin_l|apply Rmin_r]).
    assert (SE : forall F, asvoigt (distortional_part (cauchy_green F)) = sn KDistortional F) by (intro F; rewrite seen_dist_voigt; reflexivity).
    assert (DE : forall F, det3 (cauchy_green F) = det (right_CG F)) by (intro F; rewrite <- right_CG_full; symmetry; apply det_astensor).
    refine (str_smooth KDistortional Hap _ (Rmin d1 d2) (Rmin_pos _ _ Hd1 Hd2) _ _ HH _).
    - intros F HF. destruct (NM F HF) as [Q1 Q2]. destruct (HS F Q1) as [I1 S1]. split; [exact I1|]. split.
      + rewrite <- (right_CG_full F), <- dist_part. exact S1.
      + intros sv' s H E. rewrite SE in E. rewrite (HU F sv' s H E I1). right. exists v, w. rewrite DE. exact (HLl F Q2).
    - intros F HF. apply HS, NM, HF.
    - intros _. exists false. intros F HF. apply allclose_false with v w. exact (HLl F (proj2 (NM F HF))).
  Qed.
End StrSpace.

(** *** Ogden *)
Lemma og_g_calm F0 l terms a : (forall a, calm F0 (fun F => l F a)) -> positive3 (l F0) -> calm F0 (fun F => og_g terms (l F) a).
Proof.
  intros Hl P. induction terms as [|[mu al] r IH]; cbn [og_g]; [apply calm_const|]. apply calm_add; [|exact IH].
  apply calm_mul; [apply calm_const|]. apply calm_power; [apply Hl|apply P].
Qed.
Lemma og_h_calm F0 l terms a : (forall a, calm F0 (fun F => l F a)) -> positive3 (l F0) -> calm F0 (fun F => og_h terms (l F) a).
Proof.
  intros Hl P. induction terms as [|[mu al] r IH]; cbn [og_h]; [apply calm_const|]. apply calm_add; [|exact IH].
  apply calm_mul; [apply calm_const|]. apply calm_power; [apply Hl|apply P].
Qed.
Section Ogden.
  Context {SV : Type} (lapack : Lapack) (HL : lapack_legal lapack) (mu alpha : list R).
  Hypothesis HA : forall m a, In (m, a) (combine mu alpha) -> a <> 0.
  Let og := {| og_mu := mu; og_alpha := alpha |}.
  Let fw := stretches_fw lapack (ogden_model (SV:=SV) og).
  Lemma ogden_HM (sv : SV) l ms : positive3 l -> exists svn ms', sm_gradient (ogden_model og) l sv ms = (ms', Ok (ogden_gradient og l, svn)) /\
    exists ms'', sm_hessian (ogden_model og) l svn ms' = (ms'', Ok (ogden_hessian og l)).
  Proof. intros _. exists sv, ms. split; [reflexivity|]. exists ms. reflexivity. Qed.
  Lemma ogden_CM F0 (l : T2 -> Vec3) : (forall a, calm F0 (fun F => l F a)) -> positive3 (l F0) ->
    (forall a, calm F0 (fun F => ogden_gradient og (l F) a)) /\ (forall v, calm F0 (fun F => val (ogden_hessian og (l F) v))).
  Proof.
    intros Hl P. split.
    - intro a. apply (calm_ext F0 (fun F => og_g (combine mu alpha) (l F) a)); [|apply og_g_calm; auto].
      exists 1. split; [lra|]. intros F _. rewrite ogden_gradient_eq. reflexivity.
    - intro v. apply (calm_ext F0 (fun F => match v with V0 => og_h (combine mu alpha) (l F) X0 | V1 => og_h (combine mu alpha) (l F) X1
         | V2 => og_h (combine mu alpha) (l F) X2 | _ => 0 end)).
      + exists 1. split; [lra|]. intros F _. rewrite ogden_hessian_eq. destruct v; reflexivity.
      + destruct v; try apply calm_const; apply og_h_calm; auto.
  Qed.
  Lemma ogden_deformation sv F : invertible F -> apart (fst (lapack (cauchy_green F))) -> smooth_at (material KDeformation fw sv) F.
  Proof.
    intros N Hap. rewrite <- right_CG_full in Hap.
    refine (str_deformation lapack HL (ogden_model og) sv tt (ogden_gradient og) (ogden_hessian og) (ogden_HM sv) F (ogden_CM F) N
      (C19_deformation_ogden_partial SV lapack mu alpha HL HA) Hap).
  Qed.
  Lemma ogden_distortional sv F : invertible F -> apart (fst (lapack (distortional_part (cauchy_green F)))) ->
    tangent_kept fw sv F -> smooth_at (material KDistortional fw sv) F.
  Proof.
    intros N Hap (s & H & v & w & E & L).
    assert (HU : forall F sv' s H, outcome (fw_hessian fw (seen KDistortional (right_CG F)) sv') s = Ok H -> invertible F -> H = hvS lapack (ogden_gradient og) (ogden_hessian og) KDistortional F).
    { intros F' sv' s' H' E' N'. destruct (str_closed lapack (ogden_model og) sv' _ _ (ogden_HM sv') _ s' (lam_pos lapack HL KDistortional F' N')) as [_ X].
      fold fw in X. rewrite X in E'. injection E' as <-. reflexivity. }
    refine (str_distortional lapack HL (ogden_model og) sv tt (ogden_gradient og) (ogden_hessian og) (ogden_HM sv) F (ogden_CM F) N
      (C31_ogden_partial SV lapack mu alpha HL HA) _ HU _).
    - change (right_CG F) with (asvoigt (cauchy_green F)). rewrite dist_part, astensor_asvoigt_f by apply cauchy_green_sym. exact Hap.
    - exists v, w. rewrite seen_dist_voigt in E. rewrite <- (HU F sv s H E N). rewrite <- right_CG_full, <- det_astensor in L. exact L.
  Qed.
End Ogden.

(** *** Generalized invariants of a third-order-deformation energy *)
Lemma accum_some {A} x (acc : A -> R) f : (forall a, f 0 a = 0) -> accum x acc f = accum (Some (val x)) acc f.
Proof. intro H. apply functional_extensionality; intro a. rewrite !accum_val by auto. reflexivity. Qed.
Lemma genG_val c st g1 g2 g3 : genG c st g1 g2 g3 = genG c st (Some (val g1)) (Some (val g2)) (Some (val g3)).
Proof.
  unfold genG; cbv zeta. rewrite (accum_some g3), (accum_some g2), (accum_some g1) by (intros; ring). reflexivity.
Qed.
Lemma accum_ext {A} x (acc acc' : A -> R) f : acc = acc' -> accum x acc f = accum x acc' f. Proof. intros ->. reflexivity. Qed.
Lemma genH_val c st g1 g2 g3 h : genH c st g1 g2 g3 h = genH c st (Some (val g1)) (Some (val g2)) (Some (val g3)) (fun v => Some (val (h v))).
Proof.
  unfold genH; cbv zeta.
  rewrite (accum_some (h V0)), (accum_some (h V1)), (accum_some (h V2)), (accum_some (h V3)), (accum_some (h V4)), (accum_some (h V5)) by (intros; ring).
  rewrite !(accum_some g3), !(accum_some g2), !(accum_some g1) by (intros; try destruct (mixed _); ring). reflexivity.
Qed.
Lemma st_fields (st st' : ix3 -> StrainVal) : (forall a, sE (st a) = sE (st' a) /\ sdE (st a) = sdE (st' a) /\ sd2E (st a) = sd2E (st' a)) ->
  (forall c, genI c st = genI c st') /\ (forall c g1 g2 g3, genG c st g1 g2 g3 = genG c st' g1 g2 g3) /\ (forall c g1 g2 g3 h, genH c st g1 g2 g3 h = genH c st' g1 g2 g3 h).
Proof.
  intro H.
  assert (E1 : (fun a => sE (st a)) = (fun a => sE (st' a))) by (apply functional_extensionality; intro a; apply H).
  assert (E2 : (fun a => sdE (st a)) = (fun a => sdE (st' a))) by (apply functional_extensionality; intro a; apply H).
  assert (E3 : (fun a => sd2E (st a)) = (fun a => sd2E (st' a))) by (apply functional_extensionality; intro a; apply H).
  split; [|split].
  - intro c. unfold genI; cbv zeta. rewrite !(proj1 (H _)). reflexivity.
  - intros. rewrite (genG_val c st), (genG_val c st'). apply functional_extensionality; intro a. unfold genG; cbv zeta. cbn [accum].
    rewrite ?(proj1 (H _)), ?(proj1 (proj2 (H _))). reflexivity.
  - intros. rewrite (genH_val c st), (genH_val c st'). apply functional_extensionality; intro v. unfold genH; cbv zeta. cbn [accum].
    rewrite ?(proj1 (H _)), ?(proj1 (proj2 (H _))), ?(proj2 (proj2 (H _))). reflexivity.
Qed.

Section GenTod.
  Context {SV : Type} (lapack : Lapack) (HL : lapack_legal lapack) (md : TOD) (fs : R -> Result StrainVal) (c : GenConst).
  Variables (E E' E'' E3 : R -> R) (HM : measure_of fs E E' E'') (H3 : forall l, 0 < l -> is_derive E'' l (E3 l)).
  Let sm := gen_model (tod_model (SV:=SV) md) fs c.
  Let fw := stretches_fw lapack sm.
  Definition stE (l : Vec3) (a : ix3) : StrainVal := {| sE := E (l a); sdE := E' (l a); sd2E := E'' (l a); sE0 := 0; sdE0 := 0; sd2E0 := 0 |}.
  Definition gw1 (l : Vec3) : Vec3 := let J := genI c (stE l) in genG c (stE l) (Some (tw1 md J X0)) (Some (tw1 md J X1)) (Some 0).
  Definition gw2 (l : Vec3) (v : ix6) : option R := let J := genI c (stE l) in
    Some (genH c (stE l) (Some (tw1 md J X0)) (Some (tw1 md J X1)) (Some 0) (fun v => Some (tw2 md J v)) v).
  Lemma gen_HM (sv : SV) l ms : positive3 l -> exists svn ms', sm_gradient sm l sv ms = (ms', Ok (gw1 l, svn)) /\
    exists ms'', sm_hessian sm l svn ms' = (ms'', Ok (gw2 l)).
  Proof.
    intro P. destruct (strain3_ok fs E E' E'' l HM P) as (st & Es & HS).
    destruct (st_fields st (stE l) HS) as (F1 & F2 & F3).
    destruct (tod_closed md sv (genI c (stE l))) as (g & svn & h & A1 & A2 & _ & _ & A5 & A6).
    assert (svn = sv) as ->. { destruct (tod_call md (genI c (stE l)) sv) as (g' & A' & _). rewrite A1 in A'. injection A' as _ A'. exact A'. }
    destruct g as [[g1 g2] g3]. assert (B0 := A5 X0). assert (B1 := A5 X1). assert (B2 := A5 X2). cbn [o3 fst snd tw1] in B0, B1, B2.
    assert (OG : forall s, outcome (gen_gradient (tod_model md) fs c l sv) s = Ok (gw1 l, sv)).
    { intro s. rewrite gen_grad_core, Es. cbn [rbind]. rewrite F1, A1. cbn [rbind]. rewrite F2, genG_val, B0, B1, B2. reflexivity. }
    assert (OH : forall s, outcome (gen_hessian (tod_model md) fs c l sv) s = Ok (gw2 l)).
    { intro s. rewrite gen_hess_core, Es. cbn [rbind]. rewrite F1, A1. cbn [rbind]. rewrite A2. cbn [rbind]. apply f_equal.
      apply functional_extensionality; intro v. unfold gw2; cbv zeta. rewrite F3, genH_val, B0, B1, B2.
      replace (fun v => Some (val (h v))) with (fun v => Some (tw2 md (genI c (stE l)) v)) by (apply functional_extensionality; intro; rewrite A6; reflexivity).
      reflexivity. }
    destruct (outcome_pair _ _ _ (OG ms)) as [ms' EG]. destruct (outcome_pair _ _ _ (OH ms')) as [ms'' EH].
    exists sv, ms'. split; [exact EG|]. exists ms''. exact EH.
  Qed.
  Lemma gen_CM F0 (l : T2 -> Vec3) : (forall a, calm F0 (fun F => l F a)) -> positive3 (l F0) ->
    (forall a, calm F0 (fun F => gw1 (l F) a)) /\ (forall v, calm F0 (fun F => val (gw2 (l F) v))).
  Proof.
    intros Hl P.
    assert (C0 : forall a, calm F0 (fun F => sE (stE (l F) a))).
    { intro a. apply (calm_comp F0 E (E' (l F0 a)) (fun F => l F a) (Hl a)). apply is_derive_Reals. apply HM, P. }
    assert (C1 : forall a, calm F0 (fun F => sdE (stE (l F) a))).
    { intro a. apply (calm_comp F0 E' (E'' (l F0 a)) (fun F => l F a) (Hl a)). apply is_derive_Reals. apply HM, P. }
    assert (C2 : forall a, calm F0 (fun F => sd2E (stE (l F) a))).
    { intro a. apply (calm_comp F0 E'' (E3 (l F0 a)) (fun F => l F a) (Hl a)). apply is_derive_Reals. apply H3, P. }
    assert (CI : forall k, calm F0 (fun F => genI c (stE (l F)) k)).
    { intros []; unfold genI; cbv zeta; cbn [vec3]; repeat first [apply C0|calm1; cbv beta]. }
    assert (T1 : forall k, calm F0 (fun F => tw1 md (genI c (stE (l F))) k)).
    { pose proof (CI X0) as I0. pose proof (CI X1) as I1. intros []; cbn [tw1]; repeat first [exact I0|exact I1|calm1; cbv beta]. }
    assert (T2c : forall v, calm F0 (fun F => tw2 md (genI c (stE (l F))) v)).
    { pose proof (CI X0) as I0. intros []; cbn [tw2]; repeat first [exact I0|calm1; cbv beta]. }
    split.
    - intro a. unfold gw1; cbv zeta. unfold genG; cbv zeta. cbn [accum]. repeat first [apply C0|apply C1|apply T1|calm1; cbv beta].
    - intro v. unfold gw2; cbv zeta. cbn [val]. unfold genH; cbv zeta. cbn [accum].
      destruct (mixed v); repeat first [apply C0|apply C1|apply C2|apply T1|apply T2c|calm1; cbv beta].
  Qed.
  Lemma gen_deformation sv F : invertible F -> apart (fst (lapack (cauchy_green F))) -> smooth_at (material KDeformation fw sv) F.
  Proof.
    intros N Hap. rewrite <- right_CG_full in Hap.
    refine (str_deformation lapack HL sm sv gen_self0 gw1 gw2 (gen_HM sv) F (gen_CM F) N
      (C19_deformation_generalized_partial SV lapack md fs c E E' E'' HL HM) Hap).
  Qed.
  Lemma gen_distortional sv F : invertible F -> apart (fst (lapack (distortional_part (cauchy_green F)))) ->
    tangent_kept fw sv F -> smooth_at (material KDistortional fw sv) F.
  Proof.
    intros N Hap (s & H & v & w & EE & L).
    assert (HU : forall F sv' s H, outcome (fw_hessian fw (seen KDistortional (right_CG F)) sv') s = Ok H -> invertible F -> H = hvS lapack gw1 gw2 KDistortional F).
    { intros F' sv' s' H' E0 N'. destruct (str_closed lapack sm sv' _ _ (gen_HM sv') _ s' (lam_pos lapack HL KDistortional F' N')) as [_ X].
      fold fw in X. rewrite X in E0. injection E0 as <-. reflexivity. }
    destruct (gen_tod_grad (SV:=SV) md fs E E' E'' c HM) as (psi & Hs & HGr). destruct (C18_energy_exists psi) as [W HW].
    assert (HG : fw_gradient_of fw W (fun C => posdef C /\ separated C)).
    { intros C t1 dC S HC [P _]. exact (C18_gradient SV lapack _ psi positive3 W HL HW Hs HGr C t1 dC S HC (stretch_dom_positive _ P)). }
    refine (str_distortional lapack HL sm sv gen_self0 gw1 gw2 (gen_HM sv) F (gen_CM F) N _ _ HU _).
    - intros G t0 dF HF (N' & Sep & Sg).
      exact (C31_tangent_partial SV fw W _ HG (C19_generalized_third_order_deformation SV lapack md fs c E E' E'' HL HM) G t0 dF HF (conj N' (conj (conj (dist_posdef _ N') Sep) Sg))).
    - change (right_CG F) with (asvoigt (cauchy_green F)). rewrite dist_part, astensor_asvoigt_f by apply cauchy_green_sym. exact Hap.
    - exists v, w. rewrite seen_dist_voigt in EE. rewrite <- (HU F sv s H EE N). rewrite <- right_CG_full, <- det_astensor in L. exact L.
  Qed.
End GenTod.
