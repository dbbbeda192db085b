(** The spaces in IEEE arithmetic: proofs for C70 (no code modelled here). *)
From Coq Require Import Reals List Lra Lia Bool FunctionalExtensionality.
From Verif Require Import Tensor Py Voigt Models Frameworks Spaces Spec SpaceCore SpaceProofs Counter
  Rounded RoundedProofs RoundedStable RoundedCode RoundedSpec RoundedMath RoundedSpaces RoundedSpacesProofs PropStable IEEE IEEEProofs RoundedStretchProofs.
Import ListNotations.
Local Open Scope R_scope.

Lemma within_le d d' w s : d <= d' -> within d w s -> within d' w s.
Proof. intros H (v & -> & W). exists v. split; [auto|lra]. Qed.
(** ** Uniform constants *)
Lemma ieee_uniform (l : list expr) : List.Forall regular l -> exists K d, 0 <= K /\ 0 < d <= 1 /\
  forall e f w, In e l -> fine d f -> ieee f e w -> within (K * eps f) w (exact e).
Proof.
  induction 1 as [|e l He HF (K & d & HK & Hd & H)].
  - exists 0, 1. repeat split; try lra. intros e u x [].
  - destruct (regular_accurate e He) as (K1 & d1 & HK1 & Hd1 & H1). pose proof (Rmin_l d d1) as M1. pose proof (Rmin_r d d1) as M2. assert (PM : 0 < Rmin d d1) by (apply Rmin_pos; lra).
    exists (K + K1), (Rmin d d1). split; [lra|]. split; [split; [exact PM|lra]|].
    intros e' f w [<-|I] U X; pose proof (fine_eps _ f U) as [E0 _].
    + eapply within_le; [|apply (H1 f w); [exact (fine_le _ _ f PM M2 U)|exact X]]. nra.
    + eapply within_le; [|apply (H e' f w); [exact I|exact (fine_le _ _ f PM M1 U)|exact X]]. nra.
Qed.
Lemma ieee_uniform2 (E : XT2) : (forall i j, regular (E i j)) -> exists K d, 0 <= K /\ 0 < d <= 1 /\
  forall f i j w, fine d f -> ieee f (E i j) w -> within (K * eps f) w (exact (E i j)).
Proof.
  intro H. destruct (ieee_uniform (flat_map (fun i => map (fun j => E i j) all3) all3)) as (K & u0 & HK & Hu & HU).
  { apply List.Forall_forall. intros e I. apply in_flat_map in I. destruct I as (i & _ & I). apply in_map_iff in I. destruct I as (j & <- & _). apply H. }
  exists K, u0. split; auto. split; auto. intros u i j x U X. apply (HU (E i j) u x); auto.
  apply in_flat_map. exists i. split; [destruct i; cbn; auto|]. apply in_map_iff. exists j. split; [reflexivity|destruct j; cbn; auto].
Qed.
Lemma ieee_uniform4 (E : XT4) : (forall i j p q, regular (E i j p q)) -> exists K d, 0 <= K /\ 0 < d <= 1 /\
  forall f i j p q w, fine d f -> ieee f (E i j p q) w -> within (K * eps f) w (exact (E i j p q)).
Proof.
  intro H. destruct (ieee_uniform (flat_map (fun i => flat_map (fun j => flat_map (fun p => map (fun q => E i j p q) all3) all3) all3) all3)) as (K & u0 & HK & Hu & HU).
  { apply List.Forall_forall. intros e I. repeat (apply in_flat_map in I; destruct I as (? & _ & I)). apply in_map_iff in I. destruct I as (? & <- & _). apply H. }
  exists K, u0. split; auto. split; auto. intros u i j p q x U X. apply (HU (E i j p q) u x); auto.
  assert (A : forall i : ix3, In i all3) by (intros []; cbn; auto).
  apply in_flat_map. exists i. split; auto. apply in_flat_map. exists j. split; auto. apply in_flat_map. exists p. split; auto.
  apply in_map_iff. exists q. auto.
Qed.
(** ** The tolerance 1e-8 *)
Lemma atol_near d f atol : 0 < d <= 1 -> fine d f -> result f (/ 10 ^ 8) (Some atol) -> Rabs (atol - / 10 ^ 8) <= eps f.
Proof.
  intros Hd HF HR. pose proof (fine_le d 1 f ltac:(lra) ltac:(lra) HF) as (A & B & C & D). rewrite Rinv_1 in D.
  assert (T : 0 < / 10 ^ 8 <= 1). { split; [apply Rinv_0_lt_compat, pow_lt; lra|]. rewrite <- Rinv_1. apply Rinv_le_contravar; [lra|]. apply pow_R1_Rle. lra. }
  destruct HR as (v & E & H); [rewrite Rabs_pos_eq; lra|]. injection E as <-. rewrite (Rabs_pos_eq (/ 10 ^ 8)) in H by lra. unfold eps. nra.
Qed.
(** ** The branch np.allclose(C4b, 0) *)
Lemma ieee_branch k m XF (D : forall v w, regular (x_C4b k m XF v w)) :
  (forall v w, Rabs (exact (x_C4b k m XF v w)) < / 10 ^ 8) \/ (exists v w, / 10 ^ 8 < Rabs (exact (x_C4b k m XF v w))) ->
  exists d, 0 < d <= 1 /\ forall f B atol small, fine d f -> (forall v w, ieee f (x_C4b k m XF v w) (B v w)) -> result f (/ 10 ^ 8) (Some atol) ->
    (small = true <-> forall v w, within atol (B v w) 0) -> small = allclose0 (ex66 (x_C4b k m XF)).
Proof.
  intro H. destruct (ieee_uniform (flat_map (fun v => map (x_C4b k m XF v) all6) all6)) as (K & d0 & HK & Hd & HU).
  { apply List.Forall_forall. intros e I. apply in_flat_map in I. destruct I as (v & _ & I). apply in_map_iff in I. destruct I as (w & <- & _). apply D. }
  assert (A6 : forall v : ix6, In v all6) by (intros []; cbn; tauto).
  assert (HB : forall f v w b, fine d0 f -> ieee f (x_C4b k m XF v w) b -> within (K * eps f) b (exact (x_C4b k m XF v w))).
  { intros f v w b U HR. apply (HU _ f b); auto. apply in_flat_map. exists v. split; auto. apply in_map_iff. eauto. }
  clear HU. set (t := / 10 ^ 8) in *. assert (Ht : 0 < t) by (apply Rinv_0_lt_compat, pow_lt; lra).
  destruct H as [H|(v0 & w0 & H)].
  - assert (G : exists g, 0 < g /\ forall v w, Rabs (exact (x_C4b k m XF v w)) <= t - g).
    { assert (L : forall l : list (ix6 * ix6), exists g, 0 < g /\ forall vw, In vw l -> Rabs (exact (x_C4b k m XF (fst vw) (snd vw))) <= t - g).
      { induction l as [|[v w] l (g & Hg & IH)]; [exists 1; split; [lra|intros ? []]|].
        pose proof (H v w). exists (Rmin g (t - Rabs (exact (x_C4b k m XF v w)))). split; [apply Rmin_pos; lra|].
        intros vw [<-|I]; cbn [fst snd].
        - pose proof (Rmin_r g (t - Rabs (exact (x_C4b k m XF v w)))). lra.
        - pose proof (Rmin_l g (t - Rabs (exact (x_C4b k m XF v w)))). specialize (IH vw I). lra. }
      destruct (L (list_prod all6 all6)) as (g & Hg & HL). exists g. split; auto. intros v w.
      apply (HL (v, w)). apply in_prod; auto. }
    destruct G as (g & Hg & HG). assert (P : 0 < g / (K + 1)) by (apply Rdiv_lt_0_compat; lra).
    pose proof (Rmin_l d0 (g / (K + 1))) as M1. pose proof (Rmin_r d0 (g / (K + 1))) as M2. assert (PM : 0 < Rmin d0 (g / (K + 1))) by (apply Rmin_pos; lra).
    exists (Rmin d0 (g / (K + 1))). split; [split; [exact PM|lra]|].
    intros f B atol small U HR HF HS. pose proof (fine_eps _ f U) as [E0 E1].
    assert (UG : eps f * (K + 1) <= g). { apply Rle_trans with (g / (K + 1) * (K + 1)); [apply Rmult_le_compat_r; lra|]. right. field. lra. }
    pose proof (atol_near _ f atol ltac:(split; [exact PM|lra]) U HF) as AT. fold t in AT. apply EigNear.Rabs_le_inv in AT.
    rewrite (allclose_true (ex66 (x_C4b k m XF))).
    + apply HS. intros v w. destruct (HB f v w (B v w) (fine_le _ _ f PM M1 U) (HR v w)) as (b & -> & W). exists b. split; [reflexivity|]. specialize (HG v w).
      rewrite Rminus_0_r. replace b with ((b - exact (x_C4b k m XF v w)) + exact (x_C4b k m XF v w)) by ring.
      eapply Rle_trans; [apply Rabs_triang|]. lra.
    + intros v w. left. apply H.
  - set (g := Rabs (exact (x_C4b k m XF v0 w0)) - t). assert (Hg : 0 < g) by (unfold g; lra).
    assert (P : 0 < g / (2 * (K + 1))) by (apply Rdiv_lt_0_compat; lra).
    pose proof (Rmin_l d0 (g / (2 * (K + 1)))) as M1. pose proof (Rmin_r d0 (g / (2 * (K + 1)))) as M2. assert (PM : 0 < Rmin d0 (g / (2 * (K + 1)))) by (apply Rmin_pos; lra).
    exists (Rmin d0 (g / (2 * (K + 1)))). split; [split; [exact PM|lra]|].
    intros f B atol small U HR HF HS. pose proof (fine_eps _ f U) as [E0 E1].
    assert (UG : eps f * (K + 1) <= g / 2). { apply Rle_trans with (g / (2 * (K + 1)) * (K + 1)); [apply Rmult_le_compat_r; lra|]. right. field. lra. }
    pose proof (atol_near _ f atol ltac:(split; [exact PM|lra]) U HF) as AT. fold t in AT. apply EigNear.Rabs_le_inv in AT.
    rewrite (allclose_false (ex66 (x_C4b k m XF)) v0 w0 H).
    destruct small; [|reflexivity]. exfalso. destruct (proj1 HS eq_refl v0 w0) as (b' & EB & HX). rewrite Rminus_0_r in HX.
    destruct (HB f v0 w0 (B v0 w0) (fine_le _ _ f PM M1 U) (HR v0 w0)) as (b & EB' & W). rewrite EB in EB'. injection EB' as <-.
    assert (Rabs (exact (x_C4b k m XF v0 w0)) <= Rabs b' + Rabs (b' - exact (x_C4b k m XF v0 w0))).
    { rewrite (Rabs_minus_sym b'). replace (exact (x_C4b k m XF v0 w0)) with (b' + (exact (x_C4b k m XF v0 w0) - b')) at 1 by ring. apply Rabs_triang. }
    unfold g in *. lra.
Qed.
Lemma ieee_elasticity k m XF f a : (forall i j, regular (XF i j)) -> invertible (ex33 XF) ->
  (forall v, regular (c_dWdC m (x_seen k XF) v)) -> (forall v w, regular (c_d2WdCdC m (x_seen k XF) v w)) -> cut k m XF ->
  exists K d, 0 <= K /\ 0 < d <= 1 /\ forall g i j p q x, fine d g -> ieee_hessian g k m f a XF i j p q x ->
    within (K * eps g) x (exact (x_hessian k m XF f a (allclose0 (ex66 (x_C4b k m XF))) i j p q)).
Proof.
  intros HF HD HG HH HC. set (b := allclose0 (ex66 (x_C4b k m XF))).
  assert (RB : forall v w, regular (x_C4b k m XF v w)) by (exact (fw_reg_C4b k m XF HF HD HG HH)).
  destruct (ieee_uniform4 (x_hessian k m XF f a b) (fw_reg_hessian k m XF HF HD HG HH f a b)) as (K & d0 & HK & Hd0 & H).
  assert (BR : exists d, 0 < d <= 1 /\ forall g B atol small i j p q x, fine d g -> (forall v w, ieee g (x_C4b k m XF v w) (B v w)) -> result g (/ 10 ^ 8) (Some atol) ->
    (small = true <-> forall v w, within atol (B v w) 0) -> ieee g (x_hessian k m XF f a small i j p q) x -> ieee g (x_hessian k m XF f a b i j p q) x).
  { assert (CASE : k = KDistortional \/ k <> KDistortional) by (destruct k; [right; discriminate|left; reflexivity|right; discriminate]).
    destruct CASE as [EK|NK].
    - destruct (ieee_branch k m XF RB (HC EK)) as (d1 & Hd1 & HB).
      exists d1. split; auto. intros g B atol small i j p q x U HR HFL HS HX. pose proof (HB g B atol small U HR HFL HS) as EB. unfold b. rewrite <- EB. exact HX.
    - exists 1. split; [lra|]. intros g B atol small i j p q x _ _ _ _ HX.
      replace (x_hessian k m XF f a b i j p q) with (x_hessian k m XF f a small i j p q); [exact HX|].
      clear - NK. unfold x_hessian. destruct k; [reflexivity|congruence|reflexivity]. }
  destruct BR as (d1 & Hd1 & HB). pose proof (Rmin_l d0 d1) as M1. pose proof (Rmin_r d0 d1) as M2. assert (PM : 0 < Rmin d0 d1) by (apply Rmin_pos; lra).
  exists K, (Rmin d0 d1). split; [auto|]. split; [split; [exact PM|lra]|].
  intros g i j p q x U (B & atol & small & HR & HFL & HS & HX). apply (H g i j p q x); [exact (fine_le _ _ g PM M1 U)|].
  apply (HB g B atol small i j p q x (fine_le _ _ g PM M2 U) HR HFL HS HX).
Qed.
