(** Fits of materials that are linear in their parameters (C59). *)
From Coq Require Import Reals Lra Lia List String Psatz.
From Verif Require Import Tensor Py Models Spec Lab LabSpec LabMech LabCurves LabFit CurveProofs LsqSpec PropLab.
Import ListNotations.
Local Open Scope R_scope.

(** *** lists of numbers *)
Lemma mix_length t p q : List.length p = List.length q -> List.length (mix t p q) = List.length p.
Proof. intro L. unfold mix. rewrite map_length, combine_length, L. apply Nat.min_id. Qed.
Lemma mix_app t a b c d : List.length a = List.length b -> mix t (a ++ c) (b ++ d) = mix t a b ++ mix t c d.
Proof.
  revert b; induction a as [|x a IH]; intros [|y b] L; cbn in L; try discriminate; [reflexivity|].
  unfold mix in *. cbn. f_equal. apply IH. lia.
Qed.
Definition gap (p q : list R) : R := fold_right Rplus 0 (map (fun z => Rabs (fst z - snd z)) (combine p q)).
Lemma gap_pos p q : 0 <= gap p q.
Proof. unfold gap. induction (combine p q) as [|z l IH]; cbn; [lra|]. assert (H := Rabs_pos (fst z - snd z)). lra. Qed.
Lemma mix_close t e p q : List.length p = List.length q -> 0 <= t -> t * gap p q < e -> 0 < e -> close e (mix t p q) p.
Proof.
  intros L T G E. split; [apply mix_length; exact L|].
  revert q L G; induction p as [|x p IH]; intros [|y q] L G; cbn in L; try discriminate.
  - intros []; cbn; rewrite Rminus_0_r, Rabs_R0; exact E.
  - change (gap (x :: p) (y :: q)) with (Rabs (x - y) + gap p q) in G.
    assert (H1 := Rabs_pos (x - y)). assert (H2 := gap_pos p q).
    intros [|i].
    + cbn. replace ((1 - t) * x + t * y - x) with (t * (- (x - y))) by ring. rewrite Rabs_mult, Rabs_Ropp, (Rabs_pos_eq t) by exact T. nra.
    + apply (IH q); [lia|nra].
Qed.
Lemma squares_mix t r s : List.length r = List.length s ->
  sum_squares (mix t r s) = (1 - t) * sum_squares r + t * sum_squares s - t * (1 - t) * sum_squares (map (fun z => fst z - snd z) (combine r s)).
Proof.
  revert s; induction r as [|x r IH]; intros [|y s] L; cbn in L; try discriminate; [cbn; ring|].
  specialize (IH s ltac:(lia)). unfold mix, sum_squares in *. cbn -[pow] in *. rewrite IH. ring.
Qed.
Lemma squares_pos l : 0 <= sum_squares l.
Proof. apply sum_squares_pos. Qed.
Lemma squares_zero r s : List.length r = List.length s -> sum_squares (map (fun z => fst z - snd z) (combine r s)) = 0 -> r = s.
Proof.
  revert s; induction r as [|x r IH]; intros [|y s] L Z; cbn in L; try discriminate; [reflexivity|].
  change (sum_squares (map (fun z => fst z - snd z) (combine (x :: r) (y :: s)))) with ((x - y) ^ 2 + sum_squares (map (fun z => fst z - snd z) (combine r s))) in Z.
  assert (P := squares_pos (map (fun z => fst z - snd z) (combine r s))). assert (Q := pow2_ge_0 (x - y)).
  f_equal; [nra|]. apply IH; [lia|lra].
Qed.
(** *** convexity *)
Section Res.
  Context (res : list R -> list R).
  Context (HL : forall p q, List.length p = List.length q -> List.length (res p) = List.length (res q)).
  Context (HA : forall p q t, List.length p = List.length q -> res (mix t p q) = mix t (res p) (res q)).
  Lemma convex p q t : List.length p = List.length q -> 0 <= t <= 1 ->
    sum_squares (res (mix t p q)) <= (1 - t) * sum_squares (res p) + t * sum_squares (res q).
  Proof.
    intros L T. rewrite HA, squares_mix by auto. assert (P := squares_pos (map (fun z => fst z - snd z) (combine (res p) (res q)))).
    assert (0 <= t * (1 - t)) by nra. nra.
  Qed.
  Lemma local_global p e : 0 < e -> (forall q, close e q p -> sum_squares (res p) <= sum_squares (res q)) ->
    forall q, List.length q = List.length p -> sum_squares (res p) <= sum_squares (res q).
  Proof.
    intros E H q L. destruct (Rle_or_lt (sum_squares (res p)) (sum_squares (res q))) as [|G]; [assumption|exfalso].
    assert (D := gap_pos p q). set (t := Rmin 1 (e / (2 * (1 + gap p q)))).
    assert (T0 : 0 < t). { unfold t. apply Rmin_glb_lt; [lra|]. apply Rdiv_lt_0_compat; lra. }
    assert (T1 : t <= 1) by apply Rmin_l.
    assert (T2 : t * gap p q < e).
    { assert (t <= e / (2 * (1 + gap p q))) by apply Rmin_r.
      apply Rle_lt_trans with (e / (2 * (1 + gap p q)) * gap p q); [apply Rmult_le_compat_r; lra|].
      replace (e / (2 * (1 + gap p q)) * gap p q) with (e / 2 * (gap p q / (1 + gap p q))) by (field; lra).
      assert (gap p q / (1 + gap p q) <= 1). { apply Rmult_le_reg_r with (1 + gap p q); [lra|]. unfold Rdiv. rewrite Rmult_assoc, Rinv_l by lra. lra. }
      nra. }
    assert (C := H (mix t p q) (mix_close t e p q ltac:(auto) ltac:(lra) T2 E)).
    assert (V := convex p q t ltac:(auto) ltac:(lra)). nra.
  Qed.
  Lemma same_residuals p q : List.length p = List.length q ->
    (forall s, List.length s = List.length p -> sum_squares (res p) <= sum_squares (res s)) ->
    (forall s, List.length s = List.length q -> sum_squares (res q) <= sum_squares (res s)) -> res p = res q.
  Proof.
    intros L P Q. apply squares_zero; [auto|].
    assert (E1 := P q ltac:(auto)). assert (E2 := Q p ltac:(auto)).
    assert (M := P (mix (1 / 2) p q) (mix_length _ _ _ L)). rewrite HA, squares_mix in M by auto.
    assert (Z := squares_pos (map (fun z => fst z - snd z) (combine (res p) (res q)))). lra.
  Qed.
End Res.
(** *** keyword arguments *)
Definition lerp (t a b : R) : R := (1 - t) * a + t * b.
Definition mixed (t : R) (d1 d2 d3 : Dict) : Prop := forall k,
  match dict_get d1 k, dict_get d2 k with
  | Some a, Some b => dict_get d3 k = Some (lerp t a b) | None, None => dict_get d3 k = None | _, _ => False end.
Lemma get_set d k v k' : dict_get (dict_set d k v) k' = if String.eqb k k' then Some v else dict_get d k'.
Proof.
  induction d as [|[k0 v0] d IH]; cbn; [reflexivity|]. destruct (String.eqb k0 k) eqn:E; cbn.
  - apply String.eqb_eq in E; subst k0. destruct (String.eqb k k'); reflexivity.
  - rewrite IH. destruct (String.eqb k0 k') eqn:E0; [|reflexivity]. apply String.eqb_eq in E0; subst k0. rewrite String.eqb_sym, E. reflexivity.
Qed.
Lemma mixed_fold t labels : forall p q d1 d2 d3, List.length p = List.length q -> mixed t d1 d2 d3 ->
  mixed t (fold_left (fun d lp => dict_set d (fst lp) (snd lp)) (combine labels p) d1)
          (fold_left (fun d lp => dict_set d (fst lp) (snd lp)) (combine labels q) d2)
          (fold_left (fun d lp => dict_set d (fst lp) (snd lp)) (combine labels (mix t p q)) d3).
Proof.
  induction labels as [|k labels IH]; intros p q d1 d2 d3 L M; [exact M|].
  destruct p as [|a p], q as [|b q]; cbn in L; try discriminate; [exact M|]. cbn [combine mix map fold_left fst snd].
  apply IH; [lia|]. intro k'. rewrite !get_set. destruct (String.eqb k k'); [reflexivity|apply M].
Qed.
Lemma kw_mix t labels p q k : List.length p = List.length q ->
  kw (kwargs_of labels (mix t p q)) k = lerp t (kw (kwargs_of labels p) k) (kw (kwargs_of labels q) k).
Proof.
  intro L. assert (M := mixed_fold t labels p q [] [] [] L (fun k => eq_refl) k). fold (kwargs_of labels p) (kwargs_of labels q) (kwargs_of labels (mix t p q)) in M.
  unfold kw. destruct (dict_get (kwargs_of labels p) k), (dict_get (kwargs_of labels q) k); try contradiction; rewrite M; unfold lerp; [reflexivity|ring].
Qed.
Lemma keys_set d k v k' v' : In (k', v') (dict_set d k v) -> k' = k \/ exists v'', In (k', v'') d.
Proof.
  induction d as [|[k0 v0] d IH]; cbn; [intros [E|[]]; injection E as <- _; auto|].
  destruct (String.eqb k0 k); cbn; intros [E|I].
  - injection E as <- _; auto.
  - right; exists v'; auto.
  - injection E as <- <-. right; exists v0; auto.
  - destruct (IH I) as [|[v'' I']]; auto. right; exists v''; auto.
Qed.
Lemma keys_kwargs labels p k v : In (k, v) (kwargs_of labels p) -> In k labels.
Proof.
  unfold kwargs_of.
  assert (G : forall l d, In (k, v) (fold_left (fun d lp => dict_set d (fst lp) (snd lp)) l d) -> In k (map fst l) \/ exists v', In (k, v') d).
  { induction l as [|[k0 v0] l IH]; cbn; intros d I; [right; exists v; auto|].
    destruct (IH _ I) as [|[v' I']]; [auto|]. destruct (keys_set _ _ _ _ _ I') as [->|[v'' I'']]; eauto. }
  intro I. destruct (G _ _ I) as [J|[v' []]]. revert p I J; induction labels as [|k0 labels IH]; intros [|a p] I J; cbn in J; try contradiction.
  destruct J as [->|J]; [left; reflexivity|]. right.
  clear - J. revert p J; induction labels as [|k1 l IH]; intros [|a p] J; cbn in J; try contradiction. destruct J as [->|J]; [left; reflexivity|right; eauto].
Qed.
Lemma get_in d k v : dict_get d k = Some v -> In (k, v) d.
Proof.
  induction d as [|[k0 v0] d IH]; cbn; [discriminate|]. destruct (String.eqb k0 k) eqn:E; [|auto].
  apply String.eqb_eq in E; subst. intro H; injection H as ->. auto.
Qed.
(** *** the material for given parameters *)
Definition tod_for (labels : list string) (p : list R) : TOD := let d := kwargs_of labels p in
  tod_init (kw d "C10") (kw d "C01") (kw d "C11") (kw d "C20") (kw d "C30") false.
Lemma tod_for_ok labels p : (forall k, In k labels -> In k coefficient_labels) -> tod_of_kwargs (kwargs_of labels p) = Ok (tod_for labels p).
Proof.
  intro H. unfold tod_of_kwargs.
  assert (F : forallb (fun kv : string * R => existsb (String.eqb (fst kv)) tod_keywords) (kwargs_of labels p) = true).
  { apply forallb_forall. intros [k v] I. apply existsb_exists. exists k. split; [|apply String.eqb_refl].
    specialize (H k (keys_kwargs _ _ _ _ I)). unfold coefficient_labels, tod_keywords in *. cbn in *. tauto. }
  rewrite F. assert (Z : kw (kwargs_of labels p) "strain" = 0).
  { unfold kw. destruct (dict_get (kwargs_of labels p) "strain") as [v|] eqn:E; [|reflexivity]. exfalso.
    apply get_in in E. specialize (H _ (keys_kwargs _ _ _ _ E)). unfold coefficient_labels in H. cbn in H.
    repeat (destruct H as [H|H]; [discriminate|]). exact H. }
  rewrite Z. unfold nonzero. destruct (Req_EM_T 0 0) as [_|N]; [reflexivity|lra].
Qed.
Definition linear_in (f : TOD -> R -> R) : Prop := forall labels p q t l, List.length p = List.length q -> 0 < l ->
  f (tod_for labels (mix t p q)) l = lerp t (f (tod_for labels p) l) (f (tod_for labels q) l).
Ltac lin := intros labels p q t l L P; unfold tod_for, tod_W1, tod_W2, tod_init; cbv zeta; cbn [C10 C01 C11 C20 C30 undeformed];
  rewrite !kw_mix by exact L; unfold lerp; field; lra.
Lemma uni_lin : linear_in uni_f. Proof. unfold uni_f. lin. Qed.
Lemma pla_lin : linear_in pla_f. Proof. unfold pla_f. lin. Qed.
Lemma bia_lin : linear_in bia_f. Proof. unfold bia_f. lin. Qed.
Lemma mix_cons t x y p q : mix t (x :: p) (y :: q) = lerp t x y :: mix t p q.
Proof. reflexivity. Qed.
(** *** residuals *)
Lemma term_affine t : linear_term t -> exists f, linear_in f /\ forall p,
  term_residuals t p = Ok (map (fun z => f (tod_for (si_labels (fst t)) p) (fst z) - snd z) (snd t)).
Proof.
  intros (M & C & K & X).
  assert (T : forall lc p, defgrad (si_loadcase (fst t)) = lc -> tod_simulation (fst t) lc p (tod_for (si_labels (fst t)) p)).
  { intros lc p E. split; [exact E|]. split; [exact M|]. apply tod_for_ok; exact K. }
  assert (P : forall x, In x (map fst (snd t)) -> 0 < x).
  { intros x I. apply in_map_iff in I. destruct I as ([x' y] & <- & I). exact (X x' y I). }
  assert (G : forall f, linear_in f -> (forall p, stress_curve_fit (fst t) (map fst (snd t)) p = Ok (map (f (tod_for (si_labels (fst t)) p)) (map fst (snd t)))) ->
    exists f, linear_in f /\ forall p, term_residuals t p = Ok (map (fun z => f (tod_for (si_labels (fst t)) p) (fst z) - snd z) (snd t))).
  { intros f Lf E. exists f. split; [exact Lf|]. intro p. unfold term_residuals. rewrite E. cbn [rbind]. f_equal.
    clear. induction (snd t) as [|z l IH]; [reflexivity|]. cbn [map combine fst snd]. f_equal. exact IH. }
  destruct C as [C|[C|C]].
  - apply (G uni_f uni_lin). intro p. exact (C38_uniaxial _ p _ _ (T uniaxial p C) P).
  - apply (G pla_f pla_lin). intro p. exact (C38_planar _ p _ _ (T planar p C) P).
  - apply (G bia_f bia_lin). intro p. exact (C38_biaxial _ p _ _ (T biaxial p C) P).
Qed.
Lemma all_affine ts : List.Forall linear_term ts -> exists res, (forall p, all_residuals ts p = Ok (res p)) /\
  (forall p q, List.length p = List.length q -> List.length (res p) = List.length (res q)) /\
  (forall p q t, List.length p = List.length q -> res (mix t p q) = mix t (res p) (res q)).
Proof.
  induction 1 as [|t ts Ht Hts (res & E & HL & HA)].
  - exists (fun _ => []). split; [reflexivity|]. split; reflexivity.
  - destruct (term_affine t Ht) as (f & Lf & Ef).
    exists (fun p => map (fun z => f (tod_for (si_labels (fst t)) p) (fst z) - snd z) (snd t) ++ res p). split; [|split].
    + intro p. specialize (E p). unfold all_residuals in *. cbn [map_r]. rewrite Ef. cbn [rbind].
      destruct (map_r (fun t => term_residuals t p) ts) as [l|] eqn:El; cbn [rbind] in *; [|discriminate]. injection E as E. cbn [List.concat]. now rewrite E.
    + intros p q L. rewrite !app_length, !map_length, (HL p q L). reflexivity.
    + intros p q s L. rewrite mix_app by (rewrite !map_length; reflexivity). f_equal; [|apply HA; exact L].
      destruct Ht as (_ & _ & _ & X). revert X. clear - Lf L. induction (snd t) as [|[x y] l IH]; intro X; [reflexivity|].
      cbn [map fst snd]. rewrite mix_cons. f_equal.
      * rewrite Lf by (auto; apply (X x y); left; reflexivity). unfold lerp. ring.
      * apply IH. intros x' y' I. apply (X x' y'). right; exact I.
Qed.
