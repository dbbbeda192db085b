(** Division and square root; rounding functions; binary64. *)
From Coq Require Import ZArith Reals List Permutation Lra Lia Psatz.
From Flocq Require Zaux Raux Generic_fmt FLX Relative.
From Verif Require Import Tensor Voigt VoigtProofs Algebra Rounded RoundedProofs RoundedCode RoundedSpec RoundedMath Models Frameworks Spaces Spec SpaceProofs.
Import ListNotations.
Local Open Scope R_scope.

Section U.
  Variable u : R.
  Hypothesis Hu : 0 <= u.
  (** error of a division in terms of the errors of the operands *)
  Lemma div_error x s y d ex ed v : Rabs (x - s) <= ex -> Rabs (y - d) <= ed -> ed < Rabs d ->
    (y <> 0 -> fl u (x / y) v) ->
    Rabs (v - s / d) <= (1 + u) * ((ex + Rabs (s / d) * ed) / (Rabs d - ed)) + u * Rabs (s / d).
  Proof.
    intros Hx Hy Hd Hf.
    assert (Hd0 : d <> 0) by (intro; subst; rewrite Rabs_R0 in Hd; pose proof (Rabs_pos (y - 0)); lra).
    assert (HY : Rabs d - ed <= Rabs y).
    { pose proof (Rabs_triang (d - y) y) as T. replace (d - y + y) with d in T by ring. rewrite Rabs_minus_sym in T. lra. }
    assert (Hy0 : y <> 0) by (intro; subst; rewrite Rabs_R0 in HY; lra).
    specialize (Hf Hy0). set (q := s / d) in *.
    assert (E : Rabs (x / y - q) <= (ex + Rabs q * ed) / (Rabs d - ed)).
    { replace (x / y - q) with (((x - s) + q * (d - y)) * / y) by (unfold q; field; auto).
      rewrite Rabs_mult, Rabs_inv.
      apply Rmult_le_compat; auto using Rabs_pos.
      - left. apply Rinv_0_lt_compat. apply Rabs_pos_lt. auto.
      - eapply Rle_trans; [apply Rabs_triang|]. apply Rplus_le_compat; auto. rewrite Rabs_mult.
        apply Rmult_le_compat_l; [apply Rabs_pos|]. rewrite Rabs_minus_sym. auto.
      - apply Rinv_le_contravar; lra. }
    replace (v - q) with ((v - x / y) + (x / y - q)) by ring.
    eapply Rle_trans; [apply Rabs_triang|]. unfold fl in Hf.
    assert (Rabs (x / y) <= Rabs q + Rabs (x / y - q)).
    { replace (x / y) with (q + (x / y - q)) at 1 by ring. apply Rabs_triang. }
    assert (u * Rabs (x / y) <= u * (Rabs q + Rabs (x / y - q))) by (apply Rmult_le_compat_l; auto).
    assert (u * Rabs (x / y - q) <= u * ((ex + Rabs q * ed) / (Rabs d - ed))) by (apply Rmult_le_compat_l; auto).
    lra.
  Qed.
  (** error of a square root *)
  Lemma sqrt_error y d ed v : Rabs (y - d) <= ed -> ed < d ->
    (0 <= y -> fl u (sqrt y) v) -> Rabs (v - sqrt d) <= (1 + u) * (ed / sqrt d) + u * sqrt d.
  Proof.
    intros Hy Hd Hf. pose proof (Rabs_pos (y - d)) as P. assert (D : 0 < d) by lra.
    assert (Y : 0 < y) by (apply Rabs_def2 with (a := ed) in Hy || (unfold Rabs in Hy; destruct (Rcase_abs (y - d)); lra); lra).
    pose proof (sqrt_lt_R0 _ D) as SD. pose proof (sqrt_lt_R0 _ Y) as SY.
    specialize (Hf (Rlt_le _ _ Y)).
    assert (E : Rabs (sqrt y - sqrt d) <= ed / sqrt d).
    { replace (sqrt y - sqrt d) with ((y - d) * / (sqrt y + sqrt d)).
      - rewrite Rabs_mult, Rabs_inv. apply Rmult_le_compat; auto using Rabs_pos.
        + left. apply Rinv_0_lt_compat. apply Rabs_pos_lt. lra.
        + rewrite Rabs_pos_eq by lra. apply Rinv_le_contravar; lra.
      - pose proof (sqrt_sqrt y (Rlt_le _ _ Y)). pose proof (sqrt_sqrt d (Rlt_le _ _ D)).
        apply Rmult_eq_reg_r with (sqrt y + sqrt d); [|lra]. rewrite Rmult_assoc, Rinv_l by lra. nra. }
    replace (v - sqrt d) with ((v - sqrt y) + (sqrt y - sqrt d)) by ring.
    eapply Rle_trans; [apply Rabs_triang|]. unfold fl in Hf. rewrite (Rabs_pos_eq (sqrt y)) in Hf by lra.
    assert (sqrt y <= sqrt d + ed / sqrt d) by (unfold Rabs in E; destruct (Rcase_abs (sqrt y - sqrt d)); lra).
    assert (u * sqrt y <= u * (sqrt d + ed / sqrt d)) by (apply Rmult_le_compat_l; auto). lra.
  Qed.
End U.

(** ** A rounding function and one order of evaluation (left to right): one of the
    behaviours that [rounded] allows. *)
Fixpoint float_eval (rnd : R -> R) (e : expr) : R :=
  match e with
  | Num x => x
  | Add a b => rnd (float_eval rnd a + float_eval rnd b)
  | Sub a b => rnd (float_eval rnd a - float_eval rnd b)
  | Mul a b => rnd (float_eval rnd a * float_eval rnd b)
  | Div a b => rnd (float_eval rnd a / float_eval rnd b)
  | Sqrt a => rnd (sqrt (float_eval rnd a))
  | Pow a p => rnd (Rpower (float_eval rnd a) (rnd p))
  | Sum l => match l with [] => 0 | e :: l => fold_left (fun s e => rnd (s + float_eval rnd e)) l (float_eval rnd e) end
  | Prod l => match l with [] => 1 | e :: l => fold_left (fun s e => rnd (s * float_eval rnd e)) l (float_eval rnd e) end
  end.
(** Empty sums do not occur. *)
Fixpoint filled (e : expr) : Prop :=
  match e with
  | Num x => True
  | Add a b | Sub a b | Mul a b | Div a b => filled a /\ filled b
  | Sqrt a | Pow a _ => filled a
  | Sum l | Prod l => l <> [] /\ fold_right (fun e s => filled e /\ s) True l
  end.
Lemma fold_order u (op : R -> R -> R) (rnd : R -> R) (f : expr -> R) : (forall x, fl u x (rnd x)) -> forall l t s,
  tree_val u op t s -> exists t', leaves t' = leaves t ++ map f l /\
    tree_val u op t' (fold_left (fun s e => rnd (op s (f e))) l s).
Proof.
  intro HR. induction l as [|e l IH]; intros t s H; cbn [fold_left map].
  - exists t. rewrite app_nil_r. auto.
  - destruct (IH (Node t (Leaf (f e))) (rnd (op s (f e)))) as [t' [H1 H2]].
    + cbn [tree_val]. exists s, (f e). auto.
    + exists t'. split; auto. rewrite H1. cbn [leaves]. rewrite <- app_assoc. reflexivity.
Qed.
Theorem float_eval_rounded u rnd : (forall x, fl u x (rnd x)) -> forall e, filled e -> rounded u e (float_eval rnd e).
Proof.
  intros HR e. induction e as [x|a b IHa IHb|a b IHa IHb|a b IHa IHb|a b IHa IHb|a IHa|a p IHa|l IH|l IH] using expr_ind'; intro HF; cbn [filled] in HF.
  - reflexivity.
  - destruct HF. cbn [rounded float_eval]. do 2 eexists. repeat split; [apply IHa|apply IHb|apply HR]; auto.
  - destruct HF. cbn [rounded float_eval]. do 2 eexists. repeat split; [apply IHa|apply IHb|apply HR]; auto.
  - destruct HF. cbn [rounded float_eval]. do 2 eexists. repeat split; [apply IHa|apply IHb|apply HR]; auto.
  - destruct HF. cbn [rounded float_eval]. do 2 eexists. repeat split; [apply IHa|apply IHb|intros _; apply HR]; auto.
  - cbn [rounded float_eval]. eexists. split; [apply IHa|intros _; apply HR]; auto.
  - cbn [rounded float_eval]. do 2 eexists. repeat split; [apply IHa|apply HR|intros _; apply HR]; auto.
  - apply rounded_Sum. destruct l as [|e l]; [destruct HF; congruence|]. exists (map (float_eval rnd) (e :: l)). split.
    + destruct HF as [_ HF]. clear - IH HF. induction IH as [|x k Hx HK IHK]; [constructor|]. destruct HF. constructor; auto.
    + destruct (fold_order u Rplus rnd (float_eval rnd) HR l (Leaf (float_eval rnd e)) (float_eval rnd e) eq_refl) as [t [H1 H2]].
      exists t. split; [|exact H2]. rewrite H1. reflexivity.
  - apply rounded_Prod. destruct l as [|e l]; [destruct HF; congruence|]. exists (map (float_eval rnd) (e :: l)). split.
    + destruct HF as [_ HF]. clear - IH HF. induction IH as [|x k Hx HK IHK]; [constructor|]. destruct HF. constructor; auto.
    + destruct (fold_order u Rmult rnd (float_eval rnd) HR l (Leaf (float_eval rnd e)) (float_eval rnd e) eq_refl) as [t [H1 H2]].
      exists t. split; [|exact H2]. rewrite H1. reflexivity.
Qed.

(** ** binary64, round to nearest even, without overflow and underflow (53 bit
    significands with unbounded exponents), as formalised by Flocq *)
Definition round53 (x : R) : R :=
  Generic_fmt.round Zaux.radix2 (FLX.FLX_exp 53) (Generic_fmt.Znearest (fun x => negb (Z.even x))) x.
Lemma round53_fl x : fl (/ 2 ^ 53) x (round53 x).
Proof.
  unfold fl, round53. pose proof (Relative.relative_error_N_FLX Zaux.radix2 53 eq_refl (fun x => negb (Z.even x)) x) as H.
  eapply Rle_trans; [exact H|]. apply Rmult_le_compat_r; [apply Rabs_pos|].
  change (Raux.bpow Zaux.radix2 (- (53) + 1)) with (/ IZR 4503599627370496).
  replace (2 ^ 53) with (2 * IZR 4503599627370496).
  - rewrite Rinv_mult. lra.
  - rewrite pow_IZR, <- mult_IZR. reflexivity.
Qed.
