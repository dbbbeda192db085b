(** Shape of the simulated curves (C58). *)
From Coq Require Import Reals Lra Lia List Psatz Ranalysis5 FunctionalExtensionality.
From Coquelicot Require Import Coquelicot.
From Verif Require Import Tensor Py Models Spec Lab LabSpec CurveSpec.
Import ListNotations.
Local Open Scope R_scope.

(** *** monotone functions of a positive stretch *)
Definition up (f : R -> R) : Prop := forall a b, 0 < a < b -> f a < f b.
Definition wup (f : R -> R) : Prop := forall a b, 0 < a < b -> f a <= f b.
(** Smallest at 1 and not negative *)
Definition bowl (w : R -> R) : Prop := (forall l, 0 < l -> 0 <= w l) /\
  (forall a b, 1 <= a <= b -> w a <= w b) /\ (forall a b, 0 < a <= b -> b <= 1 -> w b <= w a).
Lemma up_wup f : up f -> wup f.
Proof. intros H a b L. apply Rlt_le, H, L. Qed.
Lemma up_sum f g : up f -> wup g -> up (fun l => f l + g l).
Proof. intros F G a b L. specialize (F a b L). specialize (G a b L). lra. Qed.
Lemma wup_sum f g : wup f -> wup g -> wup (fun l => f l + g l).
Proof. intros F G a b L. specialize (F a b L). specialize (G a b L). lra. Qed.
Lemma wup_bowl f w : up f -> f 1 = 0 -> bowl w -> wup (fun l => f l * w l).
Proof.
  intros F F1 (P & U & D) a b [A L].
  assert (S : forall x, 0 < x -> (x <= 1 -> f x <= 0) /\ (1 <= x -> 0 <= f x)).
  { intros x Px. split; intro H.
    - destruct (Req_dec x 1) as [->|N]; [lra|]. specialize (F x 1 ltac:(lra)). lra.
    - destruct (Req_dec x 1) as [->|N]; [lra|]. specialize (F 1 x ltac:(lra)). lra. }
  assert (Pa := P a A). assert (Pb := P b ltac:(lra)). assert (Sa := S a A). assert (Sb := S b ltac:(lra)).
  assert (Fab := F a b (conj A L)).
  destruct (Rle_or_lt b 1) as [B|B].
  - specialize (D a b ltac:(lra) B). nra.
  - destruct (Rle_or_lt 1 a) as [B'|B'].
    + specialize (U a b ltac:(lra)). nra.
    + apply Rle_trans with 0; nra.
Qed.
Lemma bowl_const c : 0 <= c -> bowl (fun _ => c).
Proof. intro H. repeat split; intros; lra. Qed.
Lemma bowl_sum v w : bowl v -> bowl w -> bowl (fun l => v l + w l).
Proof.
  intros (P & U & D) (P' & U' & D'). repeat split.
  - intros l L. specialize (P l L). specialize (P' l L). lra.
  - intros a b L. specialize (U a b L). specialize (U' a b L). lra.
  - intros a b L L'. specialize (D a b L L'). specialize (D' a b L L'). lra.
Qed.
Lemma bowl_prod v w : bowl v -> bowl w -> bowl (fun l => v l * w l).
Proof.
  intros (P & U & D) (P' & U' & D'). repeat split.
  - intros l L. apply Rmult_le_pos; auto.
  - intros a b L. apply Rmult_le_compat; auto; [apply P|apply P']; lra.
  - intros a b L L'. apply Rmult_le_compat; auto; [apply P|apply P']; lra.
Qed.
Lemma bowl_square w : bowl w -> bowl (fun l => w (l ^ 2)).
Proof.
  intros (P & U & D). repeat split.
  - intros l L. apply P. nra.
  - intros a b L. apply U. nra.
  - intros a b L L'. apply D; nra.
Qed.
Lemma bowl_ext v w : (forall l, 0 < l -> v l = w l) -> bowl v -> bowl w.
Proof.
  intros E (P & U & D). repeat split.
  - intros l L. rewrite <- E; auto.
  - intros a b L. rewrite <- !E by lra. auto.
  - intros a b L L'. rewrite <- !E by lra. auto.
Qed.
Lemma up_ext f g : (forall l, 0 < l -> f l = g l) -> up f -> up g.
Proof. intros E H a b L. rewrite <- !E by lra. auto. Qed.

(** *** the invariants along the three load cases *)
Lemma prod_ge1 a b : 1 <= a -> 1 <= b -> 1 <= a * b.
Proof. nra. Qed.
Lemma prod_le1 a b : 0 < a -> 0 < b -> a <= 1 -> b <= 1 -> a * b <= 1.
Proof. nra. Qed.
(** a number that is at least 3 at 1 and has its minimum there *)
Lemma bowl_of f f' : (forall a b, 0 < a -> 0 < b -> f b - f a = (b - a) * f' a b) -> f 1 = 0 ->
  (forall a b, 1 <= a -> 1 <= b -> 0 <= f' a b) -> (forall a b, 0 < a -> 0 < b -> a <= 1 -> b <= 1 -> f' a b <= 0) -> bowl f.
Proof.
  intros E F1 U D.
  assert (UU : forall a b, 1 <= a <= b -> f a <= f b).
  { intros a b L. specialize (E a b ltac:(lra) ltac:(lra)). specialize (U a b ltac:(lra) ltac:(lra)). nra. }
  assert (DD : forall a b, 0 < a <= b -> b <= 1 -> f b <= f a).
  { intros a b L L'. specialize (E a b ltac:(lra) ltac:(lra)). specialize (D a b ltac:(lra) ltac:(lra) ltac:(lra) ltac:(lra)). nra. }
  repeat split; auto. intros l L. rewrite <- F1. destruct (Rle_or_lt l 1); [apply DD|apply UU]; lra.
Qed.
Lemma inv_le1 x : 1 <= x -> / x <= 1.
Proof. intro H. rewrite <- Rinv_1. apply Rinv_le_contravar; lra. Qed.
Lemma inv_ge1 x : 0 < x -> x <= 1 -> 1 <= / x.
Proof. intros P H. rewrite <- Rinv_1 at 1. apply Rinv_le_contravar; lra. Qed.
Lemma bowl_I1 : bowl (fun l => l ^ 2 + 2 / l - 3).
Proof.
  apply bowl_of with (f' := fun a b => a + b - 2 * / (a * b)).
  - intros a b A B. field. lra.
  - field.
  - intros a b A B. assert (H := inv_le1 (a * b) (prod_ge1 a b A B)). lra.
  - intros a b A B A1 B1. assert (H := inv_ge1 (a * b) ltac:(nra) (prod_le1 a b A B A1 B1)). lra.
Qed.
Lemma bowl_I2 : bowl (fun l => 2 * l + 1 / l ^ 2 - 3).
Proof.
  apply bowl_of with (f' := fun a b => 2 - / (a * b ^ 2) - / (a ^ 2 * b)).
  - intros a b A B. field. lra.
  - field.
  - intros a b A B. assert (H := inv_le1 (a * b ^ 2) ltac:(nra)). assert (H' := inv_le1 (a ^ 2 * b) ltac:(nra)). lra.
  - intros a b A B A1 B1.
    assert (a * b <= 1) by nra. assert (0 < a * b) by nra.
    assert (H' := inv_ge1 (a * b ^ 2) ltac:(nra) ltac:(nra)). assert (H'' := inv_ge1 (a ^ 2 * b) ltac:(nra) ltac:(nra)). lra.
Qed.
Lemma bowl_I : bowl (fun l => l + 1 / l - 2).
Proof.
  apply bowl_of with (f' := fun a b => 1 - / (a * b)).
  - intros a b A B. field. lra.
  - field.
  - intros a b A B. assert (H := inv_le1 (a * b) (prod_ge1 a b A B)). lra.
  - intros a b A B A1 B1. assert (H := inv_ge1 (a * b) ltac:(nra) (prod_le1 a b A B A1 B1)). lra.
Qed.
Lemma bowl_shift w u v : u <= v -> bowl (fun l => w l - v) -> bowl (fun l => w l - u).
Proof.
  intros L H. apply (bowl_ext (fun l => (w l - v) + (v - u))); [intros; ring|].
  apply bowl_sum; [exact H|apply bowl_const; lra].
Qed.
(** dW/dI1 and dW/dI2 along a path on which the two invariants have their minimum 3 at 1 *)
Section W.
  Context (m : TOD) (HN : nonnegative m) (I1 I2 : R -> R).
  Context (B1 : bowl (fun l => I1 l - 3)) (B2 : bowl (fun l => I2 l - 3)).
  Lemma bowl_W1 : bowl (fun l => tod_W1 m (I1 l) (I2 l) - C10 m).
  Proof.
    destruct HN as (P10 & P01 & P11 & P20 & P30 & PU).
    assert (S1 := bowl_shift I1 (undeformed m) 3 PU B1). assert (S2 := bowl_shift I2 (undeformed m) 3 PU B2).
    apply (bowl_ext (fun l => (C11 m * (I2 l - undeformed m) + 2 * C20 m * (I1 l - undeformed m)) +
                              3 * C30 m * ((I1 l - undeformed m) * (I1 l - undeformed m)))).
    - intros l L. unfold tod_W1. ring.
    - repeat apply bowl_sum; repeat apply bowl_prod; auto; apply bowl_const; lra.
  Qed.
  Lemma bowl_W2 : bowl (fun l => tod_W2 m (I1 l) (I2 l) - C01 m).
  Proof.
    destruct HN as (P10 & P01 & P11 & P20 & P30 & PU).
    assert (S1 := bowl_shift I1 (undeformed m) 3 PU B1).
    apply (bowl_ext (fun l => C11 m * (I1 l - undeformed m))).
    - intros l L. unfold tod_W2. ring.
    - apply bowl_prod; auto; apply bowl_const; lra.
  Qed.
  (** f W1 + g W2 *)
  Lemma up_curve f g : up f -> up g -> f 1 = 0 -> g 1 = 0 -> 0 < C10 m + C01 m ->
    up (fun l => f l * tod_W1 m (I1 l) (I2 l) + g l * tod_W2 m (I1 l) (I2 l)).
  Proof.
    intros F G F1 G1 P. destruct HN as (P10 & P01 & _).
    apply (up_ext (fun l => (C10 m * f l + C01 m * g l) + (f l * (tod_W1 m (I1 l) (I2 l) - C10 m) + g l * (tod_W2 m (I1 l) (I2 l) - C01 m)))).
    - intros l L. ring.
    - apply (up_sum (fun l => C10 m * f l + C01 m * g l)).
      + intros a b L. specialize (F a b L). specialize (G a b L).
        destruct (Req_dec (C10 m) 0) as [Z|Z].
        * assert (0 < C01 m) by lra. rewrite Z, !Rmult_0_l. nra.
        * assert (0 < C10 m) by lra. nra.
      + apply wup_sum; apply wup_bowl; auto using bowl_W1, bowl_W2.
  Qed.
End W.
(** *** powers *)
Lemma up_pow n : up (fun l => l ^ S n).
Proof.
  induction n as [|n IH]; intros a b [A L]; [cbn; lra|].
  specialize (IH a b (conj A L)). cbn [pow] in *.
  assert (0 < a * a ^ n) by (apply Rmult_lt_0_compat; [exact A|apply pow_lt; exact A]). nra.
Qed.
Lemma up_down n : up (fun l => - (1 / l ^ S n)).
Proof.
  intros a b L. apply Ropp_lt_contravar. unfold Rdiv. rewrite !Rmult_1_l.
  apply Rinv_lt_contravar; [|exact (up_pow n a b L)]. apply Rmult_lt_0_compat; apply pow_lt; lra.
Qed.
Lemma up_scal c f : 0 < c -> up f -> up (fun l => c * f l).
Proof. intros P H a b L. apply Rmult_lt_compat_l; auto. Qed.
(** *** TOD *)
Definition uni_f (m : TOD) (l : R) : R := let I1 := l ^ 2 + 2 / l in let I2 := 2 * l + 1 / l ^ 2 in
  2 * (l - 1 / l ^ 2) * (tod_W1 m I1 I2 + tod_W2 m I1 I2 / l).
Definition pla_f (m : TOD) (l : R) : R := let I := l ^ 2 + 1 + 1 / l ^ 2 in 2 * (l - 1 / l ^ 3) * (tod_W1 m I I + tod_W2 m I I).
Definition bia_f (m : TOD) (l : R) : R := let I1 := 2 * l ^ 2 + 1 / l ^ 4 in let I2 := l ^ 4 + 2 / l ^ 2 in
  2 * (l - 1 / l ^ 5) * (tod_W1 m I1 I2 + l ^ 2 * tod_W2 m I1 I2).
Lemma up_id : up (fun l => l).
Proof. intros a b L; lra. Qed.
Lemma uni_up m : nonnegative m -> 0 < C10 m + C01 m -> up (uni_f m).
Proof.
  intros N P. apply (up_ext (fun l => 2 * ((l - 1 / l ^ 2) * tod_W1 m (l ^ 2 + 2 / l) (2 * l + 1 / l ^ 2) + (1 - 1 / l ^ 3) * tod_W2 m (l ^ 2 + 2 / l) (2 * l + 1 / l ^ 2)))).
  { intros l L. unfold uni_f. cbv zeta. field. lra. }
  apply (up_scal 2 (fun l => (l - 1 / l ^ 2) * tod_W1 m (l ^ 2 + 2 / l) (2 * l + 1 / l ^ 2) + (1 - 1 / l ^ 3) * tod_W2 m (l ^ 2 + 2 / l) (2 * l + 1 / l ^ 2))); [lra|].
  refine (up_curve m N (fun l => l ^ 2 + 2 / l) (fun l => 2 * l + 1 / l ^ 2) bowl_I1 bowl_I2 (fun l => l - 1 / l ^ 2) (fun l => 1 - 1 / l ^ 3) _ _ _ _ P); [| |field|field].
  - exact (up_sum _ _ up_id (up_wup _ (up_down 1))).
  - intros a b L. assert (H := up_down 2 a b L). cbv beta in *. lra.
Qed.
Lemma pla_up m : nonnegative m -> 0 < C10 m + C01 m -> up (pla_f m).
Proof.
  intros N P.
  assert (B : bowl (fun l => l ^ 2 + 1 + 1 / l ^ 2 - 3)).
  { apply (bowl_ext (fun l => l ^ 2 + 1 / l ^ 2 - 2)); [intros; ring|]. exact (bowl_square _ bowl_I). }
  apply (up_ext (fun l => 2 * ((l - 1 / l ^ 3) * tod_W1 m (l ^ 2 + 1 + 1 / l ^ 2) (l ^ 2 + 1 + 1 / l ^ 2) + (l - 1 / l ^ 3) * tod_W2 m (l ^ 2 + 1 + 1 / l ^ 2) (l ^ 2 + 1 + 1 / l ^ 2)))).
  { intros l L. unfold pla_f. cbv zeta. ring. }
  apply (up_scal 2 (fun l => (l - 1 / l ^ 3) * tod_W1 m (l ^ 2 + 1 + 1 / l ^ 2) (l ^ 2 + 1 + 1 / l ^ 2) + (l - 1 / l ^ 3) * tod_W2 m (l ^ 2 + 1 + 1 / l ^ 2) (l ^ 2 + 1 + 1 / l ^ 2))); [lra|].
  refine (up_curve m N (fun l => l ^ 2 + 1 + 1 / l ^ 2) (fun l => l ^ 2 + 1 + 1 / l ^ 2) B B (fun l => l - 1 / l ^ 3) (fun l => l - 1 / l ^ 3) _ _ _ _ P); [| |field|field];
  exact (up_sum _ _ up_id (up_wup _ (up_down 2))).
Qed.
Lemma bia_up m : nonnegative m -> 0 < C10 m + C01 m -> up (bia_f m).
Proof.
  intros N P.
  assert (B1 : bowl (fun l => 2 * l ^ 2 + 1 / l ^ 4 - 3)).
  { apply (bowl_ext (fun l => 2 * l ^ 2 + 1 / (l ^ 2) ^ 2 - 3)); [intros; field; lra|]. exact (bowl_square _ bowl_I2). }
  assert (B2 : bowl (fun l => l ^ 4 + 2 / l ^ 2 - 3)).
  { apply (bowl_ext (fun l => (l ^ 2) ^ 2 + 2 / l ^ 2 - 3)); [intros; field; lra|]. exact (bowl_square _ bowl_I1). }
  apply (up_ext (fun l => 2 * ((l - 1 / l ^ 5) * tod_W1 m (2 * l ^ 2 + 1 / l ^ 4) (l ^ 4 + 2 / l ^ 2) + (l ^ 3 - 1 / l ^ 3) * tod_W2 m (2 * l ^ 2 + 1 / l ^ 4) (l ^ 4 + 2 / l ^ 2)))).
  { intros l L. unfold bia_f. cbv zeta. field. lra. }
  apply (up_scal 2 (fun l => (l - 1 / l ^ 5) * tod_W1 m (2 * l ^ 2 + 1 / l ^ 4) (l ^ 4 + 2 / l ^ 2) + (l ^ 3 - 1 / l ^ 3) * tod_W2 m (2 * l ^ 2 + 1 / l ^ 4) (l ^ 4 + 2 / l ^ 2))); [lra|].
  refine (up_curve m N (fun l => 2 * l ^ 2 + 1 / l ^ 4) (fun l => l ^ 4 + 2 / l ^ 2) B1 B2 (fun l => l - 1 / l ^ 5) (fun l => l ^ 3 - 1 / l ^ 3) _ _ _ _ P); [| |field|field].
  - exact (up_sum _ _ up_id (up_wup _ (up_down 4))).
  - exact (up_sum _ _ (up_pow 2) (up_wup _ (up_down 2))).
Qed.
(** *** from functions to lists *)
Lemma up_inj f : up f -> forall a b, 0 < a -> 0 < b -> (a < b <-> f a < f b).
Proof.
  intros H a b A B. split; intro L; [apply H; lra|].
  destruct (Rlt_or_le a b) as [G|G]; auto. exfalso. destruct (Req_dec a b) as [->|N]; [lra|].
  assert (G' := H b a ltac:(lra)). lra.
Qed.
Lemma shaped_of curve f : up f -> f 1 = 0 -> (forall xs, (forall x, In x xs -> 0 < x) -> curve xs = Ok (map f xs)) -> well_shaped curve.
Proof.
  intros H F1 E xs P. exists (map f xs). split; [auto|].
  assert (G : forall i, (i < length xs)%nat -> 0 < nth i xs 0 /\ nth i (map f xs) 0 = f (nth i xs 0)).
  { intros i L. split; [apply P, nth_In; exact L|]. rewrite (nth_indep (map f xs) 0 (f 0)) by (rewrite map_length; exact L). apply map_nth. }
  split.
  - split; [apply map_length|]. intros i j Li Lj. destruct (G i Li) as [Pi ->]. destruct (G j Lj) as [Pj ->]. apply up_inj; auto.
  - split; [apply map_length|]. intros i Li. destruct (G i Li) as [Pi ->]. set (x := nth i xs 0) in *.
    assert (X1 := up_inj f H 1 x ltac:(lra) Pi). assert (X2 := up_inj f H x 1 Pi ltac:(lra)). rewrite F1 in X1, X2. auto.
Qed.
(** *** every force is reached *)
Definition unbounded (f : R -> R) : Prop := forall v, exists a b, 0 < a < b /\ f a < v < f b.
Lemma reach f : up f -> (forall l, 0 < l -> continuity_pt f l) -> unbounded f -> forall v, exists l, 0 < l /\ f l = v /\ forall l', 0 < l' -> f l' = v -> l' = l.
Proof.
  intros H C U v. destruct (U v) as (a & b & [A L] & [Fa Fb]).
  destruct (IVT_interv (fun x => f x - v) a b) as [l [[La Lb] E]].
  - intros x [X1 X2]. apply continuity_pt_minus; [apply C; lra|]. apply continuity_pt_const. intros ? ?; reflexivity.
  - exact L.
  - lra.
  - lra.
  - exists l. split; [lra|]. split; [lra|]. intros l' P' E'.
    destruct (Rtotal_order l' l) as [G|[G|G]]; auto; exfalso.
    + assert (X := H l' l ltac:(lra)). lra.
    + assert (X := H l l' ltac:(lra)). lra.
Qed.
Lemma unbounded_of f c : 0 < c -> (forall l, 1 <= l -> c * (l - 1) <= f l) -> (forall l, 0 < l <= 1 -> f l <= c * (1 - 1 / l)) -> unbounded f.
Proof.
  intros P U D v. set (t := 1 + (Rabs v + 1) / c).
  assert (T : c * (t - 1) = Rabs v + 1) by (unfold t; field; lra).
  assert (V1 := Rle_abs v). assert (V2 := Rle_abs (- v)). rewrite Rabs_Ropp in V2. assert (V0 := Rabs_pos v).
  assert (T1 : 1 < t). { unfold t. assert (0 < (Rabs v + 1) / c) by (apply Rdiv_lt_0_compat; lra). lra. }
  assert (I : 0 < / t <= 1) by (split; [apply Rinv_0_lt_compat; lra|apply inv_le1; lra]).
  exists (/ t), t. split; [lra|]. split.
  - assert (H := D (/ t) I). replace (1 / / t) with t in H by (field; lra). lra.
  - assert (H := U t ltac:(lra)). lra.
Qed.

Section Reach.
  Context (m : TOD) (HN : nonnegative m) (HP : 0 < C10 m).
  Lemma W_bounds I1 I2 : 3 <= I1 -> 3 <= I2 -> C10 m <= tod_W1 m I1 I2 /\ 0 <= tod_W2 m I1 I2.
  Proof.
    intros A B. destruct HN as (P10 & P01 & P11 & P20 & P30 & PU). unfold tod_W1, tod_W2.
    assert (0 <= C11 m * (I2 - undeformed m)) by (apply Rmult_le_pos; lra).
    assert (0 <= C11 m * (I1 - undeformed m)) by (apply Rmult_le_pos; lra).
    assert (0 <= 2 * C20 m * (I1 - undeformed m)) by (apply Rmult_le_pos; lra).
    assert (0 <= 3 * C30 m * (I1 - undeformed m) ^ 2) by (apply Rmult_le_pos; [lra|apply pow2_ge_0]). lra.
  Qed.
  (** (l - 1/l^(n+2)) w, w >= C10 *)
  Lemma factor_up n l w : 1 <= l -> C10 m <= w -> 2 * C10 m * (l - 1) <= 2 * (l - 1 / l ^ S (S n)) * w.
  Proof.
    intros L W. assert (H : 1 / l ^ S (S n) <= 1). { unfold Rdiv. rewrite Rmult_1_l. apply inv_le1. apply pow_R1_Rle. exact L. }
    assert (2 * C10 m * (l - 1) <= 2 * w * (l - 1)) by nra. nra.
  Qed.
  Lemma factor_dn n l w : 0 < l <= 1 -> C10 m <= w -> 2 * (l - 1 / l ^ S (S n)) * w <= 2 * C10 m * (1 - 1 / l).
  Proof.
    intros L W. assert (H : 1 / l <= 1 / l ^ S (S n)).
    { unfold Rdiv. rewrite !Rmult_1_l. apply Rinv_le_contravar; [apply pow_lt; lra|]. cbn [pow].
      assert (l ^ n <= 1). { rewrite <- (pow1 n). apply pow_incr; lra. } assert (0 < l ^ n) by (apply pow_lt; lra). nra. }
    assert (G : 1 - 1 / l <= 0). { unfold Rdiv. rewrite Rmult_1_l. assert (X := inv_ge1 l ltac:(lra) ltac:(lra)). lra. }
    assert (A : l - 1 / l ^ S (S n) <= 1 - 1 / l) by lra.
    apply Rle_trans with (2 * (1 - 1 / l) * w).
    - apply Rmult_le_compat_r; lra.
    - replace (2 * C10 m * (1 - 1 / l)) with (2 * (1 - 1 / l) * C10 m) by ring. apply Rmult_le_compat_neg_l; lra.
  Qed.
  Lemma uni_reach : unbounded (uni_f m).
  Proof.
    assert (B : forall l, 0 < l -> C10 m <= tod_W1 m (l ^ 2 + 2 / l) (2 * l + 1 / l ^ 2) + tod_W2 m (l ^ 2 + 2 / l) (2 * l + 1 / l ^ 2) / l).
    { intros l L. assert (b1 := proj1 bowl_I1 l L). assert (b2 := proj1 bowl_I2 l L). cbv beta in *.
      destruct (W_bounds (l ^ 2 + 2 / l) (2 * l + 1 / l ^ 2)) as [w1 w2]; [lra|lra|].
      assert (0 <= tod_W2 m (l ^ 2 + 2 / l) (2 * l + 1 / l ^ 2) / l) by (apply Rdiv_le_0_compat; lra). lra. }
    apply (unbounded_of _ (2 * C10 m)); [lra| |]; intros l L; unfold uni_f; cbv zeta.
    - apply (factor_up 0); [exact L|apply B; lra].
    - apply (factor_dn 0); [exact L|apply B; lra].
  Qed.
  Lemma pla_reach : unbounded (pla_f m).
  Proof.
    assert (B : forall l, 0 < l -> C10 m <= tod_W1 m (l ^ 2 + 1 + 1 / l ^ 2) (l ^ 2 + 1 + 1 / l ^ 2) + tod_W2 m (l ^ 2 + 1 + 1 / l ^ 2) (l ^ 2 + 1 + 1 / l ^ 2)).
    { intros l L. assert (b1 := proj1 (bowl_square _ bowl_I) l L). cbv beta in *.
      destruct (W_bounds (l ^ 2 + 1 + 1 / l ^ 2) (l ^ 2 + 1 + 1 / l ^ 2)) as [w1 w2]; lra. }
    apply (unbounded_of _ (2 * C10 m)); [lra| |]; intros l L; unfold pla_f; cbv zeta.
    - apply (factor_up 1); [exact L|apply B; lra].
    - apply (factor_dn 1); [exact L|apply B; lra].
  Qed.
  Lemma bia_reach : unbounded (bia_f m).
  Proof.
    assert (B : forall l, 0 < l -> C10 m <= tod_W1 m (2 * l ^ 2 + 1 / l ^ 4) (l ^ 4 + 2 / l ^ 2) + l ^ 2 * tod_W2 m (2 * l ^ 2 + 1 / l ^ 4) (l ^ 4 + 2 / l ^ 2)).
    { intros l L. assert (b1 := proj1 (bowl_square _ bowl_I1) l L). assert (b2 := proj1 (bowl_square _ bowl_I2) l L). cbv beta in *.
      replace ((l ^ 2) ^ 2) with (l ^ 4) in * by ring.
      destruct (W_bounds (2 * l ^ 2 + 1 / l ^ 4) (l ^ 4 + 2 / l ^ 2)) as [w1 w2]; [lra|lra|].
      assert (0 <= l ^ 2 * tod_W2 m (2 * l ^ 2 + 1 / l ^ 4) (l ^ 4 + 2 / l ^ 2)) by (apply Rmult_le_pos; [apply pow2_ge_0|lra]). lra. }
    apply (unbounded_of _ (2 * C10 m)); [lra| |]; intros l L; unfold bia_f; cbv zeta.
    - apply (factor_up 3); [exact L|apply B; lra].
    - apply (factor_dn 3); [exact L|apply B; lra].
  Qed.
End Reach.
Lemma cont_of f l : ex_derive f l -> continuity_pt f l.
Proof. intro H. apply continuity_pt_filterlim. exact (ex_derive_continuous f l H). Qed.
Lemma uni_cont m l : 0 < l -> continuity_pt (uni_f m) l.
Proof. intro L. apply cont_of. unfold uni_f, tod_W1, tod_W2. cbv zeta. auto_derive. repeat split; try lra; apply Rgt_not_eq; repeat apply Rmult_lt_0_compat; lra. Qed.
Lemma pla_cont m l : 0 < l -> continuity_pt (pla_f m) l.
Proof. intro L. apply cont_of. unfold pla_f, tod_W1, tod_W2. cbv zeta. auto_derive. repeat split; try lra; apply Rgt_not_eq; repeat apply Rmult_lt_0_compat; lra. Qed.
Lemma bia_cont m l : 0 < l -> continuity_pt (bia_f m) l.
Proof.
  intro L. apply cont_of. unfold bia_f, tod_W1, tod_W2. cbv zeta. auto_derive.
  assert (0 < l * l) by nra. assert (0 < l * (l * l)) by nra.
  repeat split; try lra; apply Rgt_not_eq; repeat apply Rmult_lt_0_compat; lra.
Qed.
