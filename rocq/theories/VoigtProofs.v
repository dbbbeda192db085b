(** Lemmas about the pointwise model of math/_voigt.py. *)
From Coq Require Import Reals Lra Lia Bool Arith FunctionalExtensionality.
From Coquelicot Require Import Coquelicot.
From Verif Require Import Tensor Voigt.
Local Open Scope R_scope.

(** Case split on every index in the context. *)
Ltac ix := repeat match goal with
  | i : ix3 |- _ => destruct i
  | v : ix6 |- _ => destruct v end.
Ltac tunf := cbv [mmul mtr mscal madd tr2 one2 delta dc22 dc42 dc24 dc44
  cauchy_green quad diag3 sum3 sum6 ix3_eqb].
Ltac vunf := cbv [mmul mtr mscal madd tr2 one2 delta dc22 dc42 dc24 dc44
  cauchy_green quad diag3 sum3 sum6 ix3_eqb
  asvoigt astensor astensor4 trace transpose det inv dot
  ddot22 ddot44 ddot42 ddot24 dya vadd vsub vscal madd6 msub6 mscal6 vzero mzero dev
  cdya_ik cdya_il cdya cdya1 cdya_obj cdya_value eye weights
  vi vj vix asvoigt4 inv_i inv_j inv_k inv_l ix6_leb Nat.leb].
Ltac vring := intros; ix; vunf; try ring; try (field; lra).

(** *** Round trips *)
Lemma astensor_asvoigt A : sym2 A -> forall i j, astensor (asvoigt A) i j = A i j.
Proof. intros H i j; destruct i, j; unfold astensor, asvoigt; cbn; auto. Qed.
Lemma asvoigt_astensor a v : asvoigt (astensor a) v = a v.
Proof. destruct v; reflexivity. Qed.
Lemma astensor_sym a : sym2 (astensor a).
Proof. intros i j; destruct i, j; reflexivity. Qed.
Lemma astensor_upper A i j :
  astensor (asvoigt A) i j =
  match i, j with X1, X0 => A X0 X1 | X2, X0 => A X0 X2 | X2, X1 => A X1 X2 | _, _ => A i j end.
Proof. destruct i, j; reflexivity. Qed.
Lemma astensor4_asvoigt4 A :
  minor4 A -> forall i j k l, astensor4 (asvoigt4 A) i j k l = A i j k l.
Proof.
  intros H i j k l.
  destruct i, j, k, l; unfold astensor4; cbn; try reflexivity;
  repeat match goal with
  | |- A ?i ?j ?k ?l = A ?i ?j ?k ?l => reflexivity
  | |- A ?i ?j _ _ = A ?j ?i _ _ => rewrite (proj1 (H i j _ _))
  | |- A ?i ?j ?k ?l = A ?i ?j ?l ?k => rewrite (proj2 (H i j k l))
  end.
Qed.
Lemma asvoigt4_astensor4 a v w : asvoigt4 (astensor4 a) v w = a v w.
Proof. destruct v, w; reflexivity. Qed.
Lemma astensor4_minor a : minor4 (astensor4 a).
Proof. intros i j k l; split; destruct i, j, k, l; reflexivity. Qed.

(** Functional-extensionality versions. *)
Lemma asvoigt_astensor_f a : asvoigt (astensor a) = a.
Proof. apply functional_extensionality; intro; apply asvoigt_astensor. Qed.
Lemma astensor_asvoigt_f A : sym2 A -> astensor (asvoigt A) = A.
Proof. intro H; apply functional_extensionality; intro; apply functional_extensionality; intro.
  apply astensor_asvoigt; auto. Qed.
Lemma astensor_inj a b : (forall i j, astensor a i j = astensor b i j) -> forall v, a v = b v.
Proof. intros H v. rewrite <- (asvoigt_astensor a), <- (asvoigt_astensor b). unfold asvoigt. apply H. Qed.

(** *** trace, det *)
Lemma trace_full A : trace (asvoigt A) = tr2 A.
Proof. vring. Qed.
Lemma trace_astensor a : trace a = tr2 (astensor a).
Proof. vring. Qed.
Lemma det_full A : sym2 A -> det (asvoigt A) = det3 A.
Proof.
  intros H; unfold det3; rewrite (H X1 X0), (H X2 X0), (H X2 X1); vring.
Qed.
Lemma det_astensor a : det a = det3 (astensor a).
Proof. unfold det3; vring. Qed.
Lemma det3_mmul A B : det3 (mmul A B) = det3 A * det3 B.
Proof. unfold det3; tunf; ring. Qed.
Lemma det3_mtr A : det3 (mtr A) = det3 A.
Proof. unfold det3; tunf; ring. Qed.
Lemma cauchy_green_sym F : sym2 (cauchy_green F).
Proof. intros i j; destruct i, j; tunf; ring. Qed.
Lemma det_cauchy_green F : det (asvoigt (cauchy_green F)) = det3 F ^ 2.
Proof. rewrite det_full by apply cauchy_green_sym. unfold cauchy_green.
  rewrite det3_mmul, det3_mtr; ring. Qed.

(** *** inv *)
Lemma inv_right a : det a <> 0 -> forall i j, mmul (astensor a) (astensor (inv a None)) i j = one2 i j.
Proof. intros H i j. unfold inv. set (d := det a) in *.
  assert (Hd : d = det a) by reflexivity. clearbody d.
  destruct i, j; unfold mmul, astensor, sum3, one2, delta; cbn; 
  apply (Rmult_eq_reg_l d); auto; field_simplify; auto; rewrite Hd; unfold det; ring. Qed.
Lemma inv_left a : det a <> 0 -> forall i j, mmul (astensor (inv a None)) (astensor a) i j = one2 i j.
Proof. intros H i j. unfold inv. set (d := det a) in *.
  assert (Hd : d = det a) by reflexivity. clearbody d.
  destruct i, j; unfold mmul, astensor, sum3, one2, delta; cbn; 
  apply (Rmult_eq_reg_l d); auto; field_simplify; auto; rewrite Hd; unfold det; ring. Qed.
Lemma inv_det_given a : inv a (Some (det a)) = inv a None.
Proof. reflexivity. Qed.
Lemma inv_other_det a d v : det a <> 0 -> d <> 0 -> inv a (Some d) v = det a / d * inv a None v.
Proof. intros; unfold inv; field; auto. Qed.

(** *** Products *)
Lemma dot_full a b i j : dot a b i j = mmul (astensor a) (astensor b) i j.
Proof. destruct i, j; vunf; cbn; ring. Qed.
Lemma ddot22_full a b : ddot22 a b = dc22 (astensor a) (astensor b).
Proof. vring. Qed.
Lemma ddot42_full A b i j : astensor (ddot42 A b) i j = dc42 (astensor4 A) (astensor b) i j.
Proof. destruct i, j; vring. Qed.
Lemma ddot24_full a B i j : astensor (ddot24 a B) i j = dc24 (astensor a) (astensor4 B) i j.
Proof. destruct i, j; vring. Qed.
Lemma ddot44_full A B i j k l :
  astensor4 (ddot44 A B) i j k l = dc44 (astensor4 A) (astensor4 B) i j k l.
Proof.
  unfold astensor4, dc44, ddot44. generalize (vix i j) as v, (vix k l) as w. intros v w.
  unfold sum6, sum3, weights; cbn; ring.
Qed.

(** *** Dyadic products *)
Lemma dya_full a b i j k l : astensor4 (dya a b) i j k l = astensor a i j * astensor b k l.
Proof. reflexivity. Qed.
Lemma cdya_ik_full a b i j k l : cdya_ik a b i j k l = astensor a i k * astensor b j l.
Proof. reflexivity. Qed.
Lemma cdya_il_full a b i j k l : cdya_il a b i j k l = astensor a i l * astensor b k j.
Proof. reflexivity. Qed.

Lemma cdya_obj_same a v w : cdya_obj true a a v w = cdya_obj false a a v w.
Proof. unfold cdya_obj, cdya_value. destruct (ix6_leb v w); field. Qed.
Lemma cdya1_cdya a : cdya1 a = cdya a a.
Proof. unfold cdya1, cdya; apply functional_extensionality; intro;
  apply functional_extensionality; intro; apply cdya_obj_same. Qed.

Lemma cdya_full a b i j k l :
  astensor4 (cdya a b) i j k l = cdya_spec (astensor a) (astensor b) i j k l.
Proof.
  destruct i, j, k, l; unfold cdya_spec, astensor4, cdya, cdya_obj, cdya_value, astensor; cbn; field.
Qed.
Lemma cdya_comm a b v w : cdya a b v w = cdya b a v w.
Proof. unfold cdya, cdya_obj, cdya_value. destruct (ix6_leb v w); field. Qed.
Lemma cdya_major a b v w : cdya a b v w = cdya a b w v.
Proof. destruct v, w; unfold cdya, cdya_obj, cdya_value; cbn; field. Qed.
Lemma cdya_bilin_l x y a b c v w :
  cdya (vadd (vscal x a) (vscal y b)) c v w = x * cdya a c v w + y * cdya b c v w.
Proof. unfold cdya, cdya_obj, cdya_value, vadd, vscal. destruct (ix6_leb v w); field. Qed.
Lemma cdya_bilin_r x y a b c v w :
  cdya c (vadd (vscal x a) (vscal y b)) v w = x * cdya c a v w + y * cdya c b v w.
Proof. unfold cdya, cdya_obj, cdya_value, vadd, vscal. destruct (ix6_leb v w); field. Qed.
Lemma eye_full i j : astensor eye i j = delta i j.
Proof. destruct i, j; reflexivity. Qed.
Lemma dya_transpose a b v w : transpose (dya a b) v w = dya b a v w.
Proof. unfold transpose, dya; ring. Qed.
Lemma cdya_ik_major a b : major4 (cdya_ik a b).
Proof. intros i j k l. rewrite !cdya_ik_full.
  rewrite (astensor_sym a i k), (astensor_sym b j l). ring. Qed.
Lemma cdya_il_major a : major4 (cdya_il a a).
Proof. intros i j k l. rewrite !cdya_il_full.
  rewrite (astensor_sym a k j), (astensor_sym a i l). ring_simplify. rewrite (astensor_sym a l i). 
  rewrite (astensor_sym a j k). ring. Qed.
(** Action of the crossed dyad on a symmetric tensor: symmetrised A H B. *)
Lemma cdya_action a b h i j :
  astensor (ddot42 (cdya a b) h) i j =
  (mmul (mmul (astensor a) (astensor h)) (astensor b) i j
   + mmul (mmul (astensor b) (astensor h)) (astensor a) i j) / 2.
Proof. destruct i, j; unfold ddot42, sum6, weights, mmul, sum3, astensor, cdya, cdya_obj, cdya_value; cbn; field. Qed.

(** *** dev *)
Lemma dev_trace a : trace (dev a) = 0.
Proof. vring. Qed.
Lemma dev_idem a v : dev (dev a) v = dev a v.
Proof. vring. Qed.
Lemma dev_split a v : a v = dev a v + trace a / 3 * eye v.
Proof. vring. Qed.
Lemma dev_fix a : (forall v, dev a v = a v) <-> trace a = 0.
Proof. split; intro H.
  - pose proof (H V0) as H0; unfold dev, vsub, vscal in H0; cbn in H0; lra.
  - intro v; unfold dev, vsub, vscal; rewrite H; field. Qed.
Lemma dev_full a i j : astensor (dev a) i j = astensor a i j - tr2 (astensor a) / 3 * delta i j.
Proof. vring. Qed.

(** *** triangle copies *)
Lemma tril_spec A dim out r c :
  tril_from_triu A dim out r c =
  if (c <? r)%nat && (r <? dim)%nat then A c r else match out with None => A r c | Some o => o r c end.
Proof. unfold tril_from_triu; destruct out; reflexivity. Qed.
Lemma tril_sym A dim r c : (r < dim)%nat -> (c < dim)%nat ->
  tril_from_triu A dim None r c = tril_from_triu A dim None c r.
Proof. intros Hr Hc; unfold tril_from_triu.
  destruct (Nat.ltb_spec c r), (Nat.ltb_spec r dim), (Nat.ltb_spec r c), (Nat.ltb_spec c dim); cbn; try lia; try reflexivity.
  replace c with r by lia; reflexivity. Qed.
Lemma tril_keep A dim out r c : (r <= c)%nat \/ (dim <= r)%nat ->
  tril_from_triu A dim out r c = match out with None => A r c | Some o => o r c end.
Proof. intros H; rewrite tril_spec. destruct (Nat.ltb_spec c r), (Nat.ltb_spec r dim); cbn; try reflexivity; lia. Qed.
Lemma tril_fix A dim : 
  (forall r c, tril_from_triu A dim None r c = A r c) <->
  (forall r c, (r < dim)%nat -> (c < dim)%nat -> A r c = A c r).
Proof. split; intros H r c.
  - intros Hr Hc. rewrite <- (H r c), <- (H c r). apply tril_sym; auto.
  - rewrite tril_spec. destruct (Nat.ltb_spec c r), (Nat.ltb_spec r dim); cbn; auto.
    apply H; lia. Qed.
Lemma tril_idem A dim r c :
  tril_from_triu (tril_from_triu A dim None) dim None r c = tril_from_triu A dim None r c.
Proof. rewrite tril_spec. destruct (Nat.ltb_spec c r), (Nat.ltb_spec r dim); cbn; auto.
  apply tril_sym; lia. Qed.
Lemma tril_write A dim out r c : (c < r < dim)%nat -> tril_from_triu A dim out r c = A c r.
Proof. intros H; rewrite tril_spec. destruct (Nat.ltb_spec c r), (Nat.ltb_spec r dim); cbn; try reflexivity; lia. Qed.
Lemma triu_idem A dim r c :
  triu_from_tril (triu_from_tril A dim None) dim None r c = triu_from_tril A dim None r c.
Proof. exact (tril_idem (fun i j => A j i) dim c r). Qed.
Lemma tril_inplace A dim : tril_from_triu A dim (Some A) = tril_from_triu A dim None.
Proof. reflexivity. Qed.
Lemma triu_mirror A dim out r c :
  triu_from_tril A dim out r c =
  tril_from_triu (fun i j => A j i) dim (match out with None => None | Some o => Some (fun i j => o j i) end) c r.
Proof. unfold triu_from_tril, tril_from_triu. destruct out; reflexivity. Qed.

