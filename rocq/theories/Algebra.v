(** Lemmas of tensor algebra (no code modelled here). *)
From Coq Require Import Reals Lra FunctionalExtensionality.
From Coquelicot Require Import Coquelicot.
From Verif Require Import Tensor Voigt VoigtProofs.
Local Open Scope R_scope.

Lemma T2_ext (A B : T2) : (forall i j, A i j = B i j) -> A = B.
Proof. intro H; apply functional_extensionality; intro; apply functional_extensionality; intro; apply H. Qed.
Lemma Vec6_ext (A B : Vec6) : (forall v, A v = B v) -> A = B.
Proof. intro H; apply functional_extensionality; apply H. Qed.
Lemma Mat6_ext (A B : Mat6) : (forall v w, A v w = B v w) -> A = B.
Proof. intro H; apply functional_extensionality; intro; apply functional_extensionality; intro; apply H. Qed.
Lemma Vec3_ext (A B : Vec3) : (forall v, A v = B v) -> A = B.
Proof. intro H; apply functional_extensionality; apply H. Qed.
Lemma T4_ext (A B : T4) : (forall i j k l, A i j k l = B i j k l) -> A = B.
Proof. intro H; do 4 (apply functional_extensionality; intro); apply H. Qed.

Lemma mmul_assoc A B C : mmul (mmul A B) C = mmul A (mmul B C).
Proof. apply T2_ext; intros; unfold mmul, sum3; ring. Qed.
Lemma mmul_1_l A : mmul one2 A = A.
Proof. apply T2_ext; intros i j; destruct i; tunf; ring. Qed.
Lemma mmul_1_r A : mmul A one2 = A.
Proof. apply T2_ext; intros i j; destruct j; tunf; ring. Qed.
Lemma mtr_mmul A B : mtr (mmul A B) = mmul (mtr B) (mtr A).
Proof. apply T2_ext; intros; tunf; ring. Qed.
Lemma mtr_mtr A : mtr (mtr A) = A.
Proof. reflexivity. Qed.
Lemma mtr_sym A : sym2 A -> mtr A = A.
Proof. intro H; apply T2_ext; intros; unfold mtr; apply H. Qed.
Lemma det3_one : det3 one2 = 1.
Proof. unfold det3, one2, delta; cbn; ring. Qed.
Lemma tr2_mmul A B : tr2 (mmul A B) = tr2 (mmul B A).
Proof. tunf; ring. Qed.
Lemma tr2_mtr A : tr2 (mtr A) = tr2 A.
Proof. tunf; ring. Qed.
Lemma dc22_tr A B : dc22 A B = tr2 (mmul A (mtr B)).
Proof. tunf; ring. Qed.
Lemma dc22_sym_comm A B : dc22 A B = dc22 B A.
Proof. tunf; ring. Qed.

(** Inverse of a general 3x3 matrix. *)
Definition adj3 (A : T2) : T2 := fun i j =>
  match i, j with
  | X0, X0 => A X1 X1 * A X2 X2 - A X1 X2 * A X2 X1
  | X0, X1 => A X0 X2 * A X2 X1 - A X0 X1 * A X2 X2
  | X0, X2 => A X0 X1 * A X1 X2 - A X0 X2 * A X1 X1
  | X1, X0 => A X1 X2 * A X2 X0 - A X1 X0 * A X2 X2
  | X1, X1 => A X0 X0 * A X2 X2 - A X0 X2 * A X2 X0
  | X1, X2 => A X0 X2 * A X1 X0 - A X0 X0 * A X1 X2
  | X2, X0 => A X1 X0 * A X2 X1 - A X1 X1 * A X2 X0
  | X2, X1 => A X0 X1 * A X2 X0 - A X0 X0 * A X2 X1
  | X2, X2 => A X0 X0 * A X1 X1 - A X0 X1 * A X1 X0
  end.
Definition inv3 (A : T2) : T2 := fun i j => adj3 A i j / det3 A.
Lemma inv3_r A : det3 A <> 0 -> mmul A (inv3 A) = one2.
Proof. intro H; apply T2_ext; intros i j. unfold inv3, mmul, sum3.
  apply (Rmult_eq_reg_l (det3 A)); auto.
  replace (det3 A * (A i X0 * (adj3 A X0 j / det3 A) + A i X1 * (adj3 A X1 j / det3 A) + A i X2 * (adj3 A X2 j / det3 A)))
   with (A i X0 * adj3 A X0 j + A i X1 * adj3 A X1 j + A i X2 * adj3 A X2 j) by (field; auto).
  destruct i, j; unfold adj3, det3, one2, delta; cbn; ring. Qed.
Lemma inv3_l A : det3 A <> 0 -> mmul (inv3 A) A = one2.
Proof. intro H; apply T2_ext; intros i j. unfold inv3, mmul, sum3.
  apply (Rmult_eq_reg_l (det3 A)); auto.
  replace (det3 A * (adj3 A i X0 / det3 A * A X0 j + adj3 A i X1 / det3 A * A X1 j + adj3 A i X2 / det3 A * A X2 j))
   with (adj3 A i X0 * A X0 j + adj3 A i X1 * A X1 j + adj3 A i X2 * A X2 j) by (field; auto).
  destruct i, j; unfold adj3, det3, one2, delta; cbn; ring. Qed.
Lemma left_inverse_det A B : mmul A B = one2 -> det3 A * det3 B = 1.
Proof. intro H; rewrite <- det3_mmul, H; apply det3_one. Qed.
Lemma left_inverse_right A B : mmul A B = one2 -> mmul B A = one2.
Proof.
  intro H. assert (D : det3 B <> 0).
  { intro E. pose proof (left_inverse_det _ _ H). rewrite E in *. lra. }
  assert (A = inv3 B).
  { rewrite <- (mmul_1_r A), <- (inv3_r B D), <- mmul_assoc, H, mmul_1_l. reflexivity. }
  subst A. apply inv3_r; auto.
Qed.
Lemma inverse_unique A B C : mmul A B = one2 -> mmul A C = one2 -> B = C.
Proof. intros H1 H2. apply left_inverse_right in H1.
  rewrite <- (mmul_1_l C), <- H1, mmul_assoc, H2, mmul_1_r. reflexivity. Qed.

Lemma orthogonal_eq Q : orthogonal Q <-> mmul (mtr Q) Q = one2.
Proof. split; intro H. apply T2_ext; apply H. intros i j; rewrite H; reflexivity. Qed.
Lemma orthogonal_right Q : orthogonal Q -> mmul Q (mtr Q) = one2.
Proof. intro H; apply left_inverse_right, orthogonal_eq, H. Qed.
Lemma orthogonal_mtr Q : orthogonal Q -> orthogonal (mtr Q).
Proof. intro H. apply orthogonal_eq. rewrite mtr_mtr. apply orthogonal_right; auto. Qed.
Lemma orthogonal_det Q : orthogonal Q -> det3 Q ^ 2 = 1.
Proof. intro H. apply orthogonal_eq in H. apply left_inverse_det in H. rewrite det3_mtr in H.
  rewrite <- H; ring. Qed.

(** The model's [inv] in terms of the full inverse. *)
Lemma astensor_inv a : det a <> 0 -> astensor (inv a None) = inv3 (astensor a).
Proof. intro H. apply inverse_unique with (astensor a).
  - apply T2_ext, inv_right; auto.
  - apply inv3_r. rewrite <- det_astensor; auto. Qed.

(** *** Spectral decomposition *)
Section Eig.
  Context (A : T2) (w : Vec3) (v : T2) (L : eig_legal A w v).
  Lemma eig_orth : orthogonal v.
  Proof. intros a b. destruct L as [H _]. unfold mmul, mtr. apply H. Qed.
  Lemma eig_complete i j : sum3 (fun a => v i a * v j a) = delta i j.
  Proof. pose proof (orthogonal_right _ eig_orth) as H.
    change (mmul v (mtr v) i j = delta i j). rewrite H; reflexivity. Qed.
  Lemma eig_action i a : sum3 (fun j => A i j * v j a) = w a * v i a.
  Proof. apply L. Qed.
  Lemma eig_rebuild i j : sum3 (fun a => w a * (v i a * v j a)) = A i j.
  Proof.
    transitivity (sum3 (fun a => sum3 (fun k => A i k * v k a) * v j a)).
    { unfold sum3 at 1 2. rewrite !eig_action; unfold sum3; ring. }
    transitivity (sum3 (fun k => A i k * sum3 (fun a => v k a * v j a))).
    { unfold sum3; ring. }
    unfold sum3 at 1. rewrite !eig_complete. destruct j; unfold delta; cbn; ring.
  Qed.
End Eig.
