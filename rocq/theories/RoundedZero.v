(** Exact zeros survive rounding. *)
From Coq Require Import Reals List Permutation Lra Lia.
From Verif Require Import Rounded RoundedProofs.
Import ListNotations.
Local Open Scope R_scope.

(** Expressions whose rounded value is exactly 0, because every term has a factor 0. *)
Fixpoint vanishes (u : R) (e : expr) : Prop :=
  match e with
  | Num x => x = 0
  | Add a b | Sub a b => vanishes u a /\ vanishes u b
  | Mul a b => vanishes u a \/ vanishes u b
  | Div a b => vanishes u a /\ forall y, rounded u b y -> y <> 0
  | Sqrt _ | Pow _ _ => False
  | Sum l => fold_right (fun e s => vanishes u e /\ s) True l
  | Prod l => fold_right (fun e s => vanishes u e \/ s) False l
  end.
Lemma fl0 u y : fl u 0 y -> y = 0.
Proof. unfold fl. rewrite Rabs_R0, Rmult_0_r, Rminus_0_r. intro H. pose proof (Rabs_pos y). destruct (Req_dec y 0); auto. pose proof (Rabs_pos_lt y H1). lra. Qed.
Lemma tree_sum0 u t v : tree_val u Rplus t v -> List.Forall (fun x => x = 0) (leaves t) -> v = 0.
Proof.
  revert v. induction t as [x|l IHl r IHr]; cbn [tree_val leaves]; intros v H HF.
  - inversion HF; subst. auto.
  - destruct H as (a & b & Ha & Hb & H). apply List.Forall_app in HF. destruct HF as [F1 F2].
    rewrite (IHl a Ha F1), (IHr b Hb F2), Rplus_0_r in H. apply (fl0 u); auto.
Qed.
Lemma tree_prod0 u t v : tree_val u Rmult t v -> In 0 (leaves t) -> v = 0.
Proof.
  revert v. induction t as [x|l IHl r IHr]; cbn [tree_val leaves]; intros v H HF.
  - destruct HF as [HF|[]]. congruence.
  - destruct H as (a & b & Ha & Hb & H). apply in_app_or in HF. destruct HF as [F1|F2].
    + rewrite (IHl a Ha F1), Rmult_0_l in H. apply (fl0 u); auto.
    + rewrite (IHr b Hb F2), Rmult_0_r in H. apply (fl0 u); auto.
Qed.
Theorem vanishes_rounded u e : vanishes u e -> forall x, rounded u e x -> x = 0.
Proof.
  induction e as [x|a b IHa IHb|a b IHa IHb|a b IHa IHb|a b IHa IHb|a IHa|a p IHa|l IH|l IH] using expr_ind'; cbn [vanishes]; intros HV v HX.
  - cbn in HX. congruence.
  - destruct HV as [V1 V2], HX as (x & y & H1 & H2 & H). rewrite (IHa V1 x H1), (IHb V2 y H2), Rplus_0_r in H. apply (fl0 u); auto.
  - destruct HV as [V1 V2], HX as (x & y & H1 & H2 & H). rewrite (IHa V1 x H1), (IHb V2 y H2), Rminus_0_r in H. apply (fl0 u); auto.
  - destruct HX as (x & y & H1 & H2 & H). destruct HV as [HV|HV]; [rewrite (IHa HV x H1), Rmult_0_l in H|rewrite (IHb HV y H2), Rmult_0_r in H]; apply (fl0 u); auto.
  - destruct HV as [V1 V2], HX as (x & y & H1 & H2 & H). specialize (H (V2 y H2)). rewrite (IHa V1 x H1) in H.
    unfold Rdiv in H. rewrite Rmult_0_l in H. apply (fl0 u); auto.
  - destruct HV.
  - destruct HV.
  - apply rounded_Sum in HX. destruct HX as (xs & HF & t & HP & HT). apply (tree_sum0 u t v HT).
    assert (Z : List.Forall (fun x => x = 0) xs).
    { clear - IH HV HF. revert IH HV. induction HF as [|e x l xs He HF IHF]; intros IH HV; [constructor|].
      inversion IH; subst. cbn [fold_right] in HV. destruct HV. constructor; auto. }
    apply List.Forall_forall. intros x I. apply (proj1 (List.Forall_forall _ _) Z). eapply Permutation_in; eauto.
  - apply rounded_Prod in HX. destruct HX as (xs & HF & t & HP & HT). apply (tree_prod0 u t v HT).
    apply (Permutation_in 0 (Permutation_sym HP)).
    clear - IH HV HF. revert IH HV. induction HF as [|e x l xs He HF IHF]; intros IH HV; [destruct HV|].
    inversion IH; subst. cbn [fold_right] in HV. destruct HV as [HV|HV]; [left; auto|right; auto].
Qed.
