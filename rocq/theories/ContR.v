(** Continuity at a point of real functions, in the form used by the proofs, and the
    Caratheodory form of the derivative (no code modelled here). *)
From Coq Require Import Reals Lra FunctionalExtensionality.
From Coquelicot Require Import Coquelicot.
From Verif Require Import Tensor Calc.
Local Open Scope R_scope.

Definition cont (f : R -> R) (t : R) : Prop :=
  forall e, 0 < e -> locally t (fun x => Rabs (f x - f t) < e).

Lemma cont_continuous f t : cont f t <-> continuous f t.
Proof.
  split.
  - intros H. apply filterlim_locally. intro e. eapply filter_imp; [|apply (H e (cond_pos e))].
    intros x Hx. exact Hx.
  - intros H e He. pose proof (proj1 (filterlim_locally f (f t)) H (mkposreal e He)) as L.
    eapply filter_imp; [|exact L]. intros x Hx. exact Hx.
Qed.
Lemma cont_D f t d : is_derive f t d -> cont f t.
Proof. intros H. apply cont_continuous. eapply D_cont; eauto. Qed.
Lemma cont_const c t : cont (fun _ => c) t.
Proof. apply (cont_D _ t 0). exact (D_const c t). Qed.
Lemma cont_id t : cont (fun x => x) t.
Proof. apply (cont_D _ t 1). exact (D_id t). Qed.
Lemma cont_ext f g t : (forall x, f x = g x) -> cont f t -> cont g t.
Proof. intros E H e He. eapply filter_imp; [|exact (H e He)]. cbn. intros x. rewrite !E; auto. Qed.
Lemma cont_plus f g t : cont f t -> cont g t -> cont (fun x => f x + g x) t.
Proof. rewrite !cont_continuous. intros; apply (@continuous_plus R_UniformSpace R_AbsRing R_NormedModule f g); auto. Qed.
Lemma cont_mult f g t : cont f t -> cont g t -> cont (fun x => f x * g x) t.
Proof. rewrite !cont_continuous. intros; apply (@continuous_mult R_UniformSpace R_AbsRing f g); auto. Qed.
Lemma cont_opp f t : cont f t -> cont (fun x => - f x) t.
Proof. intros. apply cont_ext with (fun x => (-1) * f x); [intro; ring|]. apply cont_mult; auto using cont_const. Qed.
Lemma cont_minus f g t : cont f t -> cont g t -> cont (fun x => f x - g x) t.
Proof. intros; apply (cont_plus f (fun x => - g x)); auto using cont_opp. Qed.
Lemma cont_comp f g t : cont f (g t) -> cont g t -> cont (fun x => f (g x)) t.
Proof. rewrite !cont_continuous. intros; apply (continuous_comp g f); auto. Qed.
Lemma cont_inv f t : cont f t -> f t <> 0 -> cont (fun x => / f x) t.
Proof. intros H N. apply (cont_comp Rinv f); auto. apply (cont_D _ _ (- 1 / (f t) ^ 2)).
  apply (D_inv (fun x => x) (f t) 1); auto. exact (D_id (f t)). Qed.
Lemma cont_div f g t : cont f t -> cont g t -> g t <> 0 -> cont (fun x => f x / g x) t.
Proof. intros; unfold Rdiv. apply cont_mult; auto. apply cont_inv; auto. Qed.
Lemma cont_pow2 f t : cont f t -> cont (fun x => f x ^ 2) t.
Proof. intros. apply cont_ext with (fun x => f x * f x); [intro; ring|apply cont_mult; auto]. Qed.
Lemma cont_abs f t : cont f t -> cont (fun x => Rabs (f x)) t.
Proof. intros H e He. eapply filter_imp; [|exact (H e He)]. cbn. intros x Hx.
  eapply Rle_lt_trans; [apply Rabs_triang_inv2|auto]. Qed.
Lemma cont_sqrt f t : cont f t -> 0 <= f t -> cont (fun x => sqrt (f x)) t.
Proof. intros H P. apply (cont_comp sqrt f); auto. apply cont_continuous. 
  apply continuity_pt_filterlim. apply continuity_pt_sqrt; auto. Qed.
Lemma cont_sum3 (f : R -> ix3 -> R) t : (forall i, cont (fun x => f x i) t) -> cont (fun x => sum3 (f x)) t.
Proof. intros H; unfold sum3. repeat apply cont_plus; auto. Qed.
Lemma cont_squeeze f g t : cont g t -> g t = 0 -> (forall x, Rabs (f x - f t) <= g x) -> cont f t.
Proof.
  intros G Z B e He. eapply filter_imp; [|exact (G e He)]. cbn. intros x Hx. rewrite Z, Rminus_0_r in Hx.
  eapply Rle_lt_trans; [apply B|]. eapply Rle_lt_trans; [apply Rle_abs|auto].
Qed.
Lemma cont_ext_loc f g t : locally t (fun x => f x = g x) -> cont f t -> cont g t.
Proof.
  intros E H e He. assert (Et : f t = g t) by (apply (locally_singleton t _ E)).
  eapply filter_imp; [|exact (filter_and _ _ E (H e He))]. cbn. intros x [E1 Hx]. rewrite <- E1, <- Et; auto.
Qed.
Lemma cont_neq f t : cont f t -> f t <> 0 -> locally t (fun x => f x <> 0).
Proof. intros H N. assert (P : 0 < Rabs (f t)) by (apply Rabs_pos_lt; auto).
  eapply filter_imp; [|exact (H _ P)]. cbn. intros x Hx E. rewrite E in Hx.
  replace (0 - f t) with (- f t) in Hx by ring. rewrite Rabs_Ropp in Hx. lra. Qed.
Lemma cont_gt f t c : cont f t -> c < f t -> locally t (fun x => c < f x).
Proof. intros H N. eapply filter_imp; [|exact (H (f t - c) ltac:(lra))]. cbn. intros x Hx.
  apply Rabs_lt_between in Hx. lra. Qed.

Ltac kstep :=
  match goal with
  | H : cont ?f ?t |- cont ?f ?t => exact H
  | |- cont (fun _ => ?c) _ => apply (cont_const c)
  | |- cont (fun x => x) _ => apply cont_id
  | |- cont (fun x => @?f x + @?g x) _ => apply (cont_plus f g)
  | |- cont (fun x => @?f x - @?g x) _ => apply (cont_minus f g)
  | |- cont (fun x => - @?f x) _ => apply (cont_opp f)
  | |- cont (fun x => @?f x * @?g x) _ => apply (cont_mult f g)
  | |- cont (fun x => @?f x ^ 2) _ => apply (cont_pow2 f)
  | |- cont (fun x => / @?f x) _ => apply (cont_inv f)
  | |- cont (fun x => @?f x / @?g x) _ => apply (cont_div f g)
  | |- cont (fun x => Rabs (@?f x)) _ => apply (cont_abs f)
  | |- cont (fun x => sqrt (@?f x)) _ => apply (cont_sqrt f)
  | |- cont (fun x => sum3 (@?f x)) _ => apply (cont_sum3 f); intro
  | H : forall i, cont _ _ |- _ => exact (H _)
  | H : forall i j, cont _ _ |- _ => exact (H _ _)
  end.
Ltac ksolve := repeat kstep.

(** *** Caratheodory *)
Lemma D_slope (m : R -> R) t0 : cont m t0 -> is_derive (fun t => (t - t0) * m t) t0 (m t0).
Proof.
  intros H. apply is_derive_Reals. intros e He.
  destruct (H e He) as [d Hd]. exists d. intros h Hh Hl.
  replace (((t0 + h - t0) * m (t0 + h) - (t0 - t0) * m t0) / h - m t0) with (m (t0 + h) - m t0) by (field; auto).
  apply Hd. change (Rabs (t0 + h - t0) < d). replace (t0 + h - t0) with h by ring. auto.
Qed.
Lemma caratheodory (f : R -> R) t0 d : is_derive f t0 d -> f t0 = 0 ->
  { n : R -> R | cont n t0 /\ n t0 = d /\ forall t, f t = (t - t0) * n t }.
Proof.
  intros H Z. exists (fun t => if Req_EM_T t t0 then d else f t / (t - t0)). split; [|split].
  - intros e He. apply is_derive_Reals in H. destruct (H e He) as [dl Hd]. exists dl. intros y Hy.
    change (Rabs (y - t0) < dl) in Hy. destruct (Req_EM_T t0 t0) as [_|]; [|contradiction].
    destruct (Req_EM_T y t0) as [->|N]; [rewrite Rminus_eq_0, Rabs_R0; auto|].
    specialize (Hd (y - t0) ltac:(lra) Hy). rewrite Z in Hd. rewrite (Rplus_minus t0 y) in Hd.
    rewrite Rminus_0_r in Hd. auto.
  - destruct (Req_EM_T t0 t0); tauto.
  - intro t. destruct (Req_EM_T t t0) as [->|N]; [rewrite Z; ring|]. field. lra.
Qed.
Lemma D_mult_cont (f g : R -> R) t0 d : is_derive f t0 d -> f t0 = 0 -> cont g t0 ->
  is_derive (fun t => f t * g t) t0 (d * g t0).
Proof.
  intros H Z K. destruct (caratheodory f t0 d H Z) as (n & Kn & En & E).
  apply D_eq with (n t0 * g t0); [|rewrite En; reflexivity].
  apply D_ext with (fun t => (t - t0) * (n t * g t)); [intro; rewrite E; ring|].
  apply (D_slope (fun t => n t * g t)). ksolve.
Qed.
(** Gluing a function from its two sides. *)
Lemma D_glue (f p m : R -> R) t0 d : is_derive p t0 d -> is_derive m t0 d ->
  (forall t, t0 <= t -> f t = p t) -> (forall t, t <= t0 -> f t = m t) -> is_derive f t0 d.
Proof.
  intros P M Ep Em. apply is_derive_Reals. apply is_derive_Reals in P. apply is_derive_Reals in M. intros e He.
  destruct (P e He) as [d1 H1]. destruct (M e He) as [d2 H2].
  exists (mkposreal _ (Rmin_stable_in_posreal d1 d2)). cbn [pos]. intros h Hh Hl.
  pose proof (Rmin_l d1 d2); pose proof (Rmin_r d1 d2).
  destruct (Rle_dec 0 h) as [L|L].
  - rewrite (Ep (t0 + h)), (Ep t0) by lra. apply H1; auto. apply Rlt_le_trans with (Rmin d1 d2); auto.
  - rewrite (Em (t0 + h)), (Em t0) by lra. apply H2; auto. apply Rlt_le_trans with (Rmin d1 d2); auto.
Qed.
