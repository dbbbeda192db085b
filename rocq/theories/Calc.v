(** Differentiation rules in the form used by the proofs (no code modelled here). *)
From Coq Require Import Reals Lra FunctionalExtensionality.
From Coquelicot Require Import Coquelicot.
From Verif Require Import Tensor.
Local Open Scope R_scope.

Lemma D_eq (f : R -> R) (t l l' : R) : is_derive f t l -> l = l' -> is_derive f t l'.
Proof. intros H <-; exact H. Qed.
Lemma D_ext (f g : R -> R) (t a : R) : (forall x, f x = g x) -> is_derive f t a -> is_derive g t a.
Proof. intros; eapply is_derive_ext; eauto. Qed.
Lemma D_unique (f : R -> R) (t a b : R) : is_derive f t a -> is_derive f t b -> a = b.
Proof. intros A B. apply is_derive_unique in A, B. congruence. Qed.
Lemma D_const (c t : R) : is_derive (fun _ => c) t 0.
Proof. exact (@is_derive_const R_AbsRing R_NormedModule c t). Qed.
Lemma D_id (t : R) : is_derive (fun x => x) t 1.
Proof. exact (@is_derive_id R_AbsRing t). Qed.
Lemma D_plus (f g : R -> R) (t a b : R) : is_derive f t a -> is_derive g t b -> is_derive (fun x => f x + g x) t (a + b).
Proof. intros; apply (@is_derive_plus R_AbsRing R_NormedModule f g); auto. Qed.
Lemma D_minus (f g : R -> R) (t a b : R) : is_derive f t a -> is_derive g t b -> is_derive (fun x => f x - g x) t (a - b).
Proof. intros; apply (@is_derive_minus R_AbsRing R_NormedModule f g); auto. Qed.
Lemma D_opp (f : R -> R) (t a : R) : is_derive f t a -> is_derive (fun x => - f x) t (- a).
Proof. intros; apply (@is_derive_opp R_AbsRing R_NormedModule f); auto. Qed.
Lemma D_mult (f g : R -> R) (t a b : R) : is_derive f t a -> is_derive g t b ->
  is_derive (fun x => f x * g x) t (a * g t + f t * b).
Proof. intros; apply (@is_derive_mult R_AbsRing f g); auto. intros; apply Rmult_comm. Qed.
Lemma D_scal (f : R -> R) (c t a : R) : is_derive f t a -> is_derive (fun x => c * f x) t (c * a).
Proof. intros; apply (@is_derive_scal f); auto. Qed.
Lemma D_scalr (f : R -> R) (c t a : R) : is_derive f t a -> is_derive (fun x => f x * c) t (a * c).
Proof. intros. apply D_eq with (c * a); [|ring].
  apply D_ext with (fun x => c * f x); [intro; ring|apply D_scal; auto]. Qed.
Lemma D_inv (f : R -> R) (t a : R) : is_derive f t a -> f t <> 0 -> is_derive (fun x => / f x) t (- a / f t ^ 2).
Proof. intros; apply is_derive_inv; auto. Qed.
Lemma D_div (f g : R -> R) (t a b : R) : is_derive f t a -> is_derive g t b -> g t <> 0 ->
  is_derive (fun x => f x / g x) t ((a * g t - f t * b) / g t ^ 2).
Proof. intros. apply is_derive_div; auto. Qed.
Lemma D_divc (f : R -> R) (c t a : R) : is_derive f t a -> is_derive (fun x => f x / c) t (a / c).
Proof. intros; unfold Rdiv; apply D_scalr; auto. Qed.
Lemma D_sqr (f : R -> R) (t a : R) : is_derive f t a -> is_derive (fun x => f x ^ 2) t (2 * f t * a).
Proof. intros. apply D_eq with (a * f t + f t * a); [|ring].
  apply D_ext with (fun x => f x * f x); [intro; ring|apply D_mult; auto]. Qed.
Lemma D_cub (f : R -> R) (t a : R) : is_derive f t a -> is_derive (fun x => f x ^ 3) t (3 * f t ^ 2 * a).
Proof. intros. eapply D_eq.
  apply D_ext with (fun x => f x * (f x * f x)); [intro; ring|apply D_mult; [|apply D_mult]; eassumption]. cbn beta; ring. Qed.
Lemma D_comp (f g : R -> R) (t a b : R) : is_derive f (g t) a -> is_derive g t b -> is_derive (fun x => f (g x)) t (b * a).
Proof. intros. apply (@is_derive_comp R_AbsRing R_NormedModule f g); auto. Qed.
Lemma D_Rpower (k x : R) : 0 < x -> is_derive (fun x => Rpower x k) x (k * Rpower x (k - 1)).
Proof. intros. apply is_derive_Reals. apply derivable_pt_lim_power; auto. Qed.
Lemma D_pow (f : R -> R) (k t a : R) : is_derive f t a -> 0 < f t ->
  is_derive (fun x => Rpower (f x) k) t (k * Rpower (f t) (k - 1) * a).
Proof. intros. eapply D_eq. apply (D_comp (fun x => Rpower x k) f); eauto using D_Rpower. ring. Qed.
Lemma D_sqrt (f : R -> R) (t a : R) : is_derive f t a -> 0 < f t -> is_derive (fun x => sqrt (f x)) t (a / (2 * sqrt (f t))).
Proof. intros. apply is_derive_sqrt; auto. Qed.
Lemma D_sum3 (f : R -> ix3 -> R) t d :
  (forall i, is_derive (fun x => f x i) t (d i)) -> is_derive (fun x => sum3 (f x)) t (sum3 d).
Proof. intros H; unfold sum3. repeat apply D_plus; auto. Qed.
Lemma D_sum6 (f : R -> ix6 -> R) t d :
  (forall i, is_derive (fun x => f x i) t (d i)) -> is_derive (fun x => sum6 (f x)) t (sum6 d).
Proof. intros H; unfold sum6. repeat apply D_plus; auto. Qed.
Lemma D_ext_loc (f g : R -> R) (t a : R) : locally t (fun x => f x = g x) -> is_derive f t a -> is_derive g t a.
Proof. intros; eapply is_derive_ext_loc; eauto. Qed.

(** Structural differentiation: leaves an equation between the computed and the claimed
    derivative.  Uses the derivative hypotheses in the context for the atoms. *)
Ltac datom := first
  [ match goal with H : is_derive ?f ?t _ |- is_derive ?f ?t _ => exact H end
  | match goal with H : dcurve2 _ _ _ |- _ => exact (H _ _) end
  | match goal with H : dcurve3 _ _ _ |- _ => exact (H _) end
  | match goal with H : dcurve6 _ _ _ |- _ => exact (H _) end
  | match goal with H : forall i, is_derive _ _ _ |- _ => exact (H _) end
  | match goal with H : forall i j, is_derive _ _ _ |- _ => exact (H _ _) end ].
Ltac dstep :=
  match goal with
  | |- is_derive (fun _ => ?c) _ _ => apply (D_const c)
  | |- is_derive (fun x => @?f x + @?g x) _ _ => apply (D_plus f g)
  | |- is_derive (fun x => @?f x - @?g x) _ _ => apply (D_minus f g)
  | |- is_derive (fun x => - @?f x) _ _ => apply (D_opp f)
  | |- is_derive (fun x => ?c * @?g x) _ _ => apply (D_scal g c)
  | |- is_derive (fun x => @?f x * ?c) _ _ => apply (D_scalr f c)
  | |- is_derive (fun x => @?f x * @?g x) _ _ => apply (D_mult f g)
  | |- is_derive (fun x => @?f x / ?c) _ _ => apply (D_divc f c)
  | |- is_derive (fun x => @?f x ^ 2) _ _ => apply (D_sqr f)
  | |- is_derive (fun x => @?f x ^ 3) _ _ => apply (D_cub f)
  | |- is_derive (fun x => Rpower (@?f x) ?k) _ _ => apply (D_pow f k)
  | |- is_derive (fun x => sqrt (@?f x)) _ _ => apply (D_sqrt f)
  | |- is_derive (fun x => / @?f x) _ _ => apply (D_inv f)
  | |- is_derive (fun x => @?f x / @?g x) _ _ => apply (D_div f g)
  | |- is_derive (fun x => sum3 (@?f x)) _ _ => apply (D_sum3 f); intro
  | |- is_derive _ _ _ => progress datom
  end.
Ltac dsolve := eapply D_eq; [repeat dstep|].

(** A differentiable real function keeps a sign locally. *)
Lemma D_cont (f : R -> R) (t a : R) : is_derive f t a -> continuous f t.
Proof. intros H. apply (@ex_derive_continuous R_AbsRing R_NormedModule). exists a; auto. Qed.
Lemma locally_pos (f : R -> R) (t a : R) : is_derive f t a -> 0 < f t -> locally t (fun x => 0 < f x).
Proof.
  intros H P. apply (D_cont f t a H (fun y => 0 < y)). apply (open_gt 0); auto.
Qed.
Lemma locally_neq0 (f : R -> R) (t a : R) : is_derive f t a -> f t <> 0 -> locally t (fun x => f x <> 0).
Proof.
  intros H P. apply (D_cont f t a H (fun y => y <> 0)). apply (open_neq 0); auto.
Qed.
