(** * C80: the exact values are among the values of rounded arithmetic, so exact Newton iterations
    are iterations of the floating point version (the runs of FloatNewtonSpec.v exist). *)
From Coq Require Import Reals Lra Lia List Permutation Bool.
From Verif Require Import Tensor Py Voigt Algebra Models Frameworks Spaces Spec SpaceCore NewtonSpec FloatNewtonSpec.
From Verif Require Import Rounded RoundedCode RoundedProofs.
From Verif Require RoundedMath.
Import ListNotations.
Local Open Scope R_scope.

(** no empty sums or products *)
Fixpoint full (e : expr) : bool :=
  match e with
  | Num _ => true
  | Add a b | Sub a b | Mul a b | Div a b => full a && full b
  | Sqrt a | Pow a _ => full a
  | Sum l | Prod l => negb (match l with [] => true | _ => false end) && forallb full l
  end.
Lemma exact_order u (op : R -> R -> R) e0 : 0 <= u -> (forall x, op x e0 = x) -> forall xs, xs <> [] -> any_order u op xs (fold_right op e0 xs).
Proof.
  intros Hu Hop xs. induction xs as [|x xs IH]; intro N; [congruence|]. destruct xs as [|y xs].
  - exists (Leaf x). split; [apply Permutation_refl|]. cbn. rewrite Hop. reflexivity.
  - destruct IH as (t & P & V); [discriminate|]. exists (Node (Leaf x) t). split; [cbn [leaves app]; apply perm_skip, P|].
    exists x, (fold_right op e0 (y :: xs)). split; [reflexivity|]. split; [exact V|]. cbn [fold_right]. apply fl_exact. exact Hu.
Qed.
Lemma rounded_self u e : 0 <= u -> full e = true -> rounded u e (exact e).
Proof.
  intro Hu. induction e as [x|a b Ha Hb|a b Ha Hb|a b Ha Hb|a b Ha Hb|a Ha|a p Ha|l Hl|l Hl] using expr_ind'; cbn [full]; intro H.
  - reflexivity.
  - apply andb_prop in H. destruct H. cbn [rounded exact]. exists (exact a), (exact b). repeat split; auto using fl_exact.
  - apply andb_prop in H. destruct H. cbn [rounded exact]. exists (exact a), (exact b). repeat split; auto using fl_exact.
  - apply andb_prop in H. destruct H. cbn [rounded exact]. exists (exact a), (exact b). repeat split; auto using fl_exact.
  - apply andb_prop in H. destruct H. cbn [rounded exact]. exists (exact a), (exact b). repeat split; auto using fl_exact.
  - cbn [rounded exact]. exists (exact a). split; auto using fl_exact.
  - cbn [rounded exact]. exists (exact a), p. repeat split; auto using fl_exact.
  - apply andb_prop in H. destruct H as [N H]. apply rounded_Sum. exists (map exact l). split.
    + clear N. induction l as [|e l IH]; [constructor|]. cbn in H. apply andb_prop in H. destruct H. inversion Hl; subst. constructor; auto.
    + cbn [exact]. replace (fold_right (fun e s => exact e + s) 0 l) with (fold_right Rplus 0 (map exact l)) by (clear; induction l; cbn; congruence).
      apply exact_order; [exact Hu|intro; ring|]. destruct l; [discriminate|cbn; discriminate].
  - apply andb_prop in H. destruct H as [N H]. apply rounded_Prod. exists (map exact l). split.
    + clear N. induction l as [|e l IH]; [constructor|]. cbn in H. apply andb_prop in H. destruct H. inversion Hl; subst. constructor; auto.
    + cbn [exact]. replace (fold_right (fun e s => exact e * s) 1 l) with (fold_right Rmult 1 (map exact l)) by (clear; induction l; cbn; congruence).
      apply exact_order; [exact Hu|intro; ring|]. destruct l; [discriminate|cbn; discriminate].
Qed.
Lemma full_stress m F i J : full (x_stress Deformed Undeformed m (in33 F) i J) = true.
Proof.
  cbv [x_stress x_force x_astensor x_S x_dWdC x_tod_gradient x_iadd].
  destruct (nonzero (C10 m)), (nonzero (C01 m)), (nonzero (C11 m)), (nonzero (C20 m)), (nonzero (C30 m)); reflexivity.
Qed.
Lemma full_elasticity m F i J k L : full (x_elasticity m (in33 F) i J k L) = true.
Proof.
  cbv [x_elasticity x_force4 x_cdya_ik x_astensor4 x_dya x_S x_dWdC x_d2WdCdC x_tod_gradient x_tod_hessian x_iadd].
  destruct (nonzero (C10 m)), (nonzero (C01 m)), (nonzero (C11 m)), (nonzero (C20 m)), (nonzero (C30 m)); destruct i, J, k, L; reflexivity.
Qed.
Lemma stress_value eps m F P : 0 <= eps -> pm_stress (material KDeformation (invariants_fw (tod_model m)) tt) F P -> computed_stress eps m F P.
Proof.
  intros He (s & sv & E) i J. pose proof (RoundedMath.stress_exact m F unit tt Deformed Undeformed s) as E'. cbn [sp_gradient] in E.
  change default_opts with {| finalize := true; force := Deformed; area := Undeformed |} in E.
  rewrite E' in E. injection E as E _. subst P. apply rounded_self; [exact He|apply full_stress].
Qed.
Lemma tangent_value eps m F A : 0 <= eps -> pm_tangent (material KDeformation (invariants_fw (tod_model m)) tt) F A -> computed_tangent eps m F A.
Proof.
  intros He (s & E) i J k L. pose proof (RoundedMath.elast_exact m F unit tt s) as E'. cbn [sp_hessian] in E.
  rewrite E' in E. injection E as E. subst A. apply rounded_self; [exact He|apply full_elasticity].
Qed.
Lemma Forall2_points {B} (Q : QPoint -> B -> Prop) (Q' : FPoint -> B -> Prop) (H : forall q b, Q (exact_point q) b -> Q' q b) body : forall l,
  List.Forall2 Q (map exact_point body) l -> List.Forall2 Q' body l.
Proof. induction body as [|q body IH]; intros l Hl; inversion Hl; subst; constructor; auto. Qed.
Lemma combine_points {B} (f : QPoint * B -> R) (g : FPoint * B -> R) (H : forall q b, f (exact_point q, b) = g (q, b)) body : forall l,
  map f (combine (map exact_point body) l) = map g (combine body l).
Proof. induction body as [|q body IH]; intros [|b l]; cbn; try reflexivity. rewrite H, IH. reflexivity. Qed.
Lemma near_self e (F : T2) : 0 <= e -> NewtonSpec.near e F F.
Proof. intros He i j. rewrite Rminus_diag_eq, Rabs_R0 by reflexivity. exact He. Qed.
Theorem exact_runs n body load eps delta u v : 0 <= eps -> 0 <= delta ->
  newton_step n (map exact_point body) load u v -> float_step n body load eps delta u v.
Proof.
  intros He Hd (r & K & (P & HP & Hr) & (A & HA & HK) & HS). exists P, A, r, K. split; [|split; [|split; [|split]]].
  - revert HP. apply Forall2_points. intros q p Hp. exists (deformed n u (exact_point q)). split; [apply near_self; exact Hd|apply stress_value; [exact He|exact Hp]].
  - revert HA. apply Forall2_points. intros q p Hp. exists (deformed n u (exact_point q)). split; [apply near_self; exact Hd|apply tangent_value; [exact He|exact Hp]].
  - intros a La. rewrite (Hr a La). rewrite (combine_points _ (fun qp => fp_weight (fst qp) * dc22 (snd qp) (fp_shape (fst qp) a))) by reflexivity.
    rewrite Rminus_diag_eq by reflexivity. rewrite Rabs_R0. exact Hd.
  - intros a b La Lb. rewrite (HK a b La Lb). rewrite (combine_points _ (fun qp => fp_weight (fst qp) * dc22 (fp_shape (fst qp) a) (dc42 (snd qp) (fp_shape (fst qp) b)))) by reflexivity.
    rewrite Rminus_diag_eq by reflexivity. rewrite Rabs_R0. exact Hd.
  - intros a La. rewrite (HS a La). replace (- r a + r a) with 0 by ring. rewrite Rabs_R0. exact Hd.
Qed.
