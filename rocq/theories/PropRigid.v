(** * Property C79 (rigid motions of bodies). *)
From Coq Require Import Reals Lra Lia List FunctionalExtensionality.
From Verif Require Import Tensor Py Voigt Algebra Models Frameworks Spaces Spec VCalc PiolaProofs
  SpaceCore SpaceProofs InvCore Counter NewtonSpec NewtonLin PropNewton PropLoad RigidSpec RigidProofs.
Import ListNotations.
Local Open Scope R_scope.

(** ** C79 *)
(** The internal forces of a body are balanced. *)
Theorem C79_forces_balanced : forall m body x f, partition_of_unity m body -> nodal_forces m body x f ->
  forall i, sumn m (fun p => f p i) = 0.
Proof.
  intros m body x f HU (P & HP & HE) i. rewrite (sumn_ext m _ (fun p => nf body P p i)) by (intros p Lp; exact (HE p i Lp)).
  apply total_force; exact HU.
Qed.
Print Assumptions C79_forces_balanced.
(** So are their moments, whatever the mesh. *)
Theorem C79_moments_balanced : forall m body x f, List.Forall (fun q => space_material (n_material q)) body -> nodal_forces m body x f ->
  forall i j, sumn m (fun p => x p i * f p j - x p j * f p i) = 0.
Proof.
  intros m body x f HM (P & HP & HE) i j.
  rewrite sumn_minus, (sumn_ext m _ (fun p => x p i * nf body P p j)) by (intros p Lp; rewrite (HE p j Lp); reflexivity).
  rewrite (sumn_ext m (fun p => x p j * f p i) (fun p => x p j * nf body P p i)) by (intros p Lp; rewrite (HE p i Lp); reflexivity).
  rewrite (total_moment m x body P HM HP i j). ring.
Qed.
Print Assumptions C79_moments_balanced.
(** A body that is rotated and shifted as a whole: the forces are rotated, the stiffness matrix too. *)
Theorem C79_rotated_body : forall m body Q c x, orthogonal Q -> List.Forall (fun q => space_material (n_material q)) body -> partition_of_unity m body ->
  (forall f, nodal_forces m body x f -> nodal_forces m body (fun p i => act Q (x p) i + c i) (fun p => act Q (f p))) /\
  (forall K, nodal_stiffness m body x K ->
     nodal_stiffness m body (fun p i => act Q (x p) i + c i) (fun p i r k => sum3 (fun a => sum3 (fun b => Q i a * Q k b * K p a r b)))).
Proof. intros m body Q c x HQ HM HU. split; intros; [apply moved_forces|apply moved_stiffness]; assumption. Qed.
Print Assumptions C79_rotated_body.
(** The stiffness matrix does not resist translations, and under an infinitesimal rotation W the forces
    turn with the body. *)
Theorem C79_rigid_modes : forall m body x K, List.Forall (fun q => space_material (n_material q)) body -> nodal_stiffness m body x K ->
  (partition_of_unity m body -> forall c p i, (p < m)%nat -> times m K (fun _ => c) p i = 0) /\
  exists f, nodal_forces m body x f /\ forall W p i, skew W -> (p < m)%nat -> times m K (fun r => act W (x r)) p i = act W (f p) i.
Proof.
  intros m body x K HM (A & HA & HE).
  assert (EK : forall w p i, (p < m)%nat -> times m K w p i = times m (nk body A) w p i).
  { intros w p i Lp. unfold times. apply sumn_ext. intros r Lr. apply sum3_ext. intro k. rewrite HE by assumption. reflexivity. }
  split.
  - intros HU c p i Lp. rewrite EK by exact Lp. apply translate; exact HU.
  - destruct (spin m x body A HM HA) as (P & HP & HS). exists (nf body P). split; [exists P; split; [exact HP|reflexivity]|].
    intros W p i HW Lp. rewrite EK by exact Lp. apply HS; exact HW.
Qed.
Print Assumptions C79_rigid_modes.
(** A body without loads or supports has the six rigid modes: no displacement of it costs a force. *)
Theorem C79_free_body : forall m body x K, List.Forall (fun q => space_material (n_material q)) body -> partition_of_unity m body ->
  (forall f, nodal_forces m body x f -> forall p i, (p < m)%nat -> f p i = 0) -> nodal_stiffness m body x K ->
  forall W c p i, skew W -> (p < m)%nat -> times m K (fun r k => act W (x r) k + c k) p i = 0.
Proof.
  intros m body x K HM HU HF HK W c p i HW Lp.
  destruct (C79_rigid_modes m body x K HM HK) as (T1 & f & F1 & F2).
  replace (times m K (fun r k => act W (x r) k + c k) p i) with (times m K (fun r => act W (x r)) p i + times m K (fun _ => c) p i).
  - rewrite (T1 HU c p i Lp), (F2 W p i HW Lp). unfold act, sum3. rewrite !(HF f F1) by exact Lp. ring.
  - unfold times. rewrite <- sumn_plus. apply sumn_ext. intros. unfold sum3. ring.
Qed.
Print Assumptions C79_free_body.

(** A tetrahedron with psi = (I1 - 3)^2, stretched to twice its length in the first direction: forces and
    stiffness exist there, the mesh satisfies the hypotheses, and the forces are not zero. *)
Definition tet : NPoint := {| n_weight := / 6; n_material := material KDeformation (tod20 1) tt;
  n_grad := fun p j => match p, j with 0%nat, _ => -1 | 1%nat, X0 => 1 | 2%nat, X1 => 1 | 3%nat, X2 => 1 | _, _ => 0 end |}.
Definition tet_x : nat -> Vec3 := fun p i => match p, i with 1%nat, X0 => 2 | 2%nat, X1 => 1 | 3%nat, X2 => 1 | _, _ => 0 end.
Lemma tet_F : gradient_at 4 tet_x tet = pulled 2.
Proof. apply T2_ext; intros i j. unfold gradient_at, tet, tet_x, pulled; cbn [n_grad sumn]. destruct i, j; cbn; ring. Qed.
Example C79_example : List.Forall (fun q => space_material (n_material q)) [tet] /\ partition_of_unity 4 [tet] /\
  (exists f, nodal_forces 4 [tet] tet_x f /\ f 1%nat X0 = 4) /\ exists K, nodal_stiffness 4 [tet] tet_x K.
Proof.
  pose proof (tod20_plain 1 ltac:(lra)) as TP.
  split; [constructor; [|constructor]; exists unit, KDeformation, (tod20 1), tt; reflexivity|].
  split; [constructor; [|constructor]; intro j; cbn; destruct j; ring|]. split.
  - assert (HP : pm_stress (n_material tet) (pulled 2) (pulledP 2)).
    { exists (space_self0 (tod20 1) inv_self0), tt. rewrite (sp_gradient_ok (tod20 1) default_opts _ _ _ _ _ _ (proj1 (TP _ tt _))). apply f_equal. apply f_equal2; [|reflexivity]. apply default_stress. }
    exists (nf [tet] [pulledP 2]). split.
    + exists [pulledP 2]. split; [constructor; [rewrite tet_F; exact HP|constructor]|reflexivity].
    + unfold nf; cbn [combine map fold_right fst snd]. unfold pulledP, mmul, astensor, kS, G20, vscal, right_CG, trace, eye, asvoigt, pulled, tet, sum3; cbn. unfold sum3; cbn. field.
  - assert (HA : pm_tangent (n_material tet) (pulled 2) (pulledA 2)).
    { exists (space_self0 (tod20 1) inv_self0). destruct (DistProofs.outcome_pair _ _ _ (proj1 (TP (right_CG (pulled 2)) tt inv_self0))) as [ms E].
      rewrite (sp_hessian_ok (tod20 1) default_opts KDeformation (pulled 2) tt (space_self0 (tod20 1) inv_self0) _ _ _ E), (proj2 (TP _ tt _)), default_elast. reflexivity. }
    exists (nk [tet] [pulledA 2]), [pulledA 2]. split; [constructor; [rewrite tet_F; exact HA|constructor]|reflexivity].
Qed.
(** The undeformed tetrahedron is free of forces. *)
Definition tet_x0 : nat -> Vec3 := fun p i => match p, i with 1%nat, X0 => 1 | 2%nat, X1 => 1 | 3%nat, X2 => 1 | _, _ => 0 end.
Lemma tet_F0 : gradient_at 4 tet_x0 tet = pulled 1.
Proof. apply T2_ext; intros i j. unfold gradient_at, tet, tet_x0, pulled; cbn [n_grad sumn]. destruct i, j; cbn; ring. Qed.
Example C79_example_free : (forall f, nodal_forces 4 [tet] tet_x0 f -> forall p i, (p < 4)%nat -> f p i = 0) /\ (exists f, nodal_forces 4 [tet] tet_x0 f) /\
  exists K, nodal_stiffness 4 [tet] tet_x0 K /\ K 1%nat X0 1%nat X0 = 4 / 3.
Proof.
  pose proof (tod20_plain 1 ltac:(lra)) as TP. split; [|split].
  - intros f (P & HP & HE) p i Lp. inversion HP as [|q s b P' Hq HN]; subst. inversion HN; subst. rewrite tet_F0 in Hq.
    destruct Hq as (s0 & svn & E). rewrite (sp_gradient_ok (tod20 1) default_opts _ _ _ _ _ _ (proj1 (TP _ tt (sp_mat s0)))), default_stress in E.
    injection E as <- _. rewrite HE by exact Lp. cbn [combine map fold_right fst snd].
    unfold mmul, astensor, kS, G20, vscal, right_CG, trace, eye, asvoigt, pulled, sum3; destruct i; cbn; unfold sum3; cbn; ring.
  - assert (HP : pm_stress (n_material tet) (pulled 1) (pulledP 1)).
    { exists (space_self0 (tod20 1) inv_self0), tt. rewrite (sp_gradient_ok (tod20 1) default_opts _ _ _ _ _ _ (proj1 (TP _ tt _))). apply f_equal. apply f_equal2; [|reflexivity]. apply default_stress. }
    exists (nf [tet] [pulledP 1]), [pulledP 1]. split; [constructor; [rewrite tet_F0; exact HP|constructor]|reflexivity].
  - assert (HA : pm_tangent (n_material tet) (pulled 1) (pulledA 1)).
    { exists (space_self0 (tod20 1) inv_self0). destruct (DistProofs.outcome_pair _ _ _ (proj1 (TP (right_CG (pulled 1)) tt inv_self0))) as [ms E].
      rewrite (sp_hessian_ok (tod20 1) default_opts KDeformation (pulled 1) tt (space_self0 (tod20 1) inv_self0) _ _ _ E), (proj2 (TP _ tt _)), default_elast. reflexivity. }
    exists (nk [tet] [pulledA 1]). split; [exists [pulledA 1]; split; [constructor; [rewrite tet_F0; exact HA|constructor]|reflexivity]|].
    unfold nk; cbn [combine map fold_right fst snd]. unfold pulledA, t4add, legs13, geo, one2, delta, astensor4, astensor, kC4, kS, G20, H20, mscal6, vscal, right_CG, trace, eye, asvoigt, pulled, tet, sum3; cbn. unfold sum3; cbn. field.
Qed.
