(** * Property C78 (load stepping). *)
From Coq Require Import Reals Lra Lia List FunctionalExtensionality.
From Coquelicot Require Import Coquelicot.
From Verif Require Import Tensor Py Voigt Algebra Models Frameworks Spaces Spec VCalc PiolaProofs
  SpaceCore SpaceProofs InvCore Counter ScaleProofs NewtonSpec NewtonLin NewtonProofs Spectral PropNewton LoadSpec LoadProofs.
Import ListNotations.
Local Open Scope R_scope.

(** ** C78 *)
(** Any body of smooth points in a regular equilibrium: existence, uniqueness, the rate of change of the
    displacement with the load, and Newton's method for the changed load (LoadSpec.v). *)
Theorem C78_new_load : forall n body load us,
  List.Forall (fun q => smooth_at (q_material q) (deformed n us q)) body ->
  equilibrium n body load us -> regular_stiffness n body us -> follows_the_load n body load us.
Proof. exact load_main. Qed.
Print Assumptions C78_new_load.
(** A whole path of regular equilibria is followed by load stepping. *)
Theorem C78_load_path : forall n body g v,
  (forall t, 0 <= t <= 1 -> List.Forall (fun q => smooth_at (q_material q) (deformed n (v t) q)) body) ->
  equilibrium_path n body g v -> load_stepping_works n body g v.
Proof. exact path_main. Qed.
Print Assumptions C78_load_path.
(** For the library's materials. *)
Theorem C78_library : forall lapack n body load us, lapack_legal lapack ->
  List.Forall (fun q => invertible (deformed n us q) /\ library_point lapack (q_material q) (deformed n us q)) body ->
  equilibrium n body load us -> regular_stiffness n body us -> follows_the_load n body load us.
Proof.
  intros lapack n body load us HL HB. apply load_main. revert HB. apply Forall_impl. intros q (N & H).
  exact (C76_library_point lapack _ _ HL N H).
Qed.
Print Assumptions C78_library.
Theorem C78_library_path : forall lapack n body g v, lapack_legal lapack ->
  (forall t, 0 <= t <= 1 -> List.Forall (fun q => invertible (deformed n (v t) q) /\ library_point lapack (q_material q) (deformed n (v t) q)) body) ->
  equilibrium_path n body g v -> load_stepping_works n body g v.
Proof.
  intros lapack n body g v HL HB. apply path_main. intros t Ht. generalize (HB t Ht). apply Forall_impl. intros q (N & H).
  exact (C76_library_point lapack _ _ HL N H).
Qed.
Print Assumptions C78_library_path.

(** The bar of C76 (psi = (I1 - 3)^2) is pulled from its undeformed state to twice its length: with
    the stretch 1 + t the load is 4 (1 + t) ((1 + t)^2 - 1), from 0 to 24, and load stepping gets there. *)
Definition pulled (l : R) : T2 := fun i j => match i, j with X0, X0 => l | X1, X1 => 1 | X2, X2 => 1 | _, _ => 0 end.
Definition pulledP (l : R) : T2 := mmul (pulled l) (astensor (kS KDeformation (right_CG (pulled l)) (G20 1 (right_CG (pulled l))))).
Definition pulledA (l : R) : T4 := t4add (legs13 (pulled l) (astensor4 (kC4 KDeformation (right_CG (pulled l)) (G20 1 (right_CG (pulled l))) (H20 1))))
  (geo one2 (astensor (kS KDeformation (right_CG (pulled l)) (G20 1 (right_CG (pulled l)))))).
Lemma pulled_values l : dc22 (pulledP l) (q_shape bar 0) = 4 * l * (l ^ 2 - 1) /\ dc22 (q_shape bar 0) (dc42 (pulledA l) (q_shape bar 0)) = 12 * l ^ 2 - 4.
Proof.
  split; unfold dc22, dc42, pulledP, pulledA, t4add, legs13, geo, one2, delta, mmul, sum3, astensor, astensor4, kC4, kS, G20, H20, mscal6, vscal, right_CG, trace, eye, asvoigt, pulled, bar;
  cbn; unfold sum3; cbn; ring.
Qed.
Lemma pulled_F t : deformed 1 (fun _ => t) bar = pulled (1 + t).
Proof. apply T2_ext; intros i j. unfold deformed, bar, pulled; cbn [q_F0 q_shape sumn]. unfold one2, delta. destruct i, j; cbn; ring. Qed.
Example C78_example :
  (forall t, 0 <= t <= 1 -> List.Forall (fun q => invertible (deformed 1 (fun _ => t) q) /\ library_point lapack0 (q_material q) (deformed 1 (fun _ => t) q)) [bar]) /\
  equilibrium_path 1 [bar] (fun t _ => 4 * (1 + t) * ((1 + t) ^ 2 - 1)) (fun t _ => t) /\
  load_stepping_works 1 [bar] (fun t _ => 4 * (1 + t) * ((1 + t) ^ 2 - 1)) (fun t _ => t).
Proof.
  assert (H1 : forall t, 0 <= t <= 1 -> List.Forall (fun q => invertible (deformed 1 (fun _ => t) q) /\ library_point lapack0 (q_material q) (deformed 1 (fun _ => t) q)) [bar]).
  { intros t Ht. constructor; [|constructor]. split; [|exact (lib_tod lapack0 (tod_init 0 0 0 1 0 false) _)].
    rewrite pulled_F. unfold invertible, det3, pulled; cbn. lra. }
  pose proof (tod20_plain 1 ltac:(lra)) as TP.
  assert (H2 : equilibrium_path 1 [bar] (fun t _ => 4 * (1 + t) * ((1 + t) ^ 2 - 1)) (fun t _ => t)).
  { intros t Ht. destruct (pulled_values (1 + t)) as [V1 V2]. split; [|split].
    - assert (HP : pm_stress (q_material bar) (pulled (1 + t)) (pulledP (1 + t))).
      { exists (space_self0 (tod20 1) inv_self0), tt. rewrite (sp_gradient_ok (tod20 1) default_opts _ _ _ _ _ _ (proj1 (TP _ tt _))). apply f_equal. apply f_equal2; [|reflexivity]. apply default_stress. }
      exists (fun _ => 0). split; [|reflexivity]. exists [pulledP (1 + t)]. split; [constructor; [rewrite pulled_F; exact HP|constructor]|].
      intros a La. replace a with 0%nat by lia. cbn [combine map fold_right fst snd]. rewrite V1. cbn [q_weight bar]. ring.
    - assert (HA : pm_tangent (q_material bar) (pulled (1 + t)) (pulledA (1 + t))).
      { exists (space_self0 (tod20 1) inv_self0). destruct (DistProofs.outcome_pair _ _ _ (proj1 (TP (right_CG (pulled (1 + t))) tt inv_self0))) as [ms E].
        rewrite (sp_hessian_ok (tod20 1) default_opts KDeformation (pulled (1 + t)) tt (space_self0 (tod20 1) inv_self0) _ _ _ E), (proj2 (TP _ tt _)), default_elast. reflexivity. }
      exists (fun _ _ => 12 * (1 + t) ^ 2 - 4). split.
      + exists [pulledA (1 + t)]. split; [constructor; [rewrite pulled_F; exact HA|constructor]|].
        intros a b La Lb. replace a with 0%nat by lia. replace b with 0%nat by lia. cbn [combine map fold_right fst snd]. rewrite V2. cbn [q_weight bar]. ring.
      + intros w HW a La. specialize (HW 0%nat ltac:(lia)). cbn [sumn] in HW. replace a with 0%nat by lia.
        assert (P : 0 < 12 * (1 + t) ^ 2 - 4) by (assert (1 <= (1 + t) ^ 2) by (replace 1 with (1 ^ 2) by ring; apply pow_incr; lra); lra).
        rewrite Rplus_0_l in HW. apply Rmult_integral in HW. destruct HW as [HW|HW]; [lra|exact HW].
    - intros a _. split; [|apply derivable_continuous_pt; reg].
      apply derivable_continuous_pt. reg. }
  split; [exact H1|]. split; [exact H2|]. exact (C78_library_path lapack0 1 [bar] _ _ lapack0_legal H1 H2).
Qed.
