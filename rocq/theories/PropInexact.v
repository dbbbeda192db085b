(** * Property C80 (Newton's method with errors, modified Newton method, floating point). *)
From Coq Require Import Reals Lra Lia List FunctionalExtensionality.
From Verif Require Import Tensor Py Voigt Algebra Models Frameworks Spaces Spec SpaceCore InvCore Counter ScaleProofs
  NewtonSpec NewtonLin NewtonProofs Spectral PropNewton InexactSpec InexactProofs FloatNewtonSpec FloatNewtonProofs FloatRuns.
Import ListNotations.
Local Open Scope R_scope.

(** ** C80 *)
(** Wrong residuals, wrong matrices and unfinished solutions (InexactSpec.v). *)
Theorem C80_inexact : forall n body load us,
  List.Forall (fun q => smooth_at (q_material q) (deformed n us q)) body ->
  equilibrium n body load us -> regular_stiffness n body us -> newton_tolerates_errors n body load us.
Proof. exact inexact_main. Qed.
Print Assumptions C80_inexact.
(** The stiffness matrix of another state. *)
Theorem C80_modified_newton : forall n body load us,
  List.Forall (fun q => smooth_at (q_material q) (deformed n us q)) body ->
  equilibrium n body load us -> regular_stiffness n body us -> modified_newton_converges n body load us.
Proof. exact modified_main. Qed.
Print Assumptions C80_modified_newton.
(** For the library's materials. *)
Theorem C80_library : forall lapack n body load us, lapack_legal lapack ->
  List.Forall (fun q => invertible (deformed n us q) /\ library_point lapack (q_material q) (deformed n us q)) body ->
  equilibrium n body load us -> regular_stiffness n body us ->
  newton_tolerates_errors n body load us /\ modified_newton_converges n body load us.
Proof.
  intros lapack n body load us HL HB HE HG.
  assert (HS : List.Forall (fun q => smooth_at (q_material q) (deformed n us q)) body).
  { revert HB. apply Forall_impl. intros q (N & H). exact (C76_library_point lapack _ _ HL N H). }
  split; [exact (inexact_main n body load us HS HE HG)|exact (modified_main n body load us HS HE HG)].
Qed.
Print Assumptions C80_library.

(** Stresses and tangents of ThirdOrderDeformation in Deformation, computed in floating point. *)
Lemma points_smooth n body us : List.Forall (fun q => invertible (deformed n us q)) (map exact_point body) ->
  List.Forall (fun q => smooth_at (q_material q) (deformed n us q)) (map exact_point body).
Proof.
  intro H. induction body as [|q body IH]; cbn [map] in *; [constructor|]. inversion H; subst.
  constructor; [exact (C76_third_order_deformation unit (fp_model q) tt _ H2)|auto].
Qed.
Theorem C80_floating_point : forall n body load us,
  List.Forall (fun q => invertible (deformed n us q)) (map exact_point body) ->
  equilibrium n (map exact_point body) load us -> regular_stiffness n (map exact_point body) us ->
  float_newton_converges n body load us.
Proof. intros n body load us HI HE HG. exact (float_main n body load us (points_smooth n body us HI) HE HG). Qed.
Print Assumptions C80_floating_point.
(** There are such iterations: near the equilibrium every state has a next one, for every eps and delta
    (0 included: rounding errors are allowed, not required). *)
Theorem C80_iterations_exist : forall n body load us,
  List.Forall (fun q => invertible (deformed n us q)) (map exact_point body) ->
  equilibrium n (map exact_point body) load us -> regular_stiffness n (map exact_point body) us ->
  exists r, 0 < r /\ forall u eps delta, within n r u us -> 0 <= eps -> 0 <= delta ->
    exists v, float_step n body load eps delta u v /\ within n (r / 2) v us.
Proof.
  intros n body load us HI HE HG. destruct (newton_main n (map exact_point body) load us (points_smooth n body us HI) HE HG) as (r & M & Hr & H & _).
  exists r. split; [exact Hr|]. intros u eps delta Hu He Hd. destruct (H u r ltac:(lra) Hu) as (v & Hv & U).
  exists v. split; [exact (exact_runs n body load eps delta u v He Hd Hv)|apply (U v Hv)].
Qed.
Print Assumptions C80_iterations_exist.

(** The bar of C76: psi = (I1 - 3)^2, load 24, equilibrium at twice the length. *)
Definition fbar : FPoint := {| fp_weight := 1; fp_model := tod_init 0 0 0 1 0 false; fp_F0 := one2; fp_shape := q_shape bar |}.
Example C80_example : map exact_point [fbar] = [bar] /\
  newton_tolerates_errors 1 [bar] (fun _ => 24) (fun _ => 1) /\
  modified_newton_converges 1 [bar] (fun _ => 24) (fun _ => 1) /\
  float_newton_converges 1 [fbar] (fun _ => 24) (fun _ => 1).
Proof.
  destruct C76_example as (H1 & H2 & H3 & _). split; [reflexivity|].
  destruct (C80_library lapack0 1 [bar] _ _ lapack0_legal H1 H2 H3) as [A B]. split; [exact A|]. split; [exact B|].
  apply (C80_floating_point 1 [fbar]); [|exact H2|exact H3]. constructor; [|constructor]. inversion H1; subst. apply H4.
Qed.
