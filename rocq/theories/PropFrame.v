(** * Property C47: inputs are never modified.

    [guards S m Q] (NDFrame.v): started in any heap in which the buffers [S] exist, the call
    [m] leaves every entry of every buffer in [S] as it was, whether it returns or raises,
    and a returned value satisfies [Q].  [free S a]: the array [a] does not look at a buffer
    of [S].  [S] is arbitrary: F, the state variables, A, B, the model's parameters, ... *)
From Coq Require Import Reals List Arith Lia.
From Verif Require Import Tensor Py Voigt Models Spaces NDCore NDOps NDHeap NDVoigt NDSpaces NDFrameworks NDSpec NDLinks NDFrame.
Import ListNotations.
Local Open Scope R_scope.

(** Every math function called without [out]: no array is modified and the result is new
    (transpose: a view of its argument). *)
Theorem C47_math_functions : forall (S : nat -> Prop) (A B : nd) (d : option nd) (same : bool) (dim : nat) lapack f,
  guards S (nd_asvoigt A) (free S) /\ guards S (nd_asvoigt4 A) (free S) /\
  guards S (nd_astensor A) (free S) /\ guards S (nd_astensor4 A) (free S) /\
  guards S (nd_trace A) (free S) /\ guards S (nd_det A) (free S) /\ guards S (nd_dev A) (free S) /\
  guards S (nd_eye (Some A)) (free S) /\ guards S (nd_eye None) (free S) /\
  guards S (nd_inv A d None) (free S) /\ guards S (nd_dot A B) (free S) /\
  guards S (nd_ddot22 A B) (free S) /\ guards S (nd_ddot44 A B) (free S) /\
  guards S (nd_ddot42 A B) (free S) /\ guards S (nd_ddot24 A B) (free S) /\
  guards S (nd_dya A B None) (free S) /\ guards S (nd_cdya same A B None) (free S) /\
  guards S (nd_cdya_ik A B None) (free S) /\ guards S (nd_cdya_il A B None) (free S) /\
  guards S (nd_tril_from_triu A dim None) (free S) /\ guards S (nd_triu_from_tril A dim None) (free S) /\
  guards S (nd_eigh lapack A f) (fun r => free S (fst r) /\ free S (snd r)) /\
  guards S (nd_transpose A) (fun r => loc r = loc A).
Proof.
  intros S A B d same dim lapack f.
  repeat (split; [solve [auto with gdb | apply G_copy_pairs; exact I]|]). apply G_transpose.
Qed.
Print Assumptions C47_math_functions.

(** With [out=o] only the buffer of [o] is written. *)
Theorem C47_math_functions_out : forall (S : nat -> Prop) (A B : nd) (d : option nd) (same : bool) (dim : nat) (o : nd),
  ~ S (loc o) ->
  guards S (nd_inv A d (Some o)) (free S) /\ guards S (nd_dya A B (Some o)) (free S) /\
  guards S (nd_cdya same A B (Some o)) (free S) /\
  guards S (nd_cdya_ik A B (Some o)) (free S) /\ guards S (nd_cdya_il A B (Some o)) (free S) /\
  guards S (nd_tril_from_triu A dim (Some o)) (free S) /\ guards S (nd_triu_from_tril A dim (Some o)) (free S).
Proof.
  intros S A B d same dim o H.
  do 6 (split; [first [apply G_inv|apply G_dya|apply G_cdya|apply G_cdya_ik|apply G_cdya_il|apply G_copy_pairs]; exact H|]).
  apply G_copy_pairs. exact H.
Qed.
Print Assumptions C47_math_functions_out.

(** Spaces: if the material leaves the buffers [S] alone (when called with an array outside
    [S], which is how the spaces call it), so do gradient and hessian. *)
Theorem C47_space : forall ST (mat : NDMat ST) (S : nat -> Prop), mat_guards S mat ->
  forall kd o F sv,
    guards S (nd_sp_gradient kd mat o F sv) (fun r => free S (fst r)) /\
    guards S (nd_sp_hessian kd mat o F sv) (free S).
Proof.
  intros ST mat S H kd o F sv. destruct kd; cbn [nd_sp_gradient nd_sp_hessian]; split;
    auto using G_def_gradient, G_def_hessian, G_dis_gradient, G_dis_hessian, G_dil_gradient, G_dil_hessian.
Qed.
Print Assumptions C47_space.

(** Frameworks, with any user model that leaves [S] alone when called with arrays outside [S]. *)
Theorem C47_invariants : forall ST (m : NDInvModel ST) (S : nat -> Prop), invm_guards S m ->
  forall C sv,
    guards S (ndm_gradient (nd_invariants m) C sv) (fun r => free S (fst r)) /\
    guards S (ndm_hessian (nd_invariants m) C sv) (free S).
Proof. intros ST m S H C sv. split; [now apply G_inv_gradient|now apply G_inv_hessian]. Qed.
Print Assumptions C47_invariants.
Theorem C47_stretches : forall ST lapack (m : NDStretchModel ST) (S : nat -> Prop), strm_guards S m ->
  forall C sv,
    guards S (ndm_gradient (nd_stretches lapack m) C sv) (fun r => free S (fst r)) /\
    guards S (ndm_hessian (nd_stretches lapack m) C sv) (free S).
Proof. intros ST lapack m S H C sv. split; [now apply G_str_gradient|now apply G_str_hessian]. Qed.
Print Assumptions C47_stretches.

(** The library's materials in every space and configuration, for all parameters and inputs
    (also ill-shaped ones, for which the call raises): no array that exists before the call
    is modified, and the result is a new array. *)
Inductive library_material {ST} : NDMat ST -> Prop :=
| lib_third_order m : library_material (nd_invariants (nd_tod m))
| lib_ogden lapack m : library_material (nd_stretches lapack (nd_ogden m))
| lib_generalized_strain lapack m k c : library_material (nd_stretches lapack (nd_gen (nd_tod m) (nd_strain k) c))
| lib_generalized_deformation lapack m k c : library_material (nd_stretches lapack (nd_gen (nd_tod m) (nd_deformation k) c)).
Lemma lib_guards {ST} S (mat : NDMat ST) : library_material mat -> mat_guards S mat.
Proof.
  intros []; [apply inv_guards, tod_guards|apply str_guards, ogden_guards|..]; apply str_guards, gen_guards;
    auto using tod_guards, G_strain, G_deformation.
Qed.
Definition pure_call {A} (h : heap) (m : M A) (result : A -> nd) : Prop :=
  let '(h', r) := m h in
  (forall a, (loc a < hnext h)%nat -> forall k, dat (contents h' a) k = dat (contents h a) k) /\
  (forall x, r = Ok x -> (hnext h <= loc (result x))%nat).
Lemma guards_pure {A} h (m : M A) f : guards (fun l => (l < hnext h)%nat) m (fun r => free (fun l => (l < hnext h)%nat) (f r)) -> pure_call h m f.
Proof.
  intros G. destruct (G h (fun l H => H)) as [[_ K] Q]. unfold pure_call. destruct (m h) as [h' r]. cbn in *. split.
  - intros a Ha k. apply K, Ha.
  - intros x E. specialize (Q x E). unfold free in Q. lia.
Qed.
Theorem C47_library : forall ST (mat : NDMat ST), library_material mat -> forall kd o h F sv,
  pure_call h (nd_sp_gradient kd mat o F sv) fst /\ pure_call h (nd_sp_hessian kd mat o F sv) (fun r => r).
Proof.
  intros ST mat HL kd o h F sv.
  destruct (C47_space ST mat _ (lib_guards (fun l => (l < hnext h)%nat) mat HL) kd o F sv) as [G1 G2].
  split; apply guards_pure; assumption.
Qed.
Print Assumptions C47_library.
(** The shipped models meet the hypotheses of C47_space, C47_invariants and C47_stretches, for every set S of buffers. *)
Example C47_example : forall (S : nat -> Prop) lapack, invm_guards S (nd_tod (ST:=unit) (tod_init 1 2 3 4 5 false)) /\
  strm_guards S (nd_ogden (ST:=unit) {| og_mu := [1; 2]; og_alpha := [3; -2] |}) /\
  mat_guards S (nd_invariants (nd_tod (ST:=unit) (tod_init 1 2 3 4 5 false))) /\
  mat_guards S (nd_stretches lapack (nd_ogden (ST:=unit) {| og_mu := [1; 2]; og_alpha := [3; -2] |})).
Proof. intros S lapack. split; [apply tod_guards|]. split; [apply ogden_guards|]. split; apply lib_guards; constructor. Qed.
