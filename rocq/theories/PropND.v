(** * Properties C45 - C47: arrays with trailing axes.

    [field h a I t]: [a] is an existing array of shape [idim I ++ t] (one object of kind [I]
    per trailing index); [value... h a k] is the object at trailing index [k];
    [returns h m Q]: the call does not raise, changes no array that existed before, and its
    result satisfies [Q].  See NDSpec.v. *)
From Coq Require Import Reals Lra List Arith Lia FunctionalExtensionality.
From Verif Require Import Tensor Py Voigt VoigtProofs Algebra VCalc EigCore PiolaProofs Models Frameworks Spaces Spec GenProofs InvCore StrCore SpaceCore.
From Verif Require Import NDCore NDRel NDOps NDHeap NDVoigt NDMath NDMath2 NDMath3 NDSpaces
  NDSpaceProofs NDSpaceMain NDFrameworks NDInvProofs NDModels NDEigh NDViews NDStrProofs NDGenProofs NDSpec NDTril NDLinks NDLinks2 NDRaise NDCounter.
Import ListNotations.
Local Open Scope R_scope.

(** ** C45: functions of hyperelastic.math *)
Ltac one_arg L H :=
  intros; eapply W_returns; [eapply L; [apply le_n|apply field_hrel, H]|intros ? ? _ G; exact (gives_new _ _ _ _ _ _ _ G)].
Theorem C45_asvoigt : forall h A T, field h A i33 T ->
  returns h (nd_asvoigt A) (new_field h i6 T T (fun k => asvoigt (value33 h A k))).
Proof. intros h A T H. one_arg nd_asvoigt_W H. Qed.
Print Assumptions C45_asvoigt.
Theorem C45_asvoigt4 : forall h A T, field h A i3333 T ->
  returns h (nd_asvoigt4 A) (new_field h i66 T T (fun k '(v, w) => asvoigt4 (value3333 h A k) v w)).
Proof. intros h A T H. one_arg nd_asvoigt4_W H. Qed.
Print Assumptions C45_asvoigt4.
Theorem C45_astensor : forall h A T, field h A i6 T ->
  returns h (nd_astensor A) (new_field h i33 T T (fun k '(i, j) => astensor (value6 h A k) i j)).
Proof. intros h A T H. one_arg nd_astensor_W H. Qed.
Print Assumptions C45_astensor.
Theorem C45_astensor4 : forall h A T, field h A i66 T ->
  returns h (nd_astensor4 A) (new_field h i3333 T T (fun k '(i, j, l, m) => astensor4 (value66 h A k) i j l m)).
Proof. intros h A T H. one_arg nd_astensor4_W H. Qed.
Print Assumptions C45_astensor4.
Theorem C45_trace : forall h A T, field h A i6 T ->
  returns h (nd_trace A) (new_field h iS T T (fun k _ => trace (value6 h A k))).
Proof. intros h A T H. one_arg nd_trace_W H. Qed.
Print Assumptions C45_trace.
Theorem C45_det : forall h A T, field h A i6 T ->
  returns h (nd_det A) (new_field h iS T T (fun k _ => det (value6 h A k))).
Proof. intros h A T H. one_arg nd_det_W H. Qed.
Print Assumptions C45_det.
Theorem C45_dev : forall h A T, field h A i6 T ->
  returns h (nd_dev A) (new_field h i6 T T (fun k => dev (value6 h A k))).
Proof. intros h A T H. one_arg nd_dev_W H. Qed.
Print Assumptions C45_dev.
(** eye(A): all trailing axes have length 1, so it broadcasts against [A]. *)
Theorem C45_eye : forall h A T, field h A i6 T ->
  returns h (nd_eye (Some A)) (new_field h i6 (repeat 1%nat (length T)) T (fun _ => eye)).
Proof.
  intros h A T H. eapply W_returns; [eapply (nd_eye_W _ _ _ i6); [now right|apply le_n|apply field_hrel, H]|].
  intros ? ? _ G; exact (gives_new _ _ _ _ _ _ _ G).
Qed.
Print Assumptions C45_eye.
(** transpose returns a view. *)
Theorem C45_transpose : forall h A T, field h A i66 T ->
  returns h (nd_transpose A) (fun r h' => loc r = loc A /\ field h' r i66 T /\
    forall k, inb T k -> forall v w, value66 h' r k v w = transpose (value66 h A k) v w).
Proof.
  intros h A T H. eapply W_returns; [apply nd_transpose_W, field_hrel, H|].
  intros r h' _ [-> [E G]]. split; [exact E|]. destruct (value_hrel _ _ _ _ _ _ G) as [G1 G2].
  split; [exact G1|]. intros k Hk v w. exact (G2 k Hk (v, w)).
Qed.
Print Assumptions C45_transpose.
(** inv(A) and inv(A, determinant): the determinant may be a scalar or have axes of length 1. *)
Theorem C45_inv : forall h A T, field h A i6 T ->
  returns h (nd_inv A None None) (new_field h i6 T T (fun k => inv (value6 h A k) None)).
Proof.
  intros h A T H. eapply W_returns.
  { apply (nd_inv_W (hnext h) h A None T T _ (fun _ => 0) (le_n _) (field_hrel _ _ _ _ H)). discriminate. }
  intros ? ? _ G; exact (gives_new _ _ _ _ _ _ _ G).
Qed.
Print Assumptions C45_inv.
Theorem C45_inv_determinant : forall h A d u T, field h A i6 T -> field h d iS u -> sub u T ->
  returns h (nd_inv A (Some d) None)
    (new_field h i6 T T (fun k => inv (value6 h A k) (Some (value1 h d k)))).
Proof.
  intros h A d u T H Hd Hs. eapply W_returns.
  { apply (nd_inv_W (hnext h) h A (Some d) T T _ (value1 h d) (le_n _) (field_hrel _ _ _ _ H)).
    intros a [= <-]. exists u. split; [exact Hs|]. eapply hrel_fun.
    - apply (hrel_value h d iS u T Hd Hs). now left.
    - intros k Hk []. reflexivity. }
  intros ? ? _ G; exact (gives_new _ _ _ _ _ _ _ G).
Qed.
Print Assumptions C45_inv_determinant.

(** Two arguments: their trailing axes broadcast ([joint t u T]: same number of axes,
    [np.broadcast_shapes(t, u) == T]). *)
Ltac two_args L HA HB HJ :=
  destruct (joint_sub _ _ _ HJ) as [S1 [S2 [S3 [S4 S5]]]];
  eapply W_returns;
  [eapply L; [apply le_n|eapply hrel_value; [exact HA|exact S1|now right]|eapply hrel_value; [exact HB|exact S2|now right]]
  |intros ? ? _ G; rewrite S3 in G; exact (gives_new _ _ _ _ _ _ _ G)].
Theorem C45_ddot22 : forall h A B t u T, field h A i6 t -> field h B i6 u -> joint t u T ->
  returns h (nd_ddot22 A B) (new_field h iS T T (fun k _ => ddot22 (value6 h A k) (value6 h B k))).
Proof. intros h A B t u T HA HB HJ. two_args nd_ddot22_W HA HB HJ. Qed.
Print Assumptions C45_ddot22.
Theorem C45_ddot44 : forall h A B t u T, field h A i66 t -> field h B i66 u -> joint t u T ->
  returns h (nd_ddot44 A B) (new_field h i66 T T (fun k '(v, w) => ddot44 (value66 h A k) (value66 h B k) v w)).
Proof. intros h A B t u T HA HB HJ. two_args nd_ddot44_W HA HB HJ. Qed.
Print Assumptions C45_ddot44.
Theorem C45_ddot42 : forall h A B t u T, field h A i66 t -> field h B i6 u -> joint t u T ->
  returns h (nd_ddot42 A B) (new_field h i6 T T (fun k => ddot42 (value66 h A k) (value6 h B k))).
Proof. intros h A B t u T HA HB HJ. two_args nd_ddot42_W HA HB HJ. Qed.
Print Assumptions C45_ddot42.
Theorem C45_ddot24 : forall h A B t u T, field h A i6 t -> field h B i66 u -> joint t u T ->
  returns h (nd_ddot24 A B) (new_field h i6 T T (fun k => ddot24 (value6 h A k) (value66 h B k))).
Proof. intros h A B t u T HA HB HJ. two_args nd_ddot24_W HA HB HJ. Qed.
Print Assumptions C45_ddot24.
Theorem C45_dot : forall h A B t u T, field h A i6 t -> field h B i6 u -> joint t u T ->
  returns h (nd_dot A B) (new_field h i33 T T (fun k '(i, j) => dot (value6 h A k) (value6 h B k) i j)).
Proof. intros h A B t u T HA HB HJ. two_args nd_dot_W HA HB HJ. Qed.
Print Assumptions C45_dot.
Theorem C45_dya : forall h A B t u T, field h A i6 t -> field h B i6 u -> joint t u T ->
  returns h (nd_dya A B None) (new_field h i66 T T (fun k '(v, w) => dya (value6 h A k) (value6 h B k) v w)).
Proof. intros h A B t u T HA HB HJ. two_args nd_dya_W HA HB HJ. Qed.
Print Assumptions C45_dya.
(** [same]: both arguments are the same Python object. *)
Theorem C45_cdya : forall h A B t u T same, field h A i6 t -> field h B i6 u -> joint t u T ->
  returns h (nd_cdya same A B None)
    (new_field h i66 T T (fun k '(v, w) => cdya_obj same (value6 h A k) (value6 h B k) v w)).
Proof. intros h A B t u T same HA HB HJ. two_args nd_cdya_W HA HB HJ. Qed.
Print Assumptions C45_cdya.
Ltac two_args_v L HA HB HJ :=
  destruct (joint_sub _ _ _ HJ) as [S1 [S2 [S3 [S4 S5]]]];
  eapply W_returns;
  [eapply L; [apply le_n|eapply hrel_value; [exact HA|exact S1|now right]|eapply hrel_value; [exact HB|exact S2|now right]]
  |intros ? ? _ [G1 [G2 _]]; rewrite S3 in G2; exact (conj G1 (value_hrel _ _ _ _ _ _ G2))].
Theorem C45_cdya_ik : forall h A B t u T, field h A i6 t -> field h B i6 u -> joint t u T ->
  returns h (nd_cdya_ik A B None)
    (new_field h i3333 T T (fun k '(i, j, l, m) => cdya_ik (value6 h A k) (value6 h B k) i j l m)).
Proof. intros h A B t u T HA HB HJ. two_args_v nd_cdya_ik_W HA HB HJ. Qed.
Print Assumptions C45_cdya_ik.
Theorem C45_cdya_il : forall h A B t u T, field h A i6 t -> field h B i6 u -> joint t u T ->
  returns h (nd_cdya_il A B None)
    (new_field h i3333 T T (fun k '(i, j, l, m) => cdya_il (value6 h A k) (value6 h B k) i j l m)).
Proof. intros h A B t u T HA HB HJ. two_args_v nd_cdya_il_W HA HB HJ. Qed.
Print Assumptions C45_cdya_il.
(** eigh(A, fun): eigenvalues (3, ...) and eigenbases (3, 6, ...), each entry from LAPACK's
    result for that entry. *)
Theorem C45_eigh : forall lapack g h A T, field h A i6 T ->
  returns h (nd_eigh lapack A g) (fun '(w, Ms) h' =>
    new_field h i3 T T (fun k a => fst (eigh lapack (value6 h A k) g) a) w h' /\
    new_field h i36 T T (fun k '(a, v) => snd (eigh lapack (value6 h A k) g) a v) Ms h').
Proof.
  intros lapack g h A T H. eapply W_returns; [apply (nd_eigh_W lapack g (hnext h) h A T _ (le_n _) (field_hrel _ _ _ _ H))|].
  cbv beta. intros [w Ms] h' _ [_ [F1 [F2 [_ [_ [_ [G1 G2]]]]]]].
  split; [exact (conj F1 (value_hrel _ _ _ _ _ _ G1))|exact (conj F2 (value_hrel _ _ _ _ _ _ G2))].
Qed.
Print Assumptions C45_eigh.
(** tril_from_triu(A, dim) and triu_from_tril(A, dim) of a square matrix field. *)
Definition square (h : heap) (A : nd) (n : nat) (T : shape) : Prop :=
  (loc A < hnext h)%nat /\ nshp A = n :: n :: T.
Theorem C45_tril_from_triu : forall h A n T dim, square h A n T -> (dim <= n)%nat ->
  returns h (nd_tril_from_triu A dim None) (fun r h' => fresh h h' r /\ square h' r n T /\
    forall k, inb T k -> forall p q, (p < n)%nat -> (q < n)%nat ->
      entry2 h' r k p q = tril_from_triu (entry2 h A k) dim None p q).
Proof.
  intros h A n T dim [H1 H2] Hd.
  destruct (copy_pairs_W (triu_pairs dim) h A T n n H1 H2) as [h' [r [E [X [F [S G]]]]]].
  { intros i j Hi. apply in_triu in Hi. lia. }
  exists h', r. split; [exact E|]. split; [exact X|]. split; [exact F|].
  split; [split; [apply F|congruence]|]. intros k Hk p q Hp Hq.
  destruct (G k Hk p q Hp Hq) as [G1 G2]. rewrite in_triu in G1, G2.
  destruct (lt_dec q p) as [L1|L1]; [destruct (lt_dec p dim) as [L2|L2]|].
  - rewrite G1 by lia. symmetry. apply tril_write. lia.
  - rewrite G2 by lia. symmetry. apply tril_keep. lia.
  - rewrite G2 by lia. symmetry. apply tril_keep. lia.
Qed.
Print Assumptions C45_tril_from_triu.
Theorem C45_triu_from_tril : forall h A n T dim, square h A n T -> (dim <= n)%nat ->
  returns h (nd_triu_from_tril A dim None) (fun r h' => fresh h h' r /\ square h' r n T /\
    forall k, inb T k -> forall p q, (p < n)%nat -> (q < n)%nat ->
      entry2 h' r k p q = triu_from_tril (entry2 h A k) dim None p q).
Proof.
  intros h A n T dim [H1 H2] Hd.
  destruct (copy_pairs_W (tril_pairs dim) h A T n n H1 H2) as [h' [r [E [X [F [S G]]]]]].
  { intros i j Hi. apply in_tril in Hi. lia. }
  exists h', r. split; [exact E|]. split; [exact X|]. split; [exact F|].
  split; [split; [apply F|congruence]|]. intros k Hk p q Hp Hq.
  destruct (G k Hk p q Hp Hq) as [G1 G2]. rewrite in_tril in G1, G2.
  unfold triu_from_tril. destruct (Nat.ltb_spec p q), (Nat.ltb_spec q dim); cbn [andb];
    first [apply G1; lia|apply G2; lia].
Qed.
Print Assumptions C45_triu_from_tril.

(** ** C45: spaces, frameworks and models.

    One call with arrays returns, at every trailing index, what the pointwise call (the
    model of Spaces.v/Frameworks.v/Models.v, about which C01-C34 are proved) returns for
    the deformation gradient and the state variables at that index.  State variables: [ST]
    is the type of the user's state arrays, [sv_at sv k] their entry at index [k]. *)
Definition gradient_pointwise {ST SV} (sv_at : ST -> index -> SV) (kd : SpaceKind) (mat : NDMat ST)
  (fw : Framework SV) (o : SpaceOpts) (T t : shape) (h : heap) (F : nd) (sv : ST) : Prop :=
  returns h (nd_sp_gradient kd mat o F sv) (fun '(P, svn) h' =>
    fresh h h' P /\ field h' P (stress_kind o) t /\
    forall k s, inb T k ->
      outcome (sp_gradient kd fw o (value33 h F k) (sv_at sv k)) s = Ok (stress_at o h' P k, sv_at svn k)).
Definition hessian_pointwise {ST SV} (sv_at : ST -> index -> SV) (kd : SpaceKind) (mat : NDMat ST)
  (fw : Framework SV) (o : SpaceOpts) (T t : shape) (h : heap) (F : nd) (sv : ST) : Prop :=
  returns h (nd_sp_hessian kd mat o F sv) (fun A h' =>
    fresh h h' A /\ field h' A (elast_kind o) t /\
    forall k s, inb T k ->
      outcome (sp_hessian kd fw o (value33 h F k) (sv_at sv k)) s = Ok (elast_at o h' A k)).

(** Conditions, all of which are necessary (see the refutations below):
    [roomy_g], [roomy_h]: not (Deformation with force=0 and a material whose stress or
      elasticity array lacks the trailing axes of F);
    [uniform]: Distortional.hessian tests np.allclose(C4b, 0) once for the whole batch, so
      the entries must agree on that test.
    [tail_axes b T]: [T] if [b], otherwise as many axes of length 1. *)

(** Any invariant-based model that acts pointwise ([invm_ok], NDInvProofs.v: on arrays of
    trailing shape [T] its outputs hold at every index what the pointwise model [pm] returns;
    outputs are numbers or arrays with trailing shapes [s1], [s2], [s3], [hs], or None). *)
Definition inv_defined (D : R -> R -> R -> Prop) (T : shape) (kd : SpaceKind) (h : heap) (F : nd) : Prop :=
  forall k, inb T k -> inv_D D (seen kd (right_CG (value33 h F k))).
Theorem C45_invariants_gradient : forall ST SV (m : NDInvModel ST) (sv_at : ST -> index -> SV) (pm : InvModel SV)
    (D : R -> R -> R -> Prop) T s1 s2 s3 hs, invm_ok m sv_at pm D T s1 s2 s3 hs ->
  forall kd o h F sv, field h F i33 T -> inv_defined D T kd h F -> roomy_g T (inv_tg T s1 s2 s3) kd o ->
    gradient_pointwise sv_at kd (nd_invariants m) (invariants_fw pm) o T
      (out_shape T (inv_tg T s1 s2 s3) kd o) h F sv.
Proof.
  intros ST SV m sv_at pm D T s1 s2 s3 hs Hm kd o h F sv HF HD Ho.
  exact (space_g (nd_invariants m) sv_at (inv_pg pm) (inv_D D) T _ (invariants_fw pm)
    (nd_invariants_g m sv_at pm D T s1 s2 s3 hs Hm)
    (fun C sv k s HD Hk => inv_link_g m sv_at pm D T s1 s2 s3 hs Hm C sv k s HD Hk) kd o h F sv HF HD Ho).
Qed.
Print Assumptions C45_invariants_gradient.
Theorem C45_invariants_hessian : forall ST SV (m : NDInvModel ST) (sv_at : ST -> index -> SV) (pm : InvModel SV)
    (D : R -> R -> R -> Prop) T s1 s2 s3 hs, invm_ok m sv_at pm D T s1 s2 s3 hs -> pat_ok s1 s2 s3 hs ->
  forall kd o h F sv, field h F i33 T -> inv_defined D T kd h F ->
    roomy_h T (inv_tg T s1 s2 s3) (inv_th T s2 s3 hs) kd o -> uniform sv_at T (invariants_fw pm) kd h F sv ->
    hessian_pointwise sv_at kd (nd_invariants m) (invariants_fw pm) o T
      (outh_shape T (inv_th T s2 s3 hs) kd o) h F sv.
Proof.
  intros ST SV m sv_at pm D T s1 s2 s3 hs Hm HP kd o h F sv HF HD Ho Hu.
  assert (Lh := fun C sv k s HD Hk => inv_link_h m sv_at pm D T s1 s2 s3 hs Hm C sv k s HP HD Hk).
  exact (space_h (nd_invariants m) sv_at (inv_pg pm) (inv_ph pm) (inv_D D) T _ _ (invariants_fw pm)
    (nd_invariants_g m sv_at pm D T s1 s2 s3 hs Hm)
    (nd_invariants_h m sv_at pm D T s1 s2 s3 hs Hm HP)
    (fun C sv k s HD Hk => inv_link_g m sv_at pm D T s1 s2 s3 hs Hm C sv k s HD Hk) Lh kd o h F sv HF HD Ho
    (uniform_agree sv_at (inv_ph pm) (inv_D D) T (invariants_fw pm) Lh kd h F sv HD Hu)).
Qed.
Print Assumptions C45_invariants_hessian.

(** The library's ThirdOrderDeformation model, for all parameters. *)
Theorem C45_third_order_gradient : forall ST SV (sv_at : ST -> index -> SV) (m : TOD) T kd o h F sv,
  field h F i33 T -> roomy_g T (tail_axes (stress_varies m) T) kd o ->
  gradient_pointwise sv_at kd (nd_invariants (nd_tod m)) (invariants_fw (tod_model m)) o T
    (out_shape T (tail_axes (stress_varies m) T) kd o) h F sv.
Proof.
  intros ST SV sv_at m T kd o h F sv HF Ho. rewrite <- tod_tg in *.
  apply (C45_invariants_gradient ST SV _ sv_at _ _ T _ _ _ _ (tod_ok T m sv_at) kd o h F sv HF); [|exact Ho].
  intros k Hk. exact I.
Qed.
Print Assumptions C45_third_order_gradient.
Theorem C45_third_order_hessian : forall ST SV (sv_at : ST -> index -> SV) (m : TOD) T kd o h F sv,
  field h F i33 T -> roomy_h T (tail_axes (stress_varies m) T) (tail_axes (tangent_varies m) T) kd o ->
  uniform sv_at T (invariants_fw (tod_model m)) kd h F sv ->
  hessian_pointwise sv_at kd (nd_invariants (nd_tod m)) (invariants_fw (tod_model m)) o T
    (outh_shape T (tail_axes (tangent_varies m) T) kd o) h F sv.
Proof.
  intros ST SV sv_at m T kd o h F sv HF Ho Hu. rewrite <- tod_tg, <- tod_th in *.
  apply (C45_invariants_hessian ST SV _ sv_at _ _ T _ _ _ _ (tod_ok T m sv_at) (tod_pat T m) kd o h F sv HF); [|exact Ho|exact Hu].
  intros k Hk. exact I.
Qed.
Print Assumptions C45_third_order_hessian.

(** Any stretch-based model that acts pointwise ([strm_ok], NDStrProofs.v). *)
Definition str_defined (lapack : Lapack) (D : Vec3 -> Prop) (T : shape) (kd : SpaceKind) (h : heap) (F : nd) : Prop :=
  forall k, inb T k -> D (lam lapack (seen kd (right_CG (value33 h F k)))).
(** [pm] returns [pg], [ph] on stretches in [D] and states of the batch. *)
Definition acts_as {ST SV} (sv_at : ST -> index -> SV) (T : shape) (pm : StretchModel SV)
  (pg : Vec3 -> SV -> Vec3 * SV) (ph : Vec3 -> SV -> ix6 -> option R) (D : Vec3 -> Prop) : Prop :=
  forall l sv k s, D l -> inb T k ->
    outcome (sm_gradient pm l (sv_at sv k)) s = Ok (pg l (sv_at sv k)) /\
    (exists svn, snd (pg l (sv_at sv k)) = sv_at svn k) /\
    outcome (sm_hessian pm l (sv_at sv k)) s = Ok (ph l (sv_at sv k)).
Theorem C45_stretches_gradient : forall ST SV lapack (m : NDStretchModel ST) (sv_at : ST -> index -> SV)
    (pm : StretchModel SV) pg ph D T, strm_ok m sv_at pg ph D T -> acts_as sv_at T pm pg ph D ->
  forall kd o h F sv, field h F i33 T -> str_defined lapack D T kd h F ->
    gradient_pointwise sv_at kd (nd_stretches lapack m) (stretches_fw lapack pm) o T T h F sv.
Proof.
  intros ST SV lapack m sv_at pm pg ph D T Hm Ha kd o h F sv HF HD.
  assert (X := space_g (nd_stretches lapack m) sv_at (str_pg lapack pg) (str_D lapack D) T T (stretches_fw lapack pm)
    (nd_stretches_g lapack m sv_at pg ph D T Hm)).
  replace T with (out_shape T T kd o) at 2 by (unfold out_shape, stress_shape; destruct kd, (finalize o), (force o), (area o); reflexivity).
  apply X; auto.
  - intros C sv' k s HC Hk.
    apply (str_link_g lapack pm pg D (fun v => exists st, v = sv_at st k)); [|exact HC|eauto].
    intros l v s' Hl [st ->]. destruct (Ha l st k s' Hl Hk) as [H1 [[svn H2] _]]. split; [exact H1|]. exists svn. exact H2.
  - intros _ _ _ _. reflexivity.
Qed.
Print Assumptions C45_stretches_gradient.
Theorem C45_stretches_hessian : forall ST SV lapack (m : NDStretchModel ST) (sv_at : ST -> index -> SV)
    (pm : StretchModel SV) pg ph D T, strm_ok m sv_at pg ph D T -> acts_as sv_at T pm pg ph D ->
  forall kd o h F sv, field h F i33 T -> str_defined lapack D T kd h F ->
    uniform sv_at T (stretches_fw lapack pm) kd h F sv ->
    hessian_pointwise sv_at kd (nd_stretches lapack m) (stretches_fw lapack pm) o T T h F sv.
Proof.
  intros ST SV lapack m sv_at pm pg ph D T Hm Ha kd o h F sv HF HD Hu.
  assert (Pg : forall k, inb T k -> forall l v s, D l -> (exists st, v = sv_at st k) ->
    outcome (sm_gradient pm l v) s = Ok (pg l v) /\ exists st, snd (pg l v) = sv_at st k).
  { intros k Hk l v s' Hl [st ->]. destruct (Ha l st k s' Hl Hk) as [H1 [[svn H2] _]]. split; [exact H1|]. exists svn. exact H2. }
  assert (Ph : forall k, inb T k -> forall l v s, D l -> (exists st, v = sv_at st k) ->
    outcome (sm_hessian pm l v) s = Ok (ph l v)).
  { intros k Hk l v s' Hl [st ->]. apply (Ha l st k s' Hl Hk). }
  assert (Lh : forall C sv k s, str_D lapack D C -> inb T k ->
    outcome (fw_hessian (stretches_fw lapack pm) C (sv_at sv k)) s = Ok (str_ph lapack pg ph C (sv_at sv k))).
  { intros C sv' k s HC Hk. apply (str_link_h lapack pm pg ph D (fun v => exists st, v = sv_at st k)); eauto. }
  assert (X := space_h (nd_stretches lapack m) sv_at (str_pg lapack pg) (str_ph lapack pg ph) (str_D lapack D) T T T (stretches_fw lapack pm)
    (nd_stretches_g lapack m sv_at pg ph D T Hm) (nd_stretches_h lapack m sv_at pg ph D T Hm)).
  replace T with (outh_shape T T kd o) at 2 by (unfold outh_shape; destruct kd, (finalize o); reflexivity).
  apply X; auto.
  - intros C sv' k s HC Hk. apply (str_link_g lapack pm pg D (fun v => exists st, v = sv_at st k)); eauto.
  - intros _ _ _. split; [reflexivity|]. intros _. reflexivity.
  - exact (uniform_agree sv_at _ (str_D lapack D) T (stretches_fw lapack pm) Lh kd h F sv HD Hu).
Qed.
Print Assumptions C45_stretches_hessian.

(** Ogden, for all parameters (whatever LAPACK returns). *)
Lemma ogden_acts {ST SV} (sv_at : ST -> index -> SV) T m :
  acts_as sv_at T (ogden_model m) (fun l sv => (ogden_gradient m l, sv)) (fun l _ => ogden_hessian m l) (fun _ => True).
Proof. intros l sv k s _ _. split; [reflexivity|]. split; [exists sv; reflexivity|reflexivity]. Qed.
Theorem C45_ogden_gradient : forall ST SV lapack (sv_at : ST -> index -> SV) (m : Ogden) T kd o h F sv,
  field h F i33 T ->
  gradient_pointwise sv_at kd (nd_stretches lapack (nd_ogden m)) (stretches_fw lapack (ogden_model m)) o T T h F sv.
Proof.
  intros ST SV lapack sv_at m T kd o h F sv HF.
  apply (C45_stretches_gradient ST SV lapack _ sv_at _ _ _ _ T (ogden_ok sv_at T m) (ogden_acts sv_at T m) kd o h F sv HF).
  intros k Hk. exact I.
Qed.
Print Assumptions C45_ogden_gradient.
Theorem C45_ogden_hessian : forall ST SV lapack (sv_at : ST -> index -> SV) (m : Ogden) T kd o h F sv,
  field h F i33 T -> uniform sv_at T (stretches_fw lapack (ogden_model m)) kd h F sv ->
  hessian_pointwise sv_at kd (nd_stretches lapack (nd_ogden m)) (stretches_fw lapack (ogden_model m)) o T T h F sv.
Proof.
  intros ST SV lapack sv_at m T kd o h F sv HF Hu.
  apply (C45_stretches_hessian ST SV lapack _ sv_at _ _ _ _ T (ogden_ok sv_at T m) (ogden_acts sv_at T m) kd o h F sv HF); [|exact Hu].
  intros k Hk. exact I.
Qed.
Print Assumptions C45_ogden_hessian.

(** GeneralizedInvariantsModel with ThirdOrderDeformation and either of the library's strain
    measures, for all parameters and invertible deformation gradients. *)
Lemma gen_acts {ST SV} (sv_at : ST -> index -> SV) T (m : TOD) fs c E E' E'' : measure_of fs E E' E'' ->
  acts_as sv_at T (gen_model (tod_model m) fs c) (gen_pg (tod_model m) c E E') (gen_ph (tod_model m) c E E' E'')
    (gen_D (fun _ _ _ => True) c E).
Proof.
  intros HM l sv k s Hl Hk.
  destruct (gen_link_g (nd_tod m) sv_at (tod_model m) _ T _ _ _ _ fs c E E' E'' (tod_ok T m sv_at) HM l sv k s Hl Hk) as [H1 H2].
  split; [exact H1|]. split; [exact H2|].
  exact (gen_link_h (nd_tod m) sv_at (tod_model m) _ T _ _ _ _ fs c E E' E'' (tod_ok T m sv_at) HM l sv k s Hl Hk).
Qed.
(** The two measures: [strain(stretches, exponent=k)] (k <> 0) and [deformation(...)]. *)
Inductive measure := Strain (k : R) (Hk : k <> 0) | Deform (k : R).
Definition nd_meas (f : measure) : NDStrain :=
  match f with Strain k _ => nd_strain k | Deform k => nd_deformation k end.
Definition meas (f : measure) : R -> Result StrainVal :=
  match f with Strain k _ => strain_fun k | Deform k => deformation_fun k end.
Lemma meas_ok (f : measure) T : exists E E' E'', measure_of (meas f) E E' E'' /\ nd_measure_of (nd_meas f) E E' E'' T.
Proof.
  destruct f as [k Hk|k]; do 3 eexists.
  - split; [exact (strain_measure k Hk)|exact (nd_strain_ok k T Hk)].
  - split; [exact (deformation_measure k)|exact (nd_deformation_ok k T)].
Qed.
Theorem C45_generalized_gradient : forall ST SV lapack (sv_at : ST -> index -> SV) (m : TOD) (f : measure) c T kd o h F sv,
  lapack_legal lapack -> field h F i33 T -> (forall k, inb T k -> invertible (value33 h F k)) ->
  gradient_pointwise sv_at kd (nd_stretches lapack (nd_gen (nd_tod m) (nd_meas f) c))
    (stretches_fw lapack (gen_model (tod_model m) (meas f) c)) o T T h F sv.
Proof.
  intros ST SV lapack sv_at m f c T kd o h F sv HL HF HI. destruct (meas_ok f T) as [E [E' [E'' [M1 M2]]]].
  apply (C45_stretches_gradient ST SV lapack _ sv_at _ _ _ _ T
    (nd_gen_ok (nd_tod m) sv_at (tod_model m) _ T _ _ _ _ (nd_meas f) c E E' E'' (tod_ok T m sv_at) M2 eq_refl)
    (gen_acts sv_at T m (meas f) c E E' E'' M1) kd o h F sv HF).
  intros k Hk. split; [exact (lam_positive lapack kd _ HL (HI k Hk))|exact I].
Qed.
Print Assumptions C45_generalized_gradient.
Theorem C45_generalized_hessian : forall ST SV lapack (sv_at : ST -> index -> SV) (m : TOD) (f : measure) c T kd o h F sv,
  lapack_legal lapack -> field h F i33 T -> (forall k, inb T k -> invertible (value33 h F k)) ->
  uniform sv_at T (stretches_fw lapack (gen_model (tod_model m) (meas f) c)) kd h F sv ->
  hessian_pointwise sv_at kd (nd_stretches lapack (nd_gen (nd_tod m) (nd_meas f) c))
    (stretches_fw lapack (gen_model (tod_model m) (meas f) c)) o T T h F sv.
Proof.
  intros ST SV lapack sv_at m f c T kd o h F sv HL HF HI Hu. destruct (meas_ok f T) as [E [E' [E'' [M1 M2]]]].
  apply (C45_stretches_hessian ST SV lapack _ sv_at _ _ _ _ T
    (nd_gen_ok (nd_tod m) sv_at (tod_model m) _ T _ _ _ _ (nd_meas f) c E E' E'' (tod_ok T m sv_at) M2 eq_refl)
    (gen_acts sv_at T m (meas f) c E E' E'' M1) kd o h F sv HF); [|exact Hu].
  intros k Hk. split; [exact (lam_positive lapack kd _ HL (HI k Hk))|exact I].
Qed.
Print Assumptions C45_generalized_hessian.

(** Without [uniform] the statement is false: a legal material with C20 = 1e-8 and a batch of
    the two deformation gradients 1 and diag(4, 2, 1).  The evaluation of the batch returns for
    the second entry something else than the evaluation of that entry alone. *)
Theorem C45_batch_coupling_refuted : exists (m : TOD) h F,
  field h F i33 [2%nat] /\ (forall k, inb [2%nat] k -> invertible (value33 h F k)) /\
  returns h (nd_sp_hessian KDistortional (nd_invariants (nd_tod m)) default_opts F tt) (fun A h' =>
    exists B, (forall s, outcome (sp_hessian KDistortional (invariants_fw (tod_model m)) default_opts
        (value33 h F [1%nat]) tt) s = Ok B) /\ elast_at default_opts h' A [1%nat] <> B).
Proof. exists m20, two_heap, two_F. split; [exact two_field|]. split; [exact two_invertible|exact batch_coupling]. Qed.
Print Assumptions C45_batch_coupling_refuted.
(** The hypotheses are met by a batch of two different deformation gradients: a batch returns the
    stresses of both entries, in every space and configuration with force=None. *)
Example C45_example : field two_heap two_F i33 [2%nat] /\ value33 two_heap two_F [0%nat] <> value33 two_heap two_F [1%nat] /\
  forall kd a c10 c01 c11 c20 c30 b,
    let m := tod_init c10 c01 c11 c20 c30 b in
    gradient_pointwise (fun (_ : unit) _ => tt) kd (nd_invariants (nd_tod m)) (invariants_fw (tod_model m)) (opts Deformed a) [2%nat]
      (out_shape [2%nat] (tail_axes (stress_varies m) [2%nat]) kd (opts Deformed a)) two_heap two_F tt.
Proof.
  split; [exact two_field|]. split.
  - intro H. apply (f_equal (fun A => A X0 X0)) in H. cbn in H. lra.
  - intros kd a c10 c01 c11 c20 c30 b m. apply C45_third_order_gradient; [exact two_field|].
    unfold roomy_g. cbn. intuition congruence.
Qed.

(** ** C46: which configurations accept which material.

    Shapes only: the returned array has the tensor axes of [stress_kind o] / [elast_kind o]
    (3x3 / 3x3x3x3 for finalize=True) and trailing axes [T], or as many axes of length 1 if
    nothing in the computation depends on the deformation. *)
Definition gradient_accepts {ST} (kd : SpaceKind) (mat : NDMat ST) (o : SpaceOpts) (t : shape) (h : heap) (F : nd) (sv : ST) : Prop :=
  returns h (nd_sp_gradient kd mat o F sv) (fun '(P, _) h' => field h' P (stress_kind o) t).
Definition hessian_accepts {ST} (kd : SpaceKind) (mat : NDMat ST) (o : SpaceOpts) (t : shape) (h : heap) (F : nd) (sv : ST) : Prop :=
  returns h (nd_sp_hessian kd mat o F sv) (fun A h' => field h' A (elast_kind o) t).
Definition some_axis (T : shape) : Prop := List.Exists (fun n => n <> 1%nat) T.
(** The combinations that raise. *)
Definition blocked_gradient (kd : SpaceKind) (o : SpaceOpts) (varies : bool) (T : shape) : Prop :=
  kd = KDeformation /\ finalize o = true /\ force o = Undeformed /\ area o = Deformed /\
  varies = false /\ some_axis T.
Definition blocked_hessian (kd : SpaceKind) (o : SpaceOpts) (varies_g varies_h : bool) (T : shape) : Prop :=
  kd = KDeformation /\ finalize o = true /\ force o = Undeformed /\
  ((area o = Deformed /\ varies_g = false) \/ varies_h = false) /\ some_axis T.
Lemma ones_T T : ones T <> T <-> some_axis T.
Proof.
  unfold ones, some_axis. induction T as [|n T IH]; cbn.
  - split; [congruence|]. intros E. inversion E.
  - rewrite List.Exists_cons. destruct (Nat.eq_dec n 1) as [-> |N].
    + rewrite <- IH. split; [intros E; right; congruence|]. intros [E|E]; [congruence|]. intros [= X]. auto.
    + split; [now left|]. intros _ [= X _]. congruence.
Qed.
Lemma tail_T b T : tail_axes b T <> T <-> b = false /\ some_axis T.
Proof. destruct b; cbn [tail_axes]; [intuition congruence|]. rewrite ones_T. intuition congruence. Qed.
Lemma shp_dec (s t : shape) : {s = t} + {s <> t}. Proof. apply list_eq_dec, Nat.eq_dec. Qed.

Theorem C46_third_order_gradient : forall ST (m : TOD) T kd o h F (sv : ST), field h F i33 T ->
  ~ blocked_gradient kd o (stress_varies m) T ->
  gradient_accepts kd (nd_invariants (nd_tod m)) o (out_shape T (tail_axes (stress_varies m) T) kd o) h F sv.
Proof.
  intros ST m T kd o h F sv HF NB.
  destruct (C45_third_order_gradient ST ST (fun s _ => s) m T kd o h F sv HF) as [h' [[P svn] [E [X [_ [H _]]]]]].
  - intros Y1 Y2 Y3 Y4. destruct (shp_dec (tail_axes (stress_varies m) T) T) as [|N]; [assumption|].
    apply tail_T in N. exfalso. apply NB. unfold blocked_gradient. tauto.
  - exists h', (P, svn). auto.
Qed.
Print Assumptions C46_third_order_gradient.
Theorem C46_third_order_gradient_raises : forall ST (m : TOD) T kd o h F (sv : ST), field h F i33 T ->
  blocked_gradient kd o (stress_varies m) T ->
  raises h (nd_sp_gradient kd (nd_invariants (nd_tod m)) o F sv) ValueError.
Proof.
  intros ST m T kd o h F sv HF [-> [B2 [B3 [B4 [B5 B6]]]]].
  apply (def_gradient_raises (nd_invariants (nd_tod m)) (fun (s : ST) _ => s) (inv_pg (tod_model m)) (inv_D (fun _ _ _ => True)) T
    (tail_axes (stress_varies m) T) o) with (fF := value h F i33); auto.
  - rewrite <- tod_tg. apply (nd_invariants_g _ _ _ _ T _ _ _ _ (tod_ok T m (fun (s : ST) _ => s))).
  - now apply field_hrel.
  - intros k Hk. exact I.
  - now apply tail_T.
Qed.
Print Assumptions C46_third_order_gradient_raises.
Theorem C46_third_order_hessian : forall ST (m : TOD) T kd o h F (sv : ST), field h F i33 T ->
  ~ blocked_hessian kd o (stress_varies m) (tangent_varies m) T ->
  hessian_accepts kd (nd_invariants (nd_tod m)) o (outh_shape T (tail_axes (tangent_varies m) T) kd o) h F sv.
Proof.
  intros ST m T kd o h F sv HF NB.
  assert (X := space_h_returns (nd_invariants (nd_tod m)) (fun (s : ST) _ => s) (inv_pg (tod_model m)) (inv_ph (tod_model m)) (inv_D (fun _ _ _ => True)) T
    (tail_axes (stress_varies m) T) (tail_axes (tangent_varies m) T) (invariants_fw (tod_model m))).
  destruct X with (kd := kd) (o := o) (h := h) (F := F) (sv := sv) as [h' [A [E [Y [_ H]]]]]; auto.
  - rewrite <- tod_tg. apply (nd_invariants_g _ _ _ _ T _ _ _ _ (tod_ok T m (fun (s : ST) _ => s))).
  - rewrite <- tod_th. apply (nd_invariants_h _ _ _ _ T _ _ _ _ (tod_ok T m (fun (s : ST) _ => s)) (tod_pat T m)).
  - intros C sv' k s HC Hk. exact (inv_link_g _ _ _ _ T _ _ _ _ (tod_ok T m (fun (s : ST) _ => s)) C sv' k s HC Hk).
  - intros C sv' k s HC Hk. exact (inv_link_h _ _ _ _ T _ _ _ _ (tod_ok T m (fun (s : ST) _ => s)) C sv' k s (tod_pat T m) HC Hk).
  - intros k Hk. exact I.
  - intros Y1 Y2 Y3. unfold blocked_hessian in NB. split.
    + destruct (shp_dec (tail_axes (tangent_varies m) T) T) as [|N]; [assumption|].
      apply tail_T in N. exfalso. apply NB. tauto.
    + intros Y4. destruct (shp_dec (tail_axes (stress_varies m) T) T) as [|N]; [assumption|].
      apply tail_T in N. exfalso. apply NB. tauto.
  - exists h', A. auto.
Qed.
Print Assumptions C46_third_order_hessian.
Theorem C46_third_order_hessian_raises : forall ST (m : TOD) T kd o h F (sv : ST), field h F i33 T ->
  blocked_hessian kd o (stress_varies m) (tangent_varies m) T ->
  raises h (nd_sp_hessian kd (nd_invariants (nd_tod m)) o F sv) ValueError.
Proof.
  intros ST m T kd o h F sv HF [-> [B2 [B3 [B4 B5]]]].
  apply (def_hessian_raises (nd_invariants (nd_tod m)) (fun (s : ST) _ => s) (inv_pg (tod_model m)) (inv_ph (tod_model m)) (inv_D (fun _ _ _ => True)) T
    (tail_axes (stress_varies m) T) (tail_axes (tangent_varies m) T) o) with (fF := value h F i33); auto.
  - rewrite <- tod_tg. apply (nd_invariants_g _ _ _ _ T _ _ _ _ (tod_ok T m (fun (s : ST) _ => s))).
  - rewrite <- tod_th. apply (nd_invariants_h _ _ _ _ T _ _ _ _ (tod_ok T m (fun (s : ST) _ => s)) (tod_pat T m)).
  - now apply field_hrel.
  - intros k Hk. exact I.
  - rewrite !tail_T. tauto.
Qed.
Print Assumptions C46_third_order_hessian_raises.
(** In particular no other space and no force=None configuration ever raises. *)
Corollary C46_never_blocked kd o b b' T : kd <> KDeformation \/ finalize o = false \/ force o = Deformed ->
  ~ blocked_gradient kd o b T /\ ~ blocked_hessian kd o b b' T.
Proof. unfold blocked_gradient, blocked_hessian. intuition congruence. Qed.

(** The stretch-based models of the library: every configuration. *)
Theorem C46_ogden_gradient : forall ST lapack (m : Ogden) T kd o h F (sv : ST), field h F i33 T ->
  gradient_accepts kd (nd_stretches lapack (nd_ogden m)) o T h F sv.
Proof.
  intros ST lapack m T kd o h F sv HF.
  destruct (C45_ogden_gradient ST ST lapack (fun s _ => s) m T kd o h F sv HF) as [h' [[P svn] [E [X [_ [H _]]]]]].
  exists h', (P, svn). auto.
Qed.
Print Assumptions C46_ogden_gradient.
Theorem C46_generalized_gradient : forall ST lapack (m : TOD) (f : measure) c T kd o h F (sv : ST),
  lapack_legal lapack -> field h F i33 T -> (forall k, inb T k -> invertible (value33 h F k)) ->
  gradient_accepts kd (nd_stretches lapack (nd_gen (nd_tod m) (nd_meas f) c)) o T h F sv.
Proof.
  intros ST lapack m f c T kd o h F sv HL HF HI.
  destruct (C45_generalized_gradient ST ST lapack (fun s _ => s) m f c T kd o h F sv HL HF HI) as [h' [[P svn] [E [X [_ [H _]]]]]].
  exists h', (P, svn). auto.
Qed.
Print Assumptions C46_generalized_gradient.
Theorem C46_ogden_hessian : forall ST lapack (m : Ogden) T kd o h F (sv : ST), field h F i33 T ->
  hessian_accepts kd (nd_stretches lapack (nd_ogden m)) o T h F sv.
Proof.
  intros ST lapack m T kd o h F sv HF.
  pose proof (ogden_ok (fun (s : ST) _ => s) T m) as Hm.
  pose proof (ogden_acts (fun (s : ST) _ => s) T m) as Ha.
  assert (X := space_h_returns (nd_stretches lapack (nd_ogden m)) (fun (s : ST) _ => s) (str_pg lapack (fun l sv => (ogden_gradient m l, sv)))
    (str_ph lapack (fun l sv => (ogden_gradient m l, sv)) (fun l _ => ogden_hessian m l)) (str_D lapack (fun _ => True)) T T T
    (stretches_fw lapack (ogden_model m))
    (nd_stretches_g lapack _ _ _ _ _ T Hm) (nd_stretches_h lapack _ _ _ _ _ T Hm)).
  destruct X with (kd := kd) (o := o) (h := h) (F := F) (sv := sv) as [h' [A [E [Y [_ H]]]]]; auto.
  - intros C sv' k s HC Hk. apply (str_link_g lapack (ogden_model m) _ (fun _ => True) (fun _ => True)); auto.
  - intros C sv' k s HC Hk. apply (str_link_h lapack (ogden_model m) _ _ (fun _ => True) (fun _ => True)); auto.
  - intros k Hk. exact I.
  - intros _ _ _. auto.
  - replace (outh_shape T T kd o) with T in H by (unfold outh_shape; destruct kd, (finalize o); reflexivity). exists h', A. auto.
Qed.
Print Assumptions C46_ogden_hessian.
Theorem C46_generalized_hessian : forall ST lapack (m : TOD) (f : measure) c T kd o h F (sv : ST),
  lapack_legal lapack -> field h F i33 T -> (forall k, inb T k -> invertible (value33 h F k)) ->
  hessian_accepts kd (nd_stretches lapack (nd_gen (nd_tod m) (nd_meas f) c)) o T h F sv.
Proof.
  intros ST lapack m f c T kd o h F sv HL HF HI. destruct (meas_ok f T) as [E [E' [E'' [M1 M2]]]].
  pose proof (nd_gen_ok (nd_tod m) (fun (s : ST) _ => s) (tod_model m) _ T _ _ _ _ (nd_meas f) c E E' E'' (tod_ok T m (fun (s : ST) _ => s)) M2 eq_refl) as Hm.
  pose proof (gen_acts (fun (s : ST) _ => s) T m (meas f) c E E' E'' M1) as Ha.
  assert (X := space_h_returns _ _ _ _ _ T T T (stretches_fw lapack (gen_model (tod_model m) (meas f) c))
    (nd_stretches_g lapack _ _ _ _ _ T Hm) (nd_stretches_h lapack _ _ _ _ _ T Hm)).
  assert (Pg : forall k, inb T k -> forall l (v : ST) s, gen_D (fun _ _ _ => True) c E l -> True ->
    outcome (sm_gradient (gen_model (tod_model m) (meas f) c) l v) s = Ok (gen_pg (tod_model m) c E E' l v) /\ True).
  { intros k Hk l v s Hl _. split; [|exact I]. apply (Ha l v k s Hl Hk). }
  assert (Ph : forall k, inb T k -> forall l (v : ST) s, gen_D (fun _ _ _ => True) c E l -> True ->
    outcome (sm_hessian (gen_model (tod_model m) (meas f) c) l v) s = Ok (gen_ph (tod_model m) c E E' E'' l v)).
  { intros k Hk l v s Hl _. apply (Ha l v k s Hl Hk). }
  destruct X with (kd := kd) (o := o) (h := h) (F := F) (sv := sv) as [h' [A [E0 [Y [_ H]]]]]; auto.
  - intros C sv' k s HC Hk. apply (str_link_g lapack _ _ (gen_D (fun _ _ _ => True) c E) (fun _ => True)); eauto.
  - intros C sv' k s HC Hk. apply (str_link_h lapack _ _ _ (gen_D (fun _ _ _ => True) c E) (fun _ => True)); eauto.
  - intros k Hk. split; [exact (lam_positive lapack kd _ HL (HI k Hk))|exact I].
  - intros _ _ _. auto.
  - replace (outh_shape T T kd o) with T in H by (unfold outh_shape; destruct kd, (finalize o); reflexivity). exists h', A. auto.
Qed.
Print Assumptions C46_generalized_hessian.

(** The full statement is false: Neo-Hooke (C10 = 1/2) in Deformation(force=0, area=0) and
    Deformation(force=0, area=None), two invertible deformation gradients. *)
Definition neo_hooke : TOD := tod_init (/ 2) 0 0 0 0 false.
Theorem C46_refuted : exists (m : TOD) h F, field h F i33 [2%nat] /\
  (forall k, inb [2%nat] k -> invertible (value33 h F k)) /\
  raises h (nd_sp_hessian KDeformation (nd_invariants (nd_tod m)) {| finalize := true; force := Undeformed; area := Undeformed |} F tt) ValueError /\
  raises h (nd_sp_gradient KDeformation (nd_invariants (nd_tod m)) {| finalize := true; force := Undeformed; area := Deformed |} F tt) ValueError.
Proof.
  assert (N : nonzero 0 = false) by apply Counter.nonzero0.
  assert (A : some_axis [2%nat]) by (left; lia).
  exists neo_hooke, two_heap, two_F. split; [exact two_field|]. split; [exact two_invertible|]. split.
  - apply (C46_third_order_hessian_raises unit neo_hooke [2%nat] _ _ _ _ _ two_field).
    unfold blocked_hessian, stress_varies, tangent_varies, neo_hooke, tod_init. cbn. rewrite !N. cbn. tauto.
  - apply (C46_third_order_gradient_raises unit neo_hooke [2%nat] _ _ _ _ _ two_field).
    unfold blocked_gradient, stress_varies, neo_hooke, tod_init. cbn. rewrite !N. cbn. tauto.
Qed.
Print Assumptions C46_refuted.

(** ** Concrete cases for C46: two deformation gradients; a Mooney-Rivlin material is accepted everywhere for the
    stress, the Neo-Hookean one is blocked, and neither blocked set is empty. *)
Example C46_example : let mr := tod_init 1 2 0 0 0 false in let nh := tod_init 1 0 0 0 0 false in
  field two_heap two_F i33 [2%nat] /\ (forall k, inb [2%nat] k -> invertible (value33 two_heap two_F k)) /\
  (forall kd o, ~ blocked_gradient kd o (stress_varies mr) [2%nat]) /\
  blocked_gradient KDeformation (opts Undeformed Deformed) (stress_varies nh) [2%nat] /\
  blocked_hessian KDeformation (opts Undeformed Undeformed) (stress_varies mr) (tangent_varies mr) [2%nat] /\
  ~ blocked_hessian KDistortional (opts Undeformed Undeformed) (stress_varies mr) (tangent_varies mr) [2%nat].
Proof.
  cbv zeta. assert (Z : nonzero 0 = false) by (unfold nonzero; destruct (Req_EM_T 0 0); [reflexivity|lra]).
  assert (V : stress_varies (tod_init 1 2 0 0 0 false) = true) by (unfold stress_varies, nonzero; cbn; destruct (Req_EM_T 2 0); [lra|reflexivity]).
  assert (V0 : stress_varies (tod_init 1 0 0 0 0 false) = false) by (unfold stress_varies; cbn; rewrite Z; reflexivity).
  assert (V1 : tangent_varies (tod_init 1 2 0 0 0 false) = false) by (unfold tangent_varies; cbn; rewrite Z; reflexivity).
  assert (X : some_axis [2%nat]) by (constructor; discriminate).
  split; [exact two_field|]. split; [exact two_invertible|]. rewrite V, V0, V1. split; [|split; [|split]].
  - intros kd o (_ & _ & _ & _ & E & _). discriminate E.
  - repeat (split; [reflexivity|]). exact X.
  - split; [reflexivity|]. split; [reflexivity|]. split; [reflexivity|]. split; [right; reflexivity|exact X].
  - intros (E & _). discriminate E.
Qed.
