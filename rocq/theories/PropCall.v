(** * C71: calling gradient(x) and hessian(x) with lists; the initial state [x]. *)
From Coq Require Import Reals Lra List Arith Lia FunctionalExtensionality.
From Coquelicot Require Import Coquelicot.
From Verif Require Import Tensor Py Voigt Models Frameworks Spaces Spec Algebra VoigtProofs PiolaProofs InvCore StrCore ModelProofs GenProofs SpaceCore LinProofs PropSpaces PropStretches PropInvariants.
From Verif Require Import NDCore NDRel NDOps NDHeap NDVoigt NDSpaces NDSpaceProofs NDFrameworks NDStrProofs NDGenProofs NDLinks NDLinks2 NDSpec PropND NDCall.
Import ListNotations.
Local Open Scope R_scope.

(** Only the first and the last entry of the list are used ... *)
Theorem C71_first_and_last : forall s F mid sv,
  nd_gradient_list s (F :: mid ++ [sv]) = nd_gradient_list s [F; sv] /\
  nd_hessian_list s (F :: mid ++ [sv]) = nd_hessian_list s [F; sv].
Proof.
  intros s F mid sv. unfold nd_gradient_list, nd_hessian_list, item_last.
  cbn [rev]. rewrite rev_app_distr. cbn [rev app item_first]. split; reflexivity.
Qed.
Print Assumptions C71_first_and_last.
(** ... a list with one entry uses it for both: the deformation gradient is passed to the model as
    its state variables ... *)
Theorem C71_one_entry : forall s F,
  nd_gradient_list s [F] = nd_gradient_list s [F; F] /\ nd_hessian_list s [F] = nd_hessian_list s [F; F].
Proof. split; reflexivity. Qed.
Print Assumptions C71_one_entry.
(** ... and an empty list raises IndexError. *)
Theorem C71_empty : forall s h, nd_gradient_list s [] h = (h, Raise IndexError) /\ nd_hessian_list s [] h = (h, Raise IndexError).
Proof. split; reflexivity. Qed.
Print Assumptions C71_empty.
(** None instead of the deformation gradient raises ValueError and writes nothing. *)
Theorem C71_no_gradient : forall s mid sv h,
  nd_gradient_list s (NoneObj :: mid ++ [sv]) h = (h, Raise ValueError) /\
  nd_hessian_list s (NoneObj :: mid ++ [sv]) h = (h, Raise ValueError) /\
  nd_gradient_list s [NoneObj] h = (h, Raise ValueError) /\ nd_hessian_list s [NoneObj] h = (h, Raise ValueError).
Proof.
  intros s mid sv h. destruct (C71_first_and_last s NoneObj mid sv) as [-> ->]. repeat split; reflexivity.
Qed.
Print Assumptions C71_no_gradient.

(** The three library models, as array code [mat] together with the pointwise framework [fw]
    that C08-C34 are about. *)
Inductive library (lapack : Lapack) : NDMat obj -> Framework obj -> Prop :=
| lib_tod (m : TOD) : library lapack (nd_invariants (nd_tod m)) (invariants_fw (tod_model m))
| lib_ogden (m : Ogden) : library lapack (nd_stretches lapack (nd_ogden m)) (stretches_fw lapack (ogden_model m))
| lib_gen (m : TOD) (f : measure) c :
    library lapack (nd_stretches lapack (nd_gen (nd_tod m) (nd_meas f) c)) (stretches_fw lapack (gen_model (tod_model m) (meas f) c)).

(** A new framework: x is the undeformed state (a single point) and [n] zeros, in new arrays ... *)
Theorem C71_framework_x : forall mat n h, exists h' fw F z,
  nd_framework mat n h = (h', Ok fw) /\ untouched h h' /\ nf_mat fw = mat /\
  nf_x fw = [Arr F; Arr z] /\ loc F <> loc z /\ (hnext h <= loc F)%nat /\ (hnext h <= loc z)%nat /\
  field h' F i33 [] /\ value33 h' F [] = one2 /\
  field h' z iS [n] /\ (forall k, (k < n)%nat -> value1 h' z [k] = 0).
Proof.
  intros mat n h. unfold nd_framework, bind, alloc, ret. do 4 eexists. split; [reflexivity|].
  cbn [nf_mat nf_x loc hnext nshp]. split.
  { split; cbn [hnext]; [lia|]. intros l Hl j. cbn [hcell].
    destruct (Nat.eqb_spec l (S (hnext h))); [lia|]. destruct (Nat.eqb_spec l (hnext h)); [lia|]. reflexivity. }
  split; [reflexivity|]. split; [reflexivity|]. cbn [loc]. split; [lia|]. split; [lia|]. split; [lia|]. split; [split; cbn; [lia|reflexivity]|]. split.
  { apply T2_ext; intros i j. unfold value33, value. cbn [contents dat loc hcell vw].
    destruct (Nat.eqb_spec (hnext h) (S (hnext h))); [lia|]. rewrite Nat.eqb_refl. destruct i, j; reflexivity. }
  split; [split; cbn; [lia|reflexivity]|].
  intros k Hk. unfold value1, value. cbn [contents dat loc hcell]. rewrite Nat.eqb_refl. reflexivity.
Qed.
Print Assumptions C71_framework_x.
(** ... and a space refers to the very same two arrays. *)
Theorem C71_space_x : forall kd fw o a b h, nf_x fw = [a; b] ->
  exists s, nd_space kd fw o h = (h, Ok s) /\ ns_x s = [a; b] /\ ns_kind s = kd /\ ns_mat s = nf_mat fw /\ ns_opts s = o.
Proof. intros kd fw o a b h E. unfold nd_space, bind, lift, item_last, ret. rewrite E. eexists. split; [reflexivity|]. auto. Qed.
Print Assumptions C71_space_x.

(** The state variables returned by the library's models are the object that was passed (whatever
    it is), for every array of deformation gradients for which the call returns. *)
Definition keeps (mat : NDMat obj) : Prop := forall C sv h h' r, ndm_gradient mat C sv h = (h', Ok r) -> snd r = sv.
Lemma bind_ok {A B} (m : M A) (k : A -> M B) h h' r : bind m k h = (h', Ok r) -> exists a h1, m h = (h1, Ok a) /\ k a h1 = (h', Ok r).
Proof. unfold bind. destruct (m h) as [h1 [a|e]]; [eauto|discriminate]. Qed.
Lemma ret_ok {A} (a : A) (h h' : heap) r : (ret a : M A) h = (h', Ok r) -> a = r.
Proof. unfold ret. intros H. injection H as _ ->. reflexivity. Qed.
Ltac walk H := cbv beta in H;
  lazymatch type of H with
  | bind _ _ _ = _ => let a := fresh "a" in let h1 := fresh "h" in let E := fresh "E" in
      apply bind_ok in H; destruct H as [a [h1 [E H]]]; walk H
  | (let '(_, _) := ?x in _) _ = _ => let a := fresh "a" in let b := fresh "b" in destruct x as [a b]; walk H
  | ret _ _ = _ => apply ret_ok in H
  | _ => idtac
  end.
Lemma keeps_tod_model (m : TOD) I1 I2 I3 (sv : obj) h h' r : nim_gradient (nd_tod m) I1 I2 I3 sv h = (h', Ok r) -> snd r = sv.
Proof. intros H. cbn [nd_tod nim_gradient] in H. unfold nd_tod_gradient in H. cbv zeta in H. walk H. subst r. reflexivity. Qed.
Lemma keeps_invariants (m : NDInvModel obj) : (forall I1 I2 I3 sv h h' r, nim_gradient m I1 I2 I3 sv h = (h', Ok r) -> snd r = sv) ->
  keeps (nd_invariants m).
Proof.
  intros K C sv h h' r H. cbn [nd_invariants ndm_gradient] in H. unfold nd_inv_gradient in H. walk H. subst r.
  rename E into H. unfold nd_inv_gradient_c in H. walk H.
  injection H as <- _. 
  match goal with E : nim_gradient m _ _ _ _ _ = _ |- _ => apply K in E; exact E end.
Qed.
Lemma keeps_stretches lapack (m : NDStretchModel obj) : (forall l sv h h' r, nsm_gradient m l sv h = (h', Ok r) -> snd r = sv) ->
  keeps (nd_stretches lapack m).
Proof.
  intros K C sv h h' r H. cbn [nd_stretches ndm_gradient] in H. unfold nd_str_gradient in H. walk H. subst r.
  rename E into H. unfold nd_str_gradient_c in H. walk H.
  injection H as <- _.
  match goal with E : nsm_gradient m _ _ _ = _ |- _ => apply K in E; exact E end.
Qed.
Lemma keeps_library lapack mat fw : library lapack mat fw -> keeps mat.
Proof.
  intros []; [apply keeps_invariants, keeps_tod_model|apply keeps_stretches..].
  - intros l sv h h' r H. cbn [nd_ogden nsm_gradient] in H. unfold nd_ogden_gradient in H. walk H. subst r. reflexivity.
  - intros l sv h h' r H. cbn [nd_gen nsm_gradient] in H. unfold nd_gen_gradient in H. walk H. subst r.
    rename E into H. unfold nd_gen_gradient_c in H. walk H. injection H as <- _.
    match goal with E : nim_gradient _ _ _ _ _ _ = _ |- _ => apply keeps_tod_model in E; exact E end.
Qed.
Lemma keeps_space (mat : NDMat obj) kd o F sv h h' r : keeps mat -> nd_sp_gradient kd mat o F sv h = (h', Ok r) -> snd r = sv.
Proof.
  intros K H. destruct kd; cbn [nd_sp_gradient] in H; [unfold nd_def_gradient in H|unfold nd_dis_gradient in H|unfold nd_dil_gradient in H];
    walk H; subst r; rename E into H;
    [unfold nd_def_gradient_c in H|unfold nd_dis_gradient_c in H|unfold nd_dil_gradient_c in H];
    walk H; injection H as <- _;
    match goal with E : ndm_gradient mat _ _ _ = _ |- _ => apply K in E; exact E end.
Qed.

Definition last_is (x : list obj) (b : obj) : Prop := exists l, x = l ++ [b].
Lemma lift_ok {A} (r : Result A) (h h' : heap) a : lift r h = (h', Ok a) -> r = Ok a.
Proof. unfold lift. intro H. injection H as _ H. exact H. Qed.
Lemma item_last_ok x b : item_last x = Ok b -> last_is x b.
Proof.
  unfold item_last. destruct (rev x) eqn:E; [discriminate|]. intro H. injection H as ->. exists (rev l).
  apply (f_equal (@rev obj)) in E. rewrite rev_involutive in E. exact E.
Qed.
(** gradient(x) returns a list of two: an array and the last entry of x itself (None, an array or
    anything else), hessian(x) a list of one - in every space, for every option, for lists of every
    length, whenever the call returns. *)
Theorem C71_state_passed : forall lapack mat fw s x h h' r, library lapack mat fw -> ns_mat s = mat ->
  nd_gradient_list s x h = (h', Ok r) -> exists P sv, r = [Arr P; sv] /\ last_is x sv.
Proof.
  intros lapack mat fw s x h h' r L Em H. pose proof (keeps_library lapack mat fw L) as K. rewrite <- Em in K. clear L Em.
  unfold nd_gradient_list in H. walk H. apply lift_ok, item_last_ok in E0.
  destruct a as [F|]; [|discriminate]. walk H. subst r.
  match goal with E : nd_sp_gradient _ _ _ _ _ _ = Ok (?P, ?b) |- _ => idtac | E : nd_sp_gradient _ _ _ _ _ _ = (_, Ok (?P, ?b)) |- _ =>
    apply (keeps_space _ _ _ _ _ _ _ _ K) in E; cbn [snd] in E; subst b; exists P end.
  exists a0. split; [reflexivity|exact E0].
Qed.
Print Assumptions C71_state_passed.
Theorem C71_hessian_one : forall s x h h' r, nd_hessian_list s x h = (h', Ok r) -> exists A, r = [Arr A].
Proof.
  intros s x h h' r H. unfold nd_hessian_list in H. walk H. destruct a as [F|]; [|discriminate]. walk H. subst r. eauto.
Qed.
Print Assumptions C71_hessian_one.

(** With one deformation gradient F (invertible), any object as state variables: the values
    are those of the pointwise model (the subject of C08-C34), in every space, for all options. *)
Definition same_obj (st : obj) (_ : index) : obj := st.
Lemma str_returns lapack (pm : StretchModel obj) pg ph D C sv s :
  acts_as same_obj [] pm pg ph D -> D (lam lapack C) ->
  exists H, outcome (fw_hessian (stretches_fw lapack pm) C sv) s = Ok H.
Proof.
  intros A HD. eexists. apply (str_link_h lapack pm pg ph D (fun _ => True)); [..|exact HD|exact Logic.I].
  - intros l v s' Hl _. split; [apply (A l v [] s' Hl Logic.I)|exact Logic.I].
  - intros l v s' Hl _. apply (A l v [] s' Hl Logic.I).
Qed.
Lemma inb_nil k : inb [] k -> k = [].
Proof. destruct k; [reflexivity|contradiction]. Qed.
Lemma one_uniform lapack mat fw kd h F sv : library lapack mat fw -> lapack_legal lapack ->
  invertible (value33 h F []) -> uniform same_obj [] fw kd h F sv.
Proof.
  intros L HL HI E.
  assert (X : exists s H, outcome (fw_hessian fw (asvoigt (distortional_part (cauchy_green (value33 h F [])))) sv) s = Ok H).
  { destruct L as [m|m|m f c].
    - exists inv_self0. destruct (C16_third_order_deformation obj m (distortional_part (cauchy_green (value33 h F []))) sv inv_self0) as [H HH].
      + intros i j. unfold distortional_part, mscal. rewrite cauchy_green_sym. reflexivity.
      + destruct HH as [s' HH]. exists H. unfold outcome. rewrite HH. reflexivity.
    - exists (str_self0 (ogden_model m) tt). exact (str_returns lapack _ _ _ _ _ sv _ (ogden_acts same_obj [] m) Logic.I).
    - exists (str_self0 (gen_model (tod_model m) (meas f) c) gen_self0). destruct (meas_ok f []) as [E1 [E2 [E3 [M1 _]]]].
      rewrite <- seen_dist.
      refine (str_returns lapack _ _ _ _ _ sv _ (gen_acts same_obj [] m (meas f) c E1 E2 E3 M1) _).
      split; [exact (lam_positive lapack KDistortional _ HL HI)|exact Logic.I]. }
  destruct X as [s [H HX]].
  destruct (Classical_Prop.classic (forall v w, Rabs (4 * Rpower (det3 (cauchy_green (value33 h F []))) (-2/3) * H v w) <= / 10 ^ 8)) as [Y|Y].
  - left. intros k Hk. apply inb_nil in Hk. subst k. exists s, H. split; [exact HX|exact Y].
  - right. intros k Hk. apply inb_nil in Hk. subst k. exists s, H. split; [exact HX|].
    apply Classical_Prop.NNPP. intro N. apply Y. intros v w. apply Rnot_lt_le. intro Z. apply N. exists v, w. exact Z.
Qed.
Lemma tail_nil b : tail_axes b [] = [].
Proof. destruct b; reflexivity. Qed.
Lemma library_g lapack mat fw kd o h F sv : library lapack mat fw -> lapack_legal lapack -> field h F i33 [] ->
  invertible (value33 h F []) -> gradient_pointwise same_obj kd mat fw o [] [] h F sv.
Proof.
  intros [m|m|m f c] HL HF HI.
  - assert (X := C45_third_order_gradient obj obj same_obj m [] kd o h F sv HF (fun _ _ _ _ => tail_nil _)).
    assert (Y : out_shape [] (tail_axes (stress_varies m) []) kd o = [])
      by (rewrite tail_nil; unfold out_shape, stress_shape; destruct kd, (finalize o), (force o), (area o); reflexivity).
    rewrite Y in X. exact X.
  - apply C45_ogden_gradient; exact HF.
  - apply C45_generalized_gradient; [exact HL|exact HF|]. intros k Hk. apply inb_nil in Hk. subst k. exact HI.
Qed.
Lemma library_h lapack mat fw kd o h F sv : library lapack mat fw -> lapack_legal lapack -> field h F i33 [] ->
  invertible (value33 h F []) -> hessian_pointwise same_obj kd mat fw o [] [] h F sv.
Proof.
  intros L HL HF HI. pose proof (one_uniform lapack mat fw kd h F sv L HL HI) as U. destruct L as [m|m|m f c].
  - assert (X := C45_third_order_hessian obj obj same_obj m [] kd o h F sv HF (fun _ _ _ => conj (tail_nil _) (fun _ => tail_nil _)) U).
    assert (Y : outh_shape [] (tail_axes (tangent_varies m) []) kd o = [])
      by (rewrite tail_nil; unfold outh_shape; destruct kd, (finalize o); reflexivity).
    rewrite Y in X. exact X.
  - apply C45_ogden_hessian; [exact HF|exact U].
  - apply C45_generalized_hessian; [exact HL|exact HF| |exact U]. intros k Hk. apply inb_nil in Hk. subst k. exact HI.
Qed.

Theorem C71_one_point : forall lapack mat fw s F sv mid h, library lapack mat fw -> lapack_legal lapack -> ns_mat s = mat ->
  field h F i33 [] -> invertible (value33 h F []) ->
  returns h (nd_gradient_list s (Arr F :: mid ++ [sv])) (fun r h' => exists P, r = [Arr P; sv] /\
    fresh h h' P /\ field h' P (stress_kind (ns_opts s)) [] /\ forall i,
    outcome (sp_gradient (ns_kind s) fw (ns_opts s) (value33 h F []) sv) i = Ok (stress_at (ns_opts s) h' P [], sv)) /\
  returns h (nd_hessian_list s (Arr F :: mid ++ [sv])) (fun r h' => exists A, r = [Arr A] /\
    fresh h h' A /\ field h' A (elast_kind (ns_opts s)) [] /\ forall i,
    outcome (sp_hessian (ns_kind s) fw (ns_opts s) (value33 h F []) sv) i = Ok (elast_at (ns_opts s) h' A [])).
Proof.
  intros lapack mat fw s F sv mid h L HL Em HF HI. destruct (C71_first_and_last s (Arr F) mid sv) as [-> ->]. split.
  - destruct (library_g lapack mat fw (ns_kind s) (ns_opts s) h F sv L HL HF HI) as [h' [[P svn] [E [U [Fr [Fi Q]]]]]].
    assert (svn = sv) as -> by (rewrite <- Em in E, L; exact (keeps_space _ _ _ _ _ _ _ _ (keeps_library _ _ _ L) E)).
    exists h', [Arr P; sv]. split; [|split; [exact U|]].
    + unfold nd_gradient_list, item_last. cbn [rev app item_first]. unfold bind at 1, lift at 1. unfold bind at 1, lift at 1.
      rewrite Em. unfold bind. rewrite E. reflexivity.
    + exists P. split; [reflexivity|]. split; [exact Fr|]. split; [exact Fi|]. intro i. exact (Q [] i Logic.I).
  - destruct (library_h lapack mat fw (ns_kind s) (ns_opts s) h F sv L HL HF HI) as [h' [A [E [U [Fr [Fi Q]]]]]].
    exists h', [Arr A]. split; [|split; [exact U|]].
    + unfold nd_hessian_list, item_last. cbn [rev app item_first]. unfold bind at 1, lift at 1. unfold bind at 1, lift at 1.
      rewrite Em. unfold bind. rewrite E. reflexivity.
    + exists A. split; [reflexivity|]. split; [exact Fr|]. split; [exact Fi|]. intro i. exact (Q [] i Logic.I).
Qed.
Print Assumptions C71_one_point.

(** The initial state x of a new space is a valid argument of both methods, for all library models,
    spaces, options and numbers of state variables ... *)
Theorem C71_initial : forall lapack mat fw kd o n h, library lapack mat fw -> lapack_legal lapack ->
  exists h1 f s F z, nd_framework mat n h = (h1, Ok f) /\ nd_space kd f o h1 = (h1, Ok s) /\ ns_x s = [Arr F; Arr z] /\
  returns h1 (nd_gradient_list s (ns_x s)) (fun r h' => exists P, r = [Arr P; Arr z] /\
    fresh h1 h' P /\ field h' P (stress_kind o) [] /\ forall i,
    outcome (sp_gradient kd fw o one2 (Arr z)) i = Ok (stress_at o h' P [], Arr z)) /\
  returns h1 (nd_hessian_list s (ns_x s)) (fun r h' => exists A, r = [Arr A] /\
    fresh h1 h' A /\ field h' A (elast_kind o) [] /\ forall i,
    outcome (sp_hessian kd fw o one2 (Arr z)) i = Ok (elast_at o h' A [])).
Proof.
  intros lapack mat fw kd o n h L HL.
  destruct (C71_framework_x mat n h) as [h1 [f [F [z [E1 [_ [Em [Ex [_ [_ [_ [FF [VF _]]]]]]]]]]]]].
  destruct (C71_space_x kd f o (Arr F) (Arr z) h1 Ex) as [s [E2 [Es [Ek [Ems Eo]]]]].
  exists h1, f, s, F, z. split; [exact E1|]. split; [exact E2|]. split; [exact Es|]. rewrite Es.
  assert (I1 : invertible (value33 h1 F [])).
  { rewrite VF. unfold invertible. rewrite det3_one. lra. }
  destruct (C71_one_point lapack mat fw s F (Arr z) [] h1 L HL (eq_trans Ems Em) FF I1) as [G H].
  rewrite Ek, Eo, VF in G, H. split; [exact G|exact H].
Qed.
Print Assumptions C71_initial.
(** ... and the initial state is free of stress in a Distortional space. *)
Theorem C71_initial_stress_free : forall lapack mat fw fo ar n h, library lapack mat fw -> lapack_legal lapack ->
  exists h1 f s F z, nd_framework mat n h = (h1, Ok f) /\ nd_space KDistortional f (opts fo ar) h1 = (h1, Ok s) /\
  returns h1 (nd_gradient_list s (ns_x s)) (fun r h' => exists P, r = [Arr P; Arr z] /\ ns_x s = [Arr F; Arr z] /\
    forall i j, value33 h' P [] i j = 0).
Proof.
  intros lapack mat fw fo ar n h L HL.
  destruct (C71_initial lapack mat fw KDistortional (opts fo ar) n h L HL) as (h1 & f & s & F & z & E1 & E2 & Ex & G & _).
  exists h1, f, s, F, z. split; [exact E1|]. split; [exact E2|].
  destruct G as [h' [r [E [U [P [-> [_ [_ Q]]]]]]]]. exists h', [Arr P; Arr z]. split; [exact E|]. split; [exact U|].
  exists P. split; [reflexivity|]. split; [exact Ex|].
  cbn [sp_gradient] in Q.
  assert (X : forall sv, exists i, outcome (dis_gradient fw (opts fo ar) one2 sv) i = Ok (StressFull (fun _ _ => 0), sv)).
  { intro sv. assert (O : orthogonal one2) by (apply orthogonal_eq; rewrite mtr_one; apply mmul_1_l).
    assert (M1 : mscal 1 one2 = one2) by (apply T2_ext; intros a b; unfold mscal; ring).
    assert (PD : posdef one2) by exact one_posdef.
    destruct L as [m|m|m q c].
    - exists (space_self0 (invariants_fw (tod_model m)) inv_self0). rewrite <- M1.
      destruct (tod_none_exactly m (vec3 3 3 1) sv) as [g [Eg _]].
      exact (C32_distortional_invariants obj (tod_model m) fo ar 1 one2 sv _ g sv O R1_neq_R0 Eg).
    - exists (space_self0 (stretches_fw lapack (ogden_model m)) (str_self0 (ogden_model m) tt)). rewrite <- M1.
      refine (C32_distortional obj _ posdef fo ar 1 one2 sv _ _ sv (C17_ogden obj lapack m HL) PD O R1_neq_R0 _).
      refine (eq_trans (str_link_g lapack (ogden_model m) (fun l sv => (ogden_gradient m l, sv)) (fun _ => True) (fun _ => True) _ eye sv _ Logic.I Logic.I) _).
      + intros l v s' _ _. split; [reflexivity|exact Logic.I].
      + unfold str_pg. cbn [fst snd]. reflexivity.
    - exists (space_self0 (stretches_fw lapack (gen_model (tod_model m) (meas q) c)) (str_self0 (gen_model (tod_model m) (meas q) c) gen_self0)).
      rewrite <- M1. destruct (meas_ok q []) as [A1 [A2 [A3 [M _]]]].
      pose proof (gen_acts same_obj [] m (meas q) c A1 A2 A3 M) as A.
      assert (LP : positive3 (lam lapack eye)).
      { pose proof (lam_positive lapack KDeformation one2 HL) as Z. cbn [seen] in Z.
        replace (right_CG one2) with eye in Z. apply Z. unfold invertible. rewrite det3_one. lra.
        rewrite <- (asvoigt_astensor_f (right_CG one2)), right_CG_full. apply Vec6_ext. intro v. destruct v; unfold asvoigt, cauchy_green, mmul, mtr, sum3, one2, delta, eye; cbn; ring. }
      destruct (tod_none_exactly m (gen_invariants A1 c (lam lapack eye)) sv) as [g0 [Eg0 _]].
      refine (C32_distortional obj _ posdef fo ar 1 one2 sv _ _ sv (proj2 (C17_generalized obj lapack (tod_model m) (meas q) c HL) _) PD O R1_neq_R0 _).
      + intros J sv' g svn Eg. destruct (tod_none_exactly m J sv') as [g' [Eg' [_ [_ N]]]]. rewrite Eg' in Eg. injection Eg as <- _. rewrite N. reflexivity.
      + refine (eq_trans (str_link_g lapack (gen_model (tod_model m) (meas q) c) (gen_pg (tod_model m) c A1 A2) (gen_D (fun _ _ _ => True) c A1) (fun _ => True) _ eye sv (str_self0 (gen_model (tod_model m) (meas q) c) gen_self0) (conj LP Logic.I) Logic.I) _).
        * intros l v s' Hl _. split; [apply (A l v [] s' Hl Logic.I)|exact Logic.I].
        * unfold str_pg, gen_pg. rewrite Eg0. reflexivity. }
  destruct (X (Arr z)) as [i Hi]. specialize (Q i). rewrite Hi in Q. unfold stress_at in Q. cbn [opts finalize] in Q.
  injection Q as Q. intros a b. rewrite <- Q. reflexivity.
Qed.
Print Assumptions C71_initial_stress_free.
