(** * Which arrays the programs write (proofs).

    [guards S m Q]: run from any heap in which the buffers [S] exist, the program leaves the
    contents of the buffers [S] as they are, whether it returns or raises; a returned value
    satisfies [Q]. *)
From Coq Require Import Reals List Arith Lia.
From Verif Require Import Tensor Py Voigt Models Spaces NDCore NDOps NDHeap NDVoigt NDSpaces NDFrameworks.
Import ListNotations.
Local Open Scope R_scope.

Definition keeps (S : nat -> Prop) (h h' : heap) : Prop :=
  (hnext h <= hnext h')%nat /\ forall l, S l -> forall j, hcell h' l j = hcell h l j.
Definition exist_in (S : nat -> Prop) (h : heap) : Prop := forall l, S l -> (l < hnext h)%nat.
Definition guards {A} (S : nat -> Prop) (m : M A) (Q : A -> Prop) : Prop :=
  forall h, exist_in S h -> keeps S h (fst (m h)) /\ forall a, snd (m h) = Ok a -> Q a.
(** not one of the protected buffers *)
Definition free (S : nat -> Prop) (a : nd) : Prop := ~ S (loc a).

Lemma keeps_refl S h : keeps S h h.
Proof. split; auto. Qed.
Lemma keeps_trans S h1 h2 h3 : keeps S h1 h2 -> keeps S h2 h3 -> keeps S h1 h3.
Proof. intros [A1 A2] [B1 B2]. split; [lia|]. intros l Hl j. now rewrite B2, A2. Qed.
Lemma exist_keeps S h h' : exist_in S h -> keeps S h h' -> exist_in S h'.
Proof. intros H [K _] l Hl. specialize (H l Hl). lia. Qed.

Section G.
  Context (S : nat -> Prop).
  Notation Tr := (fun _ => True).
  Lemma G_bind {A B} (m : M A) (k : A -> M B) P Q :
    guards S m P -> (forall a, P a -> guards S (k a) Q) -> guards S (bind m k) Q.
  Proof.
    intros Hm Hk h Hh. destruct (Hm h Hh) as [X HP]. unfold bind.
    destruct (m h) as [h' [a|e]] eqn:E; cbn in *.
    - destruct (Hk a (HP a eq_refl) h' (exist_keeps _ _ _ Hh X)) as [X' HQ].
      split; [eapply keeps_trans; eauto|exact HQ].
    - split; [exact X|discriminate].
  Qed.
  Lemma G_ret {A} (a : A) (P : A -> Prop) : P a -> guards S (ret a) P.
  Proof. intros H h _. split; [apply keeps_refl|]. now intros b [= <-]. Qed.
  Lemma G_raise {A} e (P : A -> Prop) : guards S (raise e) P.
  Proof. intros h _. split; [apply keeps_refl|discriminate]. Qed.
  Lemma G_lift {A} (r : Result A) : guards S (lift r) Tr.
  Proof. intros h _. split; [apply keeps_refl|auto]. Qed.
  Lemma G_load a : guards S (load a) Tr.
  Proof. intros h _. split; [apply keeps_refl|auto]. Qed.
  Lemma G_alloc v : guards S (alloc v) (free S).
  Proof.
    intros h Hh. cbn. split.
    - split; cbn; [lia|]. intros l Hl j. specialize (Hh l Hl). destruct (Nat.eqb_spec l (hnext h)); [lia|reflexivity].
    - intros a [= <-] N. specialize (Hh _ N). cbn in Hh. lia.
  Qed.
  Lemma G_assign a v : free S a -> guards S (assign a v) Tr.
  Proof.
    intros Ha. unfold assign. eapply G_bind; [apply G_lift|]. intros w _ h Hh. split; [|auto].
    split; cbn; [lia|]. intros l Hl j. destruct (Nat.eqb_spec l (loc a)); [subst; contradiction|reflexivity].
  Qed.
  Lemma G_weaken {A} (m : M A) (P Q : A -> Prop) : guards S m P -> (forall a, P a -> Q a) -> guards S m Q.
  Proof. intros H HPQ h Hh. destruct (H h Hh) as [X HP]. split; auto. Qed.
  Lemma G_assoc {A B C} (m : M A) (k : A -> M B) (k' : B -> M C) Q :
    guards S (bind m (fun a => bind (k a) k')) Q -> guards S (bind (bind m k) k') Q.
  Proof.
    intros H h Hh. specialize (H h Hh). unfold bind in *. destruct (m h) as [h' [a|e]]; exact H.
  Qed.
  Lemma G_ret_bind {A B} (a : A) (k : A -> M B) Q : guards S (k a) Q -> guards S (bind (ret a) k) Q.
  Proof. intros H. exact H. Qed.
  Lemma G_raise_bind {A B} e (k : A -> M B) Q : guards S (bind (raise e) k) Q.
  Proof. intros h _. split; [apply keeps_refl|discriminate]. Qed.
  Lemma G_each {A} (l : list A) (f : A -> M unit) : (forall x, guards S (f x) Tr) -> guards S (each l f) Tr.
  Proof.
    intros H. induction l as [|x l IH]; cbn [each]; [now apply G_ret|].
    eapply G_bind; [apply H|]. intros _ _. exact IH.
  Qed.
  (** derived statements *)
  Lemma G_new e : guards S (new e) (free S).
  Proof. eapply G_bind; [apply G_lift|]. intros; apply G_alloc. Qed.
  Lemma free_view a b : loc b = loc a -> free S a -> free S b.
  Proof. unfold free. congruence. Qed.
  Lemma G_bin op a b : guards S (np_bin op a b) (free S).
  Proof. do 2 (eapply G_bind; [apply G_load|intros ? _]). apply G_new. Qed.
  Lemma G_bin_out op a b out : free S out -> guards S (np_bin_out op a b out) (free S).
  Proof.
    intros H. do 2 (eapply G_bind; [apply G_load|intros ? _]). eapply G_bind; [apply G_lift|intros ? _].
    eapply G_bind; [now apply G_assign|intros _ _]. now apply G_ret.
  Qed.
  Lemma G_fancy A l : guards S (fancy A l) (free S).
  Proof. eapply G_bind; [apply G_load|intros ? _]. apply G_new. Qed.
  Lemma G_setrow a p v : free S a -> guards S (setrow a p v) Tr.
  Proof. intros H. unfold setrow. destruct (in_prefix _ _); [now apply G_assign|apply G_raise]. Qed.
  Lemma G_inplace op a e : free S a -> guards S (inplace op a e) Tr.
  Proof.
    intros H. eapply G_bind; [apply G_lift|intros ? _]. eapply G_bind; [apply G_load|intros ? _].
    eapply G_bind; [apply G_lift|intros ? _]. now apply G_assign.
  Qed.
  Lemma G_load_all ts : guards S (load_all ts) Tr.
  Proof.
    induction ts as [|[t a] ts IH]; cbn [load_all]; [now apply G_ret|].
    eapply G_bind; [apply G_load|intros ? _]. eapply G_bind; [exact IH|intros ? _]. now apply G_ret.
  Qed.
  Lemma G_einsum ts o : guards S (nd_einsum ts o) (free S).
  Proof. eapply G_bind; [apply G_load_all|intros ? _]. apply G_new. Qed.
  Lemma G_einsum_out ts o out : free S out -> guards S (nd_einsum_out ts o out) (free S).
  Proof.
    intros H. eapply G_bind; [apply G_load_all|intros ? _]. eapply G_bind; [apply G_lift|intros ? _].
    eapply G_bind; [now apply G_assign|intros _ _]. now apply G_ret.
  Qed.
  Lemma G_swap i j a (P : nd -> Prop) : (forall b, loc b = loc a -> P b) -> guards S (nd_swap i j a) P.
  Proof. intros H. unfold nd_swap. destruct (_ && _)%bool; [apply G_ret, H; reflexivity|apply G_raise]. Qed.
  Lemma G_loadv v : guards S (loadv v) Tr.
  Proof. destruct v; [now apply G_ret|apply G_load]. Qed.
  Lemma G_local {A} (o : option A) (P : A -> Prop) : (forall a, o = Some a -> P a) -> guards S (local o) P.
  Proof. intros H. destruct o; [apply G_ret, H; reflexivity|apply G_raise]. Qed.
End G.

(** Symbolic execution. *)
Create HintDb gdb discriminated.
#[global] Hint Resolve G_lift G_load G_alloc G_assign G_new G_bin G_bin_out G_fancy G_setrow G_inplace G_einsum G_einsum_out G_loadv : gdb.
#[global] Hint Extern 2 (free _ _) => (assumption || (eapply free_view; [reflexivity|assumption])) : gdb.
Ltac gfree := solve [assumption | exact I | eapply free_view; [reflexivity|assumption] | auto 3 | eauto 4 with gdb].
Ltac g1 :=
  cbv beta zeta;
  lazymatch goal with
  | |- guards _ (let (_, _) := ?p in _) _ => destruct p; cbn [fst snd] in *
  | |- guards _ (match ?x with _ => _ end) _ => destruct x eqn:?; cbn [fst snd] in *
  | |- guards _ (bind (ret _) _) _ => apply G_ret_bind
  | |- guards _ (bind (raise _) _) _ => apply G_raise_bind
  | |- guards _ (bind (bind _ _) _) _ => apply G_assoc
  | |- guards _ (bind (let (_, _) := ?p in _) _) _ => destruct p; cbn [fst snd] in *
  | |- guards _ (bind (match ?x with _ => _ end) _) _ => destruct x eqn:?; cbn [fst snd] in *
  | |- guards _ (bind (each _ _) _) _ => eapply G_bind; [apply G_each; intros ?|intros _ _]
  | |- guards _ (each _ _) _ => eapply G_weaken; [apply G_each; intros ?|intros _ _]
  | |- guards _ (bind _ _) _ => eapply G_bind; [solve [eauto 4 with gdb]|let H := fresh "Hf" in intros ? H]
  | |- guards _ (ret _) _ => apply G_ret
  | |- guards _ (raise _) _ => apply G_raise
  | |- guards _ _ _ => first [solve [eauto 4 with gdb] | eapply G_weaken; [solve [eauto 4 with gdb]|let H := fresh "Hf" in intros ? H]]
  end.
Ltac gsplit := cbn [fst snd] in *; repeat match goal with H : _ /\ _ |- _ => destruct H end.
Ltac gauto := repeat (g1; gsplit); repeat match goal with |- _ /\ _ => split end; cbn [fst snd] in *; try gfree.

(** Like [gauto], with one post-condition for all branching statements. *)
Ltac gauto_m P := repeat (cbv beta zeta;
  lazymatch goal with
  | |- guards _ (bind (let (_, _) := ?p in _) _) _ => g1
  | |- guards _ (bind (match _ with Some _ => _ | None => _ end) _) _ => eapply (G_bind _ _ _ P); [solve [gauto]|intros ? ?]
  | |- guards _ (bind (match _ with inl _ => _ | inr _ => _ end) _) _ => eapply (G_bind _ _ _ P); [solve [gauto]|intros ? ?]
  | |- _ => g1
  end; gsplit); repeat match goal with |- _ /\ _ => split end; cbn [fst snd] in *; try gfree.
Lemma G_asvoigt S A : guards S (nd_asvoigt A) (free S).
Proof. unfold nd_asvoigt. gauto. Qed.
#[global] Hint Resolve G_asvoigt : gdb.
Lemma G_asvoigt4 S A : guards S (nd_asvoigt4 A) (free S).
Proof. unfold nd_asvoigt4. gauto. Qed.
#[global] Hint Resolve G_asvoigt4 : gdb.
Lemma G_astensor S A : guards S (nd_astensor A) (free S).
Proof. unfold nd_astensor. gauto. Qed.
#[global] Hint Resolve G_astensor : gdb.
Lemma G_astensor4 S A : guards S (nd_astensor4 A) (free S).
Proof. unfold nd_astensor4. gauto. Qed.
#[global] Hint Resolve G_astensor4 : gdb.
(** [out] is either None or an array that may be written *)
Definition may_write (S : nat -> Prop) (out : option nd) : Prop := match out with Some o => free S o | None => True end.
Lemma G_copy_pairs S l A out : may_write S out -> guards S (copy_pairs l A out) (free S).
Proof. intros H. unfold copy_pairs. destruct out; cbn in H; gauto. Qed.
#[global] Hint Resolve G_copy_pairs : gdb.
Lemma G_trace S A : guards S (nd_trace A) (free S).
Proof. unfold nd_trace. gauto. Qed.
#[global] Hint Resolve G_trace : gdb.
Lemma G_transpose S A : guards S (nd_transpose A) (fun r => loc r = loc A).
Proof. apply G_swap. auto. Qed.
#[global] Hint Resolve G_transpose : gdb.
Lemma G_det S A : guards S (nd_det A) (free S).
Proof. unfold nd_det. gauto. Qed.
#[global] Hint Resolve G_det : gdb.
Lemma G_inv S A d out : may_write S out -> guards S (nd_inv A d out) (free S).
Proof.
  intros H. unfold nd_inv.
  destruct out; cbn in H; destruct d; gauto.
Qed.
#[global] Hint Resolve G_inv : gdb.

Lemma G_view S i j a : free S a -> guards S (nd_swap i j a) (free S).
Proof. intros H. apply G_swap. intros b E. exact (free_view S a b E H). Qed.
#[global] Hint Resolve G_view : gdb.
Lemma may_none S : may_write S None. Proof. exact I. Qed.
#[global] Hint Resolve may_none : gdb.
Lemma G_dot S A B : guards S (nd_dot A B) (free S).
Proof. unfold nd_dot. gauto. Qed.
#[global] Hint Resolve G_dot : gdb.
Lemma G_eye S A : guards S (nd_eye A) (free S).
Proof. unfold nd_eye. gauto. Qed.
#[global] Hint Resolve G_eye : gdb.
Lemma G_ddot22 S A B : guards S (nd_ddot22 A B) (free S).
Proof. unfold nd_ddot22. gauto. Qed.
Lemma G_ddot44 S A B : guards S (nd_ddot44 A B) (free S).
Proof. unfold nd_ddot44. gauto. Qed.
Lemma G_ddot42 S A B : guards S (nd_ddot42 A B) (free S).
Proof. unfold nd_ddot42. gauto. Qed.
Lemma G_ddot24 S A B : guards S (nd_ddot24 A B) (free S).
Proof. unfold nd_ddot24. gauto. Qed.
#[global] Hint Resolve G_ddot22 G_ddot44 G_ddot42 G_ddot24 : gdb.
Lemma G_dya S A B out : may_write S out -> guards S (nd_dya A B out) (free S).
Proof. intros H. unfold nd_dya. destruct out; cbn in H; gauto. Qed.
#[global] Hint Resolve G_dya : gdb.
Lemma G_dev S A : guards S (nd_dev A) (free S).
Proof. unfold nd_dev. gauto. Qed.
#[global] Hint Resolve G_dev : gdb.
Lemma G_cdya_ik S A B out : may_write S out -> guards S (nd_cdya_ik A B out) (free S).
Proof. intros H. unfold nd_cdya_ik. gauto. Qed.
Lemma G_cdya_il S A B out : may_write S out -> guards S (nd_cdya_il A B out) (free S).
Proof. intros H. unfold nd_cdya_il. gauto. Qed.
#[global] Hint Resolve G_cdya_ik G_cdya_il : gdb.
Lemma G_broadcast_view S a s : guards S (broadcast_view a s) (fun _ => True).
Proof. unfold broadcast_view. gauto. Qed.
Lemma G_set_pairs S out rc v : free S out -> guards S (set_pairs out rc v) (fun _ => True).
Proof. intros H. unfold set_pairs. gauto. Qed.
#[global] Hint Resolve G_broadcast_view G_set_pairs : gdb.
Lemma G_cdya S same A B out : may_write S out -> guards S (nd_cdya same A B out) (free S).
Proof. intros H. unfold nd_cdya. destruct out, same; cbn in H; gauto. Qed.
#[global] Hint Resolve G_cdya : gdb.
Lemma G_eigh S lapack A f : guards S (nd_eigh lapack A f) (fun r => free S (fst r) /\ free S (snd r)).
Proof. unfold nd_eigh. gauto. Qed.
#[global] Hint Resolve G_eigh : gdb.

(** ** Spaces *)
Lemma G_right_CG S F : guards S (nd_right_CG F) (free S).
Proof. unfold nd_right_CG. gauto. Qed.
Lemma G_sqrt S a : guards S (nd_sqrt a) (free S).
Proof. unfold nd_sqrt. gauto. Qed.
#[global] Hint Resolve G_right_CG G_sqrt : gdb.
Lemma G_piola_stress S o F PK2 d : free S PK2 -> guards S (nd_piola_stress o F PK2 d) (free S).
Proof. intros H. unfold nd_piola_stress. gauto. Qed.
Lemma G_piola_elast S o F PK2 d C4 ic : free S C4 -> guards S (nd_piola_elast o F PK2 d C4 ic) (free S).
Proof. intros H. unfold nd_piola_elast. gauto. Qed.
#[global] Hint Resolve G_piola_stress G_piola_elast : gdb.
(** A material that leaves the buffers [S] alone when called with an array outside [S]. *)
Definition mat_guards {ST} (S : nat -> Prop) (mat : NDMat ST) : Prop :=
  (forall C sv, free S C -> guards S (ndm_gradient mat C sv) (fun _ => True)) /\
  (forall C sv, free S C -> guards S (ndm_hessian mat C sv) (fun _ => True)).
Section Sp.
  Context {ST : Type} (S : nat -> Prop) (mat : NDMat ST) (o : SpaceOpts) (H : mat_guards S mat).
  Let Hg := proj1 H.
  Let Hh := proj2 H.
  Hint Resolve Hg Hh : gdb.
  Lemma G_def_c F sv : guards S (nd_def_gradient_c mat o F sv)
    (fun r => free S (fst (fst r)) /\ free S (fst (snd r)) /\ free S (snd (snd r))).
  Proof. unfold nd_def_gradient_c. gauto. Qed.
  Hint Resolve G_def_c : gdb.
  Lemma G_def_gradient F sv : guards S (nd_def_gradient mat o F sv) (fun r => free S (fst r)).
  Proof. unfold nd_def_gradient. gauto. Qed.
  Lemma G_def_hessian F sv : guards S (nd_def_hessian mat o F sv) (free S).
  Proof. unfold nd_def_hessian. gauto. Qed.
  Lemma G_dis_c F sv : guards S (nd_dis_gradient_c mat o F sv)
    (fun r => free S (fst (fst r)) /\ let '(C, I3, Cu, Sb, SbC, invC, PK2) := snd r in free S Cu).
  Proof. unfold nd_dis_gradient_c. gauto. Qed.
  Hint Resolve G_dis_c : gdb.
  Lemma G_dis_gradient F sv : guards S (nd_dis_gradient mat o F sv) (fun r => free S (fst r)).
  Proof. unfold nd_dis_gradient. gauto. Qed.
  Lemma G_dis_hessian F sv : guards S (nd_dis_hessian mat o F sv) (free S).
  Proof. unfold nd_dis_hessian. gauto. Qed.
  Lemma G_dil_c F sv : guards S (nd_dil_gradient_c mat o F sv)
    (fun r => free S (fst (fst r)) /\ let '(C, I3, Co, tr_Sb, invC, PK2) := snd r in free S Co).
  Proof. unfold nd_dil_gradient_c. gauto. Qed.
  Hint Resolve G_dil_c : gdb.
  Lemma G_dil_gradient F sv : guards S (nd_dil_gradient mat o F sv) (fun r => free S (fst r)).
  Proof. unfold nd_dil_gradient. gauto. Qed.
  Lemma G_dil_hessian F sv : guards S (nd_dil_hessian mat o F sv) (free S).
  Proof. unfold nd_dil_hessian. gauto. Qed.
End Sp.

(** ** Frameworks *)
Definition invm_guards {ST} (S : nat -> Prop) (m : NDInvModel ST) : Prop :=
  (forall a b c sv, free S a -> free S b -> free S c -> guards S (nim_gradient m a b c sv) (fun _ => True)) /\
  (forall a b c sv, free S a -> free S b -> free S c -> guards S (nim_hessian m a b c sv) (fun _ => True)).
Lemma G_add_times S acc x d : guards S (add_times acc x d) (free S).
Proof. unfold add_times. gauto. Qed.
#[global] Hint Resolve G_add_times : gdb.
Lemma G_local' S {A} (x : option A) : guards S (local x) (fun _ => True).
Proof. apply G_local. auto. Qed.
#[global] Hint Resolve G_local' : gdb.
Lemma G_add_dya S acc x a b : guards S (add_dya acc x a b) (free S).
Proof. unfold add_dya. gauto. Qed.
Lemma G_add_dya2 S acc x a b : guards S (add_dya2 acc x a b) (free S).
Proof. unfold add_dya2. gauto. Qed.
#[global] Hint Resolve G_add_dya G_add_dya2 : gdb.
Section In.
  Context {ST : Type} (S : nat -> Prop) (m : NDInvModel ST) (H : invm_guards S m).
  Let Hg := proj1 H.
  Let Hh := proj2 H.
  Hint Resolve Hg Hh : gdb.
  Lemma G_inv_c C sv : guards S (nd_inv_gradient_c m C sv)
    (fun r => free S (fst (fst r)) /\ free S (ic_I1 (snd r)) /\ free S (ic_I2 (snd r)) /\ free S (ic_I3 (snd r))).
  Proof. unfold nd_inv_gradient_c. gauto. Qed.
  Hint Resolve G_inv_c : gdb.
  Lemma G_inv_gradient C sv : guards S (nd_inv_gradient m C sv) (fun r => free S (fst r)).
  Proof. unfold nd_inv_gradient. gauto. Qed.
  Lemma G_inv_hessian C sv : guards S (nd_inv_hessian m C sv) (free S).
  Proof.
    unfold nd_inv_hessian. gauto_m (free S).
  Qed.
End In.
Lemma inv_guards {ST} S (m : NDInvModel ST) : invm_guards S m -> mat_guards S (nd_invariants m).
Proof.
  intros H. split; intros C sv _; cbn [ndm_gradient ndm_hessian nd_invariants].
  - eapply G_weaken; [exact (G_inv_gradient S m H C sv)|auto].
  - eapply G_weaken; [exact (G_inv_hessian S m H C sv)|auto].
Qed.

Definition strm_guards {ST} (S : nat -> Prop) (m : NDStretchModel ST) : Prop :=
  (forall l sv, free S l -> guards S (nsm_gradient m l sv) (fun _ => True)) /\
  (forall l sv, free S l -> guards S (nsm_hessian m l sv) (fun _ => True)).
Lemma G_fill6 S l h : guards S (fill6 l h) (free S).
Proof.
  unfold fill6. g1. g1.
  { g1; gsplit. destruct (h i); gauto. }
  gauto.
Qed.
#[global] Hint Resolve G_fill6 : gdb.
Section St.
  Context {ST : Type} (S : nat -> Prop) (lapack : Lapack) (m : NDStretchModel ST) (H : strm_guards S m).
  Let Hg := proj1 H.
  Let Hh := proj2 H.
  Hint Resolve Hg Hh : gdb.
  Lemma G_str_c C sv : guards S (nd_str_gradient_c lapack m C sv)
    (fun r => free S (fst (fst r)) /\ free S (fst (fst (snd r)))).
  Proof. unfold nd_str_gradient_c. gauto. Qed.
  Hint Resolve G_str_c : gdb.
  Lemma G_str_gradient C sv : guards S (nd_str_gradient lapack m C sv) (fun r => free S (fst r)).
  Proof. unfold nd_str_gradient. gauto. Qed.
  Lemma G_str_hessian C sv : guards S (nd_str_hessian lapack m C sv) (free S).
  Proof.
    unfold nd_str_hessian. gauto_m (fun _ : nd => True).
  Qed.
End St.
Lemma str_guards {ST} S lapack (m : NDStretchModel ST) : strm_guards S m -> mat_guards S (nd_stretches lapack m).
Proof.
  intros H. split; intros C sv _; cbn [ndm_gradient ndm_hessian nd_stretches].
  - eapply G_weaken; [exact (G_str_gradient S lapack m H C sv)|auto].
  - eapply G_weaken; [exact (G_str_hessian S lapack m H C sv)|auto].
Qed.

(** ** Models *)
Definition own (S : nat -> Prop) (x : option pyval) : Prop := match x with Some (PArr a) => free S a | _ => True end.
Lemma G_opt_num S c x : own S x -> guards S (py_opt_iadd_num c x) (own S).
Proof. intros H. unfold py_opt_iadd_num. destruct (nonzero c), x as [[|]|]; cbn in *; gauto. Qed.
Lemma G_opt_arr S c x e : own S x -> guards S (py_opt_iadd c x e) (own S).
Proof. intros H. unfold py_opt_iadd, iadd_arr. destruct (nonzero c), x as [[|]|]; cbn in *; gauto. Qed.
#[global] Hint Resolve G_opt_num G_opt_arr : gdb.
Lemma tod_guards {ST} S (m : TOD) : invm_guards S (nd_tod (ST := ST) m).
Proof.
  split; intros a b c sv _ _ _; cbn [nim_gradient nim_hessian nd_tod].
  - unfold nd_tod_gradient. cbv zeta.
    set (x := if (nonzero (C10 m) || _ || _ || _)%bool then _ else _).
    assert (own S x) by (subst x; destruct (_ || _)%bool; exact I). clearbody x.
    set (y := if (nonzero (C01 m) || _)%bool then _ else _).
    assert (own S y) by (subst y; destruct (_ || _)%bool; exact I). clearbody y.
    gauto.
  - unfold nd_tod_hessian. gauto.
Qed.
Lemma G_ogden_sum S c e m l : guards S (nd_ogden_sum c e m l) (free S).
Proof. unfold nd_ogden_sum. gauto. Qed.
#[global] Hint Resolve G_ogden_sum : gdb.
Lemma ogden_guards {ST} S (m : Ogden) : strm_guards S (nd_ogden (ST := ST) m).
Proof.
  split; intros l sv _; cbn [nsm_gradient nsm_hessian nd_ogden].
  - unfold nd_ogden_gradient. gauto.
  - unfold nd_ogden_hessian. gauto.
Qed.
(** A strain measure that leaves [S] alone and returns arrays outside [S]. *)
Definition strain_guards (S : nat -> Prop) (fs : NDStrain) : Prop :=
  forall l, free S l -> guards S (fs l) (fun _ => True).
Lemma G_strain S k : strain_guards S (nd_strain k).
Proof. intros l _. unfold nd_strain. gauto. Qed.
Lemma G_deformation S k : strain_guards S (nd_deformation k).
Proof. intros l _. unfold nd_deformation. gauto. Qed.
Lemma G_times_list S w : guards S (times_list w) (fun _ => True).
Proof. unfold times_list. gauto. Qed.
Lemma G_iadd3 S acc w d e : free S acc -> guards S (iadd3 acc w d e) (fun _ => True).
Proof. intros H. unfold iadd3. gauto. Qed.
Lemma G_iadd_ab S H x a b : free S H -> guards S (iadd_ab H x a b) (fun _ => True).
Proof. intros F. unfold iadd_ab. gauto. Qed.
Lemma G_iadd_ab2 S H x a b : free S H -> guards S (iadd_ab2 H x a b) (fun _ => True).
Proof. intros F. unfold iadd_ab2. gauto. Qed.
#[global] Hint Resolve G_times_list G_iadd3 G_iadd_ab G_iadd_ab2 : gdb.
Section Ge.
  Context {ST : Type} (S : nat -> Prop) (m : NDInvModel ST) (fs : NDStrain) (c : GenConst)
    (H : invm_guards S m) (Hs : strain_guards S fs).
  Let Hg := proj1 H.
  Let Hh := proj2 H.
  Hint Resolve Hg Hh Hs : gdb.
  Lemma G_gen_c l sv : free S l -> guards S (nd_gen_gradient_c m fs c l sv)
    (fun r => free S (fst (fst r)) /\ free S (nc_I1 (snd r)) /\ free S (nc_I2 (snd r)) /\ free S (nc_I3 (snd r))).
  Proof. intros F. unfold nd_gen_gradient_c. gauto. Qed.
  Hint Resolve G_gen_c : gdb.
  Lemma gen_guards : strm_guards S (nd_gen m fs c).
  Proof.
    split; intros l sv F; cbn [nsm_gradient nsm_hessian nd_gen].
    - unfold nd_gen_gradient. gauto.
    - unfold nd_gen_hessian. gauto_m (fun _ : unit => True).
  Qed.
End Ge.
