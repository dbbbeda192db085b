(** The programs of [Shared] are tame: they only read what they have written, write values which
    are functions of the arguments, and end with the outcome of the sequential model. *)
From Coq Require Import Reals Lra List Arith Lia FunctionalExtensionality.
From Verif Require Import Tensor Py Voigt VoigtProofs Models Frameworks Spaces Spec HistProofs SpaceCore Shared SharedProofs.
Import ListNotations.
Local Open Scope R_scope.

Lemma pbind_assoc {A B D} (p : prog A) (k : A -> prog B) (k' : B -> prog D) :
  pbind (pbind p k) k' = pbind p (fun x => pbind (k x) k').
Proof.
  induction p as [x|e|a c IH|a x c IH]; cbn; try reflexivity.
  - f_equal. apply functional_extensionality. intro v. apply IH.
  - f_equal. exact IH.
Qed.
Section Rules.
  Context {B : Type} (ok : addr -> aval -> Prop) (sg : heap) (r : Result B).
  Lemma tm_ret x : r = Ok x -> tm ok sg (Ret x) r.
  Proof. intros ->. exists 0%nat. constructor. Qed.
  Lemma tm_wr a x (k : unit -> prog B) : ok a x -> tm ok (upd sg a x) (k tt) r -> tm ok sg (pbind (wr a x) k) r.
  Proof. intros H [n T]. exists (S n). cbn. constructor; assumption. Qed.
  Lemma tm_rdR a x (k : R -> prog B) : sg a = Some (AR x) -> tm ok sg (k x) r -> tm ok sg (pbind (rdR a) k) r.
  Proof. intros H [n T]. exists (S n). cbn. econstructor; [exact H|exact T]. Qed.
  Lemma tm_rdO a x (k : option R -> prog B) : sg a = Some (AO x) -> tm ok sg (k x) r -> tm ok sg (pbind (rdO a) k) r.
  Proof. intros H [n T]. exists (S n). cbn. econstructor; [exact H|exact T]. Qed.
  Lemma tm_rd3 a x (k : Vec3 -> prog B) : sg a = Some (A3 x) -> tm ok sg (k x) r -> tm ok sg (pbind (rd3 a) k) r.
  Proof. intros H [n T]. exists (S n). cbn. econstructor; [exact H|exact T]. Qed.
  Lemma tm_rd6 a x (k : Vec6 -> prog B) : sg a = Some (A6 x) -> tm ok sg (k x) r -> tm ok sg (pbind (rd6 a) k) r.
  Proof. intros H [n T]. exists (S n). cbn. econstructor; [exact H|exact T]. Qed.
  Lemma tm_rdM a x (k : (ix3 -> Vec6) -> prog B) : sg a = Some (AM x) -> tm ok sg (k x) r -> tm ok sg (pbind (rdM a) k) r.
  Proof. intros H [n T]. exists (S n). cbn. econstructor; [exact H|exact T]. Qed.
  Lemma tm_call {A} (x : Result A) (k : A -> prog B) :
    match x with Ok y => tm ok sg (k y) r | Raise e => r = Raise e end -> tm ok sg (pbind (call x) k) r.
  Proof. destruct x as [y|e]; cbn; [exact (fun H => H)|intros ->; exists 0%nat; constructor]. Qed.
End Rules.
Ltac look := repeat first [rewrite upd_same | rewrite upd_other by congruence]; try reflexivity; try eassumption.
Ltac go permit := repeat (cbv beta iota zeta; lazymatch goal with
  | |- tm _ _ (pbind (pbind (pif (_ V0) _ _) _) _) _ => fail
  | |- tm _ _ (pbind (pbind _ _) _) _ => rewrite pbind_assoc
  | |- tm _ _ (pbind (wr _ _) _) _ => apply tm_wr; [solve [permit tt]|]
  | |- tm _ _ (pbind (rdR _) _) _ => eapply tm_rdR; [solve [look]|]
  | |- tm _ _ (pbind (rdO _) _) _ => eapply tm_rdO; [solve [look]|]
  | |- tm _ _ (pbind (rd3 _) _) _ => eapply tm_rd3; [solve [look]|]
  | |- tm _ _ (pbind (rd6 _) _) _ => eapply tm_rd6; [solve [look]|]
  | |- tm _ _ (pbind (rdM _) _) _ => eapply tm_rdM; [solve [look]|]
  | |- tm _ _ (pbind (Ret ?x) ?k) _ => change (pbind (Ret x) k) with (k x)
  | |- tm _ _ (pbind (pif (Some ?x) ?y ?g) ?k) _ => change (pif (Some x) y g) with (g x)
  | |- tm _ _ (pbind (pif None ?y ?g) ?k) _ => change (pif None y g) with (Ret y)
  | |- tm _ _ (pbind (num (Some ?x)) ?k) _ => change (num (Some x)) with (Ret x)
  end).

(** Code which only uses local variables. *)
Definition pure {St A} (p : prog A) (m : PY St A) : Prop :=
  exists res, p = call res /\ forall s, m s = (s, res).
Lemma pure_ret {St A} (x : A) : pure (St := St) (Ret x) (ret x).
Proof. exists (Ok x). split; reflexivity. Qed.
Lemma pure_loc {St A} (x : option A) : pure (St := St) (loc x) (local x).
Proof. destruct x as [x|]; [exists (Ok x)|exists (Raise UnboundLocalError)]; split; reflexivity. Qed.
Lemma pure_times x A : pure (w <~ num x ;; Ret (mscal6 w A))%prog (times x A).
Proof. destruct x as [x|]; [exists (Ok (mscal6 x A))|exists (Raise TypeError)]; split; reflexivity. Qed.
Lemma pure_bind {St A B} (p : prog A) (m : PY St A) (k : A -> prog B) (k' : A -> PY St B) :
  pure p m -> (forall x, pure (k x) (k' x)) -> pure (pbind p k) (bind m k').
Proof.
  intros [[x|e] [-> H]] Hk.
  - destruct (Hk x) as [res [E1 E2]]. exists res. split; [exact E1|]. intro s. unfold bind. rewrite H. apply E2.
  - exists (Raise e). split; [reflexivity|]. intro s. unfold bind. rewrite H. reflexivity.
Qed.
Lemma pure_pif {St A B} (x : option A) (acc : B) (g : A -> prog B) (g' : A -> PY St B) :
  (forall a, x = Some a -> pure (g a) (g' a)) -> pure (pif x acc g) (if_some x acc g').
Proof. destruct x as [a|]; intro H; [apply H; reflexivity|apply pure_ret]. Qed.
Lemma pure_tm_off {St A B} (p : prog A) (m : PY St A) (off : heap -> heap -> Prop) ok sg0 sg (k : A -> prog B) r s : pure p m ->
  match snd (m s) with Ok y => forall sg', off sg0 sg' -> tm ok sg' (k y) r | Raise e => r = Raise e end ->
  off sg0 sg -> tm ok sg (pbind p k) r.
Proof. intros [res [-> H]]. rewrite H. intros H1 H2. apply tm_call. destruct res; [apply H1, H2|exact H1]. Qed.
Lemma pure_tm {St A B} (p : prog A) (m : PY St A) ok sg (k : A -> prog B) r s : pure p m ->
  match snd (m s) with Ok y => tm ok sg (k y) r | Raise e => r = Raise e end -> tm ok sg (pbind p k) r.
Proof. intros [res [-> H]]. rewrite H. apply tm_call. Qed.

(** ** Invariants *)
(** _invariants.py:219-235 in both models *)
Definition tail_p (h : ix6 -> option R) (dI1dC dI2dC dI3dC : option Vec6) (H : Mat6) : prog Mat6 :=
  (H <~ pif (h V0) H (fun w =>
    d1 <~ loc dI1dC ;; Ret (madd6 H (mscal6 w (dya d1 d1)))) ;;
  H <~ pif (h V1) H (fun w =>
    d2 <~ loc dI2dC ;; Ret (madd6 H (mscal6 w (dya d2 d2)))) ;;
  H <~ pif (h V2) H (fun _ =>
    d2 <~ loc dI2dC ;; w <~ num (h V1) ;; Ret (madd6 H (mscal6 w (dya d2 d2)))) ;;
  H <~ pif (h V3) H (fun w =>
    d1 <~ loc dI1dC ;; d2 <~ loc dI2dC ;;
    Ret (madd6 H (mscal6 w (madd6 (dya d1 d2) (dya d2 d1))))) ;;
  H <~ pif (h V4) H (fun w =>
    d2 <~ loc dI2dC ;; d3 <~ loc dI3dC ;;
    Ret (madd6 H (mscal6 w (madd6 (dya d2 d3) (dya d3 d2))))) ;;
  H <~ pif (h V5) H (fun w =>
    d1 <~ loc dI1dC ;; d3 <~ loc dI3dC ;;
    Ret (madd6 H (mscal6 w (madd6 (dya d1 d3) (dya d3 d1))))) ;;
  Ret H)%prog.
Definition tail_m (h : ix6 -> option R) (dI1dC dI2dC dI3dC : option Vec6) (H : Mat6) : PY InvSelf Mat6 :=
  (H <- if_some (h V0) H (fun _ =>
    d1 <- local dI1dC ;; T <- times (h V0) (dya d1 d1) ;; ret (madd6 H T)) ;;
  H <- if_some (h V1) H (fun _ =>
    d2 <- local dI2dC ;; T <- times (h V1) (dya d2 d2) ;; ret (madd6 H T)) ;;
  H <- if_some (h V2) H (fun _ =>
    d2 <- local dI2dC ;; T <- times (h V1) (dya d2 d2) ;; ret (madd6 H T)) ;;
  H <- if_some (h V3) H (fun _ =>
    d1 <- local dI1dC ;; d2 <- local dI2dC ;;
    T <- times (h V3) (madd6 (dya d1 d2) (dya d2 d1)) ;; ret (madd6 H T)) ;;
  H <- if_some (h V4) H (fun _ =>
    d2 <- local dI2dC ;; d3 <- local dI3dC ;;
    T <- times (h V4) (madd6 (dya d2 d3) (dya d3 d2)) ;; ret (madd6 H T)) ;;
  H <- if_some (h V5) H (fun _ =>
    d1 <- local dI1dC ;; d3 <- local dI3dC ;;
    T <- times (h V5) (madd6 (dya d1 d3) (dya d3 d1)) ;; ret (madd6 H T)) ;;
  ret H)%py.
Lemma pure_tail h a b c H : pure (tail_p h a b c H) (tail_m h a b c H).
Proof.
  unfold tail_p, tail_m.
  repeat (apply pure_bind; [apply pure_pif; intros w Hw; rewrite ?Hw; clear|intro]); [..|apply pure_ret].
  all: repeat (apply pure_bind; [apply pure_loc|intro]).
  3: destruct (h V1) as [y|]; [eexists (Ok _)|eexists (Raise _)]; split; reflexivity.
  all: cbn [times]; eexists (Ok _); split; reflexivity.
Qed.
Section Inv.
  Context {SV : Type} (f : nat) (m : InvModel SV).
  Definition inv_dW (C : Vec6) (sv : SV) :=
    im_gradient m (trace C) ((trace C ^ 2 - ddot22 C C) / 2) (det C) sv.
  Definition pick (j : nat) (x : Result (option R * option R * option R * SV)) : option R :=
    match x with Ok (w1, w2, w3, _) => match j with 1%nat => w1 | 2%nat => w2 | _ => w3 end | Raise _ => None end.
  (** The value which attribute [a] gets. *)
  Definition ival (C : Vec6) (sv : SV) (a : fattr) : aval :=
    match a with
    | fI => A6 eye | fI1 => AR (trace C) | fI2 => AR ((trace C ^ 2 - ddot22 C C) / 2) | fI3 => AR (det C)
    | fdW1 => AO (pick 1 (inv_dW C sv)) | fdW2 => AO (pick 2 (inv_dW C sv)) | fdW3 => AO (pick 3 (inv_dW C sv))
    | fdI1 => A6 eye | fdI2 => A6 (vsub (vscal (trace C) eye) C)
    | finvC => A6 (inv C (Some (det C))) | fdI3 => A6 (vscal (det C) (inv C (Some (det C))))
    | _ => AR 0
    end.
  Definition off (sg sg' : heap) : Prop :=
    forall a, (forall b, a <> AFw f b) -> (forall b, a <> AMod f b) -> sg' a = sg a.
  Lemma off_refl sg : off sg sg.
  Proof. intros a _ _. reflexivity. Qed.
  Lemma off_upd sg sg' b x : off sg sg' -> off sg (upd sg' (AFw f b) x).
  Proof. intros H a H1 H2. rewrite upd_other by apply H1. apply H; assumption. Qed.
  Definition inv_view (C : Vec6) (sv : SV) (sg : heap) : Prop :=
    (forall a, In a [fI; fI1; fI2; fI3; fdW1; fdW2; fdW3] -> sg (AFw f a) = Some (ival C sv a)) /\
    (pick 1 (inv_dW C sv) <> None -> sg (AFw f fdI1) = Some (ival C sv fdI1)) /\
    (pick 2 (inv_dW C sv) <> None -> sg (AFw f fdI2) = Some (ival C sv fdI2)) /\
    (pick 3 (inv_dW C sv) <> None -> sg (AFw f finvC) = Some (ival C sv finvC) /\ sg (AFw f fdI3) = Some (ival C sv fdI3)).

  Lemma inv_g_tame C sv s : forall B (k : Vec6 * SV -> prog B) (ok : addr -> aval -> Prop) sg (r : Result B),
    (forall a, ok (AFw f a) (ival C sv a)) ->
    match outcome (inv_gradient m C sv) s with
    | Ok y => forall sg', off sg sg' -> inv_view C sv sg' -> tm ok sg' (k y) r
    | Raise e => r = Raise e
    end -> tm ok sg (pbind (inv_gradient_p f m C sv) k) r.
  Proof.
    intros B k ok sg r Hok H. unfold inv_gradient_p. cbv zeta.
    go ltac:(fun _ => match goal with |- ok (AFw f ?a) _ => exact (Hok a) end).
    apply tm_call. revert H. unfold outcome, inv_gradient, bind, modify, get, put, lift, ret, bind, get, put.
    fold (inv_dW C sv). 
    assert (O1 : ok (AFw f fdW1) (AO (pick 1 (inv_dW C sv)))) by exact (Hok fdW1).
    assert (O2 : ok (AFw f fdW2) (AO (pick 2 (inv_dW C sv)))) by exact (Hok fdW2).
    assert (O3 : ok (AFw f fdW3) (AO (pick 3 (inv_dW C sv)))) by exact (Hok fdW3).
    assert (HV : forall sg', inv_view C sv sg' = inv_view C sv sg') by reflexivity. unfold inv_view at 1, ival in HV.
    destruct (inv_dW C sv) as [[[[w1 w2] w3] svn]|e] eqn:E; [|cbn; exact (fun H => H)].
    cbn [pick] in O1, O2, O3, HV.
    intro H. destruct w1 as [w1|], w2 as [w2|], w3 as [w3|];
      go ltac:(fun _ => first [assumption | match goal with |- ok (AFw f ?a) _ => exact (Hok a) end]);
      cbn [if_some] in H; (apply H; [repeat apply off_upd; apply off_refl|]);
      rewrite <- HV; clear HV; (apply conj; [|apply conj; [|apply conj]];
      [intros a Ha; repeat (destruct Ha as [<-|Ha]; [look; fail|]); destruct Ha
      |intro; look; congruence|intro; look; congruence|intro; try congruence; split; look]).
  Qed.

  Lemma inv_h_tame C sv s : forall B (k : Mat6 -> prog B) (ok : addr -> aval -> Prop) sg (r : Result B),
    (forall a, ok (AFw f a) (ival C sv a)) ->
    match outcome (inv_hessian m C sv) s with
    | Ok y => forall sg', off sg sg' -> tm ok sg' (k y) r
    | Raise e => r = Raise e
    end -> tm ok sg (pbind (inv_hessian_p f m C sv) k) r.
  Proof.
    intros B k ok sg r Hok H. unfold inv_hessian_p. rewrite pbind_assoc.
    apply (inv_g_tame C sv s); [exact Hok|]. revert H.
    unfold outcome, inv_hessian. unfold bind at 1.
    destruct (inv_gradient m C sv s) as [s1 [[G svn]|e]] eqn:EG; [|exact (fun H => H)].
    cbn [snd]. intros H sg' Hoff [V [V1 [V2 V3']]].
    assert (HI := V fI ltac:(cbn; repeat (first [left; reflexivity | right]))). assert (HI1 := V fI1 ltac:(cbn; repeat (first [left; reflexivity | right]))).
    assert (HI2 := V fI2 ltac:(cbn; repeat (first [left; reflexivity | right]))). assert (HI3 := V fI3 ltac:(cbn; repeat (first [left; reflexivity | right]))).
    assert (HW1 := V fdW1 ltac:(cbn; repeat (first [left; reflexivity | right]))). assert (HW2 := V fdW2 ltac:(cbn; repeat (first [left; reflexivity | right]))).
    assert (HW3 := V fdW3 ltac:(cbn; repeat (first [left; reflexivity | right]))). clear V. unfold ival in HI, HI1, HI2, HI3, HW1, HW2, HW3, V1, V2, V3'.
    revert EG. unfold inv_gradient, bind, modify, get, put, lift, ret, bind, get, put. fold (inv_dW C sv).
    destruct (inv_dW C sv) as [[[[w1 w2] w3] svn']|e] eqn:E; [|discriminate].
    cbn [pick] in *. intro EG.
    assert (Es1 : svn' = svn /\ i_I s1 = Some eye /\ i_I1 s1 = Some (trace C) /\ i_I2 s1 = Some ((trace C ^ 2 - ddot22 C C) / 2) /\
       i_I3 s1 = Some (det C) /\ i_dW s1 = Some (w1, w2, w3) /\ (w1 <> None -> i_dI1dC s1 = Some eye) /\
       (w2 <> None -> i_dI2dC s1 = Some (vsub (vscal (trace C) eye) C)) /\
       (w3 <> None -> i_invC s1 = Some (inv C (Some (det C))) /\ i_dI3dC s1 = Some (vscal (det C) (inv C (Some (det C)))))).
    { destruct w1, w2, w3; cbn in EG; injection EG as <- _ <-; cbn; repeat split; congruence. }
    clear EG. destruct Es1 as (-> & S1 & S2 & S3 & S4 & S5 & S6 & S7 & S8).
    revert H. unfold bind at 1, get at 1. rewrite S2. unfold bind at 1, attr at 1, ret at 1. rewrite S3.
    unfold bind at 1, attr at 1, ret at 1. rewrite S4. unfold bind at 1, attr at 1, ret at 1.
    unfold bind at 1, lift at 1.
    intro H. go ltac:(fun _ => fail). apply tm_call. revert H.
    destruct (im_hessian m (trace C) ((trace C ^ 2 - ddot22 C C) / 2) (det C) svn) as [h|e]; [|exact (fun H => H)].
    rewrite S1. unfold bind at 1, attr at 1, ret at 1. rewrite S5. unfold bind at 1, attr at 1, ret at 1.
    intro H. 
    destruct w1 as [w1|], w2 as [w2|], w3 as [w3|];
      try (assert (X1 := V1 ltac:(discriminate)); rewrite (S6 ltac:(discriminate)) in H);
      try (assert (X2 := V2 ltac:(discriminate)); rewrite (S7 ltac:(discriminate)) in H);
      try (destruct (V3' ltac:(discriminate)) as [X3 X4]; destruct (S8 ltac:(discriminate)) as [S9 S10]; rewrite S9, S10 in H);
      go ltac:(fun _ => fail).
    all: eapply (pure_tm_off _ _ off); [apply pure_tail|exact H|exact Hoff].
  Qed.
End Inv.

(** ** Models of Stretches *)
Section ModelSpec.
  Context {SV : Type} (f : nat).
  Definition offm (sg sg' : heap) : Prop := forall a, (forall b, a <> AMod f b) -> sg' a = sg a.
  Lemma offm_refl sg : offm sg sg.
  Proof. intros a _. reflexivity. Qed.
  Lemma offm_upd sg sg' b x : offm sg sg' -> offm sg (upd sg' (AMod f b) x).
  Proof. intros H a H1. rewrite upd_other by apply H1. apply H; assumption. Qed.
  (** The program [p] is the call with outcome [res], if [ok] permits what it needs. *)
  Definition does {A} (off : heap -> heap -> Prop) (need : (addr -> aval -> Prop) -> Prop) (p : prog A) (res : Result A) : Prop :=
    forall B (k : A -> prog B) ok sg (r : Result B), need ok ->
    match res with Ok y => forall sg', off sg sg' -> tm ok sg' (k y) r | Raise e => r = Raise e end ->
    tm ok sg (pbind p k) r.
  Lemma does_call {A} need (x : Result A) : does offm need (call x) x.
  Proof. intros B k ok sg r _ H. apply tm_call. destruct x; [apply H, offm_refl|exact H]. Qed.
End ModelSpec.

(** ** GeneralizedInvariantsModel *)
Section Gen.
  Context {SV : Type} (f : nat) (m : InvModel SV) (fs : R -> Result StrainVal) (c : GenConst).
  Definition gE (l : Vec3) : Vec3 := match strain3 fs l with Ok s => fun a => sE (s a) | Raise _ => fun _ => 0 end.
  Definition gdE (l : Vec3) : Vec3 := match strain3 fs l with Ok s => fun a => sdE (s a) | Raise _ => fun _ => 0 end.
  Definition gd2E (l : Vec3) : Vec3 := match strain3 fs l with Ok s => fun a => sd2E (s a) | Raise _ => fun _ => 0 end.
  Definition gJ1 (E : Vec3) := gc1 c * (E X0 + E X1 + E X2) - gI10 c * (gc1 c - 1).
  Definition gJ2 (E : Vec3) := gc2 c * (E X0 * E X1 + E X1 * E X2 + E X2 * E X0) - gI20 c * (gc2 c - 1).
  Definition gJ3 (E : Vec3) := E X0 * E X1 * E X2.
  Definition gen_dW (l : Vec3) (sv : SV) := im_gradient m (gJ1 (gE l)) (gJ2 (gE l)) (gJ3 (gE l)) sv.
  Definition gval (l : Vec3) (sv : SV) (a : mattr) : aval :=
    let E := gE l in
    match a with
    | mE => A3 E | mdE => A3 (gdE l) | md2E => A3 (gd2E l)
    | mI1 => AR (gJ1 E) | mI2 => AR (gJ2 E) | mI3 => AR (gJ3 E)
    | mdW1 => AO (pick 1 (gen_dW l sv)) | mdW2 => AO (pick 2 (gen_dW l sv)) | mdW3 => AO (pick 3 (gen_dW l sv))
    | mdI1 => A3 (fun _ => gc1 c * 1)
    | mdI2 => A3 (fun a => gc2 c * (E (gb a) + E (gg a)))
    | mdI3 => A3 (fun a => E (gb a) * E (gg a))
    end.
  Definition gen_need (l : Vec3) (sv : SV) (ok : addr -> aval -> Prop) : Prop := forall a, ok (AMod f a) (gval l sv a).
  Definition gen_view (l : Vec3) (sv : SV) (sg : heap) : Prop := forall a, sg (AMod f a) = Some (gval l sv a).

  Lemma gen_g_tame l sv s : forall B (k : Vec3 * SV -> prog B) (ok : addr -> aval -> Prop) sg (r : Result B),
    gen_need l sv ok ->
    match outcome (gen_gradient m fs c l sv) s with
    | Ok y => forall sg', offm f sg sg' -> gen_view l sv sg' -> tm ok sg' (k y) r
    | Raise e => r = Raise e
    end -> tm ok sg (pbind (gen_gradient_p f m fs c l sv) k) r.
  Proof.
    intros B k ok sg r Hok H. unfold gen_gradient_p. rewrite pbind_assoc. apply tm_call. revert H.
    unfold outcome, gen_gradient, bind, get, put, lift, ret.
    assert (HE := eq_refl (gE l)). unfold gE at 2 in HE.
    assert (HdE := eq_refl (gdE l)). unfold gdE at 2 in HdE.
    assert (Hd2E := eq_refl (gd2E l)). unfold gd2E at 2 in Hd2E.
    destruct (strain3 fs l) as [st|e] eqn:E; [|exact (fun H => H)].
    assert (EW0 : gen_dW l sv = im_gradient m (gc1 c * (sE (st X0) + sE (st X1) + sE (st X2)) - gI10 c * (gc1 c - 1))
       (gc2 c * (sE (st X0) * sE (st X1) + sE (st X1) * sE (st X2) + sE (st X2) * sE (st X0)) - gI20 c * (gc2 c - 1))
       (sE (st X0) * sE (st X1) * sE (st X2)) sv) by (unfold gen_dW, gJ1, gJ2, gJ3; rewrite HE; reflexivity).
    cbv zeta beta. rewrite <- EW0. intro H.
    unfold gen_need, gval, gJ1, gJ2, gJ3 in Hok. cbv zeta in Hok. rewrite HE, HdE, Hd2E in Hok.
    go ltac:(fun _ => match goal with |- ok (AMod f ?a) _ => exact (Hok a) end).
    rewrite <- EW0. apply tm_call. revert H.
    assert (O1 : ok (AMod f mdW1) (AO (pick 1 (gen_dW l sv)))) by exact (Hok mdW1).
    assert (O2 : ok (AMod f mdW2) (AO (pick 2 (gen_dW l sv)))) by exact (Hok mdW2).
    assert (O3 : ok (AMod f mdW3) (AO (pick 3 (gen_dW l sv)))) by exact (Hok mdW3).
    assert (HV : forall sg', gen_view l sv sg' = gen_view l sv sg') by reflexivity.
    unfold gen_view at 1, gval, gJ1, gJ2, gJ3 in HV. cbv zeta in HV. rewrite HE, HdE, Hd2E in HV.
    destruct (gen_dW l sv) as [[[[w1 w2] w3] svn]|e] eqn:EW; [|exact (fun H => H)].
    cbn [pick] in O1, O2, O3, HV. cbn [snd].
    intro H. unfold gen_add_p. destruct w1 as [w1|], w2 as [w2|], w3 as [w3|];
      go ltac:(fun _ => first [assumption | match goal with |- ok (AMod f ?a) _ => exact (Hok a) end]);
      (apply H; [repeat apply offm_upd; apply offm_refl|rewrite <- HV; intros []; look]).
  Qed.
  Lemma gen_g_does l sv s : does (offm f) (gen_need l sv) (gen_gradient_p f m fs c l sv) (outcome (gen_gradient m fs c l sv) s).
  Proof.
    intros B k ok sg r Hn H. apply (gen_g_tame l sv s); [exact Hn|].
    destruct (outcome (gen_gradient m fs c l sv) s); [intros sg' Ho _; apply H, Ho|exact H].
  Qed.
  Lemma gen_h_does l sv s : does (offm f) (gen_need l sv) (gen_hessian_p f m fs c l sv) (outcome (gen_hessian m fs c l sv) s).
  Proof.
    intros B k ok sg r Hok H. unfold gen_hessian_p. rewrite pbind_assoc. apply (gen_g_tame l sv s); [exact Hok|].
    revert H. unfold outcome, gen_hessian. unfold bind at 1.
    destruct (gen_gradient m fs c l sv s) as [s1 [[G svn]|e]] eqn:EG; [|exact (fun H => H)].
    cbn [snd]. intros H sg' Ho V.
    assert (W : forall a, sg' (AMod f a) = Some (gval l sv a)) by exact V. clear V.
    assert (W1 := W mI1). assert (W2 := W mI2). assert (W3 := W mI3). assert (W4 := W mdW1). assert (W5 := W mdW2). assert (W6 := W mdW3).
    assert (W7 := W mdI1). assert (W8 := W mdI2). assert (W9 := W mdI3). assert (W10 := W mdE). assert (W11 := W md2E). clear W.
    cbv beta zeta iota delta [gval] in W1, W2, W3, W4, W5, W6, W7, W8, W9, W10, W11.
    revert EG H. unfold gen_gradient, bind, get, put, lift, ret.
    assert (HE := eq_refl (gE l)). unfold gE at 2 in HE.
    assert (HdE := eq_refl (gdE l)). unfold gdE at 2 in HdE.
    assert (Hd2E := eq_refl (gd2E l)). unfold gd2E at 2 in Hd2E.
    destruct (strain3 fs l) as [st|e] eqn:E; [|discriminate].
    assert (EW0 : gen_dW l sv = im_gradient m (gc1 c * (sE (st X0) + sE (st X1) + sE (st X2)) - gI10 c * (gc1 c - 1))
       (gc2 c * (sE (st X0) * sE (st X1) + sE (st X1) * sE (st X2) + sE (st X2) * sE (st X0)) - gI20 c * (gc2 c - 1))
       (sE (st X0) * sE (st X1) * sE (st X2)) sv) by (unfold gen_dW, gJ1, gJ2, gJ3; rewrite HE; reflexivity).
    cbv zeta beta. rewrite <- EW0. unfold gJ1, gJ2, gJ3 in W1, W2, W3.
    rewrite HE in W1, W2, W3, W8, W9. rewrite HdE in W10. rewrite Hd2E in W11.
    destruct (gen_dW l sv) as [[[[w1 w2] w3] svn']|e] eqn:EW; [|discriminate].
    cbn [pick] in *. intro EG. injection EG as <- _ <-. unfold attr, ret. cbn [g_I g_dIdE g_strain g_dW]. cbv beta iota.
    intro H. go ltac:(fun _ => fail). apply tm_call. revert H.
    match goal with |- context [im_hessian m ?x ?y ?z sv] => destruct (im_hessian m x y z sv) as [h|e] end; [|exact (fun H => H)].
    intro H. unfold gen_hadd_p. destruct w1 as [w1|], w2 as [w2|], w3 as [w3|];
      go ltac:(fun _ => fail); apply H, Ho.
  Qed.
End Gen.

(** ** Stretches *)
Section Str.
  Context {SV : Type} (f : nat) (la : Lapack) (m : StretchModel SV) (Hst : stateless_sm m) (s0 : sm_self m).
  Context (g : Vec3 -> SV -> prog (Vec3 * SV)) (h : Vec3 -> SV -> prog (ix6 -> option R)).
  Context (need : Vec3 -> SV -> (addr -> aval -> Prop) -> Prop).
  Notation gr l sv := (outcome (sm_gradient m l sv) s0).
  Notation hr l sv := (outcome (sm_hessian m l sv) s0).
  Context (Hg : forall l sv, does (offm f) (need l sv) (g l sv) (gr l sv)).
  Context (Hh : forall l sv, does (offm f) (need l sv) (h l sv) (hr l sv)).
  Definition sl (C : Vec6) : Vec3 := fst (eigh la C sqrt).
  Definition sM (C : Vec6) : ix3 -> Vec6 := snd (eigh la C sqrt).
  Definition sW (C : Vec6) (sv : SV) : Vec3 := match gr (sl C) sv with Ok (w, _) => w | Raise _ => fun _ => 0 end.
  Definition snew (C : Vec6) (sv : SV) : SV := match gr (sl C) sv with Ok (_, svn) => svn | Raise _ => sv end.
  Definition strval (C : Vec6) (sv : SV) (a : fattr) : aval :=
    match a with
    | fl => A3 (sl C) | fM => AM (sM C) | fdWdl => A3 (sW C sv)
    | fdWdlC => A3 (fun a => sW C sv a / (2 * sl C a))
    | _ => AR 0
    end.
  Definition str_need (C : Vec6) (sv : SV) (ok : addr -> aval -> Prop) : Prop :=
    (forall a, ok (AFw f a) (strval C sv a)) /\ need (sl C) sv ok /\ need (sl C) (snew C sv) ok.
  Definition str_view (C : Vec6) (sv : SV) (sg : heap) : Prop :=
    forall a, In a [fl; fM; fdWdl; fdWdlC] -> sg (AFw f a) = Some (strval C sv a).

  Lemma str_gradient_outcome C sv s : outcome (str_gradient la m C sv) s =
    rbind (gr (sl C) sv) (fun '(w, svn) => Ok ((fun v => sum3 (fun a => (w a / (2 * sl C a)) * sM C a v)), svn)).
  Proof.
    unfold outcome, str_gradient, sl, sM. destruct (eigh la C sqrt) as [l M]. cbn [fst snd].
    unfold bind, modify, get, put, on_model, ret, bind, get, put; cbn [st_model set_lM].
    destruct (Hst l sv (st_model m s) s0) as [H1 _]. unfold outcome in H1. rewrite <- H1.
    destruct (sm_gradient m l sv (st_model m s)) as [a [[w svn]|e]]; reflexivity.
  Qed.
  Definition str_H (C : Vec6) (w : Vec3) (d2Wdldl : ix6 -> option R) : Mat6 :=
    let l := sl C in
    let dWdlC := fun a => w a / (2 * l a) in
    let d2Wdldl := fun v => match d2Wdldl v with Some x => x | None => 0 end in
    let d2 := fun v => d2Wdldl v / (4 * l (sa v) * l (sb v)) in
    let d2 := fun v => match v with
       | V0 => d2 V0 - dWdlC X0 / (2 * l X0 ^ 2)
       | V1 => d2 V1 - dWdlC X1 / (2 * l X1 ^ 2)
       | V2 => d2 V2 - dWdlC X2 / (2 * l X2 ^ 2)
       | _ => d2 v end in
    let it := str_iter l (sM C) dWdlC d2 in
    it (it (it (it (it (it mzero V0) V1) V2) V3) V4) V5.
  Lemma str_hessian_outcome C sv s : outcome (str_hessian la m C sv) s =
    rbind (gr (sl C) sv) (fun '(w, svn) => rbind (hr (sl C) svn) (fun d => Ok (str_H C w d))).
  Proof.
    unfold outcome, str_hessian, str_gradient, str_H, sl, sM. destruct (eigh la C sqrt) as [l M]. cbn [fst snd].
    unfold bind, modify, get, put, on_model, ret, attr, bind, get, put; cbn [st_model set_lM].
    destruct (Hst l sv (st_model m s) s0) as [H1 _]. unfold outcome in H1. rewrite <- H1.
    destruct (sm_gradient m l sv (st_model m s)) as [a [[w svn]|e]]; [|reflexivity]. cbn.
    destruct (Hst l svn a s0) as [_ H2]. unfold outcome in H2. rewrite <- H2.
    destruct (sm_hessian m l svn a) as [b [d|e]]; reflexivity.
  Qed.

  Lemma str_g_tame C sv : forall B (k : Vec6 * SV -> prog B) (ok : addr -> aval -> Prop) sg (r : Result B),
    str_need C sv ok ->
    match rbind (gr (sl C) sv) (fun '(w, svn) => Ok ((fun v => sum3 (fun a => (w a / (2 * sl C a)) * sM C a v)), svn)) with
    | Ok y => forall sg', off f sg sg' -> str_view C sv sg' -> tm ok sg' (k y) r
    | Raise e => r = Raise e
    end -> tm ok sg (pbind (str_gradient_p f la g C sv) k) r.
  Proof.
    intros B k ok sg r [Hok [Hn _]] H. unfold str_gradient_p.
    assert (Q : eigh la C sqrt = (sl C, sM C)) by (unfold sl, sM; destruct (eigh la C sqrt); reflexivity). rewrite Q. clear Q.
    go ltac:(fun _ => match goal with |- ok (AFw f ?a) _ => exact (Hok a) end).
    apply (Hg _ _ _ _ _ _ _ Hn).
    assert (O1 : ok (AFw f fdWdl) (A3 (sW C sv))) by exact (Hok fdWdl).
    assert (O2 : ok (AFw f fdWdlC) (A3 (fun a => sW C sv a / (2 * sl C a)))) by exact (Hok fdWdlC).
    assert (HV : forall sg', str_view C sv sg' = str_view C sv sg') by reflexivity. unfold str_view at 1, strval in HV.
    revert H. unfold sW in O1, O2, HV. destruct (gr (sl C) sv) as [[w svn]|e]; [|exact (fun H => H)].
    cbn [rbind]. intros H sg' Ho.
    set (sg1 := upd (upd sg (AFw f fl) (A3 (sl C))) (AFw f fM) (AM (sM C))) in *.
    assert (Y1 : sg' (AFw f fl) = Some (A3 (sl C))).
    { rewrite Ho by discriminate. unfold sg1. look. }
    assert (Y2 : sg' (AFw f fM) = Some (AM (sM C))).
    { rewrite Ho by discriminate. unfold sg1. look. }
    assert (Y3 : off f sg sg').
    { intros a Ha Hb. rewrite Ho by exact Hb. unfold sg1. rewrite !upd_other by apply Ha. reflexivity. }
    clearbody sg1. clear Ho.
    go ltac:(fun _ => assumption). apply H.
    - repeat apply off_upd. exact Y3.
    - rewrite <- HV. intros a Ha. repeat (destruct Ha as [<-|Ha]; [look; fail|]). destruct Ha.
  Qed.
  Lemma str_g_does C sv s : does (off f) (str_need C sv) (str_gradient_p f la g C sv) (outcome (str_gradient la m C sv) s).
  Proof.
    intros B k ok sg r Hn H. rewrite str_gradient_outcome in H. apply str_g_tame; [exact Hn|].
    destruct (rbind _ _); [intros sg' Ho _; apply H, Ho|exact H].
  Qed.
  Lemma str_h_does C sv s : does (off f) (str_need C sv) (str_hessian_p f la g h C sv) (outcome (str_hessian la m C sv) s).
  Proof.
    intros B k ok sg r Hn H. rewrite str_hessian_outcome in H. unfold str_hessian_p. rewrite pbind_assoc.
    apply str_g_tame; [exact Hn|]. destruct Hn as [Hok [_ Hn]].
    assert (HV : forall sg', str_view C sv sg' = str_view C sv sg') by reflexivity. unfold str_view at 1, strval in HV.
    unfold snew in Hn. unfold sW in HV. revert H. destruct (gr (sl C) sv) as [[w svn]|e]; [|exact (fun H => H)].
    cbn [rbind]. intros H sg' Ho V. rewrite <- HV in V.
    assert (V1 := V fl ltac:(cbn; auto)). assert (V2 := V fM ltac:(cbn; auto)). assert (V3' := V fdWdlC ltac:(cbn; auto)).
    cbv beta iota in V1, V2, V3'. clear V HV.
    go ltac:(fun _ => assumption). apply (Hh _ _ _ _ _ _ _ Hn). revert H.
    destruct (hr (sl C) svn) as [d|e]; [|exact (fun H => H)]. cbn [rbind]. intros H sg2 Ho2.
    assert (Y1 : sg2 (AFw f fl) = Some (A3 (sl C))) by (rewrite Ho2 by discriminate; exact V1).
    assert (Y2 : sg2 (AFw f fM) = Some (AM (sM C))) by (rewrite Ho2 by discriminate; exact V2).
    assert (Y3 : sg2 (AFw f fdWdlC) = Some (A3 (fun a => w a / (2 * sl C a)))) by (rewrite Ho2 by discriminate; exact V3').
    go ltac:(fun _ => assumption). apply H.
    intros a Ha Hb. rewrite Ho2 by exact Hb. apply Ho; assumption.
  Qed.
End Str.

(** ** Spaces *)
Section Sp.
  Context {SV : Type} (o : SpaceOpts) (n f : nat) (fw : Framework SV) (Hfw : stateless_fw fw) (ms0 : fw_self fw).
  Context (g : Vec6 -> SV -> prog (Vec6 * SV)) (h : Vec6 -> SV -> prog Mat6).
  Context (need : Vec6 -> SV -> (addr -> aval -> Prop) -> Prop).
  Notation gr C sv := (outcome (fw_gradient fw C sv) ms0).
  Notation hr C sv := (outcome (fw_hessian fw C sv) ms0).
  Context (Hg : forall C sv, does (off f) (need C sv) (g C sv) (gr C sv)).
  Context (Hh : forall C sv, does (off f) (need C sv) (h C sv) (hr C sv)).
  Definition sg_of (k : SpaceKind) (C : Vec6) (sv : SV) : Vec6 :=
    match gr (seen k C) sv with Ok (x, _) => x | Raise _ => vzero end.
  Definition sval (k : SpaceKind) (C : Vec6) (x : Vec6) (a : sattr) : aval :=
    match a with
    | aC => A6 C | aI3 => AR (det C) | aCx => A6 (seen k C) | aSb => A6 (kSb k C x)
    | aSc => AR (match k with KDistortional => ddot22 (kSb k C x) C | _ => trace (kSb k C x) end)
    | aInvC => A6 (inv C (Some (det C))) | aS => A6 (kS k C x)
    end.
  Definition sp_need (k : SpaceKind) (F : T2) (sv : SV) (ok : addr -> aval -> Prop) : Prop :=
    (forall a, ok (ASpace n a) (sval k (right_CG F) (sg_of k (right_CG F) sv) a)) /\ need (seen k (right_CG F)) sv ok.
  Definition sp_view (k : SpaceKind) (F : T2) (x : Vec6) (sg : heap) : Prop :=
    match k with
    | KDeformation => sg (ASpace n aC) = Some (sval k (right_CG F) x aC) /\ sg (ASpace n aS) = Some (sval k (right_CG F) x aS)
    | _ => forall a, sg (ASpace n a) = Some (sval k (right_CG F) x a)
    end.

  Lemma sp_g_tame k F sv : forall B (c : StressOut * SV -> prog B) (ok : addr -> aval -> Prop) sg (r : Result B),
    sp_need k F sv ok ->
    match gr (seen k (right_CG F)) sv with
    | Ok (x, svn) => forall sg', sp_view k F x sg' -> tm ok sg' (c (piola_stress o F (kS k (right_CG F) x) (kdetF k (right_CG F)), svn)) r
    | Raise e => r = Raise e
    end -> tm ok sg (pbind (sp_gradient_p o n g k F sv) c) r.
  Proof.
    intros B c ok sg r [Hok Hn] H.
    assert (HgF := Hg (seen k (right_CG F)) sv). unfold sg_of in Hok.
    destruct k; cbn [sp_gradient_p]; unfold def_gradient_p, dis_gradient_p, dil_gradient_p; cbn [seen] in *;
      go ltac:(fun _ => match goal with |- ok (ASpace n ?a) _ => exact (Hok a) end);
      (apply (HgF _ _ _ _ _ Hn); revert H Hok;
       match goal with |- context [outcome (fw_gradient fw ?x sv) ms0] => destruct (outcome (fw_gradient fw x sv) ms0) as [[G svn]|e] end;
       [|exact (fun H _ => H)]; intros H Hok sg' Ho).
    - assert (Y1 : sg' (ASpace n aC) = Some (A6 (right_CG F))) by (rewrite Ho by discriminate; look).
      go ltac:(fun _ => match goal with |- ok (ASpace n ?a) _ => exact (Hok a) end).
      apply H. split; look.
    - assert (Y1 : sg' (ASpace n aC) = Some (A6 (right_CG F))) by (rewrite Ho by discriminate; look).
      assert (Y2 : sg' (ASpace n aI3) = Some (AR (det (right_CG F)))) by (rewrite Ho by discriminate; look).
      assert (Y3 : sg' (ASpace n aCx) = Some (A6 (seen KDistortional (right_CG F)))) by (rewrite Ho by discriminate; look).
      go ltac:(fun _ => match goal with |- ok (ASpace n ?a) _ => exact (Hok a) end).
      apply H. intros []; look.
    - assert (Y1 : sg' (ASpace n aC) = Some (A6 (right_CG F))) by (rewrite Ho by discriminate; look).
      assert (Y2 : sg' (ASpace n aI3) = Some (AR (det (right_CG F)))) by (rewrite Ho by discriminate; look).
      assert (Y3 : sg' (ASpace n aCx) = Some (A6 (seen KDilatational (right_CG F)))) by (rewrite Ho by discriminate; look).
      go ltac:(fun _ => match goal with |- ok (ASpace n ?a) _ => exact (Hok a) end).
      apply H. intros []; look.
  Qed.
  Lemma gr_any C sv ms : outcome (fw_gradient fw C sv) ms = gr C sv.
  Proof. apply Hfw. Qed.
  Lemma hr_any C sv ms : outcome (fw_hessian fw C sv) ms = hr C sv.
  Proof. apply Hfw. Qed.
  Lemma sp_g_tm k F sv s : forall B (c : StressOut * SV -> prog B) (ok : addr -> aval -> Prop) sg (r : Result B),
    sp_need k F sv ok ->
    match outcome (sp_gradient k fw o F sv) s with
    | Ok y => forall sg', tm ok sg' (c y) r
    | Raise e => r = Raise e
    end -> tm ok sg (pbind (sp_gradient_p o n g k F sv) c) r.
  Proof.
    intros B c ok sg r Hn H. apply sp_g_tame; [exact Hn|].
    destruct (gr (seen k (right_CG F)) sv) as [[x svn]|e] eqn:E.
    - rewrite (sp_gradient_ok fw o k F sv s x svn) in H by (rewrite gr_any; exact E). auto.
    - rewrite (sp_gradient_raise fw o k F sv s e) in H by (rewrite gr_any; exact E). exact H.
  Qed.
  Lemma sp_h_tm k F sv s : forall B (c : ElastOut -> prog B) (ok : addr -> aval -> Prop) sg (r : Result B),
    sp_need k F sv ok ->
    match outcome (sp_hessian k fw o F sv) s with
    | Ok y => forall sg', tm ok sg' (c y) r
    | Raise e => r = Raise e
    end -> tm ok sg (pbind (sp_hessian_p o n g h k F sv) c) r.
  Proof.
    intros B c ok sg r Hn H.
    destruct (gr (seen k (right_CG F)) sv) as [[x svn]|e] eqn:E.
    2:{ rewrite (sp_hessian_graise fw o k F sv s e) in H by (rewrite gr_any; exact E).
        destruct k; cbn [sp_hessian_p]; unfold def_hessian_p, dis_hessian_p, dil_hessian_p; rewrite pbind_assoc.
        1: apply (sp_g_tame KDeformation); [exact Hn|rewrite E; exact H].
        1: apply (sp_g_tame KDistortional); [exact Hn|rewrite E; exact H].
        1: apply (sp_g_tame KDilatational); [exact Hn|rewrite E; exact H]. }
    destruct (fw_gradient fw (seen k (right_CG F)) sv (sp_mat s)) as [ms rr] eqn:E1.
    assert (rr = Ok (x, svn)) by (rewrite <- E, <- (gr_any _ _ (sp_mat s)); unfold outcome; rewrite E1; reflexivity). subst rr.
    rewrite (sp_hessian_ok fw o k F sv s x svn ms E1) in H. rewrite hr_any in H. clear E1.
    assert (Hn2 := proj2 Hn). assert (HhF := Hh (seen k (right_CG F)) sv).
    destruct k; cbn [sp_hessian_p]; unfold def_hessian_p, dis_hessian_p, dil_hessian_p; rewrite pbind_assoc.
    - apply (sp_g_tame KDeformation); [exact Hn|rewrite E]. intros sg' [V1 V2].
      cbn [sval] in V1, V2. go ltac:(fun _ => fail). apply (HhF _ _ _ _ _ Hn2). revert H.
      destruct (outcome (fw_hessian fw (seen KDeformation (right_CG F)) sv) ms0) as [Hm|e]; [|exact (fun H => H)].
      intros H sg2 Ho.
      assert (Y2 : sg2 (ASpace n aS) = Some (A6 (kS KDeformation (right_CG F) x))) by (rewrite Ho by discriminate; exact V2).
      go ltac:(fun _ => fail). apply H.
    - apply (sp_g_tame KDistortional); [exact Hn|rewrite E]. intros sg' V.
      assert (VC := V aC). assert (VI := V aI3). assert (VX := V aCx). assert (VB := V aSb). assert (Vc := V aSc). assert (Vi := V aInvC). assert (VS := V aS).
      cbn [sval] in VC, VI, VX, VB, Vc, Vi, VS.
      go ltac:(fun _ => fail). apply (HhF _ _ _ _ _ Hn2). revert H.
      destruct (outcome (fw_hessian fw (seen KDistortional (right_CG F)) sv) ms0) as [Hm|e]; [|exact (fun H => H)].
      intros H sg2 Ho.
      rewrite <- Ho in VC by discriminate. rewrite <- Ho in VI by discriminate. rewrite <- Ho in VB by discriminate.
      rewrite <- Ho in Vc by discriminate. rewrite <- Ho in Vi by discriminate. rewrite <- Ho in VS by discriminate.
      go ltac:(fun _ => fail). rewrite <- cdya1_cdya. apply H.
    - apply (sp_g_tame KDilatational); [exact Hn|rewrite E]. intros sg' V.
      assert (VC := V aC). assert (VI := V aI3). assert (VX := V aCx). assert (VB := V aSb). assert (Vc := V aSc). assert (Vi := V aInvC). assert (VS := V aS).
      cbn [sval] in VC, VI, VX, VB, Vc, Vi, VS.
      go ltac:(fun _ => fail). apply (HhF _ _ _ _ _ Hn2). revert H.
      destruct (outcome (fw_hessian fw (seen KDilatational (right_CG F)) sv) ms0) as [Hm|e]; [|exact (fun H => H)].
      intros H sg2 Ho.
      rewrite <- Ho in VC by discriminate. rewrite <- Ho in VI by discriminate. rewrite <- Ho in VB by discriminate.
      rewrite <- Ho in Vc by discriminate. rewrite <- Ho in Vi by discriminate. rewrite <- Ho in VS by discriminate.
      go ltac:(fun _ => fail). rewrite <- cdya1_cdya. apply H.
  Qed.
End Sp.

(** ** Frameworks and whole calls *)
Section World.
  Context {SV : Type} (w : world (SV := SV)).
  Definition gen_s0 : GenSelf := gen_self0.
  Definition fw_need (f : nat) (ob : fwobj) (C : Vec6) (sv : SV) (ok : addr -> aval -> Prop) : Prop :=
    match ob with
    | OInv m => forall a, ok (AFw f a) (ival m C sv a)
    | OStr la g h => str_need f la (plain_model g h) tt (fun _ _ _ => True) C sv ok
    | OGen la m fs c => str_need f la (gen_model m fs c) gen_self0 (gen_need f m fs c) C sv ok
    end.
  Lemma fw_stateless (ob : fwobj (SV := SV)) : stateless_fw (fw_of ob).
  Proof.
    destruct ob; [apply invariants_stateless| |]; apply stretches_stateless; [|apply gen_stateless].
    intros l sv [] []. split; reflexivity.
  Qed.
  Lemma plain_stateless g h : stateless_sm (plain_model (SV := SV) g h).
  Proof. intros l sv [] []. split; reflexivity. Qed.
  Lemma fw_g_does f ob C sv : does (off f) (fw_need f ob C sv) (fw_gradient_p f ob C sv)
    (outcome (fw_gradient (fw_of ob) C sv) (fresh ob)).
  Proof.
    destruct ob as [m|la g h|la m fs c]; cbn [fw_need fw_gradient_p fw_of fresh].
    - intros B k ok sg r Hn H. apply (inv_g_tame f m C sv inv_self0); [exact Hn|].
      change (outcome (fw_gradient (invariants_fw m) C sv) inv_self0) with (outcome (inv_gradient m C sv) inv_self0) in H.
      destruct (outcome (inv_gradient m C sv) inv_self0); [intros sg' Ho _; apply H, Ho|exact H].
    - apply (str_g_does f la (plain_model g h) (plain_stateless g h) tt).
      intros l sv'. exact (does_call f (fun _ => True) (g l sv')).
    - apply (str_g_does f la (gen_model m fs c) (gen_stateless m fs c) gen_self0 (gen_gradient_p f m fs c)).
      intros l sv'. apply gen_g_does.
  Qed.
  Lemma fw_h_does f ob C sv : does (off f) (fw_need f ob C sv) (fw_hessian_p f ob C sv)
    (outcome (fw_hessian (fw_of ob) C sv) (fresh ob)).
  Proof.
    destruct ob as [m|la g h|la m fs c]; cbn [fw_need fw_hessian_p fw_of fresh].
    - intros B k ok sg r Hn H. apply (inv_h_tame f m C sv inv_self0); [exact Hn|exact H].
    - apply (str_h_does f la (plain_model g h) (plain_stateless g h) tt).
      + intros l sv'. exact (does_call f (fun _ => True) (g l sv')).
      + intros l sv'. exact (does_call f (fun _ => True) (h l sv')).
    - apply (str_h_does f la (gen_model m fs c) (gen_stateless m fs c) gen_self0 (gen_gradient_p f m fs c)).
      + intros l sv'. apply gen_g_does.
      + intros l sv'. apply gen_h_does.
  Qed.
  Definition req_need (q : request) : (addr -> aval -> Prop) -> Prop :=
    let '(k, o, f) := spaces w (on q) in
    sp_need (on q) (fw_of (fws w f)) (fresh (fws w f)) (fw_need f (fws w f)) k (arg q) (state q).
  Lemma program_tame q ok : req_need q ok -> tm ok nothing (program w q) (expected w q).
  Proof.
    unfold req_need, program, expected. destruct (spaces w (on q)) as [[k o] f]. cbv zeta. intro Hn.
    destruct (hess q).
    - apply (sp_h_tm o (on q) f (fw_of (fws w f)) (fw_stateless _) (fresh (fws w f)) _ _ (fw_need f (fws w f))
               (fw_g_does f (fws w f)) (fw_h_does f (fws w f)) k (arg q) (state q) (space_self0 _ (fresh (fws w f)))); [exact Hn|].
      destruct (outcome _ _) as [y|e]; cbn; [intro; apply tm_ret; reflexivity|reflexivity].
    - apply (sp_g_tm o (on q) f (fw_of (fws w f)) (fw_stateless _) (fresh (fws w f)) _ (fw_need f (fws w f))
               (fw_g_does f (fws w f)) k (arg q) (state q) (space_self0 _ (fresh (fws w f)))); [exact Hn|].
      destruct (outcome _ _) as [y|e]; cbn; [intro; apply tm_ret; reflexivity|reflexivity].
  Qed.
  Lemma program_alone q h : snd (exec (program w q) h) = expected w q.
  Proof.
    destruct (program_tame q (fun _ _ => True)) as [n T].
    - unfold req_need, sp_need. destruct (spaces w (on q)) as [[k o] f]. split; [intros; exact Logic.I|].
      unfold fw_need. destruct (fws w f); unfold str_need, gen_need; repeat split; intros; exact Logic.I.
    - apply (exec_tame _ _ _ _ _ _ T). discriminate.
  Qed.
End World.
