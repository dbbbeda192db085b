(** Lemmas about the Invariants framework (C14 - C17, C22, C23). *)
From Coq Require Import Reals Lra List Bool FunctionalExtensionality.
From Coquelicot Require Import Coquelicot.
From Verif Require Import Tensor Py Voigt VoigtProofs Algebra Calc Models Frameworks Spaces Spec VCalc ModelProofs GenProofs.
Local Open Scope R_scope.

Section I.
  Context {SV : Type} (m : InvModel SV).

  (** What gradient leaves in the attributes. *)
  Definition inv_after (C : Vec6) (g : opt3) (s : InvSelf) : InvSelf :=
    {| i_I := Some eye; i_I1 := Some (Jv C X0); i_I2 := Some (Jv C X1); i_I3 := Some (Jv C X2);
       i_dW := Some g;
       i_dI1dC := match o3 g X0 with Some _ => Some (dJv C X0) | None => i_dI1dC s end;
       i_dI2dC := match o3 g X1 with Some _ => Some (dJv C X1) | None => i_dI2dC s end;
       i_invC := match o3 g X2 with Some _ => Some (inv C (Some (det C))) | None => i_invC s end;
       i_dI3dC := match o3 g X2 with Some _ => Some (dJv C X2) | None => i_dI3dC s end |}.
  Definition gradv (C : Vec6) (g : opt3) : Vec6 := fun v => sum3 (fun k => val (o3 g k) * dJv C k v).

  Lemma inv_gradient_ok C sv g svn s : inv_call m (Jv C) sv = Ok (g, svn) ->
    inv_gradient m C sv s = (inv_after C g s, Ok (gradv C g, svn)).
  Proof.
    intro H. unfold inv_call in H. cbn [Jv] in H. unfold inv_gradient, modify, bind, lift, get, put, ret.
    cbv zeta. rewrite H. destruct g as [[[g1|] [g2|]] [g3|]]; cbn [if_some];
    unfold if_some, bind, modify, get, put, ret; f_equal; f_equal; f_equal; apply Vec6_ext; intro v;
    unfold gradv, sum3, vadd, vscal, vzero; cbn [o3 fst snd val dJv]; unfold vsub, vscal; ring.
  Qed.
  Lemma inv_gradient_raise C sv e s : inv_call m (Jv C) sv = Raise e ->
    exists s', inv_gradient m C sv s = (s', Raise e).
  Proof.
    intro H. unfold inv_call in H. cbn [Jv] in H. unfold inv_gradient, modify, bind, lift, get, put, ret.
    cbv zeta. rewrite H. eauto.
  Qed.
  Lemma inv_gradient_inv C sv s G svn : returns (inv_gradient m C sv) s (G, svn) ->
    exists g, inv_call m (Jv C) sv = Ok (g, svn) /\ G = gradv C g.
  Proof.
    intros [s' H]. destruct (inv_call m (Jv C) sv) as [[g svn']|e] eqn:E.
    - rewrite (inv_gradient_ok _ _ _ _ s E) in H. injection H as _ <- <-. eauto.
    - destruct (inv_gradient_raise _ _ _ s E) as [s'' E']. rewrite E' in H. discriminate.
  Qed.

  (** Second derivative of the k-th invariant. *)
  Definition d2Jv (C : Vec6) (k : ix3) : Mat6 :=
    match k with
    | X0 => mzero
    | X1 => msub6 (dya eye eye) (cdya1 eye)
    | X2 => mscal6 (det C) (msub6 (dya (inv C (Some (det C))) (inv C (Some (det C)))) (cdya1 (inv C (Some (det C)))))
    end.
  (** The hessian the documentation promises. *)
  Definition hessv (C : Vec6) (g : opt3) (h : ix6 -> option R) : Mat6 := fun v w =>
    sum3 (fun k => val (o3 g k) * d2Jv C k v w) +
    sum3 (fun k => sum3 (fun l => val (h (pos k l)) * dya (dJv C k) (dJv C l) v w)).
  (** The hessian the code computes if the model returns d2WdI3dI3 (and does not raise). *)
  Definition hessv_bug (C : Vec6) (g : opt3) (h : ix6 -> option R) : Mat6 := fun v w =>
    hessv C g h v w - val (h V2) * dya (dJv C X2) (dJv C X2) v w
    + val (h V1) * dya (dJv C X1) (dJv C X1) v w.
  (** Does the code's hessian raise? *)
  Definition isN {A} (o : option A) : bool := match o with None => true | _ => false end.
  Definition implb' (a b : bool) : bool := if a then b else true.
  Definition hess_exn (g : opt3) (h : ix6 -> option R) : option exn :=
    let s k := negb (isN (o3 g k)) in
    let need (v : ix6) (b : bool) (rest : option exn) :=
      if isN (h v) then rest else if b then rest else Some UnboundLocalError in
    need V0 (s X0) (need V1 (s X1) (need V2 (s X1)
      (if (negb (isN (h V2)) && isN (h V1))%bool then Some TypeError else
       need V3 (s X0 && s X1)%bool (need V4 (s X1 && s X2)%bool (need V5 (s X0 && s X2)%bool None))))).

  Lemma inv_hessian_eq C sv g svn h s : inv_call m (Jv C) sv = Ok (g, svn) -> inv_callh m (Jv C) svn = Ok h ->
    inv_hessian m C sv s = (inv_after C g s, match hess_exn g h with Some e => Raise e | None =>
        Ok (if isN (h V2) then hessv C g h else hessv_bug C g h) end).
  Proof.
    intros Hg Hh. unfold inv_hessian. unfold bind at 1. rewrite (inv_gradient_ok _ _ _ _ s Hg).
    unfold bind, lift, get, attr, ret at 1 2 3. cbn [inv_after i_I1 i_I2 i_I3 i_I i_dW]. unfold ret.
    unfold inv_callh in Hh. rewrite Hh.
    destruct g as [[g1 g2] g3]. cbn [o3 fst snd].
    assert (EX : forall a b : Mat6, (forall v w, a v w = b v w) ->
      (inv_after C (g1, g2, g3) s, Ok a) = (inv_after C (g1, g2, g3) s, Ok b))
      by (intros a b Hab; rewrite (Mat6_ext a b Hab); reflexivity).
    unfold hess_exn. cbn [o3 fst snd].
    destruct g1 as [g1|], g2 as [g2|], g3 as [g3|], (h V0) as [h0|] eqn:E0, (h V1) as [h1|] eqn:E1, (h V2) as [h2|] eqn:E2,
      (h V3) as [h3|] eqn:E3, (h V4) as [h4|] eqn:E4, (h V5) as [h5|] eqn:E5;
    cbn [if_some local attr ret raise bind times isN negb andb i_dI1dC i_dI2dC i_dI3dC i_invC inv_after o3 fst snd];
    try reflexivity; cbv [if_some local attr ret raise bind times];
    cbn [i_dI1dC i_dI2dC i_dI3dC i_invC inv_after o3 fst snd]; try reflexivity;
    apply EX; intros v w; unfold hessv_bug, hessv, sum3; cbn [pos]; rewrite ?E0, ?E1, ?E2, ?E3, ?E4, ?E5;
    cbn [val o3 fst snd dJv d2Jv]; unfold madd6, mscal6, mzero, dya; cbn [Jv]; ring.
  Qed.
  Lemma inv_hessian_graise C sv e s : inv_call m (Jv C) sv = Raise e ->
    exists s', inv_hessian m C sv s = (s', Raise e).
  Proof.
    intro H. destruct (inv_gradient_raise _ _ _ s H) as [s' E]. exists s'.
    unfold inv_hessian. unfold bind at 1. rewrite E. reflexivity.
  Qed.
  Lemma inv_hessian_hraise C sv g svn e s : inv_call m (Jv C) sv = Ok (g, svn) -> inv_callh m (Jv C) svn = Raise e ->
    inv_hessian m C sv s = (inv_after C g s, Raise e).
  Proof.
    intros Hg Hh. unfold inv_hessian. unfold bind at 1. rewrite (inv_gradient_ok _ _ _ _ s Hg).
    unfold bind, lift, get, attr, ret at 1 2 3. cbn [inv_after i_I1 i_I2 i_I3 i_I i_dW]. unfold ret.
    unfold inv_callh in Hh. rewrite Hh. reflexivity.
  Qed.

End I.
