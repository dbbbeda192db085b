(** * The library's models on arrays satisfy the contracts (proofs). *)
From Coq Require Import Reals List Arith Lia Lra Bool.
From Verif Require Import Tensor Py Voigt Algebra VCalc Models Frameworks Spaces Spec GenProofs InvCore.
From Verif Require Import NDCore NDRel NDOps NDHeap NDVoigt NDMath NDMath2 NDMath3 NDSpaces
  NDSpaceProofs NDSpaceMain NDFrameworks NDInvProofs.
Import ListNotations.
Local Open Scope R_scope.

(** [a op= e] for an array that is not a view. *)
Lemma inplace_W op n h a e I t u T f g : ixt_ok I -> (n <= loc a)%nat -> (forall k, vw a k = k) ->
  hrel h a I t T f -> RR I u T e g -> sub u t ->
  W n h (inplace op a e) (fun _ h' => wrote (loc a) h h' /\ hrel h' a I t T (fun k i => op (f k i) (g k i))).
Proof.
  intros HI Hn Hid Ha [y [-> Hy]] Hu. unfold inplace. apply (W_lift_bind _ _ _ y _ _ eq_refl).
  apply W_load_bind. destruct (vbin_same op I t u T _ y _ g HI (proj2 Ha) Hy) as [z [Ez Hz]].
  rewrite (bsh_sub_r u t Hu) in Hz.
  apply (W_lift_bind _ _ _ z _ _ Ez).
  apply (W_assign n h a z I t t T f _ HI Hn Hid Ha Hz (sub_refl t)).
Qed.
(** ** ThirdOrderDeformation *)
Section Tod.
  Context (T : shape).
  Definition own (n : nat) (x : option pyval) (s : option shape) : Prop :=
    match x with
    | Some (PArr a) => (n <= loc a)%nat /\ (forall k, vw a k = k) /\ s = Some T
    | _ => True end.
  Definition disj (x y : option pyval) : Prop :=
    match x, y with Some (PArr a), Some (PArr b) => loc a <> loc b | _, _ => True end.
  Definition keeps (x : option pyval) (h h' : heap) (r : option pyval) : Prop :=
    forall y s p, oval h y s T p -> disj x y -> oval h' y s T p /\ disj r y.
  Lemma keeps_refl x h : keeps x h h x.
  Proof. intros y s p H1 H2. auto. Qed.
  Lemma opt_iadd_num_W n h c x s p : (n <= hnext h)%nat -> oval h x s T p ->
    match x with Some (PArr _) => False | _ => True end -> (nonzero c = true -> s <> None) ->
    W n h (py_opt_iadd_num c x) (fun r h' => h' = h /\ oval h r s T
        (fun k => if nonzero c then option_map (fun y => y + c) (p k) else p k) /\
        match r with Some (PArr _) => False | _ => True end).
  Proof.
    intros Hn Hx Hk Hc. unfold py_opt_iadd_num. destruct (nonzero c).
    - destruct x as [[q|a]|], s as [s|]; try (exfalso; (exact Hx || exact Hk || now apply Hc)).
      apply W_ret_bind. apply W_ret. split; [reflexivity|]. split; [|exact I].
      destruct Hx as [f [[-> Hq] Hf]]. exists (fun k => f k + c). split.
      + split; [reflexivity|]. intros k Hk'. now rewrite (Hq k Hk').
      + intros k Hk'. now rewrite (Hf k Hk').
    - apply W_ret. auto.
  Qed.
  Lemma opt_iadd_W n h c x e s p g : (n <= hnext h)%nat -> oval h x s T p -> own n x s ->
    RR iS T T e (fun k _ => g k) -> (nonzero c = true -> s <> None) ->
    W n h (py_opt_iadd c x e) (fun r h' => (hnext h <= hnext h')%nat /\
        oval h' r (if nonzero c then Some T else s) T
          (fun k => if nonzero c then option_map (fun y => y + g k) (p k) else p k) /\
        own n r (if nonzero c then Some T else s) /\ keeps x h h' r).
  Proof.
    intros Hn Hx Ho [y [-> Hy]] Hc. unfold py_opt_iadd. destruct (nonzero c).
    2:{ apply W_ret. auto using keeps_refl. }
    destruct x as [[q|a]|], s as [s|]; try (exfalso; (exact Hx || now apply Hc)); unfold iadd_arr.
    - destruct Hx as [f [[-> Hq] Hf]].
      eapply (W_bind _ _ _ _ (fun v h' => exists a, v = PArr a /\ fresh h h' a /\ (forall k, vw a k = k) /\
          hrel h' a iS T T (fun k _ => f k + g k) /\ ext (hnext h) h h')).
      { apply (W_lift_bind _ _ _ y _ _ eq_refl).
        eapply W_call.
        { apply (W_new n h _ iS T T (fun k _ => f k + g k)); [exact Hn|].
          eapply RR_conv.
          - apply (vbin_same Rplus iS [] T T _ _ _ _ iS_ok (rel_num q T) Hy).
          - now rewrite bsh_nil_l.
          - intros k Hk []. cbv beta. now rewrite (Hq k Hk). }
        intros a h1 F1 V1' Ha Y1. apply W_ret. exists a. auto. }
      cbv beta. intros v h1 _ [a [-> [F1 [V1' [Ha Y1]]]]].
      apply W_ret. split; [hlia|]. split; [|split].
      + exists (fun k => f k + g k). split; [exact Ha|]. intros k Hk. now rewrite (Hf k Hk).
      + split; [|split; auto]. hlia.
      + intros z s p' Hz _. split; [eapply oval_ext; eauto|]. destruct z as [[|b]|], s; cbn; auto; try (exfalso; exact Hz).
        destruct Hz as [f' [[Hz _] _]]. hlia.
    - destruct Hx as [f [Hx Hf]]. destruct Ho as [O1 [O2 O3]]. injection O3 as ->. cbn in Hx.
      eapply (W_bind _ _ _ _ (fun v h' => v = PArr a /\ wrote (loc a) h h' /\
          hrel h' a iS T T (fun k _ => f k + g k))).
      { apply (W_lift_bind _ _ _ y _ _ eq_refl). apply W_load_bind.
        destruct (vbin_same Rplus iS T T T _ y _ _ iS_ok (proj2 Hx) Hy) as [z [Ez Hz]].
        rewrite bsh_refl in Hz. apply (W_lift_bind _ _ _ z _ _ Ez).
        eapply W_bind; [apply (W_assign n h a z iS T T T _ _ iS_ok O1 O2 Hx Hz (sub_refl T))|].
        cbv beta. intros _ h1 _ [W1 H1]. apply W_ret. exact (conj (eq_refl (PArr a)) (conj W1 H1)). }
      cbv beta. intros v h1 _ [-> [W1 H1]]. apply W_ret. split; [hlia|]. split; [|split].
      + exists (fun k => f k + g k). split; [exact H1|]. intros k Hk. now rewrite (Hf k Hk).
      + split; auto.
      + intros z s p' Hz Hd. split; [|exact Hd]. destruct z as [[|b]|], s; cbn in Hz |- *; auto.
        destruct Hz as [f' [Hz Hf']]. exists f'. split; auto. eapply hrel_wrote; eauto.
  Qed.

  Context {ST SV : Type} (m : TOD) (sv_at : ST -> index -> SV).
  Definition tod_s1 : option shape :=
    if (nonzero (C10 m) || nonzero (C11 m) || nonzero (C20 m) || nonzero (C30 m))%bool then
      Some (if (nonzero (C11 m) || nonzero (C20 m) || nonzero (C30 m))%bool then T else [])
    else None.
  Definition tod_s2 : option shape :=
    if (nonzero (C01 m) || nonzero (C11 m))%bool then Some (if nonzero (C11 m) then T else []) else None.
  Definition tod_hs (v : ix6) : option shape :=
    match v with
    | V0 => if (nonzero (C20 m) || nonzero (C30 m))%bool then Some T else None
    | V3 => if nonzero (C11 m) then Some [] else None
    | _ => None end.
  Lemma tod_pat : pat_ok tod_s1 tod_s2 None tod_hs.
  Proof.
    unfold pat_ok, tod_s1, tod_s2, tod_hs.
    destruct (nonzero (C10 m)), (nonzero (C01 m)), (nonzero (C11 m)), (nonzero (C20 m)), (nonzero (C30 m));
      cbn [orb]; repeat split; intros; congruence.
  Qed.
  Lemma lin_RR (c d : R) i f : rel iS T T i (fun k _ => f k) ->
    RR iS T T (rnum c *! (Ok i -! rnum d))%nd (fun k _ => c * (f k - d)).
  Proof.
    intros H. eapply RR_conv.
    - eapply (RR_same Rmult iS); [exact iS_ok|apply RR_num|].
      eapply (RR_same Rminus iS); [exact iS_ok|apply RR_ok, H|apply RR_num].
    - bshn. reflexivity.
    - reflexivity.
  Qed.
  Lemma sq_RR (c d : R) i f : rel iS T T i (fun k _ => f k) ->
    RR iS T T (rnum c *! rmap (fun x => x ^ 2)%R (Ok i -! rnum d))%nd (fun k _ => c * (f k - d) ^ 2).
  Proof.
    intros H. eapply RR_conv.
    - eapply (RR_same Rmult iS); [exact iS_ok|apply RR_num|]. eapply RR_map.
      eapply (RR_same Rminus iS); [exact iS_ok|apply RR_ok, H|apply RR_num].
    - bshn. reflexivity.
    - reflexivity.
  Qed.
  Lemma own_num n x s : match x with Some (PArr _) => False | _ => True end -> own n x s.
  Proof. destruct x as [[|]|]; cbn; tauto. Qed.
  Lemma tod_ok : invm_ok (nd_tod m) sv_at (tod_model m) (fun _ _ _ => True) T tod_s1 tod_s2 None tod_hs.
  Proof.
    constructor.
    - intros h I1 I2 I3 f1 f2 f3 sv H1 H2 H3 _. cbn [nim_gradient nd_tod]. unfold nd_tod_gradient.
      do 2 apply W_load_bind.
      destruct H1 as [_ H1], H2 as [_ H2]. revert H1 H2. generalize (contents h I1) (contents h I2).
      intros i1 i2 H1 H2.
      pose (a := (nonzero (C10 m) || nonzero (C11 m) || nonzero (C20 m) || nonzero (C30 m))%bool).
      pose (b := (nonzero (C01 m) || nonzero (C11 m))%bool).
      assert (N1 : oval h (if a then Some (PNum 0) else None) (if a then Some [] else None) T
                     (fun _ => if a then Some 0 else None)).
      { destruct a; cbn; auto. exists (fun _ => 0). auto. }
      assert (N2 : oval h (if b then Some (PNum 0) else None) (if b then Some [] else None) T
                     (fun _ => if b then Some 0 else None)).
      { destruct b; cbn; auto. exists (fun _ => 0). auto. }
      change (nonzero (C10 m) || nonzero (C11 m) || nonzero (C20 m) || nonzero (C30 m))%bool with a.
      change (nonzero (C01 m) || nonzero (C11 m))%bool with b.
      assert (Na : forall c, (c = C10 m \/ c = C11 m \/ c = C20 m \/ c = C30 m) -> nonzero c = true -> a = true).
      { unfold a. intros c [ -> |[ -> |[ -> | -> ]]] ->; repeat rewrite Bool.orb_true_r; reflexivity. }
      assert (Nb : forall c, (c = C01 m \/ c = C11 m) -> nonzero c = true -> b = true).
      { unfold b. intros c [ -> | -> ] ->; repeat rewrite Bool.orb_true_r; reflexivity. }
      eapply W_bind; [apply (opt_iadd_num_W (hnext h) h (C10 m) _ _ _ (le_n _) N1)|].
      { destruct a; exact I. } { intros E. rewrite (Na _ (or_introl eq_refl) E). discriminate. }
      cbv beta. intros x1 h1 _ [-> [X1' K1]].
      eapply W_bind; [apply (opt_iadd_num_W (hnext h) h (C01 m) _ _ _ (le_n _) N2)|].
      { destruct b; exact I. } { intros E. rewrite (Nb _ (or_introl eq_refl) E). discriminate. }
      cbv beta. intros x2 h1 _ [-> [X2' K2]].
      assert (O1 : forall s, own (hnext h) x1 s) by (intros; now apply own_num).
      assert (O2 : forall s, own (hnext h) x2 s) by (intros; now apply own_num).
      assert (D12 : disj x1 x2) by (destruct x1 as [[|]|]; cbn; tauto).
      clear K1 K2 N1 N2.
      eapply W_bind; [apply (opt_iadd_W (hnext h) h (C11 m) x1 _ _ _ _ (le_n _) X1' (O1 _) (lin_RR (C11 m) (undeformed m) i2 f2 H2))|].
      { intros E. rewrite (Na _ (or_intror (or_introl eq_refl)) E). discriminate. }
      cbv beta. intros y1 h1 _ [Y1 [Z1 [P1 Q1]]].
      destruct (Q1 _ _ _ X2' D12) as [X2'' D12']. clear Q1.
      eapply W_bind; [apply (opt_iadd_W (hnext h) h1 (C11 m) x2 _ _ _ _ Y1 X2'' (O2 _) (lin_RR (C11 m) (undeformed m) i1 f1 H1))|].
      { intros E. rewrite (Nb _ (or_intror eq_refl) E). discriminate. }
      cbv beta. intros y2 h2 _ [Y2 [Z2 [P2 Q2]]].
      assert (D21 : disj x2 y1) by (destruct x2 as [[|]|], y1 as [[|]|]; cbn in *; auto).
      destruct (Q2 _ _ _ Z1 D21) as [Z1' D21']. clear Q2.
      assert (Dyy : disj y1 y2) by (destruct y1 as [[|]|], y2 as [[|]|]; cbn in *; auto).
      eapply W_bind; [eapply (opt_iadd_W (hnext h) h2 (C20 m) y1 _ _ _ _ ltac:(lia) Z1' P1 (lin_RR (C20 m * 2) (undeformed m) i1 f1 H1))|].
      { intros E. rewrite (Na _ (or_intror (or_intror (or_introl eq_refl))) E). destruct (nonzero (C11 m)); discriminate. }
      cbv beta. intros z1 h3 _ [Y3 [Z3 [P3 Q3]]].
      destruct (Q3 _ _ _ Z2 Dyy) as [Z2' Dzy]. clear Q3.
      eapply W_bind; [eapply (opt_iadd_W (hnext h) h3 (C30 m) z1 _ _ _ _ ltac:(lia) Z3 P3 (sq_RR (C30 m * 3) (undeformed m) i1 f1 H1))|].
      { intros E. rewrite (Na _ (or_intror (or_intror (or_intror eq_refl))) E).
        destruct (nonzero (C11 m)), (nonzero (C20 m)); discriminate. }
      cbv beta. intros w1 h4 _ [Y4 [Z4 [P4 Q4]]].
      destruct (Q4 _ _ _ Z2' Dzy) as [Z2'' _]. clear Q4.
      apply W_ret. eexists _, _, (fun _ => None). split; [|split; [|split]].
      2:{ revert Z4. unfold tod_s1. fold a.
          replace (if nonzero (C30 m) then Some T else _) with
            (if a then Some (if (nonzero (C11 m) || nonzero (C20 m) || nonzero (C30 m))%bool then T else []) else None).
          { intros Z; exact Z. }
          unfold a. destruct (nonzero (C10 m)), (nonzero (C11 m)), (nonzero (C20 m)), (nonzero (C30 m)); reflexivity. }
      2:{ revert Z2''. unfold tod_s2. fold b.
          replace (if nonzero (C11 m) then Some T else _) with
            (if b then Some (if nonzero (C11 m) then T else []) else None).
          { intros Z; exact Z. }
          unfold b. destruct (nonzero (C01 m)), (nonzero (C11 m)); reflexivity. }
      2:{ cbn. auto. }
      intros k Hk. cbv beta. cbn [im_gradient tod_model]. unfold tod_gradient. fold a b. unfold a, b.
      destruct (nonzero (C10 m)), (nonzero (C01 m)), (nonzero (C11 m)), (nonzero (C20 m)), (nonzero (C30 m)); reflexivity.
    - intros h I1 I2 I3 f1 f2 f3 sv H1 H2 H3 _. cbn [nim_hessian nd_tod]. unfold nd_tod_hessian.
      eapply (W_bind _ _ _ _ (fun o h' => oval h' o (tod_hs V0) T (fun k => tod_hessian m (f1 k) (f2 k) (f3 k) V0))).
      { unfold tod_hs, tod_hessian. destruct (nonzero (C20 m) || nonzero (C30 m))%bool.
        - apply W_load_bind.
          eapply W_call.
          { apply (W_new (hnext h) h _ iS T T (fun k _ => C20 m * 2 + C30 m * 6 * (f1 k - undeformed m)) (le_n _)).
            eapply RR_conv.
            - eapply (RR_same Rplus iS); [exact iS_ok|apply RR_num|]. apply lin_RR, H1.
            - now rewrite bsh_nil_l.
            - reflexivity. }
          intros a h1 F1 V1' Ha Y1. apply W_ret. cbn. eexists. split; [exact Ha|]. reflexivity.
        - apply W_ret. cbn. auto. }
      cbv beta. intros d h1 _ Hd. apply W_ret. exists (fun k => tod_hessian m (f1 k) (f2 k) (f3 k)).
      split; [reflexivity|]. intros [| | | | |]; cbn [oval tod_hs]; auto; try exact Hd.
      unfold tod_hessian. destruct (nonzero (C11 m)); cbn; auto. exists (fun _ => C11 m). auto.
  Qed.
End Tod.
