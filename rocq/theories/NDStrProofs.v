(** * The stretch framework on arrays (proofs). *)
From Coq Require Import Reals List Arith Lia Lra.
From Verif Require Import Tensor Py Voigt Algebra VCalc Models Frameworks Spaces Spec GenProofs InvCore StrCore.
From Verif Require Import NDCore NDRel NDOps NDHeap NDVoigt NDMath NDMath2 NDMath3 NDSpaces
  NDSpaceProofs NDSpaceMain NDFrameworks NDInvProofs NDModels NDEigh NDViews.
Import ListNotations.
Local Open Scope R_scope.

(** ** Contract of a stretch-based model: [pg], [ph] are what it does at one entry. *)
Record strm_ok {ST SV} (m : NDStretchModel ST) (sv_at : ST -> index -> SV)
  (pg : Vec3 -> SV -> Vec3 * SV) (ph : Vec3 -> SV -> ix6 -> option R) (D : Vec3 -> Prop) (T : shape) : Prop := {
  so_gradient : forall h l f sv, hrel h l i3 T T f -> (forall k, inb T k -> D (f k)) ->
    W (hnext h) h (nsm_gradient m l sv) (fun r h' =>
      hrel h' (fst r) i3 T T (fun k a => fst (pg (f k) (sv_at sv k)) a) /\
      forall k, inb T k -> sv_at (snd r) k = snd (pg (f k) (sv_at sv k)));
  so_hessian : forall h l f sv, hrel h l i3 T T f -> (forall k, inb T k -> D (f k)) ->
    W (hnext h) h (nsm_hessian m l sv) (fun r h' => match r with
      | inl a => hrel h' a i6 T T (fun k v => val (ph (f k) (sv_at sv k) v))
      | inr o => forall v, exists s, oval h' (o v) s T (fun k => ph (f k) (sv_at sv k) v)
      end)
}.

Lemma oval_wrote l h h' o s T p : oval h o s T p -> wrote l h h' ->
  (forall a, o = Some (PArr a) -> loc a <> l) -> oval h' o s T p.
Proof.
  intros H Hw Ho. destruct o as [[r|a]|], s as [t|]; cbn in *; auto.
  destruct H as [f [H1 H2]]. exists f. split; auto. eapply hrel_wrote; eauto.
Qed.

Section Fill.
  Context (T : shape).
  Lemma fill6_W n h l (o : ix6 -> option pyval) (p : index -> ix6 -> option R) fl : (n <= hnext h)%nat ->
    hrel h l i3 T T fl ->
    (forall v, exists s, oval h (o v) s T (fun k => p k v)) ->
    W n h (fill6 l o) (gives h i6 T T (fun k v => val (p k v))).
  Proof.
    intros Hn Hl Ho. pose proof Hl as [_ [S1 _]]. cbn [contents shp] in S1.
    unfold fill6. rewrite S1. cbn [idim i3 app skipn]. apply W_gives; [exact Hn|].
    eapply W_call.
    { apply (W_alloc (hnext h) h _ i6 T T (fun _ _ => 0) (le_n _)).
      apply rel_of_full; reflexivity. }
    intros d h1 F1 V1' Hd Y1.
    assert (Ho1 : forall v, exists s, oval h1 (o v) s T (fun k => p k v)).
    { intros v. destruct (Ho v) as [s Hs]. exists s. eapply oval_ext; eauto. }
    assert (Ld : forall v a, o v = Some (PArr a) -> loc a <> loc d).
    { intros v a E. destruct (Ho v) as [s Hs]. rewrite E in Hs. destruct s as [s|]; [|destruct Hs].
      destruct Hs as [f [[Hs _] _]]. hlia. }
    eapply W_bind.
    { apply (each_fold_W (hnext h) _ (fun (g : index -> ix6 -> R) h' =>
         (hnext h <= hnext h')%nat /\ (hnext h' = hnext h1) /\ hrel h' d i6 T T g /\
         ext (hnext h) h h' /\
         forall v, exists s, oval h' (o v) s T (fun k => p k v))
        (fun '(a, v) g k w => if ienc_is i6 [a] w then match p k v with Some x => x | None => g k w end else g k w)).
      - intros [a v] g h2 Hin [I1 [I2 [I3 [I4 I5]]]].
        assert (Ea : a = n6 v).
        { cbn in Hin. destruct Hin as [H|[H|[H|[H|[H|[H|[]]]]]]]; injection H as <- <-; reflexivity. }
        subst a. destruct (I5 v) as [s Hs]. destruct (o v) as [x|] eqn:Eo.
        + destruct s as [s|]; [|destruct Hs]. destruct Hs as [fx [Hx Ex]].
          pose proof (vrel_sub _ _ _ _ _ Hx) as Hsub.
          eapply loadv_W; [exact Hx|]. intros y Hy.
          destruct (broadcast_to_rel iS s T T y _ iS_ok Hy Hsub (sub_refl T) (or_introl eq_refl)) as [w [Ew Hw]].
          apply (W_lift_bind _ _ _ w _ _ Ew).
          eapply W_conseq; [apply (setrow_W (hnext h) h2 d i6 T T T g _ w [n6 v] i6_ok ltac:(hlia) V1' I3 eq_refl
             (conj (n6_lt v) Logic.I) Hw (sub_refl T))|apply le_n|].
          cbv beta. intros _ h3 X3 [W3 H3]. split; [hlia|]. split; [hlia|]. split; [|split].
          * eapply hrel_fun; [exact H3|]. intros k Hk i. cbv beta. rewrite (Ex k Hk). reflexivity.
          * eapply ext_trans; eauto.
          * intros v'. destruct (I5 v') as [s' Hs']. exists s'. eapply oval_wrote; eauto.
        + apply W_ret. destruct s as [s|]; [destruct Hs|]. cbn in Hs.
          split; [exact I1|]. split; [exact I2|]. split; [|split; [exact I4|exact I5]].
          eapply hrel_fun; [exact I3|]. intros k Hk i. cbv beta. rewrite (Hs k Hk). now destruct (ienc_is i6 [n6 v] i).
      - split; [hlia|]. split; [reflexivity|]. split; [exact Hd|]. split; [exact Y1|exact Ho1]. }
    cbv beta. intros _ h2 _ [I1 [I2 [I3 [I4 I5]]]]. apply W_ret.
    split; [split; hlia|]. split; [exact V1'|].
    eapply hrel_fun; [exact I3|]. intros k Hk v. cbn [fold_left].
    destruct v; cbn; unfold val; destruct (p k _); reflexivity.
  Qed.
End Fill.

Definition pure_model {SV} (pg : Vec3 -> SV -> Vec3 * SV) (ph : Vec3 -> SV -> ix6 -> option R) : StretchModel SV :=
  {| sm_self := unit; sm_gradient := fun l sv => ret (pg l sv); sm_hessian := fun l sv => ret (ph l sv) |}.
Section St.
  Context {ST SV : Type} (lapack : Lapack) (m : NDStretchModel ST) (sv_at : ST -> index -> SV)
    (pg : Vec3 -> SV -> Vec3 * SV) (ph : Vec3 -> SV -> ix6 -> option R) (D : Vec3 -> Prop) (T : shape).
  Hypothesis Hm : strm_ok m sv_at pg ph D T.

  Definition str_D (C : Vec6) : Prop := D (lam lapack C).
  Definition str_pg (C : Vec6) (sv : SV) : Vec6 * SV :=
    (strGv lapack C (fst (pg (lam lapack C) sv)), snd (pg (lam lapack C) sv)).
  Definition str_ph (C : Vec6) (sv : SV) : Mat6 :=
    let '(g, svn) := pg (lam lapack C) sv in strHv lapack C g (ph (lam lapack C) svn).

  Definition str_post (f : index -> ity i6 -> R) (sv : ST) (r : nd * ST * (nd * nd * nd)) (h' : heap) : Prop :=
    let '(G, svn, (l, Ms, K)) := r in
    let g := fun k => fst (pg (lam lapack (f k)) (sv_at sv k)) in
    (forall k, inb T k -> sv_at svn k = snd (pg (lam lapack (f k)) (sv_at sv k))) /\
    hrel h' l i3 T T (fun k a => lam lapack (f k) a) /\
    hrel h' Ms i36 T T (fun k '(a, v) => snd (eigh lapack (f k) sqrt) a v) /\
    hrel h' K i3 T T (fun k a => strK (lam lapack (f k)) (g k) a) /\
    hrel h' G i6 T T (fun k v => strGv lapack (f k) (g k) v).

  Lemma nd_str_c_W h C f sv : hrel h C i6 T T f -> (forall k, inb T k -> str_D (f k)) ->
    W (hnext h) h (nd_str_gradient_c lapack m C sv) (str_post f sv).
  Proof.
    intros HC HD. unfold nd_str_gradient_c.
    eapply W_bind; [apply (nd_eigh_W lapack sqrt (hnext h) h C T f (le_n _) HC)|].
    cbv beta. intros [l Ms] h1 _ [Y1 [L1 [L2 [L3 [V1' [V2' [Hl HMs]]]]]]].
    assert (Hl' : hrel h1 l i3 T T (fun k a => lam lapack (f k) a)).
    { eapply hrel_fun; [exact Hl|]. intros k Hk a. cbv beta. now rewrite eigh_lam. }
    clear Hl. carry Y1.
    eapply W_bind.
    { eapply W_conseq.
      - apply (so_gradient _ _ _ _ _ _ Hm h1 l _ sv Hl'). exact HD.
      - hlia.
      - intros r h2 X Y. exact (conj X Y). }
    cbv beta. intros [dW svn] h2 _ [Y2 [Hd Hsv]]. cbn [fst snd] in Hd, Hsv. carry Y2.
    do 2 apply W_load_bind.
    set (g := fun k => fst (pg (lam lapack (f k)) (sv_at sv k))).
    eapply W_call.
    { apply (W_new (hnext h) h2 _ i3 T T (fun k a => strK (lam lapack (f k)) (g k) a)); [hlia|].
      eapply RR_conv.
      - eapply (RR_same Rdiv i3); [exact i3_ok|apply RR_ok, Hd|].
        eapply (RR_scal_l Rmult i3); [exact i3_ok|apply RR_num|apply RR_ok, Hl'].
      - bshn. reflexivity.
      - reflexivity. }
    intros K h3 F3 V3' HK Y3. carry Y3. do 2 apply W_load_bind.
    eapply W_call.
    { apply (W_new (hnext h) h3 _ i6 T T (fun k v => strGv lapack (f k) (g k) v)); [hlia|].
      eapply RR_conv.
      - eapply RR_bind; [apply (col36 Rmult _ _ T _ _ _ _ (proj2 HK) (proj2 HMs))|].
        intros v Hv. apply (sum0_36 _ T v _ Hv).
      - bshn. reflexivity.
      - intros k Hk v. cbv beta. rewrite <- strGv_eq. apply sum3_eq. intros a. cbv beta.
        rewrite eigh_lam. reflexivity. }
    intros G h4 F4 V4' HG Y4. carry Y4. apply W_ret.
    split; [exact Hsv|]. split; [exact Hl'|]. split; [exact HMs|]. split; [exact HK|exact HG].
  Qed.

  Lemma nd_stretches_g : mat_g_ok (nd_stretches lapack m) sv_at str_pg str_D T T.
  Proof.
    intros h C f sv HC HD. cbn [ndm_gradient nd_stretches]. unfold nd_str_gradient.
    eapply W_bind; [apply (nd_str_c_W h C f sv HC HD)|].
    intros [[G svn] [[l Ms] K]] h1 _ [Hsv [_ [_ [_ HG]]]].
    apply W_ret. cbn [fst snd]. split; [exact HG|exact Hsv].
  Qed.

  (** *** hessian: one iteration of the loop *)
  Section Loop.
    Context (n : nat) (Ms d2C H fa : nd) (x dc : arr)
      (l : index -> Vec3) (Mk : index -> ix3 -> Vec6) (K : index -> Vec3) (d2 : index -> ix6 -> R).
    Hypothesis nH : (n <= loc H)%nat.
    Hypothesis nf : (n <= loc fa)%nat.
    Hypothesis VH : forall k, vw H k = k.
    Hypothesis Vf : forall k, vw fa k = k.
    Hypothesis DHf : loc H <> loc fa.
    Hypothesis DHM : loc H <> loc Ms.
    Hypothesis DHd : loc H <> loc d2C.
    Hypothesis DfM : loc fa <> loc Ms.
    Hypothesis Dfd : loc fa <> loc d2C.
    Hypothesis Hx : rel i3 T T x (fun k a => l k a).
    Hypothesis Hdc : rel i3 T T dc (fun k a => K k a).
    Definition loop_inv (a : index -> Mat6) (h : heap) : Prop :=
      (n <= hnext h)%nat /\
      hrel h H i66 T T (fun k '(v, w) => a k v w) /\
      (exists ff : index -> R, hrel h fa iS T T (fun k _ => ff k)) /\
      hrel h Ms i36 T T (fun k '(a, v) => Mk k a v) /\
      hrel h d2C i6 T T (fun k v => d2 k v).
    Definition loop_step (y : nat * (nat * nat)) (a : index -> Mat6) : index -> Mat6 :=
      fun k => str_iter (l k) (Mk k) (K k) (d2 k) (a k) (of6 (fst y)).
    Lemma loop_body v a h : loop_inv a h ->
      W n h (
        M4 <- nd_dya (subview Ms [n3 (sa v)]) (subview Ms [n3 (sb v)]) None ;;
        c <- load d2C ;; m4 <- load M4 ;;
        inplace Rplus H (row (n6 v) c *! Ok m4)%nd ;;
        if Nat.eqb (n3 (sb v)) (n3 (sa v)) then ret tt else
          vv <- lift (rmap (fun x => x ^ 2)%R (row (n3 (sa v)) x) -! rmap (fun x => x ^ 2)%R (row (n3 (sb v)) x))%nd ;;
          p <- lift (row (n3 (sb v)) c -! row (n6 v) c)%nd ;;
          q <- lift ((row (n3 (sa v)) dc -! row (n3 (sb v)) dc) /! Ok vv)%nd ;;
          w <- lift (masked vv p q) ;; assign fa w ;;
          T4 <- nd_transpose M4 ;; D <- nd_cdya false (subview Ms [n3 (sa v)]) (subview Ms [n3 (sb v)]) None ;;
          t4 <- load T4 ;; dd <- load D ;; ff <- load fa ;;
          inplace Rplus H (row (n6 v) c *! Ok t4 +! Ok ff *! rnum 2 *! Ok dd)%nd)%py
        (fun _ h' => loop_inv (loop_step (n6 v, (n3 (sa v), n3 (sb v))) a) h').
    Proof.
      intros [Hn [HH [[ff Hff] [HMs Hd2]]]].
      pose proof (sub36 h Ms (sa v) T T _ HMs) as HMa. pose proof (sub36 h Ms (sb v) T T _ HMs) as HMb.
      eapply W_call; [apply (nd_dya_W n h _ _ T T T _ _ Hn HMa HMb)|].
      rewrite bsh_refl. intros M4 h1 F1 V1' HM4 Y1.
      assert (L1 : (hnext h <= loc M4)%nat) by hlia.
      assert (LH : (loc H < hnext h)%nat) by hlia. assert (Lf : (loc fa < hnext h)%nat) by hlia.
      carry Y1. do 2 apply W_load_bind.
      assert (Hc : rel i6 T T (contents h1 d2C) (fun k v => d2 k v)) by apply Hd2.
      revert Hc. generalize (contents h1 d2C). intros c Hc.
      eapply W_bind.
      { apply (inplace_W Rplus n h1 H _ i66 T T T _ (fun k '(u, w) => d2 k v * dya (Mk k (sa v)) (Mk k (sb v)) u w)
          i66_ok nH VH HH); [|apply sub_refl].
        eapply RR_conv.
        - eapply (RR_scal_l Rmult i66); [exact i66_ok|apply (row6 v), Hc|apply RR_ok, HM4].
        - bshn. reflexivity.
        - intros k Hk [u w]. reflexivity. }
      cbv beta. intros _ h2 X2' [W2 HH2].
      assert (L2 : (hnext h1 <= hnext h2)%nat) by hlia. assert (L2' : (n <= hnext h2)%nat) by hlia.
      apply (fun Y => hrel_wrote _ _ _ _ _ _ _ _ Y W2) in Hff; [|congruence].
      apply (fun Y => hrel_wrote _ _ _ _ _ _ _ _ Y W2) in HMs; [|congruence].
      apply (fun Y => hrel_wrote _ _ _ _ _ _ _ _ Y W2) in Hd2; [|congruence].
      apply (fun Y => hrel_wrote _ _ _ _ _ _ _ _ Y W2) in HM4; [|lia].
      clear HMa HMb HH W2.
      destruct (Nat.eqb_spec (n3 (sb v)) (n3 (sa v))) as [E|E].
      { apply W_ret. split; [exact L2'|]. split; [|eauto].
        eapply hrel_fun; [exact HH2|]. intros k Hk [u w]. cbv beta. unfold loop_step. cbn [fst].
        rewrite of6_n6. unfold str_iter. replace (ix3_eqb (sb v) (sa v)) with true.
        - reflexivity.
        - destruct v; cbn in E |- *; try reflexivity; discriminate. }
      (* lambda_a^2 - lambda_b^2 *)
      destruct (RR_same Rminus iS T T T _ _ _ _ iS_ok
        (RR_map iS T T _ _ (fun x => x ^ 2) (row3 (sa v) T T x _ Hx))
        (RR_map iS T T _ _ (fun x => x ^ 2) (row3 (sb v) T T x _ Hx))) as [vv [Evv Hvv]].
      rewrite bsh_refl in Hvv. apply (W_lift_bind _ _ _ vv _ _ Evv).
      assert (E6 : row (n3 (sb v)) c = row (n6 (sdiag (sb v))) c) by (destruct v; reflexivity).
      rewrite E6.
      destruct (RR_same Rminus iS T T T _ _ _ _ iS_ok
        (row6 (sdiag (sb v)) T T c _ Hc) (row6 v T T c _ Hc)) as [p [Ep Hp]].
      rewrite bsh_refl in Hp. apply (W_lift_bind _ _ _ p _ _ Ep).
      destruct (RR_same Rdiv iS _ T T _ _ _ _ iS_ok (RR_same Rminus iS T T T _ _ _ _ iS_ok
        (row3 (sa v) T T dc _ Hdc) (row3 (sb v) T T dc _ Hdc)) (RR_ok _ _ _ _ _ Hvv)) as [q [Eq Hq]].
      rewrite !bsh_refl in Hq. apply (W_lift_bind _ _ _ q _ _ Eq).
      destruct (masked_RR T T vv p q T T _ _ _ Hvv Hp Hq (sub_refl T) (sub_refl T)) as [w [Ew Hw]].
      apply (W_lift_bind _ _ _ w _ _ Ew).
      eapply W_bind; [apply (W_assign n h2 fa w iS T T T _ _ iS_ok nf Vf Hff Hw (sub_refl T))|].
      cbv beta. intros _ h3 X3' [W3 Hff3].
      assert (L3 : hnext h3 = hnext h2) by (destruct W3; assumption).
      apply (fun Y => hrel_wrote _ _ _ _ _ _ _ _ Y W3) in HMs; [|congruence].
      apply (fun Y => hrel_wrote _ _ _ _ _ _ _ _ Y W3) in Hd2; [|congruence].
      apply (fun Y => hrel_wrote _ _ _ _ _ _ _ _ Y W3) in HM4; [|lia].
      apply (fun Y => hrel_wrote _ _ _ _ _ _ _ _ Y W3) in HH2; [|congruence].
      clear W3 Hff.
      eapply W_bind; [apply (nd_transpose_W n h3 M4 T T _ HM4)|].
      cbv beta. intros T4 h3' _ [-> [LT HT4]].
      pose proof (sub36 h3 Ms (sa v) T T _ HMs) as HMa. pose proof (sub36 h3 Ms (sb v) T T _ HMs) as HMb.
      eapply W_call; [apply (nd_cdya_W n h3 false _ _ T T T _ _ ltac:(lia) HMa HMb)|].
      rewrite bsh_refl. intros D4 h4 F4 V4' HD4 Y4. 
      assert (L4 : (hnext h3 <= hnext h4)%nat) by (destruct Y4; assumption).
      carry Y4. do 3 apply W_load_bind.
      eapply W_conseq.
      { apply (inplace_W Rplus n h4 H _ i66 T T T _
          (fun k '(u, w) => d2 k v * transpose (dya (Mk k (sa v)) (Mk k (sb v))) u w
             + str_f (l k) (K k) (d2 k) v * 2 * cdya (Mk k (sa v)) (Mk k (sb v)) u w)
          i66_ok nH VH HH2); [|apply sub_refl].
        eapply RR_conv.
        - eapply (RR_same Rplus i66); [exact i66_ok| |].
          + eapply (RR_scal_l Rmult i66); [exact i66_ok|apply (row6 v), Hc|apply RR_ok, HT4].
          + eapply (RR_scal_l Rmult i66); [exact i66_ok| |apply RR_ok, HD4].
            eapply (RR_same Rmult iS); [exact iS_ok|apply RR_ok, Hff3|apply RR_num].
        - bshn. reflexivity.
        - intros k Hk [u w']. cbv beta. unfold str_f. reflexivity. }
      { apply le_n. }
      cbv beta. intros _ h5 X5' [W5 HH5].
      apply (fun Y => hrel_wrote _ _ _ _ _ _ _ _ Y W5) in HMs; [|congruence].
      apply (fun Y => hrel_wrote _ _ _ _ _ _ _ _ Y W5) in Hd2; [|congruence].
      apply (fun Y => hrel_wrote _ _ _ _ _ _ _ _ Y W5) in Hff3; [|congruence].
      split; [destruct W5; lia|]. split; [|split; [eexists; exact Hff3|split; [exact HMs|exact Hd2]]].
      eapply hrel_fun; [exact HH5|]. intros k Hk [u w']. cbv beta. unfold loop_step. cbn [fst].
      rewrite of6_n6. unfold str_iter. replace (ix3_eqb (sb v) (sa v)) with false.
      - unfold madd6, mscal6. reflexivity.
      - destruct v; cbn in E |- *; try reflexivity; congruence.
    Qed.
  End Loop.

  Lemma nd_stretches_h : mat_h_ok (nd_stretches lapack m) sv_at str_ph str_D T T.
  Proof.
    intros h C f sv HC HD. cbn [ndm_hessian nd_stretches]. unfold nd_str_hessian.
    eapply W_bind; [apply (nd_str_c_W h C f sv HC HD)|].
    intros [[G svn] [[l Ms] K]] h1 Y1 [Hsv [Hl [HMs [HK _]]]].
    eapply W_bind.
    { eapply W_conseq.
      - apply (so_hessian _ _ _ _ _ _ Hm h1 l _ svn Hl). exact HD.
      - hlia.
      - intros r h2 X Y. exact (conj X Y). }
    cbv beta. intros r h2 _ [Y2 Hr]. carry Y2.
    set (g := fun k => fst (pg (lam lapack (f k)) (sv_at sv k))) in *.
    set (hh := fun k => ph (lam lapack (f k)) (sv_at svn k)) in *.
    eapply (W_bind _ _ _ _ (fun d h3 => ext (hnext h2) h2 h3 /\ hrel h3 d i6 T T (fun k v => val (hh k v)))).
    { destruct r as [a|o].
      - apply W_ret. split; [apply ext_refl|exact Hr].
      - eapply W_conseq; [apply (fill6_W T (hnext h2) h2 l o hh _ (le_n _) Hl Hr)|hlia|].
        intros d h3 X [_ [_ [Y _]]]. split; assumption. }
    intros d h3 _ [Y3 Hd]. carry Y3. do 2 apply W_load_bind.
    assert (Hx : rel i3 T T (contents h3 l) (fun k a => lam lapack (f k) a)) by apply Hl.
    revert Hx. generalize (contents h3 l). intros x Hx.
    eapply W_call.
    { apply (W_new (hnext h) h3 _ i6 T T (fun k v => val (hh k v) / (4 * lam lapack (f k) (sa v) * lam lapack (f k) (sb v)))); [hlia|].
      eapply RR_conv.
      - eapply (RR_same Rdiv i6); [exact i6_ok|apply RR_ok, Hd|].
        eapply (RR_same Rmult i6); [exact i6_ok| |].
        + eapply (RR_scal_l Rmult i6); [exact i6_ok|apply RR_num|].
          apply (take_rel i3 i6 3 (of_list sa_list) sa T T x (fun k a => lam lapack (f k) a) i3_ok i6_ok eq_refl); [|exact Hx].
          intros []; reflexivity.
        + apply (take_rel i3 i6 3 (of_list sb_list) sb T T x (fun k a => lam lapack (f k) a) i3_ok i6_ok eq_refl); [|exact Hx].
          intros []; reflexivity.
      - bshn. reflexivity.
      - intros k Hk v. reflexivity. }
    intros d2C h4 F4 V4' Hd2 Y4.
    assert (LM : (loc Ms < hnext h3)%nat) by hlia. assert (LK : (loc K < hnext h3)%nat) by hlia.
    assert (L4 : (hnext h3 <= loc d2C)%nat) by hlia.
    carry Y4. apply W_load_bind.
    assert (Hdc : rel i3 T T (contents h4 K) (fun k a => strK (lam lapack (f k)) (g k) a)) by apply HK.
    revert Hdc. generalize (contents h4 K). intros dc Hdc.
    eapply W_bind.
    { apply (inplace_view_W Rminus (hnext h) h4 d2C (head_view 3 d2C) T T T hd6 hd6' _ ltac:(hlia) V4'
        (head_is_view _ _ _ _ _ Hd2) hd6_out Hd2 (sub_refl T) _
        (fun k a => strK (lam lapack (f k)) (g k) a / (2 * lam lapack (f k) a ^ 2))).
      eapply RR_conv.
      - eapply (RR_same Rdiv i3); [exact i3_ok|apply RR_ok, Hdc|].
        eapply (RR_scal_l Rmult i3); [exact i3_ok|apply RR_num|]. eapply RR_map, RR_ok, Hx.
      - bshn. reflexivity.
      - reflexivity. }
    cbv beta. intros _ h5 Y5 [W5 Hd5].
    assert (SK : nshp K = 3%nat :: T) by (destruct HK as [_ [S _]]; exact S).
    assert (Sl : nshp l = 3%nat :: T) by (destruct Hl as [_ [S _]]; exact S).
    apply (fun Y => hrel_wrote _ _ _ _ _ _ _ _ Y W5) in HMs; [|lia].
    clear HK Hl Hd Hr Hd2.
    rewrite SK, Sl. cbn [skipn].
    assert (L5 : hnext h5 = hnext h4) by (destruct W5; assumption).
    assert (L04 : (hnext h <= hnext h4)%nat) by hlia.
    assert (Ld2 : (loc d2C < hnext h4)%nat) by hlia.
    assert (L34 : (hnext h3 <= hnext h4)%nat) by (destruct Y4; assumption).
    eapply W_call.
    { apply (W_alloc (hnext h) h5 _ i66 T T (fun _ _ => 0)); [lia|]. apply rel_of_full; [reflexivity|].
      intros k Hk i. reflexivity. }
    intros H h6 F6 V6' HH Y6. assert (L6 : (hnext h5 <= loc H < hnext h6)%nat) by (destruct F6; lia). carry Y6.
    eapply W_call.
    { apply (W_alloc (hnext h) h6 _ iS T T (fun _ _ => 0)); [lia|]. apply rel_of_full; [reflexivity|].
      intros k Hk i. reflexivity. }
    intros fa h7 F7 V7' Hfa Y7. assert (L7 : (hnext h6 <= loc fa < hnext h7)%nat) by (destruct F7; lia). carry Y7.
    set (d2 := fun (k : index) (v : ix6) => match hd6' v with
       | Some a => val (hh k v) / (4 * lam lapack (f k) (sa v) * lam lapack (f k) (sb v))
                   - strK (lam lapack (f k)) (g k) a / (2 * lam lapack (f k) a ^ 2)
       | None => val (hh k v) / (4 * lam lapack (f k) (sa v) * lam lapack (f k) (sb v)) end) in *.
    set (Mk := fun (k : index) a v => snd (eigh lapack (f k) sqrt) a v).
    assert (LOOP : loop_inv (hnext h) Ms d2C H fa Mk d2 (fun _ => mzero) h7).
    { split; [lia|]. split; [|split; [|split]].
      - eapply hrel_fun; [exact HH|]. intros k Hk [u w]. reflexivity.
      - exists (fun _ => 0). exact Hfa.
      - eapply hrel_fun; [exact HMs|]. intros k Hk [u w]. reflexivity.
      - exact Hd5. }
    eapply W_bind.
    { apply (each_fold_W (hnext h) _ (fun a => loop_inv (hnext h) Ms d2C H fa Mk d2 a)
        (loop_step (fun k => lam lapack (f k)) Mk (fun k => strK (lam lapack (f k)) (g k)) d2)
        (combine (seq 0 6) (combine sa_list sb_list))) with (2 := LOOP).
      intros y a h' Hin Ha.
      assert (Hy : exists v, y = (n6 v, (n3 (sa v), n3 (sb v)))).
      { cbn in Hin. destruct Hin as [E|[E|[E|[E|[E|[E|[]]]]]]]; rewrite <- E;
          [exists V0|exists V1|exists V2|exists V3|exists V4|exists V5]; reflexivity. }
      destruct Hy as [v ->].
      apply (loop_body (hnext h) Ms d2C H fa x dc); auto; lia. }
    cbv beta. intros _ h8 _ [_ [HH8 _]]. apply W_ret.
    eapply hrel_fun; [exact HH8|]. intros k Hk [u w].
    cbn [fold_left combine seq sa_list sb_list]. unfold loop_step. cbn [fst of6].
    unfold str_ph. 
    set (pm := pure_model pg ph).
    destruct (pg (lam lapack (f k)) (sv_at sv k)) as [gk svk] eqn:Eg.
    assert (Esv : sv_at svn k = svk) by (rewrite (Hsv k Hk), Eg; reflexivity).
    destruct (str_hessian_ok lapack pm (f k) (sv_at sv k)
      (Build_StrSelf pm None None tt) tt gk svk tt (ph (lam lapack (f k)) svk)) as [s' [Es _]].
    { cbn. unfold ret. now rewrite Eg. } { reflexivity. }
    assert (Ek : g k = gk) by (unfold g; now rewrite Eg).
    revert Es. unfold str_hessian, bind at 1.
    rewrite (str_gradient_ok lapack pm (f k) (sv_at sv k) _ tt gk svk); [|cbn; unfold ret; now rewrite Eg].
    unfold get, attr, on_model, ret, bind; cbn [st_model set_lM st_lM st_dWdlC set_dWdlC sm_hessian pm pure_model].
    unfold ret. cbn [st_model st_lM st_dWdlC]. intros Es. injection Es as _ Es.
    rewrite <- Es. unfold Mk, d2, hh. rewrite Ek, Esv.
    assert (EM : forall a, (fun v => snd (eigh lapack (f k) sqrt) a v) = asvoigt (base (vec lapack (f k)) a)).
    { intros a. now rewrite eigh_lam. }
    replace (fun a v => snd (eigh lapack (f k) sqrt) a v) with (fun a => asvoigt (base (vec lapack (f k)) a))
      by (rewrite eigh_lam; reflexivity).
    match goal with |- str_iter _ _ _ ?D1 _ _ u w = str_iter _ _ _ ?D2 _ _ u w =>
      replace D1 with D2; [reflexivity|] end.
    apply FunctionalExtensionality.functional_extensionality. intros v. destruct v; reflexivity.
  Qed.
End St.
