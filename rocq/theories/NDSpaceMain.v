(** * Gradient and hessian of the spaces on arrays (proofs). *)
From Coq Require Import Reals List Arith Lia Lra.
From Verif Require Import Tensor Py Voigt Frameworks Spaces Spec SpaceCore.
From Verif Require Import NDCore NDRel NDOps NDHeap NDVoigt NDMath NDMath2 NDMath3 NDSpaces
  NDSpaceProofs.
Import ListNotations.
Local Open Scope R_scope.

(** A material on arrays that acts at every trailing index like the functions [pg]
    (gradient, new state) and [ph] (hessian), for arguments in [D]; it returns arrays with
    trailing shapes [tg], [th] and does not write into existing arrays. *)
Definition mat_g_ok {ST SV} (mat : NDMat ST) (sv_at : ST -> index -> SV)
  (pg : Vec6 -> SV -> Vec6 * SV) (D : Vec6 -> Prop) (T tg : shape) : Prop :=
  forall h C f sv, hrel h C i6 T T f -> (forall k, inb T k -> D (f k)) ->
    W (hnext h) h (ndm_gradient mat C sv) (fun r h' =>
      hrel h' (fst r) i6 tg T (fun k v => fst (pg (f k) (sv_at sv k)) v) /\
      forall k, inb T k -> sv_at (snd r) k = snd (pg (f k) (sv_at sv k))).
Definition mat_h_ok {ST SV} (mat : NDMat ST) (sv_at : ST -> index -> SV)
  (ph : Vec6 -> SV -> Mat6) (D : Vec6 -> Prop) (T th : shape) : Prop :=
  forall h C f sv, hrel h C i6 T T f -> (forall k, inb T k -> D (f k)) ->
    W (hnext h) h (ndm_hessian mat C sv) (fun r h' =>
      hrel h' r i66 th T (fun k '(v, w) => ph (f k) (sv_at sv k) v w)).

Section P.
  Context {ST SV : Type} (mat : NDMat ST) (sv_at : ST -> index -> SV)
    (pg : Vec6 -> SV -> Vec6 * SV) (ph : Vec6 -> SV -> Mat6) (D : Vec6 -> Prop)
    (T tg th : shape) (o : SpaceOpts).
  Hypothesis Hg : mat_g_ok mat sv_at pg D T tg.
  Hypothesis Hh : mat_h_ok mat sv_at ph D T th.

  Definition CG (fF : index -> ity i33 -> R) (k : index) : Vec6 := right_CG (un33 fF k).
  Definition gk (kd : SpaceKind) (fF : index -> ity i33 -> R) (sv : ST) (k : index) : Vec6 :=
    fst (pg (seen kd (CG fF k)) (sv_at sv k)).
  Definition svk (kd : SpaceKind) (fF : index -> ity i33 -> R) (sv : ST) (k : index) : SV :=
    snd (pg (seen kd (CG fF k)) (sv_at sv k)).

  (** *** Deformation *)
  Lemma def_c_W n h F fF sv : (n <= hnext h)%nat -> hrel h F i33 T T fF ->
    (forall k, inb T k -> D (seen KDeformation (CG fF k))) ->
    (finalize o = true -> force o = Undeformed -> area o = Deformed -> tg = T) ->
    W n h (nd_def_gradient_c mat o F sv) (fun '(P, svn, (C, PK2)) h' => ext (hnext h) h h' /\
      (hnext h <= loc P < hnext h')%nat /\
      hrel h' C i6 T T (fun k v => CG fF k v) /\
      hrel h' PK2 i6 tg T (fun k v => kS KDeformation (CG fF k) (gk KDeformation fF sv k) v) /\
      is_stress (finalize o) h' P (stress_shape o tg T) T (fun k => piola_stress o (un33 fF k)
        (kS KDeformation (CG fF k) (gk KDeformation fF sv k)) (kdetF KDeformation (CG fF k))) /\
      (forall k, inb T k -> sv_at svn k = svk KDeformation fF sv k)).
  Proof.
    intros Hn HF HD Ho.
    eapply (W_conseq n (hnext h) h _ (fun '(P, svn, (C, PK2)) h' =>
      (hnext h <= loc P < hnext h')%nat /\
      hrel h' C i6 T T (fun k v => CG fF k v) /\
      hrel h' PK2 i6 tg T (fun k v => kS KDeformation (CG fF k) (gk KDeformation fF sv k) v) /\
      is_stress (finalize o) h' P (stress_shape o tg T) T (fun k => piola_stress o (un33 fF k)
        (kS KDeformation (CG fF k) (gk KDeformation fF sv k)) (kdetF KDeformation (CG fF k))) /\
      (forall k, inb T k -> sv_at svn k = svk KDeformation fF sv k)));
      [|exact Hn|intros [[P svn] [C PK2]] h' X Y; exact (conj X Y)].
    unfold nd_def_gradient_c.
    eapply W_call; [apply (nd_right_CG_W (hnext h) h F T fF (le_n _) HF)|].
    intros C h1 F1 V1 HC X1. carry_ext X1.
    eapply W_bind.
    { eapply W_conseq; [apply (Hg h1 C _ sv HC HD)|hlia|].
      intros r h2 X Y. exact (conj X Y). }
    cbv beta. intros [d svn] h2 _ [X2 [Hd Hsv]]. cbn [fst snd] in *. carry_ext X2.
    apply W_load_bind.
    eapply W_call.
    { apply (W_new (hnext h) h2 _ i6 (bsh [] tg) T (fun k i => kS KDeformation (CG fF k) (gk KDeformation fF sv k) i)); [hlia|].
      eapply RR_conv; [apply (RR_scal_l Rmult i6 [] tg T _ _ _ _ i6_ok (RR_num 2 T) (RR_ok _ _ _ _ _ (proj2 Hd)))|reflexivity|].
      intros k Hk v. reflexivity. }
    rewrite bsh_nil_l. intros PK2 h3 F3 V3 HS X3. carry_ext X3.
    eapply W_bind.
    { apply (nd_piola_stress_W (hnext h) h3 o F PK2 None tg T fF _ None ltac:(hlia) HF HS I Ho). }
    cbv beta. intros P h4 _ [X4 [FP HP]].
    apply W_ret. split; [|split; [|split; [|split]]].
    - destruct (finalize o); [hlia|]. destruct FP as [-> ->]. hlia.
    - eapply hrel_ext; eauto.
    - eapply hrel_ext; eauto.
    - exact HP.
    - exact Hsv.
  Qed.
  Lemma def_hessian_W n h F fF sv : (n <= hnext h)%nat -> hrel h F i33 T T fF ->
    (forall k, inb T k -> D (seen KDeformation (CG fF k))) ->
    (finalize o = true -> force o = Undeformed -> area o = Deformed -> tg = T) ->
    (finalize o = true -> force o = Undeformed -> th = T) ->
    W n h (nd_def_hessian mat o F sv) (fun r h' => ext (hnext h) h h' /\
      (hnext h <= loc r < hnext h')%nat /\
      is_elast (finalize o) h' r (if finalize o then T else th) T (fun k => piola_elast o (un33 fF k)
        (kS KDeformation (CG fF k) (gk KDeformation fF sv k)) (kdetF KDeformation (CG fF k))
        (kC4 KDeformation (CG fF k) (gk KDeformation fF sv k) (ph (seen KDeformation (CG fF k)) (sv_at sv k)))
        (kinvC KDeformation (CG fF k)))).
  Proof.
    intros Hn HF HD Ho1 Ho2.
    eapply (W_conseq n (hnext h) h _ (fun r h' => (hnext h <= loc r < hnext h')%nat /\
      is_elast (finalize o) h' r (if finalize o then T else th) T _));
      [|exact Hn|intros r h' X Y; exact (conj X Y)].
    unfold nd_def_hessian.
    eapply W_bind; [apply (def_c_W (hnext h) h F fF sv (le_n _) HF HD Ho1)|].
    intros [[P svn] [C PK2]] h1 _ [X1 [_ [HC [HS [_ _]]]]]. carry_ext X1.
    eapply W_bind.
    { eapply W_conseq; [apply (Hh h1 C _ sv HC HD)|hlia|].
      intros r h2 X Y. exact (conj X Y). }
    cbv beta. intros d h2 _ [X2 Hd]. carry_ext X2.
    apply W_load_bind.
    eapply W_call.
    { apply (W_new (hnext h) h2 _ i66 (bsh [] th) T (fun k '(v, w) => mscal6 4 (ph (CG fF k) (sv_at sv k)) v w)); [hlia|].
      eapply RR_conv; [apply (RR_scal_l Rmult i66 [] th T _ _ _ _ i66_ok (RR_num 4 T) (RR_ok _ _ _ _ _ (proj2 Hd)))|reflexivity|].
      intros k Hk [v w]. reflexivity. }
    rewrite bsh_nil_l. intros C4 h3 F3 V3 HC4 X3. carry_ext X3.
    eapply W_conseq.
    { apply (nd_piola_elast_W (hnext h) h3 o F PK2 None C4 None tg th T fF _ None _ None ltac:(hlia)
               HF HS I HC4 I Ho2). }
    { apply le_n. }
    cbv beta. intros r h4 _ [X4 [FP HP]].
    split.
    - destruct (finalize o); [hlia|]. destruct FP as [-> ->]. hlia.
    - exact HP.
  Qed.

  (** *** Distortional *)
  Let J3 (p : R) (fF : index -> ity i33 -> R) (k : index) : R := Rpower (det (CG fF k)) p.
  Lemma seen_W n h C I3 fF p kd : (n <= hnext h)%nat ->
    hrel h C i6 T T (fun k v => CG fF k v) -> hrel h I3 iS T T (fun k _ => det (CG fF k)) ->
    (forall k, seen kd (CG fF k) = vscal (J3 p fF k) (CG fF k)) ->
    W n h (new (rbin Rmult (rmap (fun x => Rpower x p) (Ok (contents h I3))) (Ok (contents h C))))
      (gives h i6 T T (fun k v => seen kd (CG fF k) v)).
  Proof.
    intros Hn HC HI E. apply W_new; [exact Hn|]. eapply RR_conv.
    - eapply (RR_scal_l Rmult i6); [exact i6_ok| |apply RR_ok, HC].
      eapply RR_map, RR_ok, HI.
    - apply bsh_refl.
    - intros k Hk v. rewrite E. reflexivity.
  Qed.
  Lemma Sb_W n h d I3 fF p kd sv : (n <= hnext h)%nat ->
    hrel h d i6 tg T (fun k v => gk kd fF sv k v) -> hrel h I3 iS T T (fun k _ => det (CG fF k)) ->
    (forall k, kSb kd (CG fF k) (gk kd fF sv k) = vscal (2 * J3 p fF k) (gk kd fF sv k)) ->
    W n h (new (rbin Rmult (rbin Rmult (rnum 2) (rmap (fun x => Rpower x p) (Ok (contents h I3)))) (Ok (contents h d))))
      (gives h i6 T T (fun k v => kSb kd (CG fF k) (gk kd fF sv k) v)).
  Proof.
    intros Hn Hd HI E. pose proof Hd as [_ [_ [Ht _]]]. apply W_new; [exact Hn|]. eapply RR_conv.
    - eapply (RR_scal_l Rmult i6); [exact i6_ok| |apply RR_ok, Hd].
      eapply (RR_same Rmult iS); [exact iS_ok|apply RR_num|]. eapply RR_map, RR_ok, HI.
    - rewrite bsh_nil_l. now apply bsh_sub_r.
    - intros k Hk v. rewrite E. reflexivity.
  Qed.

  Definition dis_post (h : heap) (fF : index -> ity i33 -> R) (sv : ST)
    (r : nd * ST * (nd * nd * nd * nd * nd * nd * nd)) (h' : heap) : Prop :=
    let '(P, svn, (C, I3, Cu, Sb, SbC, invC, PK2)) := r in
    (hnext h <= loc P < hnext h')%nat /\
    hrel h' C i6 T T (fun k v => CG fF k v) /\
    hrel h' I3 iS T T (fun k _ => det (CG fF k)) /\
    hrel h' Cu i6 T T (fun k v => seen KDistortional (CG fF k) v) /\
    hrel h' Sb i6 T T (fun k v => kSb KDistortional (CG fF k) (gk KDistortional fF sv k) v) /\
    hrel h' SbC iS T T (fun k _ => ddot22 (kSb KDistortional (CG fF k) (gk KDistortional fF sv k)) (CG fF k)) /\
    hrel h' invC i6 T T (fun k v => inv (CG fF k) (Some (det (CG fF k))) v) /\
    hrel h' PK2 i6 T T (fun k v => kS KDistortional (CG fF k) (gk KDistortional fF sv k) v) /\
    is_stress (finalize o) h' P T T (fun k => piola_stress o (un33 fF k)
      (kS KDistortional (CG fF k) (gk KDistortional fF sv k)) (kdetF KDistortional (CG fF k))) /\
    (forall k, inb T k -> sv_at svn k = svk KDistortional fF sv k).
  Lemma dis_c_W n h F fF sv : (n <= hnext h)%nat -> hrel h F i33 T T fF ->
    (forall k, inb T k -> D (seen KDistortional (CG fF k))) ->
    W n h (nd_dis_gradient_c mat o F sv) (fun r h' => ext (hnext h) h h' /\ dis_post h fF sv r h').
  Proof.
    intros Hn HF HD.
    apply (W_conseq n (hnext h) h _ (dis_post h fF sv)); [|exact Hn|intros r h' X Y; exact (conj X Y)].
    unfold nd_dis_gradient_c.
    eapply W_call; [apply (nd_right_CG_W (hnext h) h F T fF (le_n _) HF)|].
    intros C h1 F1 V1 HC X1. carry_ext X1.
    eapply W_call; [apply (nd_det_W (hnext h) h1 C T T _ ltac:(hlia) HC)|].
    intros I3 h2 F2 V2 HI X2. carry_ext X2.
    apply W_load_bind, W_load_bind.
    eapply W_call.
    { apply (seen_W (hnext h) h2 C I3 fF (- 1 / 3) KDistortional); [hlia|exact HC|exact HI|reflexivity]. }
    intros Cu h3 F3 V3 HCu X3. carry_ext X3.
    eapply W_bind.
    { eapply W_conseq; [apply (Hg h3 Cu _ sv HCu HD)|hlia|].
      intros r h4 X Y. exact (conj X Y). }
    cbv beta. intros [d svn] h4 _ [X4 [Hd Hsv]]. cbn [fst snd] in *. carry_ext X4.
    apply W_load_bind, W_load_bind.
    eapply W_call.
    { apply (Sb_W (hnext h) h4 d I3 fF (- 1 / 3) KDistortional sv); [hlia|exact Hd|exact HI|reflexivity]. }
    intros Sb h5 F5 V5 HSb X5. carry_ext X5.
    eapply W_call; [apply (nd_ddot22_W (hnext h) h5 Sb C T T T _ _ ltac:(hlia) HSb HC)|].
    rewrite bsh_refl. intros SbC h6 F6 V6 HSbC X6. carry_ext X6.
    eapply W_call.
    { apply (nd_inv_W (hnext h) h6 C (Some I3) T T _ (fun k => det (CG fF k)) ltac:(hlia) HC).
      intros a [= <-]. exists T. split; [apply sub_refl|exact HI]. }
    intros invC h7 F7 V7 HiC X7. carry_ext X7.
    apply W_load_bind, W_load_bind, W_load_bind.
    eapply W_call.
    { apply (W_new (hnext h) h7 _ i6 T T (fun k v => kS KDistortional (CG fF k) (gk KDistortional fF sv k) v)); [hlia|].
      eapply RR_conv.
      - eapply (RR_same Rminus i6); [exact i6_ok|apply RR_ok, HSb|].
        eapply (RR_scal_l Rmult i6); [exact i6_ok| |apply RR_ok, HiC].
        eapply (RR_same Rdiv iS); [exact iS_ok|apply RR_ok, HSbC|apply RR_num].
      - bshn. reflexivity.
      - intros k Hk v. reflexivity. }
    intros PK2 h8 F8 V8 HS X8. carry_ext X8.
    eapply W_call; [apply (nd_sqrt_W (hnext h) h8 I3 T T _ ltac:(hlia) HI)|].
    intros J h9 F9 V9 HJ X9. carry_ext X9.
    eapply W_bind.
    { apply (nd_piola_stress_W (hnext h) h9 o F PK2 (Some J) T T fF _ (Some (fun k _ => sqrt (det (CG fF k))))
               ltac:(hlia) HF HS).
      - exists T. split; [apply sub_refl|exact HJ].
      - reflexivity. }
    cbv beta. intros P h10 _ [X10 [FP HP]]. carry_ext X10.
    apply W_ret.
    split.
    { destruct (finalize o); [hlia|]. destruct FP as [-> ->]. hlia. }
    repeat (split; [assumption|]).
    split; [|exact Hsv].
    unfold stress_shape in HP. destruct (finalize o), (force o), (area o); exact HP.
  Qed.
  Lemma vallclose0_rel v T0 (f : index -> Mat6) : rel i66 T0 T0 v (fun k '(a, b) => f k a b) ->
    (vallclose0 v = true -> forall k, inb T0 k -> allclose0 (f k) = true) /\
    (vallclose0 v = false -> exists k, inb T0 k /\ allclose0 (f k) = false).
  Proof.
    intros [H1 [_ [_ H4]]]. unfold vallclose0. split.
    - intros E k Hk. rewrite forallb_forall in E.
      assert (Q : forall a b, isclose (f k a b) 0 = true).
      { intros a b. specialize (H4 k Hk (a, b)). cbv beta iota in H4. rewrite <- H4.
        apply E. rewrite in_indices, H1. rewrite (proj_self T0 k Hk). apply inb_app; [reflexivity|].
        split; [apply (ix_inb i66 i66_ok (a, b))|exact Hk]. }
      unfold allclose0. now rewrite !Q.
    - intros E. destruct (forallb (fun k => allclose0 (f k)) (indices T0)) eqn:E2.
      + exfalso. apply Bool.not_true_iff_false in E. apply E. clear E.
        rewrite forallb_forall in E2 |- *. intros x Hx. rewrite in_indices, H1 in Hx.
        destruct x as [|a [|b k]]; cbn in Hx; try tauto. destruct Hx as [Ha [Hb Hk]].
        specialize (H4 k Hk (of6 a, of6 b)). cbn in H4. rewrite !n6_of6, proj_self in H4 by assumption.
        rewrite H4. rewrite <- in_indices in Hk. specialize (E2 k Hk). unfold allclose0 in E2.
        rewrite !Bool.andb_true_iff in E2.
        destruct (of6 a), (of6 b); tauto.
      + assert (Q : exists k, In k (indices T0) /\ allclose0 (f k) = false).
        { clear - E2. induction (indices T0) as [|x l IH]; cbn in E2; [discriminate|].
          destruct (allclose0 (f x)) eqn:Ex.
          - destruct IH as [k [? ?]]; [exact E2|]. exists k. split; [now right|assumption].
          - exists x. split; [now left|assumption]. }
        destruct Q as [k [Hk Q]]. exists k. split; [now apply in_indices|exact Q].
  Qed.
  Definition C4b_at (fF : index -> ity i33 -> R) (sv : ST) (k : index) : Mat6 :=
    mscal6 (4 * Rpower (det (CG fF k)) (- 2 / 3)) (ph (seen KDistortional (CG fF k)) (sv_at sv k)).
  (** The elasticity if the batch test came out as [b]. *)
  Definition dis_C4f (b : bool) (C g : Vec6) (H : Mat6) : Mat6 :=
    let Sb := kSb KDistortional C g in
    let invC := inv C (Some (det C)) in
    let SbC := ddot22 Sb C in
    let C4b := mscal6 (4 * Rpower (det C) (- 2 / 3)) H in
    let P4 := msub6 (cdya1 eye) (mscal6 (/ 3) (dya invC C)) in
    let C4 := mscal6 (2 / 3)
            (madd6 (msub6 (msub6 (mscal6 SbC (cdya1 invC)) (dya Sb invC)) (transpose (dya Sb invC)))
                   (mscal6 (SbC / 3) (dya invC invC))) in
    if b then C4 else madd6 C4 (ddot44 (ddot44 P4 C4b) (transpose P4)).
  Lemma dis_C4f_k C g H : kC4 KDistortional C g H = dis_C4f (allclose0 (mscal6 (4 * Rpower (det C) (- 2 / 3)) H)) C g H.
  Proof. reflexivity. Qed.
  Definition batch_flag (fF : index -> ity i33 -> R) (sv : ST) (b : bool) : Prop :=
    if b then forall k, inb T k -> allclose0 (C4b_at fF sv k) = true
    else exists k, inb T k /\ allclose0 (C4b_at fF sv k) = false.
  Lemma dis_hessian_Wb n h F fF sv : (n <= hnext h)%nat -> hrel h F i33 T T fF ->
    (forall k, inb T k -> D (seen KDistortional (CG fF k))) ->
    W n h (nd_dis_hessian mat o F sv) (fun r h' => ext (hnext h) h h' /\
      (hnext h <= loc r < hnext h')%nat /\ exists b, batch_flag fF sv b /\
      is_elast (finalize o) h' r T T (fun k => piola_elast o (un33 fF k)
        (kS KDistortional (CG fF k) (gk KDistortional fF sv k)) (kdetF KDistortional (CG fF k))
        (dis_C4f b (CG fF k) (gk KDistortional fF sv k) (ph (seen KDistortional (CG fF k)) (sv_at sv k)))
        (kinvC KDistortional (CG fF k)))).
  Proof.
    intros Hn HF HD.
    eapply (W_conseq n (hnext h) h _ (fun r h' => (hnext h <= loc r < hnext h')%nat /\
      exists b, batch_flag fF sv b /\ is_elast (finalize o) h' r T T (fun k => piola_elast o (un33 fF k)
        (kS KDistortional (CG fF k) (gk KDistortional fF sv k)) (kdetF KDistortional (CG fF k))
        (dis_C4f b (CG fF k) (gk KDistortional fF sv k) (ph (seen KDistortional (CG fF k)) (sv_at sv k)))
        (kinvC KDistortional (CG fF k)))));
      [|exact Hn|intros r h' X Y; exact (conj X Y)].
    unfold nd_dis_hessian.
    eapply W_bind; [apply (dis_c_W (hnext h) h F fF sv (le_n _) HF HD)|].
    intros [[P svn] [[[[[[C I3] Cu] Sb] SbC] invC] PK2]] h1 _
      [X1 [_ [HC [HI [HCu [HSb [HSbC [HiC [HS [_ _]]]]]]]]]].
    assert (LF : (loc F < hnext h)%nat) by apply HF.
    assert (LI : (loc I3 < hnext h1)%nat) by apply HI.
    assert (LiC : (loc invC < hnext h1)%nat) by apply HiC.
    assert (LS : (loc PK2 < hnext h1)%nat) by apply HS.
    carry_ext X1.
    eapply W_call; [apply (nd_eye_W (hnext h) h1 C i6 T T _ 6 (or_introl eq_refl) ltac:(hlia) HC)|].
    intros Iy h2 F2 V2 HIy X2. carry_ext X2.
    eapply W_bind.
    { eapply W_conseq; [apply (Hh h2 Cu _ sv HCu HD)|hlia|].
      intros r h3 X Y. exact (conj X Y). }
    cbv beta. intros d h3 _ [X3 Hd]. carry_ext X3. pose proof Hd as [_ [_ [Hth _]]].
    apply W_load_bind, W_load_bind.
    eapply W_call.
    { apply (W_new (hnext h) h3 _ i66 T T (fun k '(v, w) => C4b_at fF sv k v w)); [hlia|].
      eapply RR_conv.
      - eapply (RR_scal_l Rmult i66); [exact i66_ok| |apply RR_ok, Hd].
        eapply (RR_same Rmult iS); [exact iS_ok|apply RR_num|]. eapply RR_map, RR_ok, HI.
      - rewrite bsh_nil_l. now apply bsh_sub_r.
      - intros k Hk [v w]. reflexivity. }
    intros C4b h4 F4 V4 HC4b X4. carry_ext X4.
    eapply W_call; [apply (nd_cdya_W (hnext h) h4 true Iy Iy _ _ T _ _ ltac:(hlia) HIy HIy)|].
    rewrite bsh_refl. intros II h5 F5 V5 HII X5. carry_ext X5.
    eapply W_call; [apply (nd_dya_W (hnext h) h5 invC C T T T _ _ ltac:(hlia) HiC HC)|].
    rewrite bsh_refl. intros Dy h6 F6 V6 HDy X6. carry_ext X6.
    apply W_load_bind, W_load_bind.
    set (p4 := fun k => msub6 (cdya1 eye) (mscal6 (/ 3) (dya (inv (CG fF k) (Some (det (CG fF k)))) (CG fF k)))).
    eapply W_call.
    { apply (W_new (hnext h) h6 _ i66 T T (fun k '(v, w) => p4 k v w)); [hlia|].
      eapply RR_conv.
      - eapply (RR_same Rminus i66); [exact i66_ok|apply RR_ok, HII|].
        eapply (RR_scal_r Rdiv i66); [exact i66_ok|apply RR_ok, HDy|apply RR_num].
      - bshn. apply bsh_ones_l; auto. apply sub_refl.
      - intros k Hk [v w]. unfold p4, msub6, mscal6, cdya1. unfold Rdiv. f_equal. apply Rmult_comm. }
    intros P4 h7 F7 V7 HP4 X7. carry_ext X7.
    eapply W_call; [apply (nd_cdya_W (hnext h) h7 true invC invC _ _ T _ _ ltac:(hlia) HiC HiC)|].
    rewrite bsh_refl. intros I4 h8 F8 V8 HI4 X8. carry_ext X8.
    eapply W_call; [apply (nd_dya_W (hnext h) h8 Sb invC T T T _ _ ltac:(hlia) HSb HiC)|].
    rewrite bsh_refl. intros SbiC h9 F9 V9 HSbiC X9. carry_ext X9.
    eapply W_bind; [apply (nd_transpose_W (hnext h) h9 SbiC T T _ HSbiC)|].
    cbv beta. intros iCSb h9' _ [-> [LiCSb HiCSb]].
    eapply W_call; [apply (nd_dya_W (hnext h) h9 invC invC T T T _ _ ltac:(hlia) HiC HiC)|].
    rewrite bsh_refl. intros iCiC h10 F10 V10 HiCiC X10. carry_ext X10.
    do 5 apply W_load_bind.
    set (c40 := fun k => let Sbk := kSb KDistortional (CG fF k) (gk KDistortional fF sv k) in
       let ic := inv (CG fF k) (Some (det (CG fF k))) in let sbc := ddot22 Sbk (CG fF k) in
       mscal6 (2 / 3) (madd6 (msub6 (msub6 (mscal6 sbc (cdya1 ic)) (dya Sbk ic)) (transpose (dya Sbk ic)))
                       (mscal6 (sbc / 3) (dya ic ic)))).
    eapply W_call.
    { apply (W_new (hnext h) h10 _ i66 T T (fun k '(v, w) => c40 k v w)); [hlia|].
      eapply RR_conv.
      - eapply (RR_scal_l Rmult i66); [exact i66_ok|apply RR_num|].
        eapply (RR_same Rplus i66); [exact i66_ok| |].
        + eapply (RR_same Rminus i66); [exact i66_ok| |apply RR_ok, HiCSb].
          eapply (RR_same Rminus i66); [exact i66_ok| |apply RR_ok, HSbiC].
          eapply (RR_scal_l Rmult i66); [exact i66_ok|apply RR_ok, HSbC|apply RR_ok, HI4].
        + eapply (RR_scal_l Rmult i66); [exact i66_ok| |apply RR_ok, HiCiC].
          eapply (RR_same Rdiv iS); [exact iS_ok|apply RR_ok, HSbC|apply RR_num].
      - bshn. reflexivity.
      - intros k Hk [v w]. reflexivity. }
    intros C4 h11 F11 V11 HC4 X11. carry_ext X11.
    apply W_load_bind.
    (* allclose *)
    assert (HA : batch_flag fF sv (vallclose0 (contents h11 C4b))).
    { destruct HC4b as [_ HC4b]. destruct (vallclose0_rel _ T _ HC4b) as [Q1 Q2]. unfold batch_flag.
      destruct (vallclose0 (contents h11 C4b)).
      - intros k Hk. exact (Q1 eq_refl k Hk).
      - destruct (Q2 eq_refl) as [k' [Hk' E']]. exists k'. split; [exact Hk'|exact E']. }
    revert HA. generalize (vallclose0 (contents h11 C4b)). intros b HA.
    eapply (W_bind _ h11 _ _ (fun r h12 => r = C4 /\ ext (hnext h10) h11 h12 /\ hrel h12 C4 i66 T T
      (fun k '(v, w) => dis_C4f b (CG fF k) (gk KDistortional fF sv k) (ph (seen KDistortional (CG fF k)) (sv_at sv k)) v w))).
    { destruct b.
      - apply W_ret. split; [reflexivity|]. split; [apply ext_refl|].
        eapply hrel_fun; [exact HC4|]. intros k Hk [v w]. reflexivity.
      - eapply (W_conseq _ (hnext h10) _ _ (fun r h12 => r = C4 /\ hrel h12 C4 i66 T T
      (fun k '(v, w) => dis_C4f false (CG fF k) (gk KDistortional fF sv k) (ph (seen KDistortional (CG fF k)) (sv_at sv k)) v w)));
          [|hlia|cbv beta; intros r h12 X [Y1 Y2]; auto].
        eapply W_call; [apply (nd_ddot44_W (hnext h10) h11 P4 C4b T T T _ _ ltac:(hlia) HP4 HC4b)|].
        rewrite bsh_refl. intros PC h12 F12 V12 HPC X12. carry_ext X12.
        eapply W_bind; [apply (nd_transpose_W (hnext h10) h12 P4 T T _ HP4)|].
        cbv beta. intros P4T h12' _ [-> [LP4T HP4T]].
        eapply W_call; [apply (nd_ddot44_W (hnext h10) h12 PC P4T T T T _ _ ltac:(hlia) HPC HP4T)|].
        rewrite bsh_refl. intros PCP h13 F13 V13 HPCP X13. carry_ext X13.
        eapply W_conseq.
        { apply (np_bin_out_W Rplus (hnext h10) h13 C4 PCP C4 i66 T T T T _ _ _ i66_ok ltac:(hlia) V11 HC4 HPCP HC4
             (sub_refl T) (sub_refl T)). }
        { apply le_n. }
        cbv beta. intros r h14 _ [-> [W14 H14]]. split; [reflexivity|].
        eapply hrel_fun; [exact H14|]. intros k Hk [v w]. reflexivity. }
    cbv beta. intros r h12 _ [-> [X12 HC4']].
    assert (K12 : forall a I t (f : index -> ity I -> R), (loc a < hnext h1)%nat ->
              hrel h11 a I t T f -> hrel h12 a I t T f).
    { intros a I0 t f La Ha. eapply hrel_frame; [exact Ha|apply X12|]. intros j. apply X12. hlia. }
    assert (LF1 : (loc F < hnext h1)%nat) by hlia.
    apply (K12 F) in HF; [|exact LF1]. apply (K12 I3) in HI; [|exact LI].
    apply (K12 invC) in HiC; [|exact LiC]. apply (K12 PK2) in HS; [|exact LS]. clear K12.
    eapply W_call; [apply (nd_sqrt_W (hnext h) h12 I3 T T _ ltac:(hlia) HI)|].
    intros J h13 F13 V13 HJ X13. carry_ext X13.
    eapply W_conseq.
    { eapply (nd_piola_elast_W (hnext h) h13 o F PK2 (Some J) C4 (Some invC) T T T fF _
               (Some (fun k _ => sqrt (det (CG fF k)))) _
               (Some (fun k v => inv (CG fF k) (Some (det (CG fF k))) v)) ltac:(hlia) HF HS).
      - exists T. split; [apply sub_refl|exact HJ].
      - exact HC4'.
      - exists T. split; [apply sub_refl|exact HiC].
      - reflexivity. }
    { apply le_n. }
    cbv beta. intros r h14 _ [X14 [FP HP]].
    split.
    - destruct (finalize o); [hlia|]. destruct FP as [-> ->]. hlia.
    - exists b. split; [exact HA|]. destruct (finalize o); exact HP.
  Qed.
  Lemma dis_hessian_W n h F fF sv : (n <= hnext h)%nat -> hrel h F i33 T T fF ->
    (forall k, inb T k -> D (seen KDistortional (CG fF k))) ->
    (forall k k', inb T k -> inb T k' ->
       allclose0 (C4b_at fF sv k) = allclose0 (C4b_at fF sv k')) ->
    W n h (nd_dis_hessian mat o F sv) (fun r h' => ext (hnext h) h h' /\
      (hnext h <= loc r < hnext h')%nat /\
      is_elast (finalize o) h' r T T (fun k => piola_elast o (un33 fF k)
        (kS KDistortional (CG fF k) (gk KDistortional fF sv k)) (kdetF KDistortional (CG fF k))
        (kC4 KDistortional (CG fF k) (gk KDistortional fF sv k) (ph (seen KDistortional (CG fF k)) (sv_at sv k)))
        (kinvC KDistortional (CG fF k)))).
  Proof.
    intros Hn HF HD Hagree. eapply W_conseq; [apply (dis_hessian_Wb n h F fF sv Hn HF HD)|apply le_n|].
    cbv beta. intros r h' _ [H1 [H2 [b [Hb H3]]]]. split; [exact H1|]. split; [exact H2|].
    assert (E : forall k, inb T k -> allclose0 (C4b_at fF sv k) = b).
    { unfold batch_flag in Hb. destruct b; [exact Hb|]. destruct Hb as [k' [Hk' E']].
      intros k Hk. now rewrite (Hagree k k' Hk Hk'). }
    unfold is_elast in *. destruct (finalize o); destruct H3 as [f [G1 G2]]; exists f; (split; [exact G1|]);
      intros k Hk; rewrite <- (G2 k Hk), dis_C4f_k; fold (C4b_at fF sv k); rewrite (E k Hk); reflexivity.
  Qed.

  (** *** Dilatational *)
  Definition dil_post (h : heap) (fF : index -> ity i33 -> R) (sv : ST)
    (r : nd * ST * (nd * nd * nd * nd * nd * nd)) (h' : heap) : Prop :=
    let '(P, svn, (C, I3, Co, tr, invC, PK2)) := r in
    (hnext h <= loc P < hnext h')%nat /\
    hrel h' C i6 T T (fun k v => CG fF k v) /\
    hrel h' I3 iS T T (fun k _ => det (CG fF k)) /\
    hrel h' Co i6 T T (fun k v => seen KDilatational (CG fF k) v) /\
    hrel h' tr iS T T (fun k _ => trace (kSb KDilatational (CG fF k) (gk KDilatational fF sv k))) /\
    hrel h' invC i6 T T (fun k v => inv (CG fF k) (Some (det (CG fF k))) v) /\
    hrel h' PK2 i6 T T (fun k v => kS KDilatational (CG fF k) (gk KDilatational fF sv k) v) /\
    is_stress (finalize o) h' P T T (fun k => piola_stress o (un33 fF k)
      (kS KDilatational (CG fF k) (gk KDilatational fF sv k)) (kdetF KDilatational (CG fF k))) /\
    (forall k, inb T k -> sv_at svn k = svk KDilatational fF sv k).
  Lemma dil_c_W n h F fF sv : (n <= hnext h)%nat -> hrel h F i33 T T fF ->
    (forall k, inb T k -> D (seen KDilatational (CG fF k))) ->
    W n h (nd_dil_gradient_c mat o F sv) (fun r h' => ext (hnext h) h h' /\ dil_post h fF sv r h').
  Proof.
    intros Hn HF HD.
    apply (W_conseq n (hnext h) h _ (dil_post h fF sv)); [|exact Hn|intros r h' X Y; exact (conj X Y)].
    unfold nd_dil_gradient_c.
    eapply W_call; [apply (nd_right_CG_W (hnext h) h F T fF (le_n _) HF)|].
    intros C h1 F1 V1 HC X1. carry_ext X1.
    eapply W_call; [apply (nd_det_W (hnext h) h1 C T T _ ltac:(hlia) HC)|].
    intros I3 h2 F2 V2 HI X2. carry_ext X2.
    apply W_load_bind, W_load_bind.
    eapply W_call.
    { apply (seen_W (hnext h) h2 C I3 fF (1 / 3) KDilatational); [hlia|exact HC|exact HI|reflexivity]. }
    intros Co h3 F3 V3 HCo X3. carry_ext X3.
    eapply W_bind.
    { eapply W_conseq; [apply (Hg h3 Co _ sv HCo HD)|hlia|].
      intros r h4 X Y. exact (conj X Y). }
    cbv beta. intros [d svn] h4 _ [X4 [Hd Hsv]]. cbn [fst snd] in *. carry_ext X4.
    apply W_load_bind, W_load_bind.
    eapply W_call.
    { apply (Sb_W (hnext h) h4 d I3 fF (1 / 3) KDilatational sv); [hlia|exact Hd|exact HI|reflexivity]. }
    intros Sb h5 F5 V5 HSb X5. carry_ext X5.
    eapply W_call; [apply (nd_trace_W (hnext h) h5 Sb T T _ ltac:(hlia) HSb)|].
    intros tr h6 F6 V6 Htr X6. carry_ext X6.
    eapply W_call.
    { apply (nd_inv_W (hnext h) h6 C (Some I3) T T _ (fun k => det (CG fF k)) ltac:(hlia) HC).
      intros a [= <-]. exists T. split; [apply sub_refl|exact HI]. }
    intros invC h7 F7 V7 HiC X7. carry_ext X7.
    apply W_load_bind, W_load_bind.
    eapply W_call.
    { apply (W_new (hnext h) h7 _ i6 T T (fun k v => kS KDilatational (CG fF k) (gk KDilatational fF sv k) v)); [hlia|].
      eapply RR_conv.
      - eapply (RR_scal_l Rmult i6); [exact i6_ok| |apply RR_ok, HiC].
        eapply (RR_same Rdiv iS); [exact iS_ok|apply RR_ok, Htr|apply RR_num].
      - bshn. reflexivity.
      - intros k Hk v. reflexivity. }
    intros PK2 h8 F8 V8 HS X8. carry_ext X8.
    eapply W_call; [apply (nd_sqrt_W (hnext h) h8 I3 T T _ ltac:(hlia) HI)|].
    intros J h9 F9 V9 HJ X9. carry_ext X9.
    eapply W_bind.
    { apply (nd_piola_stress_W (hnext h) h9 o F PK2 (Some J) T T fF _ (Some (fun k _ => sqrt (det (CG fF k))))
               ltac:(hlia) HF HS).
      - exists T. split; [apply sub_refl|exact HJ].
      - reflexivity. }
    cbv beta. intros P h10 _ [X10 [FP HP]]. carry_ext X10.
    apply W_ret.
    split.
    { destruct (finalize o); [hlia|]. destruct FP as [-> ->]. hlia. }
    repeat (split; [assumption|]).
    split; [|exact Hsv].
    unfold stress_shape in HP. destruct (finalize o), (force o), (area o); exact HP.
  Qed.
  Lemma dil_hessian_W n h F fF sv : (n <= hnext h)%nat -> hrel h F i33 T T fF ->
    (forall k, inb T k -> D (seen KDilatational (CG fF k))) ->
    W n h (nd_dil_hessian mat o F sv) (fun r h' => ext (hnext h) h h' /\
      (hnext h <= loc r < hnext h')%nat /\
      is_elast (finalize o) h' r T T (fun k => piola_elast o (un33 fF k)
        (kS KDilatational (CG fF k) (gk KDilatational fF sv k)) (kdetF KDilatational (CG fF k))
        (kC4 KDilatational (CG fF k) (gk KDilatational fF sv k) (ph (seen KDilatational (CG fF k)) (sv_at sv k)))
        (kinvC KDilatational (CG fF k)))).
  Proof.
    intros Hn HF HD.
    eapply (W_conseq n (hnext h) h _ (fun r h' => (hnext h <= loc r < hnext h')%nat /\
      is_elast (finalize o) h' r T T _));
      [|exact Hn|intros r h' X Y; exact (conj X Y)].
    unfold nd_dil_hessian.
    eapply W_bind; [apply (dil_c_W (hnext h) h F fF sv (le_n _) HF HD)|].
    intros [[P svn] [[[[[C I3] Co] tr] invC] PK2]] h1 _
      [X1 [_ [HC [HI [HCo [Htr [HiC [HS [_ _]]]]]]]]].
    carry_ext X1.
    eapply W_bind.
    { eapply W_conseq; [apply (Hh h1 Co _ sv HCo HD)|hlia|].
      intros r h3 X Y. exact (conj X Y). }
    cbv beta. intros d h3 _ [X3 Hd]. carry_ext X3. pose proof Hd as [_ [_ [Hth _]]].
    apply W_load_bind, W_load_bind.
    set (c4b := fun k => mscal6 (4 * Rpower (det (CG fF k)) (2 / 3)) (ph (seen KDilatational (CG fF k)) (sv_at sv k))).
    eapply W_call.
    { apply (W_new (hnext h) h3 _ i66 T T (fun k '(v, w) => c4b k v w)); [hlia|].
      eapply RR_conv.
      - eapply (RR_scal_l Rmult i66); [exact i66_ok| |apply RR_ok, Hd].
        eapply (RR_same Rmult iS); [exact iS_ok|apply RR_num|]. eapply RR_map, RR_ok, HI.
      - rewrite bsh_nil_l. now apply bsh_sub_r.
      - intros k Hk [v w]. reflexivity. }
    intros C4b h4 F4 V4 HC4b X4. carry_ext X4.
    eapply W_call; [apply (nd_eye_W (hnext h) h4 C i6 T T _ 6 (or_introl eq_refl) ltac:(hlia) HC)|].
    intros Iy h5 F5 V5 HIy X5. carry_ext X5.
    eapply W_call; [apply (nd_ddot24_W (hnext h) h5 Iy C4b _ _ T _ _ ltac:(hlia) HIy HC4b)|].
    intros IC h6 F6 V6 HIC X6. carry_ext X6.
    eapply W_call; [apply (nd_ddot22_W (hnext h) h6 IC Iy _ _ T _ _ ltac:(hlia) HIC HIy)|].
    intros trc h7 F7 V7 Htrc X7. carry_ext X7.
    eapply W_call; [apply (nd_cdya_W (hnext h) h7 true invC invC _ _ T _ _ ltac:(hlia) HiC HiC)|].
    rewrite bsh_refl. intros I4 h8 F8 V8 HI4 X8. carry_ext X8.
    eapply W_call; [apply (nd_dya_W (hnext h) h8 invC invC T T T _ _ ltac:(hlia) HiC HiC)|].
    rewrite bsh_refl. intros iCiC h9 F9 V9 HiCiC X9. carry_ext X9.
    do 4 apply W_load_bind.
    pose proof Htrc as [_ [_ [Htt _]]].
    eapply W_call.
    { apply (W_new (hnext h) h9 _ i66 T T (fun k '(v, w) =>
        kC4 KDilatational (CG fF k) (gk KDilatational fF sv k) (ph (seen KDilatational (CG fF k)) (sv_at sv k)) v w)); [hlia|].
      eapply RR_conv.
      - eapply (RR_same Rminus i66); [exact i66_ok| |].
        + eapply (RR_scal_r Rdiv i66); [exact i66_ok| |apply RR_num].
          eapply (RR_scal_l Rmult i66); [exact i66_ok| |apply RR_ok, HiCiC].
          eapply (RR_same Rplus iS); [exact iS_ok| |apply RR_ok, Htrc].
          eapply (RR_same Rmult iS); [exact iS_ok|apply RR_num|apply RR_ok, Htr].
        + eapply (RR_scal_l Rmult i66); [exact i66_ok| |apply RR_ok, HI4].
          eapply (RR_same Rmult iS); [exact iS_ok| |apply RR_ok, Htr].
          eapply (RR_same Rdiv iS); [exact iS_ok|apply RR_num|apply RR_num].
      - bshn. rewrite (bsh_sub_r _ T Htt). bshn. reflexivity.
      - intros k Hk [v w]. unfold kC4, msub6, mscal6. cbv zeta.
        unfold Rdiv at 1. f_equal. apply Rmult_comm. }
    intros C4 h10 F10 V10 HC4 X10. carry_ext X10.
    eapply W_call; [apply (nd_sqrt_W (hnext h) h10 I3 T T _ ltac:(hlia) HI)|].
    intros J h13 F13 V13 HJ X13. carry_ext X13.
    eapply W_conseq.
    { eapply (nd_piola_elast_W (hnext h) h13 o F PK2 (Some J) C4 (Some invC) T T T fF _
               (Some (fun k _ => sqrt (det (CG fF k)))) _
               (Some (fun k v => inv (CG fF k) (Some (det (CG fF k))) v)) ltac:(hlia) HF HS).
      - exists T. split; [apply sub_refl|exact HJ].
      - exact HC4.
      - exists T. split; [apply sub_refl|exact HiC].
      - reflexivity. }
    { apply le_n. }
    cbv beta. intros r h14 _ [X14 [FP HP]].
    split.
    - destruct (finalize o); [hlia|]. destruct FP as [-> ->]. hlia.
    - destruct (finalize o); exact HP.
  Qed.
End P.
