(** * Configurations in which an evaluation on arrays raises (proofs). *)
From Coq Require Import Reals List Arith Lia Lra.
From Verif Require Import Tensor Py Voigt Frameworks Spaces Spec SpaceCore.
From Verif Require Import NDCore NDRel NDOps NDHeap NDVoigt NDMath NDMath2 NDMath3 NDSpaces
  NDSpaceProofs NDSpaceMain NDFrameworks NDSpec.
Import ListNotations.
Local Open Scope R_scope.

Lemma raises_here {A B} h (m : M A) (k : A -> M B) e : raises h m e -> raises h (bind m k) e.
Proof. intros [h' E]. exists h'. unfold bind. now rewrite E. Qed.
Lemma raises_after {A B} n h (m : M A) (k : A -> M B) Q e : W n h m Q ->
  (forall a h', ext n h h' -> Q a h' -> raises h' (k a) e) -> raises h (bind m k) e.
Proof.
  intros [a [h' [E [X H]]]] K. destruct (K a h' X H) as [h'' E']. exists h''. unfold bind. now rewrite E.
Qed.
Lemma raises_call {B} n h (m : M nd) (k : nd -> M B) I t T f e : W n h m (gives h I t T f) ->
  (forall a h', fresh h h' a -> (forall k, vw a k = k) -> hrel h' a I t T f ->
     ext (hnext h) h h' -> raises h' (k a) e) -> raises h (bind m k) e.
Proof. intros H K. eapply raises_after; [exact H|]. intros a h' _ [G1 [G2 [G3 G4]]]. now apply K. Qed.
Lemma raises_lift {A B} h (r : Result A) v (k : A -> M B) e : r = Ok v -> raises h (k v) e -> raises h (bind (lift r) k) e.
Proof. intros -> H. exact H. Qed.
Lemma raises_load {B} h a (k : arr -> M B) e : raises h (k (contents h a)) e -> raises h (bind (load a) k) e.
Proof. intros H. exact H. Qed.
Lemma raises_ret {A B} h (a : A) (k : A -> M B) e : raises h (k a) e -> raises h (bind (ret a) k) e.
Proof. intros H. exact H. Qed.

(** Writing a larger value into an array raises. *)
Lemma assign_raises h out z L t T : nshp out = L ++ t -> shp z = L ++ T -> sub t T -> length t = length T ->
  t <> T -> raises h (assign out z) ValueError.
Proof.
  intros H1 H2 Hs Hl Hn. exists h. unfold assign, bind, lift, broadcast_to. rewrite H1, H2.
  assert (E : broadcast_shapes (L ++ T) (L ++ t) = Ok (L ++ T)).
  { apply broadcast_lead; [|congruence|apply broadcast_refl].
    rewrite broadcast_comm. now apply broadcast_sub_l. }
  rewrite E. cbn [rbind]. destruct (list_eq_dec Nat.eq_dec (L ++ T) (L ++ t)) as [C|C]; [|reflexivity].
  exfalso. apply app_inv_head in C. congruence.
Qed.

Section R.
  Context {ST SV : Type} (mat : NDMat ST) (sv_at : ST -> index -> SV)
    (pg : Vec6 -> SV -> Vec6 * SV) (ph : Vec6 -> SV -> Mat6) (D : Vec6 -> Prop)
    (T tg th : shape) (o : SpaceOpts).
  Hypothesis Hg : mat_g_ok mat sv_at pg D T tg.
  Hypothesis Hh : mat_h_ok mat sv_at ph D T th.
  Hypothesis Ef : finalize o = true.
  Hypothesis Eo : force o = Undeformed.

  (** Deformation.gradient with force=0, area=None and a stress array without F's axes. *)
  Lemma def_c_raises h F fF sv : hrel h F i33 T T fF ->
    (forall k, inb T k -> D (seen KDeformation (CG fF k))) -> area o = Deformed -> tg <> T ->
    raises h (nd_def_gradient_c mat o F sv) ValueError.
  Proof.
    intros HF HD Ea Hn. unfold nd_def_gradient_c.
    eapply raises_call; [apply (nd_right_CG_W (hnext h) h F T fF (le_n _) HF)|].
    intros C h1 F1 V1' HC Y1. carry_ext Y1.
    eapply raises_after; [apply (Hg h1 C _ sv HC HD)|].
    intros [d svn] h2 Y2 [Hd Hsv]. cbn [fst snd] in *. carry_ext Y2.
    apply raises_load.
    eapply raises_call.
    { apply (W_new (hnext h2) h2 _ i6 (bsh [] tg) T (fun k i => kS KDeformation (CG fF k) (gk sv_at pg KDeformation fF sv k) i) (le_n _)).
      eapply RR_conv; [apply (RR_scal_l Rmult i6 [] tg T _ _ _ _ i6_ok (RR_num 2 T) (RR_ok _ _ _ _ _ (proj2 Hd)))|reflexivity|].
      intros k Hk v. reflexivity. }
    rewrite bsh_nil_l. intros PK2 h3 F3 V3' HS Y3. carry_ext Y3.
    apply raises_here. unfold nd_piola_stress. rewrite Ef, Eo, Ea.
    eapply raises_call; [apply (nd_astensor_W (hnext h3) h3 PK2 tg T _ (le_n _) HS)|].
    intros s0 h4 F4 V4' Hs Y4. carry_ext Y4. apply raises_ret.
    eapply (raises_after (hnext h4) h4 _ _ (fun _ _ => True)).
    { eapply W_call; [apply (nd_right_CG_W (hnext h4) h4 F T fF (le_n _) HF)|].
      intros C' h5 F5 V5' HC' Y5.
      eapply W_call; [apply (nd_det_W (hnext h4) h5 C' T T _ ltac:(hlia) HC')|].
      intros I3 h6 F6 V6' HI3 Y6.
      eapply W_conseq; [apply (nd_sqrt_W (hnext h4) h6 I3 T T _ ltac:(hlia) HI3)|apply le_n|]. auto. }
    intros J h5 Y5 _. carry_ext Y5. apply raises_here. unfold nd_einsum_out.
    change (raises h5 (bind (lift (einsum [(tm [1; 2], contents h5 F); (tm [0; 2], contents h5 s0)]%nat (tm [0; 1]%nat)))
      (fun z => bind (assign s0 z) (fun _ => ret s0))) ValueError).
    assert (Hs5 : rel i33 tg T (contents h5 s0) _) by apply Hs. assert (HF5 : rel i33 T T (contents h5 F) fF) by apply HF.
    destruct (es_area_rel _ _ T tg T _ _ HF5 Hs5) as [z [Ez Hz]].
    apply (raises_lift _ _ z _ _ Ez). apply raises_here.
    pose proof Hs as [_ [S1 [S2 [S3 _]]]]. cbn [contents shp] in S1. rewrite (bsh_sub_r tg T S2) in Hz.
    destruct S3 as [S3|S3]; [discriminate|].
    exact (assign_raises h5 s0 z (idim i33) tg T S1 (proj1 Hz) S2 S3 Hn).
  Qed.
  Lemma def_gradient_raises h F fF sv : hrel h F i33 T T fF ->
    (forall k, inb T k -> D (seen KDeformation (CG fF k))) -> area o = Deformed -> tg <> T ->
    raises h (nd_def_gradient mat o F sv) ValueError.
  Proof. intros HF HD Ea Hn. apply raises_here. now apply (def_c_raises h F fF sv HF HD). Qed.

  (** Deformation.hessian with force=0 and an elasticity array without F's axes. *)
  Lemma def_hessian_raises h F fF sv : hrel h F i33 T T fF ->
    (forall k, inb T k -> D (seen KDeformation (CG fF k))) ->
    (area o = Deformed /\ tg <> T) \/ th <> T ->
    raises h (nd_def_hessian mat o F sv) ValueError.
  Proof.
    intros HF HD Hc. unfold nd_def_hessian.
    assert (Hc' : (area o = Deformed /\ tg <> T) \/ ((area o = Deformed -> tg = T) /\ th <> T)).
    { destruct (list_eq_dec Nat.eq_dec tg T), (area o); intuition congruence. }
    clear Hc. destruct Hc' as [[Ea Hn]|[Ho Hn]].
    { apply raises_here. now apply (def_c_raises h F fF sv HF HD). }
    eapply raises_after.
    { apply (def_c_W mat sv_at pg D T tg o Hg (hnext h) h F fF sv (le_n _) HF HD). intros _ _. exact Ho. }
    intros [[P svn] [C PK2]] h1 _ [Y1 [_ [HC [HS [_ _]]]]]. carry_ext Y1.
    eapply raises_after; [apply (Hh h1 C _ sv HC HD)|].
    intros d h2 Y2 Hd. carry_ext Y2. apply raises_load.
    eapply raises_call.
    { apply (W_new (hnext h2) h2 _ i66 (bsh [] th) T (fun k '(v, w) => mscal6 4 (ph (CG fF k) (sv_at sv k)) v w) (le_n _)).
      eapply RR_conv; [apply (RR_scal_l Rmult i66 [] th T _ _ _ _ i66_ok (RR_num 4 T) (RR_ok _ _ _ _ _ (proj2 Hd)))|reflexivity|].
      intros k Hk [v w]. reflexivity. }
    rewrite bsh_nil_l. intros C4 h3 F3 V3' HC4 Y3. carry_ext Y3.
    unfold nd_piola_elast. rewrite Ef, Eo.
    eapply raises_call; [apply (nd_astensor4_W (hnext h3) h3 C4 th T _ (le_n _) HC4)|].
    intros e0 h4 F4 V4' He Y4. carry_ext Y4. apply raises_here.
    eapply (raises_after (hnext h4) h4 _ _ (fun r h5 => hrel h5 (fst r) i6 T T
      (fun k v => inv (right_CG (un33 fF k)) (Some (det (right_CG (un33 fF k)))) v))).
    { eapply W_call; [apply (nd_right_CG_W (hnext h4) h4 F T fF (le_n _) HF)|].
      intros C' h5 F5 V5' HC' Y5.
      eapply W_call; [apply (nd_det_W (hnext h4) h5 C' T T _ ltac:(hlia) HC')|].
      intros I3 h6 F6 V6' HI3 Y6. carry_ext Y6.
      eapply W_call.
      { apply (nd_inv_W (hnext h4) h6 C' (Some I3) T T _
                 (fun k => det (right_CG (un33 fF k))) ltac:(hlia) HC').
        intros a [= <-]. exists T. split; [apply sub_refl|exact HI3]. }
      intros x h7 Fx Vx Hx Y7. apply W_ret. exact Hx. }
    intros [ic I3] h5 Y5 Hic. cbn [fst] in Hic. carry_ext Y5.
    eapply raises_after; [apply (nd_cdya_ik_W (hnext h5) h5 ic PK2 T tg T _ _ (le_n _) Hic HS)|].
    intros c h6 _ [Fc [Hcc Y6]]. carry_ext Y6. apply raises_here.
    unfold np_bin_out. do 2 apply raises_load.
    pose proof HS as [_ [_ [S2' _]]]. rewrite (bsh_sub_r tg T S2') in Hcc.
    destruct (vbin_same Rplus i3333 th T T _ _ _ _ i3333_ok (proj2 He) (proj2 Hcc)) as [z [Ez Hz]].
    apply (raises_lift _ _ z _ _ Ez). apply raises_here.
    pose proof He as [_ [S1 [S2 [S3 _]]]]. cbn [contents shp] in S1. rewrite (bsh_sub_l th T S2) in Hz.
    destruct S3 as [S3|S3]; [discriminate|].
    exact (assign_raises h6 e0 z (idim i3333) th T S1 (proj1 Hz) S2 S3 Hn).
  Qed.
End R.
