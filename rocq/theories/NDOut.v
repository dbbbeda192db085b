(** * The math functions called with [out=] (proofs). *)
From Coq Require Import Reals List Arith Lia Lra.
From Verif Require Import Tensor Py Voigt NDCore NDRel NDOps NDHeap NDVoigt NDMath NDMath2 NDMath3 NDTril OutSpec.
Import ListNotations.
Local Open Scope R_scope.

Lemma only_refl n o h : only n o h h. Proof. split; auto. Qed.
Lemma only_trans n o h1 h2 h3 : only n o h1 h2 -> only n o h2 h3 -> only n o h1 h3.
Proof. intros [A1 A2] [B1 B2]. split; [lia|]. intros l j Hl Hc. now rewrite B2, A2. Qed.
Lemma only_le n m o h h' : (n <= m)%nat -> only m o h h' -> only n o h h'.
Proof. intros H [A1 A2]. split; auto. intros l j Hl. apply A2. lia. Qed.
Lemma only_ext n o h h' : ext n h h' -> only n o h h'.
Proof. intros [A1 A2]. split; auto. Qed.
Lemma hrel_only n o h h' a I t T f : ixt_ok I -> hrel h a I t T f -> only n o h h' -> (loc a < n)%nat ->
  apart a o -> hrel h' a I t T f.
Proof.
  intros HI [H1 [H2 [H3 [H4 H5]]]] [O1 O2] Hn Hap. split; [lia|]. repeat split; auto.
  intros k Hk i. rewrite <- (H5 k Hk i). cbn. apply O2; [exact Hn|]. intros [E [k' [Hk' E']]].
  destruct Hap as [Hap|Hap]; [congruence|]. refine (Hap _ k' _ Hk' (eq_sym E')).
  cbn [contents shp] in H2. rewrite H2. apply inb_app; [now apply ix_len|].
  split; [now apply ix_inb|]. eapply inb_proj; eauto.
Qed.

(** Like [W], with the frame [only n o]. *)
Definition WO {A} (o : nd) (n : nat) (h : heap) (m : M A) (Q : A -> heap -> Prop) : Prop :=
  exists a h', m h = (h', Ok a) /\ only n o h h' /\ Q a h'.
Lemma WO_W {A} o n h (m : M A) Q : W n h m Q -> WO o n h m Q.
Proof. intros [a [h' [E [X H]]]]. exists a, h'. split; [exact E|]. split; [now apply only_ext|exact H]. Qed.
Lemma WO_bind {A B} o n h (m : M A) (k : A -> M B) Q Q' : WO o n h m Q ->
  (forall a h', only n o h h' -> Q a h' -> WO o n h' (k a) Q') -> WO o n h (bind m k) Q'.
Proof.
  intros [a [h' [E [X HQ]]]] H. destruct (H a h' X HQ) as [b [h'' [E' [X' HQ']]]].
  exists b, h''. split; [|split; auto].
  - unfold bind. rewrite E. exact E'.
  - eapply only_trans; eauto.
Qed.
Lemma WO_bindW {A B} o n h (m : M A) (k : A -> M B) Q Q' : W n h m Q ->
  (forall a h', ext n h h' -> Q a h' -> WO o n h' (k a) Q') -> WO o n h (bind m k) Q'.
Proof.
  intros [a [h' [E [X HQ]]]] H. destruct (H a h' X HQ) as [b [h'' [E' [X' HQ']]]].
  exists b, h''. split; [|split; auto].
  - unfold bind. rewrite E. exact E'.
  - eapply only_trans; [eapply only_ext|]; eauto.
Qed.
Lemma WO_conseq {A} o n m h (p : M A) (Q Q' : A -> heap -> Prop) : WO o m h p Q -> (n <= m)%nat ->
  (forall a h', only m o h h' -> Q a h' -> Q' a h') -> WO o n h p Q'.
Proof.
  intros [a [h' [E [X HQ]]]] Hn H. exists a, h'. split; [exact E|]. split; [|auto].
  eapply only_le; eauto.
Qed.
Lemma WO_ret {A} o n h (a : A) (Q : A -> heap -> Prop) : Q a h -> WO o n h (ret a) Q.
Proof. intros H. apply WO_W, W_ret, H. Qed.
Lemma WO_load_bind {B} o n h a (k : arr -> M B) Q :
  WO o n h (k (contents h a)) Q -> WO o n h (bind (load a) k) Q.
Proof. intros H. exact H. Qed.
Lemma WO_lift_bind {A B} o n h (r : Result A) v (k : A -> M B) Q :
  r = Ok v -> WO o n h (k v) Q -> WO o n h (bind (lift r) k) Q.
Proof. intros -> H. exact H. Qed.
Lemma WO_call {B} o n h (m : M nd) (k : nd -> M B) I t T f Q :
  W n h m (gives h I t T f) ->
  (forall a h', fresh h h' a -> (forall k, vw a k = k) -> hrel h' a I t T f ->
     ext (hnext h) h h' -> WO o n h' (k a) Q) ->
  WO o n h (bind m k) Q.
Proof.
  intros H1 H2. eapply WO_bindW; [exact H1|]. intros a h' _ [A1 [A2 [A3 A4]]]. now apply H2.
Qed.

(** *** Assignment to an array with distinct cells *)
Lemma store_only n o h f : only n o h (fst (store o f h)).
Proof.
  split; [auto|]. intros l j _ Hc. cbn [store fst hcell]. destruct (Nat.eqb_spec l (loc o)) as [->|]; [|reflexivity].
  apply write_cell_out. intros k Hk E. apply Hc. split; [reflexivity|]. now exists k.
Qed.
Lemma assign_WO n h a v I t u T f g : ixt_ok I -> distinct a ->
  hrel h a I t T f -> rel I u T v g -> sub u t ->
  WO a n h (assign a v) (fun _ h' => hnext h' = hnext h /\ hrel h' a I t T g).
Proof.
  intros HI Hd [Ha0 Ha] Hv Hu. pose proof Ha as [A1 [A2 [A3 A4]]].
  cbn [contents shp] in A1.
  destruct (broadcast_to_rel I u t T v g HI Hv Hu A2 A3) as [w [Hw Hr]].
  unfold assign. rewrite A1, Hw. unfold bind, lift.
  eexists _, _. split; [reflexivity|]. split; [apply store_only|]. split; [reflexivity|].
  split; [cbn; exact Ha0|]. destruct Hr as [R1 [R2 [R3 R4]]].
  repeat split; auto. intros k Hk i. rewrite <- (R4 k Hk i). cbn [contents dat store fst].
  cbn [hcell]. rewrite Nat.eqb_refl.
  assert (Hb : inb (nshp a) (ienc I i ++ proj t k)).
  { rewrite A1. apply inb_app; [now apply ix_len|]. split; [now apply ix_inb|]. eapply inb_proj; eauto. }
  apply write_cell_in; [exact Hb|]. intros k' Hk' E. now apply Hd.
Qed.
Lemma bin_out_WO op n h a b o I t u w T f g f0 : ixt_ok I -> distinct o ->
  hrel h a I t T f -> hrel h b I u T g -> hrel h o I w T f0 -> sub t w -> sub u w ->
  WO o n h (np_bin_out op a b o)
    (fun r h' => r = o /\ hnext h' = hnext h /\ hrel h' o I w T (fun k i => op (f k i) (g k i))).
Proof.
  intros HI Hd [_ Ha] [_ Hb] Ho Ht Hu. unfold np_bin_out. apply WO_load_bind, WO_load_bind.
  destruct (vbin_same op I t u T _ _ f g HI Ha Hb) as [z [Hz Hr]].
  apply (WO_lift_bind _ _ _ _ z); [exact Hz|].
  eapply WO_bind.
  - eapply (assign_WO n h o z I w (bsh t u)); eauto.
    destruct (bsh_ok t u w Ht Hu) as [_ [H _]]. exact H.
  - intros [] h' _ [H1 H2]. apply WO_ret. auto.
Qed.
Lemma bin_out_scal_WO op n h a b o I t u w T f g f0 : ixt_ok I -> distinct o ->
  hrel h a I t T f -> hrel h b iS u T g -> hrel h o I w T f0 -> sub t w -> sub u w ->
  WO o n h (np_bin_out op a b o)
    (fun r h' => r = o /\ hnext h' = hnext h /\ hrel h' o I w T (fun k i => op (f k i) (g k tt))).
Proof.
  intros HI Hd [_ Ha] [_ Hb] Ho Ht Hu. unfold np_bin_out. apply WO_load_bind, WO_load_bind.
  destruct (vbin_scal_r op I t u T _ _ f g HI Ha Hb) as [z [Hz Hr]].
  apply (WO_lift_bind _ _ _ _ z); [exact Hz|].
  eapply WO_bind.
  - eapply (assign_WO n h o z I w (bsh t u)); eauto.
    destruct (bsh_ok t u w Ht Hu) as [_ [H _]]. exact H.
  - intros [] h' _ [H1 H2]. apply WO_ret. auto.
Qed.
Lemma setrow_WO n h B I t u T f g v p : ixt_ok I -> distinct B ->
  hrel h B I t T f -> length t = length T -> inb (idim I) p -> rel iS u T v g -> sub u t ->
  WO B n h (setrow B p v) (fun _ h' => hnext h' = hnext h /\
    hrel h' B I t T (fun k i => if ienc_is I p i then g k tt else f k i)).
Proof.
  intros HI Hd [Ha0 Ha] Hlt Hp Hv Hu. pose proof Ha as [A1 [A2 [A3 A4]]].
  cbn [contents shp] in A1. unfold setrow. rewrite A1, (in_prefix_ok _ _ _ Hp).
  destruct (broadcast_to_rel iS u t T v g iS_ok Hv Hu A2 (or_introl eq_refl)) as [w [Hw Hr]].
  assert (Hs : nshp (subview B p) = t).
  { cbn. rewrite A1. rewrite (inb_length _ _ Hp). rewrite skipn_app, Nat.sub_diag, skipn_all.
    reflexivity. }
  assert (Hin : forall q k, inb (idim I) q -> inb t k -> inb (nshp B) (q ++ k)).
  { intros q k Hq Hk. rewrite A1. apply inb_app; [now apply inb_length|]. now split. }
  unfold assign. rewrite Hs. cbn [idim iS app] in Hw. rewrite Hw. unfold bind, lift.
  eexists _, _. split; [reflexivity|].
  split.
  { split; [auto|]. intros l j _ Hc. cbn [store fst hcell subview loc].
    destruct (Nat.eqb_spec l (loc B)) as [->|]; [|reflexivity].
    apply write_cell_out. rewrite Hs. intros k Hk E. apply Hc. split; [reflexivity|].
    exists (p ++ k). split; [now apply Hin|exact E]. }
  split; [reflexivity|].
  split; [cbn; exact Ha0|]. destruct Hr as [R1 [R2 [R3 R4]]].
  repeat split; auto. intros k Hk i. cbn [contents dat store fst hcell].
  change (loc (subview B p)) with (loc B). rewrite Nat.eqb_refl.
  assert (Hpk : inb t (proj t k)) by (eapply inb_proj; eauto).
  assert (Hi : inb (idim I) (ienc I i)) by now apply ix_inb.
  unfold ienc_is. destruct (list_eq_dec Nat.eq_dec (ienc I i) p) as [E|E].
  - rewrite E. rewrite <- (R4 k Hk tt). cbn [ienc iS app].
    change (vw B (p ++ proj t k)) with (vw (subview B p) (proj t k)).
    apply write_cell_in.
    + rewrite Hs. exact Hpk.
    + rewrite Hs. intros k' Hk' H. cbn in H. apply Hd in H; auto. now apply app_inv_head in H.
  - rewrite write_cell_out.
    + rewrite <- (A4 k Hk i). reflexivity.
    + rewrite Hs. intros k' Hk' H. cbn in H. apply Hd in H; auto.
      apply E. assert (L : length p = length (ienc I i)).
      { rewrite (inb_length _ _ Hp), (ix_len I i HI). reflexivity. }
      clear - H L. revert H L. generalize (ienc I i) as q. revert k'.
      induction p as [|a p IH]; intros k' [|b q]; cbn; try discriminate; auto.
      intros [= -> H] [= L]. f_equal. eapply IH; eauto.
Qed.
Lemma each_WO {X} n B I t T (body : X -> M unit)
  (up : X -> (index -> ity I -> R) -> index -> ity I -> R) (l : list X) :
  (forall x h f, In x l -> hrel h B I t T f ->
     WO B n h (body x) (fun _ h' => hnext h' = hnext h /\ hrel h' B I t T (up x f))) ->
  forall h f, hrel h B I t T f ->
  WO B n h (each l body) (fun _ h' => hnext h' = hnext h /\
    hrel h' B I t T (fold_left (fun f x => up x f) l f)).
Proof.
  induction l as [|x l IH]; intros Hb h f Hf; cbn [each fold_left].
  - apply WO_ret. auto.
  - eapply WO_bind; [apply (Hb x h f (or_introl eq_refl) Hf)|]. cbv beta. intros _ h1 _ [E1 H1].
    eapply WO_conseq; [apply IH; [intros; apply Hb; [now right|assumption]|exact H1]|apply le_n|].
    cbv beta. intros _ h2 _ [E2 H2]. split; [congruence|exact H2].
Qed.
Lemma set_pairs_WO n h out rc values s t T g (F : index -> nat -> R) : distinct out ->
  sub s t ->
  hrel h out i66 t T g -> hrel h values (iN (length rc)) s T (fun k i => F k (proj1_sig i)) ->
  List.Forall (fun '(r, c) => (r < 6 /\ c < 6)%nat) rc ->
  WO out n h (set_pairs out rc values) (fun _ h' => hnext h' = hnext h /\
    hrel h' out i66 t T
      (fold_left (fun g x => pairs_up F x g) (combine (seq 0 (length rc)) rc) g)).
Proof.
  intros Hd Hst Ho Hv Hrc. unfold set_pairs. apply WO_load_bind.
  pose proof Ho as [Ho0 [O1 [O2 [O3 O4]]]]. cbn [contents shp] in O1.
  assert (Hlt : length t = length T) by (destruct O3 as [O3|O3]; [discriminate|exact O3]).
  destruct (broadcast_to_rel (iN (length rc)) s t T _ _ (iN_ok _) (proj2 Hv) Hst O2
              (or_intror Hlt)) as [w [Hw Hr]].
  apply (WO_lift_bind _ _ _ _ w).
  { rewrite O1. exact Hw. }
  apply (each_WO n out i66 t T _ (pairs_up F) (combine (seq 0 (length rc)) rc)); [|exact Ho].
  intros [p [r c]] h' g' Hx Ho'.
  assert (Hp : (p < length rc)%nat) by (apply in_combine_l, in_seq in Hx; lia).
  apply in_combine_r in Hx. rewrite List.Forall_forall in Hrc. specialize (Hrc _ Hx). cbv beta iota in Hrc.
  destruct (rowN_rel (length rc) p t T w F Hp Hr) as [v [Hv' Hrv]].
  apply (WO_lift_bind _ _ _ _ v); [exact Hv'|].
  eapply WO_conseq.
  - apply (setrow_WO n h' out i66 t t T g' (fun k _ => F k p) v [r; c] i66_ok Hd Ho' Hlt);
      [repeat split; apply Hrc|exact Hrv|apply sub_refl].
  - auto.
  - cbv beta. intros [] h2 _ [W1 F1]. split; [exact W1|exact F1].
Qed.

(** *** inv *)
Lemma inv_out_WO h A d o t w T f g f0 : hrel h A i6 t T f -> sub t w -> hrel h o i6 w T f0 -> distinct o ->
  (forall a, d = Some a -> apart a o /\ exists u, sub u w /\ hrel h a iS u T (fun k _ => g k)) ->
  WO o (hnext h) h (nd_inv A d (Some o)) (fun r h' => r = o /\
    hrel h' o i6 w T (fun k v => inv (f k) (match d with Some _ => Some (g k) | None => None end) v)).
Proof.
  intros HA Ht Ho Hdis Hd. unfold nd_inv.
  assert (Lo : (loc o < hnext h)%nat) by apply Ho.
  eapply WO_call.
  { eapply (W_alloc _ h (zeros (nshp A)) i6 t T (fun _ _ => 0)); auto.
    destruct HA as [_ [H1 [H2 [H3 H4]]]]. repeat split; auto. }
  intros z h1 Fz _ _ X1.
  assert (HA1 := hrel_ext _ _ _ _ _ _ _ HA X1). assert (Ho1 := hrel_ext _ _ _ _ _ _ _ Ho X1). clear Ho.
  eapply (WO_bindW _ _ h1 _ _ (fun dA h2 => ext (hnext h1) h1 h2 /\ apart dA o /\ exists u, sub u w /\ hrel h2 dA iS u T
     (fun k _ => match d with Some _ => g k | None => det (f k) end))).
  { destruct d as [a|].
    - apply W_ret. destruct (Hd a eq_refl) as [Hap [u [Hu Ha]]]. split; [apply ext_refl|]. split; [exact Hap|].
      exists u. split; auto. eapply hrel_ext; eauto.
    - eapply W_conseq; [apply (nd_det_W (hnext h) h1 A t T f); auto; hlia|auto|].
      intros a h' _ [H0 [_ [H1 H2]]]. split; auto. split; [left; hlia|]. exists t. split; [exact Ht|exact H1]. }
  intros dA h2 _ [X2 [Hap [u [Hu HdA]]]].
  assert (LdA : (loc dA < hnext h2)%nat) by apply HdA.
  carry_ext X2.
  eapply WO_call; [apply (fancy6_W _ h2 A _ inv_i t T f); auto; [hlia|intros []; reflexivity]|].
  intros Ai h3 F3 V3 HAi X3. carry_ext X3.
  eapply WO_call; [apply (fancy6_W _ h3 A _ inv_j t T f); auto; [hlia|intros []; reflexivity]|].
  intros Aj h4 F4 V4 HAj X4. carry_ext X4.
  eapply WO_call; [apply (fancy6_W _ h4 A _ inv_k t T f); auto; [hlia|intros []; reflexivity]|].
  intros Ak h5 F5 V5 HAk X5. carry_ext X5.
  eapply WO_call; [apply (fancy6_W _ h5 A _ inv_l t T f); auto; [hlia|intros []; reflexivity]|].
  intros Al h6 F6 V6 HAl X6. carry_ext X6.
  eapply WO_bindW.
  { apply (np_bin_out_W Rmult (hnext h) h6 Ai Aj Ai i6 t t t T _ _ _ i6_ok ltac:(hlia) V3 HAi HAj HAi
             (sub_refl t) (sub_refl t)). }
  intros r h7 _ [-> [W7 HAij]].
  clear HAi HA HA1. carry_wrote W7.
  eapply WO_bindW.
  { apply (np_bin_out_W Rmult (hnext h) h7 Ak Al Ak i6 t t t T _ _ _ i6_ok ltac:(hlia) V5 HAk HAl HAk
             (sub_refl t) (sub_refl t)). }
  intros r h8 _ [-> [W8 HAkl]].
  clear HAk. carry_wrote W8.
  assert (L8 : (hnext h <= hnext h8)%nat) by hlia.
  eapply WO_bind.
  { eapply (WO_conseq _ (hnext h) (hnext h8)); [apply (bin_out_WO Rminus (hnext h8) h8 Ai Ak o i6 t t w T _ _ _ i6_ok Hdis HAij HAkl Ho1 Ht Ht)|exact L8|].
    intros a h' X Q. exact (conj X Q). }
  cbv beta. intros r h9 _ [X9 [-> [E9 HO]]].
  assert (HdA9 : hrel h9 dA iS u T (fun k _ => match d with Some _ => g k | None => det (f k) end)).
  { eapply hrel_only; [exact iS_ok|exact HdA|exact X9|hlia|exact Hap]. }
  eapply WO_conseq; [|apply le_n|].
  { apply (bin_out_scal_WO Rdiv (hnext h) h9 o dA o i6 w u w T _ _ _ i6_ok Hdis HO HdA9 HO
             (sub_refl w) Hu). }
  cbv beta. intros r h10 _ [-> [W10 HR]].
  split; [reflexivity|].
  eapply hrel_fun; [exact HR|]. intros k Hk v. cbv beta. unfold inv. destruct d; reflexivity.
Qed.

(** *** dya, cdya_ik, cdya_il *)
Lemma dya_out_WO n h A B o t u w T f g f0 : hrel h A i6 t T f -> hrel h B i6 u T g -> sub t w -> sub u w ->
  hrel h o i66 w T f0 -> distinct o ->
  WO o n h (nd_dya A B (Some o)) (fun r h' => r = o /\ hnext h' = hnext h /\
    hrel h' o i66 w T (fun k '(v, q) => dya (f k) (g k) v q)).
Proof.
  intros [_ HA] [_ HB] Ht Hu Ho Hd. unfold nd_dya. apply WO_load_bind, WO_load_bind.
  destruct (v_dya_rel _ _ _ _ _ _ _ HA HB) as [z [Hz Hr]].
  apply (WO_lift_bind _ _ _ _ z); [exact Hz|].
  eapply WO_bind.
  - eapply (assign_WO n h o z i66 w (bsh t u)); eauto using i66_ok.
    destruct (bsh_ok t u w Ht Hu) as [_ [H _]]. exact H.
  - intros [] h' _ [H1 H2]. apply WO_ret. auto.
Qed.
Lemma cdya_ik_out_WO h A B o t u w T f g f0 : hrel h A i6 t T f -> hrel h B i6 u T g -> sub t w -> sub u w ->
  hrel h o i66 w T f0 -> distinct o ->
  WO o (hnext h) h (nd_cdya_ik A B (Some o)) (fun r h' => fresh h h' r /\
    hrel h' r i3333 w T (fun k '(i, j, l, m) => cdya_ik (f k) (g k) i j l m) /\
    hrel h' o i66 w T (fun k '(v, q) => dya (f k) (g k) v q)).
Proof.
  intros HA HB Ht Hu Ho Hd. assert (Lo : (loc o < hnext h)%nat) by apply Ho. unfold nd_cdya_ik.
  eapply WO_bind; [apply (dya_out_WO _ h A B o t u w T f g f0 HA HB Ht Hu Ho Hd)|].
  cbv beta. intros r h1 X1 [-> [E1 HD]].
  eapply WO_call; [apply (nd_astensor4_W (hnext h) h1 o _ T _ ltac:(lia) HD)|].
  intros D4 h2 F4 V4 HD4 X2. carry_ext X2.
  eapply WO_conseq; [|apply le_n|].
  - apply WO_W, (nd_swap_W (hnext h) h2 D4 i3333 i3333 1 2
             (fun '(i, j, l, m) => (i, l, j, m)) w T); cbn; try lia; auto using i3333_ok.
    + intros [[[i j] l] m]. reflexivity.
    + exact HD4.
  - cbv beta. intros r h' _ [-> [Hl Hr]]. split; [split; hlia|]. split; [|exact HD].
    eapply hrel_fun; [exact Hr|]. intros k Hk [[[i j] l] m]. reflexivity.
Qed.
Lemma cdya_il_out_WO h A B o t u w T f g f0 : hrel h A i6 t T f -> hrel h B i6 u T g -> sub t w -> sub u w ->
  hrel h o i66 w T f0 -> distinct o ->
  WO o (hnext h) h (nd_cdya_il A B (Some o)) (fun r h' => fresh h h' r /\
    hrel h' r i3333 w T (fun k '(i, j, l, m) => cdya_il (f k) (g k) i j l m) /\
    hrel h' o i66 w T (fun k '(v, q) => dya (f k) (g k) v q)).
Proof.
  intros HA HB Ht Hu Ho Hd. assert (Lo : (loc o < hnext h)%nat) by apply Ho. unfold nd_cdya_il.
  eapply WO_bind; [apply (dya_out_WO _ h A B o t u w T f g f0 HA HB Ht Hu Ho Hd)|].
  cbv beta. intros r h1 X1 [-> [E1 HD]].
  eapply WO_call; [apply (nd_astensor4_W (hnext h) h1 o _ T _ ltac:(lia) HD)|].
  intros D4 h2 F4 V4 HD4 X2. carry_ext X2.
  eapply WO_conseq; [|apply le_n|].
  - apply WO_W, (nd_swap_W (hnext h) h2 D4 i3333 i3333 1 3
             (fun '(i, j, l, m) => (i, m, l, j)) w T); cbn; try lia; auto using i3333_ok.
    + intros [[[i j] l] m]. reflexivity.
    + exact HD4.
  - cbv beta. intros r h' _ [-> [Hl Hr]]. split; [split; hlia|]. split; [|exact HD].
    eapply hrel_fun; [exact Hr|]. intros k Hk [[[i j] l] m]. reflexivity.
Qed.

(** *** cdya *)
Notation G21 f l := (fun (k : index) (i : ity (iN 21)) => f k (of6 (nth (proj1_sig i) l 0%nat))).
Lemma cdya_out_WO h same A B o t u w T f g f0 : hrel h A i6 t T f -> hrel h B i6 u T g ->
  sub t w -> sub u w -> hrel h o i66 w T f0 -> distinct o ->
  WO o (hnext h) h (nd_cdya same A B (Some o)) (fun r h' => r = o /\
    hrel h' o i66 w T (fun k '(v, q) => cdya_obj same (f k) (g k) v q)).
Proof.
  intros HA HB Ht Hu Hout Hdis. pose proof HA as [HlA [A1 [A2 [A3 A4]]]]. cbn [contents shp] in A1.
  pose proof HB as [HlB [B1 [B2 [B3 B4]]]]. cbn [contents shp] in B1.
  assert (Lo : (loc o < hnext h)%nat) by apply Hout.
  assert (Hlt : length t = length T) by (destruct A3 as [A3|A3]; [discriminate|exact A3]).
  assert (Hlu : length u = length T) by (destruct B3 as [B3|B3]; [discriminate|exact B3]).
  assert (Hs : sub (bsh t u) w) by (destruct (bsh_ok t u w Ht Hu) as [_ [H _]]; exact H).
  destruct (bsh_ok _ _ _ A2 B2) as [H1 [H2 [H3 [H4 H5]]]].
  assert (Hlb : length (bsh t u) = length T) by lia.
  set (s := bsh t u) in *.
  unfold nd_cdya.
  apply (WO_lift_bind _ _ _ _ (idim i6 ++ s)).
  { rewrite A1, B1. apply broadcast_lead; auto. lia. }
  eapply WO_bindW; [apply (W_ret _ _ _ (fun r h' => r = o /\ h' = h)); auto|].
  cbv beta. intros r h' _ [-> ->].
  rename h into h1.
  eapply WO_bindW; [apply (broadcast_view_W _ h1 A i6 t s T f i6_ok HA H3 H2 (or_intror Hlb))|].
  cbv beta. intros A' h' _ [-> [LA HA']]. clear HA.
  eapply WO_bindW; [apply (broadcast_view_W _ h1 B i6 u s T g i6_ok HB H4 H2 (or_intror Hlb))|].
  cbv beta. intros B' h' _ [-> [LB HB']]. clear HB.
  assert (LA' : (loc A' < hnext h1)%nat) by lia. assert (LB' : (loc B' < hnext h1)%nat) by lia.
  eapply WO_call; [apply (fancy21_W (hnext h1) h1 A' l_ik s T f ltac:(hlia) HA' eq_refl l_ik6)|].
  intros Aik h2 F2 V2 HAik X2. carry_ext X2.
  eapply WO_call; [apply (fancy21_W (hnext h1) h2 B' l_jl s T g ltac:(hlia) HB' eq_refl l_jl6)|].
  intros Bjl h3 F3 V3 HBjl X3. carry_ext X3.
  eapply WO_call; [apply (fancy21_W (hnext h1) h3 A' l_il s T f ltac:(hlia) HA' eq_refl l_il6)|].
  intros Ail h4 F4 V4 HAil X4. carry_ext X4.
  eapply WO_call; [apply (fancy21_W (hnext h1) h4 B' l_kj s T g ltac:(hlia) HB' eq_refl l_kj6)|].
  intros Bkj h5 F5 V5 HBkj X5. carry_ext X5.
  eapply WO_bindW.
  { apply (np_bin_out_W Rmult (hnext h1) h5 Aik Bjl Aik (iN 21) s s s T _ _ _ (iN_ok 21)
             ltac:(hlia) V2 HAik HBjl HAik (sub_refl s) (sub_refl s)). }
  intros r h6 _ [-> [W6 Hx]]. clear HAik. carry_wrote W6.
  eapply WO_bindW.
  { apply (np_bin_out_W Rmult (hnext h1) h6 Ail Bkj Ail (iN 21) s s s T _ _ _ (iN_ok 21)
             ltac:(hlia) V4 HAil HBkj HAil (sub_refl s) (sub_refl s)). }
  intros r h7 _ [-> [W7 Hy]]. clear HAil. carry_wrote W7.
  eapply WO_call; [apply (np_bin_W Rplus (hnext h1) h7 Aik Ail (iN 21) s s T _ _ (iN_ok 21)
             ltac:(hlia) Hx Hy)|].
  rewrite bsh_refl. intros vals h8 F8 V8 Hvals X8. carry_ext X8.
  eapply (WO_bindW _ _ h8 _ _ (fun r h9 => ext (hnext h7) h8 h9 /\ fresh h7 h9 r /\
     hrel h9 r (iN 21) s T (fun k i => cdya_F same f g k (proj1_sig i)))).
  { eapply (W_conseq _ (hnext h7) _ _ (fun r h9 => fresh h7 h9 r /\
     hrel h9 r (iN 21) s T (fun k i => cdya_F same f g k (proj1_sig i))));
      [|hlia|cbv beta; intros a h9 X [Y1 Y2]; exact (conj X (conj Y1 Y2))].
    clear Hout. destruct same.
    - eapply W_call; [apply (W_alloc (hnext h7) h8 (num 2) iS [] T (fun _ _ => 2) ltac:(hlia)
                        (rel_num 2 T))|].
      intros two h9 F9 V9 H9 X9. carry_ext X9.
      eapply W_conseq; [|apply le_n|].
      { apply (np_bin_out_scal_W Rdiv (hnext h7) h9 vals two vals (iN 21) s [] s T _ _ _ (iN_ok 21)
          ltac:(hlia) V8 Hvals H9 Hvals (sub_refl s) (sub_nil s)). }
      cbv beta. intros r h10 _ [-> [W10 HR]]. split; [split; hlia|exact HR].
    - eapply W_call; [apply (fancy21_W (hnext h7) h8 B' l_ik s T g ltac:(hlia) HB' eq_refl l_ik6)|].
      intros Bik h9 F9 V9 HBik X9. carry_ext X9.
      eapply W_call; [apply (fancy21_W (hnext h7) h9 A' l_jl s T f ltac:(hlia) HA' eq_refl l_jl6)|].
      intros Ajl h10 F10 V10 HAjl X10. carry_ext X10.
      eapply W_call; [apply (fancy21_W (hnext h7) h10 B' l_il s T g ltac:(hlia) HB' eq_refl l_il6)|].
      intros Bil h11 F11 V11 HBil X11. carry_ext X11.
      eapply W_call; [apply (fancy21_W (hnext h7) h11 A' l_kj s T f ltac:(hlia) HA' eq_refl l_kj6)|].
      intros Akj h12 F12 V12 HAkj X12. carry_ext X12.
      eapply W_bind.
      { apply (np_bin_out_W Rmult (hnext h7) h12 Bik Ajl Bik (iN 21) s s s T _ _ _ (iN_ok 21)
                 ltac:(hlia) V9 HBik HAjl HBik (sub_refl s) (sub_refl s)). }
      intros r h13 _ [-> [W13 Hx']]. clear HBik. carry_wrote W13.
      eapply W_bind.
      { apply (np_bin_out_W Rmult (hnext h7) h13 Bil Akj Bil (iN 21) s s s T _ _ _ (iN_ok 21)
                 ltac:(hlia) V11 HBil HAkj HBil (sub_refl s) (sub_refl s)). }
      intros r h14 _ [-> [W14 Hy']]. clear HBil. carry_wrote W14.
      eapply W_call; [apply (np_bin_W Rplus (hnext h7) h14 Bik Bil (iN 21) s s T _ _ (iN_ok 21)
                 ltac:(hlia) Hx' Hy')|].
      rewrite bsh_refl. intros z h15 F15 V15 Hz X15. carry_ext X15.
      eapply W_bind.
      { apply (np_bin_out_W Rplus (hnext h7) h15 vals z vals (iN 21) s s s T _ _ _ (iN_ok 21)
                 ltac:(hlia) V8 Hvals Hz Hvals (sub_refl s) (sub_refl s)). }
      intros r h16 _ [-> [W16 Hvals2]]. clear Hvals. carry_wrote W16.
      eapply W_call; [apply (W_alloc (hnext h7) h16 (num 4) iS [] T (fun _ _ => 4) ltac:(hlia)
                        (rel_num 4 T))|].
      intros four h17 F17 V17 H17 X17. carry_ext X17.
      eapply W_conseq; [|apply le_n|].
      { apply (np_bin_out_scal_W Rdiv (hnext h7) h17 vals four vals (iN 21) s [] s T _ _ _
          (iN_ok 21) ltac:(hlia) V8 Hvals2 H17 Hvals2 (sub_refl s) (sub_nil s)). }
      cbv beta. intros r h18 _ [-> [W18 HR]]. split; [split; hlia|exact HR]. }
  cbv beta. intros vals' h9 _ [X9 [F9 Hv9]].
  assert (HO9 : hrel h9 o i66 w T f0).
  { eapply hrel_frame; [exact Hout|hlia|]. intros j. apply X9. hlia. }
  assert (L9 : (hnext h1 <= hnext h9)%nat) by hlia.
  eapply WO_bind.
  { eapply (WO_conseq _ (hnext h1) (hnext h9)); [|exact L9|intros a h' X Q; exact (conj X Q)].
    apply (set_pairs_WO (hnext h9) h9 o (combine l_ij l_kl) vals' s w T _ (cdya_F same f g)
             Hdis Hs HO9 Hv9). repeat constructor. }
  cbv beta. intros [] h10 _ [X10 [W10 HO10]].
  assert (Hv10 : hrel h10 vals' (iN 21) s T (fun k i => cdya_F same f g k (proj1_sig i))).
  { eapply hrel_only; [exact (iN_ok 21)|exact Hv9|exact X10|hlia|left; hlia]. }
  eapply WO_bind.
  { apply (set_pairs_WO (hnext h1) h10 o (combine l_kl l_ij) vals' s w T _ (cdya_F same f g)
             Hdis Hs HO10 Hv10). repeat constructor. }
  cbv beta. intros [] h11 _ [W11 HO11]. apply WO_ret.
  split; [reflexivity|].
  eapply hrel_fun; [exact HO11|]. intros k Hk [v q]. apply cdya_fill.
Qed.

(** *** tril_from_triu / triu_from_tril *)
Section C.
  Context (T : shape) (d1 d2 : nat) (a : arr) (Ha : shp a = d1 :: d2 :: T).
  Definition holdsv (h : heap) (o : nd) (f : nat -> nat -> index -> R) : Prop :=
    forall r c k, (r < d1)%nat -> (c < d2)%nat -> inb T k -> hcell h (loc o) (vw o (r :: c :: k)) = f r c k.
  Lemma set2_WO n h o f i j : nshp o = d1 :: d2 :: T -> distinct o ->
    (i < d2)%nat -> (j < d1)%nat -> (i < d1)%nat -> (j < d2)%nat -> holdsv h o f ->
    WO o n h (setrow o [j; i] {| shp := T; dat := fun k => dat a (i :: j :: k) |})
      (fun _ h' => hnext h' = hnext h /\ holdsv h' o (wr a (i, j) f)).
  Proof.
    intros H1 Hd Hi Hj Hi' Hj' H3. unfold setrow, in_prefix. rewrite H1. cbn [length Nat.leb combine forallb].
    destruct (Nat.ltb_spec j d1); [|lia]. destruct (Nat.ltb_spec i d2); [|lia]. cbn [andb].
    unfold assign.
    set (v := {| shp := T; dat := fun k => dat a (i :: j :: k) |}).
    assert (Hs : nshp (subview o [j; i]) = T) by (unfold subview; cbn [nshp length]; now rewrite H1).
    assert (B : broadcast_to v (nshp (subview o [j; i])) = Ok {| shp := T; dat := read v |}).
    { rewrite Hs. unfold broadcast_to. cbn [v shp]. rewrite broadcast_refl. cbn [rbind].
      destruct (list_eq_dec Nat.eq_dec T T); [reflexivity|congruence]. }
    assert (Hin : forall r c k, (r < d1)%nat -> (c < d2)%nat -> inb T k -> inb (nshp o) (r :: c :: k)).
    { intros. rewrite H1. cbn. auto. }
    rewrite B. unfold bind, lift. eexists _, _. split; [reflexivity|].
    split.
    { split; [auto|]. intros l q _ Hc. cbn [store fst hcell subview loc].
      destruct (Nat.eqb_spec l (loc o)) as [->|]; [|reflexivity].
      apply write_cell_out. rewrite Hs. intros k Hk E. apply Hc. split; [reflexivity|].
      exists (j :: i :: k). split; [now apply Hin|exact E]. }
    split; [reflexivity|]. intros r c k Hr Hc Hk. cbn [store fst hcell subview loc].
    rewrite Nat.eqb_refl. unfold wr. cbn [fst snd].
    destruct (Nat.eqb_spec r j) as [->|Nr]; [destruct (Nat.eqb_spec c i) as [->|Nc]|]; cbn [andb].
    - change (vw o (j :: i :: k)) with (vw (subview o [j; i]) k).
      rewrite write_cell_in.
      + unfold read. cbn [v shp dat]. now rewrite proj_self.
      + rewrite Hs. exact Hk.
      + rewrite Hs. cbn [subview vw]. intros k' Hk' E. apply Hd in E; [now injection E|now apply Hin|now apply Hin].
    - rewrite write_cell_out; [now apply H3|]. rewrite Hs. intros k' Hk' E. cbn [subview vw] in E.
      apply Hd in E; [|now apply Hin|now apply Hin]. cbn in E. congruence.
    - rewrite write_cell_out; [now apply H3|]. rewrite Hs. intros k' Hk' E. cbn [subview vw] in E.
      apply Hd in E; [|now apply Hin|now apply Hin]. cbn in E. congruence.
  Qed.
  Lemma eachv_WO n o (l : list (nat * nat)) : nshp o = d1 :: d2 :: T -> distinct o ->
    (forall i j, In (i, j) l -> (i < d1)%nat /\ (j < d2)%nat /\ (i < d2)%nat /\ (j < d1)%nat) ->
    forall h f, holdsv h o f ->
    WO o n h (each (combine l (map (fun '(i, j) => {| shp := T; dat := fun k => dat a (i :: j :: k) |}) l))
            (fun '((i, j), v) => setrow o [j; i] v))
      (fun _ h' => hnext h' = hnext h /\ holdsv h' o (fold_left (fun f p => wr a p f) l f)).
  Proof.
    intros H1 Hd H. induction l as [|[i j] l IH]; intros h f Hf; cbn [combine map each fold_left].
    - apply WO_ret. auto.
    - destruct (H i j (or_introl eq_refl)) as [A1 [A2 [A3 A4]]].
      eapply WO_bind; [apply (set2_WO n h o f i j H1 Hd A3 A4 A1 A2 Hf)|].
      intros _ h1 _ [E1 H1']. eapply WO_conseq; [apply IH; [intros; apply H; now right|exact H1']|apply le_n|].
      intros _ h2 _ [E2 H2]. split; [congruence|exact H2].
  Qed.
End C.
Lemma copy_pairs_WO n pairs h A o T d1 d2 : nshp A = d1 :: d2 :: T -> nshp o = d1 :: d2 :: T -> distinct o ->
  (forall i j, In (i, j) pairs -> (i < d1)%nat /\ (j < d2)%nat /\ (i < d2)%nat /\ (j < d1)%nat) ->
  WO o n h (copy_pairs pairs A (Some o)) (fun r h' => r = o /\
    forall k, inb T k -> forall p q, (p < d1)%nat -> (q < d2)%nat ->
      (In (q, p) pairs -> entry2 h' o k p q = entry2 h A k q p) /\
      (~ In (q, p) pairs -> entry2 h' o k p q = entry2 h o k p q)).
Proof.
  intros SA So Hd Hp. unfold copy_pairs.
  eapply WO_bindW; [apply (W_ret _ _ _ (fun r h' => r = o /\ h' = h)); auto|].
  cbv beta. intros r h' _ [-> ->]. apply WO_load_bind.
  set (a := contents h A). assert (Sa : shp a = d1 :: d2 :: T) by exact SA.
  eapply WO_lift_bind; [apply (collect_ok T d1 d2 a Sa); intros i j Hi; destruct (Hp i j Hi); tauto|].
  eapply WO_bind; [apply (eachv_WO T d1 d2 a n o pairs So Hd Hp h (fun r c k => entry2 h o k r c))|].
  { intros r c k _ _ _. reflexivity. }
  cbv beta. intros _ h2 _ [E2 H2]. apply WO_ret. split; [reflexivity|].
  intros k Hk p q Hp' Hq'. unfold entry2 at 1 3. cbn [contents dat]. rewrite (H2 p q k Hp' Hq' Hk).
  split; intros Hi; [now rewrite wr_in|now rewrite wr_out].
Qed.

(** *** Calls that raise before they write to [o] *)
Definition WR {A} (n : nat) (h : heap) (m : M A) (e : exn) : Prop := exists h', m h = (h', Raise e) /\ ext n h h'.
Lemma WR_bind {A B} n h (m : M A) (k : A -> M B) Q e : W n h m Q ->
  (forall a h', ext n h h' -> Q a h' -> WR n h' (k a) e) -> WR n h (bind m k) e.
Proof.
  intros [a [h' [E [X HQ]]]] H. destruct (H a h' X HQ) as [h2 [E2 X2]]. exists h2. split; [|eapply ext_trans; eauto].
  unfold bind. rewrite E. exact E2.
Qed.
Lemma WR_call {B} n h (m : M nd) (k : nd -> M B) I t T f e : W n h m (gives h I t T f) ->
  (forall a h', fresh h h' a -> (forall k, vw a k = k) -> hrel h' a I t T f -> ext (hnext h) h h' -> WR n h' (k a) e) ->
  WR n h (bind m k) e.
Proof. intros H1 H2. eapply WR_bind; [exact H1|]. intros a h' _ [A1 [A2 [A3 A4]]]. now apply H2. Qed.
Lemma WR_raise {A B} n h (m : M A) (k : A -> M B) e : WR n h m e -> WR n h (bind m k) e.
Proof. intros [h' [E X]]. exists h'. split; [|exact X]. unfold bind. rewrite E. reflexivity. Qed.
Lemma assign_WR n h o z s : shp z = s -> (forall r, broadcast_shapes s (nshp o) = Ok r -> r <> nshp o) ->
  WR n h (assign o z) ValueError.
Proof.
  intros Hs Hn. exists h. split; [|apply ext_refl]. unfold assign, bind, lift, broadcast_to. rewrite Hs.
  destruct (broadcast_shapes s (nshp o)) as [r|e] eqn:E; cbn [rbind].
  - destruct (list_eq_dec Nat.eq_dec r (nshp o)) as [->|]; [now destruct (Hn _ eq_refl)|reflexivity].
  - unfold broadcast_shapes in E. destruct (bcr _ _); [discriminate|]. now injection E as <-.
Qed.
Lemma inv_out_WR h A o t f : hrel h A i6 t t f ->
  (forall r, broadcast_shapes (6%nat :: t) (nshp o) = Ok r -> r <> nshp o) ->
  WR (hnext h) h (nd_inv A None (Some o)) ValueError.
Proof.
  intros HA Hn. unfold nd_inv.
  eapply WR_call.
  { eapply (W_alloc _ h (zeros (nshp A)) i6 t t (fun _ _ => 0)); auto.
    destruct HA as [_ [H1 [H2 [H3 H4]]]]. repeat split; auto. }
  intros z h1 Fz _ _ X1. carry_ext X1.
  eapply WR_call; [apply (nd_det_W (hnext h) h1 A t t f); auto; hlia|].
  intros dA h2 FdA _ _ X2. carry_ext X2.
  eapply WR_call; [apply (fancy6_W _ h2 A _ inv_i t t f); auto; [hlia|intros []; reflexivity]|].
  intros Ai h3 F3 V3 HAi X3. carry_ext X3.
  eapply WR_call; [apply (fancy6_W _ h3 A _ inv_j t t f); auto; [hlia|intros []; reflexivity]|].
  intros Aj h4 F4 V4 HAj X4. carry_ext X4.
  eapply WR_call; [apply (fancy6_W _ h4 A _ inv_k t t f); auto; [hlia|intros []; reflexivity]|].
  intros Ak h5 F5 V5 HAk X5. carry_ext X5.
  eapply WR_call; [apply (fancy6_W _ h5 A _ inv_l t t f); auto; [hlia|intros []; reflexivity]|].
  intros Al h6 F6 V6 HAl X6. carry_ext X6.
  eapply WR_bind.
  { apply (np_bin_out_W Rmult (hnext h) h6 Ai Aj Ai i6 t t t t _ _ _ i6_ok ltac:(hlia) V3 HAi HAj HAi (sub_refl t) (sub_refl t)). }
  intros r h7 _ [-> [W7 HAij]]. clear HAi HA. carry_wrote W7.
  eapply WR_bind.
  { apply (np_bin_out_W Rmult (hnext h) h7 Ak Al Ak i6 t t t t _ _ _ i6_ok ltac:(hlia) V5 HAk HAl HAk (sub_refl t) (sub_refl t)). }
  intros r h8 _ [-> [W8 HAkl]]. clear HAk. carry_wrote W8.
  apply WR_raise. unfold np_bin_out. 
  destruct (vbin_same Rminus i6 t t t _ _ _ _ i6_ok (proj2 HAij) (proj2 HAkl)) as [y [Hy Hr]].
  unfold WR, bind, load, lift. rewrite Hy.
  destruct (assign_WR (hnext h) h8 o y (6%nat :: t)) as [h9 [E9 X9]]; [|exact Hn|].
  { replace (6%nat :: t) with (idim i6 ++ bsh t t) by (rewrite bsh_refl; reflexivity). apply Hr. }
  exists h9. rewrite E9. auto.
Qed.
