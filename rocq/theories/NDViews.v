(** * Views, masked selection and loops with scratch arrays (proofs). *)
From Coq Require Import Reals List Arith Lia Lra.
From Verif Require Import Tensor Py Voigt Models.
From Verif Require Import NDCore NDRel NDOps NDHeap NDVoigt NDMath NDMath2 NDSpaces NDFrameworks.
Import ListNotations.
Local Open Scope R_scope.

(** [b] shows the components [emb j] of [a]. *)
Record is_view (I J : ixt) (t : shape) (emb : ity J -> ity I) (a b : nd) : Prop := {
  iv_loc : loc b = loc a;
  iv_shp : nshp b = idim J ++ t;
  iv_vw : forall j k, vw b (ienc J j ++ k) = vw a (ienc I (emb j) ++ k)
}.
Lemma view_hrel I J t T emb a b h f : is_view I J t emb a b -> (idim J = [] \/ length t = length T) ->
  hrel h a I t T f -> hrel h b J t T (fun k j => f k (emb j)).
Proof.
  intros [V1 V2 V3] HL [A0 [A1 [A2 [A3 A4]]]]. split; [now rewrite V1|].
  split; [exact V2|]. split; [exact A2|]. split; [exact HL|].
  intros k Hk j. cbn [contents dat]. rewrite V1, V3. exact (A4 k Hk (emb j)).
Qed.
Lemma sub36 h Ms al T t f : hrel h Ms i36 t T f ->
  hrel h (subview Ms [n3 al]) i6 t T (fun k v => f k (al, v)).
Proof.
  intros H. pose proof H as [_ [S1 [_ [S3 _]]]]. cbn [contents shp] in S1.
  eapply (view_hrel i36 i6 t T (fun v => (al, v)) Ms); [|right|exact H].
  - constructor; [reflexivity| |].
    + cbn [subview nshp length]. rewrite S1. reflexivity.
    + intros j k. reflexivity.
  - destruct S3 as [S3|S3]; [discriminate|exact S3].
Qed.
Lemma sub3 h d al T t f : hrel h d i3 t T f ->
  hrel h (subview d [n3 al]) iS t T (fun k _ => f k al).
Proof.
  intros H. pose proof H as [_ [S1 [_ [S3 _]]]]. cbn [contents shp] in S1.
  eapply (view_hrel i3 iS t T (fun _ => al) d); [|now left|exact H].
  constructor; [reflexivity| |].
  - cbn [subview nshp length]. rewrite S1. reflexivity.
  - intros [] k. reflexivity.
Qed.

(** Assignment to a view. *)
Lemma W_assign_view n h a b v I J t u T emb out f g : ixt_ok I -> ixt_ok J ->
  (n <= loc a)%nat -> (forall k, vw a k = k) -> is_view I J t emb a b ->
  (forall i j, out i = Some j <-> emb j = i) -> (forall j j', ienc J j = ienc J j' -> j = j') ->
  (forall i i', ienc I i = ienc I i' -> i = i') ->
  (idim J = [] \/ length t = length T) ->
  hrel h a I t T f -> rel J u T v g -> sub u t ->
  W n h (assign b v) (fun _ h' => wrote (loc a) h h' /\
    hrel h' a I t T (fun k i => match out i with Some j => g k j | None => f k i end)).
Proof.
  intros HI HJ Hn Hid [V1 V2 V3] Hout InjJ InjI HL [A0 [A1 [A2 [A3 A4]]]] Hv Hu.
  cbn [contents shp] in A1.
  destruct (broadcast_to_rel J u t T v g HJ Hv Hu A2 HL) as [w [Hw Hr]].
  unfold assign. rewrite V2, Hw. unfold bind, lift. eexists _, _. split; [reflexivity|].
  pose proof (store_wrote b (dat w) h) as Hst. rewrite V1 in Hst.
  split; [eapply wrote_ext; eauto|]. split; [exact Hst|].
  split; [exact A0|]. destruct Hr as [R1 [R2 [R3 R4]]].
  split; [exact A1|]. split; [exact A2|]. split; [exact A3|].
  intros k Hk i. cbn [contents dat store fst hcell]. rewrite V1, Nat.eqb_refl, Hid.
  assert (Hpk : inb t (proj t k)) by (eapply inb_proj; eauto).
  destruct (out i) as [j|] eqn:E.
  - apply Hout in E. subst i. rewrite <- (R4 k Hk j).
    rewrite <- (Hid (ienc I (emb j) ++ proj t k)), <- V3. apply write_cell_in.
    + rewrite V2. apply inb_app; [now apply ix_len|]. split; [now apply ix_inb|exact Hpk].
    + rewrite V2. intros k' Hk' Hk''.
      assert (Hl : length k' = (length (idim J) + length t)%nat) by (apply inb_length in Hk'; now rewrite app_length in Hk').
      assert (Hkf : length (firstn (length (idim J)) k') = length (idim J)) by (rewrite firstn_length; lia).
      rewrite <- (firstn_skipn (length (idim J)) k') in Hk', Hk'' |- *.
      apply inb_app in Hk'; [|exact Hkf]. destruct Hk' as [K1 K2].
      destruct (ix_all J HJ _ K1) as [j' Ej]. rewrite <- Ej in *.
      rewrite !V3, !Hid in Hk''.
      assert (Q : ienc I (emb j') = ienc I (emb j) /\ skipn (length (idim J)) k' = proj t k).
      { revert Hk''. generalize (ix_len I (emb j') HI) (ix_len I (emb j) HI).
        generalize (ienc I (emb j')) (ienc I (emb j)) (skipn (length (idim J)) k') (proj t k) (length (idim I)).
        intros p; induction p as [|x p IH]; intros [|y q] r s n0; cbn; try lia; auto.
        intros H1 H2 [= -> H3]. destruct n0; [lia|]. injection H1 as H1. injection H2 as H2.
        destruct (IH q r s n0 H1 H2 H3) as [-> ->]. auto. }
      destruct Q as [Q1 Q2]. apply InjI in Q1.
      assert (E1 : out (emb j) = Some j') by (now apply Hout).
      assert (E2 : out (emb j) = Some j) by (now apply Hout).
      rewrite E1 in E2. injection E2 as ->. now rewrite Q2.
  - rewrite write_cell_out.
    + rewrite <- (A4 k Hk i). cbn [contents dat]. now rewrite Hid.
    + rewrite V2. intros k' Hk' Hk''.
      assert (Hl : length k' = (length (idim J) + length t)%nat) by (apply inb_length in Hk'; now rewrite app_length in Hk').
      assert (Hkf : length (firstn (length (idim J)) k') = length (idim J)) by (rewrite firstn_length; lia).
      rewrite <- (firstn_skipn (length (idim J)) k') in Hk', Hk''.
      apply inb_app in Hk'; [|exact Hkf]. destruct Hk' as [K1 K2].
      destruct (ix_all J HJ _ K1) as [j' Ej]. rewrite <- Ej in *.
      rewrite V3, Hid in Hk''.
      assert (Q : ienc I (emb j') = ienc I i).
      { revert Hk''. generalize (ix_len I (emb j') HI) (ix_len I i HI).
        generalize (ienc I (emb j')) (ienc I i) (skipn (length (idim J)) k') (proj t k) (length (idim I)).
        intros p; induction p as [|x p IH]; intros [|y q] r s n0; cbn; try lia; auto.
        intros H1 H2 [= -> H3]. destruct n0; [lia|]. injection H1 as H1. injection H2 as H2.
        now rewrite (IH q r s n0 H1 H2 H3). }
      apply InjI in Q. apply Hout in Q. congruence.
Qed.

Lemma inj3 j j' : ienc i3 j = ienc i3 j' -> j = j'.
Proof. destruct j, j'; cbn; intros [=]; reflexivity. Qed.
Lemma inj6 j j' : ienc i6 j = ienc i6 j' -> j = j'.
Proof. destruct j, j'; cbn; intros [=]; reflexivity. Qed.

(** [a[:3]] and [a[3:]] of a (6, ...) array. *)
Definition hd6 (a : ix3) : ix6 := match a with X0 => V0 | X1 => V1 | X2 => V2 end.
Definition tl6 (a : ix3) : ix6 := match a with X0 => V3 | X1 => V4 | X2 => V5 end.
Definition hd6' (v : ix6) : option ix3 :=
  match v with V0 => Some X0 | V1 => Some X1 | V2 => Some X2 | _ => None end.
Definition tl6' (v : ix6) : option ix3 :=
  match v with V3 => Some X0 | V4 => Some X1 | V5 => Some X2 | _ => None end.
Lemma head_is_view h a t T f : hrel h a i6 t T f -> is_view i6 i3 t hd6 a (head_view 3 a).
Proof.
  intros [_ [S1 _]]. cbn [contents shp] in S1. constructor; [reflexivity| |].
  - cbn [head_view nshp]. rewrite S1. reflexivity.
  - intros [] k; reflexivity.
Qed.
Lemma tail_is_view h a t T f : hrel h a i6 t T f -> is_view i6 i3 t tl6 a (tail_view 3 a).
Proof.
  intros [_ [S1 _]]. cbn [contents shp] in S1. constructor; [reflexivity| |].
  - cbn [tail_view nshp]. rewrite S1. reflexivity.
  - intros [] k; reflexivity.
Qed.
Lemma hd6_out i j : hd6' i = Some j <-> hd6 j = i.
Proof. destruct i, j; cbn; split; intros [=]; reflexivity. Qed.
Lemma tl6_out i j : tl6' i = Some j <-> tl6 j = i.
Proof. destruct i, j; cbn; split; intros [=]; reflexivity. Qed.

(** [a op= e] on a view of three components; [e] has three components or none. *)
Section InplaceView.
  Context (op : R -> R -> R) (n : nat) (h : heap) (a b : nd) (t u T : shape)
    (emb : ix3 -> ix6) (out : ix6 -> option ix3) (f : index -> ix6 -> R).
  Hypothesis Hn : (n <= loc a)%nat.
  Hypothesis Hid : forall k, vw a k = k.
  Hypothesis Hb : is_view i6 i3 t emb a b.
  Hypothesis Hout : forall i j, out i = Some j <-> emb j = i.
  Hypothesis Ha : hrel h a i6 t T f.
  Hypothesis Hu : sub u t.
  Lemma inplace_view_W e (g : index -> ix3 -> R) : RR i3 u T e g ->
    W n h (inplace op b e) (fun _ h' => wrote (loc a) h h' /\
      hrel h' a i6 t T (fun k i => match out i with Some j => op (f k i) (g k j) | None => f k i end)).
  Proof.
    intros [y [-> Hy]]. unfold inplace. apply (W_lift_bind _ _ _ y _ _ eq_refl). apply W_load_bind.
    assert (HL : length t = length T) by (destruct Ha as [_ [_ [_ [[H|H] _]]]]; [discriminate|exact H]).
    pose proof (view_hrel i6 i3 t T emb a b h f Hb (or_intror HL) Ha) as [_ Hb'].
    destruct (vbin_same op i3 t u T _ y _ g i3_ok Hb' Hy) as [z [Ez Hz]].
    rewrite (bsh_sub_r u t Hu) in Hz. apply (W_lift_bind _ _ _ z _ _ Ez).
    eapply W_conseq; [apply (W_assign_view n h a b z i6 i3 t t T emb out f _ i6_ok i3_ok Hn Hid Hb Hout inj3 inj6
      (or_intror HL) Ha Hz (sub_refl t))|apply le_n|].
    cbv beta. intros _ h' _ [W1 H1]. split; [exact W1|]. eapply hrel_fun; [exact H1|].
    intros k Hk i. cbv beta. destruct (out i) as [j|] eqn:E; [|reflexivity]. apply Hout in E. now subst.
  Qed.
  Lemma inplace_view_S e (g : index -> R) : RR iS u T e (fun k _ => g k) ->
    W n h (inplace op b e) (fun _ h' => wrote (loc a) h h' /\
      hrel h' a i6 t T (fun k i => match out i with Some _ => op (f k i) (g k) | None => f k i end)).
  Proof.
    intros [y [-> Hy]]. unfold inplace. apply (W_lift_bind _ _ _ y _ _ eq_refl). apply W_load_bind.
    assert (HL : length t = length T) by (destruct Ha as [_ [_ [_ [[H|H] _]]]]; [discriminate|exact H]).
    pose proof (view_hrel i6 i3 t T emb a b h f Hb (or_intror HL) Ha) as [_ Hb'].
    destruct (vbin_scal_r op i3 t u T _ y _ _ i3_ok Hb' Hy) as [z [Ez Hz]].
    rewrite (bsh_sub_r u t Hu) in Hz. apply (W_lift_bind _ _ _ z _ _ Ez).
    eapply W_conseq; [apply (W_assign_view n h a b z i6 i3 t t T emb out f _ i6_ok i3_ok Hn Hid Hb Hout inj3 inj6
      (or_intror HL) Ha Hz (sub_refl t))|apply le_n|].
    cbv beta. intros _ h' _ [W1 H1]. split; [exact W1|]. eapply hrel_fun; [exact H1|].
    intros k Hk i. cbv beta. destruct (out i) as [j|] eqn:E; [|reflexivity]. apply Hout in E. now subst.
  Qed.
End InplaceView.

(** [x.reshape(-1, 1, ...) * y] of a (3, ...) and a (3, 6, ...) array. *)
Lemma col36 op t u T a b f g : rel i3 t T a f -> rel i36 u T b g ->
  RR i36 (bsh t u) T (rbin op (reshape_col a) (Ok b)) (fun k '(p, v) => op (f k p) (g k (p, v))).
Proof.
  intros Ha Hb. pose proof Ha as [A1 [A2 [A3 A4]]]. pose proof Hb as [B1 [B2 [B3 B4]]].
  assert (Hlt : length t = length T) by (eapply rel_len; eauto; discriminate).
  assert (Hlu : length u = length T) by (eapply rel_len; eauto; discriminate).
  destruct (bsh_ok _ _ _ A2 B2) as [H1 [H2 [H3 [H4 H5]]]].
  unfold reshape_col. rewrite A1. cbn [idim i3 app rbin rbind]. unfold vbin. cbn [shp]. rewrite B1. change (idim i36 ++ u) with ([3; 6]%nat ++ u).
  change (3%nat :: 1%nat :: t) with ([3; 1]%nat ++ t).
  rewrite (broadcast_lead [3; 1]%nat [3; 6]%nat [3; 6]%nat t u _ H1 (eq_trans Hlt (eq_sym Hlu)) eq_refl). cbn [rbind].
  apply RR_ok. split; [reflexivity|]. split; [exact H2|]. split; [right; rewrite H5; lia|].
  intros k Hk [p v]. pose proof (inb_length _ _ Hk) as Hkl. pose proof (sub_length _ _ H2).
  cbn [dat]. unfold read. rewrite B1. cbn [shp dat].
  change (3%nat :: 1%nat :: t) with ([3; 1]%nat ++ t).
  rewrite !proj_app by (rewrite proj_length; lia). rewrite !proj_sub by (auto; lia).
  rewrite (ix_proj i36 (p, v) i36_ok), (B4 k Hk (p, v)).
  change (proj [3; 1]%nat (ienc i36 (p, v))) with [n3 p; 0%nat]. cbn [app].
  change (n3 p :: proj t k) with (ienc i3 p ++ proj t k). now rewrite (A4 k Hk p).
Qed.

(** Lines 173-177 of _stretches.py *)
Lemma masked_RR t T v x y u w f g e : rel iS t T v (fun k _ => f k) ->
  rel iS u T x (fun k _ => g k) -> rel iS w T y (fun k _ => e k) -> sub u t -> sub w t ->
  RR iS t T (masked v x y) (fun k _ => if isclose (f k) 0 then g k else e k).
Proof.
  intros [A1 [A2 [A3 A4]]] [B1 [B2 [B3 B4]]] [C1 [C2 [C3 C4]]] Hu Hw. unfold masked. apply RR_ok.
  split; [exact A1|]. split; [exact A2|]. split; [now left|].
  intros k Hk []. cbn [dat ienc iS app]. pose proof (A4 k Hk tt) as E. cbn [ienc iS app] in E. rewrite E.
  pose proof (inb_length _ _ Hk). pose proof (sub_length _ _ A2).
  unfold read. rewrite B1, C1. cbn [idim iS app]. rewrite !proj_sub by (auto; lia).
  pose proof (B4 k Hk tt) as E1. pose proof (C4 k Hk tt) as E2. cbn [ienc iS app] in E1, E2. now rewrite E1, E2.
Qed.

(** A loop with an invariant. *)
Lemma each_fold_W {X S} n (body : X -> M unit) (P : S -> heap -> Prop) (step : X -> S -> S) l :
  (forall x s h, In x l -> P s h -> W n h (body x) (fun _ h' => P (step x s) h')) ->
  forall s h, P s h -> W n h (each l body) (fun _ h' => P (fold_left (fun s x => step x s) l s) h').
Proof.
  induction l as [|x l IH]; intros Hb s h Hs; cbn [each fold_left].
  - now apply W_ret.
  - eapply W_bind; [apply (Hb x s h (or_introl eq_refl) Hs)|]. cbv beta. intros _ h' _ Hs'.
    apply IH; auto. intros y s0 h0 Hy. apply Hb. now right.
Qed.
