(** * Operands with different numbers of trailing axes (C66). *)
From Coq Require Import Reals List Arith Lia Lra.
From Verif Require Import Tensor Py Voigt NDCore NDRel NDOps NDHeap NDVoigt NDMath NDMath2 NDMath3 NDSpec NDRaise.
Import ListNotations.
Local Open Scope R_scope.

(** [rel] without the condition on the number of axes. *)
Definition relw (I : ixt) (t T : shape) (v : arr) (f : index -> ity I -> R) : Prop :=
  shp v = idim I ++ t /\ sub t T /\ forall k, inb T k -> forall i, dat v (ienc I i ++ proj t k) = f k i.
Definition hrelw (h : heap) (a : nd) (I : ixt) (t T : shape) (f : index -> ity I -> R) : Prop :=
  (loc a < hnext h)%nat /\ relw I t T (contents h a) f.
Lemma hrelw_frame h h' a I t T f : hrelw h a I t T f ->
  (hnext h <= hnext h')%nat -> (forall j, hcell h' (loc a) j = hcell h (loc a) j) -> hrelw h' a I t T f.
Proof.
  intros [H1 [H2 [H3 H4]]] Hn Hc. split; [lia|]. repeat split; auto.
  intros k Hk i. rewrite <- (H4 k Hk i). cbn. apply Hc.
Qed.
Lemma hrelw_ext h h' a I t T f : hrelw h a I t T f -> ext (hnext h) h h' -> hrelw h' a I t T f.
Proof. intros H [E1 E2]. eapply hrelw_frame; eauto. intros j. apply E2. apply H. Qed.
Lemma hrelw_wrote l h h' a I t T f : hrelw h a I t T f -> wrote l h h' -> loc a <> l -> hrelw h' a I t T f.
Proof. intros H [H1 H2] Hl. eapply hrelw_frame; [exact H|lia|]. intros j. now apply H2. Qed.
Lemma hrelw_value h a I t T : field h a I t -> sub t T -> hrelw h a I t T (value h a I).
Proof.
  intros [H1 H2] Hs. split; [exact H1|]. split; [exact H2|]. split; [exact Hs|].
  intros k Hk i. unfold value. rewrite H2, skipn_app, skipn_all, Nat.sub_diag. reflexivity.
Qed.
Lemma broadcast_sub t u T : broadcast_shapes t u = Ok T -> sub t T /\ sub u T /\ bsh t u = T.
Proof.
  intro H. unfold bsh. rewrite H. unfold broadcast_shapes in H.
  destruct (bcr (rev t) (rev u)) as [w|] eqn:Ew; [|discriminate]. injection H as <-.
  destruct (bcr_subs _ _ _ Ew) as [H1 H2]. unfold sub. rewrite !rev_involutive. auto.
Qed.
Lemma op_value_relw I l t w T v f e k (i : ity I) : ixt_ok I -> relw I t T v f -> sub t w ->
  sub w T -> inb T k -> ienc I i = map e l ->
  op_value e (proj w k)
    {| o_term := tm l; o_arr := v; o_pre := idim I; o_ell := t; o_post := [] |} = f k i.
Proof.
  intros HI [H1 [H2 H4]] Ht HT Hk He. unfold op_value, tm.
  cbn [o_term o_arr o_pre o_ell o_post pre post map].
  pose proof (inb_length _ _ Hk). pose proof (sub_length _ _ HT).
  rewrite <- He, ix_proj by assumption. change (proj [] []) with (@nil nat). rewrite app_nil_r.
  rewrite proj_sub by (auto; lia). auto.
Qed.

Section Two.
  Context (t u T : shape) (HT : broadcast_shapes t u = Ok T).
  Ltac start Ha Hb := pose proof Ha as [A1 [A2 _]]; pose proof Hb as [B1 [B2 _]];
    destruct (bsh_ok _ _ _ A2 B2) as [H1 [H2 [H3 [H4 H5]]]];
    assert (ET : bsh t u = T) by exact (proj2 (proj2 (broadcast_sub _ _ _ HT))).
  Lemma v_ddot22_relw a b f g : relw i6 t T a f -> relw i6 u T b g ->
    RR iS (bsh t u) T (v_ddot22 a b) (fun k _ => ddot22 (f k) (g k)).
  Proof.
    intros Ha Hb. unfold v_ddot22. start Ha Hb. ddot_pre iS i6 i6 A1 A2 B1 B2.
    - exact iS_ok.
    - exact H2.
    - now left.
    - intros k Hk []. labels. rewrite sumN6. apply sum6_eq. intros i.
      rewrite (op_value_relw i6 _ t _ T a f _ k i i6_ok Ha H3 H2 Hk) by reflexivity.
      rewrite (op_value_relw i6 _ u _ T b g _ k i i6_ok Hb H4 H2 Hk) by reflexivity.
      rewrite (op_value_wt _ _ _ i) by reflexivity. symmetry. apply Rmult_assoc.
  Qed.
  Lemma v_ddot44_relw a b f g : relw i66 t T a f -> relw i66 u T b g ->
    RR i66 (bsh t u) T (v_ddot44 a b) (fun k '(v, w) => ddot44 (un66 f k) (un66 g k) v w).
  Proof.
    intros Ha Hb. unfold v_ddot44. start Ha Hb. ddot_pre i66 i66 i66 A1 A2 B1 B2.
    - exact i66_ok.
    - exact H2.
    - right. now rewrite ET.
    - intros k Hk [v w]. labels. rewrite sumN6. unfold ddot44. apply sum6_eq. intros i.
      rewrite (op_value_relw i66 _ t _ T a f _ k (v, i) i66_ok Ha H3 H2 Hk) by reflexivity.
      rewrite (op_value_relw i66 _ u _ T b g _ k (i, w) i66_ok Hb H4 H2 Hk) by reflexivity.
      rewrite (op_value_wt _ _ _ i) by reflexivity. symmetry. apply Rmult_assoc.
  Qed.
  Lemma v_ddot42_relw a b f g : relw i66 t T a f -> relw i6 u T b g ->
    RR i6 (bsh t u) T (v_ddot42 a b) (fun k v => ddot42 (un66 f k) (g k) v).
  Proof.
    intros Ha Hb. unfold v_ddot42. start Ha Hb. ddot_pre i6 i66 i6 A1 A2 B1 B2.
    - exact i6_ok.
    - exact H2.
    - right. now rewrite ET.
    - intros k Hk v. labels. rewrite sumN6. unfold ddot42. apply sum6_eq. intros i.
      rewrite (op_value_relw i66 _ t _ T a f _ k (v, i) i66_ok Ha H3 H2 Hk) by reflexivity.
      rewrite (op_value_relw i6 _ u _ T b g _ k i i6_ok Hb H4 H2 Hk) by reflexivity.
      rewrite (op_value_wt _ _ _ i) by reflexivity. symmetry. apply Rmult_assoc.
  Qed.
  Lemma v_ddot24_relw a b f g : relw i6 t T a f -> relw i66 u T b g ->
    RR i6 (bsh t u) T (v_ddot24 a b) (fun k v => ddot24 (f k) (un66 g k) v).
  Proof.
    intros Ha Hb. unfold v_ddot24. start Ha Hb. ddot_pre i6 i6 i66 A1 A2 B1 B2.
    - exact i6_ok.
    - exact H2.
    - right. now rewrite ET.
    - intros k Hk v. labels. rewrite sumN6. unfold ddot24. apply sum6_eq. intros i.
      rewrite (op_value_relw i6 _ t _ T a f _ k i i6_ok Ha H3 H2 Hk) by reflexivity.
      rewrite (op_value_relw i66 _ u _ T b g _ k (i, v) i66_ok Hb H4 H2 Hk) by reflexivity.
      rewrite (op_value_wt _ _ _ i) by reflexivity. symmetry. apply Rmult_assoc.
  Qed.
  Lemma row6w p t' v f : (p < 6)%nat -> relw i6 t' T v f -> RR iS t' T (row p v) (fun k _ => f k (of6 p)).
  Proof.
    intros Hp [H1 [H2 H3]]. unfold row. rewrite H1. cbn [idim i6 app].
    destruct (Nat.ltb_spec p 6); [|lia]. apply RR_ok. split; [reflexivity|]. split; [exact H2|]. split; [now left|].
    intros k Hk []. cbn [dat iS ienc app]. rewrite <- (H3 k Hk (of6 p)). cbn [ienc i6]. now rewrite (n6_of6 p Hp).
  Qed.
  Lemma nd_dot_Ww n h A B f g : (n <= hnext h)%nat -> hrelw h A i6 t T f -> hrelw h B i6 u T g ->
    W n h (nd_dot A B) (gives h i33 (bsh t u) T (fun k '(i, j) => dot (f k) (g k) i j)).
  Proof.
    intros Hn HA HB. pose proof HA as [HlA [A1 [A2 A4]]]. cbn [contents shp] in A1.
    pose proof HB as [HlB [B1 [B2 B4]]]. cbn [contents shp] in B1.
    destruct (bsh_ok _ _ _ A2 B2) as [H1 [H2 [H3 [H4 H5]]]].
    assert (Hlb : length (bsh t u) = length T) by now rewrite (proj2 (proj2 (broadcast_sub _ _ _ HT))).
    unfold nd_dot. apply W_gives; [exact Hn|].
    apply (W_lift_bind _ _ _ (bsh t u)); [rewrite A1, B1; exact H1|].
    eapply W_call.
    { eapply (W_alloc _ h _ i33 (bsh t u) T (fun _ _ => 0)); auto. repeat split; auto. }
    intros C h1 FC VC HC X1.
    assert (HA1 := hrelw_ext _ _ _ _ _ _ _ HA X1).
    assert (HB1 := hrelw_ext _ _ _ _ _ _ _ HB X1).
    eapply W_bind.
    { apply (each_W (hnext h) C i33 (bsh t u) T _ (dot_up f g) dot_steps
               (fun h => hrelw h A i6 t T f /\ hrelw h B i6 u T g)); [|exact (conj HA1 HB1)|exact HC].
      intros [p q] h' c Hx [HA' HB'] HC'.
      apply W_load_bind, W_load_bind.
      assert (Hq : exists a b a' b' a'' b'', q = [(a, b); (a', b'); (a'', b'')] /\ inb (idim i33) p /\
         (a < 6 /\ b < 6 /\ a' < 6 /\ b' < 6 /\ a'' < 6 /\ b'' < 6)%nat).
      { clear - Hx. cbn in Hx.
        repeat (destruct Hx as [[= <- <-]|Hx];
          [do 6 eexists; split; [reflexivity|]; cbn; repeat split; auto; lia|]).
        destruct Hx. }
      destruct Hq as [a [b [a' [b' [a'' [b'' [-> [Hp Hb]]]]]]]].
      assert (HS : RR iS (bsh t u) T (dot_sum (contents h' A) (contents h' B) [(a, b); (a', b'); (a'', b'')])
        (fun k _ => f k (of6 a) * g k (of6 b) + f k (of6 a') * g k (of6 b') + f k (of6 a'') * g k (of6 b''))).
      { cbn [dot_sum]. eapply RR_conv.
        - rr_scal ltac:(fun _ => first [ apply (row6w _ t _ f); [lia|exact (proj2 HA')]
                                       | apply (row6w _ u _ g); [lia|exact (proj2 HB')] ]).
        - bshn; reflexivity.
        - reflexivity. }
      destruct HS as [v [Hv Hr]].
      apply (W_lift_bind _ _ _ v); [exact Hv|].
      eapply W_conseq.
      - apply (setrow_W (hnext h) h' C i33 _ _ T c _ v p i33_ok ltac:(hlia) VC HC' Hlb Hp Hr
                 (sub_refl _)).
      - auto.
      - cbv beta. intros [] h2 _ [W1 F1]. split; [|split; [exact W1|]].
        + split; eapply hrelw_wrote; eauto; hlia.
        + exact F1. }
    cbv beta. intros [] h2 _ [_ [W2 F2]]. apply W_ret.
    split; [split; hlia|]. split; [exact VC|].
    eapply hrel_fun; [exact F2|]. intros k Hk [i j].
    destruct i, j; reflexivity.
  Qed.
  Lemma nd_ddot22_Ww n h A B f g : (n <= hnext h)%nat -> hrelw h A i6 t T f -> hrelw h B i6 u T g ->
    W n h (nd_ddot22 A B) (gives h iS (bsh t u) T (fun k _ => ddot22 (f k) (g k))).
  Proof. intros Hn [_ HA] [_ HB]. apply W_load_bind, W_load_bind. now apply W_new, v_ddot22_relw. Qed.
  Lemma nd_ddot44_Ww n h A B f g : (n <= hnext h)%nat -> hrelw h A i66 t T f -> hrelw h B i66 u T g ->
    W n h (nd_ddot44 A B) (gives h i66 (bsh t u) T (fun k '(v, w) => ddot44 (un66 f k) (un66 g k) v w)).
  Proof. intros Hn [_ HA] [_ HB]. apply W_load_bind, W_load_bind. now apply W_new, v_ddot44_relw. Qed.
  Lemma nd_ddot42_Ww n h A B f g : (n <= hnext h)%nat -> hrelw h A i66 t T f -> hrelw h B i6 u T g ->
    W n h (nd_ddot42 A B) (gives h i6 (bsh t u) T (fun k v => ddot42 (un66 f k) (g k) v)).
  Proof. intros Hn [_ HA] [_ HB]. apply W_load_bind, W_load_bind. now apply W_new, v_ddot42_relw. Qed.
  Lemma nd_ddot24_Ww n h A B f g : (n <= hnext h)%nat -> hrelw h A i6 t T f -> hrelw h B i66 u T g ->
    W n h (nd_ddot24 A B) (gives h i6 (bsh t u) T (fun k v => ddot24 (f k) (un66 g k) v)).
  Proof. intros Hn [_ HA] [_ HB]. apply W_load_bind, W_load_bind. now apply W_new, v_ddot24_relw. Qed.
End Two.

(** ** Shapes: how two shapes of different length are aligned *)
Lemma bcr_long : forall s x y, (length s <= length x)%nat -> bcr s (x ++ y) = option_map (fun z => z ++ y) (bcr s x).
Proof.
  induction s as [|a s IH]; intros [|b x] y H; cbn [length] in H; try lia; try reflexivity.
  cbn [app bcr]. destruct (bdim a b) as [c|]; [|reflexivity].
  rewrite IH by lia. destruct (bcr s x) as [z|]; reflexivity.
Qed.
Lemma bdim_comm a b : bdim a b = bdim b a.
Proof.
  unfold bdim. destruct (Nat.eqb_spec a b), (Nat.eqb_spec b a); try congruence.
  destruct (Nat.eqb_spec a 1), (Nat.eqb_spec b 1); congruence.
Qed.
Lemma bcr_comm : forall s t, bcr s t = bcr t s.
Proof.
  induction s as [|a s IH]; intros [|b t]; try reflexivity. cbn [bcr]. rewrite bdim_comm, IH. reflexivity.
Qed.
Lemma bcr_end : forall x y a b, length x = length y ->
  bcr (x ++ [a]) (y ++ [b]) = match bcr x y, bdim a b with Some z, Some c => Some (z ++ [c]) | _, _ => None end.
Proof.
  induction x as [|i x IH]; intros [|j y] a b H; cbn [length] in H; try lia.
  - cbn. destruct (bdim a b); reflexivity.
  - cbn [app bcr]. rewrite (IH y a b) by lia. destruct (bdim i j); [|reflexivity].
    destruct (bcr x y); [|reflexivity]. destruct (bdim a b); reflexivity.
Qed.
(** The longer shape keeps its first axes. *)
Lemma broadcast_long a s x : (length s <= length x)%nat ->
  broadcast_shapes s (a :: x) = match broadcast_shapes s x with Ok z => Ok (a :: z) | Raise e => Raise e end.
Proof.
  intro H. unfold broadcast_shapes. cbn [rev]. rewrite bcr_long by now rewrite !rev_length.
  destruct (bcr (rev s) (rev x)) as [z|]; cbn [option_map]; [|reflexivity]. now rewrite rev_app_distr.
Qed.
(** First axes of the same rank meet each other. *)
Lemma broadcast_first a b x y : length x = length y ->
  broadcast_shapes (a :: x) (b :: y) =
  match broadcast_shapes x y, bdim a b with Ok z, Some c => Ok (c :: z) | _, _ => Raise ValueError end.
Proof.
  intro H. unfold broadcast_shapes. cbn [rev]. rewrite bcr_end by now rewrite !rev_length.
  destruct (bcr (rev x) (rev y)) as [z|]; [|reflexivity]. destruct (bdim a b); [|reflexivity]. now rewrite rev_app_distr.
Qed.
Lemma broadcast_raise s t e : broadcast_shapes s t = Raise e -> e = ValueError.
Proof. unfold broadcast_shapes. destruct (bcr _ _); congruence. Qed.
Lemma broadcast_len s t T : broadcast_shapes s t = Ok T -> length T = Nat.max (length s) (length t).
Proof.
  unfold broadcast_shapes. destruct (bcr (rev s) (rev t)) as [z|] eqn:E; [|discriminate]. intros [= <-].
  apply bcr_len in E. rewrite !rev_length in *. exact E.
Qed.

(** *** dya *)
Definition col_row (t u : shape) : Result shape := broadcast_shapes (6%nat :: 1%nat :: t) (1%nat :: 6%nat :: u).
Lemma dya_run h A B t u : field h A i6 t -> field h B i6 u ->
  match col_row t u with
  | Ok s => exists h' D, nd_dya A B None h = (h', Ok D) /\ nshp D = s /\ fresh h h' D /\ (forall k, vw D k = k) /\ untouched h h' /\
      forall k, dat (contents h' D) k = read {| shp := 6%nat :: 1%nat :: t; dat := fun k => match k with i :: _ :: k => dat (contents h A) (i :: k) | _ => 0 end |} k
        * read {| shp := 1%nat :: 6%nat :: u; dat := fun k => match k with _ :: i :: k => dat (contents h B) (i :: k) | _ => 0 end |} k
  | Raise e => nd_dya A B None h = (h, Raise ValueError)
  end.
Proof.
  intros [LA SA] [LB SB]. unfold nd_dya, bind, load, v_dya, rbin, reshape_col, reshape_row. cbn [contents shp]. rewrite SA, SB. cbn [idim i6 app rbind].
  unfold vbin. cbn [shp]. fold (col_row t u). destruct (col_row t u) as [s|e] eqn:E.
  - cbn [rbind]. unfold new, bind, lift, alloc. cbn [fst snd]. eexists _, _. split; [reflexivity|]. cbn [nshp loc vw shp].
    split; [reflexivity|]. split; [split; cbn; lia|]. split; [reflexivity|]. split.
    + split; [cbn; lia|]. intros l Hl j. cbn. destruct (Nat.eqb_spec l (hnext h)); [lia|reflexivity].
    + intro k. cbn [contents dat loc vw hcell]. rewrite Nat.eqb_refl. reflexivity.
  - cbn [rbind]. unfold new, bind, lift. apply broadcast_raise in E as ->. reflexivity.
Qed.
Lemma col_row_less t u s : (length t < length u)%nat -> col_row t u = Ok s -> exists r, s = 1%nat :: r /\ length r = S (length u).
Proof.
  intros H E. unfold col_row in E. rewrite broadcast_long in E by (cbn [length]; lia).
  destruct (broadcast_shapes _ (6%nat :: u)) as [z|] eqn:Ez; [|discriminate]. injection E as <-. exists z. split; [reflexivity|].
  apply broadcast_len in Ez. cbn [length] in Ez. lia.
Qed.
Lemma broadcast_shapes_comm s t : broadcast_shapes s t = broadcast_shapes t s.
Proof. unfold broadcast_shapes. now rewrite bcr_comm. Qed.
Lemma col_row_more t u s : (length u < length t)%nat -> col_row t u = Ok s -> exists r, s = 6%nat :: 1%nat :: r /\ length r = length t.
Proof.
  intros H E. assert (L := broadcast_len _ _ _ E). unfold col_row in E. rewrite broadcast_shapes_comm, broadcast_long in E by (cbn [length]; lia).
  destruct (broadcast_shapes _ (1%nat :: t)) as [z|] eqn:Ez; [|discriminate]. injection E as <-.
  destruct (Nat.eq_dec (length t) (S (length u))) as [Eq|Ne].
  - rewrite broadcast_first in Ez by (cbn [length]; lia).
    destruct (broadcast_shapes (6%nat :: u) t) as [z'|]; [|discriminate]. cbn in Ez. injection Ez as <-.
    exists z'. split; [reflexivity|]. cbn [length] in L. lia.
  - rewrite broadcast_long in Ez by (cbn [length]; lia).
    destruct (broadcast_shapes (1%nat :: 6%nat :: u) t) as [z'|]; [|discriminate]. injection Ez as <-.
    exists z'. split; [reflexivity|]. cbn [length] in L. lia.
Qed.
(** *** cdya_ik, cdya_il: the result of dya is indexed up to 5 along an axis of length 1. *)
Lemma take2_short si ix jx v n m r k : shp v = n :: m :: r -> inb si k -> ~ (ix k < n /\ jx k < m)%nat ->
  take2 si ix jx v = Raise IndexError.
Proof.
  intros E Hk H. unfold take2. rewrite E.
  destruct (forallb _ (indices si)) eqn:F; [|reflexivity].
  rewrite forallb_forall in F. specialize (F k (proj2 (in_indices si k) Hk)).
  apply andb_prop in F as [F1 F2]. apply Nat.ltb_lt in F1, F2. tauto.
Qed.
Lemma astensor4_short h D n m r : nshp D = n :: m :: r -> n = 1%nat \/ m = 1%nat -> raises h (nd_astensor4 D) IndexError.
Proof.
  intros E Hn. unfold nd_astensor4. apply raises_load. exists h. unfold new, bind, lift.
  rewrite (take2_short _ _ _ (contents h D) n m r [0; 2; 0; 2]%nat E); [reflexivity|cbn; lia|].
  change (table_ij [0; 2; 0; 2]%nat) with 5%nat. change (table_kl [0; 2; 0; 2]%nat) with 5%nat. lia.
Qed.
Lemma col_row_shape t u s : length t <> length u -> col_row t u = Ok s ->
  exists r, (s = 1%nat :: r /\ length r = S (length u) /\ (length t < length u)%nat)
         \/ (s = 6%nat :: 1%nat :: r /\ length r = length t /\ (length u < length t)%nat).
Proof.
  intros N E. destruct (Nat.lt_total (length t) (length u)) as [H|[H|H]]; [|contradiction|].
  - destruct (col_row_less _ _ _ H E) as [r [-> Hr]]. exists r. left. repeat split; auto.
  - destruct (col_row_more _ _ _ H E) as [r [-> Hr]]. exists r. right. repeat split; auto.
Qed.
Lemma cdya_swap_raises h A B t u (f : nd -> M nd) : field h A i6 t -> field h B i6 u -> length t <> length u ->
  raises h (bind (nd_dya A B None) (fun D => bind (nd_astensor4 D) f)) ValueError \/
  raises h (bind (nd_dya A B None) (fun D => bind (nd_astensor4 D) f)) IndexError.
Proof.
  intros HA HB N. pose proof (dya_run h A B t u HA HB) as HD.
  destruct (col_row t u) as [s|e] eqn:E.
  - right. destruct HD as [h' [D [E1 [E2 _]]]].
    assert (K : exists n m r, s = n :: m :: r /\ (n = 1%nat \/ m = 1%nat)).
    { destruct (col_row_shape _ _ _ N E) as [r [[-> [Hr _]]|[-> _]]].
      - destruct r as [|m r]; [discriminate Hr|]. exists 1%nat, m, r. auto.
      - exists 6%nat, 1%nat, r. auto. }
    destruct K as [n [m [r [-> K]]]].
    destruct (raises_here h' (nd_astensor4 D) f _ (astensor4_short h' D n m r E2 K)) as [h2 E3].
    exists h2. unfold bind at 1. rewrite E1. exact E3.
  - left. exists h. unfold bind at 1. rewrite HD. reflexivity.
Qed.

(** *** cdya *)
(** The view of the operand with fewer axes: its own axis of length 6 is taken for a
    trailing axis, and all six components are equal. *)
Lemma short_view n h A t T : field h A i6 t -> sub (6%nat :: t) T ->
  W n h (broadcast_view A (idim i6 ++ T))
    (fun r h' => h' = h /\ loc r = loc A /\ hrel h r i6 T T (fun k _ => dat (contents h A) (proj (6%nat :: t) k))).
Proof.
  intros [LA SA] Hs. pose proof (sub_length _ _ Hs) as HL. cbn [length] in HL.
  assert (E : broadcast_shapes (nshp A) (idim i6 ++ T) = Ok (idim i6 ++ T)).
  { rewrite SA. cbn [idim i6 app]. rewrite broadcast_long by (cbn [length]; lia). now rewrite broadcast_sub_l. }
  unfold broadcast_view. apply (W_lift_bind _ _ _ (idim i6 ++ T)); [exact E|].
  destruct (list_eq_dec Nat.eq_dec _ _); [|congruence]. apply W_ret.
  split; [reflexivity|]. split; [reflexivity|]. split; [exact LA|]. split; [reflexivity|].
  split; [apply sub_refl|]. split; [now right|]. intros k Hk i.
  pose proof (inb_length _ _ Hk). cbn [contents dat loc vw]. rewrite SA. cbn [idim i6 app].
  rewrite (proj_self T k Hk). rewrite proj_extra by (cbn [length]; lia). reflexivity.
Qed.
Lemma field_ext h h' A I t : field h A I t -> ext (hnext h) h h' -> field h' A I t.
Proof. intros [H1 H2] [E1 E2]. split; [lia|exact H2]. Qed.
Lemma cell_ext h h' A k : (loc A < hnext h)%nat -> ext (hnext h) h h' -> dat (contents h' A) k = dat (contents h A) k.
Proof. intros H [_ E]. cbn [contents dat]. now apply E. Qed.
Lemma short_view_ext n h h1 A t T : field h A i6 t -> sub (6%nat :: t) T -> ext (hnext h) h h1 ->
  W n h1 (broadcast_view A (idim i6 ++ T))
    (fun r h' => h' = h1 /\ loc r = loc A /\ hrel h1 r i6 T T (fun k _ => dat (contents h A) (proj (6%nat :: t) k))).
Proof.
  intros HA Hs Y. eapply W_conseq; [apply (short_view n h1 A t T (field_ext _ _ _ _ _ HA Y) Hs)|apply le_n|].
  cbv beta. intros r h' _ [E1 [E2 E3]]. split; [exact E1|]. split; [exact E2|].
  eapply hrel_fun; [exact E3|]. intros k Hk i. cbv beta. apply cell_ext; [apply HA|exact Y].
Qed.
Lemma long_view_ext n h h1 A t T : field h A i6 t -> sub t T -> length t = length T -> ext (hnext h) h h1 ->
  W n h1 (broadcast_view A (idim i6 ++ T)) (fun r h' => h' = h1 /\ loc r = loc A /\ hrel h1 r i6 T T (value6 h A)).
Proof.
  intros HA Hs HL Y. apply (broadcast_view_W _ h1 A i6 t T T (value6 h A) i6_ok); auto; [|apply sub_refl].
  exact (hrel_ext _ _ _ _ _ _ _ (hrel_value _ _ _ _ _ HA Hs (or_intror HL)) Y).
Qed.
Lemma nd_cdya_less n h A B t u T : (n <= hnext h)%nat -> field h A i6 t -> field h B i6 u ->
  (length t < length u)%nat -> broadcast_shapes (6%nat :: t) u = Ok T ->
  W n h (nd_cdya false A B None)
    (gives h i66 T T (fun k '(v, w) => cdya_obj false (fun _ => dat (contents h A) (proj (6%nat :: t) k)) (value6 h B k) v w)).
Proof.
  intros Hn HA HB HL HT. destruct (broadcast_sub _ _ _ HT) as [S1 [S2 _]].
  pose proof (broadcast_len _ _ _ HT) as LT. cbn [length] in LT.
  apply (nd_cdya_views n h false A B T T (fun k _ => dat (contents h A) (proj (6%nat :: t) k)) (value6 h B) Hn (sub_refl T) eq_refl).
  - rewrite (proj2 HA), (proj2 HB). cbn [idim i6 app]. rewrite broadcast_long by (cbn [length]; lia). now rewrite HT.
  - apply HA.
  - apply HB.
  - intros h1 Y1. now apply short_view_ext.
  - intros h1 Y1. apply (long_view_ext _ h h1 B u); auto. lia.
Qed.
Lemma nd_cdya_more n h A B t u T : (n <= hnext h)%nat -> field h A i6 t -> field h B i6 u ->
  (length u < length t)%nat -> broadcast_shapes t (6%nat :: u) = Ok T ->
  W n h (nd_cdya false A B None)
    (gives h i66 T T (fun k '(v, w) => cdya_obj false (value6 h A k) (fun _ => dat (contents h B) (proj (6%nat :: u) k)) v w)).
Proof.
  intros Hn HA HB HL HT. destruct (broadcast_sub _ _ _ HT) as [S1 [S2 _]].
  pose proof (broadcast_len _ _ _ HT) as LT. cbn [length] in LT.
  apply (nd_cdya_views n h false A B T T (value6 h A) (fun k _ => dat (contents h B) (proj (6%nat :: u) k)) Hn (sub_refl T) eq_refl).
  - rewrite (proj2 HA), (proj2 HB). cbn [idim i6 app]. rewrite broadcast_shapes_comm, broadcast_long by (cbn [length]; lia).
    rewrite broadcast_shapes_comm. now rewrite HT.
  - apply HA.
  - apply HB.
  - intros h1 Y1. apply (long_view_ext _ h h1 A t); auto. lia.
  - intros h1 Y1. now apply short_view_ext.
Qed.
Lemma nd_cdya_apart h same A B t u e : field h A i6 t -> field h B i6 u -> (length t < length u)%nat ->
  broadcast_shapes (6%nat :: t) u = Raise e -> nd_cdya same A B None h = (h, Raise ValueError).
Proof.
  intros HA HB HL E. unfold nd_cdya, bind, lift. rewrite (proj2 HA), (proj2 HB). cbn [idim i6 app].
  rewrite broadcast_long by (cbn [length]; lia). rewrite E. apply broadcast_raise in E as ->. reflexivity.
Qed.
