(** * The array-level math functions, continued: loops of assignments, einsum, views. *)
From Coq Require Import Reals List Arith Lia Lra.
From Verif Require Import Tensor Py Voigt NDCore NDRel NDOps NDHeap NDVoigt NDMath.
Import ListNotations.
Local Open Scope R_scope.

(** *** [B[p] = v] for a full tensor index [p] *)
Definition ienc_is (I : ixt) (p : index) (i : ity I) : bool :=
  if list_eq_dec Nat.eq_dec (ienc I i) p then true else false.
Lemma in_prefix_ok p s t : inb s p -> in_prefix p (s ++ t) = true.
Proof.
  intros H. unfold in_prefix. rewrite app_length, (inb_length _ _ H).
  destruct (Nat.leb_spec (length s) (length s + length t)) as [_|]; [|lia]. cbn [andb].
  revert p H; induction s as [|a s IH]; intros [|i p] H; cbn [inb combine app forallb] in *;
    try tauto.
  destruct H as [H1 H2]. destruct (Nat.ltb_spec i a); [|lia]. cbn [andb]. now apply IH.
Qed.
Lemma setrow_W n h B I t u T f g v p : ixt_ok I -> (n <= loc B)%nat -> (forall k, vw B k = k) ->
  hrel h B I t T f -> length t = length T -> inb (idim I) p -> rel iS u T v g -> sub u t ->
  W n h (setrow B p v) (fun _ h' => wrote (loc B) h h' /\
    hrel h' B I t T (fun k i => if ienc_is I p i then g k tt else f k i)).
Proof.
  intros HI Hn Hid [Ha0 Ha] Hlt Hp Hv Hu. pose proof Ha as [A1 [A2 [A3 A4]]].
  cbn [contents shp] in A1. unfold setrow. rewrite A1, (in_prefix_ok _ _ _ Hp).
  destruct (broadcast_to_rel iS u t T v g iS_ok Hv Hu A2 (or_introl eq_refl)) as [w [Hw Hr]].
  assert (Hs : nshp (subview B p) = t).
  { cbn. rewrite A1. rewrite (inb_length _ _ Hp). rewrite skipn_app, Nat.sub_diag, skipn_all.
    reflexivity. }
  unfold assign. rewrite Hs. cbn [idim iS app] in Hw. rewrite Hw. unfold bind, lift.
  eexists _, _. split; [reflexivity|].
  pose proof (store_wrote (subview B p) (dat w) h) as Hst. cbn [loc subview] in Hst.
  split; [eapply wrote_ext; eauto|]. split; [exact Hst|].
  split; [cbn; exact Ha0|]. destruct Hr as [R1 [R2 [R3 R4]]].
  repeat split; auto. intros k Hk i. cbn [contents dat store fst hcell].
  rewrite Hid. change (loc (subview B p)) with (loc B). rewrite Nat.eqb_refl.
  assert (Hpk : inb t (proj t k)) by (eapply inb_proj; eauto).
  unfold ienc_is. destruct (list_eq_dec Nat.eq_dec (ienc I i) p) as [E|E].
  - rewrite E. rewrite <- (R4 k Hk tt). cbn [ienc iS app].
    replace (p ++ proj t k) with (vw (subview B p) (proj t k)) by (cbn; now rewrite Hid).
    apply write_cell_in.
    + rewrite Hs. exact Hpk.
    + rewrite Hs. intros k' Hk' H. cbn in H. rewrite !Hid in H. now apply app_inv_head in H.
  - rewrite write_cell_out.
    + rewrite <- (A4 k Hk i). cbn. now rewrite Hid.
    + rewrite Hs. intros k' Hk' H. cbn in H. rewrite Hid in H.
      apply E. assert (L : length p = length (ienc I i)).
      { rewrite (inb_length _ _ Hp), (ix_len I i HI). reflexivity. }
      clear - H L. revert H L. generalize (ienc I i) as q. revert k'.
      induction p as [|a p IH]; intros k' [|b q]; cbn; try discriminate; auto.
      intros [= -> H] [= L]. f_equal. eapply IH; eauto.
Qed.

(** A loop of statements which update array [B]. *)
Lemma each_W {X} n B I t T (body : X -> M unit)
  (up : X -> (index -> ity I -> R) -> index -> ity I -> R) (l : list X) (Inv : heap -> Prop) :
  (forall x h f, In x l -> Inv h -> hrel h B I t T f ->
     W n h (body x) (fun _ h' => Inv h' /\ wrote (loc B) h h' /\ hrel h' B I t T (up x f))) ->
  forall h f, Inv h -> hrel h B I t T f ->
  W n h (each l body) (fun _ h' => Inv h' /\ wrote (loc B) h h' /\
    hrel h' B I t T (fold_left (fun f x => up x f) l f)).
Proof.
  induction l as [|x l IH]; intros Hb h f Hi Hf; cbn [each fold_left].
  - apply W_ret. repeat split; auto; apply Hf.
  - eapply W_bind; [apply Hb; eauto; now left|]. cbv beta.
    intros [] h1 _ [I1 [W1 F1]].
    eapply W_conseq; [apply (IH (fun x h f Hx => Hb x h f (or_intror Hx)) h1 _ I1 F1)|auto|].
    cbv beta. intros [] h2 _ [I2 [W2 F2]]. split; auto. split; auto.
    destruct W1 as [N1 C1], W2 as [N2 C2]. split; [lia|]. intros l' Hl j. now rewrite C2, C1.
Qed.

(** *** asvoigt, mode=4 *)
Lemma rows_gen t T : sub t T -> forall p s (g : index -> R) (v : arr), inb s p ->
  shp v = s ++ t -> (forall k, inb T k -> dat v (p ++ proj t k) = g k) ->
  RR iS t T (rows p v) (fun k _ => g k).
Proof.
  intros Ht p. induction p as [|a p IH]; intros [|b s] g v Hp Hs Hg; cbn in Hp; try tauto.
  - apply RR_ok. split; [exact Hs|]. split; [exact Ht|]. split; [now left|].
    intros k Hk i. exact (Hg k Hk).
  - cbn [rows]. unfold row. rewrite Hs. cbn [app].
    destruct (Nat.ltb_spec a b) as [_|]; [|lia]. cbn [rbind].
    apply (IH s); auto; tauto.
Qed.
Lemma rows_rel I q (i : ity I) t T v f : ixt_ok I -> rel I t T v f -> ienc I i = q ->
  RR iS t T (rows q v) (fun k _ => f k i).
Proof.
  intros HI [H1 [H2 [H3 H4]]] <-. apply (rows_gen t T H2 _ (idim I) (fun k => f k i)); auto.
  now apply ix_inb.
Qed.

(** One step [B[p] = A[q]]. *)
Lemma skipn_lead (L t : shape) : skipn (length L) (L ++ t) = t.
Proof. now rewrite skipn_app, Nat.sub_diag, skipn_all. Qed.

Definition as4_up (f : index -> ity i3333 -> R) (x : list nat * list nat)
  (g : index -> ity i66 -> R) : index -> ity i66 -> R := fun k i =>
  if ienc_is i66 (fst x) i then
    match snd x with [a; b; c; d] => f k (of3 a, of3 b, of3 c, of3 d) | _ => 0 end
  else g k i.
Lemma nd_asvoigt4_W n h A t T f : (n <= hnext h)%nat -> hrel h A i3333 t T f ->
  W n h (nd_asvoigt4 A) (gives h i66 t T (fun k '(v, w) => asvoigt4 (un3333 f k) v w)).
Proof.
  intros Hn HA. pose proof HA as [Hl [A1 [A2 [A3 A4]]]]. cbn [contents shp] in A1.
  assert (Hlt : length t = length T) by (destruct A3 as [A3|A3]; [discriminate|exact A3]).
  unfold nd_asvoigt4. apply W_gives; [exact Hn|].
  eapply W_call.
  { eapply (W_alloc _ h _ i66 t T (fun _ _ => 0)); auto. rewrite A1.
    repeat split; auto. }
  intros B h1 FB VB HB X1.
  assert (HA1 := hrel_ext _ _ _ _ _ _ _ HA X1).
  eapply W_bind.
  { apply (each_W (hnext h) B i66 t T _ (as4_up f) asvoigt4_steps
             (fun h => hrel h A i3333 t T f)); [|exact HA1|exact HB].
    intros [p q] h' g Hx HA' HB'.
    apply W_load_bind.
    assert (Hq : exists i, ienc i3333 i = q /\ inb (idim i66) p /\
       (forall k, f k i = match q with [a; b; c; d] => f k (of3 a, of3 b, of3 c, of3 d) | _ => 0 end)).
    { clear - Hx. cbn in Hx.
      repeat (destruct Hx as [[= <- <-]|Hx];
        [match goal with |- context [ienc i3333 _ = [?a; ?b; ?c; ?d]] =>
           exists (of3 a, of3 b, of3 c, of3 d) end; cbn; repeat split; auto; lia|]).
      destruct Hx. }
    destruct Hq as [i [Hi [Hp Hf]]].
    destruct (rows_rel i3333 q i t T _ f i3333_ok (proj2 HA') Hi) as [v [Hv Hr]].
    apply (W_lift_bind _ _ _ v); [exact Hv|].
    eapply W_conseq.
    - apply (setrow_W (hnext h) h' B i66 t t T g _ v p i66_ok ltac:(hlia) VB HB' Hlt Hp Hr
               (sub_refl t)).
    - auto.
    - cbv beta. intros [] h2 _ [W1 F1]. split; [|split; [exact W1|]].
      + eapply hrel_wrote; eauto. hlia.
      + eapply hrel_fun; [exact F1|]. intros k Hk x. unfold as4_up. cbn [fst snd].
        destruct (ienc_is i66 p x); auto. }
  cbv beta. intros [] h2 _ [_ [W2 F2]]. apply W_ret.
  split; [split; hlia|]. split; [exact VB|].
  eapply hrel_fun; [exact F2|]. intros k Hk [v w]. unfold un3333.
  destruct v, w; reflexivity.
Qed.

(** *** dot *)
Definition dot_up (f g : index -> ity i6 -> R) (x : list nat * list (nat * nat))
  (c : index -> ity i33 -> R) : index -> ity i33 -> R := fun k i =>
  if ienc_is i33 (fst x) i then
    match snd x with
    | [(a, b); (a', b'); (a'', b'')] =>
        f k (of6 a) * g k (of6 b) + f k (of6 a') * g k (of6 b') + f k (of6 a'') * g k (of6 b'')
    | _ => 0
    end
  else c k i.
Lemma row6n p t T v f : (p < 6)%nat -> rel i6 t T v f -> RR iS t T (row p v) (fun k _ => f k (of6 p)).
Proof. intros Hp H. rewrite <- (n6_of6 p Hp) at 1. now apply row6. Qed.
Lemma nd_dot_W n h A B t u T f g : (n <= hnext h)%nat -> hrel h A i6 t T f -> hrel h B i6 u T g ->
  W n h (nd_dot A B) (gives h i33 (bsh t u) T (fun k '(i, j) => dot (f k) (g k) i j)).
Proof.
  intros Hn HA HB. pose proof HA as [HlA [A1 [A2 [A3 A4]]]]. cbn [contents shp] in A1.
  pose proof HB as [HlB [B1 [B2 [B3 B4]]]]. cbn [contents shp] in B1.
  assert (Hlt : length t = length T) by (destruct A3 as [A3|A3]; [discriminate|exact A3]).
  assert (Hlu : length u = length T) by (destruct B3 as [B3|B3]; [discriminate|exact B3]).
  destruct (bsh_ok _ _ _ A2 B2) as [H1 [H2 [H3 [H4 H5]]]].
  assert (Hlb : length (bsh t u) = length T) by lia.
  unfold nd_dot. apply W_gives; [exact Hn|].
  apply (W_lift_bind _ _ _ (bsh t u)); [rewrite A1, B1; exact H1|].
  eapply W_call.
  { eapply (W_alloc _ h _ i33 (bsh t u) T (fun _ _ => 0)); auto. repeat split; auto. }
  intros C h1 FC VC HC X1.
  assert (HA1 := hrel_ext _ _ _ _ _ _ _ HA X1).
  assert (HB1 := hrel_ext _ _ _ _ _ _ _ HB X1).
  eapply W_bind.
  { apply (each_W (hnext h) C i33 (bsh t u) T _ (dot_up f g) dot_steps
             (fun h => hrel h A i6 t T f /\ hrel h B i6 u T g)); [|exact (conj HA1 HB1)|exact HC].
    intros [p q] h' c Hx [HA' HB'] HC'.
    apply W_load_bind, W_load_bind.
    assert (Hq : exists a b a' b' a'' b'', q = [(a, b); (a', b'); (a'', b'')] /\ inb (idim i33) p /\
       (a < 6 /\ b < 6 /\ a' < 6 /\ b' < 6 /\ a'' < 6 /\ b'' < 6)%nat).
    { clear - Hx. cbn in Hx.
      repeat (destruct Hx as [[= <- <-]|Hx];
        [do 6 eexists; split; [reflexivity|]; cbn; repeat split; auto; lia|]).
      destruct Hx. }
    destruct Hq as [a [b [a' [b' [a'' [b'' [-> [Hp Hb]]]]]]]].
    assert (HS : RR iS (bsh t u) T (dot_sum (contents h' A) (contents h' B) [(a, b); (a', b'); (a'', b'')])
      (fun k _ => f k (of6 a) * g k (of6 b) + f k (of6 a') * g k (of6 b') + f k (of6 a'') * g k (of6 b''))).
    { cbn [dot_sum]. eapply RR_conv.
      - rr_scal ltac:(fun _ => first [ apply (row6n _ t T _ f); [lia|exact (proj2 HA')]
                                     | apply (row6n _ u T _ g); [lia|exact (proj2 HB')] ]).
      - bshn; reflexivity.
      - reflexivity. }
    destruct HS as [v [Hv Hr]].
    apply (W_lift_bind _ _ _ v); [exact Hv|].
    eapply W_conseq.
    - apply (setrow_W (hnext h) h' C i33 _ _ T c _ v p i33_ok ltac:(hlia) VC HC' Hlb Hp Hr
               (sub_refl _)).
    - auto.
    - cbv beta. intros [] h2 _ [W1 F1]. split; [|split; [exact W1|]].
      + split; eapply hrel_wrote; eauto; hlia.
      + exact F1. }
  cbv beta. intros [] h2 _ [_ [W2 F2]]. apply W_ret.
  split; [split; hlia|]. split; [exact VC|].
  eapply hrel_fun; [exact F2|]. intros k Hk [i j].
  destruct i, j; reflexivity.
Qed.

(** *** eye *)
Lemma sub_ones T : sub (repeat 1%nat (length T)) T.
Proof.
  unfold sub. rewrite <- (rev_length T). replace (rev (repeat 1%nat (length (rev T))))
    with (repeat 1%nat (length (rev T))).
  - induction (rev T) as [|a s IH]; cbn; auto.
  - generalize (length (rev T)). intros m. induction m as [|m IH]; cbn; auto.
    rewrite <- IH. clear IH. induction m as [|m IH]; cbn; auto. now rewrite <- IH.
Qed.
Definition ones (T : shape) : shape := repeat 1%nat (length T).
Lemma v_eye_rel s T : length (skipn 1 s) = length T ->
  rel i6 (ones T) T (v_eye (Some s)) (fun _ v => eye v).
Proof.
  intros H. split; [|split; [|split]].
  - cbn [v_eye shp]. unfold ones. rewrite <- H. reflexivity.
  - apply sub_ones.
  - right. unfold ones. apply repeat_length.
  - intros k Hk []; reflexivity.
Qed.
Lemma nd_eye_W n h A I t T f d : idim I = d :: [] \/ idim I = [d] -> (n <= hnext h)%nat ->
  hrel h A I t T f -> W n h (nd_eye (Some A)) (gives h i6 (ones T) T (fun _ v => eye v)).
Proof.
  intros HI Hn [_ [H1 [H2 [H3 H4]]]]. unfold nd_eye. cbn [option_map].
  apply W_alloc; [exact Hn|]. apply v_eye_rel. cbn [contents shp] in H1. rewrite H1.
  assert (E : idim I = [d]) by tauto. rewrite E in *. cbn.
  destruct H3 as [H3|H3]; [discriminate|exact H3].
Qed.
Lemma bsh_ones_l t T : sub t T -> length t = length T -> bsh (ones T) t = t.
Proof.
  intros H Hl. apply bsh_sub_l. unfold ones. rewrite <- Hl. apply sub_ones.
Qed.

(** *** einsum with weights: ddot *)
Lemma op_value_w e k i : op_value e k
    {| o_term := tm0 [i]; o_arr := v_weights; o_pre := [6%nat]; o_ell := []; o_post := [] |}
  = nth (e i) [1; 1; 1; 2; 2; 2] 0.
Proof.
  unfold op_value, tm0. cbn [o_term o_arr o_pre o_ell o_post pre post map].
  change (proj [] k) with (@nil nat). reflexivity.
Qed.
Lemma ell_shape2w t u T oa ob ow : sub t T -> sub u T -> o_ell oa = t -> o_ell ob = u ->
  o_ell ow = [] -> ell_shape [oa; ob; ow] = Ok (bsh t u).
Proof.
  intros Ht Hu Ea Eb Ew. cbn [ell_shape rbind]. rewrite Ew, Ea, Eb.
  change (broadcast_shapes [] []) with (@Ok shape []). cbn [rbind].
  rewrite broadcast_comm, (broadcast_sub_l _ _ (sub_nil u)). cbn [rbind].
  apply (bsh_ok t u T Ht Hu).
Qed.
Lemma sumN6 (F : nat -> R) : sumN 6 F = sum6 (fun i => F (n6 i)).
Proof. unfold sum6. cbn [sumN n6]. ring. Qed.
Lemma sumN3 (F : nat -> R) : sumN 3 F = sum3 (fun i => F (n3 i)).
Proof. unfold sum3. cbn [sumN n3]. ring. Qed.
Lemma sum6_eq f g : (forall i, f i = g i) -> sum6 f = sum6 g.
Proof. intros H. unfold sum6. now rewrite !H. Qed.
Lemma sum3_eq f g : (forall i, f i = g i) -> sum3 f = sum3 g.
Proof. intros H. unfold sum3. now rewrite !H. Qed.
Lemma weights_nth v : nth (n6 v) [1; 1; 1; 2; 2; 2] 0 = weights v.
Proof. destruct v; reflexivity. Qed.
Lemma op_value_wt e k l v : e l = n6 v -> op_value e k
    {| o_term := tm0 [l]; o_arr := v_weights; o_pre := [6%nat]; o_ell := []; o_post := [] |}
  = weights v.
Proof. intros H. now rewrite op_value_w, H, weights_nth. Qed.
(** Solve the side conditions for two operands with ellipses and the weights. *)
Ltac ddot_pre K I J A1 A2 B1 B2 :=
  eapply (einsum_rel K);
  [ rewrite (operands_cons _ (idim I) _ _ _ A1) by reflexivity;
      rewrite (operands_cons _ (idim J) _ _ _ B1) by reflexivity;
      rewrite (operands_cons0 _ [6%nat]) by reflexivity; reflexivity
    | eapply ell_shape2w; [exact A2|exact B2|reflexivity..]
    | reflexivity | idtac | reflexivity | reflexivity | idtac | idtac | idtac ].
Ltac labels := match goal with |- sum_labels ?l _ _ = _ =>
  let x := eval vm_compute in l in change l with x end; cbn [sum_labels op_product].
Lemma rel_len' I t T v f : rel I t T v f -> idim I <> [] -> length t = length T.
Proof. intros [_ [_ [[H|H] _]]] Hn; congruence. Qed.

Lemma v_ddot22_rel a b t u T f g : rel i6 t T a f -> rel i6 u T b g ->
  RR iS (bsh t u) T (v_ddot22 a b) (fun k _ => ddot22 (f k) (g k)).
Proof.
  intros Ha Hb. unfold v_ddot22.
  pose proof Ha as [A1 [A2 _]]; pose proof Hb as [B1 [B2 _]];
  destruct (bsh_ok _ _ _ A2 B2) as [H1 [H2 [H3 [H4 H5]]]].
  ddot_pre iS i6 i6 A1 A2 B1 B2.
  - exact iS_ok.
  - exact H2.
  - now left.
  - intros k Hk []. labels. rewrite sumN6. apply sum6_eq. intros i.
    rewrite (op_value_rel i6 _ t _ T a f _ k i i6_ok Ha H3 H2 Hk) by reflexivity.
    rewrite (op_value_rel i6 _ u _ T b g _ k i i6_ok Hb H4 H2 Hk) by reflexivity.
    rewrite (op_value_wt _ _ _ i) by reflexivity. symmetry. apply Rmult_assoc.
Qed.
Lemma v_ddot44_rel a b t u T f g : rel i66 t T a f -> rel i66 u T b g ->
  RR i66 (bsh t u) T (v_ddot44 a b) (fun k '(v, w) => ddot44 (un66 f k) (un66 g k) v w).
Proof.
  intros Ha Hb. unfold v_ddot44.
  pose proof Ha as [A1 [A2 _]]; pose proof Hb as [B1 [B2 _]];
  destruct (bsh_ok _ _ _ A2 B2) as [H1 [H2 [H3 [H4 H5]]]].
  pose proof (rel_len' _ _ _ _ _ Ha ltac:(discriminate)) as L1.
  pose proof (rel_len' _ _ _ _ _ Hb ltac:(discriminate)) as L2.
  ddot_pre i66 i66 i66 A1 A2 B1 B2.
  - exact i66_ok.
  - exact H2.
  - right. lia.
  - intros k Hk [v w]. labels. rewrite sumN6. unfold ddot44. apply sum6_eq. intros i.
    rewrite (op_value_rel i66 _ t _ T a f _ k (v, i) i66_ok Ha H3 H2 Hk) by reflexivity.
    rewrite (op_value_rel i66 _ u _ T b g _ k (i, w) i66_ok Hb H4 H2 Hk) by reflexivity.
    rewrite (op_value_wt _ _ _ i) by reflexivity. symmetry. apply Rmult_assoc.
Qed.
Lemma v_ddot42_rel a b t u T f g : rel i66 t T a f -> rel i6 u T b g ->
  RR i6 (bsh t u) T (v_ddot42 a b) (fun k v => ddot42 (un66 f k) (g k) v).
Proof.
  intros Ha Hb. unfold v_ddot42.
  pose proof Ha as [A1 [A2 _]]; pose proof Hb as [B1 [B2 _]];
  destruct (bsh_ok _ _ _ A2 B2) as [H1 [H2 [H3 [H4 H5]]]].
  pose proof (rel_len' _ _ _ _ _ Ha ltac:(discriminate)) as L1.
  pose proof (rel_len' _ _ _ _ _ Hb ltac:(discriminate)) as L2.
  ddot_pre i6 i66 i6 A1 A2 B1 B2.
  - exact i6_ok.
  - exact H2.
  - right. lia.
  - intros k Hk v. labels. rewrite sumN6. unfold ddot42. apply sum6_eq. intros i.
    rewrite (op_value_rel i66 _ t _ T a f _ k (v, i) i66_ok Ha H3 H2 Hk) by reflexivity.
    rewrite (op_value_rel i6 _ u _ T b g _ k i i6_ok Hb H4 H2 Hk) by reflexivity.
    rewrite (op_value_wt _ _ _ i) by reflexivity. symmetry. apply Rmult_assoc.
Qed.
Lemma v_ddot24_rel a b t u T f g : rel i6 t T a f -> rel i66 u T b g ->
  RR i6 (bsh t u) T (v_ddot24 a b) (fun k v => ddot24 (f k) (un66 g k) v).
Proof.
  intros Ha Hb. unfold v_ddot24.
  pose proof Ha as [A1 [A2 _]]; pose proof Hb as [B1 [B2 _]];
  destruct (bsh_ok _ _ _ A2 B2) as [H1 [H2 [H3 [H4 H5]]]].
  pose proof (rel_len' _ _ _ _ _ Ha ltac:(discriminate)) as L1.
  pose proof (rel_len' _ _ _ _ _ Hb ltac:(discriminate)) as L2.
  ddot_pre i6 i6 i66 A1 A2 B1 B2.
  - exact i6_ok.
  - exact H2.
  - right. lia.
  - intros k Hk v. labels. rewrite sumN6. unfold ddot24. apply sum6_eq. intros i.
    rewrite (op_value_rel i6 _ t _ T a f _ k i i6_ok Ha H3 H2 Hk) by reflexivity.
    rewrite (op_value_rel i66 _ u _ T b g _ k (i, v) i66_ok Hb H4 H2 Hk) by reflexivity.
    rewrite (op_value_wt _ _ _ i) by reflexivity. symmetry. apply Rmult_assoc.
Qed.
Lemma nd_ddot22_W n h A B t u T f g : (n <= hnext h)%nat -> hrel h A i6 t T f ->
  hrel h B i6 u T g ->
  W n h (nd_ddot22 A B) (gives h iS (bsh t u) T (fun k _ => ddot22 (f k) (g k))).
Proof.
  intros Hn [_ HA] [_ HB]. apply W_load_bind, W_load_bind. now apply W_new, v_ddot22_rel.
Qed.
Lemma nd_ddot44_W n h A B t u T f g : (n <= hnext h)%nat -> hrel h A i66 t T f ->
  hrel h B i66 u T g ->
  W n h (nd_ddot44 A B)
    (gives h i66 (bsh t u) T (fun k '(v, w) => ddot44 (un66 f k) (un66 g k) v w)).
Proof.
  intros Hn [_ HA] [_ HB]. apply W_load_bind, W_load_bind. now apply W_new, v_ddot44_rel.
Qed.
Lemma nd_ddot42_W n h A B t u T f g : (n <= hnext h)%nat -> hrel h A i66 t T f ->
  hrel h B i6 u T g ->
  W n h (nd_ddot42 A B) (gives h i6 (bsh t u) T (fun k v => ddot42 (un66 f k) (g k) v)).
Proof.
  intros Hn [_ HA] [_ HB]. apply W_load_bind, W_load_bind. now apply W_new, v_ddot42_rel.
Qed.
Lemma nd_ddot24_W n h A B t u T f g : (n <= hnext h)%nat -> hrel h A i6 t T f ->
  hrel h B i66 u T g ->
  W n h (nd_ddot24 A B) (gives h i6 (bsh t u) T (fun k v => ddot24 (f k) (un66 g k) v)).
Proof.
  intros Hn [_ HA] [_ HB]. apply W_load_bind, W_load_bind. now apply W_new, v_ddot24_rel.
Qed.

(** *** dya, dev *)
Lemma v_dya_rel a b t u T f g : rel i6 t T a f -> rel i6 u T b g ->
  RR i66 (bsh t u) T (v_dya a b) (fun k '(v, w) => dya (f k) (g k) v w).
Proof.
  intros Ha Hb. unfold v_dya.
  apply (outer_rel i6 i6 i66 6 6 (fun i j => (i, j)) Rmult t u T a b f g i6_ok i6_ok i66_ok);
    auto.
  intros [v w]. now exists v, w.
Qed.
Lemma nd_dya_W n h A B t u T f g : (n <= hnext h)%nat -> hrel h A i6 t T f -> hrel h B i6 u T g ->
  W n h (nd_dya A B None) (gives h i66 (bsh t u) T (fun k '(v, w) => dya (f k) (g k) v w)).
Proof.
  intros Hn [_ HA] [_ HB]. apply W_load_bind, W_load_bind. now apply W_new, v_dya_rel.
Qed.
Lemma v_dev_rel a t T f : rel i6 t T a f -> RR i6 t T (v_dev a) (fun k v => dev (f k) v).
Proof.
  intros H. pose proof (rel_len' _ _ _ _ _ H ltac:(discriminate)) as L.
  pose proof H as [H1 [H2 _]]. unfold v_dev. eapply RR_conv.
  - eapply (RR_same Rminus i6); [exact i6_ok|apply RR_ok; exact H|].
    eapply (RR_scal_l Rmult i6); [exact i6_ok| |].
    + eapply (RR_same Rdiv iS); [exact iS_ok|exact (v_trace_rel _ _ _ _ H)|apply RR_num].
    + apply RR_ok, v_eye_rel. rewrite H1. exact L.
  - bshn. rewrite (bsh_comm t (ones T)), bsh_ones_l by auto. apply bsh_refl.
  - reflexivity.
Qed.
Lemma nd_dev_W n h A t T f : (n <= hnext h)%nat -> hrel h A i6 t T f ->
  W n h (nd_dev A) (gives h i6 t T (fun k v => dev (f k) v)).
Proof. intros Hn [_ HA]. apply W_load_bind. now apply W_new, v_dev_rel. Qed.

(** *** Views: swapaxes.  [gives_v]: like [gives], but the result may be a view. *)
Definition gives_v (h : heap) (I : ixt) (t T : shape) (f : index -> ity I -> R)
  (a : nd) (h' : heap) : Prop :=
  fresh h h' a /\ hrel h' a I t T f /\ ext (hnext h) h h'.
Lemma nd_swap_W n h A I J i j (p : ity J -> ity I) t T f :
  (i < length (idim I))%nat -> (j < length (idim I))%nat ->
  ixt_ok I -> ixt_ok J -> length (idim J) = length (idim I) ->
  idim J = swap_list i j (idim I) -> (forall x, ienc I (p x) = swap_list i j (ienc J x)) ->
  hrel h A I t T f ->
  W n h (nd_swap i j A) (fun r h' => h' = h /\ loc r = loc A /\ hrel h r J t T (fun k x => f k (p x))).
Proof.
  intros Hi Hj HI HJ HL Hd He [Hl H].
  destruct (swap_rel I J i j p t T _ f Hi Hj HI HJ HL Hd He H) as [v [Hv Hr]].
  pose proof H as [H1 _]. cbn [contents shp] in H1.
  unfold nd_swap. unfold swapaxes in Hv. cbn [contents shp dat] in Hv.
  destruct ((i <? length (nshp A))%nat && (j <? length (nshp A))%nat)%bool; [|discriminate].
  injection Hv as <-. apply W_ret. split; [reflexivity|]. split; [reflexivity|].
  split; [exact Hl|exact Hr].
Qed.
Lemma nd_transpose_W n h A t T f : hrel h A i66 t T f ->
  W n h (nd_transpose A) (fun r h' => h' = h /\ loc r = loc A /\
    hrel h r i66 t T (fun k '(v, w) => transpose (un66 f k) v w)).
Proof.
  intros H. eapply W_conseq.
  - apply (nd_swap_W n h A i66 i66 0 1 (fun '(v, w) => (w, v)) t T f); cbn; auto using i66_ok.
    intros [v w]. reflexivity.
  - auto.
  - cbv beta. intros r h' _ [-> [H1 H2]]. split; [reflexivity|]. split; [exact H1|].
    eapply hrel_fun; [exact H2|]. intros k Hk [v w]. reflexivity.
Qed.
Lemma nd_cdya_ik_W n h A B t u T f g : (n <= hnext h)%nat -> hrel h A i6 t T f ->
  hrel h B i6 u T g ->
  W n h (nd_cdya_ik A B None)
    (gives_v h i3333 (bsh t u) T (fun k '(i, j, l, m) => cdya_ik (f k) (g k) i j l m)).
Proof.
  intros Hn HA HB. unfold nd_cdya_ik.
  eapply W_conseq with (m := hnext h)
    (Q := fun a h' => fresh h h' a /\ hrel h' a i3333 (bsh t u) T
            (fun k '(i, j, l, m) => cdya_ik (f k) (g k) i j l m)).
  - eapply W_call; [apply (nd_dya_W _ h A B t u T f g); auto|].
    intros D h1 FD VD HD X1.
    eapply W_call; [apply (nd_astensor4_W (hnext h) h1 D _ T _ ltac:(hlia) HD)|].
    intros D4 h2 F4 V4 HD4 X2.
    eapply W_conseq; [|apply le_n|].
    + apply (nd_swap_W (hnext h) h2 D4 i3333 i3333 1 2
               (fun '(i, j, l, m) => (i, l, j, m)) (bsh t u) T); cbn; try lia; auto using i3333_ok.
      * intros [[[i j] l] m]. reflexivity.
      * exact HD4.
    + cbv beta. intros r h' _ [-> [Hl Hr]]. split; [split; hlia|].
      eapply hrel_fun; [exact Hr|]. intros k Hk [[[i j] l] m]. reflexivity.
  - exact Hn.
  - cbv beta. intros a h' X [F1 H1]. split; [exact F1|split; [exact H1|exact X]].
Qed.
Lemma nd_cdya_il_W n h A B t u T f g : (n <= hnext h)%nat -> hrel h A i6 t T f ->
  hrel h B i6 u T g ->
  W n h (nd_cdya_il A B None)
    (gives_v h i3333 (bsh t u) T (fun k '(i, j, l, m) => cdya_il (f k) (g k) i j l m)).
Proof.
  intros Hn HA HB. unfold nd_cdya_il.
  eapply W_conseq with (m := hnext h)
    (Q := fun a h' => fresh h h' a /\ hrel h' a i3333 (bsh t u) T
            (fun k '(i, j, l, m) => cdya_il (f k) (g k) i j l m)).
  - eapply W_call; [apply (nd_dya_W _ h A B t u T f g); auto|].
    intros D h1 FD VD HD X1.
    eapply W_call; [apply (nd_astensor4_W (hnext h) h1 D _ T _ ltac:(hlia) HD)|].
    intros D4 h2 F4 V4 HD4 X2.
    eapply W_conseq; [|apply le_n|].
    + apply (nd_swap_W (hnext h) h2 D4 i3333 i3333 1 3
               (fun '(i, j, l, m) => (i, m, l, j)) (bsh t u) T); cbn; try lia; auto using i3333_ok.
      * intros [[[i j] l] m]. reflexivity.
      * exact HD4.
    + cbv beta. intros r h' _ [-> [Hl Hr]]. split; [split; hlia|].
      eapply hrel_fun; [exact Hr|]. intros k Hk [[[i j] l] m]. reflexivity.
  - exact Hn.
  - cbv beta. intros a h' X [F1 H1]. split; [exact F1|split; [exact H1|exact X]].
Qed.
