(** * The array-level math functions, continued: cdya, triangles, eigh. *)
From Coq Require Import Reals List Arith Lia Lra.
From Verif Require Import Tensor Py Voigt NDCore NDRel NDOps NDHeap NDVoigt NDMath NDMath2.
Import ListNotations.
Local Open Scope R_scope.

(** Arrays with one leading axis of length [n]. *)
Definition iN (n : nat) : ixt :=
  {| ity := {i : nat | (i < n)%nat}; idim := [n]; ienc := fun i => [proj1_sig i] |}.
Lemma iN_ok n : ixt_ok (iN n).
Proof.
  constructor.
  - intros [i Hi]. cbn. auto.
  - unfold broadcast_shapes. cbn. unfold bdim. now rewrite Nat.eqb_refl.
  - intros [|i [|]]; cbn; try tauto. intros [Hi _]. now exists (exist _ i Hi).
Qed.
(** [A[l]] for any list of positions of a 6-vector. *)
Lemma fancyN_W n h A l t T f : (n <= hnext h)%nat -> hrel h A i6 t T f ->
  List.Forall (fun x => (x < 6)%nat) l ->
  W n h (fancy A l)
    (gives h (iN (length l)) t T (fun k i => f k (of6 (nth (proj1_sig i) l 0%nat)))).
Proof.
  intros Hn [_ H] Hl. unfold fancy. apply W_load_bind. apply W_new; [assumption|].
  apply (take_rel i6 (iN (length l)) 6 (of_list l) (fun i => of6 (nth (proj1_sig i) l 0%nat)));
    auto using i6_ok, iN_ok.
  intros [i Hi]. cbn. f_equal. apply n6_of6.
  rewrite List.Forall_forall in Hl. apply Hl. now apply nth_In.
Qed.
Lemma rowN_rel n p t T v (f : index -> nat -> R) : (p < n)%nat ->
  rel (iN n) t T v (fun k i => f k (proj1_sig i)) -> RR iS t T (row p v) (fun k _ => f k p).
Proof.
  intros Hp H.
  apply (row_rel (iN n) iS n p (fun _ => exist _ p Hp) t T v _ eq_refl Hp (fun _ => eq_refl) H).
Qed.

(** [out[r, c] = values] with index lists *)
Definition pairs_up (F : index -> nat -> R) (x : nat * (nat * nat)) (g : index -> ity i66 -> R) :
  index -> ity i66 -> R := fun k i =>
  if ienc_is i66 [fst (snd x); snd (snd x)] i then F k (fst x) else g k i.
Lemma set_pairs_W n h out rc values t T g (F : index -> nat -> R) : (n <= loc out)%nat ->
  (forall k, vw out k = k) -> loc values <> loc out ->
  hrel h out i66 t T g -> hrel h values (iN (length rc)) t T (fun k i => F k (proj1_sig i)) ->
  List.Forall (fun '(r, c) => (r < 6 /\ c < 6)%nat) rc ->
  W n h (set_pairs out rc values) (fun _ h' => wrote (loc out) h h' /\
    hrel h' out i66 t T
      (fold_left (fun g x => pairs_up F x g) (combine (seq 0 (length rc)) rc) g)).
Proof.
  intros Hn Hid Hne Ho Hv Hrc. unfold set_pairs. apply W_load_bind.
  pose proof Ho as [Ho0 [O1 [O2 [O3 O4]]]]. cbn [contents shp] in O1.
  assert (Hlt : length t = length T) by (destruct O3 as [O3|O3]; [discriminate|exact O3]).
  destruct (broadcast_to_rel (iN (length rc)) t t T _ _ (iN_ok _) (proj2 Hv) (sub_refl t) O2
              (or_intror Hlt)) as [w [Hw Hr]].
  apply (W_lift_bind _ _ _ w).
  { rewrite O1. exact Hw. }
  eapply W_conseq.
  - apply (each_W n out i66 t T _ (pairs_up F) (combine (seq 0 (length rc)) rc) (fun _ => True));
      [|exact I|exact Ho].
    intros [p [r c]] h' g' Hx _ Ho'.
    assert (Hp : (p < length rc)%nat) by (apply in_combine_l, in_seq in Hx; lia).
    apply in_combine_r in Hx. rewrite List.Forall_forall in Hrc. specialize (Hrc _ Hx). cbv beta iota in Hrc.
    destruct (rowN_rel (length rc) p t T w F Hp Hr) as [v [Hv' Hrv]].
    apply (W_lift_bind _ _ _ v); [exact Hv'|].
    eapply W_conseq.
    + apply (setrow_W n h' out i66 t t T g' (fun k _ => F k p) v [r; c] i66_ok Hn Hid Ho' Hlt);
        [repeat split; apply Hrc|exact Hrv|apply sub_refl].
    + auto.
    + cbv beta. intros [] h2 _ [W1 F1]. split; [exact I|split; [exact W1|exact F1]].
  - auto.
  - cbv beta. intros [] h2 _ [_ [W1 F1]]. auto.
Qed.

(** [np.broadcast_arrays]: a view of the common shape *)
Lemma broadcast_view_W n h A I t u T f : ixt_ok I -> hrel h A I t T f -> sub t u -> sub u T ->
  (idim I = [] \/ length u = length T) ->
  W n h (broadcast_view A (idim I ++ u)) (fun r h' => h' = h /\ loc r = loc A /\ hrel h r I u T f).
Proof.
  intros HI [Hl H] Ht Hu Hlu.
  destruct (broadcast_to_rel I t u T _ f HI H Ht Hu Hlu) as [w [Hw Hr]].
  pose proof H as [H1 _]. cbn [contents shp] in H1.
  unfold broadcast_view. unfold broadcast_to in Hw. cbn [contents shp] in Hw.
  destruct (broadcast_shapes (nshp A) (idim I ++ u)) as [v|]; [|discriminate].
  cbn [rbind] in Hw. apply (W_lift_bind _ _ _ v); [reflexivity|].
  destruct (list_eq_dec Nat.eq_dec v (idim I ++ u)); [|discriminate]. injection Hw as <-.
  apply W_ret. repeat split; auto; apply Hr.
Qed.

(** *** cdya *)
Lemma l_ik6 : List.Forall (fun x => (x < 6)%nat) l_ik. Proof. repeat constructor. Qed.
Lemma l_jl6 : List.Forall (fun x => (x < 6)%nat) l_jl. Proof. repeat constructor. Qed.
Lemma l_il6 : List.Forall (fun x => (x < 6)%nat) l_il. Proof. repeat constructor. Qed.
Lemma l_kj6 : List.Forall (fun x => (x < 6)%nat) l_kj. Proof. repeat constructor. Qed.
Definition cdya_F (same : bool) (f g : index -> ity i6 -> R) (k : index) (p : nat) : R :=
  let x l := f k (of6 (nth p l 0%nat)) in
  let y l := g k (of6 (nth p l 0%nat)) in
  let v := x l_ik * y l_jl + x l_il * y l_kj in
  if same then v / 2 else (v + (y l_ik * x l_jl + y l_il * x l_kj)) / 4.
Lemma cdya_fill same (f g : index -> ity i6 -> R) g0 k v w :
  fold_left (fun g' x => pairs_up (cdya_F same f g) x g')
    (combine (seq 0 21) (combine l_kl l_ij))
    (fold_left (fun g' x => pairs_up (cdya_F same f g) x g')
       (combine (seq 0 21) (combine l_ij l_kl)) g0) k (v, w)
  = cdya_obj same (f k) (g k) v w.
Proof. destruct same, v, w; reflexivity. Qed.
Notation G21 f l := (fun (k : index) (i : ity (iN 21)) => f k (of6 (nth (proj1_sig i) l 0%nat))).
Lemma fancy21_W n h A l t T f : (n <= hnext h)%nat -> hrel h A i6 t T f -> length l = 21%nat ->
  List.Forall (fun x => (x < 6)%nat) l -> W n h (fancy A l) (gives h (iN 21) t T (G21 f l)).
Proof.
  intros Hn HA Hl H6. pose proof (fancyN_W n h A l t T f Hn HA H6) as H. now rewrite Hl in H.
Qed.
(** The call with the two views of the common shape [6 :: s]. *)
Lemma nd_cdya_views n h same A B s T f g : (n <= hnext h)%nat -> sub s T -> length s = length T ->
  broadcast_shapes (nshp A) (nshp B) = Ok (idim i6 ++ s) -> (loc A < hnext h)%nat -> (loc B < hnext h)%nat ->
  (forall h1, ext (hnext h) h h1 -> W (hnext h) h1 (broadcast_view A (idim i6 ++ s)) (fun r h' => h' = h1 /\ loc r = loc A /\ hrel h1 r i6 s T f)) ->
  (forall h1, ext (hnext h) h h1 -> W (hnext h) h1 (broadcast_view B (idim i6 ++ s)) (fun r h' => h' = h1 /\ loc r = loc B /\ hrel h1 r i6 s T g)) ->
  W n h (nd_cdya same A B None)
    (gives h i66 s T (fun k '(v, w) => cdya_obj same (f k) (g k) v w)).
Proof.
  intros Hn H2 Hlb Hbs HlA HlB VA VB.
  unfold nd_cdya. apply W_gives; [exact Hn|].
  apply (W_lift_bind _ _ _ (idim i6 ++ s)); [exact Hbs|].
  eapply W_call.
  { apply (W_alloc _ h _ i66 s T (fun _ _ => 0)); auto. repeat split; auto. }
  intros out h1 FO VO HO X1.
  eapply W_bind; [exact (VA h1 X1)|].
  cbv beta. intros A' h' _ [-> [LA HA']].
  eapply W_bind; [exact (VB h1 X1)|].
  cbv beta. intros B' h' _ [-> [LB HB']]. clear VA VB.
  assert (LA' : (loc A' < hnext h)%nat) by lia. assert (LB' : (loc B' < hnext h)%nat) by lia.
  eapply W_call; [apply (fancy21_W (hnext h) h1 A' l_ik s T f ltac:(hlia) HA' eq_refl l_ik6)|].
  intros Aik h2 F2 V2 HAik X2. carry_ext X2.
  eapply W_call; [apply (fancy21_W (hnext h) h2 B' l_jl s T g ltac:(hlia) HB' eq_refl l_jl6)|].
  intros Bjl h3 F3 V3 HBjl X3. carry_ext X3.
  eapply W_call; [apply (fancy21_W (hnext h) h3 A' l_il s T f ltac:(hlia) HA' eq_refl l_il6)|].
  intros Ail h4 F4 V4 HAil X4. carry_ext X4.
  eapply W_call; [apply (fancy21_W (hnext h) h4 B' l_kj s T g ltac:(hlia) HB' eq_refl l_kj6)|].
  intros Bkj h5 F5 V5 HBkj X5. carry_ext X5.
  eapply W_bind.
  { apply (np_bin_out_W Rmult (hnext h) h5 Aik Bjl Aik (iN 21) s s s T _ _ _ (iN_ok 21)
             ltac:(hlia) V2 HAik HBjl HAik (sub_refl s) (sub_refl s)). }
  intros r h6 _ [-> [W6 Hx]]. clear HAik. carry_wrote W6.
  eapply W_bind.
  { apply (np_bin_out_W Rmult (hnext h) h6 Ail Bkj Ail (iN 21) s s s T _ _ _ (iN_ok 21)
             ltac:(hlia) V4 HAil HBkj HAil (sub_refl s) (sub_refl s)). }
  intros r h7 _ [-> [W7 Hy]]. clear HAil. carry_wrote W7.
  eapply W_call; [apply (np_bin_W Rplus (hnext h) h7 Aik Ail (iN 21) s s T _ _ (iN_ok 21)
             ltac:(hlia) Hx Hy)|].
  rewrite bsh_refl. intros vals h8 F8 V8 Hvals X8. carry_ext X8.
  assert (Hout : hrel h8 out i66 s T (fun _ _ => 0)) by exact HO.
  eapply (W_bind _ h8 _ _ (fun r h9 => ext (hnext h7) h8 h9 /\ fresh h7 h9 r /\
     hrel h9 r (iN 21) s T (fun k i => cdya_F same f g k (proj1_sig i)))).
  { eapply (W_conseq _ (hnext h7) _ _ (fun r h9 => fresh h7 h9 r /\
     hrel h9 r (iN 21) s T (fun k i => cdya_F same f g k (proj1_sig i))));
      [|hlia|cbv beta; intros a h9 X [Y1 Y2]; exact (conj X (conj Y1 Y2))].
    destruct same.
    - eapply W_call; [apply (W_alloc (hnext h7) h8 (num 2) iS [] T (fun _ _ => 2) ltac:(hlia)
                        (rel_num 2 T))|].
      intros two h9 F9 V9 H9 X9. carry_ext X9.
      eapply W_conseq; [|apply le_n|].
      { apply (np_bin_out_scal_W Rdiv (hnext h7) h9 vals two vals (iN 21) s [] s T _ _ _ (iN_ok 21)
          ltac:(hlia) V8 Hvals H9 Hvals (sub_refl s) (sub_nil s)). }
      cbv beta. intros r h10 _ [-> [W10 HR]]. split; [split; hlia|exact HR].
    - eapply W_call; [apply (fancy21_W (hnext h7) h8 B' l_ik s T g ltac:(hlia) HB' eq_refl l_ik6)|].
      intros Bik h9 F9 V9 HBik X9. carry_ext X9.
      eapply W_call; [apply (fancy21_W (hnext h7) h9 A' l_jl s T f ltac:(hlia) HA' eq_refl l_jl6)|].
      intros Ajl h10 F10 V10 HAjl X10. carry_ext X10.
      eapply W_call; [apply (fancy21_W (hnext h7) h10 B' l_il s T g ltac:(hlia) HB' eq_refl l_il6)|].
      intros Bil h11 F11 V11 HBil X11. carry_ext X11.
      eapply W_call; [apply (fancy21_W (hnext h7) h11 A' l_kj s T f ltac:(hlia) HA' eq_refl l_kj6)|].
      intros Akj h12 F12 V12 HAkj X12. carry_ext X12.
      eapply W_bind.
      { apply (np_bin_out_W Rmult (hnext h7) h12 Bik Ajl Bik (iN 21) s s s T _ _ _ (iN_ok 21)
                 ltac:(hlia) V9 HBik HAjl HBik (sub_refl s) (sub_refl s)). }
      intros r h13 _ [-> [W13 Hx']]. clear HBik. carry_wrote W13.
      eapply W_bind.
      { apply (np_bin_out_W Rmult (hnext h7) h13 Bil Akj Bil (iN 21) s s s T _ _ _ (iN_ok 21)
                 ltac:(hlia) V11 HBil HAkj HBil (sub_refl s) (sub_refl s)). }
      intros r h14 _ [-> [W14 Hy']]. clear HBil. carry_wrote W14.
      eapply W_call; [apply (np_bin_W Rplus (hnext h7) h14 Bik Bil (iN 21) s s T _ _ (iN_ok 21)
                 ltac:(hlia) Hx' Hy')|].
      rewrite bsh_refl. intros z h15 F15 V15 Hz X15. carry_ext X15.
      eapply W_bind.
      { apply (np_bin_out_W Rplus (hnext h7) h15 vals z vals (iN 21) s s s T _ _ _ (iN_ok 21)
                 ltac:(hlia) V8 Hvals Hz Hvals (sub_refl s) (sub_refl s)). }
      intros r h16 _ [-> [W16 Hvals2]]. clear Hvals. carry_wrote W16.
      eapply W_call; [apply (W_alloc (hnext h7) h16 (num 4) iS [] T (fun _ _ => 4) ltac:(hlia)
                        (rel_num 4 T))|].
      intros four h17 F17 V17 H17 X17. carry_ext X17.
      eapply W_conseq; [|apply le_n|].
      { apply (np_bin_out_scal_W Rdiv (hnext h7) h17 vals four vals (iN 21) s [] s T _ _ _
          (iN_ok 21) ltac:(hlia) V8 Hvals2 H17 Hvals2 (sub_refl s) (sub_nil s)). }
      cbv beta. intros r h18 _ [-> [W18 HR]]. split; [split; hlia|exact HR]. }
  cbv beta. intros vals' h9 _ [X9 [F9 Hv9]].
  assert (HO9 : hrel h9 out i66 s T (fun _ _ => 0)).
  { eapply hrel_frame; [exact Hout|hlia|]. intros j. apply X9. hlia. }
  eapply W_bind.
  { apply (set_pairs_W (hnext h) h9 out (combine l_ij l_kl) vals' s T _ (cdya_F same f g)
             ltac:(hlia) VO ltac:(hlia) HO9 Hv9). repeat constructor. }
  cbv beta. intros [] h10 _ [W10 HO10].
  assert (Hv10 : hrel h10 vals' (iN 21) s T (fun k i => cdya_F same f g k (proj1_sig i)))
    by (eapply hrel_wrote; eauto; hlia).
  eapply W_bind.
  { apply (set_pairs_W (hnext h) h10 out (combine l_kl l_ij) vals' s T _ (cdya_F same f g)
             ltac:(hlia) VO ltac:(hlia) HO10 Hv10). repeat constructor. }
  cbv beta. intros [] h11 _ [W11 HO11]. apply W_ret.
  split; [split; hlia|]. split; [exact VO|].
  eapply hrel_fun; [exact HO11|]. intros k Hk [v w]. apply cdya_fill.
Qed.
Lemma nd_cdya_W n h same A B t u T f g : (n <= hnext h)%nat -> hrel h A i6 t T f ->
  hrel h B i6 u T g ->
  W n h (nd_cdya same A B None)
    (gives h i66 (bsh t u) T (fun k '(v, w) => cdya_obj same (f k) (g k) v w)).
Proof.
  intros Hn HA HB. pose proof HA as [HlA [A1 [A2 [A3 A4]]]]. cbn [contents shp] in A1.
  pose proof HB as [HlB [B1 [B2 [B3 B4]]]]. cbn [contents shp] in B1.
  assert (Hlt : length t = length T) by (destruct A3 as [A3|A3]; [discriminate|exact A3]).
  assert (Hlu : length u = length T) by (destruct B3 as [B3|B3]; [discriminate|exact B3]).
  destruct (bsh_ok _ _ _ A2 B2) as [H1 [H2 [H3 [H4 H5]]]].
  assert (Hlb : length (bsh t u) = length T) by lia.
  apply nd_cdya_views; auto.
  - rewrite A1, B1. apply broadcast_lead; auto. lia.
  - intros h1 X1. carry_ext X1. apply (broadcast_view_W _ h1 A i6 t _ T f i6_ok HA H3 H2 (or_intror Hlb)).
  - intros h1 X1. carry_ext X1. apply (broadcast_view_W _ h1 B i6 u _ T g i6_ok HB H4 H2 (or_intror Hlb)).
Qed.
