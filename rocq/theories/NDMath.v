(** * The array-level math functions compute the pointwise ones (proofs). *)
From Coq Require Import Reals List Arith Lia Lra.
From Verif Require Import Tensor Py Voigt NDCore NDRel NDOps NDHeap NDVoigt.
Import ListNotations.
Local Open Scope R_scope.
#[local] Hint Resolve iS_ok i3_ok i6_ok i33_ok i36_ok i66_ok i3333_ok : nd.

Ltac bshn := repeat first [rewrite bsh_refl | rewrite bsh_nil_l | rewrite bsh_nil_r].

(** Rows of a 6-vector / of three principal values, by number. *)
Ltac row6_tac H :=
  lazymatch goal with
  | |- RR iS _ _ (row 0 _) _ => exact (row6 V0 _ _ _ _ H)
  | |- RR iS _ _ (row 1 _) _ => exact (row6 V1 _ _ _ _ H)
  | |- RR iS _ _ (row 2 _) _ => exact (row6 V2 _ _ _ _ H)
  | |- RR iS _ _ (row 3 _) _ => exact (row6 V3 _ _ _ _ H)
  | |- RR iS _ _ (row 4 _) _ => exact (row6 V4 _ _ _ _ H)
  | |- RR iS _ _ (row 5 _) _ => exact (row6 V5 _ _ _ _ H)
  end.
(** Scalar expressions. *)
Ltac rr_scal tac :=
  lazymatch goal with
  | |- RR iS _ _ (rbin _ _ _) _ => eapply (RR_same _ iS); [exact iS_ok| rr_scal tac | rr_scal tac]
  | |- RR iS _ _ (rmap _ _) _ => eapply (RR_map iS); rr_scal tac
  | |- RR iS _ _ (rnum _) _ => eapply RR_num
  | |- _ => tac ()
  end.

Lemma RR_conv I t t' T m f g : RR I t T m f -> t = t' ->
  (forall k, inb T k -> forall i, f k i = g k i) -> RR I t' T m g.
Proof. intros H <- E. eapply RR_ext; eauto. Qed.

(** *** det *)
Lemma v_det_rel a t T f : rel i6 t T a f -> RR iS t T (v_det a) (fun k _ => det (f k)).
Proof.
  intros H. unfold v_det. cbv zeta. eapply RR_conv.
  - rr_scal ltac:(fun _ => row6_tac H).
  - bshn; reflexivity.
  - intros k Hk []. reflexivity.
Qed.
Lemma nd_det_W n h A t T f : (n <= hnext h)%nat -> hrel h A i6 t T f ->
  W n h (nd_det A) (gives h iS t T (fun k _ => det (f k))).
Proof.
  intros Hn [_ H]. unfold nd_det. apply W_load_bind. now apply W_new, v_det_rel.
Qed.

(** Bring facts about existing arrays to the next heap. *)
Ltac carry_ext X :=
  match type of X with
  | ext (hnext ?h) ?h ?h' =>
      repeat match goal with
      | H : hrel h _ _ _ _ _ |- _ => apply (hrel_ext _ h' _ _ _ _ _) in H; [|exact X]
      end
  end.
Ltac hlia :=
  repeat match goal with
  | H : fresh _ _ _ |- _ => destruct H
  | H : ext _ _ _ |- _ => destruct H as [? _]
  | H : wrote _ _ _ |- _ => destruct H as [? _]
  | H : hrel _ _ _ _ _ _ |- _ => destruct H as [? _]
  end; lia.
Ltac carry_wrote X :=
  match type of X with
  | wrote ?l ?h ?h' =>
      repeat match goal with
      | H : hrel h ?a _ _ _ _ |- _ =>
          apply (fun Y => hrel_wrote l h h' a _ _ _ _ Y X) in H; [|hlia]
      end
  end.

(** *** trace, asvoigt, astensor, fancy indexing *)
Lemma v_trace_rel a t T f : rel i6 t T a f ->
  RR iS t T (rbind (head 3 a) sum0) (fun k _ => trace (f k)).
Proof. intros H. eapply RR_conv; [exact (sum_head3 _ _ _ _ H)|reflexivity|reflexivity]. Qed.
Lemma nd_trace_W n h A t T f : (n <= hnext h)%nat -> hrel h A i6 t T f ->
  W n h (nd_trace A) (gives h iS t T (fun k _ => trace (f k))).
Proof.
  intros Hn [_ H]. unfold nd_trace. apply W_load_bind. now apply W_new, v_trace_rel.
Qed.
Definition un33 (f : index -> ity i33 -> R) (k : index) : T2 := fun i j => f k (i, j).
Definition un66 (f : index -> ity i66 -> R) (k : index) : Mat6 := fun i j => f k (i, j).
Definition un3333 (f : index -> ity i3333 -> R) (k : index) : T4 := fun i j l m => f k (i, j, l, m).
Definition un36 (f : index -> ity i36 -> R) (k : index) : ix3 -> Vec6 := fun i j => f k (i, j).

Lemma v_asvoigt_rel a t T f : rel i33 t T a f ->
  RR i6 t T (take2 [6%nat] (of_list [0; 1; 2; 0; 1; 0]%nat) (of_list [0; 1; 2; 1; 2; 2]%nat) a)
     (fun k v => asvoigt (un33 f k) v).
Proof.
  intros H. apply (take2_rel i33 i6 3 3 _ _ (fun v => (vi v, vj v))); eauto with nd.
  intros []; reflexivity.
Qed.
Lemma nd_asvoigt_W n h A t T f : (n <= hnext h)%nat -> hrel h A i33 t T f ->
  W n h (nd_asvoigt A) (gives h i6 t T (fun k v => asvoigt (un33 f k) v)).
Proof.
  intros Hn [_ H]. unfold nd_asvoigt. apply W_load_bind. now apply W_new, v_asvoigt_rel.
Qed.
Lemma v_astensor_rel a t T f : rel i6 t T a f ->
  RR i33 t T (take [3%nat; 3%nat] table33 a) (fun k '(i, j) => astensor (f k) i j).
Proof.
  intros H. eapply RR_conv.
  - apply (take_rel i6 i33 6 table33 (fun '(i, j) => vix i j)); eauto with nd.
    intros [[] []]; reflexivity.
  - reflexivity.
  - intros k Hk [i j]. reflexivity.
Qed.
Lemma nd_astensor_W n h A t T f : (n <= hnext h)%nat -> hrel h A i6 t T f ->
  W n h (nd_astensor A) (gives h i33 t T (fun k '(i, j) => astensor (f k) i j)).
Proof.
  intros Hn [_ H]. unfold nd_astensor. apply W_load_bind. now apply W_new, v_astensor_rel.
Qed.
Lemma v_astensor4_rel a t T f : rel i66 t T a f ->
  RR i3333 t T (take2 [3; 3; 3; 3]%nat table_ij table_kl a)
     (fun k '(i, j, l, m) => astensor4 (un66 f k) i j l m).
Proof.
  intros H. eapply RR_conv.
  - apply (take2_rel i66 i3333 6 6 table_ij table_kl
             (fun '(i, j, l, m) => (vix i j, vix l m))); eauto with nd.
    intros [[[[] []] []] []]; reflexivity.
  - reflexivity.
  - intros k Hk [[[i j] l] m]. reflexivity.
Qed.
Lemma nd_astensor4_W n h A t T f : (n <= hnext h)%nat -> hrel h A i66 t T f ->
  W n h (nd_astensor4 A)
    (gives h i3333 t T (fun k '(i, j, l, m) => astensor4 (un66 f k) i j l m)).
Proof.
  intros Hn [_ H]. unfold nd_astensor4. apply W_load_bind. now apply W_new, v_astensor4_rel.
Qed.
(** [A[l]] for a list of positions of a 6-vector. *)
Lemma fancy6_W n h A l (p : ix6 -> ix6) t T f : (n <= hnext h)%nat -> hrel h A i6 t T f ->
  length l = 6%nat -> (forall v, nth (n6 v) l 0%nat = n6 (p v)) ->
  W n h (fancy A l) (gives h i6 t T (fun k v => f k (p v))).
Proof.
  intros Hn [_ H] Hl Hp. unfold fancy. apply W_load_bind. rewrite Hl. apply W_new; [assumption|].
  apply (take_rel i6 i6 6 (of_list l) p); eauto with nd.
  intros v. cbn. now rewrite Hp.
Qed.

(** *** Arithmetic on array objects *)
Lemma np_bin_W op n h a b I t u T f g : ixt_ok I -> (n <= hnext h)%nat ->
  hrel h a I t T f -> hrel h b I u T g ->
  W n h (np_bin op a b) (gives h I (bsh t u) T (fun k i => op (f k i) (g k i))).
Proof.
  intros HI Hn [_ Ha] [_ Hb]. unfold np_bin. apply W_load_bind, W_load_bind.
  apply W_new; [assumption|]. now apply vbin_same.
Qed.
(** [np.op(a, b, out=o)] into an array that covers both operands. *)
Lemma np_bin_out_W op n h a b o I t u w T f g f0 : ixt_ok I -> (n <= loc o)%nat ->
  (forall k, vw o k = k) ->
  hrel h a I t T f -> hrel h b I u T g -> hrel h o I w T f0 -> sub t w -> sub u w ->
  W n h (np_bin_out op a b o)
    (fun r h' => r = o /\ wrote (loc o) h h' /\ hrel h' o I w T (fun k i => op (f k i) (g k i))).
Proof.
  intros HI Hn Hv [_ Ha] [_ Hb] Ho Ht Hu. unfold np_bin_out. apply W_load_bind, W_load_bind.
  destruct (vbin_same op I t u T _ _ f g HI Ha Hb) as [z [Hz Hr]].
  apply (W_lift_bind _ _ _ z); [exact Hz|].
  eapply W_bind.
  - eapply (W_assign n h o z I w (bsh t u)); eauto.
    destruct (bsh_ok t u w Ht Hu) as [_ [H _]]. exact H.
  - intros [] h' _ [H1 H2]. apply W_ret. auto.
Qed.
Lemma np_bin_out_scal_W op n h a b o I t u w T f g f0 : ixt_ok I -> (n <= loc o)%nat ->
  (forall k, vw o k = k) ->
  hrel h a I t T f -> hrel h b iS u T g -> hrel h o I w T f0 -> sub t w -> sub u w ->
  W n h (np_bin_out op a b o)
    (fun r h' => r = o /\ wrote (loc o) h h' /\ hrel h' o I w T (fun k i => op (f k i) (g k tt))).
Proof.
  intros HI Hn Hv [_ Ha] [_ Hb] Ho Ht Hu. unfold np_bin_out. apply W_load_bind, W_load_bind.
  destruct (vbin_scal_r op I t u T _ _ f g HI Ha Hb) as [z [Hz Hr]].
  apply (W_lift_bind _ _ _ z); [exact Hz|].
  eapply W_bind.
  - eapply (W_assign n h o z I w (bsh t u)); eauto.
    destruct (bsh_ok t u w Ht Hu) as [_ [H _]]. exact H.
  - intros [] h' _ [H1 H2]. apply W_ret. auto.
Qed.

(** Sequential code: track what is known of the new array; the frame comes for free. *)
Lemma W_gives n h (m : M nd) I t T f : (n <= hnext h)%nat ->
  W (hnext h) h m (fun a h' => fresh h h' a /\ (forall k, vw a k = k) /\ hrel h' a I t T f) ->
  W n h m (gives h I t T f).
Proof.
  intros Hn H. eapply W_conseq; [exact H|exact Hn|]. cbv beta.
  intros a h' X [A1 [A2 A3]]. exact (conj A1 (conj A2 (conj A3 X))).
Qed.

(** *** inv (out=None) *)
Lemma nd_inv_W n h A d t T f g : (n <= hnext h)%nat -> hrel h A i6 t T f ->
  (forall a, d = Some a -> exists u, sub u t /\ hrel h a iS u T (fun k _ => g k)) ->
  W n h (nd_inv A d None)
    (gives h i6 t T (fun k v => inv (f k) (match d with Some _ => Some (g k) | None => None end) v)).
Proof.
  intros Hn HA Hd. unfold nd_inv. apply W_gives; [exact Hn|].
  eapply W_call.
  { eapply (W_alloc _ h (zeros (nshp A)) i6 t T (fun _ _ => 0)); auto.
    destruct HA as [_ [H1 [H2 [H3 H4]]]]. repeat split; auto. }
  intros z h1 Fz _ _ X1.
  assert (HA1 := hrel_ext _ _ _ _ _ _ _ HA X1).
  (* the determinant *)
  eapply (W_bind _ h1 _ _ (fun dA h2 => ext (hnext h1) h1 h2 /\ exists u, sub u t /\ hrel h2 dA iS u T
     (fun k _ => match d with Some _ => g k | None => det (f k) end))).
  { destruct d as [a|].
    - apply W_ret. destruct (Hd a eq_refl) as [u [Hu Ha]]. split; [apply ext_refl|].
      exists u. split; auto. eapply hrel_ext; eauto.
    - eapply W_conseq; [apply (nd_det_W (hnext h) h1 A t T f); auto; hlia|auto|].
      intros a h' _ [_ [_ [H1 H2]]]. split; auto. exists t. split; [apply sub_refl|exact H1]. }
  intros dA h2 _ [X2 [u [Hu HdA]]].
  assert (LdA : (loc dA < hnext h2)%nat) by apply HdA.
  carry_ext X2.
  eapply W_call; [apply (fancy6_W _ h2 A _ inv_i t T f); auto; [hlia|intros []; reflexivity]|].
  intros Ai h3 F3 V3 HAi X3. carry_ext X3.
  eapply W_call; [apply (fancy6_W _ h3 A _ inv_j t T f); auto; [hlia|intros []; reflexivity]|].
  intros Aj h4 F4 V4 HAj X4. carry_ext X4.
  eapply W_call; [apply (fancy6_W _ h4 A _ inv_k t T f); auto; [hlia|intros []; reflexivity]|].
  intros Ak h5 F5 V5 HAk X5. carry_ext X5.
  eapply W_call; [apply (fancy6_W _ h5 A _ inv_l t T f); auto; [hlia|intros []; reflexivity]|].
  intros Al h6 F6 V6 HAl X6. carry_ext X6.
  eapply W_bind.
  { apply (np_bin_out_W Rmult (hnext h) h6 Ai Aj Ai i6 t t t T _ _ _ i6_ok ltac:(hlia) V3 HAi HAj HAi
             (sub_refl t) (sub_refl t)). }
  intros r h7 _ [-> [W7 HAij]].
  clear HAi. carry_wrote W7.
  eapply W_bind.
  { apply (np_bin_out_W Rmult (hnext h) h7 Ak Al Ak i6 t t t T _ _ _ i6_ok ltac:(hlia) V5 HAk HAl HAk
             (sub_refl t) (sub_refl t)). }
  intros r h8 _ [-> [W8 HAkl]].
  clear HAk. carry_wrote W8.
  eapply W_bind.
  { apply (np_bin_out_W Rminus (hnext h) h8 Ai Ak Ai i6 t t t T _ _ _ i6_ok ltac:(hlia) V3 HAij HAkl HAij
             (sub_refl t) (sub_refl t)). }
  intros r h9 _ [-> [W9 HAinv]].
  clear HAij. carry_wrote W9.
  eapply W_conseq; [|apply le_n|].
  { apply (np_bin_out_scal_W Rdiv (hnext h) h9 Ai dA Ai i6 t u t T _ _ _ i6_ok ltac:(hlia) V3 HAinv HdA HAinv
             (sub_refl t) Hu). }
  cbv beta. intros r h10 _ [-> [W10 HR]].
  split; [split; hlia|]. split; [exact V3|].
  eapply hrel_fun; [exact HR|]. intros k Hk v. cbv beta. unfold inv. destruct d; reflexivity.
Qed.
