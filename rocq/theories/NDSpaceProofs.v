(** * The array-level spaces compute the pointwise ones (proofs). *)
From Coq Require Import Reals List Arith Lia Lra.
From Verif Require Import Tensor Py Voigt Frameworks Spaces Spec SpaceCore.
From Verif Require Import NDCore NDRel NDOps NDHeap NDVoigt NDMath NDMath2 NDMath3 NDSpaces.
Import ListNotations.
Local Open Scope R_scope.

(** *** einsum with two and three operands *)
Lemma ell_shape2 t u T oa ob : sub t T -> sub u T -> o_ell oa = t -> o_ell ob = u ->
  ell_shape [oa; ob] = Ok (bsh t u).
Proof.
  intros Ht Hu Ea Eb. cbn [ell_shape rbind]. rewrite Ea, Eb.
  rewrite broadcast_comm, (broadcast_sub_l _ _ (sub_nil u)). cbn [rbind].
  apply (bsh_ok t u T Ht Hu).
Qed.
Lemma ell_shape3 t u T oa ob oc : sub t T -> sub u T -> o_ell oa = t -> o_ell ob = t ->
  o_ell oc = u -> ell_shape [oa; ob; oc] = Ok (bsh t u).
Proof.
  intros Ht Hu Ea Eb Ec. cbn [ell_shape rbind]. rewrite Ea, Eb, Ec.
  rewrite broadcast_comm, (broadcast_sub_l _ _ (sub_nil u)). cbn [rbind].
  destruct (bsh_ok t u T Ht Hu) as [H1 [H2 [H3 [H4 H5]]]]. rewrite H1. cbn [rbind].
  rewrite (broadcast_sub_l _ _ H3). reflexivity.
Qed.
Ltac es2_pre K I J A1 A2 B1 B2 :=
  eapply (einsum_rel K);
  [ rewrite (operands_cons _ (idim I) _ _ _ A1) by reflexivity;
    rewrite (operands_cons _ (idim J) _ _ _ B1) by reflexivity; reflexivity
  | eapply ell_shape2; [exact A2|exact B2|reflexivity..]
  | reflexivity | idtac | reflexivity | reflexivity | idtac | idtac | idtac ].
Ltac es3_pre K I J A1 A2 B1 B2 :=
  eapply (einsum_rel K);
  [ rewrite !(operands_cons _ (idim I) _ _ _ A1) by reflexivity;
    rewrite (operands_cons _ (idim J) _ _ _ B1) by reflexivity; reflexivity
  | eapply ell_shape3; [exact A2|exact B2|reflexivity..]
  | reflexivity | idtac | reflexivity | reflexivity | idtac | idtac | idtac ].

Lemma es_CG_rel a t T f : rel i33 t T a f ->
  RR i33 t T (einsum [(tm [0; 1], a); (tm [0; 2], a)]%nat (tm [1; 2]%nat))
    (fun k '(i, j) => sum3 (fun l => un33 f k l i * un33 f k l j)).
Proof.
  intros Ha. pose proof Ha as [A1 [A2 _]].
  pose proof (rel_len' _ _ _ _ _ Ha ltac:(discriminate)) as L1.
  eapply RR_shape; [apply bsh_refl|].
  es2_pre i33 i33 i33 A1 A2 A1 A2.
  - exact i33_ok.
  - rewrite bsh_refl. exact A2.
  - right. now rewrite bsh_refl.
  - intros k Hk [i j]. labels. rewrite sumN3, bsh_refl. apply sum3_eq. intros l.
    rewrite (op_value_rel i33 _ t _ T a f _ k (l, i) i33_ok Ha (sub_refl t) A2 Hk) by reflexivity.
    rewrite (op_value_rel i33 _ t _ T a f _ k (l, j) i33_ok Ha (sub_refl t) A2 Hk) by reflexivity.
    reflexivity.
Qed.
Lemma es_force_rel a b t u T f g : rel i33 t T a f -> rel i33 u T b g ->
  RR i33 (bsh t u) T (einsum [(tm [0; 1], a); (tm [1; 2], b)]%nat (tm [0; 2]%nat))
    (fun k '(i, j) => es_force (un33 f k) (un33 g k) i j).
Proof.
  intros Ha Hb. pose proof Ha as [A1 [A2 _]]. pose proof Hb as [B1 [B2 _]].
  pose proof (rel_len' _ _ _ _ _ Ha ltac:(discriminate)) as L1.
  pose proof (rel_len' _ _ _ _ _ Hb ltac:(discriminate)) as L2.
  destruct (bsh_ok _ _ _ A2 B2) as [H1 [H2 [H3 [H4 H5]]]].
  es2_pre i33 i33 i33 A1 A2 B1 B2.
  - exact i33_ok.
  - exact H2.
  - right. lia.
  - intros k Hk [i j]. labels. rewrite sumN3. apply sum3_eq. intros l.
    rewrite (op_value_rel i33 _ t _ T a f _ k (i, l) i33_ok Ha H3 H2 Hk) by reflexivity.
    rewrite (op_value_rel i33 _ u _ T b g _ k (l, j) i33_ok Hb H4 H2 Hk) by reflexivity.
    reflexivity.
Qed.
Lemma es_area_rel a b t u T f g : rel i33 t T a f -> rel i33 u T b g ->
  RR i33 (bsh t u) T (einsum [(tm [1; 2], a); (tm [0; 2], b)]%nat (tm [0; 1]%nat))
    (fun k '(i, j) => es_area (un33 f k) (un33 g k) i j).
Proof.
  intros Ha Hb. pose proof Ha as [A1 [A2 _]]. pose proof Hb as [B1 [B2 _]].
  pose proof (rel_len' _ _ _ _ _ Ha ltac:(discriminate)) as L1.
  pose proof (rel_len' _ _ _ _ _ Hb ltac:(discriminate)) as L2.
  destruct (bsh_ok _ _ _ A2 B2) as [H1 [H2 [H3 [H4 H5]]]].
  es2_pre i33 i33 i33 A1 A2 B1 B2.
  - exact i33_ok.
  - exact H2.
  - right. lia.
  - intros k Hk [i j]. labels. rewrite sumN3. apply sum3_eq. intros l.
    rewrite (op_value_rel i33 _ t _ T a f _ k (j, l) i33_ok Ha H3 H2 Hk) by reflexivity.
    rewrite (op_value_rel i33 _ u _ T b g _ k (i, l) i33_ok Hb H4 H2 Hk) by reflexivity.
    reflexivity.
Qed.
Lemma es4_force_rel a b t u T f g : rel i33 t T a f -> rel i3333 u T b g ->
  RR i3333 (bsh t u) T
    (einsum [(tm [0; 1], a); (tm [2; 3], a); (tm [1; 4; 3; 5], b)]%nat (tm [0; 4; 2; 5]%nat))
    (fun k '(i, j, l, m) => es4_force (un33 f k) (un3333 g k) i j l m).
Proof.
  intros Ha Hb. pose proof Ha as [A1 [A2 _]]. pose proof Hb as [B1 [B2 _]].
  pose proof (rel_len' _ _ _ _ _ Ha ltac:(discriminate)) as L1.
  pose proof (rel_len' _ _ _ _ _ Hb ltac:(discriminate)) as L2.
  destruct (bsh_ok _ _ _ A2 B2) as [H1 [H2 [H3 [H4 H5]]]].
  es3_pre i3333 i33 i3333 A1 A2 B1 B2.
  - exact i3333_ok.
  - exact H2.
  - right. lia.
  - intros k Hk [[[i j] l] m]. labels. rewrite sumN3. apply sum3_eq. intros p.
    rewrite sumN3. apply sum3_eq. intros q.
    rewrite (op_value_rel i33 _ t _ T a f _ k (i, p) i33_ok Ha H3 H2 Hk) by reflexivity.
    rewrite (op_value_rel i33 _ t _ T a f _ k (l, q) i33_ok Ha H3 H2 Hk) by reflexivity.
    rewrite (op_value_rel i3333 _ u _ T b g _ k (p, j, q, m) i3333_ok Hb H4 H2 Hk) by reflexivity.
    symmetry. apply Rmult_assoc.
Qed.
Lemma es4_area_rel a b t u T f g : rel i33 t T a f -> rel i3333 u T b g ->
  RR i3333 (bsh t u) T
    (einsum [(tm [0; 1], a); (tm [2; 3], a); (tm [4; 1; 5; 3], b)]%nat (tm [4; 0; 5; 2]%nat))
    (fun k '(i, j, l, m) => es4_area (un33 f k) (un3333 g k) i j l m).
Proof.
  intros Ha Hb. pose proof Ha as [A1 [A2 _]]. pose proof Hb as [B1 [B2 _]].
  pose proof (rel_len' _ _ _ _ _ Ha ltac:(discriminate)) as L1.
  pose proof (rel_len' _ _ _ _ _ Hb ltac:(discriminate)) as L2.
  destruct (bsh_ok _ _ _ A2 B2) as [H1 [H2 [H3 [H4 H5]]]].
  es3_pre i3333 i33 i3333 A1 A2 B1 B2.
  - exact i3333_ok.
  - exact H2.
  - right. lia.
  - intros k Hk [[[i j] l] m]. labels. rewrite sumN3. apply sum3_eq. intros p.
    rewrite sumN3. apply sum3_eq. intros q.
    rewrite (op_value_rel i33 _ t _ T a f _ k (j, p) i33_ok Ha H3 H2 Hk) by reflexivity.
    rewrite (op_value_rel i33 _ t _ T a f _ k (m, q) i33_ok Ha H3 H2 Hk) by reflexivity.
    rewrite (op_value_rel i3333 _ u _ T b g _ k (i, p, l, q) i3333_ok Hb H4 H2 Hk) by reflexivity.
    symmetry. apply Rmult_assoc.
Qed.

(** *** einsum on array objects *)
Lemma nd_einsum2_W n h t1 a t2 b o Q :
  W n h (new (einsum [(t1, contents h a); (t2, contents h b)] o)) Q ->
  W n h (nd_einsum [(t1, a); (t2, b)] o) Q.
Proof. intros H. exact H. Qed.
(** [einsum(..., out=out)] into an array that covers the result *)
Lemma nd_einsum_out2_W n h t1 a t2 b o out I t w T f0 g : ixt_ok I -> (n <= loc out)%nat ->
  (forall k, vw out k = k) -> hrel h out I w T f0 -> sub t w ->
  RR I t T (einsum [(t1, contents h a); (t2, contents h b)] o) g ->
  W n h (nd_einsum_out [(t1, a); (t2, b)] o out)
    (fun r h' => r = out /\ wrote (loc out) h h' /\ hrel h' out I w T g).
Proof.
  intros HI Hn Hid Ho Ht [z [Hz Hr]].
  change (W n h (bind (lift (einsum [(t1, contents h a); (t2, contents h b)] o))
    (fun z => bind (assign out z) (fun _ => ret out)))
    (fun r h' => r = out /\ wrote (loc out) h h' /\ hrel h' out I w T g)).
  apply (W_lift_bind _ _ _ z); [exact Hz|].
  eapply W_bind; [apply (W_assign n h out z I w t T f0 g HI Hn Hid Ho Hr Ht)|].
  cbv beta. intros [] h' _ [A1 A2]. apply W_ret. auto.
Qed.
Lemma nd_einsum_out3_W n h t1 a t2 b t3 c o out I t w T f0 g : ixt_ok I -> (n <= loc out)%nat ->
  (forall k, vw out k = k) -> hrel h out I w T f0 -> sub t w ->
  RR I t T (einsum [(t1, contents h a); (t2, contents h b); (t3, contents h c)] o) g ->
  W n h (nd_einsum_out [(t1, a); (t2, b); (t3, c)] o out)
    (fun r h' => r = out /\ wrote (loc out) h h' /\ hrel h' out I w T g).
Proof.
  intros HI Hn Hid Ho Ht [z [Hz Hr]].
  change (W n h (bind (lift (einsum [(t1, contents h a); (t2, contents h b); (t3, contents h c)] o))
    (fun z => bind (assign out z) (fun _ => ret out)))
    (fun r h' => r = out /\ wrote (loc out) h h' /\ hrel h' out I w T g)).
  apply (W_lift_bind _ _ _ z); [exact Hz|].
  eapply W_bind; [apply (W_assign n h out z I w t T f0 g HI Hn Hid Ho Hr Ht)|].
  cbv beta. intros [] h' _ [A1 A2]. apply W_ret. auto.
Qed.

(** *** right Cauchy-Green tensor, sqrt *)
Lemma nd_right_CG_W n h F T f : (n <= hnext h)%nat -> hrel h F i33 T T f ->
  W n h (nd_right_CG F) (gives h i6 T T (fun k v => right_CG (un33 f k) v)).
Proof.
  intros Hn HF. unfold nd_right_CG. apply W_gives; [exact Hn|].
  eapply W_call.
  { apply nd_einsum2_W. apply W_new; [apply le_n|]. apply es_CG_rel, HF. }
  intros FF h1 F1 V1 H1 X1.
  eapply W_conseq; [apply (nd_asvoigt_W (hnext h) h1 FF T T _ ltac:(hlia) H1)|auto|].
  cbv beta. intros a h' _ [A1 [A2 [A3 A4]]].
  split; [split; hlia|]. split; [exact A2|].
  eapply hrel_fun; [exact A3|]. reflexivity.
Qed.
Lemma nd_sqrt_W n h a t T f : (n <= hnext h)%nat -> hrel h a iS t T f ->
  W n h (nd_sqrt a) (gives h iS t T (fun k i => sqrt (f k i))).
Proof.
  intros Hn [_ H]. unfold nd_sqrt. apply W_load_bind. apply W_new; [exact Hn|].
  apply RR_ok. now apply rel_map.
Qed.

(** *** Does the destination array have to be broadcast? *)
Lemma isclose_refl x : isclose x x = true.
Proof.
  unfold isclose, np_atol, np_rtol. destruct (Rle_dec _ _) as [|n]; auto. exfalso. apply n.
  rewrite Rminus_diag_eq by reflexivity. rewrite Rabs_R0.
  pose proof (Rabs_pos x). assert (0 <= / 10 ^ 8) by (left; apply Rinv_0_lt_compat; lra).
  assert (0 <= / 10 ^ 5) by (left; apply Rinv_0_lt_compat; lra). nra.
Qed.
Lemma isclose_one a : isclose (INR a) (INR 1) = true -> a = 1%nat.
Proof.
  unfold isclose, np_atol, np_rtol. destruct (Rle_dec _ _) as [n|]; [|discriminate]. intros _.
  cbn [INR] in n. rewrite Rabs_R1 in n.
  destruct a as [|[|a]]; auto; exfalso.
  - cbn [INR] in n. rewrite Rminus_0_l, Rabs_Ropp, Rabs_R1 in n. lra.
  - rewrite !S_INR in n. pose proof (pos_INR a). rewrite Rabs_pos_eq in n by lra. lra.
Qed.
Lemma Forall2_rev' {A B} (P : A -> B -> Prop) l m : List.Forall2 P l m -> List.Forall2 P (rev l) (rev m).
Proof.
  induction 1 as [|a b l m H1 H2 IH]; cbn; [constructor|].
  apply List.Forall2_app; [exact IH|]. constructor; [exact H1|constructor].
Qed.
(** [np.allclose(new_shape, shape)] is equality for a shape that broadcasts to [new_shape]. *)
Lemma shapes_allclose_sub L t T : sub t T -> length t = length T ->
  exists b, shapes_allclose (L ++ T) (L ++ t) = Ok b /\ (b = true -> t = T).
Proof.
  intros H Hl. unfold shapes_allclose. rewrite !app_length, Hl, Nat.eqb_refl.
  eexists. split; [reflexivity|].
  assert (G : forall L, forallb (fun '(a, b) => isclose (INR a) (INR b)) (combine (L ++ T) (L ++ t))
     = true -> forallb (fun '(a, b) => isclose (INR a) (INR b)) (combine T t) = true).
  { clear. induction L as [|x L IH]; intros H; [exact H|]. cbn [app combine forallb] in H.
    apply andb_prop in H. apply IH, H. }
  intros E. apply G in E. clear G.
  assert (Hp : List.Forall2 (fun a b => a = 1%nat \/ a = b) t T).
  { unfold sub in H. clear E. revert T Hl H. intros T Hl H.
    assert (K : List.Forall2 (fun a b => a = 1%nat \/ a = b) (rev t) (rev T)).
    { assert (Hl' : length (rev t) = length (rev T)) by now rewrite !rev_length.
      revert H Hl'. generalize (rev t) (rev T). intros a. induction a as [|x a IH]; intros [|y b];
        cbn; try discriminate; intros; constructor; try tauto. apply IH; [tauto|lia]. }
    apply Forall2_rev' in K. now rewrite !rev_involutive in K. }
  clear H Hl. induction Hp as [|a b t T Hab Hp IH]; auto.
  cbn [combine forallb] in E. apply andb_prop in E. destruct E as [E1 E2].
  f_equal; [|auto]. destruct Hab as [ -> | -> ]; auto. symmetry. now apply isclose_one.
Qed.

(** *** piola *)
(** Optional scalar / vector arguments. *)
Definition opt_rel (h : heap) (I : ixt) (T : shape) (a : option nd)
  (g : option (index -> ity I -> R)) : Prop :=
  match a, g with
  | None, None => True
  | Some a, Some g => exists u, sub u T /\ hrel h a I u T g
  | _, _ => False
  end.
Definition opt_at {A} (g : option (index -> ity iS -> A)) (k : index) : option A :=
  match g with Some g => Some (g k tt) | None => None end.
Definition opt_at6 (g : option (index -> ity i6 -> R)) (k : index) : option Vec6 :=
  match g with Some g => Some (g k) | None => None end.
(** What an array returned by [piola] holds at every trailing index. *)
Definition is_stress (full : bool) (h : heap) (r : nd) (t T : shape) (p : index -> StressOut) : Prop :=
  if full then exists f, hrel h r i33 t T f /\ forall k, inb T k -> p k = StressFull (un33 f k)
  else exists f, hrel h r i6 t T f /\ forall k, inb T k -> p k = StressVoigt (f k).
Definition is_elast (full : bool) (h : heap) (r : nd) (t T : shape) (p : index -> ElastOut) : Prop :=
  if full then exists f, hrel h r i3333 t T f /\ forall k, inb T k -> p k = ElastFull (un3333 f k)
  else exists f, hrel h r i66 t T f /\ forall k, inb T k -> p k = ElastVoigt (un66 f k).
Definition stress_shape (o : SpaceOpts) (t T : shape) : shape :=
  if finalize o then
    match force o, area o with Undeformed, Undeformed => t | _, _ => T end
  else t.

(** [np.broadcast_to(a, new_shape).copy()] unless the shape is already [new_shape] *)
Lemma grow_W n h a I L (T t : shape) f : ixt_ok I -> idim I = L -> (n <= hnext h)%nat ->
  (n <= loc a)%nat -> (forall k, vw a k = k) -> hrel h a I t T f -> length t = length T ->
  W n h (bind (lift (broadcast_shapes (L ++ T) (nshp a))) (fun new_shape =>
         bind (lift (shapes_allclose new_shape (nshp a))) (fun same =>
         if same then ret a else bind (load a) (fun x => new (broadcast_to x new_shape)))))
    (fun r h' => (n <= loc r)%nat /\ (loc r < hnext h')%nat /\ (forall k, vw r k = k) /\
                 ext (hnext h) h h' /\ hrel h' r I T T f).
Proof.
  intros HI <- Hn Hla Hid Ha Hl. pose proof Ha as [Ha0 [A1 [A2 [A3 A4]]]]. cbn [contents shp] in A1.
  apply (W_lift_bind _ _ _ (idim I ++ T)).
  { rewrite A1. apply broadcast_lead.
    - rewrite broadcast_comm. now apply broadcast_sub_l.
    - lia.
    - apply ix_bc, HI. }
  destruct (shapes_allclose_sub (idim I) t T A2 Hl) as [b [Hb Hbt]].
  apply (W_lift_bind _ _ _ b); [rewrite A1; exact Hb|].
  destruct b.
  - rewrite (Hbt eq_refl) in *. apply W_ret. repeat split; auto.
  - apply W_load_bind. eapply W_conseq.
    + apply (W_new (hnext h) h _ I T T f (le_n _)).
      apply (broadcast_to_rel I t T T _ f HI (proj2 Ha) A2 (sub_refl T)). now right.
    + exact Hn.
    + intros r h' _ [B1 [B2 [B3 B4]]]. split; [hlia|]. split; [hlia|]. auto.
Qed.
Lemma W_eqh {A} n h (m m' : M A) Q : m h = m' h -> W n h m' Q -> W n h m Q.
Proof. intros E H. unfold W in *. now rewrite E. Qed.
Lemma bind_assoc3 {A B C D} (a : M A) (b : A -> M B) (c : A -> B -> M C) (k : C -> M D) h :
  bind a (fun x => bind (b x) (fun y => bind (c x y) k)) h =
  bind (bind a (fun x => bind (b x) (fun y => c x y))) k h.
Proof.
  unfold bind. destruct (a h) as [h1 [x|]]; auto. destruct (b x h1) as [h2 [y|]]; auto.
Qed.

Lemma nd_piola_stress_W n h o F S d t T fF fS pd : (n <= hnext h)%nat ->
  hrel h F i33 T T fF -> hrel h S i6 t T fS -> opt_rel h iS T d pd ->
  (finalize o = true -> force o = Undeformed -> area o = Deformed -> t = T) ->
  W n h (nd_piola_stress o F S d) (fun r h' => ext (hnext h) h h' /\
    (if finalize o then fresh h h' r else r = S /\ h' = h) /\
    is_stress (finalize o) h' r (stress_shape o t T) T
      (fun k => piola_stress o (un33 fF k) (fS k) (opt_at pd k))).
Proof.
  intros Hn HF HS Hd Ho.
  pose proof HF as [HF0 [F1 [F2 [F3 F4]]]]. cbn [contents shp] in F1.
  pose proof HS as [HS0 [S1 [S2 [S3 S4]]]].
  assert (Hlt : length t = length T) by (destruct S3 as [S3|S3]; [discriminate|exact S3]).
  unfold nd_piola_stress, stress_shape. destruct (finalize o) eqn:Ef.
  2:{ apply W_ret. split; [apply ext_refl|]. split; [auto|]. unfold is_stress. exists fS. split; auto.
      intros k Hk. unfold piola_stress. now rewrite Ef. }
  eapply (W_conseq n (hnext h) h _ (fun r h' => fresh h h' r /\
    is_stress true h' r (match force o, area o with Undeformed, Undeformed => t | _, _ => T end) T
      (fun k => piola_stress o (un33 fF k) (fS k) (opt_at pd k))));
    [|exact Hn|cbv beta; intros r h' X [Y1 Y2]; exact (conj X (conj Y1 Y2))].
  eapply W_call; [apply (nd_astensor_W (hnext h) h S t T fS (le_n _) HS)|].
  intros s0 h1 Fs Vs Hs X1. carry_ext X1.
  assert (Hd1 : opt_rel h1 iS T d pd).
  { destruct d, pd; cbn in *; auto. destruct Hd as [u [Hu Hd]]. exists u. split; auto.
    eapply hrel_ext; eauto. }
  assert (Ld : forall a, d = Some a -> (loc a < hnext h)%nat).
  { intros a ->. destruct pd; cbn in Hd; [|tauto]. destruct Hd as [u [_ [H _]]]. exact H. }
  (* force *)
  set (ts := match force o with Deformed => T | Undeformed => t end).
  set (gs := fun (k : index) '(i, j) =>
     (match force o with Deformed => es_force (un33 fF k) (astensor (fS k))
                       | Undeformed => astensor (fS k) end) i j).
  eapply (W_bind _ h1 _ _ (fun r h2 => (hnext h <= loc r)%nat /\ (loc r < hnext h2)%nat /\
     (forall k, vw r k = k) /\ hrel h2 r i33 ts T gs /\ hrel h2 F i33 T T fF /\
     opt_rel h2 iS T d pd)).
  { unfold ts, gs. destruct (force o).
    - eapply W_eqh; [rewrite F1; apply (bind_assoc3
        (lift (broadcast_shapes (idim i33 ++ T) (nshp s0)))
        (fun s => lift (shapes_allclose s (nshp s0)))
        (fun s same => if same then ret s0 else bind (load s0) (fun x => new (broadcast_to x s))))|].
      eapply W_bind.
      { apply (grow_W (hnext h) h1 s0 i33 (idim i33) T t _ i33_ok eq_refl ltac:(hlia) ltac:(hlia)
                 Vs Hs Hlt). }
      cbv beta. intros s1 h2 X [L1 [L2 [V2 [X2 H2]]]]. carry_ext X2.
      eapply W_conseq.
      + eapply (nd_einsum_out2_W (hnext h) h2 _ F _ s1 _ s1 i33 (bsh T T) T T _ _ i33_ok L1 V2 H2).
        * rewrite bsh_refl. apply sub_refl.
        * apply es_force_rel; [apply HF|apply H2].
      + apply le_n.
      + cbv beta. intros r h3 _ [-> [W3 H3]].
        split; [exact L1|]. split; [hlia|]. split; [exact V2|].
        split; [|split].
        * eapply hrel_fun; [exact H3|]. intros k Hk [i j]. reflexivity.
        * eapply hrel_wrote; eauto. lia.
        * destruct d as [a|], pd; cbn in *; auto. specialize (Ld a eq_refl).
          destruct Hd1 as [u [Hu Hd1]]. exists u. split; auto.
          eapply hrel_wrote; [|exact W3|lia]. eapply hrel_ext; eauto.
    - apply W_ret. split; [hlia|]. split; [hlia|]. split; [exact Vs|]. auto. }
  cbv beta. intros s1 h2 X2 [L1 [L2 [V1 [H1 [HF2 Hd2]]]]].
  (* area *)
  unfold piola_stress. rewrite Ef.
  destruct (area o) eqn:Ea.
  2:{ apply W_ret. split; [split; lia|]. unfold is_stress. exists gs. split.
      - unfold ts in *. destruct (force o); exact H1.
      - intros k Hk. unfold gs, un33. destruct (force o); reflexivity. }
  assert (Ets : ts = T).
  { unfold ts. destruct (force o) eqn:Eo; auto. }
  rewrite Ets in *.
  eapply (W_bind _ h2 _ _ (fun r h3 => ext (hnext h2) h2 h3 /\ exists u g, sub u T /\
     (loc r < loc s1 \/ loc s1 < loc r)%nat /\
     hrel h3 r iS u T g /\ forall k, g k tt = match opt_at pd k with
       | Some x => x | None => sqrt (det (right_CG (un33 fF k))) end)).
  { destruct d as [a|], pd as [g|]; cbn in Hd2; try tauto.
    - apply W_ret. split; [apply ext_refl|]. destruct Hd2 as [u [Hu Hd2]].
      exists u, g. split; [exact Hu|]. split; [specialize (Ld a eq_refl); lia|].
      split; [exact Hd2|reflexivity].
    - eapply (W_conseq _ (hnext h2) _ _ (gives h2 iS T T (fun k _ => sqrt (det (right_CG (un33 fF k))))));
        [|hlia|].
      + apply W_gives; [apply le_n|].
        eapply W_call; [apply (nd_right_CG_W (hnext h2) h2 F T fF (le_n _) HF2)|].
        intros C h3 FC VC HC X3.
        eapply W_call; [apply (nd_det_W (hnext h2) h3 C T T _ ltac:(hlia) HC)|].
        intros I3 h4 FI VI HI X4.
        eapply W_conseq; [apply (nd_sqrt_W (hnext h2) h4 I3 T T _ ltac:(hlia) HI)|apply le_n|].
        cbv beta. intros r h5 _ [A1 [A2 [A3 A4]]]. split; [split; hlia|]. auto.
      + intros r h3 _ [A1 [A2 [A3 A4]]]. split; [exact A4|]. exists T, (fun k _ => sqrt (det (right_CG (un33 fF k)))).
        split; [apply sub_refl|]. split; [hlia|]. split; [exact A3|reflexivity]. }
  cbv beta. intros J h3 _ [X3 [u [g [Hu [LJ [HJ Hg]]]]]]. carry_ext X3.
  eapply W_bind.
  { eapply (nd_einsum_out2_W (hnext h) h3 _ F _ s1 _ s1 i33 (bsh T T) T T _ _ i33_ok L1 V1 H1).
    - rewrite bsh_refl. apply sub_refl.
    - apply es_area_rel; [apply HF2|apply H1]. }
  cbv beta. intros r h4 _ [-> [W4 H4]].
  assert (HJ4 : hrel h4 J iS u T g) by (eapply hrel_wrote; eauto; lia).
  eapply W_conseq.
  { unfold np_bin. apply W_load_bind, W_load_bind.
    apply (W_new (hnext h4) h4 _ i33 (bsh T u) T (fun k i => un33 (fun k '(i, j) => es_area (un33 fF k) (un33 gs k) i j) k (fst i) (snd i) / g k tt)); [apply le_n|].
    eapply RR_conv; [apply (vbin_scal_r Rdiv i33 T u T _ _ _ _ i33_ok (proj2 H4) (proj2 HJ4))|reflexivity|].
    intros k Hk [i j]. reflexivity. }
  { hlia. }
  cbv beta. intros r h5 _ [A1 [A2 [A3 A4]]]. split; [split; hlia|].
  unfold is_stress. eexists. split.
  - rewrite (bsh_sub_r _ _ Hu) in A3. destruct (force o); exact A3.
  - intros k Hk. unfold un33. cbn [fst snd]. rewrite Hg.
    unfold gs. destruct (force o); reflexivity.
Qed.

Lemma opt_rel_keep h h' I T d pd : opt_rel h I T d pd ->
  (forall a u g, d = Some a -> hrel h a I u T g -> hrel h' a I u T g) -> opt_rel h' I T d pd.
Proof.
  destruct d, pd; cbn; auto. intros [u [Hu H]] K. exists u. split; auto.
Qed.
Lemma nd_piola_elast_W n h o F S d C4 iC tS tC T fF fS pd fC pI : (n <= hnext h)%nat ->
  hrel h F i33 T T fF -> hrel h S i6 tS T fS -> opt_rel h iS T d pd ->
  hrel h C4 i66 tC T fC -> opt_rel h i6 T iC pI ->
  (finalize o = true -> force o = Undeformed -> tC = T) ->
  W n h (nd_piola_elast o F S d C4 iC) (fun r h' => ext (hnext h) h h' /\
    (if finalize o then fresh h h' r else r = C4 /\ h' = h) /\
    is_elast (finalize o) h' r (if finalize o then T else tC) T
      (fun k => piola_elast o (un33 fF k) (fS k) (opt_at pd k) (un66 fC k) (opt_at6 pI k))).
Proof.
  intros Hn HF HS Hd HC HI Ho.
  pose proof HF as [HF0 [F1 [F2 [F3 F4]]]]. cbn [contents shp] in F1.
  pose proof HS as [HS0 [S1 [S2 [S3 S4]]]]. pose proof HC as [HC0 [C1 [C2 [C3 C5]]]].
  assert (HlS : length tS = length T) by (destruct S3 as [S3|S3]; [discriminate|exact S3]).
  assert (HlC : length tC = length T) by (destruct C3 as [C3|C3]; [discriminate|exact C3]).
  unfold nd_piola_elast. destruct (finalize o) eqn:Ef.
  2:{ apply W_ret. split; [apply ext_refl|]. split; [auto|]. unfold is_elast. exists fC. split; auto.
      intros k Hk. unfold piola_elast. now rewrite Ef. }
  eapply (W_conseq n (hnext h) h _ (fun r h' => fresh h h' r /\
    is_elast true h' r T T
      (fun k => piola_elast o (un33 fF k) (fS k) (opt_at pd k) (un66 fC k) (opt_at6 pI k))));
    [|exact Hn|cbv beta; intros r h' X [Y1 Y2]; exact (conj X (conj Y1 Y2))].
  assert (Ld : forall a, d = Some a -> (loc a < hnext h)%nat).
  { intros a ->. destruct pd; cbn in Hd; [|tauto]. destruct Hd as [u [_ [H _]]]. exact H. }
  assert (LI : forall a, iC = Some a -> (loc a < hnext h)%nat).
  { intros a ->. destruct pI; cbn in HI; [|tauto]. destruct HI as [u [_ [H _]]]. exact H. }
  eapply W_call; [apply (nd_astensor4_W (hnext h) h C4 tC T fC (le_n _) HC)|].
  intros e0 h1 Fe Ve He X1. carry_ext X1.
  assert (Hd1 : opt_rel h1 iS T d pd).
  { eapply opt_rel_keep; [exact Hd|]. intros a u g _ H. eapply hrel_ext; eauto. }
  assert (HI1 : opt_rel h1 i6 T iC pI).
  { eapply opt_rel_keep; [exact HI|]. intros a u g _ H. eapply hrel_ext; eauto. }
  (* force *)
  set (ge := fun (k : index) '(i, j, l, m) =>
     (match force o with
      | Deformed => t4add (es4_force (un33 fF k) (astensor4 (un66 fC k))) (cdya_ik eye (fS k))
      | Undeformed => t4add (astensor4 (un66 fC k))
          (cdya_ik (match opt_at6 pI k with
                    | Some x => x
                    | None => inv (right_CG (un33 fF k)) (Some (det (right_CG (un33 fF k)))) end)
                   (fS k))
      end) i j l m).
  eapply (W_bind _ h1 _ _ (fun r h2 => (hnext h <= loc (fst r))%nat /\ (loc (fst r) < hnext h2)%nat /\
     (forall k, vw (fst r) k = k) /\ hrel h2 (fst r) i3333 T T ge /\ hrel h2 F i33 T T fF /\
     opt_rel h2 iS T d pd /\
     (forall a, snd r = Some a -> (hnext h <= loc a < hnext h2)%nat /\ loc a <> loc (fst r) /\
        hrel h2 a iS T T (fun k _ => det (right_CG (un33 fF k)))))).
  { unfold ge. destruct (force o).
    - eapply W_eqh; [rewrite F1; apply (bind_assoc3
        (lift (broadcast_shapes (idim i3333 ++ T) (nshp e0)))
        (fun s => lift (shapes_allclose s (nshp e0)))
        (fun s same => if same then ret e0 else bind (load e0) (fun x => new (broadcast_to x s))))|].
      eapply W_bind.
      { apply (grow_W (hnext h) h1 e0 i3333 (idim i3333) T tC _ i3333_ok eq_refl ltac:(hlia)
                 ltac:(hlia) Ve He HlC). }
      cbv beta. intros e1 h2 X [L1 [L2 [V2 [X2 H2]]]]. carry_ext X2.
      assert (Hd2 : opt_rel h2 iS T d pd).
      { eapply opt_rel_keep; [exact Hd1|]. intros a u g _ H. eapply hrel_ext; eauto. }
      eapply W_bind.
      { eapply (nd_einsum_out3_W (hnext h) h2 _ F _ F _ e1 _ e1 i3333 (bsh T T) T T _ _ i3333_ok L1 V2 H2).
        - rewrite bsh_refl. apply sub_refl.
        - apply es4_force_rel; [apply HF|apply H2]. }
      cbv beta. intros r h3 _ [-> [W3 H3]].
      assert (HF3 : hrel h3 F i33 T T fF) by (eapply hrel_wrote; eauto; lia).
      assert (HS3 : hrel h3 S i6 tS T fS) by (eapply hrel_wrote; eauto; lia).
      assert (Hd3 : opt_rel h3 iS T d pd).
      { eapply opt_rel_keep; [exact Hd2|]. intros a u g E H. specialize (Ld a E).
        eapply hrel_wrote; eauto; lia. }
      assert (L3 : (hnext h <= hnext h3)%nat) by hlia.
      eapply W_call; [apply (nd_eye_W (hnext h) h3 S i6 tS T fS 6 (or_introl eq_refl) L3 HS3)|].
      intros I h4 FI VI HIe X4.
      assert (H4 := hrel_ext _ _ _ _ _ _ _ H3 X4). assert (HS4 := hrel_ext _ _ _ _ _ _ _ HS3 X4).
      eapply W_bind; [apply (nd_cdya_ik_W (hnext h) h4 I S _ tS T _ fS ltac:(hlia) HIe HS4)|].
      intros c h5 _ [Fc [Hc X5]].
      assert (H5 := hrel_ext _ _ _ _ _ _ _ H4 X5).
      rewrite (bsh_ones_l tS T S2 HlS) in Hc.
      eapply W_bind.
      { eapply (np_bin_out_W Rplus (hnext h) h5 e1 c e1 i3333 T tS T T _ _ _ i3333_ok L1 V2 H5 Hc H5
                 (sub_refl T) S2). }
      cbv beta. intros r h6 _ [-> [W6 H6]]. apply W_ret. cbn [fst snd].
      split; [exact L1|]. split; [hlia|]. split; [exact V2|].
      split; [|split; [|split; [|discriminate]]].
      + eapply hrel_fun; [exact H6|]. intros k Hk [[[i j] l] m]. reflexivity.
      + assert (hrel h5 F i33 T T fF) by (eapply hrel_ext; [eapply hrel_ext; eauto|eauto]).
        eapply hrel_wrote; eauto; lia.
      + eapply opt_rel_keep; [exact Hd3|]. intros a u g E H. specialize (Ld a E).
        assert (hrel h5 a iS u T g) by (eapply hrel_ext; [eapply hrel_ext; eauto|eauto]).
        eapply hrel_wrote; eauto; lia.
    - rewrite (Ho eq_refl eq_refl) in *. clear C2 C3 HlC.
      eapply (W_bind _ h1 _ _ (fun r h2 => ext (hnext h1) h1 h2 /\
        (exists u g, sub u T /\ hrel h2 (fst r) i6 u T g /\ forall k, g k = match opt_at6 pI k with
                    | Some x => x
                    | None => inv (right_CG (un33 fF k)) (Some (det (right_CG (un33 fF k)))) end) /\
        (forall a, snd r = Some a -> (hnext h1 <= loc a < hnext h2)%nat /\
           hrel h2 a iS T T (fun k _ => det (right_CG (un33 fF k)))))).
      { destruct iC as [a|], pI as [g|]; cbn in HI1; try tauto.
        - apply W_ret. split; [apply ext_refl|]. cbn [fst snd]. split; [|discriminate].
          destruct HI1 as [u [Hu HI1]]. exists u, g. split; [exact Hu|]. split; [exact HI1|reflexivity].
        - eapply (W_conseq _ (hnext h1) _ _ (fun r h2 =>
            hrel h2 (fst r) i6 T T (fun k v => inv (right_CG (un33 fF k)) (Some (det (right_CG (un33 fF k)))) v) /\
            (forall a, snd r = Some a -> (hnext h1 <= loc a < hnext h2)%nat /\
              hrel h2 a iS T T (fun k _ => det (right_CG (un33 fF k)))))); [|hlia|].
          + eapply W_call; [apply (nd_right_CG_W (hnext h1) h1 F T fF (le_n _) HF)|].
            intros C h3 FC VC HCC X3.
            eapply W_call; [apply (nd_det_W (hnext h1) h3 C T T _ ltac:(hlia) HCC)|].
            intros I3 h4 FI VI HI3 X4. carry_ext X4.
            eapply W_call.
            { apply (nd_inv_W (hnext h1) h4 C (Some I3) T T _
                       (fun k => det (right_CG (un33 fF k))) ltac:(hlia) HCC).
              intros a [= <-]. exists T. split; [apply sub_refl|exact HI3]. }
            intros x h5 Fx Vx Hx X5. carry_ext X5.
            apply W_ret. cbn [fst snd]. split; [exact Hx|]. intros a [= <-]. split; [hlia|exact HI3].
          + cbv beta. intros r h2 X [A1 A2]. split; [exact X|]. split; [|exact A2].
            eexists T, _. split; [apply sub_refl|]. split; [exact A1|]. reflexivity. }
      cbv beta. intros [ic I3] h2 _ [X2 [[u [g [Hu [Hic Hg]]]] HI3]]. cbn [fst snd] in *.
      carry_ext X2.
      eapply W_bind; [apply (nd_cdya_ik_W (hnext h) h2 ic S u tS T _ fS ltac:(hlia) Hic HS)|].
      intros c h3 _ [Fc [Hc X3]]. assert (He3 := hrel_ext _ _ _ _ _ _ _ He X3).
      assert (HF3 := hrel_ext _ _ _ _ _ _ _ HF X3).
      eapply W_bind.
      { eapply (np_bin_out_W Rplus (hnext h) h3 e0 c e0 i3333 T (bsh u tS) T T _ _ _ i3333_ok
                 ltac:(hlia) Ve He3 Hc He3 (sub_refl T)). apply (bsh_ok u tS T Hu S2). }
      cbv beta. intros r h4 _ [-> [W4 H4]]. apply W_ret. cbn [fst snd].
      split; [hlia|]. split; [hlia|]. split; [exact Ve|].
      split; [|split; [|split]].
      + eapply hrel_fun; [exact H4|]. intros k Hk [[[i j] l] m]. rewrite Hg. reflexivity.
      + eapply hrel_wrote; eauto; hlia.
      + eapply opt_rel_keep; [exact Hd1|]. intros a u' g' E H. specialize (Ld a E).
        assert (hrel h3 a iS u' T g') by (eapply hrel_ext; [eapply hrel_ext; eauto|eauto]).
        eapply hrel_wrote; eauto; hlia.
      + intros a E. destruct (HI3 a E) as [La Ha]. split; [hlia|]. split; [hlia|].
        eapply hrel_wrote; [|exact W4|hlia]. eapply hrel_ext; eauto. }
  cbv beta. intros [e1 I3] h2 X2 [L1 [L2 [V1 [H1 [HF2 [Hd2 HI3]]]]]]. cbn [fst snd] in *.
  (* area *)
  assert (Ep : forall k, piola_elast o (un33 fF k) (fS k) (opt_at pd k) (un66 fC k) (opt_at6 pI k) =
    ElastFull (match area o with
      | Deformed => fun i j l m => es4_area (un33 fF k) (un3333 ge k) i j l m
                      / match opt_at pd k with Some x => x | None => sqrt (det (right_CG (un33 fF k))) end
      | Undeformed => un3333 ge k end)).
  { intros k. unfold piola_elast, ge, un3333. rewrite Ef.
    destruct (force o), (area o); auto; destruct (opt_at6 pI k), (opt_at pd k); reflexivity. }
  destruct (area o) eqn:Ea.
  2:{ apply W_ret. split; [split; lia|]. unfold is_elast. exists ge. split; [exact H1|].
      intros k Hk. apply Ep. }
  eapply (W_bind _ h2 _ _ (fun r h3 => ext (hnext h2) h2 h3 /\ exists u g, sub u T /\
     (loc r < loc e1 \/ loc e1 < loc r)%nat /\
     hrel h3 r iS u T g /\ forall k, g k tt = match opt_at pd k with
       | Some x => x | None => sqrt (det (right_CG (un33 fF k))) end)).
  { destruct d as [a|], pd as [g|]; cbn in Hd2; try tauto.
    - apply W_ret. split; [apply ext_refl|]. destruct Hd2 as [u [Hu Hd2]].
      exists u, g. split; [exact Hu|]. split; [specialize (Ld a eq_refl); lia|].
      split; [exact Hd2|reflexivity].
    - eapply (W_conseq _ (hnext h2) _ _ (gives h2 iS T T (fun k _ => sqrt (det (right_CG (un33 fF k))))));
        [|hlia|].
      + apply W_gives; [apply le_n|].
        eapply (W_bind _ h2 _ _ (fun r h3 => ext (hnext h2) h2 h3 /\
           hrel h3 r iS T T (fun k _ => det (right_CG (un33 fF k))))).
        { destruct I3 as [a|].
          - apply W_ret. split; [apply ext_refl|]. apply (HI3 a eq_refl).
          - eapply (W_conseq _ (hnext h2) _ _ (fun r h3 => hrel h3 r iS T T (fun k _ => det (right_CG (un33 fF k)))));
              [|apply le_n|auto].
            eapply W_call; [apply (nd_right_CG_W (hnext h2) h2 F T fF (le_n _) HF2)|].
            intros C h3 FC VC HCC X3.
            eapply W_conseq; [apply (nd_det_W (hnext h2) h3 C T T _ ltac:(hlia) HCC)|apply le_n|].
            intros r h4 _ [_ [_ [Y _]]]. exact Y. }
        cbv beta. intros I3' h3 _ [X3 HI'].
        eapply W_conseq; [apply (nd_sqrt_W (hnext h2) h3 I3' T T _ ltac:(hlia) HI')|apply le_n|].
        cbv beta. intros r h5 _ [A1 [A2 [A3 A4]]]. split; [split; hlia|]. auto.
      + intros r h3 _ [A1 [A2 [A3 A4]]]. split; [exact A4|]. exists T, (fun k _ => sqrt (det (right_CG (un33 fF k)))).
        split; [apply sub_refl|]. split; [hlia|]. split; [exact A3|reflexivity]. }
  cbv beta. intros J h3 _ [X3 [u [g [Hu [LJ [HJ Hg]]]]]].
  assert (HF3 := hrel_ext _ _ _ _ _ _ _ HF2 X3). assert (He3 := hrel_ext _ _ _ _ _ _ _ H1 X3).
  eapply W_bind.
  { eapply (nd_einsum_out3_W (hnext h) h3 _ F _ F _ e1 _ e1 i3333 (bsh T T) T T _ _ i3333_ok L1 V1 He3).
    - rewrite bsh_refl. apply sub_refl.
    - apply es4_area_rel; [apply HF3|apply He3]. }
  cbv beta. intros r h4 _ [-> [W4 H4]].
  assert (HJ4 : hrel h4 J iS u T g) by (eapply hrel_wrote; eauto; lia).
  eapply W_conseq.
  { unfold np_bin. apply W_load_bind, W_load_bind.
    apply (W_new (hnext h4) h4 _ i3333 (bsh T u) T
      (fun k '(i, j, l, m) => es4_area (un33 fF k) (un3333 ge k) i j l m / g k tt)); [apply le_n|].
    eapply RR_conv; [apply (vbin_scal_r Rdiv i3333 T u T _ _ _ _ i3333_ok (proj2 H4) (proj2 HJ4))|reflexivity|].
    intros k Hk [[[i j] l] m]. reflexivity. }
  { hlia. }
  cbv beta. intros r h5 _ [A1 [A2 [A3 A4]]]. split; [split; hlia|].
  unfold is_elast. eexists. split.
  - rewrite (bsh_sub_r _ _ Hu) in A3. exact A3.
  - intros k Hk. rewrite Ep. unfold un3333 at 2. rewrite Hg. reflexivity.
Qed.
