(** * Pointwise meaning of the indexing, reduction and einsum operations. *)
From Coq Require Import Reals List Arith Lia Lra.
From Verif Require Import Tensor Py NDCore NDRel.
Import ListNotations.
Local Open Scope R_scope.

Lemma rel_len I t T v f : rel I t T v f -> idim I <> [] -> length t = length T.
Proof. intros [_ [_ [[H|H] _]]] Hn; congruence. Qed.

(** [A[p]] *)
Lemma row_rel I J n p (mk : ity J -> ity I) t T v f :
  idim I = n :: idim J -> (p < n)%nat -> (forall j, ienc I (mk j) = p :: ienc J j) ->
  rel I t T v f -> RR J t T (row p v) (fun k j => f k (mk j)).
Proof.
  intros Hd Hp He H. pose proof H as [H1 [H2 [H3 H4]]].
  assert (Hl : length t = length T) by (eapply rel_len; eauto; rewrite Hd; discriminate).
  unfold row. rewrite H1, Hd. cbn [app].
  destruct (Nat.ltb_spec p n); [|lia].
  apply RR_ok. repeat split; auto. intros k Hk j. cbn [dat].
  rewrite <- H4 by assumption. now rewrite He.
Qed.
Lemma row6 p t T v f : rel i6 t T v f -> RR iS t T (row (n6 p) v) (fun k _ => f k p).
Proof. intros H. eapply (row_rel i6 iS 6 (n6 p) (fun _ => p)); eauto using n6_lt. Qed.
Lemma row3 p t T v f : rel i3 t T v f -> RR iS t T (row (n3 p) v) (fun k _ => f k p).
Proof. intros H. eapply (row_rel i3 iS 3 (n3 p) (fun _ => p)); eauto using n3_lt. Qed.
Lemma row36 p t T v f : rel i36 t T v f -> RR i6 t T (row (n3 p) v) (fun k j => f k (p, j)).
Proof. intros H. eapply (row_rel i36 i6 3 (n3 p) (fun j => (p, j))); eauto using n3_lt. Qed.

(** [A[idx]] on the only leading axis *)
Lemma firstn_enc J (j : ity J) (r : index) : ixt_ok J ->
  firstn (length (idim J)) (ienc J j ++ r) = ienc J j /\
  skipn (length (idim J)) (ienc J j ++ r) = r.
Proof.
  intros HJ. rewrite <- (ix_len J j HJ). split.
  - rewrite firstn_app, Nat.sub_diag, firstn_all, firstn_O, app_nil_r. reflexivity.
  - rewrite skipn_app, Nat.sub_diag, skipn_all, skipn_O. reflexivity.
Qed.
Lemma take_rel I J n ix (p : ity J -> ity I) t T v f : ixt_ok I -> ixt_ok J ->
  idim I = [n] -> (forall j, ienc I (p j) = [ix (ienc J j)]) ->
  rel I t T v f -> RR J t T (take (idim J) ix v) (fun k j => f k (p j)).
Proof.
  intros HI HJ Hd He H. pose proof H as [H1 [H2 [H3 H4]]].
  assert (Hl : length t = length T) by (eapply rel_len; eauto; rewrite Hd; discriminate).
  unfold take. rewrite H1, Hd. cbn [app].
  replace (forallb _ (indices (idim J))) with true.
  2:{ symmetry. apply forallb_forall. intros l Hl'. apply in_indices in Hl'.
      destruct (ix_all J HJ l Hl') as [j <-]. apply Nat.ltb_lt.
      pose proof (ix_inb I HI (p j)) as Hi. rewrite Hd, He in Hi. cbn in Hi. tauto. }
  apply RR_ok. repeat split; auto. intros k Hk j. cbn [dat].
  destruct (firstn_enc J j (proj t k) HJ) as [-> ->].
  rewrite <- H4 by assumption. now rewrite He.
Qed.
Lemma take2_rel I J n m ix jx (p : ity J -> ity I) t T v f : ixt_ok I -> ixt_ok J ->
  idim I = [n; m] -> (forall j, ienc I (p j) = [ix (ienc J j); jx (ienc J j)]) ->
  rel I t T v f -> RR J t T (take2 (idim J) ix jx v) (fun k j => f k (p j)).
Proof.
  intros HI HJ Hd He H. pose proof H as [H1 [H2 [H3 H4]]].
  assert (Hl : length t = length T) by (eapply rel_len; eauto; rewrite Hd; discriminate).
  unfold take2. rewrite H1, Hd. cbn [app].
  replace (forallb _ (indices (idim J))) with true.
  2:{ symmetry. apply forallb_forall. intros l Hl'. apply in_indices in Hl'.
      destruct (ix_all J HJ l Hl') as [j <-].
      pose proof (ix_inb I HI (p j)) as Hi. rewrite Hd, He in Hi. cbn in Hi.
      apply Bool.andb_true_iff. split; apply Nat.ltb_lt; tauto. }
  apply RR_ok. repeat split; auto. intros k Hk j. cbn [dat]. cbv zeta.
  destruct (firstn_enc J j (proj t k) HJ) as [-> ->].
  rewrite <- H4 by assumption. now rewrite He.
Qed.

(** [np.sum(A[:3], axis=0)] of a 6-vector, [np.sum(A, axis=0)] of a (3, 6) array. *)
Lemma sum_head3 t T v f : rel i6 t T v f ->
  RR iS t T (rbind (head 3 v) sum0) (fun k _ => f k V0 + f k V1 + f k V2).
Proof.
  intros H. pose proof H as [H1 [H2 [H3 H4]]].
  unfold head. rewrite H1. cbn [idim i6 app rbind]. unfold sum0. cbn [shp].
  apply RR_ok. repeat split; auto. intros k Hk i. cbn [dat ienc iS app].
  change (Nat.min 3 6) with 3%nat. cbn [sumN].
  rewrite <- (H4 k Hk V0), <- (H4 k Hk V1), <- (H4 k Hk V2). cbn. ring.
Qed.
Lemma sum0_36 t T v f : rel i36 t T v f ->
  RR i6 t T (sum0 v) (fun k j => sum3 (fun a => f k (a, j))).
Proof.
  intros H. pose proof H as [H1 [H2 [H3 H4]]].
  assert (Hl : length t = length T) by (eapply rel_len; eauto; discriminate).
  unfold sum0. rewrite H1. cbn [idim i36 app].
  apply RR_ok. repeat split; auto. intros k Hk j. cbn [dat ienc i6 app sumN].
  unfold sum3. rewrite <- (H4 k Hk (X0, j)), <- (H4 k Hk (X1, j)), <- (H4 k Hk (X2, j)).
  cbn. ring.
Qed.

(** [np.swapaxes] among the leading axes *)
Lemma swap_list_lead i j L t : (i < length L)%nat -> (j < length L)%nat ->
  swap_list i j (L ++ t) = swap_list i j L ++ t.
Proof.
  intros Hi Hj. unfold swap_list. rewrite app_length, seq_app, map_app. f_equal.
  - apply map_ext_in. intros p Hp. apply in_seq in Hp. apply app_nth1.
    destruct (Nat.eqb p i), (Nat.eqb p j); lia.
  - cbn. transitivity (map (fun p => nth p (L ++ t) 0%nat) (seq (length L) (length t))).
    + apply map_ext_in. intros p Hp. apply in_seq in Hp.
      destruct (Nat.eqb_spec p i), (Nat.eqb_spec p j); auto; lia.
    + clear. transitivity (map (fun p => nth (p - length L) t 0%nat) (seq (length L) (length t))).
      * apply map_ext_in. intros p Hp. apply in_seq in Hp. rewrite app_nth2; auto; lia.
      * generalize (length L) as n. intros n.
        replace (seq n (length t)) with (map (fun q => (n + q)%nat) (seq 0 (length t))).
        -- rewrite map_map.
           transitivity (map (fun p => nth p t 0%nat) (seq 0 (length t))).
           ++ apply map_ext. intros p. f_equal. lia.
           ++ clear. induction t as [|x t IH]; auto. cbn. f_equal.
              rewrite <- seq_shift, map_map. exact IH.
        -- generalize (length t) as m. intros m. clear. revert n.
           induction m as [|m IH]; intros n; auto. cbn. f_equal; [lia|].
           rewrite <- seq_shift, map_map. rewrite <- (IH (S n)). apply map_ext. intros; lia.
Qed.
Lemma swap_rel I J i j (p : ity J -> ity I) t T v f :
  (i < length (idim I))%nat -> (j < length (idim I))%nat ->
  ixt_ok I -> ixt_ok J -> length (idim J) = length (idim I) ->
  idim J = swap_list i j (idim I) -> (forall x, ienc I (p x) = swap_list i j (ienc J x)) ->
  rel I t T v f -> RR J t T (swapaxes i j v) (fun k x => f k (p x)).
Proof.
  intros Hi Hj HI HJ HL Hd He H. pose proof H as [H1 [H2 [H3 H4]]].
  unfold swapaxes. rewrite H1, app_length.
  destruct (Nat.ltb_spec i (length (idim I) + length t)); [|lia].
  destruct (Nat.ltb_spec j (length (idim I) + length t)); [|lia]. cbn [andb].
  apply RR_ok. repeat split; auto.
  - cbn [shp]. rewrite swap_list_lead by assumption. now rewrite Hd.
  - destruct H3 as [H3|H3]; auto. rewrite H3 in Hi. cbn in Hi. lia.
  - intros k Hk x. cbn [dat]. rewrite swap_list_lead by (rewrite ix_len; auto; lia).
    rewrite <- He. now apply H4.
Qed.

(** [np.multiply(A.reshape(-1, 1, ...), B.reshape(1, -1, ...))] and
    [np.expand_dims(A, 1) * B] *)
Lemma outer_rel I J K n m (mk : ity I -> ity J -> ity K) op t u T a b f g :
  ixt_ok I -> ixt_ok J -> ixt_ok K ->
  (forall i, length (ienc I i) = 1%nat) ->
  idim I = [n] -> idim J = [m] -> idim K = [n; m] ->
  (forall x, exists i j, x = mk i j) ->
  (forall i j, ienc K (mk i j) = ienc I i ++ ienc J j) ->
  rel I t T a f -> rel J u T b g ->
  forall h : index -> ity K -> R, (forall k i j, h k (mk i j) = op (f k i) (g k j)) ->
  RR K (bsh t u) T (rbin op (reshape_col a) (reshape_row b)) h.
Proof.
  intros HI HJ HK H1I HdI HdJ HdK Hmk He Ha Hb h Hh.
  pose proof Ha as [A1 [A2 [A3 A4]]]. pose proof Hb as [B1 [B2 [B3 B4]]].
  assert (Hlt : length t = length T) by (eapply rel_len; eauto; rewrite HdI; discriminate).
  assert (Hlu : length u = length T) by (eapply rel_len; eauto; rewrite HdJ; discriminate).
  destruct (bsh_ok _ _ _ A2 B2) as [H1 [H2 [H3 [H4 H5]]]].
  unfold reshape_col, reshape_row. rewrite A1, B1, HdI, HdJ. cbn [app rbin rbind].
  unfold vbin. cbn [shp].
  assert (HB : broadcast_shapes [n; 1%nat] [1%nat; m] = Ok [n; m]).
  { unfold broadcast_shapes. cbn [rev app bcr]. unfold bdim.
    destruct (Nat.eqb_spec 1 m) as [<-|]; cbn [Nat.eqb].
    - destruct (Nat.eqb_spec n 1) as [->|]; reflexivity.
    - destruct (Nat.eqb_spec n 1) as [->|]; reflexivity. }
  change (n :: 1%nat :: t) with ([n; 1%nat] ++ t).
  change (1%nat :: m :: u) with ([1%nat; m] ++ u).
  rewrite (broadcast_lead _ _ _ _ _ _ H1 (eq_trans Hlt (eq_sym Hlu)) HB). cbn [rbind].
  apply RR_ok. repeat split; cbn [shp dat]; auto.
  { now rewrite HdK. }
  { right. rewrite H5. lia. }
  intros k Hk x. destruct (Hmk x) as [i [j ->]]. rewrite Hh, He.
  pose proof (inb_length _ _ Hk) as Hkl.
  pose proof (ix_inb I HI i) as Ii. pose proof (ix_inb J HJ j) as Ij.
  rewrite HdI in Ii. rewrite HdJ in Ij.
  rewrite <- (A4 k Hk i), <- (B4 k Hk j).
  destruct (ienc I i) as [|i' [|]] eqn:Ei; cbn in Ii; try tauto.
  destruct (ienc J j) as [|j' [|]] eqn:Ej; cbn in Ij; try tauto.
  unfold read. cbn [shp dat app].
  pose proof (sub_length _ _ H2).
  change (n :: 1%nat :: t) with ([n; 1%nat] ++ t).
  change (1%nat :: m :: u) with ([1%nat; m] ++ u).
  change (i' :: j' :: proj (bsh t u) k) with ([i'; j'] ++ proj (bsh t u) k).
  rewrite !proj_app by (rewrite proj_length; lia).
  rewrite !proj_sub by (auto; lia).
  unfold proj at 1 3. cbn [rev app projr].
  destruct (Nat.eqb_spec n 1), (Nat.eqb_spec m 1); cbn [app]; repeat f_equal; lia.
Qed.

(** ** einsum *)
Definition tm (l : list nat) : term := {| pre := l; ell := true; post := [] |}.
Definition tm0 (l : list nat) : term := {| pre := l; ell := false; post := [] |}.

Lemma term_dims_tm l L t : length L = length l -> term_dims (tm l) (L ++ t) = Ok (L, t, []).
Proof.
  intros H. unfold term_dims, tm. cbn [pre post ell length orb].
  rewrite app_length, H, Nat.add_0_r.
  replace (length l + length t - length l - 0)%nat with (length t) by lia.
  destruct (Nat.leb_spec (length l) (length l + length t)); [|lia]. cbn [andb].
  rewrite <- H. rewrite firstn_app, Nat.sub_diag, firstn_O, app_nil_r, firstn_all.
  rewrite skipn_app, Nat.sub_diag, skipn_O, skipn_all. cbn [app].
  rewrite firstn_all. rewrite skipn_app.
  replace (length L + length t - length L)%nat with (length t) by lia.
  rewrite (skipn_all2 L) by lia. now rewrite skipn_all.
Qed.
Lemma term_dims_tm0 l L : length L = length l -> term_dims (tm0 l) L = Ok (L, [], []).
Proof.
  intros H. unfold term_dims, tm0. cbn [pre post ell length orb].
  rewrite H, Nat.add_0_r, Nat.sub_diag, Nat.leb_refl. cbn [Nat.sub Nat.eqb andb firstn].
  rewrite <- H, firstn_all, Nat.add_0_r, skipn_all. reflexivity.
Qed.

(** One labelled operand (with ellipsis) as [operands] returns it. *)
Lemma operands_cons l L t v ts : shp v = L ++ t -> length L = length l ->
  operands ((tm l, v) :: ts) =
  rbind (operands ts) (fun os =>
    Ok ({| o_term := tm l; o_arr := v; o_pre := L; o_ell := t; o_post := [] |} :: os)).
Proof. intros H1 H2. cbn [operands]. rewrite H1, (term_dims_tm _ _ _ H2). reflexivity. Qed.
Lemma operands_cons0 l L v ts : shp v = L -> length L = length l ->
  operands ((tm0 l, v) :: ts) =
  rbind (operands ts) (fun os =>
    Ok ({| o_term := tm0 l; o_arr := v; o_pre := L; o_ell := []; o_post := [] |} :: os)).
Proof. intros H1 H2. cbn [operands]. rewrite H1, (term_dims_tm0 _ _ H2). reflexivity. Qed.

Lemma firstn_skip_lead (n : nat) (L k : index) : length L = n ->
  firstn n (L ++ k) = L /\ skipn n (L ++ k) = k.
Proof.
  intros <-. split.
  - rewrite firstn_app, Nat.sub_diag, firstn_all, firstn_O, app_nil_r. reflexivity.
  - rewrite skipn_app, Nat.sub_diag, skipn_all, skipn_O. reflexivity.
Qed.

(** The general shape of all einsum calls with trailing ellipses: [os] are the operands,
    [w] the broadcast ellipsis shape. *)
Lemma einsum_rel K (lo : list nat) ts os w T (h : index -> ity K -> R) :
  operands ts = Ok os -> ell_shape os = Ok w -> sizes_ok (label_pairs os) = true ->
  ixt_ok K -> length lo = length (idim K) ->
  map (size_of (label_pairs os)) lo = idim K ->
  sub w T -> (idim K = [] \/ length w = length T) ->
  (forall k, inb T k -> forall i,
     sum_labels (map (fun l => (l, size_of (label_pairs os) l))
        (nodup Nat.eq_dec (filter (fun l => negb (existsb (Nat.eqb l) lo))
                                  (map fst (label_pairs os)))))
        (bind_labels lo (ienc K i) (fun _ => 0%nat))
        (fun e => op_product e (proj w k) os) = h k i) ->
  RR K w T (einsum ts (tm lo)) h.
Proof.
  intros H1 H2 H3 HK Hlo Hsz Hw Hwl Hval.
  unfold einsum. rewrite H1. cbn [rbind]. rewrite H2. cbn [rbind]. rewrite H3.
  cbn [tm pre post ell orb andb map].
  apply RR_ok. repeat split; auto.
  - cbn [shp]. rewrite app_nil_r. now rewrite Hsz.
  - intros k Hk i. cbn [dat].
    pose proof (ix_len K i HK) as Hil.
    pose proof (inb_length _ _ Hk) as Hkl. pose proof (sub_length _ _ Hw).
    destruct (firstn_skip_lead (length lo) (ienc K i) (proj w k)) as [E1 E2]; [lia|].
    rewrite app_nil_r, E1, E2.
    assert (E3 : firstn (length w) (proj w k) = proj w k).
    { rewrite <- (proj_length w k) at 1 by lia. apply firstn_all. }
    rewrite E3. cbn [bind_labels]. exact (Hval k Hk i).
Qed.

(** Value of one operand. *)
Lemma op_value_rel I l t w T v f e k (i : ity I) : ixt_ok I -> rel I t T v f -> sub t w ->
  sub w T -> inb T k -> ienc I i = map e l ->
  op_value e (proj w k)
    {| o_term := tm l; o_arr := v; o_pre := idim I; o_ell := t; o_post := [] |} = f k i.
Proof.
  intros HI [H1 [H2 [H3 H4]]] Ht HT Hk He. unfold op_value, tm.
  cbn [o_term o_arr o_pre o_ell o_post pre post map].
  pose proof (inb_length _ _ Hk). pose proof (sub_length _ _ HT).
  rewrite <- He, ix_proj by assumption. change (proj [] []) with (@nil nat). rewrite app_nil_r.
  rewrite proj_sub by (auto; lia). auto.
Qed.
