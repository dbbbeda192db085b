(** * Splitting a threaded einsum along the trailing axes (proofs).

    A thread gets a set of indices of the trailing axes (elements, quadrature points) and all
    tensor components there.  This is free of races even when [out] is one of the operands. *)
From Coq Require Import Reals List Arith Lia Permutation.
From Verif Require Import Tensor Py NDCore NDRel NDOps Threads NDParallel.
Import ListNotations.
Local Open Scope R_scope.

(** The cells of an operand at the index [k] of the trailing axes. *)
Definition operand_cells (x : term * nd) (k : index) : list addr :=
  let n := length (pre (fst x)) in
  let a := snd x in
  map (fun d => (loc a, vw a (d ++ proj (skipn n (nshp a)) k))) (indices (firstn n (nshp a))).
Definition trailing_part (ts : list (term * nd)) (D : shape) (c : list index) : part := {|
  p_out := flat_map (fun k => map (fun d => d ++ k) (indices D)) c;
  p_in := flat_map (fun k => flat_map (fun x => operand_cells x k) ts) c |}.

(** ** einsum reads only these cells *)
Definition same_op (m1 m2 : mem) (x : term * nd) (o1 o2 : operand) : Prop :=
  o_term o1 = fst x /\ o_term o2 = fst x /\ o_arr o1 = view m1 (snd x) /\ o_arr o2 = view m2 (snd x) /\
  o_pre o1 = o_pre o2 /\ o_ell o1 = o_ell o2 /\ o_post o1 = o_post o2 /\
  term_dims (fst x) (nshp (snd x)) = Ok (o_pre o1, o_ell o1, o_post o1).
Lemma operands_same m1 m2 : forall ts os1, operands (views m1 ts) = Ok os1 ->
  exists os2, operands (views m2 ts) = Ok os2 /\ Forall2 (fun x p => same_op m1 m2 x (fst p) (snd p)) ts (combine os1 os2)
    /\ length os1 = length ts /\ length os2 = length ts.
Proof.
  induction ts as [|[t a] ts IH]; intros os1; cbn [views map operands fst snd].
  - intros [= <-]. exists []. cbn. repeat split; constructor.
  - change (shp (view m1 a)) with (nshp a). change (shp (view m2 a)) with (nshp a).
    destruct (term_dims t (nshp a)) as [[[p e] q]|] eqn:Et; [|discriminate]. cbn [rbind].
    fold (views m1 ts). fold (views m2 ts).
    destruct (operands (views m1 ts)) as [os|] eqn:Eo; [|discriminate]. cbn [rbind]. intros [= <-].
    destruct (IH os eq_refl) as [os2 [H1 [H2 [H3 H4]]]]. rewrite H1. cbn [rbind].
    eexists. split; [reflexivity|]. cbn [combine length]. split; [|lia].
    constructor; [|exact H2]. unfold same_op. cbn. repeat split; auto.
Qed.
Lemma combine_map_eq {A} (f : A -> list (nat * nat)) : forall l1 l2,
  length l1 = length l2 -> (forall x y, In (x, y) (combine l1 l2) -> f x = f y) -> flat_map f l1 = flat_map f l2.
Proof.
  induction l1 as [|x l1 IH]; intros [|y l2]; cbn; try discriminate; auto.
  intros [= L] H. rewrite (H x y) by auto. f_equal. apply IH; auto.
Qed.
Lemma Forall2_in_r {A B} (P : A -> B -> Prop) : forall l1 l2, Forall2 P l1 l2 ->
  forall y, In y l2 -> exists x, In x l1 /\ P x y.
Proof. induction 1; cbn; [easy|]. intros z [<-|Hz]; eauto. destruct (IHForall2 z Hz) as [w [? ?]]; eauto. Qed.
Lemma ell_shape_eq : forall os1 os2, length os1 = length os2 ->
  (forall x y, In (x, y) (combine os1 os2) -> o_ell x = o_ell y) -> ell_shape os1 = ell_shape os2.
Proof.
  induction os1 as [|x l1 IH]; intros [|y l2]; cbn [length ell_shape combine]; try discriminate; auto.
  intros [= L] H. rewrite (H x y) by now left. rewrite (IH l2); auto. intros; apply H. now right.
Qed.
Lemma op_product_eq e1 k : forall os1 os2, length os1 = length os2 ->
  (forall x y, In (x, y) (combine os1 os2) -> op_value e1 k x = op_value e1 k y) ->
  op_product e1 k os1 = op_product e1 k os2.
Proof.
  induction os1 as [|x l1 IH]; intros [|y l2]; cbn [length combine]; try discriminate; auto.
  intros [= L] H. assert (E : op_product e1 k l1 = op_product e1 k l2).
  { apply IH; auto. intros; apply H; now right. }
  assert (Ex : op_value e1 k x = op_value e1 k y) by (apply H; now left).
  destruct l1 as [|a l1], l2 as [|b l2]; try discriminate L; cbn [op_product] in *; [exact Ex|].
  rewrite Ex. f_equal. exact E.
Qed.

(** Labels stay within their sizes. *)
Lemma label_size_dim l : forall ps s, label_size l ps = Some (Some s) ->
  forall d, In (l, d) ps -> d = s \/ d = 1%nat.
Proof.
  induction ps as [|[x d'] ps IH]; cbn [label_size]; [easy|]. intros s H d Hd.
  destruct (label_size l ps) as [[e|]|] eqn:E; try discriminate.
  - destruct (Nat.eqb_spec x l) as [->|N].
    + destruct (bdim d' e) as [c|] eqn:Eb; [|discriminate]. injection H as ->.
      unfold bdim in Eb. destruct Hd as [[= ->]|Hd].
      * destruct (Nat.eqb_spec d e); [injection Eb as <-; auto|].
        destruct (Nat.eqb_spec d 1); [auto|]. destruct (Nat.eqb_spec e 1); [injection Eb as <-; auto|discriminate].
      * destruct (IH e eq_refl d Hd) as [->|]; [|auto].
        destruct (Nat.eqb_spec d' e); [injection Eb as <-; auto|].
        destruct (Nat.eqb_spec d' 1); [injection Eb as <-; auto|]. destruct (Nat.eqb_spec e 1); [auto|discriminate].
    + injection H as ->. destruct Hd as [[= -> ->]|Hd]; [congruence|]. eapply IH; eauto.
  - destruct (Nat.eqb_spec x l) as [->|N]; [|discriminate]. injection H as ->.
    destruct Hd as [[= ->]|Hd]; [auto|].
    exfalso. clear -E Hd. revert E. induction ps as [|[y w] ps IH]; cbn in *; [easy|].
    destruct Hd as [[= -> ->]|Hd].
    + rewrite Nat.eqb_refl. destruct (label_size l ps) as [[u|]|]; try discriminate.
      destruct (bdim d u); discriminate.
    + destruct (label_size l ps) as [[u|]|]; try discriminate; [|tauto].
      destruct (Nat.eqb y l); [destruct (bdim w u); discriminate|discriminate].
Qed.
Lemma label_size_some l d : forall ps, In (l, d) ps -> label_size l ps <> Some None.
Proof.
  induction ps as [|[y w] ps IH]; cbn; [easy|]. intros [[= -> ->]|Hd].
  - rewrite Nat.eqb_refl. destruct (label_size l ps) as [[u|]|]; try discriminate.
    destruct (bdim d u); discriminate.
  - specialize (IH Hd). destruct (label_size l ps) as [[u|]|]; try discriminate; [|tauto].
    destruct (Nat.eqb y l); [destruct (bdim w u); discriminate|discriminate].
Qed.
Lemma sizes_dim ps l d : sizes_ok ps = true -> In (l, d) ps -> d = size_of ps l \/ d = 1%nat.
Proof.
  intros H K. unfold sizes_ok in H. rewrite forallb_forall in H. specialize (H _ K). cbn [fst] in H.
  unfold size_of. pose proof (label_size_some l d ps K) as N.
  destruct (label_size l ps) as [[s|]|] eqn:E; try discriminate; [|congruence].
  eapply label_size_dim; eauto.
Qed.
Lemma proj_cons a s i k : length s = length k ->
  proj (a :: s) (i :: k) = (if Nat.eqb a 1 then 0%nat else i) :: proj s k.
Proof. intros L. apply (proj_app [a] s [i] k L). Qed.
Lemma inb_proj_labels (e : env) : forall ls ds, length ls = length ds ->
  (forall l d, In (l, d) (combine ls ds) -> (e l < d)%nat \/ d = 1%nat) ->
  inb ds (proj ds (map e ls)).
Proof.
  induction ls as [|l ls IH]; intros [|d ds]; cbn [length]; try discriminate.
  - intros _ _. exact I.
  - intros [= L] H. cbn [map]. rewrite proj_cons by (now rewrite map_length).
    cbn [inb]. split; [|apply IH; auto; intros; apply H; now right].
    destruct (H l d) as [K|K]; [now left| |].
    + destruct (Nat.eqb_spec d 1); lia.
    + subst d. cbn. lia.
Qed.
Lemma sumN_ext n f g : (forall i, (i < n)%nat -> f i = g i) -> sumN n f = sumN n g.
Proof. induction n; cbn; auto. intros H. rewrite IHn by auto. now rewrite H by auto. Qed.
Lemma sum_labels_ext body body' : forall ls e,
  (forall e', (forall l, In l (map fst ls) -> exists n, In (l, n) ls /\ (e' l < n)%nat) ->
     (forall l, ~ In l (map fst ls) -> e' l = e l) -> body e' = body' e') ->
  sum_labels ls e body = sum_labels ls e body'.
Proof.
  induction ls as [|[l n] ls IH]; intros e H; cbn [sum_labels].
  - apply H; [easy|auto].
  - apply sumN_ext. intros i Hi. apply IH. intros e' H1 H2. apply H.
    + intros l' [<-|Hl']; cbn [fst].
      * destruct (in_dec Nat.eq_dec l (map fst ls)) as [K|K].
        { destruct (H1 l K) as [n' [N1 N2]]. exists n'. split; [now right|exact N2]. }
        { exists n. split; [now left|]. rewrite H2 by auto. unfold upd. now rewrite Nat.eqb_refl. }
      * destruct (H1 l' Hl') as [n' [N1 N2]]. exists n'. split; [now right|exact N2].
    + intros l' Hl'. cbn [map fst In] in Hl'. rewrite H2 by tauto. unfold upd.
      destruct (Nat.eqb_spec l' l) as [->|]; [tauto|reflexivity].
Qed.
Lemma bind_labels_in (sz : nat -> nat) : forall ls k e l, inb (map sz ls) k ->
  In l ls -> (bind_labels ls k e l < sz l)%nat.
Proof.
  assert (G : forall ls k e l, inb (map sz ls) k -> (In l ls \/ (e l < sz l)%nat) ->
    (bind_labels ls k e l < sz l)%nat).
  { induction ls as [|x ls IH]; intros [|i k] e l; cbn [map inb bind_labels]; try tauto.
    - cbn [In]. tauto.
    - intros [H1 H2] H. apply IH; auto. unfold upd. destruct (Nat.eqb_spec l x) as [->|N]; [auto|].
      destruct H as [[->|H]|H]; [congruence|auto|auto]. }
  eauto.
Qed.

Lemma term_dims_post t s p e q : post t = [] -> term_dims t s = Ok (p, e, q) ->
  p = firstn (length (pre t)) s /\ e = skipn (length (pre t)) s /\ q = [] /\ length p = length (pre t).
Proof.
  intros H. unfold term_dims. rewrite H. cbn [length].
  destruct (Nat.leb_spec (length (pre t) + 0) (length s)) as [L|]; [|discriminate].
  destruct (ell t || _)%bool eqn:El; cbn [andb]; [|discriminate]. intros [= <- <- <-].
  replace (length s - length (pre t) - 0)%nat with (length (skipn (length (pre t)) s))
    by (rewrite skipn_length; lia).
  rewrite firstn_all. repeat split.
  - rewrite skipn_length. replace (length (pre t) + (length s - length (pre t)))%nat with (length s) by lia.
    apply skipn_all.
  - rewrite firstn_length. lia.
Qed.

Lemma bcr_subr : forall a b w, bcr a b = Some w -> subr a w /\ subr b w.
Proof.
  induction a as [|x a IH]; intros [|y b] w; cbn [bcr].
  - intros [= <-]. split; exact I.
  - intros [= <-]. split; [exact I|apply subr_refl].
  - intros [= <-]. split; [apply subr_refl|exact I].
  - destruct (bdim x y) as [c|] eqn:Eb; [|discriminate].
    destruct (bcr a b) as [v|] eqn:Ev; [|discriminate]. intros [= <-]. destruct (IH _ _ Ev) as [H1 H2].
    unfold bdim in Eb. destruct (Nat.eqb_spec x y); [injection Eb as <-; subst; cbn [subr]; auto|].
    destruct (Nat.eqb_spec x 1); [injection Eb as <-; cbn [subr]; auto|].
    destruct (Nat.eqb_spec y 1); [injection Eb as <-; cbn [subr]; auto|discriminate].
Qed.
Lemma broadcast_subs s t u : broadcast_shapes s t = Ok u -> sub s u /\ sub t u.
Proof.
  unfold broadcast_shapes. destruct (bcr (rev s) (rev t)) as [w|] eqn:Ew; [|discriminate].
  intros [= <-]. unfold sub. rewrite rev_involutive. now apply bcr_subr.
Qed.
Lemma ell_shape_sub : forall os es, ell_shape os = Ok es -> forall o, In o os -> sub (o_ell o) es.
Proof.
  induction os as [|x os IH]; intros es; cbn [ell_shape]; [easy|].
  destruct (ell_shape os) as [s|] eqn:Es; [|discriminate]. cbn [rbind]. intros H.
  destruct (broadcast_subs _ _ _ H) as [H1 H2]. intros o [<-|Ho]; [exact H1|].
  eapply sub_trans; [|exact H2]. eauto.
Qed.
Definition all_cells (ts : list (term * nd)) : list addr :=
  flat_map (fun x => map (fun k => (loc (snd x), vw (snd x) k)) (indices (nshp (snd x)))) ts.

Lemma einsum_local m1 m2 ts o z1 : (forall t a, In (t, a) ts -> post t = []) -> post o = [] ->
  einsum (views m1 ts) o = Ok z1 ->
  exists z2, einsum (views m2 ts) o = Ok z2 /\ shp z2 = shp z1 /\
    forall k, inb (shp z1) k ->
      (forall x, In x ts -> forall c, In c (operand_cells x (skipn (length (pre o)) k)) ->
         In c (all_cells ts) -> m1 c = m2 c) ->
      dat z1 k = dat z2 k.
Proof.
  intros Pt Po. unfold einsum.
  destruct (operands (views m1 ts)) as [os1|] eqn:E1; [|discriminate]. cbn [rbind].
  destruct (operands_same m1 m2 ts os1 E1) as [os2 [E2 [SO [L1 L2]]]]. rewrite E2. cbn [rbind].
  assert (LL : length os1 = length os2) by congruence.
  assert (SOi : forall x y, In (x, y) (combine os1 os2) -> exists w, In w ts /\ same_op m1 m2 w x y).
  { intros x y H. destruct (Forall2_in_r _ _ _ SO _ H) as [w [? ?]]. eauto. }
  assert (Ee : ell_shape os1 = ell_shape os2).
  { apply ell_shape_eq; auto. intros x y H. destruct (SOi x y H) as [w [_ S]]. apply S. }
  assert (El : label_pairs os1 = label_pairs os2).
  { apply combine_map_eq; auto. intros x y H. destruct (SOi x y H) as [w [_ [S1 [S2 [_ [_ [S3 [_ [S4 _]]]]]]]]].
    now rewrite S1, S2, S3, S4. }
  rewrite <- Ee. destruct (ell_shape os1) as [es|] eqn:Els; [|discriminate]. cbn [rbind]. rewrite <- El.
  destruct (sizes_ok (label_pairs os1)) eqn:Es; [|discriminate]. cbn [andb].
  destruct (ell o || _)%bool; [|discriminate]. intros [= <-].
  eexists. split; [reflexivity|]. cbn [shp dat]. split; [reflexivity|].
  rewrite Po. cbn [map app length bind_labels]. rewrite !app_nil_r. intros k Hk Hc.
  set (ps := label_pairs os1) in *. set (a := length (pre o)) in *.
  assert (Ea : length (map (size_of ps) (pre o)) = a) by apply map_length.
  assert (Lk : length k = (a + length es)%nat).
  { rewrite (inb_length _ _ Hk), app_length, Ea. reflexivity. }
  assert (Kd : inb (map (size_of ps) (pre o)) (firstn a k) /\ inb es (skipn a k)).
  { apply (inb_app (map (size_of ps) (pre o)) es (firstn a k) (skipn a k)).
    - rewrite firstn_length, Ea. lia.
    - rewrite firstn_skipn. exact Hk. }
  destruct Kd as [Kd Ke].
  assert (Ek : firstn (length es) (skipn a k) = skipn a k).
  { apply firstn_all2. rewrite skipn_length. lia. }
  rewrite Ek.
  set (e0 := bind_labels (pre o) (firstn a k) (fun _ => 0%nat)).
  apply sum_labels_ext. intros e' H1 H2. apply op_product_eq; auto.
  intros x y Hxy. destruct (SOi x y Hxy) as [[t b] [Hw [S1 [S2 [S3 [S4 [S5 [S6 [S7 S8]]]]]]]]].
  cbn [fst snd] in *. pose proof (Pt t b Hw) as Pw.
  destruct (term_dims_post _ _ _ _ _ Pw S8) as [D1 [D2 [D3 D4]]].
  unfold op_value. rewrite S3, S4, <- S5, <- S6, S1, S2, Pw, <- S7, D3. cbn [map].
  change (proj [] []) with (@nil nat). rewrite app_nil_r. cbn [view dat].
  assert (Hin : inb (o_pre x) (proj (o_pre x) (map e' (pre t)))).
  2:{ apply (Hc (t, b) Hw).
      - unfold operand_cells. cbn [fst snd]. apply in_map_iff.
        exists (proj (o_pre x) (map e' (pre t))). rewrite <- D2. split; [reflexivity|].
        rewrite <- D1. now apply in_indices.
      - unfold all_cells. apply in_flat_map. exists (t, b). split; [exact Hw|]. cbn [fst snd].
        apply (in_map (fun k => (loc b, vw b k))). apply in_indices.
        rewrite <- (firstn_skipn (length (pre t)) (nshp b)), <- D1, <- D2. apply inb_app; [now apply inb_length|].
        split; [exact Hin|]. apply (inb_proj _ es); [|exact Ke].
        apply (ell_shape_sub os1 es Els). now apply in_combine_l in Hxy. }
  apply inb_proj_labels; [congruence|].
  intros l d Hld.
  assert (Hps : In (l, d) ps).
  { unfold ps, label_pairs. apply in_flat_map. exists x. split; [now apply in_combine_l in Hxy|].
    apply in_or_app. left. now rewrite S1. }
  destruct (sizes_dim ps l d Es Hps) as [Hd|Hd]; [|auto]. left. rewrite Hd.
  set (suml := nodup Nat.eq_dec (filter (fun l => negb (existsb (Nat.eqb l) (pre o))) (map fst ps))) in *.
  rewrite map_map in H1, H2. cbn [fst] in H1, H2. rewrite map_id in H1, H2.
  destruct (in_dec Nat.eq_dec l suml) as [K|K].
  - destruct (H1 l K) as [n [N1 N2]]. apply in_map_iff in N1. destruct N1 as [l' [[= -> <-] _]]. exact N2.
  - rewrite (H2 l K). apply bind_labels_in; [exact Kd|].
    destruct (existsb (Nat.eqb l) (pre o)) eqn:Ex.
    + apply existsb_exists in Ex. destruct Ex as [l' [G1 G2]]. apply Nat.eqb_eq in G2. now subst l'.
    + exfalso. apply K. unfold suml. apply nodup_In. apply filter_In. split; [now apply (in_map fst) in Hps|].
      now rewrite Ex.
Qed.

(** ** The splitting *)
Lemma NoDup_app_intro {A} (l1 l2 : list A) : NoDup l1 -> NoDup l2 ->
  (forall x, In x l1 -> ~ In x l2) -> NoDup (l1 ++ l2).
Proof.
  induction l1 as [|x l1 IH]; cbn; auto. intros N1 N2 H. inversion N1; subst. constructor.
  - intros K. apply in_app_or in K. destruct K; [contradiction|]. apply (H x); auto.
  - apply IH; auto.
Qed.
Lemma NoDup_flat_map {A B} (f : A -> list B) : forall l, NoDup l -> (forall x, In x l -> NoDup (f x)) ->
  (forall x y b, In x l -> In y l -> In b (f x) -> In b (f y) -> x = y) -> NoDup (flat_map f l).
Proof.
  induction l as [|x l IH]; cbn; [constructor|]. intros N H1 H2. inversion N; subst.
  apply NoDup_app_intro.
  - apply H1. now left.
  - apply IH; auto. intros; eapply H2; eauto.
  - intros b Hb K. apply in_flat_map in K. destruct K as [y [Hy K]].
    assert (x = y) by (eapply H2; eauto). subst y. contradiction.
Qed.
Lemma indices_NoDup : forall s, NoDup (indices s).
Proof.
  induction s as [|n s IH]; [repeat constructor; easy|]. cbn [indices]. apply NoDup_flat_map.
  - apply seq_NoDup.
  - intros i _. apply FinFun.Injective_map_NoDup; [|exact IH]. intros a b E. congruence.
  - intros i j b _ _ Hi Hj. apply in_map_iff in Hi, Hj. destruct Hi as [u [<- _]], Hj as [v [E _]]. congruence.
Qed.
Lemma app_split_eq {A} : forall (a b c d : list A), length a = length b -> a ++ c = b ++ d -> a = b /\ c = d.
Proof.
  induction a as [|x a IH]; intros [|y b] c d; cbn; try discriminate; auto.
  intros [= L] [= -> E]. destruct (IH _ _ _ L E) as [-> ->]. auto.
Qed.
Lemma indices_app D T : Permutation (flat_map (fun k => map (fun d => d ++ k) (indices D)) (indices T))
  (indices (D ++ T)).
Proof.
  apply NoDup_Permutation.
  - apply NoDup_flat_map.
    + apply indices_NoDup.
    + intros k _. apply FinFun.Injective_map_NoDup; [|apply indices_NoDup].
      intros a b E. now apply app_inv_tail in E.
    + intros k j b _ _ Hk Hj. apply in_map_iff in Hk, Hj. destruct Hk as [u [<- Hu]], Hj as [v [E Hv]].
      apply in_indices, inb_length in Hu. apply in_indices, inb_length in Hv.
      apply app_split_eq in E; [|congruence]. symmetry. apply E.
  - apply indices_NoDup.
  - intros x. rewrite in_flat_map. split.
    + intros [k [Hk Hx]]. apply in_map_iff in Hx. destruct Hx as [d [<- Hd]].
      apply in_indices in Hk, Hd. apply in_indices. apply inb_app; auto. now apply inb_length.
    + intros Hx. apply in_indices in Hx. pose proof (inb_length _ _ Hx) as Lx. rewrite app_length in Lx.
      rewrite <- (firstn_skipn (length D) x) in Hx. apply inb_app in Hx.
      2:{ rewrite firstn_length. lia. }
      exists (skipn (length D) x). split; [apply in_indices; tauto|]. apply in_map_iff.
      exists (firstn (length D) x). split; [apply firstn_skipn|apply in_indices; tauto].
Qed.
Lemma flat_map_concat_perm {A B} (f : A -> list B) l l' : Permutation l l' ->
  Permutation (flat_map f l) (flat_map f l').
Proof.
  induction 1; cbn; auto.
  - now apply Permutation_app_head.
  - rewrite !app_assoc. apply Permutation_app_tail, Permutation_app_comm.
  - etransitivity; eauto.
Qed.
Lemma flat_map_concat {A B} (f : A -> list B) ls : flat_map (fun c => flat_map f c) ls = flat_map f (concat ls).
Proof. induction ls; cbn; auto. now rewrite flat_map_app, IHls. Qed.

Theorem trailing_good m ts o out D T z chunks sched :
  (forall t a, In (t, a) ts -> post t = []) -> post o = [] ->
  einsum (views m ts) o = Ok z -> shp z = nshp out ->
  nshp out = D ++ T -> length (pre o) = length D ->
  distinct_entries out ->
  (forall t a, In (t, a) ts -> loc a <> loc out \/
     (nshp a = nshp out /\ length (pre t) = length D /\ forall k, inb (nshp out) k -> vw a k = vw out k)) ->
  Permutation (concat chunks) (indices T) ->
  finished (run sched (start m (tasks_of ts o out (map (trailing_part ts D) chunks)))) ->
  good_call m ts o out (map (trailing_part ts D) chunks) sched.
Proof.
  intros Pt Po Ez Sz So Lo DE Al Pc Fin. constructor; auto.
  - rewrite flat_map_map. cbn [trailing_part p_out]. rewrite flat_map_concat, So.
    etransitivity; [apply flat_map_concat_perm, Pc|]. apply indices_app.
  - apply List.Forall_forall. intros t Ht. unfold tasks_of in Ht. rewrite map_map in Ht.
    apply in_map_iff in Ht. destruct Ht as [c [<- Hc]]. intros x f Hxf l l' Hag.
    unfold task_of, trailing_part in Hxf, Hag. cbn [wr rd p_in p_out] in Hxf, Hag.
    apply in_map_iff in Hxf. destruct Hxf as [k [[= <- <-] Hk]].
    apply in_flat_map in Hk. destruct Hk as [kt [Hkt Hk]]. apply in_map_iff in Hk. destruct Hk as [d [<- Hd]].
    assert (Hin : In kt (indices T)).
    { apply (Permutation_in _ Pc). apply in_concat. eauto. }
    apply in_indices in Hin, Hd. pose proof (inb_length _ _ Hd) as Ld.
    destruct (einsum_local m l ts o z Pt Po Ez) as [z1 [E1 [S1 _]]].
    destruct (einsum_local l l' ts o z1 Pt Po E1) as [z2 [E2 [S2 V]]].
    unfold entry, einsum_in. rewrite E1, E2. cbn [rbind].
    rewrite <- Sz, <- S1.
    destruct (broadcast_to_same z1) as [w1 [W1 [_ B1]]]. rewrite W1.
    rewrite <- S2. destruct (broadcast_to_same z2) as [w2 [W2 [_ B2]]]. rewrite W2.
    assert (Hk : inb (shp z1) (d ++ kt)).
    { rewrite S1, Sz, So. apply inb_app; auto. }
    rewrite B1 by exact Hk. rewrite B2 by (rewrite S2; exact Hk). apply V; [exact Hk|].
    intros x Hx y Hy _. apply Hag. apply in_flat_map. exists kt. split; [exact Hkt|].
    apply in_flat_map. exists x. split; [exact Hx|].
    rewrite skipn_app, skipn_all2, Lo, <- Ld, Nat.sub_diag in Hy by lia. exact Hy.
  - left. intros i j ti tj Nij Hi Hj x Hr Hw.
    unfold tasks_of in Hi, Hj. rewrite map_map, nth_error_map in Hi, Hj.
    destruct (nth_error chunks i) as [ci|] eqn:Ei; [|discriminate].
    destruct (nth_error chunks j) as [cj|] eqn:Ej; [|discriminate].
    injection Hi as <-. injection Hj as <-. unfold task_of, trailing_part in Hr, Hw.
    cbn [wr rd p_in p_out] in Hr, Hw. rewrite map_map in Hw. cbn [fst] in Hw.
    apply in_map_iff in Hw. destruct Hw as [k [<- Hk]].
    apply in_flat_map in Hk. destruct Hk as [kj [Hkj Hk]]. apply in_map_iff in Hk. destruct Hk as [d [<- Hd]].
    apply in_flat_map in Hr. destruct Hr as [ki [Hki Hr]]. apply in_flat_map in Hr.
    destruct Hr as [[t a] [Hta Hr]]. unfold operand_cells in Hr. cbn [fst snd] in Hr.
    apply in_map_iff in Hr. destruct Hr as [d' [E Hd']]. injection E as E1 E2.
    destruct (Al t a Hta) as [N|[Sa [Lt Va]]]; [contradiction|].
    rewrite Sa, So, Lt in E2, Hd'.
    rewrite skipn_app, skipn_all, Nat.sub_diag in E2. cbn [skipn app] in E2.
    rewrite firstn_app, firstn_all, Nat.sub_diag in Hd'. cbn [firstn] in Hd'. rewrite app_nil_r in Hd'.
    assert (Ti : inb T ki).
    { apply in_indices, (Permutation_in _ Pc), in_concat. exists ci. split; [eapply nth_error_In; eauto|auto]. }
    assert (Tj : inb T kj).
    { apply in_indices, (Permutation_in _ Pc), in_concat. exists cj. split; [eapply nth_error_In; eauto|auto]. }
    rewrite (proj_self T ki Ti) in E2. apply in_indices in Hd, Hd'.
    rewrite Va in E2 by (rewrite So; apply inb_app; [now apply inb_length|auto]).
    assert (Ek : d' ++ ki = d ++ kj).
    { apply (NoDup_map_inj_on (vw out) (indices (nshp out))); auto.
      - rewrite So. apply in_indices, inb_app; auto. now apply inb_length.
      - rewrite So. apply in_indices, inb_app; auto. now apply inb_length. }
    apply app_split_eq in Ek; [|apply inb_length in Hd, Hd'; congruence]. destruct Ek as [_ <-].
    apply Nij. assert (NC : NoDup (concat chunks)).
    { apply (Permutation_NoDup (Permutation_sym Pc)), indices_NoDup. }
    rewrite <- (map_id chunks) in NC. rewrite <- flat_map_concat_map in NC.
    exact (NoDup_flat_other (fun x => x) chunks i j ci cj ki NC Ei Ej Hki Hkj).
Qed.

(** Into a new array (no operand is written) every splitting of the entries is free of
    races; the simplest choice is that every thread reads all operands. *)
Theorem separate_good m ts o out chunks sched :
  (forall t a, In (t, a) ts -> post t = []) -> post o = [] ->
  distinct_entries out -> (forall t a, In (t, a) ts -> loc a <> loc out) ->
  Permutation (concat chunks) (indices (nshp out)) ->
  finished (run sched (start m (tasks_of ts o out
    (map (fun c => {| p_out := c; p_in := all_cells ts |}) chunks)))) ->
  good_call m ts o out (map (fun c => {| p_out := c; p_in := all_cells ts |}) chunks) sched.
Proof.
  intros Pt Po DE Al Pc Fin. constructor; auto.
  - rewrite flat_map_map. cbn [p_out]. rewrite flat_map_concat_map, map_id. exact Pc.
  - apply List.Forall_forall. intros t Ht. unfold tasks_of in Ht. rewrite map_map in Ht.
    apply in_map_iff in Ht. destruct Ht as [c [<- Hc]]. intros x f Hxf l l' Hag.
    unfold task_of in Hxf, Hag. cbn [wr rd p_in p_out] in Hxf, Hag.
    apply in_map_iff in Hxf. destruct Hxf as [k [[= <- <-] Hk]].
    assert (Hin : inb (nshp out) k).
    { apply in_indices, (Permutation_in _ Pc), in_concat. eauto. }
    unfold entry, einsum_in.
    destruct (einsum (views l ts) o) as [z1|e1] eqn:E1.
    2:{ destruct (einsum (views l' ts) o) as [z2|e2] eqn:E2; [|reflexivity].
        destruct (einsum_local l' l ts o z2 Pt Po E2) as [z3 [E3 _]]. congruence. }
    destruct (einsum_local l l' ts o z1 Pt Po E1) as [z2 [E2 [S2 V]]]. rewrite E2. cbn [rbind].
    unfold broadcast_to. rewrite S2.
    destruct (broadcast_shapes (shp z1) (nshp out)) as [u|] eqn:Eu; [|reflexivity]. cbn [rbind].
    destruct (list_eq_dec Nat.eq_dec u (nshp out)) as [->|]; [|reflexivity]. cbn [dat].
    unfold read. rewrite S2.
    assert (Hp : inb (shp z1) (proj (shp z1) k)).
    { apply (inb_proj (shp z1) (nshp out)); [|exact Hin].
      exact (proj1 (broadcast_subs _ _ _ Eu)). }
    apply V; [exact Hp|]. intros x Hx y _ Hy. apply Hag. exact Hy.
  - left. intros i j ti tj Nij Hi Hj x Hr Hw.
    unfold tasks_of in Hi, Hj. rewrite map_map, nth_error_map in Hi, Hj.
    destruct (nth_error chunks i) as [ci|] eqn:Ei; [|discriminate].
    destruct (nth_error chunks j) as [cj|] eqn:Ej; [|discriminate].
    injection Hi as <-. injection Hj as <-. unfold task_of in Hr, Hw.
    cbn [wr rd p_in p_out] in Hr, Hw. rewrite map_map in Hw. cbn [fst] in Hw.
    apply in_map_iff in Hw. destruct Hw as [k [<- Hk]].
    unfold all_cells in Hr. apply in_flat_map in Hr. destruct Hr as [[t a] [Hta Hr]].
    apply in_map_iff in Hr. destruct Hr as [k' [E _]]. injection E as E _. exact (Al t a Hta E).
Qed.

(** ** Splitting a label which is summed over *)
(** einsumt gives each thread some values of the label [l] and adds the partial results.
    [einsum_partial l c]: [einsum] with [l] running over the list [c] only. *)
Fixpoint lsum {A} (l : list A) (f : A -> R) : R :=
  match l with [] => 0 | x :: l => f x + lsum l f end.
Fixpoint sum_labels_on (l : nat) (c : list nat) (ls : list (nat * nat)) (e : env) (body : env -> R) : R :=
  match ls with
  | [] => body e
  | (x, n) :: ls =>
      if Nat.eqb x l then lsum c (fun i => sum_labels_on l c ls (upd e x i) body)
      else sumN n (fun i => sum_labels_on l c ls (upd e x i) body)
  end.
Definition einsum_partial (l : nat) (c : list nat) (ts : list (term * arr)) (out : term) : Result arr :=
  rbind (operands ts) (fun os =>
  rbind (ell_shape os) (fun es =>
  let ps := label_pairs os in
  if (sizes_ok ps && (ell out || Nat.eqb (length es) 0))%bool then
    let outl := pre out ++ post out in
    let suml := nodup Nat.eq_dec
                  (filter (fun l => negb (existsb (Nat.eqb l) outl)) (map fst ps)) in
    let a := length (pre out) in
    let n := length es in
    Ok {| shp := map (size_of ps) (pre out) ++ (es ++ map (size_of ps) (post out));
          dat := fun k =>
            let e := bind_labels (pre out) (firstn a k)
                       (bind_labels (post out) (skipn (a + n) k) (fun _ => 0%nat)) in
            let ke := firstn n (skipn a k) in
            sum_labels_on l c (map (fun l => (l, size_of ps l)) suml) e
                       (fun e => op_product e ke os) |}
  else Raise ValueError)).
(** The number of values of the label [l]; whether it is summed over. *)
Definition label_range (l : nat) (ts : list (term * arr)) : nat :=
  match operands ts with Ok os => size_of (label_pairs os) l | Raise _ => 0%nat end.
Definition summed (l : nat) (ts : list (term * arr)) (o : term) : Prop :=
  (exists t v, In (t, v) ts /\ In l (pre t ++ post t)) /\ ~ In l (pre o ++ post o).

Lemma lsum_perm {A} (f : A -> R) l l' : Permutation l l' -> lsum l f = lsum l' f.
Proof. induction 1; cbn; try congruence. ring. Qed.
Lemma lsum_app {A} (f : A -> R) l l' : lsum (l ++ l') f = lsum l f + lsum l' f.
Proof. induction l; cbn; [ring|]. rewrite IHl. ring. Qed.
Lemma lsum_concat {A} (f : A -> R) cs : lsum (concat cs) f = lsum cs (fun c => lsum c f).
Proof. induction cs; cbn; auto. now rewrite lsum_app, IHcs. Qed.
Lemma lsum_ext {A} (f g : A -> R) l : (forall x, In x l -> f x = g x) -> lsum l f = lsum l g.
Proof. induction l; cbn; auto. intros H. rewrite H, IHl; auto. Qed.
Lemma lsum_plus {A} (f g : A -> R) l : lsum l (fun x => f x + g x) = lsum l f + lsum l g.
Proof. induction l; cbn; [ring|]. rewrite IHl. ring. Qed.
Lemma lsum_zero {A} (l : list A) : lsum l (fun _ => 0) = 0.
Proof. induction l; cbn; auto. rewrite IHl. ring. Qed.
Lemma sumN_lsum n f : sumN n f = lsum (seq 0 n) f.
Proof.
  induction n; [reflexivity|]. rewrite seq_S, lsum_app. cbn [sumN lsum Nat.add]. rewrite IHn. ring.
Qed.
Lemma sumN_lsum_comm {A} n (g : A -> nat -> R) l :
  sumN n (fun i => lsum l (fun x => g x i)) = lsum l (fun x => sumN n (fun i => g x i)).
Proof.
  induction n; cbn [sumN]; [now rewrite lsum_zero|]. rewrite IHn, <- lsum_plus. reflexivity.
Qed.
Lemma sum_labels_on_none l c body : forall ls e, ~ In l (map fst ls) ->
  sum_labels_on l c ls e body = sum_labels ls e body.
Proof.
  induction ls as [|[x n] ls IH]; intros e H; [reflexivity|]. cbn [sum_labels_on sum_labels].
  cbn [map fst In] in H. destruct (Nat.eqb_spec x l) as [->|]; [tauto|].
  apply sumN_ext. intros i _. apply IH. tauto.
Qed.
Lemma sum_labels_split l body cs : forall ls e, NoDup (map fst ls) ->
  (forall n, In (l, n) ls -> Permutation (concat cs) (seq 0 n)) -> In l (map fst ls) ->
  sum_labels ls e body = lsum cs (fun c => sum_labels_on l c ls e body).
Proof.
  induction ls as [|[x n] ls IH]; intros e ND H K; [easy|]. cbn [sum_labels_on sum_labels].
  cbn [map fst] in ND, K. inversion ND as [|? ? N1 N2]; subst.
  destruct (Nat.eqb_spec x l) as [->|N].
  - rewrite sumN_lsum, <- (lsum_perm _ _ _ (H n (or_introl eq_refl))), lsum_concat.
    apply lsum_ext. intros c _. apply lsum_ext. intros i _. symmetry. now apply sum_labels_on_none.
  - destruct K as [K|K]; [congruence|].
    rewrite (sumN_ext n _ (fun i => lsum cs (fun c => sum_labels_on l c ls (upd e x i) body))).
    + apply sumN_lsum_comm.
    + intros i _. apply IH; auto. intros m Hm. apply H. now right.
Qed.
Lemma operands_labels : forall ts os, operands ts = Ok os -> forall t v l, In (t, v) ts ->
  In l (pre t ++ post t) -> In l (map fst (label_pairs os)).
Proof.
  induction ts as [|[t0 v0] ts IH]; intros os; [easy|]. cbn [operands].
  destruct (term_dims t0 (shp v0)) as [[[p e] q]|] eqn:Et; [|discriminate]. cbn [rbind].
  destruct (operands ts) as [os'|] eqn:Eo; [|discriminate]. cbn [rbind]. intros [= <-] t v l Hin Hl.
  unfold label_pairs. cbn [flat_map o_term o_pre o_post]. rewrite map_app. apply in_or_app.
  destruct Hin as [[= -> ->]|Hin]; [left|right; eapply IH; eauto].
  unfold term_dims in Et.
  destruct (Nat.leb_spec (length (pre t) + length (post t)) (length (shp v))) as [L|]; [|discriminate].
  destruct (ell t || _)%bool; [|discriminate]. cbn [andb] in Et. injection Et as <- <- <-.
  assert (F : forall (A B : list nat), length A = length B -> map fst (combine A B) = A).
  { induction A; intros [|b B]; cbn; try discriminate; auto. intros [= E]. now rewrite IHA. }
  rewrite map_app, !F; [exact Hl| |].
  - rewrite skipn_length. lia.
  - rewrite firstn_length. lia.
Qed.
Theorem einsum_summed_split l ts o z cs : summed l ts o -> einsum ts o = Ok z ->
  Permutation (concat cs) (seq 0 (label_range l ts)) ->
  exists zs, map (fun c => einsum_partial l c ts o) cs = map Ok zs /\
    (forall z', In z' zs -> shp z' = shp z) /\
    forall zs', Permutation zs' zs -> forall k, dat z k = lsum zs' (fun z' => dat z' k).
Proof.
  intros [[t [v [Hin Hl]]] No] Ez Hp. unfold einsum, einsum_partial, label_range in *.
  destruct (operands ts) as [os|] eqn:Eo; [|discriminate]. cbn [rbind] in *.
  destruct (ell_shape os) as [es|]; [|discriminate]. cbn [rbind] in *.
  destruct (sizes_ok (label_pairs os) && _)%bool; [|discriminate]. injection Ez as <-.
  set (ps := label_pairs os) in *.
  set (suml := nodup Nat.eq_dec (filter (fun l => negb (existsb (Nat.eqb l) (pre o ++ post o))) (map fst ps))).
  set (E := fun k => bind_labels (pre o) (firstn (length (pre o)) k)
      (bind_labels (post o) (skipn (length (pre o) + length es) k) (fun _ => 0%nat))).
  exists (map (fun c => {| shp := map (size_of ps) (pre o) ++ (es ++ map (size_of ps) (post o));
     dat := fun k => sum_labels_on l c (map (fun l => (l, size_of ps l)) suml) (E k)
         (fun e => op_product e (firstn (length es) (skipn (length (pre o)) k)) os) |}) cs).
  split; [now rewrite map_map|]. split.
  - intros z' Hz. apply in_map_iff in Hz. destruct Hz as [c [<- _]]. reflexivity.
  - intros zs' Pz k. rewrite (lsum_perm _ _ _ Pz). cbn [dat].
    assert (Lm : forall (f : list nat -> arr), lsum (map f cs) (fun z' => dat z' k) = lsum cs (fun c => dat (f c) k)).
    { intros f. clear. induction cs; cbn; congruence. }
    rewrite Lm. cbn [dat]. apply sum_labels_split.
    + rewrite map_map. cbn [fst]. rewrite map_id. apply NoDup_nodup.
    + intros n Hn. apply in_map_iff in Hn. destruct Hn as [l' [[= -> <-] _]]. exact Hp.
    + rewrite map_map. cbn [fst]. rewrite map_id. apply nodup_In. apply filter_In. split.
      * eapply operands_labels; eauto.
      * apply Bool.negb_true_iff. destruct (existsb _ _) eqn:Ex; [|reflexivity].
        apply existsb_exists in Ex. destruct Ex as [l' [G1 G2]]. apply Nat.eqb_eq in G2. now subst l'.
Qed.
