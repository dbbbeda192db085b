(** * eigh on arrays (proofs). *)
From Coq Require Import Reals List Arith Lia Lra FunctionalExtensionality.
From Verif Require Import Tensor Py Voigt.
From Verif Require Import NDCore NDRel NDOps NDHeap NDVoigt NDMath.
Import ListNotations.
Local Open Scope R_scope.

Definition i333 : ixt :=
  {| ity := ix3 * ix3 * ix3; idim := [3%nat; 3%nat; 3%nat];
     ienc := fun '(a, i, j) => [n3 a; n3 i; n3 j] |}.

Lemma firstn_len_app {A} (l r : list A) : firstn (length l) (l ++ r) = l.
Proof. rewrite firstn_app, Nat.sub_diag, firstn_all, firstn_O, app_nil_r. reflexivity. Qed.
Lemma skipn_len_app {A} (l r : list A) : skipn (length l) (l ++ r) = r.
Proof. rewrite skipn_app, Nat.sub_diag, skipn_all, skipn_O. reflexivity. Qed.
Lemma term_dims_tail l b L : length L = length l ->
  term_dims (tail_term l) (b ++ L) = Ok ([], b, L).
Proof.
  intros H. unfold term_dims, tail_term. cbn [pre post ell length orb firstn skipn].
  rewrite app_length, H, !Nat.sub_0_r, !Nat.add_0_l.
  replace (length b + length l - length l)%nat with (length b) by lia.
  destruct (Nat.leb_spec (length l) (length b + length l)); [|lia]. cbn [andb].
  now rewrite firstn_len_app, skipn_len_app.
Qed.
Lemma nth_len_app {A} (l r : list A) n d : nth (length l + n) (l ++ r) d = nth n r d.
Proof. rewrite app_nth2 by lia. f_equal. lia. Qed.
Lemma ix3_of_n3 i : ix3_of (n3 i) = i.
Proof. destruct i; reflexivity. Qed.

(** The einsum of line 953 on a stack (..., 3, 3). *)
Lemma es_bases b v : shp v = b ++ [3; 3]%nat ->
  exists m, einsum [(tail_term [0; 2], v); (tail_term [1; 2], v)]%nat (tail_term [0; 1; 2]%nat) = Ok m /\
    shp m = b ++ [3; 3; 3]%nat /\
    forall k i j a, length k = length b -> inb b k ->
      dat m (k ++ [n3 i; n3 j; n3 a]) = dat v (k ++ [n3 i; n3 a]) * dat v (k ++ [n3 j; n3 a]).
Proof.
  intros Hs. unfold einsum. cbn [operands]. rewrite Hs, !term_dims_tail by reflexivity. cbn [rbind].
  cbn [ell_shape o_ell rbind]. rewrite (broadcast_comm b []), (broadcast_sub_l [] b (sub_nil b)). cbn [rbind].
  rewrite broadcast_refl. cbn [rbind].
  cbn [label_pairs flat_map o_term o_pre o_post pre post tail_term combine app ell].
  match goal with |- context [sizes_ok ?l] => change (sizes_ok l) with true end. cbn [andb orb].
  eexists. split; [reflexivity|]. split; [reflexivity|].
  intros k i j a Hk Hb. cbn [dat length map]. cbn [bind_labels firstn skipn].
  rewrite <- Hk, Nat.add_0_l, firstn_len_app, skipn_len_app.
  match goal with |- sum_labels ?l _ _ = _ => let x := eval vm_compute in l in change l with x end.
  cbn [sum_labels op_product bind_labels].
  unfold op_value. cbn [o_term o_pre o_post o_ell o_arr pre post tail_term map app].
  rewrite !(proj_self b k Hb).
  assert (P : forall p q, proj [3; 3]%nat [n3 p; n3 q] = [n3 p; n3 q]).
  { intros p q. apply (proj_self [3; 3]%nat [n3 p; n3 q]). cbn. repeat split; auto using n3_lt. }
  rewrite <- (P i a), <- (P j a). reflexivity.
Qed.

Lemma v_eigh_rel lapack g a T f : rel i6 T T a f ->
  exists w Ms, v_eigh lapack g a = Ok (w, Ms) /\
    rel i3 T T w (fun k al => fst (eigh lapack (f k) g) al) /\
    rel i36 T T Ms (fun k '(al, v) => snd (eigh lapack (f k) g) al v).
Proof.
  intros Ha. unfold v_eigh.
  destruct (v_astensor_rel a T T f Ha) as [A [-> HA]]. cbn [rbind].
  apply rel_full in HA. destruct HA as [SA HA].
  unfold linalg_eigh.
  assert (SR : shp (arrT A) = rev T ++ [3; 3]%nat).
  { cbn [arrT shp]. rewrite SA. rewrite rev_app_distr. reflexivity. }
  rewrite SR. rewrite app_length. cbn [length].
  replace (length (rev T) + 2 - 2)%nat with (length (rev T)) by lia.
  rewrite skipn_len_app, firstn_len_app. cbn [rbind].
  match goal with |- context [einsum [(_, ?v); _] _] => set (vA := v) end.
  destruct (es_bases (rev T) vA eq_refl) as [MA [-> [SM HM]]]. cbn [rbind].
  assert (HS : forall k, inb T k -> stack_mat (arrT A) (rev k) = mtr (astensor (f k))).
  { intros k Hk. extensionality i. extensionality j. unfold stack_mat. cbn [arrT dat].
    rewrite rev_app_distr, rev_involutive.
    change (dat A (rev [n3 i; n3 j] ++ k) = mtr (astensor (f k)) i j).
    exact (HA k Hk (j, i)). }
  assert (HV : forall k i al, inb T k -> dat vA (rev k ++ [n3 i; n3 al]) = snd (lapack (mtr (astensor (f k)))) i al).
  { intros k i al Hk. unfold vA. cbn [dat].
    assert (E : length (rev T) = length (rev k)) by (rewrite !rev_length; symmetry; now apply inb_length).
    rewrite E, firstn_len_app, HS by assumption.
    replace (length (rev k)) with (length (rev k) + 0)%nat at 1 by lia.
    replace (S (length (rev k))) with (length (rev k) + 1)%nat by lia.
    rewrite !nth_len_app. cbn [nth]. now rewrite !ix3_of_n3. }
  assert (HMA : rel i333 T T (arrT MA) (fun k '(al, j, i) =>
      snd (lapack (mtr (astensor (f k)))) i al * snd (lapack (mtr (astensor (f k)))) j al)).
  { apply rel_of_full.
    - cbn [arrT shp]. rewrite SM, rev_app_distr, rev_involutive. reflexivity.
    - intros k Hk [[al j] i]. cbn [arrT dat ienc i333]. rewrite rev_app_distr. cbn [rev app].
      rewrite HM.
      + now rewrite !HV.
      + rewrite !rev_length. now apply inb_length.
      + now apply inb_rev. }
  unfold stack_voigt.
  replace (hd 0%nat (shp (arrT MA))) with 3%nat by (destruct HMA as [-> _]; reflexivity).
  cbn [seq collect].
  assert (HR : forall al, exists r, rbind (row (n3 al) (arrT MA))
      (take2 [6%nat] (of_list [0; 1; 2; 0; 1; 0]%nat) (of_list [0; 1; 2; 1; 2; 2]%nat)) = Ok r /\
      rel i6 T T r (fun k v => snd (eigh lapack (f k) g) al v)).
  { intros al.
    destruct (row_rel i333 i33 3 (n3 al) (fun '(j, i) => (al, j, i)) T T (arrT MA) _ eq_refl (n3_lt al)
      ltac:(intros [j i]; reflexivity) HMA) as [r [-> Hr]]. cbn [rbind].
    destruct (take2_rel i33 i6 3 3 (of_list [0; 1; 2; 0; 1; 0]%nat) (of_list [0; 1; 2; 1; 2; 2]%nat)
      (fun v => (vi v, vj v)) T T r _ i33_ok i6_ok eq_refl ltac:(intros []; reflexivity) Hr) as [s [Es Hs]].
    exists s. split; [exact Es|]. eapply rel_ext; [|exact Hs]. intros k Hk v. cbv beta.
    unfold eigh. destruct (lapack (mtr (astensor (f k)))) as [wv vv]. cbn [snd]. reflexivity. }
  destruct (HR X0) as [r0 [E0 R0]], (HR X1) as [r1 [E1 R1]], (HR X2) as [r2 [E2 R2]].
  cbn [n3] in E0, E1, E2. rewrite E0, E1, E2. cbn [rbind]. eexists _, _. split; [reflexivity|]. split.
  - apply rel_of_full.
    + cbn [arrT vmap shp]. rewrite rev_app_distr, rev_involutive. reflexivity.
    + intros k Hk al. cbn [arrT vmap dat ienc i3 app rev].
      assert (E : length (rev T) = length (rev k)) by (rewrite !rev_length; symmetry; now apply inb_length).
      rewrite E, firstn_len_app, HS by assumption.
      replace (length (rev k)) with (length (rev k) + 0)%nat at 1 by lia.
      rewrite nth_len_app. cbn [nth]. rewrite ix3_of_n3.
      unfold eigh. destruct (lapack (mtr (astensor (f k)))) as [wv vv]. reflexivity.
  - apply rel_of_full.
    + cbn [shp length]. destruct R0 as [-> _]. reflexivity.
    + intros k Hk [al v]. cbn [dat ienc i36 app].
      destruct al; cbn [n3 nth]; [apply rel_full in R0|apply rel_full in R1|apply rel_full in R2];
        [destruct R0 as [_ Hd]|destruct R1 as [_ Hd]|destruct R2 as [_ Hd]]; exact (Hd k Hk v).
Qed.

Lemma nd_eigh_W lapack g n h A T f : (n <= hnext h)%nat -> hrel h A i6 T T f ->
  W n h (nd_eigh lapack A g) (fun '(w, Ms) h' => ext (hnext h) h h' /\
    (hnext h <= loc w < hnext h')%nat /\ (hnext h <= loc Ms < hnext h')%nat /\ (loc w <> loc Ms) /\
    (forall k, vw w k = k) /\ (forall k, vw Ms k = k) /\
    hrel h' w i3 T T (fun k al => fst (eigh lapack (f k) g) al) /\
    hrel h' Ms i36 T T (fun k '(al, v) => snd (eigh lapack (f k) g) al v)).
Proof.
  intros Hn [_ HA]. unfold nd_eigh. apply W_load_bind.
  destruct (v_eigh_rel lapack g _ T f HA) as [w [Ms [E [Hw HM]]]].
  apply (W_lift_bind _ _ _ _ _ _ E).
  eapply W_call; [apply (W_alloc n h w _ _ _ _ Hn Hw)|]. intros wa h1 F1 V1' Hwa Y1.
  eapply W_call; [apply (W_alloc n h1 Ms _ _ _ _ ltac:(hlia) HM)|]. intros ma h2 F2 V2' Hma Y2.
  pose proof (proj1 F1); pose proof (proj2 F1); pose proof (proj1 F2); pose proof (proj2 F2).
  pose proof (proj1 Y1); pose proof (proj1 Y2).
  apply W_ret. split; [|split; [|split; [|split; [|split; [|split; [|split]]]]]]; auto; try lia.
  - eapply ext_trans; [exact Y1|]. eapply ext_le; [|exact Y2]. lia.
  - eapply hrel_ext; eauto.
Qed.
