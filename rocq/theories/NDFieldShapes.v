(** * Which parameter arrays Ogden accepts (proofs). *)
From Coq Require Import Reals List Arith Lia Lra.
From Verif Require Import Tensor Py Voigt Models NDCore NDRel NDOps NDHeap NDVoigt NDFrameworks NDFields NDFieldRaise.
Import ListNotations.
Local Open Scope R_scope.

(** The expression has a value that broadcasts to [s]. *)
Definition okto (s : shape) (r : Result arr) : Prop := exists v, r = Ok v /\ sub (shp v) s.
Lemma bcr_up t u w : bcr t u = Some w -> subr t w /\ subr u w.
Proof.
  revert u w; induction t as [|a t IH]; intros u w; cbn [bcr].
  - intros [= ->]. split; [exact Logic.I|apply subr_refl].
  - destruct u as [|b u]; [intros [= <-]; split; [apply subr_refl|exact Logic.I]|].
    unfold bdim. destruct (Nat.eqb_spec a b); [|destruct (Nat.eqb_spec a 1); [|destruct (Nat.eqb_spec b 1)]];
      (destruct (bcr t u) as [x|] eqn:E; [|discriminate]) || discriminate;
      destruct (IH u x E) as [H1 H2]; intros [= <-]; cbn [subr]; repeat split; auto.
Qed.
Lemma bc_up t u w : broadcast_shapes t u = Ok w -> sub t w /\ sub u w.
Proof.
  unfold broadcast_shapes. destruct (bcr (rev t) (rev u)) as [x|] eqn:E; [|discriminate]. intros [= <-].
  unfold sub. rewrite rev_involutive. apply (bcr_up _ _ _ E).
Qed.
Lemma okto_bin s op x y : okto s (rbin op x y) <-> okto s x /\ okto s y.
Proof.
  split.
  - intros [v [E H]]. unfold rbin in E. destruct x as [a|]; [|discriminate]. destruct y as [b|]; [|discriminate].
    cbn [rbind] in E. unfold vbin in E. destruct (broadcast_shapes (shp a) (shp b)) as [w|] eqn:Eb; [|discriminate].
    cbn [rbind] in E. injection E as <-. cbn [shp] in H. destruct (bc_up _ _ _ Eb) as [H1 H2].
    split; eexists; (split; [reflexivity|]); eapply sub_trans; eauto.
  - intros [[a [-> Ha]] [b [-> Hb]]]. cbn [rbin rbind]. unfold vbin.
    destruct (bsh_ok _ _ _ Ha Hb) as [E [H _]]. rewrite E. cbn [rbind]. eexists. split; [reflexivity|exact H].
Qed.
Lemma okto_ok s a : okto s (Ok a) <-> sub (shp a) s.
Proof. split; [intros [v [[= <-] H]]; exact H|]. intros H. exists a. auto. Qed.
Lemma okto_num s r : okto s (rnum r).
Proof. exists (num r). split; [reflexivity|apply sub_nil]. Qed.

(** [a op= e] succeeds iff the shape of [e] broadcasts to the shape of [a]. *)
Lemma inplace_dec op a e h : vE e ->
  (okto (nshp a) e /\ exists h', inplace op a e h = (h', Ok tt)) \/
  (~ okto (nshp a) e /\ exists h', inplace op a e h = (h', Raise ValueError)).
Proof.
  intros [[v ->]| ->].
  2:{ right. split; [intros [v [H _]]; discriminate|]. exists h. reflexivity. }
  rewrite okto_ok. unfold inplace, bind, lift, load, assign, broadcast_to. cbn.
  destruct (vE_broadcast (nshp a) (shp v)) as [[w Ew]|Ew].
  - pose proof (bc_up _ _ _ Ew) as [W1 W2].
    unfold vbin. cbn [contents shp]. rewrite Ew. cbn [rbind shp].
    destruct (vE_broadcast w (nshp a)) as [[u Eu]|Eu]; rewrite Eu; cbn [rbind].
    + pose proof (bc_up _ _ _ Eu) as [U1 U2].
      destruct (list_eq_dec Nat.eq_dec u (nshp a)) as [->|N].
      * left. split; [eapply sub_trans; eauto|]. eexists. reflexivity.
      * right. split; [|exists h; reflexivity]. intros H. apply N.
        assert (Q : w = nshp a).
        { pose proof (broadcast_sub_l _ _ H) as X. rewrite broadcast_comm in X. congruence. }
        subst w. pose proof (broadcast_sub_l _ _ (sub_refl (nshp a))). congruence.
    + right. split; [|exists h; reflexivity]. intros H.
      assert (Q : w = nshp a).
      { pose proof (broadcast_sub_l _ _ H) as X. rewrite broadcast_comm in X. congruence. }
      subst w. pose proof (broadcast_sub_l _ _ (sub_refl (nshp a))). congruence.
  - right. unfold vbin. cbn [contents shp]. rewrite Ew. cbn [rbind]. split; [|exists h; reflexivity].
    intros H. pose proof (broadcast_sub_l _ _ H) as X. rewrite broadcast_comm in X. congruence.
Qed.
Lemma vE_term1 mu alpha x : vE (ogf_term1 mu alpha x).
Proof. unfold ogf_term1. ve. Qed.
Lemma vE_term2 mu alpha x : vE (ogf_term2 mu alpha x).
Proof. unfold ogf_term2. ve. Qed.
Lemma okto_term1 s mu alpha x : sub (shp x) s -> okto s (ogf_term1 mu alpha x) <-> sub (shp mu) s /\ sub (shp alpha) s.
Proof.
  intros H. unfold ogf_term1. rewrite !okto_bin, !okto_ok. pose proof (okto_num s 1). pose proof (okto_num s 2). tauto.
Qed.
Lemma okto_term2 s mu alpha x : sub (shp x) s -> okto s (ogf_term2 mu alpha x) <-> sub (shp mu) s /\ sub (shp alpha) s.
Proof.
  intros H. unfold ogf_term2. rewrite !okto_bin, !okto_ok. pose proof (okto_num s 1). pose proof (okto_num s 2). tauto.
Qed.
Lemma ogf_sum_dec term (m : OgdenField) l h :
  (forall mu alpha x, vE (term mu alpha x)) ->
  (forall s mu alpha x, sub (shp x) s -> okto s (term mu alpha x) <-> sub (shp mu) s /\ sub (shp alpha) s) ->
  let good := List.Forall (fun p => sub (shp (fst p)) (nshp l) /\ sub (shp (snd p)) (nshp l)) (combine (ogf_mu m) (ogf_alpha m)) in
  (good /\ exists h' d, nd_ogdenf_sum term m l h = (h', Ok d)) \/
  (~ good /\ exists h', nd_ogdenf_sum term m l h = (h', Raise ValueError)).
Proof.
  intros Hv Ho good. unfold nd_ogdenf_sum.
  set (d := {| loc := hnext h; nshp := nshp l; vw := fun k => k |}).
  assert (L : forall ps h1,
    let f := (fun '(mu, alpha) => bind (load l) (fun x => inplace Rplus d (term mu alpha x))) in
    (List.Forall (fun p => sub (shp (fst p)) (nshp l) /\ sub (shp (snd p)) (nshp l)) ps /\ exists h', each ps f h1 = (h', Ok tt)) \/
    (~ List.Forall (fun p => sub (shp (fst p)) (nshp l) /\ sub (shp (snd p)) (nshp l)) ps /\ exists h', each ps f h1 = (h', Raise ValueError))).
  { induction ps as [|[mu alpha] ps IH]; intros h1 f.
    - left. split; [constructor|]. exists h1. reflexivity.
    - destruct (inplace_dec Rplus d (term mu alpha (contents h1 l)) h1 (Hv _ _ _)) as [[G [h2 E]]|[G [h2 E]]];
        cbn [d nshp] in G; rewrite (Ho (nshp l) mu alpha (contents h1 l) (sub_refl _)) in G.
      + destruct (IH h2) as [[GG [h3 E3]]|[GG [h3 E3]]]; [left|right].
        * split; [constructor; [exact G|exact GG]|]. exists h3. cbn [each]. unfold bind at 1, f at 1, bind at 1, load. rewrite E. exact E3.
        * split; [intros X; inversion X; auto|]. exists h3. cbn [each]. unfold bind at 1, f at 1, bind at 1, load. rewrite E. exact E3.
      + right. split; [intros X; inversion X; auto|]. exists h2. cbn [each]. unfold bind at 1, f at 1, bind at 1, load. rewrite E. reflexivity. }
  set (h1 := {| hnext := S (hnext h); hcell := fun l0 => if Nat.eqb l0 (hnext h) then dat (zeros (nshp l)) else hcell h l0 |}).
  destruct (L (combine (ogf_mu m) (ogf_alpha m)) h1) as [[G [h2 E]]|[G [h2 E]]]; [left|right]; (split; [exact G|]).
  - exists h2, d. 
    match type of E with ?e h1 = _ => change (bind e (fun _ => ret d) h1 = (h2, Ok d)) end.
    unfold bind at 1. rewrite E. reflexivity.
  - exists h2. 
    match type of E with ?e h1 = _ => change (bind e (fun _ => ret d) h1 = (h2, Raise ValueError)) end.
    unfold bind at 1. rewrite E. reflexivity.
Qed.
