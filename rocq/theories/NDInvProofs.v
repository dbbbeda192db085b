(** * The invariant framework on arrays (proofs). *)
From Coq Require Import Reals List Arith Lia Lra.
From Verif Require Import Tensor Py Voigt Algebra VCalc Models Frameworks Spaces Spec GenProofs InvCore.
From Verif Require Import NDCore NDRel NDOps NDHeap NDVoigt NDMath NDMath2 NDMath3 NDSpaces
  NDSpaceProofs NDSpaceMain NDFrameworks.
Import ListNotations.
Local Open Scope R_scope.

(** ** Contracts *)
(** A Python value that is a scalar at every trailing index. *)
Definition vrel (h : heap) (v : pyval) (t T : shape) (f : index -> R) : Prop :=
  match v with
  | PNum r => t = [] /\ forall k, inb T k -> f k = r
  | PArr a => hrel h a iS t T (fun k _ => f k)
  end.
(** A model output that may be None; [s = None] iff it is None at every index. *)
Definition oval (h : heap) (o : option pyval) (s : option shape) (T : shape)
  (p : index -> option R) : Prop :=
  match o, s with
  | None, None => forall k, inb T k -> p k = None
  | Some v, Some t => exists f, vrel h v t T f /\ forall k, inb T k -> p k = Some (f k)
  | _, _ => False
  end.
Record invm_ok {ST SV} (m : NDInvModel ST) (sv_at : ST -> index -> SV) (pm : InvModel SV)
  (D : R -> R -> R -> Prop) (T : shape) (s1 s2 s3 : option shape) (hs : ix6 -> option shape)
  : Prop := {
  io_gradient : forall h I1 I2 I3 f1 f2 f3 sv,
    hrel h I1 iS T T (fun k _ => f1 k) -> hrel h I2 iS T T (fun k _ => f2 k) ->
    hrel h I3 iS T T (fun k _ => f3 k) -> (forall k, inb T k -> D (f1 k) (f2 k) (f3 k)) ->
    W (hnext h) h (nim_gradient m I1 I2 I3 sv) (fun '(o1, o2, o3, svn) h' =>
      exists p1 p2 p3,
        (forall k, inb T k -> im_gradient pm (f1 k) (f2 k) (f3 k) (sv_at sv k)
                              = Ok (p1 k, p2 k, p3 k, sv_at svn k)) /\
        oval h' o1 s1 T p1 /\ oval h' o2 s2 T p2 /\ oval h' o3 s3 T p3);
  io_hessian : forall h I1 I2 I3 f1 f2 f3 sv,
    hrel h I1 iS T T (fun k _ => f1 k) -> hrel h I2 iS T T (fun k _ => f2 k) ->
    hrel h I3 iS T T (fun k _ => f3 k) -> (forall k, inb T k -> D (f1 k) (f2 k) (f3 k)) ->
    W (hnext h) h (nim_hessian m I1 I2 I3 sv) (fun o h' =>
      exists q : index -> ix6 -> option R,
        (forall k, inb T k -> im_hessian pm (f1 k) (f2 k) (f3 k) (sv_at sv k) = Ok (q k)) /\
        forall v, oval h' (o v) (hs v) T (fun k => q k v))
}.
Lemma vrel_sub h v t T f : vrel h v t T f -> sub t T.
Proof. destruct v; cbn; [intros [-> _]; apply sub_nil|intros [_ [_ [H _]]]; exact H]. Qed.
Lemma vrel_ext h h' v t T f : vrel h v t T f -> ext (hnext h) h h' -> vrel h' v t T f.
Proof. destruct v; cbn; auto. intros. eapply hrel_ext; eauto. Qed.
Lemma oval_ext h h' o s T p : oval h o s T p -> ext (hnext h) h h' -> oval h' o s T p.
Proof.
  destruct o, s; cbn; auto. intros [f [H1 H2]] X. exists f. split; auto. eapply vrel_ext; eauto.
Qed.
Lemma oval_sub h o s T p t : oval h o s T p -> s = Some t -> sub t T.
Proof. intros H ->. destruct o; cbn in H; [|tauto]. destruct H as [f [H _]]. eapply vrel_sub; eauto. Qed.
Lemma loadv_W {B} n h v t T f (k : arr -> M B) Q : vrel h v t T f ->
  (forall x, rel iS t T x (fun k _ => f k) -> W n h (k x) Q) -> W n h (bind (loadv v) k) Q.
Proof.
  intros H K. destruct v as [r|a]; cbn in H.
  - destruct H as [-> H]. apply W_ret_bind, K. eapply rel_ext; [|apply rel_num].
    intros k0 Hk i. cbv beta. symmetry. now apply H.
  - apply W_load_bind, K, H.
Qed.

Lemma RR_bsh_conv I t t' T m f g : RR I t T m f -> t = t' ->
  (forall k, inb T k -> forall i, f k i = g k i) -> RR I t' T m g.
Proof. apply RR_conv. Qed.
Lemma add_times_W n h acc x d I t s u T f w g : ixt_ok I -> (n <= hnext h)%nat ->
  hrel h acc I t T f -> vrel h x s T w -> hrel h d I u T g ->
  W n h (add_times acc x d)
    (gives h I (bsh t (bsh s u)) T (fun k i => f k i + w k * g k i)).
Proof.
  intros HI Hn Ha Hx Hd. unfold add_times. apply W_load_bind.
  eapply loadv_W; [exact Hx|]. intros y Hy. apply W_load_bind. apply W_new; [exact Hn|].
  eapply RR_conv.
  - eapply (RR_same Rplus I); [exact HI|apply RR_ok, Ha|].
    eapply (RR_scal_l Rmult I); [exact HI|apply RR_ok, Hy|apply RR_ok, Hd].
  - reflexivity.
  - intros k Hk i. reflexivity.
Qed.

(** An attribute that is set iff the model output is not None. *)
Definition odrel (h : heap) (a : option nd) (s : option shape) (u T : shape)
  (f : index -> ity i6 -> R) : Prop :=
  match a, s with
  | Some a, Some _ => hrel h a i6 u T f
  | None, None => True
  | _, _ => False
  end.
Lemma odrel_ext h h' a s u T f : odrel h a s u T f -> ext (hnext h) h h' -> odrel h' a s u T f.
Proof. destruct a, s; cbn; auto. intros. eapply hrel_ext; eauto. Qed.
Ltac carry X :=
  carry_ext X;
  match type of X with
  | ext (hnext ?h) ?h ?h' =>
      repeat match goal with
      | H : oval h _ _ _ _ |- _ => apply (fun Y => oval_ext h h' _ _ _ _ Y X) in H
      | H : odrel h _ _ _ _ _ |- _ => apply (fun Y => odrel_ext h h' _ _ _ _ _ Y X) in H
      | H : vrel h _ _ _ _ |- _ => apply (fun Y => vrel_ext h h' _ _ _ _ Y X) in H
      end
  end.

Section I.
  Context {ST SV : Type} (m : NDInvModel ST) (sv_at : ST -> index -> SV) (pm : InvModel SV)
    (D : R -> R -> R -> Prop) (T : shape) (s1 s2 s3 : option shape) (hs : ix6 -> option shape).
  Hypothesis Hm : invm_ok m sv_at pm D T s1 s2 s3 hs.

  Definition inv_D (C : Vec6) : Prop := D (Jv C X0) (Jv C X1) (Jv C X2).
  Definition inv_pg (C : Vec6) (sv : SV) : Vec6 * SV :=
    match inv_call pm (Jv C) sv with
    | Ok (g, svn) => (gradv C g, svn) | Raise _ => (vzero, sv) end.
  Definition inv_ph (C : Vec6) (sv : SV) : Mat6 :=
    match inv_call pm (Jv C) sv with
    | Ok (g, svn) =>
        match inv_callh pm (Jv C) svn with
        | Ok h => if isN (h V2) then hessv C g h else hessv_bug C g h
        | Raise _ => mzero end
    | Raise _ => mzero end.

  (** Trailing shapes of the accumulated arrays. *)
  Definition stp (t u : shape) (s : option shape) : shape :=
    match s with Some s => bsh t (bsh s u) | None => t end.
  Definition inv_tg : shape := stp (stp (stp (ones T) (ones T) s1) T s2) T s3.

  Definition inv_post (f : index -> ity i6 -> R) (sv : ST) (r : nd * ST * InvCache) (h' : heap) : Prop :=
    let '(G, svn, c) := r in
    exists p1 p2 p3,
      (forall k, inb T k -> inv_call pm (Jv (f k)) (sv_at sv k) = Ok (p1 k, p2 k, p3 k, sv_at svn k)) /\
      hrel h' (ic_I c) i6 (ones T) T (fun _ v => eye v) /\
      hrel h' (ic_I1 c) iS T T (fun k _ => Jv (f k) X0) /\
      hrel h' (ic_I2 c) iS T T (fun k _ => Jv (f k) X1) /\
      hrel h' (ic_I3 c) iS T T (fun k _ => Jv (f k) X2) /\
      oval h' (ic_dW1 c) s1 T p1 /\ oval h' (ic_dW2 c) s2 T p2 /\ oval h' (ic_dW3 c) s3 T p3 /\
      odrel h' (ic_dI1 c) s1 (ones T) T (fun k v => dJv (f k) X0 v) /\
      odrel h' (ic_dI2 c) s2 T T (fun k v => dJv (f k) X1 v) /\
      odrel h' (option_map snd (ic_dI3 c)) s3 T T (fun k v => dJv (f k) X2 v) /\
      odrel h' (option_map fst (ic_dI3 c)) s3 T T (fun k v => inv (f k) (Some (det (f k))) v) /\
      hrel h' G i6 inv_tg T (fun k v => gradv (f k) (p1 k, p2 k, p3 k) v).

  Lemma bsh_onesT : bsh T (ones T) = T.
  Proof. rewrite bsh_comm. apply bsh_ones_l; [apply sub_refl|reflexivity]. Qed.

  Lemma nd_inv_c_W h C f sv : hrel h C i6 T T f -> (forall k, inb T k -> inv_D (f k)) ->
    W (hnext h) h (nd_inv_gradient_c m C sv) (inv_post f sv).
  Proof.
    intros HC HD. unfold nd_inv_gradient_c.
    pose proof HC as [HC0 [HCs _]]. cbn [contents shp] in HCs.
    eapply W_call; [apply (nd_eye_W (hnext h) h C i6 T T _ 6 (or_introl eq_refl) (le_n _) HC)|].
    intros Iy h1 F1 V1 HIy Y1. carry Y1.
    eapply W_call; [apply (nd_trace_W (hnext h) h1 C T T _ ltac:(hlia) HC)|].
    intros I1 h2 F2 V2 HI1 Y2. carry Y2.
    apply W_load_bind.
    assert (HI1v : rel iS T T (contents h2 I1) (fun k _ => trace (f k))) by apply HI1.
    revert HI1v. generalize (contents h2 I1). intros i1 HI1v.
    eapply W_call; [apply (nd_ddot22_W (hnext h) h2 C C T T T _ _ ltac:(hlia) HC HC)|].
    rewrite bsh_refl. intros CC h3 F3 V3 HCC Y3. carry Y3.
    apply W_load_bind.
    eapply W_call.
    { apply (W_new (hnext h) h3 _ iS T T (fun k _ => Jv (f k) X1)); [hlia|].
      eapply RR_conv.
      - eapply (RR_same Rdiv iS); [exact iS_ok| |apply RR_num].
        eapply (RR_same Rminus iS); [exact iS_ok| |apply RR_ok, HCC].
        eapply RR_map, RR_ok, HI1v.
      - bshn. reflexivity.
      - intros k Hk []. reflexivity. }
    intros I2 h4 F4 V4 HI2 Y4. carry Y4.
    eapply W_call; [apply (nd_det_W (hnext h) h4 C T T _ ltac:(hlia) HC)|].
    intros I3 h5 F5 V5 HI3 Y5. carry Y5.
    eapply W_bind.
    { eapply W_conseq.
      - apply (io_gradient _ _ _ _ _ _ _ _ _ Hm h5 I1 I2 I3 (fun k => Jv (f k) X0) (fun k => Jv (f k) X1)
          (fun k => Jv (f k) X2) sv HI1 HI2 HI3 HD).
      - hlia.
      - intros r h6 X Y. exact (conj X Y). }
    cbv beta. intros [[[dW1 dW2] dW3] svn] h6 _ [Y6 [p1 [p2 [p3 [Hp [H1 [H2 H3]]]]]]]. carry Y6.
    eapply W_call.
    { apply (W_alloc (hnext h) h6 (zeros6 C) i6 (ones T) T (fun _ _ => 0)); [hlia|].
      unfold zeros6. rewrite HCs. cbn [skipn idim i6 app].
      split; [reflexivity|]. split; [apply sub_ones|]. split; [right; apply repeat_length|]. reflexivity. }
    intros G0 h7 F7 V7 HG0 Y7. carry Y7.
    (* dWdI1 *)
    eapply (W_bind _ h7 _ _ (fun '(G, d1) h8 => ext (hnext h7) h7 h8 /\
       hrel h8 G i6 (stp (ones T) (ones T) s1) T (fun k v => val (p1 k) * dJv (f k) X0 v) /\
       odrel h8 d1 s1 (ones T) T (fun k v => dJv (f k) X0 v))).
    { destruct dW1 as [w|], s1 as [t1|]; try (exfalso; exact H1).
      - destruct H1 as [w1 [H1 E1]].
        eapply W_call; [apply (add_times_W (hnext h) h7 G0 w Iy i6 _ _ _ T _ _ _ i6_ok ltac:(hlia) HG0 H1 HIy)|].
        intros G h8 F8 V8 HG Y8. carry Y8. apply W_ret. split; [exact Y8|]. split.
        + eapply hrel_fun; [exact HG|]. intros k Hk v. cbv beta. rewrite (E1 k Hk). cbn [val dJv]. ring.
        + exact HIy.
      - apply W_ret. split; [apply ext_refl|]. split; [|exact I].
        eapply hrel_fun; [exact HG0|]. intros k Hk v. cbn in H1. rewrite (H1 k Hk). cbn [val]. ring. }
    intros [G1 d1] h8 _ [Y8 [HG1 Hd1]]. carry Y8.
    (* dWdI2 *)
    eapply (W_bind _ h8 _ _ (fun '(G, d2) h9 => ext (hnext h8) h8 h9 /\
       hrel h9 G i6 (stp (stp (ones T) (ones T) s1) T s2) T
         (fun k v => val (p1 k) * dJv (f k) X0 v + val (p2 k) * dJv (f k) X1 v) /\
       odrel h9 d2 s2 T T (fun k v => dJv (f k) X1 v))).
    { destruct dW2 as [w|], s2 as [t2|]; try (exfalso; exact H2).
      - destruct H2 as [w2 [H2 E2]]. do 3 apply W_load_bind.
        eapply (W_conseq _ (hnext h8) h8 _ (fun '(G, d2) h9 =>
           hrel h9 G i6 _ T (fun k v => val (p1 k) * dJv (f k) X0 v + val (p2 k) * dJv (f k) X1 v) /\
           odrel h9 d2 (Some t2) T T (fun k v => dJv (f k) X1 v)));
           [|hlia|intros [G d2] h9 X Y; exact (conj X Y)].
        eapply W_call.
        { apply (W_new (hnext h8) h8 _ i6 T T (fun k v => dJv (f k) X1 v)); [hlia|].
          eapply RR_conv.
          - eapply (RR_same Rminus i6); [exact i6_ok| |apply RR_ok, HC].
            eapply (RR_scal_l Rmult i6); [exact i6_ok|apply RR_ok, HI1|apply RR_ok, HIy].
          - rewrite bsh_onesT. bshn. reflexivity.
          - intros k Hk v. reflexivity. }
        intros d2 h9 F9 V9 Hd2 Y9. carry Y9.
        eapply W_call; [apply (add_times_W (hnext h8) h9 G1 w d2 i6 _ _ _ T _ _ _ i6_ok ltac:(hlia) HG1 H2 Hd2)|].
        intros G h10 F10 V10 HG Y10. carry Y10. apply W_ret. split.
        + eapply hrel_fun; [exact HG|]. intros k Hk v. cbv beta. rewrite (E2 k Hk). reflexivity.
        + exact Hd2.
      - apply W_ret. split; [apply ext_refl|]. split; [|exact I].
        eapply hrel_fun; [exact HG1|]. intros k Hk v. cbn in H2. rewrite (H2 k Hk). cbn [val]. ring. }
    intros [G2 d2] h9 _ [Y9 [HG2 Hd2]]. carry Y9.
    (* dWdI3 *)
    eapply (W_bind _ h9 _ _ (fun '(G, d3) h10 => ext (hnext h9) h9 h10 /\
       hrel h10 G i6 inv_tg T
         (fun k v => val (p1 k) * dJv (f k) X0 v + val (p2 k) * dJv (f k) X1 v + val (p3 k) * dJv (f k) X2 v) /\
       odrel h10 (option_map snd d3) s3 T T (fun k v => dJv (f k) X2 v) /\
       odrel h10 (option_map fst d3) s3 T T (fun k v => inv (f k) (Some (det (f k))) v))).
    { unfold inv_tg. destruct dW3 as [w|], s3 as [t3|]; try (exfalso; exact H3).
      - destruct H3 as [w3 [H3 E3]].
        eapply (W_conseq _ (hnext h9) h9 _ (fun '(G, d3) h10 =>
           hrel h10 G i6 _ T (fun k v => val (p1 k) * dJv (f k) X0 v + val (p2 k) * dJv (f k) X1 v + val (p3 k) * dJv (f k) X2 v) /\
           odrel h10 (option_map snd d3) (Some t3) T T (fun k v => dJv (f k) X2 v) /\
           odrel h10 (option_map fst d3) (Some t3) T T (fun k v => inv (f k) (Some (det (f k))) v)));
           [|hlia|intros [G d3] h10 X Y; exact (conj X Y)].
        eapply W_call.
        { apply (nd_inv_W (hnext h9) h9 C (Some I3) T T _ (fun k => det (f k)) ltac:(hlia) HC).
          intros a [= <-]. exists T. split; [apply sub_refl|exact HI3]. }
        intros invC h10 F10 V10 HiC Y10. carry Y10. do 2 apply W_load_bind.
        eapply W_call.
        { apply (W_new (hnext h9) h10 _ i6 T T (fun k v => dJv (f k) X2 v)); [hlia|].
          eapply RR_conv.
          - eapply (RR_scal_l Rmult i6); [exact i6_ok|apply RR_ok, HI3|apply RR_ok, HiC].
          - bshn. reflexivity.
          - intros k Hk v. reflexivity. }
        intros d3 h11 F11 V11 Hd3 Y11. carry Y11.
        eapply W_call; [apply (add_times_W (hnext h9) h11 G2 w d3 i6 _ _ _ T _ _ _ i6_ok ltac:(hlia) HG2 H3 Hd3)|].
        intros G h12 F12 V12 HG Y12. carry Y12. apply W_ret. split; [|split].
        + eapply hrel_fun; [exact HG|]. intros k Hk v. cbv beta. rewrite (E3 k Hk). reflexivity.
        + exact Hd3.
        + exact HiC.
      - apply W_ret. split; [apply ext_refl|]. split; [|split; exact I].
        eapply hrel_fun; [exact HG2|]. intros k Hk v. cbn in H3. rewrite (H3 k Hk). cbn [val]. ring. }
    intros [G3 d3] h10 _ [Y10 [HG3 [Hd3 Hi3]]]. carry Y10.
    apply W_ret. exists p1, p2, p3. cbn [ic_I ic_I1 ic_I2 ic_I3 ic_dW1 ic_dW2 ic_dW3 ic_dI1 ic_dI2 ic_dI3].
    repeat (split; [assumption|]).
    eapply hrel_fun; [exact HG3|]. intros k Hk v. unfold gradv, sum3. cbn [o3 fst snd]. reflexivity.
  Qed.

  Lemma nd_invariants_g : mat_g_ok (nd_invariants m) sv_at inv_pg inv_D T inv_tg.
  Proof.
    intros h C f sv HC HD. cbn [ndm_gradient nd_invariants]. unfold nd_inv_gradient.
    eapply W_bind; [apply (nd_inv_c_W h C f sv HC HD)|].
    intros [[G svn] c] h1 _ [p1 [p2 [p3 [Hp [_ [_ [_ [_ [_ [_ [_ [_ [_ [_ [_ HG]]]]]]]]]]]]]]].
    apply W_ret. cbn [fst snd]. split.
    - eapply hrel_fun; [exact HG|]. intros k Hk v. unfold inv_pg. rewrite (Hp k Hk). reflexivity.
    - intros k Hk. unfold inv_pg. rewrite (Hp k Hk). reflexivity.
  Qed.

  (** The None pattern with which [hessian] does not raise. *)
  Definition pat_ok : Prop :=
    (hs V0 <> None -> s1 <> None) /\ (hs V1 <> None -> s2 <> None) /\
    (hs V2 <> None -> s2 <> None /\ hs V1 <> None) /\
    (hs V3 <> None -> s1 <> None /\ s2 <> None) /\
    (hs V4 <> None -> s2 <> None /\ s3 <> None) /\
    (hs V5 <> None -> s1 <> None /\ s3 <> None).
  Definition inv_th : shape :=
    let t := stp (stp (ones T) (ones T) s2) T s3 in
    let t := stp (stp t (ones T) (hs V0)) T (hs V1) in
    let t := match hs V2 with Some _ => stp t T (hs V1) | None => t end in
    stp (stp (stp t T (hs V3)) T (hs V4)) T (hs V5).

  Lemma add_dya_W n h acc x a b sx sa sb t u T0 f p fa fb : (n <= hnext h)%nat ->
    hrel h acc i66 t T0 f -> oval h x sx T0 p -> odrel h a sa u T0 fa -> odrel h b sb u T0 fb ->
    sx <> None -> sa <> None -> sb <> None ->
    W n h (add_dya acc x a b)
      (gives h i66 (stp t u sx) T0 (fun k '(v, w) => f k (v, w) + val (p k) * dya (fa k) (fb k) v w)).
  Proof.
    intros Hn Ha Hx H1 H2 N1 N2 N3.
    destruct x as [x|], sx as [sx|]; try (exfalso; (exact Hx || congruence)).
    destruct a as [a|], sa as [sa|]; try (exfalso; (exact H1 || congruence)).
    destruct b as [b|], sb as [sb|]; try (exfalso; (exact H2 || congruence)).
    destruct Hx as [w [Hx Ex]]. cbn in H1, H2.
    unfold add_dya. apply W_ret_bind, W_ret_bind.
    apply W_gives; [exact Hn|].
    eapply W_call; [apply (nd_dya_W (hnext h) h a b _ _ T0 _ _ (le_n _) H1 H2)|].
    intros D0 h1 F1 V1 HD Y1. carry Y1.
    eapply W_conseq; [apply (add_times_W (hnext h) h1 acc x D0 i66 _ _ _ T0 _ _ _ i66_ok ltac:(hlia) Ha Hx HD)|apply le_n|].
    intros r h2 _ G. cbn [stp]. 
    destruct (gives_later h h1 _ _ _ _ _ _ Y1 G) as [G1 [G2 [G3 _]]]. split; [exact G1|]. split; [exact G2|].
    rewrite bsh_refl in G3.
    eapply hrel_fun; [exact G3|]. intros k Hk [v0 w0]. cbv beta. rewrite (Ex k Hk). reflexivity.
  Qed.
  Lemma add_dya2_W n h acc x a b sx sa sb t u u' T0 f p fa fb : (n <= hnext h)%nat ->
    hrel h acc i66 t T0 f -> oval h x sx T0 p -> odrel h a sa u T0 fa -> odrel h b sb u' T0 fb ->
    sx <> None -> sa <> None -> sb <> None -> sub u u' -> 
    W n h (add_dya2 acc x a b)
      (gives h i66 (stp t u' sx) T0 (fun k '(v, w) => f k (v, w) +
         val (p k) * (dya (fa k) (fb k) v w + dya (fb k) (fa k) v w))).
  Proof.
    intros Hn Ha Hx H1 H2 N1 N2 N3 Hu.
    destruct x as [x|], sx as [sx|]; try (exfalso; (exact Hx || congruence)).
    destruct a as [a|], sa as [sa|]; try (exfalso; (exact H1 || congruence)).
    destruct b as [b|], sb as [sb|]; try (exfalso; (exact H2 || congruence)).
    destruct Hx as [w [Hx Ex]]. cbn in H1, H2.
    unfold add_dya2. apply W_ret_bind, W_ret_bind.
    apply W_gives; [exact Hn|].
    eapply W_call; [apply (nd_dya_W (hnext h) h a b _ _ T0 _ _ (le_n _) H1 H2)|].
    intros D0 h1 F1 V1 HD Y1. carry Y1.
    eapply W_call; [apply (nd_dya_W (hnext h) h1 b a _ _ T0 _ _ ltac:(hlia) H2 H1)|].
    intros D1 h2 F2 V2 HD1 Y2. carry Y2.
    eapply W_call; [apply (np_bin_W Rplus (hnext h) h2 D0 D1 i66 _ _ T0 _ _ i66_ok ltac:(hlia) HD HD1)|].
    intros D2 h3 F3 V3 HD2 Y3. carry Y3.
    eapply W_conseq; [apply (add_times_W (hnext h) h3 acc x D2 i66 _ _ _ T0 _ _ _ i66_ok ltac:(hlia) Ha Hx HD2)|apply le_n|].
    intros r h4 _ G. cbn [stp].
    assert (Y : ext (hnext h) h h3).
    { eapply ext_trans; [exact Y1|]. eapply ext_trans; [eapply ext_le; [|exact Y2]; hlia|eapply ext_le; [|exact Y3]; hlia]. }
    destruct (gives_later h h3 _ _ _ _ _ _ Y G) as [G1 [G2 [G3 _]]]. split; [exact G1|]. split; [exact G2|].
    rewrite (bsh_comm u' u), bsh_refl in G3. rewrite (bsh_sub_l u u' Hu) in G3.
    eapply hrel_fun; [exact G3|]. intros k Hk [v0 w0]. cbv beta. rewrite (Ex k Hk). reflexivity.
  Qed.

  (** One conditional statement of [hessian]. *)
  Lemma step_W n h (o : option pyval) (A : pyval -> M nd) H s t t' (f : index -> ity i66 -> R) p g :
    (n <= hnext h)%nat -> oval h o s T p -> hrel h H i66 t T f ->
    (forall x, o = Some x -> s <> None ->
       W n h (A x) (gives h i66 t' T (fun k '(v, w) => f k (v, w) + g k v w))) ->
    (s = None -> forall k, inb T k -> forall v w, g k v w = 0) ->
    W n h (match o with Some x => A x | None => ret H end)
      (fun r h' => ext (hnext h) h h' /\
         hrel h' r i66 (match s with Some _ => t' | None => t end) T (fun k '(v, w) => f k (v, w) + g k v w)).
  Proof.
    intros Hn Ho HH HA Hz. destruct o as [x|], s as [s|]; try (exfalso; exact Ho).
    - eapply W_conseq; [apply (HA x eq_refl); discriminate|apply le_n|]. intros r h' _ [_ [_ [G1 G2]]]. exact (conj G2 G1).
    - apply W_ret. split; [apply ext_refl|]. eapply hrel_fun; [exact HH|].
      intros k Hk [v w]. rewrite (Hz eq_refl k Hk). ring.
  Qed.
  Lemma oval_None h o T0 p : oval h o None T0 p -> forall k, inb T0 k -> val (p k) = 0.
  Proof. destruct o; cbn; [tauto|]. intros H k Hk. now rewrite (H k Hk). Qed.
  Lemma sub_onesT : sub (ones T) T. Proof. apply sub_ones. Qed.

  Lemma nd_invariants_h : pat_ok -> mat_h_ok (nd_invariants m) sv_at inv_ph inv_D T inv_th.
  Proof.
    intros [PA0 [PA1 [PA2 [PA3 [PA4 PA5]]]]] h C f sv HC HD. cbn [ndm_hessian nd_invariants]. unfold nd_inv_hessian.
    eapply W_bind.
    { eapply W_conseq; [apply (nd_inv_c_W h C f sv HC HD)|apply le_n|]. intros r h1 X Y. exact (conj X Y). }
    cbv beta. intros [[G svn] c] h1 _ [Y1 [p1 [p2 [p3 [Hp [HI [HI1 [HI2 [HI3 [HW1 [HW2 [HW3 [Hd1 [Hd2 [Hd3 [Hi3 _]]]]]]]]]]]]]]]].
    pose proof HC as [HC0 [HCs _]]. cbn [contents shp] in HCs.
    carry Y1.
    eapply W_bind.
    { eapply W_conseq.
      - apply (io_hessian _ _ _ _ _ _ _ _ _ Hm h1 _ _ _ (fun k => Jv (f k) X0) (fun k => Jv (f k) X1)
          (fun k => Jv (f k) X2) svn HI1 HI2 HI3 HD).
      - hlia.
      - intros r h2 X Y. exact (conj X Y). }
    cbv beta. intros q h2 _ [Y2 [r [Hr Hq]]]. carry Y2.
    pose proof (Hq V0) as Q0. pose proof (Hq V1) as Q1. pose proof (Hq V2) as Q2.
    pose proof (Hq V3) as Q3. pose proof (Hq V4) as Q4. pose proof (Hq V5) as Q5. clear Hq.
    eapply W_call.
    { apply (W_alloc (hnext h) h2 (zeros66 C) i66 (ones T) T (fun _ _ => 0)); [hlia|].
      unfold zeros66. rewrite HCs. cbn [skipn idim i6 app].
      split; [reflexivity|]. split; [apply sub_ones|]. split; [right; apply repeat_length|]. reflexivity. }
    intros H0 h3 F3 V3' HH0 Y3. carry Y3. cbv zeta.
    (* dWdI2 *)
    set (g2 := fun k v w => val (p2 k) * d2Jv (f k) X1 v w).
    eapply W_bind.
    { apply (step_W (hnext h) h3 (ic_dW2 c) _ H0 s2 (ones T) (stp (ones T) (ones T) s2) _ p2 g2 ltac:(hlia) HW2 HH0).
      - intros w2 E N2. rewrite E in HW2. destruct s2 as [t2|]; [|exfalso; congruence].
        destruct HW2 as [fw [HW2 E2]].
        apply W_gives; [hlia|].
        eapply W_call; [apply (nd_dya_W (hnext h3) h3 _ _ _ _ T _ _ (le_n _) HI HI)|].
        rewrite bsh_refl. intros D0 h4 F4 V4' HD0 Y4. carry Y4.
        eapply W_call; [apply (nd_cdya_W (hnext h3) h4 true _ _ _ _ T _ _ ltac:(hlia) HI HI)|].
        rewrite bsh_refl. intros E0 h5 F5 V5' HE0 Y5. carry Y5.
        eapply W_call; [apply (np_bin_W Rminus (hnext h3) h5 D0 E0 i66 _ _ T _ _ i66_ok ltac:(hlia) HD0 HE0)|].
        rewrite bsh_refl. intros d h6 F6 V6 Hd Y6. carry Y6.
        assert (Y : ext (hnext h3) h3 h6).
        { eapply ext_trans; [exact Y4|]. eapply ext_trans; [eapply ext_le; [|exact Y5]; hlia|eapply ext_le; [|exact Y6]; hlia]. }
        eapply W_conseq; [apply (add_times_W (hnext h3) h6 H0 w2 d i66 _ _ _ T _ _ _ i66_ok ltac:(hlia) HH0 HW2 Hd)|apply le_n|].
        intros r0 h7 _ G0. destruct (gives_later h3 h6 _ _ _ _ _ _ Y G0) as [G1 [G2 [G3 _]]].
        split; [exact G1|]. split; [exact G2|]. cbn [stp].
        eapply hrel_fun; [exact G3|]. intros k Hk [v w]. unfold g2. rewrite (E2 k Hk). reflexivity.
      - intros Es k Hk v w. rewrite Es in HW2. unfold g2. rewrite (oval_None _ _ _ _ HW2 k Hk). ring. }
    cbv beta. intros H1 h4 _ [Y4 HH1]. carry Y4.
    replace (match s2 with Some _ => stp (ones T) (ones T) s2 | None => ones T end)
      with (stp (ones T) (ones T) s2) in HH1 by (destruct s2; reflexivity).
    (* dWdI3 *)
    set (g3 := fun k v w => val (p3 k) * d2Jv (f k) X2 v w).
    eapply W_bind.
    { apply (step_W (hnext h) h4 (ic_dW3 c) _ H1 s3 _ (stp (stp (ones T) (ones T) s2) T s3) _ p3 g3 ltac:(hlia) HW3 HH1).
      - intros w3 E N3. rewrite E in HW3. destruct s3 as [t3|]; [|exfalso; congruence].
        destruct HW3 as [fw [HW3 E3]].
        destruct (ic_dI3 c) as [[invC d3]|]; [|exfalso; exact Hi3]. cbn in Hi3.
        apply W_ret_bind. apply W_gives; [hlia|].
        eapply W_call; [apply (nd_dya_W (hnext h4) h4 _ _ _ _ T _ _ (le_n _) Hi3 Hi3)|].
        rewrite bsh_refl. intros D0 h5 F5 V5' HD0 Y5. carry Y5.
        eapply W_call; [apply (nd_cdya_W (hnext h4) h5 true _ _ _ _ T _ _ ltac:(hlia) Hi3 Hi3)|].
        rewrite bsh_refl. intros E0 h6 F6 V6 HE0 Y6. carry Y6.
        do 3 apply W_load_bind.
        eapply W_call.
        { apply (W_new (hnext h4) h6 _ i66 T T (fun k '(v, w) => d2Jv (f k) X2 v w)); [hlia|].
          eapply RR_conv.
          - eapply (RR_scal_l Rmult i66); [exact i66_ok|apply RR_ok, HI3|].
            eapply (RR_same Rminus i66); [exact i66_ok|apply RR_ok, HD0|apply RR_ok, HE0].
          - bshn. reflexivity.
          - intros k Hk [v w]. reflexivity. }
        intros d h7 F7 V7 Hd Y7. carry Y7.
        assert (Y : ext (hnext h4) h4 h7).
        { eapply ext_trans; [exact Y5|]. eapply ext_trans; [eapply ext_le; [|exact Y6]; hlia|eapply ext_le; [|exact Y7]; hlia]. }
        eapply W_conseq; [apply (add_times_W (hnext h4) h7 H1 w3 d i66 _ _ _ T _ _ _ i66_ok ltac:(hlia) HH1 HW3 Hd)|apply le_n|].
        intros r0 h8 _ G0. destruct (gives_later h4 h7 _ _ _ _ _ _ Y G0) as [G1 [G2 [G3 _]]].
        split; [exact G1|]. split; [exact G2|]. cbn [stp].
        eapply hrel_fun; [exact G3|]. intros k Hk [v w]. unfold g3. rewrite (E3 k Hk). reflexivity.
      - intros Es k Hk v w. rewrite Es in HW3. unfold g3. rewrite (oval_None _ _ _ _ HW3 k Hk). ring. }
    cbv beta. intros H2 h5 _ [Y5 HH2]. carry Y5.
    replace (match s3 with Some _ => stp (stp (ones T) (ones T) s2) T s3 | None => stp (ones T) (ones T) s2 end)
      with (stp (stp (ones T) (ones T) s2) T s3) in HH2 by (destruct s3; reflexivity).
    set (t2 := stp (stp (ones T) (ones T) s2) T s3) in *.
    (* 11 *)
    eapply W_bind.
    { apply (step_W (hnext h) h5 (q V0) _ H2 (hs V0) t2 (stp t2 (ones T) (hs V0)) _ (fun k => r k V0)
        (fun k v w => val (r k V0) * dya (dJv (f k) X0) (dJv (f k) X0) v w) ltac:(hlia) Q0 HH2).
      - intros x E N. eapply W_conv; [apply (add_dya_W (hnext h) h5 H2 (q V0) _ _ (hs V0) s1 s1 t2 (ones T) T _ _ _ _ ltac:(hlia) HH2 Q0 Hd1 Hd1 N (PA0 N) (PA0 N))|reflexivity|].
        intros k Hk [v w]. reflexivity.
      - intros Es k Hk v w. rewrite Es in Q0. rewrite (oval_None _ _ _ _ Q0 k Hk). ring. }
    cbv beta. intros H3 h6 _ [Y6 HH3]. carry Y6.
    replace (match hs V0 with Some _ => stp t2 (ones T) (hs V0) | None => t2 end)
      with (stp t2 (ones T) (hs V0)) in HH3 by (destruct (hs V0); reflexivity).
    set (t3 := stp t2 (ones T) (hs V0)) in *.
    (* 22 *)
    eapply W_bind.
    { apply (step_W (hnext h) h6 (q V1) _ H3 (hs V1) t3 (stp t3 T (hs V1)) _ (fun k => r k V1)
        (fun k v w => val (r k V1) * dya (dJv (f k) X1) (dJv (f k) X1) v w) ltac:(hlia) Q1 HH3).
      - intros x E N. eapply W_conv; [apply (add_dya_W (hnext h) h6 H3 (q V1) _ _ (hs V1) s2 s2 t3 T T _ _ _ _ ltac:(hlia) HH3 Q1 Hd2 Hd2 N (PA1 N) (PA1 N))|reflexivity|].
        intros k Hk [v w]. reflexivity.
      - intros Es k Hk v w. rewrite Es in Q1. rewrite (oval_None _ _ _ _ Q1 k Hk). ring. }
    cbv beta. intros H4 h7 _ [Y7 HH4]. carry Y7.
    replace (match hs V1 with Some _ => stp t3 T (hs V1) | None => t3 end)
      with (stp t3 T (hs V1)) in HH4 by (destruct (hs V1); reflexivity).
    set (t4 := stp t3 T (hs V1)) in *.
    (* 33 *)
    eapply W_bind.
    { apply (step_W (hnext h) h7 (q V2) _ H4 (hs V2) t4 (stp t4 T (hs V1)) _ (fun k => r k V2)
        (fun k v w => (if isN (r k V2) then 0 else val (r k V1)) * dya (dJv (f k) X1) (dJv (f k) X1) v w) ltac:(hlia) Q2 HH4).
      - intros x E N. destruct (PA2 N) as [N2 N1]. eapply W_conv; [apply (add_dya_W (hnext h) h7 H4 (q V1) _ _ (hs V1) s2 s2 t4 T T _ _ _ _ ltac:(hlia) HH4 Q1 Hd2 Hd2 N1 N2 N2)|reflexivity|].
        intros k Hk [v w]. cbv beta. replace (isN (r k V2)) with false; [reflexivity|].
        destruct (q V2), (hs V2); try (exfalso; (exact Q2 || congruence)). destruct Q2 as [z [_ Ez]]. now rewrite (Ez k Hk).
      - intros Es k Hk v w. rewrite Es in Q2. destruct (q V2); [exfalso; exact Q2|]. cbn in Q2. rewrite (Q2 k Hk). cbn [isN]. ring. }
    cbv beta. intros H5 h8 _ [Y8 HH5]. carry Y8.
    set (t5 := match hs V2 with Some _ => stp t4 T (hs V1) | None => t4 end) in *.
    (* 12 *)
    eapply W_bind.
    { apply (step_W (hnext h) h8 (q V3) _ H5 (hs V3) t5 (stp t5 T (hs V3)) _ (fun k => r k V3)
        (fun k v w => val (r k V3) * (dya (dJv (f k) X0) (dJv (f k) X1) v w + dya (dJv (f k) X1) (dJv (f k) X0) v w)) ltac:(hlia) Q3 HH5).
      - intros x E N. destruct (PA3 N) as [N1 N2]. eapply W_conv; [apply (add_dya2_W (hnext h) h8 H5 (q V3) _ _ (hs V3) s1 s2 t5 (ones T) T T _ _ _ _ ltac:(hlia) HH5 Q3 Hd1 Hd2 N N1 N2 sub_onesT)|reflexivity|].
        intros k Hk [v w]. reflexivity.
      - intros Es k Hk v w. rewrite Es in Q3. rewrite (oval_None _ _ _ _ Q3 k Hk). ring. }
    cbv beta. intros H6 h9 _ [Y9 HH6]. carry Y9.
    replace (match hs V3 with Some _ => stp t5 T (hs V3) | None => t5 end)
      with (stp t5 T (hs V3)) in HH6 by (destruct (hs V3); reflexivity).
    set (t6 := stp t5 T (hs V3)) in *.
    (* 23 *)
    eapply W_bind.
    { apply (step_W (hnext h) h9 (q V4) _ H6 (hs V4) t6 (stp t6 T (hs V4)) _ (fun k => r k V4)
        (fun k v w => val (r k V4) * (dya (dJv (f k) X1) (dJv (f k) X2) v w + dya (dJv (f k) X2) (dJv (f k) X1) v w)) ltac:(hlia) Q4 HH6).
      - intros x E N. destruct (PA4 N) as [N1 N2]. eapply W_conv; [apply (add_dya2_W (hnext h) h9 H6 (q V4) _ _ (hs V4) s2 s3 t6 T T T _ _ _ _ ltac:(hlia) HH6 Q4 Hd2 Hd3 N N1 N2 (sub_refl T))|reflexivity|].
        intros k Hk [v w]. reflexivity.
      - intros Es k Hk v w. rewrite Es in Q4. rewrite (oval_None _ _ _ _ Q4 k Hk). ring. }
    cbv beta. intros H7 h10 _ [Y10 HH7]. carry Y10.
    replace (match hs V4 with Some _ => stp t6 T (hs V4) | None => t6 end)
      with (stp t6 T (hs V4)) in HH7 by (destruct (hs V4); reflexivity).
    set (t7 := stp t6 T (hs V4)) in *.
    (* 13 *)
    eapply W_conseq.
    { apply (step_W (hnext h) h10 (q V5) _ H7 (hs V5) t7 (stp t7 T (hs V5)) _ (fun k => r k V5)
        (fun k v w => val (r k V5) * (dya (dJv (f k) X0) (dJv (f k) X2) v w + dya (dJv (f k) X2) (dJv (f k) X0) v w)) ltac:(hlia) Q5 HH7).
      - intros x E N. destruct (PA5 N) as [N1 N2]. eapply W_conv; [apply (add_dya2_W (hnext h) h10 H7 (q V5) _ _ (hs V5) s1 s3 t7 (ones T) T T _ _ _ _ ltac:(hlia) HH7 Q5 Hd1 Hd3 N N1 N2 sub_onesT)|reflexivity|].
        intros k Hk [v w]. reflexivity.
      - intros Es k Hk v w. rewrite Es in Q5. rewrite (oval_None _ _ _ _ Q5 k Hk). ring. }
    { apply le_n. }
    cbv beta. intros H8 h11 _ [Y11 HH8].
    replace (match hs V5 with Some _ => stp t7 T (hs V5) | None => t7 end)
      with inv_th in HH8 by (unfold inv_th; destruct (hs V5); reflexivity).
    eapply hrel_fun; [exact HH8|]. intros k Hk [v w]. unfold inv_ph. rewrite (Hp k Hk).
    change (inv_callh pm (Jv (f k)) (sv_at svn k)) with (im_hessian pm (Jv (f k) X0) (Jv (f k) X1) (Jv (f k) X2) (sv_at svn k)).
    rewrite (Hr k Hk). unfold g2, g3.
    destruct (isN (r k V2)) eqn:EN; unfold hessv_bug, hessv, sum3; cbn [pos o3 fst snd d2Jv]; unfold mzero.
    - destruct (r k V2); [discriminate|]. cbn [val]. ring.
    - ring.
  Qed.
End I.
