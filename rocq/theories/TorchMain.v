(** * TorchModel.gradient and TorchModel.hessian (proofs). *)
From Coq Require Import Reals Lra Lia List Bool Arith FunctionalExtensionality.
From Coquelicot Require Import Coquelicot.
From Verif Require Import Tensor Py Models Frameworks Spaces Spec Calc Torch TorchProofs TorchSweep.
Import ListNotations.
Local Open Scope R_scope.
Notation V := Torch.V.

Lemma execd_app x t ext root j : wf t -> (root < length t)%nat -> execd x (t ++ ext) root j <-> execd x t root j.
Proof.
  intros W L. unfold execd. rewrite uses_app by auto. split; intros (U & Rj & L3); repeat split; auto;
    pose proof (uses_le _ _ _ W U); rewrite reach_app in *; auto; lia.
Qed.
Lemma conflict_app x t ext root fl n : wf t -> (root < length t)%nat -> conflict x (t ++ ext) root fl n <-> conflict x t root fl n.
Proof.
  intros W L. unfold conflict. split; intros (j & o & Lj & EX & E & S' & F); exists j, o.
  - rewrite execd_app in EX by auto. pose proof (uses_le _ _ _ W (proj1 EX)).
    rewrite nth_error_app1 in E by lia. repeat split; auto; apply EX.
  - pose proof (uses_le _ _ _ W (proj1 EX)). rewrite nth_error_app1 by lia. split; [auto|]. split; [rewrite execd_app by auto; exact EX|auto].
Qed.
Lemma no_exec x t root j : wf t -> (root < length t)%nat -> reach x t root = false -> ~ execd x t root j.
Proof.
  intros W L F (U & Rj & _). pose proof (uses_le _ _ _ W U).
  apply reach_uses in Rj; [|auto|lia]. assert (H1 : reach x t root = true) by (apply reach_uses; auto; eapply uses_trans; eauto). congruence.
Qed.

Definition grad_post (t : tape) (fl : nat -> bool) (root : nat) (x : ix3) (retain : bool) (h : option nat) (t' : tape) (fl' : nat -> bool) : Prop :=
  ~ conflict x t root fl (S root) /\ (exists ext, t' = t ++ ext) /\ wf t' /\ (h = None <-> reach x t root = false) /\
  (forall X, regular t X -> regular t' X) /\
  (forall g, h = Some g -> (g < length t')%nat /\
     (forall X, regular t X -> V X t' g = D X (unit3 x) t root) /\
     (forall y, (forall j o, execd x t root j -> nth_error t j = Some o -> saves o = true -> reach y t j = false) -> reach y t' g = false)) /\
  (forall i, fl' i = true <-> fl i = true \/ (retain = false /\ execd x t root i)).

Lemma unreached_post t fl root x retain : wf t -> (root < length t)%nat -> reach x t root = false -> grad_post t fl root x retain None t fl.
Proof.
  intros W L F. pose proof (fun j => no_exec x t root j W L F) as NE.
  split; [intros (j & o & _ & EX & _); exact (NE j EX)|]. split; [exists []; now rewrite app_nil_r|].
  split; [auto|]. split; [tauto|]. split; [auto|]. split; [discriminate|].
  intros i. split; [auto|]. intros [?|(_ & EX)]; [auto|]. now apply NE in EX.
Qed.
Lemma grad_spec t fl root x retain : wf t -> (root < length t)%nat ->
  match autograd_grad t fl root x retain with
  | Raise e => e = RuntimeError /\ (requires_grad t root = false \/ conflict x t root fl (S root))
  | Ok (h, t', fl') => requires_grad t root = true /\ grad_post t fl root x retain h t' fl'
  end.
Proof.
  intros W L. destruct (requires_grad t root) eqn:RG.
  2:{ unfold autograd_grad. rewrite RG. auto. }
  destruct (reach x t root) eqn:RX.
  2:{ unfold autograd_grad. rewrite RG, RX. split; auto. now apply unreached_post. }
  pose proof (autograd_spec t fl root x retain W L RG RX) as H.
  destruct (autograd_grad t fl root x retain) as [[[h t'] fl']|e]; [|tauto].
  destruct H as (H1 & g & -> & H2 & H3 & H4 & H5 & H6 & H7).
  split; [auto|]. split; [auto|]. split; [auto|]. split; [auto|]. split; [split; congruence|].
  split; [intros X Hr; now apply H5|]. split; [|auto].
  intros g' E; injection E as <-. split; [auto|]. split; [intros X Hr; now apply H5|auto].
Qed.

Lemma wf_energy e : well_formed e -> wf (e_tape e).
Proof.
  intros (_ & H). unfold e_tape in *. split.
  - intros i o k E K. destruct i as [|[|[|i]]]; cbn in E.
    1,2,3: injection E as <-; destruct K as [K|K]; discriminate K.
    destruct (H i o E) as [_ B]. specialize (B k K). lia.
  - intros []; reflexivity.
  - intros i x E. destruct i as [|[|[|i]]]; cbn in E; try (injection E as <-; reflexivity).
    destruct (H i _ E) as [N _]. exfalso; eapply N; reflexivity.
Qed.
Lemma mentions_reach e x : well_formed e -> mentions e x <-> reach x (e_tape e) (e_root e) = true.
Proof. intros WF. unfold mentions. symmetry. apply reach_uses; [now apply wf_energy|apply WF]. Qed.

Definition ggrad (g : opt3) k := o3 g k.
Definition sel (g1 g2 g3 : option nat) (x : ix3) : option nat := match x with X0 => g1 | X1 => g2 | X2 => g3 end.
Definition vals (X : Vec3) (t : tape) (g1 g2 g3 : option nat) : opt3 := (option_map (V X t) g1, option_map (V X t) g2, option_map (V X t) g3).
Lemma o3_vals X t g1 g2 g3 x : o3 (vals X t g1 g2 g3) x = option_map (V X t) (sel g1 g2 g3 x).
Proof. now destruct x. Qed.

Section GRAD.
  Context (retain : bool) (e : Energy) (WF : well_formed e).
  Let t0 := e_tape e.
  Let root := e_root e.
  Let W0 : wf t0 := wf_energy e WF.
  Let L0 : (root < length t0)%nat := proj1 WF.

  Lemma step_spec ext fl x : wf (t0 ++ ext) ->
    match py_grad (t0 ++ ext) fl (e_result e) x retain with
    | Raise err => err = RuntimeError /\ conflict x t0 root fl (S root)
    | Ok (h, t', fl') => 
        ~ conflict x t0 root fl (S root) /\ (exists ext', t' = (t0 ++ ext) ++ ext') /\ wf t' /\ (h = None <-> reach x t0 root = false) /\
        (forall X, regular (t0 ++ ext) X -> regular t' X) /\
        (forall g, h = Some g -> (g < length t')%nat /\
           (forall X, regular (t0 ++ ext) X -> V X t' g = D X (unit3 x) t0 root) /\
           (forall y, (forall j o, execd x t0 root j -> nth_error t0 j = Some o -> saves o = true -> reach y t0 j = false) -> reach y t' g = false)) /\
        (forall i, fl' i = true <-> fl i = true \/ (retain = false /\ execd x t0 root i))
    end.
  Proof.
    intros W. assert (L : (root < length (t0 ++ ext))%nat) by (rewrite app_length; lia).
    assert (RR : forall y, reach y (t0 ++ ext) root = reach y t0 root) by (intros; now apply reach_app).
    assert (RG : requires_grad (t0 ++ ext) root = requires_grad t0 root) by (unfold requires_grad; now rewrite !RR).
    assert (TR : forall h t' fl', grad_post (t0 ++ ext) fl root x retain h t' fl' ->
        ~ conflict x t0 root fl (S root) /\ (exists ext', t' = (t0 ++ ext) ++ ext') /\ wf t' /\ (h = None <-> reach x t0 root = false) /\
        (forall X, regular (t0 ++ ext) X -> regular t' X) /\
        (forall g, h = Some g -> (g < length t')%nat /\
           (forall X, regular (t0 ++ ext) X -> V X t' g = D X (unit3 x) t0 root) /\
           (forall y, (forall j o, execd x t0 root j -> nth_error t0 j = Some o -> saves o = true -> reach y t0 j = false) -> reach y t' g = false)) /\
        (forall i, fl' i = true <-> fl i = true \/ (retain = false /\ execd x t0 root i))).
    { intros h t' fl' (H1 & H2 & H3 & H4 & H5 & H6 & H7). rewrite conflict_app in H1 by auto. rewrite RR in H4.
      split; [auto|]. split; [auto|]. split; [auto|]. split; [auto|]. split; [auto|]. split.
      - intros g E. destruct (H6 g E) as (A & B & C). split; [auto|]. split.
        + intros X Hr. rewrite (B X Hr). now apply D_app.
        + intros y Hy. apply C. intros j o EX Ej S'. rewrite execd_app in EX by auto.
          pose proof (uses_le _ _ _ W0 (proj1 EX)). rewrite nth_error_app1 in Ej by lia.
          rewrite reach_app by lia. eauto.
      - intros i. rewrite H7. now rewrite execd_app. }
    unfold e_result. fold t0 root. destruct (requires_grad t0 root) eqn:RGr; cbn [py_grad].
    - pose proof (grad_spec (t0 ++ ext) fl root x retain W L) as G.
      destruct (autograd_grad (t0 ++ ext) fl root x retain) as [[[h t'] fl']|err].
      + apply TR. apply G.
      + destruct G as (-> & [G|G]); [congruence|]. split; auto. now rewrite conflict_app in G.
    - apply TR. apply unreached_post; auto. rewrite RR. unfold requires_grad in RGr.
      apply orb_false_elim in RGr. destruct RGr as [RGr C]. apply orb_false_elim in RGr. destruct RGr as [A B].
      destruct x; auto.
  Qed.

  Lemma gradient_spec :
    match t_gradient retain e with
    | Raise err => err = RuntimeError /\ retain = false /\ coupled e
    | Ok (g1, g2, g3, t, r) =>
        (retain = false -> ~ coupled e) /\ (exists ext, t = t0 ++ ext) /\ wf t /\
        (forall X, regular t0 X -> regular t X) /\
        (forall x, sel g1 g2 g3 x = None <-> ~ mentions e x) /\
        (forall x g, sel g1 g2 g3 x = Some g -> (g < length t)%nat /\
           (forall X, regular t0 X -> V X t g = D X (unit3 x) t0 root) /\
           (retain = false -> forall y, y <> x -> reach y t g = false)) /\
        (forall i, r i = true <-> retain = false /\ exists x, execd x t0 root i)
    end.
  Proof.
    assert (CP : forall j o x y, retain = false -> x <> y -> execd x t0 root j -> execd y t0 root j ->
      nth_error t0 j = Some o -> saves o = true -> coupled e).
    { intros j o x y _ N (U & Rx & _) (_ & Ry & _) E S'. pose proof (uses_le _ _ _ W0 U).
      exists j, o, x, y. repeat split; auto; fold t0; apply reach_uses; auto; lia. }
    assert (NM : forall (h : option nat) x, (h = None <-> reach x t0 root = false) -> (h = None <-> ~ mentions e x)).
    { intros h x ->. rewrite mentions_reach by auto. fold t0 root. destruct (reach x t0 root); intuition discriminate. }
    unfold t_gradient. fold t0 root.
    pose proof (step_spec [] (fun _ => false) X0) as S0. rewrite app_nil_r in S0. specialize (S0 W0). fold t0 in S0.
    destruct (py_grad t0 (fun _ => false) (e_result e) X0 retain) as [[[g1 t1] r1]|err]; cbn [rbind].
    2:{ destruct S0 as (_ & (j & o & _ & _ & _ & _ & F)). discriminate F. }
    destruct S0 as (A1 & (x1 & A2) & A3 & A4 & A5 & A6 & A7).
    pose proof (step_spec x1 r1 X1) as S1. rewrite <- A2 in S1. specialize (S1 A3).
    destruct (py_grad t1 r1 (e_result e) X1 retain) as [[[g2 t2] r2]|err]; cbn [rbind].
    2:{ destruct S1 as (-> & (j & o & _ & EX & E & S' & F)). apply A7 in F. destruct F as [F|(Rt & F)]; [discriminate|].
        split; auto. split; auto. eapply (CP j o X0 X1); eauto; discriminate. }
    destruct S1 as (B1 & (x2 & B2) & B3 & B4 & B5 & B6 & B7).
    assert (E2 : t2 = t0 ++ (x1 ++ x2)) by (rewrite B2, A2; now rewrite app_assoc).
    pose proof (step_spec (x1 ++ x2) r2 X2) as S2. rewrite <- E2 in S2. specialize (S2 B3).
    destruct (py_grad t2 r2 (e_result e) X2 retain) as [[[g3 t3] r3]|err]; cbn [rbind].
    2:{ destruct S2 as (-> & (j & o & _ & EX & E & S' & F)). apply B7 in F. rewrite A7 in F.
        destruct F as [[F|(Rt & F)]|(Rt & F)]; [discriminate| |]; split; auto; split; auto.
        - eapply (CP j o X0 X2); eauto; discriminate.
        - eapply (CP j o X1 X2); eauto; discriminate. }
    destruct S2 as (C1 & (x3 & C2) & C3 & C4 & C5 & C6 & C7).
    assert (E3 : t3 = t0 ++ (x1 ++ x2 ++ x3)) by (rewrite C2, E2; now rewrite <- !app_assoc).
    assert (NC : retain = false -> ~ coupled e).
    { intros Rt (j & o & x & y & U & E & S' & N & Ux & Uy).
      fold t0 root in U, E, Ux, Uy.
      pose proof (uses_le _ _ _ W0 U) as Lj.
      assert (L3 : (3 <= j)%nat).
      { destruct (le_lt_dec 3 j) as [?|L3]; auto. destruct (leaf_small t0 j W0 L3) as (z & _ & Ez). rewrite Ez in E. injection E as <-. discriminate. }
      assert (RX : forall z, uses t0 j (leaf z) -> execd z t0 root j).
      { intros z Uz. repeat split; auto. apply reach_uses; auto. lia. }
      assert (EX := RX x Ux). assert (EY := RX y Uy).
      assert (K1 : ~ (execd X1 t0 root j /\ execd X0 t0 root j)).
      { intros (P & Q). apply B1. exists j, o. repeat split; auto; try apply P; try lia. apply A7. auto. }
      assert (K2 : ~ (execd X2 t0 root j /\ (execd X0 t0 root j \/ execd X1 t0 root j))).
      { intros (P & Q). apply C1. exists j, o. repeat split; auto; try apply P; try lia. apply B7. rewrite A7. tauto. }
      destruct x, y; tauto. }
    assert (NS : retain = false -> forall x y, y <> x -> forall j o, execd x t0 root j -> nth_error t0 j = Some o -> saves o = true -> reach y t0 j = false).
    { intros Rt x y N j o EX E S'. destruct (reach y t0 j) eqn:Ry; auto. exfalso. apply (NC Rt). eapply (CP j o x y); eauto.
      destruct EX as (U & Rx & L3). repeat split; auto. }
    split; [exact NC|]. split; [exists (x1 ++ x2 ++ x3); exact E3|]. split; [exact C3|].
    split; [auto|]. split; [intros x; apply NM; destruct x; auto|]. split.
    - assert (Lt12 : (length t1 <= length t2)%nat) by (rewrite B2, app_length; lia).
      assert (Lt23 : (length t2 <= length t3)%nat) by (rewrite C2, app_length; lia).
      intros x g. destruct x; cbn [sel]; intros E.
      + destruct (A6 g E) as (P1 & P2 & P3). split; [lia|]. split.
        * intros X Hr. rewrite <- (P2 X Hr). rewrite C2, V_app by lia. rewrite B2, V_app by lia. reflexivity.
        * intros Rt y N. rewrite C2, reach_app by lia. rewrite B2, reach_app by lia. apply P3. exact (NS Rt X0 y N).
      + destruct (B6 g E) as (P1 & P2 & P3). split; [lia|]. split.
        * intros X Hr. rewrite <- (P2 X (A5 X Hr)). rewrite C2, V_app by lia. reflexivity.
        * intros Rt y N. rewrite C2, reach_app by lia. apply P3. exact (NS Rt X1 y N).
      + destruct (C6 g E) as (P1 & P2 & P3). split; [lia|]. split.
        * intros X Hr. exact (P2 X (B5 X (A5 X Hr))).
        * intros Rt y N. apply P3. exact (NS Rt X2 y N).
    - intros i. rewrite C7, B7, A7. split.
      + intros [[[?|(Q & ?)]|(Q & ?)]|(Q & ?)]; [discriminate| | |]; (split; [auto|eexists; eauto]).
      + intros (Q & x & EX). destruct x; auto.
  Qed.
End GRAD.

(** gradient returns exactly if the energy is not coupled. *)
Lemma gradient_raises retain e : well_formed e ->
  (exists err, t_gradient retain e = Raise err) <-> retain = false /\ coupled e.
Proof.
  intros WF. pose proof (gradient_spec retain e WF) as G.
  destruct (t_gradient retain e) as [[[[[g1 g2] g3] t] r]|err].
  - destruct G as (NC & _). split; [intros (? & ?); discriminate|]. intros (Rt & C). now apply NC in C.
  - destruct G as (-> & G). split; [auto|eauto].
Qed.

(** ** Separability *)
Lemma uncoupled_separable e : well_formed e -> ~ coupled e ->
  exists f : ix3 -> R -> R, forall X, energy e X = f X0 (X X0) + f X1 (X X1) + f X2 (X X2).
Proof.
  intros WF NC. pose proof (wf_energy e WF) as W. unfold energy. set (t0 := e_tape e) in *. set (root := e_root e) in *.
  assert (H : forall i, (i < length t0)%nat -> uses t0 root i ->
    exists f : ix3 -> R -> R, forall X, V X t0 i = f X0 (X X0) + f X1 (X X1) + f X2 (X X2)).
  { intros i. induction i as [i IH] using lt_wf_ind. intros L U.
    destruct (nth_error t0 i) as [o|] eqn:E; [|apply nth_error_None in E; lia].
    assert (IHk : forall k, is_arg k o -> exists f : ix3 -> R -> R, forall X, V X t0 k = f X0 (X X0) + f X1 (X X1) + f X2 (X X2)).
    { intros k K. pose proof (wf_args _ W _ _ _ E K). apply IH; [lia|lia|]. eapply uses_step; eauto. }
    destruct (saves o) eqn:S'.
    - (* depends on at most one invariant *)
      assert (O : forall x y, reach x t0 i = true -> reach y t0 i = true -> x = y).
      { intros x y Rx Ry. destruct (ix3_eqb x y) eqn:Exy; [destruct x, y; auto; discriminate|].
        exfalso. apply NC. exists i, o, x, y. repeat split; auto.
        - intros ->. destruct y; discriminate.
        - apply reach_uses; auto.
        - apply reach_uses; auto. }
      destruct (reach X0 t0 i) eqn:R0; [|destruct (reach X1 t0 i) eqn:R1; [|]].
      + exists (fun k => match k with X0 => fun s => V (fun _ => s) t0 i | _ => fun _ => 0 end). intros X. cbv beta iota.
        rewrite (V_unreach X (fun _ => X X0) t0 W i L); [ring|]. intros y Ry. now rewrite (O X0 y R0 Ry).
      + exists (fun k => match k with X1 => fun s => V (fun _ => s) t0 i | _ => fun _ => 0 end). intros X. cbv beta iota.
        rewrite (V_unreach X (fun _ => X X1) t0 W i L); [ring|]. intros y Ry. now rewrite (O X1 y R1 Ry).
      + exists (fun k => match k with X2 => fun s => V (fun _ => s) t0 i | _ => fun _ => 0 end). intros X. cbv beta iota.
        rewrite (V_unreach X (fun _ => X X2) t0 W i L); [ring|]. intros y Ry. destruct y; congruence.
    - destruct o as [x|c|a b|a b|a b|a b|a|a n|a p|a|a|a]; try discriminate S'.
      + exists (fun k s => if ix3_eqb x k then s else 0). intros X. rewrite (V_at X _ _ _ W E). cbn [vstep].
        destruct x; cbn; ring.
      + exists (fun k s => match k with X0 => c | _ => 0 end). intros X. rewrite (V_at X _ _ _ W E). cbn. ring.
      + destruct (IHk a ltac:(isarg)) as [f Hf]. destruct (IHk b ltac:(isarg)) as [f' Hf'].
        exists (fun k s => f k s + f' k s). intros X. rewrite (V_at X _ _ _ W E). cbn [vstep]. rewrite Hf, Hf'. ring.
      + destruct (IHk a ltac:(isarg)) as [f Hf]. destruct (IHk b ltac:(isarg)) as [f' Hf'].
        exists (fun k s => f k s - f' k s). intros X. rewrite (V_at X _ _ _ W E). cbn [vstep]. rewrite Hf, Hf'. ring.
      + destruct (IHk a ltac:(isarg)) as [f Hf].
        exists (fun k s => - f k s). intros X. rewrite (V_at X _ _ _ W E). cbn [vstep]. rewrite Hf. ring. }
  apply H; [apply WF|constructor].
Qed.

(** ** gradient along paths *)
Lemma gradient_path retain e g1 g2 g3 t r : well_formed e -> t_gradient retain e = Ok (g1, g2, g3, t, r) ->
  forall (I : R -> Vec3) s0 dI, dcurve3 I s0 dI -> regular (e_tape e) (I s0) ->
  is_derive (fun s => energy e (I s)) s0 (sum3 (fun k => val (o3 (vals (I s0) t g1 g2 g3) k) * dI k)).
Proof.
  intros WF E I s0 dI HI Hr. pose proof (wf_energy e WF) as W0. pose proof (proj1 WF) as L0.
  pose proof (gradient_spec retain e WF) as G. rewrite E in G.
  destruct G as (_ & _ & W & RR & G1 & G2 & _).
  eapply D_eq; [exact (D_correct _ I s0 dI W0 Hr HI _ L0)|].
  rewrite (D_linear _ _ _ W0 Hr _ L0). unfold sum3.
  assert (HK : forall k, D (I s0) (unit3 k) (e_tape e) (e_root e) = val (o3 (vals (I s0) t g1 g2 g3) k)).
  { intros k. rewrite o3_vals. destruct (sel g1 g2 g3 k) as [g|] eqn:Eg; cbn [option_map val].
    - symmetry. now apply G2.
    - apply D_unreach; auto. apply G1 in Eg. rewrite mentions_reach in Eg by auto.
      destruct (reach k (e_tape e) (e_root e)); [exfalso; now apply Eg|reflexivity]. }
  now rewrite !HK.
Qed.

(** ** hessian *)
Definition hess_post (g1 g2 g3 : option nat) (t : tape) (h : ix6 -> option nat) (T : tape) : Prop :=
  (exists ext, T = t ++ ext) /\
  (forall x, h (pos x x) = None <-> sel g1 g2 g3 x = None) /\
  (forall x y, x <> y -> h (pos x y) = None) /\
  (forall x g n, sel g1 g2 g3 x = Some g -> h (pos x x) = Some n -> forall X, regular t X -> V X T n = D X (unit3 x) t g).

Lemma py_grad_diag t ext r f x : wf (t ++ ext) ->
  (forall g, f = Some g -> (g < length t)%nat /\ forall y, y <> x -> reach y t g = false) ->
  match py_grad (t ++ ext) r f x false with
  | Raise err => err = RuntimeError
  | Ok (h, t', r') => (exists ext', t' = t ++ (ext ++ ext')) /\ wf t' /\ (forall X, regular (t ++ ext) X -> regular t' X) /\ 
      (h = None <-> f = None) /\
      (forall g n, f = Some g -> h = Some n -> (n < length t')%nat /\ forall X, regular (t ++ ext) X -> V X t' n = D X (unit3 x) t g)
  end.
Proof.
  intros W Hf. destruct f as [g|]; cbn [py_grad].
  2:{ split; [exists []; now rewrite app_nil_r|]. split; [auto|]. split; [auto|]. split; [tauto|]. discriminate. }
  destruct (Hf g eq_refl) as [Lg Ng].
  assert (Lg' : (g < length (t ++ ext))%nat) by (rewrite app_length; lia).
  pose proof (grad_spec (t ++ ext) r g x false W Lg') as G.
  destruct (autograd_grad (t ++ ext) r g x false) as [[[h t'] r']|err]; [|apply G].
  destruct G as (RG & _ & (e1 & P2) & P3 & P4 & P5 & P6 & _).
  split; [exists e1; rewrite P2; now rewrite app_assoc|]. split; [auto|]. split; [auto|]. split.
  - rewrite P4. split; [|discriminate]. intros F. exfalso.
    unfold requires_grad in RG. rewrite !reach_app in RG by auto. rewrite reach_app in F by auto.
    destruct x; rewrite ?F, ?(Ng X0), ?(Ng X1), ?(Ng X2) in RG by discriminate; discriminate RG.
  - intros g' n E E'. injection E as <-. destruct (P6 n E') as (Q1 & Q2 & _). split; [auto|].
    intros X Hr. rewrite (Q2 X Hr). now apply D_app.
Qed.
Lemma py_grad_mixed t ext r f x y : wf (t ++ ext) -> x <> y ->
  (forall g, f = Some g -> (g < length t)%nat /\ forall y, y <> x -> reach y t g = false) ->
  match py_grad (t ++ ext) r f y false with
  | Raise err => err = RuntimeError
  | Ok (h, t', r') => h = None /\ (exists ext', t' = t ++ (ext ++ ext')) /\ wf t' /\ (forall X, regular (t ++ ext) X -> regular t' X)
  end.
Proof.
  intros W N Hf. destruct f as [g|]; cbn [py_grad].
  2:{ split; [auto|]. split; [exists []; now rewrite app_nil_r|]. auto. }
  destruct (Hf g eq_refl) as [Lg Ng].
  assert (Lg' : (g < length (t ++ ext))%nat) by (rewrite app_length; lia).
  pose proof (grad_spec (t ++ ext) r g y false W Lg') as G.
  destruct (autograd_grad (t ++ ext) r g y false) as [[[h t'] r']|err]; [|apply G].
  destruct G as (RG & _ & (e1 & P2) & P3 & P4 & P5 & _).
  split; [apply P4; rewrite reach_app by auto; now apply Ng; auto|].
  split; [exists e1; rewrite P2; now rewrite app_assoc|]. auto.
Qed.

Lemma hessian_spec e : well_formed e ->
  match t_hessian e with
  | Raise err => err = RuntimeError
  | Ok (h, T) => exists g1 g2 g3 t r, t_gradient false e = Ok (g1, g2, g3, t, r) /\ hess_post g1 g2 g3 t h T
  end.
Proof.
  intros WF. unfold t_hessian. pose proof (gradient_spec false e WF) as G.
  destruct (t_gradient false e) as [[[[[g1 g2] g3] t] r]|err]; cbn [rbind]; [|apply G].
  destruct G as (_ & _ & W & RR & G1 & G2 & _).
  assert (HF : forall x g, sel g1 g2 g3 x = Some g -> (g < length t)%nat /\ forall y, y <> x -> reach y t g = false).
  { intros x g E. destruct (G2 x g E) as (A & _ & B). auto. }
  assert (F1 := HF X0). assert (F2 := HF X1). assert (F3 := HF X2). cbn [sel] in F1, F2, F3.
  assert (W' : wf (t ++ [])) by now rewrite app_nil_r.
  pose proof (py_grad_diag t [] r g1 X0 W' F1) as S1. rewrite app_nil_r in S1.
  destruct (py_grad t r g1 X0 false) as [[[h11 t1] r1]|err]; cbn [rbind]; [|exact S1].
  destruct S1 as ((x1 & ->) & W1 & R1 & N1 & V1'). cbn [app] in *.
  pose proof (py_grad_diag t x1 r1 g2 X1 W1 F2) as S2.
  destruct (py_grad (t ++ x1) r1 g2 X1 false) as [[[h22 t2] r2]|err]; cbn [rbind]; [|exact S2].
  destruct S2 as ((x2 & ->) & W2 & R2 & N2 & V2').
  pose proof (py_grad_diag t (x1 ++ x2) r2 g3 X2 W2 F3) as S3.
  destruct (py_grad (t ++ x1 ++ x2) r2 g3 X2 false) as [[[h33 t3] r3]|err]; cbn [rbind]; [|exact S3].
  destruct S3 as ((x3 & ->) & W3 & R3 & N3 & V3').
  pose proof (py_grad_mixed t ((x1 ++ x2) ++ x3) r3 g1 X0 X1 W3 ltac:(discriminate) F1) as S4.
  destruct (py_grad (t ++ (x1 ++ x2) ++ x3) r3 g1 X1 false) as [[[h12 t4] r4]|err]; cbn [rbind]; [|exact S4].
  destruct S4 as (-> & (x4 & ->) & W4 & R4).
  set (y4 := ((x1 ++ x2) ++ x3) ++ x4) in *.
  pose proof (py_grad_mixed t y4 r4 g2 X1 X2 W4 ltac:(discriminate) F2) as S5.
  destruct (py_grad (t ++ y4) r4 g2 X2 false) as [[[h23 t5] r5]|err]; cbn [rbind]; [|exact S5].
  destruct S5 as (-> & (x5 & ->) & W5 & R5).
  pose proof (py_grad_mixed t (y4 ++ x5) r5 g1 X0 X2 W5 ltac:(discriminate) F1) as S6.
  destruct (py_grad (t ++ y4 ++ x5) r5 g1 X2 false) as [[[h13 t6] r6]|err]; cbn [rbind]; [|exact S6].
  destruct S6 as (-> & (x6 & ->) & W6 & R6).
  exists g1, g2, g3, t, r. split; [reflexivity|]. split; [eauto|]. split; [intros []; cbn; auto|].
  split; [intros [] []; cbn; congruence|].
  assert (E1 : exists z, t ++ (y4 ++ x5) ++ x6 = (t ++ x1) ++ z).
  { exists (x2 ++ x3 ++ x4 ++ x5 ++ x6). unfold y4. now rewrite <- !app_assoc. }
  assert (E2 : exists z, t ++ (y4 ++ x5) ++ x6 = (t ++ x1 ++ x2) ++ z).
  { exists (x3 ++ x4 ++ x5 ++ x6). unfold y4. now rewrite <- !app_assoc. }
  assert (E3 : exists z, t ++ (y4 ++ x5) ++ x6 = (t ++ (x1 ++ x2) ++ x3) ++ z).
  { exists (x4 ++ x5 ++ x6). unfold y4. now rewrite <- !app_assoc. }
  destruct E1 as (z1 & E1), E2 as (z2 & E2), E3 as (z3 & E3).
  intros [] g n Eg En X Hr; cbn [sel pos] in *.
  - destruct (V1' g n Eg En) as [L Q]. rewrite E1, V_app by auto. auto.
  - destruct (V2' g n Eg En) as [L Q]. rewrite E2, V_app by auto. auto.
  - destruct (V3' g n Eg En) as [L Q]. rewrite E3, V_app by auto. auto.
Qed.

(** ** The model object *)
Lemma eta3 (X : Vec3) : (fun k => match k with X0 => X X0 | X1 => X X1 | X2 => X X2 end) = X.
Proof. apply functional_extensionality; intros []; reflexivity. Qed.
Lemma torch_call {SV} e (X : Vec3) (sv : SV) : inv_call (torch_model e) X sv = torch_gradient false e X sv.
Proof. unfold inv_call, torch_model; cbn. now rewrite eta3. Qed.
Lemma torch_callh {SV} e (X : Vec3) (sv : SV) : inv_callh (torch_model e) X sv =
  rbind (t_hessian e) (fun '(h, t) => Ok (fun v => option_map (V X t) (h v))).
Proof. unfold inv_callh, torch_model; cbn. now rewrite eta3. Qed.

Lemma torch_grad {SV} e : well_formed e -> ~ coupled e ->
  inv_gradient_of (torch_model (SV:=SV) e) (energy e) (regular (e_tape e)).
Proof.
  intros WF NC I s0 dI HI Hr sv. rewrite torch_call. unfold torch_gradient.
  pose proof (gradient_raises false e WF) as GR.
  destruct (t_gradient false e) as [[[[[g1 g2] g3] t] r]|err] eqn:E; cbn [rbind].
  - exists (vals (I s0) t g1 g2 g3), sv. split; [reflexivity|].
    exact (gradient_path false e g1 g2 g3 t r WF E I s0 dI HI Hr).
  - exfalso. apply NC. apply GR. eauto.
Qed.
Lemma torch_hess {SV} e h0 : well_formed e -> t_hessian e = Ok h0 ->
  inv_hessian_of (torch_model (SV:=SV) e) (regular (e_tape e)).
Proof.
  intros WF E0 I s0 dI HI Hr sv. pose proof (hessian_spec e WF) as HS. rewrite E0 in HS.
  destruct h0 as [h T]. destruct HS as (g1 & g2 & g3 & t & r & EG & HP).
  destruct HP as ((ext & HT) & P1 & P2 & P3).
  pose proof (gradient_spec false e WF) as G. rewrite EG in G.
  destruct G as (NC & (ext0 & Et) & W & RR & G1 & G2 & _).
  rewrite torch_callh, E0. cbn [rbind]. eexists. split; [reflexivity|].
  intros svt G HG k.
  assert (HGt : locally s0 (fun s => G s = vals (I s) t g1 g2 g3)).
  { revert HG. apply filter_imp. intros s (svn & Es). rewrite torch_call in Es. unfold torch_gradient in Es.
    rewrite EG in Es. cbn [rbind] in Es. 
    assert (Es2 : (vals (I s) t g1 g2 g3, svt s) = (G s, svn)) by (injection Es as E1 E2; unfold vals; now rewrite E1, E2).
    exact (eq_sym (f_equal fst Es2)). }
  apply D_ext_loc with (fun s => val (o3 (vals (I s) t g1 g2 g3) k)).
  { revert HGt. apply filter_imp. intros s ->. reflexivity. }
  pose proof (RR _ Hr) as Hrt.
  destruct (sel g1 g2 g3 k) as [g|] eqn:Eg.
  - destruct (G2 k g Eg) as (Lg & _ & Ng).
    apply D_ext with (fun s => V (I s) t g).
    { intros s. rewrite o3_vals, Eg. reflexivity. }
    eapply D_eq; [exact (D_correct t I s0 dI W Hrt HI g Lg)|].
    rewrite (D_linear _ _ _ W Hrt _ Lg).
    assert (HK : forall l, D (I s0) (unit3 l) t g = val (option_map (V (I s0) T) (h (pos k l)))).
    { intros l. destruct (ix3_eqb k l) eqn:Ekl.
      - assert (k = l) by (destruct k, l; auto; discriminate). subst l.
        destruct (h (pos k k)) as [n|] eqn:En.
        + cbn. symmetry. exact (P3 k g n Eg En (I s0) Hrt).
        + apply P1 in En. congruence.
      - assert (N : k <> l) by (intros ->; destruct l; discriminate). rewrite (P2 k l N). cbn.
        apply D_unreach; auto. }
    unfold sum3. now rewrite !HK.
  - apply D_ext with (fun _ => 0).
    { intros s. rewrite o3_vals, Eg. reflexivity. }
    eapply D_eq; [exact (D_const 0 s0)|].
    assert (HK : forall l, h (pos k l) = None).
    { intros l. destruct (ix3_eqb k l) eqn:Ekl.
      - assert (k = l) by (destruct k, l; auto; discriminate). subst l. now apply P1.
      - apply P2. intros ->. destruct l; discriminate. }
    unfold sum3. rewrite !HK. cbn. ring.
Qed.
