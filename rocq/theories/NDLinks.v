(** * From the relational proofs to statements about array entries. *)
From Coq Require Import Reals List Arith Lia FunctionalExtensionality.
From Verif Require Import Tensor Py Voigt Algebra VCalc Models Frameworks Spaces Spec GenProofs InvCore StrCore SpaceCore.
From Verif Require Import NDCore NDRel NDOps NDHeap NDVoigt NDMath NDMath2 NDMath3 NDSpaces
  NDSpaceProofs NDSpaceMain NDFrameworks NDInvProofs NDModels NDEigh NDViews NDStrProofs NDGenProofs NDSpec.
Import ListNotations.
Local Open Scope R_scope.

(** ** Spaces on arrays, by kind *)
Definition nd_sp_gradient {ST} (kd : SpaceKind) (mat : NDMat ST) (o : SpaceOpts) : nd -> ST -> M (nd * ST) :=
  match kd with
  | KDeformation => nd_def_gradient mat o | KDistortional => nd_dis_gradient mat o
  | KDilatational => nd_dil_gradient mat o end.
Definition nd_sp_hessian {ST} (kd : SpaceKind) (mat : NDMat ST) (o : SpaceOpts) : nd -> ST -> M nd :=
  match kd with
  | KDeformation => nd_def_hessian mat o | KDistortional => nd_dis_hessian mat o
  | KDilatational => nd_dil_hessian mat o end.

(** What the returned array holds at a trailing index: a 3x3(x3x3) tensor, or the Voigt
    array when [finalize=False]. *)
Definition stress_kind (o : SpaceOpts) : ixt := if finalize o then i33 else i6.
Definition elast_kind (o : SpaceOpts) : ixt := if finalize o then i3333 else i66.
Definition stress_at (o : SpaceOpts) (h : heap) (P : nd) (k : index) : StressOut :=
  if finalize o then StressFull (value33 h P k) else StressVoigt (value6 h P k).
Definition elast_at (o : SpaceOpts) (h : heap) (A : nd) (k : index) : ElastOut :=
  if finalize o then ElastFull (value3333 h A k) else ElastVoigt (value66 h A k).

Lemma is_stress_at o h P t T p : is_stress (finalize o) h P t T p ->
  field h P (stress_kind o) t /\ forall k, inb T k -> p k = stress_at o h P k.
Proof.
  unfold is_stress, stress_kind, stress_at. destruct (finalize o); intros [f [Hf Hp]];
    destruct (value_hrel _ _ _ _ _ _ Hf) as [H1 H2]; (split; [exact H1|]); intros k Hk; rewrite (Hp k Hk); f_equal.
  - unfold value33, un33. do 2 (apply functional_extensionality; intro). symmetry. now apply H2.
  - unfold value6. apply functional_extensionality; intro. symmetry. now apply H2.
Qed.
Lemma is_elast_at o h P t T p : is_elast (finalize o) h P t T p ->
  field h P (elast_kind o) t /\ forall k, inb T k -> p k = elast_at o h P k.
Proof.
  unfold is_elast, elast_kind, elast_at. destruct (finalize o); intros [f [Hf Hp]];
    destruct (value_hrel _ _ _ _ _ _ Hf) as [H1 H2]; (split; [exact H1|]); intros k Hk; rewrite (Hp k Hk); f_equal.
  - unfold value3333, un3333. do 4 (apply functional_extensionality; intro). symmetry. now apply H2.
  - unfold value66, un66. do 2 (apply functional_extensionality; intro). symmetry. now apply H2.
Qed.

Section Gen.
  Context {ST SV : Type} (mat : NDMat ST) (sv_at : ST -> index -> SV)
    (pg : Vec6 -> SV -> Vec6 * SV) (ph : Vec6 -> SV -> Mat6) (D : Vec6 -> Prop)
    (T tg th : shape) (fw : Framework SV).
  Hypothesis Hg : mat_g_ok mat sv_at pg D T tg.
  Hypothesis Hh : mat_h_ok mat sv_at ph D T th.
  Hypothesis Lg : forall C sv k s, D C -> inb T k ->
    outcome (fw_gradient fw C (sv_at sv k)) s = Ok (pg C (sv_at sv k)).
  Hypothesis Lh : forall C sv k s, D C -> inb T k ->
    outcome (fw_hessian fw C (sv_at sv k)) s = Ok (ph C (sv_at sv k)).

  (** Trailing axes of the returned stress. *)
  Definition out_shape (kd : SpaceKind) (o : SpaceOpts) : shape :=
    match kd with KDeformation => stress_shape o tg T | _ => T end.
  Definition outh_shape (kd : SpaceKind) (o : SpaceOpts) : shape :=
    match kd with KDeformation => if finalize o then T else th | _ => T end.
  (** Configurations in which [Deformation] does not write into an array that is too small. *)
  Definition roomy_g (kd : SpaceKind) (o : SpaceOpts) : Prop :=
    kd = KDeformation -> finalize o = true -> force o = Undeformed -> area o = Deformed -> tg = T.
  Definition roomy_h (kd : SpaceKind) (o : SpaceOpts) : Prop :=
    kd = KDeformation -> finalize o = true -> force o = Undeformed -> th = T /\ (area o = Deformed -> tg = T).

  Lemma space_g kd o h F sv : field h F i33 T ->
    (forall k, inb T k -> D (seen kd (right_CG (value33 h F k)))) -> roomy_g kd o ->
    returns h (nd_sp_gradient kd mat o F sv) (fun '(P, svn) h' =>
      fresh h h' P /\ field h' P (stress_kind o) (out_shape kd o) /\
      forall k s, inb T k ->
        outcome (sp_gradient kd fw o (value33 h F k) (sv_at sv k)) s = Ok (stress_at o h' P k, sv_at svn k)).
  Proof.
    intros HF HD Ho. apply field_hrel in HF.
    set (E := fun (r : nd * ST) (h' : heap) => fresh h h' (fst r) /\
      is_stress (finalize o) h' (fst r) (out_shape kd o) T (fun k => piola_stress o (value33 h F k)
        (kS kd (right_CG (value33 h F k)) (fst (pg (seen kd (right_CG (value33 h F k))) (sv_at sv k))))
        (kdetF kd (right_CG (value33 h F k)))) /\
      (forall k, inb T k -> sv_at (snd r) k = snd (pg (seen kd (right_CG (value33 h F k))) (sv_at sv k)))).
    apply (W_returns _ _ E).
    2:{ intros [P svn] h' _ [H1 [H2 H3]]. cbn [fst snd] in *. split; [exact H1|].
        destruct (is_stress_at _ _ _ _ _ _ H2) as [H4 H5]. split; [exact H4|]. intros k s Hk.
        pose proof (Lg _ sv k (sp_mat s) (HD k Hk) Hk) as L.
        destruct (pg (seen kd (right_CG (value33 h F k))) (sv_at sv k)) as [g svk] eqn:Ep.
        rewrite (sp_gradient_ok fw o kd _ _ _ _ _ L). pose proof (H5 k Hk) as Y. pose proof (H3 k Hk) as Z.
        rewrite Ep in Y, Z. cbn [fst snd] in Y, Z. now rewrite Z, <- Y. }
    unfold E. destruct kd; cbn [nd_sp_gradient].
    - unfold nd_def_gradient. eapply W_bind.
      { apply (def_c_W mat sv_at pg D T tg o Hg (hnext h) h F _ sv (le_n _) HF HD). intros; now apply Ho. }
      intros [[P svn] [C S]] h1 _ [_ [H1 [_ [_ [H2 H3]]]]]. apply W_ret. cbn [fst snd]. auto.
    - unfold nd_dis_gradient. eapply W_bind.
      { apply (dis_c_W mat sv_at pg D T tg o Hg (hnext h) h F _ sv (le_n _) HF HD). }
      intros [[P svn] [[[[[[C I3] Cu] Sb] SbC] invC] PK2]] h1 _ [_ [H1 [_ [_ [_ [_ [_ [_ [_ [H2 H3]]]]]]]]]].
      apply W_ret. cbn [fst snd]. auto.
    - unfold nd_dil_gradient. eapply W_bind.
      { apply (dil_c_W mat sv_at pg D T tg o Hg (hnext h) h F _ sv (le_n _) HF HD). }
      intros [[P svn] [[[[[C I3] Co] tr] invC] PK2]] h1 _ [_ [H1 [_ [_ [_ [_ [_ [_ [H2 H3]]]]]]]]].
      apply W_ret. cbn [fst snd]. auto.
  Qed.

  (** The entries at which [Distortional.hessian] skips the material elasticity. *)
  Definition skips (h : heap) (F : nd) (sv : ST) (k : index) : bool :=
    allclose0 (C4b_at sv_at ph (value h F i33) sv k).
  Definition agree (kd : SpaceKind) (h : heap) (F : nd) (sv : ST) : Prop := kd = KDistortional ->
    forall k k', inb T k -> inb T k' -> skips h F sv k = skips h F sv k'.

  Lemma space_h kd o h F sv : field h F i33 T ->
    (forall k, inb T k -> D (seen kd (right_CG (value33 h F k)))) -> roomy_h kd o -> agree kd h F sv ->
    returns h (nd_sp_hessian kd mat o F sv) (fun A h' =>
      fresh h h' A /\ field h' A (elast_kind o) (outh_shape kd o) /\
      forall k s, inb T k ->
        outcome (sp_hessian kd fw o (value33 h F k) (sv_at sv k)) s = Ok (elast_at o h' A k)).
  Proof.
    intros HF HD Ho Ha. apply field_hrel in HF.
    set (E := fun (r : nd) (h' : heap) => fresh h h' r /\
      is_elast (finalize o) h' r (outh_shape kd o) T (fun k => piola_elast o (value33 h F k)
        (kS kd (right_CG (value33 h F k)) (fst (pg (seen kd (right_CG (value33 h F k))) (sv_at sv k))))
        (kdetF kd (right_CG (value33 h F k)))
        (kC4 kd (right_CG (value33 h F k)) (fst (pg (seen kd (right_CG (value33 h F k))) (sv_at sv k)))
           (ph (seen kd (right_CG (value33 h F k))) (sv_at sv k)))
        (kinvC kd (right_CG (value33 h F k))))).
    apply (W_returns _ _ E).
    2:{ intros A h' _ [H1 H2]. split; [exact H1|].
        destruct (is_elast_at _ _ _ _ _ _ H2) as [H4 H5]. split; [exact H4|]. intros k s Hk.
        pose proof (Lg _ sv k (sp_mat s) (HD k Hk) Hk) as L.
        destruct (fw_gradient fw (seen kd (right_CG (value33 h F k))) (sv_at sv k) (sp_mat s)) as [ms r] eqn:Er.
        unfold outcome in L. rewrite Er in L. cbn [snd] in L. subst r.
        pose proof (Lh _ sv k ms (HD k Hk) Hk) as L'.
        pose proof (H5 k Hk) as Y. revert Y Er.
        destruct (pg (seen kd (right_CG (value33 h F k))) (sv_at sv k)) as [g svk] eqn:Ep. intros Y Er.
        rewrite (sp_hessian_ok fw o kd _ _ _ _ _ _ Er), L'. now rewrite <- Y. }
    unfold E. destruct kd; cbn [nd_sp_hessian].
    - eapply W_conseq.
      { apply (def_hessian_W mat sv_at pg ph D T tg th o Hg Hh (hnext h) h F _ sv (le_n _) HF HD).
        - intros A1 A2 A3. now apply (Ho eq_refl A1 A2).
        - intros A1 A2. now apply (Ho eq_refl A1 A2). }
      { apply le_n. }
      cbv beta. intros r h' _ [_ [H1 H2]]. split; [exact H1|exact H2].
    - eapply W_conseq.
      { apply (dis_hessian_W mat sv_at pg ph D T tg th o Hg Hh (hnext h) h F _ sv (le_n _) HF HD). exact (Ha eq_refl). }
      { apply le_n. }
      cbv beta. intros r h' _ [_ [H1 H2]]. split; [exact H1|exact H2].
    - eapply W_conseq.
      { apply (dil_hessian_W mat sv_at pg ph D T tg th o Hg Hh (hnext h) h F _ sv (le_n _) HF HD). }
      { apply le_n. }
      cbv beta. intros r h' _ [_ [H1 H2]]. split; [exact H1|exact H2].
  Qed.

  (** Without the agreement hypothesis: one decision [b] for the whole batch. *)
  Lemma dis_batch o h F sv : field h F i33 T ->
    (forall k, inb T k -> D (seen KDistortional (right_CG (value33 h F k)))) ->
    returns h (nd_dis_hessian mat o F sv) (fun A h' =>
      fresh h h' A /\ field h' A (elast_kind o) T /\ exists b, batch_flag sv_at ph T (value h F i33) sv b /\
      forall k, inb T k -> elast_at o h' A k = piola_elast o (value33 h F k)
        (kS KDistortional (right_CG (value33 h F k)) (fst (pg (seen KDistortional (right_CG (value33 h F k))) (sv_at sv k))))
        (kdetF KDistortional (right_CG (value33 h F k)))
        (dis_C4f b (right_CG (value33 h F k)) (fst (pg (seen KDistortional (right_CG (value33 h F k))) (sv_at sv k)))
           (ph (seen KDistortional (right_CG (value33 h F k))) (sv_at sv k)))
        (kinvC KDistortional (right_CG (value33 h F k)))).
  Proof.
    intros HF HD. apply field_hrel in HF.
    eapply W_returns; [apply (dis_hessian_Wb mat sv_at pg ph D T tg th o Hg Hh (hnext h) h F _ sv (le_n _) HF HD)|].
    cbv beta. intros A h' _ [_ [H1 [b [Hb H2]]]]. split; [exact H1|].
    destruct (is_elast_at _ _ _ _ _ _ H2) as [H4 H5]. split; [exact H4|]. exists b. split; [exact Hb|].
    intros k Hk. symmetry. exact (H5 k Hk).
  Qed.
  Lemma space_h_returns kd o h F sv : field h F i33 T ->
    (forall k, inb T k -> D (seen kd (right_CG (value33 h F k)))) -> roomy_h kd o ->
    returns h (nd_sp_hessian kd mat o F sv) (fun A h' => fresh h h' A /\ field h' A (elast_kind o) (outh_shape kd o)).
  Proof.
    intros HF HD Ho. destruct kd.
    - destruct (space_h KDeformation o h F sv HF HD Ho) as [h' [r [E [X [H1 [H2 _]]]]]].
      { intros N. discriminate. } exists h', r. auto.
    - destruct (dis_batch o h F sv HF HD) as [h' [r [E [X [H1 [H2 _]]]]]]. exists h', r. auto.
    - destruct (space_h KDilatational o h F sv HF HD Ho) as [h' [r [E [X [H1 [H2 _]]]]]].
      { intros N. discriminate. } exists h', r. auto.
  Qed.
End Gen.

(** ** The invariant framework: outcome at one entry *)
Section LI.
  Context {ST SV : Type} (m : NDInvModel ST) (sv_at : ST -> index -> SV) (pm : InvModel SV)
    (D : R -> R -> R -> Prop) (T : shape) (s1 s2 s3 : option shape) (hs : ix6 -> option shape).
  Hypothesis Hm : invm_ok m sv_at pm D T s1 s2 s3 hs.

  (** A heap with three constant scalar arrays. *)
  Definition cheap (J : Vec3) : heap :=
    {| hnext := 3; hcell := fun l _ => match l with 0 => J X0 | 1 => J X1 | _ => J X2 end%nat |}.
  Definition cnd (l : nat) : nd := {| loc := l; nshp := T; vw := fun k => k |}.
  Lemma crel J l : (l < 3)%nat -> hrel (cheap J) (cnd l) iS T T (fun _ _ => J (of3 l)).
  Proof.
    intros Hl. split; [exact Hl|]. split; [reflexivity|]. split; [apply sub_refl|]. split; [now left|].
    intros k Hk []. cbn. destruct l as [|[|[|]]]; try lia; reflexivity.
  Qed.
  Lemma invm_grad J sv k : D (J X0) (J X1) (J X2) -> inb T k ->
    exists g svn, inv_call pm J (sv_at sv k) = Ok (g, sv_at svn k) /\
      (o3 g X0 = None <-> s1 = None) /\ (o3 g X1 = None <-> s2 = None) /\ (o3 g X2 = None <-> s3 = None).
  Proof.
    intros HD Hk.
    destruct (io_gradient _ _ _ _ _ _ _ _ _ Hm (cheap J) (cnd 0) (cnd 1) (cnd 2) (fun _ => J X0) (fun _ => J X1) (fun _ => J X2) sv
      (crel J 0 ltac:(lia)) (crel J 1 ltac:(lia)) (crel J 2 ltac:(lia)) (fun _ _ => HD))
      as [[[[o1 o2] o3'] svn] [h' [_ [_ [p1 [p2 [p3 [E [H1 [H2 H3]]]]]]]]]].
    exists (p1 k, p2 k, p3 k), svn. split; [exact (E k Hk)|]. cbn [o3 fst snd].
    assert (G : forall o s p, oval h' o s T p -> (p k = None <-> s = None)).
    { intros o s p. destruct o, s; cbn; try tauto.
      - intros [f [_ X]]. rewrite (X k Hk). split; discriminate.
      - intros X. rewrite (X k Hk). tauto. }
    split; [exact (G _ _ _ H1)|]. split; [exact (G _ _ _ H2)|exact (G _ _ _ H3)].
  Qed.
  Lemma invm_hess J sv k : D (J X0) (J X1) (J X2) -> inb T k ->
    exists h, inv_callh pm J (sv_at sv k) = Ok h /\ forall v, h v = None <-> hs v = None.
  Proof.
    intros HD Hk.
    destruct (io_hessian _ _ _ _ _ _ _ _ _ Hm (cheap J) (cnd 0) (cnd 1) (cnd 2) (fun _ => J X0) (fun _ => J X1) (fun _ => J X2) sv
      (crel J 0 ltac:(lia)) (crel J 1 ltac:(lia)) (crel J 2 ltac:(lia)) (fun _ _ => HD))
      as [o [h' [_ [_ [q [E H1]]]]]].
    exists (q k). split; [exact (E k Hk)|]. intros v. specialize (H1 v).
    destruct (o v), (hs v); cbn in H1; try tauto.
    - destruct H1 as [f [_ X]]. rewrite (X k Hk). split; discriminate.
    - rewrite (H1 k Hk). tauto.
  Qed.
  Lemma inv_link_g C sv k s : inv_D D C -> inb T k ->
    outcome (fw_gradient (invariants_fw pm) C (sv_at sv k)) s = Ok (inv_pg pm C (sv_at sv k)).
  Proof.
    intros HD Hk. destruct (invm_grad (Jv C) sv k HD Hk) as [g [svn [E _]]].
    cbn [fw_gradient invariants_fw]. unfold outcome. rewrite (inv_gradient_ok pm C _ _ _ s E).
    unfold inv_pg. rewrite E. reflexivity.
  Qed.
  Lemma inv_link_h C sv k s : pat_ok s1 s2 s3 hs -> inv_D D C -> inb T k ->
    outcome (fw_hessian (invariants_fw pm) C (sv_at sv k)) s = Ok (inv_ph pm C (sv_at sv k)).
  Proof.
    intros HP HD Hk. destruct (invm_grad (Jv C) sv k HD Hk) as [g [svn [E [G1 [G2 G3]]]]].
    destruct (invm_hess (Jv C) svn k HD Hk) as [h [Eh H]].
    cbn [fw_hessian invariants_fw]. unfold outcome. rewrite (inv_hessian_eq pm C _ _ _ _ s E Eh).
    unfold inv_ph. rewrite E, Eh. cbn [snd].
    assert (N : hess_exn g h = None).
    { destruct HP as [P0 [P1 [P2 [P3 [P4 P5]]]]].
      assert (Q : forall v, isN (h v) = isN (hs v)).
      { intros v. specialize (H v). destruct (h v), (hs v); cbn; auto; exfalso; intuition discriminate. }
      assert (Q0 : isN (o3 g X0) = isN s1) by (destruct (o3 g X0), s1; cbn; auto; exfalso; intuition discriminate).
      assert (Q1 : isN (o3 g X1) = isN s2) by (destruct (o3 g X1), s2; cbn; auto; exfalso; intuition discriminate).
      assert (Q2 : isN (o3 g X2) = isN s3) by (destruct (o3 g X2), s3; cbn; auto; exfalso; intuition discriminate).
      unfold hess_exn. cbv zeta. rewrite !Q, Q0, Q1, Q2.
      destruct (hs V0), (hs V1), (hs V2), (hs V3), (hs V4), (hs V5); cbn [isN negb andb] in *;
        repeat match goal with
        | P : Some _ <> None -> _ |- _ => specialize (P ltac:(discriminate))
        end;
        destruct s1, s2, s3; cbn; auto; exfalso; intuition congruence. }
    rewrite N. reflexivity.
  Qed.
End LI.

(** ** The stretch framework: outcome at one entry *)
Section LS.
  Context {SV : Type} (lapack : Lapack) (pm : StretchModel SV)
    (pg : Vec3 -> SV -> Vec3 * SV) (ph : Vec3 -> SV -> ix6 -> option R) (D : Vec3 -> Prop) (ok : SV -> Prop).
  Hypothesis Pg : forall l sv s, D l -> ok sv -> outcome (sm_gradient pm l sv) s = Ok (pg l sv) /\ ok (snd (pg l sv)).
  Hypothesis Ph : forall l sv s, D l -> ok sv -> outcome (sm_hessian pm l sv) s = Ok (ph l sv).
  Lemma str_link_g C sv s : str_D lapack D C -> ok sv ->
    outcome (fw_gradient (stretches_fw lapack pm) C sv) s = Ok (str_pg lapack pg C sv).
  Proof.
    intros HD Hok. cbn [fw_gradient stretches_fw]. destruct (Pg _ sv (st_model pm s) HD Hok) as [E _].
    unfold outcome in *. destruct (sm_gradient pm (lam lapack C) sv (st_model pm s)) as [ms r] eqn:Er. cbn [snd] in E. subst r.
    unfold str_pg. destruct (pg (lam lapack C) sv) as [g svn].
    rewrite (str_gradient_ok lapack pm C sv s ms g svn Er). reflexivity.
  Qed.
  Lemma str_link_h C sv s : str_D lapack D C -> ok sv ->
    outcome (fw_hessian (stretches_fw lapack pm) C sv) s = Ok (str_ph lapack pg ph C sv).
  Proof.
    intros HD Hok. cbn [fw_hessian stretches_fw]. destruct (Pg _ sv (st_model pm s) HD Hok) as [E Hk].
    unfold outcome in *. destruct (sm_gradient pm (lam lapack C) sv (st_model pm s)) as [ms r] eqn:Er. cbn [snd] in E. subst r.
    unfold str_ph. destruct (pg (lam lapack C) sv) as [g svn]. cbn [snd] in Hk.
    pose proof (Ph _ svn ms HD Hk) as E'.
    destruct (sm_hessian pm (lam lapack C) svn ms) as [ms' r'] eqn:Er'. cbn [snd] in E'. subst r'.
    destruct (str_hessian_ok lapack pm C sv s ms g svn ms' _ Er Er') as [s' [E2 _]]. rewrite E2. reflexivity.
  Qed.
End LS.
