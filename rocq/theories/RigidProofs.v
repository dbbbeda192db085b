(** * Proofs for C79. *)
From Coq Require Import Reals Lra Lia List FunctionalExtensionality.
From Verif Require Import Tensor Py Voigt Algebra Models Frameworks Spaces Spec PiolaProofs SpaceCore SpaceProofs NewtonSpec NewtonLin RigidSpec.
Import ListNotations.
Local Open Scope R_scope.

Lemma sum3_ext f g : (forall i, f i = g i) -> sum3 f = sum3 g.
Proof. intro H. unfold sum3. rewrite !H. reflexivity. Qed.
Lemma stress_form (SV : Type) k (fw : Framework SV) sv F P : pm_stress (material k fw sv) F P -> exists S6, P = mmul F (astensor S6).
Proof.
  intros (s & svn & H).
  destruct (outcome (fw_gradient fw (seen k (right_CG F)) sv) (sp_mat s)) as [[g sv']|e] eqn:E.
  - rewrite (sp_gradient_ok fw default_opts k F sv s g sv' E), default_stress in H. injection H as <- _. eexists; reflexivity.
  - rewrite (sp_gradient_raise fw default_opts k F sv s e E) in H. discriminate.
Qed.
Lemma tangent_form (SV : Type) k (fw : Framework SV) sv F A : pm_tangent (material k fw sv) F A ->
  exists S6 C4, A = t4add (legs13 F (astensor4 C4)) (geo one2 (astensor S6)) /\ pm_stress (material k fw sv) F (mmul F (astensor S6)).
Proof.
  intros (s & H).
  destruct (fw_gradient fw (seen k (right_CG F)) sv (sp_mat s)) as [ms [[g sv']|e]] eqn:E.
  - rewrite (sp_hessian_ok fw default_opts k F sv s g sv' ms E) in H.
    destruct (outcome (fw_hessian fw (seen k (right_CG F)) sv) ms) as [h|e]; [|discriminate].
    rewrite default_elast in H. injection H as <-. eexists; eexists; split; [reflexivity|].
    exists s, sv'. rewrite (sp_gradient_ok fw default_opts k F sv s g sv'); [reflexivity|]. unfold outcome. rewrite E. reflexivity.
  - assert (E' : outcome (fw_gradient fw (seen k (right_CG F)) sv) (sp_mat s) = Raise e) by (unfold outcome; rewrite E; reflexivity).
    rewrite (sp_hessian_graise fw default_opts k F sv s e E') in H. discriminate.
Qed.
Lemma astensor_sym S6 i j : astensor S6 i j = astensor S6 j i.
Proof. unfold astensor. destruct i, j; reflexivity. Qed.
Lemma moment_form M F P : space_material M -> pm_stress M F P -> forall i j, mmul P (mtr F) i j = mmul P (mtr F) j i.
Proof.
  intros (SV & k & fw & sv & ->) H i j. destruct (stress_form SV k fw sv F P H) as [S6 ->].
  unfold mmul, mtr, sum3. rewrite !(astensor_sym S6 X1 X0), !(astensor_sym S6 X2 X0), !(astensor_sym S6 X2 X1). ring.
Qed.
Lemma spin_form M F A : space_material M -> pm_tangent M F A -> exists P, pm_stress M F P /\ forall W, skew W -> forall i j, dc42 A (mmul W F) i j = mmul W P i j.
Proof.
  intros (SV & k & fw & sv & ->) H. destruct (tangent_form SV k fw sv F A H) as (S6 & C4 & -> & HP).
  exists (mmul F (astensor S6)). split; [exact HP|]. intros W HW i j.
  set (X := mmul (mtr F) (mmul W F)).
  assert (SX : forall i j, X i j = - X j i).
  { intros p q. unfold X, mmul, mtr, sum3.
    pose proof (HW X0 X0). pose proof (HW X1 X1). pose proof (HW X2 X2).
    rewrite (HW X1 X0), (HW X2 X0), (HW X2 X1). replace (W X0 X0) with 0 by lra. replace (W X1 X1) with 0 by lra. replace (W X2 X2) with 0 by lra. ring. }
  assert (Z : forall I, dc42 (astensor4 C4) X I j = 0).
  { intro I. unfold dc42, astensor4, sum3. pose proof (SX X0 X0). pose proof (SX X1 X1). pose proof (SX X2 X2).
    rewrite (SX X1 X0), (SX X2 X0), (SX X2 X1). replace (X X0 X0) with 0 by lra. replace (X X1 X1) with 0 by lra. replace (X X2 X2) with 0 by lra.
    cbn [vix]. ring. }
  replace (dc42 (t4add (legs13 F (astensor4 C4)) (geo one2 (astensor S6))) (mmul W F) i j)
    with (sum3 (fun I => F i I * dc42 (astensor4 C4) X I j) + dc42 (geo one2 (astensor S6)) (mmul W F) i j).
  - rewrite (sum3_ext (fun I => F i I * dc42 (astensor4 C4) X I j) (fun _ => 0)) by (intro; rewrite Z; ring).
    unfold dc42, geo, mmul, one2, delta, sum3. rewrite !(astensor_sym S6 j). destruct i; cbn; ring.
  - unfold dc42, t4add, legs13, X, mmul, mtr, sum3. ring.
Qed.
Lemma rotated_stress M F P Q : space_material M -> orthogonal Q -> pm_stress M F P -> pm_stress M (mmul Q F) (mmul Q P).
Proof.
  intros (SV & k & fw & sv & ->) HQ (s & svn & H). exists s, svn.
  rewrite (proj1 (frame_indifference fw default_opts k Q F sv s HQ)), H. cbn [rmap fst snd rot_stress default_opts force area leg].
  rewrite ?mtr_one, ?mmul_1_r. reflexivity.
Qed.
Definition rotA (Q : T2) (A : T4) : T4 := fun i j k l => sum3 (fun I => sum3 (fun K => Q i I * Q k K * A I j K l)).
Lemma rotated_tangent M F A Q : space_material M -> orthogonal Q -> pm_tangent M F A -> pm_tangent M (mmul Q F) (rotA Q A).
Proof.
  intros (SV & k & fw & sv & ->) HQ (s & H). exists s.
  rewrite (proj2 (frame_indifference fw default_opts k Q F sv s HQ)), H. cbn [rmap rot_elast default_opts force area leg].
  do 2 f_equal. apply T4_ext; intros i j k' l. unfold rotA, one2, delta, sum3. destruct j, l; cbn; ring.
Qed.

Section Nodes.
  Variables (m : nat).
  Definition nf (body : list NPoint) (P : list T2) (p : nat) (i : ix3) : R :=
    fold_right Rplus 0 (map (fun qs => n_weight (fst qs) * sum3 (fun j => snd qs i j * n_grad (fst qs) p j)) (combine body P)).
  Definition nk (body : list NPoint) (A : list T4) (p : nat) (i : ix3) (r : nat) (k : ix3) : R :=
    fold_right Rplus 0 (map (fun qa => n_weight (fst qa) * sum3 (fun j => sum3 (fun l => n_grad (fst qa) p j * snd qa i j k l * n_grad (fst qa) r l))) (combine body A)).
  Lemma nf_cons q body s P p i : nf (q :: body) (s :: P) p i = n_weight q * sum3 (fun j => s i j * n_grad q p j) + nf body P p i.
  Proof. reflexivity. Qed.
  Lemma nk_cons q body s A p i r k : nk (q :: body) (s :: A) p i r k = n_weight q * sum3 (fun j => sum3 (fun l => n_grad q p j * s i j k l * n_grad q r l)) + nk body A p i r k.
  Proof. reflexivity. Qed.
  Lemma total_force body P : partition_of_unity m body -> forall i, sumn m (fun p => nf body P p i) = 0.
  Proof.
    intros H i. revert P. induction H as [|q body Hq _ IH]; intro P.
    - apply sumn_0. intros. reflexivity.
    - destruct P as [|s P]; [apply sumn_0; intros; reflexivity|].
      rewrite (sumn_ext m _ (fun p => n_weight q * sum3 (fun j => s i j * n_grad q p j) + nf body P p i)) by (intros; apply nf_cons).
      rewrite sumn_plus, IH, Rplus_0_r. unfold sum3.
      rewrite (sumn_ext m _ (fun p => (n_weight q * s i X0) * n_grad q p X0 + (n_weight q * s i X1) * n_grad q p X1 + (n_weight q * s i X2) * n_grad q p X2)) by (intros; ring).
      rewrite !sumn_plus, !sumn_scal, !Hq. ring.
  Qed.
  Lemma total_moment x body P : List.Forall (fun q => space_material (n_material q)) body ->
    List.Forall2 (fun q s => pm_stress (n_material q) (gradient_at m x q) s) body P ->
    forall i j, sumn m (fun p => x p i * nf body P p j) = sumn m (fun p => x p j * nf body P p i).
  Proof.
    intros HM H i j. induction H as [|q s body P Hq _ IH].
    - rewrite !sumn_0; [reflexivity| |]; intros; unfold nf; cbn; ring.
    - inversion HM as [|? ? M1 M2]; subst.
      assert (E : forall a b, sumn m (fun p => x p a * nf (q :: body) (s :: P) p b) = n_weight q * mmul s (mtr (gradient_at m x q)) b a + sumn m (fun p => x p a * nf body P p b)).
      { intros a b. rewrite (sumn_ext m _ (fun p => ((n_weight q * s b X0) * (x p a * n_grad q p X0) + (n_weight q * s b X1) * (x p a * n_grad q p X1) + (n_weight q * s b X2) * (x p a * n_grad q p X2)) + x p a * nf body P p b))
          by (intros; rewrite nf_cons; unfold sum3; ring).
        rewrite !sumn_plus, !sumn_scal. unfold mmul, mtr, gradient_at, sum3. ring. }
      rewrite !E, (IH M2), (moment_form _ _ _ M1 Hq j i). reflexivity.
  Qed.
  Lemma moved Q c x q : (forall j, sumn m (fun p => n_grad q p j) = 0) -> gradient_at m (fun p i => act Q (x p) i + c i) q = mmul Q (gradient_at m x q).
  Proof.
    intro H. apply T2_ext. intros i j. unfold gradient_at, mmul, act, sum3.
    rewrite (sumn_ext m _ (fun p => Q i X0 * (x p X0 * n_grad q p j) + Q i X1 * (x p X1 * n_grad q p j) + Q i X2 * (x p X2 * n_grad q p j) + c i * n_grad q p j)) by (intros; ring).
    rewrite !sumn_plus, !sumn_scal, H. ring.
  Qed.
  Lemma moved_forces Q c x f body : orthogonal Q -> List.Forall (fun q => space_material (n_material q)) body -> partition_of_unity m body ->
    nodal_forces m body x f -> nodal_forces m body (fun p i => act Q (x p) i + c i) (fun p => act Q (f p)).
  Proof.
    intros HQ HM HU (P & HP & HE). exists (map (mmul Q) P). split.
    - clear HE. induction HP as [|q s body P Hq _ IH]; [constructor|]. inversion HM; inversion HU; subst. cbn [map]. constructor; [|apply IH; auto].
      rewrite moved by assumption. apply rotated_stress; assumption.
    - intros p i Lp. unfold act. rewrite (sum3_ext _ (fun j => Q i j * nf body P p j)) by (intro; rewrite HE by exact Lp; reflexivity).
      change (sum3 (fun j => Q i j * nf body P p j) = nf body (map (mmul Q) P) p i).
      clear HE HP HM HU. revert P. induction body as [|q body IH]; intros [|s P]; try (unfold nf, sum3; cbn; ring).
      cbn [map]. rewrite !nf_cons, <- IH. unfold sum3. rewrite !nf_cons. unfold mmul, sum3. ring.
  Qed.
  Lemma moved_stiffness Q c x K body : orthogonal Q -> List.Forall (fun q => space_material (n_material q)) body -> partition_of_unity m body ->
    nodal_stiffness m body x K -> nodal_stiffness m body (fun p i => act Q (x p) i + c i) (fun p i r k => sum3 (fun a => sum3 (fun b => Q i a * Q k b * K p a r b))).
  Proof.
    intros HQ HM HU (A & HA & HE). exists (map (rotA Q) A). split.
    - clear HE. induction HA as [|q s body A Hq _ IH]; [constructor|]. inversion HM; inversion HU; subst. cbn [map]. constructor; [|apply IH; auto].
      rewrite moved by assumption. apply rotated_tangent; assumption.
    - intros p i r k Lp Lr. rewrite (sum3_ext _ (fun a => sum3 (fun b => Q i a * Q k b * nk body A p a r b))).
      2:{ intro a. apply sum3_ext. intro b. rewrite HE by assumption. reflexivity. }
      change (sum3 (fun a => sum3 (fun b => Q i a * Q k b * nk body A p a r b)) = nk body (map (rotA Q) A) p i r k).
      clear HE HA HM HU. revert A. induction body as [|q body IH]; intros [|s A]; try (unfold nk, sum3; cbn; ring).
      cbn [map]. rewrite nk_cons, <- IH. unfold sum3. rewrite !nk_cons. unfold rotA, sum3. ring.
  Qed.
  (** K times a translation *)
  Lemma translate body A : partition_of_unity m body -> forall c p i, times m (nk body A) (fun _ => c) p i = 0.
  Proof.
    intros H c p i. unfold times. revert A. induction H as [|q body Hq _ IH]; intro A.
    - apply sumn_0. intros. unfold nk, sum3; cbn. ring.
    - destruct A as [|s A]; [apply sumn_0; intros; unfold nk, sum3; cbn; ring|].
      set (h := fun l => n_weight q * sum3 (fun k => sum3 (fun j => n_grad q p j * s i j k l * c k))).
      rewrite (sumn_ext m _ (fun r => (h X0 * n_grad q r X0 + h X1 * n_grad q r X1 + h X2 * n_grad q r X2) + sum3 (fun k => nk body A p i r k * c k))).
      2:{ intros. unfold h, sum3. rewrite !nk_cons. unfold sum3. ring. }
      rewrite sumn_plus, IH, !sumn_plus, !sumn_scal, !Hq. ring.
  Qed.
  (** K times a displacement = the change of the forces the tangents predict *)
  Lemma times_body body A w p i : times m (nk body A) w p i =
    fold_right Rplus 0 (map (fun qa => n_weight (fst qa) * sum3 (fun j => n_grad (fst qa) p j * dc42 (snd qa) (gradient_at m w (fst qa)) i j)) (combine body A)).
  Proof.
    unfold times. revert A. induction body as [|q body IH]; intro A.
    - apply sumn_0. intros. unfold nk, sum3; cbn. ring.
    - destruct A as [|s A]; [apply sumn_0; intros; unfold nk, sum3; cbn; ring|]. cbn [combine map fold_right fst snd]. rewrite <- IH.
      set (h := fun k l => n_weight q * sum3 (fun j => n_grad q p j * s i j k l)).
      rewrite (sumn_ext m _ (fun r => (h X0 X0 * (w r X0 * n_grad q r X0) + h X0 X1 * (w r X0 * n_grad q r X1) + h X0 X2 * (w r X0 * n_grad q r X2)
        + h X1 X0 * (w r X1 * n_grad q r X0) + h X1 X1 * (w r X1 * n_grad q r X1) + h X1 X2 * (w r X1 * n_grad q r X2)
        + h X2 X0 * (w r X2 * n_grad q r X0) + h X2 X1 * (w r X2 * n_grad q r X1) + h X2 X2 * (w r X2 * n_grad q r X2)) + sum3 (fun k => nk body A p i r k * w r k))).
      2:{ intros. unfold h, sum3. rewrite !nk_cons. unfold sum3. ring. }
      rewrite !sumn_plus, !sumn_scal. unfold gradient_at, h, dc42, sum3. ring.
  Qed.
  Lemma gradient_spin W x q : gradient_at m (fun r => act W (x r)) q = mmul W (gradient_at m x q).
  Proof.
    apply T2_ext. intros i j. unfold gradient_at, mmul, act, sum3.
    rewrite (sumn_ext m _ (fun p => W i X0 * (x p X0 * n_grad q p j) + W i X1 * (x p X1 * n_grad q p j) + W i X2 * (x p X2 * n_grad q p j))) by (intros; ring).
    rewrite !sumn_plus, !sumn_scal. ring.
  Qed.
  Lemma spin x body A : List.Forall (fun q => space_material (n_material q)) body ->
    List.Forall2 (fun q a => pm_tangent (n_material q) (gradient_at m x q) a) body A ->
    exists P, List.Forall2 (fun q s => pm_stress (n_material q) (gradient_at m x q) s) body P /\
      forall W, skew W -> forall p i, times m (nk body A) (fun r => act W (x r)) p i = act W (nf body P p) i.
  Proof.
    intros HM HA. induction HA as [|q a body A Hq _ IH].
    - exists []. split; [constructor|]. intros W _ p i. rewrite times_body. unfold act, nf, sum3; cbn. ring.
    - inversion HM as [|? ? M1 M2]; subst. destruct (IH M2) as (P & HP & HS). destruct (spin_form _ _ _ M1 Hq) as (s & S1 & S2).
      exists (s :: P). split; [constructor; auto|]. intros W HW p i. rewrite times_body. cbn [combine map fold_right fst snd]. rewrite <- times_body, (HS W HW).
      rewrite gradient_spin. unfold act. rewrite (sum3_ext (fun j => W i j * nf (q :: body) (s :: P) p j) (fun j => W i j * (n_weight q * sum3 (fun j0 => s j j0 * n_grad q p j0) + nf body P p j))) by (intro; rewrite nf_cons; reflexivity).
      rewrite (sum3_ext (fun j => n_grad q p j * dc42 a (mmul W (gradient_at m x q)) i j) (fun j => n_grad q p j * mmul W s i j)) by (intro; rewrite (S2 W HW); reflexivity).
      unfold mmul, sum3. ring.
  Qed.
End Nodes.
