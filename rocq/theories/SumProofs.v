(** Superposition (C75). *)
From Coq Require Import Reals Lra FunctionalExtensionality List Bool Permutation.
From Coquelicot Require Import Coquelicot.
From Verif Require Import Tensor Py Voigt VoigtProofs Algebra Calc Models Frameworks Spaces Spec VCalc ModelProofs GenProofs
  InvCore InvProofs IsoProofs SpaceCore StrCore PiolaProofs SpaceProofs DistProofs SpaceMore SpecialProofs Counter Dilatational ScaleProofs.
Local Open Scope R_scope.

(** ** Specification *)
(** Material [fw] is [fw1] and [fw2] in parallel: where both return (and agree on the new
    state variables), [fw] returns the sum of the gradients and the sum of the hessians. *)
Definition parallel {SV} (fw1 fw2 fw : Framework SV) : Prop := forall C sv s1 s2 s G1 G2 svn,
  outcome (fw_gradient fw1 C sv) s1 = Ok (G1, svn) -> outcome (fw_gradient fw2 C sv) s2 = Ok (G2, svn) ->
  outcome (fw_gradient fw C sv) s = Ok (fun v => G1 v + G2 v, svn) /\
  forall t1 t2 t H1 H2, outcome (fw_hessian fw1 C sv) t1 = Ok H1 -> outcome (fw_hessian fw2 C sv) t2 = Ok H2 ->
    outcome (fw_hessian fw C sv) t = Ok (fun v w => H1 v w + H2 v w).
(** The same for models of the stretches; a missing entry of the hessian is 0. *)
Definition parallel_sm {SV} (m1 m2 m : StretchModel SV) : Prop := forall l sv s1 s2 s g1 g2 svn,
  outcome (sm_gradient m1 l sv) s1 = Ok (g1, svn) -> outcome (sm_gradient m2 l sv) s2 = Ok (g2, svn) ->
  outcome (sm_gradient m l sv) s = Ok (fun a => g1 a + g2 a, svn) /\
  forall tv t1 t2 t h1 h2, outcome (sm_hessian m1 l tv) t1 = Ok h1 -> outcome (sm_hessian m2 l tv) t2 = Ok h2 ->
    exists h, outcome (sm_hessian m l tv) t = Ok h /\ forall v, val (h v) = val (h1 v) + val (h2 v).
(** The model class whose methods return the sums of what the methods of m1 and m2 return; None + None = None. *)
Definition oadd (x y : option R) : option R :=
  match x, y with None, None => None | _, _ => Some (val x + val y) end.
Definition sum_inv (m1 m2 : InvModel unit) : InvModel unit :=
  {| im_gradient := fun I1 I2 I3 sv => rbind (im_gradient m1 I1 I2 I3 sv) (fun '((a1, a2, a3), _) =>
       rbind (im_gradient m2 I1 I2 I3 sv) (fun '((b1, b2, b3), _) => Ok ((oadd a1 b1, oadd a2 b2, oadd a3 b3), tt)));
     im_hessian := fun I1 I2 I3 sv => rbind (im_hessian m1 I1 I2 I3 sv) (fun h1 =>
       rbind (im_hessian m2 I1 I2 I3 sv) (fun h2 => Ok (fun v => oadd (h1 v) (h2 v)))) |}.
Definition add_stress (x y : StressOut) : StressOut :=
  match x, y with
  | StressFull P, StressFull Q => StressFull (fun i j => P i j + Q i j)
  | StressVoigt P, StressVoigt Q => StressVoigt (fun v => P v + Q v)
  | _, _ => x end.
Definition add_elast (x y : ElastOut) : ElastOut :=
  match x, y with
  | ElastFull A, ElastFull B => ElastFull (fun i j k l => A i j k l + B i j k l)
  | ElastVoigt A, ElastVoigt B => ElastVoigt (fun v w => A v w + B v w)
  | _, _ => x end.
(** The model's hessian has no entry d2W/dI3dI3. *)
Definition no_W33 {SV} (m : InvModel SV) : Prop := forall J sv h, inv_callh m J sv = Ok h -> h V2 = None.

(** ** Spaces *)
Lemma piola_stress_add o F S1 S2 d : piola_stress o F (fun v => S1 v + S2 v) d = add_stress (piola_stress o F S1 d) (piola_stress o F S2 d).
Proof.
  destruct (finalize o) eqn:E; [|unfold piola_stress; rewrite E; reflexivity].
  rewrite !piola_stress_eq by auto. cbn [add_stress]. f_equal. unfold pf_stress.
  apply T2_ext; intros i j. destruct (area o); unfold mmul, astensor, sum3, Rdiv; ring.
Qed.
Lemma piola_elast_add o F S1 S2 d A B ic :
  piola_elast o F (fun v => S1 v + S2 v) d (fun v w => A v w + B v w) ic = add_elast (piola_elast o F S1 d A ic) (piola_elast o F S2 d B ic).
Proof.
  destruct (finalize o) eqn:E; [|unfold piola_elast; rewrite E; reflexivity].
  rewrite !piola_elast_eq by auto. cbn [add_elast]. f_equal. unfold pf_elast.
  do 4 (apply functional_extensionality; intro).
  destruct (area o), (force o); unfold t4add, legs24, legs13, geo, astensor, astensor4, sum3, Rdiv; ring.
Qed.
Lemma kS_add k C g1 g2 : kS k C (fun v => g1 v + g2 v) = fun v => kS k C g1 v + kS k C g2 v.
Proof. apply Vec6_ext; intro v. destruct k; cbn [kS kSb]; unfold vsub, vscal, trace, ddot22, sum6; field. Qed.
Lemma kC4_add k C g1 g2 H1 H2 : k <> KDistortional ->
  kC4 k C (fun v => g1 v + g2 v) (fun v w => H1 v w + H2 v w) = fun v w => kC4 k C g1 H1 v w + kC4 k C g2 H2 v w.
Proof.
  intro Hk. apply Mat6_ext; intros v w. destruct k; [| contradiction|]; unfold kC4; cbv zeta.
  - unfold mscal6. ring.
  - unfold msub6, mscal6. generalize (cdya1 (inv C (Some (det C))) v w); intro y.
    cbn [kSb]. unfold trace, vscal, ddot22, ddot24, dya, sum6. ring.
Qed.
Lemma dis_C4_add C g1 g2 H1 H2 : dis_C4 C (fun v => g1 v + g2 v) (fun v w => H1 v w + H2 v w) = fun v w => dis_C4 C g1 H1 v w + dis_C4 C g2 H2 v w.
Proof.
  apply Mat6_ext; intros v w. unfold dis_C4; cbv zeta. unfold madd6, msub6, mscal6, transpose, dya.
  generalize (cdya1 (inv C None)); intro Y. generalize (cdya1 eye); intro Z.
  cbn [kSb]. unfold vscal, ddot22, ddot44, sum6. field.
Qed.
Section Sp.
  Context {SV : Type} (fw1 fw2 fw : Framework SV) (HP : parallel fw1 fw2 fw).
  Lemma space_sum_grad k o F sv s1 s2 s P1 P2 svn : 
    outcome (sp_gradient k fw1 o F sv) s1 = Ok (P1, svn) -> outcome (sp_gradient k fw2 o F sv) s2 = Ok (P2, svn) ->
    outcome (sp_gradient k fw o F sv) s = Ok (add_stress P1 P2, svn).
  Proof.
    intros E1 E2.
    destruct (outcome (fw_gradient fw1 (seen k (right_CG F)) sv) (sp_mat s1)) as [[g1 svn1]|e] eqn:G1;
      [rewrite (sp_gradient_ok fw1 _ _ _ _ _ _ _ G1) in E1|rewrite (sp_gradient_raise fw1 _ _ _ _ _ _ G1) in E1; discriminate].
    destruct (outcome (fw_gradient fw2 (seen k (right_CG F)) sv) (sp_mat s2)) as [[g2 svn2]|e] eqn:G2;
      [rewrite (sp_gradient_ok fw2 _ _ _ _ _ _ _ G2) in E2|rewrite (sp_gradient_raise fw2 _ _ _ _ _ _ G2) in E2; discriminate].
    injection E1 as <- ->. injection E2 as <- ->.
    destruct (HP _ _ _ _ (sp_mat s) _ _ _ G1 G2) as [X _].
    rewrite (sp_gradient_ok fw _ _ _ _ _ _ _ X), kS_add, piola_stress_add. reflexivity.
  Qed.
  Lemma space_sum_hess k o F sv s1 s2 s A1 A2 svn P1 P2 :
    outcome (sp_gradient k fw1 o F sv) s1 = Ok (P1, svn) -> outcome (sp_gradient k fw2 o F sv) s2 = Ok (P2, svn) ->
    outcome (sp_hessian k fw1 o F sv) s1 = Ok A1 -> outcome (sp_hessian k fw2 o F sv) s2 = Ok A2 ->
    (k = KDistortional -> significant_at fw1 F /\ significant_at fw2 F /\ significant_at fw F) ->
    outcome (sp_hessian k fw o F sv) s = Ok (add_elast A1 A2).
  Proof.
    intros E1 E2 A1' A2' Hk.
    destruct (outcome (fw_gradient fw1 (seen k (right_CG F)) sv) (sp_mat s1)) as [[g1 svn1]|e] eqn:G1;
      [rewrite (sp_gradient_ok fw1 _ _ _ _ _ _ _ G1) in E1|rewrite (sp_gradient_raise fw1 _ _ _ _ _ _ G1) in E1; discriminate].
    destruct (outcome (fw_gradient fw2 (seen k (right_CG F)) sv) (sp_mat s2)) as [[g2 svn2]|e] eqn:G2;
      [rewrite (sp_gradient_ok fw2 _ _ _ _ _ _ _ G2) in E2|rewrite (sp_gradient_raise fw2 _ _ _ _ _ _ G2) in E2; discriminate].
    injection E1 as <- ->. injection E2 as <- ->.
    destruct (HP _ _ _ _ (sp_mat s) _ _ _ G1 G2) as [X Y].
    destruct (outcome_pair _ _ _ G1) as [t1 T1], (outcome_pair _ _ _ G2) as [t2 T2], (outcome_pair _ _ _ X) as [t T].
    rewrite (sp_hessian_ok fw1 _ _ _ _ _ _ _ _ T1) in A1'. rewrite (sp_hessian_ok fw2 _ _ _ _ _ _ _ _ T2) in A2'.
    rewrite (sp_hessian_ok fw _ _ _ _ _ _ _ _ T).
    destruct (outcome (fw_hessian fw1 (seen k (right_CG F)) sv) t1) as [H1|e] eqn:EH1; [|discriminate].
    destruct (outcome (fw_hessian fw2 (seen k (right_CG F)) sv) t2) as [H2|e] eqn:EH2; [|discriminate].
    injection A1' as <-. injection A2' as <-. assert (Z := Y t1 t2 t H1 H2 EH1 EH2). rewrite Z, kS_add.
    assert (K : kC4 k (right_CG F) (fun v => g1 v + g2 v) (fun v w => H1 v w + H2 v w) = fun v w => kC4 k (right_CG F) g1 H1 v w + kC4 k (right_CG F) g2 H2 v w).
    { destruct (match k with KDistortional => true | _ => false end) eqn:Ek.
      - assert (k = KDistortional) by (destruct k; congruence). subst k. destruct (Hk eq_refl) as (S1 & S2 & S3).
        assert (Z1 := significant_of fw1 F S1 sv t1). assert (Z2 := significant_of fw2 F S2 sv t2). assert (Z3 := significant_of fw F S3 sv t).
        rewrite <- right_CG_cauchy in Z1, Z2, Z3.
        rewrite !kC4_exact; [apply dis_C4_add|exact (Z2 _ EH2)|exact (Z1 _ EH1)|exact (Z3 _ Z)].
      - apply kC4_add. intro; subst; discriminate. }
    rewrite K, piola_elast_add. reflexivity.
  Qed.
End Sp.

(** ** Invariants *)
Lemma val_oadd x y : val (oadd x y) = val x + val y.
Proof. destruct x, y; cbn; ring. Qed.
Lemma isN_oadd x y : isN (oadd x y) = (isN x && isN y)%bool.
Proof. destruct x, y; reflexivity. Qed.
Definition adds {SV} (m1 m2 m : InvModel SV) : Prop := forall J sv g1 g2 svn,
  inv_call m1 J sv = Ok (g1, svn) -> inv_call m2 J sv = Ok (g2, svn) ->
  exists g, inv_call m J sv = Ok (g, svn) /\ (forall k, val (o3 g k) = val (o3 g1 k) + val (o3 g2 k)) /\
  forall sv' h1 h2, inv_callh m1 J sv' = Ok h1 -> inv_callh m2 J sv' = Ok h2 ->
    exists h, inv_callh m J sv' = Ok h /\ (forall v, val (h v) = val (h1 v) + val (h2 v)) /\ (h1 V2 = None -> h2 V2 = None -> h V2 = None) /\
      (hess_exn g1 h1 = None -> hess_exn g2 h2 = None -> hess_exn g h = None).
Lemma invariants_sum {SV} (m1 m2 m : InvModel SV) : adds m1 m2 m -> no_W33 m1 -> no_W33 m2 ->
  parallel (invariants_fw m1) (invariants_fw m2) (invariants_fw m).
Proof.
  intros HA N1 N2 C sv s1 s2 s G1 G2 svn E1 E2. cbn [invariants_fw fw_gradient fw_hessian] in *. unfold outcome in *.
  destruct (inv_call m1 (Jv C) sv) as [[g1 svn1]|e] eqn:I1; [|destruct (inv_gradient_raise _ _ _ _ s1 I1) as [? Q]; rewrite Q in E1; discriminate].
  destruct (inv_call m2 (Jv C) sv) as [[g2 svn2]|e] eqn:I2; [|destruct (inv_gradient_raise _ _ _ _ s2 I2) as [? Q]; rewrite Q in E2; discriminate].
  rewrite (inv_gradient_ok _ _ _ _ _ s1 I1) in E1. rewrite (inv_gradient_ok _ _ _ _ _ s2 I2) in E2. injection E1 as <- ->. injection E2 as <- ->.
  destruct (HA _ _ _ _ _ I1 I2) as (g & I & Vg & Hh). rewrite (inv_gradient_ok _ _ _ _ _ s I). cbn [snd]. split.
  - f_equal. f_equal. apply Vec6_ext; intro v. unfold gradv, sum3. rewrite !Vg. ring.
  - intros t1 t2 t H1 H2 F1 F2.
    destruct (inv_callh m1 (Jv C) svn) as [h1|e] eqn:K1; [|rewrite (inv_hessian_hraise _ _ _ _ _ _ t1 I1 K1) in F1; discriminate].
    destruct (inv_callh m2 (Jv C) svn) as [h2|e] eqn:K2; [|rewrite (inv_hessian_hraise _ _ _ _ _ _ t2 I2 K2) in F2; discriminate].
    destruct (Hh _ _ _ K1 K2) as (h & K & Vh & W & X).
    rewrite (inv_hessian_eq _ _ _ _ _ _ t1 I1 K1) in F1. rewrite (inv_hessian_eq _ _ _ _ _ _ t2 I2 K2) in F2.
    rewrite (inv_hessian_eq _ _ _ _ _ _ t I K). cbn [snd] in *.
    assert (D1 := N1 _ _ _ K1). assert (D2 := N2 _ _ _ K2). assert (D := W D1 D2). rewrite D1 in F1. rewrite D2 in F2. rewrite D.
    destruct (hess_exn g1 h1); [discriminate|]. destruct (hess_exn g2 h2); [discriminate|]. rewrite X by reflexivity. cbn [isN] in *.
    injection F1 as <-. injection F2 as <-. f_equal. apply Mat6_ext; intros v w. unfold hessv, sum3. rewrite !Vg, !Vh. ring.
Qed.
Lemma hess_exn_none g h : hess_exn g h = None <->
  (isN (h V0) || negb (isN (o3 g X0)) = true /\ isN (h V1) || negb (isN (o3 g X1)) = true /\ isN (h V2) || negb (isN (o3 g X1)) = true /\
  isN (h V2) || negb (isN (h V1)) = true /\
  isN (h V3) || (negb (isN (o3 g X0)) && negb (isN (o3 g X1))) = true /\ isN (h V4) || (negb (isN (o3 g X1)) && negb (isN (o3 g X2))) = true /\
  isN (h V5) || (negb (isN (o3 g X0)) && negb (isN (o3 g X2))) = true)%bool.
Proof.
  unfold hess_exn. generalize (isN (o3 g X0)), (isN (o3 g X1)), (isN (o3 g X2)), (isN (h V0)), (isN (h V1)), (isN (h V2)), (isN (h V3)), (isN (h V4)), (isN (h V5)).
  intros a b c d e f i j k. destruct d, a, e, b, f, c, i, j, k; cbn; intuition discriminate.
Qed.
Ltac bools X Y := revert X Y; repeat match goal with |- context[isN ?t] => generalize (isN t); intro end;
  repeat match goal with b : bool |- _ => destruct b; cbn; auto end; intros; discriminate.
Lemma sum_inv_adds m1 m2 : adds m1 m2 (sum_inv m1 m2).
Proof.
  intros J [] g1 g2 svn I1 I2. unfold inv_call in *. cbn [sum_inv im_gradient]. rewrite I1, I2.
  destruct g1 as [[a1 a2] a3], g2 as [[b1 b2] b3]. cbn [rbind]. destruct svn. eexists. split; [reflexivity|].
  split; [intros []; cbn [o3 fst snd]; apply val_oadd|].
  intros sv' h1 h2 K1 K2. unfold inv_callh in *. cbn [sum_inv im_hessian]. rewrite K1, K2. cbn [rbind]. eexists. split; [reflexivity|].
  split; [intro; apply val_oadd|]. split; [intros -> ->; reflexivity|].
  rewrite !hess_exn_none. cbn [o3 fst snd]. rewrite !isN_oadd. intros (X0' & X1' & X2' & X3' & X4' & X5' & X6') (Y0 & Y1 & Y2 & Y3 & Y4 & Y5 & Y6).
  repeat split.
  - bools X0' Y0.
  - bools X1' Y1.
  - bools X2' Y2.
  - bools X3' Y3.
  - bools X4' Y4.
  - bools X5' Y5.
  - bools X6' Y6.
Qed.
Lemma tod_exn m I1 I2 I3 g : tod_gradient m I1 I2 I3 = Ok g -> hess_exn g (tod_hessian m I1 I2 I3) = None.
Proof.
  intro E. destruct (tod_gradient_ok m I1 I2 I3) as (g' & E' & _ & _ & _ & N0 & N1). rewrite E in E'. injection E' as <-.
  rewrite hess_exn_none. unfold tod_hessian.
  assert (A : forall x, nonzero x = true <-> x <> 0) by (intro x; apply nonzero_true).
  assert (B : forall o : option R, negb (isN o) = true <-> o <> None) by (intros []; cbn; split; congruence).
  destruct (nonzero (C11 m)) eqn:H1, (nonzero (C20 m)) eqn:H2, (nonzero (C30 m)) eqn:H3; cbn; rewrite ?A in *;
  repeat split; rewrite ?Bool.orb_true_r, ?Bool.andb_true_iff; auto; try (split; apply B; intro Z; tauto); try (apply B; intro Z; tauto).
Qed.
Definition tod_add (p q : TOD) : TOD :=
  {| C10 := C10 p + C10 q; C01 := C01 p + C01 q; C11 := C11 p + C11 q; C20 := C20 p + C20 q; C30 := C30 p + C30 q; undeformed := undeformed p |}.
Lemma tod_adds {SV} p q : undeformed q = undeformed p -> adds (tod_model (SV:=SV) p) (tod_model q) (tod_model (tod_add p q)).
Proof.
  intros U J sv g1 g2 svn E1 E2. unfold inv_call in *. cbn [tod_model im_gradient] in *.
  destruct (tod_gradient_ok p (J X0) (J X1) (J X2)) as (a & A & A0 & A1 & A2 & _).
  destruct (tod_gradient_ok q (J X0) (J X1) (J X2)) as (b & B & B0 & B1 & B2 & _).
  destruct (tod_gradient_ok (tod_add p q) (J X0) (J X1) (J X2)) as (c & C & C0 & C1 & C2 & _).
  rewrite A in E1. rewrite B in E2. rewrite C. cbn [rbind] in *. injection E1 as <- <-. injection E2 as <-.
  exists c. split; [reflexivity|]. split.
  { intros []; [rewrite C0, A0, B0|rewrite C1, A1, B1|rewrite C2, A2, B2]; cbn [tod_add C10 C01 C11 C20 C30 undeformed val]; rewrite ?U; ring. }
  intros sv' h1 h2 K1 K2. unfold inv_callh in *. cbn [tod_model im_hessian] in *. injection K1 as <-. injection K2 as <-.
  eexists. split; [reflexivity|]. split; [|split; [reflexivity|intros _ _; apply tod_exn; exact C]].
  intro v. rewrite !tod_hessian_val. destruct v; cbn [tod_add C10 C01 C11 C20 C30 undeformed]; rewrite ?U; ring.
Qed.
Lemma tod_W33 {SV} p : no_W33 (tod_model (SV:=SV) p).
Proof. intros J sv h E. unfold inv_callh in E. cbn in E. injection E as <-. reflexivity. Qed.

(** ** Stretches *)
Lemma strG_add l C g1 g2 : strGv l C (fun a => g1 a + g2 a) = fun v => strGv l C g1 v + strGv l C g2 v.
Proof. apply Vec6_ext; intro v. unfold strGv, asvoigt, Gf, strK, sum3, Rdiv. ring. Qed.
Lemma strH_add lp C g1 g2 h1 h2 h : (forall v, val (h v) = val (h1 v) + val (h2 v)) ->
  strHv lp C (fun a => g1 a + g2 a) h = fun v w => strHv lp C g1 h1 v w + strHv lp C g2 h2 v w.
Proof.
  intro Hv. set (l := lam lp C).
  assert (DD : forall a b, strD l (fun a => g1 a + g2 a) h a b = strD l g1 h1 a b + strD l g2 h2 a b).
  { intros a b. unfold strD, strK, Rdiv. rewrite Hv. destruct (ix3_eqb a b); ring. }
  assert (FF : forall a b, strF l (fun a => g1 a + g2 a) h a b = strF l g1 h1 a b + strF l g2 h2 a b).
  { intros a b. unfold strF. rewrite !DD. destruct (isclose _ 0); unfold strK, Rdiv; ring. }
  assert (HH : forall i j p q, Hf (strD l (fun a => g1 a + g2 a) h) (strF l (fun a => g1 a + g2 a) h) (vec lp C) i j p q =
     Hf (strD l g1 h1) (strF l g1 h1) (vec lp C) i j p q + Hf (strD l g2 h2) (strF l g2 h2) (vec lp C) i j p q).
  { intros i j p q. unfold Hf, sum3. rewrite !DD, !FF. ring. }
  apply Mat6_ext; intros v w. unfold strHv. fold l. unfold asvoigt4. destruct v, w; apply HH.
Qed.
Lemma stretches_sum {SV} lapack (m1 m2 m : StretchModel SV) : stateless_sm m1 -> stateless_sm m2 -> parallel_sm m1 m2 m ->
  parallel (stretches_fw lapack m1) (stretches_fw lapack m2) (stretches_fw lapack m).
Proof.
  intros Z1 Z2 Hm C sv s1 s2 s G1 G2 svn E1 E2.
  change (outcome (str_gradient lapack m1 C sv) s1 = Ok (G1, svn)) in E1. change (outcome (str_gradient lapack m2 C sv) s2 = Ok (G2, svn)) in E2.
  destruct (sm_gradient m1 (lam lapack C) sv (st_model m1 s1)) as [x1 [[g1 v1]|e]] eqn:F1; [|rewrite (str_gradient_raise _ _ _ _ _ _ _ F1) in E1; discriminate].
  destruct (sm_gradient m2 (lam lapack C) sv (st_model m2 s2)) as [x2 [[g2 v2]|e]] eqn:F2; [|rewrite (str_gradient_raise _ _ _ _ _ _ _ F2) in E2; discriminate].
  unfold outcome in E1, E2. rewrite (str_gradient_ok _ _ _ _ _ _ _ _ F1) in E1. rewrite (str_gradient_ok _ _ _ _ _ _ _ _ F2) in E2.
  injection E1 as <- ->. injection E2 as <- ->.
  assert (O1 : forall t, outcome (sm_gradient m1 (lam lapack C) sv) t = Ok (g1, svn)).
  { intro t. rewrite (proj1 (Z1 _ _ t (st_model m1 s1))). unfold outcome. rewrite F1. reflexivity. }
  assert (O2 : forall t, outcome (sm_gradient m2 (lam lapack C) sv) t = Ok (g2, svn)).
  { intro t. rewrite (proj1 (Z2 _ _ t (st_model m2 s2))). unfold outcome. rewrite F2. reflexivity. }
  assert (O : forall t, outcome (sm_gradient m (lam lapack C) sv) t = Ok (fun a => g1 a + g2 a, svn)).
  { intro t. exact (proj1 (Hm _ _ _ _ t _ _ _ (O1 (st_model m1 s1)) (O2 (st_model m2 s2)))). }
  split.
  - destruct (outcome_pair _ _ _ (O (st_model m s))) as [ms F]. unfold outcome. cbn [stretches_fw fw_gradient]. rewrite (str_gradient_ok _ _ _ _ _ _ _ _ F). cbn [snd]. rewrite strG_add. reflexivity.
  - intros t1 t2 t H1 H2 K1 K2.
    change (outcome (str_hessian lapack m1 C sv) t1 = Ok H1) in K1. change (outcome (str_hessian lapack m2 C sv) t2 = Ok H2) in K2.
    change (outcome (str_hessian lapack m C sv) t = Ok (fun v w => H1 v w + H2 v w)).
    destruct (outcome_pair _ _ _ (O1 (st_model m1 t1))) as [y1 Y1], (outcome_pair _ _ _ (O2 (st_model m2 t2))) as [y2 Y2], (outcome_pair _ _ _ (O (st_model m t))) as [y Y].
    destruct (sm_hessian m1 (lam lapack C) svn y1) as [z1 [h1|e]] eqn:D1; [|rewrite (str_hessian_hraise _ _ _ _ _ _ _ _ _ _ Y1 D1) in K1; discriminate].
    destruct (sm_hessian m2 (lam lapack C) svn y2) as [z2 [h2|e]] eqn:D2; [|rewrite (str_hessian_hraise _ _ _ _ _ _ _ _ _ _ Y2 D2) in K2; discriminate].
    destruct (str_hessian_ok _ _ _ _ _ _ _ _ _ _ Y1 D1) as (q1 & Q1 & _). destruct (str_hessian_ok _ _ _ _ _ _ _ _ _ _ Y2 D2) as (q2 & Q2 & _).
    unfold outcome in K1, K2. rewrite Q1 in K1. rewrite Q2 in K2. injection K1 as <-. injection K2 as <-.
    destruct (proj2 (Hm _ _ _ _ (st_model m s) _ _ _ (O1 (st_model m1 s1)) (O2 (st_model m2 s2))) svn y1 y2 y h1 h2) as (h & D & Vh).
    { unfold outcome. rewrite D1. reflexivity. } { unfold outcome. rewrite D2. reflexivity. }
    destruct (outcome_pair _ _ _ D) as [z D']. destruct (str_hessian_ok _ _ _ _ _ _ _ _ _ _ Y D') as (q & Q & _).
    unfold outcome. rewrite Q. cbn [snd]. rewrite (strH_add lapack C g1 g2 h1 h2 h Vh). reflexivity.
Qed.

(** ** Ogden *)
Lemma fold_terms (f : R -> R -> ix3 -> R) (L : list (R * R)) : forall (acc : Vec3) k,
  fold_left (fun (acc : Vec3) '(mu, al) => fun x => acc x + f mu al x) L acc k = acc k + fold_right (fun p z => f (fst p) (snd p) k + z) 0 L.
Proof.
  induction L as [|[mu al] L IH]; intros acc k; cbn [fold_left fold_right]; [ring|]. rewrite IH. cbn [fst snd]. ring.
Qed.
Definition term_sum (f : R -> R -> ix3 -> R) (L : list (R * R)) (k : ix3) : R := fold_right (fun p z => f (fst p) (snd p) k + z) 0 L.
Lemma term_app f L L' k : term_sum f (L ++ L') k = term_sum f L k + term_sum f L' k.
Proof. unfold term_sum. induction L as [|p L IH]; cbn [app fold_right]; [ring|]. rewrite IH. ring. Qed.
Lemma term_perm f L L' k : Permutation L L' -> term_sum f L k = term_sum f L' k.
Proof. unfold term_sum. induction 1 as [| | |]; cbn [fold_right]; [reflexivity|rewrite IHPermutation; reflexivity|ring|congruence]. Qed.
Definition og_g (l : Vec3) (mu al : R) (x : ix3) : R := 2 * mu / al * Rpower (l x) (al - 1).
Definition og_h (l : Vec3) (mu al : R) (x : ix3) : R := 2 * mu / al * (al - 1) * Rpower (l x) (al - 2).
Lemma ogden_g_sum m l : ogden_gradient m l = fun k => term_sum (og_g l) (combine (og_mu m) (og_alpha m)) k.
Proof. apply functional_extensionality; intro k. unfold ogden_gradient, term_sum. rewrite (fold_terms (og_g l)). ring. Qed.
Lemma ogden_h_sum m l v : val (ogden_hessian m l v) = match v with V0 => term_sum (og_h l) (combine (og_mu m) (og_alpha m)) X0
  | V1 => term_sum (og_h l) (combine (og_mu m) (og_alpha m)) X1 | V2 => term_sum (og_h l) (combine (og_mu m) (og_alpha m)) X2 | _ => 0 end.
Proof.
  unfold ogden_hessian, term_sum. cbv zeta. destruct v; cbn [val]; try reflexivity; rewrite (fold_terms (og_h l)); ring.
Qed.
Lemma ogden_h_none m m' l v : ogden_hessian m l v = None <-> ogden_hessian m' l v = None.
Proof. unfold ogden_hessian. destruct v; cbn; split; try discriminate; auto. Qed.

(** ** GeneralizedInvariants *)
Lemma accum_val {A} x (acc : A -> R) f : (forall v, f 0 v = 0) -> accum x acc f = fun v => acc v + f (val x) v.
Proof. intro Hf. apply functional_extensionality; intro v. destruct x; cbn; rewrite ?Hf; ring. Qed.
(** The model leaves the state variables alone. *)
Definition keeps_state {SV} (m : InvModel SV) : Prop := forall J sv g svn, inv_call m J sv = Ok (g, svn) -> svn = sv.
Lemma gen_sum {SV} (m1 m2 m : InvModel SV) fs c : adds m1 m2 m -> keeps_state m1 -> keeps_state m2 ->
  parallel_sm (gen_model m1 fs c) (gen_model m2 fs c) (gen_model m fs c).
Proof.
  intros HA N1 N2 l sv s1 s2 s g1 g2 svn. cbn [gen_model sm_gradient sm_hessian]. rewrite !gen_grad_core.
  destruct (strain3 fs l) as [st|e] eqn:ST; [|discriminate]. cbn [rbind].
  destruct (inv_call m1 (genI c st) sv) as [[[[a1 a2] a3] v1]|e] eqn:I1; cbn [rbind]; [|discriminate].
  destruct (inv_call m2 (genI c st) sv) as [[[[b1 b2] b3] v2]|e] eqn:I2; cbn [rbind]; [|discriminate].
  intros E1 E2. injection E1 as <- ->. injection E2 as <- ->.
  destruct (HA _ _ _ _ _ I1 I2) as ([[d1 d2] d3] & I & Vg & _). rewrite I. cbn [rbind]. split.
  - f_equal. f_equal. apply functional_extensionality; intro a.
    assert (W1 := Vg X0). assert (W2 := Vg X1). assert (W3 := Vg X2). cbn [o3 fst snd] in W1, W2, W3.
    unfold genG; cbv zeta. rewrite !accum_val by (intros; ring). rewrite W1, W2, W3. ring.
  - intros tv t1 t2 t h1 h2. rewrite !gen_hess_core, ST. cbn [rbind].
    destruct (inv_call m1 (genI c st) tv) as [[[[x1 x2] x3] v1]|e] eqn:J1; cbn [rbind]; [|discriminate].
    destruct (inv_call m2 (genI c st) tv) as [[[[y1 y2] y3] v2]|e] eqn:J2; cbn [rbind]; [|discriminate].
    assert (v1 = tv) as -> by exact (N1 _ _ _ _ J1). assert (v2 = tv) as -> by exact (N2 _ _ _ _ J2).
    destruct (inv_callh m1 (genI c st) tv) as [k1|e] eqn:K1; cbn [rbind]; [|discriminate].
    destruct (inv_callh m2 (genI c st) tv) as [k2|e] eqn:K2; cbn [rbind]; [|discriminate].
    intros E1 E2. injection E1 as <-. injection E2 as <-.
    destruct (HA _ _ _ _ _ J1 J2) as ([[z1 z2] z3] & J & Vz & Hh). destruct (Hh _ _ _ K1 K2) as (k & K & Vk & _).
    rewrite J. cbn [rbind]. rewrite K. cbn [rbind]. eexists. split; [reflexivity|]. intro v. cbn [val].
    assert (W1 := Vz X0). assert (W2 := Vz X1). assert (W3 := Vz X2). cbn [o3 fst snd] in W1, W2, W3.
    unfold genH; cbv zeta. rewrite !accum_val by (intros; try destruct (mixed _); ring). cbv beta. rewrite W1, W2, W3, !Vk.
    destruct (mixed v); ring.
Qed.
Lemma tod_keeps {SV} p : keeps_state (tod_model (SV:=SV) p).
Proof. intros J sv g svn E. unfold inv_call in E. cbn in E. destruct (tod_gradient p _ _ _); [|discriminate]. injection E as _ <-. reflexivity. Qed.
