(** * The whole-batch tolerance test couples entries (counterexample, proofs). *)
From Coq Require Import Reals List Arith Lia Lra FunctionalExtensionality.
From Verif Require Import Tensor Py Voigt VoigtProofs Algebra VCalc EigCore PiolaProofs DistProofs Counter Models Frameworks Spaces Spec GenProofs InvCore StrCore StrProofs SpaceCore SpaceProofs SpecialProofs SpaceMore.
From Verif Require Import NDCore NDRel NDOps NDHeap NDVoigt NDMath NDMath2 NDMath3 NDSpaces
  NDSpaceProofs NDSpaceMain NDFrameworks NDInvProofs NDModels NDEigh NDViews NDStrProofs NDGenProofs NDSpec NDLinks NDLinks2.
Import ListNotations.
Local Open Scope R_scope.

(** A heap holding one array: two deformation gradients, the identity and diag(4, 2, 1). *)
Definition two_cell (j : index) : R :=
  match j with
  | [0; 0; 0]%nat | [1; 1; 0]%nat | [2; 2; 0]%nat => 1
  | [0; 0; 1]%nat => 4 | [1; 1; 1]%nat => 2 | [2; 2; 1]%nat => 1
  | _ => 0
  end.
Definition two_heap : heap := {| hnext := 1; hcell := fun _ => two_cell |}.
Definition two_F : nd := {| loc := 0; nshp := [3; 3; 2]%nat; vw := fun k => k |}.
Lemma two_field : field two_heap two_F i33 [2%nat].
Proof. split; [cbn; lia|reflexivity]. Qed.
Lemma two_0 : value33 two_heap two_F [0%nat] = diag3 (fun _ => 1).
Proof. apply T2_ext; intros i j. unfold value33, value, diag3. destruct i, j; reflexivity. Qed.
Lemma two_1 : value33 two_heap two_F [1%nat] = diag3 (fun i => match i with X0 => 4 | X1 => 2 | X2 => 1 end).
Proof. apply T2_ext; intros i j. unfold value33, value, diag3. destruct i, j; reflexivity. Qed.
Lemma two_invertible k : inb [2%nat] k -> invertible (value33 two_heap two_F k).
Proof.
  intros Hk. assert (k = [0%nat] \/ k = [1%nat]) as [-> | ->].
  { destruct k as [|x [|]]; cbn in Hk; try tauto. destruct x as [|[|]]; auto; lia. }
  - rewrite two_0. unfold invertible, det3, diag3; cbn. lra.
  - rewrite two_1. unfold invertible, det3, diag3; cbn. lra.
Qed.
Lemma Rpower1 x : Rpower 1 x = 1.
Proof. unfold Rpower. now rewrite ln_1, Rmult_0_r, exp_0. Qed.
Definition C421 : Vec6 := fun v => match v with V0 => 16 | V1 => 4 | V2 => 1 | _ => 0 end.
Lemma two_CG0 : right_CG (value33 two_heap two_F [0%nat]) = eye.
Proof. rewrite two_0. apply Vec6_ext; intro v. unfold right_CG, asvoigt, diag3, eye, sum3. destruct v; cbn; ring. Qed.
Lemma two_CG1 : right_CG (value33 two_heap two_F [1%nat]) = C421.
Proof. rewrite two_1. apply Vec6_ext; intro v. unfold right_CG, asvoigt, diag3, C421, sum3. destruct v; cbn; ring. Qed.
Lemma det_C421 : det C421 = 64.
Proof. unfold det, C421; cbn. ring. Qed.
Lemma root64 : Rpower 64 (- 2 / 3) = / 16.
Proof.
  replace 64 with (exp (3 * ln 4)).
  2:{ replace (3 * ln 4) with (ln 4 + ln 4 + ln 4) by ring. rewrite !exp_plus, !exp_ln by lra. ring. }
  unfold Rpower. rewrite ln_exp. replace (- 2 / 3 * (3 * ln 4)) with (- (ln 4 + ln 4)) by field.
  rewrite exp_Ropp, exp_plus, exp_ln by lra. f_equal. ring.
Qed.
Lemma eye_bound v w : Rabs (eye v * eye w) <= 1.
Proof. destruct v, w; cbn; rewrite ?Rmult_0_l, ?Rmult_0_r, ?Rmult_1_l, ?Rabs_R0, ?Rabs_R1; lra. Qed.
Definition cc : R := / 10 ^ 8.
Lemma cc_pos : 0 < cc. Proof. unfold cc. apply Rinv_0_lt_compat, pow_lt. lra. Qed.
Lemma close_421 : allclose0 (mscal6 (4 * Rpower (det C421) (- 2 / 3)) (H20 cc)) = true.
Proof.
  apply allclose_true. intros v w. unfold mscal6, H20. rewrite det_C421, root64.
  replace (4 * / 16 * (2 * cc * (eye v * eye w))) with (cc / 2 * (eye v * eye w)) by field.
  rewrite Rabs_mult. pose proof cc_pos as P. rewrite (Rabs_pos_eq (cc / 2)) by lra. fold cc.
  pose proof (eye_bound v w). nra.
Qed.
Lemma far_eye : allclose0 (mscal6 (4 * Rpower (det eye) (- 2 / 3)) (H20 cc)) = false.
Proof.
  apply (allclose_false _ V0 V0). unfold mscal6, H20. replace (det eye) with 1 by (unfold det, eye; cbn; ring).
  rewrite Rpower1. cbn [eye]. pose proof cc_pos as P. fold cc.
  replace (4 * 1 * (2 * cc * (1 * 1))) with (8 * cc) by ring. rewrite Rabs_pos_eq; lra.
Qed.
Lemma inv_421 d v : d = 64 -> inv C421 (Some d) v = match v with V0 => / 16 | V1 => / 4 | V2 => 1 | _ => 0 end.
Proof. intros ->. unfold inv. destruct v; unfold C421; cbn; field. Qed.
Lemma f421 g H : H = H20 cc -> dis_C4f false C421 g H V0 V0 = dis_C4f true C421 g H V0 V0 + cc / 2 * (9 / 16) ^ 2.
Proof.
  intros ->. unfold dis_C4f. cbv zeta. unfold madd6 at 1. f_equal.
  unfold ddot44, transpose, msub6, mscal6, dya, sum6. rewrite !(inv_421 _ _ det_C421), det_C421, root64.
  unfold cdya1, H20, C421, eye, weights; cbn. field.
Qed.

Definition m20 : TOD := tod_init 0 0 0 cc 0 false.
Definition no_state : unit -> index -> unit := fun _ _ => tt.
Lemma m20_H s C : outcome (fw_hessian (invariants_fw (tod_model m20)) C tt) s = Ok (H20 cc).
Proof. pose proof cc_pos. apply (tod20_plain cc ltac:(lra) C tt s). Qed.
Lemma m20_ph C : inv_ph (tod_model m20) C tt = H20 cc.
Proof.
  pose proof (inv_link_h (nd_tod m20) no_state (tod_model m20) _ [] _ _ _ _ (tod_ok [] m20 no_state) C tt [] inv_self0
    (tod_pat [] m20) I I) as L.
  unfold no_state in L. rewrite m20_H in L. now injection L as <-.
Qed.
Lemma batch_coupling :
  returns two_heap (nd_sp_hessian KDistortional (nd_invariants (nd_tod m20)) default_opts two_F tt) (fun A h' =>
    exists B, (forall s, outcome (sp_hessian KDistortional (invariants_fw (tod_model m20)) default_opts
        (value33 two_heap two_F [1%nat]) tt) s = Ok B) /\ elast_at default_opts h' A [1%nat] <> B).
Proof.
  set (T := [2%nat]). pose proof cc_pos as Hc.
  assert (In1 : inb T [1%nat]) by (cbn; split; [lia|exact I]).
  assert (In0 : inb T [0%nat]) by (cbn; split; [lia|exact I]).
  destruct (dis_batch (nd_invariants (nd_tod m20)) no_state (inv_pg (tod_model m20)) (inv_ph (tod_model m20)) (inv_D (fun _ _ _ => True)) T _ _
    (nd_invariants_g _ _ _ _ T _ _ _ _ (tod_ok T m20 no_state))
    (nd_invariants_h _ _ _ _ T _ _ _ _ (tod_ok T m20 no_state) (tod_pat T m20))
    default_opts two_heap two_F tt two_field ltac:(intros; exact I)) as [h' [A [E [X [_ [_ [b [Hb HA]]]]]]]].
  exists h', A. split; [exact E|]. split; [exact X|].
  specialize (HA [1%nat] In1). rewrite default_elast, two_CG1 in HA. unfold no_state in HA. rewrite m20_ph in HA.
  assert (b = false) as ->.
  { destruct b; [|reflexivity]. exfalso. specialize (Hb [0%nat] In0). unfold C4b_at, CG, no_state in Hb.
    rewrite m20_ph in Hb. change (un33 (value two_heap two_F i33) [0%nat]) with (value33 two_heap two_F [0%nat]) in Hb.
    rewrite two_CG0, far_eye in Hb. discriminate. }
  eexists. split.
  { intros s. apply (plain_hess (invariants_fw (tod_model m20)) (G20 cc) (fun _ => H20 cc) (tod20_plain cc ltac:(lra)) tt s). }
  rewrite HA, default_elast, two_CG1, dis_C4f_k, close_421. intros N.
  assert (G : fst (inv_pg (tod_model m20) (seen KDistortional C421) tt) = G20 cc (seen KDistortional C421)).
  { pose proof (inv_link_g (nd_tod m20) no_state (tod_model m20) _ T _ _ _ _ (tod_ok T m20 no_state) (seen KDistortional C421) tt [1%nat] inv_self0 I In1) as L.
    unfold no_state in L. pose proof (eq_trans (eq_sym L) (proj1 (tod20_plain cc ltac:(lra) (seen KDistortional C421) tt inv_self0))) as L'. injection L' as L'. exact (f_equal fst L'). }
  rewrite G in N. set (g := G20 cc _) in N. clearbody g.
  apply (f_equal (fun e => match e with ElastFull t => t X0 X0 X0 X0 | _ => 0 end)) in N. cbv beta iota in N.
  unfold t4add, legs13, sum3 in N. rewrite two_1 in N. unfold diag3, astensor4 in N. cbn -[dis_C4f geo kS] in N.
  pose proof (f421 g (H20 cc) eq_refl) as Z. 
  set (x := dis_C4f false C421 g (H20 cc) V0 V0) in *. set (y := dis_C4f true C421 g (H20 cc) V0 V0) in *.
  lra.
Qed.
