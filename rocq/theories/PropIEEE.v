(** * C70: underflow and overflow do no harm.

    C55 with the whole IEEE arithmetic instead of the standard model of rounding (IEEE.v): results may
    underflow, and nothing is assumed about operations that overflow or are invalid.  For every
    invertible deformation gradient there are constants K and d such that in every format finer than d
    no operation overflows, no infinity or NaN appears, and every entry of the computed stress and
    elasticity tensor is a finite number within K (u + tiny) of the exact result of the same call. *)
From Coq Require Import Reals ZArith List Lra Lia Bool.
From Flocq Require Raux.
From Flocq Require Import Zaux BinarySingleNaN.
From Verif Require Import Tensor Py Voigt VoigtProofs Algebra Models ModelProofs Frameworks Spaces Spec InvCore SpaceCore
  PiolaProofs SpaceProofs Counter Lab LabSpec LabMech LabCurves Rounded RoundedProofs RoundedStable RoundedCode RoundedSpec RoundedMath
  RoundedSpaces RoundedSpacesProofs PropStable RoundedStretchProofs PropFloatStr IEEE IEEEProofs IEEESpaces IEEEFloat.
Import ListNotations.
Local Open Scope R_scope.

Theorem C70_stress : forall (SV : Type) (m : TOD) k f a F (sv : SV) s, invertible F -> exists T K d,
  outcome (sp_gradient k (space m) (opt f a) F sv) s = Ok (StressFull T, sv) /\ 0 < d /\
  forall g i j w, fine d g -> ieee g (x_gradient k m (in33 F) f a i j) w -> within (K * (roundoff g + tiny g)) w (T i j).
Proof.
  intros SV m k f a F sv s HD.
  destruct (ieee_uniform2 (x_gradient k m (in33 F) f a) (reg_gradient k m (in33 F) (in33_reg F) HD f a)) as (K & d & HK & Hd & H).
  exists (ex33 (x_gradient k m (in33 F) f a)), K, d. split; [exact (ex_gradient k m (in33 F) f a SV sv s)|]. split; [lra|exact H].
Qed.
Print Assumptions C70_stress.

Lemma tod_cut {SV} (m : TOD) k F (sv : SV) (s : fw_self (invariants_fw (SV := SV) (tod_model m))) : (k = KDistortional -> clear_cut (SV := SV) (space m) F) -> cut k m (in33 F).
Proof.
  intros HC EK. set (XF := in33 F). destruct (fw_gradient_x m (x_seen k XF) SV sv s) as (s' & _ & H2).
  assert (ES : ex6 (x_seen k XF) = asvoigt (distortional_part (cauchy_green F))).
  { rewrite ex_seen. subst k. cbn [seen]. unfold distortional_part. change (ex33 XF) with F.
    rewrite det_cg, <- right_CG_full. apply Vec6_ext. intro v. unfold vscal, asvoigt, mscal, astensor. destruct v; reflexivity. }
  rewrite ES in H2. pose proof (ex_C4b k m XF) as E4. change (ex33 XF) with F in E4.
  assert (EE : forall v w, exact (x_C4b k m XF v w) = 4 * Rpower (det3 (cauchy_green F)) (-2/3) * ex66 (x_d2WdCdC m (x_seen k XF)) v w).
  { intros v w. change (exact (x_C4b k m XF v w)) with (ex66 (x_C4b k m XF) v w). rewrite E4, det_cg. subst k. reflexivity. }
  destruct (HC EK sv s' _ H2) as [HL|(v & w & HL)]; [left|right; exists v, w]; intros; rewrite EE; auto.
Qed.
Theorem C70_elasticity : forall (SV : Type) (m : TOD) k f a F (sv : SV) s, invertible F ->
  (k = KDistortional -> clear_cut (SV := SV) (space m) F) -> exists A K d,
  outcome (sp_hessian k (space m) (opt f a) F sv) s = Ok (ElastFull A) /\ 0 < d /\
  forall g i j p q w, fine d g -> ieee_hessian g k m f a (in33 F) i j p q w -> within (K * (roundoff g + tiny g)) w (A i j p q).
Proof.
  intros SV m k f a F sv s HD HC. set (XF := in33 F).
  destruct (ieee_elasticity k m XF f a (in33_reg F) HD (tod_HG k m XF (in33_reg F) HD) (tod_HH k m XF (in33_reg F) HD) (tod_cut m k F sv (sp_mat s) HC)) as (K & d & HK & Hd & H).
  exists (fun i j p q => exact (x_hessian k m XF f a (allclose0 (ex66 (x_C4b k m XF))) i j p q)), K, d.
  split; [exact (ex_hessian k m XF f a SV sv s)|]. split; [lra|exact H].
Qed.
Print Assumptions C70_elasticity.

(** Simulated curves, with the deformation gradient of the load case itself computed. *)
Theorem C70_curves : forall sim p lc XF k m xs, simulates sim p lc k tt (space m) ->
  In (lc, XF) [(uniaxial, x_uniaxial); (biaxial, x_biaxial); (planar, x_planar)] -> (forall l, In l xs -> 0 < l) ->
  exists fs, stress_curve_fit sim xs p = Ok fs /\
  List.Forall2 (fun l y => exists K d, 0 < d /\ forall g w, fine d g ->
    ieee g (x_lc_stress (XF l) (x_gradient k m (XF l) Deformed Undeformed)) w -> within (K * (roundoff g + tiny g)) w y) xs fs.
Proof.
  intros sim p lc XF k m xs S HI P. apply (simulate_points sim p lc k tt (space m) _ xs S). intros s x I.
  destruct (lc_regular lc XF x HI (P x I)) as (RF & EF & N & HD).
  pose proof (ex_gradient k m (XF x) Deformed Undeformed unit tt s) as EG. rewrite EF in EG.
  unfold point_stress. rewrite (proj1 S). cbn [space_material mat_gradient mat_none mat_now]. unfold full_only.
  unfold outcome in EG. destruct (sp_gradient k (space m) default_opts (lc x) tt s) as [s' r] eqn:E.
  change (opt Deformed Undeformed) with default_opts in EG. rewrite E in EG. cbn [snd] in EG. subst r. cbn [snd].
  eexists. split; [reflexivity|].
  assert (RE : regular (x_lc_stress (XF x) (x_gradient k m (XF x) Deformed Undeformed))).
  { assert (RG : forall i j, regular (x_gradient k m (XF x) Deformed Undeformed i j)) by (apply reg_gradient; [exact RF|rewrite EF; exact HD]).
    unfold x_lc_stress. split; [apply RG|]. split; [split; [apply RG|apply RF]|]. split; [apply RF|].
    change (ex33 (XF x) X0 X0 <> 0). rewrite EF. exact N. }
  destruct (regular_accurate _ RE) as (K & d & _ & Hd & H). exists K, d. split; [lra|].
  intros g w U HY. specialize (H g w U HY). rewrite <- EF. exact H.
Qed.
Print Assumptions C70_curves.

(** The machine: in every IEEE-754 binary format with enough digits (emax > prec, as in all formats of
    the standard), round-to-nearest-even, any order of summation, and a power function that is
    accurate to the format, the computed stress is finite and its error is O(2^-prec). *)
Theorem C70_machine : forall (SV : Type) (m : TOD) k f a F (sv : SV) s, invertible F -> exists T K p0,
  outcome (sp_gradient k (space m) (opt f a) F sv) s = Ok (StressFull T, sv) /\ (0 < p0)%Z /\
  forall prec emax (Hp : FLX.Prec_gt_0 prec) (He : Prec_lt_emax prec emax) pw u i j b, (p0 <= prec)%Z -> u <= Raux.bpow radix2 (- prec) ->
    accurate_power prec emax pw u -> run prec emax Hp He pw (x_gradient k m (in33 F) f a i j) b ->
    is_finite b = true /\ Rabs (B2R b - T i j) <= K * Raux.bpow radix2 (- prec).
Proof.
  intros SV m k f a F sv s HD. destruct (C70_stress SV m k f a F sv s HD) as (T & K & d & H1 & Hd & H).
  destruct (machine_fine d Hd) as (p0 & Hp0 & HM). exists T, (3 * Rmax 0 K), p0. split; [exact H1|]. split; [exact Hp0|].
  intros prec emax Hp He pw u i j b HP HU HA HR. assert (LT : (prec < emax)%Z) by exact He.
  pose proof (HM prec emax u ltac:(lia) HU) as HF. pose proof (run_ieee prec emax Hp He pw u _ b HA HR) as HI.
  destruct (H _ i j _ HF HI) as (v & EV & W). unfold num in EV. destruct (is_finite b); [|discriminate]. injection EV as <-. split; [reflexivity|].
  eapply Rle_trans; [exact W|]. cbn [roundoff tiny machine_fmt]. rewrite Rmax_right by exact HU.
  pose proof (Raux.bpow_gt_0 radix2 (- prec)) as B0. pose proof (Raux.bpow_gt_0 radix2 (2 - emax - prec)) as B1.
  assert (L : Raux.bpow radix2 (2 - emax - prec) <= 2 * Raux.bpow radix2 (- prec)).
  { replace (2 * Raux.bpow radix2 (- prec)) with (Raux.bpow radix2 (- prec + 1)) by (rewrite Raux.bpow_plus; cbn; ring). apply Raux.bpow_le. assert (0 < prec)%Z by exact Hp. lia. }
  pose proof (Rmax_l 0 K). pose proof (Rmax_r 0 K).
  apply Rle_trans with (Rmax 0 K * (Raux.bpow radix2 (- prec) + Raux.bpow radix2 (2 - emax - prec))); [apply Rmult_le_compat_r; lra|].
  rewrite (Rmult_comm 3), Rmult_assoc. apply Rmult_le_compat_l; lra.
Qed.
Print Assumptions C70_machine.

(** float64 is such a format, and the [ieee] results do exist: C70_example. *)
Theorem C70_float64 : fine (/ 2 ^ 52) (machine_fmt 53 1024 (Raux.bpow radix2 (-53))).
Proof. exact float64_fine. Qed.
Print Assumptions C70_float64.

(** The hypotheses are met: float64 can be run on the stress of Distortional(Neo-Hooke) at F = 1, with a
    correctly rounded power function. *)
Definition small_int (x : R) : Prop := exists n, x = IZR n /\ (Z.abs n <= 100)%Z.
Fixpoint small (e : expr) : Prop :=
  match e with
  | Num x => small_int x
  | Add a b | Sub a b | Mul a b | Div a b => small a /\ small b
  | Sqrt a => small a
  | Pow a p => small a /\ Rabs p <= 100
  | Sum l | Prod l => l <> [] /\ fold_right (fun e s => small e /\ s) True l
  end.
Definition P64 : FLX.Prec_gt_0 53 := eq_refl.
Definition E64 : Prec_lt_emax 53 1024 := eq_refl.
Lemma small_entered e : small e -> entered 53 1024 e.
Proof.
  assert (B : 100 <= huge (machine_fmt 53 1024 0)).
  { cbn [huge machine_fmt]. apply Rle_trans with (Raux.bpow radix2 7); [cbn; lra|]. apply Raux.bpow_le. lia. }
  induction e as [x|a c IHa IHb|a c IHa IHb|a c IHa IHb|a c IHa IHb|a IHa|a p IHa|l IH|l IH] using expr_ind'; cbn [small entered].
  - intros (n & -> & H). eexists. apply (of_integer 53 1024 P64 E64 0 n).
    + assert (100 < 2 ^ 53)%Z by (vm_compute; reflexivity). lia.
    + eapply Rle_trans; [|exact B]. rewrite <- abs_IZR. apply IZR_le. exact H.
  - tauto.
  - tauto.
  - tauto.
  - tauto.
  - tauto.
  - intros [H1 H2]. split; [auto|]. eexists. apply (of_real_ok 53 1024 P64 E64 0). lra.
  - intros [N H]. split; auto. clear N. induction IH as [|e l He HF IHF]; cbn [fold_right] in *; tauto.
  - intros [N H]. split; auto. clear N. induction IH as [|e l He HF IHF]; cbn [fold_right] in *; tauto.
Qed.
Ltac ints := repeat first [exact Logic.I | discriminate | match goal with |- _ /\ _ => split | |- small_int _ => eexists; split; [reflexivity|cbn; lia] end].
Example C70_example : invertible one2 /\ exists b, run 53 1024 P64 E64 (best_power 53 1024 P64 E64)
  (x_gradient KDistortional (tod_init 1 0 0 0 0 false) (in33 one2) Deformed Undeformed X0 X0) b /\
  accurate_power 53 1024 (best_power 53 1024 P64 E64) (Raux.bpow radix2 (-53)).
Proof.
  split; [unfold invertible, det3, one2, delta; cbn; lra|].
  destruct (run_total 53 1024 P64 E64 (best_power 53 1024 P64 E64) (x_gradient KDistortional (tod_init 1 0 0 0 0 false) (in33 one2) Deformed Undeformed X0 X0)) as [b HB].
  - apply small_entered.
    assert (E : nonzero 1 = true /\ nonzero 0 = false) by (unfold nonzero; destruct (Req_EM_T 1 0), (Req_EM_T 0 0); split; reflexivity || lra).
    destruct E as [E1 E0].
    cbn -[nonzero small_int Rdiv Ropp Rabs]. rewrite ?E1, ?E0. cbn -[small_int Rdiv Ropp Rabs].
    ints; try (rewrite Rabs_left1 by lra; lra).
  - exists b. split; [exact HB|apply best_power_ok].
Qed.
