(** * The IEEE-754 machine.

    Binary floating point with precision [prec] and exponents below [emax] as formalised in Flocq
    (float64: 53, 1024): finite numbers, infinities and NaN, round-to-nearest-even.  Evaluating an
    expression on it is an instance of [ieee].  Specification vocabulary for C70; nothing here
    models code of the repository. *)
From Coq Require Import Reals ZArith List Permutation Lra Lia Bool.
From Flocq Require Import Core Relative BinarySingleNaN.
From Verif Require Import Rounded RoundedProofs IEEE.
Import ListNotations.
Local Open Scope R_scope.

Section Machine.
  Context (prec emax : Z) (Hp : Prec_gt_0 prec) (He : Prec_lt_emax prec emax).
  Notation flt := (binary_float prec emax).
  (** the number that a float stands for *)
  Definition num (b : flt) : option R := if is_finite b then Some (B2R b) else None.
  Definition nearest (x : R) : R := round radix2 (SpecFloat.fexp prec emax) ZnearestE x.
  (** [pw] is the power function of the C library, [u] its relative error. *)
  Variables (pw : flt -> flt -> flt) (u : R).
  Definition machine_fmt : Fmt :=
    {| roundoff := Rmax u (bpow radix2 (- prec)); tiny := bpow radix2 (2 - emax - prec); huge := bpow radix2 (emax - 1) |}.
  Definition accurate_power : Prop := forall x y, is_finite x = true -> is_finite y = true -> 0 < B2R x ->
    result machine_fmt (Rpower (B2R x) (B2R y)) (num (pw x y)).

  Inductive btree : Type := BLeaf (x : flt) | BNode (l r : btree).
  Fixpoint bleaves (t : btree) : list flt := match t with BLeaf x => [x] | BNode l r => bleaves l ++ bleaves r end.
  Fixpoint bval (op : flt -> flt -> flt) (t : btree) : flt := match t with BLeaf x => x | BNode l r => op (bval op l) (bval op r) end.
  Definition in_some_order (op : flt -> flt -> flt) (xs : list flt) (b : flt) : Prop := exists t, Permutation (bleaves t) xs /\ b = bval op t.

  (** [b] is the result of evaluating [e]; sums and products in any order. *)
  Fixpoint run (e : expr) : flt -> Prop :=
    match e with
    | Num x => fun b => num b = Some x
    | Add a b => fun c => exists x y, run a x /\ run b y /\ c = Bplus mode_NE x y
    | Sub a b => fun c => exists x y, run a x /\ run b y /\ c = Bminus mode_NE x y
    | Mul a b => fun c => exists x y, run a x /\ run b y /\ c = Bmult mode_NE x y
    | Div a b => fun c => exists x y, run a x /\ run b y /\ c = Bdiv mode_NE x y
    | Sqrt a => fun c => exists x, run a x /\ c = Bsqrt mode_NE x
    | Pow a p => fun c => exists x q, run a x /\ num q = Some (nearest p) /\ c = pw x q
    | Sum l => fun c => exists xs,
        (fix all (es : list expr) (xs : list flt) : Prop :=
           match es, xs with [], [] => True | e :: es, x :: xs => run e x /\ all es xs | _, _ => False end) l xs
        /\ in_some_order (Bplus mode_NE) xs c
    | Prod l => fun c => exists xs,
        (fix all (es : list expr) (xs : list flt) : Prop :=
           match es, xs with [], [] => True | e :: es, x :: xs => run e x /\ all es xs | _, _ => False end) l xs
        /\ in_some_order (Bmult mode_NE) xs c
    end.

  (** ** Every machine result is an [ieee] result *)
  Lemma fexp_FLT : SpecFloat.fexp prec emax = FLT_exp (3 - emax - prec) prec. Proof. reflexivity. Qed.
  Lemma nearest_err x : Rabs (nearest x - x) <= roundoff machine_fmt * Rabs x + tiny machine_fmt.
  Proof.
    destruct (error_N_FLT radix2 (3 - emax - prec) prec Hp (fun x => negb (Z.even x)) x) as (e & n & H1 & H2 & _ & H3).
    unfold nearest. rewrite fexp_FLT. rewrite H3. replace (x * (1 + e) + n - x) with (x * e + n) by ring.
    eapply Rle_trans; [apply Rabs_triang|]. rewrite Rabs_mult. cbn [roundoff tiny machine_fmt].
    assert (E1 : / 2 * bpow radix2 (- prec + 1) = bpow radix2 (- prec)) by (rewrite bpow_plus; cbn; field).
    assert (E2 : / 2 * bpow radix2 (3 - emax - prec) = bpow radix2 (2 - emax - prec)).
    { replace (3 - emax - prec)%Z with ((2 - emax - prec) + 1)%Z by ring. rewrite bpow_plus. cbn. field. }
    rewrite E1 in H1. rewrite E2 in H2. pose proof (Rmax_r u (bpow radix2 (- prec))). pose proof (Rabs_pos x). nra.
  Qed.
  Lemma nearest_small x : Rabs x <= huge machine_fmt -> Rlt_bool (Rabs (nearest x)) (bpow radix2 emax) = true.
  Proof.
    intro H. apply Rlt_bool_true. cbn [huge machine_fmt] in H. assert (GT : (0 < prec)%Z) by exact Hp. assert (LT : (prec < emax)%Z) by exact He.
    apply Rle_lt_trans with (bpow radix2 (emax - 1)); [|apply bpow_lt; lia].
    unfold nearest. rewrite <- round_NE_abs by (rewrite fexp_FLT; apply FLT_exp_valid; exact Hp).
    apply round_le_generic; [rewrite fexp_FLT; apply FLT_exp_valid; exact Hp|apply valid_rnd_N| |exact H].
    apply generic_format_bpow. rewrite fexp_FLT. unfold FLT_exp. lia.
  Qed.
  Lemma result_nearest x : exists v, Some (nearest x) = Some v /\ Rabs (v - x) <= roundoff machine_fmt * Rabs x + tiny machine_fmt.
  Proof. exists (nearest x). split; [reflexivity|apply nearest_err]. Qed.
  Lemma num_some (b : flt) : num b <> None -> is_finite b = true /\ num b = Some (B2R b).
  Proof. unfold num. destruct (is_finite b); [auto|congruence]. Qed.
  Lemma on2_num (G : R -> R -> Prop) op (x y : flt) w : (is_finite x = true -> is_finite y = true -> G (B2R x) (B2R y) -> result machine_fmt (op (B2R x) (B2R y)) w) ->
    on2 machine_fmt G op (num x) (num y) w.
  Proof. intro H. unfold num. destruct (is_finite x), (is_finite y); cbn; auto. Qed.
  Lemma plus_ok x y : on2 machine_fmt always Rplus (num x) (num y) (num (Bplus mode_NE x y)).
  Proof.
    apply on2_num. intros FX FY _ S. pose proof (Bplus_correct prec emax Hp He mode_NE x y FX FY) as C. cbn [round_mode] in C. fold (nearest (B2R x + B2R y)) in C.
    rewrite (nearest_small _ S) in C. destruct C as (C1 & C2 & _). unfold num. rewrite C2, C1. apply result_nearest.
  Qed.
  Lemma minus_ok x y : on2 machine_fmt always Rminus (num x) (num y) (num (Bminus mode_NE x y)).
  Proof.
    apply on2_num. intros FX FY _ S. pose proof (Bminus_correct prec emax Hp He mode_NE x y FX FY) as C. cbn [round_mode] in C. fold (nearest (B2R x - B2R y)) in C.
    rewrite (nearest_small _ S) in C. destruct C as (C1 & C2 & _). unfold num. rewrite C2, C1. apply result_nearest.
  Qed.
  Lemma mult_ok x y : on2 machine_fmt always Rmult (num x) (num y) (num (Bmult mode_NE x y)).
  Proof.
    apply on2_num. intros FX FY _ S. pose proof (Bmult_correct prec emax Hp He mode_NE x y) as C. cbn [round_mode] in C. fold (nearest (B2R x * B2R y)) in C.
    rewrite (nearest_small _ S) in C. destruct C as (C1 & C2 & _). rewrite FX, FY in C2. unfold num. rewrite C2, C1. apply result_nearest.
  Qed.
  Lemma div_ok x y : on2 machine_fmt (fun _ y => y <> 0) Rdiv (num x) (num y) (num (Bdiv mode_NE x y)).
  Proof.
    apply on2_num. intros FX FY N S. pose proof (Bdiv_correct prec emax Hp He mode_NE x y N) as C. cbn [round_mode] in C. fold (nearest (B2R x / B2R y)) in C.
    rewrite (nearest_small _ S) in C. destruct C as (C1 & C2 & _). rewrite FX in C2. unfold num. rewrite C2, C1. apply result_nearest.
  Qed.
  Lemma sqrt_ok x : on2 machine_fmt (fun x _ => 0 <= x) (fun x _ => sqrt x) (num x) (num x) (num (Bsqrt mode_NE x)).
  Proof.
    apply on2_num. intros FX _ N S. pose proof (Bsqrt_correct prec emax Hp He mode_NE x) as (C1 & C2 & _). cbn [round_mode] in C1. fold (nearest (sqrt (B2R x))) in C1.
    assert (F : is_finite (Bsqrt mode_NE x) = true).
    { rewrite C2. destruct x as [s|s| |s m e H]; cbn in FX; try congruence. destruct s; [|reflexivity]. exfalso.
      cbn [B2R] in N. assert (B : F2R (Float radix2 (cond_Zopp true (Z.pos m)) e) < 0) by (apply F2R_lt_0; reflexivity). lra. }
    unfold num. rewrite F, C1. apply result_nearest.
  Qed.
  Fixpoint onum (t : btree) : otree := match t with BLeaf x => OLeaf (num x) | BNode l r => ONode (onum l) (onum r) end.
  Lemma onum_leaves t : oleaves (onum t) = map num (bleaves t).
  Proof. induction t as [x|l IHl r IHr]; cbn; [reflexivity|]. rewrite map_app, IHl, IHr. reflexivity. Qed.
  Lemma onum_val op bop t : (forall x y, on2 machine_fmt always op (num x) (num y) (num (bop x y))) -> otree_val machine_fmt op (onum t) (num (bval bop t)).
  Proof. intro H. induction t as [x|l IHl r IHr]; cbn; [reflexivity|]. exists (num (bval bop l)), (num (bval bop r)). auto. Qed.
  Lemma order_ok op bop xs b : (forall x y, on2 machine_fmt always op (num x) (num y) (num (bop x y))) -> in_some_order bop xs b -> oany_order machine_fmt op (map num xs) (num b).
  Proof. intros H (t & P & ->). exists (onum t). rewrite onum_leaves. split; [apply Permutation_map, P|apply onum_val, H]. Qed.
  Theorem run_ieee e b : accurate_power -> run e b -> ieee machine_fmt e (num b).
  Proof.
    intro AP. revert b. induction e as [x|a c IHa IHb|a c IHa IHb|a c IHa IHb|a c IHa IHb|a IHa|a p IHa|l IH|l IH] using expr_ind'; intros b HR; cbn [run ieee] in *.
    - exact HR.
    - destruct HR as (x & y & H1 & H2 & ->). exists (num x), (num y). split; [auto|]. split; [auto|apply plus_ok].
    - destruct HR as (x & y & H1 & H2 & ->). exists (num x), (num y). split; [auto|]. split; [auto|apply minus_ok].
    - destruct HR as (x & y & H1 & H2 & ->). exists (num x), (num y). split; [auto|]. split; [auto|apply mult_ok].
    - destruct HR as (x & y & H1 & H2 & ->). exists (num x), (num y). split; [auto|]. split; [auto|apply div_ok].
    - destruct HR as (x & H1 & ->). exists (num x). split; [auto|apply sqrt_ok].
    - destruct HR as (x & q & H1 & H2 & ->). exists (num x), (num q). split; [auto|]. split; [rewrite H2; intros _; apply result_nearest|].
      apply on2_num. intros FX FY. apply AP; auto.
    - destruct HR as (xs & HX & HO). exists (map num xs). split; [|exact (order_ok _ _ _ _ plus_ok HO)].
      clear HO. revert xs HX. induction IH as [|e l H0 HF IHF]; intros [|x xs] HX; try contradiction; cbn [map]; [exact Logic.I|]. destruct HX as [H1 H2]. split; [apply H0, H1|apply IHF, H2].
    - destruct HR as (xs & HX & HO). exists (map num xs). split; [|exact (order_ok _ _ _ _ mult_ok HO)].
      clear HO. revert xs HX. induction IH as [|e l H0 HF IHF]; intros [|x xs] HX; try contradiction; cbn [map]; [exact Logic.I|]. destruct HX as [H1 H2]. split; [apply H0, H1|apply IHF, H2].
  Qed.
  (** ** Results exist: the machine can be run on every expression whose inputs are floats. *)
  Fixpoint entered (e : expr) : Prop :=
    match e with
    | Num x => exists b, num b = Some x
    | Add a b | Sub a b | Mul a b | Div a b => entered a /\ entered b
    | Sqrt a => entered a
    | Pow a p => entered a /\ exists q, num q = Some (nearest p)
    | Sum l | Prod l => l <> [] /\ fold_right (fun e s => entered e /\ s) True l
    end.
  Lemma some_order bop (xs : list flt) : xs <> [] -> exists b, in_some_order bop xs b.
  Proof.
    intro N. assert (T : exists t, bleaves t = xs).
    { clear - N. induction xs as [|x xs IH]; [congruence|]. destruct xs as [|y xs]; [exists (BLeaf x); reflexivity|].
      destruct IH as [t E]; [discriminate|]. exists (BNode (BLeaf x) t). cbn. rewrite E. reflexivity. }
    destruct T as [t E]. exists (bval bop t), t. rewrite E. split; [apply Permutation_refl|reflexivity].
  Qed.
  Lemma run_total e : entered e -> exists b, run e b.
  Proof.
    induction e as [x|a c IHa IHb|a c IHa IHb|a c IHa IHb|a c IHa IHb|a IHa|a p IHa|l IH|l IH] using expr_ind'; cbn [entered run]; intro H.
    1: exact H.
    1-4: destruct H as [H1 H2]; destruct (IHa H1) as [x X]; destruct (IHb H2) as [y Y]; eexists; exists x, y; auto.
    - destruct (IHa H) as [x X]. eexists; exists x; auto.
    - destruct H as [H [q Q]]. destruct (IHa H) as [x X]. eexists; exists x, q; auto.
    - destruct H as [N H]. assert (A : exists xs, xs <> [] /\ (fix all (es : list expr) (xs : list flt) : Prop :=
           match es, xs with [], [] => True | e :: es, x :: xs => run e x /\ all es xs | _, _ => False end) l xs).
      { assert (A : exists xs, (fix all (es : list expr) (xs : list flt) : Prop :=
           match es, xs with [], [] => True | e :: es, x :: xs => run e x /\ all es xs | _, _ => False end) l xs).
        { clear N. induction IH as [|e l H0 HF IHF]; [exists []; exact Logic.I|]. destruct H as [H1 H2]. destruct (H0 H1) as [x X]. destruct (IHF H2) as [xs XS]. exists (x :: xs). auto. }
        destruct A as [xs A]. exists xs. split; [|exact A]. intros ->. destruct l; [congruence|exact A]. }
      destruct A as (xs & NX & A). destruct (some_order (Bplus mode_NE) xs NX) as [b B]. exists b, xs. auto.
    - destruct H as [N H]. assert (A : exists xs, xs <> [] /\ (fix all (es : list expr) (xs : list flt) : Prop :=
           match es, xs with [], [] => True | e :: es, x :: xs => run e x /\ all es xs | _, _ => False end) l xs).
      { assert (A : exists xs, (fix all (es : list expr) (xs : list flt) : Prop :=
           match es, xs with [], [] => True | e :: es, x :: xs => run e x /\ all es xs | _, _ => False end) l xs).
        { clear N. induction IH as [|e l H0 HF IHF]; [exists []; exact Logic.I|]. destruct H as [H1 H2]. destruct (H0 H1) as [x X]. destruct (IHF H2) as [xs XS]. exists (x :: xs). auto. }
        destruct A as [xs A]. exists xs. split; [|exact A]. intros ->. destruct l; [congruence|exact A]. }
      destruct A as (xs & NX & A). destruct (some_order (Bmult mode_NE) xs NX) as [b B]. exists b, xs. auto.
  Qed.
  (** The float nearest to a real number. *)
  Definition of_real (x : R) : flt := binary_normalize prec emax Hp He mode_NE
    (ZnearestE (scaled_mantissa radix2 (SpecFloat.fexp prec emax) x)) (cexp radix2 (SpecFloat.fexp prec emax) x) false.
  Lemma of_real_ok x : Rabs x <= huge machine_fmt -> num (of_real x) = Some (nearest x).
  Proof.
    intro S. pose proof (binary_normalize_correct prec emax Hp He mode_NE (ZnearestE (scaled_mantissa radix2 (SpecFloat.fexp prec emax) x)) (cexp radix2 (SpecFloat.fexp prec emax) x) false) as C.
    cbv zeta in C. fold (of_real x) in C. cbn [round_mode] in C.
    change (F2R {| Fnum := ZnearestE (scaled_mantissa radix2 (SpecFloat.fexp prec emax) x); Fexp := cexp radix2 (SpecFloat.fexp prec emax) x |}) with (nearest x) in C.
    assert (E : round radix2 (SpecFloat.fexp prec emax) ZnearestE (nearest x) = nearest x).
    { apply round_generic; [apply valid_rnd_N|]. apply generic_format_round; [rewrite fexp_FLT; apply FLT_exp_valid; exact Hp|apply valid_rnd_N]. }
    rewrite E, (nearest_small _ S) in C. destruct C as (C1 & C2 & _). unfold num. rewrite C2, C1. reflexivity.
  Qed.
  Lemma of_integer n : (Z.abs n < 2 ^ prec)%Z -> Rabs (IZR n) <= huge machine_fmt -> num (of_real (IZR n)) = Some (IZR n).
  Proof.
    intros H S. rewrite (of_real_ok _ S). f_equal. unfold nearest. apply round_generic; [apply valid_rnd_N|]. rewrite fexp_FLT.
    apply generic_format_FLT. assert (0 < prec)%Z by exact Hp. assert (prec < emax)%Z by exact He.
    apply FLT_spec with (Float radix2 n 0); [unfold F2R; cbn; ring|exact H|cbn [Fexp]; lia].
  Qed.
End Machine.

(** Formats with enough digits are as fine as desired. *)
Lemma INR_bpow n : INR n <= bpow radix2 (Z.of_nat n).
Proof.
  induction n as [|n IH]; [cbn; lra|]. rewrite S_INR. replace (Z.of_nat (S n)) with (Z.of_nat n + 1)%Z by lia. rewrite bpow_plus.
  assert (1 <= bpow radix2 (Z.of_nat n)) by (change 1 with (bpow radix2 0); apply bpow_le; lia). cbn [bpow]. change (IZR (Z.pow_pos radix2 1)) with 2. lra.
Qed.
Lemma machine_fine d : 0 < d -> exists p0, (0 < p0)%Z /\ forall prec emax u, (p0 <= prec < emax)%Z -> u <= bpow radix2 (- prec) -> fine d (machine_fmt prec emax u).
Proof.
  intro Hd. destruct (archimed_cor1 (d / 4)) as (n & H1 & H2); [lra|]. exists (Z.of_nat n + 1)%Z. split; [lia|].
  intros prec emax u [P1 P2] HU. assert (N : 0 < INR n) by (apply lt_0_INR; exact H2).
  assert (B : bpow radix2 (- prec) <= / INR n).
  { rewrite bpow_opp. apply Rinv_le_contravar; [exact N|]. eapply Rle_trans; [apply INR_bpow|]. apply bpow_le. lia. }
  unfold fine, eps. cbn [roundoff tiny huge machine_fmt]. rewrite Rmax_right by exact HU.
  pose proof (bpow_gt_0 radix2 (- prec)). pose proof (bpow_gt_0 radix2 (2 - emax - prec)).
  assert (bpow radix2 (2 - emax - prec) <= bpow radix2 (- prec) * 2).
  { replace (bpow radix2 (- prec) * 2) with (bpow radix2 (- prec + 1)) by (rewrite bpow_plus; reflexivity). apply bpow_le. lia. }
  repeat split; try lra.
  apply Rle_trans with (INR n).
  - apply Rlt_le in H1. rewrite <- (Rinv_inv (INR n)). apply Rinv_le_contravar; [apply Rinv_0_lt_compat; lra|]. lra.
  - eapply Rle_trans; [apply INR_bpow|]. apply bpow_le. lia.
Qed.
(** An accurate power function exists. *)
Definition best_power prec emax Hp He (x y : binary_float prec emax) : binary_float prec emax := of_real prec emax Hp He (Rpower (B2R x) (B2R y)).
Lemma best_power_ok prec emax Hp He u : accurate_power prec emax (best_power prec emax Hp He) u.
Proof. intros x y _ _ _ S. unfold best_power. rewrite (of_real_ok prec emax Hp He u _ S). apply result_nearest. exact Hp. Qed.
(** float64 *)
Lemma float64_fine : fine (/ 2 ^ 52) (machine_fmt 53 1024 (bpow radix2 (-53))).
Proof.
  unfold fine, eps. cbn [roundoff tiny huge machine_fmt]. rewrite Rmax_right by (apply Rle_refl).
  pose proof (bpow_gt_0 radix2 (- (53))). pose proof (bpow_gt_0 radix2 (2 - 1024 - 53)).
  assert (E : forall n, bpow radix2 (- Z.of_nat n) = / 2 ^ n).
  { intro n. rewrite bpow_opp. f_equal. rewrite <- (IZR_Zpower radix2) by lia. rewrite <- pow_IZR. reflexivity. }
  assert (L : bpow radix2 (2 - 1024 - 53) <= bpow radix2 (- (53))) by (apply bpow_le; lia).
  assert (E53 : bpow radix2 (- (53)) = / 2 ^ 53) by (exact (E 53%nat)).
  assert (H2 : / 2 ^ 53 + / 2 ^ 53 = / 2 ^ 52) by (simpl; field).
  repeat split; try lra.
  rewrite Rinv_inv.
  apply Rle_trans with (bpow radix2 52); [|apply bpow_le; lia]. right. change 52%Z with (Z.of_nat 52). rewrite <- (IZR_Zpower radix2) by lia. rewrite <- pow_IZR. reflexivity.
Qed.
