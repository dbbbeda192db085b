From Coq Require Import Reals ZArith Lra Lia FunctionalExtensionality Bool.
From Verif Require Import Tensor Py Voigt VoigtProofs Algebra Models Frameworks Spaces Lab Spec VCalc InvCore SpaceCore HistProofs Typed TypedSpec TypedProofs TypedSpaces.
Local Open Scope R_scope.

Lemma nmul_fine A B a b x y : fineZ A a x -> fineZ B b y -> (A * B <? 2 ^ 63)%Z = true -> fineZ (A * B) (nmul a b) (x * y).
Proof.
  intros [<- Ba] [<- Bb] L. destruct a as [a|a], b as [b|b]; cbn [nmul nop rv]; try (split; [reflexivity|exact Logic.I]).
  pose proof (abs_mul _ _ _ _ Ba Bb) as Q. rewrite (wrap_abs _ _ Q L). split; [apply mult_IZR|exact Q].
Qed.
Lemma nadd_fine A B a b x y : fineZ A a x -> fineZ B b y -> (A + B <? 2 ^ 63)%Z = true -> fineZ (A + B) (nadd a b) (x + y).
Proof.
  intros [<- Ba] [<- Bb] L. destruct a as [a|a], b as [b|b]; cbn [nadd nop rv]; try (split; [reflexivity|exact Logic.I]).
  assert (Q : (Z.abs (a + b) <= A + B)%Z) by lia. rewrite (wrap_abs _ _ Q L). split; [apply plus_IZR|exact Q].
Qed.
Lemma nsub_fine A B a b x y : fineZ A a x -> fineZ B b y -> (A + B <? 2 ^ 63)%Z = true -> fineZ (A + B) (nsub a b) (x - y).
Proof.
  intros [<- Ba] [<- Bb] L. destruct a as [a|a], b as [b|b]; cbn [nsub nop rv]; try (split; [reflexivity|exact Logic.I]).
  assert (Q : (Z.abs (a - b) <= A + B)%Z) by lia. rewrite (wrap_abs _ _ Q L). split; [apply minus_IZR|exact Q].
Qed.
Lemma nsquare_fine A a x : fineZ A a x -> (A * A <? 2 ^ 63)%Z = true -> fineZ (A * A) (nsquare a) (x ^ 2).
Proof.
  intros [<- Ba] L. destruct a as [a|a]; cbn [nsquare rv]; [|split; [reflexivity|exact Logic.I]].
  pose proof (abs_mul _ _ _ _ Ba Ba) as Q. rewrite (wrap_abs _ _ Q L). split; [cbn [rv]; rewrite mult_IZR; ring|exact Q].
Qed.
Lemma fine_le A B a x : fineZ A a x -> (A <=? B)%Z = true -> fineZ B a x.
Proof. intros [E Ba] L. apply Z.leb_le in L. split; [exact E|]. destruct a; [lia|exact Logic.I]. Qed.

(** Accumulators. *)
Definition acc (B : Z) (x : option (num * bool)) (x0 : option R) : Prop :=
  match x, x0 with None, None => True | Some (n, _), Some r => fineZ B n r | _, _ => False end.
(** ... that no in-place addition of floats can break. *)
Definition safe (x : option (num * bool)) : Prop := match x with Some (NI _, true) => False | _ => True end.
Lemma iadd_right A B x x0 y y0 b : acc A x x0 -> fineZ B y y0 -> (A + B <? 2 ^ 63)%Z = true ->
  right_or_TypeError (acc (A + B)) (t_iadd x y b) (iadd x0 y0) /\
  (safe x -> match y with NI _ => b = false | NF _ => True end ->
   right (fun r r0 => acc (A + B) r r0 /\ safe r) (t_iadd x y b) (iadd x0 y0)).
Proof.
  intros Hx Hy L. destruct x as [[n f]|], x0 as [r|]; try destruct Hx; [|split; [right; reflexivity|reflexivity]].
  pose proof (nadd_fine _ _ _ _ _ _ (conj H H0 : fineZ A n r) Hy L) as Q. cbn [t_iadd iadd].
  destruct f.
  - destruct n as [n|n]; cbn [safe].
    + split; [|intros []]. destruct (nadd (NI n) y) as [z|z] eqn:E; [right|left]; [|reflexivity]. exact Q.
    + assert (Q' : fineZ (A + B) (NF (rv (nadd (NF n) y))) (r + y0)) by (split; [apply Q|exact Logic.I]).
      split; [right; exact Q'|]. intros _ _. split; [exact Q'|exact Logic.I].
  - split; [right; exact Q|]. intros _ Hb. split; [exact Q|]. destruct n as [n|n], y as [y|y]; cbn [nadd nop safe]; try exact Logic.I. rewrite Hb. exact Logic.I.
Qed.

Lemma bind_rt {A B A' B'} (P : A -> B -> Prop) (Q : A' -> B' -> Prop) t r k k0 :
  right_or_TypeError P t r -> (forall a b, P a b -> right_or_TypeError Q (k a) (k0 b)) ->
  right_or_TypeError Q (rbind t k) (rbind r k0).
Proof.
  intros [->|H] K; [left; reflexivity|]. destruct t as [a|e], r as [b|e']; cbn in H; try destruct H; [apply K; exact H|right; reflexivity].
Qed.
Lemma bind_r {A B A' B'} (P : A -> B -> Prop) (Q : A' -> B' -> Prop) t r k k0 :
  right P t r -> (forall a b, P a b -> right Q (k a) (k0 b)) -> right Q (rbind t k) (rbind r k0).
Proof.
  intros H K. destruct t as [a|e], r as [b|e']; cbn in H; try destruct H; [apply K; exact H|reflexivity].
Qed.

Lemma tod_steps {SV} nd m : params m ->
  (forall I1 I2 I3 (sv : SV), bounded I1 ->
     right same_hessian (tm_hessian (t_tod_model nd m) I1 (NF I2) I3 sv) (im_hessian (tod_model (tod_num m)) (rv I1) I2 (rv I3) sv) /\
     right_or_TypeError same_gradient (tm_gradient (t_tod_model nd m) I1 (NF I2) I3 sv) (im_gradient (tod_model (tod_num m)) (rv I1) I2 (rv I3) sv) /\
     (nd = false \/ float_params m \/ (exists x, I1 = NF x) ->
      right same_gradient (tm_gradient (t_tod_model nd m) I1 (NF I2) I3 sv) (im_gradient (tod_model (tod_num m)) (rv I1) I2 (rv I3) sv))).
Proof.
  intros (P10 & P01 & P11 & P20 & P30 & PU).
  assert (FP : forall n, param n -> fineZ 100000 n (rv n)) by (intros [z|x] H; split; [reflexivity|exact H|reflexivity|exact Logic.I]).
  assert (FU : fineZ 3 (tundef m) (rv (tundef m))) by (destruct PU as [->| ->]; split; cbn; [reflexivity|lia|reflexivity|lia]).
  assert (F0 : fineZ 0 (NI 0) 0) by (split; [reflexivity|cbn; lia]).
  assert (F2 : fineZ 2 (NI 2) 2) by (split; [reflexivity|cbn; lia]).
  assert (F3 : fineZ 3 (NI 3) 3) by (split; [reflexivity|cbn; lia]).
  assert (F6 : fineZ 6 (NI 6) 6) by (split; [reflexivity|cbn; lia]).
  (* the increments *)
  assert (T11 : forall I, fineZ 2250000 I (rv I) -> fineZ 225000300000 (nmul (tC11 m) (nsub I (tundef m))) (rv (tC11 m) * (rv I - rv (tundef m)))).
  { intros I HI. exact (nmul_fine _ _ _ _ _ _ (FP _ P11) (nsub_fine _ _ _ _ _ _ HI FU eq_refl) eq_refl). }
  assert (T20 : forall I, fineZ 2250000 I (rv I) -> fineZ 450000600000 (nmul (nmul (tC20 m) (NI 2)) (nsub I (tundef m))) (rv (tC20 m) * 2 * (rv I - rv (tundef m)))).
  { intros I HI. exact (nmul_fine _ _ _ _ _ _ (nmul_fine _ _ _ _ _ _ (FP _ P20) F2 eq_refl) (nsub_fine _ _ _ _ _ _ HI FU eq_refl) eq_refl). }
  assert (T30 : forall I, fineZ 2250000 I (rv I) -> fineZ 1518754050002700000 (nmul (nmul (tC30 m) (NI 3)) (nsquare (nsub I (tundef m)))) (rv (tC30 m) * 3 * (rv I - rv (tundef m)) ^ 2)).
  { intros I HI. exact (nmul_fine _ _ _ _ _ _ (nmul_fine _ _ _ _ _ _ (FP _ P30) F3 eq_refl) (nsquare_fine _ _ _ (nsub_fine _ _ _ _ _ _ HI FU eq_refl) eq_refl) eq_refl). }
  (* hessian *)
  assert (HH : forall I1 I2 I3 sv, fineZ 2250000 I1 (rv I1) ->
     right same_hessian (tm_hessian (t_tod_model (SV:=SV) nd m) I1 I2 I3 sv) (im_hessian (tod_model (tod_num m)) (rv I1) (rv I2) (rv I3) sv)).
  { intros I1 I2 I3 sv H1. intro v.
    destruct (nadd_fine _ _ _ _ _ _ (nmul_fine _ _ _ _ _ _ (FP _ P20) F2 eq_refl)
      (nmul_fine _ _ _ _ _ _ (nmul_fine _ _ _ _ _ _ (FP _ P30) F6 eq_refl) (nsub_fine _ _ _ _ _ _ H1 FU eq_refl) eq_refl) eq_refl) as [E _].
    unfold t_tod_model, tod_model, tm_hessian, im_hessian, t_tod_hessian, tod_hessian. cbn [tod_num C10 C01 C11 C20 C30 undeformed]. cbv zeta.
    destruct v; try reflexivity.
    - destruct (nonzero (rv (tC20 m)) || nonzero (rv (tC30 m)))%bool; cbn [option_map]; [rewrite E|]; reflexivity.
    - destruct (nonzero (rv (tC11 m))); reflexivity. }
  (* the running accumulators *)
  assert (S1 : acc 0 (if (nonzero (rv (tC10 m)) || nonzero (rv (tC11 m)) || nonzero (rv (tC20 m)) || nonzero (rv (tC30 m)))%bool then Some (NI 0, false) else None)
                     (if (nonzero (rv (tC10 m)) || nonzero (rv (tC11 m)) || nonzero (rv (tC20 m)) || nonzero (rv (tC30 m)))%bool then Some 0 else None)).
  { match goal with |- context [if ?c then _ else _] => destruct c end; [exact F0|exact Logic.I]. }
  assert (S2 : acc 0 (if (nonzero (rv (tC01 m)) || nonzero (rv (tC11 m)))%bool then Some (NI 0, false) else None)
                     (if (nonzero (rv (tC01 m)) || nonzero (rv (tC11 m)))%bool then Some 0 else None)).
  { match goal with |- context [if ?c then _ else _] => destruct c end; [exact F0|exact Logic.I]. }
  assert (Z1 : safe (if (nonzero (rv (tC10 m)) || nonzero (rv (tC11 m)) || nonzero (rv (tC20 m)) || nonzero (rv (tC30 m)))%bool then Some (NI 0, false) else None))
    by (match goal with |- context [if ?c then _ else _] => destruct c end; exact Logic.I).
  assert (Z2 : safe (if (nonzero (rv (tC01 m)) || nonzero (rv (tC11 m)))%bool then Some (NI 0, false) else None))
    by (match goal with |- context [if ?c then _ else _] => destruct c end; exact Logic.I).
  (* one conditional increment *)
  assert (ST : forall A B x x0 y y0 b (c : bool), acc A x x0 -> fineZ B y y0 -> (A + B <? 2 ^ 63)%Z = true -> (0 <=? B)%Z = true ->
     right_or_TypeError (acc (A + B)) (if c then t_iadd x y b else Ok x) (if c then iadd x0 y0 else Ok x0) /\
     (safe x -> match y with NI _ => b = false | NF _ => True end ->
      right (fun r r0 => acc (A + B) r r0 /\ safe r) (if c then t_iadd x y b else Ok x) (if c then iadd x0 y0 else Ok x0))).
  { intros A B x x0 y y0 b c Hx Hy L L0. destruct c; [exact (iadd_right A B x x0 y y0 b Hx Hy L)|].
    apply Z.leb_le in L0.
    assert (W : acc (A + B) x x0).
    { destruct x as [[n f]|], x0 as [r|]; try exact Hx. cbn in *. destruct Hx as [E Q]. split; [exact E|]. destruct n; [lia|exact Logic.I]. }
    split; [right; exact W|]. intros S _. split; assumption. }
  assert (FIN : forall B B' x x0 y y0 (sv : SV), acc B x x0 -> acc B' y y0 ->
     same_gradient (option_map fst x, option_map fst y, None, sv) (x0, y0, None, sv)).
  { intros B B' x x0 y y0 sv Hx Hy. cbn. destruct x as [[n f]|], x0 as [r|]; try destruct Hx; destruct y as [[n' f']|], y0 as [r'|]; try destruct Hy; cbn; subst; reflexivity. }
  intros I1 I2 I3 sv B1. assert (H1 : fineZ 2250000 I1 (rv I1)) by (split; [reflexivity|exact B1]).
  assert (H2 : fineZ 2250000 (NF I2) (rv (NF I2))) by (split; [reflexivity|exact Logic.I]).
  cbn [tm_gradient im_gradient t_tod_model tod_model]. unfold t_tod_gradient, tod_gradient. cbv zeta. cbn [tod_num C10 C01 C11 C20 C30 undeformed].
  split; [exact (HH I1 (NF I2) I3 sv H1)|]. split.
  - eapply (bind_rt (fun a b => same_gradient (a, sv) (b, sv))); [|intros a b Hab; right; exact Hab].
    eapply bind_rt; [exact (proj1 (ST _ _ _ _ _ _ false (nonzero (rv (tC10 m))) S1 (FP _ P10) eq_refl eq_refl))|]. intros x1 y1 A1.
    eapply bind_rt; [exact (proj1 (ST _ _ _ _ _ _ false (nonzero (rv (tC01 m))) S2 (FP _ P01) eq_refl eq_refl))|]. intros x2 y2 A2.
    eapply bind_rt; [exact (proj1 (ST _ _ _ _ _ _ nd (nonzero (rv (tC11 m))) A1 (T11 _ H2) eq_refl eq_refl))|]. intros x3 y3 A3.
    eapply bind_rt; [exact (proj1 (ST _ _ _ _ _ _ nd (nonzero (rv (tC11 m))) A2 (T11 _ H1) eq_refl eq_refl))|]. intros x4 y4 A4.
    eapply bind_rt; [exact (proj1 (ST _ _ _ _ _ _ nd (nonzero (rv (tC20 m))) A3 (T20 _ H1) eq_refl eq_refl))|]. intros x5 y5 A5.
    eapply bind_rt; [exact (proj1 (ST _ _ _ _ _ _ nd (nonzero (rv (tC30 m))) A5 (T30 _ H1) eq_refl eq_refl))|]. intros x6 y6 A6.
    right. exact (FIN _ _ _ _ _ _ sv A6 A4).
  - intro Cnd.
    assert (NB : forall n, match n with NI _ => false = false | NF _ => True end) by (intros [z|x]; [reflexivity|exact Logic.I]).
    assert (ND : forall n, nd = false \/ (exists x, n = NF x) -> match n with NI _ => nd = false | NF _ => True end)
      by (intros [z|x] [A|[y A]]; try exact A; try exact Logic.I; discriminate A).
    assert (UP : forall n, (n = tC11 m \/ n = tC20 m \/ n = tC30 m) -> nd = false \/ (exists x, n = NF x) \/ (exists x, I1 = NF x)).
    { intros n Hn. destruct Cnd as [A|[A|A]]; [left; exact A|right; left; apply A; tauto|right; right; exact A]. }
    assert (U12 : match nmul (tC11 m) (nsub (NF I2) (tundef m)) with NI _ => nd = false | NF _ => True end)
      by (destruct (tC11 m), PU as [->| ->]; exact Logic.I).
    assert (U11 : match nmul (tC11 m) (nsub I1 (tundef m)) with NI _ => nd = false | NF _ => True end).
    { apply ND. destruct (UP (tC11 m) ltac:(tauto)) as [A|[[x ->]|[x ->]]]; [left; exact A|right; eexists; reflexivity|right].
      destruct (tC11 m), PU as [->| ->]; eexists; reflexivity. }
    assert (U20 : match nmul (nmul (tC20 m) (NI 2)) (nsub I1 (tundef m)) with NI _ => nd = false | NF _ => True end).
    { apply ND. destruct (UP (tC20 m) ltac:(tauto)) as [A|[[x ->]|[x ->]]]; [left; exact A|right; eexists; reflexivity|right].
      destruct (tC20 m), PU as [->| ->]; eexists; reflexivity. }
    assert (U30 : match nmul (nmul (tC30 m) (NI 3)) (nsquare (nsub I1 (tundef m))) with NI _ => nd = false | NF _ => True end).
    { apply ND. destruct (UP (tC30 m) ltac:(tauto)) as [A|[[x ->]|[x ->]]]; [left; exact A|right; eexists; reflexivity|right].
      destruct (tC30 m), PU as [->| ->]; eexists; reflexivity. }
    eapply (bind_r (fun a b => same_gradient (a, sv) (b, sv))); [|intros a b Hab; exact Hab].
    eapply bind_r; [exact (proj2 (ST _ _ _ _ _ _ false (nonzero (rv (tC10 m))) S1 (FP _ P10) eq_refl eq_refl) Z1 (NB _))|]. intros x1 y1 [A1 Q1].
    eapply bind_r; [exact (proj2 (ST _ _ _ _ _ _ false (nonzero (rv (tC01 m))) S2 (FP _ P01) eq_refl eq_refl) Z2 (NB _))|]. intros x2 y2 [A2 Q2].
    eapply bind_r; [exact (proj2 (ST _ _ _ _ _ _ nd (nonzero (rv (tC11 m))) A1 (T11 _ H2) eq_refl eq_refl) Q1 U12)|]. intros x3 y3 [A3 Q3].
    eapply bind_r; [exact (proj2 (ST _ _ _ _ _ _ nd (nonzero (rv (tC11 m))) A2 (T11 _ H1) eq_refl eq_refl) Q2 U11)|]. intros x4 y4 [A4 Q4].
    eapply bind_r; [exact (proj2 (ST _ _ _ _ _ _ nd (nonzero (rv (tC20 m))) A3 (T20 _ H1) eq_refl eq_refl) Q3 U20)|]. intros x5 y5 [A5 Q5].
    eapply bind_r; [exact (proj2 (ST _ _ _ _ _ _ nd (nonzero (rv (tC30 m))) A5 (T30 _ H1) eq_refl eq_refl) Q5 U30)|]. intros x6 y6 [A6 Q6].
    exact (FIN _ _ _ _ _ _ sv A6 A4).
Qed.
Lemma tod_typed {SV} nd m : params m -> typed_model (SV:=SV) (t_tod_model nd m) (tod_model (tod_num m)).
Proof.
  intro P. split.
  - intros I1 I2 I3 sv B. destruct (tod_steps (SV:=SV) nd m P I1 I2 I3 sv B) as (H & G & _). split; [exact G|right; exact H].
  - intros I1 I2 I3 sv. destruct (tod_steps (SV:=SV) nd m P (NF I1) I2 (NF I3) sv Logic.I) as (H & _ & G).
    split; [apply G; right; right; eexists; reflexivity|exact H].
Qed.

Lemma tod_returns {SV} (m : TOD) I1 I2 I3 (sv : SV) : exists g1 g2, im_gradient (tod_model m) I1 I2 I3 sv = Ok (g1, g2, None, sv).
Proof.
  cbn [im_gradient tod_model]. unfold tod_gradient. destruct m as [c10 c01 c11 c20 c30 u]. cbn [C10 C01 C11 C20 C30 undeformed].
  destruct (nonzero c10), (nonzero c01), (nonzero c11), (nonzero c20), (nonzero c30); cbn; eauto.
Qed.

Lemma tod_fw_int {SV} nd m C C0 (sv : SV) : params m -> nd = false \/ float_params m -> fine C C0 ->
  exists g H0, tf_gradient (t_invariants (t_tod_model nd m)) C sv = Ok (AF g, sv) /\
    tf_hessian (t_invariants (t_tod_model nd m)) C sv = Ok (AF (fun '(v, w) => H0 v w)) /\
    forall s, outcome (fw_gradient (invariants_fw (tod_model (tod_num m))) C0 sv) s = Ok (g, sv) /\
      outcome (fw_hessian (invariants_fw (tod_model (tod_num m))) C0 sv) s = Ok H0.
Proof.
  intros P Cnd H. destruct (fine_trace _ _ H) as [T BT]. pose proof (fine_det _ _ H) as D.
  destruct (tod_steps (SV:=SV) nd m P (t_trace C) (Jv C0 X1) (t_det C) sv BT) as (RH & _ & RG).
  specialize (RG ltac:(tauto)). rewrite T, D in RG, RH.
  destruct (tod_returns (tod_num m) (trace C0) (Jv C0 X1) (det C0) sv) as (g1 & g2 & E). rewrite E in RG.
  assert (EI : inv_call (tod_model (tod_num m)) (Jv C0) sv = Ok (g1, g2, None, sv)) by exact E.
  destruct (tm_gradient (t_tod_model nd m) (t_trace C) (NF (Jv C0 X1)) (t_det C) sv) as [[[[a1 a2] a3] svn]|e] eqn:Et; [|destruct RG].
  cbn in RG. injection RG as -> -> E3 ->. destruct a3 as [a3|]; [discriminate E3|].
  pose proof (t_gradient_self (t_tod_model nd m) C C0 svn a1 a2 None svn H Et) as TS.
  assert (TS' : t_inv_gradient_self (t_tod_model nd m) C svn = Ok (AF (gradv C0 (option_map rv a1, option_map rv a2, option_map rv None)), svn, keeps C C0 a1 a2 None))
    by (destruct C; exact TS).
  destruct (tm_hessian (t_tod_model nd m) (t_trace C) (NF (Jv C0 X1)) (t_det C) svn) as [h|e] eqn:Eh; [|discriminate Eh].
  pose proof (t_hessian_tail (t_tod_model nd m) C C0 svn a1 a2 None svn h H TS' Eh) as RT. cbv zeta in RT.
  set (h' := fun v => option_map rv (h v)) in *.
  assert (EH : inv_callh (tod_model (tod_num m)) (Jv C0) svn = Ok h').
  { unfold inv_callh. cbn [Jv]. cbn [im_hessian tod_model] in RH |- *. f_equal. apply functional_extensionality. intro v. apply RH. }
  (* no exception in the shipped model *)
  assert (NE : hess_exn (option_map rv a1, option_map rv a2, option_map rv None) h' = None).
  { injection EH as EH. rewrite <- EH. clear - EI. unfold inv_call in EI. cbn [Jv im_gradient tod_model] in EI.
    destruct (tod_num m) as [c10 c01 c11 c20 c30 u]. unfold tod_gradient in EI. unfold hess_exn, tod_hessian. cbn [C10 C01 C11 C20 C30 undeformed] in *.
    destruct (nonzero c10), (nonzero c01), (nonzero c11), (nonzero c20), (nonzero c30); cbn in EI; injection EI as <- <-; reflexivity. }
  rewrite NE in RT. destruct (t_inv_hessian (t_tod_model nd m) C svn) as [hm|e] eqn:ET; [|destruct RT]. cbn in RT. unfold sameH in RT.
  eexists. eexists. split; [|split].
  - cbn [tf_gradient t_invariants]. unfold t_inv_gradient. rewrite TS'. reflexivity.
  - cbn [tf_hessian t_invariants]. rewrite ET, RT. reflexivity.
  - intro s. split.
    + cbn [fw_gradient invariants_fw]. unfold outcome. rewrite (inv_gradient_ok _ _ _ _ _ s EI). reflexivity.
    + cbn [fw_hessian invariants_fw]. unfold outcome. rewrite (inv_hessian_eq _ _ _ _ _ _ s EI EH). pose proof (NE : hess_exn (option_map rv a1, option_map rv a2, None) h' = None) as NE2. rewrite NE2. reflexivity.
Qed.

(** Deformation with an integer F and the shipped model: the gradient returns; so does the hessian
    unless it needs the inverse of C. *)
Lemma def_int {SV} nd m o F (sv : SV) s : params m -> nd = false \/ float_params m -> moderate F ->
  right float_stress (t_gradient KDeformation (t_invariants (t_tod_model nd m)) o F sv)
    (outcome (sp_gradient KDeformation (invariants_fw (tod_model (tod_num m))) o (numbers F) sv) s) /\
  (finalize o = false \/ force o = Deformed ->
   right float_elast (t_hessian KDeformation (t_invariants (t_tod_model nd m)) o F sv)
    (outcome (sp_hessian KDeformation (invariants_fw (tod_model (tod_num m))) o (numbers F) sv) s)) /\
  (finalize o = true -> force o = Undeformed -> dt F = Int ->
   t_hessian KDeformation (t_invariants (t_tod_model nd m)) o F sv = Raise TypeError).
Proof.
  intros P Cnd HF. pose proof (fine_CG F HF) as HC.
  destruct (tod_fw_int nd m _ _ sv P Cnd HC) as (g & H0 & EG & EH & ES).
  set (tf := t_invariants (t_tod_model nd m)) in *. set (fw := invariants_fw (tod_model (tod_num m))) in *.
  destruct (fw_gradient fw (right_CG (numbers F)) sv (sp_mat s)) as [ms r] eqn:EF.
  assert (Er : r = Ok (g, sv)) by (rewrite <- (proj1 (ES (sp_mat s))); unfold outcome; rewrite EF; reflexivity). subst r.
  destruct (piola_right o F (kS KDeformation (right_CG (numbers F)) g) _ _ HF (kd_ok KDeformation _ _ HC)) as (Q & EQ & FQ).
  assert (EGr : t_gradient KDeformation tf o F sv = Ok (Q, sv)) by (rewrite (t_grad_ok tf o KDeformation F sv g sv HF (or_introl eq_refl) EG), EQ; reflexivity).
  destruct (t_hess_ok tf o KDeformation F sv g sv H0 HF (or_introl eq_refl) EG EH) as (C4 & E4 & ET). rewrite EGr in ET. cbn [rbind] in ET.
  split; [|split].
  - rewrite EGr. rewrite (sp_gradient_ok fw o KDeformation _ sv s g sv (proj1 (ES (sp_mat s)))). cbn [right]. unfold float_P, float_stress in *. cbn [fst snd] in *. split; [reflexivity|apply FQ].
  - intro A. rewrite ET. rewrite (sp_hessian_ok fw o KDeformation _ sv s g sv ms EF). cbn [seen]. rewrite (proj2 (ES ms)).
    destruct (piola_elast_right o F (kS KDeformation (right_CG (numbers F)) g) _ _ C4 _ _ (kinvC KDeformation (right_CG (numbers F))) HF (kd_ok KDeformation _ _ HC) eq_refl E4) as [(_ & B1 & B2 & _)|(W & -> & FW)].
    + destruct A as [A|A]; congruence.
    + exact FW.
  - intros A1 A2 A3. rewrite ET. destruct F as [f|f]; [|discriminate A3]. unfold t_piola_elast. rewrite A1, A2. reflexivity.
Qed.
