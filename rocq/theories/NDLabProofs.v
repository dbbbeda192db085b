(** * Simulation on arrays: proofs. *)
From Coq Require Import Reals List Arith Lia Lra ZArith String FunctionalExtensionality.
From Verif Require Import Tensor Py Spaces Spec Lab NDCore NDRel NDOps NDHeap NDVoigt NDSpaces NDLinks NDSpec NDLab.
Import ListNotations.
Local Open Scope R_scope.

(** ** Positions *)
Lemma size_app s t : size (s ++ t) = (size s * size t)%nat.
Proof. induction s as [|n s IH]; cbn [size app]; [lia|]. rewrite IH. lia. Qed.
Lemma ravel_lt s k : inb s k -> (ravel s k < size s)%nat.
Proof.
  revert k; induction s as [|n s IH]; intros [|i k]; cbn [inb ravel size]; try tauto; [lia|].
  intros [Hi Hk]. specialize (IH k Hk). nia.
Qed.
Lemma unravel_in s p : (p < size s)%nat -> inb s (unravel s p).
Proof.
  revert p; induction s as [|n s IH]; intros p; cbn [inb unravel size]; [auto|]. intros H.
  assert (size s <> 0)%nat by nia. split.
  - apply Nat.div_lt_upper_bound; lia.
  - apply IH, Nat.mod_upper_bound. assumption.
Qed.
Lemma unravel_step n s i q : (q < size s)%nat -> unravel (n :: s) (i * size s + q) = i :: unravel s q.
Proof.
  intros H. cbn [unravel]. f_equal.
  - rewrite Nat.add_comm, Nat.div_add, Nat.div_small by lia. lia.
  - f_equal. rewrite Nat.add_comm, Nat.mod_add, Nat.mod_small; lia.
Qed.
Lemma unravel_ravel s k : inb s k -> unravel s (ravel s k) = k.
Proof.
  revert k; induction s as [|n s IH]; intros [|i k]; try (cbn; tauto).
  intros [Hi Hk]. cbn [ravel]. rewrite unravel_step by (now apply ravel_lt). f_equal. now apply IH.
Qed.
Lemma ravel_unravel s p : (p < size s)%nat -> ravel s (unravel s p) = p.
Proof.
  revert p; induction s as [|n s IH]; intros p; cbn [ravel unravel size]; [lia|]. intros H.
  assert (size s <> 0)%nat by nia. rewrite IH by (now apply Nat.mod_upper_bound).
  rewrite (Nat.div_mod p (size s)) at 3 by assumption. lia.
Qed.

(** ** The two reshapes *)
Lemma reshape_in h F s : field h F i33 s ->
  exists F4, (nd_reshape F [Some 3; Some 3; Some 1; None]%nat) h = (h, Ok F4) /\ field h F4 i33 [1%nat; size s] /\
    forall p, (p < size s)%nat -> value33 h F4 [0%nat; p] = value33 h F (unravel s p).
Proof.
  intros [H1 H2]. cbn [idim i33 app] in H2. unfold nd_reshape, bind, lift.
  assert (E : reshape_shape [Some 3; Some 3; Some 1; None]%nat (size (nshp F)) = Ok [3; 3; 1; size s]%nat).
  { rewrite H2. unfold reshape_shape. cbn [unknowns filter List.length known fold_right].
    replace (size (3%nat :: 3%nat :: s)) with (size s * 9)%nat by (cbn [size]; lia).
    change (3 * (3 * (1 * 1)))%nat with 9%nat. cbn [Nat.eqb].
    rewrite Nat.mod_mul, Nat.div_mul by lia. reflexivity. }
  rewrite E. eexists. split; [reflexivity|]. split; [split; [exact H1|reflexivity]|].
  intros p Hp. unfold value33, value. do 2 (apply functional_extensionality; intro).
  cbn [ienc i33 nshp idim List.length skipn contents dat vw loc]. rewrite H2. cbn [skipn].
  assert (Pp : proj [1%nat; size s] [0%nat; p] = [0%nat; p]) by (apply proj_self; cbn; lia).
  rewrite Pp, (proj_self s) by (now apply unravel_in). f_equal. f_equal. cbn [app].
  cbn [ravel]. cbn [size]. rewrite !Nat.mul_1_r, !Nat.add_0_r.
  replace (n3 x * (3 * (1 * size s)) + (n3 x0 * (1 * size s) + (0 * size s + p)))%nat
    with (n3 x * size (3%nat :: s) + (n3 x0 * size s + p))%nat by (cbn [size]; lia).
  rewrite unravel_step, unravel_step by (destruct x, x0; cbn [n3 size]; nia). reflexivity.
Qed.
Lemma reshape_back h P m : field h P i33 [1%nat; m] ->
  exists Q, (nd_reshape P [Some 3; Some 3; None]%nat) h = (h, Ok Q) /\ field h Q i33 [m] /\
    forall p, (p < m)%nat -> value33 h Q [p] = value33 h P [0%nat; p].
Proof.
  intros [H1 H2]. cbn [idim i33 app] in H2. unfold nd_reshape, bind, lift.
  assert (E : reshape_shape [Some 3; Some 3; None]%nat (size (nshp P)) = Ok [3; 3; m]%nat).
  { rewrite H2. unfold reshape_shape. cbn [unknowns filter List.length known fold_right].
    replace (size [3; 3; 1; m]%nat) with (m * 9)%nat by (cbn [size]; lia).
    change (3 * (3 * 1))%nat with 9%nat. cbn [Nat.eqb].
    rewrite Nat.mod_mul, Nat.div_mul by lia. reflexivity. }
  rewrite E. eexists. split; [reflexivity|]. split; [split; [exact H1|reflexivity]|].
  intros p Hp. unfold value33, value. do 2 (apply functional_extensionality; intro).
  cbn [ienc i33 nshp idim List.length skipn contents dat vw loc]. rewrite H2. cbn [skipn].
  assert (Pp : proj [1%nat; m] [0%nat; p] = [0%nat; p]) by (apply proj_self; cbn; lia).
  assert (Pq : proj [m] [p] = [p]) by (apply proj_self; cbn; lia).
  rewrite Pp, Pq. f_equal. f_equal. cbn [app ravel size].
  replace (n3 x * (3 * (m * 1)) + (n3 x0 * (m * 1) + (p * 1 + 0)))%nat
    with (n3 x * size [3; 1; m]%nat + (n3 x0 * size [1; m]%nat + (0 * size [m] + p)))%nat by (cbn [size]; lia).
  rewrite unravel_step, unravel_step, unravel_step by (destruct x, x0; cbn [n3 size]; nia).
  cbn [unravel size]. rewrite Nat.div_1_r. reflexivity.
Qed.

(** ** The load case's stress *)
Lemma row_z_ok z i v n s : shp v = n :: s -> (i < n)%nat -> z = Z.of_nat i \/ z = (Z.of_nat i - Z.of_nat n)%Z ->
  row_z z v = Ok {| shp := s; dat := fun k => dat v (i :: k) |}.
Proof.
  intros H Hi Hz. unfold row_z. rewrite H.
  assert (E : (if Z.ltb z 0 then (z + Z.of_nat n)%Z else z) = Z.of_nat i).
  { destruct (Z.ltb_spec z 0); lia. }
  rewrite E. destruct (Z.ltb_spec (Z.of_nat i) 0); [lia|]. unfold row. rewrite Nat2Z.id, H.
  destruct (Nat.ltb_spec i n); [reflexivity|lia].
Qed.
Lemma at2_ok z i v n m s : shp v = n :: m :: s -> (i < n)%nat -> (i < m)%nat -> n = m ->
  z = Z.of_nat i \/ z = (Z.of_nat i - Z.of_nat n)%Z ->
  at2 z z v = Ok {| shp := s; dat := fun k => dat v (i :: i :: k) |}.
Proof.
  intros H Hi Hm -> Hz. unfold at2. rewrite (row_z_ok z i v m (m :: s)) by auto. cbn [rbind].
  rewrite (row_z_ok z i _ m s) by auto. reflexivity.
Qed.
Definition mixed (F P : T2) (i j : ix3) : R := P i i - P j j * F j j / F i i.
Lemma v_lc_stress_ok f p s m u : shp f = 3%nat :: 3%nat :: s -> shp p = [3%nat; 3%nat; m] ->
  broadcast_shapes [m] s = Ok u ->
  exists r, v_lc_stress 0 (-1) f p = Ok r /\ shp r = u /\ forall k, inb u k ->
    dat r k = dat p (0 :: 0 :: proj [m] k)%nat
              - dat p (2 :: 2 :: proj [m] k)%nat * dat f (2 :: 2 :: proj s k)%nat / dat f (0 :: 0 :: proj s k)%nat.
Proof.
  intros Hf Hp Hu. unfold v_lc_stress.
  rewrite (at2_ok 0 0 p 3 3 [m]), (at2_ok (-1) 2 p 3 3 [m]) by (auto; lia).
  rewrite (at2_ok (-1) 2 f 3 3 s), (at2_ok 0 0 f 3 3 s) by (auto; lia).
  assert (Su : sub [m] u /\ sub s u).
  { unfold broadcast_shapes in Hu. destruct (bcr (rev [m]) (rev s)) as [w|] eqn:Ew; [|discriminate].
    injection Hu as <-. destruct (bcr_subs _ _ _ Ew). unfold sub. rewrite !rev_involutive. auto. }
  destruct Su as [S1 S2].
  unfold rbin, rbind, vbin. cbn [shp]. rewrite Hu. cbn [rbind shp].
  rewrite (broadcast_comm u s), (broadcast_sub_l s u S2). cbn [rbind shp].
  rewrite (broadcast_sub_l [m] u S1). cbn [rbind].
  eexists. split; [reflexivity|]. split; [reflexivity|]. intros k Hk. cbn [dat shp].
  unfold read; cbn [shp dat]. rewrite (proj_self u k Hk). unfold read. cbn [shp dat].
  rewrite (proj_self u k Hk). reflexivity.
Qed.
Lemma v_lc_stress_raises f p s m : shp f = 3%nat :: 3%nat :: s -> shp p = [3%nat; 3%nat; m] ->
  broadcast_shapes [m] s = Raise ValueError -> v_lc_stress 0 (-1) f p = Raise ValueError.
Proof.
  intros Hf Hp Hu. unfold v_lc_stress.
  rewrite (at2_ok 0 0 p 3 3 [m]), (at2_ok (-1) 2 p 3 3 [m]) by (auto; lia).
  rewrite (at2_ok (-1) 2 f 3 3 s), (at2_ok 0 0 f 3 3 s) by (auto; lia).
  unfold rbin, rbind, vbin. cbn [shp]. rewrite Hu. reflexivity.
Qed.

(** ** defgrad *)
Lemma array33_ok h s a0 a1 a2 a3 a4 a5 a6 a7 a8 :
  (forall a, In a [a0; a1; a2; a3; a4; a5; a6; a7; a8] -> nshp a = s) ->
  nd_array33 [[a0; a1; a2]; [a3; a4; a5]; [a6; a7; a8]] h =
  alloc {| shp := 3%nat :: 3%nat :: s;
           dat := fun k => match k with
             | i :: j :: k => dat (nth (3 * i + j) (map (contents h) [a0; a1; a2; a3; a4; a5; a6; a7; a8]) (num 0)) k
             | _ => 0 end |} h.
Proof.
  intros H. unfold nd_array33. cbn [List.concat app]. unfold bind, load, ret.
  assert (H0 : shp (contents h a0) = s) by (apply H; cbn; auto).
  rewrite H0. match goal with |- context [forallb ?f ?l] => assert (E : forallb f l = true) end.
  { apply forallb_forall. intros v Hv.
    assert (Hs : shp v = s).
    { change (In v (map (contents h) [a0; a1; a2; a3; a4; a5; a6; a7; a8])) in Hv.
      apply in_map_iff in Hv. destruct Hv as [a [<- Ha]]. apply H, Ha. }
    rewrite Hs. destruct (list_eq_dec Nat.eq_dec s s); congruence. }
  rewrite E. reflexivity.
Qed.
(** A load case on arrays: a new (3, 3, ...) array with the pointwise deformation gradient. *)
Definition lc_points (nlc : nd -> M nd) (lc : R -> T2) : Prop := forall h x s, field h x iS s ->
  returns h (nlc x) (new_field h i33 s s (fun k '(i, j) => lc (value1 h x k) i j)).
Lemma val1 h x s k : field h x iS s -> inb s k -> value1 h x k = dat (contents h x) k.
Proof.
  intros [H1 H2] Hk. unfold value1, value. cbn [ienc iS idim List.length skipn app] in *. rewrite H2.
  now rewrite proj_self.
Qed.
Lemma broadcast_nil_l s : broadcast_shapes [] s = Ok s.
Proof. apply broadcast_sub_l, sub_nil. Qed.
Ltac lc_tac :=
  intros h x s [H1 H2]; cbn [idim iS app] in H2;
  assert (Hc : shp (contents h x) = s) by exact H2;
  unfold returns, new, bind, load, lift, rmap, rnum, rbin, vbin, vmap; cbn [shp num rbind];
  rewrite Hc, broadcast_nil_l; unfold rbind; unfold alloc; cbn [shp hnext]; rewrite ?H2;
  rewrite (array33_ok _ s) by (intros a Ha; repeat destruct Ha as [<-|Ha]; try destruct Ha; cbn [nshp shp zeros full]; auto);
  eexists _, _; split; [reflexivity|]; cbn [hnext]; split;
  [split; cbn [hnext hcell]; [lia|]; intros l Hl q;
     repeat match goal with |- context [Nat.eqb ?a ?b] => destruct (Nat.eqb_spec a b); [lia|] end; reflexivity|];
  split; [split; cbn; lia|]; split; [split; cbn; [lia|reflexivity]|];
  intros k Hk [i j]; rewrite (val1 h x s k) by (auto; split; auto);
  unfold value; cbn [ienc i33 idim List.length skipn nshp contents dat vw loc hcell hnext shp];
  rewrite (proj_self s k Hk); rewrite Nat.eqb_refl; cbn [app];
  destruct i, j; cbn [n3 Nat.mul Nat.add nth map contents dat loc vw hcell hnext];
  repeat match goal with |- context [Nat.eqb ?a ?b] => destruct (Nat.eqb_spec a b); try lia end;
  cbn [dat zeros full]; unfold read; cbn [shp dat num]; rewrite ?Hc, ?(proj_self s k Hk); reflexivity.
Lemma nd_uniaxial_points : lc_points nd_uniaxial uniaxial.
Proof. unfold nd_uniaxial. lc_tac. Qed.
Lemma nd_biaxial_points : lc_points nd_biaxial biaxial.
Proof. unfold nd_biaxial. lc_tac. Qed.
Lemma nd_planar_points : lc_points nd_planar planar.
Proof. unfold nd_planar. lc_tac. Qed.

(** ** stress_curve_fit *)
Lemma field_ext h h' a I t : field h a I t -> ext (hnext h) h h' -> field h' a I t.
Proof. intros [A B] [X1' X2']. split; [lia|exact B]. Qed.
Lemma value_ext h h' a I t k i : field h a I t -> ext (hnext h) h h' -> value h' a I k i = value h a I k i.
Proof. intros [A B] [X1' X2']. unfold value. cbn [contents dat]. apply X2', A. Qed.
Lemma value33_ext h h' a t k : field h a i33 t -> ext (hnext h) h h' -> value33 h' a k = value33 h a k.
Proof. intros A B. unfold value33. do 2 (apply functional_extensionality; intro). exact (value_ext _ _ _ _ _ _ _ A B). Qed.
Lemma ext_next n h h' h'' : ext n h h' -> ext (hnext h') h' h'' -> (n <= hnext h')%nat -> ext n h h''.
Proof. intros A B C. eapply ext_trans; [exact A|]. eapply ext_le; [exact C|exact B]. Qed.
Lemma value33_ones h P p : nshp P = [3; 3; 1; 1]%nat -> value33 h P [0%nat; p] = value33 h P [0; 0]%nat.
Proof.
  intros H. unfold value33, value. do 2 (apply functional_extensionality; intro).
  cbn [idim i33 List.length]. rewrite H. reflexivity.
Qed.

(** A material on arrays: from the (3, 3, 1, n) array of deformation gradients to a (3, 3, 1, m)
    array of stresses. *)
Definition mat_points (mat : nd -> M nd) (g : T2 -> T2) (Dom : T2 -> Prop) (n m : nat) : Prop :=
  forall h F, field h F i33 [1%nat; n] -> (forall p, (p < n)%nat -> Dom (value33 h F [0%nat; p])) ->
  returns h (mat F) (fun P h' => field h' P i33 [1%nat; m] /\
    forall p, (p < n)%nat -> value33 h' P [0%nat; p] = g (value33 h F [0%nat; p])).

Section Fit.
  Context (nlc : nd -> M nd) (lc : R -> T2) (Hlc : lc_points nlc lc)
    (labels : list string) (material : Dict -> Result (nd -> M nd)) (params : list R) (mat : nd -> M nd)
    (Hmat : material (kwargs_of labels params) = Ok mat)
    (g : T2 -> T2) (Dom : T2 -> Prop) (h : heap) (x : nd) (s : shape) (m : nat)
    (Hx : field h x iS s) (Hg : mat_points mat g Dom (size s) m)
    (HD : forall k, inb s k -> Dom (lc (value1 h x k))).

  Lemma fit_before : exists h2 F P f p, untouched h h2 /\
    nd_stress_curve_fit nlc labels material x params h = new (v_lc_stress 0 (-1) f p) h2 /\
    contents h2 F = f /\ contents h2 P = p /\
    shp f = 3%nat :: 3%nat :: s /\ shp p = [3%nat; 3%nat; m] /\
    (forall k i, inb s k -> dat f (n3 i :: n3 i :: k) = lc (value1 h x k) i i) /\
    exists Pv : nat -> T2, (forall q i, (q < m)%nat -> dat p [n3 i; n3 i; q] = Pv q i i) /\
      forall q, (q < size s)%nat -> (m = 1%nat -> Pv 0%nat = g (lc (value1 h x (unravel s q)))) /\
        ((q < m)%nat -> Pv q = g (lc (value1 h x (unravel s q)))).
  Proof.
    destruct (Hlc h x s Hx) as [h1 [F [E1 [X1' [F1 [F2 F3]]]]]].
    assert (VF : forall k, inb s k -> value33 h1 F k = lc (value1 h x k)).
    { intros k Hk. unfold value33. do 2 (apply functional_extensionality; intro). exact (F3 k Hk (_, _)). }
    destruct (reshape_in h1 F s F2) as [F4 [E2 [G1 G2]]].
    destruct (Hg h1 F4 G1) as [h2 [P4 [E3 [X2' [G3 G4]]]]].
    { intros p Hp. rewrite G2 by assumption. rewrite VF by (now apply unravel_in). apply HD. now apply unravel_in. }
    destruct (reshape_back h2 P4 m G3) as [P [E4 [G5 G6]]].
    exists h2, F, P, (contents h2 F), (contents h2 P).
    split. { eapply ext_next; [exact X1'|exact X2'|]. destruct X1'; lia. }
    split. { unfold nd_stress_curve_fit, bind, lift. rewrite Hmat, E1, E2, E3, E4. reflexivity. }
    split; [reflexivity|]. split; [reflexivity|].
    split. { exact (proj2 F2). } split. { exact (proj2 G5). }
    split.
    { intros k i Hk. rewrite <- VF by assumption. rewrite <- (value33_ext h1 h2 F s k F2 X2').
      unfold value33, value. cbn [idim i33 List.length ienc]. rewrite (proj2 F2). cbn [idim i33 app skipn].
      now rewrite proj_self. }
    exists (fun q => value33 h2 P [q]). split.
    { intros q i Hq. unfold value33, value. cbn [idim i33 List.length ienc]. rewrite (proj2 G5). cbn [idim i33 app skipn].
      rewrite (proj_self [m] [q]) by (cbn; lia). reflexivity. }
    assert (PP : forall q, (q < size s)%nat -> value33 h2 P4 [0%nat; q] = g (lc (value1 h x (unravel s q)))).
    { intros q Hq. rewrite G4, G2 by assumption. now rewrite VF by (now apply unravel_in). }
    intros q Hq. split.
    - intros Hm. rewrite G6 by lia. rewrite <- (PP q Hq). symmetry. apply value33_ones.
      rewrite (proj2 G3), Hm. reflexivity.
    - intros Hm. rewrite G6 by assumption. now apply PP.
  Qed.
  (** Shapes that broadcast: the stress of point [q] is combined with the stretches at [proj s k]. *)
  Lemma fit_general u : broadcast_shapes [m] s = Ok u ->
    returns h (nd_stress_curve_fit nlc labels material x params) (fun r h' =>
      fresh h h' r /\ field h' r iS u /\
      forall k, inb u k -> forall q, (q < size s)%nat -> proj [m] k = [if Nat.eqb m 1 then 0%nat else q] ->
        value1 h' r k = mixed (lc (value1 h x (proj s k))) (g (lc (value1 h x (unravel s q)))) X0 X2).
  Proof.
    intros Hu. destruct fit_before as [h2 [F [P [f [p [A0 [A1 [A2 [A3 [A4 [A5 [A6 [Pv [A7 A8]]]]]]]]]]]]]].
    destruct (v_lc_stress_ok f p s m u A4 A5 Hu) as [r [B1 [B2 B3]]].
    assert (Su : sub [m] u /\ sub s u).
    { unfold broadcast_shapes in Hu. destruct (bcr (rev [m]) (rev s)) as [w|] eqn:Ew; [|discriminate].
      injection Hu as <-. destruct (bcr_subs _ _ _ Ew). unfold sub. rewrite !rev_involutive. auto. }
    unfold returns. rewrite A1, B1. unfold new, bind, lift, alloc. eexists _, _. split; [reflexivity|].
    destruct A0 as [A01 A02]. split.
    { split; cbn [hnext hcell]; [lia|]. intros l Hl j. destruct (Nat.eqb_spec l (hnext h2)); [lia|]. now apply A02. }
    split; [split; cbn; lia|]. split; [split; cbn; [lia|exact B2]|].
    intros k Hk q Hq Hp. unfold value1, value. cbn [idim iS List.length skipn ienc contents dat nshp vw loc hcell app].
    rewrite Nat.eqb_refl, B2, (proj_self u k Hk), (B3 k Hk), Hp.
    assert (Kq : inb [m] (proj [m] k)) by (now apply (inb_proj [m] u)).
    assert (Ks : inb s (proj s k)) by (now apply (inb_proj s u)).
    rewrite Hp in Kq. destruct Kq as [Kq _].
    change (2 :: 2 :: proj s k)%nat with (n3 X2 :: n3 X2 :: proj s k)%nat.
    change (0 :: 0 :: proj s k)%nat with (n3 X0 :: n3 X0 :: proj s k)%nat.
    rewrite !A6 by assumption.
    change (dat p [0%nat; 0%nat; ?z]) with (dat p [n3 X0; n3 X0; z]).
    match goal with |- dat p ?a - dat p ?b * _ / _ = _ =>
      change a with [n3 X0; n3 X0; if Nat.eqb m 1 then 0%nat else q];
      change b with [n3 X2; n3 X2; if Nat.eqb m 1 then 0%nat else q] end.
    rewrite !A7 by assumption. destruct (A8 q Hq) as [C1 C2].
    assert (E : Pv (if Nat.eqb m 1 then 0%nat else q) = g (lc (value1 h x (unravel s q)))).
    { destruct (Nat.eqb_spec m 1) as [Em|Em]; [now apply C1|now apply C2]. }
    rewrite E. reflexivity.
  Qed.
  Lemma fit_raises : broadcast_shapes [m] s = Raise ValueError ->
    raises h (nd_stress_curve_fit nlc labels material x params) ValueError.
  Proof.
    intros Hu. destruct fit_before as [h2 [F [P [f [p [A0 [A1 [A2 [A3 [A4 [A5 [A6 [Pv [A7 A8]]]]]]]]]]]]]].
    unfold raises. rewrite A1, (v_lc_stress_raises f p s m A4 A5 Hu). exists h2. reflexivity.
  Qed.
End Fit.
