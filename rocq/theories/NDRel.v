(** * Pointwise meaning of batched arrays.

    [rel I t T v f]: the array value [v] has the leading axes of the index type [I]
    (scalar, 6-vector, 3x3 tensor, ...), trailing axes [t] that broadcast to the trailing
    shape [T], and at every trailing index [k] of [T] its leading part is [f k]. *)
From Coq Require Import Reals List Arith Lia.
From Verif Require Import Tensor Py NDCore.
Import ListNotations.
Local Open Scope R_scope.

(** ** Lists and broadcasting *)
Fixpoint subr (t T : shape) : Prop :=
  match t, T with
  | [], _ => True
  | a :: t, b :: T => (a = b \/ a = 1%nat) /\ subr t T
  | _ :: _, [] => False
  end.
Definition sub (t T : shape) : Prop := subr (rev t) (rev T).

Lemma subr_refl t : subr t t.
Proof. induction t; cbn; auto. Qed.
Lemma sub_refl t : sub t t.
Proof. apply subr_refl. Qed.
Lemma sub_nil T : sub [] T.
Proof. exact I. Qed.

Lemma subr_trans a b c : subr a b -> subr b c -> subr a c.
Proof.
  revert b c; induction a as [|x a IH]; intros b c; cbn; auto.
  destruct b as [|y b]; cbn; [tauto|]. destruct c as [|z c]; cbn; [tauto|].
  intros [H1 H2] [H3 H4]. split; [intuition congruence|eauto].
Qed.
Lemma sub_trans a b c : sub a b -> sub b c -> sub a c.
Proof. apply subr_trans. Qed.

Lemma inb_length s k : inb s k -> length k = length s.
Proof.
  revert k; induction s as [|n s IH]; intros [|i k]; cbn; try tauto.
  intros [_ H]. f_equal; auto.
Qed.
Lemma inb_app s t k l : length k = length s -> (inb (s ++ t) (k ++ l) <-> inb s k /\ inb t l).
Proof.
  revert k; induction s as [|n s IH]; intros [|i k]; cbn; try discriminate; [tauto|].
  intros [= H]. rewrite IH by assumption. tauto.
Qed.
Lemma inb_rev s k : inb s k -> inb (rev s) (rev k).
Proof.
  revert k; induction s as [|n s IH]; intros [|i k]; cbn; try tauto.
  intros [Hi Hk]. apply inb_app; [|cbn; auto].
  rewrite !rev_length. now apply inb_length.
Qed.

Lemma in_indices s k : In k (indices s) <-> inb s k.
Proof.
  revert k; induction s as [|n s IH]; intros k; cbn.
  - destruct k; cbn; intuition congruence.
  - rewrite in_flat_map. split.
    + intros [i [Hi Hk]]. apply in_map_iff in Hk. destruct Hk as [k' [<- Hk]].
      cbn. split; [apply in_seq in Hi; lia|now apply IH].
    + destruct k as [|i k]; [tauto|]. intros [Hi Hk]. exists i. split.
      * apply in_seq; lia.
      * apply in_map, IH, Hk.
Qed.

Lemma projr_app a b c d : length a = length c ->
  projr (a ++ b) (c ++ d) = projr a c ++ projr b d.
Proof.
  revert c; induction a as [|x a IH]; intros [|y c]; cbn; try discriminate; auto.
  intros [= H]. now rewrite IH.
Qed.
Lemma proj_app a b c d : length b = length d -> proj (a ++ b) (c ++ d) = proj a c ++ proj b d.
Proof.
  intros H. unfold proj. rewrite !rev_app_distr, projr_app, rev_app_distr; auto.
  now rewrite !rev_length.
Qed.
Lemma projr_length s k : (length s <= length k)%nat -> length (projr s k) = length s.
Proof.
  revert k; induction s as [|a s IH]; intros [|i k]; cbn; auto; try lia.
  intros H. rewrite IH; lia.
Qed.
Lemma proj_length s k : (length s <= length k)%nat -> length (proj s k) = length s.
Proof. intros H. unfold proj. rewrite rev_length, projr_length; rewrite !rev_length; auto. Qed.

Lemma projr_sub t w k : subr t w -> (length w <= length k)%nat ->
  projr t (projr w k) = projr t k.
Proof.
  revert w k; induction t as [|a t IH]; intros [|b w] k; cbn; try tauto.
  destruct k as [|i k]; cbn; [lia|]. intros [H1 H2] H3. rewrite IH by (auto; lia).
  f_equal. destruct (Nat.eqb_spec a 1); auto.
  destruct (Nat.eqb_spec b 1); auto. destruct H1; congruence.
Qed.
Lemma proj_sub t w k : sub t w -> (length w <= length k)%nat -> proj t (proj w k) = proj t k.
Proof.
  intros H1 H2. unfold proj. rewrite rev_involutive, projr_sub; auto.
  now rewrite !rev_length.
Qed.
(** Extra leading axes of the result are ignored by an operand without them. *)
Lemma projr_extra t k l : (length t <= length k)%nat -> projr t (k ++ l) = projr t k.
Proof.
  revert k; induction t as [|a t IH]; intros [|i k]; cbn; auto; try lia.
  intros H. rewrite IH by lia. reflexivity.
Qed.
Lemma proj_extra t l k : (length t <= length k)%nat -> proj t (l ++ k) = proj t k.
Proof.
  intros H. unfold proj. rewrite rev_app_distr, projr_extra; auto. now rewrite !rev_length.
Qed.
Lemma projr_self T k : inb T k -> projr T k = k.
Proof.
  revert k; induction T as [|n T IH]; intros [|i k]; cbn; try tauto.
  intros [Hi Hk]. rewrite IH by assumption. f_equal.
  destruct (Nat.eqb_spec n 1); auto; lia.
Qed.
Lemma proj_self T k : inb T k -> proj T k = k.
Proof. intros H. unfold proj. rewrite projr_self, rev_involutive; auto. now apply inb_rev. Qed.

Lemma inb_projr t T k : subr t T -> inb T k -> inb t (projr t k).
Proof.
  revert T k; induction t as [|a t IH]; intros [|b T] [|i k]; cbn; try tauto.
  intros [H1 H2] [H3 H4]. split; [|eauto].
  destruct (Nat.eqb_spec a 1); [lia|]. destruct H1; [lia|congruence].
Qed.
Lemma inb_proj t T k : sub t T -> inb T k -> inb t (proj t k).
Proof.
  intros H1 H2. unfold proj. rewrite <- (rev_involutive t) at 1. apply inb_rev.
  eapply inb_projr; [exact H1|]. now apply inb_rev.
Qed.

Lemma subr_length t T : subr t T -> (length t <= length T)%nat.
Proof. revert T; induction t as [|a t IH]; intros [|b T]; cbn; try tauto; try lia.
  intros [_ H]. apply IH in H. lia. Qed.
Lemma sub_length t T : sub t T -> (length t <= length T)%nat.
Proof. intros H. apply subr_length in H. now rewrite !rev_length in H. Qed.

(** Broadcasting of two shapes that both broadcast to [T]. *)
Lemma bcr_sub t u T : subr t T -> subr u T ->
  exists w, bcr t u = Some w /\ subr w T /\ subr t w /\ subr u w
            /\ length w = Nat.max (length t) (length u).
Proof.
  revert u T; induction t as [|a t IH]; intros u T Ht Hu.
  - exists u. cbn. repeat split; auto. apply subr_refl.
  - destruct u as [|b u].
    + exists (a :: t). cbn [bcr length]. repeat split; auto. apply subr_refl.
    + destruct T as [|c T]; cbn in Ht, Hu; try tauto.
      destruct Ht as [Ha Ht], Hu as [Hb Hu].
      destruct (IH u T Ht Hu) as [w [Hw [H1 [H2 [H3 H4]]]]].
      cbn [bcr]. rewrite Hw. unfold bdim.
      destruct (Nat.eqb_spec a b); [|destruct (Nat.eqb_spec a 1); [|destruct (Nat.eqb_spec b 1)]].
      * exists (a :: w). cbn [length subr]. intuition (subst; auto; lia).
      * exists (b :: w). cbn [length subr]. intuition (subst; auto; lia).
      * exists (a :: w). cbn [length subr]. intuition (subst; auto; lia).
      * exfalso. intuition congruence.
Qed.

(** The broadcast shape of two trailing shapes, as a total function. *)
Definition bsh (t u : shape) : shape :=
  match broadcast_shapes t u with Ok w => w | Raise _ => [] end.
Lemma bsh_ok t u T : sub t T -> sub u T ->
  broadcast_shapes t u = Ok (bsh t u) /\ sub (bsh t u) T /\ sub t (bsh t u) /\ sub u (bsh t u)
  /\ length (bsh t u) = Nat.max (length t) (length u).
Proof.
  intros Ht Hu. destruct (bcr_sub _ _ _ Ht Hu) as [w [Hw [H1 [H2 [H3 H4]]]]].
  unfold bsh, broadcast_shapes. rewrite Hw. unfold sub. rewrite !rev_involutive.
  repeat split; auto. rewrite !rev_length in *. exact H4.
Qed.

Lemma bdim_same a : bdim a a = Some a.
Proof. unfold bdim. now rewrite Nat.eqb_refl. Qed.
Lemma bcr_refl t : bcr t t = Some t.
Proof. induction t as [|a t IH]; cbn; auto. now rewrite bdim_same, IH. Qed.
Lemma bcr_app a b c d : length a = length c ->
  bcr (a ++ b) (c ++ d) = match bcr a c, bcr b d with
                          | Some x, Some y => Some (x ++ y) | _, _ => None end.
Proof.
  revert c; induction a as [|x a IH]; intros [|y c]; cbn; try discriminate.
  - intros _. now destruct (bcr b d).
  - intros [= H]. rewrite IH by assumption. destruct (bdim x y); auto.
    destruct (bcr a c); auto. now destruct (bcr b d).
Qed.
Lemma bcr_nil_r a : bcr a [] = Some a.
Proof. destruct a; reflexivity. Qed.
Lemma bcr_extra a b d : (length b <= length a)%nat ->
  bcr (a ++ d) b = match bcr a b with Some x => Some (x ++ d) | None => None end.
Proof.
  revert b; induction a as [|x a IH]; intros [|y b]; cbn; try lia; auto.
  - intros _. now rewrite bcr_nil_r.
  - intros H. rewrite IH by lia. destruct (bdim x y); auto. now destruct (bcr a b).
Qed.
Lemma bdim_comm a b : bdim a b = bdim b a.
Proof.
  unfold bdim. destruct (Nat.eqb_spec a b), (Nat.eqb_spec b a); try congruence.
  destruct (Nat.eqb_spec a 1), (Nat.eqb_spec b 1); congruence.
Qed.
Lemma bcr_comm a b : bcr a b = bcr b a.
Proof.
  revert b; induction a as [|x a IH]; intros [|y b]; cbn; auto.
  now rewrite bdim_comm, IH.
Qed.

(** Shapes with leading axes [L1], [L2] of the same number. *)
Lemma broadcast_lead L1 L2 L t u w : broadcast_shapes t u = Ok w -> length t = length u ->
  broadcast_shapes L1 L2 = Ok L ->
  broadcast_shapes (L1 ++ t) (L2 ++ u) = Ok (L ++ w).
Proof.
  unfold broadcast_shapes. rewrite !rev_app_distr. intros H1 H2 H3.
  rewrite bcr_app by (now rewrite !rev_length).
  destruct (bcr (rev t) (rev u)); [|discriminate].
  destruct (bcr (rev L1) (rev L2)); [|discriminate].
  injection H1 as <-. injection H3 as <-. now rewrite rev_app_distr.
Qed.
(** An operand without leading axes. *)
Lemma broadcast_scal_r L t u w : broadcast_shapes t u = Ok w -> (length u <= length t)%nat ->
  broadcast_shapes (L ++ t) u = Ok (L ++ w).
Proof.
  unfold broadcast_shapes. rewrite rev_app_distr. intros H1 H2.
  rewrite bcr_extra by (now rewrite !rev_length).
  destruct (bcr (rev t) (rev u)); [|discriminate]. injection H1 as <-.
  now rewrite rev_app_distr, rev_involutive.
Qed.
Lemma broadcast_comm t u : broadcast_shapes t u = broadcast_shapes u t.
Proof. unfold broadcast_shapes. now rewrite bcr_comm. Qed.
Lemma bsh_comm t u : bsh t u = bsh u t.
Proof. unfold bsh. now rewrite broadcast_comm. Qed.
Lemma broadcast_refl t : broadcast_shapes t t = Ok t.
Proof. unfold broadcast_shapes. now rewrite bcr_refl, rev_involutive. Qed.
Lemma bsh_refl t : bsh t t = t.
Proof. unfold bsh. now rewrite broadcast_refl. Qed.
Lemma bcr_sub_l t T : subr t T -> bcr t T = Some T.
Proof.
  revert T; induction t as [|a t IH]; intros [|b T]; cbn; try tauto.
  intros [H1 H2]. rewrite (IH _ H2). unfold bdim.
  destruct (Nat.eqb_spec a b) as [->|]; [reflexivity|]. destruct H1 as [|H1]; [congruence|].
  subst a. reflexivity.
Qed.
Lemma broadcast_sub_l t T : sub t T -> broadcast_shapes t T = Ok T.
Proof. intros H. unfold broadcast_shapes. rewrite (bcr_sub_l _ _ H). now rewrite rev_involutive. Qed.
Lemma bsh_sub_l t T : sub t T -> bsh t T = T.
Proof. intros H. unfold bsh. now rewrite broadcast_sub_l. Qed.
Lemma bsh_sub_r t T : sub t T -> bsh T t = T.
Proof. intros H. rewrite bsh_comm. now apply bsh_sub_l. Qed.
Lemma bsh_nil_l t : bsh [] t = t.
Proof. apply bsh_sub_l, sub_nil. Qed.
Lemma bsh_nil_r t : bsh t [] = t.
Proof. apply bsh_sub_r, sub_nil. Qed.

(** ** Index types of the leading axes *)
Record ixt := { ity : Type; idim : shape; ienc : ity -> index }.

Definition n3 (i : ix3) : nat := match i with X0 => 0 | X1 => 1 | X2 => 2 end.
Definition n6 (i : ix6) : nat :=
  match i with V0 => 0 | V1 => 1 | V2 => 2 | V3 => 3 | V4 => 4 | V5 => 5 end.

Definition iS : ixt := {| ity := unit; idim := []; ienc := fun _ => [] |}.
Definition i3 : ixt := {| ity := ix3; idim := [3%nat]; ienc := fun i => [n3 i] |}.
Definition i6 : ixt := {| ity := ix6; idim := [6%nat]; ienc := fun i => [n6 i] |}.
Definition i33 : ixt :=
  {| ity := ix3 * ix3; idim := [3%nat; 3%nat]; ienc := fun '(i, j) => [n3 i; n3 j] |}.
Definition i36 : ixt :=
  {| ity := ix3 * ix6; idim := [3%nat; 6%nat]; ienc := fun '(i, j) => [n3 i; n6 j] |}.
Definition i66 : ixt :=
  {| ity := ix6 * ix6; idim := [6%nat; 6%nat]; ienc := fun '(i, j) => [n6 i; n6 j] |}.
Definition i3333 : ixt :=
  {| ity := ix3 * ix3 * ix3 * ix3; idim := [3%nat; 3%nat; 3%nat; 3%nat];
     ienc := fun '(i, j, k, l) => [n3 i; n3 j; n3 k; n3 l] |}.

(** What the lemmas need of an index type. *)
Record ixt_ok (I : ixt) : Prop := {
  ix_inb : forall i : ity I, inb (idim I) (ienc I i);
  ix_bc : broadcast_shapes (idim I) (idim I) = Ok (idim I);
  ix_all : forall l, inb (idim I) l -> exists i, ienc I i = l
}.
Lemma n3_lt i : (n3 i < 3)%nat. Proof. destruct i; cbn; lia. Qed.
Lemma n6_lt i : (n6 i < 6)%nat. Proof. destruct i; cbn; lia. Qed.
Definition of3 (n : nat) : ix3 := match n with 0 => X0 | 1 => X1 | _ => X2 end.
Definition of6 (n : nat) : ix6 :=
  match n with 0 => V0 | 1 => V1 | 2 => V2 | 3 => V3 | 4 => V4 | _ => V5 end.
Lemma n3_of3 n : (n < 3)%nat -> n3 (of3 n) = n.
Proof. destruct n as [|[|[|n]]]; cbn; auto; lia. Qed.
Lemma n6_of6 n : (n < 6)%nat -> n6 (of6 n) = n.
Proof. destruct n as [|[|[|[|[|[|n]]]]]]; cbn; auto; lia. Qed.
Lemma of3_n3 i : of3 (n3 i) = i. Proof. destruct i; reflexivity. Qed.
Lemma of6_n6 i : of6 (n6 i) = i. Proof. destruct i; reflexivity. Qed.

Ltac ixt_tac :=
  constructor;
  [ intros i; repeat (match goal with x : ity _ |- _ => cbn in x end);
    repeat match goal with x : (_ * _)%type |- _ => destruct x end; cbn;
    repeat split; auto using n3_lt, n6_lt
  | reflexivity
  | intros l Hl; repeat (destruct l as [|? l]; cbn in Hl; try tauto) ].
Lemma iS_ok : ixt_ok iS.
Proof. ixt_tac. now exists tt. Qed.
Lemma i3_ok : ixt_ok i3.
Proof. ixt_tac. exists (of3 n). cbn. rewrite n3_of3 by lia. reflexivity. Qed.
Lemma i6_ok : ixt_ok i6.
Proof. ixt_tac. exists (of6 n). cbn. rewrite n6_of6 by lia. reflexivity. Qed.
Lemma i33_ok : ixt_ok i33.
Proof. ixt_tac. exists (of3 n, of3 n0). cbn. rewrite !n3_of3 by lia. reflexivity. Qed.
Lemma i36_ok : ixt_ok i36.
Proof. ixt_tac. exists (of3 n, of6 n0). cbn. rewrite n3_of3, n6_of6 by lia. reflexivity. Qed.
Lemma i66_ok : ixt_ok i66.
Proof. ixt_tac. exists (of6 n, of6 n0). cbn. rewrite !n6_of6 by lia. reflexivity. Qed.
Lemma i3333_ok : ixt_ok i3333.
Proof.
  ixt_tac. exists (of3 n, of3 n0, of3 n1, of3 n2). cbn. rewrite !n3_of3 by lia. reflexivity.
Qed.
Global Hint Resolve iS_ok i3_ok i6_ok i33_ok i36_ok i66_ok i3333_ok : nd.

Lemma ix_proj I i : ixt_ok I -> proj (idim I) (ienc I i) = ienc I i.
Proof. intros H. apply proj_self, ix_inb, H. Qed.
Lemma ix_len I i : ixt_ok I -> length (ienc I i) = length (idim I).
Proof. intros H. apply inb_length, ix_inb, H. Qed.

(** ** The relation *)
Definition rel (I : ixt) (t T : shape) (v : arr) (f : index -> ity I -> R) : Prop :=
  shp v = idim I ++ t /\ sub t T /\ (idim I = [] \/ length t = length T) /\
  forall k, inb T k -> forall i, dat v (ienc I i ++ proj t k) = f k i.
(** ... of an expression that may raise: it does not, and ... *)
Definition RR (I : ixt) (t T : shape) (m : Result arr) (f : index -> ity I -> R) : Prop :=
  exists v, m = Ok v /\ rel I t T v f.

Lemma rel_ext I t T v f g : (forall k, inb T k -> forall i, f k i = g k i) ->
  rel I t T v f -> rel I t T v g.
Proof. intros H [H1 [H2 [H3 H4]]]. repeat split; auto. intros k Hk i. now rewrite <- H, H4. Qed.
Lemma RR_ext I t T m f g : (forall k, inb T k -> forall i, f k i = g k i) ->
  RR I t T m f -> RR I t T m g.
Proof. intros H [v [H1 H2]]. exists v. split; auto. eapply rel_ext; eauto. Qed.
Lemma RR_shape I t t' T m f : t = t' -> RR I t T m f -> RR I t' T m f.
Proof. now intros <-. Qed.
Lemma RR_ok I t T v f : rel I t T v f -> RR I t T (Ok v) f.
Proof. intros H. now exists v. Qed.
Lemma RR_bind I t T (m : Result arr) (J : ixt) u U (k : arr -> Result arr) f g :
  RR I t T m f -> (forall v, rel I t T v f -> RR J u U (k v) g) -> RR J u U (rbind m k) g.
Proof. intros [v [-> Hv]] H. cbn. auto. Qed.

(** A full-size array gives the value at every index. *)
Lemma rel_full I T v f : rel I T T v f ->
  shp v = idim I ++ T /\ forall k, inb T k -> forall i, dat v (ienc I i ++ k) = f k i.
Proof.
  intros [H1 [H2 [H3 H4]]]. split; auto. intros k Hk i. rewrite <- (H4 k Hk i).
  now rewrite proj_self.
Qed.
Lemma rel_of_full I T v f : shp v = idim I ++ T ->
  (forall k, inb T k -> forall i, dat v (ienc I i ++ k) = f k i) -> rel I T T v f.
Proof.
  intros H1 H2. repeat split; auto using sub_refl. intros k Hk i.
  rewrite proj_self by assumption. auto.
Qed.

(** ** Arithmetic *)
Lemma rel_num r T : rel iS [] T (num r) (fun _ _ => r).
Proof. repeat split; auto; apply sub_nil. Qed.
Lemma RR_num r T : RR iS [] T (rnum r) (fun _ _ => r).
Proof. apply RR_ok, rel_num. Qed.

Lemma rel_map I t T v f g : rel I t T v f -> rel I t T (vmap g v) (fun k i => g (f k i)).
Proof. intros [H1 [H2 [H3 H4]]]. repeat split; auto. intros k Hk i. cbn. now rewrite H4. Qed.
Lemma RR_map I t T m f g : RR I t T m f -> RR I t T (rmap g m) (fun k i => g (f k i)).
Proof. intros [v [-> H]]. cbn. apply RR_ok, rel_map, H. Qed.

Lemma read_same I t w T v f k i : ixt_ok I -> rel I t T v f -> sub t w -> sub w T ->
  length t = length T -> inb T k -> read v (ienc I i ++ proj w k) = f k i.
Proof.
  intros HI [H1 [H2 [H3 H4]]] Hw HT Hl Hk. unfold read. rewrite H1.
  pose proof (inb_length _ _ Hk) as Hkl.
  pose proof (sub_length _ _ Hw). pose proof (sub_length _ _ HT).
  rewrite proj_app by (rewrite proj_length; lia).
  rewrite ix_proj by assumption. rewrite proj_sub by (auto; lia). auto.
Qed.
Lemma read_scal t w T v f k l : rel iS t T v f -> sub t w -> sub w T ->
  inb T k -> read v (l ++ proj w k) = f k tt.
Proof.
  intros [H1 [H2 [H3 H4]]] Hw HT Hk. unfold read. rewrite H1. cbn [idim iS app].
  pose proof (inb_length _ _ Hk) as Hkl.
  pose proof (sub_length _ _ Hw). pose proof (sub_length _ _ HT).
  rewrite proj_extra by (rewrite proj_length; lia).
  rewrite proj_sub by (auto; lia). exact (H4 k Hk tt).
Qed.

Lemma vbin_same op I t u T a b f g : ixt_ok I -> rel I t T a f -> rel I u T b g ->
  RR I (bsh t u) T (vbin op a b) (fun k i => op (f k i) (g k i)).
Proof.
  intros HI Ha Hb.
  pose proof Ha as [A1 [A2 [A3 A4]]]. pose proof Hb as [B1 [B2 [B3 B4]]].
  destruct (bsh_ok _ _ _ A2 B2) as [H1 [H2 [H3 [H4 H5]]]].
  unfold vbin. rewrite A1, B1.
  destruct A3 as [A3|A3].
  - (* scalars *)
    assert (HL : idim I = []) by exact A3. rewrite HL. cbn [app]. rewrite H1. cbn [rbind].
    eexists. split; [reflexivity|]. repeat split; cbn [shp dat]; auto.
    { now rewrite HL. }
    intros k Hk i. pose proof (inb_length _ _ Hk) as Hkl.
    pose proof (ix_len I i HI) as Hil. rewrite HL in Hil. apply length_zero_iff_nil in Hil.
    pose proof (sub_length _ _ H2).
    unfold read. rewrite A1, B1, HL, Hil. cbn [app].
    rewrite !proj_sub by (auto; lia). rewrite <- (A4 k Hk i), <- (B4 k Hk i), Hil. reflexivity.
  - destruct B3 as [B3|B3].
    { assert (HL : idim I = []) by exact B3. rewrite HL. cbn [app]. rewrite H1. cbn [rbind].
      eexists. split; [reflexivity|]. repeat split; cbn [shp dat]; auto.
      { now rewrite HL. }
      intros k Hk i. pose proof (inb_length _ _ Hk) as Hkl.
      pose proof (ix_len I i HI) as Hil. rewrite HL in Hil. apply length_zero_iff_nil in Hil.
      pose proof (sub_length _ _ H2).
      unfold read. rewrite A1, B1, HL, Hil. cbn [app].
      rewrite !proj_sub by (auto; lia). rewrite <- (A4 k Hk i), <- (B4 k Hk i), Hil. reflexivity. }
    rewrite (broadcast_lead _ _ _ _ _ _ H1 (eq_trans A3 (eq_sym B3)) (ix_bc I HI)). cbn [rbind].
    eexists. split; [reflexivity|]. repeat split; cbn [shp dat]; auto.
    { right. rewrite H5. lia. }
    intros k Hk i. f_equal; eapply read_same; eauto.
Qed.
Lemma vbin_scal_l op I t u T a b f g : ixt_ok I -> rel iS t T a f -> rel I u T b g ->
  RR I (bsh t u) T (vbin op a b) (fun k i => op (f k tt) (g k i)).
Proof.
  intros HI Ha Hb.
  pose proof Ha as [A1 [A2 [A3 A4]]]. pose proof Hb as [B1 [B2 [B3 B4]]].
  destruct (bsh_ok _ _ _ A2 B2) as [H1 [H2 [H3 [H4 H5]]]].
  pose proof (sub_length _ _ A2) as Hla.
  destruct B3 as [B3|B3].
  - unfold vbin. rewrite A1, B1, B3. cbn [idim iS app]. rewrite H1. cbn [rbind].
    eexists. split; [reflexivity|]. repeat split; cbn [shp dat]; auto.
    { now rewrite B3. }
    intros k Hk i. pose proof (inb_length _ _ Hk) as Hkl.
    pose proof (ix_len I i HI) as Hil. rewrite B3 in Hil. apply length_zero_iff_nil in Hil.
    pose proof (sub_length _ _ H2).
    f_equal; [exact (read_scal _ _ _ _ _ _ _ Ha H3 H2 Hk)|].
    unfold read. rewrite B1, B3, Hil. cbn [app].
    rewrite proj_sub by (auto; lia). rewrite <- (B4 k Hk i), Hil. reflexivity.
  - unfold vbin. rewrite A1, B1. cbn [idim iS app].
    rewrite broadcast_comm in H1. rewrite broadcast_comm.
    rewrite (broadcast_scal_r _ _ _ _ H1) by lia. cbn [rbind].
    eexists. split; [reflexivity|]. repeat split; cbn [shp dat]; auto.
    { right. rewrite H5. lia. }
    intros k Hk i. f_equal; [eapply read_scal|eapply read_same]; eauto.
Qed.
Lemma vbin_scal_r op I t u T a b f g : ixt_ok I -> rel I t T a f -> rel iS u T b g ->
  RR I (bsh t u) T (vbin op a b) (fun k i => op (f k i) (g k tt)).
Proof.
  intros HI Ha Hb.
  destruct (vbin_scal_l (fun x y => op y x) I u t T b a g f HI Hb Ha) as [v [Hv Hr]].
  unfold vbin in *. rewrite broadcast_comm.
  destruct (broadcast_shapes (shp b) (shp a)) as [w|]; [|discriminate]. cbn [rbind] in *.
  injection Hv as <-. exists {| shp := w; dat := fun k => op (read a k) (read b k) |}.
  split; auto. rewrite bsh_comm. exact Hr.
Qed.

Lemma RR_same op I t u T x y f g : ixt_ok I -> RR I t T x f -> RR I u T y g ->
  RR I (bsh t u) T (rbin op x y) (fun k i => op (f k i) (g k i)).
Proof. intros HI [a [-> Ha]] [b [-> Hb]]. cbn. now apply vbin_same. Qed.
Lemma RR_scal_l op I t u T x y f g : ixt_ok I -> RR iS t T x f -> RR I u T y g ->
  RR I (bsh t u) T (rbin op x y) (fun k i => op (f k tt) (g k i)).
Proof. intros HI [a [-> Ha]] [b [-> Hb]]. cbn. now apply vbin_scal_l. Qed.
Lemma RR_scal_r op I t u T x y f g : ixt_ok I -> RR I t T x f -> RR iS u T y g ->
  RR I (bsh t u) T (rbin op x y) (fun k i => op (f k i) (g k tt)).
Proof. intros HI [a [-> Ha]] [b [-> Hb]]. cbn. now apply vbin_scal_r. Qed.

(** Broadcasting an array to a larger trailing shape. *)
Lemma broadcast_to_rel I t u T v f : ixt_ok I -> rel I t T v f -> sub t u -> sub u T ->
  (idim I = [] \/ length u = length T) ->
  RR I u T (broadcast_to v (idim I ++ u)) f.
Proof.
  intros HI Hv Hu HT Hl. pose proof Hv as [H1 [H2 [H3 H4]]].
  assert (HB : broadcast_shapes (idim I ++ t) (idim I ++ u) = Ok (idim I ++ u)).
  { destruct H3 as [H3|H3].
    - rewrite H3. cbn [app]. now apply broadcast_sub_l.
    - destruct Hl as [Hl|Hl].
      + rewrite Hl. cbn [app]. now apply broadcast_sub_l.
      + apply broadcast_lead; [now apply broadcast_sub_l|congruence|apply ix_bc, HI]. }
  unfold broadcast_to. rewrite H1, HB. cbn [rbind].
  destruct (list_eq_dec Nat.eq_dec (idim I ++ u) (idim I ++ u)); [|congruence].
  apply RR_ok. repeat split; auto. intros k Hk i. cbn [dat].
  destruct H3 as [H3|H3].
  - pose proof (inb_length _ _ Hk) as Hkl. pose proof (sub_length _ _ HT).
    pose proof (ix_len I i HI) as Hil. rewrite H3 in Hil. apply length_zero_iff_nil in Hil.
    unfold read. rewrite H1, H3, Hil. cbn [app].
    rewrite proj_sub by (auto; lia). rewrite <- (H4 k Hk i), Hil. reflexivity.
  - eapply read_same; eauto.
Qed.
Lemma sub_app L t u : length t = length u -> sub t u -> sub (L ++ t) (L ++ u).
Proof.
  intros Hl H. unfold sub. rewrite !rev_app_distr.
  assert (Hl' : length (rev t) = length (rev u)) by now rewrite !rev_length.
  unfold sub in H. revert Hl' H. generalize (rev t) (rev u) (rev L). clear.
  intros a; induction a as [|x a IH]; intros [|y b] c; cbn; try discriminate.
  - intros _ _. apply subr_refl.
  - intros [= Hl] [H1 H2]. split; auto.
Qed.
