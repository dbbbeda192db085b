(** * ThirdOrderDeformation with arrays as parameters: the truth value of an array. *)
From Coq Require Import Reals List Arith Lia Lra.
From Verif Require Import Tensor Py Voigt Algebra VCalc Models Frameworks Spaces Spec GenProofs InvCore StrCore.
From Verif Require Import NDCore NDRel NDOps NDHeap NDVoigt NDMath NDMath2 NDMath3 NDSpaces
  NDSpaceProofs NDSpaceMain NDFrameworks NDInvProofs NDSpec NDModels NDEigh NDViews NDStrProofs NDGenProofs NDLinks Counter.
Import ListNotations.
Local Open Scope R_scope.
Local Open Scope py_scope.

(** ** Model *)
(** models/invariants/_third_order_deformation.py:36-52, any of the parameters may be an array
    (a number is the array without axes). *)
Record TODField := { F10 : arr; F01 : arr; F11 : arr; F20 : arr; F30 : arr; Fundef : R }.
(** The number of entries of an array. *)
Definition entries (a : arr) : nat := fold_right Nat.mul 1%nat (shp a).
(** [p != 0] used as a condition: numpy's ndarray.__bool__ raises ValueError unless the array has
    exactly one entry.  (For arrays without entries older numpy versions return False.) *)
Definition test_ne0 (p : arr) : Result bool :=
  if Nat.eqb (entries p) 1 then Ok (nonzero (dat p (map (fun _ => 0%nat) (shp p)))) else Raise ValueError.
(** [p != 0 or q != 0 or ...], evaluated from left to right until one is true. *)
Fixpoint test_any (ps : list arr) : Result bool :=
  match ps with
  | [] => Ok false
  | p :: ps => rbind (test_ne0 p) (fun b => if b then Ok true else test_any ps)
  end.
(** [if test: x += e] for a local variable that may be None. *)
Definition if_iadd (test : bool) (x : option pyval) (e : Result arr) : M (option pyval) :=
  if test then
    match x with Some x => y <- iadd_arr x e ;; ret (Some y) | None => raise TypeError end
  else ret x.
(** models/invariants/_third_order_deformation.py:54-87 *)
Definition nd_todf_gradient {ST} (m : TODField) (I1 I2 I3 : nd) (sv : ST)
  : M (option pyval * option pyval * option pyval * ST) :=
  t1 <- lift (test_any [F10 m; F11 m; F20 m; F30 m]) ;;
  t2 <- lift (test_any [F01 m; F11 m]) ;;
  i1 <- load I1 ;; i2 <- load I2 ;;
  t <- lift (test_ne0 (F10 m)) ;;
  dWdI1 <- if_iadd t (if t1 then Some (PNum 0) else None) (Ok (F10 m)) ;;
  t <- lift (test_ne0 (F01 m)) ;;
  dWdI2 <- if_iadd t (if t2 then Some (PNum 0) else None) (Ok (F01 m)) ;;
  t <- lift (test_ne0 (F11 m)) ;;
  dWdI1 <- if_iadd t dWdI1 (Ok (F11 m) *! (Ok i2 -! rnum (Fundef m)))%nd ;;
  dWdI2 <- if_iadd t dWdI2 (Ok (F11 m) *! (Ok i1 -! rnum (Fundef m)))%nd ;;
  t <- lift (test_ne0 (F20 m)) ;;
  dWdI1 <- if_iadd t dWdI1 (Ok (F20 m) *! rnum 2 *! (Ok i1 -! rnum (Fundef m)))%nd ;;
  t <- lift (test_ne0 (F30 m)) ;;
  dWdI1 <- if_iadd t dWdI1 (Ok (F30 m) *! rnum 3 *! rmap (fun x => x ^ 2)%R (Ok i1 -! rnum (Fundef m)))%nd ;;
  ret (dWdI1, dWdI2, None, sv).
(** models/invariants/_third_order_deformation.py:89-103 *)
Definition nd_todf_hessian {ST} (m : TODField) (I1 I2 I3 : nd) (sv : ST) : M (ix6 -> option pyval) :=
  t <- lift (test_any [F20 m; F30 m]) ;;
  d11 <- (if t : bool then
            i1 <- load I1 ;;
            a <- new (Ok (F20 m) *! rnum 2 +! Ok (F30 m) *! rnum 6 *! (Ok i1 -! rnum (Fundef m)))%nd ;;
            ret (Some (PArr a))
          else ret None) ;;
  t <- lift (test_ne0 (F11 m)) ;;
  d12 <- (if t : bool then a <- new (Ok (F11 m)) ;; ret (Some (PArr a)) else ret None) ;;
  ret (fun v => match v with V0 => d11 | V3 => d12 | _ => None end).
Definition nd_todf {ST} (m : TODField) : NDInvModel ST :=
  {| nim_gradient := nd_todf_gradient m; nim_hessian := nd_todf_hessian m |}.

(** ** Specification *)
Definition parameters (m : TODField) : list arr := [F10 m; F01 m; F11 m; F20 m; F30 m].
Definition several_values (a : arr) : Prop := (2 <= entries a)%nat.

(** ** Proofs *)
(** In every state, [m] returns a result with [Q] or raises ValueError. *)
Definition VE {A} (m : M A) (Q : A -> Prop) : Prop := forall h, exists h',
  (exists a, m h = (h', Ok a) /\ Q a) \/ m h = (h', Raise ValueError).
Definition vE (r : Result arr) : Prop := (exists a, r = Ok a) \/ r = Raise ValueError.
Lemma VE_bind {A B} (m : M A) (k : A -> M B) Q Q' : VE m Q -> (forall a, Q a -> VE (k a) Q') -> VE (bind m k) Q'.
Proof.
  intros Hm Hk h. destruct (Hm h) as [h1 [[a [E Ha]]|E]].
  - destruct (Hk a Ha h1) as [h2 H2]. exists h2. unfold bind. rewrite E. exact H2.
  - exists h1. right. unfold bind. now rewrite E.
Qed.
Lemma VE_ret {A} (a : A) (Q : A -> Prop) : Q a -> VE (ret a) Q.
Proof. intros H h. exists h. left. exists a. auto. Qed.
Lemma VE_load a : VE (load a) (fun _ => True).
Proof. intros h. exists h. left. eexists. split; [reflexivity|exact Logic.I]. Qed.
Lemma VE_alloc v : VE (alloc v) (fun _ => True).
Proof. intros h. eexists. left. eexists. split; [reflexivity|exact Logic.I]. Qed.
Lemma VE_lift (r : Result arr) : vE r -> VE (lift r) (fun _ => True).
Proof. intros [[a ->]| ->] h; exists h; [left; exists a; split; [reflexivity|exact Logic.I]|right; reflexivity]. Qed.
Lemma VE_ne0 p : VE (lift (test_ne0 p)) (fun b => test_ne0 p = Ok b).
Proof.
  intros h. exists h. unfold test_ne0. destruct (Nat.eqb (entries p) 1); [left; eexists; split; reflexivity|right; reflexivity].
Qed.
Lemma VE_any ps : VE (lift (test_any ps)) (fun b => test_any ps = Ok b).
Proof.
  induction ps as [|p ps IH]; intros h.
  - exists h. left. exists false. split; reflexivity.
  - cbn [test_any]. destruct (VE_ne0 p h) as [h' [[b [E Eb]]|E]]; exists h.
    + rewrite Eb. cbn [rbind]. destruct b; [left; exists true; split; reflexivity|].
      destruct (IH h) as [h2 [[a [E2 Ea]]|E2]].
      * left. exists a. rewrite Ea. split; reflexivity.
      * right. unfold lift in *. destruct (test_any ps) as [?|e]; congruence.
    + right. unfold lift in *. destruct (test_ne0 p) as [?|e]; cbn [rbind]; congruence.
Qed.
Lemma vE_ok a : vE (Ok a). Proof. left. now exists a. Qed.
Lemma vE_broadcast s t : (exists u, broadcast_shapes s t = Ok u) \/ broadcast_shapes s t = Raise ValueError.
Proof. unfold broadcast_shapes. destruct (bcr (rev s) (rev t)); [left; eexists; reflexivity|right; reflexivity]. Qed.
Lemma vE_vbin op a b : vE (vbin op a b).
Proof. unfold vbin. destruct (vE_broadcast (shp a) (shp b)) as [[u ->]| ->]; [left; eexists; reflexivity|right; reflexivity]. Qed.
Lemma vE_rbin op x y : vE x -> vE y -> vE (rbin op x y).
Proof. intros [[a ->]| ->] [[b ->]| ->]; try (right; reflexivity). apply vE_vbin. Qed.
Lemma vE_rmap f x : vE x -> vE (rmap f x).
Proof. intros [[a ->]| ->]; [left; eexists; reflexivity|right; reflexivity]. Qed.
Lemma vE_bto v s : vE (broadcast_to v s).
Proof.
  unfold broadcast_to. destruct (vE_broadcast (shp v) s) as [[u ->]| ->]; [|right; reflexivity].
  cbn [rbind]. destruct (list_eq_dec _ _ _); [left; eexists; reflexivity|right; reflexivity].
Qed.
Ltac ve := repeat first [apply vE_rbin|apply vE_rmap|apply vE_ok].
Lemma VE_assign a v : VE (assign a v) (fun _ => True).
Proof.
  unfold assign. eapply VE_bind; [apply VE_lift, vE_bto|]. intros w _ h. eexists. left. eexists. split; [reflexivity|exact Logic.I].
Qed.
Lemma VE_iadd x e : vE e -> VE (iadd_arr x e) (fun _ => True).
Proof.
  intros He. unfold iadd_arr. eapply VE_bind; [apply VE_lift, He|]. intros y _. destruct x as [q|a].
  - unfold new. eapply VE_bind; [eapply VE_bind; [apply VE_lift, vE_vbin|intros; apply VE_alloc]|]. intros; now apply VE_ret.
  - eapply VE_bind; [apply VE_load|]. intros v _. eapply VE_bind; [apply VE_lift, vE_vbin|]. intros z _.
    eapply VE_bind; [apply VE_assign|]. intros; now apply VE_ret.
Qed.
Lemma VE_if_iadd (t : bool) x e : vE e -> (t = true -> x <> None) -> VE (if_iadd t x e) (fun r => x <> None -> r <> None).
Proof.
  intros He Hx. unfold if_iadd. destruct t; [|apply VE_ret; auto]. destruct x as [x|]; [|now destruct Hx].
  eapply VE_bind; [apply VE_iadd, He|]. intros y _. apply VE_ret. discriminate.
Qed.
Lemma any_true ps p : test_any ps = Ok false -> In p ps -> test_ne0 p = Ok false.
Proof.
  induction ps as [|q ps IH]; cbn [test_any In]; [tauto|]. intros H [<-|Hp].
  - destruct (test_ne0 q) as [[|]|]; cbn [rbind] in H; congruence.
  - destruct (test_ne0 q) as [[|]|]; cbn [rbind] in H; try congruence. auto.
Qed.
Lemma any_used ps p b x : test_any ps = Ok b -> In p ps -> test_ne0 p = Ok true -> (if b then Some x else None : option pyval) <> None.
Proof. intros H Hp Ht. destruct b; [discriminate|]. rewrite (any_true ps p H Hp) in Ht. discriminate. Qed.
Lemma nd_todf_VE {ST} (m : TODField) I1 I2 I3 (sv : ST) :
  VE (nd_todf_gradient m I1 I2 I3 sv) (fun _ => List.Forall (fun p => entries p = 1%nat) (parameters m)).
Proof.
  assert (N : forall p b, test_ne0 p = Ok b -> entries p = 1%nat).
  { intros p b H. unfold test_ne0 in H. destruct (Nat.eqb_spec (entries p) 1); [assumption|discriminate]. }
  unfold nd_todf_gradient. eapply VE_bind; [apply VE_any|]. intros t1 T1. eapply VE_bind; [apply VE_any|]. intros t2 T2'.
  eapply VE_bind; [apply VE_load|]. intros i1 _. eapply VE_bind; [apply VE_load|]. intros i2 _.
  eapply VE_bind; [apply VE_ne0|]. intros b10 E10.
  eapply VE_bind. { apply VE_if_iadd; [ve|]. intros ->. apply (any_used _ (F10 m) _ _ T1); [cbn; auto|exact E10]. }
  intros d1 D1. eapply VE_bind; [apply VE_ne0|]. intros b01 E01.
  eapply VE_bind. { apply VE_if_iadd; [ve|]. intros ->. apply (any_used _ (F01 m) _ _ T2'); [cbn; auto|exact E01]. }
  intros d2 D2. eapply VE_bind; [apply VE_ne0|]. intros b11 E11.
  eapply VE_bind. { apply VE_if_iadd; [ve|]. intros ->. apply D1, (any_used _ (F11 m) _ _ T1); [cbn; auto|exact E11]. }
  intros d1' D1'. 
  eapply VE_bind. { apply VE_if_iadd; [ve|]. intros ->. apply D2, (any_used _ (F11 m) _ _ T2'); [cbn; auto|exact E11]. }
  intros d2' D2'. eapply VE_bind; [apply VE_ne0|]. intros b20 E20.
  eapply VE_bind. { apply VE_if_iadd; [ve|]. intros ->. apply D1', D1, (any_used _ (F20 m) _ _ T1); [cbn; auto|exact E20]. }
  intros d1'' D1''. eapply VE_bind; [apply VE_ne0|]. intros b30 E30.
  eapply VE_bind. { apply VE_if_iadd; [ve|]. intros ->. apply D1'', D1', D1, (any_used _ (F30 m) _ _ T1); [cbn; auto|exact E30]. }
  intros d1''' _. apply VE_ret. cbv beta in *. unfold parameters. repeat (apply List.Forall_cons; [eapply N; eassumption|]). apply List.Forall_nil.
Qed.
Definition always {A} (e : exn) (m : M A) : Prop := forall h, raises h m e.
Lemma todf_raises {ST} (m : TODField) I1 I2 I3 (sv : ST) : List.Exists several_values (parameters m) ->
  always ValueError (nd_todf_gradient m I1 I2 I3 sv).
Proof.
  intros Hx h. destruct (nd_todf_VE m I1 I2 I3 sv h) as [h' [[a [E H]]|E]]; [|exists h'; exact E].
  exfalso. apply List.Exists_exists in Hx. destruct Hx as [p [Hp Hs]]. rewrite List.Forall_forall in H.
  specialize (H p Hp). unfold several_values in Hs. lia.
Qed.

(** An exception of the material model's gradient is the exception of the whole call. *)
Lemma R_bind {A B} (m : M A) (k : A -> M B) e h : raises h m e -> raises h (bind m k) e.
Proof. intros [h' E]. exists h'. unfold bind. now rewrite E. Qed.
Lemma R_call {B} n h (m : M nd) (k : nd -> M B) I t T f e : W n h m (gives h I t T f) ->
  (forall a h', fresh h h' a -> (forall k, vw a k = k) -> hrel h' a I t T f -> ext (hnext h) h h' -> raises h' (k a) e) ->
  raises h (bind m k) e.
Proof.
  intros [a [h' [E [_ [A1 [A2 [A3 A4]]]]]]] H. destruct (H a h' A1 A2 A3 A4) as [h2 E2]. exists h2. unfold bind. now rewrite E.
Qed.
Lemma R_load {B} h a (k : arr -> M B) e : raises h (k (contents h a)) e -> raises h (bind (load a) k) e.
Proof. intros H. exact H. Qed.
Section Inv.
  Context {ST : Type} (m : NDInvModel ST) (e : exn) (T : shape).
  Hypothesis Hm : forall I1 I2 I3 sv, always e (nim_gradient m I1 I2 I3 sv).
  Lemma inv_raises h C f sv : hrel h C i6 T T f -> raises h (nd_inv_gradient_c m C sv) e.
  Proof.
    intros HC. unfold nd_inv_gradient_c.
    pose proof HC as [HC0 [HCs _]]. cbn [contents shp] in HCs.
    eapply R_call; [apply (nd_eye_W (hnext h) h C i6 T T _ 6 (or_introl eq_refl) (le_n _) HC)|].
    intros Iy h1 F1 V1 HIy Y1. carry Y1.
    eapply R_call; [apply (nd_trace_W (hnext h) h1 C T T _ ltac:(hlia) HC)|].
    intros I1 h2 F2 V2 HI1 Y2. carry Y2.
    apply R_load.
    assert (HI1v : rel iS T T (contents h2 I1) (fun k _ => trace (f k))) by apply HI1.
    revert HI1v. generalize (contents h2 I1). intros i1 HI1v.
    eapply R_call; [apply (nd_ddot22_W (hnext h) h2 C C T T T _ _ ltac:(hlia) HC HC)|].
    rewrite bsh_refl. intros CC h3 F3 V3 HCC Y3. carry Y3.
    apply R_load.
    eapply R_call.
    { apply (W_new (hnext h) h3 _ iS T T (fun k _ => Jv (f k) X1)); [hlia|].
      eapply RR_conv.
      - eapply (RR_same Rdiv iS); [exact iS_ok| |apply RR_num].
        eapply (RR_same Rminus iS); [exact iS_ok| |apply RR_ok, HCC].
        eapply RR_map, RR_ok, HI1v.
      - bshn. reflexivity.
      - intros k Hk []. reflexivity. }
    intros I2 h4 F4 V4 HI2 Y4. carry Y4.
    eapply R_call; [apply (nd_det_W (hnext h) h4 C T T _ ltac:(hlia) HC)|].
    intros I3 h5 F5 V5 HI3 Y5. apply R_bind, Hm.
  Qed.
End Inv.
Section Sp.
  Context {ST : Type} (mat : NDMat ST) (o : SpaceOpts) (e : exn) (T : shape).
  Hypothesis Hm : forall h C f sv, hrel h C i6 T T f -> raises h (ndm_gradient mat C sv) e.
  Lemma def_raises h F f sv : hrel h F i33 T T f -> raises h (nd_def_gradient_c mat o F sv) e.
  Proof.
    intros HF. unfold nd_def_gradient_c.
    eapply R_call; [apply (nd_right_CG_W (hnext h) h F T f (le_n _) HF)|].
    intros C h1 F1 V1 HC X1. eapply R_bind, Hm, HC.
  Qed.
  Lemma dis_raises h F f sv : hrel h F i33 T T f -> raises h (nd_dis_gradient_c mat o F sv) e.
  Proof.
    intros HF. unfold nd_dis_gradient_c.
    eapply R_call; [apply (nd_right_CG_W (hnext h) h F T f (le_n _) HF)|].
    intros C h1 F1 V1 HC X1. carry_ext X1.
    eapply R_call; [apply (nd_det_W (hnext h) h1 C T T _ ltac:(hlia) HC)|].
    intros I3 h2 F2 V2 HI X2. carry_ext X2. apply R_load, R_load.
    eapply R_call; [apply (seen_W T (hnext h) h2 C I3 f (- 1 / 3) KDistortional); [hlia|exact HC|exact HI|reflexivity]|].
    intros Cu h3 F3 V3 HCu X3. eapply R_bind, Hm, HCu.
  Qed.
  Lemma dil_raises h F f sv : hrel h F i33 T T f -> raises h (nd_dil_gradient_c mat o F sv) e.
  Proof.
    intros HF. unfold nd_dil_gradient_c.
    eapply R_call; [apply (nd_right_CG_W (hnext h) h F T f (le_n _) HF)|].
    intros C h1 F1 V1 HC X1. carry_ext X1.
    eapply R_call; [apply (nd_det_W (hnext h) h1 C T T _ ltac:(hlia) HC)|].
    intros I3 h2 F2 V2 HI X2. carry_ext X2. apply R_load, R_load.
    eapply R_call; [apply (seen_W T (hnext h) h2 C I3 f (1 / 3) KDilatational); [hlia|exact HC|exact HI|reflexivity]|].
    intros Cu h3 F3 V3 HCu X3. eapply R_bind, Hm, HCu.
  Qed.
  Lemma sp_raises kd h F sv : field h F i33 T ->
    raises h (nd_sp_gradient kd mat o F sv) e /\ raises h (nd_sp_hessian kd mat o F sv) e.
  Proof.
    intros HF. pose proof (field_hrel _ _ _ _ HF) as HR.
    destruct kd; cbn [nd_sp_gradient nd_sp_hessian]; split;
      unfold nd_def_gradient, nd_def_hessian, nd_dis_gradient, nd_dis_hessian, nd_dil_gradient, nd_dil_hessian; apply R_bind;
      [eapply def_raises, HR|eapply def_raises, HR|eapply dis_raises, HR|eapply dis_raises, HR|eapply dil_raises, HR|eapply dil_raises, HR].
  Qed.
End Sp.
