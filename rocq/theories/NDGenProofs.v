(** * Ogden and GeneralizedInvariantsModel on arrays (proofs). *)
From Coq Require Import Reals List Arith Lia Lra.
From Verif Require Import Tensor Py Voigt Algebra VCalc Models Frameworks Spaces Spec GenProofs InvCore StrCore.
From Verif Require Import NDCore NDRel NDOps NDHeap NDVoigt NDMath NDMath2 NDMath3 NDSpaces
  NDSpaceProofs NDSpaceMain NDFrameworks NDInvProofs NDModels NDEigh NDViews NDStrProofs.
Import ListNotations.
Local Open Scope R_scope.

(** ** Ogden *)
Section Og.
  Context {ST SV : Type} (sv_at : ST -> index -> SV) (T : shape) (m : Ogden).
  Definition og_sum (c : R -> R -> R) (e : R -> R) (l : Vec3) : Vec3 :=
    fold_left (fun (acc : Vec3) '(mu, alpha) => fun a => acc a + c mu alpha * Rpower (l a) (e alpha))
      (combine (og_mu m) (og_alpha m)) (fun _ => 0).
  Lemma og_sum_W c e n h l f : (n <= hnext h)%nat -> hrel h l i3 T T f ->
    W n h (nd_ogden_sum c e m l) (gives h i3 T T (fun k a => og_sum c e (f k) a)).
  Proof.
    intros Hn Hl. pose proof Hl as [_ [S1 _]]. cbn [contents shp] in S1.
    unfold nd_ogden_sum. apply W_gives; [exact Hn|].
    eapply W_call.
    { apply (W_alloc (hnext h) h _ i3 T T (fun _ _ => 0) (le_n _)). rewrite S1. apply rel_of_full; reflexivity. }
    intros d h1 F1 V1' Hd Y1. assert (Ld : loc l <> loc d) by hlia. carry Y1.
    assert (Ld' : (hnext h <= loc d)%nat) by hlia.
    eapply W_bind.
    { apply (each_fold_W (hnext h) _ (fun (g : index -> Vec3) h' => (hnext h' = hnext h1) /\
         hrel h' d i3 T T (fun k a => g k a) /\ hrel h' l i3 T T f)
         (fun '(mu, alpha) g k => fun a => g k a + c mu alpha * Rpower (f k a) (e alpha)) _) with (s := fun _ _ => 0).
      - intros [mu alpha] g h2 _ [I1 [I2 I3]]. apply W_load_bind.
        eapply W_conseq.
        + apply (inplace_W Rplus (hnext h) h2 d _ i3 T T T _ (fun k a => c mu alpha * Rpower (f k a) (e alpha))
            i3_ok Ld' V1' I2); [|apply sub_refl].
          eapply RR_conv.
          * eapply (RR_scal_l Rmult i3); [exact i3_ok|apply RR_num|]. eapply RR_map, RR_ok, I3.
          * bshn. reflexivity.
          * reflexivity.
        + apply le_n.
        + cbv beta. intros _ h3 _ [W3 H3]. split; [destruct W3; lia|]. split; [exact H3|].
          eapply hrel_wrote; eauto.
      - split; [reflexivity|]. split; [exact Hd|exact Hl]. }
    cbv beta. intros _ h2 _ [I1 [I2 _]]. apply W_ret. split; [split; hlia|]. split; [exact V1'|].
    eapply hrel_fun; [exact I2|]. intros k Hk a. unfold og_sum.
    assert (G : forall l0 (g : index -> Vec3),
      fold_left (fun (s : index -> Vec3) x => (let '(mu, alpha) := x in fun g k => fun a => g k a + c mu alpha * Rpower (f k a) (e alpha)) s) l0 g k =
      fold_left (fun (acc : Vec3) '(mu, alpha) => fun a => acc a + c mu alpha * Rpower (f k a) (e alpha)) l0 (g k)).
    { intros l0. induction l0 as [|[mu alpha] l0 IH]; intros g; cbn [fold_left]; [reflexivity|]. now rewrite IH. }
    now rewrite G.
  Qed.
  Lemma ogden_ok : strm_ok (nd_ogden m) sv_at (fun l sv => (ogden_gradient m l, sv))
    (fun l _ => ogden_hessian m l) (fun _ => True) T.
  Proof.
    constructor.
    - intros h l f sv Hl _. cbn [nsm_gradient nd_ogden]. unfold nd_ogden_gradient.
      eapply W_call; [apply (og_sum_W _ _ (hnext h) h l f (le_n _) Hl)|].
      intros d h1 F1 V1' Hd Y1. apply W_ret. cbn [fst snd]. split; [exact Hd|reflexivity].
    - intros h l f sv Hl _. cbn [nsm_hessian nd_ogden]. unfold nd_ogden_hessian.
      eapply W_call; [apply (og_sum_W _ _ (hnext h) h l f (le_n _) Hl)|].
      intros d h1 F1 V1' Hd Y1. apply W_ret.
      assert (Q : forall a v, ogden_hessian m = (fun l v => match v with
         | V0 => Some (og_sum (fun mu alpha => 2 * mu / alpha * (alpha - 1)) (fun alpha => alpha - 2) l X0)
         | V1 => Some (og_sum (fun mu alpha => 2 * mu / alpha * (alpha - 1)) (fun alpha => alpha - 2) l X1)
         | V2 => Some (og_sum (fun mu alpha => 2 * mu / alpha * (alpha - 1)) (fun alpha => alpha - 2) l X2)
         | _ => None end) -> v = hd6 a ->
         oval h1 (Some (PArr (subview d [n3 a]))) (Some T) T (fun k => ogden_hessian m (f k) v)).
      { intros a v E ->. cbn. eexists. split; [apply (sub3 h1 d a T T _ Hd)|]. intros k Hk. rewrite E. destruct a; reflexivity. }
      intros []; [exists (Some T); now apply (Q X0)|exists (Some T); now apply (Q X1)|exists (Some T); now apply (Q X2)
        |exists None; cbn; auto..].
  Qed.
End Og.

(** ** Strain measures *)
Definition nd_measure_of (fs : NDStrain) (E E' E'' : R -> R) (T : shape) : Prop :=
  forall h l f, hrel h l i3 T T f -> (forall k, inb T k -> positive3 (f k)) ->
    W (hnext h) h (fs l) (fun '(e, d, dd) h' =>
      hrel h' e i3 T T (fun k a => E (f k a)) /\ hrel h' d i3 T T (fun k a => E' (f k a)) /\
      hrel h' dd i3 T T (fun k a => E'' (f k a))).
Lemma nd_strain_ok k T : k <> 0 ->
  nd_measure_of (nd_strain k) (fun x => sth_E x k) (fun x => sth_dE x k) (fun x => sth_d2E x k) T.
Proof.
  intros Hk h l f Hl _. unfold nd_strain, nonzero. destruct (Req_EM_T k 0) as [E|_]; [contradiction|].
  apply W_load_bind. assert (Hx : rel i3 T T (contents h l) f) by apply Hl.
  revert Hx. generalize (contents h l). intros x Hx.
  eapply W_call.
  { apply (W_new (hnext h) h _ i3 T T (fun k0 a => sth_E (f k0 a) k) (le_n _)). eapply RR_conv.
    - eapply (RR_scal_r Rdiv i3); [exact i3_ok| |apply RR_num].
      eapply (RR_scal_r Rminus i3); [exact i3_ok| |apply RR_num]. eapply RR_map, RR_ok, Hx.
    - bshn. reflexivity.
    - reflexivity. }
  intros e h1 F1 V1' He Y1. carry Y1.
  eapply W_call.
  { apply (W_new (hnext h) h1 _ i3 T T (fun k0 a => sth_dE (f k0 a) k)); [hlia|]. eapply RR_conv; [eapply RR_map, RR_ok, Hx|reflexivity|reflexivity]. }
  intros d h2 F2 V2' Hd Y2. carry Y2.
  eapply W_call.
  { apply (W_new (hnext h) h2 _ i3 T T (fun k0 a => sth_d2E (f k0 a) k)); [hlia|]. eapply RR_conv.
    - eapply (RR_scal_l Rmult i3); [exact i3_ok|apply RR_num|]. eapply RR_map, RR_ok, Hx.
    - bshn. reflexivity.
    - reflexivity. }
  intros dd h3 F3 V3' Hdd Y3. carry Y3. apply W_ret. auto.
Qed.
Lemma nd_deformation_ok k T :
  nd_measure_of (nd_deformation k) (fun x => def_C x k) (fun x => def_dC x k) (fun x => def_d2C x k) T.
Proof.
  intros h l f Hl _. unfold nd_deformation.
  apply W_load_bind. assert (Hx : rel i3 T T (contents h l) f) by apply Hl.
  revert Hx. generalize (contents h l). intros x Hx.
  eapply W_call.
  { apply (W_new (hnext h) h _ i3 T T (fun k0 a => def_C (f k0 a) k) (le_n _)). eapply RR_conv; [eapply RR_map, RR_ok, Hx|reflexivity|reflexivity]. }
  intros e h1 F1 V1' He Y1. carry Y1.
  eapply W_call.
  { apply (W_new (hnext h) h1 _ i3 T T (fun k0 a => def_dC (f k0 a) k)); [hlia|]. eapply RR_conv.
    - eapply (RR_scal_l Rmult i3); [exact i3_ok|apply RR_num|]. eapply RR_map, RR_ok, Hx.
    - bshn. reflexivity.
    - reflexivity. }
  intros d h2 F2 V2' Hd Y2. carry Y2.
  eapply W_call.
  { apply (W_new (hnext h) h2 _ i3 T T (fun k0 a => def_d2C (f k0 a) k)); [hlia|]. eapply RR_conv.
    - eapply (RR_scal_l Rmult i3); [exact i3_ok|apply RR_num|]. eapply RR_map, RR_ok, Hx.
    - bshn. reflexivity.
    - reflexivity. }
  intros dd h3 F3 V3' Hdd Y3. carry Y3. apply W_ret. auto.
Qed.

(** ** GeneralizedInvariantsModel *)
Lemma oval_nodata h o s T p : oval h o s T p -> s = None -> forall k, inb T k -> p k = None.
Proof. intros H ->. destruct o; cbn in H; [destruct H|exact H]. Qed.
Section Steps.
  Context (T : shape) (n : nat) (h : heap).
  (** [if w is not None: acc += w * d * e] on an array and on the first three rows. *)
  Lemma iadd3_rr (w : pyval) s fw d e fd fe : vrel h w s T fw -> hrel h d i3 T T fd -> hrel h e i3 T T fe ->
    forall x, rel iS s T x (fun k _ => fw k) ->
    RR i3 T T (Ok x *! Ok (contents h d) *! Ok (contents h e))%nd (fun k a => fw k * fd k a * fe k a).
  Proof.
    intros Hw Hd He x Hx. pose proof (vrel_sub _ _ _ _ _ Hw) as Hs. eapply RR_conv.
    - eapply (RR_same Rmult i3); [exact i3_ok| |apply RR_ok, He].
      eapply (RR_scal_l Rmult i3); [exact i3_ok|apply RR_ok, Hx|apply RR_ok, Hd].
    - rewrite (bsh_sub_l s T Hs). bshn. reflexivity.
    - reflexivity.
  Qed.
  Lemma iadd3_W acc w s p d e f fd fe : (n <= loc acc)%nat -> (forall k, vw acc k = k) ->
    hrel h acc i3 T T f -> oval h w s T p -> hrel h d i3 T T fd -> hrel h e i3 T T fe ->
    W n h (iadd3 acc w d e) (fun _ h' => wrote (loc acc) h h' /\
      hrel h' acc i3 T T (fun k a => f k a + val (p k) * fd k a * fe k a)).
  Proof.
    intros Hn Hid Ha Hw Hd He. unfold iadd3. destruct w as [w|], s as [s|]; try (exfalso; exact Hw).
    - destruct Hw as [fw [Hw Ew]]. eapply loadv_W; [exact Hw|]. intros x Hx. do 2 apply W_load_bind.
      eapply W_conseq; [apply (inplace_W Rplus n h acc _ i3 T T T _ _ i3_ok Hn Hid Ha
         (iadd3_rr w s fw d e fd fe Hw Hd He x Hx) (sub_refl T))|apply le_n|].
      cbv beta. intros _ h' _ [W1 H1]. split; [exact W1|]. eapply hrel_fun; [exact H1|].
      intros k Hk a. cbv beta. rewrite (Ew k Hk). reflexivity.
    - apply W_ret. split; [split; auto|]. eapply hrel_fun; [exact Ha|]. intros k Hk a. cbn in Hw.
      cbv beta. rewrite (Hw k Hk). cbn [val]. ring.
  Qed.
  Lemma iadd3_head acc w s p d e f fd fe : (n <= loc acc)%nat -> (forall k, vw acc k = k) ->
    hrel h acc i6 T T f -> oval h w s T p -> hrel h d i3 T T fd -> hrel h e i3 T T fe ->
    W n h (iadd3 (head_view 3 acc) w d e) (fun _ h' => wrote (loc acc) h h' /\
      hrel h' acc i6 T T (fun k v => f k v + if mixed v then 0 else val (p k) * fd k (ga6 v) * fe k (ga6 v))).
  Proof.
    intros Hn Hid Ha Hw Hd He. unfold iadd3. destruct w as [w|], s as [s|]; try (exfalso; exact Hw).
    - destruct Hw as [fw [Hw Ew]]. eapply loadv_W; [exact Hw|]. intros x Hx. do 2 apply W_load_bind.
      eapply W_conseq; [apply (inplace_view_W Rplus n h acc (head_view 3 acc) T T T hd6 hd6' f Hn Hid
         (head_is_view _ _ _ _ _ Ha) hd6_out Ha (sub_refl T) _ _ (iadd3_rr w s fw d e fd fe Hw Hd He x Hx))|apply le_n|].
      cbv beta. intros _ h' _ [W1 H1]. split; [exact W1|]. eapply hrel_fun; [exact H1|].
      intros k Hk v. cbv beta. rewrite (Ew k Hk). destruct v; cbn; ring.
    - apply W_ret. split; [split; auto|]. eapply hrel_fun; [exact Ha|]. intros k Hk v. cbn in Hw.
      cbv beta. rewrite (Hw k Hk). cbn [val]. destruct (mixed v); ring.
  Qed.
  Lemma ta_RR x f : rel i3 T T x f -> RR i6 T T (ta x) (fun k v => f k (ga6 v)).
  Proof.
    intros H. apply (take_rel i3 i6 3 (of_list sa_list) ga6 T T x f i3_ok i6_ok eq_refl); [|exact H].
    intros []; reflexivity.
  Qed.
  Lemma tb_RR x f : rel i3 T T x f -> RR i6 T T (tb x) (fun k v => f k (gb6 v)).
  Proof.
    intros H. apply (take_rel i3 i6 3 (of_list sb_list) gb6 T T x f i3_ok i6_ok eq_refl); [|exact H].
    intros []; reflexivity.
  Qed.
  Lemma iadd_ab_W H x s p a b f fa fb : (n <= loc H)%nat -> (forall k, vw H k = k) ->
    hrel h H i6 T T f -> oval h x s T p -> hrel h a i3 T T fa -> hrel h b i3 T T fb ->
    W n h (iadd_ab H x a b) (fun _ h' => wrote (loc H) h h' /\
      hrel h' H i6 T T (fun k v => f k v + val (p k) * fa k (ga6 v) * fb k (gb6 v))).
  Proof.
    intros Hn Hid HH Hx Ha Hb. unfold iadd_ab. destruct x as [x|], s as [s|]; try (exfalso; exact Hx).
    - destruct Hx as [fw [Hw Ew]]. pose proof (vrel_sub _ _ _ _ _ Hw) as Hs.
      eapply loadv_W; [exact Hw|]. intros y Hy. do 2 apply W_load_bind.
      eapply W_conseq.
      { apply (inplace_W Rplus n h H _ i6 T T T _ (fun k v => fw k * fa k (ga6 v) * fb k (gb6 v)) i6_ok Hn Hid HH); [|apply sub_refl].
        eapply RR_conv.
        - eapply (RR_same Rmult i6); [exact i6_ok| |apply tb_RR, Hb].
          eapply (RR_scal_l Rmult i6); [exact i6_ok|apply RR_ok, Hy|apply ta_RR, Ha].
        - rewrite (bsh_sub_l s T Hs). bshn. reflexivity.
        - reflexivity. }
      { apply le_n. }
      cbv beta. intros _ h' _ [W1 H1]. split; [exact W1|]. eapply hrel_fun; [exact H1|].
      intros k Hk v. cbv beta. rewrite (Ew k Hk). reflexivity.
    - apply W_ret. split; [split; auto|]. eapply hrel_fun; [exact HH|]. intros k Hk v. cbn in Hx.
      cbv beta. rewrite (Hx k Hk). cbn [val]. ring.
  Qed.
  Lemma iadd_ab2_W H x s p a b f fa fb : (n <= loc H)%nat -> (forall k, vw H k = k) ->
    hrel h H i6 T T f -> oval h x s T p -> hrel h a i3 T T fa -> hrel h b i3 T T fb ->
    W n h (iadd_ab2 H x a b) (fun _ h' => wrote (loc H) h h' /\
      hrel h' H i6 T T (fun k v => f k v + val (p k) * (fa k (ga6 v) * fb k (gb6 v) + fb k (ga6 v) * fa k (gb6 v)))).
  Proof.
    intros Hn Hid HH Hx Ha Hb. unfold iadd_ab2. destruct x as [x|], s as [s|]; try (exfalso; exact Hx).
    - destruct Hx as [fw [Hw Ew]]. pose proof (vrel_sub _ _ _ _ _ Hw) as Hs.
      eapply loadv_W; [exact Hw|]. intros y Hy. do 2 apply W_load_bind.
      eapply W_conseq.
      { apply (inplace_W Rplus n h H _ i6 T T T _ (fun k v => fw k * (fa k (ga6 v) * fb k (gb6 v) + fb k (ga6 v) * fa k (gb6 v))) i6_ok Hn Hid HH); [|apply sub_refl].
        eapply RR_conv.
        - eapply (RR_scal_l Rmult i6); [exact i6_ok|apply RR_ok, Hy|].
          eapply (RR_same Rplus i6); [exact i6_ok| |]; (eapply (RR_same Rmult i6); [exact i6_ok|apply ta_RR|apply tb_RR]);
            [apply Ha|apply Hb|apply Hb|apply Ha].
        - bshn. now rewrite (bsh_sub_l s T Hs).
        - reflexivity. }
      { apply le_n. }
      cbv beta. intros _ h' _ [W1 H1]. split; [exact W1|]. eapply hrel_fun; [exact H1|].
      intros k Hk v. cbv beta. rewrite (Ew k Hk). reflexivity.
    - apply W_ret. split; [split; auto|]. eapply hrel_fun; [exact HH|]. intros k Hk v. cbn in Hx.
      cbv beta. rewrite (Hx k Hk). cbn [val]. ring.
  Qed.
End Steps.

Section Gn.
  Context {ST SV : Type} (m : NDInvModel ST) (sv_at : ST -> index -> SV) (pm : InvModel SV)
    (D : R -> R -> R -> Prop) (T : shape) (s1 s2 s3 : option shape) (hs : ix6 -> option shape)
    (fs : NDStrain) (c : GenConst) (E E' E'' : R -> R).
  Hypothesis Hm : invm_ok m sv_at pm D T s1 s2 s3 hs.
  Hypothesis HF : nd_measure_of fs E E' E'' T.

  Definition gen_D (l : Vec3) : Prop := positive3 l /\
    let J := gen_invariants E c l in D (J X0) (J X1) (J X2).
  Definition gen_pg (l : Vec3) (sv : SV) : Vec3 * SV :=
    match inv_call pm (gen_invariants E c l) sv with
    | Ok (g, svn) => ((fun a => sum3 (fun k => val (o3 g k) * gdI c E l k a) * E' (l a)), svn)
    | Raise _ => ((fun _ => 0), sv) end.
  Definition gen_ph (l : Vec3) (sv : SV) (v : ix6) : option R :=
    match inv_call pm (gen_invariants E c l) sv, inv_callh pm (gen_invariants E c l) sv with
    | Ok (g, _), Ok h => Some (gen_H c E E' E'' g h l v)
    | _, _ => None end.

  Definition gen_post (f : index -> ix3 -> R) (sv : ST) (r : nd * ST * GenCache) (h' : heap) : Prop :=
    let '(G, svn, k) := r in
    let J := fun i => gen_invariants E c (f i) in
    exists p1 p2 p3,
      (forall i, inb T i -> inv_call pm (J i) (sv_at sv i) = Ok (p1 i, p2 i, p3 i, sv_at svn i)) /\
      hrel h' (nc_dE k) i3 T T (fun i a => E' (f i a)) /\
      hrel h' (nc_d2E k) i3 T T (fun i a => E'' (f i a)) /\
      hrel h' (nc_I1 k) iS T T (fun i _ => J i X0) /\
      hrel h' (nc_I2 k) iS T T (fun i _ => J i X1) /\
      hrel h' (nc_I3 k) iS T T (fun i _ => J i X2) /\
      oval h' (nc_dW1 k) s1 T p1 /\ oval h' (nc_dW2 k) s2 T p2 /\ oval h' (nc_dW3 k) s3 T p3 /\
      hrel h' (nc_dI1 k) i3 T T (fun i a => gdI c E (f i) X0 a) /\
      hrel h' (nc_dI2 k) i3 T T (fun i a => gdI c E (f i) X1 a) /\
      hrel h' (nc_dI3 k) i3 T T (fun i a => gdI c E (f i) X2 a) /\
      hrel h' G i3 T T (fun i a => sum3 (fun j => val (o3 (p1 i, p2 i, p3 i) j) * gdI c E (f i) j a) * E' (f i a)).

  Lemma fancy3_W n h A l (p : ix3 -> ix3) t f : (n <= hnext h)%nat -> hrel h A i3 t T f ->
    length l = 3%nat -> (forall a, n3 (p a) = nth (n3 a) l 0%nat) ->
    W n h (fancy A l) (gives h i3 t T (fun k a => f k (p a))).
  Proof.
    intros Hn [_ H] Hl Hp. unfold fancy. apply W_load_bind. rewrite Hl. apply W_new; [exact Hn|].
    apply (take_rel i3 i3 3 (of_list l) p t T _ f i3_ok i3_ok eq_refl); [|exact H].
    intros a. cbn. now rewrite Hp.
  Qed.

  Lemma nd_gen_c_W h l f sv : hrel h l i3 T T f -> (forall k, inb T k -> gen_D (f k)) ->
    W (hnext h) h (nd_gen_gradient_c m fs c l sv) (gen_post f sv).
  Proof.
    intros Hl HD. unfold nd_gen_gradient_c.
    pose proof Hl as [_ [Sl _]]. cbn [contents shp] in Sl.
    eapply W_bind.
    { eapply W_conseq; [apply (HF h l f Hl); intros k Hk; apply (HD k Hk)|apply le_n|].
      intros r h1 X Y. exact (conj X Y). }
    cbv beta. intros [[e de] dde] h1 _ [Y1 [He [Hde Hdde]]].
    pose proof He as [_ [Se _]]. cbn [contents shp] in Se.
    apply W_load_bind. assert (Hx : rel i3 T T (contents h1 e) (fun k a => E (f k a))) by apply He.
    revert Hx. generalize (contents h1 e). intros x Hx.
    pose proof (row3 X0 T T x _ Hx) as Hx0. pose proof (row3 X1 T T x _ Hx) as Hx1.
    pose proof (row3 X2 T T x _ Hx) as Hx2. cbn [n3] in Hx0, Hx1, Hx2. cbv beta in Hx0, Hx1, Hx2.
    eapply W_call.
    { apply (W_new (hnext h) h1 _ iS T T (fun k _ => gen_invariants E c (f k) X0)); [hlia|]. eapply RR_conv.
      - eapply (RR_same Rminus iS); [exact iS_ok| |apply RR_num].
        eapply (RR_same Rmult iS); [exact iS_ok|apply RR_num|].
        eapply (RR_same Rplus iS); [exact iS_ok| |exact Hx2].
        eapply (RR_same Rplus iS); [exact iS_ok|exact Hx0|exact Hx1].
      - bshn. reflexivity.
      - intros k Hk []. unfold gen_invariants. cbv zeta. ring. }
    intros I1 h2 F2 V2' HI1 Y2. carry Y2.
    eapply W_call.
    { apply (W_new (hnext h) h2 _ iS T T (fun k _ => gen_invariants E c (f k) X1)); [hlia|]. eapply RR_conv.
      - eapply (RR_same Rminus iS); [exact iS_ok| |apply RR_num].
        eapply (RR_same Rmult iS); [exact iS_ok|apply RR_num|].
        eapply (RR_same Rplus iS); [exact iS_ok| |eapply (RR_same Rmult iS); [exact iS_ok|exact Hx2|exact Hx0]].
        eapply (RR_same Rplus iS); [exact iS_ok|eapply (RR_same Rmult iS); [exact iS_ok|exact Hx0|exact Hx1]
          |eapply (RR_same Rmult iS); [exact iS_ok|exact Hx1|exact Hx2]].
      - bshn. reflexivity.
      - intros k Hk []. unfold gen_invariants. cbv zeta. ring. }
    intros I2 h3 F3 V3' HI2 Y3. carry Y3.
    eapply W_call.
    { apply (W_new (hnext h) h3 _ iS T T (fun k _ => gen_invariants E c (f k) X2)); [hlia|]. eapply RR_conv.
      - eapply (RR_same Rmult iS); [exact iS_ok| |exact Hx2].
        eapply (RR_same Rmult iS); [exact iS_ok|exact Hx0|exact Hx1].
      - bshn. reflexivity.
      - intros k Hk []. unfold gen_invariants. cbv zeta. ring. }
    intros I3 h4 F4 V4' HI3 Y4. carry Y4.
    eapply W_bind.
    { eapply W_conseq.
      - apply (io_gradient _ _ _ _ _ _ _ _ _ Hm h4 I1 I2 I3 _ _ _ sv HI1 HI2 HI3). intros k Hk. apply (HD k Hk).
      - hlia.
      - intros r h5 X Y. exact (conj X Y). }
    cbv beta. intros [[[dW1 dW2] dW3] svn] h5 _ [Y5 [p1 [p2 [p3 [Hp [H1 [H2 H3]]]]]]]. carry Y5.
    eapply W_call; [apply (fancy3_W (hnext h) h5 e [1; 0; 0]%nat gb T _ ltac:(hlia) He eq_refl); intros []; reflexivity|].
    intros Eb h6 F6 V6' HEb Y6. carry Y6.
    eapply W_call; [apply (fancy3_W (hnext h) h6 e [2; 2; 1]%nat gg T _ ltac:(hlia) He eq_refl); intros []; reflexivity|].
    intros Eg h7 F7 V7' HEg Y7. carry Y7.
    eapply W_call.
    { apply (W_new (hnext h) h7 _ i3 T T (fun k a => gdI c E (f k) X0 a)); [hlia|]. rewrite Se. eapply RR_conv.
      - eapply (RR_scal_l Rmult i3); [exact i3_ok|apply RR_num|]. apply RR_ok, (rel_of_full i3 T _ (fun _ _ => 1)); reflexivity.
      - bshn. reflexivity.
      - intros k Hk a. cbn [gdI]. apply Rmult_1_r. }
    intros dI1 h8 F8 V8' HdI1 Y8. carry Y8. do 2 apply W_load_bind.
    assert (Hb : rel i3 T T (contents h8 Eb) (fun k a => E (f k (gb a)))) by apply HEb.
    assert (Hg : rel i3 T T (contents h8 Eg) (fun k a => E (f k (gg a)))) by apply HEg.
    revert Hb Hg. generalize (contents h8 Eb) (contents h8 Eg). intros b g Hb Hg.
    eapply W_call.
    { apply (W_new (hnext h) h8 _ i3 T T (fun k a => gdI c E (f k) X1 a)); [hlia|]. eapply RR_conv.
      - eapply (RR_scal_l Rmult i3); [exact i3_ok|apply RR_num|].
        eapply (RR_same Rplus i3); [exact i3_ok|apply RR_ok, Hb|apply RR_ok, Hg].
      - bshn. reflexivity.
      - reflexivity. }
    intros dI2 h9 F9 V9' HdI2 Y9. carry Y9.
    eapply W_call.
    { apply (W_new (hnext h) h9 _ i3 T T (fun k a => gdI c E (f k) X2 a)); [hlia|]. eapply RR_conv.
      - eapply (RR_same Rmult i3); [exact i3_ok|apply RR_ok, Hb|apply RR_ok, Hg].
      - bshn. reflexivity.
      - reflexivity. }
    intros dI3 h10 F10 V10' HdI3 Y10. carry Y10.
    assert (N10 : (hnext h <= hnext h10)%nat) by hlia.
    clear F2 F3 F4 F6 F7 F8 F9 F10 Y1 Y2 Y3 Y4 Y5 Y6 Y7 Y8 Y9 Y10.
    eapply W_call.
    { apply (W_alloc (hnext h) h10 _ i3 T T (fun _ _ => 0)); [hlia|]. rewrite Sl. apply rel_of_full; reflexivity. }
    intros G h11 [F11 _] V11' HG X11.
    eapply W_bind; [apply (iadd3_W T (hnext h) h11 G dW1 s1 p1 dI1 de _ _ _ ltac:(lia) V11' HG
      (oval_ext _ _ _ _ _ _ H1 X11) (hrel_ext _ _ _ _ _ _ _ HdI1 X11) (hrel_ext _ _ _ _ _ _ _ Hde X11))|].
    cbv beta. intros _ h12 _ [W12 HG12]. pose proof (ext_trans _ _ _ _ X11 (wrote_ext _ _ _ _ F11 W12)) as X12.
    eapply W_bind; [apply (iadd3_W T (hnext h) h12 G dW2 s2 p2 dI2 de _ _ _ ltac:(lia) V11' HG12
      (oval_ext _ _ _ _ _ _ H2 X12) (hrel_ext _ _ _ _ _ _ _ HdI2 X12) (hrel_ext _ _ _ _ _ _ _ Hde X12))|].
    cbv beta. intros _ h13 _ [W13 HG13]. pose proof (ext_trans _ _ _ _ X12 (wrote_ext _ _ _ _ F11 W13)) as X13.
    eapply W_bind; [apply (iadd3_W T (hnext h) h13 G dW3 s3 p3 dI3 de _ _ _ ltac:(lia) V11' HG13
      (oval_ext _ _ _ _ _ _ H3 X13) (hrel_ext _ _ _ _ _ _ _ HdI3 X13) (hrel_ext _ _ _ _ _ _ _ Hde X13))|].
    cbv beta. intros _ h14 _ [W14 HG14]. pose proof (ext_trans _ _ _ _ X13 (wrote_ext _ _ _ _ F11 W14)) as X14.
    carry X14. apply W_ret. exists p1, p2, p3.
    cbn [nc_dE nc_d2E nc_I1 nc_I2 nc_I3 nc_dW1 nc_dW2 nc_dW3 nc_dI1 nc_dI2 nc_dI3].
    repeat (split; [assumption|]).
    eapply hrel_fun; [exact HG14|]. intros k Hk a. unfold sum3. cbn [o3 fst snd]. ring.
  Qed.

  Lemma nd_gen_g h l f sv : hrel h l i3 T T f -> (forall k, inb T k -> gen_D (f k)) ->
    W (hnext h) h (nd_gen_gradient m fs c l sv) (fun r h' =>
      hrel h' (fst r) i3 T T (fun k a => fst (gen_pg (f k) (sv_at sv k)) a) /\
      forall k, inb T k -> sv_at (snd r) k = snd (gen_pg (f k) (sv_at sv k))).
  Proof.
    intros Hl HD. unfold nd_gen_gradient.
    eapply W_bind; [apply (nd_gen_c_W h l f sv Hl HD)|].
    intros [[G svn] k] h1 _ [p1 [p2 [p3 [Hp [_ [_ [_ [_ [_ [_ [_ [_ [_ [_ [_ HG]]]]]]]]]]]]]]].
    apply W_ret. cbn [fst snd]. split.
    - eapply hrel_fun; [exact HG|]. intros i Hi a. unfold gen_pg. rewrite (Hp i Hi). reflexivity.
    - intros i Hi. unfold gen_pg. rewrite (Hp i Hi). reflexivity.
  Qed.

  Hypothesis S3 : s3 = None.
  Lemma nd_gen_h h l f sv : hrel h l i3 T T f -> (forall k, inb T k -> gen_D (f k)) ->
    W (hnext h) h (nd_gen_hessian m fs c l sv) (fun r h' => match r with
      | inl a => hrel h' a i6 T T (fun k v => val (gen_ph (f k) (sv_at sv k) v))
      | inr _ => False end).
  Proof.
    intros Hl HD. unfold nd_gen_hessian.
    eapply W_bind; [apply (nd_gen_c_W h l f sv Hl HD)|].
    intros [[G svn] k] h1 Y1 [p1 [p2 [p3 [Hp [Hde [Hdde [HI1 [HI2 [HI3 [H1 [H2 [H3 [HdI1 [HdI2 [HdI3 HG]]]]]]]]]]]]]]].
    pose proof HG as [_ [SG _]]. cbn [contents shp] in SG.
    eapply W_bind.
    { eapply W_conseq.
      - apply (io_hessian _ _ _ _ _ _ _ _ _ Hm h1 _ _ _ _ _ _ sv HI1 HI2 HI3). intros i Hi. apply (HD i Hi).
      - hlia.
      - intros r h2 X Y. exact (conj X Y). }
    cbv beta. intros o h2 _ [Y2 [q [Hq Ho]]]. carry Y2.
    assert (N2 : (hnext h <= hnext h2)%nat) by hlia. clear Y1 Y2 HG HI1 HI2 HI3.
    eapply W_call.
    { apply (W_alloc (hnext h) h2 _ i6 T T (fun _ _ => 0)); [lia|]. rewrite SG. apply rel_of_full; reflexivity. }
    intros H h3 [F3 _] V3' HH X3'.
    assert (LH : (hnext h <= loc H)%nat) by lia.
    assert (STEP1 : forall hc fc x s p a b fa fb, ext (hnext h2) h2 hc -> hrel hc H i6 T T fc ->
      oval h2 x s T p -> hrel h2 a i3 T T fa -> hrel h2 b i3 T T fb ->
      W (hnext h) hc (iadd_ab H x a b) (fun _ h' => ext (hnext h2) h2 h' /\
        hrel h' H i6 T T (fun k v => fc k v + val (p k) * fa k (ga6 v) * fb k (gb6 v)))).
    { intros hc fc x s p a b fa fb X HC Hx Ha Hb.
      eapply W_conseq; [apply (iadd_ab_W T (hnext h) hc H x s p a b _ _ _ LH V3' HC
        (oval_ext _ _ _ _ _ _ Hx X) (hrel_ext _ _ _ _ _ _ _ Ha X) (hrel_ext _ _ _ _ _ _ _ Hb X))|apply le_n|].
      cbv beta. intros _ h' _ [Wn Hn]. split; [|exact Hn]. exact (ext_trans _ _ _ _ X (wrote_ext _ _ _ _ F3 Wn)). }
    assert (STEP2 : forall hc fc x s p a b fa fb, ext (hnext h2) h2 hc -> hrel hc H i6 T T fc ->
      oval h2 x s T p -> hrel h2 a i3 T T fa -> hrel h2 b i3 T T fb ->
      W (hnext h) hc (iadd_ab2 H x a b) (fun _ h' => ext (hnext h2) h2 h' /\
        hrel h' H i6 T T (fun k v => fc k v + val (p k) * (fa k (ga6 v) * fb k (gb6 v) + fb k (ga6 v) * fa k (gb6 v))))).
    { intros hc fc x s p a b fa fb X HC Hx Ha Hb.
      eapply W_conseq; [apply (iadd_ab2_W T (hnext h) hc H x s p a b _ _ _ LH V3' HC
        (oval_ext _ _ _ _ _ _ Hx X) (hrel_ext _ _ _ _ _ _ _ Ha X) (hrel_ext _ _ _ _ _ _ _ Hb X))|apply le_n|].
      cbv beta. intros _ h' _ [Wn Hn]. split; [|exact Hn]. exact (ext_trans _ _ _ _ X (wrote_ext _ _ _ _ F3 Wn)). }
    assert (STEP3 : forall hc fc x s p a b fa fb, ext (hnext h2) h2 hc -> hrel hc H i6 T T fc ->
      oval h2 x s T p -> hrel h2 a i3 T T fa -> hrel h2 b i3 T T fb ->
      W (hnext h) hc (iadd3 (head_view 3 H) x a b) (fun _ h' => ext (hnext h2) h2 h' /\
        hrel h' H i6 T T (fun k v => fc k v + if mixed v then 0 else val (p k) * fa k (ga6 v) * fb k (ga6 v)))).
    { intros hc fc x s p a b fa fb X HC Hx Ha Hb.
      eapply W_conseq; [apply (iadd3_head T (hnext h) hc H x s p a b _ _ _ LH V3' HC
        (oval_ext _ _ _ _ _ _ Hx X) (hrel_ext _ _ _ _ _ _ _ Ha X) (hrel_ext _ _ _ _ _ _ _ Hb X))|apply le_n|].
      cbv beta. intros _ h' _ [Wn Hn]. split; [|exact Hn]. exact (ext_trans _ _ _ _ X (wrote_ext _ _ _ _ F3 Wn)). }
    eapply W_bind; [apply (STEP1 h3 _ _ _ _ _ _ _ _ X3' HH (Ho V0) HdI1 HdI1)|]. clear X3' HH.
    cbv beta. intros _ h4 _ [X4' HH].
    eapply W_bind; [apply (STEP1 h4 _ _ _ _ _ _ _ _ X4' HH (Ho V1) HdI2 HdI2)|]. clear X4' HH.
    cbv beta. intros _ h5 _ [X5' HH].
    eapply W_bind; [apply (STEP1 h5 _ _ _ _ _ _ _ _ X5' HH (Ho V2) HdI3 HdI3)|]. clear X5' HH.
    cbv beta. intros _ h6 _ [X6' HH].
    eapply W_bind; [apply (STEP2 h6 _ _ _ _ _ _ _ _ X6' HH (Ho V3) HdI1 HdI2)|]. clear X6' HH.
    cbv beta. intros _ h7 _ [X7' HH].
    eapply W_bind; [apply (STEP2 h7 _ _ _ _ _ _ _ _ X7' HH (Ho V4) HdI2 HdI3)|]. clear X7' HH.
    cbv beta. intros _ h8 _ [X8' HH].
    eapply W_bind; [apply (STEP2 h8 _ _ _ _ _ _ _ _ X8' HH (Ho V5) HdI1 HdI3)|]. clear X8' HH.
    cbv beta. intros _ h9 _ [X9' HH].
    (* lines 317-323 *)
    match type of HH with hrel _ _ _ _ _ ?g => set (F9 := g) in HH end.
    eapply (W_bind _ _ _ _ (fun _ h' => ext (hnext h2) h2 h' /\
        hrel h' H i6 T T (fun k v => F9 k v + if mixed v then val (p2 k) * gc2 c else 0))).
    { destruct (nc_dW2 k) as [w|], s2 as [t2|]; try (exfalso; exact H2).
      - destruct H2 as [fw [Hw Ew]]. pose proof (vrel_sub _ _ _ _ _ Hw) as Hs.
        eapply loadv_W; [exact (vrel_ext _ _ _ _ _ _ Hw X9')|]. intros x Hx.
        eapply W_conseq.
        { apply (inplace_view_S Rplus (hnext h) h9 H (tail_view 3 H) T t2 T tl6 tl6' _ LH V3'
            (tail_is_view _ _ _ _ _ HH) tl6_out HH Hs _ (fun k => fw k * gc2 c)).
          eapply RR_conv.
          - eapply (RR_same Rmult iS); [exact iS_ok|apply RR_ok, Hx|apply RR_num].
          - bshn. reflexivity.
          - reflexivity. }
        { apply le_n. }
        cbv beta. intros _ h' _ [Wn Hn]. split; [exact (ext_trans _ _ _ _ X9' (wrote_ext _ _ _ _ F3 Wn))|].
        eapply hrel_fun; [exact Hn|]. intros i Hi v. cbv beta. rewrite (Ew i Hi). destruct v; cbn; ring.
      - apply W_ret. split; [exact X9'|]. eapply hrel_fun; [exact HH|]. intros i Hi v. cbn in H2.
        cbv beta. rewrite (H2 i Hi). cbn [val]. destruct (mixed v); ring. }
    clear X9' HH. cbv beta. intros _ h10 _ [X10' HH].
    pose proof (oval_nodata _ _ _ _ _ H3 S3) as P3.
    eapply (W_bind _ _ _ _ (fun _ h' => h' = h10)).
    { rewrite S3 in H3. destruct (nc_dW3 k) as [w|]; [destruct H3|]. now apply W_ret. }
    cbv beta. intros _ h10' _ ->.
    (* line 327 *)
    apply W_load_bind.
    pose proof (hrel_ext _ _ _ _ _ _ _ Hde X10') as [_ Hde'].
    eapply W_bind.
    { apply (inplace_W Rmult (hnext h) h10 H _ i6 T T T _ (fun i v => E' (f i (ga6 v)) * E' (f i (gb6 v))) i6_ok LH V3' HH); [|apply sub_refl].
      eapply RR_conv.
      - eapply (RR_same Rmult i6); [exact i6_ok|apply ta_RR, Hde'|apply tb_RR, Hde'].
      - bshn. reflexivity.
      - reflexivity. }
    cbv beta. intros _ h11 _ [W11 HH']. pose proof (ext_trans _ _ _ _ X10' (wrote_ext _ _ _ _ F3 W11)) as X11'. clear X10' HH W11.
    eapply W_bind; [apply (STEP3 h11 _ _ _ _ _ _ _ _ X11' HH' H1 HdI1 Hdde)|]. clear X11' HH'.
    cbv beta. intros _ h12 _ [X12' HH].
    eapply W_bind; [apply (STEP3 h12 _ _ _ _ _ _ _ _ X12' HH H2 HdI2 Hdde)|]. clear X12' HH.
    cbv beta. intros _ h13 _ [X13' HH].
    eapply W_bind; [apply (STEP3 h13 _ _ _ _ _ _ _ _ X13' HH H3 HdI3 Hdde)|]. clear X13' HH.
    cbv beta. intros _ h14 _ [X14' HH].
    apply W_ret. eapply hrel_fun; [exact HH|]. intros i Hi v. cbv beta.
    unfold gen_ph. rewrite (Hp i Hi). unfold inv_callh. rewrite (Hq i Hi). cbn [val].
    unfold gen_H, F9, sum3. cbn [pos o3 fst snd]. rewrite (P3 i Hi). cbn [val].
    destruct (mixed v); ring.
  Qed.
  Lemma nd_gen_ok : strm_ok (nd_gen m fs c) sv_at gen_pg gen_ph gen_D T.
  Proof.
    constructor.
    - exact nd_gen_g.
    - intros h l f sv Hl HD. eapply W_conseq; [apply (nd_gen_h h l f sv Hl HD)|apply le_n|].
      intros [a|o] h' _ Hr; [exact Hr|destruct Hr].
  Qed.
End Gn.
