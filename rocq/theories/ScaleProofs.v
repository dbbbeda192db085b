(** Homogeneity (C34). *)
From Coq Require Import Reals Lra FunctionalExtensionality List Bool.
From Coquelicot Require Import Coquelicot.
From Verif Require Import Tensor Py Voigt VoigtProofs Algebra Calc Models Frameworks Spaces Spec VCalc ModelProofs GenProofs
  InvCore InvProofs IsoProofs SpaceCore PiolaProofs SpaceProofs DistProofs SpaceMore SpecialProofs Counter Dilatational.
Local Open Scope R_scope.

Lemma val_oscale a o : val (oscale a o) = a * val o.
Proof. destruct o; cbn; ring. Qed.
Lemma isN_oscale a o : isN (oscale a o) = isN o.
Proof. destruct o; reflexivity. Qed.

(** *** Invariants *)
Definition og (a : R) (g : opt3) : opt3 := (oscale a (fst (fst g)), oscale a (snd (fst g)), oscale a (snd g)).
Lemma o3_og a g k : o3 (og a g) k = oscale a (o3 g k).
Proof. destruct k; reflexivity. Qed.
Lemma inv_call_scale {SV} a (m : InvModel SV) J sv :
  inv_call (scale_inv a m) J sv = rmap (fun r => (og a (fst r), snd r)) (inv_call m J sv).
Proof.
  unfold inv_call, scale_inv; cbn. destruct (im_gradient m _ _ _ sv) as [[[[w1 w2] w3] svn]|e]; reflexivity.
Qed.
Lemma invariants_prop {SV} a (m : InvModel SV) : proportional a (invariants_fw m) (invariants_fw (scale_inv a m)).
Proof.
  intros C sv s s'. cbn [invariants_fw fw_gradient fw_hessian]. unfold outcome.
  assert (X := inv_call_scale a m (Jv C) sv).
  destruct (inv_call m (Jv C) sv) as [[g svn]|e] eqn:Eg; cbn [rmap fst snd] in X.
  - rewrite (inv_gradient_ok _ _ _ _ _ s Eg), (inv_gradient_ok _ _ _ _ _ s' X). cbn [snd rmap fst]. split.
    + f_equal. f_equal. apply Vec6_ext; intro v. unfold gradv, sum3. rewrite !o3_og, !val_oscale. ring.
    + assert (Y : inv_callh (scale_inv a m) (Jv C) svn = rmap (fun h v => oscale a (h v)) (inv_callh m (Jv C) svn)) by reflexivity.
      destruct (inv_callh m (Jv C) svn) as [h|e] eqn:Eh; cbn [rmap] in Y.
      * rewrite (inv_hessian_eq _ _ _ _ _ _ s Eg Eh), (inv_hessian_eq _ _ _ _ _ _ s' X Y). cbn [snd].
        assert (EX : hess_exn (og a g) (fun v => oscale a (h v)) = hess_exn g h).
        { unfold hess_exn. rewrite !o3_og, !isN_oscale. reflexivity. }
        rewrite EX. destruct (hess_exn g h); [reflexivity|]. cbn [rmap]. f_equal. rewrite isN_oscale.
        assert (HV : forall v w, hessv C (og a g) (fun v => oscale a (h v)) v w = a * hessv C g h v w).
        { intros v w. unfold hessv, sum3. rewrite !o3_og, !val_oscale. ring. }
        apply Mat6_ext; intros v w. destruct (isN (h V2)); rewrite ?HV; auto.
        unfold hessv_bug. rewrite HV, !val_oscale. ring.
      * rewrite (inv_hessian_hraise _ _ _ _ _ _ s Eg Eh), (inv_hessian_hraise _ _ _ _ _ _ s' X Y). reflexivity.
  - destruct (inv_gradient_raise _ _ _ _ s Eg) as [s1 ->], (inv_gradient_raise _ _ _ _ s' X) as [s2 ->].
    destruct (inv_hessian_graise _ _ _ _ s Eg) as [s3 ->], (inv_hessian_graise _ _ _ _ s' X) as [s4 ->]. auto.
Qed.

(** *** Models *)
Definition tod_scale (a : R) (m : TOD) : TOD :=
  {| C10 := a * C10 m; C01 := a * C01 m; C11 := a * C11 m; C20 := a * C20 m; C30 := a * C30 m; undeformed := undeformed m |}.
Lemma nonzero_scale a x : a <> 0 -> nonzero (a * x) = nonzero x.
Proof.
  intro Ha. unfold nonzero. destruct (Req_EM_T (a * x) 0) as [E|E], (Req_EM_T x 0) as [E'|E']; auto.
  - apply Rmult_integral in E. tauto.
  - subst. exfalso; apply E; ring.
Qed.
Lemma ok4 {SV} (x1 x2 x3 y1 y2 y3 : option R) (sv : SV) : x1 = y1 -> x2 = y2 -> x3 = y3 ->
  Ok (x1, x2, x3, sv) = Ok (y1, y2, y3, sv).
Proof. intros -> -> ->. reflexivity. Qed.
Lemma some_eq (x y : R) : x = y -> Some x = Some y. Proof. intros ->; reflexivity. Qed.
Lemma tod_scaled {SV} a m : a <> 0 -> forall I1 I2 I3 (sv : SV),
  im_gradient (tod_model (tod_scale a m)) I1 I2 I3 sv = im_gradient (scale_inv a (tod_model m)) I1 I2 I3 sv /\
  im_hessian (tod_model (SV:=SV) (tod_scale a m)) I1 I2 I3 sv = im_hessian (scale_inv a (tod_model m)) I1 I2 I3 sv.
Proof.
  intros Ha I1 I2 I3 sv. cbn [tod_model scale_inv im_gradient im_hessian]. split.
  - unfold tod_gradient, tod_scale; cbn [C10 C01 C11 C20 C30 undeformed]. rewrite !nonzero_scale by auto.
    destruct (nonzero (C10 m)), (nonzero (C01 m)), (nonzero (C11 m)), (nonzero (C20 m)), (nonzero (C30 m)); cbn;
    unfold oscale; cbn [option_map]; apply ok4; try reflexivity; apply some_eq; ring.
  - unfold tod_hessian, tod_scale; cbn [C10 C01 C11 C20 C30 undeformed rmap]. rewrite !nonzero_scale by auto. f_equal.
    apply functional_extensionality; intro v.
    destruct v, (nonzero (C11 m)), (nonzero (C20 m)), (nonzero (C30 m)); cbn; unfold oscale; cbn; try reflexivity; apply some_eq; ring.
Qed.
Definition ogden_scale (a : R) (m : Ogden) : Ogden := {| og_mu := map (Rmult a) (og_mu m); og_alpha := og_alpha m |}.
Lemma ogden_fold a (f : R -> R -> ix3 -> R) mu : (forall m al x, f (a * m) al x = a * f m al x) ->
  forall alpha (acc : Vec3) k,
  fold_left (fun (acc : Vec3) '(mu, al) => fun x => acc x + f mu al x) (combine (map (Rmult a) mu) alpha) (fun x => a * acc x) k
  = a * fold_left (fun (acc : Vec3) '(mu, al) => fun x => acc x + f mu al x) (combine mu alpha) acc k.
Proof.
  intro Hf. induction mu as [|x mu IH]; intros [|y alpha] acc k; cbn [map combine fold_left]; auto.
  rewrite <- IH. f_equal. apply functional_extensionality; intro z. rewrite Hf. ring.
Qed.
Lemma ogden_prop {SV} a m : proportional_sm a (ogden_model (SV:=SV) m) (ogden_model (ogden_scale a m)).
Proof.
  intros l sv s s'. cbn [ogden_model sm_gradient sm_hessian]. unfold outcome, ret. cbn [snd rmap fst].
  assert (Z : (fun _ : ix3 => 0) = fun x => a * (fun _ => 0) x) by (apply functional_extensionality; intro; ring).
  split.
  - f_equal. f_equal. apply functional_extensionality; intro k. unfold ogden_gradient. rewrite Z at 1.
    apply (ogden_fold a (fun mu al x => 2 * mu / al * Rpower (l x) (al - 1))). intros; unfold Rdiv; ring.
  - f_equal. apply functional_extensionality; intro v. unfold ogden_hessian. cbn [ogden_scale og_mu og_alpha].
    assert (F := ogden_fold a (fun mu al x => 2 * mu / al * (al - 1) * Rpower (l x) (al - 2)) (og_mu m)
              ltac:(intros; unfold Rdiv; ring) (og_alpha m) (fun _ => 0)).
    cbv beta in F. rewrite Rmult_0_r in F. destruct v; cbn; unfold oscale; cbn; try apply some_eq; try apply F; reflexivity.
Qed.
Lemma accum_scale {A} a x (acc : A -> R) f : (forall w v, f (a * w) v = a * f w v) ->
  accum (oscale a x) (fun v => a * acc v) f = fun v => a * accum x acc f v.
Proof. intro Hf. apply functional_extensionality; intro v. destruct x; cbn; rewrite ?Hf; ring. Qed.
Lemma accum_scale0 {A} a x (f : R -> A -> R) : (forall w v, f (a * w) v = a * f w v) ->
  accum (oscale a x) (fun _ => 0) f = fun v => a * accum x (fun _ => 0) f v.
Proof. intro Hf. apply functional_extensionality; intro v. destruct x; cbn; rewrite ?Hf; ring. Qed.
Lemma scale_in {A} a (f q : A -> R) : (fun v => a * f v * q v) = fun v => a * (f v * q v).
Proof. apply functional_extensionality; intro; ring. Qed.
Definition genG (c : GenConst) (st : ix3 -> StrainVal) (g1 g2 g3 : option R) : Vec3 :=
  let E := fun a => sE (st a) in let dE := fun a => sdE (st a) in
  let dI1dE := fun _ : ix3 => gc1 c * 1 in
  let dI2dE := fun a => gc2 c * (E (gb a) + E (gg a)) in
  let dI3dE := fun a => E (gb a) * E (gg a) in
  let dW := fun _ : ix3 => 0 in
  let dW := accum g1 dW (fun w a => w * dI1dE a * dE a) in
  let dW := accum g2 dW (fun w a => w * dI2dE a * dE a) in
  accum g3 dW (fun w a => w * dI3dE a * dE a).
Definition genH (c : GenConst) (st : ix3 -> StrainVal) (g1 g2 g3 : option R) (h : ix6 -> option R) : ix6 -> R :=
  let E := fun a => sE (st a) in let dE := fun a => sdE (st a) in let d2E := fun a => sd2E (st a) in
  let dI1 := fun _ : ix3 => gc1 c * 1 in
  let dI2 := fun a => gc2 c * (E (gb a) + E (gg a)) in
  let dI3 := fun a => E (gb a) * E (gg a) in
  let H := fun _ : ix6 => 0 in
  let H := accum (h V0) H (fun d v => d * dI1 (ga6 v) * dI1 (gb6 v)) in
  let H := accum (h V1) H (fun d v => d * dI2 (ga6 v) * dI2 (gb6 v)) in
  let H := accum (h V2) H (fun d v => d * dI3 (ga6 v) * dI3 (gb6 v)) in
  let H := accum (h V3) H (fun d v => d * (dI1 (ga6 v) * dI2 (gb6 v) + dI2 (ga6 v) * dI1 (gb6 v))) in
  let H := accum (h V4) H (fun d v => d * (dI2 (ga6 v) * dI3 (gb6 v) + dI3 (ga6 v) * dI2 (gb6 v))) in
  let H := accum (h V5) H (fun d v => d * (dI1 (ga6 v) * dI3 (gb6 v) + dI3 (ga6 v) * dI1 (gb6 v))) in
  let H := accum g2 H (fun w v => if mixed v then w * gc2 c else 0) in
  let H := accum g3 H (fun w v => if mixed v then w * gEg v else 0) in
  let H := fun v => H v * (dE (ga6 v) * dE (gb6 v)) in
  let H := accum g1 H (fun w v => if mixed v then 0 else w * dI1 (ga6 v) * d2E (ga6 v)) in
  let H := accum g2 H (fun w v => if mixed v then 0 else w * dI2 (ga6 v) * d2E (ga6 v)) in
  accum g3 H (fun w v => if mixed v then 0 else w * dI3 (ga6 v) * d2E (ga6 v)).
Lemma genG_scale a c st g1 g2 g3 :
  genG c st (oscale a g1) (oscale a g2) (oscale a g3) = fun v => a * genG c st g1 g2 g3 v.
Proof.
  unfold genG; cbv zeta.
  rewrite accum_scale0 by (intros; ring).
  rewrite !accum_scale by (intros; ring). reflexivity.
Qed.
Lemma genH_scale a c st g1 g2 g3 h :
  genH c st (oscale a g1) (oscale a g2) (oscale a g3) (fun v => oscale a (h v)) = fun v => a * genH c st g1 g2 g3 h v.
Proof.
  unfold genH; cbv zeta; cbv beta.
  rewrite accum_scale0 by (intros; ring).
    rewrite !accum_scale by (intros; try destruct (mixed _); ring).
  rewrite (scale_in a _ (fun v0 => sdE (st (ga6 v0)) * sdE (st (gb6 v0)))).
  rewrite !accum_scale by (intros; try destruct (mixed _); ring). reflexivity.
Qed.
Definition genI (c : GenConst) (st : ix3 -> StrainVal) : Vec3 :=
  let E := fun a => sE (st a) in
  let I1 := E X0 + E X1 + E X2 in
  let I2 := E X0 * E X1 + E X1 * E X2 + E X2 * E X0 in
  vec3 (gc1 c * I1 - gI10 c * (gc1 c - 1)) (gc2 c * I2 - gI20 c * (gc2 c - 1)) (E X0 * E X1 * E X2).
Lemma gen_grad_core {SV} (m : InvModel SV) fs c l sv s : outcome (gen_gradient m fs c l sv) s =
  rbind (strain3 fs l) (fun st => rbind (inv_call m (genI c st) sv) (fun r =>
    match r with (g1, g2, g3, svn) => Ok (genG c st g1 g2 g3, svn) end)).
Proof.
  unfold outcome, gen_gradient, bind, lift, get, put, ret, inv_call.
  destruct (strain3 fs l) as [st|e]; cbv zeta; [|reflexivity]. cbn [rbind genI vec3].
  destruct (im_gradient m _ _ _ sv) as [[[[g1 g2] g3] svn]|e]; reflexivity.
Qed.
Lemma gen_hess_core {SV} (m : InvModel SV) fs c l sv s : outcome (gen_hessian m fs c l sv) s =
  rbind (strain3 fs l) (fun st => rbind (inv_call m (genI c st) sv) (fun r =>
    match r with (g1, g2, g3, svn) => rbind (inv_callh m (genI c st) sv) (fun h => Ok (fun v => Some (genH c st g1 g2 g3 h v))) end)).
Proof.
  unfold outcome, gen_hessian, gen_gradient, bind, lift, get, put, ret, attr, inv_call, inv_callh.
  destruct (strain3 fs l) as [st|e]; cbv zeta; [|reflexivity]. cbn [rbind genI vec3].
  destruct (im_gradient m _ _ _ sv) as [[[[g1 g2] g3] svn]|e]; [|reflexivity].
  destruct (im_hessian m (genI c st X0) (genI c st X1) (genI c st X2) sv) as [h|e] eqn:Eh;
  cbn -[accum] in Eh |- *; rewrite Eh; reflexivity.
Qed.
Lemma gen_prop {SV} a (m : InvModel SV) fs c : proportional_sm a (gen_model m fs c) (gen_model (scale_inv a m) fs c).
Proof.
  intros l sv s s'. cbn [gen_model sm_gradient sm_hessian]. rewrite !gen_grad_core, !gen_hess_core.
  destruct (strain3 fs l) as [st|e]; [|split; reflexivity]. cbn [rbind]. rewrite inv_call_scale.
  destruct (inv_call m (genI c st) sv) as [[[[g1 g2] g3] svn]|e]; [|split; reflexivity]. cbn [rbind rmap fst snd og]. split.
  - f_equal. f_equal. apply genG_scale.
  - assert (Y : inv_callh (scale_inv a m) (genI c st) sv = rmap (fun h v => oscale a (h v)) (inv_callh m (genI c st) sv)) by reflexivity.
    rewrite Y. destruct (inv_callh m (genI c st) sv) as [h|e]; [|reflexivity]. cbn [rbind rmap].
    f_equal. rewrite genH_scale. reflexivity.
Qed.

(** *** Stretches *)
Lemma str_iter_scale a l M dW d2 H k v w :
  str_iter l M (fun b => a * dW b) (fun u => a * d2 u) (fun v w => a * H v w) k v w = a * str_iter l M dW d2 H k v w.
Proof.
  unfold str_iter, str_f. destruct (ix3_eqb (sb k) (sa k)); unfold madd6, mscal6, transpose, dya; [ring|].
  destruct (isclose _ 0); unfold Rdiv; ring.
Qed.
Lemma str_iter_scale_f a l M dW d2 H k :
  str_iter l M (fun b => a * dW b) (fun u => a * d2 u) (fun v w => a * H v w) k = fun v w => a * str_iter l M dW d2 H k v w.
Proof. apply Mat6_ext; intros; apply str_iter_scale. Qed.
Lemma stretches_prop {SV} lapack a (m m' : StretchModel SV) : proportional_sm a m m' ->
  proportional a (stretches_fw lapack m) (stretches_fw lapack m').
Proof.
  intros Hm C sv s s'. unfold outcome. cbn [stretches_fw fw_gradient fw_hessian].
  unfold str_hessian, str_gradient. destruct (eigh lapack C sqrt) as [l M].
  unfold bind, modify, get, put, on_model, ret, attr, bind, get, put; cbn [st_model set_lM].
  destruct (Hm l sv (st_model m s) (st_model m' s')) as [H1 _]. unfold outcome in H1.
  destruct (sm_gradient m l sv (st_model m s)) as [x ra], (sm_gradient m' l sv (st_model m' s')) as [y rb].
  cbn in H1. subst rb. destruct ra as [[dW svn]|e]; cbn -[str_iter]; [|split; reflexivity].
  split.
  - f_equal. f_equal. apply Vec6_ext; intro v. unfold sum3, Rdiv. ring.
  - destruct (Hm l svn x y) as [_ H2]. unfold outcome in H2.
    destruct (sm_hessian m l svn x) as [x' ra], (sm_hessian m' l svn y) as [y' rb].
    cbn in H2. subst rb. destruct ra as [h|e]; cbn -[str_iter]; [|reflexivity].
    f_equal.
    set (dW2 := fun b => dW b / (2 * l b)).
    set (d0 := fun v => match h v with Some r => r | None => 0 end).
    assert (ED : (fun b => a * dW b / (2 * l b)) = fun b => a * dW2 b).
    { apply functional_extensionality; intro b. unfold dW2, Rdiv; ring. }
    rewrite ED.
    match goal with |- str_iter _ _ _ ?d' _ _ = fun v w => a * str_iter _ _ _ ?d _ _ v w =>
      assert (E2 : d' = fun u => a * d u) end.
    { apply functional_extensionality; intro u. fold d0.
      assert (Eo : forall v, match oscale a (h v) with Some r => r | None => 0 end = a * d0 v).
      { intro v. unfold d0, oscale. destruct (h v); cbn; ring. }
      destruct u; rewrite !Eo; unfold dW2, d0, Rdiv; ring. }
    rewrite E2. clear E2 ED.
    replace mzero with (fun v w : ix6 => a * mzero v w) at 1 by (apply Mat6_ext; intros; unfold mzero; ring).
    rewrite !str_iter_scale_f. reflexivity.
Qed.

(** *** Spaces *)
Lemma piola_stress_scale a o F S d : piola_stress o F (fun v => a * S v) d = scale_stress a (piola_stress o F S d).
Proof.
  destruct (finalize o) eqn:E; [|unfold piola_stress; rewrite E; reflexivity].
  rewrite !piola_stress_eq by auto. cbn [scale_stress]. f_equal. unfold pf_stress.
  apply T2_ext; intros i j. destruct (area o); unfold mmul, astensor, sum3, Rdiv; ring.
Qed.
Lemma piola_elast_scale a o F S d C4 ic :
  piola_elast o F (fun v => a * S v) d (fun v w => a * C4 v w) ic = scale_elast a (piola_elast o F S d C4 ic).
Proof.
  destruct (finalize o) eqn:E; [|unfold piola_elast; rewrite E; reflexivity].
  rewrite !piola_elast_eq by auto. cbn [scale_elast]. f_equal. unfold pf_elast.
  do 4 (apply functional_extensionality; intro).
  destruct (area o), (force o); unfold t4add, legs24, legs13, geo, astensor, astensor4, sum3, Rdiv; ring.
Qed.
Lemma kS_prop a k C g v : kS k C (fun v => a * g v) v = a * kS k C g v.
Proof. destruct k; cbn [kS kSb]; unfold vsub, vscal, trace, ddot22, sum6; field. Qed.
Lemma kS_prop_f a k C g : kS k C (fun v => a * g v) = fun v => a * kS k C g v.
Proof. apply Vec6_ext; intro; apply kS_prop. Qed.
Lemma kC4_prop a k C g H : k <> KDistortional -> kC4 k C (fun v => a * g v) (fun v w => a * H v w) = fun v w => a * kC4 k C g H v w.
Proof.
  intro Hk. apply Mat6_ext; intros v w. destruct k; [| contradiction|]; unfold kC4; cbv zeta.
  - unfold mscal6. ring.
  - unfold msub6, mscal6. generalize (cdya1 (inv C (Some (det C))) v w); intro y.
    cbn [kSb]. unfold trace, vscal, ddot22, ddot24, dya, sum6. ring.
Qed.
Lemma dis_C4_prop a C g H : dis_C4 C (fun v => a * g v) (fun v w => a * H v w) = fun v w => a * dis_C4 C g H v w.
Proof.
  apply Mat6_ext; intros v w. unfold dis_C4; cbv zeta. unfold madd6, msub6, mscal6, transpose, dya.
  generalize (cdya1 (inv C None)); intro Y. generalize (cdya1 eye); intro Z.
  cbn [kSb]. unfold vscal, ddot22, ddot44, sum6. field.
Qed.
Section Sp.
  Context {SV : Type} (a : R) (fw fw' : Framework SV) (HP : proportional a fw fw').
  Lemma space_prop_grad k o F sv s s' : outcome (sp_gradient k fw' o F sv) s' =
    rmap (fun r => (scale_stress a (fst r), snd r)) (outcome (sp_gradient k fw o F sv) s).
  Proof.
    destruct (HP (seen k (right_CG F)) sv (sp_mat s) (sp_mat s')) as [X _].
    destruct (outcome (fw_gradient fw (seen k (right_CG F)) sv) (sp_mat s)) as [[g svn]|e] eqn:E; cbn [rmap fst snd] in X.
    - rewrite (sp_gradient_ok fw _ _ _ _ _ _ _ E), (sp_gradient_ok fw' _ _ _ _ _ _ _ X). cbn [rmap fst snd].
      rewrite kS_prop_f, piola_stress_scale. reflexivity.
    - rewrite (sp_gradient_raise fw _ _ _ _ _ _ E), (sp_gradient_raise fw' _ _ _ _ _ _ X). reflexivity.
  Qed.
  Lemma space_prop_hess k o F sv s s' : (k = KDistortional -> significant_at fw F /\ significant_at fw' F) ->
    outcome (sp_hessian k fw' o F sv) s' = rmap (scale_elast a) (outcome (sp_hessian k fw o F sv) s).
  Proof.
    intro Hk. destruct (HP (seen k (right_CG F)) sv (sp_mat s) (sp_mat s')) as [X _].
    destruct (outcome (fw_gradient fw (seen k (right_CG F)) sv) (sp_mat s)) as [[g svn]|e] eqn:E; cbn [rmap fst snd] in X.
    - destruct (outcome_pair _ _ _ E) as [ms E1], (outcome_pair _ _ _ X) as [ms' X1].
      rewrite (sp_hessian_ok fw _ _ _ _ _ _ _ _ E1), (sp_hessian_ok fw' _ _ _ _ _ _ _ _ X1).
      destruct (HP (seen k (right_CG F)) sv ms ms') as [_ Y].
      destruct (outcome (fw_hessian fw (seen k (right_CG F)) sv) ms) as [H|e] eqn:EH; cbn [rmap] in Y; rewrite Y; [|reflexivity].
      cbn [rmap]. rewrite kS_prop_f.
      assert (K : kC4 k (right_CG F) (fun v => a * g v) (fun v w => a * H v w) = fun v w => a * kC4 k (right_CG F) g H v w).
      { destruct (match k with KDistortional => true | _ => false end) eqn:Ek.
        - assert (k = KDistortional) by (destruct k; congruence). subst k. destruct (Hk eq_refl) as [S1 S2].
          assert (Z1 := significant_of fw F S1 sv ms). assert (Z2 := significant_of fw' F S2 sv ms').
          rewrite <- right_CG_cauchy in Z1, Z2.
          rewrite !kC4_exact; [apply dis_C4_prop|exact (Z1 _ EH)|exact (Z2 _ Y)].
        - apply kC4_prop. intro; subst; discriminate. }
      rewrite K, piola_elast_scale. reflexivity.
    - rewrite (sp_hessian_graise fw _ _ _ _ _ _ E), (sp_hessian_graise fw' _ _ _ _ _ _ X). reflexivity.
  Qed.
End Sp.

Lemma tod_scaled_eq {SV} a m : a <> 0 -> tod_model (SV:=SV) (tod_scale a m) = scale_inv a (tod_model m).
Proof.
  intro Ha.
  assert (E : forall x y : InvModel SV, im_gradient x = im_gradient y -> im_hessian x = im_hessian y -> x = y).
  { intros [x1 x2] [y1 y2]; cbn; intros -> ->; reflexivity. }
  apply E; do 4 (apply functional_extensionality; intro); apply (tod_scaled a m Ha).
Qed.

(** *** The np.allclose test is not homogeneous. *)
Lemma tod20_proportional c : c <> 0 -> proportional c (tod20 1) (tod20 c).
Proof.
  intros Hc C sv s s'.
  destruct (tod20_plain 1 ltac:(lra) C sv s) as [-> ->]. destruct (tod20_plain c Hc C sv s') as [-> ->].
  cbn [rmap fst snd]. split.
  - f_equal. f_equal. apply Vec6_ext; intro v. unfold G20, vscal. ring.
  - f_equal. apply Mat6_ext; intros v w. unfold H20. ring.
Qed.
Lemma distortional_scale_refuted c : 0 < c <= / 10 ^ 9 -> forall s s',
  outcome (dis_hessian (tod20 c) default_opts (Fd 0) tt) s' <>
  rmap (scale_elast c) (outcome (dis_hessian (tod20 1) default_opts (Fd 0) tt) s).
Proof.
  intros Hc s s' E. assert (Hn : c <> 0) by lra. assert (H1 : 1 <> 0) by lra.
  assert (X := plain_hess (tod20 1) _ _ (tod20_plain 1 H1) tt s KDistortional default_opts (Fd 0)).
  assert (Y := plain_hess (tod20 c) _ _ (tod20_plain c Hn) tt s' KDistortional default_opts (Fd 0)).
  cbn [sp_hessian] in X, Y. rewrite X, Y in E. clear X Y. rewrite right_CG_Fd in E.
  rewrite !default_elast in E. cbn [rmap scale_elast] in E.
  assert (GS : forall C, G20 c C = fun v => c * G20 1 C v) by (intro C; apply Vec6_ext; intro; unfold G20, vscal; ring).
  assert (HS : H20 c = fun v w => c * H20 1 v w) by (apply Mat6_ext; intros; unfold H20; ring).
  assert (K1 : kC4 KDistortional Cd (G20 1 (seen KDistortional Cd)) (H20 1) = dis_C4 Cd (G20 1 (seen KDistortional Cd)) (H20 1)).
  { apply kC4_exact. left. apply allclose_false with V0 V0. rewrite det_Cd, Rpower_1_l. unfold mscal6, H20, eye. cbn.
    rewrite Rabs_pos_eq; lra. }
  assert (D := dis_C4_dropped Cd (G20 c (seen KDistortional Cd)) (H20 c) (small_close c ltac:(rewrite Rabs_pos_eq; lra))).
  assert (D2 : dis_C4 Cd (G20 c (seen KDistortional Cd)) (H20 c) = fun v w => c * dis_C4 Cd (G20 1 (seen KDistortional Cd)) (H20 1) v w).
  { rewrite GS, HS. apply dis_C4_prop. }
  rewrite K1 in E. rewrite (GS (seen KDistortional Cd)), kS_prop_f, <- (GS (seen KDistortional Cd)) in E.
  assert (D00 := dropped_Cd c).
  set (k1 := kC4 _ _ _ _) in E, D. set (k2 := dis_C4 _ _ (H20 1)) in E, D2. set (S1 := kS _ _ _) in E.
  rewrite D2 in D.
  assert (D3 : c * k2 V0 V0 = k1 V0 V0 + dropped Cd (H20 c) V0 V0).
  { change (c * k2 V0 V0) with ((fun v w => c * k2 v w) V0 V0). rewrite D. reflexivity. }
  clearbody k1 k2 S1.
  assert (E0 : forall A B : T4, ElastFull A = ElastFull B -> A X0 X0 X0 X0 = B X0 X0 X0 X0) by (intros A B Q; injection Q as ->; reflexivity).
  assert (E1 : forall A B : ElastOut, Ok A = Ok B -> A = B) by (intros A B Q; injection Q; auto).
  apply E1, E0 in E. unfold t4add, legs13, geo, astensor4, astensor, sum3, Fd, diag3 in E. cbn in E. nra.
Qed.

(** *** Neo-Hooke: psi = c (I1 - 3) *)
Definition nh (c : R) : Framework unit := invariants_fw (tod_model (tod_init c 0 0 0 0 false)).
Lemma nh_constant c : constant_fw (nh c) (vscal c eye).
Proof.
  intros C sv s. unfold nh.
  assert (Eg : inv_call (tod_model (tod_init c 0 0 0 0 false)) (Jv C) sv = Ok ((if nonzero c then Some (0 + c) else None, None, None), sv)).
  { unfold inv_call, tod_model, tod_init, tod_gradient; cbn. rewrite !nonzero0. destruct (nonzero c); reflexivity. }
  assert (Eh : inv_callh (tod_model (tod_init c 0 0 0 0 false)) (Jv C) sv = Ok (fun v => None)).
  { unfold inv_callh, tod_model, tod_init, tod_hessian; cbn. rewrite !nonzero0. cbn. f_equal.
    apply functional_extensionality; intro v; destruct v; reflexivity. }
  assert (Z : nonzero c = false -> c = 0) by (unfold nonzero; destruct (Req_EM_T c 0); auto; discriminate).
  split.
  - exists sv. cbn [invariants_fw fw_gradient]. unfold outcome. rewrite (inv_gradient_ok _ _ _ _ _ s Eg). cbn [snd].
    f_equal. f_equal. apply Vec6_ext; intro v. unfold gradv, vscal, sum3; cbn [o3 fst snd val dJv Jv].
    destruct (nonzero c); cbn [val]; [ring|]. rewrite Z by auto. ring.
  - cbn [invariants_fw fw_hessian]. unfold outcome. rewrite (inv_hessian_eq _ _ _ _ _ _ s Eg Eh).
    change (hess_exn _ _) with (@None exn). cbv iota. cbn [snd isN]. f_equal. apply Mat6_ext; intros v w.
    unfold hessv, sum3, dya; cbn [o3 fst snd val dJv Jv d2Jv pos]. unfold mzero. ring.
Qed.
Lemma constant_significant {SV} (fw : Framework SV) g F : constant_fw fw g -> significant_at fw F.
Proof.
  intros HC sv s H E. left. destruct (HC (asvoigt (distortional_part (cauchy_green F))) sv s) as [_ E'].
  rewrite E' in E. injection E as <-. reflexivity.
Qed.
Lemma tod20_significant : significant_at (tod20 1) (Fd 0).
Proof.
  intros sv s H E. right. exists V0, V0. destruct (tod20_plain 1 ltac:(lra) (asvoigt (distortional_part (cauchy_green (Fd 0)))) sv s) as [_ E'].
  rewrite E' in E. injection E as <-. rewrite <- right_CG_full, right_CG_Fd, <- det_astensor, det_Cd, Rpower_1_l.
  unfold H20, eye; cbn. rewrite Rabs_pos_eq; lra.
Qed.
