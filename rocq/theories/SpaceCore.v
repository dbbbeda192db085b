(** Unfolded form of the space methods (used by all proofs about spaces). *)
From Coq Require Import Reals Lra FunctionalExtensionality.
From Verif Require Import Tensor Py Voigt Models Frameworks Spaces Spec.
Local Open Scope R_scope.

(** What the spaces compute from the framework's results, per kind of space. *)
Section K.
  (** tensor handed to the framework *)
  Definition seen (k : SpaceKind) (C : Vec6) : Vec6 :=
    match k with
    | KDeformation => C
    | KDistortional => vscal (Rpower (det C) (- 1 / 3)) C
    | KDilatational => vscal (Rpower (det C) (1 / 3)) C
    end.
  Definition kSb (k : SpaceKind) (C g : Vec6) : Vec6 :=
    match k with
    | KDeformation => vscal 2 g
    | KDistortional => vscal (2 * Rpower (det C) (- 1 / 3)) g
    | KDilatational => vscal (2 * Rpower (det C) (1 / 3)) g
    end.
  (** second Piola-Kirchhoff stress *)
  Definition kS (k : SpaceKind) (C g : Vec6) : Vec6 :=
    match k with
    | KDeformation => vscal 2 g
    | KDistortional => let Sb := kSb k C g in vsub Sb (vscal (ddot22 Sb C / 3) (inv C (Some (det C))))
    | KDilatational => let Sb := kSb k C g in vscal (trace Sb / 3) (inv C (Some (det C)))
    end.
  (** material elasticity *)
  Definition kC4 (k : SpaceKind) (C g : Vec6) (H : Mat6) : Mat6 :=
    let Sb := kSb k C g in
    let invC := inv C (Some (det C)) in
    match k with
    | KDeformation => mscal6 4 H
    | KDistortional =>
        let SbC := ddot22 Sb C in
        let C4b := mscal6 (4 * Rpower (det C) (- 2 / 3)) H in
        let P4 := msub6 (cdya1 eye) (mscal6 (/ 3) (dya invC C)) in
        let C4 := mscal6 (2 / 3)
                (madd6 (msub6 (msub6 (mscal6 SbC (cdya1 invC)) (dya Sb invC)) (transpose (dya Sb invC)))
                       (mscal6 (SbC / 3) (dya invC invC))) in
        if allclose0 C4b then C4 else madd6 C4 (ddot44 (ddot44 P4 C4b) (transpose P4))
    | KDilatational =>
        let tr_Sb := trace Sb in
        let C4b := mscal6 (4 * Rpower (det C) (2 / 3)) H in
        let tr_C4b := ddot22 (ddot24 eye C4b) eye in
        msub6 (mscal6 (/ 9) (mscal6 (2 * tr_Sb + tr_C4b) (dya invC invC))) (mscal6 (2 / 3 * tr_Sb) (cdya1 invC))
    end.
  Definition kdetF (k : SpaceKind) (C : Vec6) : option R :=
    match k with KDeformation => None | _ => Some (sqrt (det C)) end.
  Definition kinvC (k : SpaceKind) (C : Vec6) : option Vec6 :=
    match k with KDeformation => None | _ => Some (inv C (Some (det C))) end.
End K.

Section Run.
  Context {SV : Type} (fw : Framework SV) (o : SpaceOpts).

  Lemma sp_gradient_run k F sv s : exists s1 s2,
    sp_mat s1 = sp_mat s /\
    forall ms r, fw_gradient fw (seen k (right_CG F)) sv (sp_mat s) = (ms, r) ->
    match r with
    | Ok (g, svn) =>
        sp_gradient k fw o F sv s = (s2 g ms, Ok (piola_stress o F (kS k (right_CG F) g) (kdetF k (right_CG F)), svn))
    | Raise e => exists s3, sp_gradient k fw o F sv s = (s3, Raise e)
    end /\
    (forall g ms, sp_mat (s2 g ms) = ms) /\ (forall g ms, sp_S (s2 g ms) = Some (kS k (right_CG F) g)) /\
    (forall g ms, sp_C (s2 g ms) = Some (right_CG F)) /\
    (k <> KDeformation -> forall g ms,
       sp_I3 (s2 g ms) = Some (det (right_CG F)) /\ sp_Cx (s2 g ms) = Some (seen k (right_CG F)) /\
       sp_Sb (s2 g ms) = Some (kSb k (right_CG F) g) /\
       sp_sc (s2 g ms) = Some (match k with KDistortional => ddot22 (kSb k (right_CG F) g) (right_CG F) | _ => trace (kSb k (right_CG F) g) end) /\
       sp_invC (s2 g ms) = Some (inv (right_CG F) (Some (det (right_CG F))))).
  Proof.
    exists s. destruct k.
    - exists (fun g ms => set_S fw (kS KDeformation (right_CG F) g) (with_mat ms (set_C fw (right_CG F) s))).
      split; [reflexivity|]. intros ms r E. cbn [seen] in E. repeat split; try reflexivity; try congruence.
      destruct r as [[g svn]|e]; [|eexists]; unfold sp_gradient, def_gradient, bind, modify, get, put, on_mat, bind, get, put;
      cbn [sp_mat set_C]; rewrite E; reflexivity.
    - exists (fun g ms => set_stress fw (kSb KDistortional (right_CG F) g) (ddot22 (kSb KDistortional (right_CG F) g) (right_CG F))
         (inv (right_CG F) (Some (det (right_CG F)))) (kS KDistortional (right_CG F) g)
         (with_mat ms (set_kin fw (right_CG F) (det (right_CG F)) (seen KDistortional (right_CG F)) s))).
      split; [reflexivity|]. intros ms r E. cbn [seen] in E. repeat split; try reflexivity; try congruence.
      destruct r as [[g svn]|e]; [|eexists]; unfold sp_gradient, dis_gradient, bind, modify, get, put, on_mat, bind, get, put;
      cbn [sp_mat set_kin]; rewrite E; reflexivity.
    - exists (fun g ms => set_stress fw (kSb KDilatational (right_CG F) g) (trace (kSb KDilatational (right_CG F) g))
         (inv (right_CG F) (Some (det (right_CG F)))) (kS KDilatational (right_CG F) g)
         (with_mat ms (set_kin fw (right_CG F) (det (right_CG F)) (seen KDilatational (right_CG F)) s))).
      split; [reflexivity|]. intros ms r E. cbn [seen] in E. repeat split; try reflexivity; try congruence.
      destruct r as [[g svn]|e]; [|eexists]; unfold sp_gradient, dil_gradient, bind, modify, get, put, on_mat, bind, get, put;
      cbn [sp_mat set_kin]; rewrite E; reflexivity.
  Qed.

  Lemma sp_gradient_ok k F sv s g svn : outcome (fw_gradient fw (seen k (right_CG F)) sv) (sp_mat s) = Ok (g, svn) ->
    outcome (sp_gradient k fw o F sv) s = Ok (piola_stress o F (kS k (right_CG F) g) (kdetF k (right_CG F)), svn).
  Proof.
    intro E. destruct (sp_gradient_run k F sv s) as (s1 & s2 & _ & H). unfold outcome in *.
    destruct (fw_gradient fw (seen k (right_CG F)) sv (sp_mat s)) as [ms r] eqn:E1. cbn in E; subst r.
    destruct (H _ _ eq_refl) as [H1 _]. cbv beta iota in H1. rewrite H1. reflexivity.
  Qed.
  Lemma sp_gradient_raise k F sv s e : outcome (fw_gradient fw (seen k (right_CG F)) sv) (sp_mat s) = Raise e ->
    outcome (sp_gradient k fw o F sv) s = Raise e.
  Proof.
    intro E. destruct (sp_gradient_run k F sv s) as (s1 & s2 & _ & H). unfold outcome in *.
    destruct (fw_gradient fw (seen k (right_CG F)) sv (sp_mat s)) as [ms r] eqn:E1. cbn in E; subst r.
    destruct (H _ _ eq_refl) as [[s3 H1] _]. cbv beta iota in H1. rewrite H1. reflexivity.
  Qed.
  Lemma sp_hessian_graise k F sv s e : outcome (fw_gradient fw (seen k (right_CG F)) sv) (sp_mat s) = Raise e ->
    outcome (sp_hessian k fw o F sv) s = Raise e.
  Proof.
    intro E. destruct (sp_gradient_run k F sv s) as (s1 & s2 & _ & H). unfold outcome in *.
    destruct (fw_gradient fw (seen k (right_CG F)) sv (sp_mat s)) as [ms r] eqn:E1. cbn in E; subst r.
    destruct (H _ _ eq_refl) as [[s3 H1] _]. cbv beta iota in H1.
    destruct k; cbn [sp_hessian sp_gradient] in *; unfold def_hessian, dis_hessian, dil_hessian; unfold bind at 1; rewrite H1; reflexivity.
  Qed.
  (** After a successful gradient call the outcome depends on the framework's hessian only. *)
  Lemma sp_hessian_ok k F sv s g svn ms : fw_gradient fw (seen k (right_CG F)) sv (sp_mat s) = (ms, Ok (g, svn)) ->
    outcome (sp_hessian k fw o F sv) s =
    match outcome (fw_hessian fw (seen k (right_CG F)) sv) ms with
    | Ok H => Ok (piola_elast o F (kS k (right_CG F) g) (kdetF k (right_CG F)) (kC4 k (right_CG F) g H) (kinvC k (right_CG F)))
    | Raise e => Raise e
    end.
  Proof.
    intro E. destruct (sp_gradient_run k F sv s) as (s1 & s2 & _ & H). unfold outcome in *.
    destruct (H _ _ E) as (H1 & Am & AS & AC & AK). cbv beta iota in H1.
    destruct k; cbn [sp_hessian sp_gradient] in *; unfold def_hessian, dis_hessian, dil_hessian; unfold bind at 1; rewrite H1;
    unfold bind, get, attr, on_mat.
    - rewrite AC. unfold ret. rewrite Am. cbn [seen].
      destruct (fw_hessian fw (right_CG F) sv ms) as [ms' [Hm|e]]; [|reflexivity].
      cbn [sp_S sp_C sp_I3 sp_Cx sp_Sb sp_sc sp_invC snd]. rewrite AS. reflexivity.
    - destruct (AK ltac:(discriminate) g ms) as (B1 & B2 & B3 & B4 & B5).
      rewrite AC. unfold ret. rewrite B2. rewrite Am.
      destruct (fw_hessian fw (seen KDistortional (right_CG F)) sv ms) as [ms' [Hm|e]]; [|reflexivity].
      cbn [sp_S sp_C sp_I3 sp_Cx sp_Sb sp_sc sp_invC snd]. rewrite B1, B5, B3, B4, AS. reflexivity.
    - destruct (AK ltac:(discriminate) g ms) as (B1 & B2 & B3 & B4 & B5).
      rewrite B2. unfold ret. rewrite Am.
      destruct (fw_hessian fw (seen KDilatational (right_CG F)) sv ms) as [ms' [Hm|e]]; [|reflexivity].
      cbn [sp_S sp_C sp_I3 sp_Cx sp_Sb sp_sc sp_invC snd]. rewrite B1, B4, B5, AS. reflexivity.
  Qed.
End Run.
