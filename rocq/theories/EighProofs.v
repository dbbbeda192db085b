(** Lemmas about [eigh] (math/_voigt.py:950-956). *)
From Coq Require Import Reals Lra FunctionalExtensionality.
From Coquelicot Require Import Coquelicot.
From Verif Require Import Tensor Py Voigt VoigtProofs Algebra Models Frameworks Spaces Spec.
Local Open Scope R_scope.

Lemma mtr_astensor a : mtr (astensor a) = astensor a.
Proof. apply mtr_sym, astensor_sym. Qed.
Lemma eigh_unfold lapack a f :
  eigh lapack a f =
  (fun al => f (fst (lapack (astensor a)) al),
   fun al => asvoigt (fun i j => snd (lapack (astensor a)) i al * snd (lapack (astensor a)) j al)).
Proof.
  unfold eigh. rewrite mtr_astensor. destruct (lapack (astensor a)) as [w v]; cbn.
  f_equal. apply functional_extensionality; intro al. f_equal. apply T2_ext; intros; ring.
Qed.
Lemma eigh_fun lapack a f al : fst (eigh lapack a f) al = f (fst (lapack (astensor a)) al).
Proof. rewrite eigh_unfold; reflexivity. Qed.
Lemma eigh_base lapack a f al i j :
  astensor (snd (eigh lapack a f) al) i j =
  snd (lapack (astensor a)) i al * snd (lapack (astensor a)) j al.
Proof. rewrite eigh_unfold; cbn [snd]. rewrite astensor_asvoigt; auto. intros k l; ring. Qed.

Section S.
  Context (lapack : Lapack) (a : Vec6) (f : R -> R) (L : lapack_at lapack a).
  Let M al := astensor (snd (eigh lapack a f) al).
  Let w := fst (lapack (astensor a)).
  Let v := snd (lapack (astensor a)).
  Lemma base_eq al i j : M al i j = v i al * v j al.
  Proof. apply eigh_base. Qed.
  Lemma base_mul al be i j : mmul (M al) (M be) i j = if ix3_eqb al be then M al i j else 0.
  Proof.
    unfold mmul. 
    transitivity (v i al * sum3 (fun k => v k al * v k be) * v j be).
    { unfold sum3; rewrite !base_eq; ring. }
    destruct L as [O _]. fold v in O. rewrite O. unfold delta.
    destruct al, be; cbn; rewrite ?base_eq; ring.
  Qed.
  Lemma base_tr al : tr2 (M al) = 1.
  Proof. unfold tr2, sum3; rewrite !base_eq. destruct L as [O _]. specialize (O al al). fold v in O.
    unfold sum3 in O. rewrite O. unfold delta. destruct al; reflexivity. Qed.
  Lemma base_sum i j : sum3 (fun al => M al i j) = delta i j.
  Proof. unfold sum3; rewrite !base_eq. apply (eig_complete _ _ _ L). Qed.
  Lemma base_rebuild i j : sum3 (fun al => w al * M al i j) = astensor a i j.
  Proof. unfold sum3; rewrite !base_eq. apply (eig_rebuild _ _ _ L). Qed.
End S.

Lemma base_rebuild_id lapack a : lapack_at lapack a -> forall i j,
  sum3 (fun al => fst (eigh lapack a (fun x => x)) al
                  * astensor (snd (eigh lapack a (fun x => x)) al) i j) = astensor a i j.
Proof. intros L i j. rewrite <- (base_rebuild lapack a (fun x => x) L i j).
  unfold sum3; rewrite !eigh_fun. reflexivity. Qed.

Lemma eig_example :
  lapack_at (fun _ => (fun a => match a with X0 => 1 | X1 => 3 | X2 => 5 end,
                       fun i a => match a, i with
                         | X0, X0 => / sqrt 2 | X0, X1 => - / sqrt 2
                         | X1, X0 => / sqrt 2 | X1, X1 => / sqrt 2
                         | X2, X2 => -1 | _, _ => 0 end))
            (fun v => match v with V0 => 2 | V1 => 2 | V2 => 5 | V3 => 1 | _ => 0 end).
Proof.
  assert (H : / sqrt 2 * / sqrt 2 = / 2).
  { rewrite <- Rinv_mult, sqrt_sqrt; lra. }
  assert (H' : - / sqrt 2 * - / sqrt 2 = / 2) by lra.
  unfold lapack_at, eig_legal; cbn. repeat split.
  - intros a b; destruct a, b; unfold sum3, delta; cbn; lra.
  - intros i a; destruct i, a; unfold sum3, astensor; cbn; lra.
  - lra.
  - lra.
Qed.
