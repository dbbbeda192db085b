(** * Ogden with one set of parameters per quadrature point.

    models/stretches/_ogden.py stores [mu] and [alpha] as they are and iterates over
    [zip(self.mu, self.alpha)], so a list of arrays gives every quadrature point its own
    parameters, provided the arrays broadcast to the trailing axes of the stretches.
    A number is the array without axes. *)
From Coq Require Import Reals List Arith Lia Lra.
From Verif Require Import Tensor Py Voigt Algebra VCalc Models Frameworks Spaces Spec GenProofs InvCore StrCore StrProofs SpaceCore.
From Verif Require Import NDCore NDRel NDOps NDHeap NDVoigt NDMath NDMath2 NDMath3 NDSpaces
  NDSpaceProofs NDSpaceMain NDFrameworks NDInvProofs NDModels NDEigh NDViews NDStrProofs NDGenProofs NDSpec NDLinks.
Import ListNotations.
Local Open Scope R_scope.
Local Open Scope py_scope.

(** ** Model *)
(** models/stretches/_ogden.py:36-41. The code only reads the two lists, so the parameter
    arrays are values here, not references into the heap. *)
Record OgdenField := { ogf_mu : list arr; ogf_alpha : list arr }.

(** The loop of both methods, with the summand [term mu alpha stretches]. *)
Definition nd_ogdenf_sum (term : arr -> arr -> arr -> Result arr) (m : OgdenField) (l : nd) : M nd :=
  d <- alloc (zeros (nshp l)) ;;
  each (combine (ogf_mu m) (ogf_alpha m)) (fun '(mu, alpha) =>
    x <- load l ;;
    inplace Rplus d (term mu alpha x)) ;;
  ret d.
(** models/stretches/_ogden.py:43-52: [2 * mu / alpha * stretches ** (alpha - 1)] *)
Definition ogf_term1 (mu alpha x : arr) : Result arr :=
  (rbin Rdiv (rnum 2 *! Ok mu) (Ok alpha) *! rbin Rpower (Ok x) (Ok alpha -! rnum 1))%nd.
Definition nd_ogdenf_gradient {ST} (m : OgdenField) (l : nd) (sv : ST) : M (nd * ST) :=
  d <- nd_ogdenf_sum ogf_term1 m l ;;
  ret (d, sv).
(** models/stretches/_ogden.py:54-63: [2 * mu / alpha * (alpha - 1) * stretches ** (alpha - 2)] *)
Definition ogf_term2 (mu alpha x : arr) : Result arr :=
  ((rbin Rdiv (rnum 2 *! Ok mu) (Ok alpha) *! (Ok alpha -! rnum 1)) *! rbin Rpower (Ok x) (Ok alpha -! rnum 2))%nd.
Definition nd_ogdenf_hessian {ST} (m : OgdenField) (l : nd) (sv : ST) : M (nd + (ix6 -> option pyval)) :=
  d <- nd_ogdenf_sum ogf_term2 m l ;;
  ret (inr (fun v => match v with
    | V0 => Some (PArr (subview d [0%nat])) | V1 => Some (PArr (subview d [1%nat]))
    | V2 => Some (PArr (subview d [2%nat])) | _ => None end)).
Definition nd_ogdenf {ST} (m : OgdenField) : NDStretchModel ST :=
  {| nsm_gradient := nd_ogdenf_gradient m; nsm_hessian := nd_ogdenf_hessian m |}.

(** ** Specification *)
(** The entry of [a] that belongs to the trailing index [k] (an axis of length 1 is repeated). *)
Definition entry (a : arr) (k : index) : R := dat a (proj (shp a) k).
(** The parameters of the quadrature point [k]. *)
Definition ogden_at (m : OgdenField) (k : index) : Ogden :=
  {| og_mu := map (fun a => entry a k) (ogf_mu m); og_alpha := map (fun a => entry a k) (ogf_alpha m) |}.
(** The arrays of the terms of the sum ([zip] ignores surplus entries) broadcast to the shape [T]. *)
Definition fits_field (m : OgdenField) (T : shape) : Prop :=
  List.Forall (fun p => sub (shp (fst p)) T /\ sub (shp (snd p)) T) (combine (ogf_mu m) (ogf_alpha m)).

(** ** Proofs *)
Lemma rel_entry a T : sub (shp a) T -> rel iS (shp a) T a (fun k _ => entry a k).
Proof. intros H. split; [reflexivity|]. split; [exact H|]. split; [left; reflexivity|]. reflexivity. Qed.

Section Ogf.
  Context {ST SV : Type} (sv_at : ST -> index -> SV) (T : shape) (m : OgdenField).
  Hypothesis HT : fits_field m T.
  (** One step of the loop: coefficient [c] and exponent [e] of the two parameters. *)
  Definition step_ok (ex : arr -> arr -> arr -> Result arr) (c : R -> R -> R) (e : R -> R) : Prop :=
    forall mu alpha x f, sub (shp mu) T -> sub (shp alpha) T -> rel i3 T T x f ->
    exists u, sub u T /\ RR i3 u T (ex mu alpha x)
      (fun k a => c (entry mu k) (entry alpha k) * Rpower (f k a) (e (entry alpha k))).
  Lemma zips : Forall (fun p => sub (shp (fst p)) T /\ sub (shp (snd p)) T) (combine (ogf_mu m) (ogf_alpha m)).
  Proof. exact HT. Qed.
  Lemma combine_at k : combine (og_mu (ogden_at m k)) (og_alpha (ogden_at m k)) =
    map (fun '(a, b) => (entry a k, entry b k)) (combine (ogf_mu m) (ogf_alpha m)).
  Proof.
    cbn. generalize (ogf_mu m) (ogf_alpha m). induction l as [|a l IH]; intros [|b l']; cbn; auto. now rewrite IH.
  Qed.
  Lemma ogf_sum_W ex c e n h l f : step_ok ex c e -> (n <= hnext h)%nat -> hrel h l i3 T T f ->
    W n h (nd_ogdenf_sum ex m l) (gives h i3 T T (fun k a => og_sum (ogden_at m k) c e (f k) a)).
  Proof.
    intros Hex Hn Hl. unfold nd_ogdenf_sum. pose proof Hl as [_ [S1 _]]. cbn [contents shp] in S1.
    apply W_gives; [exact Hn|].
    eapply W_call.
    { apply (W_alloc (hnext h) h _ i3 T T (fun _ _ => 0) (le_n _)). rewrite S1. apply rel_of_full; reflexivity. }
    intros d h1 F1 V1' Hd Y1. assert (Ld : loc l <> loc d) by hlia. carry Y1.
    assert (Ld' : (hnext h <= loc d)%nat) by hlia.
    set (I0 := fun (g : index -> Vec3) h' => (hnext h' = hnext h1) /\
         hrel h' d i3 T T (fun k a => g k a) /\ hrel h' l i3 T T f).
    set (st := fun '(mu, alpha) (g : index -> Vec3) k => (fun a => g k a + c (entry mu k) (entry alpha k) * Rpower (f k a) (e (entry alpha k))) : Vec3).
    assert (L : forall ps g h2, Forall (fun p => sub (shp (fst p)) T /\ sub (shp (snd p)) T) ps -> I0 g h2 ->
      W (hnext h) h2 (each ps (fun '(mu, alpha) => x <- load l ;; inplace Rplus d (ex mu alpha x)))
        (fun _ h' => I0 (fold_left (fun g p => st p g) ps g) h')).
    { induction ps as [|[mu alpha] ps IH]; intros g h2 Hps H2; cbn [each fold_left].
      - apply W_ret. exact H2.
      - inversion Hps as [|p q [Q1 Q2] Q3]; subst. cbn [fst snd] in *. destruct H2 as [I1 [I2 I3]].
        destruct (Hex mu alpha (contents h2 l) f Q1 Q2 (proj2 I3)) as [u [Hu Hr]].
        eapply W_bind.
        + apply W_load_bind.
          apply (inplace_W Rplus (hnext h) h2 d _ i3 T u T _ _ i3_ok Ld' V1' I2 Hr Hu).
        + cbv beta. intros _ h3 _ [W3 H3]. apply IH; [exact Q3|].
          split; [destruct W3; lia|]. split; [exact H3|]. eapply hrel_wrote; eauto. }
    eapply W_bind.
    { apply (L _ (fun _ _ => 0) h1 zips). split; [reflexivity|]. split; [exact Hd|exact Hl]. }
    cbv beta. intros _ h2 _ [I1 [I2 _]]. apply W_ret. split; [split; hlia|]. split; [exact V1'|].
    eapply hrel_fun; [exact I2|]. intros k Hk a. unfold og_sum. rewrite combine_at.
    assert (G : forall l0 (g : index -> Vec3),
      fold_left (fun g p => st p g) l0 g k =
      fold_left (fun (acc : Vec3) '(mu, alpha) => fun a => acc a + c mu alpha * Rpower (f k a) (e alpha))
        (map (fun '(a, b) => (entry a k, entry b k)) l0) (g k)).
    { intros l0. induction l0 as [|[mu alpha] l0 IH]; intros g; cbn [fold_left map]; [reflexivity|]. now rewrite IH. }
    now rewrite G.
  Qed.
  Lemma step_gradient : step_ok ogf_term1
    (fun mu alpha => 2 * mu / alpha) (fun alpha => alpha - 1).
  Proof.
    intros mu alpha x f H1 H2 Hx. pose proof (RR_ok _ _ _ _ _ (rel_entry mu T H1)) as R1.
    pose proof (RR_ok _ _ _ _ _ (rel_entry alpha T H2)) as R2.
    assert (Q := RR_scal_l Rmult i3 _ _ T _ _ _ _ i3_ok
      (RR_same Rdiv iS _ _ T _ _ _ _ iS_ok (RR_same Rmult iS _ _ T _ _ _ _ iS_ok (RR_num 2 T) R1) R2)
      (RR_scal_r Rpower i3 _ _ T _ _ _ _ i3_ok (RR_ok _ _ _ _ _ Hx) (RR_same Rminus iS _ _ T _ _ _ _ iS_ok R2 (RR_num 1 T)))).
    eexists. split; [|exact Q]. destruct Q as [v [_ [_ [Hs _]]]]. exact Hs.
  Qed.
  Lemma step_hessian : step_ok ogf_term2
    (fun mu alpha => 2 * mu / alpha * (alpha - 1)) (fun alpha => alpha - 2).
  Proof.
    intros mu alpha x f H1 H2 Hx. pose proof (RR_ok _ _ _ _ _ (rel_entry mu T H1)) as R1.
    pose proof (RR_ok _ _ _ _ _ (rel_entry alpha T H2)) as R2.
    assert (Q := RR_scal_l Rmult i3 _ _ T _ _ _ _ i3_ok
      (RR_same Rmult iS _ _ T _ _ _ _ iS_ok
        (RR_same Rdiv iS _ _ T _ _ _ _ iS_ok (RR_same Rmult iS _ _ T _ _ _ _ iS_ok (RR_num 2 T) R1) R2)
        (RR_same Rminus iS _ _ T _ _ _ _ iS_ok R2 (RR_num 1 T)))
      (RR_scal_r Rpower i3 _ _ T _ _ _ _ i3_ok (RR_ok _ _ _ _ _ Hx) (RR_same Rminus iS _ _ T _ _ _ _ iS_ok R2 (RR_num 2 T)))).
    eexists. split; [|exact Q]. destruct Q as [v [_ [_ [Hs _]]]]. exact Hs.
  Qed.

  (** The parameters travel with the state of the entry. *)
  Definition ogf_sv (st : ST) (k : index) : Ogden * SV := (ogden_at m k, sv_at st k).
  Definition ogf_pg (l : Vec3) (sv : Ogden * SV) : Vec3 * (Ogden * SV) := (ogden_gradient (fst sv) l, sv).
  Definition ogf_ph (l : Vec3) (sv : Ogden * SV) : ix6 -> option R := ogden_hessian (fst sv) l.
  Definition ogf_pm : StretchModel (Ogden * SV) :=
    {| sm_self := unit;
       sm_gradient := fun l sv s => (s, Ok (ogf_pg l sv));
       sm_hessian := fun l sv s => (s, Ok (ogf_ph l sv)) |}.
  Lemma ogdenf_ok : strm_ok (nd_ogdenf m) ogf_sv ogf_pg ogf_ph (fun _ => True) T.
  Proof.
    constructor.
    - intros h l f sv Hl _. cbn [nsm_gradient nd_ogdenf]. unfold nd_ogdenf_gradient.
      eapply W_call; [apply (ogf_sum_W _ _ _ (hnext h) h l f step_gradient (le_n _) Hl)|].
      intros d h1 F1 V1' Hd Y1. apply W_ret. cbn [fst snd]. split; [exact Hd|reflexivity].
    - intros h l f sv Hl _. cbn [nsm_hessian nd_ogdenf]. unfold nd_ogdenf_hessian.
      eapply W_call; [apply (ogf_sum_W _ _ _ (hnext h) h l f step_hessian (le_n _) Hl)|].
      intros d h1 F1 V1' Hd Y1. apply W_ret.
      assert (Q : forall a v, v = hd6 a -> oval h1 (Some (PArr (subview d [n3 a]))) (Some T) T
         (fun k => ogf_ph (f k) (ogf_sv sv k) v)).
      { intros a v ->. cbn [oval]. eexists. split; [apply (sub3 h1 d a T T _ Hd)|]. intros k Hk. destruct a; reflexivity. }
      intros []; [exists (Some T); now apply (Q X0)|exists (Some T); now apply (Q X1)|exists (Some T); now apply (Q X2)
        |exists None; cbn; auto..].
  Qed.
End Ogf.
