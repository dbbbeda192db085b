(** * Lists, dictionaries, masks and the curve fit (C39 - C44). *)
From Coq Require Import Reals Lra List String ZArith Bool Permutation Lia FunctionalExtensionality.
From Verif Require Import Tensor Py Voigt Models Frameworks Spaces Spec SpaceCore Lab LabSpec LabMech.
Import ListNotations.
Local Open Scope R_scope.

(** ** Dictionaries *)
Lemma dict_get_set d k v k' : dict_get (dict_set d k v) k' = if String.eqb k k' then Some v else dict_get d k'.
Proof.
  induction d as [|[q u] d IH]; cbn [dict_set dict_get]; [reflexivity|].
  destruct (String.eqb_spec q k) as [->|N]; cbn [dict_get].
  - destruct (String.eqb k k'); reflexivity.
  - rewrite IH. destruct (String.eqb_spec q k') as [->|N']; [|reflexivity].
    destruct (String.eqb_spec k k') as [->|]; [contradiction|reflexivity].
Qed.
(** The last pair with the key. *)
Fixpoint last_of (l : list (string * R)) (k : string) : option R :=
  match l with
  | [] => None
  | (k', v) :: r => match last_of r k with Some u => Some u | None => if String.eqb k' k then Some v else None end
  end.
Lemma fold_last l d k : dict_get (fold_left (fun d lp => dict_set d (fst lp) (snd lp)) l d) k =
  match last_of l k with Some v => Some v | None => dict_get d k end.
Proof.
  revert d; induction l as [|[q u] l IH]; intro d; cbn [fold_left last_of]; [reflexivity|].
  rewrite IH. destruct (last_of l k); [reflexivity|]. cbn [fst snd]. rewrite dict_get_set. destruct (String.eqb q k); reflexivity.
Qed.
Lemma kwargs_last labels ps k : dict_get (kwargs_of labels ps) k = last_of (combine labels ps) k.
Proof. unfold kwargs_of. rewrite fold_last. destruct (last_of _ k); reflexivity. Qed.
Lemma last_of_None l k : last_of l k = None <-> forall v, ~ In (k, v) l.
Proof.
  induction l as [|[q u] l IH]; cbn [last_of In].
  - split; auto.
  - destruct (last_of l k) as [w|] eqn:E.
    + split; [discriminate|]. intro H. exfalso. assert (None <> @Some R w) as Nn by discriminate. apply Nn. symmetry. apply IH.
      intros v I. exact (H v (or_intror I)).
    + destruct (String.eqb_spec q k) as [->|N].
      * split; [discriminate|]. intro H. exfalso. exact (H u (or_introl eq_refl)).
      * split; [|reflexivity]. intros _ v [X|X]; [injection X as -> _; contradiction|]. apply (proj1 IH eq_refl v X).
Qed.
Lemma last_of_nth labels ps i k v : nth_error labels i = Some k -> nth_error ps i = Some v ->
  (forall j, (i < j < List.length ps)%nat -> nth_error labels j <> Some k) -> last_of (combine labels ps) k = Some v.
Proof.
  revert ps i. induction labels as [|a labels IH]; intros ps i El Ep H; [destruct i; discriminate|].
  destruct ps as [|b ps]; [destruct i; discriminate|]. cbn [combine last_of].
  destruct i as [|i]; cbn in El, Ep.
  - injection El as ->. injection Ep as ->.
    assert (E : last_of (combine labels ps) k = None).
    { apply last_of_None. intros u I. destruct (In_nth _ _ (EmptyString, 0) I) as (j & Lj & Ej).
      rewrite combine_length in Lj. assert (Lp : (S j < List.length (v :: ps))%nat) by (cbn; lia).
      apply (H (S j)). lia. cbn. assert (Ll : (j < List.length labels)%nat) by lia.
      rewrite (nth_error_nth' labels EmptyString Ll). f_equal.
      assert (Ln : (j < List.length (combine labels ps))%nat) by (rewrite combine_length; lia).
      pose proof (nth_error_nth' _ (EmptyString, 0) Ln) as X. rewrite Ej in X.
      clear -X Ll Lp. revert ps j X Ll Lp. induction labels as [|a l IH]; intros ps j X Ll Lp; [cbn in Ll; lia|].
      destruct ps as [|p ps]; [cbn in Lp; lia|]. destruct j; cbn in *; [congruence|]. apply (IH ps); auto; lia. }
    rewrite E, String.eqb_refl. reflexivity.
  - rewrite (IH ps i El Ep); [reflexivity|]. intros j Lj X. apply (H (S j)). cbn; lia. exact X.
Qed.
Lemma last_of_in l k v : last_of l k = Some v -> In (k, v) l.
Proof.
  induction l as [|[q u] l IH]; cbn [last_of In]; [discriminate|].
  destruct (last_of l k) as [w|] eqn:E; [intro X; right; auto|].
  destruct (String.eqb_spec q k) as [->|]; [|discriminate]. intro X; injection X as ->. auto.
Qed.
Lemma last_of_nodup l k v : NoDup (map fst l) -> In (k, v) l -> last_of l k = Some v.
Proof.
  induction l as [|[q u] l IH]; cbn [map fst last_of In]; intros N I; [contradiction|].
  inversion N as [|? ? N1 N2]; subst. destruct I as [X|I].
  - injection X as -> ->. assert (E : last_of l k = None).
    { apply last_of_None. intros v' I. apply N1. apply (in_map fst) in I. exact I. }
    rewrite E, String.eqb_refl. reflexivity.
  - rewrite (IH N2 I). reflexivity.
Qed.
Lemma nodup_combine (labels : list string) (ps : list R) : NoDup labels -> NoDup (map fst (combine labels ps)).
Proof.
  revert ps; induction labels as [|a l IH]; intros ps N; [constructor|]. destruct ps as [|p ps]; [constructor|].
  inversion N; subst. cbn. constructor; [|apply IH; auto]. intro I. apply in_map_iff in I. destruct I as ([x y] & E & I). cbn in E; subst x.
  apply in_combine_l in I. contradiction.
Qed.
Lemma kwargs_perm labels ps labels' ps' k : NoDup labels -> Permutation (combine labels ps) (combine labels' ps') ->
  dict_get (kwargs_of labels ps) k = dict_get (kwargs_of labels' ps') k.
Proof.
  intros N Pm. rewrite !kwargs_last.
  assert (N' : NoDup (map fst (combine labels' ps'))).
  { apply Permutation_NoDup with (map fst (combine labels ps)); [apply Permutation_map; auto|apply nodup_combine; auto]. }
  apply nodup_combine with (ps := ps) in N.
  destruct (last_of (combine labels ps) k) as [v|] eqn:E.
  - symmetry. apply last_of_nodup; auto. apply (Permutation_in _ Pm). apply last_of_in; auto.
  - symmetry. apply last_of_None. intros v I. apply (proj1 (last_of_None _ _) E v). apply (Permutation_in _ (Permutation_sym Pm)); auto.
Qed.
Lemma combine_app_r {A B} (l : list A) (p e : list B) : (List.length l <= List.length p)%nat -> combine l (p ++ e) = combine l p.
Proof. revert p; induction l as [|a l IH]; intros [|b p] H; cbn in *; try lia; try reflexivity. f_equal. apply IH. lia. Qed.
Lemma combine_app_l {A B} (l e : list A) (p : list B) : (List.length p <= List.length l)%nat -> combine (l ++ e) p = combine l p.
Proof. revert p; induction l as [|a l IH]; intros [|b p] H; cbn in *; try lia; try reflexivity. destruct e; reflexivity. f_equal. apply IH. lia. Qed.
Lemma dict_keys d k : (exists v, In (k, v) d) <-> dict_get d k <> None.
Proof.
  induction d as [|[q u] d IH]; cbn [dict_get In].
  - split; [intros [v []]|congruence].
  - destruct (String.eqb_spec q k) as [->|N].
    + split; [discriminate|]. intros _. exists u. auto.
    + rewrite <- IH. split; intros [v H]; exists v; [destruct H as [X|X]; [injection X as -> _; contradiction|exact X]|auto].
Qed.
Lemma tod_by_keyword : by_keyword tod_of_kwargs.
Proof.
  intros d d' H. unfold tod_of_kwargs.
  assert (E : forallb (fun kv => existsb (String.eqb (fst kv)) tod_keywords) d = forallb (fun kv => existsb (String.eqb (fst kv)) tod_keywords) d').
  { apply eq_true_iff_eq. rewrite !forallb_forall.
    assert (W : forall d d', (forall k, dict_get d k = dict_get d' k) ->
       (forall x, In x d -> existsb (String.eqb (fst x)) tod_keywords = true) -> (forall x, In x d' -> existsb (String.eqb (fst x)) tod_keywords = true)).
    { clear. intros d d' H X [k v] I. cbn [fst]. assert (Y : dict_get d k <> None) by (rewrite H; apply dict_keys; exists v; auto).
      apply dict_keys in Y. destruct Y as [v' I']. exact (X (k, v') I'). }
    split; apply W; auto. }
  rewrite E. unfold kw. rewrite !H. reflexivity.
Qed.
Lemma by_keyword_bind {A B} (f : Dict -> Result A) (g : A -> Result B) : by_keyword f -> by_keyword (fun d => rbind (f d) g).
Proof. intros K d d' H. rewrite (K d d' H). reflexivity. Qed.
Lemma tod_unknown d k : dict_get d k <> None -> ~ In k tod_keywords -> tod_of_kwargs d = Raise TypeError.
Proof.
  intros H N. apply dict_keys in H. destruct H as [v I]. unfold tod_of_kwargs.
  destruct (forallb _ d) eqn:E; [|reflexivity]. rewrite forallb_forall in E. specialize (E _ I). cbn [fst] in E.
  apply existsb_exists in E. destruct E as (x & Ix & Ex). apply String.eqb_eq in Ex. subst. contradiction.
Qed.
Lemma tod_known d : (forall k, dict_get d k <> None -> In k tod_keywords) ->
  tod_of_kwargs d = Ok (tod_init (kw d "C10") (kw d "C01") (kw d "C11") (kw d "C20") (kw d "C30") (nonzero (kw d "strain"))).
Proof.
  intros H. unfold tod_of_kwargs. replace (forallb _ d) with true; [reflexivity|]. symmetry. apply forallb_forall. intros [k v] I. cbn [fst].
  apply existsb_exists. exists k. split; [|apply String.eqb_refl]. apply H. apply dict_keys. exists v; auto.
Qed.

(** ** Masks *)
Lemma bool_index_ok m l : List.length m = List.length l -> bool_index m l = Ok (map snd (filter fst (combine m l))).
Proof.
  revert l; induction m as [|b m IH]; intros [|x l] H; try discriminate; [reflexivity|]. cbn [bool_index combine filter fst].
  rewrite IH by (cbn in H; lia). cbn [rbind]. destruct b; reflexivity.
Qed.
Lemma bool_index_bad m l : List.length m <> List.length l -> bool_index m l = Raise IndexError.
Proof.
  revert l; induction m as [|b m IH]; intros [|x l] H; cbn in *; try reflexivity; [lia|]. rewrite IH by lia. reflexivity.
Qed.
Lemma map_r_map {A B} (f : A -> Result B) (g : A -> B) l : (forall a, In a l -> f a = Ok (g a)) -> map_r f l = Ok (map g l).
Proof.
  induction l as [|a l IH]; intro H; [reflexivity|]. cbn [map_r map]. rewrite (H a (or_introl eq_refl)), IH; [reflexivity|]. intros; apply H; right; auto.
Qed.
Lemma int_index_ok l z : (- Z.of_nat (List.length l) <= z < Z.of_nat (List.length l))%Z ->
  int_index l z = Ok (nth (position (List.length l) z) l 0).
Proof.
  intro H. unfold int_index, position. destruct (Z.ltb_spec z 0).
  - replace (_ && _)%bool with true; [reflexivity|]. symmetry. apply andb_true_intro. split; [apply Z.leb_le|apply Z.ltb_lt]; lia.
  - replace (_ && _)%bool with true; [reflexivity|]. symmetry. apply andb_true_intro. split; [apply Z.leb_le|apply Z.ltb_lt]; lia.
Qed.
Lemma np_index_chosen m l : fits m (List.length l) -> np_index l m = Ok (chosen 0 m l).
Proof.
  destruct m as [|b|idx]; cbn [fits np_index chosen]; intro H; [reflexivity|apply bool_index_ok; auto|].
  apply map_r_map. intros z I. apply int_index_ok. rewrite List.Forall_forall in H. auto.
Qed.
Lemma map_chosen {A B} (f : A -> B) d m l : map f (chosen d m l) = chosen (f d) m (map f l).
Proof.
  destruct m as [|b|idx]; cbn [chosen]; [reflexivity| |].
  - revert l; induction b as [|x b IH]; intros [|y l]; cbn; try reflexivity. destruct x; cbn; rewrite IH; reflexivity.
  - rewrite map_map, map_length. apply map_ext. intro z. rewrite map_nth. reflexivity.
Qed.
Lemma map_fst_combine {A B} (a : list A) (b : list B) : List.length a = List.length b -> map fst (combine a b) = a.
Proof. revert b; induction a as [|x a IH]; intros [|y b] H; cbn in *; try lia; [reflexivity|]. rewrite IH by lia. reflexivity. Qed.
Lemma map_snd_combine {A B} (a : list A) (b : list B) : List.length a = List.length b -> map snd (combine a b) = b.
Proof. revert b; induction a as [|x a IH]; intros [|y b] H; cbn in *; try lia; [reflexivity|]. rewrite IH by lia. reflexivity. Qed.
(** What the mask selects of an experiment. *)
Definition sel (me : Mask * Experiment) : list (R * R) := match points (snd me) with Ok pts => chosen (0, 0) (fst me) pts | Raise _ => [] end.
Lemma sel_x m e : well_formed e -> fits m (List.length (ex_stretch e)) -> np_index (ex_stretch e) m = Ok (map fst (sel (m, e))).
Proof.
  intros (d & f & Ed & Ef & L1 & L2) Ft. rewrite np_index_chosen by auto. unfold sel, points, experiment_stress; cbn [snd fst]. rewrite Ef; cbn [div_data rbind].
  rewrite map_chosen. cbn [fst]. rewrite map_fst_combine; [reflexivity|]. rewrite map_length; congruence.
Qed.
Lemma sel_y m e : well_formed e -> fits m (List.length (ex_stretch e)) ->
  rbind (experiment_stress e) (fun s => np_index s m) = Ok (map snd (sel (m, e))).
Proof.
  intros (d & f & Ed & Ef & L1 & L2) Ft. unfold sel, points, experiment_stress; cbn [snd fst]. rewrite Ef; cbn [div_data rbind].
  rewrite np_index_chosen by (rewrite map_length; congruence).
  rewrite map_chosen. cbn [snd]. rewrite map_snd_combine; [reflexivity|]. rewrite map_length; congruence.
Qed.
Lemma matching_in experiments simulations mask me : matching experiments simulations mask -> In me (combine mask experiments) ->
  well_formed (snd me) /\ fits (fst me) (List.length (ex_stretch (snd me))).
Proof.
  intros (_ & _ & _ & W & Ft) I. split.
  - rewrite List.Forall_forall in W. apply W. destruct me as [m e]. apply in_combine_r in I. exact I.
  - clear W. induction Ft as [|m e ms es H Ft IH]; [contradiction|]. destruct I as [<-|I]; [exact H|apply IH; exact I].
Qed.
Lemma matching_x experiments simulations mask : matching experiments simulations mask ->
  map_r (fun me => np_index (ex_stretch (snd me)) (fst me)) (combine mask experiments) = Ok (map (fun me => map fst (sel me)) (combine mask experiments)).
Proof.
  intro M. apply map_r_map. intros me I. destruct (matching_in _ _ _ _ M I) as [W Ft]. destruct me as [m e]. apply sel_x; auto.
Qed.
Lemma matching_y experiments simulations mask : matching experiments simulations mask ->
  map_r (fun me => rbind (experiment_stress (snd me)) (fun s => np_index s (fst me))) (combine mask experiments) =
  Ok (map (fun me => map snd (sel me)) (combine mask experiments)).
Proof.
  intro M. apply map_r_map. intros me I. destruct (matching_in _ _ _ _ M I) as [W Ft]. destruct me as [m e]. apply sel_y; auto.
Qed.

(** The mask by positions. *)
Lemma chosen_bool {A} (d : A) b pts : List.length b = List.length pts ->
  chosen d (MBool b) pts = map (fun j => nth j pts d) (filter (fun j => nth j b false) (seq 0 (List.length pts))).
Proof.
  cbn [chosen]. revert pts; induction b as [|x b IH]; intros [|y pts] H; try discriminate; [reflexivity|].
  cbn [combine filter fst List.length seq nth map snd]. cbn in H.
  assert (E : map (fun j => nth j (y :: pts) d) (filter (fun j => nth j (x :: b) false) (seq 1 (List.length pts))) = map snd (filter fst (combine b pts))).
  { rewrite <- seq_shift, IH by lia. induction (seq 0 (List.length pts)) as [|a l IHl]; [reflexivity|]. cbn [map filter nth].
    destruct (nth a b false); cbn [map]; rewrite <- IHl; reflexivity. }
  destruct x; [change (y :: map snd (filter fst (combine b pts)) = y :: map (fun j => nth j (y :: pts) d) (filter (fun j => nth j (true :: b) false) (seq 1 (List.length pts)))); f_equal|]; exact (eq_sym E).
Qed.

(** ** Residuals *)
Lemma map_r_comp {A B C} (f : B -> Result C) (g : A -> B) l : map_r f (map g l) = map_r (fun a => f (g a)) l.
Proof. induction l as [|a l IH]; [reflexivity|]. cbn [map map_r]. rewrite IH. reflexivity. Qed.
Lemma combine_map2 {A B C D} (f : A -> C) (g : B -> D) a b : combine (map f a) (map g b) = map (fun p => (f (fst p), g (snd p))) (combine a b).
Proof. revert b; induction a as [|x a IH]; intros [|y b]; cbn; try reflexivity. rewrite IH. reflexivity. Qed.
Lemma combine_app {A B} (a a' : list A) (b b' : list B) : List.length a = List.length b -> combine (a ++ a') (b ++ b') = combine a b ++ combine a' b'.
Proof. revert b; induction a as [|x a IH]; intros [|y b] H; cbn in *; try lia; [reflexivity|]. rewrite IH by lia. reflexivity. Qed.
Lemma np_sub_eq a b : List.length a = List.length b -> np_sub a b = Ok (map (fun p => fst p - snd p) (combine a b)).
Proof. intro H. unfold np_sub, broadcast1. rewrite H, Nat.eqb_refl. reflexivity. Qed.
Lemma scf_length s x p f : stress_curve_fit s x p = Ok f -> List.length f = List.length x.
Proof. unfold stress_curve_fit. destruct (si_material s _) as [m|]; cbn [rbind]; [|discriminate]. apply map_r_length. Qed.
(** [ts]: the terms; evaluation, concatenation and subtraction *)
Lemma blocks ts p : 
  rbind (map_r (fun t : Term => stress_curve_fit (fst t) (map fst (snd t)) p) ts)
        (fun l => np_sub (List.concat l) (List.concat (map (fun t => map snd (snd t)) ts))) = all_residuals ts p.
Proof.
  unfold all_residuals.
  assert (H : match map_r (fun t : Term => stress_curve_fit (fst t) (map fst (snd t)) p) ts with
     | Ok l => List.length (List.concat l) = List.length (List.concat (map (fun t => map snd (snd t)) ts)) /\
        exists l', map_r (fun t => term_residuals t p) ts = Ok l' /\
          map (fun q => fst q - snd q) (combine (List.concat l) (List.concat (map (fun t => map snd (snd t)) ts))) = List.concat l'
     | Raise e => map_r (fun t => term_residuals t p) ts = Raise e end).
  { induction ts as [|t ts IH]; cbn [map_r map List.concat].
    - split; [reflexivity|]. exists []. split; reflexivity.
    - unfold term_residuals at 1 3. destruct (stress_curve_fit (fst t) (map fst (snd t)) p) as [f|e] eqn:E; cbn [rbind]; [|reflexivity].
      apply scf_length in E. destruct (map_r _ ts) as [l|e]; cbn [rbind].
      + destruct IH as (L & l' & El & Eq). rewrite El. cbn [rbind List.concat]. rewrite map_length in E.
        split; [rewrite !app_length, map_length; congruence|]. eexists; split; [reflexivity|].
        rewrite combine_app by (rewrite map_length; exact E). rewrite map_app, Eq. reflexivity.
      + rewrite IH. reflexivity. }
  destruct (map_r _ ts) as [l|e]; cbn [rbind].
  - destruct H as (L & l' & -> & Eq). rewrite np_sub_eq by exact L. cbn [rbind]. rewrite Eq. reflexivity.
  - rewrite H. reflexivity.
Qed.
Lemma sum_squares_app a b : sum_squares (a ++ b) = sum_squares a + sum_squares b.
Proof. unfold sum_squares. induction a as [|x a IH]; cbn [app fold_right]; [ring|]. rewrite IH. ring. Qed.
Lemma squares_total ts p : total_squares ts p = rbind (all_residuals ts p) (fun r => Ok (sum_squares r)).
Proof.
  unfold total_squares, all_residuals. induction ts as [|t ts IH]; cbn [map_r rbind]; [reflexivity|].
  destruct (term_residuals t p) as [r|e]; cbn [rbind]; [|reflexivity].
  destruct (map_r (fun t => term_residuals t p) ts) as [l|e], (map_r (fun t => rbind (term_residuals t p) _) ts) as [l'|e']; cbn [rbind] in *; try discriminate; [|congruence].
  injection IH as IH. cbn [total fold_right List.concat]. rewrite sum_squares_app. unfold total in *. f_equal. f_equal. exact IH.
Qed.
Lemma total_perm l l' : Permutation l l' -> total l = total l'.
Proof. unfold total. induction 1; cbn; lra. Qed.
Lemma map_r_perm {A B} (f : A -> Result B) l l' : Permutation l l' -> forall bs, map_r f l = Ok bs -> exists bs', map_r f l' = Ok bs' /\ Permutation bs bs'.
Proof.
  induction 1; intros bs E; cbn [map_r] in *.
  - injection E as <-. exists []. auto.
  - destruct (f x) as [b|]; cbn [rbind] in *; [|discriminate]. destruct (map_r f l) as [bl|]; cbn [rbind] in *; [|discriminate]. injection E as <-.
    destruct (IHPermutation bl eq_refl) as (bs' & -> & P'). cbn [rbind]. exists (b :: bs'). split; [reflexivity|]. constructor; auto.
  - destruct (f x) as [b|], (f y) as [c|]; cbn [rbind] in *; try discriminate. destruct (map_r f l) as [bl|]; cbn [rbind] in *; [|discriminate]. injection E as <-.
    eexists. split; [reflexivity|]. constructor.
  - destruct (IHPermutation1 bs E) as (b1 & E1 & P1). destruct (IHPermutation2 b1 E1) as (b2 & E2 & P2). exists b2. split; auto. eapply Permutation_trans; eauto.
Qed.
Lemma total_squares_perm ts ts' p v : Permutation ts ts' -> total_squares ts p = Ok v -> total_squares ts' p = Ok v.
Proof.
  unfold total_squares. intros Pm E. destruct (map_r _ ts) as [l|] eqn:El; cbn [rbind] in E; [|discriminate]. injection E as <-.
  destruct (map_r_perm _ _ _ Pm l El) as (l' & -> & P'). cbn [rbind]. f_equal. symmetry. apply total_perm; auto.
Qed.

(** ** The Optimize object *)
Section Opt.
  Context (sims : nat -> SimStatic) (experiments : list Experiment) (simulations : list nat) (mask : list Mask).
  Let xs := map (fun me => map fst (sel me)) (combine mask experiments).
  Let ys := map (fun me => map snd (sel me)) (combine mask experiments).
  Let ts := terms sims experiments simulations mask.
  Let fs := map (callable sims) simulations.
  Lemma terms_ts : ts = map (fun t => (sims (fst t), sel (snd t))) (combine simulations (combine mask experiments)).
  Proof. reflexivity. Qed.
  Lemma eval_terms p : map_r (fun fx => fst fx (snd fx) p) (combine fs xs) = map_r (fun t : Term => stress_curve_fit (fst t) (map fst (snd t)) p) ts.
  Proof. unfold fs, xs. rewrite combine_map2, terms_ts, !map_r_comp. reflexivity. Qed.
  Lemma zip_length : matching experiments simulations mask -> List.length simulations = List.length (combine mask experiments).
  Proof. intros (_ & A & B & _). rewrite combine_length. lia. Qed.
  Lemma ys_terms : matching experiments simulations mask -> ys = map (fun t : Term => map snd (snd t)) ts.
  Proof.
    intro M. unfold ys. rewrite terms_ts, map_map. pose proof (zip_length M) as L.
    rewrite <- (map_snd_combine simulations (combine mask experiments) L) at 1. rewrite map_map. reflexivity.
  Qed.
  Lemma ts_nonempty : matching experiments simulations mask -> exists t r, ts = t :: r.
  Proof.
    intros (N & A & B & _). rewrite terms_ts. destruct experiments as [|e es]; [contradiction|]. destruct simulations, mask; try discriminate.
    cbn. eauto.
  Qed.
  Lemma concat_ok {A} (f : A -> Result (list R)) l a r : l = a :: r -> rbind (map_r f l) np_concatenate = rbind (map_r f l) (fun q => Ok (List.concat q)).
  Proof.
    intros ->. cbn [map_r]. destruct (f a) as [b|]; cbn [rbind]; [|reflexivity]. destruct (map_r f r) as [bs|]; reflexivity.
  Qed.
  Lemma eval_cat p : matching experiments simulations mask ->
    eval_all fs xs p = rbind (map_r (fun t : Term => stress_curve_fit (fst t) (map fst (snd t)) p) ts) (fun q => Ok (List.concat q)).
  Proof. intro M. unfold eval_all. rewrite eval_terms. destruct (ts_nonempty M) as (t & r & E). rewrite (concat_ok _ _ _ _ E). reflexivity. Qed.
  Lemma ys_cat : matching experiments simulations mask -> np_concatenate ys = Ok (List.concat ys).
  Proof. intro M. rewrite (ys_terms M). destruct (ts_nonempty M) as (t & r & ->). reflexivity. Qed.
  Lemma xs_cat : matching experiments simulations mask -> np_concatenate xs = Ok (List.concat xs).
  Proof. intros (N & A & B & _). unfold xs. destruct experiments as [|e es]; [contradiction|]. destruct mask; [discriminate|]. reflexivity. Qed.
  Lemma residual_sub p : matching experiments simulations mask ->
    rbind (eval_all fs xs p) (fun f => np_sub f (List.concat ys)) = all_residuals ts p.
  Proof.
    intro M. rewrite (eval_cat p M), (ys_terms M), <- blocks. destruct (map_r _ ts) as [l|e]; reflexivity.
  Qed.

  (** init_curve_fit *)
  Definition fits_world (w : World) (r0 : list R) : World :=
    {| heap := heap w;
       sim_par := fun i => if existsb (Nat.eqb i) simulations then op_par w else sim_par w i;
       op_par := op_par w; op_f := Some simulations; op_x := Some xs; op_y := Some ys;
       op_errors := Some (map (fun _ => NaN) (elements (heap w (op_par w)))); op_residuals := Some r0 |}.
  Lemma fold_sim l w : fold_left (fun w i => set_sim i (op_par w) w) l w =
    {| heap := heap w; sim_par := fun i => if existsb (Nat.eqb i) l then op_par w else sim_par w i;
       op_par := op_par w; op_f := op_f w; op_x := op_x w; op_y := op_y w; op_errors := op_errors w; op_residuals := op_residuals w |}.
  Proof.
    revert w; induction l as [|a l IH]; intro w; cbn [fold_left existsb].
    - destruct w; reflexivity.
    - rewrite IH. cbn. f_equal. apply functional_extensionality. intro i. unfold upd.
      destruct (existsb (Nat.eqb i) l); [rewrite orb_true_r; reflexivity|]. rewrite orb_false_r. reflexivity.
  Qed.
  Lemma init_ok w r0 : matching experiments simulations mask -> all_residuals ts (elements (heap w (op_par w))) = Ok r0 ->
    init_curve_fit sims experiments simulations mask w = (fits_world w r0, Ok (op_par w)).
  Proof.
    intros M E. rewrite <- residual_sub in E by exact M.
    unfold init_curve_fit, bind, upd_world, lift, get, ret.
    rewrite (matching_x _ _ _ M). cbv beta iota. rewrite (matching_y _ _ _ M). cbv beta iota. cbn [heap op_par set_y set_x set_f].
    fold xs ys fs. destruct (eval_all fs xs (elements (heap w (op_par w)))) as [f0|e]; cbn [rbind] in E; [|discriminate].
    cbv beta iota. rewrite (ys_cat M). cbv beta iota. rewrite E. cbv beta iota. rewrite fold_sim. reflexivity.
  Qed.
  (** Whatever happens, no sequence object is written. *)
  Lemma init_heap w : let w' := fst (init_curve_fit sims experiments simulations mask w) in heap w' = heap w /\ op_par w' = op_par w.
  Proof.
    cbv zeta. unfold init_curve_fit, bind, upd_world, lift, get, ret.
    destruct (map_r _ (combine mask experiments)) as [x|]; cbv beta iota; [|split; reflexivity].
    destruct (map_r _ (combine mask experiments)) as [y|]; cbv beta iota; [|split; reflexivity].
    cbn [heap op_par set_y set_x set_f].
    destruct (eval_all _ x _) as [f0|]; cbv beta iota; [|split; reflexivity].
    destruct (np_concatenate y) as [yc|]; cbv beta iota; [|split; reflexivity].
    destruct (np_sub f0 yc) as [r|]; cbv beta iota; [|split; reflexivity].
    cbn [fst]. rewrite fold_sim. split; reflexivity.
  Qed.
  Lemma init_data w : matching experiments simulations mask -> let w' := fst (init_curve_fit sims experiments simulations mask w) in
    op_x w' = Some xs /\ op_y w' = Some ys.
  Proof.
    intro M. cbv zeta. unfold init_curve_fit, bind, upd_world, lift, get, ret.
    rewrite (matching_x _ _ _ M). cbv beta iota. rewrite (matching_y _ _ _ M). cbv beta iota. cbn [heap op_par set_y set_x set_f]. fold xs ys fs.
    destruct (eval_all _ xs _) as [f0|]; cbv beta iota; [|split; reflexivity].
    destruct (np_concatenate ys) as [yc|]; cbv beta iota; [|split; reflexivity].
    destruct (np_sub f0 yc) as [r|]; cbv beta iota; [|split; reflexivity].
    cbn [fst]. rewrite fold_sim. split; reflexivity.
  Qed.
  Lemma init_raise w e : matching experiments simulations mask -> all_residuals ts (elements (heap w (op_par w))) = Raise e ->
    snd (init_curve_fit sims experiments simulations mask w) = Raise e.
  Proof.
    intros M E. rewrite <- residual_sub in E by exact M.
    unfold init_curve_fit, bind, upd_world, lift, get, ret.
    rewrite (matching_x _ _ _ M). cbv beta iota. rewrite (matching_y _ _ _ M). cbv beta iota. cbn [heap op_par set_y set_x set_f].
    fold xs ys fs. destruct (eval_all fs xs (elements (heap w (op_par w)))) as [f0|e']; cbn [rbind] in E; cbv beta iota; [|injection E as ->; reflexivity].
    rewrite (ys_cat M). cbv beta iota. rewrite E. reflexivity.
  Qed.

  (** The call of scipy. *)
  Definition handed_f : Callable := concatenate_f fs xs.
  Lemma handed p : matching experiments simulations mask ->
    scipy_residuals handed_f (List.concat xs) (List.concat ys) p = all_residuals ts p.
  Proof. intro M. unfold scipy_residuals, handed_f, concatenate_f. apply residual_sub; auto. Qed.
  Lemma ccf scipy p0 : matching experiments simulations mask ->
    concatenate_curve_fit scipy fs xs ys p0 = scipy handed_f (List.concat xs) (List.concat ys) p0.
  Proof. intro M. unfold concatenate_curve_fit. rewrite (xs_cat M), (ys_cat M). reflexivity. Qed.

  (** *** The copies to the simulations *)
  Definition settled (w : World) : Prop := forall i, In i simulations -> sim_par w i = op_par w.
  Lemma copy_ok l w : (forall i, In i l -> sim_par w i = op_par w) ->
    (exists v, heap w (op_par w) = FloatArray v \/ heap w (op_par w) = ListObj v) ->
    copy_parameters l w = (w, Ok tt).
  Proof.
    intros S HT. induction l as [|i l IH]; [reflexivity|].
    cbn [copy_parameters]. unfold bind, get, lift, upd_world. rewrite (S i (or_introl eq_refl)).
    assert (E : setitem_all (heap w (op_par w)) (elements (heap w (op_par w))) = Ok (heap w (op_par w))).
    { destruct HT as [v [-> | ->]]; cbn [setitem_all elements]; [|reflexivity].
      unfold assign_all. rewrite Nat.eqb_refl, map_id. reflexivity. }
    rewrite E. cbv beta iota.
    assert (Q : set_heap (op_par w) (heap w (op_par w)) w = w).
    { unfold set_heap. destruct w as [h sp op f x y er rs]; cbn. f_equal. apply functional_extensionality; intro k. unfold upd.
      destruct (Nat.eqb_spec k op); [subst; reflexivity|reflexivity]. }
    rewrite Q. apply IH. intros j I; apply S; right; auto.
  Qed.

  Definition float_like (s : Seq) : Prop := exists v, s = FloatArray v \/ s = ListObj v.
  Definition retype (s : Seq) (v : list R) : Seq := match s with FloatArray _ => FloatArray v | _ => ListObj v end.
  Definition fit_world (w : World) (popt : list R) (pcov : list (list Ext)) (r : list R) : World :=
    {| heap := upd (heap w) (op_par w) (retype (heap w (op_par w)) popt);
       sim_par := fun i => if existsb (Nat.eqb i) simulations then op_par w else sim_par w i;
       op_par := op_par w; op_f := Some simulations; op_x := Some xs; op_y := Some ys;
       op_errors := Some (map sqrt_ext (np_diag pcov)); op_residuals := Some r |}.
  Lemma existsb_in i l : existsb (Nat.eqb i) l = true <-> In i l.
  Proof.
    rewrite existsb_exists. split; [intros (x & I & E); apply Nat.eqb_eq in E; subst; auto|]. intro I. exists i. split; [auto|apply Nat.eqb_refl].
  Qed.
  Lemma diag_length i rows : List.length (diag_from i rows) = List.length rows.
  Proof. revert i; induction rows; intro i; cbn; auto. Qed.
  Lemma assign_eq {A} (a : list A) b : List.length a = List.length b -> assign_all (fun v => v) a b = Ok b.
  Proof. intro H. unfold assign_all. rewrite H, Nat.eqb_refl, map_id. reflexivity. Qed.
  Lemma upd_same {A} (f : nat -> A) k v : upd f k v k = v.
  Proof. unfold upd. rewrite Nat.eqb_refl. reflexivity. Qed.
  Lemma all_length t p r : all_residuals t p = Ok r -> List.length r = List.length (List.concat (map (fun t : Term => snd t) t)).
  Proof.
    unfold all_residuals. revert r. induction t as [|a t IH]; intros r; cbn [map_r map List.concat]; [cbn; intro E; injection E as <-; reflexivity|].
    unfold term_residuals at 1. destruct (stress_curve_fit _ _ p) as [f|] eqn:E; cbn [rbind]; [|discriminate]. apply scf_length in E.
    destruct (map_r _ t) as [l|]; cbn [rbind]; [|discriminate]. intro X; injection X as <-. cbn [List.concat]. rewrite !app_length, (IH _ eq_refl).
    rewrite map_length, combine_length, map_length, E, map_length. lia.
  Qed.
  Lemma eval_raise p e : matching experiments simulations mask -> all_residuals ts p = Raise e -> eval_all fs xs p = Raise e.
  Proof.
    intros M E. rewrite <- blocks in E. rewrite (eval_cat p M). pose proof (blocks ts p) as B.
    destruct (map_r (fun t : Term => stress_curve_fit (fst t) (map fst (snd t)) p) ts) as [l|e'] eqn:El; cbn [rbind] in *; [|congruence].
    exfalso. assert (L : List.length (List.concat l) = List.length (List.concat (map (fun t : Term => map snd (snd t)) ts))).
    { clear -El. revert l El. induction ts as [|t r IH]; intros l El; cbn [map_r] in El; [injection El as <-; reflexivity|].
      destruct (stress_curve_fit _ _ p) as [f|] eqn:Ef; cbn [rbind] in El; [|discriminate]. apply scf_length in Ef.
      destruct (map_r _ r) as [l'|]; cbn [rbind] in El; [|discriminate]. injection El as <-. cbn [map List.concat]. rewrite !app_length, (IH _ eq_refl).
      rewrite Ef, !map_length. reflexivity. }
    rewrite np_sub_eq in E by exact L. discriminate.
  Qed.
  Lemma eval_fine p r : matching experiments simulations mask -> all_residuals ts p = Ok r ->
    exists f, eval_all fs xs p = Ok f /\ np_sub f (List.concat ys) = Ok r.
  Proof.
    intros M E. rewrite <- residual_sub in E by exact M. destruct (eval_all fs xs p) as [f|]; cbn [rbind] in E; [|discriminate]. eauto.
  Qed.
  (** Everything that can happen after the initial residuals were computed. *)
  Section Fit.
    Context (scipy : Scipy) (w : World) (r0 : list R) (M : matching experiments simulations mask)
      (E0 : all_residuals ts (elements (heap w (op_par w))) = Ok r0).
    Let outcome_of_scipy := scipy handed_f (List.concat xs) (List.concat ys) (elements (heap w (op_par w))).
    Lemma fit_scipy_raises e : outcome_of_scipy = Raise e ->
      curve_fit sims experiments simulations mask scipy w = (fits_world w r0, Raise e).
    Proof.
      intro Es. unfold curve_fit, bind, get, lift. rewrite (init_ok w r0 M E0). cbv beta iota.
      cbn [fits_world op_f op_x op_y op_par heap attr ret]. fold fs. rewrite (ccf scipy _ M). unfold outcome_of_scipy in Es. rewrite Es. reflexivity.
    Qed.
    Lemma fit_eval_raises popt pcov e : outcome_of_scipy = Ok (popt, pcov) -> all_residuals ts popt = Raise e ->
      curve_fit sims experiments simulations mask scipy w = (fits_world w r0, Raise e).
    Proof.
      intros Es Er. apply (eval_raise _ _ M) in Er. unfold curve_fit, bind, get, lift. rewrite (init_ok w r0 M E0). cbv beta iota.
      cbn [fits_world op_f op_x op_y op_par heap attr ret]. fold fs. rewrite (ccf scipy _ M). unfold outcome_of_scipy in Es. rewrite Es. cbv beta iota.
      rewrite Er. reflexivity.
    Qed.
    Lemma fit_set_raises popt pcov r e : outcome_of_scipy = Ok (popt, pcov) -> all_residuals ts popt = Ok r ->
      setitem_all (heap w (op_par w)) popt = Raise e ->
      curve_fit sims experiments simulations mask scipy w = (fits_world w r0, Raise e).
    Proof.
      intros Es Er St. destruct (eval_fine _ _ M Er) as (f & Ef & Er'). unfold curve_fit, bind, get, lift. rewrite (init_ok w r0 M E0). cbv beta iota.
      cbn [fits_world op_f op_x op_y op_par heap attr ret]. fold fs. rewrite (ccf scipy _ M). unfold outcome_of_scipy in Es. rewrite Es. cbv beta iota.
      rewrite Ef. cbv beta iota. rewrite St. reflexivity.
    Qed.
    (** After the assignment of the parameters. *)
    Definition done (v : Seq) (pcov : list (list Ext)) (r : list R) : World :=
      {| heap := upd (heap w) (op_par w) v;
         sim_par := fun i => if existsb (Nat.eqb i) simulations then op_par w else sim_par w i;
         op_par := op_par w; op_f := Some simulations; op_x := Some xs; op_y := Some ys;
         op_errors := Some (map sqrt_ext (np_diag pcov)); op_residuals := Some r |}.
    Lemma fit_sets popt pcov r v : outcome_of_scipy = Ok (popt, pcov) -> all_residuals ts popt = Ok r ->
      setitem_all (heap w (op_par w)) popt = Ok v ->
      List.length pcov = List.length (elements (heap w (op_par w))) ->
      curve_fit sims experiments simulations mask scipy w =
      match copy_parameters simulations (done v pcov r) with (w', Ok _) => (w', Ok (op_par w, pcov)) | (w', Raise e) => (w', Raise e) end.
    Proof.
      intros Es Er St L. destruct (eval_fine _ _ M Er) as (f & Ef & Er'). unfold curve_fit, bind at 1. rewrite (init_ok w r0 M E0).
      unfold bind at 1, get at 1, lift at 1.
      cbn [fits_world op_f op_x op_y op_par heap attr]. unfold ret at 1 2 3. unfold bind at 1 2 3 4. fold fs. rewrite (ccf scipy _ M). unfold outcome_of_scipy in Es. rewrite Es. cbv beta iota.
      unfold bind at 1, lift at 1. rewrite Ef. unfold bind at 1, lift at 1. rewrite St. unfold upd_world, bind at 1 2, set_heap.
      cbn [fits_world op_f op_x op_y op_par heap attr op_errors op_residuals sim_par]. unfold ret at 1.
      unfold bind at 1, lift at 1. rewrite assign_eq by (rewrite !map_length; unfold np_diag; rewrite diag_length; auto).
      unfold bind at 1, set_errors, bind at 1, ret at 1.
      cbn [fits_world op_f op_x op_y op_par heap attr op_errors op_residuals sim_par].
      unfold bind at 1, lift at 1. rewrite (ys_cat M). unfold bind at 1, lift at 1. rewrite Er'. unfold bind at 1, lift at 1.
      rewrite assign_eq by (rewrite (all_length _ _ _ E0), (all_length _ _ _ Er); reflexivity).
      unfold bind at 1, set_residuals. cbn [fits_world op_f op_x op_y op_par heap attr op_errors op_residuals sim_par].
      unfold bind, ret. fold (done v pcov r). reflexivity.
    Qed.
  End Fit.
End Opt.
