(** Fits of simulated curves that are linear in the parameters (C73). *)
From Coq Require Import Reals Lra Lia List String Psatz.
From Verif Require Import Tensor Py Models Spec Lab LabSpec LabMech LabCurves LabFit CurveProofs CurveSpec LsqSpec LsqProofs FitSpec PropLab.
Import ListNotations.
Local Open Scope R_scope.

Lemma comb_mix t p q : mix t p q = comb (1 - t) p t q.
Proof. reflexivity. Qed.
Lemma comb_length a p b q : List.length p = List.length q -> List.length (comb a p b q) = List.length p.
Proof. intro L. unfold comb. rewrite map_length, combine_length, L. apply Nat.min_id. Qed.
Lemma comb_app a b p q r s : List.length p = List.length q -> comb a (p ++ r) b (q ++ s) = comb a p b q ++ comb a r b s.
Proof.
  revert q; induction p as [|x p IH]; intros [|y q] L; cbn in L; try discriminate; [reflexivity|].
  unfold comb in *. cbn. f_equal. apply IH. lia.
Qed.
(** Lists of exactly n numbers. *)
Definition resize (n : nat) (p : list R) : list R := map (fun i => nth i p 0) (seq 0 n).
Lemma resize_length n p : List.length (resize n p) = n.
Proof. unfold resize. rewrite map_length, seq_length. reflexivity. Qed.
Lemma resize_id p : resize (List.length p) p = p.
Proof.
  unfold resize. induction p as [|x p IH]; [reflexivity|]. cbn [List.length seq map nth]. f_equal.
  rewrite <- seq_shift, map_map. cbn [nth]. exact IH.
Qed.
Lemma nth_mix t p q i : List.length p = List.length q -> nth i (mix t p q) 0 = (1 - t) * nth i p 0 + t * nth i q 0.
Proof.
  revert q i; induction p as [|x p IH]; intros [|y q] i L; cbn in L; try discriminate.
  - destruct i; cbn; ring.
  - destruct i as [|i]; [reflexivity|]. exact (IH q i ltac:(lia)).
Qed.
Lemma resize_mix n t p q : List.length p = List.length q -> resize n (mix t p q) = mix t (resize n p) (resize n q).
Proof.
  intro L. unfold resize. generalize (seq 0 n) as l. induction l as [|i l IH]; [reflexivity|].
  cbn [map]. rewrite mix_cons. f_equal; [|exact IH]. apply nth_mix; exact L.
Qed.

Definition sub (y d : list R) : list R := map (fun z => fst z - snd z) (combine y d).
Lemma sub_app a b c d : List.length a = List.length c -> sub (a ++ b) (c ++ d) = sub a c ++ sub b d.
Proof.
  revert c; induction a as [|x a IH]; intros [|y c] L; cbn in L; try discriminate; [reflexivity|].
  unfold sub in *. cbn. f_equal. apply IH. lia.
Qed.
Lemma sub_mix t y z d : List.length y = List.length d -> List.length z = List.length d ->
  sub (comb (1 - t) y t z) d = mix t (sub y d) (sub z d).
Proof.
  revert y z; induction d as [|e d IH]; intros [|a y] [|b z] L1 L2; cbn in L1, L2; try discriminate; [reflexivity|].
  unfold sub, mix, comb in *. cbn. f_equal; [ring|]. apply IH; lia.
Qed.
Lemma sub_length y d : List.length y = List.length d -> List.length (sub y d) = List.length d.
Proof. intro L. unfold sub. rewrite map_length, combine_length, L. apply Nat.min_id. Qed.

(** The terms with other data. *)
Definition redata (f : R -> R) (ts : list Term) : list Term := map (fun t => (fst t, map (fun z => (fst z, f (snd z))) (snd t))) ts.
Definition data (ts : list Term) : list R := List.concat (map (fun t => map snd (snd t)) ts).
Lemma redata_id ts : redata (fun x => x) ts = ts.
Proof.
  unfold redata. induction ts as [|[s l] ts IH]; [reflexivity|]. cbn [map fst snd]. rewrite IH. do 2 f_equal.
  rewrite <- (map_id l) at 2. apply map_ext. intros []; reflexivity.
Qed.
Lemma data_redata f ts : data (redata f ts) = map f (data ts).
Proof.
  unfold data, redata. induction ts as [|[s l] ts IH]; [reflexivity|]. cbn [map fst snd List.concat]. rewrite IH, map_app, !map_map. reflexivity.
Qed.
(** *** The simulated values *)
Lemma whole_simulated n ts : List.Forall (linear_in_parameters n) ts -> exists cv : list R -> list R,
  (forall p, List.length p = n -> simulated ts p = Ok (cv p)) /\
  (forall f p, List.length p = n -> all_residuals (redata f ts) p = Ok (sub (cv p) (map f (data ts)))) /\
  (forall p, List.length p = n -> List.length (cv p) = List.length (data ts)) /\
  (forall a p b q, List.length p = n -> List.length q = n -> cv (comb a p b q) = comb a (cv p) b (cv q)).
Proof.
  induction 1 as [|[sim l] ts Ht Hts (cv & E0 & E & HL & HA)].
  - exists (fun _ => []). repeat split; reflexivity.
  - pose (c := fun p => match stress_curve_fit sim (map fst l) p with Ok y => y | Raise _ => [] end).
    unfold linear_in_parameters, linear_curve in Ht. cbn [fst snd] in Ht.
    assert (C : forall p, List.length p = n -> stress_curve_fit sim (map fst l) p = Ok (c p) /\ List.length (c p) = List.length l).
    { intros p Lp. destruct (Ht p p 1 0 Lp Lp) as (y & z & Ey & _ & Ly & _). unfold c. rewrite Ey. split; [reflexivity|]. rewrite Ly, map_length. reflexivity. }
    exists (fun p => c p ++ cv p). split; [|split; [|split]].
    + intros p Lp. specialize (E0 p Lp). unfold simulated in *. cbn [map_r fst snd]. rewrite (proj1 (C p Lp)). cbn [rbind].
      destruct (map_r (fun t => stress_curve_fit (fst t) (map fst (snd t)) p) ts) as [rs|]; cbn [rbind] in *; [|discriminate]. injection E0 as E0. cbn [List.concat]. rewrite E0. reflexivity.
    + intros f p Lp. specialize (E f p Lp). unfold all_residuals in *. unfold redata at 1. cbn [map map_r fst snd].
      unfold term_residuals at 1. cbn [fst snd]. rewrite !map_map. cbn [fst snd].
      replace (map (fun x : R * R => fst x) l) with (map fst l) by reflexivity.
      rewrite (proj1 (C p Lp)). cbn [rbind]. fold (redata f ts).
      destruct (map_r (fun t => term_residuals t p) (redata f ts)) as [rs|] eqn:El; cbn [rbind] in *; [|discriminate]. injection E as E.
      cbn [List.concat]. rewrite E. unfold data. cbn [map List.concat snd]. fold (data ts). rewrite map_app, sub_app, map_map; [reflexivity|].
      rewrite !map_length. apply (C p Lp).
    + intros p Lp. rewrite app_length, (proj2 (C p Lp)), (HL p Lp). unfold data. cbn [map List.concat snd]. rewrite app_length, map_length. reflexivity.
    + intros a p b q Lp Lq. rewrite HA by auto. rewrite comb_app by (rewrite (proj2 (C p Lp)), (proj2 (C q Lq)); reflexivity). f_equal.
      destruct (Ht p q a b Lp Lq) as (y & z & Ey & Ez & _ & _ & Ec). unfold c. rewrite Ec, Ey, Ez. reflexivity.
Qed.
(** The residuals as a function of lists of any length, to use the lemmas of LsqProofs. *)
Lemma whole_residuals n ts : List.Forall (linear_in_parameters n) ts -> exists res : list R -> list R,
  (forall p, List.length p = n -> all_residuals ts p = Ok (res p)) /\
  (forall p q, List.length p = List.length q -> List.length (res p) = List.length (res q)) /\
  (forall p q t, List.length p = List.length q -> res (mix t p q) = mix t (res p) (res q)).
Proof.
  intro H. destruct (whole_simulated n ts H) as (cv & _ & E & HL & HA).
  exists (fun p => sub (cv (resize n p)) (data ts)). split; [|split].
  - intros p Lp. specialize (E (fun x => x) p Lp). rewrite redata_id, map_id in E. rewrite E. rewrite <- Lp, resize_id. reflexivity.
  - intros p q _. rewrite !sub_length; [reflexivity| |]; apply HL, resize_length.
  - intros p q t L. rewrite resize_mix by exact L. rewrite comb_mix, HA by apply resize_length.
    apply sub_mix; apply HL, resize_length.
Qed.
Lemma squares_inner a p b q : List.length p = List.length q ->
  sum_squares (comb a p b q) = a ^ 2 * sum_squares p + 2 * a * b * inner p q + b ^ 2 * sum_squares q.
Proof.
  revert q; induction p as [|x p IH]; intros [|y q] L; cbn in L; try discriminate; [cbn; ring|].
  specialize (IH q ltac:(lia)). unfold comb, inner, sum_squares in *. cbn -[pow] in *. rewrite IH. ring.
Qed.
Lemma sub_comb y b z d : List.length y = List.length d -> List.length z = List.length d -> sub (comb 1 y b z) d = comb 1 (sub y d) b z.
Proof.
  revert y z; induction d as [|e d IH]; intros [|u y] [|v z] L1 L2; cbn in L1, L2; try discriminate; [reflexivity|].
  unfold sub, comb in *. cbn. f_equal; [ring|]. apply IH; lia.
Qed.
Lemma sub_scale a y d : sub (map (Rmult a) y) (map (Rmult a) d) = map (Rmult a) (sub y d).
Proof.
  revert d; induction y as [|x y IH]; intros [|e d]; try reflexivity. unfold sub in *. cbn. f_equal; [ring|apply IH].
Qed.
Lemma comb_scale a p : comb a p 0 p = map (Rmult a) p.
Proof. unfold comb. induction p as [|x p IH]; [reflexivity|]. cbn. f_equal; [ring|exact IH]. Qed.
Lemma comb_diff p q : List.length p = List.length q -> comb 1 p 1 (comb 1 q (-1) p) = q.
Proof.
  revert q; induction p as [|x p IH]; intros [|y q] L; cbn in L; try discriminate; [reflexivity|].
  unfold comb in *. cbn. f_equal; [ring|]. apply IH; lia.
Qed.
Lemma squares_scale a l : sum_squares (map (Rmult a) l) = a ^ 2 * sum_squares l.
Proof. unfold sum_squares. induction l as [|x l IH]; cbn -[pow]; [ring|]. rewrite IH. ring. Qed.
Lemma inner_sub x y c : List.length x = List.length y -> List.length c = List.length y -> inner (sub x y) c = inner x c - inner y c.
Proof.
  revert x c; induction y as [|b y IH]; intros [|a x] [|e c] L1 L2; cbn in L1, L2; try discriminate; [unfold inner; cbn; ring|].
  specialize (IH x c ltac:(lia) ltac:(lia)). unfold inner, sub in *. cbn in *. rewrite IH. ring.
Qed.
Lemma inner_scale a x c : inner (map (Rmult a) x) c = a * inner x c.
Proof. revert c; induction x as [|b x IH]; intros [|e c]; unfold inner in *; cbn; try ring. rewrite IH. ring. Qed.
Lemma inner_self c : inner c c = sum_squares c.
Proof. unfold inner, sum_squares. induction c as [|x c IH]; cbn -[pow]; [reflexivity|]. rewrite IH. ring. Qed.
Lemma inner_comm x y : inner x y = inner y x.
Proof. revert y; induction x as [|a x IH]; intros [|b y]; unfold inner in *; cbn; try reflexivity. rewrite IH. ring. Qed.
(** *** Another unit of force *)
Lemma points_units a e : points (in_units a e) = match points e with Ok l => Ok (map (fun z => (fst z, a * snd z)) l) | Raise x => Raise x end.
Proof.
  unfold points, experiment_stress, in_units. cbn [ex_force ex_stretch ex_area]. destruct (ex_force e) as [l|l]; cbn [div_data rbind]; [|reflexivity].
  f_equal. rewrite map_map. generalize (ex_stretch e) as xs. induction l as [|y l IH]; intros [|x xs]; try reflexivity.
  cbn [map combine fst snd]. f_equal; [f_equal; unfold Rdiv; ring|apply IH].
Qed.
Lemma chosen_map {A} (g : A -> A) (d : A) m l : g d = d -> chosen d m (map g l) = map g (chosen d m l).
Proof.
  intro G. destruct m as [|b|idx]; cbn [chosen].
  - reflexivity.
  - revert l; induction b as [|x b IH]; intros [|y l]; try reflexivity. cbn. destruct x; cbn; [f_equal|]; apply IH.
  - rewrite map_map. apply map_ext. intro z. rewrite map_length. rewrite <- G at 1. apply map_nth.
Qed.
Lemma terms_units a sims experiments simulations mask :
  terms sims (map (in_units a) experiments) simulations mask = redata (Rmult a) (terms sims experiments simulations mask).
Proof.
  unfold terms, redata. rewrite map_map. revert mask experiments.
  induction simulations as [|i simulations IH]; intros mask experiments; [reflexivity|].
  destruct mask as [|m mask]; [reflexivity|]. destruct experiments as [|e experiments]; [reflexivity|].
  cbn [map combine fst snd]. f_equal; [|exact (IH mask experiments)].
  rewrite points_units. destruct (points e) as [l|x]; [|reflexivity]. f_equal.
  apply (chosen_map (fun z : R * R => (fst z, a * snd z))). cbn. f_equal. ring.
Qed.
Lemma matching_units a experiments simulations mask : matching experiments simulations mask -> matching (map (in_units a) experiments) simulations mask.
Proof.
  intros (N & L1 & L2 & W & F). split; [destruct experiments; [congruence|discriminate]|]. rewrite map_length. split; [exact L1|]. split; [exact L2|].
  split.
  - clear - W. induction W as [|e l (d & f & Hd & Hf & L & L') _ IH]; constructor; [|exact IH].
    exists d, (map (Rmult a) f). unfold in_units. cbn. rewrite Hf, map_length. auto.
  - clear - F. induction F; cbn; constructor; auto.
Qed.
