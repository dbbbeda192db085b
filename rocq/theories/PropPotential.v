(** * Property C77 (equilibria and the total potential energy). *)
From Coq Require Import Reals Lra Lia List FunctionalExtensionality.
From Coquelicot Require Import Coquelicot.
From Verif Require Import Tensor Py Voigt Algebra Calc Models Frameworks Spaces Spec ModelProofs GenProofs EigCore Spectral InvProofs
  SpaceCore NewtonSpec NewtonLin NewtonProofs PotentialSpec PotentialProofs PropInvariants PropSpaces PropEnd PropNewton.
Import ListNotations.
Local Open Scope R_scope.

(** ** C77 *)
(** The assembled residual is the gradient of the potential, so equilibria are its stationary points. *)
Theorem C77_residual : forall n body load u w r,
  List.Forall (fun x => energy_of (q_material (fst x)) (snd x)) body -> List.Forall (fun q => invertible (deformed n u q)) (points body) ->
  residual n (points body) load u r -> is_derive (fun t => potential n body load (step u t w)) 0 (sumn n (fun a => r a * w a)).
Proof. exact (fun n body load u w r => potential_D n load body u w r). Qed.
Print Assumptions C77_residual.
Theorem C77_stationary : forall n body load u,
  List.Forall (fun x => energy_of (q_material (fst x)) (snd x)) body -> List.Forall (fun q => invertible (deformed n u q)) (points body) ->
  (exists r, residual n (points body) load u r) ->
  (equilibrium n (points body) load u <-> forall w, is_derive (fun t => potential n body load (step u t w)) 0 0).
Proof.
  intros n body load u HE HI (r & HR). split.
  - intros (r0 & HR0 & Z) w. eapply D_eq; [exact (potential_D n load body u w r0 HE HI HR0)|]. apply sumn_0. intros a La. rewrite (Z a La). ring.
  - intro H. exists r. split; [exact HR|]. intros a La. set (w := fun b => if Nat.eqb b a then 1 else 0).
    rewrite <- (D_unique _ _ _ _ (potential_D n load body u w r HE HI HR) (H w)), <- (sumn_delta n r a La).
    apply sumn_ext. intros b _. unfold w. destruct (Nat.eqb b a); ring.
Qed.
Print Assumptions C77_stationary.

(** The assembled stiffness matrix is symmetric. *)
Theorem C77_symmetric : forall n body u K, List.Forall (fun q => symmetric_tangent (q_material q)) body -> stiffness n body u K ->
  forall a b, (a < n)%nat -> (b < n)%nat -> K a b = K b a.
Proof.
  intros n body u K HS (As & HA & HK) a b La Lb. rewrite (HK a b La Lb), (HK b a Lb La). clear HK K.
  revert As HA. induction HS as [|q body Hq _ IH]; intros As HA; inversion HA as [|q' A qs' As' H1 H2]; subst; [reflexivity|].
  cbn [combine map fold_right fst snd]. f_equal; [|exact (IH As' H2)]. f_equal.
  pose proof (Hq _ _ H1) as M. unfold dc22, dc42.
  assert (E : forall i j, sum3 (fun k => sum3 (fun l => A i j k l * q_shape q b k l)) = sum3 (fun k => sum3 (fun l => A k l i j * q_shape q b k l))).
  { intros. unfold sum3. rewrite !(M i j). reflexivity. }
  unfold sum3 at 1 2. rewrite !E. unfold sum3. ring.
Qed.
Print Assumptions C77_symmetric.

(** An equilibrium with a positive definite stiffness matrix is a strict local minimum of the potential (which
    grows quadratically), there is no other equilibrium nearby and Newton's method converges to it. *)
Theorem C77_stable : forall n body load us,
  List.Forall (fun q => smooth_at (q_material q) (deformed n us q)) (points body) ->
  List.Forall (fun x => energy_of (q_material (fst x)) (snd x)) body -> List.Forall (fun q => invertible (deformed n us q)) (points body) ->
  equilibrium n (points body) load us -> stable n body us ->
  strict_minimum n body load us /\ isolated n body load us /\ newton_converges n (points body) load us.
Proof.
  intros n body load us HS HE HI EQ ST. assert (RS : regular_stiffness n (points body) us).
  { destruct ST as (K & HK & HP). exists K. split; [exact HK|]. exact (pd_injective n K HP). }
  split; [exact (stable_minimum n load body us HS HE HI EQ ST)|]. split; [exact (isolated_equilibrium n body load us HS EQ RS)|exact (newton_main n _ load us HS EQ RS)].
Qed.
Print Assumptions C77_stable.
(** Conversely every local minimum is an equilibrium with a positive semidefinite stiffness matrix. *)
Theorem C77_necessary : forall n body load us,
  List.Forall (fun q => smooth_at (q_material q) (deformed n us q)) (points body) ->
  List.Forall (fun x => energy_of (q_material (fst x)) (snd x)) body -> List.Forall (fun q => invertible (deformed n us q)) (points body) ->
  local_minimum n body load us ->
  equilibrium n (points body) load us /\ forall K, stiffness n (points body) us K -> forall w, 0 <= quad n K w.
Proof. exact (fun n body load us => minimum_necessary n load body us). Qed.
Print Assumptions C77_necessary.
(** Every regular equilibrium is isolated. *)
Theorem C77_isolated : forall n body load us,
  List.Forall (fun q => smooth_at (q_material q) (deformed n us q)) (points body) ->
  equilibrium n (points body) load us -> regular_stiffness n (points body) us -> isolated n body load us.
Proof. exact isolated_equilibrium. Qed.
Print Assumptions C77_isolated.

(** Wherever the stiffness matrix is positive definite the Newton direction lowers the potential. *)
Theorem C77_descent : forall n body load u v,
  List.Forall (fun x => energy_of (q_material (fst x)) (snd x)) body -> List.Forall (fun q => invertible (deformed n u q)) (points body) ->
  (forall K, stiffness n (points body) u K -> positive_definite n K) -> newton_step n (points body) load u v ->
  equilibrium n (points body) load u \/
  exists l, l < 0 /\ is_derive (fun t => potential n body load (step u t (fun a => v a - u a))) 0 l.
Proof.
  intros n body load u v HE HI HP (r & K & HR & HK & HN). set (w := fun a => v a - u a).
  assert (E : sumn n (fun a => r a * w a) = - quad n K w).
  { rewrite quad_mv. replace (- sumn n (fun a => w a * mv n K w a)) with (-1 * sumn n (fun a => w a * mv n K w a)) by ring. rewrite <- sumn_scal.
    apply sumn_ext. intros a La. specialize (HN a La). change (mv n K w a = - r a) in HN. rewrite HN. ring. }
  destruct (max_entry n w) as (e & He & Hw & [->|(a & La & Ea)]).
  - left. exists r. split; [exact HR|]. intros a La. specialize (HN a La). rewrite sumn_0 in HN; [lra|]. intros b Lb.
    specialize (Hw b Lb). destruct (Req_dec (w b) 0) as [Z|N]; [unfold w in Z; rewrite Z; ring|]. apply Rabs_no_R0 in N. pose proof (Rabs_pos (w b)). lra.
  - destruct (Req_dec e 0) as [->|Ne].
    + left. exists r. split; [exact HR|]. intros c Lc. specialize (HN c Lc). rewrite sumn_0 in HN; [lra|]. intros b Lb.
      specialize (Hw b Lb). destruct (Req_dec (w b) 0) as [Z|N]; [unfold w in Z; rewrite Z; ring|]. apply Rabs_no_R0 in N. pose proof (Rabs_pos (w b)). lra.
    + right. exists (- quad n K w). split.
      * assert (0 < quad n K w); [|lra]. apply (HP K HK). exists a. split; [exact La|]. intro Z. rewrite Z, Rabs_R0 in Ea. lra.
      * rewrite <- E. apply potential_D; auto.
Qed.
Print Assumptions C77_descent.

(** The energies and the symmetry of the library's materials. *)
Lemma grad_energy {SV} k (fw : Framework SV) sv W : sp_gradient_of (sp_gradient k fw default_opts) W invertible -> energy_of (material k fw sv) W.
Proof.
  intros HG F H P N (s & svn & E). pose proof (NewtonCalm.along_D F H 0) as HD.
  assert (N0 : invertible (along F H 0)) by (rewrite along_0; exact N).
  destruct (HG (along F H) 0 H HD N0 sv s) as (P' & svn' & (s' & E') & D). rewrite along_0 in E'.
  unfold outcome in E. rewrite E' in E. injection E as -> _. exact D.
Qed.
Lemma ogden_psi_fold mu alpha W : stretch_energy (ogden_psi mu alpha) W -> ogden_energy mu alpha W.
Proof.
  intros H C w v L. rewrite (H C w v L). unfold ogden_psi. induction (combine mu alpha) as [|t l IH]; [reflexivity|].
  cbn [map fold_right]. rewrite IH. reflexivity.
Qed.
Theorem C77_library_energy : forall lapack M psi, lapack_legal lapack -> library_energy lapack M psi -> energy_of M psi.
Proof.
  intros lapack M psi HL H. destruct H; apply grad_energy.
  - intros F t0 dF HF N. refine (C25_stress unit _ (fun C => tod_energy m (invariants C)) invertible _ F t0 dF HF (cg_inv _ N)).
    intros C t1 dC S HC NC. exact (inv_fw_grad _ _ _ (tod_grad m) C t1 dC S HC (conj NC Logic.I)).
  - intros F t0 dF HF N. refine (C30_stress unit _ (fun C => tod_energy m (invariants C)) invertible _ F t0 dF HF (conj N (dist_inv _ N))).
    intros C t1 dC S HC NC. exact (inv_fw_grad _ _ _ (tod_grad m) C t1 dC S HC (conj NC Logic.I)).
  - exact (proj1 (C33_neo_hooke c)).
  - apply (C25_ogden unit lapack); auto. apply ogden_psi_fold. assumption.
  - apply (C30_ogden unit lapack); auto. apply ogden_psi_fold. assumption.
  - eapply (C25_generalized unit lapack (tod_model m) fs c E E' E'' (tod_energy m)); eauto. apply tod_grad.
  - eapply (C30_generalized unit lapack (tod_model m) fs c E E' E'' (tod_energy m)); eauto. apply tod_grad.
Qed.
Print Assumptions C77_library_energy.
Theorem C77_library_symmetric : forall lapack M F, library_point lapack M F -> symmetric_tangent M.
Proof.
  intros lapack M F H. destruct H; intros G A (s0 & EA); eapply C27_spaces; try exact EA; first [apply C27_invariants|apply C27_stretches].
Qed.
Print Assumptions C77_library_symmetric.

(** A body of any mix of the library's materials. *)
Theorem C77_library : forall lapack n body load us, lapack_legal lapack ->
  List.Forall (fun x => invertible (deformed n us (fst x)) /\ library_point lapack (q_material (fst x)) (deformed n us (fst x)) /\
                        library_energy lapack (q_material (fst x)) (snd x)) body ->
  (equilibrium n (points body) load us -> stable n body us ->
     strict_minimum n body load us /\ isolated n body load us /\ newton_converges n (points body) load us) /\
  (local_minimum n body load us -> equilibrium n (points body) load us /\
     forall K, stiffness n (points body) us K -> (forall a b, (a < n)%nat -> (b < n)%nat -> K a b = K b a) /\ forall w, 0 <= quad n K w).
Proof.
  intros lapack n body load us HL HB.
  assert (HE : List.Forall (fun x => energy_of (q_material (fst x)) (snd x)) body).
  { revert HB. apply Forall_impl. intros x (_ & _ & H). exact (C77_library_energy lapack _ _ HL H). }
  assert (HP : List.Forall (fun q => invertible (deformed n us q) /\ library_point lapack (q_material q) (deformed n us q)) (points body)).
  { unfold points. apply Forall_map. revert HB. apply Forall_impl. intros x (H1 & H2 & _). split; auto. }
  assert (HI : List.Forall (fun q => invertible (deformed n us q)) (points body)) by (revert HP; apply Forall_impl; intros q H; apply H).
  assert (HS : List.Forall (fun q => smooth_at (q_material q) (deformed n us q)) (points body)).
  { revert HP. apply Forall_impl. intros q (N & H). exact (C76_library_point lapack _ _ HL N H). }
  split.
  - intros EQ ST. exact (C77_stable n body load us HS HE HI EQ ST).
  - intros LM. destruct (C77_necessary n body load us HS HE HI LM) as [EQ Q]. split; [exact EQ|]. intros K HK. split; [|exact (Q K HK)].
    apply (C77_symmetric n (points body) us K); [|exact HK]. revert HP. apply Forall_impl. intros q (_ & H). exact (C77_library_symmetric _ _ _ H).
Qed.
Print Assumptions C77_library.

(** The bar of C76_example: psi = (I1 - 3)^2 at F = diag(2, 1, 1) under the load 24. *)
Definition bar_body : list (QPoint * (T2 -> R)) := [(bar, fun F => (inv1 (cauchy_green F) - 3) ^ 2)].
Lemma bar_energy : library_energy lapack0 (q_material bar) (fun F => (inv1 (cauchy_green F) - 3) ^ 2).
Proof.
  replace (fun F => (inv1 (cauchy_green F) - 3) ^ 2) with
    (fun F => let C := cauchy_green F in tod_psi (tod_init 0 0 0 1 0 false) (inv1 C) (inv2 C)).
  - exact (en_tod lapack0 (tod_init 0 0 0 1 0 false)).
  - extensionality F. unfold tod_psi; cbn. ring.
Qed.
Example C77_example :
  List.Forall (fun x => invertible (deformed 1 (fun _ => 1) (fst x)) /\ library_point lapack0 (q_material (fst x)) (deformed 1 (fun _ => 1) (fst x)) /\
     library_energy lapack0 (q_material (fst x)) (snd x)) bar_body /\
  equilibrium 1 (points bar_body) (fun _ => 24) (fun _ => 1) /\ stable 1 bar_body (fun _ => 1) /\
  strict_minimum 1 bar_body (fun _ => 24) (fun _ => 1) /\ local_minimum 1 bar_body (fun _ => 24) (fun _ => 1).
Proof.
  destruct C76_example as (H1 & H2 & H3 & _).
  assert (HB : List.Forall (fun x => invertible (deformed 1 (fun _ => 1) (fst x)) /\ library_point lapack0 (q_material (fst x)) (deformed 1 (fun _ => 1) (fst x)) /\
     library_energy lapack0 (q_material (fst x)) (snd x)) bar_body).
  { constructor; [|constructor]. inversion H1 as [|x l [N L] _]; subst. split; [exact N|]. split; [exact L|exact bar_energy]. }
  assert (ST : stable 1 bar_body (fun _ => 1)).
  { destruct bar_stiffness as (K & HK & E). exists K. split; [exact HK|]. intros w (a & La & Nw). unfold quad. cbn [sumn].
    replace a with 0%nat in Nw by lia. rewrite E. assert (0 < w 0%nat ^ 2) by (apply pow2_gt_0; exact Nw). nra. }
  destruct (C77_library lapack0 1 bar_body (fun _ => 24) (fun _ => 1) lapack0_legal HB) as [Q _].
  destruct (Q H2 ST) as (S1 & _ & _).
  split; [exact HB|]. split; [exact H2|]. split; [exact ST|]. split; [exact S1|].
  destruct S1 as (r & c & Hr & Hc & HM). exists r. split; [exact Hr|]. intros u Hu. specialize (HM u Hu 0%nat ltac:(lia)).
  pose proof (pow2_ge_0 (u 0%nat - 1)). nra.
Qed.
