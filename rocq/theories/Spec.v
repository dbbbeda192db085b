(** * Specification: what it means for a model, a framework and a space to be the
    derivatives of an energy.

    These definitions are the contracts used in the property theorems.  They mention the
    interfaces of Models.v / Frameworks.v / Spaces.v (the calls [gradient], [hessian] and
    their results) and ordinary calculus; they do not mention how anything is computed. *)
From Coq Require Import Reals.
From Coquelicot Require Import Coquelicot.
From Verif Require Import Tensor Py Voigt Models Frameworks Spaces.
Local Open Scope R_scope.

(** A derivative that is [None] counts as zero. *)
Definition val (o : option R) : R := match o with Some x => x | None => 0 end.

(** Documented order of second derivatives: 11, 22, 33, 12, 23, 13. *)
Definition pos (i j : ix3) : ix6 :=
  match i, j with
  | X0, X0 => V0 | X1, X1 => V1 | X2, X2 => V2
  | X0, X1 | X1, X0 => V3 | X1, X2 | X2, X1 => V4 | X0, X2 | X2, X0 => V5
  end.

(** Principal invariants of a symmetric tensor. *)
Definition inv1 (C : T2) : R := tr2 C.
Definition inv2 (C : T2) : R := (tr2 C ^ 2 - tr2 (mmul C C)) / 2.
Definition inv3' (C : T2) : R := det3 C.
Definition invariants (C : T2) : Vec3 := fun k =>
  match k with X0 => inv1 C | X1 => inv2 C | X2 => inv3' C end.

(** Any call of a method starts in some attribute state [s] and ends in some [s']. *)
Definition returns {S A} (call : PY S A) (s : S) (a : A) : Prop := exists s', call s = (s', Ok a).
Definition raises {S A} (call : PY S A) (s : S) (e : exn) : Prop := exists s', call s = (s', Raise e).

(** ** Invariant-based models.  [psi] is a function of (I1, I2, I3). *)
Definition inv_call {SV} (m : InvModel SV) (I : Vec3) (sv : SV) := im_gradient m (I X0) (I X1) (I X2) sv.
Definition inv_callh {SV} (m : InvModel SV) (I : Vec3) (sv : SV) := im_hessian m (I X0) (I X1) (I X2) sv.

Definition opt3 := (option R * option R * option R)%type.
Definition o3 (g : opt3) (k : ix3) : option R :=
  match k with X0 => fst (fst g) | X1 => snd (fst g) | X2 => snd g end.

(** gradient returns the derivative of [psi] along every differentiable path. *)
Definition inv_gradient_of {SV} (m : InvModel SV) (psi : Vec3 -> R) (Dom : Vec3 -> Prop) : Prop :=
  forall (I : R -> Vec3) t0 dI, dcurve3 I t0 dI -> Dom (I t0) ->
  forall sv, exists g svn,
    inv_call m (I t0) sv = Ok (g, svn) /\
    is_derive (fun t => psi (I t)) t0 (sum3 (fun k => val (o3 g k) * dI k)).

(** hessian returns the derivative of the values returned by gradient. *)
Definition inv_hessian_of {SV} (m : InvModel SV) (Dom : Vec3 -> Prop) : Prop :=
  forall (I : R -> Vec3) t0 dI, dcurve3 I t0 dI -> Dom (I t0) ->
  forall sv, exists h,
    inv_callh m (I t0) sv = Ok h /\
    forall (svt : R -> SV) (G : R -> opt3),
      locally t0 (fun t => exists svn, inv_call m (I t) (svt t) = Ok (G t, svn)) ->
      forall k, is_derive (fun t => val (o3 (G t) k)) t0 (sum3 (fun l => val (h (pos k l)) * dI l)).

(** A second derivative is given only if the first derivatives are. *)
Definition none_consistent (g : opt3) (h : ix6 -> option R) : Prop :=
  forall k l, h (pos k l) <> None -> o3 g k <> None /\ o3 g l <> None.

(** ** Stretch-based models.  [psi] is a function of the three principal stretches. *)
Definition str_gradient_of {SV} (m : StretchModel SV) (psi : Vec3 -> R) (Dom : Vec3 -> Prop) : Prop :=
  forall (l : R -> Vec3) t0 dl, dcurve3 l t0 dl -> Dom (l t0) ->
  forall sv s, exists g svn,
    returns (sm_gradient m (l t0) sv) s (g, svn) /\
    is_derive (fun t => psi (l t)) t0 (sum3 (fun k => g k * dl k)).
Definition str_hessian_of {SV} (m : StretchModel SV) (Dom : Vec3 -> Prop) : Prop :=
  forall (l : R -> Vec3) t0 dl, dcurve3 l t0 dl -> Dom (l t0) ->
  forall sv s, exists h,
    returns (sm_hessian m (l t0) sv) s h /\
    forall (svt : R -> SV) (st : R -> sm_self m) (G : R -> Vec3),
      locally t0 (fun t => exists svn, returns (sm_gradient m (l t) (svt t)) (st t) (G t, svn)) ->
      forall k, is_derive (fun t => G t k) t0 (sum3 (fun j => val (h (pos k j)) * dl j)).

(** ** Frameworks.  [W] is a function of the right Cauchy-Green tensor. *)
Definition fw_gradient_of {SV} (fw : Framework SV) (W : T2 -> R) (Dom : T2 -> Prop) : Prop :=
  forall (C : R -> T2) t0 dC, (forall t, sym2 (C t)) -> dcurve2 C t0 dC -> Dom (C t0) ->
  forall sv s, exists g svn,
    returns (fw_gradient fw (asvoigt (C t0)) sv) s (g, svn) /\
    is_derive (fun t => W (C t)) t0 (dc22 (astensor g) dC).
Definition fw_hessian_of {SV} (fw : Framework SV) (Dom : T2 -> Prop) : Prop :=
  forall (C : R -> T2) t0 dC, (forall t, sym2 (C t)) -> dcurve2 C t0 dC -> Dom (C t0) ->
  forall sv s, exists H,
    returns (fw_hessian fw (asvoigt (C t0)) sv) s H /\
    forall (svt : R -> SV) (st : R -> fw_self fw) (G : R -> Vec6),
      locally t0 (fun t => exists svn, returns (fw_gradient fw (asvoigt (C t)) (svt t)) (st t) (G t, svn)) ->
      dcurve2 (fun t => astensor (G t)) t0 (dc42 (astensor4 H) dC).

(** ** Spaces (method results with the options force=None, area=0: first Piola-Kirchhoff
    stress and its tangent).  [W] is a function of the deformation gradient. *)
Definition sp_gradient_of {SV X} (grad : T2 -> SV -> PY X (StressOut * SV)) (W : T2 -> R)
    (Dom : T2 -> Prop) : Prop :=
  forall (F : R -> T2) t0 dF, dcurve2 F t0 dF -> Dom (F t0) ->
  forall sv s, exists P svn,
    returns (grad (F t0) sv) s (StressFull P, svn) /\
    is_derive (fun t => W (F t)) t0 (dc22 P dF).
Definition sp_hessian_of {SV X} (grad : T2 -> SV -> PY X (StressOut * SV))
    (hess : T2 -> SV -> PY X ElastOut) (Dom : T2 -> Prop) : Prop :=
  forall (F : R -> T2) t0 dF, dcurve2 F t0 dF -> Dom (F t0) ->
  forall sv s, exists A,
    returns (hess (F t0) sv) s (ElastFull A) /\
    forall (svt : R -> SV) (st : R -> X) (P : R -> T2),
      locally t0 (fun t => exists svn, returns (grad (F t) (svt t)) (st t) (StressFull (P t), svn)) ->
      dcurve2 P t0 (dc42 A dF).

(** Domains. *)
Definition everywhere {A : Type} (_ : A) : Prop := True.
Definition invertible (A : T2) : Prop := det3 A <> 0.
Definition positive3 (l : Vec3) : Prop := forall a, 0 < l a.

(** ** Generalised strain *)
(** A strain measure: at every positive stretch [fs] returns E, E' and E''. *)
Definition measure_of (fs : R -> Result StrainVal) (E E' E'' : R -> R) : Prop :=
  forall l, 0 < l ->
    (exists s, fs l = Ok s /\ sE s = E l /\ sdE s = E' l /\ sd2E s = E'' l) /\
    is_derive E l (E' l) /\ is_derive E' l (E'' l).

(** psi of the scaled invariants of the generalised strain. *)
Definition gen_invariants (E : R -> R) (c : GenConst) (l : Vec3) : Vec3 := fun k =>
  let e a := E (l a) in
  match k with
  | X0 => gc1 c * (e X0 + e X1 + e X2 - gI10 c) + gI10 c
  | X1 => gc2 c * (e X0 * e X1 + e X1 * e X2 + e X2 * e X0 - gI20 c) + gI20 c
  | X2 => e X0 * e X1 * e X2
  end.

(** A twice differentiable path of principal stretches with product 1 that passes the
    undeformed state at t = 1; [dl] is its first and [ddl] its second derivative. *)
Definition isochoric_path (l dl : R -> Vec3) (ddl : Vec3) : Prop :=
  (forall a, l 1 a = 1) /\
  locally 1 (fun t => dcurve3 l t (dl t)) /\
  dcurve3 dl 1 ddl /\
  locally 1 (fun t => l t X0 * l t X1 * l t X2 = 1).

(** Principal stretches of the three load cases as functions of the stretch, and their
    derivatives. *)
Definition lc_uniaxial (t : R) : Vec3 := fun a => match a with X0 => t | _ => Rpower t (-1/2) end.
Definition lc_planar (t : R) : Vec3 := fun a => match a with X0 => t | X1 => 1 | X2 => Rpower t (-1) end.
Definition lc_biaxial (t : R) : Vec3 := fun a => match a with X2 => Rpower t (-2) | _ => t end.
Definition d_uniaxial (t : R) : Vec3 := fun a => match a with X0 => 1 | _ => -1/2 * Rpower t (-1/2 - 1) end.
Definition d_planar (t : R) : Vec3 := fun a => match a with X0 => 1 | X1 => 0 | X2 => -1 * Rpower t (-1 - 1) end.
Definition d_biaxial (t : R) : Vec3 := fun a => match a with X2 => -2 * Rpower t (-2 - 1) | _ => 1 end.

Definition vec3 (x y z : R) : Vec3 := fun k => match k with X0 => x | X1 => y | X2 => z end.


(** ** LAPACK *)
(** LAPACK's result for the symmetric matrix stored in [a] is legal. *)
Definition lapack_at (lapack : Lapack) (a : Vec6) : Prop :=
  eig_legal (astensor a) (fst (lapack (astensor a))) (snd (lapack (astensor a))).


(** ** Histories (C23).  A call's outcome (value or exception) is the second component. *)
Definition outcome {S A} (call : PY S A) (s : S) : Result A := snd (call s).
Definition after {S A} (call : PY S A) (s : S) : S := fst (call s).

(** The outcome of both methods does not depend on the attributes of the object. *)
Definition stateless_sm {SV} (m : StretchModel SV) : Prop := forall l sv s s',
  outcome (sm_gradient m l sv) s = outcome (sm_gradient m l sv) s' /\
  outcome (sm_hessian m l sv) s = outcome (sm_hessian m l sv) s'.
Definition stateless_fw {SV} (fw : Framework SV) : Prop := forall C sv s s',
  outcome (fw_gradient fw C sv) s = outcome (fw_gradient fw C sv) s' /\
  outcome (fw_hessian fw C sv) s = outcome (fw_hessian fw C sv) s'.

(** Calls on one framework object; calls that raised leave their attributes behind. *)
Inductive FwCall (SV : Type) : Type := FwGrad (C : Vec6) (sv : SV) | FwHess (C : Vec6) (sv : SV).
Arguments FwGrad {SV}. Arguments FwHess {SV}.
Definition fw_step {SV} (fw : Framework SV) (s : fw_self fw) (c : FwCall SV) : fw_self fw :=
  match c with
  | FwGrad C sv => after (fw_gradient fw C sv) s
  | FwHess C sv => after (fw_hessian fw C sv) s
  end.
Definition fw_history {SV} (fw : Framework SV) (calls : list (FwCall SV)) (s : fw_self fw) : fw_self fw :=
  List.fold_left (fw_step fw) calls s.

(** Three space objects (one of each kind) that share one framework object.  A call on
    one of them sees and changes the shared framework's attributes. *)
Inductive SpaceKind := KDeformation | KDistortional | KDilatational.
Definition sp_gradient {SV} (k : SpaceKind) (fw : Framework SV) (o : SpaceOpts) :=
  match k with KDeformation => def_gradient fw o | KDistortional => dis_gradient fw o | KDilatational => dil_gradient fw o end.
Definition sp_hessian {SV} (k : SpaceKind) (fw : Framework SV) (o : SpaceOpts) :=
  match k with KDeformation => def_hessian fw o | KDistortional => dis_hessian fw o | KDilatational => dil_hessian fw o end.
Definition with_mat {X} (x : X) (s : SpaceSelf X) : SpaceSelf X :=
  {| sp_C := sp_C s; sp_I3 := sp_I3 s; sp_Cx := sp_Cx s; sp_Sb := sp_Sb s;
     sp_sc := sp_sc s; sp_invC := sp_invC s; sp_S := sp_S s; sp_mat := x |}.
Inductive SpCall (SV : Type) : Type :=
| SpGrad (k : SpaceKind) (F : T2) (sv : SV) | SpHess (k : SpaceKind) (F : T2) (sv : SV)
| SpFw (c : FwCall SV).
Arguments SpGrad {SV}. Arguments SpHess {SV}. Arguments SpFw {SV}.
(** Attributes of the three space objects and of the shared framework object. *)
Definition Objects {SV} (fw : Framework SV) : Type := ((SpaceKind -> SpaceSelf (fw_self fw)) * fw_self fw)%type.
Definition kind_eqb (a b : SpaceKind) : bool :=
  match a, b with KDeformation, KDeformation | KDistortional, KDistortional | KDilatational, KDilatational => true | _, _ => false end.
(** One method call on the space object of kind [k] with options [o k]. *)
Definition on_space {SV A} {fw : Framework SV} (k : SpaceKind) (f : PY (SpaceSelf (fw_self fw)) A) : PY (Objects fw) A :=
  fun w => let '(s', r) := f (with_mat (snd w) (fst w k)) in
           ((fun k' => if kind_eqb k' k then s' else fst w k', sp_mat s'), r).
Definition sp_step {SV} (fw : Framework SV) (o : SpaceKind -> SpaceOpts) (w : Objects fw) (c : SpCall SV) : Objects fw :=
  match c with
  | SpGrad k F sv => after (on_space k (sp_gradient k fw (o k) F sv)) w
  | SpHess k F sv => after (on_space k (sp_hessian k fw (o k) F sv)) w
  | SpFw c => (fst w, fw_step fw (snd w) c)
  end.
Definition sp_history {SV} (fw : Framework SV) (o : SpaceKind -> SpaceOpts) (calls : list (SpCall SV)) (w : Objects fw) : Objects fw :=
  List.fold_left (sp_step fw o) calls w.

(** ** State variables (C22): the model whose hessian is evaluated at the fixed state
    variables [sv0], whatever it is passed. *)
Definition freeze {SV} (m : InvModel SV) (sv0 : SV) : InvModel SV :=
  {| im_gradient := im_gradient m; im_hessian := fun I1 I2 I3 _ => im_hessian m I1 I2 I3 sv0 |}.
Definition freeze_sm {SV} (m : StretchModel SV) (sv0 : SV) : StretchModel SV :=
  {| sm_self := sm_self m; sm_gradient := sm_gradient m; sm_hessian := fun l _ => sm_hessian m l sv0 |}.

(** A fresh Stretches object around a model object with attributes [ms]. *)
Definition str_self0 {SV} (m : StretchModel SV) (ms : sm_self m) : StrSelf m :=
  {| st_lM := None; st_dWdlC := None; st_model := ms |}.

(** ** Rotations (C17, C24) *)
Definition rot2 (Q A : T2) : T2 := mmul (mmul Q A) (mtr Q).
Definition rot4 (Q : T2) (A : T4) : T4 := fun i j k l =>
  sum3 (fun I => sum3 (fun J => sum3 (fun K => sum3 (fun L => Q i I * Q j J * Q k K * Q l L * A I J K L)))).
(** Apply a function to a successful result. *)
Definition rmap {A B} (f : A -> B) (r : Result A) : Result B :=
  match r with Ok a => Ok (f a) | Raise e => Raise e end.
(** Both methods commute with a rotation of the deformation tensor. *)
Definition isotropic_fw {SV} (fw : Framework SV) (Dom : T2 -> Prop) : Prop :=
  forall Q C sv s, orthogonal Q -> sym2 C -> Dom C ->
  outcome (fw_gradient fw (asvoigt (rot2 Q C)) sv) s =
    rmap (fun r => (asvoigt (rot2 Q (astensor (fst r))), snd r)) (outcome (fw_gradient fw (asvoigt C) sv) s) /\
  outcome (fw_hessian fw (asvoigt (rot2 Q C)) sv) s =
    rmap (fun H => asvoigt4 (rot4 Q (astensor4 H))) (outcome (fw_hessian fw (asvoigt C) sv) s).

(** ** Spaces (C24 - C34) *)
(** Rotating the spatial legs of the returned stress / elasticity: the first leg of the
    stress (legs 1 and 3 of the elasticity) lives in the deformed configuration iff
    force=None, the second leg (legs 2 and 4) iff area=None. *)
Definition leg (c : Config) (Q : T2) : T2 := match c with Deformed => Q | Undeformed => one2 end.
Definition rot_stress (o : SpaceOpts) (Q : T2) (out : StressOut) : StressOut :=
  match out with
  | StressFull P => StressFull (mmul (mmul (leg (force o) Q) P) (mtr (leg (area o) Q)))
  | StressVoigt V => StressVoigt V
  end.
Definition rot_elast (o : SpaceOpts) (Q : T2) (out : ElastOut) : ElastOut :=
  match out with
  | ElastFull A => ElastFull (fun i j k l =>
      sum3 (fun I => sum3 (fun J => sum3 (fun K => sum3 (fun L =>
        leg (force o) Q i I * leg (area o) Q j J * leg (force o) Q k K * leg (area o) Q l L * A I J K L)))))
  | ElastVoigt C4 => ElastVoigt C4
  end.
(** Distortional and dilatational parts of the right Cauchy-Green tensor. *)
Definition distortional_part (C : T2) : T2 := mscal (Rpower (det3 C) (-1/3)) C.
Definition dilatational_part (C : T2) : T2 := mscal (Rpower (det3 C) (1/3)) one2.
(** A framework that raises unless the tensor it is called with has determinant 1. *)
Definition only_unimodular {SV} (fw : Framework SV) : Framework SV :=
  {| fw_self := fw_self fw;
     fw_gradient := fun C sv => if Req_EM_T (det3 (astensor C)) 1 then fw_gradient fw C sv else raise UserError;
     fw_hessian := fun C sv => if Req_EM_T (det3 (astensor C)) 1 then fw_hessian fw C sv else raise UserError |}.
(** Multiplying results by a constant. *)
Definition oscale (a : R) (o : option R) : option R := option_map (Rmult a) o.
Definition scale_inv {SV} (a : R) (m : InvModel SV) : InvModel SV :=
  {| im_gradient := fun I1 I2 I3 sv =>
       rmap (fun r => match r with (w1, w2, w3, svn) => (oscale a w1, oscale a w2, oscale a w3, svn) end) (im_gradient m I1 I2 I3 sv);
     im_hessian := fun I1 I2 I3 sv => rmap (fun h v => oscale a (h v)) (im_hessian m I1 I2 I3 sv) |}.
(** Two stretch models / frameworks return proportional results. *)
Definition proportional_sm {SV} (a : R) (m m' : StretchModel SV) : Prop := forall l sv s s',
  outcome (sm_gradient m' l sv) s' = rmap (fun r => (fun k => a * fst r k, snd r)) (outcome (sm_gradient m l sv) s) /\
  outcome (sm_hessian m' l sv) s' = rmap (fun h v => oscale a (h v)) (outcome (sm_hessian m l sv) s).
Definition proportional {SV} (a : R) (fw fw' : Framework SV) : Prop := forall C sv s s',
  outcome (fw_gradient fw' C sv) s' = rmap (fun r => (fun v => a * fst r v, snd r)) (outcome (fw_gradient fw C sv) s) /\
  outcome (fw_hessian fw' C sv) s' = rmap (fun H v w => a * H v w) (outcome (fw_hessian fw C sv) s).
(** 6x6 results that are major symmetric. *)
Definition symmetric_hessian {SV} (fw : Framework SV) : Prop := forall C sv s H,
  outcome (fw_hessian fw C sv) s = Ok H -> major4 (astensor4 H).
(** A framework whose gradient is the constant tensor [g] and whose hessian is zero
    (energies that are linear in C). *)
Definition constant_fw {SV} (fw : Framework SV) (g : Vec6) : Prop := forall C sv s,
  (exists svn, outcome (fw_gradient fw C sv) s = Ok (g, svn)) /\ outcome (fw_hessian fw C sv) s = Ok mzero.

(** Multiplying space results by a constant. *)
Definition scale_stress (a : R) (out : StressOut) : StressOut :=
  match out with StressFull P => StressFull (fun i j => a * P i j) | StressVoigt V => StressVoigt (fun v => a * V v) end.
Definition scale_elast (a : R) (out : ElastOut) : ElastOut :=
  match out with
  | ElastFull A => ElastFull (fun i j k l => a * A i j k l)
  | ElastVoigt A => ElastVoigt (fun v w => a * A v w)
  end.
(** The options with finalize=True and a choice of force and area. *)
Definition opts (f a : Config) : SpaceOpts := {| finalize := true; force := f; area := a |}.
(** ... and with finalize=False. *)
Definition raw (f a : Config) : SpaceOpts := {| finalize := false; force := f; area := a |}.
(** Apply a function to a full result. *)
Definition on_full (f : T2 -> T2) (out : StressOut) : StressOut :=
  match out with StressFull P => StressFull (f P) | StressVoigt V => StressVoigt V end.
Definition on_full4 (f : T4 -> T4) (out : ElastOut) : ElastOut :=
  match out with ElastFull A => ElastFull (f A) | ElastVoigt A => ElastVoigt A end.
(** Transforming legs (1,3) with A and legs (2,4) with B. *)
Definition push (A B : T2) (E : T4) : T4 := fun i j k l =>
  sum3 (fun I => sum3 (fun J => sum3 (fun K => sum3 (fun L => A i I * B j J * A k K * B l L * E I J K L)))).
(** 1/J if the area is the deformed one. *)
Definition per_area (c : Config) (F : T2) : R := match c with Deformed => / Rabs (det3 F) | Undeformed => 1 end.
(** At F, the elasticity the framework returns in the distortional space is zero or at
    least one entry of 4 I3^(-2/3) d2W/dCdC exceeds numpy's absolute tolerance 1e-8. *)
Definition significant_at {SV} (fw : Framework SV) (F : T2) : Prop := forall sv s H,
  outcome (fw_hessian fw (asvoigt (distortional_part (cauchy_green F))) sv) s = Ok H ->
  (forall v w, H v w = 0) \/
  exists v w, / 10 ^ 8 < Rabs (4 * Rpower (det3 (cauchy_green F)) (-2/3) * H v w).

(** ** Stretches (C17 - C21) *)
(** LAPACK's result is legal for every symmetric matrix. *)
Definition lapack_legal (lapack : Lapack) : Prop := forall a, lapack_at lapack a.
(** Energies that do not depend on the order of the three principal stretches. *)
Definition symmetric_fn (psi : Vec3 -> R) : Prop := forall x y z,
  psi (vec3 x y z) = psi (vec3 y x z) /\ psi (vec3 x y z) = psi (vec3 x z y).
(** The energy as a function of C: psi of the square roots of the eigenvalues of C. *)
Definition stretch_energy (psi : Vec3 -> R) (W : T2 -> R) : Prop := forall C w v,
  eig_legal C w v -> W C = psi (fun a => sqrt (w a)).
(** Positive definite tensors whose principal stretches lie in [Dom]. *)
Definition stretch_dom (Dom : Vec3 -> Prop) (C : T2) : Prop :=
  posdef C /\ forall w v, eig_legal C w v -> Dom (fun a => sqrt (w a)).
(** A set that is not left instantly by a differentiable curve. *)
Definition curve_open (Dom : Vec3 -> Prop) : Prop := forall l t0 dl,
  dcurve3 l t0 dl -> Dom (l t0) -> locally t0 (fun t => Dom (l t)).
(** Two eigenvalues (squared principal stretches) either coincide or differ by more than
    numpy's absolute tolerance 1e-8. *)
Definition separated (C : T2) : Prop := forall w v, eig_legal C w v ->
  forall a b, w a = w b \/ / 10 ^ 8 < Rabs (w a - w b).
(** Exchanging two of the three indices. *)
Definition exchange (a b c : ix3) : ix3 := if ix3_eqb c a then b else if ix3_eqb c b then a else c.
(** Stretch models that do not distinguish equal stretches: if two stretches coincide the
    results (if any) are unchanged by exchanging the two. *)
Definition exchangeable_gradient {SV} (m : StretchModel SV) : Prop := forall l sv s a b, positive3 l -> l a = l b ->
  forall g svn, outcome (sm_gradient m l sv) s = Ok (g, svn) -> g a = g b.
Definition exchangeable_hessian {SV} (m : StretchModel SV) : Prop := forall l sv s a b, positive3 l -> l a = l b ->
  forall h, outcome (sm_hessian m l sv) s = Ok h -> forall k j,
     val (h (pos k j)) = val (h (pos (exchange a b k) (exchange a b j))).
(** Rotating the deformation tensor rotates the gradient. *)
Definition isotropic_gradient {SV} (fw : Framework SV) (Dom : T2 -> Prop) : Prop :=
  forall Q C sv s, orthogonal Q -> sym2 C -> Dom C ->
  outcome (fw_gradient fw (asvoigt (rot2 Q C)) sv) s =
    rmap (fun r => (asvoigt (rot2 Q (astensor (fst r))), snd r)) (outcome (fw_gradient fw (asvoigt C) sv) s).
(** C20.  Two triples are within [d] of each other. *)
Definition near3 (d : R) (x y : Vec3) : Prop := forall c, Rabs (x c - y c) < d.
(** A set that contains a box around each of its points. *)
Definition box_open (Dom : Vec3 -> Prop) : Prop := forall l, Dom l ->
  exists d, 0 < d /\ forall l', near3 d l' l -> Dom l'.
(** Gradient and hessian are continuous functions of the stretches (and do not depend on
    state variables or attributes): the energy is twice continuously differentiable. *)
Definition continuous_model {SV} (m : StretchModel SV) (Dom : Vec3 -> Prop) : Prop :=
  forall l0, Dom l0 -> forall eps, 0 < eps -> exists d, 0 < d /\ forall l, Dom l -> near3 d l l0 ->
  (forall sv s sv0 s0 g svn g0 svn0, returns (sm_gradient m l sv) s (g, svn) -> returns (sm_gradient m l0 sv0) s0 (g0, svn0) ->
     near3 eps g g0) /\
  (forall sv s sv0 s0 h h0, returns (sm_hessian m l sv) s h -> returns (sm_hessian m l0 sv0) s0 h0 ->
     forall v, Rabs (val (h v) - val (h0 v)) < eps).
(** The shear component of a fourth-order tensor in the plane of two directions. *)
Definition shear (H : T4) (n k : Vec3) : R :=
  sum3 (fun i => sum3 (fun j => sum3 (fun p => sum3 (fun q => n i * k j * H i j p q * n p * k q)))).
(** The coefficient of the documentation for two distinct stretches: the difference quotient
    of dpsi/d(lambda^2) = dpsi/dlambda / (2 lambda). *)
Definition quotient (l g : Vec3) (a b : ix3) : R :=
  (g a / (2 * l a) - g b / (2 * l b)) / (l a ^ 2 - l b ^ 2).
