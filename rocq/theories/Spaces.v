(** * Model of src/hyperelastic/spaces/ (one entry of the trailing axes). *)
From Coq Require Import Reals.
From Verif Require Import Tensor Py Voigt Models Frameworks.
Local Open Scope R_scope.
Local Open Scope py_scope.

(** Space options (_space.py:29-37): [force]/[area] are [None] (deformed) or [0]
    (undeformed).  [parallel] only selects einsumt instead of np.einsum (same result). *)
Inductive Config := Deformed | Undeformed.
Record SpaceOpts := { finalize : bool; force : Config; area : Config }.
(** Defaults: finalize=True, force=None, area=0. *)
Definition default_opts : SpaceOpts :=
  {| finalize := true; force := Deformed; area := Undeformed |}.

(** Result of [piola]: full tensor, or Voigt storage if finalize=False. *)
Inductive StressOut := StressFull (P : T2) | StressVoigt (S : Vec6).
Inductive ElastOut := ElastFull (A : T4) | ElastVoigt (C4 : Mat6).

(** [asvoigt(einsum("kI...,kJ...->IJ...", F, F))]: _deformation.py:75, _distortional.py:160,
    _dilatational.py:20, _space.py:73/110/123 *)
Definition right_CG (F : T2) : Vec6 := asvoigt (fun I J => sum3 (fun k => F k I * F k J)).

(** [einsum("iI...,IJ...->iJ...", F, stress)], _space.py:68 *)
Definition es_force (F stress : T2) : T2 := fun i J => sum3 (fun I => F i I * stress I J).
(** [einsum("jJ...,iJ...->ij...", F, stress)], _space.py:78 *)
Definition es_area (F stress : T2) : T2 := fun i j => sum3 (fun J => F j J * stress i J).
(** [einsum("iI...,kK...,IJKL...->iJkL...", F, F, elasticity)], _space.py:100-102 *)
Definition es4_force (F : T2) (E : T4) : T4 := fun i J k L =>
  sum3 (fun I => sum3 (fun K => F i I * F k K * E I J K L)).
(** [einsum("jJ...,lL...,iJkL...->ijkl...", F, F, elasticity)], _space.py:129-135 *)
Definition es4_area (F : T2) (E : T4) : T4 := fun i j k l =>
  sum3 (fun J => sum3 (fun L => F j J * F l L * E i J k L)).
Definition t4add (A B : T4) : T4 := fun i j k l => A i j k l + B i j k l.

(** piola, stress branch: _space.py:52-81 *)
Definition piola_stress (o : SpaceOpts) (F : T2) (S : Vec6) (detF : option R) : StressOut :=
  if finalize o then
    let stress := astensor S in
    let stress := match force o with Deformed => es_force F stress | Undeformed => stress end in
    let stress := match area o with
      | Deformed =>
          let detF := match detF with
            | Some d => d
            | None => let C := right_CG F in let I3 := det C in sqrt I3 end in
          let s := es_area F stress in fun i j => s i j / detF
      | Undeformed => stress end in
    StressFull stress
  else StressVoigt S.

(** piola, elasticity branch: _space.py:83-139 *)
Definition piola_elast (o : SpaceOpts) (F : T2) (S : Vec6) (detF : option R) (C4 : Mat6)
    (invC : option Vec6) : ElastOut :=
  if finalize o then
    let elasticity := astensor4 C4 in
    let '(elasticity, I3) :=
      match force o with
      | Deformed =>
          (* lines 92-104 *)
          let e := es4_force F elasticity in
          (t4add e (cdya_ik eye S), None)
      | Undeformed =>
          (* lines 107-115 *)
          let '(invC, I3) := match invC with
            | Some x => (x, None)
            | None => let C := right_CG F in let I3 := det C in (inv C (Some I3), Some I3) end in
          (t4add elasticity (cdya_ik invC S), I3)
      end in
    (* lines 117-137 *)
    let elasticity := match area o with
      | Deformed =>
          let detF := match detF with
            | Some d => d
            | None => let I3 := match I3 with
                        | Some x => x
                        | None => let C := right_CG F in det C end in
                      sqrt I3 end in
          let e := es4_area F elasticity in fun i j k l => e i j k l / detF
      | Undeformed => elasticity end in
    ElastFull elasticity
  else ElastVoigt C4.

(** Attributes cached by the space objects; [sp_mat] are the attributes of the framework
    object [self.material]. *)
Record SpaceSelf (X : Type) := {
  sp_C : option Vec6;
  sp_I3 : option R;
  sp_Cx : option Vec6;     (* Cu (Distortional) or Co (Dilatational) *)
  sp_Sb : option Vec6;
  sp_sc : option R;        (* SbC (Distortional) or tr_Sb (Dilatational) *)
  sp_invC : option Vec6;
  sp_S : option Vec6;
  sp_mat : X
}.
Arguments sp_C {X}. Arguments sp_I3 {X}. Arguments sp_Cx {X}. Arguments sp_Sb {X}.
Arguments sp_sc {X}. Arguments sp_invC {X}. Arguments sp_S {X}. Arguments sp_mat {X}.

Section Spaces.
  Context {SV : Type} (fw : Framework SV) (o : SpaceOpts).
  Notation Self := (SpaceSelf (fw_self fw)).

  Definition space_self0 (ms : fw_self fw) : Self :=
    {| sp_C := None; sp_I3 := None; sp_Cx := None; sp_Sb := None; sp_sc := None;
       sp_invC := None; sp_S := None; sp_mat := ms |}.

  (** A method call on [self.material]. *)
  Definition on_mat {A} (f : PY (fw_self fw) A) : PY Self A := fun s =>
    let '(ms, r) := f (sp_mat s) in
    ({| sp_C := sp_C s; sp_I3 := sp_I3 s; sp_Cx := sp_Cx s; sp_Sb := sp_Sb s;
        sp_sc := sp_sc s; sp_invC := sp_invC s; sp_S := sp_S s; sp_mat := ms |}, r).
  Definition set_C (x : Vec6) (s : Self) : Self :=
    {| sp_C := Some x; sp_I3 := sp_I3 s; sp_Cx := sp_Cx s; sp_Sb := sp_Sb s;
       sp_sc := sp_sc s; sp_invC := sp_invC s; sp_S := sp_S s; sp_mat := sp_mat s |}.
  Definition set_kin (C : Vec6) (I3 : R) (Cx : Vec6) (s : Self) : Self :=
    {| sp_C := Some C; sp_I3 := Some I3; sp_Cx := Some Cx; sp_Sb := sp_Sb s;
       sp_sc := sp_sc s; sp_invC := sp_invC s; sp_S := sp_S s; sp_mat := sp_mat s |}.
  Definition set_S (x : Vec6) (s : Self) : Self :=
    {| sp_C := sp_C s; sp_I3 := sp_I3 s; sp_Cx := sp_Cx s; sp_Sb := sp_Sb s;
       sp_sc := sp_sc s; sp_invC := sp_invC s; sp_S := Some x; sp_mat := sp_mat s |}.
  Definition set_stress (Sb : Vec6) (sc : R) (invC S : Vec6) (s : Self) : Self :=
    {| sp_C := sp_C s; sp_I3 := sp_I3 s; sp_Cx := sp_Cx s; sp_Sb := Some Sb;
       sp_sc := Some sc; sp_invC := Some invC; sp_S := Some S; sp_mat := sp_mat s |}.

  (** ** Deformation: _deformation.py:69-80 *)
  Definition def_gradient (F : T2) (sv : SV) : PY Self (StressOut * SV) :=
    let C := right_CG F in
    modify (set_C C) ;;
    '(dWdC, svn) <- on_mat (fw_gradient fw C sv) ;;
    let S := vscal 2 dWdC in
    modify (set_S S) ;;
    ret (piola_stress o F S None, svn).

  (** _deformation.py:82-91 *)
  Definition def_hessian (F : T2) (sv : SV) : PY Self ElastOut :=
    '(_, _) <- def_gradient F sv ;;
    self <- get ;;
    C <- attr (sp_C self) ;;
    d2WdCdC <- on_mat (fw_hessian fw C sv) ;;
    self <- get ;;
    S <- attr (sp_S self) ;;
    ret (piola_elast o F S None (mscal6 4 d2WdCdC) None).

  (** ** Distortional: _distortional.py:154-171 *)
  Definition dis_gradient (F : T2) (sv : SV) : PY Self (StressOut * SV) :=
    let C := right_CG F in
    let I3 := det C in
    let Cu := vscal (Rpower I3 (- 1 / 3)) C in
    modify (set_kin C I3 Cu) ;;
    '(dWudCu, svn) <- on_mat (fw_gradient fw Cu sv) ;;
    let Sb := vscal (2 * Rpower I3 (- 1 / 3)) dWudCu in
    let SbC := ddot22 Sb C in
    let invC := inv C (Some I3) in
    let S := vsub Sb (vscal (SbC / 3) invC) in
    modify (set_stress Sb SbC invC S) ;;
    ret (piola_stress o F S (Some (sqrt I3)), svn).

  (** [np.allclose(C4b, 0)] for one point (all 36 entries). *)
  Definition allclose0 (A : Mat6) : bool :=
    let row v := (isclose (A v V0) 0 && isclose (A v V1) 0 && isclose (A v V2) 0
                  && isclose (A v V3) 0 && isclose (A v V4) 0 && isclose (A v V5) 0)%bool in
    (row V0 && row V1 && row V2 && row V3 && row V4 && row V5)%bool.

  (** _distortional.py:173-197 *)
  Definition dis_hessian (F : T2) (sv : SV) : PY Self ElastOut :=
    '(_, _) <- dis_gradient F sv ;;
    self <- get ;;
    C <- attr (sp_C self) ;;
    Cu <- attr (sp_Cx self) ;;
    d2WdCdC <- on_mat (fw_hessian fw Cu sv) ;;
    self <- get ;;
    I3 <- attr (sp_I3 self) ;;
    invC <- attr (sp_invC self) ;;
    Sb <- attr (sp_Sb self) ;;
    SbC <- attr (sp_sc self) ;;
    S <- attr (sp_S self) ;;
    let I := eye in
    let C4b := mscal6 (4 * Rpower I3 (- 2 / 3)) d2WdCdC in
    let P4 := msub6 (cdya1 I) (mscal6 (/ 3) (dya invC C)) in
    let I4 := cdya1 invC in
    let SbinvC := dya Sb invC in
    let invCSb := transpose SbinvC in
    let invCinvC := dya invC invC in
    let C4 := mscal6 (2 / 3)
                (madd6 (msub6 (msub6 (mscal6 SbC I4) SbinvC) invCSb)
                       (mscal6 (SbC / 3) invCinvC)) in
    let C4 := if allclose0 C4b then C4
              else madd6 C4 (ddot44 (ddot44 P4 C4b) (transpose P4)) in
    ret (piola_elast o F S (Some (sqrt I3)) C4 (Some invC)).

  (** ** Dilatational: _dilatational.py:17-30.  Line 22: [Co = I3 ** (1/3) * C]. *)
  Definition dil_gradient (F : T2) (sv : SV) : PY Self (StressOut * SV) :=
    let C := right_CG F in
    let I3 := det C in
    let Co := vscal (Rpower I3 (1 / 3)) C in
    modify (set_kin C I3 Co) ;;
    '(dWodCo, svn) <- on_mat (fw_gradient fw Co sv) ;;
    let Sb := vscal (2 * Rpower I3 (1 / 3)) dWodCo in
    let tr_Sb := trace Sb in
    let invC := inv C (Some I3) in
    let S := vscal (tr_Sb / 3) invC in
    modify (set_stress Sb tr_Sb invC S) ;;
    ret (piola_stress o F S (Some (sqrt I3)), svn).

  (** _dilatational.py:32-48 *)
  Definition dil_hessian (F : T2) (sv : SV) : PY Self ElastOut :=
    '(_, _) <- dil_gradient F sv ;;
    self <- get ;;
    Co <- attr (sp_Cx self) ;;
    d2WodCodCo <- on_mat (fw_hessian fw Co sv) ;;
    self <- get ;;
    I3 <- attr (sp_I3 self) ;;
    tr_Sb <- attr (sp_sc self) ;;
    invC <- attr (sp_invC self) ;;
    S <- attr (sp_S self) ;;
    let C4b := mscal6 (4 * Rpower I3 (2 / 3)) d2WodCodCo in
    let I := eye in
    let tr_C4b := ddot22 (ddot24 I C4b) I in
    let I4 := cdya1 invC in
    let C4 := msub6 (mscal6 (/ 9) (mscal6 (2 * tr_Sb + tr_C4b) (dya invC invC)))
                    (mscal6 (2 / 3 * tr_Sb) I4) in
    ret (piola_elast o F S (Some (sqrt I3)) C4 (Some invC)).
End Spaces.
