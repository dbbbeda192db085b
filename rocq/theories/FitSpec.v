(** * Specification for C73.  Nothing here models code. *)
From Coq Require Import Reals List String Bool.
From Verif Require Import Tensor Py Voigt Models Frameworks Spaces Spec Lab LabSpec LsqSpec.
Import ListNotations.
Local Open Scope bool_scope.
Local Open Scope R_scope.

(** a p + b q *)
Definition comb (a : R) (p : list R) (b : R) (q : list R) : list R := map (fun z => a * fst z + b * snd z) (combine p q).
(** The simulated curve exists for all lists of n parameters and depends on them linearly. *)
Definition linear_curve (n : nat) (sim : SimStatic) (xs : list R) : Prop :=
  forall p q a b, List.length p = n -> List.length q = n -> exists y z,
    stress_curve_fit sim xs p = Ok y /\ stress_curve_fit sim xs q = Ok z /\
    List.length y = List.length xs /\ List.length z = List.length xs /\
    stress_curve_fit sim xs (comb a p b q) = Ok (comb a y b z).
Definition linear_in_parameters (n : nat) (t : Term) : Prop := linear_curve n (fst t) (map fst (snd t)).
(** The same experiment with forces in another unit: all forces multiplied by a. *)
Definition in_units (a : R) (e : Experiment) : Experiment :=
  {| ex_label := ex_label e; displacement := displacement e;
     ex_force := match ex_force e with NdArray l => NdArray (map (Rmult a) l) | PyList l => PyList (map (Rmult a) l) end;
     ex_area := ex_area e; ex_length := ex_length e; ex_stretch := ex_stretch e |}.
(** All numbers of the list are zero. *)
Definition zeros (l : list R) : Prop := List.Forall (fun x => x = 0) l.
(** The user's function [material(m1, ..., mn)] that returns space(Stretches(Ogden([m1, ..., mn], alpha)))
    with given exponents; missing or unexpected keywords raise TypeError. *)
Definition ogden_material (k : SpaceKind) (lapack : Lapack) (names : list string) (alpha : list R) : MaterialFn := fun d =>
  if forallb (fun kv : string * R => existsb (String.eqb (fst kv)) names) d
  && forallb (fun s => existsb (fun kv : string * R => String.eqb (fst kv) s) d) names
  then
    let mu := map (fun s => match dict_get d s with Some x => x | None => 0 end) names in
    let m := ogden_model (SV := unit) {| og_mu := mu; og_alpha := alpha |} in
    let fw := stretches_fw lapack m in
    Ok (space_material tt fw (space_self0 fw (Build_StrSelf m None None tt)) (sp_gradient k fw default_opts))
  else Raise TypeError.
(** All simulated values, and all measured values, of the terms, in order. *)
Definition simulated (ts : list Term) (p : list R) : Result (list R) :=
  rbind (map_r (fun t => stress_curve_fit (fst t) (map fst (snd t)) p) ts) (fun l => Ok (List.concat l)).
Definition measured (ts : list Term) : list R := List.concat (map (fun t => map snd (snd t)) ts).
Definition inner (x y : list R) : R := fold_right (fun z s => fst z * snd z + s) 0 (combine x y).
