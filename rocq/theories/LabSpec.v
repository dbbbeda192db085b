(** * Specification of the lab (C35 - C44), in terms of the interface of Lab.v. *)
From Coq Require Import Reals List String ZArith Bool.
From Coquelicot Require Import Coquelicot.
From Verif Require Import Tensor Py Voigt Algebra Models Frameworks Spaces Spec Lab.
Import ListNotations.
Local Open Scope R_scope.

(** ** Load cases *)
Definition diagonal (F : T2) : Prop := forall i j, i <> j -> F i j = 0.
(** diag(a, b, c) *)
Definition dgm (a b c : R) : T2 := fun i j => if ix3_eqb i j then match i with X0 => a | X1 => b | X2 => c end else 0.
(** P + p J F^-T *)
Definition with_pressure (F : T2) (p : R) (P : T2) : T2 := fun i j => P i j + p * det3 F * inv3 F j i.

(** ** Simulations whose material function returns, for the given parameters, a Deformation or
    Distortional space object (with default options and any attribute values [s] left by its
    history) around the framework [fw]. *)
Definition incompressible_kind (k : SpaceKind) : Prop := k = KDeformation \/ k = KDistortional.
Definition simulates {SV} (sim : SimStatic) (p : list R) (lc : R -> T2) (k : SpaceKind) (none : SV) (fw : Framework SV) : Prop :=
  defgrad (si_loadcase sim) = lc /\
  exists s, si_material sim (kwargs_of (si_labels sim) p) = Ok (space_material none fw s (sp_gradient k fw default_opts)).
(** The framework returns a gradient (does not raise) at C. *)
Definition evaluates {SV} (fw : Framework SV) (none : SV) (C : T2) : Prop :=
  forall s, exists g svn, outcome (fw_gradient fw (asvoigt C) none) s = Ok (g, svn).

(** Functions that look their keyword arguments up, as Python functions do. *)
Definition by_keyword {A} (f : Dict -> A) : Prop := forall d d', (forall k, dict_get d k = dict_get d' k) -> f d = f d'.

(** dW/dI1 and dW/dI2 of the third-order deformation model. *)
Definition tod_W1 (m : TOD) (I1 I2 : R) : R :=
  C10 m + C11 m * (I2 - undeformed m) + 2 * C20 m * (I1 - undeformed m) + 3 * C30 m * (I1 - undeformed m) ^ 2.
Definition tod_W2 (m : TOD) (I1 I2 : R) : R := C01 m + C11 m * (I1 - undeformed m).
(** The documentation's material function with the parameters p (labels as given) *)
Definition tod_simulation (sim : SimStatic) (lc : R -> T2) (p : list R) (m : TOD) : Prop :=
  defgrad (si_loadcase sim) = lc /\ (si_material sim = tod_deformation \/ si_material sim = tod_distortional) /\ tod_of_kwargs (kwargs_of (si_labels sim) p) = Ok m.

(** ** Curve fits *)
Definition sum_squares (r : list R) : R := fold_right (fun x s => x ^ 2 + s) 0 r.
Definition total (l : list R) : R := fold_right Rplus 0 l.
(** The data points (stretch, stress) of an experiment. *)
Definition points (e : Experiment) : Result (list (R * R)) :=
  rbind (experiment_stress e) (fun s => Ok (combine (ex_stretch e) s)).
(** The points selected by a mask: all; those whose flag is true; those with the given
    (possibly negative) positions. *)
Definition position (n : nat) (z : Z) : nat := Z.to_nat (if Z.ltb z 0 then z + Z.of_nat n else z).
Definition chosen {A} (d : A) (m : Mask) (pts : list A) : list A :=
  match m with
  | MSlice => pts
  | MBool b => map snd (filter fst (combine b pts))
  | MIndex idx => map (fun z => nth (position (List.length pts) z) pts d) idx
  end.
(** The mask fits an array of [n] points. *)
Definition fits (m : Mask) (n : nat) : Prop :=
  match m with
  | MSlice => True
  | MBool b => List.length b = n
  | MIndex idx => List.Forall (fun z => (- Z.of_nat n <= z < Z.of_nat n)%Z) idx
  end.
(** Measured data given as arrays of equal length. *)
Definition well_formed (e : Experiment) : Prop :=
  exists d f, displacement e = NdArray d /\ ex_force e = NdArray f /\
    List.length (ex_stretch e) = List.length d /\ List.length d = List.length f.

(** One term of the fit: a simulation with the points it is compared with. *)
Definition Term := (SimStatic * list (R * R))%type.
Definition term_residuals (t : Term) (p : list R) : Result (list R) :=
  rbind (stress_curve_fit (fst t) (map fst (snd t)) p)
        (fun f => Ok (map (fun q => fst q - snd q) (combine f (map snd (snd t))))).
(** All residuals, in order. *)
Definition all_residuals (ts : list Term) (p : list R) : Result (list R) :=
  rbind (map_r (fun t => term_residuals t p) ts) (fun l => Ok (List.concat l)).
(** The total sum of squares over all experiments. *)
Definition total_squares (ts : list Term) (p : list R) : Result R :=
  rbind (map_r (fun t => rbind (term_residuals t p) (fun r => Ok (sum_squares r))) ts) (fun l => Ok (total l)).
(** The residual vector that scipy.optimize.curve_fit forms from the callable, xdata and ydata
    it is given: f(xdata, *p) - ydata. *)
Definition scipy_residuals (f : Callable) (x y p : list R) : Result (list R) :=
  rbind (f x p) (fun v => np_sub v y).
(** What scipy is trusted for (where this matters): a popt of the size of p0 and a square pcov. *)
Definition scipy_shapes (scipy : Scipy) : Prop := forall f x y p0 popt pcov, scipy f x y p0 = Ok (popt, pcov) ->
  List.length popt = List.length p0 /\ List.length pcov = List.length p0.
(** ... and popt minimises the squared norm of the residual vector. *)
Definition scipy_minimises (scipy : Scipy) : Prop := forall f x y p0 popt pcov, scipy f x y p0 = Ok (popt, pcov) ->
  exists r, scipy_residuals f x y popt = Ok r /\
  forall p r', List.length p = List.length p0 -> scipy_residuals f x y p = Ok r' -> sum_squares r <= sum_squares r'.

(** The terms of an Optimize object: simulations, masks and experiments are matched by position. *)
Definition terms (sims : nat -> SimStatic) (experiments : list Experiment) (simulations : list nat) (mask : list Mask) : list Term :=
  map (fun t => (sims (fst t), match points (snd (snd t)) with Ok pts => chosen (0, 0) (fst (snd t)) pts | Raise _ => [] end))
      (combine simulations (combine mask experiments)).
(** The lists passed to Optimize match each other. *)
Definition matching (experiments : list Experiment) (simulations : list nat) (mask : list Mask) : Prop :=
  experiments <> [] /\
  List.length simulations = List.length experiments /\ List.length mask = List.length experiments /\
  List.Forall well_formed experiments /\
  List.Forall2 (fun m e => fits m (List.length (ex_stretch e))) mask experiments.
(** Calls of curve_fit one after the other, each with its own optimiser (method, options). *)
Definition fit_history (sims : nat -> SimStatic) experiments simulations mask (scipys : list Scipy) (w : World) : World :=
  fold_left (fun w sp => after (curve_fit sims experiments simulations mask sp) w) scipys w.
(** No nan / only nan *)
Definition all_nan (l : list Ext) : Prop := List.Forall (fun v => v = NaN) l.
