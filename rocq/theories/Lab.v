(** * Model of src/hyperelastic/lab/ : load cases, Experiment, Simulation,
    concatenate_curve_fit and Optimize.

    One-dimensional numpy arrays are lists of reals (exact arithmetic).  matplotlib is not
    modelled.  scipy.optimize.curve_fit is an oracle: a function of the callable, xdata,
    ydata and p0 that returns (popt, pcov) or raises. *)
From Coq Require Import Reals List String ZArith Bool.
From Verif Require Import Tensor Py Voigt Models Frameworks Spaces.
Import ListNotations.
Local Open Scope R_scope.

(** ** Exceptions in a list comprehension: the first one is raised. *)
Fixpoint map_r {A B} (f : A -> Result B) (l : list A) : Result (list B) :=
  match l with
  | [] => Ok []
  | a :: l => rbind (f a) (fun b => rbind (map_r f l) (fun bs => Ok (b :: bs)))
  end.

(** ** Load cases: lab/_load_case.py *)
(** [defgrad] of one entry of the array of stretches.  numpy's inf/nan for non-positive
    stretches are not modelled: 1/0 and sqrt of a negative number are Coq's total functions. *)
(** Uniaxial.defgrad, lines 86-93 *)
Definition uniaxial (stretch : R) : T2 :=
  let x := stretch in let y := 1 / sqrt stretch in let z := 0 in
  fun i j => match i, j with
    | X0, X0 => x | X0, X1 => z | X0, X2 => z
    | X1, X0 => z | X1, X1 => y | X1, X2 => z
    | X2, X0 => z | X2, X1 => z | X2, X2 => y end.
(** Biaxial.defgrad, lines 111-118 *)
Definition biaxial (stretch : R) : T2 :=
  let x := stretch in let y := 1 / stretch ^ 2 in let z := 0 in
  fun i j => match i, j with
    | X0, X0 => x | X0, X1 => z | X0, X2 => z
    | X1, X0 => z | X1, X1 => x | X1, X2 => z
    | X2, X0 => z | X2, X1 => z | X2, X2 => y end.
(** Planar.defgrad, lines 136-144 *)
Definition planar (stretch : R) : T2 :=
  let x := stretch in let y := 1 / stretch in let o := 1 in let z := 0 in
  fun i j => match i, j with
    | X0, X0 => x | X0, X1 => z | X0, X2 => z
    | X1, X0 => z | X1, X1 => o | X1, X2 => z
    | X2, X0 => z | X2, X1 => z | X2, X2 => y end.
(** A load case is an object with a method [defgrad] (user subclasses are allowed);
    [label] is handed to the Simulation. *)
Record LoadCase := { lc_label : string; defgrad : R -> T2 }.
(** The constructors, lines 81-84, 106-109, 131-134: label=None selects the default. *)
Definition lc_init (default : string) (f : R -> T2) (label : option string) : LoadCase :=
  {| lc_label := match label with None => default | Some l => l end; defgrad := f |}.
Definition Uniaxial := lc_init "Uniaxial Tension" uniaxial.
Definition Biaxial := lc_init "Biaxial Tension" biaxial.
Definition Planar := lc_init "Planar Tension" planar.

(** Indexing an axis of size 3 with a Python integer. *)
Definition index3 (z : Z) : Result ix3 :=
  match z with
  | 0%Z | (-3)%Z => Ok X0 | 1%Z | (-2)%Z => Ok X1 | 2%Z | (-1)%Z => Ok X2
  | _ => Raise IndexError end.
(** IncompressibleHomogeneousStretch.stress, lines 41-68 *)
Definition lc_stress_axes (F P : T2) (axis traction_free : Z) : Result R :=
  rbind (index3 axis) (fun i => rbind (index3 traction_free) (fun j =>
    Ok (P i i - P j j * F j j / F i i))).
(** Defaults: axis=0, traction_free=-1. *)
Definition lc_stress (F P : T2) : Result R := lc_stress_axes F P 0 (-1).

(** ** Experiment: lab/_experiment.py *)
(** array_like: an ndarray or a Python list of numbers. *)
Inductive Data := NdArray (l : list R) | PyList (l : list R).
(** [data / number]: elementwise for arrays, TypeError for lists. *)
Definition div_data (d : Data) (x : R) : Result (list R) :=
  match d with NdArray l => Ok (map (fun y => y / x) l) | PyList _ => Raise TypeError end.
Record Experiment := {
  ex_label : string; displacement : Data; ex_force : Data; ex_area : R; ex_length : R;
  ex_stretch : list R }.
(** __init__, lines 28-71 ([time] and [temperature] are only stored).  Division by a zero
    length is not modelled (numpy: inf/nan). *)
Definition experiment_init (label : string) (disp frc : Data) (area length : R) : Result Experiment :=
  rbind (div_data disp length) (fun q =>
  Ok {| ex_label := label; displacement := disp; ex_force := frc; ex_area := area; ex_length := length;
        ex_stretch := map (fun y => 1 + y) q |}).
(** stress, lines 73-76 *)
Definition experiment_stress (e : Experiment) : Result (list R) := div_data (ex_force e) (ex_area e).

(** ** Simulation: lab/_simulation.py *)
(** A dict with insertion order; assigning an existing key keeps its position. *)
Definition Dict := list (string * R).
Fixpoint dict_set (d : Dict) (k : string) (v : R) : Dict :=
  match d with
  | [] => [(k, v)]
  | (k', v') :: r => if String.eqb k' k then (k, v) :: r else (k', v') :: dict_set r k v
  end.
Fixpoint dict_get (d : Dict) (k : string) : option R :=
  match d with [] => None | (k', v) :: r => if String.eqb k' k then Some v else dict_get r k end.
(** [{label: p for label, p in zip(self.labels, parameters)}], line 114 *)
Definition kwargs_of (labels : list string) (parameters : list R) : Dict :=
  fold_left (fun d lp => dict_set d (fst lp) (snd lp)) (combine labels parameters) [].

(** The object returned by the user's material function: its attributes at the moment of the
    call ([mat_now]; a function may return the same object again and again) and its method
    [gradient([F, statevars])] evaluated at one point; [mat_none] is the Python value None
    passed for the state variables.  The tensor returned is [gradient(...)[0]]. *)
Record Material := {
  mat_SV : Type; mat_none : mat_SV;
  mat_self : Type; mat_now : mat_self;
  mat_gradient : T2 -> mat_SV -> PY mat_self (T2 * mat_SV)
}.
(** The user's function [material( **kwargs)]; it may raise. *)
Definition MaterialFn := Dict -> Result Material.
(** A space object as the material ([finalize=True]; with finalize=False the 6-component result
    cannot be reshaped to (3, 3, -1) in general: not modelled). *)
Definition full_only {SV X} (g : T2 -> SV -> PY X (StressOut * SV)) : T2 -> SV -> PY X (T2 * SV) := fun F sv s =>
  match g F sv s with
  | (s', Ok (StressFull P, svn)) => (s', Ok (P, svn))
  | (s', Ok (StressVoigt _, _)) => (s', Raise ValueError)
  | (s', Raise e) => (s', Raise e)
  end.
Definition space_material {SV} (none : SV) (fw : Framework SV) (s : SpaceSelf (fw_self fw))
    (g : T2 -> SV -> PY (SpaceSelf (fw_self fw)) (StressOut * SV)) : Material :=
  {| mat_SV := SV; mat_none := none; mat_self := SpaceSelf (fw_self fw); mat_now := s; mat_gradient := full_only g |}.

(** The attributes of a Simulation that are never assigned again after __init__. *)
Record SimStatic := { si_loadcase : LoadCase; si_stretch : list R; si_labels : list string; si_material : MaterialFn }.

(** stress_curve_fit, lines 110-118.  One call of [mat.gradient] evaluates all points at once;
    NDLab.v models the call on arrays with the reshapes of line 117; C52 proves that the two agree. *)
Definition point_stress (lc : LoadCase) (mat : Material) (x : R) : Result R :=
  let F := defgrad lc x in
  match snd (mat_gradient mat F (mat_none mat) (mat_now mat)) with
  | Ok (P, _) => lc_stress F P
  | Raise e => Raise e
  end.
Definition stress_curve_fit (s : SimStatic) (x : list R) (parameters : list R) : Result (list R) :=
  let kwargs := kwargs_of (si_labels s) parameters in
  rbind (si_material s kwargs) (fun mat => map_r (point_stress (si_loadcase s) mat) x).

(** ** numpy helpers of _curve_fit.py / _optimize.py *)
(** [np.concatenate]: an empty list of arrays raises ValueError. *)
Definition np_concatenate (l : list (list R)) : Result (list R) :=
  match l with [] => Raise ValueError | _ => Ok (List.concat l) end.
(** Elementwise operation of two one-dimensional arrays with broadcasting. *)
Definition broadcast1 {A B C} (f : A -> B -> C) (a : list A) (b : list B) : Result (list C) :=
  if Nat.eqb (List.length a) (List.length b) then Ok (map (fun p => f (fst p) (snd p)) (combine a b))
  else match a, b with
       | [x], _ => Ok (map (f x) b)
       | _, [y] => Ok (map (fun x => f x y) a)
       | _, _ => Raise ValueError
       end.
Definition np_sub : list R -> list R -> Result (list R) := broadcast1 Rminus.
(** [a[:] = b] for one-dimensional arrays: the content of [a] afterwards. *)
Definition assign_all {A B} (f : B -> A) (a : list A) (b : list B) : Result (list A) :=
  if Nat.eqb (List.length a) (List.length b) then Ok (map f b)
  else match b with [y] => Ok (map (fun _ => f y) a) | _ => Raise ValueError end.

(** Indexing with a mask: slice(None), a boolean array, or an array of integers. *)
Inductive Mask := MSlice | MBool (m : list bool) | MIndex (idx : list Z).
Fixpoint bool_index (m : list bool) (l : list R) : Result (list R) :=
  match m, l with
  | [], [] => Ok []
  | b :: m, x :: l => rbind (bool_index m l) (fun r => Ok (if b then x :: r else r))
  | _, _ => Raise IndexError
  end.
Definition int_index (l : list R) (z : Z) : Result R :=
  let n := Z.of_nat (List.length l) in
  let k := if Z.ltb z 0 then (z + n)%Z else z in
  if (Z.leb 0 k && Z.ltb k n)%bool then Ok (nth (Z.to_nat k) l 0) else Raise IndexError.
Definition np_index (l : list R) (m : Mask) : Result (list R) :=
  match m with
  | MSlice => Ok l
  | MBool m => bool_index m l
  | MIndex idx => map_r (int_index l) idx
  end.

(** ** concatenate_curve_fit: lab/_curve_fit.py *)
(** A floating point number: finite, inf or nan (only used for pcov and the errors). *)
Inductive Ext := Fin (x : R) | Inf | NaN.
Definition Callable := list R -> list R -> Result (list R).       (* f(x, *p) *)
Definition Scipy := Callable -> list R -> list R -> list R -> Result (list R * list (list Ext)).
(** [np.concatenate([fi(xi, *p) for fi, xi in zip(f, x)])]: _curve_fit.py:20, _optimize.py:176-178, 206 *)
Definition eval_all (f : list Callable) (x : list (list R)) (p : list R) : Result (list R) :=
  rbind (map_r (fun fx => fst fx (snd fx) p) (combine f x)) np_concatenate.
(** concatenate_f, lines 18-20: the argument [x] is ignored. *)
Definition concatenate_f (f : list Callable) (xdata : list (list R)) : Callable := fun _ p => eval_all f xdata p.
(** lines 8-28 ([args] and [kwargs] are part of the oracle) *)
Definition concatenate_curve_fit (scipy : Scipy) (f : list Callable) (xdata ydata : list (list R)) (p0 : list R) :=
  rbind (np_concatenate xdata) (fun x => rbind (np_concatenate ydata) (fun y =>
    scipy (concatenate_f f xdata) x y p0)).

(** ** Optimize: lab/_optimize.py *)
(** Sequence objects that can be passed as parameters. *)
Inductive Seq := FloatArray (l : list R) | IntArray (l : list Z) | ListObj (l : list R) | TupleObj (l : list R).
Definition elements (s : Seq) : list R :=
  match s with FloatArray l => l | IntArray l => map IZR l | ListObj l => l | TupleObj l => l end.
(** Conversion of a float to an integer array element: truncation towards zero. *)
Definition trunc (x : R) : Z := if Rle_dec 0 x then Int_part x else Z.opp (Int_part (- x)).
(** [s[:] = values] *)
Definition setitem_all (s : Seq) (values : list R) : Result Seq :=
  match s with
  | FloatArray l => rbind (assign_all (fun x => x) l values) (fun l => Ok (FloatArray l))
  | IntArray l => rbind (assign_all trunc l values) (fun l => Ok (IntArray l))
  | ListObj _ => Ok (ListObj values)
  | TupleObj _ => Raise TypeError
  end.

(** The attributes of all objects: [heap] maps the identity of a sequence object to its
    content, [sim_par] a simulation object to (the identity of) its attribute parameters; the
    remaining fields are attributes of the Optimize object ([None] = not assigned yet). *)
Record World := {
  heap : nat -> Seq;
  sim_par : nat -> nat;
  op_par : nat;
  op_f : option (list nat);              (* bound methods simulation.stress_curve_fit *)
  op_x : option (list (list R));
  op_y : option (list (list R));
  op_errors : option (list Ext);
  op_residuals : option (list R)
}.
Definition upd {A} (f : nat -> A) (k : nat) (v : A) : nat -> A := fun k' => if Nat.eqb k' k then v else f k'.
Definition set_heap (k : nat) (v : Seq) (w : World) : World :=
  {| heap := upd (heap w) k v; sim_par := sim_par w; op_par := op_par w; op_f := op_f w; op_x := op_x w; op_y := op_y w;
     op_errors := op_errors w; op_residuals := op_residuals w |}.
Definition set_sim (k : nat) (v : nat) (w : World) : World :=
  {| heap := heap w; sim_par := upd (sim_par w) k v; op_par := op_par w; op_f := op_f w; op_x := op_x w; op_y := op_y w;
     op_errors := op_errors w; op_residuals := op_residuals w |}.
Definition set_f (v : list nat) (w : World) : World :=
  {| heap := heap w; sim_par := sim_par w; op_par := op_par w; op_f := Some v; op_x := op_x w; op_y := op_y w;
     op_errors := op_errors w; op_residuals := op_residuals w |}.
Definition set_x (v : list (list R)) (w : World) : World :=
  {| heap := heap w; sim_par := sim_par w; op_par := op_par w; op_f := op_f w; op_x := Some v; op_y := op_y w;
     op_errors := op_errors w; op_residuals := op_residuals w |}.
Definition set_y (v : list (list R)) (w : World) : World :=
  {| heap := heap w; sim_par := sim_par w; op_par := op_par w; op_f := op_f w; op_x := op_x w; op_y := Some v;
     op_errors := op_errors w; op_residuals := op_residuals w |}.
Definition set_errors (v : list Ext) (w : World) : World :=
  {| heap := heap w; sim_par := sim_par w; op_par := op_par w; op_f := op_f w; op_x := op_x w; op_y := op_y w;
     op_errors := Some v; op_residuals := op_residuals w |}.
Definition set_residuals (v : list R) (w : World) : World :=
  {| heap := heap w; sim_par := sim_par w; op_par := op_par w; op_f := op_f w; op_x := op_x w; op_y := op_y w;
     op_errors := op_errors w; op_residuals := Some v |}.
Definition upd_world (f : World -> World) : PY World unit := fun w => (f w, Ok tt).

(** [np.sqrt] of a variance. *)
Definition sqrt_ext (v : Ext) : Ext :=
  match v with Fin x => if Rle_dec 0 x then Fin (sqrt x) else NaN | Inf => Inf | NaN => NaN end.
(** [np.diag] of a square matrix given by rows. *)
Fixpoint diag_from (i : nat) (rows : list (list Ext)) : list Ext :=
  match rows with [] => [] | r :: rows => nth i r NaN :: diag_from (S i) rows end.
Definition np_diag := diag_from 0.

Section Optimize.
  (** The simulation objects (by identity), and the attributes experiments, simulations (which
      may contain an object more than once) and mask of the Optimize object. *)
  Context (sims : nat -> SimStatic) (experiments : list Experiment) (simulations : list nat) (mask : list Mask) (scipy : Scipy).
  Local Open Scope py_scope.

  Definition callable (i : nat) : Callable := stress_curve_fit (sims i).

  (** init_curve_fit, lines 165-186 *)
  Definition init_curve_fit : PY World nat :=
    upd_world (set_f simulations) ;;
    x <- lift (map_r (fun me => np_index (ex_stretch (snd me)) (fst me)) (combine mask experiments)) ;;
    upd_world (set_x x) ;;
    y <- lift (map_r (fun me => rbind (experiment_stress (snd me)) (fun s => np_index s (fst me))) (combine mask experiments)) ;;
    upd_world (set_y y) ;;
    self <- get ;;
    let parameters := elements (heap self (op_par self)) in
    f0 <- lift (eval_all (map callable simulations) x parameters) ;;
    upd_world (set_errors (map (fun _ => NaN) parameters)) ;;
    ycat <- lift (np_concatenate y) ;;
    r <- lift (np_sub f0 ycat) ;;
    upd_world (set_residuals r) ;;
    upd_world (fun w => fold_left (fun w i => set_sim i (op_par w) w) simulations w) ;;
    ret (op_par self).

  (** for simulation in self.simulations: simulation.parameters[:] = self.parameters *)
  Fixpoint copy_parameters (l : list nat) : PY World unit :=
    match l with
    | [] => ret tt
    | i :: l =>
        self <- get ;;
        v <- lift (setitem_all (heap self (sim_par self i)) (elements (heap self (op_par self)))) ;;
        upd_world (set_heap (sim_par self i) v) ;;
        copy_parameters l
    end.

  (** curve_fit, lines 200-215; the returned parameters are an object identity *)
  Definition curve_fit : PY World (nat * list (list Ext)) :=
    p0 <- init_curve_fit ;;
    self <- get ;;
    f <- attr (op_f self) ;;
    x <- attr (op_x self) ;;
    y <- attr (op_y self) ;;
    '(popt, pcov) <- lift (concatenate_curve_fit scipy (map callable f) x y (elements (heap self p0))) ;;
    fopt <- lift (eval_all (map callable f) x popt) ;;
    p <- lift (setitem_all (heap self (op_par self)) popt) ;;
    upd_world (set_heap (op_par self) p) ;;
    errors <- attr (op_errors self) ;;
    e <- lift (assign_all (fun v => v) errors (map sqrt_ext (np_diag pcov))) ;;
    upd_world (set_errors e) ;;
    residuals <- attr (op_residuals self) ;;
    ycat <- lift (np_concatenate y) ;;
    r <- lift (np_sub fopt ycat) ;;
    r <- lift (assign_all (fun v => v) residuals r) ;;
    upd_world (set_residuals r) ;;
    copy_parameters simulations ;;
    ret (op_par self, pcov).
End Optimize.

(** Optimize.__init__, lines 157-163: mask=None selects all points of all experiments. *)
Definition default_mask (experiments : list Experiment) : list Mask := map (fun _ => MSlice) experiments.
Definition mask_init (experiments : list Experiment) (mask : option (list Mask)) : list Mask :=
  match mask with None => default_mask experiments | Some m => m end.

(** Simulation.__init__, lines 99-108: the object passed, or a new array of ones. *)
Definition sim_init (labels : list string) (parameters : option Seq) : Seq :=
  match parameters with None => FloatArray (map (fun _ => 1) labels) | Some p => p end.
(** Simulation.stress, lines 120-123 *)
Definition simulation_stress (sims : nat -> SimStatic) (w : World) (i : nat) : Result (list R) :=
  stress_curve_fit (sims i) (si_stretch (sims i)) (elements (heap w (sim_par w i))).
(** norm_residuals, lines 195-198 *)
Definition norm_residuals (w : World) : Result R :=
  match op_residuals w with
  | Some r => Ok (sqrt (fold_right (fun x s => x ^ 2 + s) 0 r))
  | None => Raise AttributeError end.
(** The material function of the documentation (lab/_simulation.py:44-50):
    ThirdOrderDeformation( **kwargs) in the Invariants framework and a space.  An unknown
    keyword raises TypeError (models/invariants/_third_order_deformation.py:40-52); a number
    passed as [strain] counts as true iff it is not zero. *)
Definition tod_keywords : list string := ["C10"; "C01"; "C11"; "C20"; "C30"; "strain"]%string.
Definition kw (d : Dict) (k : string) : R := match dict_get d k with Some v => v | None => 0 end.
Definition tod_of_kwargs (d : Dict) : Result TOD :=
  if forallb (fun kv => existsb (String.eqb (fst kv)) tod_keywords) d
  then Ok (tod_init (kw d "C10") (kw d "C01") (kw d "C11") (kw d "C20") (kw d "C30") (nonzero (kw d "strain")))
  else Raise TypeError.
(** ... returning DeformationSpace(InvariantsFramework(tod)) as in the documentation, or with
    DistortionalSpace; the objects are freshly constructed by each call of the function. *)
Definition tod_deformation : MaterialFn := fun d =>
  rbind (tod_of_kwargs d) (fun m => let fw := invariants_fw (SV:=unit) (tod_model m) in
    Ok (space_material tt fw (space_self0 fw inv_self0) (def_gradient fw default_opts))).
Definition tod_distortional : MaterialFn := fun d =>
  rbind (tod_of_kwargs d) (fun m => let fw := invariants_fw (SV:=unit) (tod_model m) in
    Ok (space_material tt fw (space_self0 fw inv_self0) (dis_gradient fw default_opts))).
