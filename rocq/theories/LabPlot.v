(** * Model of the plotting code: lab/_plotting.py and Optimize.plot (lab/_optimize.py:217-256).

    matplotlib is reduced to what is handed to it: the state is the list of all axes that
    exist (plt.subplots() creates one figure with one axes, so figures and axes have the same
    numbers), each with its lines, labels, texts and title.  Not modelled: pixels, the
    formatting of numbers ([f"{p:1.2g}"]: the text box keeps the numbers), layout. *)
From Coq Require Import Reals List String ZArith Bool DecimalString.
From Verif Require Import Tensor Py Lab.
Import ListNotations.
Local Open Scope R_scope.
Local Open Scope py_scope.

(** ** matplotlib *)
Record Line := { ln_x : list R; ln_y : list R; ln_style : list string; ln_label : string; ln_width : option R }.
(** The text box of Optimize.plot: name, value and plus/minus of the parameters; the norm of
    the residuals; the mean relative standard deviation in percent. *)
Record TextBox := { tx_params : list (string * R * Ext); tx_norm : R; tx_std : Ext }.
Record Axes := {
  ax_lines : list Line; ax_xlabel : string; ax_ylabel : string; ax_legend : bool;
  ax_texts : list TextBox; ax_title : option string }.
Definition empty_axes : Axes :=
  {| ax_lines := []; ax_xlabel := ""; ax_ylabel := ""; ax_legend := false; ax_texts := []; ax_title := None |}.
Definition Canvas := list Axes.
(** [fig, ax = plt.subplots()] *)
Definition subplots : PY Canvas nat := fun c => (c ++ [empty_axes], Ok (List.length c)).
Fixpoint upd_axes (k : nat) (f : Axes -> Axes) (c : Canvas) : Canvas :=
  match c, k with
  | [], _ => []
  | a :: c, 0%nat => f a :: c
  | a :: c, S k => a :: upd_axes k f c
  end.
Definition on_axes (k : nat) (f : Axes -> Axes) : PY Canvas unit := fun c => (upd_axes k f c, Ok tt).
Definition add_line (l : Line) (a : Axes) : Axes :=
  {| ax_lines := ax_lines a ++ [l]; ax_xlabel := ax_xlabel a; ax_ylabel := ax_ylabel a;
     ax_legend := ax_legend a; ax_texts := ax_texts a; ax_title := ax_title a |}.
Definition set_axis_labels (x y : string) (a : Axes) : Axes :=
  {| ax_lines := ax_lines a; ax_xlabel := x; ax_ylabel := y;
     ax_legend := ax_legend a; ax_texts := ax_texts a; ax_title := ax_title a |}.
Definition add_legend (a : Axes) : Axes :=
  {| ax_lines := ax_lines a; ax_xlabel := ax_xlabel a; ax_ylabel := ax_ylabel a;
     ax_legend := true; ax_texts := ax_texts a; ax_title := ax_title a |}.
Definition add_text (t : TextBox) (a : Axes) : Axes :=
  {| ax_lines := ax_lines a; ax_xlabel := ax_xlabel a; ax_ylabel := ax_ylabel a;
     ax_legend := ax_legend a; ax_texts := ax_texts a ++ [t]; ax_title := ax_title a |}.
Definition set_title (t : string) (a : Axes) : Axes :=
  {| ax_lines := ax_lines a; ax_xlabel := ax_xlabel a; ax_ylabel := ax_ylabel a;
     ax_legend := ax_legend a; ax_texts := ax_texts a; ax_title := Some t |}.
(** [ax.plot(x, y, ...)]: x and y must have the same length. *)
Definition ax_plot (k : nat) (l : Line) : PY Canvas unit :=
  if Nat.eqb (List.length (ln_x l)) (List.length (ln_y l)) then on_axes k (add_line l) else raise ValueError.

(** ** LabPlotter: _plotting.py *)
(** The common part of plot_force_displacement (lines 10-34) and plot_stress_stretch (lines
    36-58).  [x], [y]: the values (or exceptions) of the attributes and methods read in the
    call of [ax.plot]; [self_label]: self.label. *)
Definition lab_plot (x y : Result (list R)) (self_label : string) (style : list string)
    (xlabel ylabel : string) (ax : option nat) (label : option string) (lw : option R) : PY Canvas nat :=
  ax <- (match ax with None => subplots | Some a => ret a end) ;;
  let label := match label with None => self_label | Some l => l end in
  x <- lift x ;;
  y <- lift y ;;
  ax_plot ax {| ln_x := x; ln_y := y; ln_style := style; ln_label := label; ln_width := lw |} ;;
  on_axes ax (set_axis_labels xlabel ylabel) ;;
  ret ax.
Definition stretch_label : string := "Stretch $l/L$".
Definition stress_label : string := "Force per undeformed area $F/A$".
Definition displacement_label : string := "Displacement $d$".
Definition force_label : string := "Force $F$".
Definition data_list (d : Data) : list R := match d with NdArray l => l | PyList l => l end.

(** Experiment objects (lab/_experiment.py). *)
Definition experiment_stress_stretch (e : Experiment) style xl yl ax label lw : PY Canvas nat :=
  lab_plot (Ok (ex_stretch e)) (experiment_stress e) (ex_label e) style xl yl ax label lw.
Definition experiment_force_displacement (e : Experiment) style xl yl ax label lw : PY Canvas nat :=
  lab_plot (Ok (data_list (displacement e))) (Ok (data_list (ex_force e))) (ex_label e) style xl yl ax label lw.

(** Simulation objects (lab/_simulation.py): label is that of the load case (line 105);
    there are no attributes displacement and force. *)
Definition simulation_stress_stretch (sims : nat -> SimStatic) (w : World) (i : nat) style xl yl ax label lw
    : PY Canvas nat :=
  lab_plot (Ok (si_stretch (sims i))) (simulation_stress sims w i) (lc_label (si_loadcase (sims i)))
    style xl yl ax label lw.
Definition simulation_force_displacement (sims : nat -> SimStatic) (i : nat) style xl yl ax label lw
    : PY Canvas nat :=
  lab_plot (Raise AttributeError) (Raise AttributeError) (lc_label (si_loadcase (sims i)))
    style xl yl ax label lw.

(** ** Optimize: statistics *)
(** [e / np.abs(p)] for a standard deviation e >= 0. *)
Definition ext_div_abs (e : Ext) (p : R) : Ext :=
  match e with
  | NaN => NaN
  | Inf => Inf
  | Fin x => if Req_EM_T p 0 then (if Req_EM_T x 0 then NaN else Inf) else Fin (x / Rabs p)
  end.
Definition ext_add (a b : Ext) : Ext :=
  match a, b with
  | NaN, _ | _, NaN => NaN
  | Inf, _ | _, Inf => Inf
  | Fin x, Fin y => Fin (x + y)
  end.
Definition ext_scale (c : R) (a : Ext) : Ext := match a with Fin x => Fin (c * x) | e => e end.
(** [np.mean] (nan for an empty array) *)
Definition ext_mean (l : list Ext) : Ext :=
  match l with [] => NaN | _ => ext_scale (/ INR (List.length l)) (fold_right ext_add (Fin 0) l) end.
(** mean_relative_std, _optimize.py:188-193 *)
Definition mean_relative_std_of (w : World) : Result Ext :=
  match op_errors w with
  | None => Raise AttributeError
  | Some e => rbind (broadcast1 ext_div_abs e (elements (heap w (op_par w))))
                (fun q => Ok (ext_scale 100 (ext_mean q)))
  end.

(** ** Optimize.plot, _optimize.py:217-256 *)
Definition color (i : nat) : string := ("C" ++ NilEmpty.string_of_uint (Nat.to_uint i))%string.
Section Plot.
  Context (sims : nat -> SimStatic) (experiments : list Experiment) (simulations : list nat) (w : World).
  (** lines 220-229 *)
  Fixpoint plot_pairs (i : nat) (l : list (nat * Experiment)) (ax : nat) : PY Canvas nat :=
    match l with
    | [] => ret ax
    | (s, e) :: l =>
        ax <- simulation_stress_stretch sims w s [color i] stretch_label stress_label (Some ax)
                (Some (ex_label e)) (Some 3) ;;
        ax <- experiment_stress_stretch e [color i] stretch_label stress_label (Some ax)
                (Some (ex_label e ++ " (Experiment)")%string) (Some (7 / 10)) ;;
        plot_pairs (S i) l ax
    end.
  (** The variable [simulation] after the loop. *)
  Definition last_simulation : option nat :=
    match List.rev (combine simulations experiments) with [] => None | (s, _) :: _ => Some s end.
  Definition zip3 {A B C} (a : list A) (b : list B) (c : list C) : list (A * B * C) := combine (combine a b) c.
  Definition optimize_plot (title : option string) : PY Canvas nat :=
    ax <- subplots ;;
    ax <- plot_pairs 0 (combine simulations experiments) ax ;;
    on_axes ax add_legend ;;
    s <- local last_simulation ;;
    errors <- attr (op_errors w) ;;
    let params := map (fun x => (fst x, ext_scale 2 (snd x)))
                    (zip3 (si_labels (sims s)) (elements (heap w (op_par w))) errors) in
    norm <- lift (norm_residuals w) ;;
    std <- lift (mean_relative_std_of w) ;;
    on_axes ax (add_text {| tx_params := params; tx_norm := norm; tx_std := std |}) ;;
    (match title with None => ret tt | Some t => on_axes ax (set_title t) end) ;;
    ret ax.
End Plot.
