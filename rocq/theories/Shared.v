(** * Threads that share material objects.

    The methods of the spaces, of the frameworks and of GeneralizedInvariantsModel store
    intermediate results in attributes of [self] and read them back.  Here a method call is a
    program whose steps are single attribute reads and writes, in the order of the source, so
    that calls of several threads on the same objects can be interleaved.

    Not modelled as steps: attributes which are only written by constructors (material, finalize,
    force, area, einsum, strain, kwargs, c1, c2, I10, I20), and array arithmetic (the
    methods write in place only into arrays which they have just allocated and not yet stored:
    the in-place statements are math/_voigt.py 442-447, 935-945 and
    models/stretches/_generalized_invariants.py 258-319; see also C47). *)
From Coq Require Import Reals List Arith.
From Verif Require Import Tensor Py Voigt Models Frameworks Spaces Spec.
From Verif Require Threads.
Import ListNotations.
Local Open Scope R_scope.

(** ** Objects, attributes, programs *)
(** The value of an attribute (one entry of the trailing axes). *)
Inductive aval := AR (x : R) | AO (x : option R) | A3 (x : Vec3) | A6 (x : Vec6) | AM (x : ix3 -> Vec6).
(** Attribute names of the spaces, ... *)
Inductive sattr := aC | aI3 | aCx (* Cu or Co *) | aSb | aSc (* SbC or tr_Sb *) | aInvC | aS.
(** ... of the frameworks, ... *)
Inductive fattr := fI | fI1 | fI2 | fI3 | fdW1 | fdW2 | fdW3 | fdI1 | fdI2 | finvC | fdI3
                 | fl | fM | fdWdl | fdWdlC.
(** ... and of GeneralizedInvariantsModel. *)
Inductive mattr := mE | mdE | md2E | mI1 | mI2 | mI3 | mdW1 | mdW2 | mdW3 | mdI1 | mdI2 | mdI3.
(** An attribute of space number [n], of framework number [n], of the model object which
    framework number [n] has created for itself (frameworks/_generalized.py:206). *)
Inductive addr := ASpace (n : nat) (a : sattr) | AFw (n : nat) (a : fattr) | AMod (n : nat) (a : mattr).
Definition addr_dec : forall a b : addr, {a = b} + {a <> b}.
Proof. repeat decide equality. Defined.
Definition heap := addr -> option aval.
Definition upd (h : heap) (a : addr) (x : aval) : heap :=
  fun b => if addr_dec b a then Some x else h b.

(** A running call: finished with a value, finished with an exception, about to read or to
    write an attribute. *)
Inductive prog (A : Type) : Type :=
| Ret (x : A)
| Exn (e : exn)
| Rd (a : addr) (k : aval -> prog A)
| Wr (a : addr) (x : aval) (k : prog A).
Arguments Ret {A}. Arguments Exn {A}. Arguments Rd {A}. Arguments Wr {A}.
Fixpoint pbind {A B} (p : prog A) (k : A -> prog B) : prog B :=
  match p with
  | Ret x => k x
  | Exn e => Exn e
  | Rd a c => Rd a (fun v => pbind (c v) k)
  | Wr a x c => Wr a x (pbind c k)
  end.
Definition call {A} (r : Result A) : prog A := match r with Ok x => Ret x | Raise e => Exn e end.
Definition wr (a : addr) (x : aval) : prog unit := Wr a x (Ret tt).
(** Reading an attribute (the type of an attribute never changes). *)
Definition rdR a : prog R := Rd a (fun v => match v with AR x => Ret x | _ => Exn TypeError end).
Definition rdO a : prog (option R) := Rd a (fun v => match v with AO x => Ret x | _ => Exn TypeError end).
Definition rd3 a : prog Vec3 := Rd a (fun v => match v with A3 x => Ret x | _ => Exn TypeError end).
Definition rd6 a : prog Vec6 := Rd a (fun v => match v with A6 x => Ret x | _ => Exn TypeError end).
Definition rdM a : prog (ix3 -> Vec6) := Rd a (fun v => match v with AM x => Ret x | _ => Exn TypeError end).
(** A number that may be [None] as a factor. *)
Definition num (x : option R) : prog R := match x with Some x => Ret x | None => Exn TypeError end.
(** A local variable. *)
Definition loc {A} (x : option A) : prog A := match x with Some x => Ret x | None => Exn UnboundLocalError end.
Definition pif {A B} (x : option A) (acc : B) (f : A -> prog B) : prog B :=
  match x with Some a => f a | None => Ret acc end.

Declare Scope prog_scope.
Delimit Scope prog_scope with prog.
Notation "x <~ m ;; k" := (pbind m (fun x => k))
  (at level 61, m at next level, right associativity) : prog_scope.
Notation "' p <~ m ;; k" := (pbind m (fun x => match x with p => k end))
  (at level 61, p pattern, m at next level, right associativity) : prog_scope.
Notation "m ;; k" := (pbind m (fun _ => k))
  (at level 61, right associativity) : prog_scope.
Local Open Scope prog_scope.

(** ** One thread, many threads *)
(** One step.  An attribute which does not exist raises AttributeError. *)
Definition step1 {A} (h : heap) (p : prog A) : heap * prog A :=
  match p with
  | Rd a k => match h a with Some v => (h, k v) | None => (h, Exn AttributeError) end
  | Wr a x k => (upd h a x, k)
  | p => (h, p)
  end.
Definition result {A} (p : prog A) : option (Result A) :=
  match p with Ret x => Some (Ok x) | Exn e => Some (Raise e) | _ => None end.
(** The call alone, from the first to the last step. *)
Fixpoint exec {A} (p : prog A) (h : heap) : heap * Result A :=
  match p with
  | Ret x => (h, Ok x)
  | Exn e => (h, Raise e)
  | Rd a k => match h a with Some v => exec (k v) h | None => (h, Raise AttributeError) end
  | Wr a x k => exec k (upd h a x)
  end.
(** Thread [i] makes one step. *)
Definition stepn {A} (i : nat) (c : heap * list (prog A)) : heap * list (prog A) :=
  match nth_error (snd c) i with
  | Some p => let (h, p) := step1 (fst c) p in (h, Threads.set_nth i p (snd c))
  | None => c
  end.
Definition interleave {A} (sched : list nat) (c : heap * list (prog A)) : heap * list (prog A) :=
  fold_left (fun c i => stepn i c) sched c.
(** The outcome of thread [i], once it has ended. *)
Definition answer {A} (c : heap * list (prog A)) (i : nat) : option (Result A) :=
  match nth_error (snd c) i with Some p => result p | None => None end.

(** The same with a lock which every thread holds during its call:
    [with lock: result = ...]. *)
Inductive lthread (A : Type) : Type := Waits (p : prog A) | Inside (p : prog A) | Done (r : Result A).
Arguments Waits {A}. Arguments Inside {A}. Arguments Done {A}.
(** heap, is the lock taken, threads *)
Definition lconf (A : Type) : Type := heap * bool * list (lthread A).
Definition lstep {A} (i : nat) (c : lconf A) : lconf A :=
  let '(h, taken, ts) := c in
  match nth_error ts i with
  | Some (Waits p) => if taken then c else (h, true, Threads.set_nth i (Inside p) ts)
  | Some (Inside p) =>
      match result p with
      | Some r => (h, false, Threads.set_nth i (Done r) ts)
      | None => let (h, p) := step1 h p in (h, taken, Threads.set_nth i (Inside p) ts)
      end
  | _ => c
  end.
Definition linterleave {A} (sched : list nat) (c : lconf A) : lconf A :=
  fold_left (fun c i => lstep i c) sched c.
Definition lanswer {A} (c : lconf A) (i : nat) : option (Result A) :=
  match nth_error (snd c) i with Some (Done r) => Some r | _ => None end.

Section Programs.
  Context {SV : Type}.

  (** ** Invariants: frameworks/_invariants.py *)
  Section Inv.
    Context (f : nat) (m : InvModel SV).
    (** lines 150-181 *)
    Definition inv_gradient_p (C : Vec6) (sv : SV) : prog (Vec6 * SV) :=
      let I := eye in
      wr (AFw f fI) (A6 I) ;;                                     (* 155 *)
      let I1 := trace C in
      wr (AFw f fI1) (AR I1) ;;                                   (* 157 *)
      wr (AFw f fI2) (AR ((I1 ^ 2 - ddot22 C C) / 2)) ;;          (* 158 *)
      let I3 := det C in
      wr (AFw f fI3) (AR I3) ;;                                   (* 159 *)
      x1 <~ rdR (AFw f fI1) ;; x2 <~ rdR (AFw f fI2) ;; x3 <~ rdR (AFw f fI3) ;;
      '(w1, w2, w3, svn) <~ call (im_gradient m x1 x2 x3 sv) ;;   (* 161-163 *)
      wr (AFw f fdW1) (AO w1) ;; wr (AFw f fdW2) (AO w2) ;; wr (AFw f fdW3) (AO w3) ;;
      let dWdC := vzero in
      t <~ rdO (AFw f fdW1) ;;                                    (* 168-170 *)
      dWdC <~ pif t dWdC (fun _ =>
        wr (AFw f fdI1) (A6 I) ;;
        w <~ rdO (AFw f fdW1) ;; w <~ num w ;; d <~ rd6 (AFw f fdI1) ;;
        Ret (vadd dWdC (vscal w d))) ;;
      t <~ rdO (AFw f fdW2) ;;                                    (* 172-174 *)
      dWdC <~ pif t dWdC (fun _ =>
        wr (AFw f fdI2) (A6 (vsub (vscal I1 I) C)) ;;
        w <~ rdO (AFw f fdW2) ;; w <~ num w ;; d <~ rd6 (AFw f fdI2) ;;
        Ret (vadd dWdC (vscal w d))) ;;
      t <~ rdO (AFw f fdW3) ;;                                    (* 176-179 *)
      dWdC <~ pif t dWdC (fun _ =>
        J <~ rdR (AFw f fI3) ;;
        let invC := inv C (Some J) in
        wr (AFw f finvC) (A6 invC) ;;
        wr (AFw f fdI3) (A6 (vscal I3 invC)) ;;
        w <~ rdO (AFw f fdW3) ;; w <~ num w ;; d <~ rd6 (AFw f fdI3) ;;
        Ret (vadd dWdC (vscal w d))) ;;
      Ret (dWdC, svn).

    (** lines 183-237 *)
    Definition inv_hessian_p (C : Vec6) (sv : SV) : prog Mat6 :=
      '(_, sv) <~ inv_gradient_p C sv ;;                          (* 189 *)
      x1 <~ rdR (AFw f fI1) ;; x2 <~ rdR (AFw f fI2) ;; x3 <~ rdR (AFw f fI3) ;;
      h <~ call (im_hessian m x1 x2 x3 sv) ;;                     (* 190-197 *)
      I <~ rd6 (AFw f fI) ;;                                      (* 198 *)
      let H := mzero in
      t <~ rdO (AFw f fdW1) ;;                                    (* 203-206 *)
      dI1dC <~ pif t None (fun _ => d <~ rd6 (AFw f fdI1) ;; Ret (Some d)) ;;
      t <~ rdO (AFw f fdW2) ;;                                    (* 208-211 *)
      '(dI2dC, H) <~ pif t (None, H) (fun _ =>
        d <~ rd6 (AFw f fdI2) ;;
        let d2I2dCdC := msub6 (dya I I) (cdya1 I) in
        w <~ rdO (AFw f fdW2) ;; w <~ num w ;;
        Ret (Some d, madd6 H (mscal6 w d2I2dCdC))) ;;
      t <~ rdO (AFw f fdW3) ;;                                    (* 213-217 *)
      '(dI3dC, H) <~ pif t (None, H) (fun _ =>
        d <~ rd6 (AFw f fdI3) ;;
        invC <~ rd6 (AFw f finvC) ;;
        J <~ rdR (AFw f fI3) ;;
        let d2I3dCdC := mscal6 J (msub6 (dya invC invC) (cdya1 invC)) in
        w <~ rdO (AFw f fdW3) ;; w <~ num w ;;
        Ret (Some d, madd6 H (mscal6 w d2I3dCdC))) ;;
      (* lines 219-235: only local variables *)
      H <~ pif (h V0) H (fun w =>
        d1 <~ loc dI1dC ;; Ret (madd6 H (mscal6 w (dya d1 d1)))) ;;
      H <~ pif (h V1) H (fun w =>
        d2 <~ loc dI2dC ;; Ret (madd6 H (mscal6 w (dya d2 d2)))) ;;
      H <~ pif (h V2) H (fun _ =>
        d2 <~ loc dI2dC ;; w <~ num (h V1) ;; Ret (madd6 H (mscal6 w (dya d2 d2)))) ;;
      H <~ pif (h V3) H (fun w =>
        d1 <~ loc dI1dC ;; d2 <~ loc dI2dC ;;
        Ret (madd6 H (mscal6 w (madd6 (dya d1 d2) (dya d2 d1))))) ;;
      H <~ pif (h V4) H (fun w =>
        d2 <~ loc dI2dC ;; d3 <~ loc dI3dC ;;
        Ret (madd6 H (mscal6 w (madd6 (dya d2 d3) (dya d3 d2))))) ;;
      H <~ pif (h V5) H (fun w =>
        d1 <~ loc dI1dC ;; d3 <~ loc dI3dC ;;
        Ret (madd6 H (mscal6 w (madd6 (dya d1 d3) (dya d3 d1))))) ;;
      Ret H.
  End Inv.

  (** ** Stretches: frameworks/_stretches.py, on a model with the methods [g] and [h]. *)
  Section Str.
    Context (f : nat) (lapack : Lapack)
            (g : Vec3 -> SV -> prog (Vec3 * SV)) (h : Vec3 -> SV -> prog (ix6 -> option R)).
    (** lines 121-135 *)
    Definition str_gradient_p (C : Vec6) (sv : SV) : prog (Vec6 * SV) :=
      let '(l0, M0) := eigh lapack C sqrt in
      wr (AFw f fl) (A3 l0) ;; wr (AFw f fM) (AM M0) ;;                 (* 126 *)
      l <~ rd3 (AFw f fl) ;;
      '(dWdl, svn) <~ g l sv ;;                                         (* 128 *)
      wr (AFw f fdWdl) (A3 dWdl) ;;
      w <~ rd3 (AFw f fdWdl) ;; wr (AFw f fdWdl) (A3 w) ;;              (* 129: np.asarray *)
      w <~ rd3 (AFw f fdWdl) ;; l <~ rd3 (AFw f fl) ;;
      wr (AFw f fdWdlC) (A3 (fun a => w a / (2 * l a))) ;;              (* 131 *)
      wC <~ rd3 (AFw f fdWdlC) ;; M <~ rdM (AFw f fM) ;;
      Ret ((fun v => sum3 (fun a => wC a * M a v)), svn).               (* 133 *)

    (** lines 137-181 *)
    Definition str_hessian_p (C : Vec6) (sv : SV) : prog Mat6 :=
      '(_, sv) <~ str_gradient_p C sv ;;                                (* 143 *)
      l <~ rd3 (AFw f fl) ;;
      d2Wdldl <~ h l sv ;;                                              (* 144 *)
      let d2Wdldl := fun v => match d2Wdldl v with Some x => x | None => 0 end in
      l <~ rd3 (AFw f fl) ;; M <~ rdM (AFw f fM) ;; dWdlC <~ rd3 (AFw f fdWdlC) ;; (* 154-156 *)
      let d2 := fun v => d2Wdldl v / (4 * l (sa v) * l (sb v)) in
      let d2 := fun v => match v with
         | V0 => d2 V0 - dWdlC X0 / (2 * l X0 ^ 2)
         | V1 => d2 V1 - dWdlC X1 / (2 * l X1 ^ 2)
         | V2 => d2 V2 - dWdlC X2 / (2 * l X2 ^ 2)
         | _ => d2 v end in
      let it := str_iter l M dWdlC d2 in
      Ret (it (it (it (it (it (it mzero V0) V1) V2) V3) V4) V5).
  End Str.

  (** ** GeneralizedInvariantsModel: models/stretches/_generalized_invariants.py *)
  Section Gen.
    Context (f : nat) (m : InvModel SV) (fs : R -> Result StrainVal) (c : GenConst).
    (** [if self.dWdIk is not None: acc += self.dWdIk * self.dIkdE * self.dEdλ], lines 257-264 *)
    Definition gen_add_p (w d : mattr) (acc : Vec3) : prog Vec3 :=
      t <~ rdO (AMod f w) ;;
      pif t acc (fun _ =>
        x <~ rdO (AMod f w) ;; x <~ num x ;; y <~ rd3 (AMod f d) ;; z <~ rd3 (AMod f mdE) ;;
        Ret (fun a => acc a + x * y a * z a)).
    (** lines 227-266 *)
    Definition gen_gradient_p (l : Vec3) (sv : SV) : prog (Vec3 * SV) :=
      s <~ call (strain3 fs l) ;;                                                  (* 232 *)
      wr (AMod f mE) (A3 (fun a => sE (s a))) ;;
      wr (AMod f mdE) (A3 (fun a => sdE (s a))) ;;
      wr (AMod f md2E) (A3 (fun a => sd2E (s a))) ;;
      E <~ rd3 (AMod f mE) ;;                                                      (* 233 *)
      let I1 := E X0 + E X1 + E X2 in
      let I2 := E X0 * E X1 + E X1 * E X2 + E X2 * E X0 in
      let I3 := E X0 * E X1 * E X2 in
      wr (AMod f mI1) (AR (gc1 c * I1 - gI10 c * (gc1 c - 1))) ;;                  (* 240-242 *)
      wr (AMod f mI2) (AR (gc2 c * I2 - gI20 c * (gc2 c - 1))) ;;
      wr (AMod f mI3) (AR I3) ;;
      x1 <~ rdR (AMod f mI1) ;; x2 <~ rdR (AMod f mI2) ;; x3 <~ rdR (AMod f mI3) ;;
      '(w1, w2, w3, svn) <~ call (im_gradient m x1 x2 x3 sv) ;;                    (* 244-246 *)
      wr (AMod f mdW1) (AO w1) ;; wr (AMod f mdW2) (AO w2) ;; wr (AMod f mdW3) (AO w3) ;;
      let Eb := fun a => E (gb a) in
      let Eg := fun a => E (gg a) in
      wr (AMod f mdI1) (A3 (fun _ => gc1 c * 1)) ;;                                (* 251-253 *)
      wr (AMod f mdI2) (A3 (fun a => gc2 c * (Eb a + Eg a))) ;;
      wr (AMod f mdI3) (A3 (fun a => Eb a * Eg a)) ;;
      dW <~ gen_add_p mdW1 mdI1 (fun _ => 0) ;;
      dW <~ gen_add_p mdW2 mdI2 dW ;;
      dW <~ gen_add_p mdW3 mdI3 dW ;;
      Ret (dW, svn).

    (** [if self.dWdIk is not None: H += self.dWdIk * ...], lines 317-336 *)
    Definition gen_hadd_p (w : mattr) (H : ix6 -> R) (t : R -> ix6 -> R) : prog (ix6 -> R) :=
      x <~ rdO (AMod f w) ;;
      pif x H (fun _ => x <~ rdO (AMod f w) ;; x <~ num x ;; Ret (fun v => H v + t x v)).
    (** lines 268-338 *)
    Definition gen_hessian_p (l : Vec3) (sv : SV) : prog (ix6 -> option R) :=
      '(_, _) <~ gen_gradient_p l sv ;;
      x1 <~ rdR (AMod f mI1) ;; x2 <~ rdR (AMod f mI2) ;; x3 <~ rdR (AMod f mI3) ;;
      h <~ call (im_hessian m x1 x2 x3 sv) ;;
      dI1 <~ rd3 (AMod f mdI1) ;; dI2 <~ rd3 (AMod f mdI2) ;; dI3 <~ rd3 (AMod f mdI3) ;;
      dE <~ rd3 (AMod f mdE) ;; d2E <~ rd3 (AMod f md2E) ;;
      let H := fun _ : ix6 => 0 in
      let H := accum (h V0) H (fun d v => d * dI1 (ga6 v) * dI1 (gb6 v)) in
      let H := accum (h V1) H (fun d v => d * dI2 (ga6 v) * dI2 (gb6 v)) in
      let H := accum (h V2) H (fun d v => d * dI3 (ga6 v) * dI3 (gb6 v)) in
      let H := accum (h V3) H (fun d v => d * (dI1 (ga6 v) * dI2 (gb6 v) + dI2 (ga6 v) * dI1 (gb6 v))) in
      let H := accum (h V4) H (fun d v => d * (dI2 (ga6 v) * dI3 (gb6 v) + dI3 (ga6 v) * dI2 (gb6 v))) in
      let H := accum (h V5) H (fun d v => d * (dI1 (ga6 v) * dI3 (gb6 v) + dI3 (ga6 v) * dI1 (gb6 v))) in
      H <~ gen_hadd_p mdW2 H (fun w v => if mixed v then w * gc2 c else 0) ;;
      H <~ gen_hadd_p mdW3 H (fun w v => if mixed v then w * gEg v else 0) ;;
      let H := fun v => H v * (dE (ga6 v) * dE (gb6 v)) in
      H <~ gen_hadd_p mdW1 H (fun w v => if mixed v then 0 else w * dI1 (ga6 v) * d2E (ga6 v)) ;;
      H <~ gen_hadd_p mdW2 H (fun w v => if mixed v then 0 else w * dI2 (ga6 v) * d2E (ga6 v)) ;;
      H <~ gen_hadd_p mdW3 H (fun w v => if mixed v then 0 else w * dI3 (ga6 v) * d2E (ga6 v)) ;;
      Ret (fun v => Some (H v)).
  End Gen.

  (** ** Spaces, on a framework with the methods [g] and [h]. *)
  Section Sp.
    Context (o : SpaceOpts) (n : nat)
            (g : Vec6 -> SV -> prog (Vec6 * SV)) (h : Vec6 -> SV -> prog Mat6).
    (** _deformation.py:69-80 *)
    Definition def_gradient_p (F : T2) (sv : SV) : prog (StressOut * SV) :=
      wr (ASpace n aC) (A6 (right_CG F)) ;;
      C <~ rd6 (ASpace n aC) ;;
      '(dWdC, svn) <~ g C sv ;;
      wr (ASpace n aS) (A6 (vscal 2 dWdC)) ;;
      S <~ rd6 (ASpace n aS) ;;
      Ret (piola_stress o F S None, svn).
    (** _deformation.py:82-91 *)
    Definition def_hessian_p (F : T2) (sv : SV) : prog ElastOut :=
      '(_, _) <~ def_gradient_p F sv ;;
      C <~ rd6 (ASpace n aC) ;;
      d2WdCdC <~ h C sv ;;
      S <~ rd6 (ASpace n aS) ;;
      Ret (piola_elast o F S None (mscal6 4 d2WdCdC) None).

    (** _distortional.py:154-171 *)
    Definition dis_gradient_p (F : T2) (sv : SV) : prog (StressOut * SV) :=
      let C := right_CG F in
      wr (ASpace n aC) (A6 C) ;;
      let I3 := det C in
      wr (ASpace n aI3) (AR I3) ;;
      wr (ASpace n aCx) (A6 (vscal (Rpower I3 (- 1 / 3)) C)) ;;
      Cu <~ rd6 (ASpace n aCx) ;;
      '(dWudCu, svn) <~ g Cu sv ;;
      let Sb := vscal (2 * Rpower I3 (- 1 / 3)) dWudCu in
      wr (ASpace n aSb) (A6 Sb) ;;
      let SbC := ddot22 Sb C in
      wr (ASpace n aSc) (AR SbC) ;;
      let invC := inv C (Some I3) in
      wr (ASpace n aInvC) (A6 invC) ;;
      wr (ASpace n aS) (A6 (vsub Sb (vscal (SbC / 3) invC))) ;;
      S <~ rd6 (ASpace n aS) ;; J <~ rdR (ASpace n aI3) ;;
      Ret (piola_stress o F S (Some (sqrt J)), svn).
    (** _distortional.py:173-197 *)
    Definition dis_hessian_p (F : T2) (sv : SV) : prog ElastOut :=
      '(_, _) <~ dis_gradient_p F sv ;;
      _ <~ rd6 (ASpace n aC) ;;                                           (* 180: eye(self.C) *)
      let I := eye in
      Cu <~ rd6 (ASpace n aCx) ;;
      d2WdCdC <~ h Cu sv ;;                                               (* 182 *)
      J <~ rdR (ASpace n aI3) ;;
      let C4b := mscal6 (4 * Rpower J (- 2 / 3)) d2WdCdC in               (* 183 *)
      i1 <~ rd6 (ASpace n aInvC) ;; C <~ rd6 (ASpace n aC) ;;
      let P4 := msub6 (cdya1 I) (mscal6 (/ 3) (dya i1 C)) in              (* 185 *)
      i2 <~ rd6 (ASpace n aInvC) ;; i3 <~ rd6 (ASpace n aInvC) ;;
      let I4 := cdya i2 i3 in                                             (* 186 *)
      Sb <~ rd6 (ASpace n aSb) ;; i4 <~ rd6 (ASpace n aInvC) ;;
      let SbinvC := dya Sb i4 in                                          (* 188 *)
      let invCSb := transpose SbinvC in
      i5 <~ rd6 (ASpace n aInvC) ;; i6 <~ rd6 (ASpace n aInvC) ;;
      let invCinvC := dya i5 i6 in                                        (* 190 *)
      s1 <~ rdR (ASpace n aSc) ;; s2 <~ rdR (ASpace n aSc) ;;
      let C4 := mscal6 (2 / 3)                                            (* 192 *)
                  (madd6 (msub6 (msub6 (mscal6 s1 I4) SbinvC) invCSb)
                         (mscal6 (s2 / 3) invCinvC)) in
      let C4 := if allclose0 C4b then C4
                else madd6 C4 (ddot44 (ddot44 P4 C4b) (transpose P4)) in  (* 194-195 *)
      S <~ rd6 (ASpace n aS) ;; J <~ rdR (ASpace n aI3) ;; i7 <~ rd6 (ASpace n aInvC) ;;
      Ret (piola_elast o F S (Some (sqrt J)) C4 (Some i7)).               (* 197 *)

    (** _dilatational.py:17-30 *)
    Definition dil_gradient_p (F : T2) (sv : SV) : prog (StressOut * SV) :=
      wr (ASpace n aC) (A6 (right_CG F)) ;;
      C <~ rd6 (ASpace n aC) ;;
      wr (ASpace n aI3) (AR (det C)) ;;
      J <~ rdR (ASpace n aI3) ;; C <~ rd6 (ASpace n aC) ;;
      wr (ASpace n aCx) (A6 (vscal (Rpower J (1 / 3)) C)) ;;
      Co <~ rd6 (ASpace n aCx) ;;
      '(dWodCo, svn) <~ g Co sv ;;
      J <~ rdR (ASpace n aI3) ;;
      wr (ASpace n aSb) (A6 (vscal (2 * Rpower J (1 / 3)) dWodCo)) ;;
      Sb <~ rd6 (ASpace n aSb) ;;
      wr (ASpace n aSc) (AR (trace Sb)) ;;
      C <~ rd6 (ASpace n aC) ;; J <~ rdR (ASpace n aI3) ;;
      wr (ASpace n aInvC) (A6 (inv C (Some J))) ;;
      t <~ rdR (ASpace n aSc) ;; i <~ rd6 (ASpace n aInvC) ;;
      wr (ASpace n aS) (A6 (vscal (t / 3) i)) ;;
      S <~ rd6 (ASpace n aS) ;; J <~ rdR (ASpace n aI3) ;;
      Ret (piola_stress o F S (Some (sqrt J)), svn).
    (** _dilatational.py:32-48 *)
    Definition dil_hessian_p (F : T2) (sv : SV) : prog ElastOut :=
      '(_, _) <~ dil_gradient_p F sv ;;
      Co <~ rd6 (ASpace n aCx) ;;
      d2WodCodCo <~ h Co sv ;;
      J <~ rdR (ASpace n aI3) ;;
      let C4b := mscal6 (4 * Rpower J (2 / 3)) d2WodCodCo in
      _ <~ rd6 (ASpace n aC) ;;
      let I := eye in
      let tr_C4b := ddot22 (ddot24 I C4b) I in
      i1 <~ rd6 (ASpace n aInvC) ;; i2 <~ rd6 (ASpace n aInvC) ;;
      let I4 := cdya i1 i2 in
      t1 <~ rdR (ASpace n aSc) ;;
      i3 <~ rd6 (ASpace n aInvC) ;; i4 <~ rd6 (ASpace n aInvC) ;;
      t2 <~ rdR (ASpace n aSc) ;;
      let C4 := msub6 (mscal6 (/ 9) (mscal6 (2 * t1 + tr_C4b) (dya i3 i4)))
                      (mscal6 (2 / 3 * t2) I4) in
      S <~ rd6 (ASpace n aS) ;; J <~ rdR (ASpace n aI3) ;; i5 <~ rd6 (ASpace n aInvC) ;;
      Ret (piola_elast o F S (Some (sqrt J)) C4 (Some i5)).
    Definition sp_gradient_p (k : SpaceKind) :=
      match k with KDeformation => def_gradient_p | KDistortional => dis_gradient_p | KDilatational => dil_gradient_p end.
    Definition sp_hessian_p (k : SpaceKind) :=
      match k with KDeformation => def_hessian_p | KDistortional => dis_hessian_p | KDilatational => dil_hessian_p end.
  End Sp.

  (** ** A world of objects *)
  (** What a framework object is: Invariants on a model, Stretches on a model without
      attributes, GeneralizedInvariants (= Stretches on its own GeneralizedInvariantsModel). *)
  Inductive fwobj :=
  | OInv (m : InvModel SV)
  | OStr (lapack : Lapack) (g : Vec3 -> SV -> Result (Vec3 * SV)) (h : Vec3 -> SV -> Result (ix6 -> option R))
  | OGen (lapack : Lapack) (m : InvModel SV) (fs : R -> Result StrainVal) (c : GenConst).
  Record world := {
    spaces : nat -> SpaceKind * SpaceOpts * nat;   (* class, options, number of the framework *)
    fws : nat -> fwobj
  }.
  (** A call: number of the space, gradient or hessian, arguments. *)
  Record request := { on : nat; hess : bool; arg : T2; state : SV }.
  Inductive reply := GradReply (x : StressOut * SV) | HessReply (x : ElastOut).

  Definition fw_gradient_p (f : nat) (ob : fwobj) : Vec6 -> SV -> prog (Vec6 * SV) :=
    match ob with
    | OInv m => inv_gradient_p f m
    | OStr la g h => str_gradient_p f la (fun l sv => call (g l sv))
    | OGen la m fs c => str_gradient_p f la (gen_gradient_p f m fs c)
    end.
  Definition fw_hessian_p (f : nat) (ob : fwobj) : Vec6 -> SV -> prog Mat6 :=
    match ob with
    | OInv m => inv_hessian_p f m
    | OStr la g h => str_hessian_p f la (fun l sv => call (g l sv)) (fun l sv => call (h l sv))
    | OGen la m fs c => str_hessian_p f la (gen_gradient_p f m fs c) (gen_hessian_p f m fs c)
    end.
  (** The program of a call. *)
  Definition program (w : world) (q : request) : prog reply :=
    let '(k, o, f) := spaces w (on q) in
    let g := fw_gradient_p f (fws w f) in
    let h := fw_hessian_p f (fws w f) in
    if hess q then x <~ sp_hessian_p o (on q) g h k (arg q) (state q) ;; Ret (HessReply x)
    else x <~ sp_gradient_p o (on q) g k (arg q) (state q) ;; Ret (GradReply x).

  (** ** What the call should return: the outcome of the sequential model (Spaces.v,
      Frameworks.v) on freshly constructed objects. *)
  Definition plain_model (g : Vec3 -> SV -> Result (Vec3 * SV)) (h : Vec3 -> SV -> Result (ix6 -> option R)) : StretchModel SV :=
    {| sm_self := unit; sm_gradient := fun l sv => lift (g l sv); sm_hessian := fun l sv => lift (h l sv) |}.
  Definition fw_of (ob : fwobj) : Framework SV :=
    match ob with
    | OInv m => invariants_fw m
    | OStr la g h => stretches_fw la (plain_model g h)
    | OGen la m fs c => stretches_fw la (gen_model m fs c)
    end.
  Definition fresh (ob : fwobj) : fw_self (fw_of ob) :=
    match ob return fw_self (fw_of ob) with
    | OInv m => inv_self0
    | OStr la g h => Build_StrSelf (plain_model g h) None None tt
    | OGen la m fs c => Build_StrSelf (gen_model m fs c) None None gen_self0
    end.
  Definition rmap {A B} (f : A -> B) (r : Result A) : Result B :=
    match r with Ok x => Ok (f x) | Raise e => Raise e end.
  Definition expected (w : world) (q : request) : Result reply :=
    let '(k, o, f) := spaces w (on q) in
    let fw := fw_of (fws w f) in
    let s := space_self0 fw (fresh (fws w f)) in
    if hess q then rmap HessReply (outcome (sp_hessian k fw o (arg q) (state q)) s)
    else rmap GradReply (outcome (sp_gradient k fw o (arg q) (state q)) s).
End Programs.
