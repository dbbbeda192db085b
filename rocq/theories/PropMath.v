(** * Properties C01 - C08: tensor algebra in reduced vector storage.

    Statements only; [A], [B] are full tensors or reduced arrays, the right-hand sides use
    the full-tensor vocabulary of Tensor.v. *)
From Coq Require Import Reals Lra.
From Verif Require Import Tensor Voigt VoigtProofs Algebra Spec EighProofs.
Local Open Scope R_scope.

(** ** C01 *)
Theorem C01_tensor_roundtrip : forall A : T2, sym2 A ->
  forall i j, astensor (asvoigt A) i j = A i j.
Proof. exact astensor_asvoigt. Qed.
Print Assumptions C01_tensor_roundtrip.
Theorem C01_voigt_roundtrip : forall (a : Vec6) v, asvoigt (astensor a) v = a v.
Proof. exact asvoigt_astensor. Qed.
Print Assumptions C01_voigt_roundtrip.
Theorem C01_tensor4_roundtrip : forall A : T4, minor4 A ->
  forall i j k l, astensor4 (asvoigt4 A) i j k l = A i j k l.
Proof. exact astensor4_asvoigt4. Qed.
Print Assumptions C01_tensor4_roundtrip.
Theorem C01_voigt4_roundtrip : forall (a : Mat6) v w, asvoigt4 (astensor4 a) v w = a v w.
Proof. exact asvoigt4_astensor4. Qed.
Print Assumptions C01_voigt4_roundtrip.
Theorem C01_astensor_symmetric : forall (a : Vec6) (b : Mat6), sym2 (astensor a) /\ minor4 (astensor4 b).
Proof. exact (fun a b => conj (astensor_sym a) (astensor4_minor b)). Qed.
Print Assumptions C01_astensor_symmetric.
(** A non-symmetric tensor: the upper triangle is kept (and mirrored). *)
Theorem C01_upper_triangle_kept : forall (A : T2) i j, astensor (asvoigt A) i j =
  match i, j with X1, X0 => A X0 X1 | X2, X0 => A X0 X2 | X2, X1 => A X1 X2 | _, _ => A i j end.
Proof. exact astensor_upper. Qed.
Print Assumptions C01_upper_triangle_kept.
(** Hypotheses are met by non-trivial tensors; not by all. *)
Example C01_sym_example : sym2 (fun i j => match i, j with X0, X1 | X1, X0 => 7 | X2, X2 => 2 | _, _ => 1 end)
  /\ ~ sym2 (fun i j => match i, j with X0, X1 => 7 | _, _ => 0 end).
Proof. split; [intros i j; destruct i, j; reflexivity|intro H; specialize (H X0 X1); cbn in H; lra]. Qed.
Example C01_minor_not_major : minor4 (fun i j k l => match i, j, k, l with X0, X0, X1, X1 => 1 | _, _, _, _ => 0 end)
  /\ ~ major4 (fun i j k l => match i, j, k, l with X0, X0, X1, X1 => 1 | _, _, _, _ => 0 end).
Proof. split; [intros i j k l; destruct i, j, k, l; split; reflexivity|intro H; specialize (H X0 X0 X1 X1); cbn in H; lra]. Qed.

(** ** C02 *)
Theorem C02_trace : forall A : T2, sym2 A -> trace (asvoigt A) = tr2 A.
Proof. exact (fun A _ => trace_full A). Qed.
Print Assumptions C02_trace.
Theorem C02_det : forall A : T2, sym2 A -> det (asvoigt A) = det3 A.
Proof. exact det_full. Qed.
Print Assumptions C02_det.
Theorem C02_det_cauchy_green : forall F : T2, det (asvoigt (cauchy_green F)) = det3 F ^ 2.
Proof. exact det_cauchy_green. Qed.
Print Assumptions C02_det_cauchy_green.
Example C02_example : let A : T2 := fun i j => match i, j with X0, X0 => 2 | X1, X1 => 3 | X2, X2 => 4 | X0, X1 | X1, X0 => 1 | _, _ => 0 end in
  sym2 A /\ trace (asvoigt A) = 9 /\ det (asvoigt A) = 20.
Proof. split; [intros i j; destruct i, j; reflexivity|]. unfold trace, det, asvoigt; cbn. split; ring. Qed.

(** ** C03 *)
Theorem C03_inv_two_sided : forall a : Vec6, det a <> 0 ->
  forall i j, mmul (astensor a) (astensor (inv a None)) i j = one2 i j /\
              mmul (astensor (inv a None)) (astensor a) i j = one2 i j.
Proof. exact (fun a H i j => conj (inv_right a H i j) (inv_left a H i j)). Qed.
Print Assumptions C03_inv_two_sided.
Theorem C03_inv_symmetric : forall (a : Vec6) d, sym2 (astensor (inv a d)).
Proof. exact (fun a d => astensor_sym (inv a d)). Qed.
Print Assumptions C03_inv_symmetric.
Theorem C03_determinant_given : forall (a : Vec6) v, inv a (Some (det a)) v = inv a None v.
Proof. exact (fun a v => eq_refl). Qed.
Print Assumptions C03_determinant_given.
Theorem C03_other_determinant : forall (a : Vec6) d v, det a <> 0 -> d <> 0 ->
  inv a (Some d) v = det a / d * inv a None v.
Proof. exact inv_other_det. Qed.
Print Assumptions C03_other_determinant.
Example C03_example : det (fun v => match v with V0 => 2 | V1 => 3 | V2 => 5 | V3 => 1 | V4 => -1 | V5 => 0 end) = 23.
Proof. unfold det; ring. Qed.

(** ** C04 *)
Theorem C04_dot : forall (a b : Vec6) i j, dot a b i j = mmul (astensor a) (astensor b) i j.
Proof. exact dot_full. Qed.
Print Assumptions C04_dot.
Theorem C04_ddot22 : forall a b : Vec6, ddot22 a b = dc22 (astensor a) (astensor b).
Proof. exact ddot22_full. Qed.
Print Assumptions C04_ddot22.
Theorem C04_ddot42 : forall (A : Mat6) b i j, astensor (ddot42 A b) i j = dc42 (astensor4 A) (astensor b) i j.
Proof. exact ddot42_full. Qed.
Print Assumptions C04_ddot42.
Theorem C04_ddot24 : forall a (B : Mat6) i j, astensor (ddot24 a B) i j = dc24 (astensor a) (astensor4 B) i j.
Proof. exact ddot24_full. Qed.
Print Assumptions C04_ddot24.
Theorem C04_ddot44 : forall (A B : Mat6) i j k l,
  astensor4 (ddot44 A B) i j k l = dc44 (astensor4 A) (astensor4 B) i j k l.
Proof. exact ddot44_full. Qed.
Print Assumptions C04_ddot44.

(** ** C05 *)
Theorem C05_dya : forall (a b : Vec6) i j k l, astensor4 (dya a b) i j k l = astensor a i j * astensor b k l.
Proof. exact dya_full. Qed.
Print Assumptions C05_dya.
Theorem C05_cdya_ik : forall (a b : Vec6) i j k l, cdya_ik a b i j k l = astensor a i k * astensor b j l.
Proof. exact cdya_ik_full. Qed.
Print Assumptions C05_cdya_ik.
Theorem C05_cdya_il : forall (a b : Vec6) i j k l, cdya_il a b i j k l = astensor a i l * astensor b k j.
Proof. exact cdya_il_full. Qed.
Print Assumptions C05_cdya_il.
Theorem C05_cdya : forall (a b : Vec6) i j k l,
  astensor4 (cdya a b) i j k l =
  (astensor a i k * astensor b j l + astensor a i l * astensor b k j
   + astensor b i k * astensor a j l + astensor b i l * astensor a k j) / 4.
Proof. exact cdya_full. Qed.
Print Assumptions C05_cdya.
Theorem C05_cdya_same_object : forall (a : Vec6) v w, cdya_obj true a a v w = cdya_obj false a a v w.
Proof. exact cdya_obj_same. Qed.
Print Assumptions C05_cdya_same_object.
Theorem C05_cdya_symmetries : forall a b : Vec6,
  minor4 (astensor4 (cdya a b)) /\ major4 (astensor4 (cdya a b)) /\ (forall v w, cdya a b v w = cdya b a v w).
Proof. exact (fun a b => conj (astensor4_minor _) (conj (fun i j k l => cdya_major a b (vix i j) (vix k l)) (cdya_comm a b))). Qed.
Print Assumptions C05_cdya_symmetries.
Theorem C05_cdya_bilinear : forall x y (a b c : Vec6) v w,
  cdya (vadd (vscal x a) (vscal y b)) c v w = x * cdya a c v w + y * cdya b c v w /\
  cdya c (vadd (vscal x a) (vscal y b)) v w = x * cdya c a v w + y * cdya c b v w.
Proof. exact (fun x y a b c v w => conj (cdya_bilin_l x y a b c v w) (cdya_bilin_r x y a b c v w)). Qed.
Print Assumptions C05_cdya_bilinear.
Theorem C05_dya_transpose : forall (a b : Vec6) v w, transpose (dya a b) v w = dya b a v w.
Proof. exact dya_transpose. Qed.
Print Assumptions C05_dya_transpose.
Theorem C05_cdya_ik_major : forall a b : Vec6, major4 (cdya_ik a b).
Proof. exact cdya_ik_major. Qed.
Print Assumptions C05_cdya_ik_major.
(** transpose is the major transpose, and an involution. *)
Theorem C05_transpose : forall (A : Mat6) i j k l,
  astensor4 (transpose A) i j k l = astensor4 A k l i j /\ transpose (transpose A) = A.
Proof. exact (fun A i j k l => conj eq_refl eq_refl). Qed.
Print Assumptions C05_transpose.

(** ** C06 *)
Theorem C06_dev_trace_free : forall a : Vec6, trace (dev a) = 0.
Proof. exact dev_trace. Qed.
Print Assumptions C06_dev_trace_free.
Theorem C06_dev_idempotent : forall (a : Vec6) v, dev (dev a) v = dev a v.
Proof. exact dev_idem. Qed.
Print Assumptions C06_dev_idempotent.
Theorem C06_dev_fixed_points : forall a : Vec6, (forall v, dev a v = a v) <-> trace a = 0.
Proof. exact dev_fix. Qed.
Print Assumptions C06_dev_fixed_points.
Theorem C06_dev_split : forall (a : Vec6) i j,
  astensor (dev a) i j = astensor a i j - tr2 (astensor a) / 3 * delta i j.
Proof. exact dev_full. Qed.
Print Assumptions C06_dev_split.
Theorem C06_eye : forall i j, astensor eye i j = delta i j.
Proof. exact eye_full. Qed.
Print Assumptions C06_eye.
(** Neither a multiple of the identity nor trace-free; and a trace-free one. *)
Example C06_example : let a : Vec6 := fun v => match v with V0 => 3 | V3 => 5 | _ => 0 end in
  dev a V0 = 2 /\ dev a V1 = -1 /\ dev a V3 = 5 /\ trace a <> 0 /\ trace (fun v => match v with V0 => 1 | V1 => -1 | V4 => 7 | _ => 0 end) = 0.
Proof. unfold dev, vsub, vscal, eye, trace; cbn. repeat split; lra. Qed.

(** ** C07 (matrices of any size, indexed by natural numbers) *)
Theorem C07_tril_symmetric : forall A dim r c, (r < dim)%nat -> (c < dim)%nat ->
  tril_from_triu A dim None r c = tril_from_triu A dim None c r.
Proof. exact tril_sym. Qed.
Print Assumptions C07_tril_symmetric.
(** What is not touched: the diagonal, the upper triangle and everything outside the
    leading block, also with out= given. *)
Theorem C07_tril_keeps_rest : forall A dim out r c, (r <= c)%nat \/ (dim <= r)%nat ->
  tril_from_triu A dim out r c = match out with None => A r c | Some o => o r c end.
Proof. exact tril_keep. Qed.
Print Assumptions C07_tril_keeps_rest.
Theorem C07_tril_writes : forall A dim out r c, (c < r < dim)%nat -> tril_from_triu A dim out r c = A c r.
Proof. exact tril_write. Qed.
Print Assumptions C07_tril_writes.
Theorem C07_tril_fixed_iff_symmetric : forall A dim,
  (forall r c, tril_from_triu A dim None r c = A r c) <->
  (forall r c, (r < dim)%nat -> (c < dim)%nat -> A r c = A c r).
Proof. exact tril_fix. Qed.
Print Assumptions C07_tril_fixed_iff_symmetric.
Theorem C07_idempotent : forall A dim r c,
  tril_from_triu (tril_from_triu A dim None) dim None r c = tril_from_triu A dim None r c /\
  triu_from_tril (triu_from_tril A dim None) dim None r c = triu_from_tril A dim None r c.
Proof. exact (fun A dim r c => conj (tril_idem A dim r c) (triu_idem A dim r c)). Qed.
Print Assumptions C07_idempotent.
Theorem C07_in_place : forall A dim,
  tril_from_triu A dim (Some A) = tril_from_triu A dim None /\
  triu_from_tril A dim (Some A) = triu_from_tril A dim None.
Proof. exact (fun A dim => conj eq_refl eq_refl). Qed.
Print Assumptions C07_in_place.
Theorem C07_triu_mirror : forall A dim out r c,
  triu_from_tril A dim out r c =
  tril_from_triu (fun i j => A j i) dim
     (match out with None => None | Some o => Some (fun i j => o j i) end) c r.
Proof. exact triu_mirror. Qed.
Print Assumptions C07_triu_mirror.
(** A leading 2x2 block of a larger matrix: only entry (1, 0) is written. *)
Example C07_example : let A := fun r c : nat => INR (3 * r + c) in
  tril_from_triu A 2 None 1 0 = 1 /\ A 1%nat 0%nat = 3 /\ tril_from_triu A 2 None 2 0 = 6 /\ tril_from_triu A 3 None 2 0 = 2.
Proof.
  intro A. split; [rewrite C07_tril_writes by (split; repeat constructor); unfold A; cbn; lra|].
  split; [unfold A; cbn; lra|]. split; [rewrite C07_tril_keeps_rest by (right; repeat constructor); unfold A; cbn; lra|].
  rewrite C07_tril_writes by (split; repeat constructor); unfold A; cbn; lra.
Qed.

(** ** C08.  [lapack_at lapack a]: the pair returned by LAPACK for the matrix [astensor a]
    satisfies [eig_legal] (Tensor.v); defined in Spec.v. *)
Theorem C08_values : forall lapack a f al, fst (eigh lapack a f) al = f (fst (lapack (astensor a)) al).
Proof. exact eigh_fun. Qed.
Print Assumptions C08_values.
Theorem C08_bases_projectors : forall lapack a f, lapack_at lapack a ->
  let M al := astensor (snd (eigh lapack a f) al) in
  (forall al, sym2 (M al)) /\
  (forall al be i j, mmul (M al) (M be) i j = if ix3_eqb al be then M al i j else 0) /\
  (forall al, tr2 (M al) = 1) /\
  (forall i j, sum3 (fun al => M al i j) = delta i j).
Proof. exact (fun lapack a f L => conj (fun al => astensor_sym _)
  (conj (base_mul lapack a f L) (conj (base_tr lapack a f L) (base_sum lapack a f L)))). Qed.
Print Assumptions C08_bases_projectors.
Theorem C08_rebuild : forall lapack a f, lapack_at lapack a -> forall i j,
  sum3 (fun al => fst (lapack (astensor a)) al * astensor (snd (eigh lapack a f) al) i j) = astensor a i j.
Proof. exact base_rebuild. Qed.
Print Assumptions C08_rebuild.
(** With fun = id (or None) the returned values themselves rebuild the tensor. *)
Theorem C08_rebuild_returned : forall lapack a, lapack_at lapack a -> forall i j,
  sum3 (fun al => fst (eigh lapack a (fun x => x)) al
                  * astensor (snd (eigh lapack a (fun x => x)) al) i j) = astensor a i j.
Proof. exact base_rebuild_id. Qed.
Print Assumptions C08_rebuild_returned.
(** A legal decomposition of a non-diagonal matrix with a non-trivial eigenbasis. *)
Example C08_example :
  lapack_at (fun _ => (fun a => match a with X0 => 1 | X1 => 3 | X2 => 5 end,
                       fun i a => match a, i with
                         | X0, X0 => / sqrt 2 | X0, X1 => - / sqrt 2
                         | X1, X0 => / sqrt 2 | X1, X1 => / sqrt 2
                         | X2, X2 => -1 | _, _ => 0 end))
            (fun v => match v with V0 => 2 | V1 => 2 | V2 => 5 | V3 => 1 | _ => 0 end).
Proof. exact eig_example. Qed.
