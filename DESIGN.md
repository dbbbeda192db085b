# Formal model of adtzlr/hyperelastic in Rocq (Coq 8.16.1)

## 1. Approach

* **Numbers** are the real numbers `R` of Coq's standard library: no rounding, no NaN/inf.
  Powers with real exponents are `Rpower`, `np.sqrt` is `sqrt`.  Comparisons `!= 0`,
  `np.isclose`, `np.allclose` are decided on `R`; numpy's tolerances (rtol 1e-5,
  atol 1e-8) are modelled exactly, because the code's results depend on them.
* **Layer 1 (pointwise model)** – `Voigt.v`, `Models.v`, `Frameworks.v`, `Spaces.v`: one
  entry of the trailing (element / quadrature point) axes.  Second-order tensors are
  functions `ix3 -> ix3 -> R`, Voigt vectors `ix6 -> R`, and so on.  Python objects with
  cached attributes are state-passing functions (`PY S A = S -> S * Result A`), exceptions
  are values.  The physics (derivatives, isotropy, objectivity, ...) is proved here.
* **Layer 2 (ndarray model)** – `NDCore.v`, `NDVoigt.v`, `NDFrameworks.v`, `NDSpaces.v`: the
  Python code is transcribed a second time on numpy arrays (shape lists, broadcasting,
  fancy indexing, einsum, `out=`, views, in-place writes into a heap, shape errors).  C45
  proves that every entry of an array result is the layer 1 result for the corresponding
  entries of the inputs; C46 says which calls return and which raise; C47 that no input
  array is written.
* **Lab** – `Lab.v`: data arrays are lists, parameter arrays live in an explicit heap, so
  that aliasing between Optimize, Simulation and the caller is visible.
* **Threads** – `Threads.v`, `NDParallel.v`: the threaded einsum of parallel=True as threads whose
  single reads and writes are interleaved by an arbitrary schedule.  `Shared.v`: several threads
  which call the *same* space, framework or generalized-invariants object, attribute reads and
  writes interleaved by an arbitrary schedule, with and without a lock (C72).
* **Torch** – `Torch.v`: TorchModel on a tape model of PyTorch's autograd engine.
* **Differentiation**: Coquelicot's `is_derive` along arbitrary differentiable curves, so
  every directional derivative at every point of the domain.
* **External code is a parameter**: the user's material model (any function that may also
  raise), LAPACK's `eigh` (any function whose result is legal at the given matrix:
  orthonormal eigenvectors, ascending eigenvalues; `Spectral.v` proves that such a function
  exists), scipy's `curve_fit` (any function).
* **Specification files**: `Tensor.v` (tensor algebra), `Spec.v` (contracts of models,
  frameworks, spaces), `LabSpec.v`, `NDSpec.v`, last part of `Torch.v`.  They do not mention
  how the code computes.  `Prop*.v` contain the property theorems only, each followed by
  `Print Assumptions`.  Everything else is proofs.

## 2. Trusted base

1. Coq 8.16.1's kernel (`coqc`; `vm_compute` is used in PropTorch.v and a few proofs).
2. Axioms: only those of Coq's standard library that come with classical real analysis:
   `ClassicalDedekindReals.sig_forall_dec`, `ClassicalDedekindReals.sig_not_dec`,
   `FunctionalExtensionality.functional_extensionality_dep`, `Classical_Prop.classic`.
   `ASSUMPTIONS.md` lists what `Print Assumptions` prints for each theorem (30 theorems are
   closed, e.g. the list and heap theorems of the lab).  No axioms of our own, no `Admitted`,
   no functors or module types, no section-less `Variable`/`Hypothesis`.
3. Libraries: Coq's standard library and Coquelicot (definition of `is_derive`, filters).
4. The transcription from Python to the model (by hand; every definition cites file and
   lines).  seeded/LOG.jsonl records wrong programs against which the theorems were tested.
5. The model of numpy (NDCore.v): broadcasting from the right; a ufunc or `einsum` with
   `out=` cannot enlarge `out` (ValueError); `x += y` writes into x's memory; basic
   indexing, `transpose`, `broadcast_arrays` give views, fancy indexing and arithmetic give
   new arrays; an `out` that overlaps an operand behaves as if the operand had been copied
   (numpy's COPY_IF_OVERLAP); `np.allclose` on shape tuples of different length raises.
6. The model of PyTorch's autograd: see the header of Torch.v.

## 3. What is modelled

| source file | model | remarks |
|---|---|---|
| math/_voigt.py (all functions) | Voigt.v (pointwise), NDVoigt.v (arrays, `out=`) | |
| models/invariants/_third_order_deformation.py | Models.v, NDFrameworks.v | |
| models/invariants/_torch.py | Torch.v | pointwise; elementwise energies without branches |
| models/stretches/_ogden.py | Models.v, NDFrameworks.v | |
| models/stretches/_generalized_invariants.py | Models.v, NDFrameworks.v | constructor included |
| models/generalized/_stretch.py | Models.v, NDFrameworks.v | exponent 0: division by zero modelled |
| frameworks/_invariants.py, _stretches.py, _generalized.py | Frameworks.v, NDFrameworks.v | attributes included |
| spaces/_space.py, _deformation.py, _distortional.py, _dilatational.py | Spaces.v, NDSpaces.v, NDParSpaces.v | all options finalize/force/area; parallel in NDParSpaces.v |
| lab/_load_case.py, _simulation.py, _experiment.py, _optimize.py, _curve_fit.py | Lab.v (lists), NDLab.v (arrays) | |
| lab/_plotting.py, Optimize.plot, mean_relative_std | LabPlot.v | matplotlib = list of axes with lines, labels, texts |
| math/_voigt.py, Invariants, ThirdOrderDeformation, Stretches (around LAPACK), all spaces with integer or float arrays | Typed.v | element types int64/float64 |
| math/_voigt.py, Invariants(ThirdOrderDeformation), Stretches(Ogden), GeneralizedInvariants(ThirdOrderDeformation), all spaces, load cases in floating point | RoundedCode.v, RoundedSpaces.v, RoundedStretch.v, RoundedGen.v | the expressions the code evaluates; Rounded.v: every result of every rounding and summation order; IEEE.v: the same with underflow, overflow and NaN |

Not modelled: floating point is covered by C53-C56, C68, C69 and C80 (standard model of rounding) and C70 (with underflow,
overflow and NaN); all other properties are about real arithmetic; the inside of LAPACK (C68 assumes its error bound); the source of `einsumt` (a threaded einsum is modelled in NDParallel.v, see C49); what
matplotlib does with the calls it receives (pixels, number formatting); numeric dtypes other than int64 and float64
(Typed.v for the functions, models and spaces, C63; Optimize: C42); complex numbers; masked arrays;
arrays whose trailing axes differ in number in models and spaces (only scalars or equal numbers of
trailing axes are related in C45; the math functions with two operands: C66); PyTorch's float32; the optimiser inside scipy's `curve_fit`.

## 4. Plan and result per property

`P` proved, `~` partial (the full claim is refuted of the code or restricted; MANIFEST.json
says how).

| id | | modelled | how it is proved |
|----|-|----------|------------------|
| C01-C06 | P | math/_voigt.py | case split on indices, `ring`/`field` |
| C07 | P | tril/triu on matrices of any dimension | index arithmetic |
| C08 | P | eigh over any legal LAPACK result | linear algebra over orthonormal triples |
| C09-C11 | P | ThirdOrderDeformation, Ogden, strain measures | `is_derive` calculus, induction over the Ogden terms |
| C12 | ~ | GeneralizedInvariantsModel | chain rule; refutation for dW/dI3 |
| C13 | P | normalisation of the generalised invariants | second derivative along isochoric paths |
| C14 | P | Invariants.gradient | chain rule along curves of symmetric tensors |
| C15, C16 | ~ | Invariants.hessian | chain rule; exact error; exact None patterns |
| C17 | P | isotropy | frames, independence of LAPACK's eigenbasis |
| C18, C20, C21 | P | Stretches framework | perturbation theory of symmetric 3x3 matrices, limits |
| C19 | ~ | Stretches.hessian | as above; refuted inside np.isclose's tolerance, where the error of the Ogden tangent is bounded (C19_ogden_error_partial) |
| C22 | ~ | state variables | refuted for hessian (updated state is passed) |
| C23 | P | independence of the call history | state-passing semantics, induction over calls |
| C24-C30, C32 | P | spaces, piola; PropEnd.v for the stretch models | tensor algebra, chain rule |
| C31, C33, C34 | ~ | Distortional tangent, Dilatational, homogeneity | as above; refuted (tolerance; wrong tensor); error bound for dropped tangents (PropTangent.v) |
| C35-C38 | P | load cases, Simulation | calculus of one variable |
| C39-C41, C43, C44 | P | Simulation/Optimize/curve_fit bookkeeping | list induction, heap reasoning |
| C42 | ~ | writing back parameters | refuted for integer arrays and tuples |
| C45 | ~ | ndarray layer, all library materials | relational proof array vs pointwise; batch coupling refuted |
| C46 | ~ | ndarray layer | exact raising conditions; unrestricted claim refuted |
| C47 | P | ndarray layer | read/write sets of heap programs |
| C49 | ~ | parallel=True: threads with interleaved reads and writes | invariant over all schedules; race freedom of trailing-axis splitting; refuted for row splitting |
| C50 | ~ | plotting: canvas as state | induction over the list of pairs; refuted for Simulation.plot_force_displacement |
| C51 | ~ | motions, stress power, Riemann integral (Coquelicot RInt) | fundamental theorem of calculus with the derivative from C25/C30/C37 and continuity of the returned stress (from C15, C19_hessian_error); Dilatational refuted: two motions with the same ends and different work |
| C52 | P | Simulation.stress_curve_fit and the load cases on arrays (NDLab.v: reshape as views, C order) | positions in C order, pointwise material (C45), broadcasting of the result; shown equal to the list model used in C36-C44, C50, C51 |
| C53 | P | math functions in rounded arithmetic (relative error u per operation, any summation order) | induction over expressions: error <= gamma_depth * magnitude; Flocq for the float64 instance |
| C54 | P | stress and elasticity of Deformation(Invariants(ThirdOrderDeformation)) in rounded arithmetic | same induction; division and square root by perturbation bounds |
| C55 | P | all spaces, all options, load cases in rounded arithmetic (with pow, sqrt, the np.allclose branch) | every operation is Lipschitz at the exact value: induction over expressions with non-zero divisors and positive radicands |
| C56 | P | the same expressions | exact zeros propagate (induction over expressions); commutativity of rounded + and * |
| C57 | ~ | nothing new (SymSpec.v: which legs turn) | C17 lifted through the kinematic terms of the three spaces and piola by rotation algebra in Voigt storage (SymAlg.v); Distortional tangent refuted at the tolerance of np.allclose (SymCounter.v) |
| C58 | P | nothing new | closed forms (C38; for Ogden from C37 and uniqueness of the derivative) are products of increasing functions and functions with minimum at 1; intermediate value theorem |
| C59 | P | nothing new (trusted: scipy returns a local minimiser) | keyword passing (C39) and closed forms are linear in the coefficients; convexity of squares |
| C60 | P | nothing new | C24/C57 reduce to F = diag(stretches) by the singular value decomposition; reflections kill the off-diagonal stress; C25/C30 along changes of one stretch |
| C61 | P | nothing new | an isotropic elasticity tensor at C = 1 has two constants (invariance under rotations); second-order expansion of the energy along the three isochoric load cases; C30/C31 for the tangent |
| C62 | P | OutSpec.v (memory cells of an array, frame); the functions of NDVoigt.v with `out` given | total correctness with the frame "only cells of out change" (NDOut.v); an assignment through a view with distinct cells; loops of assignments by induction; aliasing: all operands are copied before the first write to out |
| C63 | P | Typed.v (element types int64 with wrap-around / float64; NumPy's rules for out=, in-place operators and assignment), TypedSpec.v | the typed functions have the real-number functions as values as long as no int64 operation wraps (bounds by interval reasoning through each step); case analysis on destinations; overflow and truncation shown on concrete arrays |
| C64 | P | EllSpec.v (acoustic tensor, elliptic); dis_hessian/def_hessian of Spaces.v | C25/C26/C30/C31 give the second derivative of the energy; det affine, I1 and I2 quadratic along rank-one lines; Cauchy-Schwarz; cofactor argument for C01; AM-GM for I1 >= 3; a dropped material tangent (C31) gives the Neo-Hooke tangent with the current dW/dI1; counterexamples by explicit second derivatives |
| C65 | P | curve_fit/init_curve_fit of Lab.v on lists of different lengths | step-by-step comparison of two runs; zip = combine drops the surplus; copying an object onto itself changes nothing; broadcasting refutation |
| C66 | P | the two-operand math functions of NDVoigt.v on operands of different rank | ddot/dot: einsum/ufunc relation without the rank condition; dya/cdya: exact alignment of complete shapes; silent misalignment example |
| C67 | P | the docstring formulas as index expressions (odot, otimes, doc_* in PropDocs.v); Spaces.v, Frameworks.v | both sides expanded to full tensors with the `_full` lemmas of the math functions; uniqueness of the inverse; refutation of the printed Stretches hessian by contracting twice with the identity |
| C68 | P | Stretches(Ogden) in all spaces in rounded arithmetic (RoundedStretch.v); np.linalg.eigh: any result within its backward error bound | perturbation theory: computed eigenvectors are within O(u) of *some* exact eigenbasis (EigNear.v), the result does not depend on which; bounds uniform in that choice (RoundedLeaf.v); the space around it as in C55 |
| C69 | P | GeneralizedInvariants(ThirdOrderDeformation) in rounded arithmetic, constructor included (RoundedGen.v) | the expressions are regular (the normalisation denominators are k or k^2 up to constants), their exact values are the code's results; then the generic framework theorem of C68 |
| C70 | P | the expressions of C55 in arithmetic with finite/infinite/NaN results (IEEE.v): error u\|x\| + tiny in range, anything outside; Flocq's BinarySingleNaN machine as an instance (IEEEFloat.v); IEEEStretch.v: the Stretches framework, eigh only assumed finite and backward stable on finite matrices in range | as C55 and C68, with the bound on every exact intermediate value keeping all operations in range once the format is fine enough; the machine: Flocq's correctness theorems of the operations |
| C71 | P | `x[0]`, `x[-1]`, the returned lists, `self.x` of frameworks and spaces on top of the array code of C45 (NDCall.v); entries are arrays or None | list lemmas; the array code of each model is walked bind by bind to show that it returns the state it was given; the values from C45 at a single point, where the batch-wide test of np.allclose is no restriction; zero stress from C32 |
| C72 | P | Shared.v: the methods of the spaces, the frameworks and GeneralizedInvariantsModel as sequences of attribute reads and writes; threads, schedules, a lock | programs are tame (read only what they wrote before, write values which depend on the arguments only): invariant over all schedules; lock invariant and progress; two computed races |
| C73 | P | Optimize.curve_fit (Lab.v) with scipy as any local minimiser; spec FitSpec.v: curves linear in the parameters, unit change, normal equations; an Ogden material function with given exponents; PropFitGen.v: a material function with GeneralizedInvariants(ThirdOrderDeformation) in any space | closed-form curves of C38/C58 are linear in the parameters; residuals = linear curve minus data for all terms at once (whole_simulated); convexity lemmas of C59; quadratic expansion of the sum of squares |
| C74 | P | sp_gradient of the three spaces with any isotropic framework; spec: left Cauchy-Green tensor, simple shear (in PropShear.v) | C60: stress coaxial with the principal axes, hence commuting; C28 transports it to S; Rivlin follows from three components of the commutator; closed forms by computing S from gradv at the explicit C of simple shear |
| C75 | P | frameworks, spaces and simulations as before; spec (SumProofs.v): `parallel`, the sum of two model classes, addition of results | the chain of every method is linear in what the model returns (strGv/strHv, gradv/hessv, kS/kC4, piola); None patterns of sums raise no exception where the summands raise none; Ogden terms as a sum over a list |
| C76 | P | spec (NewtonSpec.v): a body as a list of quadrature points (weight, space object with its framework and model, F0, shape gradients), residual, stiffness, one Newton iteration by any linear solver; the spaces, frameworks and models as before | a regular matrix stays regular with a bounded inverse under small changes (NewtonLin.v, by induction on the size); Newton estimate along the segment from the mean value theorem, using C03/C04-type exactness of the tangent; that the tangent is Lipschitz at the point ("calm") is a calculus closed under the operations of the code (NewtonCalm.v), for the principal stretches through Weyl's inequality and Lagrange's projectors |
| C77 | P | bodies of C76 with a stored energy at every point; spec PotentialSpec.v: potential, stationary, stable, strict and local minimum, the documented energies | residual = gradient of the potential from C25/C30/C33; symmetry from C27; positive definite forms are coercive (completing the square, by induction on the size); second-order expansion of the potential along lines with the remainder of C76; necessary conditions by the mean value theorem |
| C78 | P | bodies of C76; spec LoadSpec.v: changed load, runs of Newton's method, load paths and load stepping | implicit function theorem by the simplified Newton iteration (contraction, Cauchy sequences), two-point mean value estimate of the stress, stability of regular matrices; paths: compactness of [0, 1] and induction on the steps; materials from C76. Not modelled: loads that follow the deformation, contact, line search and step-size control |
| C79 | P | bodies given by nodal positions, F = sum x_p (x) g_p; any framework; spec RigidSpec.v: nodal forces, nodal stiffness, rigid motions | P F^T is symmetric, P(QF) = Q P(F) (C24), A : (W F) = W P for skew W from the minor symmetry of the Voigt storage and the geometric part; summation over points and nodes by induction. Not modelled: how a mesh library computes the shape function gradients (they are arbitrary here) |
| C80 | P | specs InexactSpec.v (iterations with errors, modified Newton), FloatNewtonSpec.v (computed stresses/tangents are any `rounded` value of the expressions of RoundedCode.v) | perturbation of the quantitative argument of C76: a matrix within kappa of a regular one is regular with twice the inverse bound; contraction 1/2 plus c delta, summed as a geometric series. Floating point: C54's bounds are polynomials in the entries of F, so bounded on balls around the equilibrium (FloatNewtonProofs.v); exact Newton iterations are floating-point iterations (FloatRuns.v), so the runs exist. Errors in F, in the assembly and in the solution are bounded by delta per entry, not derived from an algorithm |
| C81 | P | model NDFields.v (Ogden with arrays as parameters; parameters are values since the code only reads them), NDFieldRaise.v (ThirdOrderDeformation with arrays as parameters, truth value of an array); spec `ogden_at`, `several_values` in the same files | the parameters of the entry travel as a state of the pointwise model, so C45_stretches_* apply; the raising part by a predicate "returns or raises ValueError" through the model's gradient and the prefix of every space. Acceptance (C81_ogden_accepts) is stated for the model object: arrays must broadcast to the shape of the stretches. Not covered: the values for arrays that broadcast to the shape of the stretches but not to the trailing axes of F (parameters per principal direction); arrays without entries follow numpy >= 2.2 |
| C48 | ~ | TorchModel | reverse-mode AD on tapes (invariant over the backward pass); exactly when gradient and hessian raise (what the recorded gradient is computed from: invariant over the sweep); refuted for coupled energies |

## 5. Findings: where the code does not do what is documented

Each is a theorem (`*_refuted` or `*_error`) about the model.

1. `Invariants.hessian` (lines 225-226) adds the (2,2) term for d2W/dI3dI3: C15, C16.
2. `GeneralizedInvariantsModel.hessian` uses the index list `[2, 0, 1]` as values: C12.
3. `Dilatational` (line 22) uses I3^(1/3) C instead of I3^(1/3) 1: C33; the resulting stress is not the
   gradient of any energy, closed motions cost or yield work: C51_dilatational_refuted.
4. `Invariants.hessian`, `Stretches.hessian` call `material.hessian` with the *updated* state
   variables: C22.
5. `Distortional.hessian` drops material tangents below np.allclose's absolute tolerance
   (1e-8): C31, C34, C57; the test is on the whole batch, so an entry's result depends on the
   other entries: C45_batch_coupling_refuted.  `Stretches.hessian` uses the limit formula for stretches
   that are merely close: C19.
6. Models with constant stress / elasticity raise ValueError with force=0 (Undeformed) on
   batches: C46_refuted.
7. Optimize: integer parameter arrays are truncated, tuples raise TypeError, a mask shorter
   than the experiments drops experiments silently (zip), the user's array is changed in place: C42-C44.
8. `Experiment` with Python lists (documented as array_like) raises TypeError: C40_python_lists.
9. TorchModel: `gradient` raises RuntimeError for every energy in which a multiplication, power
   etc. involves two invariants (the graph is freed after the first of three backward passes);
   `hessian` raises for energies linear in an invariant and for exp, nested powers, ...: C48.
10. parallel=True: `piola` passes an operand as `out=` to the threaded einsum.  This is a race if the
    threads split the rows and write directly: C49_row_split_refuted.
11. Integer arrays: Distortional and Dilatational reject integer deformation gradients (TypeError),
    Deformation.hessian with force=0 does, an integer C20 with a float C30 raises on arrays
    (in-place addition); cdya and tril_from_triu truncate silently into an integer `out`; int64
    wraps around beyond the bound of C63: C63_projected_spaces_reject, C63_deformation_force0,
    C63_integer_parameter, C63_cdya_out_truncates, C63_overflow.  Observed, without a theorem: the
    documentation says that area defaults to None (it is 0).
12. `Simulation.plot_force_displacement` is inherited but reads attributes that no Simulation has:
    C50_force_displacement_refuted.  `Optimize.plot` raises before the first fit, and names the
    parameters by the labels of the last simulation only (zip truncates silently): C50.
13. A column of n stretches, shape (n, 1), silently gives an (n, n) array of mixed stresses:
    C52_shape_refuted.
14. Materials (not bugs of the code): the C01 term loses ellipticity in Distortional, the C20 term in
    Deformation under compression: C64_distortional_refuted, C64_deformation_refuted.
15. Optimize zips its lists: experiments without a mask are dropped silently, and with one simulated point and
    several experiments the point is broadcast against all measured points: C65_short_mask,
    C65_missing_simulations_refuted.
16. dya and cdya align complete shapes, not trailing axes: a single tensor together with a batch raises, or silently
    returns something else (C66_dya_single, C66_cdya_silent); ddot and dot do not have this problem.
17. The documentation of Stretches prints a hessian that lacks the second derivatives of the stretches and counts
    every pair of eigenvectors twice; the code is right, the formula is not: C67_stretches_hessian_refuted.
18. Methods keep intermediate results in attributes: two threads which call one space (or two spaces on one framework)
   at the same time can get a mixture of both answers: C72_shared_space_refuted, C72_shared_framework_refuted.
