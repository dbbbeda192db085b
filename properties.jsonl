{"id": "C01", "title": "Voigt storage is a lossless bijection", "statement": "astensor(asvoigt(A)) == A for every symmetric 3x3 tensor and asvoigt(astensor(a)) == a for every 6-vector; likewise with mode=4 for every minor-symmetric 3x3x3x3 tensor / every 6x6 matrix (major symmetry is not needed). astensor output is always (minor-)symmetric. For a non-symmetric A exactly the upper triangle is kept.", "quantifier": "all real second-/fourth-order tensors", "why_tests_cant": "infinitely many tensors; a swapped index pair can be invisible on the symmetric sample data of the tests", "anchors": ["src/hyperelastic/math/_voigt.py:asvoigt", "src/hyperelastic/math/_voigt.py:astensor"]}
{"id": "C02", "title": "Scalar invariants in reduced storage equal the full-tensor ones", "statement": "trace(asvoigt(A)) and det(asvoigt(A)) equal the trace and determinant of the full symmetric tensor A; det is multiplicative on C = F^T F, i.e. det(asvoigt(F^T F)) == det(F)^2 for every F.", "quantifier": "all symmetric tensors, all deformation gradients", "why_tests_cant": "polynomial identities in 6 to 9 unknowns; a test samples points", "anchors": ["src/hyperelastic/math/_voigt.py:trace", "src/hyperelastic/math/_voigt.py:det"]}
{"id": "C03", "title": "inv returns the two-sided inverse", "statement": "For every symmetric A with det(A) != 0, inv(A) is symmetric and A inv(A) = inv(A) A = 1; passing determinant=det(A) gives the same result; passing any other non-zero determinant d gives det(A)/d times the inverse.", "quantifier": "all invertible symmetric tensors, all values of the optional determinant", "why_tests_cant": "rational identities over all tensors", "anchors": ["src/hyperelastic/math/_voigt.py:inv"]}
{"id": "C04", "title": "dot and the four ddot modes equal the full index contractions", "statement": "dot(A,B)_ij = A_ik B_kj; ddot in modes (2,2),(2,4),(4,2),(4,4) equals the double contraction of the full tensors (so shear terms are weighted exactly twice).", "quantifier": "all symmetric second-order and minor-symmetric fourth-order tensors", "why_tests_cant": "identities over 36..72 unknowns", "anchors": ["src/hyperelastic/math/_voigt.py:dot", "src/hyperelastic/math/_voigt.py:ddot"]}
{"id": "C05", "title": "Dyadic products equal their index definitions and have the documented symmetries", "statement": "dya, cdya_ik, cdya_il and cdya equal the documented index formulas; cdya is minor+major symmetric, commutative and bilinear; dya(A,B) is minor symmetric and transpose(dya(A,B)) = dya(B,A); cdya_ik is major symmetric; the `A is B` shortcut of cdya returns the same values as the general branch.", "quantifier": "all pairs of symmetric tensors, passed as the same or as different objects", "why_tests_cant": "identities over all tensors; the shortcut branch depends on object identity", "anchors": ["src/hyperelastic/math/_voigt.py:dya", "src/hyperelastic/math/_voigt.py:cdya_ik", "src/hyperelastic/math/_voigt.py:cdya_il", "src/hyperelastic/math/_voigt.py:cdya", "src/hyperelastic/math/_voigt.py:transpose"]}
{"id": "C06", "title": "dev is the trace-free projector", "statement": "trace(dev(A)) = 0, dev(dev(A)) = dev(A), dev(A) = A iff trace(A)=0, and A = dev(A) + trace(A)/3 I.", "quantifier": "all symmetric tensors", "why_tests_cant": "universal statement", "anchors": ["src/hyperelastic/math/_voigt.py:dev", "src/hyperelastic/math/_voigt.py:eye"]}
{"id": "C07", "title": "Triangle copies symmetrise and touch nothing else", "statement": "tril_from_triu(A) is symmetric, keeps the diagonal and upper triangle of A, and equals A iff A was symmetric; entries outside the leading dim x dim block are not touched; triu_from_tril is its mirror image; both are idempotent. With out= given, only the strict triangle of out is overwritten; out=A works in place.", "quantifier": "every dimension dim, every matrix, every out array", "why_tests_cant": "unbounded dimension", "anchors": ["src/hyperelastic/math/_voigt.py:tril_from_triu", "src/hyperelastic/math/_voigt.py:triu_from_tril"]}
{"id": "C08", "title": "eigh returns the spectral decomposition in Voigt storage", "statement": "If the LAPACK routine returns orthonormal eigenvectors and eigenvalues, then the returned bases M_a are symmetric, satisfy M_a M_b = delta_ab M_a, tr M_a = 1, sum_a M_a = I and sum_a w_a M_a = A; with fun the returned values are fun(w_a).", "quantifier": "all symmetric tensors and every decomposition LAPACK may legally return (any sign, any basis of a repeated eigenspace)", "why_tests_cant": "the decomposition is not unique; tests see one choice", "anchors": ["src/hyperelastic/math/_voigt.py:eigh"]}
{"id": "C09", "title": "ThirdOrderDeformation returns the derivatives of its documented energy", "statement": "gradient/hessian (None read as 0) are the first and second partial derivatives of psi = C10(I1-u)+C01(I2-u)+C11(I1-u)(I2-u)+C20(I1-u)^2+C30(I1-u)^3, u = 3 (or 0 with strain=True); the hessian returns a non-None entry only if the gradient of both invariants is non-None.", "quantifier": "all parameter values including every zero pattern, all invariants", "why_tests_cant": "2^5 zero patterns times all reals", "anchors": ["src/hyperelastic/models/invariants/_third_order_deformation.py:ThirdOrderDeformation"]}
{"id": "C10", "title": "Ogden returns the derivatives of its documented energy", "statement": "For every list of terms (mu_k, alpha_k != 0) and positive stretches the gradient and hessian are the first and second partial derivatives of sum_k 2 mu_k/alpha_k^2 sum_a (lambda_a^alpha_k - 1); mixed entries are None; surplus mu or alpha entries are ignored.", "quantifier": "all numbers of terms, all parameters, all positive stretches", "why_tests_cant": "unbounded number of terms", "anchors": ["src/hyperelastic/models/stretches/_ogden.py:Ogden"]}
{"id": "C11", "title": "Generalised strain measures return consistent derivatives", "statement": "strain and deformation return (E, E', E'') at the given stretch with E' and E'' the true derivatives, for every exponent, and the reference values are those of exponent 2 at stretch 1.", "quantifier": "all exponents (non-zero for strain), all positive stretches", "why_tests_cant": "universal statement over a real exponent", "anchors": ["src/hyperelastic/models/generalized/_stretch.py:strain", "src/hyperelastic/models/generalized/_stretch.py:deformation"]}
{"id": "C12", "title": "GeneralizedInvariants differentiates psi(I(E(lambda))) correctly", "statement": "gradient is the derivative w.r.t. the stretches of psi(c1(J1-J10)+J10, c2(J2-J20)+J20, J3) and hessian is the derivative of gradient, for every strain measure and every invariant model.", "quantifier": "all stretches, strain functions, invariant models", "why_tests_cant": "chain rule over arbitrary models; the shipped tests only use models with dWdI3 None", "anchors": ["src/hyperelastic/models/stretches/_generalized_invariants.py:GeneralizedInvariantsModel", "src/hyperelastic/frameworks/_generalized.py:GeneralizedInvariants"]}
{"id": "C13", "title": "Normalisation makes the initial stiffness independent of the exponent", "statement": "For every exponent k the small-strain stiffness of the generalised model in uniaxial, planar and biaxial incompressible loading equals that of the reference exponent 2.", "quantifier": "all exponents k != 0, all models, all three load cases", "why_tests_cant": "test_generalized samples 4 exponents and 2 load cases with finite differences", "anchors": ["src/hyperelastic/models/stretches/_generalized_invariants.py:GeneralizedInvariantsModel.__init__"]}
{"id": "C14", "title": "Invariants.gradient is the gradient of the energy w.r.t. C", "statement": "Along every differentiable path C(t) of invertible symmetric tensors d/dt psi(I1,I2,I3) = gradient(C) : dC/dt for every model whose gradient is the derivative of psi.", "quantifier": "all differentiable paths, all models (incl. None entries)", "why_tests_cant": "directional derivatives in all directions at all points", "anchors": ["src/hyperelastic/frameworks/_invariants.py:Invariants.gradient"]}
{"id": "C15", "title": "Invariants.hessian is the derivative of Invariants.gradient", "statement": "Along every differentiable path, d/dt gradient(C) = hessian(C) : dC/dt for every model whose hessian is the derivative of its gradient.", "quantifier": "all differentiable paths, all models", "why_tests_cant": "the d2WdI3dI3 branch is never executed by the test-suite", "anchors": ["src/hyperelastic/frameworks/_invariants.py:Invariants.hessian"]}
{"id": "C16", "title": "Invariants.hessian evaluates without an exception for every well-formed model", "statement": "Whenever the model returns a gradient and a hessian with a None pattern that is consistent (a second derivative w.r.t. an invariant is given only if the first derivative is given), hessian returns a 6x6 result and does not raise.", "quantifier": "all None patterns (2^9)", "why_tests_cant": "pattern space is not covered by tests", "anchors": ["src/hyperelastic/frameworks/_invariants.py:Invariants.hessian"]}
{"id": "C17", "title": "Isotropy of the frameworks", "statement": "For every orthogonal Q, gradient(Q C Q^T) = Q gradient(C) Q^T for the Invariants framework (any model) and the Stretches framework (permutation-symmetric models), whatever eigenbasis LAPACK picks.", "quantifier": "all rotations, all C, all models", "why_tests_cant": "continuous group of rotations; eigenbasis choice is nondeterministic", "anchors": ["src/hyperelastic/frameworks/_invariants.py:Invariants.gradient", "src/hyperelastic/frameworks/_stretches.py:Stretches.gradient"]}
{"id": "C18", "title": "Stretches.gradient is the gradient of the energy w.r.t. C", "statement": "Along every differentiable path of positive definite C(t), d/dt psi(lambda(C(t))) = gradient(C):dC/dt, also through coalescing principal stretches.", "quantifier": "all paths, all models symmetric in the stretches, every LAPACK-legal eigenbasis", "why_tests_cant": "eigenvalues are not differentiable functions at coalescence; only a proof covers it", "anchors": ["src/hyperelastic/frameworks/_stretches.py:Stretches.gradient"]}
{"id": "C19", "title": "Stretches.hessian is the derivative of Stretches.gradient", "statement": "Along every differentiable path of positive definite C(t), d/dt gradient(C(t)) = hessian(C):dC/dt, for distinct and for repeated principal stretches.", "quantifier": "all paths, all models, every LAPACK-legal eigenbasis", "why_tests_cant": "needs perturbation theory at coalescing eigenvalues; finite differences are unreliable there", "anchors": ["src/hyperelastic/frameworks/_stretches.py:Stretches.hessian"]}
{"id": "C20", "title": "Repeated stretches: the documented d'Hospital limit is what is used", "statement": "The coefficient used when two principal stretches coincide is the limit of the coefficient used for distinct stretches.", "quantifier": "all coalescing stretch triples, all models", "why_tests_cant": "a limit statement", "anchors": ["src/hyperelastic/frameworks/_stretches.py:Stretches.hessian"]}
{"id": "C21", "title": "Different routes to the same energy agree", "statement": "Stretches(Ogden([mu],[2])) and Invariants(ThirdOrderDeformation(C10=mu/2)) return the same gradient and hessian; GeneralizedInvariants(model, deformation, exponent=2) returns the same gradient as Invariants(model).", "quantifier": "all C, all eigenbases, all invariant models", "why_tests_cant": "equality of functions", "anchors": ["src/hyperelastic/frameworks/_stretches.py:Stretches", "src/hyperelastic/frameworks/_invariants.py:Invariants", "src/hyperelastic/frameworks/_generalized.py:GeneralizedInvariants"]}
{"id": "C22", "title": "State variables: the hessian is evaluated with the old state", "statement": "framework.hessian(C, statevars) evaluates the model's hessian with the state variables it was given (the README calls the argument statevars_old), and space.gradient returns the model's updated state variables.", "quantifier": "all models with state variables", "why_tests_cant": "no test uses state variables", "anchors": ["src/hyperelastic/frameworks/_invariants.py:Invariants.hessian", "src/hyperelastic/frameworks/_stretches.py:Stretches.hessian", "src/hyperelastic/spaces/_deformation.py:Deformation"]}
{"id": "C23", "title": "Results do not depend on call history", "statement": "For every sequence of earlier gradient/hessian calls on the same (possibly shared) framework and space objects, including calls in which the user's model raised, the next gradient or hessian call returns what it returns on a fresh object.", "quantifier": "all call histories, all crash points inside the model", "why_tests_cant": "objects cache intermediate results in attributes; histories are unbounded", "anchors": ["src/hyperelastic/frameworks/_invariants.py:Invariants", "src/hyperelastic/frameworks/_stretches.py:Stretches", "src/hyperelastic/models/stretches/_generalized_invariants.py:GeneralizedInvariantsModel", "src/hyperelastic/spaces/_deformation.py:Deformation", "src/hyperelastic/spaces/_distortional.py:Distortional", "src/hyperelastic/spaces/_dilatational.py:Dilatational"]}
{"id": "C24", "title": "Frame indifference", "statement": "For all three spaces and every framework: superposing a rotation Q on F rotates the result: P(QF) = Q P(F), sigma(QF) = Q sigma(F) Q^T, S unchanged; and the elasticity tensor transforms accordingly.", "quantifier": "all rotations, deformation gradients, frameworks, force/area configurations", "why_tests_cant": "continuous group", "anchors": ["src/hyperelastic/spaces/_space.py:Space.piola", "src/hyperelastic/spaces/_deformation.py:Deformation", "src/hyperelastic/spaces/_distortional.py:Distortional", "src/hyperelastic/spaces/_dilatational.py:Dilatational"]}
{"id": "C25", "title": "Deformation space: stress is the gradient of the energy w.r.t. F", "statement": "Along every differentiable path F(t), d/dt psi(F^T F) = P : dF/dt where P is the returned stress (force=None, area=0), for every framework whose gradient is the derivative of psi.", "quantifier": "all paths, all frameworks", "why_tests_cant": "directional derivatives in all directions at all points", "anchors": ["src/hyperelastic/spaces/_deformation.py:Deformation.gradient", "src/hyperelastic/spaces/_space.py:Space.piola"]}
{"id": "C26", "title": "Deformation space: the hessian is the consistent tangent", "statement": "Along every differentiable path F(t), d/dt P(F(t)) = A(F) : dF/dt where A is the returned hessian.", "quantifier": "all paths, all frameworks with consistent hessian", "why_tests_cant": "quadratic convergence of Newton's method relies on it; finite differences only sample", "anchors": ["src/hyperelastic/spaces/_deformation.py:Deformation.hessian", "src/hyperelastic/spaces/_space.py:Space.piola"]}
{"id": "C27", "title": "Major symmetry of the tangent", "statement": "The returned A_iJkL (force=None, area=0) is major symmetric for every framework with a major-symmetric hessian; the Invariants and Stretches hessians are major symmetric for every model (also the projected ones of Distortional and Dilatational).", "quantifier": "all F, all frameworks", "why_tests_cant": "solvers assume symmetry for every state", "anchors": ["src/hyperelastic/spaces/_space.py:Space.piola", "src/hyperelastic/frameworks/_invariants.py:Invariants.hessian", "src/hyperelastic/frameworks/_stretches.py:Stretches.hessian"]}
{"id": "C28", "title": "The four force/area configurations are mutually consistent push-forwards", "statement": "With S the result for force=0, area=0 and J = |det F|: force=None gives P = F S, area=None additionally multiplies by F^T/J, so sigma = F S F^T / J is symmetric, P F^T = J sigma; elasticities are the corresponding push-forwards of each other; optional detF/invC arguments do not change the result; finalize=False returns the untransformed Voigt quantities.", "quantifier": "all F with non-zero determinant, all S, C4", "why_tests_cant": "universal identities", "anchors": ["src/hyperelastic/spaces/_space.py:Space.piola"]}
{"id": "C29", "title": "Distortional space: material sees a unimodular tensor and the stress is physically deviatoric", "statement": "The tensor handed to the framework has determinant 1 and depends on F only through its distortional part (F -> a F leaves it unchanged); S:C = 0, hence tr(sigma) = 0, for every framework.", "quantifier": "all F with non-zero determinant, all frameworks", "why_tests_cant": "universal identities with real powers", "anchors": ["src/hyperelastic/spaces/_distortional.py:Distortional.gradient"]}
{"id": "C30", "title": "Distortional space: stress is the gradient of psi(C_hat)", "statement": "Along every differentiable path F(t) with non-zero determinant, d/dt psi(I3^(-1/3) C) = P : dF/dt.", "quantifier": "all paths, all frameworks", "why_tests_cant": "directional derivatives in all directions", "anchors": ["src/hyperelastic/spaces/_distortional.py:Distortional.gradient"]}
{"id": "C31", "title": "Distortional space: the hessian is the consistent tangent", "statement": "Along every differentiable path, d/dt P(F(t)) = A(F) : dF/dt (also when the material elasticity is small).", "quantifier": "all paths, all frameworks", "why_tests_cant": "the np.allclose shortcut is unit dependent; tests use one unit system", "anchors": ["src/hyperelastic/spaces/_distortional.py:Distortional.hessian"]}
{"id": "C32", "title": "Distortional space: undeformed body is stress-free", "statement": "At every F = a Q (Q orthogonal, a != 0) the returned stress is zero for every isotropic framework; whereas the Deformation space is stress-free at F=1 iff the model's gradient vanishes there.", "quantifier": "all rotations and dilatations, all models", "why_tests_cant": "continuum of states", "anchors": ["src/hyperelastic/spaces/_distortional.py:Distortional.gradient", "src/hyperelastic/spaces/_deformation.py:Deformation.gradient"]}
{"id": "C33", "title": "Dilatational space: stress is the gradient of psi of the dilatational part", "statement": "Along every differentiable path, d/dt psi(I3^(1/3) 1) = P : dF/dt and d/dt P = A : dF/dt; the stress is a pure pressure (S parallel to C^-1).", "quantifier": "all paths, all frameworks", "why_tests_cant": "the only test uses a model with constant gradient, for which the evaluation point does not matter", "anchors": ["src/hyperelastic/spaces/_dilatational.py:Dilatational"]}
{"id": "C34", "title": "Homogeneity: scaling the energy scales stress and tangent", "statement": "Multiplying the model's energy by a constant (a change of the unit of stress) multiplies gradient and hessian of every framework and space by the same constant.", "quantifier": "all positive scale factors", "why_tests_cant": "absolute tolerances in the code are unit dependent; tests fix one unit", "anchors": ["src/hyperelastic/spaces/_distortional.py:Distortional.hessian", "src/hyperelastic/frameworks/_stretches.py:Stretches.hessian"]}
{"id": "C35", "title": "Load cases are isochoric with the documented principal stretches", "statement": "Uniaxial, Planar and Biaxial defgrad return diagonal tensors with determinant 1 whose first principal stretch is the given stretch, for every positive stretch and every array length; at stretch 1 they return the identity.", "quantifier": "all positive stretches, all array lengths", "why_tests_cant": "universal statement", "anchors": ["src/hyperelastic/lab/_load_case.py:Uniaxial", "src/hyperelastic/lab/_load_case.py:Planar", "src/hyperelastic/lab/_load_case.py:Biaxial"]}
{"id": "C36", "title": "Load-case stress eliminates the hydrostatic pressure", "statement": "stress(F,P) is unchanged when an arbitrary pressure term p J F^-T is added to P, and vanishes at stretch 1 for every isotropic material.", "quantifier": "all pressures, stretches, materials", "why_tests_cant": "universal statement", "anchors": ["src/hyperelastic/lab/_load_case.py:IncompressibleHomogeneousStretch.stress"]}
{"id": "C37", "title": "Simulation.stress is the derivative of the stored energy along the loading path", "statement": "For Uniaxial and Planar the returned normal force per undeformed area is d/dlambda psi(F(lambda)); for Biaxial it is one half of it; for every material (Deformation or Distortional space) with isotropic framework.", "quantifier": "all stretches, all materials", "why_tests_cant": "derivative along all paths", "anchors": ["src/hyperelastic/lab/_simulation.py:Simulation.stress_curve_fit", "src/hyperelastic/lab/_load_case.py:IncompressibleHomogeneousStretch.stress"]}
{"id": "C38", "title": "Closed-form force-stretch curves", "statement": "For the third-order-deformation model the simulated force is 2(l - l^-2)(dW1 + dW2/l) (uniaxial), 2(l - l^-3)(dW1+dW2) (planar), 2(l - l^-5)(dW1 + l^2 dW2) (biaxial); Deformation and Distortional spaces give the same curve.", "quantifier": "all parameters, all positive stretches", "why_tests_cant": "universal identity", "anchors": ["src/hyperelastic/lab/_simulation.py:Simulation", "src/hyperelastic/models/invariants/_third_order_deformation.py:ThirdOrderDeformation"]}
{"id": "C39", "title": "Simulation passes parameters to the material by label", "statement": "For distinct labels, parameter k reaches the material constructor under label k; labels without a parameter are not passed (model default is used), surplus parameters are ignored; for duplicate labels the last wins; the result does not depend on the order of (label, parameter) pairs.", "quantifier": "all label/parameter lists", "why_tests_cant": "unbounded lists", "anchors": ["src/hyperelastic/lab/_simulation.py:Simulation.stress_curve_fit"]}
{"id": "C40", "title": "Experiment converts force-displacement to stress-stretch and back", "statement": "stretch = 1 + displacement/length and stress() = force/area elementwise; lengths are preserved; force and displacement can be recovered; changing the unit of length or force consistently leaves stretch unchanged.", "quantifier": "all data arrays, all non-zero areas and lengths", "why_tests_cant": "unbounded arrays", "anchors": ["src/hyperelastic/lab/_experiment.py:Experiment"]}
{"id": "C41", "title": "The curve fit minimises the total sum of squares over all experiments", "statement": "The residual vector handed to scipy is the concatenation, in order, of the residuals of each (masked) experiment, evaluated by the matching simulation at the matching stretches; its squared norm is the sum of the squared norms and does not depend on the order of the experiments.", "quantifier": "all numbers and lengths of experiments, all masks, all parameter vectors", "why_tests_cant": "unbounded lists", "anchors": ["src/hyperelastic/lab/_curve_fit.py:concatenate_curve_fit", "src/hyperelastic/lab/_optimize.py:Optimize.init_curve_fit"]}
{"id": "C42", "title": "After a successful curve_fit everything reports the optimum", "statement": "After curve_fit returns, optimize.parameters, the array passed by the user, and the parameters of every simulation hold the optimiser's result; stress() of every simulation is the curve for these parameters and residuals are those of these parameters; errors are the square roots of the diagonal of pcov.", "quantifier": "all data, all optimiser results, all numbers of simulations, all earlier uses of the same simulations", "why_tests_cant": "aliasing of parameter arrays across objects and histories", "anchors": ["src/hyperelastic/lab/_optimize.py:Optimize.curve_fit"]}
{"id": "C43", "title": "A failing curve_fit does not corrupt the parameters", "statement": "If the optimiser raises, optimize.parameters and the user's array keep their values, the residuals attribute holds the residuals at the initial parameters and errors are nan; the arrays that were passed to the Simulation constructors are never written to by Optimize.", "quantifier": "all crash points of the optimiser, all data", "why_tests_cant": "crash points", "anchors": ["src/hyperelastic/lab/_optimize.py:Optimize.curve_fit", "src/hyperelastic/lab/_optimize.py:Optimize.init_curve_fit"]}
{"id": "C44", "title": "Masks select the same data points of stretch and stress", "statement": "Point j of experiment i enters the fit iff its mask is true, with its own stretch/stress pair; without a mask every point of every experiment enters exactly once.", "quantifier": "all masks and data", "why_tests_cant": "unbounded arrays", "anchors": ["src/hyperelastic/lab/_optimize.py:Optimize.__init__", "src/hyperelastic/lab/_optimize.py:Optimize.init_curve_fit"]}
{"id": "C45", "title": "Vectorised evaluation equals pointwise evaluation", "statement": "For every shape of trailing axes (any number of axes, any sizes, including none) and broadcast-compatible inputs, each math function and the space/framework/model evaluations return an array whose entry at trailing index t is the result for the inputs at trailing index t.", "quantifier": "all trailing shapes and indices", "why_tests_cant": "unbounded number and size of axes; tests use one or two shapes", "anchors": ["src/hyperelastic/math/_voigt.py", "src/hyperelastic/spaces/_space.py:Space.piola", "src/hyperelastic/frameworks/_invariants.py:Invariants"]}
{"id": "C46", "title": "Every force/area configuration accepts every material", "statement": "gradient and hessian return an array of shape (3,3,...) resp. (3,3,3,3,...) and do not raise a shape error for any force, area in {None, 0}, any trailing shape of F and any model, also those whose stress or elasticity does not depend on the deformation.", "quantifier": "all shapes, configurations and models", "why_tests_cant": "the failing combination (constant elasticity, force=0) is not in the test matrix", "anchors": ["src/hyperelastic/spaces/_space.py:Space.piola"]}
{"id": "C47", "title": "Inputs are never modified", "statement": "No math function (out=None), framework or space evaluation writes to the arrays passed by the caller (F, statevars, A, B, C).", "quantifier": "all calls", "why_tests_cant": "the code writes in place into many intermediate arrays; aliasing depends on numpy view/copy rules", "anchors": ["src/hyperelastic/math/_voigt.py", "src/hyperelastic/spaces/_space.py:Space.piola", "src/hyperelastic/spaces/_distortional.py:Distortional.hessian"]}
{"id": "C48", "title": "TorchModel returns derivatives in the order the framework expects", "statement": "gradient returns (dW/dI1,dW/dI2,dW/dI3) and hessian (11,22,33,12,23,13), with None exactly for invariants the energy does not depend on, so Invariants(TorchModel(psi)) is consistent with psi; the None pattern never makes Invariants.hessian raise.", "quantifier": "all energy expressions", "why_tests_cant": "energies are arbitrary user code; tests use Yeoh only", "anchors": ["src/hyperelastic/models/invariants/_torch.py:TorchModel"]}
{"id": "C49", "title": "parallel=True changes nothing but the speed", "statement": "A space created with parallel=True (threaded einsum) returns, for every number of threads and every interleaving of their reads and writes, exactly what the same space returns with parallel=False: same stress, same elasticity tensor, same exceptions, same contents of every array, although several einsum calls write into an array (out=) that is also one of their operands. This holds when the trailing axes are split among the threads, when results are gathered before they are written, and for labels that are summed over; it must not depend on the order in which threads run.", "quantifier": "all thread counts, splittings and schedules; all spaces, materials, configurations and arrays", "why_tests_cant": "a test sees one schedule on one machine; a race shows up rarely and only on some sizes", "anchors": ["src/hyperelastic/spaces/_space.py:Space.__init__", "src/hyperelastic/spaces/_space.py:Space.piola", "src/hyperelastic/spaces/_deformation.py", "src/hyperelastic/spaces/_distortional.py", "src/hyperelastic/spaces/_dilatational.py"]}
{"id": "C50", "title": "Plots show the data, the current simulation and the fit that was reported", "statement": "plot_stress_stretch of an Experiment adds exactly one line with all measured (stretch, stress) points, of a Simulation exactly one line with the stresses at the parameters it has at that moment, to the given axes or to a new figure, with the object's label (that of the load case) unless another is given, and changes no other axes. Optimize.plot after a successful curve_fit draws for every pair the simulation at the fitted parameters and all points of the experiment in the same colour, and shows the fitted parameters plus/minus two standard deviations under their labels, the norm of the residuals and the mean relative standard deviation of that very fit; before a fit it raises AttributeError. plot_force_displacement, offered by both classes, works for experiments; for a Simulation it always raises.", "quantifier": "all experiments, simulations, parameters, masks, axes, histories of fits", "why_tests_cant": "a test can compare a figure for a few inputs; the claim is about every fit, mask, label list and any sequence of earlier plots", "anchors": ["src/hyperelastic/lab/_plotting.py:LabPlotter", "src/hyperelastic/lab/_optimize.py:Optimize.plot", "src/hyperelastic/lab/_optimize.py:Optimize.mean_relative_std", "src/hyperelastic/lab/_optimize.py:Optimize.norm_residuals"]}
{"id": "C51", "title": "Work done along a motion equals the change of stored energy", "statement": "For every continuously differentiable motion F(t) the stress power P(t):dF/dt, formed with the first Piola-Kirchhoff stress that gradient returns at each time (whatever calls and state variables came before), integrates to the difference of the stored energy at the end and at the beginning. Hence closed motions cost no work, the work depends on the end points only, the stress never jumps (also not where principal stretches cross), and the area under a simulated uniaxial or planar force-stretch curve (twice the area for biaxial) is the stored energy. For all spaces.", "quantifier": "all motions, intervals, models, parameters, state variables and call histories", "why_tests_cant": "an integral over a continuum of calls along arbitrary paths; a test samples a few states and cannot tell a non-conservative stress from quadrature error", "anchors": ["src/hyperelastic/spaces/_deformation.py:Deformation.gradient", "src/hyperelastic/spaces/_distortional.py:Distortional.gradient", "src/hyperelastic/spaces/_dilatational.py:Dilatational.gradient", "src/hyperelastic/lab/_simulation.py:Simulation.stress_curve_fit"]}
{"id": "C52", "title": "A simulation evaluates a whole array of stretches entry by entry", "statement": "stress_curve_fit(x, *parameters) with a one-dimensional array of any length returns a new array of the same length whose entry i is the stress of stretch x[i] alone (so a curve does not depend on how many other points it is evaluated with, or on their order), whatever the material (also one whose stress array is constant and has axes of length one); x is not changed. defgrad keeps every shape of stretches. A single number gives an array of length one; an array with two axes of length >= 2 raises ValueError, and a space with finalize=False always raises.", "quantifier": "all arrays of stretches, load cases, spaces, options, models and parameters", "why_tests_cant": "the code reshapes to (3,3,1,-1), evaluates once, reshapes back and broadcasts stress against stretch; lengths and shapes are unbounded", "anchors": ["src/hyperelastic/lab/_simulation.py:Simulation.stress_curve_fit", "src/hyperelastic/lab/_load_case.py:IncompressibleHomogeneousStretch.stress", "src/hyperelastic/lab/_load_case.py:Uniaxial.defgrad", "src/hyperelastic/lab/_load_case.py:Planar.defgrad", "src/hyperelastic/lab/_load_case.py:Biaxial.defgrad"]}
{"id": "C53", "title": "Tensor algebra has componentwise small rounding errors", "statement": "Evaluated in floating point (any rounding with relative error u per operation, any order and association of the sums in np.sum/np.einsum, with or without fused multiply-add), trace, det, dot, ddot, dya, cdya, cdya_ik, cdya_il and dev return entries that differ from the exact tensor entry by at most gamma_n = (1+u)^n-1 (n <= 7, independent of the data) times the same expression formed with absolute values; inv is accurate whenever the rounding error of the determinant is smaller than the determinant. float64 with round-to-nearest is the instance u = 2^-53.", "quantifier": "all tensors, all roundings, all summation orders", "why_tests_cant": "a test sees one machine's rounding and summation order on a few numbers; bounds must hold for all of them", "anchors": ["src/hyperelastic/math/_voigt.py"]}
{"id": "C54", "title": "Stress and elasticity are computed to within rounding errors of the exact ones", "statement": "For a ThirdOrderDeformation model in the Invariants framework and the Deformation space, every entry of the floating point stress (first and second Piola-Kirchhoff) and elasticity tensor differs from the exact result of the same call by at most gamma_n (n <= 28) times the same expression with absolute values; the Cauchy stress with det F away from 0 likewise. For Neo-Hooke the relative error is below 3e-15 in float64; frame indifference holds up to rounding.", "quantifier": "all deformation gradients, parameters, roundings and summation orders", "why_tests_cant": "cancellation makes errors input dependent; a test can only compare a few states with a tolerance", "anchors": ["src/hyperelastic/spaces/_deformation.py:Deformation.gradient", "src/hyperelastic/spaces/_deformation.py:Deformation.hessian", "src/hyperelastic/frameworks/_invariants.py:Invariants", "src/hyperelastic/models/invariants/_third_order_deformation.py:ThirdOrderDeformation"]}
{"id": "C55", "title": "All spaces and simulated curves are numerically stable", "statement": "For every invertible F (and every stretch > 0) there are constants K and u0 such that, computed in floating point with unit roundoff u <= u0 (any rounding, any summation order, library powers and roots accurate to u), every entry of the stress and of the elasticity tensor that Deformation, Distortional and Dilatational return for a ThirdOrderDeformation model, with all options force/area, is within K u of the exact result, and so is every point of the simulated uniaxial, planar and biaxial curves. For the elasticity tensor of Distortional this needs that the material tangent is not exactly at the tolerance of np.allclose, where the code branches.", "quantifier": "all invertible deformation gradients, spaces, options, parameters, roundings, summation orders", "why_tests_cant": "instability shows up only for particular inputs, roundings and precisions; a test has one machine", "anchors": ["src/hyperelastic/spaces/_deformation.py:Deformation", "src/hyperelastic/spaces/_distortional.py:Distortional", "src/hyperelastic/spaces/_dilatational.py:Dilatational", "src/hyperelastic/spaces/_space.py:Space.piola", "src/hyperelastic/lab/_load_case.py:IncompressibleHomogeneousStretch.stress"]}
{"id": "C56", "title": "Floating point keeps zero shear and symmetry exactly", "statement": "In floating point, with any rounding and summation order of sufficient precision, a diagonal deformation gradient gives a stress whose off-diagonal entries are exactly 0.0, in all spaces and with all options; and for any rounding function the computed second derivative of the energy and the Voigt elasticity (finalize=False) of Deformation and Dilatational are bitwise symmetric matrices.", "quantifier": "all invertible diagonal deformation gradients, spaces, options, parameters, rounding functions", "why_tests_cant": "bitwise statements over all inputs; a test checks a few", "anchors": ["src/hyperelastic/spaces/_space.py:Space.piola", "src/hyperelastic/frameworks/_invariants.py:Invariants.hessian", "src/hyperelastic/math/_voigt.py:cdya"]}
{"id": "C57", "title": "An isotropic body can be turned before it is deformed", "statement": "For every orthogonal Q and invertible F, gradient([F Q^T]) and hessian([F Q^T]) return what gradient([F]) and hessian([F]) return with the legs that live in the undeformed configuration turned by Q (P Q^T for the first Piola-Kirchhoff stress, unchanged Cauchy stress, Q S Q^T for the second), or raise the same exception, in all spaces, with all options, for every model of the invariants, Ogden and (stress) the generalised invariants.", "quantifier": "all orthogonal Q (reflections included), invertible F, isotropic frameworks, spaces, options, state variables and attribute values", "why_tests_cant": "a test compares a few rotations and states to a tolerance", "anchors": ["src/hyperelastic/spaces/_deformation.py:Deformation", "src/hyperelastic/spaces/_distortional.py:Distortional", "src/hyperelastic/spaces/_dilatational.py:Dilatational", "src/hyperelastic/spaces/_space.py:Space.piola", "src/hyperelastic/frameworks/_invariants.py:Invariants", "src/hyperelastic/frameworks/_stretches.py:Stretches"]}
{"id": "C58", "title": "Simulated curves of stable materials rise, and every force belongs to one stretch", "statement": "For ThirdOrderDeformation with parameters >= 0 (C10 + C01 > 0), in Deformation or Distortional, the uniaxial, planar and biaxial curves of a Simulation are strictly increasing over all stretches > 0, zero at 1, positive above and negative below; if C10 > 0 every force is reached at exactly one stretch. The same for every Ogden material with moduli >= 0 (one > 0) and exponents alpha >= 1 or alpha <= -2 (uniaxial; -1 planar, -1/2 biaxial), whose curves are sum of 2 mu/alpha (l^(alpha-1) - l^(b alpha-1)), b = -1/2, -1, -2.", "quantifier": "all stretches > 0, arrays of stretches, parameters, numbers of Ogden terms", "why_tests_cant": "monotonicity and uniqueness over a continuum; a plot or a few sampled points cannot exclude a dip between them", "anchors": ["src/hyperelastic/lab/_simulation.py:Simulation.stress_curve_fit", "src/hyperelastic/lab/_load_case.py:IncompressibleHomogeneousStretch.stress", "src/hyperelastic/models/invariants/_third_order_deformation.py:ThirdOrderDeformation", "src/hyperelastic/models/stretches/_ogden.py:Ogden"]}
{"id": "C59", "title": "A fit of ThirdOrderDeformation coefficients cannot get stuck", "statement": "For simulations of ThirdOrderDeformation (any of the five coefficients as parameters, any mix of the three load cases, any masks) the residuals of Optimize.curve_fit are affine in the parameters and the total sum of squares is convex. So if scipy returns a local minimiser, the fit is a global minimiser; all successful fits report the same residuals and norm, whatever the initial values, the method and the history; Mooney-Rivlin parameters are determined uniquely as soon as one uniaxial experiment has two different stretches other than 1, whereas planar data alone determine C10 + C01 only.", "quantifier": "all data, masks, initial parameters, optimisers that return local minimisers, histories", "why_tests_cant": "a test can run a few fits from a few initial values; absence of other local minima is a statement about all parameters", "anchors": ["src/hyperelastic/lab/_optimize.py:Optimize.curve_fit", "src/hyperelastic/lab/_simulation.py:Simulation.stress_curve_fit", "src/hyperelastic/models/invariants/_third_order_deformation.py:ThirdOrderDeformation.gradient"]}
{"id": "C60", "title": "Principal stresses and the Baker-Ericksen inequalities", "statement": "For an isotropic material with energy psi of the principal stretches, Deformation and Distortional return a Cauchy stress with the principal directions of the left stretch tensor and principal values lambda_a (d psi/d lambda_a)/J; closed forms for ThirdOrderDeformation and Ogden. The larger principal stretch carries the larger principal Cauchy stress: ThirdOrderDeformation with non-negative coefficients in Distortional, Mooney-Rivlin in Deformation, Ogden with non-negative mu and any non-zero exponents in both.", "quantifier": "all invertible deformation gradients (also with equal principal stretches), coefficients, exponents, state variables, histories", "why_tests_cant": "a test samples deformation gradients; the order of the principal stresses must hold for all triples of stretches and all directions", "anchors": ["src/hyperelastic/spaces/_deformation.py:Deformation.gradient", "src/hyperelastic/spaces/_distortional.py:Distortional.gradient", "src/hyperelastic/models/invariants/_third_order_deformation.py:ThirdOrderDeformation.gradient", "src/hyperelastic/models/stretches/_ogden.py:Ogden.gradient"]}
{"id": "C61", "title": "One shear modulus describes small strains", "statement": "For every isotropic hyperelastic material there is one shear modulus mu: at the undeformed state Distortional's first Piola-Kirchhoff stress is zero and changes by 2 mu times the deviatoric strain, and the simulated uniaxial, planar and biaxial curves start with slopes 3 mu, 4 mu and 6 mu. mu is 2(C10+C01) for ThirdOrderDeformation, the sum of the mu_i for Ogden, and for GeneralizedInvariants, whatever the exponents, 2(W1+W2) with the deformation measure and W1 - W2/2 with the strain measure (W1, W2: derivatives of the invariant model at its reference invariants).", "quantifier": "all materials, coefficients, exponents, deformation paths through the undeformed state, state variables, histories", "why_tests_cant": "a limit statement: a test can only compare finite differences for sampled coefficients", "anchors": ["src/hyperelastic/spaces/_distortional.py:Distortional.gradient", "src/hyperelastic/lab/_simulation.py:Simulation.stress_curve_fit", "src/hyperelastic/models/invariants/_third_order_deformation.py:ThirdOrderDeformation.gradient", "src/hyperelastic/models/stretches/_ogden.py:Ogden.gradient", "src/hyperelastic/models/stretches/_generalized_invariants.py:GeneralizedInvariantsModel.gradient"]}
{"id": "C62", "title": "The out argument of the math functions", "statement": "inv, dya, cdya, tril_from_triu and triu_from_tril called with out=o return the array o itself, filled with the values of the call without out (the two triangle functions write the copied triangle only and leave the other entries of o as they were), and change no other memory; cdya_ik and cdya_il leave dya(A, B) in o and return a new array. This also holds when o shares memory with A or B, e.g. inv(A, out=A), and when o is a non-contiguous view; only a determinant passed to inv must not share memory with o. For inv, dya, cdya_ik and cdya_il an o of a shape into which the result does not broadcast raises ValueError and changes nothing.", "quantifier": "all arrays, trailing shapes that broadcast to those of o, overlaps between o and the operands, memory layouts of o", "why_tests_cant": "a test tries a few shapes and one or two aliasing patterns; correctness under aliasing must hold for every overlap and layout", "anchors": ["src/hyperelastic/math/_voigt.py:inv", "src/hyperelastic/math/_voigt.py:dya", "src/hyperelastic/math/_voigt.py:cdya", "src/hyperelastic/math/_voigt.py:cdya_ik", "src/hyperelastic/math/_voigt.py:cdya_il", "src/hyperelastic/math/_voigt.py:tril_from_triu", "src/hyperelastic/math/_voigt.py:triu_from_tril"]}
{"id": "C63", "title": "Integer arrays", "statement": "A deformation gradient given as an integer array (entries up to 500 in absolute value) gives, for every space, option and material, either a TypeError or floating-point results with exactly the numbers the same deformation gradient gives as floats; it is never silently truncated. Distortional and Dilatational always raise on it: TypeError, or the exception they raise on floats. Deformation with ThirdOrderDeformation accepts it, except that hessian with force=0 raises TypeError. inv raises TypeError exactly if its destination is an integer array, cdya exactly if an operand is one; an integer out of dya raises on float operands. The other math functions return, on integer arrays with entries up to 10^6, integers with exactly the numbers they return on floats. (Not so: cdya and tril_from_triu truncate silently into an integer out, and an integer deformation gradient beyond the bound may wrap around at int64.)", "quantifier": "all integer and float deformation gradients, spaces, options, materials with integer or float parameters", "why_tests_cant": "a test tries one dtype and a few numbers; silent truncation or overflow depends on the numbers", "anchors": ["src/hyperelastic/math/_voigt.py:inv", "src/hyperelastic/math/_voigt.py:cdya", "src/hyperelastic/math/_voigt.py:dya", "src/hyperelastic/math/_voigt.py:tril_from_triu", "src/hyperelastic/spaces/_deformation.py:Deformation", "src/hyperelastic/spaces/_distortional.py:Distortional", "src/hyperelastic/spaces/_dilatational.py:Dilatational", "src/hyperelastic/frameworks/_invariants.py:Invariants", "src/hyperelastic/models/invariants/_third_order_deformation.py:ThirdOrderDeformation"]}
{"id": "C64", "title": "Strong ellipticity (Legendre-Hadamard)", "statement": "m_i N_J A_iJkL m_k N_L, formed with the tangent returned by Deformation.hessian or Distortional.hessian, is the second derivative of the stored energy along F + t m x N. For ThirdOrderDeformation it is positive for all m, N != 0 (real wave speeds, no shear bands): in Deformation with C10, C01 >= 0, C10 + C01 > 0 at every invertible F, also with C20, C30 >= 0 if |det F| >= 1 (or strain=True); in Distortional with C10 > 0, C20, C30 >= 0 at every invertible F. (Not so: C20 in Deformation under compression; C01 in Distortional, e.g. a bar of fixed width at three times its length.)", "quantifier": "all invertible deformation gradients, directions m and N, materials", "why_tests_cant": "a finite set of deformations and directions cannot show positivity for all of them", "anchors": ["src/hyperelastic/spaces/_deformation.py:Deformation.hessian", "src/hyperelastic/spaces/_distortional.py:Distortional.hessian", "src/hyperelastic/frameworks/_invariants.py:Invariants", "src/hyperelastic/models/invariants/_third_order_deformation.py:ThirdOrderDeformation"]}
{"id": "C65", "title": "Optimize with lists of different lengths", "statement": "Without experiments, masks or simulations curve_fit raises ValueError and changes neither the parameters, the simulations' parameters, the errors nor the residuals. Simulations beyond the number of experiments do not influence the result, the errors or the residuals of the fit, but receive the fitted parameters. A mask list shorter than the list of experiments silently drops the remaining experiments (the outcome is the same as without them), surplus masks have no effect. With fewer simulations than experiments curve_fit raises ValueError before the optimiser is called and without changing any parameters, if the numbers of simulated and measured points differ and neither is one. (Not so if there is only one simulated point: it is broadcast against all measured points of all experiments and the fit returns.)", "quantifier": "all lists of experiments, simulations and masks, all data, optimisers and parameters", "why_tests_cant": "unbounded lists; zip truncates without any message", "anchors": ["src/hyperelastic/lab/_optimize.py:Optimize.curve_fit", "src/hyperelastic/lab/_optimize.py:Optimize.init_curve_fit", "src/hyperelastic/lab/_curve_fit.py:concatenate_curve_fit"]}
{"id": "C66", "title": "Math functions of two operands with different numbers of trailing axes", "statement": "ddot (all modes) and dot accept operands whose numbers of trailing axes differ: trailing axes are aligned at the right end as in numpy, and every entry of the new array is the function of the two entries. dya, cdya_ik, cdya_il and cdya do not: dya raises ValueError or returns an array that has not 6 x 6 components per entry (a single tensor (6,) with a batch (6, n) gives shape (1, 6, n) with the entries A_i B_i); cdya_ik and cdya_il always raise (ValueError or IndexError); cdya raises ValueError unless the complete shape of the operand with fewer axes broadcasts against the trailing axes of the other one, and then returns, without an exception, the result for a tensor with six equal components.", "quantifier": "all arrays, all trailing shapes of different length", "why_tests_cant": "unbounded numbers of axes and axis lengths; the silent cases depend on coincidences of axis lengths with 6 and 1", "anchors": ["src/hyperelastic/math/_voigt.py:ddot", "src/hyperelastic/math/_voigt.py:dot", "src/hyperelastic/math/_voigt.py:dya", "src/hyperelastic/math/_voigt.py:cdya", "src/hyperelastic/math/_voigt.py:cdya_ik", "src/hyperelastic/math/_voigt.py:cdya_il"]}
{"id": "C67", "title": "The formulas printed in the documentation", "statement": "What the methods return is what the class documentation prints, in full index notation: P = F S and A_iJkL = F_iI F_kK C_IJKL + delta_ik S_JL for Deformation; S = dev(S_bar C) C^-1 = P : S_bar = S_bar - (S_bar : C)/3 C^-1 and the four-term elasticity tensor for Distortional; the sums over the gradients and hessians of the invariants for Invariants; the sum over the invariants for GeneralizedInvariants; the sums over eigenbases for Stretches.", "quantifier": "all deformation gradients, right Cauchy-Green tensors, frameworks, models, state variables and attribute values", "why_tests_cant": "index formulas over all tensors; a test compares a few numbers, usually against a second implementation of the same formula", "anchors": ["src/hyperelastic/spaces/_deformation.py:Deformation", "src/hyperelastic/spaces/_distortional.py:Distortional", "src/hyperelastic/frameworks/_invariants.py:Invariants", "src/hyperelastic/frameworks/_generalized.py:GeneralizedInvariants", "src/hyperelastic/frameworks/_stretches.py:Stretches"]}
{"id": "C68", "title": "Ogden materials are numerically stable, whatever eigenvectors LAPACK picks", "statement": "For every invertible F there are constants K and u0 such that, computed in floating point with unit roundoff u <= u0 (any rounding, any summation order, library powers and roots accurate to u) on top of any eigenvalue routine that returns the eigenvalues and eigenvectors of a matrix within c u |A| of the one passed in, every entry of the stress that Deformation, Distortional and Dilatational return for Stretches(Ogden), with all options force/area, is within K u of the exact result - also when principal stretches coincide and the computed eigenvectors are arbitrary. The same holds for the elasticity tensor unless two squared stretches differ by exactly the tolerance of np.isclose, or the tangent is exactly at the tolerance of np.allclose, where the code branches. Simulated curves (stress_curve_fit) are accurate to K u point by point, with the load case's deformation gradient computed in floating point as well.", "quantifier": "all invertible deformation gradients, Ogden parameters with non-zero exponents, spaces, options, roundings, summation orders, backward stable eigenvalue routines", "why_tests_cant": "near equal stretches the eigenvectors are discontinuous; a test has one LAPACK, one machine and a few deformations", "anchors": ["src/hyperelastic/frameworks/_stretches.py:Stretches.gradient", "src/hyperelastic/frameworks/_stretches.py:Stretches.hessian", "src/hyperelastic/models/stretches/_ogden.py:Ogden", "src/hyperelastic/math/_voigt.py:eigh", "src/hyperelastic/spaces/_space.py:Space.piola"]}
{"id": "C69", "title": "GeneralizedInvariants(ThirdOrderDeformation) is numerically stable, normalisation included", "statement": "GeneralizedInvariants(ThirdOrderDeformation(...), fun, exponent=k) with either strain function of the library and any non-zero exponent: for every invertible F there are constants K and u0 such that, computed in floating point with unit roundoff u <= u0 (any rounding, any summation order) on top of any backward stable eigenvalue routine, every entry of the stress that the three spaces return, with all options force/area, is within K u of the exact result - including the normalisation constants that the constructor computes, and also when principal stretches coincide. The same holds for the elasticity tensor unless two squared stretches differ by exactly the tolerance of np.isclose, or the tangent is exactly at the tolerance of np.allclose. Simulated curves are accurate to K u point by point.", "quantifier": "all invertible deformation gradients, material parameters, both strain functions, all non-zero exponents, spaces, options, roundings, backward stable eigenvalue routines", "why_tests_cant": "the error depends on cancellations in the normalisation and on eigenvectors that are discontinuous near equal stretches; a test samples a few deformations on one machine", "anchors": ["src/hyperelastic/frameworks/_generalized.py:GeneralizedInvariants", "src/hyperelastic/models/stretches/_generalized_invariants.py:GeneralizedInvariantsModel", "src/hyperelastic/models/generalized/_stretch.py:strain", "src/hyperelastic/models/generalized/_stretch.py:deformation", "src/hyperelastic/frameworks/_stretches.py:Stretches", "src/hyperelastic/math/_voigt.py:eigh"]}
{"id": "C70", "title": "Underflow and overflow do no harm", "statement": "Invariants(ThirdOrderDeformation) in all three spaces, with every choice of force/area, in arithmetic with infinities, NaN and gradual underflow: for every invertible F there are constants K and d such that in every floating-point format whose roundoff u and underflow threshold tiny have u + tiny <= d and whose largest number is at least 1/d - nothing is assumed about operations that overflow or are invalid - every entry of the returned stress is a finite number within K (u + tiny) of the exact result of the same call, whatever the order of summation. The same holds for the elasticity tensor unless the distortional tangent is exactly at the tolerance of np.allclose, and for simulated curves point by point. IEEE-754 binary formats with round to nearest are such formats, and every computed entry is then a finite machine number. Stretches(Ogden) with non-zero exponents and Stretches(GeneralizedInvariants(ThirdOrderDeformation)) as well, with an eigenvalue routine that is finite and backward stable on finite matrices and arbitrary on others, the elasticity tensor also unless two squared principal stretches differ by exactly the tolerance of np.isclose.", "quantifier": "all invertible deformation gradients, material parameters, spaces, options, formats, rounding modes, summation orders", "why_tests_cant": "one run in one format says nothing about other deformations, and an overflow or NaN shows up only at the inputs where it happens", "anchors": ["src/hyperelastic/frameworks/_invariants.py:Invariants", "src/hyperelastic/models/invariants/_third_order_deformation.py:ThirdOrderDeformation", "src/hyperelastic/spaces/_deformation.py:Deformation", "src/hyperelastic/spaces/_distortional.py:Distortional", "src/hyperelastic/spaces/_dilatational.py:Dilatational", "src/hyperelastic/math/_voigt.py:inv", "src/hyperelastic/math/_voigt.py:det", "src/hyperelastic/frameworks/_stretches.py:Stretches", "src/hyperelastic/models/stretches/_ogden.py:Ogden", "src/hyperelastic/frameworks/_generalized.py:GeneralizedInvariants", "src/hyperelastic/lab/_load_case.py:IncompressibleHomogeneousStretch.stress", "src/hyperelastic/lab/_simulation.py:Simulation"]}
{"id": "C71", "title": "Lists as arguments and the initial state x", "statement": "gradient(x) and hessian(x) of a space take a list; only its first entry (the deformation gradient) and its last entry (the state variables) are used, however many entries lie between them; a list of one entry uses it for both, an empty list raises IndexError and None instead of the deformation gradient raises ValueError. Whenever the call returns, hessian returns a list of one array and, with ThirdOrderDeformation, Ogden and GeneralizedInvariants, gradient returns the stress and the very object that was the last entry of x (None included). For one invertible deformation gradient both calls return, with every object as state variables, in every space, with all options, and hold in new arrays the values of C08-C34. A new framework has x = [eye(3), zeros(nstatevars)] in new arrays, a space refers to the same two arrays, gradient(space.x) and hessian(space.x) return, and gradient(space.x) in Distortional is zero stress.", "quantifier": "all lists, objects used as state variables, library models and parameters, spaces, options, numbers of state variables", "why_tests_cant": "tests call the methods with a few lists; that no entry in between matters and the returned state is the passed object holds for all of them", "anchors": ["src/hyperelastic/spaces/_deformation.py:Deformation", "src/hyperelastic/spaces/_distortional.py:Distortional", "src/hyperelastic/spaces/_dilatational.py:Dilatational", "src/hyperelastic/frameworks/_invariants.py:Invariants", "src/hyperelastic/frameworks/_stretches.py:Stretches", "src/hyperelastic/frameworks/_generalized.py:GeneralizedInvariants"]}
{"id": "C72", "title": "Threads may share objects exactly when their calls do not contradict each other", "statement": "gradient and hessian keep intermediate results in attributes of the space, of the framework and of GeneralizedInvariantsModel. When several threads call them and every attribute read and write may be interleaved arbitrarily: a call that runs alone returns what it returns on a new object, whatever the attributes were before. Threads whose calls use a common space only with the same F, and a common framework only with the same tensor and the same state variables (and, in GeneralizedInvariants, with a model that returns the state variables unchanged), get under every schedule exactly the result (or exception) of the call alone, and every call ends. This covers threads with own objects that share a model, and threads that ask the same question on one object. With a lock around every call, any calls on any shared objects return the right results under every schedule and never dead-lock. Without a lock and with different F this is false: there is a schedule of two gradient calls on one object, and one of two spaces on one framework, where a thread returns a stress that is neither call's answer.", "quantifier": "all numbers of threads, schedules, initial attribute values, spaces, frameworks, models, options, deformation gradients and state variables", "why_tests_cant": "a race depends on the schedule; a test sees one", "anchors": ["src/hyperelastic/spaces/_deformation.py:Deformation", "src/hyperelastic/spaces/_distortional.py:Distortional", "src/hyperelastic/spaces/_dilatational.py:Dilatational", "src/hyperelastic/frameworks/_invariants.py:Invariants", "src/hyperelastic/frameworks/_stretches.py:Stretches", "src/hyperelastic/frameworks/_generalized.py:GeneralizedInvariants", "src/hyperelastic/models/stretches/_generalized_invariants.py:GeneralizedInvariantsModel"]}
{"id": "C73", "title": "Least-squares fits of linear parameters: units, repetition, exact data, closed form", "statement": "Where the simulated curves are linear in the parameters (ThirdOrderDeformation with any of its coefficients; also inside GeneralizedInvariants with any strain measure; Ogden with given exponents and the moduli as parameters; three load cases; in general every material whose gradients are linear in its parameters, any loading) an Optimize.curve_fit whose optimiser returns a local minimiser is globally optimal, and any two fits report the same residuals; the parameters are optimal exactly if their residuals are orthogonal to everything that can be simulated, so one parameter is (c,y)/(c,c) with c the curve for the value 1 and y the measured stresses; data which some parameters reproduce exactly are reproduced exactly (residuals and norm zero); forces in another unit scale optimal parameters and reported residuals by the same factor; passing all experiments twice changes nothing.", "quantifier": "all data, masks, numbers of experiments and parameters, units, optimisers that return local minimisers, initial values, histories", "why_tests_cant": "a test can run a few fits; optimality, uniqueness of the residuals and scaling are statements about all parameters and all data", "anchors": ["src/hyperelastic/lab/_optimize.py:Optimize.curve_fit", "src/hyperelastic/lab/_simulation.py:Simulation.stress_curve_fit", "src/hyperelastic/lab/_experiment.py:Experiment.stress", "src/hyperelastic/models/stretches/_ogden.py:Ogden.gradient", "src/hyperelastic/models/invariants/_third_order_deformation.py:ThirdOrderDeformation.gradient", "src/hyperelastic/models/stretches/_generalized_invariants.py:GeneralizedInvariantsModel.gradient"]}
{"id": "C74", "title": "Universal relations of isotropic materials and closed forms in simple shear", "statement": "For every isotropic material, in every space, the Cauchy stress commutes with F F^T and the second Piola-Kirchhoff stress commutes with F^T F. In simple shear of amount g != 0 the Cauchy stress therefore obeys Rivlin's universal relation s11 - s22 = g s12, s13 = s23 = 0; s12 is the derivative of the energy with respect to g (Deformation and Distortional). For every model of the invariants (Deformation, Distortional) s12 = 2 g (W1 + W2), s11 - s33 = 2 g^2 W1, s22 - s33 = -2 g^2 W2 with the slopes at I1 = I2 = 3 + g^2, I3 = 1; with explicit coefficients for ThirdOrderDeformation.", "quantifier": "all materials, deformation gradients, amounts of shear, coefficients, state variables, histories", "why_tests_cant": "a test compares a stress with another implementation for a few deformations; the relations hold for all materials and all deformations", "anchors": ["src/hyperelastic/spaces/_space.py:Space.piola", "src/hyperelastic/spaces/_deformation.py:Deformation.gradient", "src/hyperelastic/spaces/_distortional.py:Distortional.gradient", "src/hyperelastic/spaces/_dilatational.py:Dilatational.gradient", "src/hyperelastic/frameworks/_invariants.py:Invariants.gradient", "src/hyperelastic/models/invariants/_third_order_deformation.py:ThirdOrderDeformation.gradient"]}
{"id": "C75", "title": "Superposition: materials in parallel add up", "statement": "If a material returns the sums of what two materials return, its stress in every space and configuration is the sum of their stresses, its tangent the sum of their tangents (Distortional: if no material tangent lies below the np.allclose tolerance) and its simulated curve the pointwise sum of their curves. This is so for ThirdOrderDeformation when coefficients are added (also inside GeneralizedInvariants with any strain measure), for Ogden when lists of terms are joined, and for model classes written as sums whose hessian has no d2W/dI3dI3; with d2W/dI3dI3 tangents do not add up (refuted by an example, a consequence of C15). For Ogden the order of the terms is irrelevant, two terms with the same exponent are one term with the sum of the moduli, and a term with modulus zero has no effect.", "quantifier": "all materials, coefficients, lists of terms, strain measures, deformations, configurations, state variables, histories", "why_tests_cant": "a test adds a few materials; additivity ranges over all pairs of materials and all deformations", "anchors": ["src/hyperelastic/spaces/_space.py:Space.piola", "src/hyperelastic/spaces/_deformation.py:Deformation.hessian", "src/hyperelastic/spaces/_distortional.py:Distortional.hessian", "src/hyperelastic/spaces/_dilatational.py:Dilatational.hessian", "src/hyperelastic/frameworks/_invariants.py:Invariants.hessian", "src/hyperelastic/frameworks/_stretches.py:Stretches.hessian", "src/hyperelastic/models/stretches/_ogden.py:Ogden.gradient", "src/hyperelastic/models/invariants/_third_order_deformation.py:ThirdOrderDeformation.gradient", "src/hyperelastic/lab/_simulation.py:Simulation.stress_curve_fit"]}
{"id": "C76", "title": "Newton's method with the returned stresses and tangents converges quadratically", "statement": "For every finite-element body (any mesh, element, quadrature, number of degrees of freedom, dead load, mix of materials) assembled from the stresses and tangents the spaces return: if there is an equilibrium at which the assembled stiffness matrix is regular, then from every start close enough to it each iterate is followed by exactly one next iterate, the error of which is at most a constant times the square of the previous error (and at most half of it), so Newton's method converges to the equilibrium. This holds for ThirdOrderDeformation with any coefficients in Deformation at every invertible deformation gradient; in Distortional where the isochoric tangent is not dropped by the tolerance of np.allclose; for Neo-Hooke in Deformation, Distortional and Dilatational; for Ogden and for GeneralizedInvariants(ThirdOrderDeformation) with any strain measure where the principal stretches differ pairwise by more than the tolerance of np.isclose.", "quantifier": "all meshes, loads, numbers of degrees of freedom, mixes of materials, coefficients, strain measures, eigenvalue routines, starts near the equilibrium, call histories", "why_tests_cant": "a test runs a few iterations of a few problems; local quadratic convergence is a statement about all starts and all problems, and needs the tangent to be the exact derivative", "anchors": ["src/hyperelastic/spaces/_space.py:Space.piola", "src/hyperelastic/spaces/_deformation.py:Deformation.hessian", "src/hyperelastic/spaces/_distortional.py:Distortional.hessian", "src/hyperelastic/spaces/_dilatational.py:Dilatational.hessian", "src/hyperelastic/frameworks/_invariants.py:Invariants.hessian", "src/hyperelastic/frameworks/_stretches.py:Stretches.hessian", "src/hyperelastic/models/stretches/_ogden.py:Ogden.hessian", "src/hyperelastic/models/stretches/_generalized_invariants.py:GeneralizedInvariantsModel.hessian", "src/hyperelastic/models/invariants/_third_order_deformation.py:ThirdOrderDeformation.hessian"]}
{"id": "C77", "title": "Equilibria are stationary points of the potential energy; stable ones are strict minima", "statement": "For every finite-element body under dead loads assembled from what the spaces return, with the documented energies of the models (ThirdOrderDeformation, Ogden, GeneralizedInvariants(ThirdOrderDeformation) with any strain measure, in Deformation and Distortional; Neo-Hooke also in Dilatational): the residual is the gradient of stored energy minus work of the loads, so a state is an equilibrium exactly if it is a stationary point; the stiffness matrix is symmetric; an equilibrium with a positive definite stiffness matrix is a strict local minimum with quadratic growth, isolated, and Newton's method converges to it; every local minimum is an equilibrium with a positive semidefinite stiffness matrix; where the stiffness matrix is positive definite the Newton direction lowers the energy.", "quantifier": "all meshes, loads, numbers of degrees of freedom, mixes of materials, coefficients, strain measures, eigenvalue routines, displacements, call histories", "why_tests_cant": "a test samples some problems; minimality and stationarity are statements about all neighbouring displacements", "anchors": ["src/hyperelastic/spaces/_space.py:Space.piola", "src/hyperelastic/spaces/_deformation.py:Deformation.gradient", "src/hyperelastic/spaces/_deformation.py:Deformation.hessian", "src/hyperelastic/spaces/_distortional.py:Distortional.gradient", "src/hyperelastic/spaces/_distortional.py:Distortional.hessian", "src/hyperelastic/spaces/_dilatational.py:Dilatational.gradient", "src/hyperelastic/frameworks/_invariants.py:Invariants.hessian", "src/hyperelastic/frameworks/_stretches.py:Stretches.hessian", "src/hyperelastic/models/stretches/_ogden.py:Ogden.gradient", "src/hyperelastic/models/stretches/_generalized_invariants.py:GeneralizedInvariantsModel.gradient", "src/hyperelastic/models/invariants/_third_order_deformation.py:ThirdOrderDeformation.gradient"]}
{"id": "C78", "title": "Load stepping with the returned tangents follows the equilibrium path", "statement": "Take a finite-element body (any of the library's models in the spaces, at deformations where they are smooth) in an equilibrium with a regular stiffness matrix. If the load is changed a little there is an equilibrium near the old one, only one, regular again; it depends Lipschitz-continuously on the load and the stiffness matrix predicts its change up to second order. Newton's method for the new load started at the old equilibrium, or near it, never gets stuck and at least halves the distance to the new equilibrium in every iteration. For a whole path of such equilibria, load stepping with sufficiently many steps and iterations follows the path to any accuracy, whatever the approximation left over from the step before.", "quantifier": "all meshes, loads and load paths, numbers of degrees of freedom, mixes of materials, coefficients, strain measures, eigenvalue routines, starting points near the equilibrium, numbers of steps and iterations, call histories", "why_tests_cant": "a test runs some load steps; existence, uniqueness and the absence of stuck runs are statements about all nearby loads and displacements and about all numbers of steps", "anchors": ["src/hyperelastic/spaces/_space.py:Space.piola", "src/hyperelastic/spaces/_deformation.py:Deformation.gradient", "src/hyperelastic/spaces/_deformation.py:Deformation.hessian", "src/hyperelastic/spaces/_distortional.py:Distortional.gradient", "src/hyperelastic/spaces/_distortional.py:Distortional.hessian", "src/hyperelastic/spaces/_dilatational.py:Dilatational.gradient", "src/hyperelastic/frameworks/_invariants.py:Invariants.hessian", "src/hyperelastic/frameworks/_stretches.py:Stretches.hessian", "src/hyperelastic/models/stretches/_ogden.py:Ogden.gradient", "src/hyperelastic/models/stretches/_generalized_invariants.py:GeneralizedInvariantsModel.gradient", "src/hyperelastic/models/invariants/_third_order_deformation.py:ThirdOrderDeformation.gradient"]}
{"id": "C79", "title": "Bodies: forces and moments are balanced and rigid motions cost nothing", "statement": "Take a finite-element body whose points carry any material in one of the spaces (any framework, the user's own included), described by the positions of its nodes. The internal nodal forces computed from the returned stresses add up to zero and have no moment. If the whole body is rotated and shifted, the forces and the stiffness matrix computed from the returned tangents are rotated with it. The stiffness matrix gives no force for a translation, and for an infinitesimal rotation exactly the change due to the turning of the present forces; so a free body without loads keeps its six rigid modes.", "quantifier": "all meshes, numbers of nodes and points, shape functions, frameworks, spaces, deformations, rotations (reflections included), call histories", "why_tests_cant": "a test checks some meshes; the claims are identities for all of them, and hold because every returned stress and tangent has the right symmetries", "anchors": ["src/hyperelastic/spaces/_space.py:Space.piola", "src/hyperelastic/spaces/_deformation.py:Deformation.gradient", "src/hyperelastic/spaces/_deformation.py:Deformation.hessian", "src/hyperelastic/spaces/_distortional.py:Distortional.gradient", "src/hyperelastic/spaces/_distortional.py:Distortional.hessian", "src/hyperelastic/spaces/_dilatational.py:Dilatational.gradient", "src/hyperelastic/spaces/_dilatational.py:Dilatational.hessian", "src/hyperelastic/math/_voigt.py:astensor"]}
{"id": "C80", "title": "Newton's method survives errors; floating-point runs end at the equilibrium", "statement": "Near a regular equilibrium of a finite-element body of the library's smooth materials: if the residual is wrong by at most delta, the stiffness matrix by at most a fixed kappa and the linear equations are solved up to a residual of delta, then every iteration still halves the distance to the equilibrium, down to a multiple of delta. With the stiffness matrix of another state near by (modified Newton method) the iterations are well defined and converge linearly. If stresses and tangents of ThirdOrderDeformation in Deformation are computed in floating-point arithmetic, in any order of summation, at deformation gradients that are themselves evaluated with errors up to delta, and the system is assembled and solved up to delta, every run that starts near the equilibrium ends within a multiple of (unit roundoff + delta) of the exact equilibrium.", "quantifier": "all meshes, bodies, parameters, regular equilibria, starting states in a neighbourhood, error sequences, rounding and summation orders (normal range), numbers of iterations", "why_tests_cant": "a test sees one sequence of rounding errors; the limit accuracy is a statement about all of them", "anchors": ["src/hyperelastic/spaces/_deformation.py:Deformation.gradient", "src/hyperelastic/spaces/_deformation.py:Deformation.hessian", "src/hyperelastic/spaces/_distortional.py:Distortional.gradient", "src/hyperelastic/spaces/_distortional.py:Distortional.hessian", "src/hyperelastic/frameworks/_invariants.py:Invariants.gradient", "src/hyperelastic/frameworks/_invariants.py:Invariants.hessian", "src/hyperelastic/frameworks/_stretches.py:Stretches.gradient", "src/hyperelastic/frameworks/_stretches.py:Stretches.hessian", "src/hyperelastic/models/invariants/_third_order_deformation.py:ThirdOrderDeformation.gradient", "src/hyperelastic/models/invariants/_third_order_deformation.py:ThirdOrderDeformation.hessian", "src/hyperelastic/math/_voigt.py:einsum"]}
{"id": "C81", "title": "One set of material parameters per quadrature point", "statement": "If the parameters of an Ogden material are lists of arrays that broadcast to the trailing axes of the deformation gradient, then in every space and configuration the stress (and the elasticity tensor) at each trailing index is that of the Ogden material with the parameters of that index; the result at one point does not depend on the parameters, deformation gradients and states of the other points. Arrays that do not broadcast to the shape of the stretches raise ValueError. ThirdOrderDeformation has no such fields: if one of its five parameters has several values, gradient and hessian raise ValueError, whatever the other parameters are.", "quantifier": "all trailing shapes, parameter arrays, numbers of terms, deformation gradients, spaces, configurations", "why_tests_cant": "unbounded shapes and values; the library's tests use numbers only", "anchors": ["src/hyperelastic/models/stretches/_ogden.py:Ogden.gradient", "src/hyperelastic/models/stretches/_ogden.py:Ogden.hessian", "src/hyperelastic/models/invariants/_third_order_deformation.py:ThirdOrderDeformation.gradient", "src/hyperelastic/frameworks/_stretches.py:Stretches.gradient", "src/hyperelastic/frameworks/_stretches.py:Stretches.hessian", "src/hyperelastic/spaces/_deformation.py:Deformation.gradient", "src/hyperelastic/spaces/_distortional.py:Distortional.gradient", "src/hyperelastic/spaces/_dilatational.py:Dilatational.gradient"]}
