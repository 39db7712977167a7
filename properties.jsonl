{"id": "C01", "title": "Decision variables tile the decision vector", "statement": "After any sequence of add_decision / add_dependent_variable / add_objective / add_constraint calls on a fresh problem (including calls that raise), the slices of the decision variables, taken in registration order, are adjacent, pairwise disjoint and exactly cover [0, ndec); the slices of the constraints do the same for [0, ncons). This holds as long as no single component has 2**31 or more elements.", "quantifier": "every finite history of builder calls, every tuple of shapes (including zero-sized ones), every point in the history", "why_tests_cant": "The number of histories and shapes is unbounded; the tests only build four fixed layouts.", "anchors": ["ceacoest/optim.py:Problem.add_decision", "ceacoest/optim.py:Problem.add_constraint", "ceacoest/optim.py:Component.size", "ceacoest/optim.py:Component.slice"]}
{"id": "C02", "title": "Large components overflow the C-int size", "statement": "The size guard of C01 is needed. Component sizes are computed with dtype=np.intc and wrap modulo 2**32, so there is a sequence of registrations in which a component with 2**32 elements gets the empty slice (0, 0), the next component starts at the same offset, and variables() raises ValueError.", "quantifier": "every shape tuple", "why_tests_cant": "Needs gigabyte-scale allocations to exercise; a test cannot show it for all shapes.", "anchors": ["ceacoest/optim.py:Component.size", "ceacoest/optim.py:Problem.add_decision"]}
{"id": "C03", "title": "Variable names are unique and a rejected registration has no effect", "statement": "add_decision and add_dependent_variable raise ValueError exactly when the name is already registered as a decision or dependent variable; in that case the problem is unchanged. In every reachable problem no name is registered twice.", "quantifier": "every history of builder calls", "why_tests_cant": "Quantifies over all histories and over the state after an exception.", "anchors": ["ceacoest/optim.py:Problem.add_decision", "ceacoest/optim.py:Problem.add_dependent_variable"]}
{"id": "C04", "title": "Component pack/unpack round trip and frame", "statement": "For a component lying inside a vector, pack_into(vec, v) followed by unpack_from(vec) yields v broadcast to the component's shape, and every element of vec outside the component's slice is unchanged; add_to adds the same broadcast value to the slice and changes nothing else; both raise when v cannot be broadcast to the shape or the destination is too short.", "quantifier": "every component, vector and broadcastable value", "why_tests_cant": "All shapes, offsets and broadcasting patterns.", "anchors": ["ceacoest/optim.py:Component.pack_into", "ceacoest/optim.py:Component.unpack_from", "ceacoest/optim.py:Component.add_to"]}
{"id": "C05", "title": "Index conversion agrees with unpacking", "statement": "For each variable kind (decision, piece-ravelled, endpoint, measured-state): for every flat index i of the variable, the i-th element of unpack_from(vec) is vec[convert_ind(i)], and convert_ind(i) lies inside the parent variable's slice.", "quantifier": "every problem size (pieces, collocation points, states, measurement times), every vector, every flat index", "why_tests_cant": "Index arithmetic must be right for every size; tests sample 1, 2 and 4 pieces.", "anchors": ["ceacoest/col.py:PieceRavelledVariable", "ceacoest/oc.py:XEVariable", "ceacoest/oem.py:XMVariable", "ceacoest/optim.py:Component.convert_ind"]}
{"id": "C06", "title": "Gradient accumulation is the adjoint of unpacking", "statement": "For each variable kind, add_to(dest, v) adds to dest[j] exactly the sum of v.flat[i] over the flat indices i with convert_ind(i) == j; equivalently <add_to(0, v), d> = <v, unpack_from(d)> for every d. Measured-state variables need distinct measurement indices for this.", "quantifier": "every variable kind, size, destination, value and test vector", "why_tests_cant": "A wrong accumulation at shared piece endpoints only shows for particular sizes; must hold for all.", "anchors": ["ceacoest/col.py:PieceRavelledVariable.add_to", "ceacoest/oc.py:XEVariable.add_to", "ceacoest/oem.py:XMVariable.add_to", "ceacoest/optim.py:Component.add_to"]}
{"id": "C07", "title": "Piece-ravelled variables repeat shared endpoints", "statement": "For an unravelled variable with npieces*(ncol-1)+1 rows, row (k, j) of the piece-ravelled variable is row k*(ncol-1)+j of the unravelled one; in particular the last row of piece k equals the first row of piece k+1.", "quantifier": "every number of pieces, collocation order, row size and decision vector", "why_tests_cant": "Holds for all sizes.", "anchors": ["ceacoest/col.py:PieceRavelledVariable.unpack_from"]}
{"id": "C08", "title": "Constraint vector layout", "statement": "constr(dvec) has length ncons and each constraint's slice holds that constraint's value on the unpacked variables, broadcast to its registered shape; unpack_constraints(constr(dvec)) maps each constraint's name to that value (the last one registered if a name repeats).", "quantifier": "every problem and decision vector", "why_tests_cant": "All problems and all points.", "anchors": ["ceacoest/optim.py:Problem.constr", "ceacoest/optim.py:Problem.unpack_constraints"]}
{"id": "C09", "title": "Sparse structures are self-consistent", "statement": "For the constraint Jacobian, constraint Hessian, objective Hessian and Lagrangian Hessian: the index array has exactly nnz columns, the value vector has exactly nnz entries, the k-th value belongs to the k-th index column, and all indices are within [0, ndec) or [0, ncons). No assertion in the assembly fires for a problem made from well-behaved functions and distinct argument names.", "quantifier": "every problem, every decision vector", "why_tests_cant": "Alignment of two independently assembled arrays over all problems.", "anchors": ["ceacoest/optim.py:Problem.constr_jac_ind", "ceacoest/optim.py:Problem._sparse_fun_val", "ceacoest/optim.py:Problem.constr_hess_ind", "ceacoest/optim.py:Problem.lag_hess_ind"]}
{"id": "C10", "title": "The sparse constraint Jacobian is the derivative of constr", "statement": "If every constraint function's own sparse Jacobian is its derivative, then summing constr_jac_val(d) at the positions constr_jac_ind gives, for every constraint row c and decision column j, the partial derivative of constr(.)[c] with respect to d[j] at d.", "quantifier": "every problem (any variables, dependent variables, constraints, argument renaming), every decision vector, every entry", "why_tests_cant": "Finite differences at random points on fixed models cannot establish an exact identity for all problems.", "anchors": ["ceacoest/optim.py:Problem.constr_jac_ind", "ceacoest/optim.py:Problem.constr_jac_val", "ceacoest/optim.py:Problem.constr"]}
{"id": "C11", "title": "obj_grad is the gradient of obj", "statement": "If every objective function's grad is its derivative, obj_grad(d)[j] is the partial derivative of obj with respect to d[j].", "quantifier": "every problem, decision vector and coordinate", "why_tests_cant": "Exact identity over all problems and points.", "anchors": ["ceacoest/optim.py:Problem.obj_grad", "ceacoest/optim.py:Problem.obj"]}
{"id": "C12", "title": "The sparse Lagrangian Hessian is the second derivative of the Lagrangian", "statement": "If every function's triangular sparse Hessian represents its second derivative and no function takes two variables that share decision entries, then the symmetric matrix represented by lag_hess_ind / lag_hess_val(d, s, m) is the Hessian of s*obj + sum_c m[c]*constr[c] at d.", "quantifier": "every problem, decision vector, objective multiplier and constraint multiplier vector", "why_tests_cant": "Exact second-order identity over all problems.", "anchors": ["ceacoest/optim.py:Problem.lag_hess_val", "ceacoest/optim.py:Problem.lag_hess_ind", "ceacoest/optim.py:Problem.obj_hess_ind", "ceacoest/optim.py:Problem.constr_hess_ind"]}
{"id": "C13", "title": "Overlapping arguments are under-counted by the triangular Hessian", "statement": "The no-overlap guard of C12 is needed. When one function takes two different variables that share a decision entry, the cross block puts d2f/dadb on the diagonal once where the Hessian needs it twice: there is a reachable problem, with correct function derivatives, whose assembled Lagrangian Hessian is not the second derivative of the Lagrangian.", "quantifier": "every problem", "why_tests_cant": "Requires a problem shape outside the test-suite; the claim ranges over all of them.", "anchors": ["ceacoest/optim.py:Problem.obj_hess_ind", "ceacoest/modelling/symoptim.py:Model.add_objective"]}
{"id": "C14", "title": "Lagrangian Hessian values are the multiplier-weighted function Hessians", "statement": "lag_hess_val(d, s, m) is obj_hess_val(d)*s followed by constr_hess_val(d)[k]*m[constr_hess_ind[2,k]]; it is linear in (s, m).", "quantifier": "every problem, point and multiplier", "why_tests_cant": "All inputs.", "anchors": ["ceacoest/optim.py:Problem.lag_hess_val"]}
{"id": "C15", "title": "The Ipopt hand-off is (row=constraint, col=variable)", "statement": "The Jacobian index callback given to Ipopt returns constraint indices first and decision indices second, aligned with the value callback, and the element counts given at construction equal the lengths both callbacks return.", "quantifier": "every problem and decision vector", "why_tests_cant": "The solver library is not available in tests; holds for all problems.", "anchors": ["ceacoest/optim.py:Problem.ipopt"]}
{"id": "C16", "title": "Argument renaming routes values and derivatives to the named variables", "statement": "A function registered with args=[v1..vn] (distinct) is called with the problem variables v1..vn in that order, and its derivative blocks with respect to its i-th parameter are attributed to v_i in gradient, Jacobian and Hessian, with shapes looked up under v_i.", "quantifier": "every function signature and every distinct renaming, including permutations of the function's own parameter names", "why_tests_cant": "Permutations and overlaps of names are unbounded.", "anchors": ["ceacoest/optim.py:OptimizationFunction.rename", "ceacoest/optim.py:OptimizationFunction.rename_kwargs", "ceacoest/optim.py:OptimizationFunction.__call__"]}
{"id": "C17", "title": "Repeated arguments silently drop gradient blocks", "statement": "The distinct-arguments guard of C11 is needed. When a function is registered with the same problem variable for two of its parameters, the renaming dict comprehension keeps only the last block of each name, for every function and renaming; there is a reachable problem, with correct function derivatives, for which obj_grad returns without error a vector that is not the gradient.", "quantifier": "every renaming", "why_tests_cant": "Not exercised by the tests; the claim is universal.", "anchors": ["ceacoest/optim.py:OptimizationFunction.rename", "ceacoest/optim.py:Problem.obj_grad"]}
{"id": "C18", "title": "Generated sparse derivatives place each batch element's block correctly", "statement": "For a generated function evaluated on variables whose shapes extend the base shapes, hess_ind/jac_ind list, for each batch element e and base nonzero k, the flat position in each argument of (batch element broadcast from e, base index) and the flat output position (e, base output index); their count is base_nnz times the batch size.", "quantifier": "every base sparsity pattern, every batch shape and every broadcastable argument extension", "why_tests_cant": "All shapes.", "anchors": ["ceacoest/modelling/genoptim.py:OptimizationFunction._sparse_deriv_ind", "ceacoest/modelling/genoptim.py:OptimizationFunction._sparse_deriv_nnz", "ceacoest/modelling/genoptim.py:OptimizationFunction._shape_ext"]}
{"id": "C19", "title": "Generated objective gradients are accumulated over the batch", "statement": "ObjectiveFunction.grad returns, for each differentiable argument, an array with the argument's own shape whose entry is the sum of the derivative of the batch values over all batch elements that read that entry, for arguments whose batch extension is a suffix of the batch shape.", "quantifier": "every batch shape and argument", "why_tests_cant": "All shapes and values.", "anchors": ["ceacoest/modelling/genoptim.py:ObjectiveFunction.grad"]}
{"id": "C20", "title": "Symbolic sparsity extraction loses nothing", "statement": "The index/value pairs produced by add_sparse_derivative, scattered into a zero array of the derivative's shape, reproduce the full derivative (its upper-triangular part when both variables are the same), with each position listed at most once, in row-major order.", "quantifier": "every derivative expression array and every valuation of its symbols", "why_tests_cant": "All expressions and all evaluation points.", "anchors": ["ceacoest/modelling/symoptim.py:Model.add_sparse_derivative"]}
{"id": "C21", "title": "Set iteration order does not change the assembled derivatives", "statement": "Python iterates over the set of differentiation variables in an arbitrary, hash-seed-dependent order. For every such order the registered Jacobian blocks are the same set, and the symmetric matrix represented by the Hessian blocks is the same.", "quantifier": "every iteration order of the wrt set", "why_tests_cant": "A test run fixes one hash seed.", "anchors": ["ceacoest/modelling/symoptim.py:Model.add_objective", "ceacoest/modelling/symoptim.py:Model.add_constraint"]}
{"id": "C22", "title": "Default derivative names are unambiguous", "statement": "Derivative names generated for a function determine the pair of variables, so distinct derivatives never share a generated attribute name, when variable names contain no underscore. The restriction is needed: d2f_da_db_dc arises from (a, b_dc) and from (a_db, c).", "quantifier": "every pair of names", "why_tests_cant": "All strings.", "anchors": ["ceacoest/modelling/symoptim.py:Model.second_derivative_name", "ceacoest/modelling/symoptim.py:Model.first_derivative_name", "ceacoest/utils.py:double_deriv_name"]}
{"id": "C23", "title": "The collocation grid refines the coarse grid", "statement": "For an increasing coarse grid t and collocation points 0=p0<...<p_{n-1}=1, grid(t) has (len(t)-1)*(n-1)+1 points, is strictly increasing, contains t[k] at index k*(n-1), and its points inside piece k are t[k] + p_j*(t[k+1]-t[k]).", "quantifier": "every coarse grid, every collocation order", "why_tests_cant": "All sizes and spacings.", "anchors": ["ceacoest/rk.py:LGLCollocation.grid", "ceacoest/col.py:Problem.__init__"]}
{"id": "C24", "title": "Integration matrices are exact on interpolated polynomials", "statement": "For distinct nodes, row i of J applied to the node values of any polynomial of degree < n is its integral from node i to node i+1, K applied to them is its integral over [0,1]; K is the column sum of J and sums to 1.", "quantifier": "every order n >= 2, every set of distinct nodes from 0 to 1, every polynomial of degree < n", "why_tests_cant": "All polynomials, all orders.", "anchors": ["ceacoest/rk.py:LGLCollocation.__init__", "ceacoest/rk.py:lagrange_basis", "ceacoest/rk.py:pdinteg"]}
{"id": "C25", "title": "LGL quadrature has degree of exactness 2n-3", "statement": "When the interior nodes are the roots of the derivative of the shifted Legendre polynomial of degree n-1, K integrates every polynomial of degree <= 2n-3 over [0,1] exactly.", "quantifier": "every order n >= 2 and every polynomial of degree <= 2n-3", "why_tests_cant": "Infinite families.", "anchors": ["ceacoest/rk.py:lgl_points", "ceacoest/rk.py:LGLCollocation.__init__"]}
{"id": "C26", "title": "Zero collocation defects characterise the collocation polynomial", "statement": "The defects e of a piece are all zero exactly when there is a polynomial of degree <= n through the state values at the nodes whose derivative at each node is piece_len times the ODE right-hand side there; summed over a piece the defects are x_end - x_start - piece_len*K.f.", "quantifier": "every ODE function, state dimension, order and state values", "why_tests_cant": "All models and points.", "anchors": ["ceacoest/modelling/symcol.py:Model.e", "ceacoest/rk.py:LGLCollocation"]}
{"id": "C27", "title": "Lobatto order validation and endpoints", "statement": "lgl_points(n) raises ValueError iff n < 2; otherwise it returns n points starting at 0 and ending at 1, the interior ones being the roots of the derivative of the shifted Legendre polynomial.", "quantifier": "every n", "why_tests_cant": "All orders.", "anchors": ["ceacoest/rk.py:lgl_points"]}
{"id": "C28", "title": "Output-error measurements are matched to the right grid points", "statement": "In an OEM/JME problem the measurement times kept are exactly those with at least one unmasked output; the state, input and time rows paired with measurement row m are those at the collocation point whose time is the coarse time of that measurement; the indices are distinct and increasing.", "quantifier": "every measurement array and mask pattern, every grid and collocation order", "why_tests_cant": "All mask patterns.", "anchors": ["ceacoest/oem.py:Problem.__init__", "ceacoest/oem.py:XMVariable.unpack_from"]}
{"id": "C29", "title": "Piece-wise inputs agree with piece-wise states", "statement": "In an OEM/JME problem up[k, j] is the input at the same collocation point as xp[k, j], for every piece k and node j, whether u is given as an array or as a function of time.", "quantifier": "every grid, order, input", "why_tests_cant": "All sizes.", "anchors": ["ceacoest/oem.py:Problem.__init__", "ceacoest/col.py:PieceRavelledVariable.unpack_from"]}
{"id": "C30", "title": "Problem classes register consistent shapes", "statement": "For every model and coarse grid with at least one piece, building an oc/oem/jme Problem succeeds and every registered function is called with variables of the shapes its base shapes extend; ndec and ncons equal the documented totals.", "quantifier": "every model dimension (states, inputs, parameters, noises, constraints), order and number of pieces", "why_tests_cant": "All sizes.", "anchors": ["ceacoest/col.py:Problem.__init__", "ceacoest/oc.py:Problem.__init__", "ceacoest/oem.py:Problem.__init__", "ceacoest/jme.py:Problem"]}
{"id": "C31", "title": "Unscented weights sum to one and sigma points match mean and covariance", "statement": "For ni inputs and kappa with ni+kappa != 0, the transform weights sum to 1; the weighted mean of sigma_points(i, Pi) is i and their weighted covariance is Pi whenever sqrt returns S with S^T S equal to its argument.", "quantifier": "every dimension, kappa, mean and covariance", "why_tests_cant": "All dimensions and values.", "anchors": ["ceacoest/kalman/unscented.py:UnscentedTransformBase.__init__", "ceacoest/kalman/unscented.py:UnscentedTransformBase.sigma_points"]}
{"id": "C32", "title": "The unscented transform is exact on affine functions", "statement": "For f(x) = A x + b, transform returns mean A i + b, covariance A Pi A^T and crosscov returns Pi A^T.", "quantifier": "every dimension, affine function, mean, covariance, kappa and square root", "why_tests_cant": "All affine functions.", "anchors": ["ceacoest/kalman/unscented.py:UnscentedTransformBase.transform", "ceacoest/kalman/unscented.py:UnscentedTransformBase.crosscov"]}
{"id": "C33", "title": "Unscented covariances are symmetric, and positive semidefinite for kappa >= 0", "statement": "transform returns a symmetric covariance for every function; for kappa >= 0 it is positive semidefinite. The restriction is needed: for -1 < kappa < 0 there is a function whose transformed covariance is not positive semidefinite.", "quantifier": "every function, mean, covariance, kappa", "why_tests_cant": "All nonlinear functions.", "anchors": ["ceacoest/kalman/unscented.py:UnscentedTransformBase.transform"]}
{"id": "C34", "title": "Matrix square roots", "statement": "Both square-root options return S with S^T S = Q for every symmetric positive definite Q (Cholesky: S upper triangular; SVD: also for semidefinite Q). For the SVD option on an indefinite symmetric matrix the identity fails.", "quantifier": "every dimension and matrix", "why_tests_cant": "All matrices.", "anchors": ["ceacoest/kalman/unscented.py:SVDUnscentedTransform.sqrt", "ceacoest/kalman/unscented.py:DifferentiableCholesky.__call__"]}
{"id": "C35", "title": "Cholesky derivatives", "statement": "diff(dQ) returns the unique upper-triangular dS with dS^T S + S^T dS = dQ for symmetric dQ, which is the derivative of the Cholesky factor along any differentiable covariance path; diff2 returns the second derivative. The linear system solved is never singular for a Cholesky factor.", "quantifier": "every dimension, every positive definite Q and parameter path", "why_tests_cant": "Exact derivative identity for all matrices.", "anchors": ["ceacoest/kalman/unscented.py:DifferentiableCholesky.diff", "ceacoest/kalman/unscented.py:DifferentiableCholesky.diff2"]}
{"id": "C36", "title": "Prediction and correction keep covariances symmetric positive semidefinite", "statement": "Starting from a symmetric positive semidefinite Px, with Q positive semidefinite and R positive definite, every predict and correct of the extended filter (for any sequence, any masks) leaves Px symmetric positive semidefinite, and correct never increases it in the Loewner order.", "quantifier": "every model, every sequence of predict/correct calls and masked measurements", "why_tests_cant": "Invariant over all histories.", "anchors": ["ceacoest/kalman/extended.py:DTPredictor.predict", "ceacoest/kalman/extended.py:DTCorrector.correct"]}
{"id": "C37", "title": "The correction is the minimum-variance update", "statement": "The extended-filter gain minimises the posterior covariance (Joseph form) in the Loewner order over all gains; the posterior covariance equals (I-KH)P, the Joseph form and, when P is invertible, the information form (P^-1 + H^T R^-1 H)^-1.", "quantifier": "every prior, measurement model, noise covariance, candidate gain", "why_tests_cant": "Optimality over all gains.", "anchors": ["ceacoest/kalman/extended.py:DTCorrector.correct"]}
{"id": "C38", "title": "Masked measurements are ignored", "statement": "The data under a mask never influence the filter: two measurement arrays with the same mask and the same unmasked values give the same state; a fully masked measurement leaves x, Px and the likelihood unchanged; a partially masked one gives the same result as a filter whose model only has the unmasked outputs.", "quantifier": "every measurement, mask and filter state, extended and unscented", "why_tests_cant": "All mask patterns and states.", "anchors": ["ceacoest/kalman/extended.py:DTCorrector.correct", "ceacoest/kalman/unscented.py:DTCorrector.correct"]}
{"id": "C39", "title": "Extended and unscented filters agree with the Kalman filter on affine models", "statement": "For models with affine f and h, the extended and the unscented filter produce identical x and Px at every step of filter, smooth and the same innovations.", "quantifier": "every affine time-varying model, kappa, square root, measurement sequence and mask", "why_tests_cant": "All models and sequences.", "anchors": ["ceacoest/kalman/unscented.py:DTPredictor.predict", "ceacoest/kalman/unscented.py:DTCorrector.correct", "ceacoest/kalman/extended.py:DTPredictor.predict", "ceacoest/kalman/extended.py:DTCorrector.correct", "ceacoest/kalman/base.py:DTFilter.filter", "ceacoest/kalman/base.py:DTFilter.smooth"]}
{"id": "C40", "title": "Filtering is causal and advances time once per sample", "statement": "filter(y) returns one estimate per sample; estimate k depends only on y[0..k]; the filter's time index advances by len(y)-1 and the final state is the last estimate.", "quantifier": "every model, measurement sequence and prefix", "why_tests_cant": "All sequences.", "anchors": ["ceacoest/kalman/base.py:DTFilter.filter"]}
{"id": "C41", "title": "Smoothing refines filtering", "statement": "smooth(y) agrees with filter(y) at the last sample; for affine models its output is the minimiser of the batch (maximum a posteriori) least-squares cost over whole state paths, and its covariances are bounded by the filter's.", "quantifier": "every model, sequence", "why_tests_cant": "Optimality over all state paths.", "anchors": ["ceacoest/kalman/base.py:DTFilter.smooth", "ceacoest/kalman/base.py:DTFilter.smoother_correction"]}
{"id": "C42", "title": "pem_merit is the Gaussian log-likelihood of the innovations", "statement": "pem_merit(y) of the unscented filter adds, for each sample with unmasked outputs, the logarithm of the normal density of the innovation with covariance Py, up to the constant -(m/2) log(2 pi), and nothing for fully masked samples.", "quantifier": "every model and sequence", "why_tests_cant": "All sequences and masks.", "anchors": ["ceacoest/kalman/base.py:DTFilter.pem_merit", "ceacoest/kalman/unscented.py:DTCorrector.update_likelihood"]}
{"id": "C43", "title": "pem_gradient is the gradient of pem_merit", "statement": "For every parametrised model whose functions are differentiable on open regions, and every run whose evaluation points stay in them, pem_gradient(y) of the unscented (Cholesky) filter is the gradient with respect to the parameters of pem_merit(y).", "quantifier": "every model differentiable in state and parameters, every parameter value, measurement sequence and mask", "why_tests_cant": "Exact derivative identity for all models and sequence lengths.", "anchors": ["ceacoest/kalman/base.py:DTFilter.pem_gradient", "ceacoest/kalman/unscented.py:DTPredictor.prediction_diff", "ceacoest/kalman/unscented.py:DTCorrector.correction_diff", "ceacoest/kalman/unscented.py:DTCorrector.likelihood_diff"]}
{"id": "C44", "title": "pem_hessian is the Hessian of pem_merit", "statement": "For every parametrised model whose functions are twice differentiable on open regions, and every run whose evaluation points stay in them, pem_hessian(y) of the unscented (Cholesky) filter is the matrix of second partial derivatives of pem_merit(y).", "quantifier": "every model, parameter value, measurement sequence and mask", "why_tests_cant": "Exact second-order identity.", "anchors": ["ceacoest/kalman/base.py:DTFilter.pem_hessian", "ceacoest/kalman/unscented.py:DTPredictor.prediction_diff2", "ceacoest/kalman/unscented.py:DTCorrector.correction_diff2", "ceacoest/kalman/unscented.py:DTCorrector.likelihood_diff2"]}
{"id": "C45", "title": "The extended filter supports the prediction-error method", "statement": "The extended filter does not support the prediction-error method. pem_merit returns no value for any measurement sequence with an unmasked entry, because update_likelihood reads an attribute correct never sets; pem_gradient returns a value only for no sample or one fully masked sample, because prediction_diff reads undefined names.", "quantifier": "every model and measurement sequence", "why_tests_cant": "Not covered by any test; universal claim.", "anchors": ["ceacoest/kalman/extended.py:DTCorrector.update_likelihood", "ceacoest/kalman/extended.py:DTPredictor.prediction_diff"]}
{"id": "C46", "title": "Filter construction honours its options", "statement": "Each initial quantity passed as an option (k, L, dL_dq, dx_dq, ...) is the one the filter starts with, defaulting to the model or to zero; prediction and correction transforms use pred_ut_*/corr_ut_* options when given and the plain options otherwise. The option d2L_dq2 is the exception: it is ignored, and the initial Hessian is read from the key dL_dq.", "quantifier": "every option dictionary", "why_tests_cant": "All option combinations.", "anchors": ["ceacoest/kalman/base.py:DTFilter.__init__", "ceacoest/kalman/unscented.py:DTPredictor.__init__", "ceacoest/kalman/unscented.py:DTCorrector.__init__", "ceacoest/utils.py:extract_subkeys"]}
{"id": "C47", "title": "Quaternion rotation matrices are rotations", "statement": "rotmat(q) rotmat(q)^T = |q|^4 I and det = |q|^6, so unit quaternions give proper rotations; rotmat(-q) = rotmat(q); rotmat turns quaternion products into matrix products.", "quantifier": "every quaternion", "why_tests_cant": "All real quaternions.", "anchors": ["ceacoest/modelling/symquat.py:rotmat"]}
{"id": "C48", "title": "Quaternion kinematics", "statement": "derivative(q, w, 0) is orthogonal to q (norm is preserved); with renorm_gain g the squared norm changes at rate 2 g (1-|q|^2)|q|^2; along a solution with unit norm the rotation matrix satisfies dR/dt = -[w]x R.", "quantifier": "every quaternion, angular velocity and gain", "why_tests_cant": "Identity over all reals.", "anchors": ["ceacoest/modelling/symquat.py:derivative", "ceacoest/modelling/symquat.py:rotmat"]}
{"id": "C49", "title": "Euler angles reproduce the rotation", "statement": "For every unit quaternion away from gimbal lock, the roll-pitch-yaw angles returned by toeuler generate, through the z-y-x rotation sequence, exactly rotmat(q).", "quantifier": "every unit quaternion with |pitch| < pi/2", "why_tests_cant": "All quaternions.", "anchors": ["ceacoest/modelling/symquat.py:toeuler", "ceacoest/modelling/symquat.py:rotmat"]}
{"id": "C50", "title": "SDE discretisation noise covariance", "statement": "Q = g g^T is symmetric positive semidefinite; the Euler scheme has Q = dt G G^T; the order-1.5 Ito-Taylor scheme has Q = dt GG^T + dt^2/2 (G L^T + L G^T) + dt^3/3 L L^T with L = (df/dx)^T G; both schemes are x + f dt + O(dt^2) with the Ito correction term 0.5 sum_j g_pj g_qj d2f/dx_p dx_q.", "quantifier": "every continuous-time model, step and state", "why_tests_cant": "All models.", "anchors": ["ceacoest/modelling/symsde.py:DiscretizedSDEModelBase.Q", "ceacoest/modelling/symsde.py:EulerDiscretizedSDEModel", "ceacoest/modelling/symsde.py:ItoTaylorAS15DiscretizedModel"]}
{"id": "C51", "title": "Masked multivariate normal density", "statement": "multivariate_normal_pdf without a mask is the unnormalised normal density of every row, and a batch whose rows are all masked gives 1. With a partial mask it is the full-dimensional density with the masked deviations set to zero, which in general is not the marginal density of the unmasked components.", "quantifier": "every deviation, mask and covariance", "why_tests_cant": "All masks and covariances.", "anchors": ["ceacoest/modelling/stats.py:multivariate_normal_pdf"]}
{"id": "C52", "title": "svd_sqrt is a square root", "statement": "svd_sqrt(a) returns U*s for the singular value decomposition of a, so svd_sqrt(a) @ svd_sqrt(a).T = a @ a.T for every matrix. It is a square root of a symmetric positive semidefinite a only when a is idempotent.", "quantifier": "every matrix", "why_tests_cant": "Universal claim; never tested.", "anchors": ["ceacoest/modelling/stats.py:svd_sqrt", "ceacoest/modelling/stats.py:multivariate_normal_rvs"]}
{"id": "C53", "title": "Normal log-densities", "statement": "normal_logpdf is the logarithm of normal_pdf and normal_logpdf1 the logarithm of normal_pdf1, for unmasked data and positive std; both logs are 0 for masked data whatever the data.", "quantifier": "every x, mean, std > 0", "why_tests_cant": "All reals.", "anchors": ["ceacoest/modelling/symstats.py:normal_logpdf", "ceacoest/modelling/symstats.py:normal_pdf", "ceacoest/modelling/symstats.py:normal_logpdf1", "ceacoest/modelling/symstats.py:normal_pdf1"]}
{"id": "C54", "title": "Finite differences", "statement": "central_diff is exact for functions quadratic in each coordinate and forward_diff for affine ones; steps are always at least min_step; for three times differentiable functions the central error is at most h^2/6 times the bound of the third derivative. central_diff of an empty point returns None rather than an empty array.", "quantifier": "every function, point and step options", "why_tests_cant": "All functions.", "anchors": ["ceacoest/utils.py:central_diff", "ceacoest/utils.py:forward_diff"]}
{"id": "C55", "title": "Option sub-key extraction", "statement": "extract_subkeys(d, base) returns exactly the entries whose key starts with base followed by at least one word character, under the maximal run of word characters that follows; on keys made only of word characters this is key[len(base):], distinct keys stay distinct and nothing is lost.", "quantifier": "every dictionary and every base made of word characters", "why_tests_cant": "All strings.", "anchors": ["ceacoest/utils.py:extract_subkeys"]}
{"id": "C56", "title": "cached_property fallback", "statement": "An attribute wrapped by the fallback cached_property always returns the value of the wrapped function, and computes it once per object as long as at most 128 objects use it. With 129 objects there is a history in which it is recomputed, against the docstring's 'only once'.", "quantifier": "every history of attribute reads over any number of objects", "why_tests_cant": "All histories; needs > 128 live objects.", "anchors": ["ceacoest/utils.py:cached_property", "ceacoest/utils.py:cached"]}
{"id": "C57", "title": "Optimal-control cost and Mayer/endpoint terms", "statement": "The running cost IL of a piece equals piece_len times the quadrature of L over the piece, hence exactly the integral of L when L along the interpolants is a polynomial of degree <= 2n-3; the endpoint variable passed to M and h is (first state, last state).", "quantifier": "every running cost, order, piece", "why_tests_cant": "All models.", "anchors": ["ceacoest/modelling/symoc.py:Model.IL", "ceacoest/oc.py:XEVariable.unpack_from"]}
{"id": "C58", "title": "Joint-MAP objective", "statement": "The JME defects are those of the ODE driven by the noise path JT_range@wc through G; the tube density is -(1/2) piece_len times the quadrature of |w|^2 plus (when use_om) the drift divergence; the penalty is minus the weighted sum of squared defects and is never positive for nonnegative weights.", "quantifier": "every model, path and weight", "why_tests_cant": "All models.", "anchors": ["ceacoest/modelling/symjme.py:Model.e", "ceacoest/modelling/symjme.py:Model.tube_L", "ceacoest/modelling/symjme.py:Model.penalty"]}
{"id": "C59", "title": "Array comparison helper", "statement": "ArrayDiff(a, b) < tol is true exactly when the arrays broadcast and every element satisfies |a-b| < atol + rtol*|b|; hence it implies the bound elementwise, is false for any NaN, and false for equal arrays under a zero tolerance.", "quantifier": "every pair of arrays and tolerances", "why_tests_cant": "All arrays.", "anchors": ["ceacoest/testsupport/array_cmp.py:ArrayDiff.within_tol"]}
{"id": "C60", "title": "Registrations do not disturb each other", "statement": "After registering any list of constraints and objectives with distinct unambiguous names on one symbolic model, in any order, generation of each one yields exactly the arrays and attributes it yields when it is the only one registered.", "quantifier": "every symbolic model, every list of registrations, every order", "why_tests_cant": "All models, lists and orders; registrations share three dictionaries and one attribute namespace.", "anchors": ["ceacoest/modelling/symoptim.py:Model.add_constraint", "ceacoest/modelling/symoptim.py:Model.add_objective", "ceacoest/modelling/symoptim.py:Model.add_sparse_derivative"]}
{"id": "C61", "title": "Lobatto quadrature weights are positive", "statement": "Every entry of K is strictly positive for every collocation order, so the quadrature of a nonnegative running cost is nonnegative and vanishes only when the cost vanishes at all nodes.", "quantifier": "every order n >= 2 and every node", "why_tests_cant": "All orders.", "anchors": ["ceacoest/rk.py:LGLCollocation.__init__"]}
{"id": "C62", "title": "The interval integration matrix has full row rank", "statement": "J maps onto all vectors of n-1 interval increments, so JT_range (an orthonormal basis of the range of J^T) always has n-1 columns, the size the joint-MAP model gives its noise coefficients.", "quantifier": "every order n and every set of distinct nodes", "why_tests_cant": "All orders.", "anchors": ["ceacoest/rk.py:LGLCollocation.__init__", "ceacoest/modelling/symjme.py:Model.__init__"]}
{"id": "C63", "title": "The noise parameters of joint-MAP estimation are faithful", "statement": "For every vector d of interval integrals there is exactly one wc whose noise JT_range@wc satisfies J@JT_range@wc = d, and no noise sequence with J@w = d has a smaller sum of squares; so the defect constraints can be met for any drift defect and wc is determined by the noise path.", "quantifier": "every order n, every orthonormal basis of the range of J.T, every d", "why_tests_cant": "All orders and bases; minimality over all sequences.", "anchors": ["ceacoest/rk.py:LGLCollocation.__init__", "ceacoest/modelling/symjme.py:Model.e"]}
{"id": "C64", "title": "The optimal-control problem is the Lobatto transcription of the continuous problem", "statement": "For a problem built by oc.Problem from a model with Lobatto collocation, at every decision vector the defect constraints all vanish exactly when on every piece and for every state component a unique polynomial of degree at most n interpolates the states of the vector at the fine grid times and has derivative f(x,u,p) there; the remaining constraints are g at every grid point followed by h at the first and last states; the merit is the sum over pieces of piece length times the Lobatto quadrature of L plus M at the endpoints.", "quantifier": "every order, increasing coarse grid, dimensions, model functions and decision vector", "why_tests_cant": "Whole-program statement over all grids, orders, functions and decision vectors.", "anchors": ["ceacoest/oc.py:Problem.__init__", "ceacoest/col.py:Problem.__init__", "ceacoest/modelling/symoc.py:Model", "ceacoest/rk.py:LGLCollocation"]}
{"id": "C65", "title": "The output-error problem is the transcription of the deterministic estimation problem", "statement": "For a problem built by oem.Problem, the constraints vanish exactly when polynomials interpolate the states and satisfy x'=f(x,u,p) at all fine grid times with the given inputs, and the merit is the sum, over exactly the coarse times with some unmasked measurement, of L(y_k,x(t_k),u(t_k),p).", "quantifier": "every order, grid, data, mask, model functions and decision vector", "why_tests_cant": "Whole-program statement over all data and decision vectors.", "anchors": ["ceacoest/oem.py:Problem", "ceacoest/col.py:Problem", "ceacoest/modelling/symoem.py:Model"]}
{"id": "C66", "title": "The joint-MAP problem is the transcription of the noise-driven estimation problem", "statement": "For a problem built by jme.Problem, the constraints vanish exactly when polynomials interpolate the states and satisfy x'=f(x,u,p)+G w at all fine grid times, w being the noise of the piece's wc block; the merit is the measurement likelihood minus half the quadrature of the squared noise and the drift divergence, minus the penweight-weighted sum of squared constraint values when use_penalty is set.", "quantifier": "every order, grid, data, mask, model functions, JT_range and decision vector", "why_tests_cant": "Whole-program statement over all data and decision vectors.", "anchors": ["ceacoest/jme.py:Problem", "ceacoest/oem.py:Problem", "ceacoest/modelling/symjme.py:Model"]}
{"id": "C67", "title": "Registered functions give problems with true derivatives", "statement": "For an optimal-control, output-error or joint-MAP symbolic model whose functions declare consistent shapes, registering the constraints and objectives succeeds, every derivative they need is registered under a distinct name, code generation produces each of them, and the optimisation problem built from the generated class has a constraint Jacobian, objective gradient and Lagrangian Hessian equal to the true derivatives of its constraints and objective at every decision vector where the symbolic functions are differentiable.", "quantifier": "every model dimension, mesh, collocation order, measurement mask, decision vector and symbolic function", "why_tests_cant": "Ranges over all models and meshes; connects four layers (symbolic, generated, problem assembly, sparse derivatives) that are only exercised one model at a time.", "anchors": ["ceacoest/modelling/symoptim.py:Model.add_constraint", "ceacoest/modelling/symoptim.py:Model.add_objective", "ceacoest/modelling/genoptim.py", "ceacoest/oc.py:Problem", "ceacoest/oem.py:Problem", "ceacoest/jme.py:Problem"]}
{"id": "C68", "title": "Flat concatenation keeps every element", "statement": "flat_cat(a1, ..., an) is one-dimensional, has as many entries as the arguments together, and each argument is a contiguous slice of it in C order; no arguments raise ValueError.", "quantifier": "every non-empty list of arrays of any shapes", "why_tests_cant": "Quantifies over lists of arrays of every rank and size.", "anchors": ["ceacoest/utils.py:flat_cat"]}
{"id": "C69", "title": "Transitions of the discretised models", "statement": "A transition drawn by trans_rvs from noise of zero mean and unit covariance has mean f and covariance Q = g g^T; supplying the noise explicitly always raises TypeError; the transition density raises LinAlgError when the noise has fewer dimensions than the state (2 nw < nx for the order-1.5 scheme) and is defined exactly when the gain has full row rank, which for the order-1.5 scheme means that no direction is orthogonal to both the noise gain and its image under the drift Jacobian. Its value is that of the deviation from f under Q.", "quantifier": "every continuous-time model, step, state and noise dimension", "why_tests_cant": "Dimension-dependent failure for all models; no test draws or evaluates transitions of degenerate models.", "anchors": ["ceacoest/modelling/gensde.py:ConditionalGaussianTransition.trans_pdf", "ceacoest/modelling/gensde.py:ConditionalGaussianTransition.trans_rvs", "ceacoest/modelling/symsde.py:DiscretizedSDEModelBase.Q"]}
{"id": "C70", "title": "From model expressions to the optimisation problem", "statement": "For a model whose dynamics, costs, constraints and likelihood are written as expressions (polynomials, sin, cos, exp, ln, inverse, sqrt, atan), the problem assembled after registration and generation has: defect constraints that vanish exactly when a piecewise polynomial interpolating the states satisfies the differential equation (with the noise term for joint MAP) at every collocation point; path and endpoint constraints and an objective equal to the mathematical ones; and exact Jacobian, gradient and Hessian wherever the expressions are differentiable. The divergence term of joint MAP uses the true Jacobian of the drift.", "quantifier": "every list of expressions, model dimension, collocation order, increasing mesh, data set and decision vector", "why_tests_cant": "Ranges over all user models; the tests solve two examples and compare numbers with finite differences.", "anchors": ["ceacoest/modelling/symcol.py:Model.e", "ceacoest/modelling/symoc.py:Model", "ceacoest/modelling/symoem.py:Model", "ceacoest/modelling/symjme.py:Model", "ceacoest/oc.py:Problem", "ceacoest/oem.py:Problem", "ceacoest/jme.py:Problem"]}
{"id": "C71", "title": "Filters of models written as expressions have exact derivatives", "statement": "For every discrete-time model whose transition, covariances, measurement function and initial state are expressions in state, parameters, sample index and constants, with the derivatives obtained by symbolic differentiation, pem_gradient and pem_hessian have a value exactly when pem_merit has, and are its first and second partial derivatives with respect to the parameters whenever the run evaluates every expression where it is smooth.", "quantifier": "every such model (any dimensions), parameter value, constants, measurement sequence and mask, sigma-point weights", "why_tests_cant": "The tests compare finite differences for two fixed models at a few points; this is an exact identity for every model that can be written.", "anchors": ["ceacoest/kalman/base.py:DTFilter.pem_gradient", "ceacoest/kalman/base.py:DTFilter.pem_hessian", "ceacoest/kalman/base.py:DTFilter.__init__", "examples/duffing_old.py:SymbolicDTDuffing"]}
{"id": "C72", "title": "Discretised stochastic differential equations give exact filter derivatives", "statement": "The Euler and order-1.5 discretisations carried out on the expressions of a continuous-time model evaluate to the schemes applied to the evaluated model, with derivatives that are the derivatives of the drift; with a positive step, pem_gradient and pem_hessian of the filter of either discretisation are the exact derivatives of pem_merit whenever the run evaluates the continuous-time expressions where they are smooth.", "quantifier": "every continuous-time model in expressions (any dimensions), positive step, parameter value, measurement sequence and mask", "why_tests_cant": "No test filters a discretised model; the identity composes symbolic differentiation, discretisation and the filter recursions for all models.", "anchors": ["ceacoest/modelling/symsde.py:DiscretizedSDEModelBase", "ceacoest/modelling/symsde.py:EulerDiscretizedSDEModel", "ceacoest/modelling/symsde.py:ItoTaylorAS15DiscretizedModel", "ceacoest/kalman/base.py:DTFilter.pem_gradient"]}
{"id": "C73", "title": "A filter on a stack of states acts element by element", "statement": "With a state of shape base_shape + (nx,) and a covariance of shape base_shape + (nx, nx), filter, smooth, pem_merit, pem_gradient and pem_hessian of the unscented filter, and filter, smooth and pem_merit of the extended filter, succeed if and only if they succeed for every element of the stack run alone; every element of the result is then the result of that element's run. When the stack raises, some element raises the same exception. Stacks whose covariances and noises are positive definite (semidefinite states and process noise suffice for the extended filter) never raise in filter.", "quantifier": "every stack shape (any number of leading axes), model vectorised over leading axes and possibly different for each element, state, measurement sequence and mask, parameters kappa, initial likelihood (scalar or stack), initial derivatives", "why_tests_cant": "The tests use one or two stack shapes; ellipses in some thirty einsum strings, axis permutations and newaxis patterns have to be right for every number of leading axes.", "anchors": ["ceacoest/kalman/base.py:DTFilter", "ceacoest/kalman/base.py:DTFilter._get_initial", "ceacoest/kalman/unscented.py:UnscentedTransform", "ceacoest/kalman/unscented.py:DTUnscentedFilter", "ceacoest/kalman/extended.py:DTExtendedFilter"]}
{"id": "C74", "title": "The array code of the filters computes the matrix formulas", "statement": "Without leading axes, the NumPy code of the filters (einsum with its literal subscript strings, broadcasting, axis permutations, boolean and fancy indices) computes exactly the matrix expressions of the Kalman recursions, sigma-point transforms and their first and second parameter derivatives, about which C31 to C44 are stated, including the exceptions.", "quantifier": "every dimension nx, ny, nq, model, state, measurement sequence and mask, kappa, initial derivatives", "why_tests_cant": "A wrong subscript may agree on symmetric matrices or on the sizes that are tested; the identity is for all shapes and values.", "anchors": ["ceacoest/kalman/base.py:DTFilter", "ceacoest/kalman/unscented.py:UnscentedTransform", "ceacoest/kalman/unscented.py:DTUnscentedFilter", "ceacoest/kalman/extended.py:DTExtendedFilter"]}
{"id": "C75", "title": "Corner cases of indices, slices, sizes and empty inputs", "statement": "Negative and out-of-range indices, slices with arbitrary end points, and slice updates select and change exactly the positions the language reference prescribes, raising IndexError or ValueError exactly when it says. A transform exists exactly when n + kappa is not zero (AssertionError otherwise). Without samples filter returns nothing and smooth raises ValueError. Constraints and objectives registered with fewer derivatives get the same lower derivatives and no higher ones. Sums over leading axes, endpoints of empty variables and indices of measured states raise exactly in the stated cases. Contributions, measurement times, arguments and data of the wrong shape are rejected with AssertionError, IndexError, TypeError or ValueError as the code says.", "quantifier": "every list, index, pair of end points, value, model, registration level", "why_tests_cant": "Tests do not visit these boundaries; the statements are exact over all end points and lengths.", "anchors": ["ceacoest/optim.py:Component", "ceacoest/optim.py:Problem.constr_jac_ind", "ceacoest/kalman/unscented.py:UnscentedTransform.__init__", "ceacoest/kalman/base.py:DTFilter.smooth", "ceacoest/modelling/symoptim.py:Model.add_constraint", "ceacoest/modelling/symoptim.py:Model.add_objective", "ceacoest/oem.py:XMVariable.convert_ind", "ceacoest/oc.py:XEVariable.unpack_from"]}
{"id": "C76", "title": "Means and covariances that are not stacked alike", "statement": "A stack of means with one shared covariance (for instance the model's default) makes the sigma points raise ValueError, except when the last axis of the stack has length nx: then nothing is raised and all of the first nx sigma points of an element coincide, so that the points have a covariance of rank one. One mean with a stack of covariances raises ValueError.", "quantifier": "every nx > 1, kappa, stack shape, square-root method and values", "why_tests_cant": "The silent case needs a stack whose length equals the state dimension; the theorem covers all shapes.", "anchors": ["ceacoest/kalman/unscented.py:UnscentedTransform.sigma_points", "ceacoest/kalman/base.py:DTFilter.__init__"]}
{"id": "C77", "title": "The generated class carries what the symbolic model recorded", "statement": "The attributes the symbolic classes assign (generate_assignments) give, for every variable and function, the sizes nx, nu, np, ny, ng, nh, nw, the collocation order and the likelihood flags, and for every registered derivative its index array and its number of nonzeros, with no attribute overwriting another; a constraint or objective rebuilt from the class is the one built from the symbolic model. The dictionaries keep one entry per key whatever is registered.", "quantifier": "all symbolic models, all sequences of registrations, all function and variable names", "why_tests_cant": "A collision between a generated attribute name and a recorded one shows only for particular names of variables and functions.", "anchors": ["ceacoest/modelling/symoptim.py:Model.generate_assignments", "ceacoest/modelling/symcol.py:generate_assignments", "ceacoest/modelling/symoc.py:generate_assignments", "ceacoest/modelling/symoem.py:generate_assignments", "ceacoest/modelling/symjme.py:generate_assignments", "ceacoest/modelling/genoptim.py:generate_constraint"]}
{"id": "C78", "title": "Densities and random draws act element by element on stacks", "statement": "multivariate_normal_pdf, trans_pdf and meas_pdf on arrays with leading axes that broadcast return an array of the broadcast shape holding, at every index, the density of that element, and raise LinAlgError exactly when some element has a singular covariance; with missing components the masked entries count as zero deviation, a fully masked element has the density of its mean unless all elements are fully masked, when the result is ones. trans_rvs asks for draws of the right shape and returns f + g w element by element. Covariances with more axes than the deviations raise ValueError, except when the last stack axis is as long as the vectors, when rows are silently mixed.", "quantifier": "all numbers and lengths of leading axes, all dimensions, all masks, all model functions that are vectorised", "why_tests_cant": "Broadcasting has unboundedly many combinations of shapes, and a shape that fits by coincidence gives a wrong value without an exception.", "anchors": ["ceacoest/modelling/stats.py:multivariate_normal_pdf", "ceacoest/modelling/gensde.py:ConditionalGaussianTransition.trans_pdf", "ceacoest/modelling/gensde.py:ConditionalGaussianTransition.trans_rvs", "ceacoest/modelling/gensde.py:ConditionalGaussianMeasurement.meas_pdf"]}
{"id": "C79", "title": "pem_gradient and pem_hessian write only to arrays of the filter, which options can share with the caller", "statement": "With numpy arrays as objects in memory: if the arrays of dx_dq, dPx_dq, dL_dq (and d2x_dq2, d2Px_dq2, d2L_dq2) are different from each other and from x and Px, and the model's df_dq returns a new array at each call, then pem_gradient (pem_hessian) returns the array of the attribute dL_dq (d2L_dq2) itself, its contents are what the array arithmetic gives, exceptions are the same, and no other existing array changes; a second call returns the same array, overwriting the first result. A filter constructed without array options has new, different arrays, so nothing of the caller changes. Arrays in the options become the filter's own and are overwritten: dL_dq holds the gradient, dx_dq and dPx_dq hold their values after the first correction only; an option dL_dq is also used as d2L_dq2. A df_dq that returns a stored array finds it modified.", "quantifier": "all memories, models, stacks of filters, numbers of samples, masks, options", "why_tests_cant": "Aliasing depends on which objects the caller and the model share; a test sees one sharing pattern and usually never looks at its inputs again.", "anchors": ["ceacoest/kalman/base.py:DTFilter.__init__", "ceacoest/kalman/base.py:DTFilter.pem_gradient", "ceacoest/kalman/base.py:DTFilter.pem_hessian", "ceacoest/kalman/base.py:DTFilter._get_initial", "ceacoest/kalman/unscented.py:UnscentedTransformBase.transform_diff", "ceacoest/kalman/unscented.py:DTCorrector.correction_diff", "ceacoest/kalman/unscented.py:DTCorrector.likelihood_diff", "ceacoest/kalman/unscented.py:DTPredictor.prediction_diff"]}
{"id": "C80", "title": "Samples of the wrong length are rejected, fully masked ones are ignored", "statement": "The boolean index A[..., m] of the filters succeeds exactly when the last axis of A is as long as m; A[np.ix_(m, m)] and A[(..., ) + np.ix_(m, m)] succeed exactly when the true elements of m lie on the first, respectively last, two axes of A; all fail with IndexError otherwise. Hence correct(y) raises IndexError for a sample with at least one unmasked value whose length is not that of the outputs the model computes: in the extended filter always, although indexing R alone would accept it, and in the unscented filter whenever the sigma points can be computed. A fully masked sample of any length leaves the filter as it was. The exception ends filter, smooth and pem_merit, also when it occurs after other samples; filtering data in two batches with a prediction in between equals filtering it at once. einsum raises ValueError for an operand whose number of axes does not match its subscripts.", "quantifier": "all models, states, stacks, masks, lengths, data sequences, einsum strings and operands", "why_tests_cant": "Tests use data of the right length; which of the index operations notices a wrong length depends on which values are masked.", "anchors": ["ceacoest/kalman/unscented.py:407-451", "ceacoest/kalman/extended.py:124-162", "ceacoest/kalman/base.py:94-143"]}
{"id": "C81", "title": "Arguments reach the parameters they are meant for", "statement": "A call of an objective or constraint object, with positional and keyword arguments, binds the parameters of the generated method other than self by Python's rule (positional first, then by name, nothing left over or given twice, TypeError otherwise, and only one such binding exists), and passes the model as self. with_signature changes no call. The names the optimization problem reads from the object and from its grad or jac_val are the parameters without self; its hess_val shows self too, yet its calls reach the body with the object as self. grad takes the shape of a variable from the argument bound to it, however it was passed; a name that is no parameter raises KeyError. A function registered without argument names is called with the variables named as its parameters, one registered with names with these in order, TypeError if their number differs, KeyError if one does not exist. The renaming of arguments takes the parameters to the given names in order; without with_signature a derivative shows only self, args and kwargs; a method without parameters gives an object whose calls all raise TypeError.", "quantifier": "all methods, parameter lists without repetition, models, positional and keyword arguments, problem variables", "why_tests_cant": "Tests call the functions positionally with matching arguments only.", "anchors": ["ceacoest/modelling/genoptim.py:33-57", "ceacoest/modelling/genoptim.py:149-240", "ceacoest/optim.py:326-346", "ceacoest/utils.py:146-149"]}
{"id": "C82", "title": "Discretised models: arrays, declared sizes and construction", "statement": "Written with arrays (transposes, products, hstack, and the loop over all indices that accumulates L0f), f, g, h and Q of the Euler and of the order 1.5 discretisation succeed and hold exactly the vectors and matrices of C50. The sizes assigned to the generated class are the numbers of states, outputs and columns of g - twice the number of noises for the order 1.5 scheme - so that trans_rvs draws a vector of the right length and returns f + g w. A gain that is not two-dimensional makes the order 1.5 functions raise ValueError, and with fewer axes the sizes raise IndexError. The constructor leaves the variable dictionary of the continuous-time model as it was: the new model has a copy with the entry dt. The order 1.5 constructor adds the derivatives df_dt, df_dx of f and d2f_dx2 of df_dx where they are missing, keeps those that exist, changes no other attribute, succeeds whenever f exists, and a second construction adds nothing.", "quantifier": "all models, numbers of states, noises and outputs, times, steps and states; all variable dictionaries and attribute sets", "why_tests_cant": "The repository has no test of symsde.", "anchors": ["ceacoest/modelling/symsde.py:12-48", "ceacoest/modelling/symsde.py:57-69", "ceacoest/modelling/symsde.py:78-130", "ceacoest/modelling/gensde.py:16-27"]}
{"id": "C83", "title": "Writing into the arrays returned by variables", "statement": "The arrays that Problem.variables returns for decision variables are views of the decision vector passed in: var['x'][index] = value changes exactly the entries of the decision vector that the index picks, at the offset of the variable, each to the value given to it by broadcasting, and no other entry and no other array. Arrays of dependent variables are new buffers, so that writing into them leaves the decision vector unchanged; the problem's constant arrays are the problem's own, so that writing into them changes the problem. Their contents are those of the copying model of variables (C04, C05, C07). An assignment succeeds exactly when the index is accepted by the shape (integers within [-n, n), no more entries than axes) and the value broadcasts to the selected shape; a wrong index raises IndexError and a wrong shape ValueError.", "quantifier": "all element types, problems built by the operations of the class, memories, offsets of the decision vector, indices made of integers and slices with any signed bounds, values of any shape", "why_tests_cant": "All the example scripts set bounds and initial guesses through these views; no test writes through a view, and a copy would pass silently.", "anchors": ["ceacoest/optim.py:75-80", "ceacoest/optim.py:302-304", "ceacoest/col.py:79-86", "ceacoest/oc.py:55-58", "ceacoest/oem.py:84-87", "examples/brachistochrone.py:58-72"]}
{"id": "C84", "title": "The example scripts pose the problems they describe", "statement": "Setting bounds as the scripts do (two rows of -inf and inf, unpacked with problem.variables, assigned through views one statement at a time) gives in each row, for every entry of the decision vector, the value of the last statement that selects it, or the initial value. With their models and bounds, and zero bounds on the constraints, the feasible decision vectors of the scripts are: for brachistochrone.py, the discretised motions x'=v sin(theta) tf, y'=-v cos(theta) tf, v'=g cos(theta) tf from (0,0) at rest to (10,-5) with -pi<=theta<=pi and tf>=1e-5, the objective being tf (sliding down the straight line is one of them); for bryson_denham.py, the motions x'=v, v'=a from (0,1) to (0,-1) with 0<=x<=1/9 and the quadrature of a^2/2 as objective; for attas_sp.py, the trajectories of the linear short-period model driven by the recorded input, with the stated lower bounds on the two standard deviations and the Gaussian log-likelihood of all measurements as objective; for duffing_jme.py, the trajectories of the Duffing oscillator driven by the input and by noise of gain g2 on the acceleration, the objective being the likelihood of the unmasked measurements minus half the quadrature of the squared noise minus delta. All first and second derivatives handed to the solver are right at every decision vector (within the bounds, for the estimation scripts).", "quantifier": "every collocation order >= 2, every increasing grid of at least two times, every data set and input of matching shape, every decision vector", "why_tests_cant": "Running the scripts shows one solution for one grid, found by an external solver; a wrong sign or a bound on the wrong entry still yields a plausible plot.", "anchors": ["examples/brachistochrone.py:22-75", "examples/bryson_denham.py:20-70", "examples/attas_sp.py:22-85", "examples/duffing_jme.py:70-95", "examples/duffing_jme.py:164-190", "ceacoest/modelling/symstats.py:16-19"]}
{"id": "C85", "title": "The collocation grid and finite differences in binary64 arithmetic", "statement": "In IEEE 754 binary64 (round to nearest even, with infinities and NaN): the assertion that all piece lengths are positive accepts exactly the increasing grids, also when a difference overflows or is subnormal. For increasing times up to 2^1022 the fine grid is finite, contains every coarse time exactly, is non-decreasing, keeps the points of each piece inside it, and each point is within 2^-53*max|t| + 2^-51*length + 2^-1075 of its exact place; it is strictly increasing when exact distances exceed twice that, and repeats a point when two coarse times are consecutive floating-point numbers and the order is at least 3. central_diff and forward_diff with the default steps return zero for every function at a coordinate below -2^30, because the step is not scaled by the magnitude of negative coordinates and is absorbed; above -2^30 both evaluation points differ from x. With exact arithmetic these functions are those of C23 and C54.", "quantifier": "every finite binary64 grid, point list, coordinate and function", "why_tests_cant": "Rounding depends on every bit of the data; the statements hold for all binary64 values.", "anchors": ["ceacoest/rk.py:LGLCollocation.grid", "ceacoest/col.py:Problem.__init__", "ceacoest/utils.py:central_diff", "ceacoest/utils.py:forward_diff"]}
{"id": "C86", "title": "Names of the elements of derived variables and when elements share a symbol", "statement": "The format strings of the constructors (n_piece_k, n_initial, n_final, wcj_interv_i, penweighti) determine n, k, i and j, and names of different forms never coincide, whatever the user's names. The variables of a collocation, optimal control, output error or joint estimation model are the user's, the defaults piece_len, p and u, and the derived ones in row-major order with these names; a missing x raises ValueError, a missing G KeyError, a G without shape AttributeError, a one-dimensional G IndexError; the caller's dictionary gains xe, p, u or wc, and building another model from it gives the same variables. All elements are different symbols exactly when the user's names are different and none of them is a derived name; names without the derived endings suffice. Differentiating by symbols and unpacking the arguments into symbols agree with differentiating and evaluating by elements if and only if all elements are different symbols. Refuted: a parameter a_piece_0 beside a state a is not told apart from the first collocation point; the derivative of the one by the other is 1 and the value of the one is read for the other, and nothing is raised.", "quantifier": "every dictionary of variables, number of nodes, name, expression, argument values", "why_tests_cant": "Tests use a handful of names; the statement is about all strings and all numbers of elements.", "anchors": ["ceacoest/modelling/symcol.py:Model.__init__", "ceacoest/modelling/symoc.py:Model.__init__", "ceacoest/modelling/symoem.py:Model.__init__", "ceacoest/modelling/symjme.py:Model.__init__"]}
{"id": "C87", "title": "Attributes of the unscented filter: what the methods leave for each other", "statement": "The methods of the unscented filter hand intermediate results to each other through attributes of the instance, of its two transforms and of their Cholesky objects. On an instance made by __init__ (which raises AssertionError exactly when nx + kappa is zero for one of the two transforms), whatever was called on it before as long as the estimate, its derivatives and the transforms are in place, pem_merit, pem_gradient, pem_hessian, filter and smooth return the arrays, or raise the exceptions, of the computation in which these results are passed as values, and leave the attributes in place for the next call; so no method reads an attribute that an earlier one of the same step did not set. A method called before those it relies on raises AttributeError and changes nothing (likelihood_diff without update_likelihood never succeeds). A measurement masked everywhere makes correct return the estimate unchanged and the five methods after it do nothing. A correct that raises leaves the estimate and its derivatives unchanged; a predict that raises when adding Q has already advanced the time and the mean but not the covariance. The index arrays cached by the Cholesky objects are always those of the current size, except that for an empty matrix diff raises AttributeError.", "quantifier": "every model, mask, measurement sequence, kappa, shape of the arrays (nx > 0), previous contents of the attributes", "why_tests_cant": "Which attributes are present and current depends on the whole sequence of earlier calls and exceptions; tests run a fresh instance through one fixed order.", "anchors": ["ceacoest/kalman/base.py:DTFilter", "ceacoest/kalman/unscented.py:DifferentiableCholesky", "ceacoest/kalman/unscented.py:UnscentedTransformBase", "ceacoest/kalman/unscented.py:DTPredictor", "ceacoest/kalman/unscented.py:DTCorrector"]}
{"id": "C88", "title": "The extended filter as an object: what can change, and where each method stops", "statement": "On an instance of the extended filter, after any sequence of calls of its methods (exceptions caught), the only attributes that can differ from those __init__ bound are eighteen named ones; the log-likelihood, its derivatives and the derivatives of the estimate keep their initial values, and a time index, a mean and a covariance are always present. In every such state update_likelihood, likelihood_diff, likelihood_diff2 and correction_diff2 raise AttributeError unless the last measurement was masked everywhere, in which case they do nothing; prediction_diff2 raises AttributeError, and prediction_diff raises NameError once predict has saved the previous estimate and Pxf (AttributeError before). Hence pem_merit raises AttributeError at the first measurement with an active component and otherwise returns the initial log-likelihood; pem_gradient and pem_hessian return the initial derivative only for no measurement or a single masked one, and otherwise raise AttributeError at an active measurement or NameError after the first prediction. filter and smooth return the arrays, or raise the exceptions, of the computation in which the intermediate results are passed as values. A correct that raises binds active only; a predict that raises when adding Q has advanced the time and the mean but not the covariance. The loops of base.py are the same for both filters.", "quantifier": "every model, initial values, measurement sequence with masks, sequence of earlier calls and exceptions, shape of the arrays", "why_tests_cant": "The statement is about all call sequences; a test can only show that some calls raise.", "anchors": ["ceacoest/kalman/extended.py:DTPredictor", "ceacoest/kalman/extended.py:DTCorrector", "ceacoest/kalman/extended.py:DTFilter", "ceacoest/kalman/base.py:DTFilter"]}
{"id": "C89", "title": "Estimates do not depend on the units and coordinates used", "statement": "Let the states be written in other coordinates, x T + c, and the outputs in other units, y_i g_i + d_i with every g_i nonzero, and let the model, its Jacobians and covariances, the initial estimate and the measurements be rewritten accordingly (masks unchanged). For every invertible T the extended filter's filter and smooth return the same estimates and covariances in the new coordinates, or raise the same exception. The same holds for the unscented filter with Cholesky factors when T is upper triangular with positive diagonal (changes of unit among them), the covariances given are symmetric and nx + kappa is not zero; pem_merit then changes by minus the sum of log |g_i| over the active components of all measurements, a constant that does not depend on the model. For other T it can fail: exchanging the two states of a model changes an unscented prediction.", "quantifier": "every dimension, model, kappa, mask, measurement sequence, initial estimate, change of coordinates", "why_tests_cant": "The estimates of both versions must agree for all models and data; rounding hides small disagreements and tests fix the units.", "anchors": ["ceacoest/kalman/base.py:DTFilter", "ceacoest/kalman/extended.py:DTPredictor", "ceacoest/kalman/extended.py:DTCorrector", "ceacoest/kalman/unscented.py:DTPredictor", "ceacoest/kalman/unscented.py:DTCorrector", "ceacoest/kalman/unscented.py:UnscentedTransformBase"]}
{"id": "C90", "title": "Measured components can be processed one after the other", "statement": "Let the outputs be affine in the state and let the measurement noises of two disjoint sets of components A and B be uncorrelated. Then, for every positive definite covariance, correct with the components outside A masked followed by correct with those outside B masked succeeds and leaves exactly the state that one correct with both sets leaves. For the unscented filter the two likelihood updates also add to exactly what the single one adds. With a diagonal measurement covariance, correcting with one component at a time, in any order, equals correcting with the whole measurement, masked components included. With correlated noises it can fail: two sensors of one state are a counterexample.", "quantifier": "every dimension, affine output, positive definite covariance, mask, measurement, pair of disjoint sets, order of the components, kappa with nx + kappa > 0", "why_tests_cant": "Equality of states, covariances and determinants for all sizes, masks and orders; rounding hides small disagreements.", "anchors": ["ceacoest/kalman/extended.py:DTCorrector", "ceacoest/kalman/unscented.py:DTCorrector", "ceacoest/kalman/base.py:DTFilter"]}
{"id": "C91", "title": "pem_hessian is exactly symmetric", "statement": "If the model's second derivatives do not depend on the order of differentiation (those by the parameters and those by the states; the mixed ones are given once) and neither do the initial second derivatives of the estimate, then after any number of corrections and predictions the second derivatives of mean and covariance do not either, and the matrix pem_hessian returns differs from its transpose by exactly as much as the initial d2L_dq2 does: it is symmetric when that is. This holds although the formulas are not written symmetrically (the derivative of the inverse factor multiplies one side only, the products of first derivatives appear once). With C44, the merit can be differentiated in either order. The condition is needed: a model whose d2h_dq2 depends on the order gives a matrix that is not symmetric.", "quantifier": "every model, dimension, number of parameters, kappa, mask, measurement sequence and initial state for which pem_hessian returns", "why_tests_cant": "Rounding makes the computed matrix asymmetric, so a test compares up to a tolerance; a missing or misindexed small term passes.", "anchors": ["ceacoest/kalman/unscented.py:DifferentiableCholesky.diff2", "ceacoest/kalman/unscented.py:UnscentedTransformBase.transform_diff2", "ceacoest/kalman/unscented.py:DTCorrector.correction_diff2", "ceacoest/kalman/unscented.py:DTCorrector.likelihood_diff2", "ceacoest/kalman/base.py:DTFilter.pem_hessian"]}
