# A Rocq model of ceacoest

This directory holds a machine-checked model of the Python package in `/repo/ceacoest`
(optimal control, output-error and joint-MAP estimation, Kalman filters, stochastic
differential equations, quaternions, utilities) and proofs about it.

* `properties.jsonl` lists the properties (C01, C02, ...).
* `MANIFEST.json` maps each property to theorems.
* `seeded/LOG.jsonl` records experiments with wrong programs.
* `rocq/` holds the development.  Build: `coq_makefile -f _CoqProject -o Makefile && make -j4`.

## Conventions of the model

* Shallow embedding.  Each Python function becomes a total Gallina function with the same
  branches.  Every definition carries a comment with the file and lines it models.
* Exceptions are values: `res A := Ok a | Err exn`.  A failing `assert` is
  `Err AssertionError`, a missing attribute `Err AttributeError`, and so on.
* Arithmetic is exact.  The optimisation layer is generic in a number type `Num T`
  (instances: rationals, integers, the reals); matrices, filters and collocation use
  mathcomp matrices and polynomials over an arbitrary real closed field; statements about
  derivatives use the standard library's reals with Coquelicot.  `RealField.v` makes the
  reals a real closed field, so the three can be combined.  Rounding, overflow to inf and
  NaN are outside the model, except that the 32-bit wrap-around of
  `np.prod(..., dtype=np.intc)` is modelled (C02) and that the collocation grid and the finite
  differences are also modelled in IEEE 754 binary64 with Flocq (`FlModel.v`, C85).
* NumPy arrays in the optimisation part are a shape and a row-major list.
* Python dicts are association lists in insertion order.  Python sets are lists in an
  arbitrary order (theorems quantify over the order).
* User-supplied functions (model dynamics, derivatives) are parameters of the theorems.
* Specification vocabulary lives in `*Spec.v` files or at the top of the `Props*.v` file
  and does not use helpers of the model beyond the data types.
* Beside each group of theorems an `Example ..._nonvacuous` gives a concrete case that meets
  the hypotheses.
* A theorem named `..._refuted` proves that a guard is needed or that the code does not do
  what its documentation says; the property statement says so.

## How the pieces fit

1. `OptimModel.v` models `optim.py`: components, variables, selectors, remapping, `Problem`.
   C01-C17 say that the layout, the values and the sparse derivatives of every problem that
   can be built are right, given right derivatives of the registered functions.
   `ViewModel.v` models the arrays returned by `variables` as views in memory (C83);
   `ScriptModel.v` and `ExampleModel.v` model the example scripts that set bounds through them (C84).
2. `GenModel.v`, `SigModel.v` (signatures, C81), `SymModel.v`, `RegModel.v`, `ClassModel.v` model `genoptim.py`, `symoptim.py`, the
   constructors of the symbolic models and the attributes of the generated class: C18-C22, C60, C77
   and others say that the generated
   functions are right, given right symbolic derivatives.
3. `RkModel.v`, `ColModel.v`, `SymColModel.v` model `rk.py`, `col.py`, `oc.py`, `oem.py`,
   `jme.py`, `symcol.py`, `symoc.py`, `symoem.py`, `symjme.py`: C23-C30, C57, C58, C61-C66
   say that the problems are the collocation transcriptions of the continuous-time ones.
4. C67 joins 1-3.  C70 replaces the hypothesis on symbolic derivatives by a language of
   expressions with a proved differentiation (`Expr.v`), so its conclusions rest on the
   user's formulas alone.
5. `KalModel.v`, `KalDiffModel.v`, `OptModel.v` model `kalman/`: C31-C46, C71, C72, C89-C91.
   `NpModel.v`, `NdKalModel.v` model the same code on n-dimensional arrays: C73, C74; `AliasModel.v` with arrays as objects in memory: C79; `ObjModel.v` (unscented) and `ExtObjModel.v` (extended) with attributes looked up by name: C87, C88.
6. `QuatModel.v`, `SdeModel.v`, `NdSdeModel.v` (stacks, C78), `SymSdeModel.v` (arrays and constructors, C82), `UtilModel.v` model `symquat.py`, `symsde.py`, `gensde.py`,
   `stats.py`, `symstats.py`, `utils.py`, `testsupport/array_cmp.py`: C47-C56, C59, C69.

## File map

`Props*.v` hold the property theorems, `*Model.v` (and `Py.v`, `NdArray.v`) the model, `*Spec.v`
the specification vocabulary, the rest lemmas.  In dependency order of `_CoqProject`:

| file | contents |
|---|---|
| `Py.v` | Python run-time conventions used by every model file |
| `NdArray.v` | The part of NumPy's array semantics the optimisation code relies on |
| `OptimModel.v` | Model of ceacoest/optim.py |
| `ColModel.v` | Model of ceacoest/col.py, oc.py, oem.py and jme.py, and of the collocation grid of rk.py |
| `NdLemmas.v` | Lemmas about sums, lists and the array primitives of NdArray |
| `OptimSpec.v` | Specification vocabulary for the optimisation layer |
| `OptimLaws.v` | Every kind of variable specification is lawful |
| `DictLemmas.v` | Dictionary lemmas |
| `Builder.v` | Histories of builder calls (specification vocabulary for C01-C03) |
| `BuilderLemmas.v` | Invariants of builder histories |
| `LawFacts.v` | Consequences of lawfulness in the vocabulary of OptimSpec, and component-level facts |
| `LayoutLemmas.v` | Lemmas behind PropsLayout |
| `PropsLayout.v` | Properties C01-C07: layout of decision and constraint vectors, and the variable kinds |
| `ProblemSpec.v` | Specification vocabulary for whole problems: what it means for a registered function to be well behaved, and for a problem to be fit for use |
| `ProblemLemmas.v` | Structural lemmas about whole problems |
| `AssemblyLemmas.v` | Closed forms of the assembled callbacks |
| `GradLemmas.v` | Closed forms of the objective and its gradient |
| `DerivSpec.v` | Specification vocabulary: derivatives of registered functions and of whole problems, over the real numbers |
| `CalcLemmas.v` | Calculus lemmas for problems over R |
| `ProblemFacts.v` | Facts about assembled problems, generic in the number type |
| `DerivThms.v` | The assembled derivatives are derivatives |
| `ExampleFn.v` | A concrete function with its derivatives, used to show that the hypotheses of the theorems can be met |
| `DenseLemmas.v` | From directions to matrix entries, and the two refutation witnesses |
| `PropsProblem.v` | Properties C08-C17: the assembled problem |
| `GenModel.v` | Model of ceacoest/modelling/genoptim.py |
| `GenSpec.v` | Specification vocabulary for generated functions |
| `GenLemmas.v` | Lemmas about generated functions (any number type) |
| `GenDeriv.v` | Derivative laws of generated functions: if the base (per element) sparse derivatives are derivatives then so are the batched ones |
| `IndexLemmas.v` | Multi-indices of arrays |
| `PropsGen.v` | Properties C18 and C19: functions of generated models (genoptim.py) |
| `SymModel.v` | Model of ceacoest/modelling/symoptim.py |
| `NameLemmas.v` | Generated attribute names (symoptim.py:163-175) |
| `PropsNames.v` | Property C22: default names of derivatives are unambiguous |
| `SymLemmas.v` | Lemmas about symbolic models (any number type) |
| `PropsSparse.v` | Property C20: extraction of the nonzero elements of symbolic derivatives (symoptim.py:117-161) |
| `SymDeriv.v` | Functions generated from symbolic ones satisfy the derivative laws |
| `PropsSym.v` | Property C21 and the chain from symbolic models to generated functions |
| `RealField.v` | The standard library's real numbers as a mathcomp real closed field |
| `McRing.v` | The [ring] tactic of the standard library for mathcomp commutative rings |
| `RkModel.v` | Model of ceacoest/rk.py (Legendre-Gauss-Lobatto collocation) over an arbitrary real closed field; numpy's floating point polynomials, roots and integrals are replaced by exact ones |
| `LegendreLemmas.v` | Legendre polynomials: differential equation, orthogonality, real roots |
| `QuadLemmas.v` | Interpolatory integration: exactness, LGL nodes and their quadrature |
| `LobattoLemmas.v` | Shifted Legendre polynomials, Lobatto nodes and their degree of exactness |
| `PropsRk.v` | Properties C23-C27 and C61: collocation grids, integration matrices, Lobatto quadrature, collocation defects |
| `ColLemmas.v` | Binding generated functions to the variables of a problem |
| `ColBuild.v` | The problems built by col.py, oc.py, oem.py and jme.py, as histories of builder calls; their variables and selectors |
| `ColLaws.v` | Reachability, sizes and selectors of the collocated problems |
| `ColCalls.v` | C30: the functions of the collocated problems are called with arguments of the right shapes |
| `PropsCol.v` | Properties C28-C30: the variables of the collocated problems |
| `SymColModel.v` | Model of the functions defined by modelling/symcol.py, symoc.py and symjme.py, as functions of the argument values; matrices are lists of rows over a real closed field (see RkModel) |
| `PropsSymCol.v` | Properties C57, C58 and C63: the cost and the noise model of collocated problems |
| `ColValues.v` | Values computed by the collocated problems: which entries of the decision vector each call of each function reads |
| `NlpLemmas.v` | From the list-based model of the problems to matrices and polynomials over a real closed field |
| `PropsNlp.v` | Properties C64-C66: the optimisation problems as a whole are the collocation transcriptions of the continuous-time problems |
| `QuatModel.v` | Model of ceacoest/modelling/symquat.py |
| `PropsQuat.v` | C47-C49: quaternion rotations, kinematics and Euler angles |
| `UtilModel.v` | Model of ceacoest/utils.py (finite differences, option keys, caching, concatenation), ceacoest/modelling/symstats.py and ceacoest/testsupport/array_cmp.py |
| `PropsUtil.v` | C55, C56: option keys and caching |
| `PropsDiff.v` | C53, C54, C59: normal densities, finite differences, array comparison |
| `KalModel.v` | Model of ceacoest/kalman/base.py, extended.py and the non-derivative part of unscented.py, with matrices over a real closed field |
| `PsdLemmas.v` | Positive (semi)definite matrices over a real field: definitions used in the statements about the Kalman filters, and their elementary theory |
| `CholLemmas.v` | Facts about the Cholesky factorisation and inverse of [KalModel] |
| `UtLemmas.v` | Facts about the unscented transform of [KalModel] |
| `PropsUt.v` | Properties of the unscented transform: C31, C32, C33, C34 |
| `GainLemmas.v` | Matrix algebra of the Kalman gain |
| `KalLemmas.v` | Facts about single steps of the filters of [KalModel] |
| `PropsKal.v` | Properties of the Kalman filters and smoothers: C36 to C41 |
| `PropsSmooth.v` | Properties of [filter] and [smooth]: C39, C40, C41 |
| `PropsMap.v` | Smoothing: covariance bounds and the batch least-squares problem (C41) |
| `PropsPem.v` | The prediction-error merit: C42 for the unscented filter, C45 for the extended filter |
| `OptModel.v` | Model of the constructors of the Kalman filters and unscented transforms: which options, model attributes and defaults a filter starts with |
| `PropsOpt.v` | C46: what a Kalman filter starts with |
| `KalDiffModel.v` | Model of the derivative methods of ceacoest/kalman/unscented.py: the differentiable Cholesky factorisation, the derivatives of the unscented transform, and the first and second derivatives of prediction, correction and likelihood, with [pem_gradient] and [pem_hessian] of base.py |
| `MxCalc.v` | Derivatives of matrix-valued functions of a real variable, entry by entry, with matrices over the reals as a real closed field |
| `CholDiffLemmas.v` | Algebra of the derivatives of the Cholesky factor |
| `PropsCholDiff.v` | C35: derivatives of the Cholesky factor |
| `UtDiffLemmas.v` | Derivatives of the unscented transform along paths |
| `FiltDiffLemmas.v` | Derivatives of prediction, correction and likelihood along paths of parameters |
| `PropsPemDiff.v` | C43 and C44: [pem_gradient] and [pem_hessian] are the first and second partial derivatives of [pem_merit] |
| `SdeModel.v` | Model of ceacoest/modelling/symsde.py, gensde.py and stats.py |
| `PropsSde.v` | C50, C51, C52 and C69: discretised stochastic differential equations and normal densities |
| `RegModel.v` | Model of the registrations made by the constructors of the symbolic collocation models (ceacoest/modelling/symcol.py, symoc.py, symoem.py, symjme.py) |
| `RegLemmas.v` | Registering several functions in one symbolic model |
| `EndToEnd.v` | From symbolic functions to the derivatives of a whole problem |
| `PropsEnd.v` | C67: the derivatives of a collocation problem whose functions are generated from a symbolic model |
| `PropsEndEst.v` | C67, continued: output error and joint MAP estimation problems |
| `Expr.v` | A language of scalar expressions with symbolic differentiation, standing for the SymPy expressions a model is written in |
| `ExprSym.v` | Functions of a symbolic model given by expressions |
| `ExprModel.v` | Model of the functions that the symbolic collocation models derive from the user's: the same code as in SymColModel.v, run on expressions (modelling/symcol.py, symoc.py, symjme.py) |
| `ExprEnd.v` | C70: collocation problems whose models are written as expressions; the symbolic model and the correctness of its derivatives |
| `ExprValues.v` | What the functions built from expressions compute |
| `ExprCases.v` | Symbolic models made from expressions |
| `PropsExpr.v` | C70: from a model written as expressions to the optimisation problem |
| `ExprCalc.v` | Expressions along curves of variables: chain rule, linearity in the direction, symmetry of second derivatives, and substitution |
| `KalExpr.v` | Filter models written as expressions: the discretisations of symsde.py carried out on expressions, and the numeric model with the derivatives the filters use |
| `KalExprLemmas.v` | Filter models written as expressions are differentiable where the expressions are, with the derivatives of the model |
| `PropsKalExpr.v` | C71 and C72: filters of models written as expressions, and of stochastic differential equations written as expressions and discretised |
| `NpModel.v` | The part of NumPy's n-dimensional arrays that ceacoest/kalman relies on: shapes, broadcasting, [np.einsum] with ellipses and implicit output, axis permutations, slices, boolean and integer array indices, and the stacked versions of [np.linalg.inv] and [np.linalg.cholesky]. An array is a shape and a function of the multi-index; only the values at indices inside the shape matter |
| `NpLemmas.v` | Lemmas about the arrays of NpModel: what each operation gives at an index made of leading labels, an index of the stacked axes and trailing labels |
| `NdKalModel.v` | Model of ceacoest/kalman (base.py, unscented.py, extended.py) at the level of NumPy arrays: the same statements as in the source, with the subscript strings of [np.einsum] copied, on arrays that may have any number of leading axes ([base_shape]) |
| `NpOps.v` | Lemmas about the arrays of NpModel, continued: axes, slices, array indices, stacked linear algebra, and simulation of partial computations on stacks |
| `NdCholLemmas.v` | The differentiable Cholesky factorisation on stacks of matrices ([NdKalModel]) does to every matrix what [KalDiffModel] says |
| `NdTransLemmas.v` | The unscented transform on stacks does on every element what [KalModel] and [KalDiffModel] say |
| `NdFilterLemmas.v` | The filters and their loops on stacks do on every element what [KalModel] says |
| `NdLoopLemmas.v` | The loops of base.py on stacks of filters |
| `NdDiffLemmas.v` | The derivatives of the unscented filter on stacks of filters |
| `NdGradLemmas.v` | The loops of [pem_gradient] and [pem_hessian] on stacks of filters |
| `PropsNdKal.v` | C73: a filter on a stack of states does to every element of the stack what the filter on that element does |
| `PropsEdge.v` | C75: Python's and NumPy's corner cases |
| `PropsKalEdge.v` | Corner cases of the filters: parts of C75 (empty data, [kappa = -n]), and C76: means and covariances that are not stacked alike |
| `ClassModel.v` | The class that code generation makes of a symbolic model: the attributes assigned by [generate_assignments] (symoptim.py, symcol.py, symoc.py, symoem.py, symjme.py), and how genoptim.py and the problem classes read them |
| `PropsClass.v` | C77: the generated class carries what the symbolic model recorded |
| `NdSdeModel.v` | Model of ceacoest/modelling/stats.py and gensde.py on arrays: states, measurements and covariances with any number of leading axes, of which SdeModel.v has the matrix version |
| `NdSdeLemmas.v` | Broadcasting in general, and the array operations of NdSdeModel |
| `PropsNdSde.v` | C78: the densities and random draws of stats.py and gensde.py on arrays are those of the elements, for all ways of stacking that broadcast |
| `AliasModel.v` | Model of the filter objects of ceacoest/kalman with the memory that their arrays live in: which attributes are updated in place, which are rebound to new arrays, and which arrays of the caller or of the model an object shares ([np.asarray] does not copy) |
| `AliasLemmas.v` | Computations on memory compared with value-passing ones |
| `PropsAlias.v` | C79: what the filters do to arrays in memory |
| `PropsAlias2.v` | C79, together with C73: a filter from its construction to the gradient and the Hessian, for models and states with positive definite covariances |
| `PropsKalMeas.v` | C80: how the filters treat measurements of the wrong length, and what the indexing operations they use accept |
| `SigModel.v` | Model of the calls and signatures of ceacoest/modelling/genoptim.py (lines 33-57, 117-170, 173-188, 201-240) and of how ceacoest/optim.py:326-346 and ceacoest/utils.py:146-149 read them |
| `PropsSig.v` | C81: arguments reach the parameters they are meant for |
| `SymSdeModel.v` | Model of ceacoest/modelling/symsde.py as it is written: the discretised functions on one- and two-dimensional arrays, the loop that accumulates [L0f], the sizes assigned to the generated class, and the constructors, with the variable dictionary of the continuous-time model as an object in memory |
| `PropsSymSde.v` | C82: the discretised models on arrays, the sizes they declare and their construction |
| `ViewModel.v` | The arrays that [Problem.variables] hands out, as objects in memory |
| `ViewLemmas.v` | Facts about assignments through views |
| `PropsView.v` | C83: writing to the arrays returned by [variables] |
| `ScriptModel.v` | The part of the example scripts that sets the bounds handed to Ipopt |
| `PropsScript.v` | C84: bounds set by a script |
| `ExampleModel.v` | The example scripts of /repo/examples that use the current interface: their models as expressions and the bounds they set |
| `ExampleBounds.v` | The bounds set by the example scripts, entry by entry |
| `PropsExample.v` | C84: the example scripts |
| `FlModel.v` | The parts of the code whose result depends on the rounding of the numbers, with the operations of the number type as arguments: the collocation grid (rk.py, col.py) and finite differences (utils.py) |
| `FlLemmas.v` | Rounding to nearest even in the format of binary64: what the floating-point properties need about one operation and about the points of one piece |
| `PropsFl.v` | C85: the collocation grid and finite differences in binary64 arithmetic |
| `PropsFlDiff.v` | C85, finite differences: which steps move the point in binary64 arithmetic |
| `ElemModel.v` | The variables of a symbolic model and the names of their elements |
| `ElemLemmas.v` | Lemmas on the names of elements |
| `PropsElem.v` | C86: the names of the elements of a model's variables |
| `PropsElemSym.v` | C86, continued: when the elements of a model are different symbols, and what differentiation and evaluation make of symbols that coincide |
| `ObjModel.v` | Model of the unscented filter of ceacoest/kalman (base.py, unscented.py) as an object: the attributes are looked up by name when a statement reads them and bound when a statement assigns them, in the order of the source, and what was bound before an exception stays bound |
| `ObjLemmas.v` | Lemmas about [ObjModel]: the methods of the object compute what [NdKalModel] says, and bind only the attributes listed |
| `ObjShape.v` | No array of the unscented filter is empty: the last axis of the state, of the factor of the covariance and of the factor of the output covariance has a positive length in every run |
| `ObjFilterLemmas.v` | Lemmas about [ObjModel]: the methods of the filter |
| `ObjLoopLemmas.v` | Lemmas about [ObjModel]: the loops of the filter |
| `PropsObj.v` | C87: the methods of the unscented filter exchange the intermediate results through attributes of the instance and of its transforms |
| `PropsObjCase.v` | C87: concrete cases |
| `ExtObjModel.v` | Model of the extended filter of ceacoest/kalman (base.py, extended.py) as an object, in the manner of [ObjModel]: all its methods, statement by statement, up to the point where they cannot go on |
| `ExtObjLemmas.v` | Lemmas about [ExtObjModel]: the loops of base.py for any class whose methods compute what a filter of [NdKalModel] computes, and the attributes the methods of the extended filter bind |
| `PropsExtObj.v` | C88: the extended filter as an object |
| `PropsExtObjCase.v` | C88: the loops are those of [ObjModel], and concrete cases |
| `UnitsLemmas.v` | Matrix facts for changes of coordinates |
| `PropsUnits.v` | C89: Changing the coordinates of the state and the units of the outputs |
| `PropsUnitsCase.v` | C89: concrete cases |
| `SeqLemmas.v` | Selecting outputs, and the correction in information form |
| `PropsSeq.v` | C90: Components of a measurement can be processed one after the other |
| `PropsSeqCase.v` | C90: concrete cases |
| `PropsHessSym.v` | C91: The matrix [pem_hessian] returns is symmetric, exactly, and so are the second derivatives of the estimates, whenever the model's second derivatives and the initial ones are |
| `PropsHessSymCase.v` | C91: the mixed partial derivatives of the merit, and a concrete case |
| `PropsHessSymNeed.v` | C91: a model whose second derivatives depend on the order gives a Hessian that is not symmetric |

## Properties and theorems

* **C01** Decision variables tile the decision vector (proved).  `PropsLayout.v`: `C01_slices_tile`, `C01_slice_length`, `C01_entry_owner`.
* **C02** Large components overflow the C-int size (proved).  `PropsLayout.v`: `C02_large_shapes_refuted`.  The unrestricted claim is false of the code (32-bit sizes); the witness is proved. C01 is the claim with the size bound.
* **C03** Variable names are unique and a rejected registration has no effect (proved).  `PropsLayout.v`: `C03_unique_names`, `C03_registration`, `C03_names_stable`.
* **C04** Component pack/unpack round trip and frame (proved).  `PropsLayout.v`: `C04_pack_unpack`, `C04_add_unpack`, `C04_broadcast_rule`, `C04_short_destination`, `C04_components_fit`.
* **C05** Index conversion agrees with unpacking (proved).  `PropsLayout.v`: `C05_C06_decision`, `C05_C06_piece`, `C05_C06_endpoints`, `C05_C06_measurement`.
* **C06** Gradient accumulation is the adjoint of unpacking (proved).  `PropsLayout.v`: `C05_C06_decision`, `C05_C06_piece`, `C05_C06_endpoints`, `C05_C06_measurement`, `C06_single_point_refuted`.
* **C07** Piece-ravelled variables repeat shared endpoints (proved).  `PropsLayout.v`: `C07_piece_rows`, `C07_shared_endpoint`, `C07_endpoint_rows`, `C07_measured_rows`.
* **C08** Constraint vector layout (proved).  `PropsProblem.v`: `C08_constraint_layout`, `C08_unpack_constraints`, `selector_exists`.
* **C09** Sparse structures are self-consistent (proved).  `PropsProblem.v`: `C09_jacobian`, `C09_constraint_hessian`, `C09_objective_hessian`, `C14_lagrangian_hessian`.
* **C10** The sparse constraint Jacobian is the derivative of constr (proved).  `PropsProblem.v`: `C10_jacobian_directional`, `C10_jacobian`.
* **C11** obj_grad is the gradient of obj (proved).  `PropsProblem.v`: `C11_gradient`.
* **C12** The sparse Lagrangian Hessian is the second derivative of the Lagrangian (proved).  `PropsProblem.v`: `C12_lagrangian_hessian`.
* **C13** Overlapping arguments are under-counted by the triangular Hessian (proved).  `PropsProblem.v`: `C13_overlap_refuted`.  The unguarded claim is false of the code; the witness is proved. C12 is the claim with the guard.
* **C14** Lagrangian Hessian values are the multiplier-weighted function Hessians (proved).  `PropsProblem.v`: `C14_lagrangian_hessian`, `C14_linear`.
* **C15** The Ipopt hand-off is (row=constraint, col=variable) (proved).  `PropsProblem.v`: `C15_ipopt`.
* **C16** Argument renaming routes values and derivatives to the named variables (proved).  `PropsProblem.v`: `C16_renaming`.
* **C17** Repeated arguments silently drop gradient blocks (proved).  `PropsProblem.v`: `C17_repeated_argument_refuted`, `C17_last_block_wins`.  The claim is false of the code; the witness and the general collapse rule are proved.
* **C18** Generated sparse derivatives place each batch element's block correctly (proved).  `PropsGen.v`: `C18_jacobian_positions`, `C18_hessian_positions`, `C18_values`, `C18_derivatives`.  sym2num batching (elementwise evaluation over broadcast leading axes) is modelled by the definition batch, not derived from sym2num source.
* **C19** Generated objective gradients are accumulated over the batch (proved).  `PropsGen.v`: `C19_gradient_sums`, `C19_gradient_derivative`, `C19_general_broadcast_refuted`.  Holds when the leading axes of the argument are a suffix of the batch axes; refuted without that condition.
* **C20** Symbolic sparsity extraction loses nothing (proved).  `PropsSparse.v`: `C20_sparse_extraction`.  Symbolic expressions are abstract values with a syntactic nonzero flag; the only assumption on them is that an expression flagged zero evaluates to zero.
* **C21** Set iteration order does not change the assembled derivatives (proved).  `PropsSym.v`: `C21_constraint_order`, `C21_objective_order`, `C21_generated_constraint`, `C21_generated_objective`.  Also: the functions generated after registration in any order are, once bound to a problem, functions with correct first and second derivatives in the sense used by C10-C13.
* **C22** Default derivative names are unambiguous (proved).  `PropsNames.v`: `C22_same_function`, `C22_all_functions`, `C22_value_names`, `C22_refuted_general`, `C22_double_deriv_name`.  Holds when "_d" occurs in no variable name (and, across functions, no function name); refuted in general.
* **C23** The collocation grid refines the coarse grid (proved).  `PropsRk.v`: `C23_grid`, `C23_empty`.  Exact arithmetic over any real closed field.
* **C24** Integration matrices are exact on interpolated polynomials (proved).  `PropsRk.v`: `C24_interval_matrix`, `C24_quadrature`, `C24_column_sums`, `C24_weights_sum`, `C24_every_polynomial`, `C24_nodes`.  Exact arithmetic over any real closed field.
* **C25** LGL quadrature has degree of exactness 2n-3 (proved).  `PropsRk.v`: `C25_lobatto_exact`.  roots() is modelled as the exact increasing list of real roots; C27_points proves there are n-2 of them.
* **C26** Zero collocation defects characterise the collocation polynomial (proved).  `PropsRk.v`: `C26_defects`, `C26_piece_sum`.
* **C27** Lobatto order validation and endpoints (proved).  `PropsRk.v`: `C27_order_error`, `C27_points`.
* **C28** Output-error measurements are matched to the right grid points (proved).  `PropsCol.v`: `C28_kept_measurements`, `C28_oem`, `C28_jme`.  The collocation nodes are a parameter whose first entry is 0 (C27_points proves this of the nodes rk.py computes).
* **C29** Piece-wise inputs agree with piece-wise states (proved).  `PropsCol.v`: `C29_oem`, `C29_jme`.
* **C30** Problem classes register consistent shapes (proved).  `PropsCol.v`: `C30_oc`, `C30_oem`, `C30_jme`.  The functions of the model are generated ones (GenModel) whose parameters have the base shapes symcol/symoc/symoem/symjme declare; L takes its four parameters in order.
* **C31** Unscented weights sum to one and sigma points match mean and covariance (proved).  `PropsUt.v`: `C31_weights`, `C31_moments`, `C31_options`.
* **C32** The unscented transform is exact on affine functions (proved).  `PropsUt.v`: `C32_affine`, `C32_sample_moments`.
* **C33** Unscented covariances are symmetric, and positive semidefinite for kappa >= 0 (proved).  `PropsUt.v`: `C33_symmetric`, `C33_psd`, `C33_negative_kappa`.  the semidefiniteness is proved for kappa >= 0 and refuted for every -1 < kappa < 0 by C33_negative_kappa.
* **C34** Matrix square roots (proved).  `PropsUt.v`: `C34_chol`, `C34_chol_lower_triangle`, `C34_svd`, `C34_svd_indefinite`.  np.linalg.svd enters through its contract is_svd; the SVD identity is proved to hold exactly for semidefinite matrices.
* **C35** Cholesky derivatives (proved).  `PropsCholDiff.v`: `C35_diff`, `C35_diff2`, `C35_derivative`, `C35_second_derivative`.
* **C36** Prediction and correction keep covariances symmetric positive semidefinite (proved).  `PropsKal.v`: `C36_ekf`, `C36_ekf_correct_decreases`, `C36_ukf`, `C36_ukf_correct_decreases`.
* **C37** The correction is the minimum-variance update (proved).  `PropsKal.v`: `C37_minimum_variance`, `C37_unique`.
* **C38** Masked measurements are ignored (proved).  `PropsKal.v`: `C38_masked_values`, `C38_masked_sequences`, `C38_fully_masked`, `C38_reduced_model`.
* **C39** Extended and unscented filters agree with the Kalman filter on affine models (proved).  `PropsSmooth.v`: `C39_filter_smooth`, `C39_cholesky`, `C39_innovations`, `C39_semidefinite`.
* **C40** Filtering is causal and advances time once per sample (proved).  `PropsSmooth.v`: `C40_filter`, `C40_causal`, `C40_prefix`.
* **C41** Smoothing refines filtering (proved).  `PropsSmooth.v`: `C41_last_sample`; `PropsMap.v`: `C41_covariance_ekf`, `C41_covariance_ukf`, `C41_map`, `C41_map_ukf`.
* **C42** pem_merit is the Gaussian log-likelihood of the innovations (proved).  `PropsPem.v`: `C42_merit`, `C42_total`, `C42_masked`.  R symmetric is assumed; np.log is the natural logarithm on the reals.
* **C43** pem_gradient is the gradient of pem_merit (proved).  `PropsPemDiff.v`: `C43_total`, `C43_gradient`, `C43_unique`.  Differentiability of the model is stated as the chain rule along differentiable curves of parameters and states, in regions that the run must stay in.
* **C44** pem_hessian is the Hessian of pem_merit (proved).  `PropsPemDiff.v`: `C44_total`, `C44_hessian`.  As C43; the second derivatives by the state are symmetric.
* **C45** The extended filter supports the prediction-error method (proved).  `PropsPem.v`: `C45_merit_fails`, `C45_merit_attribute`, `C45_merit_masked`, `C45_gradient`.  the property as stated is refuted: the theorems determine exactly when a value is returned.
* **C46** Filter construction honours its options (proved).  `PropsOpt.v`: `C46_initial`, `C46_initial_total`, `C46_d2L_dq2_ignored`, `C46_d2L_dq2_from_dL_dq`, `C46_transform`, `C46_filter`, `C46_separate`.  proved for every quantity but d2L_dq2, for which it is refuted by C46_d2L_dq2_ignored and C46_d2L_dq2_from_dL_dq.
* **C47** Quaternion rotation matrices are rotations (proved).  `PropsQuat.v`: `C47_orthogonal`, `C47_proper_rotation`, `C47_double_cover`, `C47_product`, `C47_cover_exact`.  The matrix maps reference to body coordinates, so a product of quaternions becomes the reversed product of matrices.
* **C48** Quaternion kinematics (proved).  `PropsQuat.v`: `C48_hamilton`, `C48_tangent`, `C48_norm_rate`, `C48_norm_preserved`, `C48_renormalisation_stable`, `C48_rotation_rate`, `C48_attitude_kinematics`.
* **C49** Euler angles reproduce the rotation (proved).  `PropsQuat.v`: `C49_euler_angles`, `C49_ranges`.  Away from gimbal lock: entry (0,2) of the matrix strictly between -1 and 1.
* **C50** SDE discretisation noise covariance (proved).  `PropsSde.v`: `C50_psd`, `C50_euler_Q`, `C50_as15_Q`, `C50_drift`, `C50_euler_f`, `C50_h`, `C50_linear_order`, `C50_linear_exact`.  C50_drift: the order 1.5 drift is x + dt f + dt^2/2 times the time derivative of f plus the Ito correction.
* **C51** Masked multivariate normal density (proved).  `PropsSde.v`: `C51_unmasked`, `C51_all_masked`, `C51_masked`, `C51_uncorrelated`, `C51_marginal_iff`, `C51_correlated_refuted`, `C51_row_refuted`.  the marginal claim is refuted; the theorems determine the value that is returned.
* **C52** svd_sqrt is a square root (proved).  `PropsSde.v`: `C52_gram`, `C52_iff`, `C52_refuted`, `C52_rvs`.  refuted: the product is a a^T.
* **C53** Normal log-densities (proved).  `PropsDiff.v`: `C53_log_density`, `C53_masked`, `C53_constant`, `C53_maximum`.  Real arithmetic: data under the mask are finite (0*nan is not modelled).
* **C54** Finite differences (proved).  `PropsDiff.v`: `C54_central_value`, `C54_central_empty`, `C54_forward_value`, `C54_step`, `C54_central_quadratic`, `C54_forward_affine`, `C54_central_error`, `C54_forward_error`.  Exact arithmetic. The claim is refuted for an empty point (C54_central_empty: None is returned).
* **C55** Option sub-key extraction (proved).  `PropsUtil.v`: `C55_subkey`, `C55_lookup`, `C55_word_keys`; `PropsEdge.v`: `C55_characters`.  ASCII text; the base holds no regular-expression operators.
* **C56** cached_property fallback (proved).  `PropsUtil.v`: `C56_once_per_object`, `C56_values`, `C56_cached_method`, `C56_only_once_refuted`; `PropsEdge.v`: `C56_runs`.  The docstring claim is refuted from 129 objects on; the bounded claim is proved.
* **C57** Optimal-control cost and Mayer/endpoint terms (proved).  `PropsSymCol.v`: `C57_running_cost`, `C57_exact`.  Exact arithmetic over any real closed field; L is an arbitrary function.
* **C58** Joint-MAP objective (proved).  `PropsSymCol.v`: `C58_defects`, `C58_tube_value`, `C58_tube_nonpos`, `C58_penalty_value`, `C58_penalty_nonpos`.  Exact arithmetic; the result is for any JT_range with one row per node.
* **C59** Array comparison helper (proved).  `PropsDiff.v`: `C59_comparison`, `C59_nan`, `C59_strict`, `C59_asymmetric`; `PropsEdge.v`: `C59_tolerance`.  Elements are finite numbers or NaN; infinities are not modelled.
* **C60** Registrations do not disturb each other (proved).  `PropsSym.v`: `C60_registrations_independent`.
* **C61** Lobatto quadrature weights are positive (proved).  `PropsRk.v`: `C61_weights_positive`.
* **C62** The interval integration matrix has full row rank (proved).  `PropsRk.v`: `C62_full_row_rank`.
* **C63** The noise parameters of joint-MAP estimation are faithful (proved).  `PropsSymCol.v`: `C63_noise_parameters`.  scipy.linalg.orth is modelled by its contract: orthonormal columns spanning the rows of J.
* **C64** The optimal-control problem is the Lobatto transcription of the continuous problem (proved).  `PropsNlp.v`: `C64_optimal_control`.  Exact arithmetic over any real closed field; the generated functions are assumed to compute the expressions of symcol/symoc (record oc_expresses), whose meaning SymColModel/RkModel give.
* **C65** The output-error problem is the transcription of the deterministic estimation problem (proved).  `PropsNlp.v`: `C65_output_error`.  As C64 (record oem_expresses).
* **C66** The joint-MAP problem is the transcription of the noise-driven estimation problem (proved).  `PropsNlp.v`: `C66_joint_map`.  As C64 (record jme_expresses).
* **C67** Registered functions give problems with true derivatives (proved).  `PropsEnd.v`: `C67_oc`; `PropsEndEst.v`: `C67_oem`, `C67_jme`.  The differentiability of the symbolic functions is a hypothesis here; C70 derives it for expressions.
* **C68** Flat concatenation keeps every element (proved).  `PropsUtil.v`: `C68_flat_cat`, `C68_empty`.
* **C69** Transitions of the discretised models (proved).  `PropsSde.v`: `C69_rvs`, `C69_rvs_given`, `C69_singular`, `C69_density`, `C69_as15_rank`, `C69_value`.
* **C70** From model expressions to the optimisation problem (proved).  `PropsExpr.v`: `C70_optimal_control`, `C70_output_error`, `C70_joint_map`, `C70_drift_jacobian`.  Expressions are built from constants, variable elements, sums, products and seven smooth functions.
* **C71** Filters of models written as expressions have exact derivatives (proved).  `PropsKalExpr.v`: `C71_total`, `C71_gradient`, `C71_hessian`.  Expressions as in C70; the covariances are assumed symmetric.
* **C72** Discretised stochastic differential equations give exact filter derivatives (proved).  `PropsKalExpr.v`: `C72_euler_f`, `C72_euler_Q`, `C72_as15_f`, `C72_as15_Q`, `C72_h`, `C72_derivatives`, `C72_total`, `C72_gradient`, `C72_hessian`.  duffing_exact instantiates it at the model of examples/duffing_old.py.
* **C73** A filter on a stack of states acts element by element (proved).  `PropsNdKal.v`: `C73_ukf_filter`, `C73_ukf_smooth`, `C73_ukf_merit`, `C73_ekf_filter`, `C73_ekf_smooth`, `C73_ekf_merit`, `C73_gradient`, `C73_hessian`, `C73_ukf_total`, `C73_ekf_total`, `C73_vectorise`.  Measurements, R and its derivatives are shared by the stack, as in the code.
* **C74** The array code of the filters computes the matrix formulas (proved).  `PropsNdKal.v`: `C74_ukf`, `C74_ekf`, `C74_gradient`, `C74_hessian`.
* **C75** Corner cases of indices, slices, sizes and empty inputs (proved).  `PropsEdge.v`: `C75_index`, `C75_slice`, `C75_slice_update`, `C75_constraint_levels`, `C75_objective_levels`, `C75_sum_lead`, `C75_no_endpoints`, `C75_measured_index`, `C75_put_row`, `C75_assigned_shape`, `C75_measured_rows`, `C75_arguments`, `C75_index_rows`, `C75_data`; `PropsKalEdge.v`: `C75_kappa`, `C75_no_samples`.
* **C76** Means and covariances that are not stacked alike (proved).  `PropsKalEdge.v`: `C76_shared_covariance`, `C76_shared_rank`, `C76_stacked_covariance`.
* **C77** The generated class carries what the symbolic model recorded (proved).  `PropsClass.v`: `C77_optimal_control`, `C77_output_error`, `C77_joint_map`, `C77_generated`, `C77_dictionaries`, `C77_missing`.
* **C78** Densities and random draws act element by element on stacks (proved).  `PropsNdSde.v`: `C78_density`, `C78_all_masked`, `C78_masked`, `C78_more_axes`, `C78_silent`, `C78_not_square`, `C78_trans_pdf`, `C78_meas_pdf`, `C78_meas_missing`, `C78_trans_rvs`, `C78_trans_rvs_given`.  np.linalg.solve as in NumPy 1.x; exact arithmetic.
* **C79** pem_gradient and pem_hessian write only to arrays of the filter, which options can share with the caller (proved).  `PropsAlias.v`: `C79_gradient`, `C79_hessian`, `C79_gradient_second`, `C79_again`, `C79_state_arrays`, `C79_constructed`, `C79_caller`, `C79_options`, `C79_stored`; `PropsAlias2.v`: `C79_whole`.  An array is a location; views are not modelled, the code takes none of the arrays it updates.
* **C80** Samples of the wrong length are rejected, fully masked ones are ignored (proved).  `PropsKalMeas.v`: `C80_mask`, `C80_ix`, `C80_all_masked`, `C80_ekf_length`, `C80_ukf_length`, `C80_propagates`, `C80_filter_cat`, `C80_propagates_later`, `C80_einsum_axes`, `C80_inplace`, `C80_linalg`.
* **C81** Arguments reach the parameters they are meant for (proved).  `PropsSig.v`: `C81_binding`, `C81_binding_unique`, `C81_with_signature`, `C81_call`, `C81_names`, `C81_derivatives`, `C81_gradient_argument`, `C81_gradient_too_few`, `C81_problem`, `C81_missing`, `C81_renamed`, `C81_plain`, `C81_no_self`.  Parameters have no defaults, as in generated code.
* **C82** Discretised models: arrays, declared sizes and construction (proved).  `PropsSymSde.v`: `C82_euler`, `C82_as15`, `C82_Q`, `C82_sizes`, `C82_draws`, `C82_not_matrix`, `C82_variables`, `C82_as15_functions`, `C82_as15_total`, `C82_as15_missing`.  Array elements are values of a real closed field instead of SymPy expressions.
* **C83** Writing into the arrays returned by variables (proved).  `PropsView.v`: `C83_set`, `C83_set_outcome`, `C83_variables`, `C83_assert`, `C83_assign`.  Slices have step 1; index arrays are not modelled here.
* **C84** The example scripts pose the problems they describe (proved).  `PropsScript.v`: `C84_bounds`; `PropsExample.v`: `C84_brachistochrone`, `C84_brachistochrone_feasible`, `C84_bryson_denham`, `C84_attas`, `C84_duffing`.  Collocation order, grid and data are arbitrary instead of those of the scripts; initial guesses, scaling and solver options are not modelled; attas_sp.py is taken with no masked value.
* **C85** The collocation grid and finite differences in binary64 arithmetic (proved).  `PropsFl.v`: `C85_exact`, `C85_piece_len`, `C85_grid`, `C85_grid_strict`, `C85_grid_repeats`; `PropsFlDiff.v`: `C85_moves`, `C85_stuck`, `C85_stuck_below`, `C85_negative`.  The collocation points are data: their computation as roots is not modelled in binary64.
* **C86** Names of the elements of derived variables and when elements share a symbol (proved).  `PropsElem.v`: `C86_decimal`, `C86_forms`, `C86_forms_jme`, `C86_symcol`, `C86_symoc`, `C86_symoem`, `C86_symjme`; `PropsElemSym.v`: `C86_layout`, `C86_distinct_col`, `C86_distinct_oc`, `C86_distinct_jme`, `C86_plain`, `C86_derivative`, `C86_derivative2`, `C86_derivative_only`, `C86_value`, `C86_value_only`, `C86_generated`, `C86_model`, `C86_collision`.  How sym2num turns names into SymPy symbols and prints functions is a contract: a symbol is its name, arguments are unpacked in order.
* **C87** Attributes of the unscented filter: what the methods leave for each other (proved).  `PropsObj.v`: `C87_init`, `C87_hessian`, `C87_gradient`, `C87_merit`, `C87_merit_value`, `C87_filter`, `C87_filter_value`, `C87_smooth`, `C87_no_correct`, `C87_no_predict`, `C87_no_prediction_diff`, `C87_no_correction_diff`, `C87_no_update_likelihood`, `C87_masked`, `C87_correct_raises`, `C87_predict_raises`, `C87_cache`, `C87_cache_empty`.  The model functions do not raise; in-place updates bind the new value (C79 has the sharing). C87_merit and C87_filter are about the computation without prediction_crosscov, which these loops do not call.
* **C88** The extended filter as an object: what can change, and where each method stops (proved).  `PropsExtObj.v`: `C88_changing`, `C88_kept`, `C88_state`, `C88_stuck`, `C88_prediction_diff`, `C88_merit`, `C88_gradient`, `C88_hessian`, `C88_filter`, `C88_smooth`, `C88_correct_raises`, `C88_predict_raises`; `PropsExtObjCase.v`: `C88_loops`.  The functions of the model exist and do not raise; the statements after the first one that cannot be executed are not modelled.
* **C89** Estimates do not depend on the units and coordinates used (proved).  `PropsUnits.v`: `C89_ekf_filter`, `C89_ekf_smooth`, `C89_ukf_filter`, `C89_ukf_smooth`, `C89_merit`; `PropsUnitsCase.v`: `C89_order`.  Exact arithmetic, one filter; C73 and C74 carry it to the array code and stacks.
* **C90** Measured components can be processed one after the other (proved).  `PropsSeq.v`: `C90_ekf`, `C90_ukf`, `C90_ekf_each`, `C90_ukf_each`; `PropsSeqCase.v`: `C90_correlated`.  Exact arithmetic, one filter; the logarithm is any function that turns products of positive numbers into sums.
* **C91** pem_hessian is exactly symmetric (proved).  `PropsHessSym.v`: `C91_kept`, `C91_symmetric`, `C91_state`; `PropsHessSymCase.v`: `C91_mixed`; `PropsHessSymNeed.v`: `C91_needed`.  Exact arithmetic, one filter; C74 carries it to the array code.

## What is modelled and what is not

Modelled, function by function (citations beside each definition): everything in
`optim.py`, `col.py`, `oc.py`, `oem.py`, `jme.py`, `rk.py`, `utils.py`, `kalman/base.py`,
`kalman/unscented.py`, `kalman/extended.py` (see exceptions), `modelling/genoptim.py`,
`symoptim.py`, `symcol.py`, `symoc.py`, `symoem.py`, `symjme.py`, `symquat.py`, `symsde.py`,
`symstats.py`, `gensde.py`, `stats.py` and `testsupport/array_cmp.py`, except:

* `optim.py`: `__repr__`s; the interface to the IPOPT wrapper (the callbacks it receives are
  modelled, the solver is not).  `np.broadcast`, `reshape`, `ravel_multi_index`, `take`,
  `np.add.at`-style accumulation are modelled in `NdArray.v`.  Simultaneous reads and writes of
  overlapping arrays inside one NumPy statement follow NumPy's documented buffering.
* `kalman/extended.py`: all methods are modelled (`ExtObjModel.v`, C88), `prediction_diff` and
  `prediction_diff2` up to the first statement that reads an undefined local name; the statements
  after it cannot be executed and are not modelled.
* `kalman/`: modelled twice.  `KalModel.v`, `KalDiffModel.v` use matrices and one filter;
  `NdKalModel.v` follows the array code literally (einsum subscript strings, ellipses,
  broadcasting, masks) on the arrays of `NpModel.v` and covers stacks of filters.  C74 relates the
  two.  In a stack the measurements, `R` and its derivatives are shared, the mean and the covariance
  both carry the stack axes, and the initial likelihood is a scalar or a stack.  `AliasModel.v` is the
  array code again with arrays as objects in memory, for the in-place updates of `pem_gradient` and
  `pem_hessian` (C79).  `ObjModel.v` is the unscented filter again as an object whose attributes are read
  and bound one statement at a time (C87).
* Default values of parameters (generated functions have none); `functools.wraps` and other metadata.
* `symoptim.py` and subclasses: `ClassModel.v` has the attributes `generate_assignments` puts in the
  class as a dictionary; sym2num's printing of the class as text is not modelled, sym2num itself is a
  dependency.  What a printed function
  computes is the contract `batch`: element-wise evaluation of the expression over the
  broadcast leading axes of its arguments.
* Logging, documentation strings, packaging and `tests/`.  Of `examples/`, the models and bounds of
  brachistochrone.py, bryson_denham.py, attas_sp.py and duffing_jme.py are modelled (C84), without
  their initial guesses, scaling, solver options, data files and plots.  The others
  (circular_orbit*.py, free_flying_robot.py, hang_glider.py, minimum_time_to_climb.py,
  shuttle_reentry.py, hfb320_long_oem.py, attitude.py, duffing.py, duffing_old.py) are not modelled;
  most use decorators and methods (`symoc.collocate`, `set_decision_item`, `sde.SymbolicModel`) that this
  commit does not define.

Contracts of dependencies, which enter as hypotheses or as the definition of a primitive:

* **SymPy**: in C18-C22 and C67 a symbolic function is a value, a derivative and an
  `is it zero` test, with hypotheses that they are consistent.  In C70 these are proved
  for the expression language of `Expr.v` (constants, variables, sum, product, and seven smooth
  functions).  In C64 to C72 distinct variable elements are distinct
  symbols; when that is so, and what happens when a user's name is that of a derived element
  (`x_piece_0`), is C86 (`ElemModel.v`).
* **numpy.linalg**: `cholesky` is modelled by the algorithm, `inv`/`solve` by the exact inverse
  (error when singular; stacked right-hand sides as in NumPy 1.x), `svd` by its contract `is_svd`, `scipy.linalg.orth` by a matrix with
  orthonormal columns spanning the range.
* **numpy.polynomial**: roots and integrals are the exact ones; existence of enough real roots
  is proved.
* **User functions** given to the filters, in C43/C44: differentiable along parameter paths with the
  derivatives the model object returns, in regions that the run has to stay in.  In C71/C72 this
  is proved for models written as expressions, and for the discretisations of stochastic
  differential equations written as expressions.

## Findings

Behaviour of the code that theorems establish and a user may not expect.

* A function registered with one variable for two parameters gets a wrong gradient silently
  (C17); `constraint_jacobian` raises AssertionError instead.
* Two variables sharing a decision entry in one function: the Hessian counts the cross term
  once (C13).
* Component sizes wrap modulo 2**32 (C02).
* `genoptim` gradients are reshaped wrongly when the broadcast arguments are not suffixes (C19).
* Derivative names can clash when names contain underscores (C22).
* `XE` variables with one point: `add_to` is not the adjoint of reading; a collocation problem
  over a single time point raises IndexError in `variables()`.
* `XMVariable.size` uses `np.int`, removed from NumPy.
* `tube_L` with `nw = 0` takes the whole matrix (`L[:, -0:]`).
* A decision-listed parameter given a constant makes `variable_spec` raise ValueError; a
  non-decision argument bound to a decision variable gets no derivative; `rename_kwargs` with a
  constant argument may use the shape of a variable of the same name; a path constraint that
  depends on parameters only has no leading axis.
* `hess_val` of an object shows a parameter `self` that its calls do not take (C81).
* The unscented covariance is not semidefinite for -1 < kappa < 0 (C33); the SVD root is
  wrong on indefinite matrices (C34).
* `multivariate_normal_pdf` with a covariance of more axes than the deviations raises, or mixes rows
  silently when the last stack axis is as long as the vectors; an element with all components
  missing counts 1 only if all elements do (C78).
* The extended filter's prediction-error methods raise (C45): `update_likelihood` reads an
  attribute never set, `prediction_diff` reads undefined names, `prediction_diff2` is unfinished.
* The option `d2L_dq2` is ignored; `dL_dq` is used instead (C46).  The in-place updates of
  `dx_dq` and `dL_dq` mutate the arrays passed as options, a second `pem_gradient` overwrites the
  result of the first, and a model whose `df_dq` returns a stored array has it modified (C79).
* An unscented `predict` that raises when adding `Q` has already advanced the time and the mean, but not
  the covariance (C87); so has an extended one (C88).
* The estimates of an unscented filter with Cholesky factors depend on the order of the states, for
  nonlinear models (C89); those of the extended filter do not.
* Components of a measurement may be given to `correct` one after the other, with the others masked,
  only when their noises are uncorrelated (C90, C90_correlated).
* Whatever is called on an extended filter, its log-likelihood, the derivatives of it and of the
  estimate keep their initial values (C88).
* A filter given a stack of means and the model's default covariance raises ValueError or, when the
  last axis of the stack has length `nx`, silently uses sigma points of rank one (C76).
* `svd_sqrt` returns a root of `a @ a.T` (C52); `multivariate_normal_rvs` and `gensde` raise
  TypeError for expressions such as `std.size[-1]` and `f.shape[:, -1]`.
* `multivariate_normal_pdf` with a partial mask is not the marginal (C51).
* The Euler and AS15 transition densities raise LinAlgError when the noise has too few
  dimensions (C69).
* In binary64 `central_diff` and `forward_diff` return zero at coordinates below -2**30, because the
  step is `max(x*1e-7, 1e-7)` without an absolute value; a fine grid repeats points when coarse times
  are consecutive floating-point numbers (C85).
* A user's variable with the name of a derived element (a parameter `a_piece_0` beside a state `a`) is
  silently the same symbol: derivatives and values are wrong and nothing is raised (C86).
* `central_diff` of an empty point returns None (C54); `cached_property` recomputes with 129
  objects (C56); `ArrayDiff` is strict at zero tolerance and asymmetric (C59).

## Trusted base

* Coq 8.16.1's kernel (and `coqchk`).
* The axioms below, all from the standard library, as listed by `Print Assumptions`.  None is
  introduced in this development.
  * `ClassicalDedekindReals.sig_forall_dec`, `ClassicalDedekindReals.sig_not_dec` and
    `FunctionalExtensionality.functional_extensionality_dep`: the standard library's reals.
  * `Classical_Prop.classic`: excluded middle, used by the Reals library.
  * `ClassicalEpsilon.constructive_indefinite_description`: choice, used to make the reals a
    mathcomp real closed field (decidable equality and roots of polynomials).
* `coqchk` also lists as axioms the constants that the standard library and mathcomp seal behind
  module signatures (`RbaseSymbolsImpl.*`, `BigOp.bigopE`, `FinfunDef.*`, ...).  They have
  definitions in those libraries and `Print Assumptions` does not list them.
* That the definitions are a faithful reading of the Python text, and the contracts above.

### Print Assumptions, theorem by theorem

Every theorem of `MANIFEST.json` falls in one of these groups.

* **Closed under the global context** — 299 theorems: `C01_slices_tile`, `C01_slice_length`, `C01_entry_owner`, `C02_large_shapes_refuted`, `C03_unique_names`, `C03_registration`, `C03_names_stable`, `C04_pack_unpack`, `C04_add_unpack`, `C04_broadcast_rule`, `C04_short_destination`, `C04_components_fit`, `C05_C06_decision`, `C05_C06_piece`, `C05_C06_endpoints`, `C05_C06_measurement`, `C06_single_point_refuted`, `C07_piece_rows`, `C07_shared_endpoint`, `C07_endpoint_rows`, `C07_measured_rows`, `C08_constraint_layout`, `C08_unpack_constraints`, `selector_exists`, `C09_jacobian`, `C09_constraint_hessian`, `C09_objective_hessian`, `C14_lagrangian_hessian`, `C14_linear`, `C15_ipopt`, `C16_renaming`, `C17_last_block_wins`, `C18_jacobian_positions`, `C18_hessian_positions`, `C18_values`, `C20_sparse_extraction`, `C22_same_function`, `C22_all_functions`, `C22_value_names`, `C22_refuted_general`, `C22_double_deriv_name`, `C23_grid`, `C23_empty`, `C24_interval_matrix`, `C24_quadrature`, `C24_column_sums`, `C24_weights_sum`, `C24_every_polynomial`, `C24_nodes`, `C25_lobatto_exact`, `C26_defects`, `C26_piece_sum`, `C27_order_error`, `C27_points`, `C28_kept_measurements`, `C28_oem`, `C28_jme`, `C29_oem`, `C29_jme`, `C30_oc`, `C30_oem`, `C30_jme`, `C31_weights`, `C31_moments`, `C31_options`, `C32_affine`, `C32_sample_moments`, `C33_symmetric`, `C33_psd`, `C33_negative_kappa`, `C34_chol`, `C34_chol_lower_triangle`, `C34_svd`, `C34_svd_indefinite`, `C35_diff`, `C35_diff2`, `C36_ekf`, `C36_ekf_correct_decreases`, `C36_ukf`, `C36_ukf_correct_decreases`, `C37_minimum_variance`, `C37_unique`, `C38_masked_values`, `C38_masked_sequences`, `C38_fully_masked`, `C38_reduced_model`, `C39_filter_smooth`, `C39_cholesky`, `C39_innovations`, `C39_semidefinite`, `C40_filter`, `C40_causal`, `C40_prefix`, `C41_last_sample`, `C41_covariance_ekf`, `C41_covariance_ukf`, `C41_map`, `C41_map_ukf`, `C45_merit_fails`, `C45_merit_attribute`, `C45_merit_masked`, `C45_gradient`, `C50_psd`, `C50_euler_Q`, `C50_as15_Q`, `C52_gram`, `C52_iff`, `C52_refuted`, `C52_rvs`, `C55_subkey`, `C55_lookup`, `C55_word_keys`, `C55_characters`, `C56_once_per_object`, `C56_values`, `C56_cached_method`, `C56_only_once_refuted`, `C56_runs`, `C57_running_cost`, `C57_exact`, `C58_defects`, `C58_tube_value`, `C58_tube_nonpos`, `C58_penalty_value`, `C58_penalty_nonpos`, `C61_weights_positive`, `C62_full_row_rank`, `C63_noise_parameters`, `C64_optimal_control`, `C65_output_error`, `C66_joint_map`, `C68_flat_cat`, `C68_empty`, `C69_rvs`, `C69_rvs_given`, `C69_singular`, `C69_density`, `C69_as15_rank`, `C69_value`, `C73_ukf_filter`, `C73_ukf_smooth`, `C73_ukf_merit`, `C73_ekf_filter`, `C73_ekf_smooth`, `C73_ekf_merit`, `C73_gradient`, `C73_hessian`, `C73_ukf_total`, `C73_ekf_total`, `C73_vectorise`, `C74_ukf`, `C74_ekf`, `C74_gradient`, `C74_hessian`, `C75_index`, `C75_slice`, `C75_slice_update`, `C75_kappa`, `C75_no_samples`, `C75_constraint_levels`, `C75_objective_levels`, `C75_sum_lead`, `C75_no_endpoints`, `C75_measured_index`, `C75_put_row`, `C75_assigned_shape`, `C75_measured_rows`, `C75_arguments`, `C75_index_rows`, `C75_data`, `C76_shared_covariance`, `C76_shared_rank`, `C76_stacked_covariance`, `C77_optimal_control`, `C77_output_error`, `C77_joint_map`, `C77_generated`, `C77_dictionaries`, `C77_missing`, `C78_density`, `C78_all_masked`, `C78_masked`, `C78_more_axes`, `C78_silent`, `C78_not_square`, `C78_trans_pdf`, `C78_meas_pdf`, `C78_meas_missing`, `C78_trans_rvs`, `C78_trans_rvs_given`, `C79_gradient`, `C79_hessian`, `C79_gradient_second`, `C79_again`, `C79_state_arrays`, `C79_constructed`, `C79_caller`, `C79_options`, `C79_stored`, `C79_whole`, `C80_mask`, `C80_ix`, `C80_all_masked`, `C80_ekf_length`, `C80_ukf_length`, `C80_propagates`, `C80_filter_cat`, `C80_propagates_later`, `C80_einsum_axes`, `C80_inplace`, `C80_linalg`, `C81_binding`, `C81_binding_unique`, `C81_with_signature`, `C81_call`, `C81_names`, `C81_derivatives`, `C81_gradient_argument`, `C81_gradient_too_few`, `C81_problem`, `C81_missing`, `C81_renamed`, `C81_plain`, `C81_no_self`, `C82_euler`, `C82_as15`, `C82_Q`, `C82_sizes`, `C82_draws`, `C82_not_matrix`, `C82_variables`, `C82_as15_functions`, `C82_as15_total`, `C82_as15_missing`, `C83_set`, `C83_set_outcome`, `C83_variables`, `C83_assert`, `C83_assign`, `C84_bounds`, `C86_decimal`, `C86_forms`, `C86_forms_jme`, `C86_layout`, `C86_symcol`, `C86_symoc`, `C86_symoem`, `C86_symjme`, `C86_distinct_col`, `C86_distinct_oc`, `C86_distinct_jme`, `C86_plain`, `C86_model`, `C86_collision`, `C87_init`, `C87_hessian`, `C87_gradient`, `C87_merit`, `C87_merit_value`, `C87_filter`, `C87_filter_value`, `C87_smooth`, `C87_no_correct`, `C87_no_predict`, `C87_no_prediction_diff`, `C87_no_correction_diff`, `C87_no_update_likelihood`, `C87_masked`, `C87_correct_raises`, `C87_predict_raises`, `C87_cache`, `C87_cache_empty`, `C88_changing`, `C88_kept`, `C88_state`, `C88_stuck`, `C88_prediction_diff`, `C88_merit`, `C88_gradient`, `C88_hessian`, `C88_filter`, `C88_smooth`, `C88_correct_raises`, `C88_predict_raises`, `C88_loops`, `C89_ekf_filter`, `C89_ekf_smooth`, `C89_ukf_filter`, `C89_ukf_smooth`, `C89_merit`, `C89_order`, `C90_ekf`, `C90_ukf`, `C90_ekf_each`, `C90_ukf_each`, `C90_correlated`, `C91_kept`, `C91_symmetric`, `C91_state`.

* Axioms `ClassicalDedekindReals.sig_forall_dec` — 4 theorems: `C46_initial`, `C46_initial_total`, `C46_d2L_dq2_ignored`, `C46_d2L_dq2_from_dL_dq`.

* Axioms `ClassicalDedekindReals.sig_forall_dec`, `FunctionalExtensionality.functional_extensionality_dep` — 27 theorems: `C19_gradient_sums`, `C21_constraint_order`, `C21_objective_order`, `C46_transform`, `C46_filter`, `C46_separate`, `C47_orthogonal`, `C47_proper_rotation`, `C47_double_cover`, `C47_product`, `C47_cover_exact`, `C48_hamilton`, `C48_tangent`, `C54_central_value`, `C54_central_empty`, `C54_forward_value`, `C54_step`, `C59_comparison`, `C59_nan`, `C59_strict`, `C59_asymmetric`, `C59_tolerance`, `C60_registrations_independent`, `C85_exact`, `C86_derivative`, `C86_derivative2`, `C86_derivative_only`.

* Axioms `ClassicalDedekindReals.sig_forall_dec`, `ClassicalDedekindReals.sig_not_dec`, `FunctionalExtensionality.functional_extensionality_dep` — 11 theorems: `C10_jacobian_directional`, `C10_jacobian`, `C11_gradient`, `C12_lagrangian_hessian`, `C18_derivatives`, `C19_gradient_derivative`, `C21_generated_constraint`, `C21_generated_objective`, `C67_oc`, `C67_oem`, `C67_jme`.

* Axioms `ClassicalDedekindReals.sig_forall_dec`, `ClassicalDedekindReals.sig_not_dec`, `Classical_Prop.classic`, `FunctionalExtensionality.functional_extensionality_dep` — 29 theorems: `C13_overlap_refuted`, `C17_repeated_argument_refuted`, `C19_general_broadcast_refuted`, `C48_norm_rate`, `C48_norm_preserved`, `C48_renormalisation_stable`, `C48_rotation_rate`, `C48_attitude_kinematics`, `C49_euler_angles`, `C49_ranges`, `C53_log_density`, `C53_masked`, `C53_constant`, `C53_maximum`, `C54_central_quadratic`, `C54_forward_affine`, `C54_central_error`, `C54_forward_error`, `C85_piece_len`, `C85_grid`, `C85_grid_strict`, `C85_grid_repeats`, `C85_moves`, `C85_stuck`, `C85_stuck_below`, `C85_negative`, `C86_value`, `C86_value_only`, `C86_generated`.

* Axioms `ClassicalDedekindReals.sig_forall_dec`, `ClassicalDedekindReals.sig_not_dec`, `ClassicalEpsilon.constructive_indefinite_description`, `Classical_Prop.classic`, `FunctionalExtensionality.functional_extensionality_dep` — 45 theorems: `C35_derivative`, `C35_second_derivative`, `C42_merit`, `C42_total`, `C42_masked`, `C43_total`, `C43_gradient`, `C43_unique`, `C44_total`, `C44_hessian`, `C50_drift`, `C50_euler_f`, `C50_h`, `C50_linear_order`, `C50_linear_exact`, `C51_unmasked`, `C51_all_masked`, `C51_masked`, `C51_uncorrelated`, `C51_marginal_iff`, `C51_correlated_refuted`, `C51_row_refuted`, `C70_optimal_control`, `C70_output_error`, `C70_joint_map`, `C70_drift_jacobian`, `C71_total`, `C71_gradient`, `C71_hessian`, `C72_euler_f`, `C72_euler_Q`, `C72_as15_f`, `C72_as15_Q`, `C72_h`, `C72_derivatives`, `C72_total`, `C72_gradient`, `C72_hessian`, `C84_brachistochrone`, `C84_brachistochrone_feasible`, `C84_bryson_denham`, `C84_attas`, `C84_duffing`, `C91_mixed`, `C91_needed`.
