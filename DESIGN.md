# DESIGN: a Rocq (Coq 8.16.1) model of inducer/pytential

## 1. Method

* `/repo` is read as text. Each modelled Python function becomes a small, total,
  executable Gallina function that follows the source branch by branch;
  exceptions are values (`Err ...`), loops are structural recursion, folds or
  fuelled recursion whose out-of-fuel result is a distinct value that the theorems
  exclude. Each definition cites the file and lines it models, and says where it
  simplifies.
* Files come in groups: `XModel.v` (definitions only), `XSpec.v` (the
  specification vocabulary, independent of the model's helpers), `XProofs*.v`
  (lemmas) and `XProps*.v` (the property theorems, each followed by
  `Print Assumptions` and by non-vacuity `Example`s that meet its hypotheses on a
  concrete, non-trivial case).
* External calls (array kernels, refiners, tree builders, scipy, sumpy kernels'
  potentials, mesh code) are section variables, i.e. universally quantified in the
  final theorems; what is needed of them is an explicit hypothesis (a contract).
* Device kernels are modelled as one write per work item, run in an arbitrary
  permutation; theorems hold for every order.
* Where the code violates the natural property, the witness is a theorem
  `..._refuted`; the provable remainder is `..._partial`, or is a property of its
  own whose statement has the side condition in it (status "proved").

## 2. Per-property plan

What is modelled and how it is proved. Exact theorem names are in `MANIFEST.json`.

| id | property | model and proof | status | theorems in |
|----|----------|-----------------|--------|-------------|
| C01 | Scheduled statements only read values that exist | `_get_next_step`, `_compute_schedule` over abstract statements; loop invariant on (available, done, schedule), progress for acyclic programs | proved | SchedProps.v |
| C02 | Intermediates are freed exactly when dead | same; step invariant, `execute`'s `del` | proved | SchedProps.v |
| C03 | Executing the schedule computes the program's meaning | `execute` over partial maps; simulation between the context and a solution of the equation system | proved | SchedProps.v |
| C04 | bind-and-evaluate equals mathematical evaluation | `OperatorCompiler` as a state-passing function over an expression datatype, then `execute`; invariant: generated names denote the value of the source expression; composed with C03 | proved | CompProps.v |
| C05 | User variable names cannot be captured by compiler temporaries | same; refuted by witness; renaming invariance for names outside the temporaries | partial | CompProps.v |
| C06 | Evaluation leaves the caller's context dictionary usable | `eval` + `execute`; refuted; exact set of remaining keys proved | partial | SchedProps.v |
| C07 | Long-lived common-subexpression caches are transparent | `map_common_subexpression` with its two caches; invariant over histories of evaluations; refuted for open subexpressions | proved | CacheProps.v |
| C08 | Layer-potential equality distinguishes the forced limit | `IntG.__eq__/__hash__` with CPython integer hashing; refuted (-1/-2); equivalence relation proved | partial | CompProps.v |
| C09 | IntG construction validates its arguments | `IntG.__init__/__post_init__`; case analysis | proved | CtorProps.v |
| C10 | GMRES reports success only with a true small residual | `_gmres` over an abstract vector space, exact arithmetic; loop invariant | proved | GmresProps.v |
| C11 | GMRES bookkeeping is bounded and complete | same; counting invariants | proved | GmresProps.v |
| C12 | Muller's method bounds its work and validates its answer | `muller`, `muller_deflate`; bounded recursion, NaN contract | proved | MullerProps.v |
| C13 | Index lists partition their indices | `linalg/utils.py` index lists; list induction | proved | IndexProps.v |
| C14 | Flattened cluster blocks are laid out consistently | `make_flat_cluster_diag` etc. with kernel writes in any order; permutation invariance | proved | IndexProps.v |
| C15 | sort_arrays_together keeps rows together | `sort_arrays_together`; list induction | proved | IndexProps.v |
| C16 | DOF descriptors behave as values | `dof_desc.py`; case analysis over all descriptors | proved | DofProps.v |
| C17 | Binding resolves every unspecified location | `ToTargetTagger`/`DOFDescriptorReplacer`… over the expression datatype; structural induction per occurrence | proved | SymProps.v |
| C18 | QBX limits are averaged and validated | `QBXPreprocessor`; structural induction | proved | SymProps.v |
| C19 | Unregularized preprocessing affects only its own source | `UnregularizedPreprocessor`; refuted; exact behaviour proved | partial | SymProps.v |
| C20 | Densities are upsampled to the quadrature discretization | `InterpolationPreprocessor`; structural induction, semantic equality | proved | SymProps.v |
| C21 | Symbolic target derivatives are linear and complete | `DerivativeTaker`/`_DerivativeTakerUnsupoortedProductFinder`; structural induction, derivation semantics | proved | SymProps.v |
| C22 | Geometry collections validate and resolve their places | `GeometryCollection.__init__/get_*`; case analysis | proved | CollProps.v |
| C23 | Refinement happens at most once per geometry and stage | collection state machine, refiner as oracle; invariant over operation lists | proved | CollProps.v |
| C24 | Extending a collection never disturbs the original | same with `merge`/`copy`; frame argument over histories | proved | CollProps.v |
| C25 | Connections between DOF descriptors compose correctly | `connection_from_dds`; chain composition | proved | CollProps.v |
| C26 | Refinement loops terminate and establish their criteria | refinement loops with oracle criteria; fuel induction, kernels as folds over permutations | proved | RefineProps.v |
| C27 | Each target is associated with an admissible nearest center | target association kernels as folds in any order; fold invariants | proved | AssocProps.v |
| C28 | A failed association reports exactly the failing targets and only nearby elements | same | proved | AssocProps.v |
| C29 | Target bookkeeping is a partition | QBX FMM geometry data (`user_target_to_center`, `global_qbx_*`); list induction | proved | FmmProps.v |
| C30 | Center/target incidence lists are exact inverses | same; permutation lemmas | proved | FmmProps.v |
| C31 | FMM results land at the right target | `drive_fmm` over symbolic expansions (multisets of contributions); list induction under boxtree's contract | proved | FmmProps.v |
| C32 | scipy_op: layout, flattening and application | `MatVecOp`, `build_matvec`/`scipy_op`; list induction | proved | MatVecProps.v |
| C33 | The built matrix agrees with operator application | `MatrixBuilderBase`, `MatrixBuilder`, P2P; structural induction over an arbitrary commutative ring | proved | MatProps.v |
| C34 | Block matrices are assembled in place | `_bmat`, `build_matrix`; list induction | proved | MatProps.v |
| C35 | Copying a source preserves its parameters | `copy` methods as record functions; case analysis | proved | CopyProps.v |
| C36 | Cost model back ends agree | cost model, both back ends; list induction | proved | CostProps.v |
| C37 | Neighbor gathering is exact | `gather_cluster_neighbor_points`; list induction under the tree contract | proved | PgProps.v |
| C38 | Proxy point and partition numbering is consistent | `partition_by_nodes/elements`, proxy numbering; list induction | proved | PgProps.v |
| C39 | Skeletons are subsets with matching ranks | `skeletonize_by_proxy`; list induction, scipy's decomposition as a contract | proved | SkProps.v, SkProps2.v, SkProps6.v |
| C40 | Proxy expressions keep exactly the layer-potential part | `direct_solver_symbolic`; structural induction | proved | ProxyProps.v |
| C41 | Interleaved arrays alternate | `interleave`; kernel writes in any order | proved | IntlProps.v |
| C42 | Direct evaluation fills each output once and agrees with the FMM | direct evaluators of `exec_compute_potential_insn_direct`; list induction | proved | FmmProps.v |
| C43 | GMRES solves nonsingular systems | `gmres`; counterexample evaluated in the kernel | partial | GmresProps.v, GcrProps.v |
| C44 | Default markers and partial locations are resolved as written | taggers of C17; counterexamples | partial | SymProps.v |
| C45 | No averaged limit survives binding | QBXPreprocessor; counterexample with two sources, theorem for one | partial | SymProps.v, AvgProps.v |
| C46 | Upsampling is complete and type-correct for every expression | InterpolationPreprocessor; counterexamples | partial | SymProps.v |
| C47 | Derivatives of solutions of integral equations | DerivativeTaker; counterexample | partial | SymProps.v |
| C48 | Proxy preparation is complete for all expressions | direct_solver_symbolic; counterexamples | partial | ProxyProps.v |
| C49 | The not-converged warning means a violated criterion | refinement loops; counterexample | partial | RefineProps.v |
| C50 | A single target geometry makes a collection | `GeometryCollection.__init__`; theorem that every such call raises | partial | CollProps.v |
| C51 | A tuple of places registers both geometries | same; counterexample and positive theorem | partial | CollProps.v |
| C52 | Connections from an unstaged descriptor start at its discretization | `connection_from_dds`; counterexample and positive theorem | partial | CollProps.v |
| C53 | Every failing target leads to the documented exception and flags all elements near it | target association; counterexample and positive theorem under equal orders | partial | AssocProps.v |
| C54 | The tree's class lists describe the particles | `build_tree_with_qbx_metadata` class lists; list induction | proved | AssocProps.v |
| C55 | A forced one-sided limit at the source's own nodes comes from that side | association + centers; corollary of C27 with dist p p = 0 | proved | FmmProps.v |
| C56 | Documented success/failure of forced and optional limits | FMM/direct paths; counterexamples and theorem for the direct path | partial | FmmProps.v |
| C57 | Unregularized evaluation gives every output its potential | unregularized source: direct and FMM path; list induction | proved | UnregProps.v |
| C58 | Unregularized FMM accepts layer potential sources as targets | same; theorem that the call raises AttributeError | partial | UnregProps.v |
| C59 | scipy_op supports scalar components | `_prepare_domains`; refuted | partial | MatVecProps.v |
| C60 | Object-array operators get object-array arguments | `MatVecOp.__call__`; counterexample for n = 1, theorem for n >= 2 | partial | MatVecProps.v |
| C61 | An iterative inverse evaluates to the solution | `solve` of `IterativeInverse`; refuted | partial | MatVecProps.v |
| C62 | The array context is the one everything agrees on | array context selection; case analysis | proved | MatVecProps.v |
| C63 | No silently wrong matrix | matrix builder; counterexamples | partial | MatProps.v |
| C64 | Linear operators have a matrix | matrix builder; counterexamples | partial | MatProps.v, DispProps2.v |
| C65 | Cluster blocks have the operator's entries | cluster builders; structural induction | proved | MatClProps.v |
| C66 | Cluster builders refuse what the dense builder refuses | cluster builders; counterexamples | partial | MatClProps.v |
| C67 | Copies lose nothing | copy methods; counterexamples | partial | CopyProps.v |
| C68 | Costs are reported for executed statements | cost mapper; refuted | partial | CostProps.v |
| C69 | Calibration parameters act on their stage | calibration parameters; list induction | proved | CostProps.v |
| C70 | Proxy balls enclose what they must | `ProxyGeneratorBase`, QBX proxy generator over Coq's reals; loop invariants and triangle inequality | proved | PgGeoProps.v |
| C71 | Documented limits of proxy generation are enforced | same; counterexamples | partial | PgProps.v, PgGeoProps.v, PgGeoProps2.v |
| C72 | Skeletonization errors, and exactness | skeletonization error checks and exactness; linear algebra over a commutative ring | proved | SkProps3.v, SkProps4.v |
| C73 | Limits of skeletonization | same; counterexamples | partial | SkProps5.v, SkProps6.v |
| C74 | Expansion centers flank their nodes | expansion centers and radii; induction over nodes | proved | IntlProps.v, IntlProps2.v |
| C75 | Dirichlet and Neumann operators are the boundary limits of their representations | `pde/scalar.py` as symbolic expressions; denotation in a world of potentials with jump relations | proved | PdeProps.v |
| C76 | Documented uses of the PDE operators that do not work | same; counterexamples in a concrete world | partial | PdeProps2.v, PdeProps3.v, PdeProps4.v |
| C77 | Clamped plate and Cahn-Hilliard operators versus the limits of their representations | plate and Cahn-Hilliard operators; same denotation | proved | PdeProps3.v |
| C78 | Beltrami operators solve the surface equation | `pde/beltrami.py`; same denotation | proved | PdeProps4.v |
| C79 | Stokes wrappers contract the right tensors and the exterior operators impose the boundary velocity | `stokes.py` wrappers and operators; same denotation, finite sums | proved | PdeProps5.v |
| C80 | Geometric quantities of curves and surfaces are the textbook ones | `GeoModel.v`: the geometry expressions as a datatype (with the part of pymbolic's geometric algebra used); `GeoSpec.v`: their value over the reals in a world of nodes, derivative operator and quadrature; equational proofs, uniqueness of the normal | proved | GeoProps.v |
| C81 | Stretch factors, expansion radii and centers | same; the eigenvalue formula is shown to give the operator norm; invariances follow from the Gram matrix and an orthogonal change of variables | proved | GeoProps.v, GeoProps2.v, GeoProps3.v |
| C82 | Tangential bases, projections, cross products and surface integrals | same; induction over the Gram-Schmidt columns, finite sums | proved | GeoProps2.v |
| C83 | The maximal curvature is a property of the surface | same; partial theorem for symmetric matrices, exact quadratic element as counterexample | partial | GeoProps3.v, GeoProps4.v |
| C84 | Reference derivatives name existing axes | same; counterexample | partial | GeoProps.v, GeoProps4.v |
| C85 | Symbolic Maxwell fields and integral equations mean what they say | `pde/maxwell/__init__.py` as syntax with `curl`, `cross`, tangential coordinates; meaning in an arbitrary ring of fields with derivations, Helmholtz equation and jump relations; vector identities by `ring` | proved | MaxProps.v |
| C86 | The Mueller representation evaluates the solved fields | same; counterexample over the Gaussian rationals | partial | MaxProps.v, MaxProps2.v, MaxProps3.v |
| C87 | Legendre evaluation of target-specific QBX | `legvals` over the reals with bounded buffers (out-of-bounds = fault); Legendre polynomials by their generating function; induction on the recurrence, energy estimate for the bound | proved | TsProps.v |
| C88 | ts_laplace_s evaluates the truncated expansion and converges to the potential | `ts_laplace_s` over the reals; expansion = Taylor polynomial (`Derive_n`) along the segment; generating-function series of Coquelicot | proved | TsProps.v |
| C89 | Gradients and dipoles of target-specific QBX are derivatives of its potential | `ts_laplace_sp`, `ts_laplace_d`; derivatives with Coquelicot's `is_derive`; termwise series for the limits | proved | TsProps.v |
| C90 | Helmholtz evaluation of target-specific QBX | `h3d01_`, `h3dall_`, `ts_helmholtz_*` over complex numbers (pairs of reals); spherical functions defined by their derivative recurrence; scaling cancellation by induction | proved | TsProps.v |
| C91 | The parallel loop of target-specific QBX is deterministic and complete | `eval_target_specific_qbx_locals` as threads of elementary steps over thread-local rows, arbitrary interleaving; invariant over pending writes | proved | TsDrvProps.v |
| C92 | Target-specific QBX handles or rejects every order, geometry and wavenumber | same models; a fault / non-finite result for every order beyond the buffers, target at its center, tiny wavenumber | partial | TsDrvProps.v, TsDrvProps2.v |
| C93 | The FMMLIB backend accepts exactly the kernels it can handle | kernels as nested wrappers; the digest loop as a monadic fold; characterised by an independent predicate | proved | FmlProps.v |
| C94 | The FMMLIB backend computes the same potentials as the sumpy backend | expansions as lists of (strength, source, frame); CSR arrays, level views, slices and fancy indexing as lists; induction over levels and centers; equality with FmmModel's drive_fmm | proved | FmlProps.v |
| C95 | The device kernels deliver the full potentials under every schedule | kernels as programs of a small imperative language with private variables and a global array; arbitrary assignment of items to workers and interleaving; disjoint-cells theorem plus a weakest-precondition calculus; equality with FmmModel's drive_fmm | proved | KrnProps.v |
| C96 | Index kernels terminate and build the right tables despite concurrent writes | termination by a lexicographic rank profile; lookup by the disjoint-cells theorem, used centers by a same-value theorem | proved | KrnProps.v |
| C97 | Target association on the device is right under every schedule | the three association kernels as programs on the machine of KrnModel; every launch equals AssocModel's function (constant-write calculus for flags, private-cell calculus for the center finder), then association_correct | proved | AkProps.v |
| C98 | The refiner's device checks flag exactly the violating elements under every schedule | the three checking kernels as programs on the machine of KrnModel (constant-write calculus, loops with break); loops over relational checks equal RefineModel's loops, then the stage theorems | proved | AkProps.v |
| C99 | The device cost model charges every stage center by center under every schedule | the three counting kernels on the machine of KrnModel; each launch equals the vectorised formula of CostModel (any schedule), then C36's counting theorems | proved | DkProps.v |
| C100 | Direct evaluation on the device has one outcome under every schedule | numberer (scan with output statements) and subset kernel on the machine of KrnModel; launches equal FmmModel's direct evaluation for any schedule, then C42's theorems | proved | DkProps.v |
| C101 | The FMM executor on the device, from the request to the named results, has one outcome under every schedule | composition of C95's and C97's launch equalities into the whole executor, which equals FmmModel's exec_fmm for any schedule, then C31's theorems | proved | DkProps.v |
| C102 | The point-to-point evaluator of an array context always fits the request, for sources of one precision | SrcModel.get_p2p: memo dictionary and object identities; invariant (fresh, injective, kept) over histories | proved | SrcProps.v |
| C103 | The point-to-point evaluator fits the request even if sources of different precisions share an array context | same model; a two-call history refutes it | partial | SrcProps.v, SrcProps2.v |
| C104 | The FMM computes in a number type just big enough for its kernels and densities | SrcModel.fmm_dtype, entry_dtype on nested values; case analysis under the grouping invariant | proved | SrcProps.v |
| C105 | The FMM's number type accommodates every density, whatever their order | same model; a two-density instruction refutes it | partial | SrcProps.v, SrcProps2.v |
| C106 | Kernels get exactly the arguments they need, in the order of the sources they see | SrcModel.extra_kwargs, evaluate_kernel_arguments on nested values; relations `reordered`, `flattened` by nested induction | proved | SrcProps.v |
| C107 | Strengths and point-source potentials correspond to densities and outputs one to one | SrcModel.flat_strengths, point_exec; induction over outputs | proved | SrcProps.v |
| C108 | Skeletonization of an operator asks for the right interactions | SkwModel composes make_skeletonization_wrangler, the four evaluate_* methods, proxy generation, neighbor gathering and the skeletonization loop; theorem on the entries of the matrices decomposed for every cluster of every block, from the contract of the cluster builders (blocks of entries). | proved | SkwProps.v, SkwProps2.v |
| C109 | Skeletonization for general targets and sources | Witnesses on SkwModel: different index sets, different target geometry, unstaged auto_where. | partial | SkwProps.v |
| C110 | Reductions, means, integrals and norms are the mathematical ones | RedModel: evaluator of pointwise operations, reductions and discretization properties on arrays of groups of elements over exact complex numbers, pytential.integral and norm on top of it; values as sums/extrema over nodes, norm axioms by Minkowski's inequality. | proved | RedProps.v |
| C111 | The granularity of a DOF descriptor determines the shape of the values | Shapes of results in RedModel; refuted by an element-granular descriptor of ones/coordinates/weights. | partial | RedProps.v, RedProps2.v |
| C112 | Symbolic layer potentials and vector calculus mean the mathematical operators | LpModel.v models the constructors, multivectors, derivative taker and binder function by function; LpSpec.v gives expressions values in an arbitrary differential ring with potentials; the value of each constructed expression is proved equal to the operator by induction over expressions, blades and axes. | proved | LpProps.v |
| C113 | Layer potential constructors reject operands for which they do not mean the operator | Same model; concrete accepted calls whose result is not the operator are exhibited (refutations). | partial | LpProps.v |
| C114 | GMRES converges: linear rate for coercive operators, exact solution in n steps, minimal residual over Krylov spaces | GcrSpec (scalars with conjugation, inner product, Krylov spaces, coercive/definite operators) on top of the C10 model of _gmres; loop invariant: stored images orthonormal and orthogonal to the residual, the residual step bound, and the generated space equals the Krylov space; dimension argument and geometric decay. | proved | GcrProps.v |
| C115 | The Bessel functions of the target-specific Helmholtz expansions are the spherical Bessel functions up to a relative 1.5e-20 | JfModel: the four loops of jfuns3d_ on bounds-checked arrays of complex numbers, both callers with their buffer sizes; JfSpec: the recurrence, Lommel-type polynomials, truncated solution. Loop invariants (downward loop: solution times a product of rescalings; upward loop: the same product for all entries), Casoratian for the accuracy, growth bounds for |z| <= 1. | proved | JfProps.v |
| C116 | The callers of jfuns3d_ return values or report an error, and never write outside of their buffers | Same model: the buffers of the callers have BUFSIZE entries but lwfjs = BUFSIZE lets the routine write BUFSIZE + 2; exact condition for the overflow and three families of witnesses. | partial | JfProps.v |
| C117 | A QBX layer potential source remembers its geometry work without its results depending on what was executed before | QxModel.v: the source's memo dictionaries as a state, a state monad with exceptions and a log; invariant: every memo entry equals the pure function of its key and the log repeats no work; refinement of each method to a pure outcome. | proved | QxProps.v |
| C118 | The geometry data inspector, the warning about unrefined geometries and the cost model see every statement exactly as documented | Same model; the log of a statement is split into warning, set-up, inspector and driver. | proved | QxProps.v |
| C119 | Trees are built from the refined sources, the centers and the targets, and executed statements yield the full potentials | Same model: arguments of the builders in the log; potentials through the theorems of FmmModel/AssocModel. | proved | QxProps.v |
| C120 | A statement that can be evaluated directly can be executed by the FMM | Same model; exact condition for success, and a kernel that is not translation invariant as witness against the natural statement. | partial | QxProps.v |
| C121 | Binding drops interpolations between equal descriptors and nothing else | TagModel.v: the constructor of Interpolation (with the dataclass `__init__` that runs on what `__new__` returned) and the exact taggers; related to the simplified tagger of SymModel.v by structural induction (drop_trivial). | proved | TagProps.v |
| C122 | Expressions made of proper interpolations can be bound | Same model; exact condition for failure, witness against the natural statement. | partial | TagProps.v |
| C123 | Calling a bound expression returns the value of the expression, end to end | BindModel.v composes prepare_expr_exact (SymModel.v, TagModel.v) with compile_and_run (CompModel.v, SchedModel.v) by an encoding of expressions (numbers are positions among the node types that occur). Proof: evaluation of the encoding is node-by-node evaluation, binding keeps operand counts, then C04. | proved | BindProps.v |
| C124 | Binding leaves explicit expressions alone and turns 'avg' into half the sum of the two sides | Same model; every pass is the identity on settled expressions (structural inductions), the limit avg by computation of the passes. | proved | BindProps.v |
| C125 | Waveguide operator: the transverse wave number is the decaying root | WgModel models __init__; the If expression is evaluated in worlds of complex numbers (WgSpec2) and compared with the unique decaying root. | proved | WgProps.v |
| C126 | Waveguide operator: null space and guided modes of one interface | WgModel models operator() as the code builds it; WgSpec states fields, Maxwell's equations, jump relations in an arbitrary world; the rows are shown to be jumps by ring computation in WgProofs, WgProofs2. | proved | WgProps.v |
| C127 | Waveguide operator: every interface gets its equations | Refuted from the operator model: the result after the first iteration is returned. | partial | WgProps.v |
| C128 | Waveguide operator: fields and right-hand side can be obtained | Refuted: attribute lookups of the model fail for every operator the constructor builds. | partial | WgProps.v |
| C129 | The dataflow graph shows exactly the data flow of the scheduled code | DotModel.v models dot_dataflow_graph as a list of node and arrow lines over SchedModel statements (label texts not modelled); exactness, acyclicity by induction on the statement list and the schedule theorems. | proved | DotProps.v |
| C130 | The dataflow graph shows what the result is computed from | DotModel.v; arrows into result as a filter of the graph; counterexample -S(x) by computation. | partial | DotProps.v, DotProps2.v |
| C131 | The default inner product of gmres is an inner product on arbitrarily nested data | VdotModel.v models structured_vdot on nested values; value by induction on the nesting; the values of a layout as a vector space (VdotSpec2.v), Bessel's inequality for the dimension, and the GMRES theorem C114 instantiated. | proved | VdotProps.v |
| C132 | The default inner product accepts what it is documented to accept | VdotModel.v; the exact conditions under which the call succeeds, by case analysis. | partial | VdotProps.v |
| C133 | The direct solver solves the operator equation | LuModel.v models lu and the matrix built from unit vectors; the matrix represents a linear operator by induction on the truncations of a vector; numpy's solver is a parameter with a contract, met by Gaussian elimination (LuProps2.v, induction on the size). | proved | LuProps.v, LuProps2.v, LuProps3.v |
| C134 | Proxy data can be brought to the host and used as places | PxdModel.v models the data with tagged host and device arrays, to_numpy, as_sources and as_targets; direct case analysis, the lookup by induction on the collection. | partial | PxdProps.v |
| C135 | Linear solves can be bound | DispModel.v models the class names, their conversion to snake case, the method tables of all mappers and the lookup along the superclasses; dispatch is decided by computation for each node class, traversals by induction on the tree. pymbolic (its naming rule, its own node handlers) is an assumption, stated in the theorems where it is a predicate. | partial | DispProps.v, DispProps2.v |
| C136 | Every expression can be printed and drawn | DispModel.v: printing and drawing as traversals (no text is modelled); induction on the tree. | partial | DispProps.v |

## 3. Trusted base

* Coq 8.16.1's kernel, including `vm_compute`/`native`-free conversion (some closed
  counterexamples are decided with `vm_compute`, which the kernel re-checks with
  its own VM).
* `Print Assumptions`: every property theorem is "Closed under the global context"
  except those over Coq's standard-library reals:
  `gmres_residuals_never_grow`, `gmres_never_nonmonotonic_exact` (GmresProps) and all
  theorems of `PgGeoProps.v` (`proxy_balls_total`, `proxy_balls_enclose`,
  `qbx_proxy_balls_enclose`, `qbx_proxy_balls_total`, `make_pgen_spec`,
  `make_pgen_rejects`, `radius_in_norm_type_refuted`,
  `radius_factor_checked_refuted`), and the theorems of `GeoProps.v`, `GeoProps2.v`, `GeoProps3.v`, `GeoProps4.v` that evaluate expressions (their value function uses `Rpower`, hence also `Classical_Prop.classic`), and all theorems of `TsProps.v` and `TsDrvProps.v` that mention real numbers (Coquelicot, which adds no axiom of its own; also `Classical_Prop.classic`), and all theorems of `GcrProps.v` and `JfProps.v`. These use the standard library's axioms
  `ClassicalDedekindReals.sig_not_dec`, `ClassicalDedekindReals.sig_forall_dec` and
  `FunctionalExtensionality.functional_extensionality_dep` (and, for the Geo, Red and Ts
  theorems only, `Classical_Prop.classic`). All are axioms of the standard library.
  No axiom is added by this development, no functor or module type is defined.
* The faithfulness of the hand-written model to the Python text. There is no
  extraction and nothing of /repo is run.

### Modelled, by source file

| /repo/pytential | model |
|---|---|
| `symbolic/compiler.py` | SchedModel, CompModel, FmmModel (statement kinds) |
| `symbolic/execution.py` | BindModel (bind and call, end to end), SchedModel, CompModel, CacheModel, CollModel, CostModel, IntlModel, MatModel, MatVecModel, SymModel, RedModel (reductions, properties) |
| `__init__.py` (integral, norm) | RedModel |
| `symbolic/primitives.py` | CtorModel (IntG), CacheModel (hash/eq), SymModel, IntlModel (centers, interleave), ProxyModel, PdeModel (S/D/Sp/Dp, int_g_vec), GeoModel (derivatives, forms, curvature, stretch, radii, tangential vectors, integrals), LpModel (layer potentials, vector calculus) |
| `symbolic/mappers.py` | DispModel (method lookup in every mapper, printing, drawing), SymModel, TagModel (exact taggers), ProxyModel, CompModel, LpModel (derivative taker and binder) |
| `symbolic/matrix.py` | MatModel, MatClModel |
| `symbolic/dof_desc.py`, `dof_connection.py` | DofModel, CollModel, IntlModel |
| `symbolic/pde/scalar.py`, `cahn_hilliard.py`, `beltrami.py`, `symbolic/stokes.py` | PdeModel |
| `symbolic/pde/maxwell/__init__.py` | MaxModel |
| `symbolic/pde/maxwell/waveguide.py` | WgModel |
| `symbolic/compiler.py` 327-415 (`dot_dataflow_graph`, `Code.statements`) | DotModel (label texts and multivector results not modelled) |
| `symbolic/pde/maxwell/generalized_debye.py` | not modelled: dead code; the module imports nothing, and its functions refer to undefined names (`cse`, `S`, `IntGdSource`, ...), so every operator or representation call raises NameError |
| `collection.py` | CollModel, CacheModel |
| `source.py`, `unregularized.py` | SrcModel, UnregModel, CopyModel, SymModel |
| `qbx/__init__.py` | CopyModel, CostModel, FmmModel, QxModel, FmlModel; on the device: DkModel |
| `qbx/geometry.py`, `interactions.py`, `fmm.py`, `direct.py` | FmmModel, QxModel, IntlModel; device kernels: KrnModel, DkModel |
| `qbx/target_specific/impl.pyx`, `helmholtz_utils.c` (`h3d01_`, `h3dall_`) | TsModel, TsDrvModel |
| `helmholtz_utils.c` (`jfuns3d_`), `impl.pyx` (`jfuns3d_wrapper`, `ts_helmholtz_precompute`) | JfModel |
| `qbx/fmmlib.py` | FmlModel |
| `qbx/refinement.py`, `utils.py` | RefineModel, CollModel, AssocModel; device kernels: AkModel |
| `qbx/target_assoc.py` | AssocModel; device kernels: AkModel |
| `qbx/cost.py` | CostModel; device kernels: DkModel |
| `linalg/gmres.py` | GmresModel, VdotModel (default inner product), LuModel (lu), MatVecModel (convergence: GcrSpec, GcrProofs*, GcrProps) |
| `linalg/proxy.py` | PgModel, PgGeoModel, PxdModel (to_numpy, as_sources, as_targets) |
| `linalg/skeletonization.py` | SkModel, SkwModel (wrangler) |
| `linalg/direct_solver_symbolic.py` | ProxyModel |
| `linalg/utils.py`, `utils.py` | IndexModel |
| `muller.py` | MullerModel |

### Not modelled

* Floating-point rounding: numbers are an arbitrary commutative ring, a field,
  exact rationals or Coq's reals; NaN only where a property is about it (C12, C39).
* `log.py`, `version.py`, `array_context.py` (device plumbing), `pde/maxwell/generalized_debye.py` (imports nothing it uses), `old_diffop_primitives.py`, `target.py`.
* The bodies of meshmode, boxtree, sumpy, pymbolic, scipy, loopy, pyopencl: they
  appear as parameters with stated contracts.
* Truncation error of expansions and quadrature error: potentials are exact
  linear functionals of their densities.
* Python object identity, mutation through aliases (except where a property is
  about it: C06, C24), memory exhaustion, threads.

## 4. Findings

The `_refuted` theorems are machine-checked witnesses that the code as pinned
violates a natural reading of its documentation:

* C05 (User variable names cannot be captured by compiler temporaries): full property refuted (name capture of _exprN and CSE prefixes); renaming invariance proved when no old or new name is a possible temporary — `user_names_captured_refuted`.
* C06 (Evaluation leaves the caller's context dictionary usable): The property is false of the code: execute() deletes dead inputs from the caller's dict, so BoundExpression.eval cannot be repeated with the same dict. The exact effect on the dict is proved — `eval_context_reuse_refuted`.
* C07 (Long-lived common-subexpression caches are transparent): stated property (closed long-lived subexpressions) fully proved for all histories; without the free-variable restriction refuted — `cse_caches_transparent_refuted`.
* C08 (Layer-potential equality distinguishes the forced limit): full property refuted (hash(-1)==hash(-2)); equivalence relation, hash consistency and exactness without -1 proved — `forced_limit_distinguished_refuted`, `forced_limit_compile_refuted`.
* C09 (IntG construction validates its arguments): full statement; extra finding: length mismatch of densities/source kernels is not rejected — `intg_lengths_checked_refuted`.
* C11 (GMRES bookkeeping is bounded and complete): iteration_count + 1 history entries except at 'max iterations' (maxiter entries, count maxiter-1); restart=0 gives IndexError; stall window is one shorter than documented; a run out of iterations may return the exact solution with success=False — `gmres_failure_means_large_residual_refuted`.
* C13 (Index lists partition their indices): only the last start is validated: improper starts are accepted (refuted part) — `index_list_partition_refuted`.
* C14 (Flattened cluster blocks are laid out consistently): for every schedule of the kernel's writes; flat_cluster_take does not validate negative cluster numbers — `flat_cluster_take_bounds_refuted`.
* C15 (sort_arrays_together keeps rows together): empty arrays lose their number — `sort_arrays_together_empty_refuted`.
* C19 (Unregularized preprocessing affects only its own source): false of the code: the preprocessor ignores its own geometry; the exact behaviour is proved — `unregularized_only_own_source_refuted`.
* C43 (GMRES solves nonsingular systems): false of the code for operators that are merely invertible (rotation by 90 degrees); exact for operators with <u,Au> <> 0 (C114) — `gmres_solves_nonsingular_refuted`.
* C44 (Default markers and partial locations are resolved as written): false of the code; witnesses proved; the positive part is C17 — `binding_keeps_stages_refuted`, `binding_replaces_markers_refuted`.
* C45 (No averaged limit survives binding): False with two QBX sources; true with one. averages_left_iff: the exact condition for any places (an average survives iff no place is unregularized and its source is not a QBX source of the collection or it is inside of an argument of a potential with another source); no_average_left: the property when no such nesting occurs — `multi_source_no_average_left_refuted`.
* C46 (Upsampling is complete and type-correct for every expression): false of the code; the positive part is C20 — `upsampling_complete_refuted`, `upsampling_preserves_locations_refuted`, `upsampling_terminates_refuted`.
* C47 (Derivatives of solutions of integral equations): false of the code: solutions with constant right-hand side count as constant (About the method map_inverse itself; C135: with pymbolic's default method names it is not reached.) — `derivative_of_solution_refuted`.
* C48 (Proxy preparation is complete for all expressions): false of the code in each part; witnesses proved; the positive part is C40 — `proxy_only_potentials_refuted`, `proxy_strips_every_potential_refuted`, `proxy_density_locations_refuted`, `proxy_directional_target_refuted`.
* C49 (The not-converged warning means a violated criterion): false of the code: the final mesh is never checked after the last round; warning_means_rounds_used says exactly what the warning means and that one more round decides — `warning_means_violation_refuted`.
* C50 (A single target geometry makes a collection): false of the code: every single TargetBase raises (AssertionError) — `single_target_accepted_refuted`.
* C51 (A tuple of places registers both geometries): false of the code when both defaults name the same geometry; true otherwise — `tuple_source_registered_refuted`.
* C52 (Connections from an unstaged descriptor start at its discretization): false of the code: the links start at the unrefined density discretization — `unstaged_connections_refuted`.
* C53 (Every failing target leads to the documented exception and flags all elements near it): The code indexes tree-order coordinates with user_source_ids; holds when the two orders agree on the sources, refuted otherwise (AssertionError raised, element not flagged) — `failure_reported_refuted`.
* C56 (Documented success/failure of forced and optional limits): REFUTED for the FMM path by counterexamples; the direct path does fail for +-1 without center (forced_limit_direct_partial). Exact conditions for both paths: fmm_succeeds, direct_succeeds; what the values are: fmm_outputs, direct_outputs — `optional_limit_succeeds_refuted`, `forced_limit_fails_refuted`.
* C58 (Unregularized FMM accepts layer potential sources as targets): REFUTED: AttributeError in the FMM path (get_geometry instead of get_target_or_discretization); unreg_fmm_succeeds_only says which targets the FMM path accepts — `unreg_lpot_target_refuted`.
* C59 (scipy_op supports scalar components): REFUTED: _prepare_domains turns None into a descriptor, so no operator has a scalar component and None raises — `scalar_components_refuted`, `none_domain_raises_refuted`.
* C60 (Object-array operators get object-array arguments): proved for n >= 2, REFUTED for n = 1 (the bare component is passed) — `obj_array_argument_refuted`.
* C61 (An iterative inverse evaluates to the solution): REFUTED: the value is gmres's result record; its solution attribute does solve the equation (About the method map_inverse itself; C135: with pymbolic's default method names it is not reached.) — `inverse_value_refuted`.
* C63 (No silently wrong matrix): true for the class of C33; the refuted theorems give four classes of expressions for which the code returns a wrong matrix silently — `powers_of_inputs_accepted_refuted`, `quotients_by_vectors_refuted`, `products_of_inputs_refuted`, `context_coefficients_dropped_refuted`.
* C64 (Linear operators have a matrix): true for combinations with number or node coefficients; the refuted theorems give linear expressions the code refuses; matrix_finds_methods_iff: the builders have methods for coordinates, reference derivatives, potentials and (dense) interpolations only — `unused_inputs_refuted`, `mixed_coefficients_refuted`, `interpolated_coefficients_refuted`, `derivatives_of_inputs_refuted`, `weighted_operators_refuted`.
* C66 (Cluster builders refuse what the dense builder refuses): true for the class of C65; refuted otherwise: nonlinear and affine densities are accepted silently, nodal coefficients raise AttributeError, vectors of the block's size are mistaken for blocks — `cluster_affine_density_refuted`, `cluster_product_density_refuted`, `cluster_function_density_refuted`, `cluster_accepts_nonlinear_refuted`, `cluster_nodal_coefficient_refuted`, `cluster_vector_taken_for_block_refuted`.
* C67 (Copies lose nothing): true for QBX sources and truthy overrides (C35); refuted: unregularized copies drop the expansion factory and ignore fmm_level_to_order=False, QBX copies ignore a leaf weight of zero — `unreg_copy_drops_factory_refuted`, `unreg_copy_fmm_off_ignored_refuted`, `copy_zero_leaf_weight_ignored_refuted`.
* C68 (Costs are reported for executed statements): Refuted: the mapper never stores a cost, so the report is always empty; and it looks parameters up by target kernels while they are stored by source kernels. cost_run_succeeds_iff_partial: exactly when a run succeeds — `cost_report_is_empty_refuted`, `calibration_lookup_fails_refuted`.
* C71 (Documented limits of proxy generation are enforced): the code violates each of these; witnesses are proved — `plain_partition_only_curves_refuted`, `plain_partition_max_particles_refuted`, `plain_partition_nonempty_refuted`, `neighbors_outside_own_cluster_refuted`, `radius_in_norm_type_refuted`, `radius_factor_checked_refuted`.
* C73 (Limits of skeletonization): The property is violated by the code: the refuted theorems are the witnesses. Proved besides: exactly when skeletonization succeeds, and that both sides have the rank of the target decomposition, whatever the sources — `isolated_cluster_refuted`, `source_tolerance_refuted`, `clamped_rank_refuted`, `scipy_version_refuted`.
* C76 (Documented uses of the PDE operators that do not work): Refuted: witnesses that the code does not do this (PdeProps2-4.v) — `dirichlet_kwargs_passed_on_refuted`, `neumann_weighted_improved_refuted`, `neumann_default_options_refuted`, `neumann_representation_density_on_source_refuted`, `prepare_rhs_matches_operator_refuted`, `plate_normals_of_source_refuted`, `ch_inherited_methods_refuted`, `beltrami_kwargs_refuted`.
* C83 (The maximal curvature is a property of the surface): The code applies the symmetric eigenvalue formula to the shape operator's matrix, which is symmetric only in special parametrizations: right for curves and for symmetric matrices, wrong on a sheared parabolic cylinder ((1+sqrt 5)/2 instead of 1) — `surface_max_curvature_refuted`, `max_curvature_parametrization_invariance_refuted`.
* C84 (Reference derivatives name existing axes): Only order and uniqueness of the axes are checked; (-1, -5) is accepted — `derivative_axes_are_axes_refuted`.
* C86 (The Mueller representation evaluates the solved fields): representation uses i k eps and -i k mu where operator uses i omega mu eps; exactly right iff the coefficients agree on the potentials (mueller_representation_iff); refuted for epsilon 4, mu 1 — `mueller_representation_is_maxwell_field_refuted`.
* C92 (Target-specific QBX handles or rejects every order, geometry and wavenumber): the code violates it: order >= 64 writes out of bounds, a target at its center gives nan, |k||s-c| < 1e-15 writes through NULL (potential, gradient) or returns zero for every dipole (double layer); the handled_iff theorems give the exact conditions under which each of the six routines computes finite values — `tsqbx_any_order_refuted`, `tsqbx_target_at_center_refuted`, `tsqbx_tiny_wavenumber_refuted`, `tsqbx_tiny_wavenumber_double_layer_refuted`.
* C103 (The point-to-point evaluator fits the request even if sources of different precisions share an array context): False of the code: the cache key leaves out the source's precision, so after a single-precision source requested the same kernels a double-precision source is handed a single-precision evaluator; proved for the first request for given kernels — `p2p_mixed_precision_refuted`.
* C105 (The FMM's number type accommodates every density, whatever their order): False of the code: only the first density's type is looked at, so a real density followed by a complex one makes the FMM compute in real numbers; proved: the type is right for the first density — `fmm_dtype_mixed_refuted`.
* C109 (Skeletonization for general targets and sources): Refuted as stated; C108 is the part that holds — `different_index_sets_refuted`, `target_geometry_refuted`, `default_stage_refuted`.
* C111 (The granularity of a DOF descriptor determines the shape of the values): Refuted for ones, coordinates and weights, which ignore the granularity — `property_granularity_refuted`.
* C113 (Layer potential constructors reject operands for which they do not mean the operator): The code violates this: the refuted theorems are witnesses; the others (also listed for C112) are the cases in which the operator is what it says — `direction_replaces_normal_refuted`, `direction_argument_dropped_refuted`, `inner_direction_replaced_refuted`, `argument_given_twice_refuted`, `tangential_derivative_of_a_surface_refuted`, `curve_in_space_refuted`, `wrong_ambient_dim_refuted`.
* C116 (The callers of jfuns3d_ return values or report an error, and never write outside of their buffers): False of the code: lwfjs = BUFSIZE is passed with buffers of BUFSIZE entries, but entries 0..lwfjs+1 may be written. jfuns3d_wrapper_overflow_partial is the exact condition; every |z| >= 127 and every order >= 63 overflows, and the error is never reported. C115 has the range in which it holds (|z| <= 1, order <= 53) — `jfuns3d_wrapper_order_refuted`, `jfuns3d_wrapper_large_refuted`, `jfuns3d_wrapper_unreported_refuted`, `precompute_order_63_refuted`.
* C120 (A statement that can be evaluated directly can be executed by the FMM): False of the code: fmm.py 155-165 uses the name traversal unbound for kernels that are not translation invariant (noninvariant_kernel_refuted). fmm_statement_executes says exactly when the FMM executes a statement — `noninvariant_kernel_refuted`.
* C122 (Expressions made of proper interpolations can be bound): False of the code: __new__ returns the operand, Python then calls __init__ on it because it is an Interpolation, and it becomes its own operand; binding_fails_iff_stacked is the exact condition — `nested_interpolation_refuted`.
* C127 (Waveguide operator: every interface gets its equations): Refuted: the return statement of operator() stands inside the loop, so all rows of all interfaces but the first are zero, and without interfaces the result is None — `wg_operator_other_interfaces_refuted`, `wg_operator_no_interfaces_refuted`.
* C128 (Waveguide operator: fields and right-hand side can be obtained): Refuted: representation() reads self.k_vacuum, which is never set, and fails in diff_axis if somebody sets it; the inherited weighting methods read self.use_l2_weighting, which this constructor never sets — `wg_representation_refuted`, `wg_representation_with_k_vacuum_refuted`, `wg_weighting_refuted`.
* C130 (The dataflow graph shows what the result is computed from): Refuted: for -S(x) the result reads the potential but is drawn as coming from 'initial' only (get_orig_node looks at plain variables only). Proved: one arrow per entry of the result, from the assigning statement when the entry is a variable; dataflow_path_to_result_iff is the exact condition for a path, and dataflow_result_complete the case (every entry a variable) in which the property holds — `dataflow_result_refuted`.
* C132 (The default inner product accepts what it is documented to accept): Refuted: numbers of different types raise TypeError; object arrays without array context raise ValueError whatever they hold, and (as actx.np.vdot is modelled: it refuses what is not a device array) object arrays with host numbers or arrays never succeed; ResidualPrinter() without inner product works exactly for numbers and numpy arrays (residual_printer_refuted is the exact condition) — `vdot_mixed_scalars_refuted`, `vdot_object_arrays_refuted`, `residual_printer_refuted`.
* C134 (Proxy data can be brought to the host and used as places): Refuted: to_numpy passes cluster_radii on unconverted. Proved: points, centers and radii are converted with their values, everything else is unchanged; as_sources and as_targets exactly — `proxies_to_numpy_refuted`.
* C135 (Linear solves can be bound): Refuted: no mapper has map_iterative_inverse; exact: methods are found exactly if no linear solve occurs. Rests on pymbolic's rule for mapper_method (DispModel.v). The models of map_inverse (C47, C61 and the taggers) say what these methods do when called — `no_method_for_solutions_refuted`, `solutions_cannot_be_bound_refuted`.
* C136 (Every expression can be printed and drawn): Refuted for drawing; both exact conditions proved — `drawing_refuted`.

## 5. Mutation tests

`seeded/LOG.jsonl` records every wrong program tried: the model definition edited,
the edit, the claim it breaks, the first theorems that failed and what was tightened.
