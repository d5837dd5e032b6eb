{"id": "C01", "title": "Scheduled statements only read values that exist", "statement": "In the schedule of compiled code, every statement occurs exactly once (when the data-flow is acyclic and every intermediate has a producer), only statements of the program occur, and each statement runs only after every variable it depends on has been produced by an earlier statement or is an input, and has not been freed since. Among the statements ready at that moment the first one of maximal priority is taken. Scheduling always terminates.", "quantifier": "every finite list of statements with arbitrary dependencies, assignees and priorities, every result expression", "why_tests_cant": "the greedy loop's behaviour depends on the whole dependency graph and priorities; tests only see a few graphs", "anchors": ["pytential/symbolic/compiler.py:_get_next_step", "pytential/symbolic/compiler.py:_compute_schedule"]}
{"id": "C02", "title": "Intermediates are freed exactly when dead", "statement": "A value scheduled to be discarded before a step is needed by no remaining step and is not part of the result; conversely, at every step every available value that no remaining statement needs and that is not part of the result is discarded, and no value is discarded while unavailable. Hence deleting it from the evaluation context never raises KeyError.", "quantifier": "every statement list, every point of the schedule", "why_tests_cant": "liveness is a property of the whole remaining program at each step", "anchors": ["pytential/symbolic/compiler.py:_get_next_step", "pytential/symbolic/execution.py:execute"]}
{"id": "C03", "title": "Executing the schedule computes the program's meaning", "statement": "If every input is supplied, every statement of the program is schedulable and no intermediate has the name of another intermediate or of an input, then evaluation returns the value of the result expression under the unique solution of the system of equations 'assignee = statement(operands)', independently of the order chosen and of the discards; if some required input is missing a ValueError naming an input is raised before any statement is executed.", "quantifier": "all programs in single-assignment form, all input values, all statement semantics that read only their declared dependencies", "why_tests_cant": "order and deletion independence ranges over all programs and schedules", "anchors": ["pytential/symbolic/execution.py:execute", "pytential/symbolic/execution.py:BoundExpression.eval"]}
{"id": "C04", "title": "bind-and-evaluate equals mathematical evaluation", "statement": "Compiling an expression (common subexpressions, sums, products, functions, nested layer potentials grouped into joint evaluations) and executing the compiled code yields the same value as evaluating the expression directly node by node, provided no user variable's name coincides with a name the compiler generates (_exprN or a CSE prefix with optional _N suffix) and the expression does not mix two layer potentials that differ only in qbx_forced_limit -1 versus -2.", "quantifier": "all expressions of the modelled grammar, any nesting and sharing, all input environments", "why_tests_cant": "the input space is all expression trees; sharing/grouping bugs show only for particular combinations", "anchors": ["pytential/symbolic/compiler.py:OperatorCompiler", "pytential/symbolic/execution.py:execute"]}
{"id": "C05", "title": "User variable names cannot be captured by compiler temporaries", "statement": "The result of evaluating a bound expression does not depend on how the user names the input variables: renaming an input consistently does not change the result.", "quantifier": "all expressions and all choices of input names", "why_tests_cant": "only specific names (_expr0, a CSE prefix) trigger capture", "anchors": ["pytential/symbolic/compiler.py:OperatorCompiler.get_var_name", "pytential/symbolic/compiler.py:Assign.get_dependencies"]}
{"id": "C06", "title": "Evaluation leaves the caller's context dictionary usable", "statement": "BoundExpression.eval(context) does not alter the dictionary passed by the caller, so evaluating twice with the same dictionary gives the same result.", "quantifier": "all compiled programs and contexts", "why_tests_cant": "depends on which variables the schedule discards", "anchors": ["pytential/symbolic/execution.py:BoundExpression.eval", "pytential/symbolic/execution.py:execute"]}
{"id": "C07", "title": "Long-lived common-subexpression caches are transparent", "statement": "Evaluating common subexpressions with scope EXPRESSION or DISCRETIZATION through the caches gives, for every history of earlier evaluations with arbitrary arguments, the value of the uncached evaluation, provided the cached subexpressions contain no free variables; a subexpression is evaluated at most once per cache; EVALUATION scope is never cached; caches never lose or change an entry.", "quantifier": "all histories of evaluations (all argument bindings), all expressions", "why_tests_cant": "staleness depends on unbounded evaluation histories", "anchors": ["pytential/symbolic/execution.py:EvaluationMapperBase.map_common_subexpression", "pytential/symbolic/execution.py:BoundExpression._get_cache", "pytential/collection.py:GeometryCollection._get_cache"]}
{"id": "C08", "title": "Layer-potential equality distinguishes the forced limit", "statement": "Two IntG nodes compare equal exactly when kernels, densities, limits, source, target and kernel arguments agree; equal nodes have equal hashes; equality is an equivalence relation.", "quantifier": "all pairs of IntG nodes, all tuple-hash mixing functions", "why_tests_cant": "a conflation only shows for operand pairs whose hashes collide", "anchors": ["pytential/symbolic/primitives.py:IntG.__eq__", "pytential/symbolic/primitives.py:IntG.__hash__"]}
{"id": "C09", "title": "IntG construction validates its arguments", "statement": "Constructing an IntG succeeds exactly when the limit is one of -2,-1,1,2,'avg',None, all source kernels and the target kernel share a base kernel, and the supplied kernel argument names are exactly the names the kernels require; keyword arguments clashing with kernel_arguments are rejected; missing source/target default to the default descriptor.", "quantifier": "all kernels, argument dictionaries and limits", "why_tests_cant": "combinatorial argument space", "anchors": ["pytential/symbolic/primitives.py:IntG.__init__", "pytential/symbolic/primitives.py:IntG.__post_init__"]}
{"id": "C10", "title": "GMRES reports success only with a true small residual", "statement": "In exact arithmetic, when GMRES reports success the returned solution x satisfies ||b - A x|| = 0 or < tol * ||b||, for any linear operator A, any initial guess and restart length; throughout the iteration the tracked residual equals b - A x and every tracked image vector is A applied to its direction.", "quantifier": "all vector spaces, linear operators, right-hand sides, guesses, tolerances, restart lengths >= 1, iteration histories", "why_tests_cant": "unbounded iteration and arbitrary operators", "anchors": ["pytential/linalg/gmres.py:_gmres"]}
{"id": "C11", "title": "GMRES bookkeeping is bounded and complete", "statement": "GMRES applies at most maxiter iterations, the residual history has one entry per residual check (iteration_count + 1), the iteration count in the result is the number of the last iteration, every non-success outcome carries one of the documented states, and with hard_failure the non-success outcomes raise instead of returning.", "quantifier": "all operators, parameters and histories", "why_tests_cant": "stall/non-monotone outcomes depend on long residual histories", "anchors": ["pytential/linalg/gmres.py:_gmres", "pytential/linalg/gmres.py:GMRESResult"]}
{"id": "C12", "title": "Muller's method bounds its work and validates its answer", "statement": "muller evaluates f at most maxiter + 3 times and returns a root only if the stopping criterion on successive iterates held; otherwise it raises. muller_deflate returns exactly the requested number of roots, evaluating a function divided by the product of distances to the roots found before, and never returns a NaN root.", "quantifier": "all functions f, starting points, tolerances", "why_tests_cant": "iteration over arbitrary functions", "anchors": ["pytential/muller.py:muller", "pytential/muller.py:muller_deflate"]}
{"id": "C13", "title": "Index lists partition their indices", "statement": "make_index_list from per-cluster arrays yields starts that are the prefix sums of the cluster sizes; cluster i of the result is exactly the i-th given array; the number of clusters is len(starts)-1; concatenating all clusters gives back all indices; inconsistent starts (last start differs from the number of indices) and out-of-range cluster numbers are rejected.", "quantifier": "all numbers and sizes of clusters including empty ones", "why_tests_cant": "arbitrary cluster sizes", "anchors": ["pytential/linalg/utils.py:make_index_list", "pytential/linalg/utils.py:IndexList"]}
{"id": "C14", "title": "Flattened cluster blocks are laid out consistently", "statement": "For a target/source cluster list, the flat index pairs produced for all diagonal blocks enumerate every (target, source) pair of each cluster exactly once in row-major order at the offset recorded for the cluster, so taking block i out of the flat array and reshaping gives A[targets_i, sources_i]; building the block-diagonal object and reading a block back is the identity; block shapes and sizes multiply correctly; total size is the sum of the block sizes.", "quantifier": "all cluster lists and all matrices", "why_tests_cant": "offset arithmetic over arbitrary cluster sizes", "anchors": ["pytential/linalg/utils.py:TargetAndSourceClusterList", "pytential/linalg/utils.py:make_index_cluster_cartesian_product", "pytential/linalg/utils.py:make_flat_cluster_diag"]}
{"id": "C15", "title": "sort_arrays_together keeps rows together", "statement": "sort_arrays_together returns the arrays permuted by one common permutation that sorts the rows (the tuples of corresponding entries) by the key applied to the row, or by the rows themselves without a key; rows with equal keys keep their order; the multiset of rows is unchanged; arrays of unequal length are rejected.", "quantifier": "all lists of equal length and key functions into a total order", "why_tests_cant": "all inputs", "anchors": ["pytential/utils.py:sort_arrays_together"]}
{"id": "C16", "title": "DOF descriptors behave as values", "statement": "as_dofdesc maps None, stage and granularity markers, geometry identifiers and descriptors to a descriptor, never fails and is idempotent; to_stage1/to_stage2/to_quad_stage2 change only the stage; copy() keeps what is not given, and taking over the geometry of another descriptor also takes over its stage; descriptors are equal iff geometry, stage and granularity are equal, and equal descriptors hash equally; the constructor raises ValueError exactly for invalid stages and granularities.", "quantifier": "all geometry identifiers, stages, granularities", "why_tests_cant": "full cross product and chains of copies", "anchors": ["pytential/symbolic/dof_desc.py:DOFDescriptor", "pytential/symbolic/dof_desc.py:as_dofdesc"]}
{"id": "C17", "title": "Binding resolves every unspecified location", "statement": "After binding, no node of the expression refers to an unspecified geometry: targets of layer potentials and quantities outside any layer potential get the default target, densities, kernel arguments and sources the default source; locations with an explicitly given geometry are kept unchanged; granularities, node types and operands are kept; tagging twice is the same as tagging once.", "quantifier": "all expressions and default locations", "why_tests_cant": "all nesting patterns", "anchors": ["pytential/symbolic/mappers.py:LocationTagger", "pytential/symbolic/mappers.py:ToTargetTagger"]}
{"id": "C18", "title": "QBX limits are averaged and validated", "statement": "Preprocessing for a QBX source replaces each layer potential with limit 'avg' on that source (not hidden inside a layer potential of another source) by the average of its +1 and -1 one-sided values and otherwise preserves the value of the expression; it succeeds iff every such layer potential has a legal limit (avg, +-1 on its own surface, None, +-2 elsewhere) and raises ValueError otherwise; afterwards each is one-sided on its own surface; expressions without layer potentials on that source are unchanged; with a single source no 'avg' is left after binding.", "quantifier": "all expressions with any nesting of layer potentials over any set of geometries", "why_tests_cant": "nesting across several geometries", "anchors": ["pytential/symbolic/mappers.py:QBXPreprocessor"]}
{"id": "C19", "title": "Unregularized preprocessing affects only its own source", "statement": "Preprocessing for one unregularized source removes the forced limits of layer potentials on that source only and does not reject or change layer potentials of other sources.", "quantifier": "all expressions over several geometries", "why_tests_cant": "multi-geometry combinations", "anchors": ["pytential/symbolic/mappers.py:UnregularizedPreprocessor", "pytential/unregularized.py:UnregularizedLayerPotentialSource.preprocess_optemplate"]}
{"id": "C20", "title": "Densities are upsampled to the quadrature discretization", "statement": "For every QBX layer potential without explicit source stage, binding makes the source stage QUAD_STAGE2, wraps each density in an interpolation from stage 1 to QUAD_STAGE2 and evaluates kernel arguments on stage 2 then interpolates; layer potentials with an explicit source stage and non-QBX sources keep their source and operands; nothing but stages and interpolations changes; if kernel arguments are geometric quantities, every operation still gets its operands on the discretization it expects and the values stay where they were; if no layer potential is nested in one that is not upsampled, no QBX layer potential with unset stage is left; it terminates, with KeyError or ValueError as only errors.", "quantifier": "all expressions", "why_tests_cant": "nesting patterns", "anchors": ["pytential/symbolic/mappers.py:InterpolationPreprocessor", "pytential/symbolic/mappers.py:DiscretizationStageTagger"]}
{"id": "C21", "title": "Symbolic target derivatives are linear and complete", "statement": "For expressions without solution operators, the symbolic target derivative denotes the derivative (in every commutative ring with derivations in which axis-derivative kernels mean derivatives): it distributes over sums, pulls out spatially constant factors and differentiates the kernel of layer potentials; it succeeds on every linear combination of layer potentials and raises on products with more than one spatially varying factor.", "quantifier": "all expressions and axes", "why_tests_cant": "all expression trees", "anchors": ["pytential/symbolic/mappers.py:DerivativeTaker", "pytential/symbolic/mappers.py:_IsSpatiallyVarying"]}
{"id": "C22", "title": "Geometry collections validate and resolve their places", "statement": "Constructing a GeometryCollection succeeds exactly if the places argument is one of: a single layer potential source, point source or discretization; a tuple of two geometries; a mapping - and the resulting mapping contains the default source and target, all string names are valid identifiers, all values are sources, targets or discretizations and all ambient dimensions agree; otherwise it raises the error of the first failed check (ValueError, TypeError, RuntimeError, AssertionError) and creates nothing. The new collection holds exactly that mapping, and looking up a descriptor returns the geometry registered under its name or raises KeyError.", "quantifier": "all argument shapes, mappings, auto_where values and prior histories", "why_tests_cant": "all mappings", "anchors": ["pytential/collection.py:GeometryCollection.__init__", "pytential/collection.py:GeometryCollection.get_geometry"]}
{"id": "C23", "title": "Refinement happens at most once per geometry and stage", "statement": "For every sequence of requests (stages in any order, for any geometries, with failures in between), the discretization returned for a given geometry and stage is always the same one, the stage refinement is computed at most once successfully, a discretization is cached iff its connection is, and the cached connections compose: stage1 starts at the source's own density discretization, stage2 at the stage-1 discretization, quad stage 2 at the stage-2 discretization.", "quantifier": "all request histories over all geometries including failing refinements", "why_tests_cant": "unbounded histories with failure points", "anchors": ["pytential/collection.py:GeometryCollection._get_qbx_discretization", "pytential/collection.py:GeometryCollection.get_discretization", "pytential/collection.py:GeometryCollection._add_discr_to_cache", "pytential/qbx/refinement.py:_refine_for_global_qbx"]}
{"id": "C24", "title": "Extending a collection never disturbs the original", "statement": "add_geometry_to_collection, copy and merge return a collection that has the old places plus the new ones, reject names that already exist or unsupported geometry types, keep (only) the documented caches, and leave the original collection's places and caches unchanged.", "quantifier": "all collections, caches and additions", "why_tests_cant": "all cache contents and histories", "anchors": ["pytential/collection.py:add_geometry_to_collection", "pytential/collection.py:GeometryCollection.copy", "pytential/collection.py:GeometryCollection.merge"]}
{"id": "C25", "title": "Connections between DOF descriptors compose correctly", "statement": "connection_from_dds rejects every unsupported pair of descriptors (different geometries, non-node granularities, different stages unless the geometry is a QBX source and the target stage is quad stage 2) with ValueError and otherwise returns a chain starting at the discretization of the from-descriptor; if the from-descriptor names a stage, the chain ends at the discretization of the to-descriptor and all consecutive links match; it fails otherwise only for unknown geometries, failing refinement or non-discretizations.", "quantifier": "all pairs of descriptors, collections and histories", "why_tests_cant": "full cross product of stages x granularities x geometry kinds", "anchors": ["pytential/symbolic/dof_connection.py:connection_from_dds"]}
{"id": "C26", "title": "Refinement loops terminate and establish their criteria", "statement": "Stage-1 and stage-2 refinement perform at most maxiter rounds; if they finish without the 'violated' warning, the final discretization satisfies every checked criterion; the returned connection maps the initial discretization to the returned one; with refinement disabled the mesh is returned unrefined; with the error-on-refinement flag a violated criterion raises and nothing is refined.", "quantifier": "all criteria, meshes, refinement behaviours, maxiter and flags", "why_tests_cant": "unbounded loops with arbitrary oracles", "anchors": ["pytential/qbx/refinement.py:_refine_qbx_stage1", "pytential/qbx/refinement.py:_refine_qbx_stage2", "pytential/qbx/refinement.py:_refine_qbx_quad_stage2"]}
{"id": "C27", "title": "Each target is associated with an admissible nearest center", "statement": "Whatever the tree, the box queries and the order of work items (as long as tree and queries meet their contract): if association succeeds, exactly the targets within the tunnel radius of some source node get a center, that center lies on an allowed side and within its radius times (1 + tolerance), has minimal relative distance among the admissible centers of its side, and is not farther than the best one of the other side. If every close target has an admissible center (and side arrays have the right length), association succeeds. Without ties the result is the same for all trees, queries and work-item orders.", "quantifier": "all geometric configurations, side preferences, tree partitions", "why_tests_cant": "continuum of configurations; fold over arbitrary lists", "anchors": ["pytential/qbx/target_assoc.py:QBX_CENTER_FINDER", "pytential/qbx/target_assoc.py:TargetAssociationWrangler", "pytential/qbx/target_assoc.py:associate_targets_to_qbx_centers"]}
{"id": "C28", "title": "A failed association reports exactly the failing targets and only nearby elements", "statement": "When QBXTargetAssociationFailedError is raised, failed_target_flags marks exactly the targets that are close to the source and have no admissible center, there is at least one, and refine_flags marks at least one element and only elements (in element numbering of the discretization) having a node whose tunnel contains a failing target.", "quantifier": "all trees (source permutations) and failing sets", "why_tests_cant": "permutation errors are invisible when the permutation is trivial", "anchors": ["pytential/qbx/target_assoc.py:TargetAssociationWrangler.mark_elements_for_refinement"]}
{"id": "C29", "title": "Target bookkeeping is a partition", "statement": "The combined target array of a QBX evaluation consists of all QBX centers followed by each target set in order; the slice recorded for a target set contains exactly its points; side preferences are 0 on the centers and constant on each slice; each distinct (target, limit) pair of the outputs appears once, with the points and the side of that pair.", "quantifier": "all lists of outputs, target sets, sizes and limits", "why_tests_cant": "all sizes and output lists", "anchors": ["pytential/qbx/geometry.py:QBXFMMGeometryData.target_info", "pytential/qbx/geometry.py:QBXFMMGeometryData.target_side_preferences", "pytential/qbx/__init__.py:QBXLayerPotentialSource.get_target_discrs_and_qbx_sides"]}
{"id": "C30", "title": "Center/target incidence lists are exact inverses", "statement": "The list of centers that need an expansion contains exactly the centers used by some target, in increasing order without repetition; the center-to-targets lists invert the target-to-center map (every associated target appears once, under its own center, no other target appears); the list of non-QBX targets is the complement.", "quantifier": "all association vectors, all sizes", "why_tests_cant": "scan/compaction over arbitrary arrays", "anchors": ["pytential/qbx/geometry.py:QBXFMMGeometryData.global_qbx_centers", "pytential/qbx/geometry.py:QBXFMMGeometryData.center_to_tree_targets", "pytential/qbx/geometry.py:QBXFMMGeometryData.non_qbx_box_target_lists"]}
{"id": "C31", "title": "FMM results land at the right target", "statement": "In the global-QBX FMM every non-center target receives the potential of every source exactly once with that source's own strength, all of it through its associated center iff it has one and without expansions about centers otherwise; every output of an instruction gets, under its own name, the values of its own kernel at its own target points in order; the evaluation succeeds exactly if every target name resolves, kernels exist and no target point fails association.", "quantifier": "all trees and traversals meeting boxtree's contract, permutations, association vectors, strengths, output lists", "why_tests_cant": "all permutations, lists and trees", "anchors": ["pytential/qbx/fmm.py:drive_fmm", "pytential/qbx/geometry.py:QBXFMMGeometryData.qbx_to_tree", "pytential/qbx/__init__.py:QBXLayerPotentialSource.exec_compute_potential_insn_fmm"]}
{"id": "C32", "title": "scipy_op: layout, flattening and application", "statement": "scipy_op yields an operator with one component per result, each on the discretization of its domain (None: the default target for all; one value: that for all; a list: entry by entry), in consecutive slices that partition [0, total), of shape (total, total). flatten and unflatten are mutually inverse on values of the right shape and keep components, groups and elements in order. matvec passes structured arguments through, gives flat ones of the right length to the operator in structured form under the argument's name beside the extra arguments, and returns the same representation kind (host/device/structured); wrong lengths and other inputs raise.", "quantifier": "all numbers and sizes of components, groups and elements, all operators and arguments", "why_tests_cant": "all sizes", "anchors": ["pytential/symbolic/execution.py:MatVecOp", "pytential/symbolic/execution.py:BoundExpression.scipy_op", "pytential/symbolic/execution.py:_prepare_domains"]}
{"id": "C33", "title": "The built matrix agrees with operator application", "statement": "If build_matrix (or a dense matrix builder) succeeds, then for every vector of input values the product of the matrix with the concatenated inputs equals, output by output, the value of the expressions at these inputs, for all expressions in which powers are only taken of input-free subexpressions, quotients are only taken by numbers or among input-free subexpressions, and no DOF array from the context is used (with one input, linearity of the expression need not be assumed: acceptance implies it). Products of two input-dependent factors and functions of input-dependent arguments raise RuntimeError; linear combinations of layer potentials with number or node-vector coefficients are accepted.", "quantifier": "all expressions of the builder's grammar, all vectors, any number of blocks", "why_tests_cant": "all expressions and vectors", "anchors": ["pytential/symbolic/matrix.py:MatrixBuilderBase", "pytential/symbolic/matrix.py:MatrixBuilder", "pytential/symbolic/execution.py:build_matrix"]}
{"id": "C34", "title": "Block matrices are assembled in place", "statement": "The matrix assembled from blocks has block (i,j) at the rows of output i and the columns of input j, zero blocks give zeros, the dimensions are the sums of the block sizes, and assembly succeeds exactly for consistently shaped blocks with a nonzero block in every block row and block column.", "quantifier": "all block arrangements", "why_tests_cant": "all sizes and zero patterns", "anchors": ["pytential/symbolic/execution.py:_bmat", "pytential/symbolic/execution.py:build_matrix"]}
{"id": "C35", "title": "Copying a source preserves its parameters", "statement": "A source constructed with only the mandatory arguments has the documented defaults. copy() without arguments of a QBX layer potential source returns a source with the same parameters; copy with overrides (none of them None; none of them zero, empty or False for the arguments density_discr, expansion_factory, _max_leaf_refine_weight, _box_extent_norm, _from_sep_smaller_crit, _tree_kind, geometry_data_inspector, fmm_backend) changes exactly the overridden parameters to the given values, with fmm_order=n meaning the constant level-to-order function or False, and the deprecated refinement switch translated; it succeeds exactly if the resulting parameters are valid and not both FMM arguments are given. The same for the discretization, FMM orders and debug flag of unregularized sources.", "quantifier": "all parameter records and overrides", "why_tests_cant": "all combinations of values incl. falsy ones", "anchors": ["pytential/qbx/__init__.py:QBXLayerPotentialSource.copy", "pytential/unregularized.py:UnregularizedLayerPotentialSource.copy"]}
{"id": "C36", "title": "Cost model back ends agree", "statement": "For every tree, traversal and target association, the vectorised cost model and the reference Python loops give the same cost per target box for every QBX stage, namely the sum over the expansion centers in the box that serve at least one target of what that stage does for the center (direct sources, list 3 multipoles, the local expansion, the targets served); costs per box and per stage of the two agree for all calibration parameters, and the total over the boxes equals the total over the stages, if this holds for boxtree's part.", "quantifier": "all trees, interaction lists, target associations and calibration parameters", "why_tests_cant": "all interaction lists", "anchors": ["pytential/qbx/cost.py:QBXCostModel", "pytential/qbx/cost.py:_PythonQBXCostModel"]}
{"id": "C37", "title": "Neighbor gathering is exact", "statement": "For every tree of the target points and every area query that covers the proxy balls, gather_cluster_neighbor_points returns for each cluster i exactly the points of the target index list (default: the source list) that lie inside the i-th proxy ball (up to the rounding slack) and whose position is not in the i-th cluster of that list, each position once; target lists with another number of clusters are rejected with ValueError.", "quantifier": "all point sets, trees, area queries, cluster lists, centers and radii", "why_tests_cant": "all geometric configurations", "anchors": ["pytential/linalg/proxy.py:gather_cluster_neighbor_points"]}
{"id": "C38", "title": "Proxy point and partition numbering is consistent", "statement": "The proxy points of cluster i occupy the positions [i*nproxy, (i+1)*nproxy) in the order of the reference points, the proxy index list describes exactly these ranges and they partition all proxies; partitioning with a tree gives one cluster per leaf with the nodes of that leaf, every node in exactly one cluster; partitioning a plane curve without a tree gives max(ndofs // max_particles_in_box, 2) contiguous clusters in order that cover all nodes, of sizes that differ by at most one (exact arithmetic).", "quantifier": "all numbers of clusters and proxies, all dof counts, all trees", "why_tests_cant": "all sizes", "anchors": ["pytential/linalg/proxy.py:ProxyGeneratorBase.__call__", "pytential/linalg/proxy.py:partition_by_nodes"]}
{"id": "C39", "title": "Skeletons are subsets with matching ranks", "statement": "Whatever scipy's decompositions return, within their documented shapes: if skeletonization succeeds, then for every cluster the skeleton target and source indices are sub-selections of that cluster's indices at different positions, both of the same size k >= 1, k is at most the number of proxies plus neighbors on either side, the starts are the prefix sums of these sizes, and the interpolation factors have the matching shapes and are the identity on the skeleton points. It succeeds whenever there are at least two clusters, the interaction matrices are finite and nonempty and the decompositions exist. A single cluster is rejected with ValueError, as is giving both or none of id_rank and id_eps. The matrix that is decomposed for a cluster holds its interactions with its proxies (for targets times the mean quadrature weight of its neighbors) and with its neighbors, entry by entry.", "quantifier": "all cluster lists, matrix entries, options and all interpolative decompositions meeting their documented shapes", "why_tests_cant": "rank clamping and the blocks depend on data and sizes", "anchors": ["pytential/linalg/skeletonization.py:_skeletonize_block_by_proxy_with_mats", "pytential/linalg/skeletonization.py:_ProxyNeighborEvaluationResult", "pytential/linalg/skeletonization.py:_apply_weights", "pytential/linalg/utils.py:interp_decomp"]}
{"id": "C40", "title": "Proxy expressions keep exactly the layer-potential part", "statement": "Preparing an expression for proxy evaluation keeps, for a linear combination of layer potentials plus arbitrary non-operator terms, exactly the layer potentials weighted by their constant factors (in every interpretation of sums and products); each layer potential loses its source and target derivatives and gets the requested source and target, keeping base kernel and limit; it succeeds for layer potentials without directional target derivatives; products of operators raise.", "quantifier": "all expressions", "why_tests_cant": "all expression trees", "anchors": ["pytential/linalg/direct_solver_symbolic.py:IntGTermCollector", "pytential/linalg/direct_solver_symbolic.py:KernelTransformationRemover", "pytential/linalg/direct_solver_symbolic.py:DOFDescriptorReplacer"]}
{"id": "C41", "title": "Interleaved arrays alternate", "statement": "Interleaving two DOF arrays of the same discretization yields, whatever the order in which the concurrent work items run and whatever the memory held, an array with twice the unit DOFs in every group whose flat entries 2i and 2i+1 are entry i of the first and of the second operand. Anything that is not a DOFArray is rejected with TypeError, different array contexts and frozen arrays with ValueError, and no result is given for arrays with different dtypes or shapes or of another number of elements; symbolically, interleave is accepted exactly from node granularity and yields center granularity, while interpolate returns the operand for equal descriptors and never goes to center granularity.", "quantifier": "all element groups, sizes, execution orders of the kernel and memory contents", "why_tests_cant": "all sizes and all interleavings of the concurrent kernel", "anchors": ["pytential/symbolic/dof_connection.py:interleave_dof_arrays", "pytential/symbolic/primitives.py:interleave", "pytential/symbolic/primitives.py:interpolate"]}
{"id": "C42", "title": "Direct evaluation fills each output once and agrees with the FMM", "statement": "The direct QBX evaluator returns for every requested output, in order and under its name, the full potential computed with that output's own target kernel, target set and limit, whatever the interleaving of self- and non-self-targets; it succeeds exactly if names and kernels resolve, self targets have a nonzero limit, no point fails association and, for forced limits, all points are near the source; on non-self targets it uses the same centers as the FMM unless two centers are equally good.", "quantifier": "all output lists, self/other groupings, sources and targets", "why_tests_cant": "all groupings", "anchors": ["pytential/qbx/__init__.py:QBXLayerPotentialSource.exec_compute_potential_insn_direct", "pytential/qbx/direct.py:LayerPotentialOnTargetAndCenterSubset"]}
{"id": "C43", "title": "GMRES solves nonsingular systems", "statement": "In exact arithmetic, gmres with restart length at least n and default settings finds the solution of A x = b for every invertible linear operator A of size n.", "quantifier": "all invertible operators and right hand sides", "why_tests_cant": "tests try a few well-conditioned second-kind operators only", "anchors": ["pytential/linalg/gmres.py:_gmres"]}
{"id": "C44", "title": "Default markers and partial locations are resolved as written", "statement": "Binding keeps a stage that is given without a geometry, and replaces the markers DEFAULT_SOURCE and DEFAULT_TARGET by the default source and target wherever they occur.", "quantifier": "all expressions and default locations", "why_tests_cant": "the markers may occur at any node type and nesting depth", "anchors": ["pytential/symbolic/mappers.py:LocationTagger", "pytential/symbolic/mappers.py:ToTargetTagger"]}
{"id": "C45", "title": "No averaged limit survives binding", "statement": "After binding with any number of QBX sources, no layer potential with limit 'avg' is left.", "quantifier": "all expressions, all sets of sources, any nesting", "why_tests_cant": "nesting of layer potentials over different sources is unbounded", "anchors": ["pytential/symbolic/mappers.py:QBXPreprocessor"]}
{"id": "C46", "title": "Upsampling is complete and type-correct for every expression", "statement": "For every expression, upsampling leaves no QBX layer potential with unset source stage, keeps every operand on the discretization the operation expects, and terminates for every from-stage.", "quantifier": "all expressions and from-stages", "why_tests_cant": "all nestings of layer potentials, derivatives and kernel arguments", "anchors": ["pytential/symbolic/mappers.py:InterpolationPreprocessor"]}
{"id": "C47", "title": "Derivatives of solutions of integral equations", "statement": "The symbolic target derivative of an expression containing the solution of an integral equation is the derivative.", "quantifier": "all expressions with solution operators", "why_tests_cant": "ranges over all expressions", "anchors": ["pytential/symbolic/mappers.py:DerivativeTaker"]}
{"id": "C48", "title": "Proxy preparation is complete for all expressions", "statement": "Proxy preparation removes every term that is not a layer potential, strips derivatives from every nested layer potential, puts the contents of densities on the source and accepts directional target derivatives.", "quantifier": "all expressions", "why_tests_cant": "nesting and combination are unbounded", "anchors": ["pytential/linalg/direct_solver_symbolic.py:IntGTermCollector", "pytential/linalg/direct_solver_symbolic.py:KernelTransformationRemover", "pytential/linalg/direct_solver_symbolic.py:DOFDescriptorReplacer"]}
{"id": "C49", "title": "The not-converged warning means a violated criterion", "statement": "When refinement stops with RefinerNotConvergedWarning (after at least one round), the returned discretization violates a refinement criterion.", "quantifier": "all meshes, criteria, maxiter and refiner behaviours", "why_tests_cant": "the warning depends on the exact number of rounds for arbitrary meshes", "anchors": ["pytential/qbx/refinement.py:_refine_qbx_stage1", "pytential/qbx/refinement.py:_refine_qbx_stage2"]}
{"id": "C50", "title": "A single target geometry makes a collection", "statement": "GeometryCollection(places) accepts a single object of each documented class, in particular a single TargetBase.", "quantifier": "all single geometries", "why_tests_cant": "ranges over all place objects and defaults", "anchors": ["pytential/collection.py:GeometryCollection.__init__"]}
{"id": "C51", "title": "A tuple of places registers both geometries", "statement": "GeometryCollection((source, target), auto_where) registers both the source and the target for every auto_where that it accepts.", "quantifier": "all pairs and auto_where values", "why_tests_cant": "ranges over all auto_where values", "anchors": ["pytential/collection.py:GeometryCollection.__init__", "pytential/symbolic/execution.py:_prepare_auto_where"]}
{"id": "C52", "title": "Connections from an unstaged descriptor start at its discretization", "statement": "The chain from a descriptor without a stage to quad stage 2 has matching consecutive links starting at the discretization of the from-descriptor.", "quantifier": "all collections, histories and refinement behaviours", "why_tests_cant": "needs a source whose stage-1 refinement changes the mesh, in any history", "anchors": ["pytential/symbolic/dof_connection.py:connection_from_dds", "pytential/collection.py:GeometryCollection._get_discretization_or_geometry"]}
{"id": "C53", "title": "Every failing target leads to the documented exception and flags all elements near it", "statement": "If some close target has no admissible center, associate_targets_to_qbx_centers raises QBXTargetAssociationFailedError whose refine_flags mark every element having a node whose tunnel contains a failing target.", "quantifier": "all trees (tree orders) and failing sets", "why_tests_cant": "permutation errors are invisible when the permutation is benign", "anchors": ["pytential/qbx/target_assoc.py:TargetAssociationWrangler.mark_elements_for_refinement", "pytential/qbx/target_assoc.py:associate_targets_to_qbx_centers"]}
{"id": "C54", "title": "The tree's class lists describe the particles", "statement": "In the tree with QBX metadata, box_to_qbx_{source,center,target} lists hold, for every leaf box, exactly the sources (centers, targets) lying in that box, each once, numbered within their class, and the coordinates reached through sorted_target_ids and the class slices are those of the source nodes, centers and targets.", "quantifier": "all point sets and tree orders", "why_tests_cant": "all permutations", "anchors": ["pytential/qbx/utils.py:build_tree_with_qbx_metadata", "pytential/qbx/utils.py:TreeWithQBXMetadata"]}
{"id": "C55", "title": "A forced one-sided limit at the source's own nodes comes from that side", "statement": "With qbx_forced_limit +1 or -1, an FMM evaluation at a point that is a stage-1 node of the source returns the value of the expansion about a center on exactly that side, within reach of the point.", "quantifier": "all sources, targets, output lists, trees", "why_tests_cant": "all geometries", "anchors": ["pytential/qbx/__init__.py:QBXLayerPotentialSource.exec_compute_potential_insn_fmm", "pytential/qbx/target_assoc.py:associate_targets_to_qbx_centers", "pytential/symbolic/primitives.py:IntG"]}
{"id": "C56", "title": "Documented success/failure of forced and optional limits", "statement": "As documented: with qbx_forced_limit +-2 evaluation succeeds even if no applicable center is found; with +-1 it fails if some target has no applicable center.", "quantifier": "all sources, targets, output lists", "why_tests_cant": "all geometries", "anchors": ["pytential/symbolic/primitives.py:IntG", "pytential/qbx/target_assoc.py:associate_targets_to_qbx_centers", "pytential/qbx/__init__.py:QBXLayerPotentialSource.exec_compute_potential_insn_fmm"]}
{"id": "C57", "title": "Unregularized evaluation gives every output its potential", "statement": "Both executors of the unregularized source return for every output, under its own name and in order, the full potential of its own kernel (each source once with its own strength, no expansion centers) at each of its own target points, for point and discretization targets.", "quantifier": "all output lists, targets, trees meeting boxtree's contract", "why_tests_cant": "all output lists and trees", "anchors": ["pytential/unregularized.py:UnregularizedLayerPotentialSource.exec_compute_potential_insn_fmm", "pytential/unregularized.py:UnregularizedLayerPotentialSource.exec_compute_potential_insn_direct"]}
{"id": "C58", "title": "Unregularized FMM accepts layer potential sources as targets", "statement": "The unregularized FMM executor accepts every target the direct executor accepts, in particular targets given by a layer potential source at a stage.", "quantifier": "all collections and output lists", "why_tests_cant": "all collections", "anchors": ["pytential/unregularized.py:UnregularizedLayerPotentialSource.exec_compute_potential_insn_fmm", "pytential/collection.py:GeometryCollection.get_target_or_discretization"]}
{"id": "C59", "title": "scipy_op supports scalar components", "statement": "As documented, a domain of None in scipy_op's list of domains makes that component a scalar.", "quantifier": "all collections and domain lists", "why_tests_cant": "all domain lists", "anchors": ["pytential/symbolic/execution.py:BoundExpression.scipy_op", "pytential/symbolic/execution.py:_prepare_domains"]}
{"id": "C60", "title": "Object-array operators get object-array arguments", "statement": "If an operator's result is an object array of n components, a flat argument is given to it as an object array of n components.", "quantifier": "all n >= 1 and sizes", "why_tests_cant": "the case n = 1", "anchors": ["pytential/symbolic/execution.py:MatVecOp"]}
{"id": "C61", "title": "An iterative inverse evaluates to the solution", "statement": "The value of an IterativeInverse expression is a density that satisfies the equation, if the solver solves exactly.", "quantifier": "all operators and right-hand sides", "why_tests_cant": "all operators", "anchors": ["pytential/symbolic/execution.py:EvaluationMapperBase.map_inverse"]}
{"id": "C62", "title": "The array context is the one everything agrees on", "statement": "Evaluation uses the PyOpenCL array context on which the explicit argument and all DOF arrays among the arguments (however nested in object arrays) agree; it raises ValueError exactly on disagreement and TypeError if there is none or it is of another kind.", "quantifier": "all argument dictionaries and nesting", "why_tests_cant": "all nestings", "anchors": ["pytential/symbolic/execution.py:_find_array_context_from_args_in_context"]}
{"id": "C63", "title": "No silently wrong matrix", "statement": "build_matrix never returns a matrix that disagrees with the operator: expressions outside the supported linear class are refused.", "quantifier": "all expressions", "why_tests_cant": "silent acceptance is only visible on the right expression", "anchors": ["pytential/symbolic/matrix.py:MatrixBuilderBase.map_product", "pytential/symbolic/execution.py:build_matrix"]}
{"id": "C64", "title": "Linear operators have a matrix", "statement": "build_matrix succeeds for every expression that is linear in its inputs and can be evaluated.", "quantifier": "all linear expressions, any number of inputs and outputs", "why_tests_cant": "all expressions", "anchors": ["pytential/symbolic/matrix.py:MatrixBuilderBase.map_sum", "pytential/symbolic/matrix.py:MatrixBuilder.map_interpolation", "pytential/symbolic/execution.py:_bmat"]}
{"id": "C65", "title": "Cluster blocks have the operator's entries", "statement": "For combinations, with numbers, of the inputs and of layer potentials of number combinations of the inputs, the QBX and point-to-point cluster builders return a flat block whose p-th entry is the value, at the target of the p-th index pair, of the expression for the unit density at the source of that pair (all other inputs zero); this is the entry of the dense builder's matrix. Such expressions are accepted when every layer potential has a nonzero limit (QBX) and, if weighted, equal source and target discretizations.", "quantifier": "all such expressions, index pair lists, inputs, contexts", "why_tests_cant": "all expressions and index sets", "anchors": ["pytential/symbolic/matrix.py:ClusterMatrixBuilderBase", "pytential/symbolic/matrix.py:QBXClusterMatrixBuilder", "pytential/symbolic/matrix.py:P2PClusterMatrixBuilder"]}
{"id": "C66", "title": "Cluster builders refuse what the dense builder refuses", "statement": "The cluster builders accept only expressions whose blocks are those of the matrix of the operator, and they handle coefficients the dense builder handles or refuse them with NotImplementedError.", "quantifier": "all expressions", "why_tests_cant": "silent acceptance is only visible on the right expression", "anchors": ["pytential/symbolic/matrix.py:ClusterMatrixBuilderWithoutComposition", "pytential/symbolic/matrix.py:ClusterMatrixBuilderBase.is_kind_vector"]}
{"id": "C67", "title": "Copies lose nothing", "statement": "Copies keep every parameter not overridden, and every override is respected.", "quantifier": "all sources of both classes and all override values, including falsy ones", "why_tests_cant": "all combinations of values", "anchors": ["pytential/unregularized.py:UnregularizedLayerPotentialSource.copy", "pytential/qbx/__init__.py:QBXLayerPotentialSource.copy"]}
{"id": "C68", "title": "Costs are reported for executed statements", "statement": "cost_per_stage and cost_per_box report the cost of every layer potential statement executed, using the calibration parameters estimated for its kernels.", "quantifier": "all bound expressions and calibration parameters", "why_tests_cant": "all programs", "anchors": ["pytential/symbolic/execution.py:CostModelMapper", "pytential/qbx/__init__.py:QBXLayerPotentialSource.cost_model_compute_potential_insn"]}
{"id": "C69", "title": "Calibration parameters act on their stage", "statement": "The calibration parameter named for a QBX stage scales the cost of exactly that stage, linearly, relative to the cost under unit parameters; a missing parameter is an error; kernel-specific estimation uses for each set of source kernels exactly the measurements of statements with these source kernels, over all cases and in order, and fails an assertion exactly if numbers of cases differ or a measured statement was not modeled.", "quantifier": "all parameters, geometries, samples", "why_tests_cant": "all parameter values and sample lists", "anchors": ["pytential/qbx/cost.py:AbstractQBXCostModel.qbx_cost_factors_for_kernels_from_model", "pytential/qbx/cost.py:AbstractQBXCostModel.estimate_kernel_specific_calibration_params"]}
{"id": "C70", "title": "Proxy balls enclose what they must", "statement": "In exact arithmetic, for every list of non-empty clusters: the center of the i-th ball is the centroid ('l2') or the middle of the bounding box ('linf') of the cluster, its cluster radius is the largest distance of a cluster point (ProxyGenerator) and the proxy radius is that times radius_factor (default 1.1); with a factor of at least 1 the ball contains the cluster, and for QBXProxyGenerator it contains both expansion balls of every point of the cluster; all proxies lie on the sphere of the ball; bad norm types and dimensions are rejected.", "quantifier": "all clusters, points, expansion radii, factors >= 1", "why_tests_cant": "all geometries", "anchors": ["pytential/linalg/proxy.py:ProxyGeneratorBase", "pytential/linalg/proxy.py:QBXProxyGenerator", "pytential/linalg/proxy.py:_generate_unit_sphere"]}
{"id": "C71", "title": "Documented limits of proxy generation are enforced", "statement": "partition_by_nodes without a tree accepts only curves, makes no cluster larger than max_particles_in_box and no empty cluster; neighbors of a ball never belong to the cluster the ball was made from; the cluster radius is measured in the norm given by norm_type; a radius_factor for which the ball does not contain its cluster is rejected.", "quantifier": "all discretizations, index lists and parameters", "why_tests_cant": "documented limits, all inputs", "anchors": ["pytential/linalg/proxy.py:partition_by_nodes", "pytential/linalg/proxy.py:gather_cluster_neighbor_points", "pytential/linalg/proxy.py:ProxyGeneratorBase"]}
{"id": "C72", "title": "Skeletonization errors, and exactness", "statement": "cluster_skeletonization_error reports for every pair of different clusters the norms of A_ij - L_i T_ij and A_ij - S_ij R_j (zero on the diagonal) and skeletonization_error the norm of A minus A with its off-diagonal blocks replaced by L_i S_ij R_j, all relative to the exact block or matrix if asked. These errors are the interpolation residuals times the factors through which the block factors; in particular, if the decompositions are exact, the rank is not clamped and every off-diagonal block factors through the interaction matrices, then every off-diagonal block is reproduced exactly and all errors are zero.", "quantifier": "all cluster lists, matrices over any commutative ring, norms and decompositions", "why_tests_cant": "quantifies over all matrices and decompositions", "anchors": ["pytential/linalg/utils.py:cluster_skeletonization_error", "pytential/linalg/utils.py:skeletonization_error", "pytential/linalg/skeletonization.py:skeletonize_by_proxy"]}
{"id": "C73", "title": "Limits of skeletonization", "statement": "Skeletonization should succeed for any clustering with at least two clusters, keep the requested tolerance on both sides, and report errors in the documented order. The code does not: with the default weights a cluster with no neighbors makes it fail with an AssertionError; the tolerance controls the target side only (sources are decomposed at the target rank); a rank above what the sources allow truncates the target interpolation matrix without recomputing it, so that exact decompositions still give errors; cluster_skeletonization_error returns (target, source) errors while the documentation says (source, target); scipy versions are compared as strings.", "quantifier": "all clusterings and matrices", "why_tests_cant": "the failures depend on geometry and ranks", "anchors": ["pytential/linalg/skeletonization.py:_approximate_geometry_waa_magnitude", "pytential/linalg/skeletonization.py:_skeletonize_block_by_proxy_with_mats", "pytential/linalg/utils.py:cluster_skeletonization_error", "pytential/linalg/utils.py:interp_decomp"]}
{"id": "C74", "title": "Expansion centers flank their nodes", "statement": "Centers 2i and 2i+1 of the flat center list are x_i - r_i n_i and x_i + r_i n_i for node i, coordinate by coordinate, both with radius entry r_i; for unit normals both are at distance exactly r_i from the node. r_i is half of the mapping stretch factor at the node (a quarter on two-dimensional surfaces), source danger zone radii are 3/4 and tunnel radii 1/2 of it, radii at center granularity repeat the nodal ones, and there are none at element granularity (ValueError); descriptors without node granularity are rejected.", "quantifier": "all groups, sizes, dimensions, geometries and kernel schedules", "why_tests_cant": "all sizes and geometries", "anchors": ["pytential/symbolic/primitives.py:expansion_radii", "pytential/symbolic/primitives.py:expansion_centers", "pytential/symbolic/primitives.py:interleaved_expansion_centers", "pytential/qbx/geometry.py:flat_centers", "pytential/qbx/geometry.py:flat_expansion_radii"]}
{"id": "C75", "title": "Dirichlet and Neumann operators are the boundary limits of their representations", "statement": "For DirichletOperator and NeumannOperator: the integral operator applied to a density equals the square-root weight times the boundary limit (from the side given by loc_sign) of the representation (for Neumann, of its normal derivative), plus, exactly for the exterior Dirichlet and the interior Neumann Laplace problem, the mean of the density; so solving operator(u) = prepare_rhs(b) is the same as satisfying the boundary condition. The representation is alpha*S - D (Dirichlet) and S - alpha*D S0 (Neumann) applied to the unweighted density. Construction rejects sides other than +-1, and alpha defaults to i for Helmholtz and 0 otherwise. Building the expressions never fails when exactly the kernel's arguments are supplied.", "quantifier": "every kernel, side, coupling constant, weighting choice, density expression, geometry, and every interpretation of layer potentials in which the jump relations (and, for the improved Neumann operator, the Calderon identity) hold", "why_tests_cant": "Tests solve a few boundary value problems numerically on a few curves; a term with the wrong sign or weight may be hidden by the tolerance or by the tested option combination", "anchors": ["pytential/symbolic/pde/scalar.py: DirichletOperator, NeumannOperator, L2WeightedPDEOperator", "pytential/symbolic/primitives.py: S, D, Sp, Dp, int_g_vec, normal_derivative, mean"]}
{"id": "C76", "title": "Documented uses of the PDE operators that do not work", "statement": "Keyword arguments given to operator() are passed on to the layer potentials; the default options work for every scalar kernel; with explicit source and target descriptors the representations use densities on the source, normals of the surface used and prepare_rhs the weight of that surface; the improved Neumann operator is the limit of the representation also when weighted; every operator class offers the methods its base class documents; the Cahn-Hilliard operator is the interior limit of its representation.", "quantifier": "all kernels, options, descriptors and keyword arguments", "why_tests_cant": "The tested combinations of options are few and none of them is one of these", "anchors": ["pytential/symbolic/pde/scalar.py", "pytential/symbolic/pde/beltrami.py", "pytential/symbolic/pde/cahn_hilliard.py"]}
{"id": "C77", "title": "Clamped plate and Cahn-Hilliard operators versus the limits of their representations", "statement": "On the default geometry the clamped-plate operator consists of the interior limits of the plate potential and of its normal derivative; the constructor accepts exactly interior problems for planar kernels; the expressions exist for every kernel without arguments. The Cahn-Hilliard representation is a multiple c of the modified Helmholtz potential of the first density plus the difference quotient of two such potentials of the second; the limits of its potentials are the boundary data (normal derivative of u plus the constant times u; normal derivative of (lambda1^2+lambda2^2) u minus the Laplacian of u); and the operator differs from the interior limit by exactly (1 - c)/2 times the identity terms.", "quantifier": "every kernel, pair of densities, geometry and interpretation of potentials satisfying the jump relations", "why_tests_cant": "Numerical tests fix one geometry, one kernel and one pair of parameters", "anchors": ["pytential/symbolic/pde/scalar.py: BiharmonicClampedPlateOperator", "pytential/symbolic/pde/cahn_hilliard.py: CahnHilliardOperator"]}
{"id": "C78", "title": "Beltrami operators solve the surface equation", "statement": "For both preconditioners, the integral operator applied to a density is the surface operator L applied to prepare_solution(sigma) (preceded by the single layer when preconditioned from the left), so operator(sigma) = prepare_rhs(b) holds exactly when L u = b for the recovered u; for the Laplace-Beltrami operator and data without mean, exactly when L u = b and u has integral zero. Unknown preconditioners are rejected, BeltramiOperator rejects the Laplace kernel, and the operators exist for every kernel with exactly its arguments (without a mean curvature, in the dimensions where one is implemented).", "quantifier": "every kernel, dimension, preconditioner, optional curvature expression, density, and every interpretation satisfying the Calderon identities and L S = kappa S' + S''", "why_tests_cant": "Convergence tests use spheres and circles with two or three kernels, and one right-hand side", "anchors": ["pytential/symbolic/pde/beltrami.py: BeltramiOperator, LaplaceBeltramiOperator, YukawaBeltramiOperator, HelmholtzBeltramiOperator"]}
{"id": "C79", "title": "Stokes wrappers contract the right tensors and the exterior operators impose the boundary velocity", "statement": "In dimensions 2 and 3 (and only there) StokesletWrapper and StressletWrapper return, for every component, the full contraction of the Stokeslet, respectively stresslet tensor with the density (and direction), their target derivatives and pressures; the stress of a stresslet distribution is -p I + mu(grad u + grad u^T) applied to the direction, and so is that of Stokeslets if the kernels are related that way. No kernel lookup fails. For the Hsiao-Kress and Hebeker operators, operator(sigma) = prepare_rhs(b) holds exactly when the velocity has the values b on the boundary from outside.", "quantifier": "every dimension, density, normal and direction vector, viscosity, limit, component, and every interpretation in which the tensors are symmetric and the stresslet has its jump", "why_tests_cant": "Index bookkeeping (27 index triples) and the combination of farfield, mean and limit terms are tested on single flows only", "anchors": ["pytential/symbolic/stokes.py: StokesletWrapper, StressletWrapper, StokesOperator, HsiaoKressExteriorStokesOperator, HebekerExteriorStokesOperator"]}
{"id": "C80", "title": "Geometric quantities of curves and surfaces are the textbook ones", "statement": "For a curve in the plane or a surface in space, area_element is the square root of the Gram determinant of the parametrization, normal is the unique positively oriented unit vector orthogonal to all tangents, first_fundamental_form, second_fundamental_form and shape_operator are the Gram matrix, the second form for that normal and the matrix S with I S = II, and mean_curvature is minus the trace of II with respect to I divided by the dimension (the same sign for curves and surfaces). Other dimensions are rejected with NotImplementedError. _small_mat_inverse and the eigenvalue helpers return inverses and characteristic roots, and reject non-square or larger matrices. Reference derivatives are accepted exactly when the axes strictly increase.", "quantifier": "every discretization, node, parametrization with non-degenerate Jacobian, spelling of the dimension (given or default) and of the descriptor", "why_tests_cant": "Tests compare with closed forms on spheres, tori and circles to a tolerance; a sign or a mixed-derivative error vanishes on symmetric surfaces", "anchors": ["pytential/symbolic/primitives.py: NumReferenceDerivative, num_reference_derivative, reference_jacobian, parametrization_derivative_matrix, parametrization_derivative, pseudoscalar, area_element, normal, mean_curvature, first_fundamental_form, second_fundamental_form, shape_operator, _small_mat_inverse, _small_mat_eigenvalues, _small_sym_mat_eigenvalues"]}
{"id": "C81", "title": "Stretch factors, expansion radii and centers", "statement": "The mapping stretch factor is the operator norm of twice the Jacobian on the equilateral simplex or the hypercube, so it is unchanged by rotating the geometry and by renumbering the corners of a triangle; other element shapes raise. Expansion radii are half (curves) or a quarter (surfaces) of it, the two centers of a node get the node's radius, the tunnel radius is smaller than the danger zone radius which is smaller than the expansion radius, and an expansion center lies at exactly one radius from its node along the normal, on the requested side.", "quantifier": "every geometry of dimension 1 or 2 in any ambient dimension, node, rotation, corner permutation, granularity", "why_tests_cant": "Invariance under all rotations and all corner orders, and the ordering of the radii at every node, are universally quantified; tests check a few meshes", "anchors": ["pytential/symbolic/primitives.py: _equilateral_parametrization_derivative_matrix, _simplex_mapping_max_stretch_factor, _hypercube_mapping_max_stretch_factor, _mapping_max_stretch_factor, _quad_resolution, _source_danger_zone_radii, _close_target_tunnel_radii, expansion_radii, expansion_centers"]}
{"id": "C82", "title": "Tangential bases, projections, cross products and surface integrals", "statement": "tangential_onb is an orthonormal basis whose first j vectors span the first j tangents; xyz_to_tangential gives components in it; project_to_tangential is the orthogonal projection to the tangent space and equals v - (n.v) n for hypersurfaces; cross is the vector product (AssertionError unless both have three components) and n_cross applied twice gives minus the tangential part. integral is the quadrature with the area element, area that of 1, and the mean of a constant is that constant.", "quantifier": "every geometry with independent tangents, every vector or scalar density, node, ambient dimension (Gram-Schmidt for any number of tangents)", "why_tests_cant": "Identities hold for all vectors and surfaces; tests evaluate them on one surface to a tolerance", "anchors": ["pytential/symbolic/primitives.py: tangential_onb, xyz_to_tangential, tangential_to_xyz, project_to_tangential, cross, n_cross, integral, area, mean"]}
{"id": "C83", "title": "The maximal curvature is a property of the surface", "statement": "_max_curvature (which drives refinement through _scaled_max_curvature) is the largest absolute principal curvature at each node, whatever the parametrization.", "quantifier": "every curve and surface, node and parametrization", "why_tests_cant": "Refinement tests only see the number of elements; the wrong value only shows for parametrizations with a non-symmetric shape operator matrix", "anchors": ["pytential/symbolic/primitives.py: _max_curvature, _scaled_max_curvature, _small_sym_mat_eigenvalues, shape_operator"]}
{"id": "C84", "title": "Reference derivatives name existing axes", "statement": "NumReferenceDerivative rejects axes that are not axis numbers and derivative counts that are not positive.", "quantifier": "every tuple of axis/count pairs", "why_tests_cant": "Tests only pass valid axes", "anchors": ["pytential/symbolic/primitives.py: NumReferenceDerivative.__init__"]}
{"id": "C85", "title": "Symbolic Maxwell fields and integral equations mean what they say", "statement": "get_sym_maxwell_point_source and get_sym_maxwell_plane_wave give non-trivial fields that satisfy the time-harmonic Maxwell equations (the plane wave after removing the amplitude's component along the direction, with omega the wave number and the second triple the flux density); PECChargeCurrentMFIEOperator's j and rho equations hold exactly if the total magnetic field has no tangential and the total electric field no normal component on the side where the field must vanish, and its scattered field satisfies Maxwell's equations in the Lorenz gauge; MuellerAugmentedMFIEOperator's six equations hold exactly if its four transmission conditions across the interface hold, for fields that satisfy Maxwell's equations in each medium; a number of domains other than two or too few unknowns is refused.", "quantifier": "every wave number, medium, current, amplitude, direction, density and incident field, every surface frame, every single-layer potential with the usual jumps", "why_tests_cant": "Tests evaluate one geometry and one frequency numerically, to a tolerance; the Mueller operator has no test at all", "anchors": ["pytential/symbolic/pde/maxwell/__init__.py: get_sym_maxwell_point_source", "pytential/symbolic/pde/maxwell/__init__.py: get_sym_maxwell_plane_wave", "pytential/symbolic/pde/maxwell/__init__.py: PECChargeCurrentMFIEOperator", "pytential/symbolic/pde/maxwell/__init__.py: MuellerAugmentedMFIEOperator", "pytential/symbolic/primitives.py: curl", "pytential/symbolic/primitives.py: n_cross", "pytential/symbolic/primitives.py: xyz_to_tangential"]}
{"id": "C86", "title": "The Mueller representation evaluates the solved fields", "statement": "MuellerAugmentedMFIEOperator.representation returns, in each domain, the electric and magnetic field of the solved densities: the fields whose limits operator() couples, satisfying Maxwell's equations in that medium.", "quantifier": "every medium, frequency and density satisfying the continuity equations", "why_tests_cant": "No test exercises the Mueller operator; agreement for one medium says nothing about others", "anchors": ["pytential/symbolic/pde/maxwell/__init__.py: MuellerAugmentedMFIEOperator.representation"]}
{"id": "C87", "title": "Legendre evaluation of target-specific QBX", "statement": "legvals(x, n, vals, derivs) stores, for i = 0..n, the i-th Legendre polynomial at x in vals[i] and, when derivs is given, its derivative in derivs[i], and changes nothing beyond entry n; the values stay in [-1,1].", "quantifier": "every x in [-1,1], every degree n that fits the buffers, every previous buffer content, derivs given or not", "why_tests_cant": "The recurrence has to be right for every degree and argument, including the endpoints; a test tries a few", "anchors": ["pytential/qbx/target_specific/impl.pyx: legvals"]}
{"id": "C88", "title": "ts_laplace_s evaluates the truncated expansion and converges to the potential", "statement": "The value that target-specific QBX adds for one charge (Laplace) is the charge times the order-p Taylor polynomial, about the expansion center, of 1/|s - .| at the target, for every order; when the target is closer to the center than the source, it converges to 1/|s - t| with error at most (|t-c|/|s-c|)^(p+1) / (|s-c| - |t-c|).", "quantifier": "every source and target different from the center, every charge, every order", "why_tests_cant": "Numerical tests see one geometry and a tolerance; the identity and the bound hold for every geometry and order", "anchors": ["pytential/qbx/target_specific/impl.pyx: ts_laplace_s"]}
{"id": "C89", "title": "Gradients and dipoles of target-specific QBX are derivatives of its potential", "statement": "ts_laplace_sp adds the charge times the gradient, at the target, of the expanded potential; ts_laplace_d returns the dipole strength times the derivative, at the source, of the expanded potential in the dipole's direction; both converge to the derivatives of 1/|s - t| when the target is closer to the center than the source.", "quantifier": "every source and target different from the center, every charge, dipole and order below BUFSIZE, every content of the stack buffers", "why_tests_cant": "Finite differences in a test cannot establish a derivative, for all geometries and orders", "anchors": ["pytential/qbx/target_specific/impl.pyx: ts_laplace_sp, ts_laplace_d"]}
{"id": "C90", "title": "Helmholtz evaluation of target-specific QBX", "statement": "h3dall_ stores scale^n h_n(kr) and scale^n h_n'(kr) for the spherical Hankel functions of the first kind; given correct Bessel values, ts_helmholtz_s returns the charge times i k sum_n (2n+1) j_n(k|t-c|) h_n(k|s-c|) P_n(cos angle), independent of the scaling, and ts_helmholtz_sp / _d the target / source derivatives of that expansion.", "quantifier": "every complex nonzero wavenumber, source, target, center, order below BUFSIZE, scaling, buffer content, with |k||s-c| at least 1e-15", "why_tests_cant": "Recurrences, scalings and derivatives have to be right for every order and wavenumber", "anchors": ["pytential/qbx/target_specific/impl.pyx: ts_helmholtz_precompute, ts_helmholtz_s, ts_helmholtz_sp, ts_helmholtz_d", "pytential/qbx/target_specific/helmholtz_utils.c: h3d01_, h3dall_"]}
{"id": "C91", "title": "The parallel loop of target-specific QBX is deterministic and complete", "statement": "eval_target_specific_qbx_locals rejects (ValueError) exactly the calls with missing charges or dipoles or with gradients of dipoles; otherwise, every target of every QBX center receives the sum over all sources of the boxes near that center of the expanded potential (gradient), other targets are untouched, and the result does not depend on the number of threads, on the distribution of centers over them, on their interleaving or on what the thread-local buffers contained.", "quantifier": "every tree, center list, source/target set, flag combination, thread count, iteration distribution and interleaving", "why_tests_cant": "A data race or a stale thread-local buffer shows up only under particular interleavings", "anchors": ["pytential/qbx/target_specific/impl.pyx: eval_target_specific_qbx_locals"]}
{"id": "C92", "title": "Target-specific QBX handles or rejects every order, geometry and wavenumber", "statement": "For every order, target position (including the center itself) and wavenumber, eval_target_specific_qbx_locals either raises or computes finite expansion values with in-bounds memory accesses.", "quantifier": "every order, target and wavenumber", "why_tests_cant": "Out-of-bounds accesses need not be visible in a test, and occur only for particular orders or wavenumbers", "anchors": ["pytential/qbx/target_specific/impl.pyx: eval_target_specific_qbx_locals, ts_laplace_s, ts_helmholtz_s", "pytential/qbx/target_specific/helmholtz_utils.c: h3dall_"]}
{"id": "C93", "title": "The FMMLIB backend accepts exactly the kernels it can handle", "statement": "With fmm_backend='fmmlib', an instruction is accepted exactly if it has one source kernel that is Laplace or Helmholtz in 2D/3D with at most one directional source derivative, a non-empty list of target kernels with at most one axis derivative each, and, if _use_target_specific_qbx=True was demanded, only kernels in 3D with at most one derivative altogether; everything else raises ValueError (IndexError for no kernel, KeyError for missing Helmholtz parameters or dipole directions). Target-specific expansions are used exactly when not forbidden and applicable to all kernels; the recorded outputs, dipole name, wave number name, dimension and gradient flag are those of the kernels.", "quantifier": "every list of source and target kernels (arbitrary nesting of derivatives), every setting of _use_target_specific_qbx, every dictionary of kernel and source arguments", "why_tests_cant": "The kernel language is recursive, and the decision to use target-specific QBX depends on all kernels jointly", "anchors": ["pytential/qbx/fmmlib.py: QBXFMMLibTreeIndependentDataForWrangler, QBXFMMLibExpansionWrangler.__init__", "pytential/qbx/__init__.py: _tree_indep_data_for_wrangler"]}
{"id": "C94", "title": "The FMMLIB backend computes the same potentials as the sumpy backend", "statement": "With fmm_backend='fmmlib', every output is, at every target, the sum over all sources of exactly one contribution (its strength, through the center the association prescribes, or directly for non-QBX targets), every expansion is translated and evaluated with the center, scale and order it was formed with, and nothing is read that was not computed; the outcome is the same as with the sumpy backend, and the same whether target-specific expansions are used or not. Several densities at once are rejected.", "quantifier": "every tree, traversal (boxtree's contract), association of targets to centers, strength vector, kernel list and setting of target-specific QBX", "why_tests_cant": "The index arithmetic of the compressed interaction lists and level-wise views has to be right for every tree, level structure and target association", "anchors": ["pytential/qbx/fmmlib.py: QBXFMMLibExpansionWrangler (form_global_qbx_locals, translate_box_multipoles_to_qbx_local, translate_box_local_to_qbx_local, eval_qbx_expansions, eval_target_specific_qbx_locals, add_potgrad_onto_output)", "pytential/qbx/fmm.py: drive_fmm"]}
{"id": "C95", "title": "The device kernels deliver the full potentials under every schedule", "statement": "With the sumpy backend, a layer potential evaluated by the FMM is the full potential at every target (every source exactly once with its strength, through the prescribed center or directly; every expansion translated and evaluated with the center, scale and order it was formed with), however the work items of the OpenCL kernels are distributed over workers, however these interleave, whatever uninitialised private variables contain and whatever out-of-bounds reads would return; all runs return the same result, and no kernel is launched without the work items it assumes.", "quantifier": "every tree, traversal, association of targets to centers, strength vector, number of kernels (also without centers or QBX targets); every distribution of work items and every interleaving of elementary steps of all kernels", "why_tests_cant": "A data race, a read out of bounds or a missing initialisation shows on some schedules, devices and trees only", "anchors": ["pytential/qbx/interactions.py: P2QBXLFromCSR, M2QBXL, L2QBXL, QBXL2P", "pytential/qbx/fmm.py: QBXExpansionWrangler (form_global_qbx_locals, translate_box_multipoles_to_qbx_local, translate_box_local_to_qbx_local, eval_qbx_expansions), drive_fmm", "pytential/qbx/geometry.py: qbx_center_to_target_box_lookup, pick_used_centers, qbx_center_to_target_box, global_qbx_centers"]}
{"id": "C96", "title": "Index kernels terminate and build the right tables despite concurrent writes", "statement": "Every launch of a device kernel terminates and is never stuck; the table from centers to target boxes gives, for every center, the number of the target box containing it, whatever the array contained; the list of centers to be evaluated contains exactly the centers that some target uses, in increasing order, although several work items mark the same center.", "quantifier": "every kernel program, launch, distribution of work items and schedule; every tree and association", "why_tests_cant": "The kernels silence loopy's write race warnings: that the races are absent (or harmless) has to hold for every tree and every interleaving", "anchors": ["pytential/qbx/geometry.py: QBXFMMGeometryDataCodeContainer.qbx_center_to_target_box_lookup, pick_used_centers", "pytential/qbx/geometry.py: QBXFMMGeometryData.qbx_center_to_target_box, global_qbx_centers"]}
{"id": "C97", "title": "Target association on the device is right under every schedule", "statement": "However the work items of the three association kernels (marking targets, finding centers, flagging elements for refinement) are distributed over workers and however their steps interleave, associate_targets_to_qbx_centers has exactly one outcome, and it is correct: exactly the close targets get a center, it is an admissible one with minimal relative distance on its side and not farther than the best of the other side; a failure reports exactly the failing targets and flags only elements near them; if every close target has an admissible center, association succeeds.", "quantifier": "every tree and query meeting their contract, geometry, side request, tolerance, distribution of work items and interleaving of elementary steps of all kernels; whatever out-of-bounds reads would return", "why_tests_cant": "the kernels share status and flag arrays without synchronisation: a race shows on some schedules only", "anchors": ["pytential/qbx/target_assoc.py: QBX_TARGET_MARKER, QBX_CENTER_FINDER, QBX_FAILED_TARGET_ASSOCIATION_REFINER", "pytential/qbx/target_assoc.py: TargetAssociationWrangler (mark_targets, find_centers, mark_elements_for_refinement), associate_targets_to_qbx_centers", "pytential/qbx/utils.py: TreeWithQBXMetadata"]}
{"id": "C98", "title": "The refiner's device checks flag exactly the violating elements under every schedule", "statement": "However the work items of the refinement checks are distributed over workers and interleave: each check adds exactly the flags of the elements violating its criterion and reports whether there are any; refinement of stage 1 and stage 2 has exactly one outcome, performs at most maxiter rounds each refining exactly the violating elements, returns a connection from the given to the returned mesh, and without the warning establishes its criteria; in error mode it raises exactly if a criterion is violated.", "quantifier": "every mesh, geometry, tree and query meeting their contract, criterion, mesh refiner, distribution of work items and interleaving of elementary steps", "why_tests_cant": "several work items set the same flag concurrently; early exits from loops; the result must not depend on the schedule", "anchors": ["pytential/qbx/refinement.py: EXPANSION_DISK_UNDISTURBED_BY_SOURCES_CHECKER, SUFFICIENT_SOURCE_QUADRATURE_RESOLUTION_CHECKER, RefinerCodeContainer.element_prop_threshold_checker", "pytential/qbx/refinement.py: RefinerWrangler (check_expansion_disks_undisturbed_by_sources, check_sufficient_source_quadrature_resolution, check_element_prop_threshold), _refine_qbx_stage1, _refine_qbx_stage2"]}
{"id": "C99", "title": "The device cost model charges every stage center by center under every schedule", "statement": "However the work items of the counting kernels of the cost model are distributed over workers and interleave, every per-box stage cost is the sum over the centers of the box that serve at least one target of what that center costs (direct sources, list 3 boxes by level, the box's own level, number of served targets); all runs return the same numbers; and per-box and per-stage reports equal those of the pure Python implementation.", "quantifier": "every tree, traversal and center association meeting their contracts, cost factor, calibration parameter, distribution of work items and interleaving", "why_tests_cant": "concurrent read-modify-write kernels; holds for every schedule and every tree", "anchors": ["pytential/qbx/cost.py: QBXCostModel.fill_array_with_index, count_global_qbx_centers, get_nqbx_centers_per_tgt_box, process_m2qbxl_knl, process_form_qbxl, process_m2qbxl, process_l2qbxl, process_eval_qbxl, process_eval_target_specific_qbxl"]}
{"id": "C100", "title": "Direct evaluation on the device has one outcome under every schedule", "statement": "However the work items of the association kernels, the target numberer and the kernel for targets with centers are distributed and interleave, direct evaluation has exactly one outcome; it succeeds exactly if every requested output can be evaluated; and each returned array holds, per target, the full potential: from the target's own center for self evaluation, and otherwise through a center chosen for the target if it is close and directly if not. The numberer returns the positions of the targets with centers, in increasing order.", "quantifier": "every source geometry with at least one quadrature node, target list, side request, kernel list, tree and query meeting their contract, distribution of work items and interleaving", "why_tests_cant": "scan and scatter kernels run concurrently; the result must be the same for every schedule", "anchors": ["pytential/qbx/__init__.py: QBXLayerPotentialSource.exec_compute_potential_insn_direct, get_qbx_target_numberer", "pytential/qbx/direct.py: LayerPotentialOnTargetAndCenterSubset.get_kernel"]}
{"id": "C101", "title": "The FMM executor on the device, from the request to the named results, has one outcome under every schedule", "statement": "With association, incidence lists and all translation kernels on the device, execution of a layer potential instruction has exactly one outcome under every schedule; it succeeds exactly if the geometry is consistent, all kernels exist and no target fails to be associated; and every named result holds at each target the full potential through a center chosen for it if it is close and directly if not, agreeing with direct evaluation wherever the choice of the center is unique.", "quantifier": "every source geometry, list of outputs, tree, traversal and query meeting their contracts, distribution of work items and interleaving", "why_tests_cant": "a dozen kernels in sequence, each with its own schedule; the composition must be correct for all of them", "anchors": ["pytential/qbx/__init__.py: QBXLayerPotentialSource.exec_compute_potential_insn_fmm", "pytential/qbx/geometry.py: QBXFMMGeometryData", "pytential/qbx/interactions.py", "pytential/qbx/target_assoc.py"]}
{"id": "C102", "title": "The point-to-point evaluator of an array context always fits the request, for sources of one precision", "statement": "For every history of get_p2p calls on one array context by sources of one precision (float32 or float64), each call returns an evaluator for exactly the requested target and source kernels, without excluding self-interactions, computing in complex numbers iff some target kernel is complex-valued, in the sources' precision; two calls return the same object iff they request the same kernels. In any history, a call returns the evaluator made by the first successful call for the same kernels and fails, with KeyError, only if there is none and it itself needs a complex type its precision lacks; a failure leaves nothing behind.", "quantifier": "all histories of calls, by all sources, with all tuples of kernels", "why_tests_cant": "the evaluators are cached in the long-lived array context; what a call returns depends on everything that ran before it", "anchors": ["pytential/source.py: PotentialSource.get_p2p", "pytential/source.py: PointPotentialSource.complex_dtype"]}
{"id": "C103", "title": "The point-to-point evaluator fits the request even if sources of different precisions share an array context", "statement": "Each get_p2p call returns an evaluator in the precision of the source it is called on, whatever other sources used the array context before.", "quantifier": "all histories of calls by sources of any precision", "why_tests_cant": "only some histories violate it", "anchors": ["pytential/source.py: PotentialSource.get_p2p"]}
{"id": "C104", "title": "The FMM computes in a number type just big enough for its kernels and densities", "statement": "If the densities of a layer potential instruction are all real or all complex (in particular if there is one), the number type both FMM executors choose for expansions and results is complex iff some kernel is complex-valued or some density is complex, and has the source geometry's precision. The number type of a nested array is that of all its leaves, and arrays of mixed types are refused. The kernel expanded by the unregularized FMM is what every target kernel is without its target derivatives; otherwise an assertion fails.", "quantifier": "all instructions whose kernels share a base kernel, all densities", "why_tests_cant": "all combinations of kernels, densities and precisions", "anchors": ["pytential/source.py: LayerPotentialSourceBase.get_fmm_output_and_expansion_dtype", "pytential/source.py: _entry_dtype", "pytential/source.py: LayerPotentialSourceBase.get_fmm_kernel", "pytential/qbx/__init__.py: QBXLayerPotentialSource.exec_compute_potential_insn_fmm", "pytential/unregularized.py: UnregularizedLayerPotentialSource.exec_compute_potential_insn_fmm"]}
{"id": "C105", "title": "The FMM's number type accommodates every density, whatever their order", "statement": "The number type chosen by the FMM executors is complex if any of the densities is.", "quantifier": "all instructions, all densities in any order", "why_tests_cant": "only a particular order of mixed densities violates it", "anchors": ["pytential/qbx/__init__.py: QBXLayerPotentialSource.exec_compute_potential_insn_fmm", "pytential/unregularized.py: UnregularizedLayerPotentialSource.exec_compute_potential_insn_fmm", "pytential/source.py: LayerPotentialSourceBase.get_fmm_output_and_expansion_dtype"]}
{"id": "C106", "title": "Kernels get exactly the arguments they need, in the order of the sources they see", "statement": "The FMM is handed, for its kernel and its source arguments, exactly the names its kernels declare, each with the value of its expression in which every per-source array (flat, per element group, or nested in object arrays) is flattened and permuted into the tree's source order while scalars are kept; a name missing from the arguments is a KeyError. Direct evaluation is handed all arguments flattened (unflattened for point sources), and the matrix builders those they ask for. FMM and direct evaluation see the same data up to the tree's source order.", "quantifier": "all kernels, argument dictionaries, evaluated values of any nesting, and source permutations", "why_tests_cant": "wrongly permuted arguments (normals, say) give plausible values for symmetric or constant data", "anchors": ["pytential/source.py: LayerPotentialSourceBase.get_fmm_expansion_wrangler_extra_kwargs", "pytential/source.py: evaluate_kernel_arguments", "pytential/symbolic/matrix.py: _get_layer_potential_args"]}
{"id": "C107", "title": "Strengths and point-source potentials correspond to densities and outputs one to one", "statement": "The strengths of a QBX source are, one per density in order, the pointwise products of quadrature weights times area elements with the density's values, in flattened node order; a density that is not a DOF array is a TypeError. A point source's execution returns, for every output in order, its name and the potential at its targets for its kernel, computed by one evaluator for the instruction's kernels from the evaluated densities and arguments, shaped like the target discretization if it is one and flat otherwise; it succeeds whenever everything it evaluates does.", "quantifier": "all densities, outputs, targets and kernel indices, and all prior histories of the array context", "why_tests_cant": "all combinations of outputs and targets; depends on the cached evaluator", "anchors": ["pytential/qbx/__init__.py: get_flat_strengths_from_densities", "pytential/source.py: PointPotentialSource.exec_compute_potential_insn"]}
{"id": "C108", "title": "Skeletonization of an operator asks for the right interactions", "statement": "skeletonize_by_proxy returns an array with one row per expression and one column per input. For block (i, j) and every cluster, the matrix decomposed for the sources has one row per proxy of that cluster, holding the entries of expression i prepared for proxies (default source to proxy targets, point-to-point, weighted, no exclusion of equal indices), then one row per neighbor, holding the entries of expression i (QBX, weighted); the matrix decomposed for the targets has the columns of the proxy sources (QBX, multiplied by the mean quadrature weight of the neighbors) and of the neighbors. All are the dependence on input j with every other input zero, on the domain of input j. The proxies are those of the cluster's ball, the neighbors exactly the points of the other clusters in it, so that with equal target and source clusters every point of another cluster is a neighbor or outside of the ball.", "quantifier": "all operators, inputs, domains, clusterings and geometries, and all builders that return blocks of entries", "why_tests_cant": "holds for every block structure, clustering and geometry", "anchors": ["pytential/linalg/skeletonization.py:make_skeletonization_wrangler", "pytential/linalg/skeletonization.py:SkeletonizationWrangler", "pytential/linalg/skeletonization.py:_evaluate_proxy_skeletonization_interaction", "pytential/linalg/skeletonization.py:skeletonize_by_proxy"]}
{"id": "C109", "title": "Skeletonization for general targets and sources", "statement": "skeletonize_by_proxy should represent all interactions for any target and source index lists, any target geometry and any collection. The code does not: neighbors of a cluster are taken from the same index list as the cluster, so with different target and source indices near sources of a target cluster (and near targets of a source cluster) are missed; proxies and neighbors of targets are computed on the domain of the input, not on the target geometry; with an auto_where without a discretization stage (the default) the operator contains interpolations, which the cluster builders cannot evaluate, and the call fails.", "quantifier": "all index lists, geometries and collections", "why_tests_cant": "depends on the combination of index lists and geometries", "anchors": ["pytential/linalg/skeletonization.py:_skeletonize_block_by_proxy_with_mats", "pytential/linalg/skeletonization.py:_evaluate_proxy_skeletonization_interaction"]}
{"id": "C110", "title": "Reductions, means, integrals and norms are the mathematical ones", "statement": "node_sum, node_min and node_max give the sum, the least and the greatest of all values of a DOF array (extrema exactly for real arrays without empty groups; other values than arrays raise AssertionError). elementwise_sum/min/max give every node the reduction over its element (node granularity) or one value per element (element granularity), and raise ValueError for center granularity. Max and Min of real numbers and arrays are taken node by node. integral(discr, x) is the sum over all nodes of area element times quadrature weight times value, the mean of a constant is the constant and the mean of real values lies between their bounds. norm(discr, x, p) is the square root of the integral of the squared magnitude (p=2) or the greatest magnitude of a component at a node (p=inf), any other p raises ValueError; with positive weights both are norms: defined for every array and every nonempty object array, nonnegative, zero only for zero, homogeneous and subadditive.", "quantifier": "all discretizations (any groups, elements, nodes), all real and complex arrays and object arrays of them", "why_tests_cant": "the norm axioms and the placement of values hold for every array and discretization", "anchors": ["pytential/symbolic/execution.py:EvaluationMapperBase._map_elementwise_reduction", "pytential/symbolic/execution.py:EvaluationMapperBase._map_minmax", "pytential/__init__.py:norm", "pytential/__init__.py:integral", "pytential/symbolic/primitives.py:integral", "pytential/symbolic/primitives.py:mean"]}
{"id": "C111", "title": "The granularity of a DOF descriptor determines the shape of the values", "statement": "A quantity evaluated for a DOF descriptor of element granularity should have one value per element. Elementwise reductions do; ones, node coordinates and weights ignore the granularity and always have one value per node.", "quantifier": "all discretization properties and descriptors", "why_tests_cant": "depends on the combination of property and granularity", "anchors": ["pytential/symbolic/execution.py:EvaluationMapperBase.map_ones", "pytential/symbolic/execution.py:EvaluationMapperBase.map_node_coordinate_component", "pytential/symbolic/execution.py:EvaluationMapperBase.map_q_weight"]}
{"id": "C112", "title": "Symbolic layer potentials and vector calculus mean the mathematical operators", "statement": "sym.S, sym.D, sym.Sp, sym.Spp, sym.Dp and int_g_dsource build expressions whose value (in any commutative ring of functions with derivations along the axes) is the layer potential of the kernel for each component of the density, with the documented default limit, the caller's kernel arguments, and, respectively: nothing more; source derivatives along the normal at the source; the first or second target derivative along the normal at the target; both; the geometric product of a multivector with the source gradient, blade by blade. sym.dd_axis, grad, div, curl, laplace, normal_derivative, normal_second_derivative and (on curves) tangential_derivative evaluate to the derivative they name. S and D accept exactly allowed limits, valid locations and exactly the kernel's arguments; potentials and their constant-coefficient combinations always have these derivatives.", "quantifier": "every calculus (ring, derivations, interpretation of kernels, geometry and variables), kernel with any source and target derivatives, density, limit, location, kernel arguments, multivector, dimension and expression built from potentials", "why_tests_cant": "Numerical tests try a few kernels on a few curves; wrong signs, swapped normals, lost arguments or a wrong innermost derivative in untested combinations of kernels, dimensions and operand types go unnoticed.", "anchors": ["pytential/symbolic/primitives.py: S, D, Sp, Spp, Dp, int_g_vec, int_g_dsource, _get_dir_vec, _insert_source_derivative_into_kernel, IntG.__post_init__, dd_axis, grad, grad_mv, laplace, div, curl, normal_derivative, normal_second_derivative, tangential_derivative", "pytential/symbolic/mappers.py: DerivativeTaker, DerivativeSourceAndNablaComponentCollector, NablaComponentToUnitVector, DerivativeSourceFinder, DerivativeBinder"]}
{"id": "C113", "title": "Layer potential constructors reject operands for which they do not mean the operator", "statement": "sym.D and the normal and tangential derivatives raise an error when the operands do not determine the operator: kernel arguments that the kernel does not have or that are given twice, a dimension that is not that of a hypersurface, an ambient dimension other than the kernel's.", "quantifier": "every kernel, argument set and dimension", "why_tests_cant": "The calls succeed and give a well-formed expression with another meaning (or the number 0).", "anchors": ["pytential/symbolic/primitives.py: D, int_g_dsource, int_g_vec, normal_derivative, tangential_derivative"]}
{"id": "C114", "title": "GMRES converges: linear rate for coercive operators, exact solution in n steps, minimal residual over Krylov spaces", "statement": "In exact arithmetic over real or complex scalars: (1) for a coercive operator (|<u,Au>| >= alpha |u|^2, |Au| <= beta |u|) the squared residual norms gmres records shrink by at least 1-(alpha/beta)^2 per iteration, with any restart length >= 1; (2) so gmres returns success within m iterations once m steps of that rate reach tol*|b|, if the stall test is disabled or cannot fire at that rate, and with stall_iterations=0 every positive tolerance is reached for some maxiter; (3) on a space of dimension n an operator with <u,Au> != 0 for u != 0 is solved exactly within n iterations when restart >= n, maxiter > n and stall_iterations is 0 or > n - in particular by the default arguments for 1 <= n <= 9; (4) up to the first restart, iterate number m lies in x0 + span(r0, A r0, ..., A^(m-1) r0) and has the least residual norm over that set.", "quantifier": "every vector space with an inner product over the reals or complex numbers, every linear operator satisfying the stated condition, every right-hand side, initial guess and argument combination, every iteration", "why_tests_cant": "Tests run a few matrices to a tolerance in floating point; the guarantee is about all operators, all restart lengths and every iterate, and depends on the double orthogonalisation, the restart bookkeeping and the slot rotation together.", "anchors": ["pytential/linalg/gmres.py:_gmres", "pytential/linalg/gmres.py:gmres"]}
{"id": "C115", "title": "The Bessel functions of the target-specific Helmholtz expansions are the spherical Bessel functions up to a relative 1.5e-20", "statement": "In exact arithmetic, whenever jfuns3d_ reports success the n-th output is (j_n(z) - j_N(z) S_n/S_N)/scale^n for n <= nterms, where N > nterms is the first order at which the upward recurrence exceeds 1e20 and S is the polynomial solution vanishing at 0 (or at 1 when |j_1|>|j_0|), and the derivatives are those of the same functions; with arrays of lwfjs+2 entries there is no access out of bounds, error 8 is reported exactly when the recurrence never exceeds 1e20, and the only divisions by zero are by the scale or S_N; below 1e-200 the values at zero are returned. For 0 < |z| <= 1, |j_n| decreases with n and the n-th value has an error of at most 1.5e-20 |j_N| <= 1.5e-20 |j_n|, the n-th derivative one of at most 2e-20 |j_n'|. For |z| <= 1 and orders up to 53 jfuns3d_wrapper and ts_helmholtz_precompute always succeed within their buffers, and the single-layer expansion computed from these values differs from the exact one by at most |charge||k| sum (2n+1) 1.5e-20 |j_n||h_n||P_n|.", "quantifier": "every complex argument, scale, order, buffer size and buffer contents; every source, center and target", "why_tests_cant": "Tests compare a handful of arguments with scipy; the rescaling steps, the choice of normalisation and the starting order depend on the argument continuously.", "anchors": ["pytential/qbx/target_specific/helmholtz_utils.c:jfuns3d_", "pytential/qbx/target_specific/impl.pyx:jfuns3d_wrapper", "pytential/qbx/target_specific/impl.pyx:ts_helmholtz_precompute", "pytential/qbx/target_specific/impl.pyx:ts_helmholtz_s"]}
{"id": "C116", "title": "The callers of jfuns3d_ return values or report an error, and never write outside of their buffers", "statement": "For every order below BUFSIZE and every argument, jfuns3d_wrapper returns the values or raises ValueError, and ts_helmholtz_precompute returns the values or aborts; neither writes outside of its arrays.", "quantifier": "every order and every complex argument", "why_tests_cant": "An overrun of a stack buffer by one or two entries usually shows nothing; which arguments trigger it depends on the growth of a recurrence.", "anchors": ["pytential/qbx/target_specific/impl.pyx:jfuns3d_wrapper", "pytential/qbx/target_specific/impl.pyx:ts_helmholtz_precompute", "pytential/qbx/target_specific/helmholtz_utils.c:jfuns3d_"]}
{"id": "C117", "title": "A QBX layer potential source remembers its geometry work without its results depending on what was executed before", "statement": "Whatever statements a QBXLayerPotentialSource executed before (successfully or not, by FMM, directly or for cost modelling), executing a statement with it gives the outcome - values or exception - that a newly made source would give, apart from what the geometry_data_inspector answers; and geometry data, successful target associations, trees, traversals and kernel data are computed at most once for the same geometries, source, targets, sides and kernels.", "quantifier": "every history of statements, every source, every collection, all settings of the source, every sequence of answers of the inspector", "why_tests_cant": "Stale or mixed-up memo entries show only for particular sequences of statements with partly equal arguments; no test suite can run all histories.", "anchors": ["pytential/qbx/__init__.py:qbx_fmm_geometry_data", "pytential/qbx/__init__.py:_tree_indep_data_for_wrangler", "pytential/qbx/__init__.py:get_target_discrs_and_qbx_sides", "pytential/qbx/geometry.py:QBXFMMGeometryData.tree", "pytential/qbx/geometry.py:QBXFMMGeometryData.traversal", "pytential/qbx/geometry.py:QBXFMMGeometryData.user_target_to_center"]}
{"id": "C118", "title": "The geometry data inspector, the warning about unrefined geometries and the cost model see every statement exactly as documented", "statement": "With the FMM, geometry_data_inspector is called exactly once per executed statement, with the geometry data it uses and after everything needed is built; if it answers false the FMM (or cost model) is not run and every output is zero. A source made for NO_REFINEMENT warns once per statement before anything else, others never. Cost modelling succeeds for exactly the statements the FMM executes, gives the same output names with zero potentials, and is refused with NotImplementedError for direct evaluation.", "quantifier": "every history, statement, source, settings and sequence of inspector answers", "why_tests_cant": "The claims are about all statements and exceptional exits; a test observes particular runs.", "anchors": ["pytential/qbx/__init__.py:_dispatch_compute_potential_insn", "pytential/qbx/__init__.py:cost_model_compute_potential_insn", "pytential/qbx/__init__.py:exec_compute_potential_insn_fmm", "pytential/qbx/__init__.py:exec_compute_potential_insn"]}
{"id": "C119", "title": "Trees are built from the refined sources, the centers and the targets, and executed statements yield the full potentials", "statement": "The tree builder gets all quadrature nodes as sources, the centers followed by the targets as targets, refine weight one for sources, centers and those targets that are not associated to a center and zero for the others, and radii - the expansion radii for the centers, zero for other targets - exactly if expansions have extent; close lists are then merged. A statement executed after any history yields for each output, at each point of its target, the contributions of every source once, by the expansion of the associated center iff the point is close.", "quantifier": "every history, statement, source and collection; boxtree's builders satisfy their contracts", "why_tests_cant": "Off-by-one slices of particle arrays change few boxes of few trees and hardly any digit of a potential; they must be right for every number of targets.", "anchors": ["pytential/qbx/geometry.py:QBXFMMGeometryData.tree", "pytential/qbx/geometry.py:QBXFMMGeometryData.target_info", "pytential/qbx/__init__.py:exec_compute_potential_insn_fmm", "pytential/qbx/__init__.py:exec_compute_potential_insn_direct"]}
{"id": "C120", "title": "A statement that can be evaluated directly can be executed by the FMM", "statement": "With valid settings, the sumpy FMM backend executes every statement whose targets can be associated: the kernels need not be translation invariant.", "quantifier": "every statement, source, settings and history", "why_tests_cant": "Whether some combination of kernels and settings makes a constructor fail needs an exhaustive analysis of the branches.", "anchors": ["pytential/qbx/fmm.py:QBXExpansionWrangler.__init__", "pytential/qbx/fmmlib.py:QBXFMMLibExpansionWrangler.__init__", "pytential/qbx/__init__.py:exec_compute_potential_insn_fmm"]}
{"id": "C121", "title": "Binding drops interpolations between equal descriptors and nothing else", "statement": "Constructing an Interpolation between different descriptors gives an interpolation of the operand. When an expression is tagged for binding, the interpolations whose descriptors become equal are left out, nothing else is, the value of the expression does not change and no geometry stays unspecified; if there are none, binding is exactly that of the other properties. Tagging fails exactly if an interpolation that becomes trivial is applied directly to one that does not.", "quantifier": "all expressions, default sources and targets, and interpretations of the node types", "why_tests_cant": "Whether descriptors coincide depends on the defaults the expression is bound with, and the constructor runs again at every node of every mapper.", "anchors": ["pytential/symbolic/primitives.py:Interpolation.__new__", "pytential/symbolic/mappers.py:LocationTagger.map_interpolation", "pytential/symbolic/mappers.py:ToTargetTagger"]}
{"id": "C122", "title": "Expressions made of proper interpolations can be bound", "statement": "An expression in which every interpolation was built between different descriptors can be tagged for binding with any explicit default source and target.", "quantifier": "all expressions and explicit defaults", "why_tests_cant": "The failure needs two nested interpolations and particular defaults.", "anchors": ["pytential/symbolic/primitives.py:Interpolation.__new__", "pytential/symbolic/mappers.py:LocationTagger.map_interpolation"]}
{"id": "C123", "title": "Calling a bound expression returns the value of the expression, end to end", "statement": "If an expression is bound to a collection and the bound expression is called with values for its variables, the result is the value of the bound expression, computed node by node, and the call fails exactly if that value cannot be computed. In particular the result does not depend on how the compiler groups and orders layer potentials, nor on variables that do not occur in the expression.", "quantifier": "all expressions that can be bound and leave no limit 'avg' and none of the compiler's names to the compiler, all collections, default locations, variable values, groupings and orders, and all interpretations of the node types for which sums are repeated additions, common subexpressions transparent and layer potentials symmetric in their (kernel, density) pairs", "why_tests_cant": "The statement composes tagging, preprocessing, compilation, scheduling and execution over arbitrary expression trees; a test runs a few of them with one set order.", "anchors": ["pytential/symbolic/execution.py:bind", "pytential/symbolic/execution.py:BoundExpression.__call__", "pytential/symbolic/execution.py:BoundExpression.eval", "pytential/symbolic/compiler.py:OperatorCompiler", "pytential/symbolic/execution.py:_prepare_expr"]}
{"id": "C124", "title": "Binding leaves explicit expressions alone and turns 'avg' into half the sum of the two sides", "statement": "An expression in which every geometry and the stages of all layer potentials are explicit, no interpolation is trivial and all limits fit is bound as it is, so that calling it returns its own value whatever the default locations are. A layer potential with the limit 'avg' on its own QBX source returns half the sum of what the potentials with the limits +1 and -1 return for the same densities and kernel arguments. If filling in unspecified locations leaves nothing else to do, that is all binding does: every node keeps its place, type and operands, and its locations come from the default source and target.", "quantifier": "all such expressions, collections, default locations, variable values and interpretations of the node types as in C123", "why_tests_cant": "It must hold for every nesting of nodes; tests bind single operators on single geometries.", "anchors": ["pytential/symbolic/execution.py:bind", "pytential/symbolic/mappers.py:QBXPreprocessor", "pytential/symbolic/mappers.py:LocationTagger", "pytential/symbolic/mappers.py:InterpolationPreprocessor"]}
{"id": "C125", "title": "Waveguide operator: the transverse wave number is the decaying root", "statement": "For every refractive index and every effective index passed to SecondKindInfZMuellerOperator, real or complex, the wave number each layer potential of a domain gets evaluates to the unique square root of n^2 - ne^2 in the closed upper half plane, nonnegative if real, so that potentials decay away from the waveguide; there is one wave number per domain, in the order given.", "quantifier": "all tuples of domain indices, all complex values of the indices, all interfaces and any principal square root", "why_tests_cant": "the choice of the branch depends on the sign of an imaginary part over the whole complex plane; a test sees a few indices", "anchors": ["pytential/symbolic/pde/maxwell/waveguide.py:SecondKindInfZMuellerOperator.__init__"]}
{"id": "C126", "title": "Waveguide operator: null space and guided modes of one interface", "statement": "For a waveguide with one interface, the four rows operator() returns are the jumps across the interface of the components of the magnetic and electric field tangential to it (along z and along the curve) of the fields of Lai and Jiang's representation, which solve Maxwell's equations with z-dependency exp(i ne z) in each medium; hence an unknown is in the null space exactly if these components are continuous. The four unknowns of an interface have distinct consecutive indices; between identical media the operator is the multiplication by n^2 and 1.", "quantifier": "all indices, all densities, all worlds of fields in which the layer potentials satisfy the jump relations and the Helmholtz equation, all numbers of interfaces for the indexing", "why_tests_cant": "signs, factors and sides of sixteen blocks for all densities and media; a numerical test sees the sum for one curve", "anchors": ["pytential/symbolic/pde/maxwell/waveguide.py:SecondKindInfZMuellerOperator.operator", "pytential/symbolic/pde/maxwell/waveguide.py:SecondKindInfZMuellerOperator.unknown_index", "pytential/symbolic/pde/maxwell/waveguide.py:SecondKindInfZMuellerOperator.make_unknown", "pytential/symbolic/primitives.py:tangential_derivative", "pytential/symbolic/primitives.py:normal_derivative"]}
{"id": "C127", "title": "Waveguide operator: every interface gets its equations", "statement": "operator() returns, for any tuple of interfaces, an array with four equations for each interface, none of which is trivial.", "quantifier": "all tuples of interfaces, of any length", "why_tests_cant": "the number of interfaces is unbounded; the only example in the repository has one", "anchors": ["pytential/symbolic/pde/maxwell/waveguide.py:SecondKindInfZMuellerOperator.operator"]}
{"id": "C128", "title": "Waveguide operator: fields and right-hand side can be obtained", "statement": "representation() returns the six field components of a domain, and prepare_rhs(), get_weight() and get_sqrt_weight() return the weighting chosen by use_l2_weighting.", "quantifier": "all operators, domains and unknowns", "why_tests_cant": "failure on every input is provable but a test only shows it for one; there is no test of the class", "anchors": ["pytential/symbolic/pde/maxwell/waveguide.py:SecondKindInfZMuellerOperator.representation", "pytential/symbolic/pde/scalar.py:L2WeightedPDEOperator.prepare_rhs", "pytential/symbolic/pde/scalar.py:L2WeightedPDEOperator.get_weight", "pytential/symbolic/pde/scalar.py:L2WeightedPDEOperator.get_sqrt_weight"]}
{"id": "C129", "title": "The dataflow graph shows exactly the data flow of the scheduled code", "statement": "dot_dataflow_graph of a compiled code declares one node per statement in execution order besides 'initial' and 'result'; for every variable a statement reads it draws exactly one arrow into that statement, labelled with the variable, from the statement that assigns it, or from 'initial' if it is an input of the code, and no other arrow into a statement; the graph has no cycles, arrows between statements follow the order of execution, and nothing leads into 'initial' or out of 'result'.", "quantifier": "all expressions the compiler accepts; all single-assignment statement lists with well-founded data flow, all priorities", "why_tests_cant": "Tests draw one graph of a hand-written code; the claim covers every program and every schedule.", "anchors": ["pytential/symbolic/compiler.py:dot_dataflow_graph", "pytential/symbolic/compiler.py:Code"]}
{"id": "C130", "title": "The dataflow graph shows what the result is computed from", "statement": "Every statement that assigns a variable the result expression reads has a path to 'result' in the graph drawn by dot_dataflow_graph.", "quantifier": "all expressions the compiler accepts", "why_tests_cant": "The existing test only uses results that are plain variables; the claim ranges over all result expressions.", "anchors": ["pytential/symbolic/compiler.py:dot_dataflow_graph"]}
{"id": "C131", "title": "The default inner product of gmres is an inner product on arbitrarily nested data", "statement": "structured_vdot(x, y) succeeds exactly for values of the same types and shapes that are numbers, numpy arrays or, with an array context, arbitrarily nested containers of its arrays, and is then the sum of conj(x_i) y_i over all numbers in x and y; on the values of one layout it is linear, conjugate symmetric and positive definite, and orthogonal families are no larger than the number of entries. So gmres without inner_product solves A x = b for data with n entries in at most n iterations, in exact arithmetic, for every linear A with <u, A u> nonzero for nonzero u.", "quantifier": "all values, all nestings, all layouts, all linear operators definite in that sense, all right-hand sides and initial guesses", "why_tests_cant": "Tests use a few fixed layouts and sizes; the claim is algebraic and ranges over all nestings and operators.", "anchors": ["pytential/linalg/gmres.py:structured_vdot", "pytential/linalg/gmres.py:gmres"]}
{"id": "C132", "title": "The default inner product accepts what it is documented to accept", "statement": "structured_vdot handles scalars and recurses down nested object arrays of host or device arrays, and ResidualPrinter() can be used as callback with any right-hand side gmres accepts.", "quantifier": "all scalars, all object arrays, all right-hand sides", "why_tests_cant": "A universally quantified claim about accepted inputs; the tests only pass numpy arrays.", "anchors": ["pytential/linalg/gmres.py:structured_vdot", "pytential/linalg/gmres.py:ResidualPrinter"]}
{"id": "C133", "title": "The direct solver solves the operator equation", "statement": "linalg.gmres.lu(op, rhs) returns the unique x with op(x) = rhs if op is linear, square, not empty and nonsingular, with and without show_spectrum, and otherwise raises LinAlgError (ValueError for a right-hand side of another length); errors of the operator are passed on.", "quantifier": "all linear operators of every size, all right-hand sides, every solver that keeps numpy.linalg.solve's contract", "why_tests_cant": "Tests try finitely many operators of fixed sizes; that the matrix built from applications to unit vectors represents the operator must hold for all of them.", "anchors": ["pytential/linalg/gmres.py: lu"]}
{"id": "C134", "title": "Proxy data can be brought to the host and used as places", "statement": "ProxyClusterGeometryData.to_numpy returns the same data with all of its arrays on the host; as_sources and as_targets return a point source or target at the data's points, next to the QBX source the data was made for.", "quantifier": "all data of the proxy generators, all collections", "why_tests_cant": "Tests convert the data of a few generators and look at the points; the claim is about every attribute for all numbers of dimensions, clusters and proxies.", "anchors": ["pytential/linalg/proxy.py: ProxyClusterGeometryData, ProxyPointSource, ProxyPointTarget"]}
{"id": "C135", "title": "Linear solves can be bound", "statement": "An expression that contains sym.IterativeInverse(...) can be bound, evaluated and used by every mapper of the package. The code does not do this: its mappers define map_inverse, but nodes are dispatched on the name of their class in snake case (expr_dataclass), i.e. map_iterative_inverse, which no mapper has. So binding (or printing) an expression fails exactly if there is a linear solve somewhere in it.", "quantifier": "all expressions; all mappers of pytential; all base classes of pymbolic that handle variables and have no methods for pytential's node names", "why_tests_cant": "a test binds particular expressions; the claim is about every expression tree, with the node anywhere in it, and about every mapper", "anchors": ["pytential/symbolic/primitives.py:IterativeInverse", "pytential/symbolic/mappers.py:IdentityMapper.map_inverse", "pytential/symbolic/mappers.py:LocationTagger.map_inverse", "pytential/symbolic/execution.py:EvaluationMapperBase.map_inverse"]}
{"id": "C136", "title": "Every expression can be printed and drawn", "statement": "str(expr) gives a text and GraphvizMapper()(expr) a drawing for every symbolic expression that can be bound. Printing does so unless there is a linear solve; drawing fails for potentials whose limit is None or 'avg' (%d), for sums, maxima and minima over nodes (the method is called map_map_node_sum) and over elements, for interpolations, interleaves, shape predicates and error expressions, unless they are inside a reference derivative, which is drawn as one box.", "quantifier": "all expression trees", "why_tests_cant": "a test prints particular expressions; which trees can be printed or drawn depends on every node that is reached", "anchors": ["pytential/symbolic/mappers.py:GraphvizMapper", "pytential/symbolic/mappers.py:StringifyMapper"]}
