{
 "claims": [
  {
   "property": "C01",
   "status": "proved",
   "theorems": [
    "schedule_total",
    "schedule_sound",
    "schedule_maximal",
    "schedule_complete"
   ],
   "note": "Statement list, dependencies and priorities are arbitrary; statement identity is a number (Python id). schedule_complete needs a rank function on the data flow."
  },
  {
   "property": "C02",
   "status": "proved",
   "theorems": [
    "discards_exact",
    "execute_no_keyerror"
   ],
   "note": "For arbitrary statement semantics; exactness of the discard sets at every step and absence of KeyError/AssertionError from execute's own code."
  },
  {
   "property": "C03",
   "status": "proved",
   "theorems": [
    "execute_computes_solution",
    "program_solution_unique",
    "missing_input_raises",
    "inputs_exact"
   ],
   "note": "Values and statement semantics are universally quantified; statements read only their declared dependencies and assign exactly their assignees."
  },
  {
   "property": "C04",
   "status": "proved",
   "theorems": [
    "compile_total",
    "compile_and_run_correct"
   ],
   "note": "full statement, for arbitrary value oracles; hypotheses met by ex_hyps/ex_oracles in CompProps.v"
  },
  {
   "property": "C05",
   "status": "partial",
   "theorems": [
    "user_names_captured_refuted",
    "rename_inputs_partial"
   ],
   "note": "full property refuted (name capture of _exprN and CSE prefixes); renaming invariance proved when no old or new name is a possible temporary"
  },
  {
   "property": "C06",
   "status": "partial",
   "theorems": [
    "eval_context_reuse_refuted",
    "eval_context_effect_partial"
   ],
   "note": "The property is false of the code: execute() deletes dead inputs from the caller's dict, so BoundExpression.eval cannot be repeated with the same dict. The exact effect on the dict is proved."
  },
  {
   "property": "C07",
   "status": "proved",
   "theorems": [
    "cse_caches_transparent",
    "cse_caches_monotone",
    "evaluation_scope_uncached",
    "eval_short_cut_never_taken",
    "cse_caches_transparent_refuted"
   ],
   "note": "stated property (closed long-lived subexpressions) fully proved for all histories; without the free-variable restriction refuted"
  },
  {
   "property": "C08",
   "status": "partial",
   "theorems": [
    "forced_limit_distinguished_refuted",
    "forced_limit_compile_refuted",
    "intg_eq_equivalence_partial",
    "intg_eq_exact_partial"
   ],
   "note": "full property refuted (hash(-1)==hash(-2)); equivalence relation, hash consistency and exactness without -1 proved"
  },
  {
   "property": "C09",
   "status": "proved",
   "theorems": [
    "intg_construction",
    "intg_lengths_checked_refuted"
   ],
   "note": "full statement; extra finding: length mismatch of densities/source kernels is not rejected"
  },
  {
   "property": "C10",
   "status": "proved",
   "theorems": [
    "gmres_tracks_true_residual",
    "gmres_success_means_small_residual",
    "gmres_residuals_never_grow",
    "gmres_never_nonmonotonic_exact"
   ],
   "note": "exact arithmetic; any linear operator, inner product, restart, initial guess. Also: residuals never grow in a real inner product space."
  },
  {
   "property": "C11",
   "status": "proved",
   "theorems": [
    "gmres_outcome_determined_by_history",
    "gmres_work_bounded",
    "gmres_stall_window_one",
    "gmres_failure_means_large_residual_refuted"
   ],
   "note": "iteration_count + 1 history entries except at 'max iterations' (maxiter entries, count maxiter-1); restart=0 gives IndexError; stall window is one shorter than documented; a run out of iterations may return the exact solution with success=False"
  },
  {
   "property": "C12",
   "status": "proved",
   "theorems": [
    "muller_bounded_and_validated",
    "muller_deflate_roots",
    "muller_deflate_raises",
    "deflation_divides_by_product",
    "muller_step_exact_on_quadratics"
   ],
   "note": "NaN handled through the hypothesis nan_poisons (IEEE comparison with NaN is false); the NaN retry loop is proved dead; a root that is not found raises RuntimeError"
  },
  {
   "property": "C13",
   "status": "proved",
   "theorems": [
    "index_list_of_clusters",
    "index_list_checks_last_start",
    "index_list_proper_starts",
    "index_list_partition_refuted"
   ],
   "note": "only the last start is validated: improper starts are accepted (refuted part)"
  },
  {
   "property": "C14",
   "status": "proved",
   "theorems": [
    "cartesian_product_layout",
    "flat_blocks_consistent",
    "cluster_counts_checked",
    "flat_cluster_take_bounds_refuted"
   ],
   "note": "for every schedule of the kernel's writes; flat_cluster_take does not validate negative cluster numbers"
  },
  {
   "property": "C15",
   "status": "proved",
   "theorems": [
    "sort_arrays_together_correct",
    "sort_arrays_together_rejects",
    "sort_arrays_together_empty_refuted"
   ],
   "note": "empty arrays lose their number"
  },
  {
   "property": "C16",
   "status": "proved",
   "theorems": [
    "dofdesc_equality",
    "dofdesc_hash_consistent",
    "dofdesc_init_spec",
    "dofdesc_copy_spec",
    "dofdesc_to_stage_spec",
    "as_dofdesc_spec"
   ],
   "note": "full statement"
  },
  {
   "property": "C17",
   "status": "proved",
   "theorems": [
    "binding_resolves_locations",
    "binding_leaves_nothing_unspecified",
    "binding_idempotent"
   ],
   "note": "full statement, per occurrence; see C44 for what does not hold"
  },
  {
   "property": "C18",
   "status": "proved",
   "theorems": [
    "qbx_average_is_average",
    "qbx_limits_validated",
    "qbx_limits_after",
    "qbx_other_sources_unchanged",
    "single_source_no_average_left"
   ],
   "note": "full statement; limits range over the values the IntG constructor accepts; see C45"
  },
  {
   "property": "C19",
   "status": "partial",
   "theorems": [
    "unregularized_only_own_source_refuted",
    "unregularized_removes_limits"
   ],
   "note": "false of the code: the preprocessor ignores its own geometry; the exact behaviour is proved"
  },
  {
   "property": "C20",
   "status": "proved",
   "theorems": [
    "upsampling_of_layer_potential",
    "upsampling_leaves_others",
    "upsampling_changes_only_stages",
    "upsampling_preserves_locations",
    "upsampling_complete",
    "upsampling_errors"
   ],
   "note": "full statement; see C46 for what fails outside these conditions"
  },
  {
   "property": "C21",
   "status": "proved",
   "theorems": [
    "derivative_is_derivative",
    "derivative_of_linear_combination_succeeds",
    "derivative_rejects_varying_products"
   ],
   "note": "full statement; see C47"
  },
  {
   "property": "C22",
   "status": "proved",
   "theorems": [
    "construction",
    "construction_complete",
    "lookup"
   ],
   "note": "any arguments, any state"
  },
  {
   "property": "C23",
   "status": "proved",
   "theorems": [
    "same_discretization",
    "refined_once",
    "caches_consistent",
    "request_outcome",
    "request_succeeds"
   ],
   "note": "arbitrary histories of API calls with failing refinements"
  },
  {
   "property": "C24",
   "status": "proved",
   "theorems": [
    "copying",
    "merging",
    "adding",
    "originals_unchanged",
    "places_permanent"
   ],
   "note": "arbitrary histories"
  },
  {
   "property": "C25",
   "status": "proved",
   "theorems": [
    "connections",
    "unsupported_rejected"
   ],
   "note": "chains from staged descriptors; unstaged ones are C52"
  },
  {
   "property": "C26",
   "status": "proved",
   "theorems": [
    "stage1_refinement",
    "stage2_refinement",
    "refinement_terminates",
    "no_refinement",
    "error_on_refinement_stage1",
    "error_on_refinement_stage2",
    "round_schedule_independent",
    "maxiter_zero_checks_nothing",
    "quad_stage2_discretization"
   ],
   "note": "kernels modelled as folds over an arbitrary permutation of work items; trees assumed to find what the area query should find"
  },
  {
   "property": "C27",
   "status": "proved",
   "theorems": [
    "association_correct",
    "association_total",
    "association_independent"
   ],
   "note": "Tree builder and box queries enter through their contracts (tree_ok, queries_ok); distances are exact rationals, no rounding."
  },
  {
   "property": "C28",
   "status": "proved",
   "theorems": [
    "association_correct"
   ],
   "note": "Failed case of the theorem."
  },
  {
   "property": "C29",
   "status": "proved",
   "theorems": [
    "target_layout",
    "gathered_targets"
   ],
   "note": "FmmProps.v"
  },
  {
   "property": "C30",
   "status": "proved",
   "theorems": [
    "incidence_lists"
   ],
   "note": "FmmProps.v, under boxtree's tree contract fmm_ok"
  },
  {
   "property": "C31",
   "status": "proved",
   "theorems": [
    "fmm_potentials",
    "fmm_outputs",
    "fmm_succeeds"
   ],
   "note": "FmmProps.v; expansions are symbolic (multisets of source contributions), so truncation error is out of scope; boxtree's tree and lists enter through the contract fmm_ok at the points the tree is built for"
  },
  {
   "property": "C32",
   "status": "proved",
   "theorems": [
    "scipy_op_spec",
    "flatten_unflatten",
    "unflatten_flatten",
    "matvec_spec"
   ],
   "note": "MatVecProps.v"
  },
  {
   "property": "C33",
   "status": "proved",
   "theorems": [
    "built_matrix_applies",
    "built_matrix_applies_single",
    "accepted_expressions_are_linear",
    "builder_column_applies",
    "nonlinear_products_raise",
    "nonlinear_functions_raise",
    "combinations_are_accepted"
   ],
   "note": "over an arbitrary commutative ring of numbers (no rounding); QBX and point-to-point builders"
  },
  {
   "property": "C34",
   "status": "proved",
   "theorems": [
    "blocks_are_assembled",
    "assembly_succeeds_iff"
   ],
   "note": ""
  },
  {
   "property": "C35",
   "status": "proved",
   "theorems": [
    "copy_preserves",
    "copy_overrides",
    "copy_succeeds_iff",
    "unreg_copy_overrides",
    "default_source"
   ],
   "note": ""
  },
  {
   "property": "C36",
   "status": "proved",
   "theorems": [
    "cost_vectorised_counts",
    "cost_reference_counts",
    "cost_backends_agree",
    "cost_stages_sum_boxes",
    "numbers_of_coefficients"
   ],
   "note": "Costs in an arbitrary commutative ring; counts are natural numbers (no overflow). boxtree's base costs are a parameter."
  },
  {
   "property": "C37",
   "status": "proved",
   "theorems": [
    "neighbors_exact",
    "neighbors_set",
    "neighbors_cluster_count"
   ],
   "note": "boxtree's tree and area query enter through contracts (PgSpec.tree_of, covers); distances and the slack comparison are abstract"
  },
  {
   "property": "C38",
   "status": "proved",
   "theorems": [
    "proxy_numbering",
    "proxy_numbering_empty",
    "tree_partition",
    "plain_partition",
    "plain_partition_balanced",
    "plain_partition_space_curve"
   ],
   "note": "np.linspace's floating-point entries enter through PgSpec.good_points; balance is proved for exact entries"
  },
  {
   "property": "C39",
   "status": "proved",
   "theorems": [
    "skeletons_are_subsets",
    "skeletonize_succeeds",
    "single_cluster_rejected",
    "id_options_checked",
    "blocks_of_operator",
    "target_interaction_matrix",
    "source_interaction_matrix",
    "weighted_proxy_option",
    "skeletonize_succeeds_iff"
   ],
   "note": "scipy's decomposition is a parameter with its documented shape as hypothesis; matrix entries are parameters, over any ring with non-finite values."
  },
  {
   "property": "C40",
   "status": "proved",
   "theorems": [
    "proxy_keeps_weighted_potentials",
    "proxy_drops_other_terms",
    "proxy_layer_potential",
    "proxy_succeeds",
    "proxy_rejects_operator_products",
    "proxy_locations"
   ],
   "note": "full statement; constant factors must be nonzero; pymbolic's flattened_sum/product are modelled"
  },
  {
   "property": "C41",
   "status": "proved",
   "theorems": [
    "interleave_alternates",
    "interleave_in_place",
    "interleave_rejects",
    "interleave_from_nodes"
   ],
   "note": "Kernel instances run in an arbitrary permutation from arbitrary memory."
  },
  {
   "property": "C42",
   "status": "proved",
   "theorems": [
    "direct_outputs",
    "direct_succeeds",
    "direct_agrees_with_fmm"
   ],
   "note": "FmmProps.v"
  },
  {
   "property": "C43",
   "status": "partial",
   "theorems": [
    "gmres_solves_nonsingular_refuted",
    "gmres_always_converges",
    "gmres_exact_in_n_steps",
    "gmres_defaults_solve_small_systems"
   ],
   "note": "false of the code for operators that are merely invertible (rotation by 90 degrees); exact for operators with <u,Au> <> 0 (C114)"
  },
  {
   "property": "C44",
   "status": "partial",
   "theorems": [
    "binding_keeps_stages_refuted",
    "binding_replaces_markers_refuted",
    "binding_resolves_locations",
    "binding_leaves_nothing_unspecified"
   ],
   "note": "false of the code; witnesses proved; the positive part is C17"
  },
  {
   "property": "C45",
   "status": "partial",
   "theorems": [
    "multi_source_no_average_left_refuted",
    "single_source_no_average_left",
    "averages_left_iff",
    "no_average_left"
   ],
   "note": "False with two QBX sources; true with one. averages_left_iff: the exact condition for any places (an average survives iff no place is unregularized and its source is not a QBX source of the collection or it is inside of an argument of a potential with another source); no_average_left: the property when no such nesting occurs."
  },
  {
   "property": "C46",
   "status": "partial",
   "theorems": [
    "upsampling_complete_refuted",
    "upsampling_preserves_locations_refuted",
    "upsampling_terminates_refuted",
    "upsampling_complete",
    "upsampling_preserves_locations",
    "upsampling_errors"
   ],
   "note": "false of the code; the positive part is C20"
  },
  {
   "property": "C47",
   "status": "partial",
   "theorems": [
    "derivative_of_solution_refuted",
    "derivative_is_derivative"
   ],
   "note": "false of the code: solutions with constant right-hand side count as constant (About the method map_inverse itself; C135: with pymbolic's default method names it is not reached.)"
  },
  {
   "property": "C48",
   "status": "partial",
   "theorems": [
    "proxy_only_potentials_refuted",
    "proxy_strips_every_potential_refuted",
    "proxy_density_locations_refuted",
    "proxy_directional_target_refuted",
    "proxy_keeps_weighted_potentials",
    "proxy_drops_other_terms",
    "proxy_layer_potential",
    "proxy_locations"
   ],
   "note": "false of the code in each part; witnesses proved; the positive part is C40"
  },
  {
   "property": "C49",
   "status": "partial",
   "theorems": [
    "warning_means_violation_refuted",
    "warning_means_rounds_used"
   ],
   "note": "false of the code: the final mesh is never checked after the last round; warning_means_rounds_used says exactly what the warning means and that one more round decides"
  },
  {
   "property": "C50",
   "status": "partial",
   "theorems": [
    "single_target_accepted_refuted",
    "single_target_rejected"
   ],
   "note": "false of the code: every single TargetBase raises (AssertionError)"
  },
  {
   "property": "C51",
   "status": "partial",
   "theorems": [
    "tuple_source_registered_refuted",
    "tuple_registered_if_distinct"
   ],
   "note": "false of the code when both defaults name the same geometry; true otherwise"
  },
  {
   "property": "C52",
   "status": "partial",
   "theorems": [
    "unstaged_connections_refuted",
    "unstaged_connections"
   ],
   "note": "false of the code: the links start at the unrefined density discretization"
  },
  {
   "property": "C53",
   "status": "partial",
   "theorems": [
    "failure_reported_partial",
    "failure_reported_refuted"
   ],
   "note": "The code indexes tree-order coordinates with user_source_ids; holds when the two orders agree on the sources, refuted otherwise (AssertionError raised, element not flagged)."
  },
  {
   "property": "C54",
   "status": "proved",
   "theorems": [
    "tree_class_lists",
    "tree_class_lists_nodup"
   ],
   "note": ""
  },
  {
   "property": "C55",
   "status": "proved",
   "theorems": [
    "forced_limit_side"
   ],
   "note": "FmmProps.v; hypotheses: nonnegative tunnel radii, dist p p = 0"
  },
  {
   "property": "C56",
   "status": "partial",
   "theorems": [
    "optional_limit_succeeds_refuted",
    "forced_limit_fails_refuted",
    "forced_limit_direct_partial",
    "fmm_succeeds",
    "direct_succeeds",
    "fmm_outputs",
    "direct_outputs"
   ],
   "note": "REFUTED for the FMM path by counterexamples; the direct path does fail for +-1 without center (forced_limit_direct_partial). Exact conditions for both paths: fmm_succeeds, direct_succeeds; what the values are: fmm_outputs, direct_outputs."
  },
  {
   "property": "C57",
   "status": "proved",
   "theorems": [
    "unreg_direct_outputs",
    "unreg_direct_succeeds",
    "unreg_fmm_outputs",
    "unreg_fmm_succeeds_only"
   ],
   "note": "UnregProps.v"
  },
  {
   "property": "C58",
   "status": "partial",
   "theorems": [
    "unreg_lpot_target_refuted",
    "unreg_fmm_succeeds_only"
   ],
   "note": "REFUTED: AttributeError in the FMM path (get_geometry instead of get_target_or_discretization); unreg_fmm_succeeds_only says which targets the FMM path accepts"
  },
  {
   "property": "C59",
   "status": "partial",
   "theorems": [
    "scalar_components_refuted",
    "none_domain_raises_refuted"
   ],
   "note": "REFUTED: _prepare_domains turns None into a descriptor, so no operator has a scalar component and None raises"
  },
  {
   "property": "C60",
   "status": "partial",
   "theorems": [
    "obj_array_argument_partial",
    "obj_array_argument_refuted"
   ],
   "note": "proved for n >= 2, REFUTED for n = 1 (the bare component is passed)"
  },
  {
   "property": "C61",
   "status": "partial",
   "theorems": [
    "inverse_value_refuted",
    "inverse_solution_partial"
   ],
   "note": "REFUTED: the value is gmres's result record; its solution attribute does solve the equation (About the method map_inverse itself; C135: with pymbolic's default method names it is not reached.)"
  },
  {
   "property": "C62",
   "status": "proved",
   "theorems": [
    "find_array_context_spec",
    "find_array_context_errors"
   ],
   "note": "MatVecProps.v"
  },
  {
   "property": "C63",
   "status": "partial",
   "theorems": [
    "built_matrix_applies",
    "built_matrix_applies_single",
    "powers_of_inputs_accepted_refuted",
    "quotients_by_vectors_refuted",
    "products_of_inputs_refuted",
    "context_coefficients_dropped_refuted"
   ],
   "note": "true for the class of C33; the refuted theorems give four classes of expressions for which the code returns a wrong matrix silently"
  },
  {
   "property": "C64",
   "status": "partial",
   "theorems": [
    "combinations_are_accepted",
    "assembly_succeeds_iff",
    "unused_inputs_refuted",
    "mixed_coefficients_refuted",
    "interpolated_coefficients_refuted",
    "derivatives_of_inputs_refuted",
    "matrix_finds_methods_iff",
    "weighted_operators_refuted"
   ],
   "note": "true for combinations with number or node coefficients; the refuted theorems give linear expressions the code refuses; matrix_finds_methods_iff: the builders have methods for coordinates, reference derivatives, potentials and (dense) interpolations only"
  },
  {
   "property": "C65",
   "status": "proved",
   "theorems": [
    "cluster_entries_right",
    "cluster_agrees_with_full",
    "cluster_accepts"
   ],
   "note": ""
  },
  {
   "property": "C66",
   "status": "partial",
   "theorems": [
    "cluster_entries_right",
    "cluster_affine_density_refuted",
    "cluster_product_density_refuted",
    "cluster_function_density_refuted",
    "cluster_accepts_nonlinear_refuted",
    "cluster_nodal_coefficient_refuted",
    "cluster_vector_taken_for_block_refuted"
   ],
   "note": "true for the class of C65; refuted otherwise: nonlinear and affine densities are accepted silently, nodal coefficients raise AttributeError, vectors of the block's size are mistaken for blocks"
  },
  {
   "property": "C67",
   "status": "partial",
   "theorems": [
    "copy_preserves",
    "copy_overrides",
    "unreg_copy_drops_factory_refuted",
    "unreg_copy_fmm_off_ignored_refuted",
    "copy_zero_leaf_weight_ignored_refuted"
   ],
   "note": "true for QBX sources and truthy overrides (C35); refuted: unregularized copies drop the expansion factory and ignore fmm_level_to_order=False, QBX copies ignore a leaf weight of zero"
  },
  {
   "property": "C68",
   "status": "partial",
   "theorems": [
    "cost_report_is_empty_refuted",
    "calibration_lookup_fails_refuted",
    "cost_run_succeeds_iff_partial"
   ],
   "note": "Refuted: the mapper never stores a cost, so the report is always empty; and it looks parameters up by target kernels while they are stored by source kernels. cost_run_succeeds_iff_partial: exactly when a run succeeds."
  },
  {
   "property": "C69",
   "status": "proved",
   "theorems": [
    "calibration_scales_own_stage",
    "calibration_missing_parameter",
    "calibration_groups_by_source_kernels"
   ],
   "note": "boxtree's least-squares estimate is a parameter."
  },
  {
   "property": "C70",
   "status": "proved",
   "theorems": [
    "proxy_balls_total",
    "proxy_balls_enclose",
    "qbx_proxy_balls_enclose",
    "qbx_proxy_balls_total",
    "make_pgen_spec",
    "make_pgen_rejects"
   ],
   "note": "over Coq's reals (stdlib axioms), no rounding; the 3-D reference points come from pytools and are assumed on the unit sphere"
  },
  {
   "property": "C71",
   "status": "partial",
   "theorems": [
    "plain_partition_only_curves_refuted",
    "plain_partition_max_particles_refuted",
    "plain_partition_nonempty_refuted",
    "neighbors_outside_own_cluster_refuted",
    "radius_in_norm_type_refuted",
    "radius_factor_checked_refuted",
    "proxy_ball_contains_cluster_iff"
   ],
   "note": "the code violates each of these; witnesses are proved"
  },
  {
   "property": "C72",
   "status": "proved",
   "theorems": [
    "cluster_errors_are",
    "skeletonization_error_is",
    "block_error_identity",
    "exact_reconstruction"
   ],
   "note": "Over any commutative ring; that a block factors through proxies and neighbors (a fact of potential theory) is a hypothesis."
  },
  {
   "property": "C73",
   "status": "partial",
   "theorems": [
    "isolated_cluster_refuted",
    "source_tolerance_refuted",
    "clamped_rank_refuted",
    "scipy_version_refuted",
    "skeletonize_succeeds_iff",
    "skeleton_ranks_are_target_ranks"
   ],
   "note": "The property is violated by the code: the refuted theorems are the witnesses. Proved besides: exactly when skeletonization succeeds, and that both sides have the rank of the target decomposition, whatever the sources."
  },
  {
   "property": "C74",
   "status": "proved",
   "theorems": [
    "centers_flank_nodes",
    "radii_of_stretch",
    "centers_at_radius"
   ],
   "note": "Over any commutative ring (with 1/2 for the radii); the stretch factor and normals are parameters."
  },
  {
   "property": "C75",
   "status": "proved",
   "theorems": [
    "bvp_constructor",
    "dirichlet_representation_formula",
    "neumann_representation_formula",
    "dirichlet_operator_is_limit",
    "dirichlet_equation_is_boundary_condition",
    "neumann_operator_is_limit",
    "neumann_equation_is_boundary_condition",
    "dirichlet_weighting",
    "dirichlet_total",
    "neumann_total",
    "bvp_weights"
   ],
   "note": "PdeProps.v; the weighted improved Neumann operator with alpha<>0, where the code is wrong, is C76"
  },
  {
   "property": "C76",
   "status": "partial",
   "theorems": [
    "dirichlet_operator_ignores_kwargs",
    "dirichlet_kwargs_passed_on_refuted",
    "neumann_weighted_improved_refuted",
    "neumann_default_options_refuted",
    "neumann_representation_density_on_source_refuted",
    "prepare_rhs_matches_operator_refuted",
    "plate_normals_of_source_refuted",
    "ch_inherited_methods_refuted",
    "ch_factor_not_one",
    "beltrami_kwargs_refuted",
    "beltrami_kwargs_fail"
   ],
   "note": "Refuted: witnesses that the code does not do this (PdeProps2-4.v)"
  },
  {
   "property": "C77",
   "status": "proved",
   "theorems": [
    "plate_constructor",
    "plate_operator_is_limit",
    "plate_total",
    "ch_operator_defect",
    "ch_representation_formula",
    "ch_boundary_data"
   ],
   "note": "PdeProps3.v"
  },
  {
   "property": "C78",
   "status": "proved",
   "theorems": [
    "beltrami_constructor",
    "beltrami_subclasses",
    "beltrami_operator_meaning",
    "laplace_beltrami_operator_meaning",
    "beltrami_equation",
    "laplace_beltrami_equation",
    "beltrami_total",
    "laplace_beltrami_total"
   ],
   "note": "PdeProps4.v"
  },
  {
   "property": "C79",
   "status": "proved",
   "theorems": [
    "stokeslet_apply_formula",
    "stokeslet_derivative_formula",
    "stokeslet_pressure_formula",
    "stresslet_apply_formula",
    "stresslet_derivative_formula",
    "stresslet_pressure_formula",
    "stresslet_stress_is_traction",
    "stokeslet_stress_formula",
    "stokeslet_stress_is_traction",
    "stokes_wrappers_total",
    "stokes_constructor",
    "hsiao_kress_equation",
    "hsiao_kress_velocity",
    "hebeker_equation",
    "stokes_operators_total"
   ],
   "note": "PdeProps5.v; kernels (signs and scalings of sumpy) are not modelled"
  },
  {
   "property": "C80",
   "status": "proved",
   "theorems": [
    "derivative_axes_validated",
    "area_element_is_sqrt_gram",
    "normal_is_exterior_unit_normal",
    "first_fundamental_form_is_gram",
    "second_fundamental_form_is_II",
    "shape_operator_is_weingarten",
    "forms_only_for_surfaces",
    "mean_curvature_is_trace",
    "small_inverse_is_inverse",
    "small_eigenvalues_are_roots",
    "sym_eigenvalues_are_roots",
    "small_matrix_errors"
   ],
   "note": "GeoProps.v; exact real arithmetic; the numerical derivative is an arbitrary operator of the world"
  },
  {
   "property": "C81",
   "status": "proved",
   "theorems": [
    "stretch_factor_is_operator_norm",
    "stretch_factor_other_dims",
    "stretch_rotation_invariant",
    "stretch_vertex_order_invariant",
    "expansion_radius_is_fraction_of_stretch",
    "center_radius_is_node_radius",
    "tunnel_inside_danger_zone_inside_disk",
    "centers_at_radius_along_normal",
    "interpolation_contract"
   ],
   "note": "GeoProps.v, GeoProps2.v, GeoProps3.v; radii at the descriptor's own granularity and at centers"
  },
  {
   "property": "C82",
   "status": "proved",
   "theorems": [
    "tangential_basis_orthonormal",
    "tangential_projection_is_orthogonal",
    "tangential_components",
    "tangential_projection_removes_normal",
    "cross_product_meaning",
    "n_cross_twice",
    "integral_is_quadrature",
    "area_is_quadrature_of_one",
    "mean_is_average"
   ],
   "note": "GeoProps2.v"
  },
  {
   "property": "C83",
   "status": "partial",
   "theorems": [
    "curve_max_curvature",
    "surface_max_curvature_partial",
    "surface_max_curvature_refuted",
    "max_curvature_parametrization_invariance_refuted"
   ],
   "note": "The code applies the symmetric eigenvalue formula to the shape operator's matrix, which is symmetric only in special parametrizations: right for curves and for symmetric matrices, wrong on a sheared parabolic cylinder ((1+sqrt 5)/2 instead of 1)."
  },
  {
   "property": "C84",
   "status": "partial",
   "theorems": [
    "derivative_axes_validated",
    "derivative_axes_are_axes_refuted"
   ],
   "note": "Only order and uniqueness of the axes are checked; (-1, -5) is accepted."
  },
  {
   "property": "C85",
   "status": "proved",
   "theorems": [
    "point_source_is_maxwell_field",
    "plane_wave_is_maxwell_field",
    "pec_scattered_field_is_maxwell_field",
    "pec_equations_are_boundary_conditions",
    "mueller_equations_are_transmission_conditions",
    "mueller_fields_are_maxwell_fields",
    "mueller_needs_two_domains_and_six_unknowns"
   ],
   "note": "Analysis enters as hypotheses: derivations of a ring of fields, the Helmholtz equation and the jump relations of the single layer. waveguide.py (its operator raises on every call) and generalized_debye.py (dead code) are not modelled."
  },
  {
   "property": "C86",
   "status": "partial",
   "theorems": [
    "mueller_representation_is_maxwell_field_partial",
    "mueller_representation_is_maxwell_field_refuted",
    "mueller_representation_iff"
   ],
   "note": "representation uses i k eps and -i k mu where operator uses i omega mu eps; exactly right iff the coefficients agree on the potentials (mueller_representation_iff); refuted for epsilon 4, mu 1."
  },
  {
   "property": "C87",
   "status": "proved",
   "theorems": [
    "legvals_legendre",
    "legendre_bounded"
   ],
   "note": "over the reals (no rounding)"
  },
  {
   "property": "C88",
   "status": "proved",
   "theorems": [
    "ts_laplace_s_expansion",
    "ts_laplace_s_converges"
   ],
   "note": "over the reals"
  },
  {
   "property": "C89",
   "status": "proved",
   "theorems": [
    "ts_laplace_sp_gradient",
    "ts_laplace_d_gradient"
   ],
   "note": "over the reals"
  },
  {
   "property": "C90",
   "status": "proved",
   "theorems": [
    "spherical_functions",
    "h3dall_hankel",
    "ts_helmholtz_s_expansion",
    "ts_helmholtz_sp_gradient",
    "ts_helmholtz_d_gradient"
   ],
   "note": "the Bessel values of jfuns3d_ enter through a stated contract (jfuns_contract); that the series converges to the Helmholtz kernel (addition theorem) is not claimed"
  },
  {
   "property": "C91",
   "status": "proved",
   "theorems": [
    "driver_rejects",
    "driver_idle",
    "driver_terminates",
    "driver_deterministic",
    "driver_laplace",
    "driver_helmholtz"
   ],
   "note": "each target belongs to one center and index arrays are in range (contracts of boxtree/target association)"
  },
  {
   "property": "C92",
   "status": "partial",
   "theorems": [
    "tsqbx_any_order_refuted",
    "tsqbx_target_at_center_refuted",
    "tsqbx_tiny_wavenumber_refuted",
    "tsqbx_laplace_handled_iff_partial",
    "tsqbx_helmholtz_handled_iff_partial",
    "tsqbx_helmholtz_potential_handled_iff",
    "tsqbx_helmholtz_gradient_handled_iff",
    "tsqbx_helmholtz_double_layer_handled_iff",
    "tsqbx_tiny_wavenumber_double_layer_refuted"
   ],
   "note": "the code violates it: order >= 64 writes out of bounds, a target at its center gives nan, |k||s-c| < 1e-15 writes through NULL (potential, gradient) or returns zero for every dipole (double layer); the handled_iff theorems give the exact conditions under which each of the six routines computes finite values"
  },
  {
   "property": "C93",
   "status": "proved",
   "theorems": [
    "fmmlib_kernels_accepted",
    "fmmlib_kernels_error",
    "fmmlib_kernels_digested",
    "fmmlib_instruction_accepted",
    "fmmlib_wrangler_built"
   ],
   "note": "Full characterisation of acceptance, error kinds and the recorded data."
  },
  {
   "property": "C94",
   "status": "proved",
   "theorems": [
    "fmmlib_potentials",
    "fmmlib_agrees_with_sumpy",
    "tsqbx_setting_immaterial",
    "fmmlib_one_density",
    "fmmlib_frames_checked"
   ],
   "note": "Expansions carry the center, scale and order they are formed with; any mismatch would be recorded as garbage. Assumes boxtree's contract (fmm_ok, levels_ok) and at most one expansion order per level; truncation error is not modelled."
  },
  {
   "property": "C95",
   "status": "proved",
   "theorems": [
    "device_potentials",
    "device_schedule_independent"
   ],
   "note": "Kernel programs on a small-step machine with arbitrary interleaving; contracts of boxtree (fmm_ok, levels_ok, arrays_ok), met by tree5. Coefficients of one expansion are one cell; stores are atomic; one density."
  },
  {
   "property": "C96",
   "status": "proved",
   "theorems": [
    "kernels_terminate",
    "kernels_complete",
    "center_box_lookup",
    "used_centers_picked",
    "used_centers_some"
   ],
   "note": "Termination holds for all programs of the kernel language (rank multiset); race_example shows that the machine exhibits races."
  },
  {
   "property": "C97",
   "status": "proved",
   "theorems": [
    "device_association",
    "device_association_total"
   ],
   "note": "kernels of target_assoc.py as programs on the device machine of KrnModel; every distribution and interleaving; out-of-bounds reads return arbitrary values; boxtree's area query template is a loop over the leaf boxes the query visits"
  },
  {
   "property": "C98",
   "status": "proved",
   "theorems": [
    "device_threshold_check",
    "device_disks_check",
    "device_quad_check",
    "device_stage1_deterministic",
    "device_stage1_refinement",
    "device_stage1_error",
    "device_stage2_deterministic",
    "device_stage2_refinement",
    "device_no_refinement"
   ],
   "note": "kernels of refinement.py on the device machine of KrnModel; every distribution and interleaving; C's break is a private variable switching the loop off"
  },
  {
   "property": "C99",
   "status": "proved",
   "theorems": [
    "device_cost_counts",
    "device_cost_deterministic",
    "device_cost_agrees_with_reference"
   ],
   "note": "costs are exact rationals instead of floating point numbers"
  },
  {
   "property": "C100",
   "status": "proved",
   "theorems": [
    "device_target_numbers",
    "device_direct_outputs",
    "device_direct_deterministic",
    "device_direct_succeeds"
   ],
   "note": "sumpy's P2P and LayerPotential kernels by their results; at least one quadrature node (the kernel assumes it)"
  },
  {
   "property": "C101",
   "status": "proved",
   "theorems": [
    "device_fmm_outputs",
    "device_fmm_deterministic",
    "device_fmm_succeeds",
    "device_direct_agrees_with_fmm"
   ],
   "note": "sumpy's and boxtree's own kernels by their results"
  },
  {
   "property": "C102",
   "status": "proved",
   "theorems": [
    "p2p_every_history",
    "p2p_first_success_wins"
   ],
   "note": "Memoization in the array context modelled as a dictionary keyed by the inner function's arguments; sumpy's P2P is an opaque record of what it was constructed with."
  },
  {
   "property": "C103",
   "status": "partial",
   "theorems": [
    "p2p_first_request_partial",
    "p2p_mixed_precision_refuted",
    "p2p_suits_iff"
   ],
   "note": "False of the code: the cache key leaves out the source's precision, so after a single-precision source requested the same kernels a double-precision source is handed a single-precision evaluator; proved for the first request for given kernels"
  },
  {
   "property": "C104",
   "status": "proved",
   "theorems": [
    "fmm_dtype_fits",
    "fmm_dtype_one_density",
    "entry_dtype_sound",
    "fmm_kernel_common"
   ],
   "note": "sumpy's rule that a derivative of a kernel is complex-valued iff its base is, is part of the model."
  },
  {
   "property": "C105",
   "status": "partial",
   "theorems": [
    "fmm_dtype_first_density_partial",
    "fmm_dtype_mixed_refuted",
    "fmm_dtype_fits_iff"
   ],
   "note": "False of the code: only the first density's type is looked at, so a real density followed by a complex one makes the FMM compute in real numbers; proved: the type is right for the first density"
  },
  {
   "property": "C106",
   "status": "proved",
   "theorems": [
    "fmm_arguments",
    "fmm_arguments_missing",
    "direct_arguments",
    "fmm_and_direct_arguments_agree",
    "matrix_arguments"
   ],
   "note": "sumpy's gather_arguments and arraycontext's container traversal are modelled as documented there."
  },
  {
   "property": "C107",
   "status": "proved",
   "theorems": [
    "strengths_of_densities",
    "strengths_type_error",
    "point_source_outputs",
    "point_source_succeeds"
   ],
   "note": "Calling a P2P object is an arbitrary function."
  },
  {
   "property": "C108",
   "status": "proved",
   "theorems": [
    "block_matrices",
    "wrangler_contents",
    "operator_skeletons",
    "interactions_covered",
    "interaction_requirements",
    "proxy_interaction_errors",
    "single_cluster_errors"
   ],
   "note": "Parameters: cluster builders with the contract 'serves' (blocks of entries; C65 proves it for linear combinations of layer potentials), boxtree, ball centers/radii (C70)."
  },
  {
   "property": "C109",
   "status": "partial",
   "theorems": [
    "different_index_sets_refuted",
    "target_geometry_refuted",
    "default_stage_refuted",
    "operator_skeletons",
    "interactions_covered"
   ],
   "note": "Refuted as stated; C108 is the part that holds."
  },
  {
   "property": "C110",
   "status": "proved",
   "theorems": [
    "node_reductions",
    "node_reductions_of_arrays_only",
    "elementwise_reductions",
    "elementwise_center_refused",
    "max_min_values",
    "integral_value",
    "integral_of_number",
    "mean_value",
    "norm_values",
    "norm_is_a_norm"
   ],
   "note": "Exact complex arithmetic; the area element is a leaf (its value: C80); the device's max/min of complex or empty arrays are assumed to raise."
  },
  {
   "property": "C111",
   "status": "partial",
   "theorems": [
    "reduction_granularity",
    "property_granularity_refuted",
    "property_granularity_iff"
   ],
   "note": "Refuted for ones, coordinates and weights, which ignore the granularity."
  },
  {
   "property": "C112",
   "status": "proved",
   "theorems": [
    "axis_derivative_is_derivative",
    "gradient_is_gradient",
    "laplacian_is_laplacian",
    "divergence_is_divergence",
    "curl_is_curl",
    "curl_needs_three",
    "combinations_have_derivatives",
    "combinations_have_div_and_curl",
    "potentials_have_laplacians",
    "normal_derivative_is_normal_derivative",
    "second_normal_derivative_is_second_normal_derivative",
    "normal_derivatives_exist",
    "tangential_derivative_of_a_curve",
    "tangential_derivative_exists",
    "single_layer_is_single_layer",
    "single_layer_accepts",
    "source_derivative_blades",
    "double_layer_is_double_layer",
    "double_layer_accepts",
    "S_prime_is_normal_derivative_of_S",
    "S_double_prime_is_second_normal_derivative_of_S",
    "D_prime_is_normal_derivative_of_D",
    "sources_of_a_factor_agree",
    "sources_of_different_derivatives_refused",
    "sources_of_one_derivative_accepted"
   ],
   "note": "Value theorems over every calculus plus acceptance/success theorems. D and int_g_dsource are stated for kernels without an argument named dsource_vec, matching ambient dimension and hypersurfaces; the other cases are C113. Sp, Spp, Dp for scalar densities."
  },
  {
   "property": "C113",
   "status": "partial",
   "theorems": [
    "direction_replaces_normal_refuted",
    "direction_argument_dropped_refuted",
    "inner_direction_replaced_refuted",
    "argument_given_twice_refuted",
    "tangential_derivative_of_a_surface_refuted",
    "curve_in_space_refuted",
    "wrong_ambient_dim_refuted",
    "double_layer_is_double_layer",
    "double_layer_accepts",
    "normal_derivatives_exist",
    "tangential_derivative_of_a_curve"
   ],
   "note": "The code violates this: the refuted theorems are witnesses; the others (also listed for C112) are the cases in which the operator is what it says"
  },
  {
   "property": "C114",
   "status": "proved",
   "theorems": [
    "gmres_linear_rate",
    "gmres_converges",
    "gmres_always_converges",
    "gmres_exact_in_n_steps",
    "gmres_defaults_solve_small_systems",
    "gmres_minimises_residual"
   ],
   "note": "Exact arithmetic: real or complex scalars, Coq's reals for norms; uses the standard library's axioms of the reals."
  },
  {
   "property": "C115",
   "status": "proved",
   "theorems": [
    "spherical_recurrence",
    "jfuns3d_values",
    "jfuns3d_outcomes",
    "jfuns3d_small_argument",
    "jfuns3d_accuracy",
    "bessel_decay",
    "jfuns3d_wrapper_values",
    "jfuns3d_wrapper_rejects",
    "ts_helmholtz_s_computed"
   ],
   "note": "Doubles are real numbers."
  },
  {
   "property": "C116",
   "status": "partial",
   "theorems": [
    "jfuns3d_wrapper_overflow_partial",
    "jfuns3d_wrapper_order_refuted",
    "jfuns3d_wrapper_large_refuted",
    "jfuns3d_wrapper_unreported_refuted",
    "precompute_order_63_refuted"
   ],
   "note": "False of the code: lwfjs = BUFSIZE is passed with buffers of BUFSIZE entries, but entries 0..lwfjs+1 may be written. jfuns3d_wrapper_overflow_partial is the exact condition; every |z| >= 127 and every order >= 63 overflows, and the error is never reported. C115 has the range in which it holds (|z| <= 1, order <= 53)."
  },
  {
   "property": "C117",
   "status": "proved",
   "theorems": [
    "history_is_invisible",
    "session_outcomes",
    "no_repeated_work"
   ],
   "note": "After every history; the inspector's answers are an arbitrary sequence (session_outcomes: if it always answers the same)."
  },
  {
   "property": "C118",
   "status": "proved",
   "theorems": [
    "unrefined_warning",
    "inspector_decides",
    "inspected_at_most_once",
    "cost_run_direct",
    "cost_run"
   ],
   "note": "The log of a statement is compared with what was logged before."
  },
  {
   "property": "C119",
   "status": "proved",
   "theorems": [
    "tree_built_from",
    "traversal_merged",
    "close_targets_weigh_nothing",
    "executed_potentials",
    "executed_directly"
   ],
   "note": "boxtree's builders appear through the contract builder_ok."
  },
  {
   "property": "C120",
   "status": "partial",
   "theorems": [
    "fmm_statement_executes",
    "bad_backend",
    "noninvariant_kernel_refuted"
   ],
   "note": "False of the code: fmm.py 155-165 uses the name traversal unbound for kernels that are not translation invariant (noninvariant_kernel_refuted). fmm_statement_executes says exactly when the FMM executes a statement."
  },
  {
   "property": "C121",
   "status": "proved",
   "theorems": [
    "interpolation_constructor",
    "interpolation_constructor_trivial",
    "binding_drops_trivial_interpolations",
    "binding_fails_iff_stacked",
    "binding_without_trivial_interpolations"
   ],
   "note": "TagProps.v; relates the exact taggers to the simplified one of SymModel.v, so C17-C21 hold for expressions without interpolations that become trivial"
  },
  {
   "property": "C122",
   "status": "partial",
   "theorems": [
    "nested_interpolation_refuted",
    "binding_fails_iff_stacked"
   ],
   "note": "False of the code: __new__ returns the operand, Python then calls __init__ on it because it is an Interpolation, and it becomes its own operand; binding_fails_iff_stacked is the exact condition"
  },
  {
   "property": "C123",
   "status": "proved",
   "theorems": [
    "bound_call_is_value",
    "bound_call_deterministic",
    "bound_call_depends_on_its_variables"
   ],
   "note": "End to end for expressions without derivative operators (DerivativeBinder is C113). Not modelled: the shortcut for an outermost cached common subexpression (its cache is C07) and the conversion of results to array-context arrays."
  },
  {
   "property": "C124",
   "status": "proved",
   "theorems": [
    "settled_expression_bound_as_is",
    "settled_call_is_value",
    "average_call_is_half_the_sum",
    "binding_fills_in_locations"
   ],
   "note": "For expressions without derivative operators."
  },
  {
   "property": "C125",
   "status": "proved",
   "theorems": [
    "wg_wave_number",
    "wg_domains",
    "wg_wave_number_square"
   ],
   "note": "For any principal square root; the branch is unique."
  },
  {
   "property": "C126",
   "status": "proved",
   "theorems": [
    "wg_unknown_index",
    "wg_fields_maxwell",
    "wg_operator_is_jump",
    "wg_null_space",
    "wg_identical_media"
   ],
   "note": "Jump relations and Helmholtz equation of the potentials are hypotheses (classical potential theory); the interface is the default geometry, as with auto_where in the repository's experiment. The model assumes units in which the vacuum wave number is one, as the operator does."
  },
  {
   "property": "C127",
   "status": "partial",
   "theorems": [
    "wg_operator_other_interfaces_refuted",
    "wg_operator_no_interfaces_refuted"
   ],
   "note": "Refuted: the return statement of operator() stands inside the loop, so all rows of all interfaces but the first are zero, and without interfaces the result is None."
  },
  {
   "property": "C128",
   "status": "partial",
   "theorems": [
    "wg_representation_refuted",
    "wg_representation_with_k_vacuum_refuted",
    "wg_weighting_refuted"
   ],
   "note": "Refuted: representation() reads self.k_vacuum, which is never set, and fails in diff_axis if somebody sets it; the inherited weighting methods read self.use_l2_weighting, which this constructor never sets."
  },
  {
   "property": "C129",
   "status": "proved",
   "theorems": [
    "dataflow_graph_exact",
    "dataflow_graph_acyclic",
    "dataflow_initial_exact",
    "compiled_codes_have_dataflow"
   ],
   "note": "For every single-assignment statement list with well-founded data flow and its schedule; compiled_codes_have_dataflow shows every compiled code meets the hypotheses."
  },
  {
   "property": "C130",
   "status": "partial",
   "theorems": [
    "dataflow_result_partial",
    "dataflow_result_refuted",
    "dataflow_path_to_result_iff",
    "dataflow_result_complete",
    "dataflow_no_path_means"
   ],
   "note": "Refuted: for -S(x) the result reads the potential but is drawn as coming from 'initial' only (get_orig_node looks at plain variables only). Proved: one arrow per entry of the result, from the assigning statement when the entry is a variable; dataflow_path_to_result_iff is the exact condition for a path, and dataflow_result_complete the case (every entry a variable) in which the property holds."
  },
  {
   "property": "C131",
   "status": "proved",
   "theorems": [
    "vdot_value",
    "vdot_inner_product",
    "gmres_structured"
   ],
   "note": "vdot_value excludes the pair (numeric numpy array, object array), whose product numpy computes; actx.np.vdot is modelled as documented (sum over all device arrays)."
  },
  {
   "property": "C132",
   "status": "partial",
   "theorems": [
    "vdot_mixed_scalars_refuted",
    "vdot_object_arrays_refuted",
    "residual_printer_refuted"
   ],
   "note": "Refuted: numbers of different types raise TypeError; object arrays without array context raise ValueError whatever they hold, and (as actx.np.vdot is modelled: it refuses what is not a device array) object arrays with host numbers or arrays never succeed; ResidualPrinter() without inner product works exactly for numbers and numpy arrays (residual_printer_refuted is the exact condition)."
  },
  {
   "property": "C133",
   "status": "proved",
   "theorems": [
    "lu_solves",
    "lu_rejects_iff",
    "lu_wrong_length",
    "lu_operator_error",
    "gauss_contract",
    "lu_column_errors"
   ],
   "note": "numpy.linalg.solve is a parameter with a contract (LuSpec.v), met by Gaussian elimination (gauss_contract); sumpy's build_matrix is modelled from its documented behaviour (external)."
  },
  {
   "property": "C134",
   "status": "partial",
   "theorems": [
    "proxies_to_numpy_partial",
    "proxies_to_numpy_refuted",
    "proxies_to_numpy_twice",
    "proxies_as_places"
   ],
   "note": "Refuted: to_numpy passes cluster_radii on unconverted. Proved: points, centers and radii are converted with their values, everything else is unchanged; as_sources and as_targets exactly."
  },
  {
   "property": "C135",
   "status": "partial",
   "theorems": [
    "no_method_for_solutions_refuted",
    "solutions_cannot_be_bound_refuted",
    "tagging_finds_methods_iff",
    "evaluation_finds_methods_iff",
    "later_mappers_find_methods",
    "collecting_finds_methods_iff",
    "deciding_finds_methods_iff"
   ],
   "note": "Refuted: no mapper has map_iterative_inverse; exact: methods are found exactly if no linear solve occurs. Rests on pymbolic's rule for mapper_method (DispModel.v). The models of map_inverse (C47, C61 and the taggers) say what these methods do when called."
  },
  {
   "property": "C136",
   "status": "partial",
   "theorems": [
    "printing_succeeds_iff",
    "drawing_succeeds_iff",
    "drawing_refuted"
   ],
   "note": "Refuted for drawing; both exact conditions proved."
  }
 ]
}
