{
 "claims": [
  {
   "property": "C01",
   "status": "proved",
   "theorems": [
    "C01_compare_brackets_order",
    "C01_compare_complementary",
    "C01_compare_monotone",
    "C01_compare_array_and_errors",
    "C01_sign_tests"
   ],
   "note": "exact meaning of the four operators, complementarity, monotonicity, arrays, invalid operators"
  },
  {
   "property": "C02",
   "status": "proved",
   "theorems": [
    "C02_is_integer_iff_near_integer",
    "C02_is_integer_array"
   ],
   "note": "scalar and array forms"
  },
  {
   "property": "C03",
   "status": "proved",
   "theorems": [
    "C03_find_decides_connectivity",
    "C03_unknown_elements",
    "C03_constructor",
    "C03_find_recursion_bounded"
   ],
   "note": "all histories of union/find from any duplicate-free list"
  },
  {
   "property": "C04",
   "status": "proved",
   "theorems": [
    "C04_find_is_observationally_pure",
    "C04_rank_and_class_size",
    "C04_rank_log_bound"
   ],
   "note": "purity over all later histories, rank order, class size, log bound"
  },
  {
   "property": "C05",
   "status": "proved",
   "theorems": [
    "C05_parse_inverts",
    "C05_newline"
   ],
   "note": "all four notations, any white space, optional final newline; Latin-1 characters, exact decimal weights"
  },
  {
   "property": "C06",
   "status": "proved",
   "theorems": [
    "C06_exact",
    "C06_other",
    "C06_rejects",
    "C06_only",
    "C06_unambiguous"
   ],
   "note": "exact languages, exclusive, unambiguous; ValueError exactly outside"
  },
  {
   "property": "C07",
   "status": "proved",
   "theorems": [
    "C07_reads_back",
    "C07_size"
   ],
   "note": "with and without a given size; exact decimal coefficients"
  },
  {
   "property": "C08",
   "status": "partial",
   "theorems": [
    "C08_rejects",
    "C08_duplicate",
    "C08_too_small",
    "C08_sound_partial",
    "C08_exact",
    "C08_index_zero_refuted",
    "C08_bar_refuted"
   ],
   "note": "everything outside the grammar, repeated indices and indices beyond the size are refused, placement right when no index is 0, and the outcome given entry by entry for every accepted text (C08_exact); refuted for index 0 (stored in the last entry) and for the bar (accepted, read as plus)"
  },
  {
   "property": "C09",
   "status": "partial",
   "theorems": [
    "C09_consistency_partial",
    "C09_consistent_without_removals",
    "C09_raising_calls_are_atomic",
    "C09_consistency_refuted"
   ],
   "note": "everything except \"recorded edges are adjacent\", which is refuted for remove_edge; proved in full for histories without remove_edge; raising calls are atomic in all states"
  },
  {
   "property": "C10",
   "status": "partial",
   "theorems": [
    "C10_endpoint_order_is_ignored",
    "C10_queries_read_the_dictionary",
    "C10_set_edge_weight_frame",
    "C10_add_edge_frame",
    "C10_add_edge_succeeds_iff",
    "C10_vertex_writes_frame",
    "C10_remove_edge_effect",
    "C10_removed_edge_is_gone_refuted"
   ],
   "note": "all of the read/write frame proved; the clause \"after remove_edge has_edge is false\" is false of the code and refuted; the exact effect of remove_edge is proved"
  },
  {
   "property": "C11",
   "status": "partial",
   "theorems": [
    "C11_cut_is_the_boundary",
    "C11_cut_of_complement",
    "C11_cut_of_a_name_partial",
    "C11_cut_of_a_name_refuted"
   ],
   "note": "cut/degree of sets and complements proved in full; names proved for one-character names, refuted for longer ones"
  },
  {
   "property": "C12",
   "status": "partial",
   "theorems": [
    "C12_bfs_by_distance",
    "C12_traverse_with_any_order",
    "C12_unknown_start",
    "C12_dfs_reaches_partial",
    "C12_dfs_order_refuted",
    "C12_rng_lists_all_vertices_refuted"
   ],
   "note": "bfs proved in full (and for any neighbour order); dfs order and method rng refuted"
  },
  {
   "property": "C13",
   "status": "proved",
   "theorems": [
    "C13_is_connected_decides"
   ],
   "note": ""
  },
  {
   "property": "C14",
   "status": "proved",
   "theorems": [
    "C14_is_tree_decides"
   ],
   "note": "for every enumeration order of sets"
  },
  {
   "property": "C15",
   "status": "partial",
   "theorems": [
    "C15_is_cyclic_complete_partial",
    "C15_is_cyclic_exact",
    "C15_is_cyclic_decides_refuted"
   ],
   "note": "refuted: is_cyclic is true exactly when there is any edge (proved); no false negatives (proved)"
  },
  {
   "property": "C16",
   "status": "partial",
   "theorems": [
    "C16_stable_sets",
    "C16_largest",
    "C16_solved_partial",
    "C16_found_partial",
    "C16_no_edges_refuted",
    "C16_empty",
    "C16_removed_edge_refuted"
   ],
   "note": "proved for every graph with a recorded edge (integral points are exactly the indicators of stable sets, value is the weight, best points are the largest sets, also through branch and bound when the relaxations are solved correctly; without that assumption for every graph with 4^(n/3)(1+1000(m+2n)) < 10^8 and every two-sided graph with m+2n < 10^5, weights multiples of 1/e: C16_found_partial); refuted: graphs without edges raise ValueError, removed edges still count"
  },
  {
   "property": "C17",
   "status": "partial",
   "theorems": [
    "C17_copy_is_equal",
    "C17_weights_are_independent_partial",
    "C17_adjacency_partial",
    "C17_layouts_exist",
    "C17_copy_is_independent_refuted"
   ],
   "note": "equality and independence of weights/vertices under all interleavings proved; adjacency independence refuted"
  },
  {
   "property": "C18",
   "status": "partial",
   "theorems": [
    "C18_shortest_path_always_raises",
    "C18_shortest_path_partial",
    "C18_shortest_path_refuted"
   ],
   "note": "refuted: raises for every pair of distinct vertices of every reachable graph (proved)"
  },
  {
   "property": "C19",
   "status": "partial",
   "theorems": [
    "C19_consistency_partial",
    "C19_raising_calls_are_atomic_partial",
    "C19_add_arc_effect",
    "C19_remove_arc_effect",
    "C19_failed_add_arc_refuted",
    "C19_remove_nodes_refuted"
   ],
   "note": "consistency, effects and atomicity proved for all histories of regular calls; refuted for remove_nodes and for add_arc with a bad weight"
  },
  {
   "property": "C20",
   "status": "partial",
   "theorems": [
    "C20_cuts_are_the_boundaries",
    "C20_complement",
    "C20_names_partial",
    "C20_degree_sums",
    "C20_long_names_refuted"
   ],
   "note": "cuts, complements and degree sums proved for sets; names proved for one-character names, refuted for longer ones"
  },
  {
   "property": "C21",
   "status": "partial",
   "theorems": [
    "C21_create_residual_partial",
    "C21_bad_flows_raise",
    "C21_antiparallel_refuted"
   ],
   "note": "exact residual network proved when no two arcs are antiparallel; refuted for antiparallel arcs"
  },
  {
   "property": "C22",
   "status": "partial",
   "theorems": [
    "C22_bad_arguments_raise",
    "C22_conservation_and_value_partial",
    "C22_infeasible_refuted"
   ],
   "note": "never raises, conservation and reported value proved on every network; feasibility proved for runs without a backward step and for all narrow networks; refuted in general (residual entries exchanged on backward steps)"
  },
  {
   "property": "C23",
   "status": "partial",
   "theorems": [
    "C23_forward_runs_are_maximum_partial",
    "C23_above_the_maximum_refuted"
   ],
   "note": "maximum (= a cut capacity) for runs without a backward step; refuted in general"
  },
  {
   "property": "C24",
   "status": "partial",
   "theorems": [
    "C24_narrow_networks_partial",
    "C24_stops_or_goes_backwards_partial",
    "C24_never_ends_refuted"
   ],
   "note": "terminates unless an augmenting path goes backwards; always on narrow networks; refuted in general by a 23-arc network on which the loop provably never ends"
  },
  {
   "property": "C25",
   "status": "partial",
   "theorems": [
    "C25_antiparallel_refuted",
    "C25_long_source_name_refuted"
   ],
   "note": "refuted for antiparallel arcs (capacity exceeded) and for a two-character source name (value wrong)"
  },
  {
   "property": "C26",
   "status": "partial",
   "theorems": [
    "C26_bad_arguments_raise",
    "C26_maximum_flow_partial",
    "C26_agrees_with_ford_fulkerson_partial",
    "C26_long_names_refuted"
   ],
   "note": "feasible, conserved, maximum (= a cut) with the right value, after finitely many steps, for every network without antiparallel arcs, with one-character node names and an inner node; agrees with ford_fulkerson where that is correct; refuted for longer names"
  },
  {
   "property": "C27",
   "status": "partial",
   "theorems": [
    "C27_terminates_partial",
    "C27_two_nodes_refuted",
    "C27_antiparallel_raises_refuted"
   ],
   "note": "terminates normally under the C26 hypotheses; refuted for the two-node digraph (UnboundLocalError) and for antiparallel arcs (KeyError)"
  },
  {
   "property": "C28",
   "status": "proved",
   "theorems": [
    "C28_reads_arrays",
    "C28_accepts_exactly",
    "C28_wrong_dimension",
    "C28_reads_back"
   ],
   "note": "acceptance, read-back and is_sef; array reading included"
  },
  {
   "property": "C29",
   "status": "proved",
   "theorems": [
    "C29_to_sef",
    "C29_already_sef",
    "C29_way_back"
   ],
   "note": "for every reachable program; way back given entry by entry"
  },
  {
   "property": "C30",
   "status": "partial",
   "theorems": [
    "C30_canonical_form",
    "C30_accepts",
    "C30_small_determinant_refuted"
   ],
   "note": "identity columns, zero coefficients, same solutions and same values for every basis the code accepts; refuted for a regular basis with a determinant below the tolerance (the call raises)"
  },
  {
   "property": "C31",
   "status": "partial",
   "theorems": [
    "C31_sorted_partial",
    "C31_unsorted_refuted"
   ],
   "note": "unique solution vanishing off the basis when the basis is listed in increasing order; refuted for other orders (entries are permuted)"
  },
  {
   "property": "C32",
   "status": "partial",
   "theorems": [
    "C32_solution_partial",
    "C32_exact_partial",
    "C32_tolerance_refuted"
   ],
   "note": "solution, basis and certificate exact, and optimal, for every program whose determinants and reduced costs are away from the tolerances, in particular for all programs with rational data whose scaled minors are at most K for A and L for [A | b], with K^2 + 1000KL < 1e8, such as K = L = 300 (small_data), any starting basis; in general feasible and optimal up to the tolerance term; refuted without it"
  },
  {
   "property": "C33",
   "status": "partial",
   "theorems": [
    "C33_ray_partial",
    "C33_tolerance_refuted"
   ],
   "note": "point and ray feasible, objective unbounded, for every program away from the tolerances (all with small_data: rational data, scaled minors at most K for A and L for [A | b], with K^2 + 1000KL < 1e8, such as K = L = 300); refuted for coefficients below the tolerance"
  },
  {
   "property": "C34",
   "status": "partial",
   "theorems": [
    "C34_outcomes",
    "C34_terminates_partial",
    "C34_exception_refuted"
   ],
   "note": "returns within 2^n iterations, without exception, with an optimal or unbounded certificate, for every program with small_data (rational data, scaled minors at most K for A and L for [A | b], with K^2 + 1000KL < 1e8, such as K = L = 300), including all degenerate ones (proof that the Bland rule cannot cycle); from any other basis nothing but ArithmeticError is raised and a returned solution is optimal (C34_outcomes); refuted for programs that differ by less than the tolerance (ArithmeticError)"
  },
  {
   "property": "C35",
   "status": "partial",
   "theorems": [
    "C35_decides_partial",
    "C35_dependent",
    "C35_solution_partial",
    "C35_redundant_refuted"
   ],
   "note": "optimal, unbounded or infeasible, each with an exact certificate, for every program with moderate_data (rational data, scaled minors at most K for [A | I] and L for [A | I | b], with K^2 + 1000KL < 1e8, such as K = L = 300) and independent equations (degenerate ones included); for all programs a returned solution satisfies the equations and is nonnegative and optimal up to the tolerance; C35_dependent: with dependent equations ValueError is raised when a feasible point exists, otherwise infeasibility is reported with an exact certificate (so the promise is refuted for redundant equations)"
  },
  {
   "property": "C36",
   "status": "partial",
   "theorems": [
    "C36_certificate_partial",
    "C36_small_points_partial",
    "C36_tolerance_refuted"
   ],
   "note": "right whenever the products with the columns are exactly nonnegative; with the tolerance of the code, excludes all feasible points with entry sum below 10^10 times the violation; refuted in general (tolerance 1e-10)"
  },
  {
   "property": "C37",
   "status": "partial",
   "theorems": [
    "C37_certificate_partial",
    "C37_tolerance_refuted"
   ],
   "note": "right for an exactly feasible point and an exact nonnegative direction; refuted in general (tolerances)"
  },
  {
   "property": "C38",
   "status": "partial",
   "theorems": [
    "C38_bounds_objective_partial",
    "C38_exact_partial",
    "C38_accepts_certificates",
    "C38_tolerance_refuted"
   ],
   "note": "bound with the explicit tolerance for all inputs, exact bound and optimality for exact certificates, exact certificates accepted; refuted without the tolerance term"
  },
  {
   "property": "C39",
   "status": "proved",
   "theorems": [
    "C39_weak_duality",
    "C39_involution"
   ],
   "note": "every mix of objectives, inequalities and signs"
  },
  {
   "property": "C40",
   "status": "partial",
   "theorems": [
    "C40_decides_near_feasibility_partial",
    "C40_accepts_feasible",
    "C40_exact_without_equalities_partial",
    "C40_negative_entry_refuted"
   ],
   "note": "decides the explicit near-feasibility; feasible points always accepted; exact for programs without equality rows; sign restriction in SEF has a tolerance (refuted)"
  },
  {
   "property": "C41",
   "status": "partial",
   "theorems": [
    "C41_optimal_partial",
    "C41_near_optimal_partial",
    "C41_tolerance_refuted"
   ],
   "note": "exactly optimal for every program with moderate_data (rational, scaled minors at most K for [A | I] and L for [A | I | b], with K^2 + 1000KL < 1e8, such as K = L = 300) of any shape, in particular network programs of any size (C73); for all programs feasible up to 1e-10 and optimal up to 1e-10 times the size of the competitor; refuted without that term"
  },
  {
   "property": "C42",
   "status": "partial",
   "theorems": [
    "C42_never_ends_refuted",
    "C42_diet_refuted",
    "C42_outcomes",
    "C42_complete_partial",
    "C42_dependent",
    "C42_refuted",
    "C42_inequalities_partial"
   ],
   "note": "optimum found iff it exists, None otherwise, for programs with moderate_data (rational, scaled minors at most K for [A | I] and L for [A | I | b], with K^2 + 1000KL < 1e8, such as K = L = 300) and independent equations that are in SEF, or whose SEF does not have exactly twice as many columns as rows, or are all-<= with b >= 0; C42_dependent: with dependent equations ValueError when a feasible point exists and None otherwise; C42_outcomes: with independent equations solve raises nothing for any shape. Refuted by minimise x subject to x >= 1, by every diet problem with as many foods as nutrients (C42_diet_refuted: None) and by a 4 by 4 program with an optimum on which solve never returns (C42_never_ends_refuted)"
  },
  {
   "property": "C43",
   "status": "partial",
   "theorems": [
    "C43_add_constraint",
    "C43_add_variable",
    "C43_failed_add_variable_refuted"
   ],
   "note": "effects and refusals proved; a failing add_variable leaves the sign list changed (refuted); aliasing of the non-in-place form is under C44"
  },
  {
   "property": "C44",
   "status": "partial",
   "theorems": [
    "C44_receiver_kept",
    "C44_result_private",
    "C44_built_private",
    "C44_answers_private",
    "C44_dual_refuted",
    "C44_constructor_refuted",
    "C44_relax_refuted",
    "C44_getter_refuted",
    "C44_getter_write",
    "C44_same_array_refuted"
   ],
   "note": "Proved on a heap of arrays, for every history: copy and the operations with in_place false return programs independent of the receiver in both directions, and a program built from lists or copied behaves as one that shares nothing. Histories include assignments of the caller through the arrays the properties A, b, c return, whose effect is exact (C44_getter_write). False for dual, for the constructor given ndarrays, for relax and for the properties, which all share arrays: refuted by concrete histories. Overlapping views other than transposes are not modelled."
  },
  {
   "property": "C45",
   "status": "partial",
   "theorems": [
    "C45_unchanged_when_returning_partial",
    "C45_unchanged_with_nonnegative_b_partial",
    "C45_exception_refuted"
   ],
   "note": "unchanged whenever the call returns, and always when b >= 0; refuted when an exception escapes"
  },
  {
   "property": "C46",
   "status": "partial",
   "theorems": [
    "C46_always_integral",
    "C46_feasible_partial",
    "C46_any_minors_partial",
    "C46_relax",
    "C46_optimal_partial",
    "C46_integral_relaxation_partial",
    "C46_terminates",
    "C46_minors_partial",
    "C46_min_refuted",
    "C46_negative_infeasible_refuted",
    "C46_free_refuted",
    "C46_lost_branch_refuted",
    "C46_counting_refuted",
    "C46_dependent"
   ],
   "note": "for every program the point returned is integral up to the tolerance (C46_always_integral); for both objectives and without negative variables it is feasible, and None means that there is no integral point or the relaxation is unbounded (C46_feasible_partial, C46_any_minors_partial); optimal and integral (up to 1e-10) for maximisation with nonnegative variables whenever every relaxation visited is answered correctly; ends within depth nU+1 when the integral variables are at most U; unconditional and exactly integral when all minors of the integer matrix are at most K, the right hand side and the variables have total T and K^2(1+1000T) < 10^8, with more inequalities than variables (C46_minors_partial); integral relaxation optimum returned for any objective and signs; with dependent equations ValueError whenever the relaxation has a point (C46_dependent); refuted for min, negative and free variables, relaxations with as many rows as columns, and for counting integral variables from 1"
  },
  {
   "property": "C47",
   "status": "partial",
   "theorems": [
    "C47_arithmetic_partial",
    "C47_constant",
    "C47_only_operands_change",
    "C47_bad_index",
    "C47_constant_refuted",
    "C47_sharing_refuted"
   ],
   "note": "coefficients right for every linear expression that uses each stored expression once, whole value right when numbers are added at the outside only, exact constant given otherwise, only operands can change; refuted for negated, scaled and nested constants and for shared subexpressions"
  },
  {
   "property": "C48",
   "status": "partial",
   "theorems": [
    "C48_equivalent_partial",
    "C48_sound",
    "C48_numbers",
    "C48_variable_right_refuted",
    "C48_all"
   ],
   "note": "equivalent for expressions, variables and numbers, in all reachable states; refuted when the right operand is a Variable (AttributeError)"
  },
  {
   "property": "C49",
   "status": "partial",
   "theorems": [
    "C49_compiles",
    "C49_comparisons_well_formed",
    "C49_accepts",
    "C49_program_total",
    "C49_where_refuses",
    "C49_where_all",
    "C49_failed_where_refuted",
    "C49_objective_variables_refuted",
    "C49_variables_refuted"
   ],
   "note": "objective, constraints and signs exact after every history of successful calls, exact conditions for where and whereAll to be refused; refuted: failing where changes the formulation, objective variables beyond the constraints, single variables as objective"
  },
  {
   "property": "C50",
   "status": "partial",
   "theorems": [
    "C50_steps",
    "C50_decreases",
    "C50_result_not_worse",
    "C50_terminates",
    "C50_converges",
    "C50_backtracking_refuted",
    "C50_list_refuted"
   ],
   "note": "every iterate satisfies the Armijo condition with the first admissible power of p, objective never increases, stopping rule and number of iterations exact, backtracking ends for every differentiable function when c < 1, convergence to the tolerance for smooth bounded functions with an explicit number of steps; refuted for Python lists as starting point (the list grows and the objective increases); for c = 1 the backtracking provably never ends"
  },
  {
   "property": "C51",
   "status": "partial",
   "theorems": [
    "C51_steps",
    "C51_quadratic",
    "C51_list_refuted"
   ],
   "note": "steps and stopping rule exact; quadratics solved after one step for every tolerance; LinAlgError only at a singular Hessian; refuted for Python lists as starting point"
  },
  {
   "property": "C52",
   "status": "partial",
   "theorems": [
    "C52_negates",
    "C52_newton_refuted",
    "C52_steepest_refuted",
    "C52_list_refuted"
   ],
   "note": "refuted: the result with max is exactly the negated result of the run with min, Newton returns the negated maximiser, steepest descent walks away from the maximiser, Python lists raise TypeError"
  },
  {
   "property": "C53",
   "status": "partial",
   "theorems": [
    "C53_reduces_partial",
    "C53_same_solutions",
    "C53_integers_partial",
    "C53_unique",
    "C53_multiples_partial",
    "C53_nearly_one_refuted",
    "C53_no_columns_refuted"
   ],
   "note": "for every matrix with columns: same shape and row space, echelon form with leading entries within a relative 1e-9 of 1, rows are such multiples of the (unique) reduced form; exact for integer matrices with m! E^m < 1e9; refuted: leading entries within 1e-9 of 1 are not normalised, matrices without columns raise"
  },
  {
   "property": "C54",
   "status": "partial",
   "theorems": [
    "C54_start_overwritten_partial",
    "C54_no_iteration_partial",
    "C54_refuted"
   ],
   "note": "refuted for every call that moves the point; proved: the array ends as the last iterate, and is unchanged when no iteration is allowed"
  },
  {
   "property": "C55",
   "status": "partial",
   "theorems": [
    "C55_decides",
    "C55_rref_accepted",
    "C55_recognises_results",
    "C55_integers_partial",
    "C55_order_refuted",
    "C55_nearly_one_refuted"
   ],
   "note": "exact characterisation; every reduced matrix and every result of to_rref accepted; refuted: order of the leading entries not checked, 1e-9 tolerance"
  },
  {
   "property": "C56",
   "status": "proved",
   "theorems": [
    "C56_slackness",
    "C56_certificate",
    "C56_lines"
   ],
   "note": "both directions, through strong duality over the rationals; the text of numbers in the returned string is not modelled"
  },
  {
   "property": "C57",
   "status": "partial",
   "theorems": [
    "C57_strong_duality",
    "C57_strong_duality_back",
    "C57_outcomes",
    "C57_table",
    "C57_constant_refuted"
   ],
   "note": "proved for the objective without its constant; refuted for objective values with a constant, which dual drops (C57_constant_refuted)"
  },
  {
   "property": "C58",
   "status": "partial",
   "theorems": [
    "C58_basic_solution",
    "C58_accepts",
    "C58_own_partial",
    "C58_own_refuted",
    "C58_tolerance_refuted",
    "C58_basis_feasible",
    "C58_basis_feasible_other",
    "C58_feasible_basic_refuted"
   ],
   "note": "exact characterisation of is_basic_solution with its tolerances and of is_basis_feasible for every order of the basis; is_feasible_basic_solution raises ValueError for every program with two or more variables (C58_feasible_basic_refuted); for an unsorted basis the result of compute_basic_solution is rejected (C58_own_refuted)"
  },
  {
   "property": "C59",
   "status": "partial",
   "theorems": [
    "C59_never_true",
    "C59_refuted"
   ],
   "note": "refuted: is_canonical_form_for is never true (C59_never_true), because the indices are converted twice and rows are taken instead of columns"
  },
  {
   "property": "C60",
   "status": "partial",
   "theorems": [
    "C60_value_partial",
    "C60_complete_partial",
    "C60_refuted"
   ],
   "note": "proved under the conditions of C41 and C42 (moderate_data: rational, scaled minors at most K for [A | I] and L for [A | I | b], with K^2 + 1000KL < 1e8, such as K = L = 300); refuted in general (C60_refuted)"
  },
  {
   "property": "C61",
   "status": "proved",
   "theorems": [
    "C61_random"
   ],
   "note": "the numbers drawn are arguments of the model; numbers are exact rationals"
  },
  {
   "property": "C62",
   "status": "partial",
   "theorems": [
    "C62_unchanged",
    "C62_refuses",
    "C62_points_partial",
    "C62_polygon_partial",
    "C62_outcomes_partial",
    "C62_feasible_set",
    "C62_parallel_refuted",
    "C62_exit_refuted",
    "C62_fractions_refuted",
    "C62_signs_refuted"
   ],
   "note": "whole-number data with 4 K^2 R < 10^9: points drawn are exactly the vertices, order runs around the region, outcome decided exactly; unchanged after every drawing. Refuted: parallel oblique lines raise LinAlgError and damage the object, an empty region ends the process and leaves extra inequalities, fractional coefficients are cut off, sign restrictions are ignored"
  },
  {
   "property": "C63",
   "status": "partial",
   "theorems": [
    "C63_number",
    "C63_readable_partial",
    "C63_exact_partial",
    "C63_no_rows_refuted",
    "C63_determines_partial"
   ],
   "note": "proved for programs with at least one constraint; refuted for programs without constraints, where printing raises UnboundLocalError. Numbers are exact rationals"
  },
  {
   "property": "C64",
   "status": "partial",
   "theorems": [
    "C64_answers",
    "C64_grows",
    "C64_solve_refuted",
    "C64_unasked_refuted",
    "C64_feasible_partial",
    "C64_no_verdict_refuted",
    "C64_basic",
    "C64_basis_shown_refuted",
    "C64_to_sef",
    "C64_canonical",
    "C64_simplex",
    "C64_no_rows_refuted",
    "C64_clear_partial",
    "C64_clear_refuted",
    "C64_string"
   ],
   "note": "Proved: answers and programs do not depend on the record (C64_answers), the record only grows and, except for solve, value_of and verify_unboundedness, not when show_steps is false (C64_grows), the content of the records of is_feasible, is_basic_solution, to_sef, to_canonical_form and simplex, and steps_string. Refuted: solve on a program in SEF records although told not to and records nothing on other programs (C64_solve_refuted); value_of and verify_unboundedness always record (C64_unasked_refuted); a negative is_feasible outside SEF records no verdict (C64_no_verdict_refuted); is_basic_solution shows the basis shifted by one (C64_basis_shown_refuted); clear_steps not in place never returns (C64_clear_refuted); a program without rows cannot be run with a record and two_phase_simplex fails on it in any case (C64_no_rows_refuted). The text of a numpy array is an arbitrary function."
  },
  {
   "property": "C65",
   "status": "partial",
   "theorems": [
    "C65_equal",
    "C65_equivalence",
    "C65_histories",
    "C65_queries",
    "C65_construct",
    "C65_negative_weight_refuted",
    "C65_rebuild",
    "C65_rebuild_refuted",
    "C65_repr_partial",
    "C65_repr_refuted"
   ],
   "note": "Proved: what equality decides, that it is an equivalence and a congruence for histories and queries, the exact effect of the constructor, rebuilding a consistent graph. Refuted: negative weights pass the constructor and the setters (C65_negative_weight_refuted); after remove_edge the rebuilt graph differs (C65_rebuild_refuted); names are not escaped and weights not shown in the text (C65_repr_refuted); for names without \":\", \"-\" and line breaks the text tells vertices and adjacencies (C65_repr_partial)."
  },
  {
   "property": "C66",
   "status": "partial",
   "theorems": [
    "C66_has_spanning_tree",
    "C66_minimum_spanning_tree_refuted",
    "C66_partition_refuted",
    "C66_formulate_refuted"
   ],
   "note": "Proved: has_spanning_tree (C66_has_spanning_tree). Refuted for every graph: minimum_spanning_tree returns None or raises ValueError, partition raises AttributeError on every graph with a vertex, formulate_shortest_path raises for every pair."
  },
  {
   "property": "C67",
   "status": "proved",
   "theorems": [
    "C67_auxiliary",
    "C67_phase_one",
    "C67_refuses"
   ],
   "note": "The auxiliary program is a minimisation and not flagged as SEF, so simplex_iteration, simplex and two_phase_simplex refuse it until to_sef is called (C67_refuses). Arithmetic is exact."
  },
  {
   "property": "C68",
   "status": "partial",
   "theorems": [
    "C68_refuses",
    "C68_program",
    "C68_step_partial",
    "C68_unbounded_refuted",
    "C68_infeasible_refuted",
    "C68_tolerance_refuted"
   ],
   "note": "Proved for every basis: the returned program (C68_program) and refusals (C68_refuses). For feasible bases of programs with small_data (rational, scaled minors at most K for A and L for [A | b], with K^2 + 1000KL < 1e8, such as K = L = 300): the trichotomy (C68_step_partial). Refuted: for infeasible bases the outcome \"unbounded\" is returned for an infeasible program (C68_unbounded_refuted) and ArithmeticError \"infeasible\" is raised for a program with an optimum (C68_infeasible_refuted); costs below 10^-10 make a non-optimal solution be reported (C68_tolerance_refuted)."
  },
  {
   "property": "C69",
   "status": "partial",
   "theorems": [
    "C69_one_by_one",
    "C69_sound",
    "C69_refuted",
    "C69_empty_refuted"
   ],
   "note": "Proved: the answer is exact for programs with one constraint and one variable (C69_one_by_one) and an answer True is always right (C69_sound). Refuted: two programs of equal size with more than one coefficient always raise ValueError, also a program compared with itself (C69_refuted), and a program without constraints or variables is never equal to itself (C69_empty_refuted)."
  },
  {
   "property": "C70",
   "status": "partial",
   "theorems": [
    "C70_no_answer_refuted"
   ],
   "note": "Refuted: the method ends without a return statement, so the result is None for every point of the right length, optimal or not; points of the wrong length raise ValueError (C70_no_answer_refuted)."
  },
  {
   "property": "C71",
   "status": "partial",
   "theorems": [
    "C71_copy_refuted",
    "C71_in_place",
    "C71_add_constraint",
    "C71_to_sef_refuted",
    "C71_is_feasible",
    "C71_is_feasible_refuted",
    "C71_solve_refuted",
    "C71_cutting_plane_refuted",
    "C71_repr",
    "C71_repr_glued_refuted",
    "C71_repr_list_refuted"
   ],
   "note": "Proved: methods in place keep the list of integral variables (C71_in_place), add_constraint in place removes exactly the violating points (C71_add_constraint), is_feasible accepts every admissible point (C71_is_feasible), the text determines the text of the relaxation (C71_repr). Refuted: methods not in place return a program without integrality (C71_copy_refuted), to_sef makes the slack variables integral and can leave no admissible point (C71_to_sef_refuted), is_feasible and solve ignore integrality (C71_is_feasible_refuted, C71_solve_refuted), cutting_plane returns None (C71_cutting_plane_refuted), the mark in the text is glued to the last line (C71_repr_glued_refuted) and a list of integral variables is not shown (C71_repr_list_refuted)."
  },
  {
   "property": "C72",
   "status": "partial",
   "theorems": [
    "C72_transparent",
    "C72_answers",
    "C72_in_place",
    "C72_lost_refuted",
    "C72_sef_refuted",
    "C72_iteration_refuted",
    "C72_objective_refuted",
    "C72_integer_refuted"
   ],
   "note": "Proved for histories in which no call raises: methods on copies, solvers and tests leave the described program (C72_transparent) and get the right answers (C72_answers); changes in place are seen until the next own call (C72_in_place). Refuted: the next own call undoes constraints and variables added in place (C72_lost_refuted); arrays are shared, so to_sef in place with a negative variable (C72_sef_refuted) and simplex_iteration in place (C72_iteration_refuted) make later programs wrong and change the objective and other formulations (C72_objective_refuted); integer formulations give linear programs without integrality (C72_integer_refuted)."
  },
  {
   "property": "C73",
   "status": "partial",
   "theorems": [
    "C73_optimal",
    "C73_complete_partial",
    "C73_integer_program",
    "C73_integer_complete_partial",
    "C73_dependent",
    "C73_equations_refuted",
    "C73_integer_equations_refuted"
   ],
   "note": "C73_optimal and C73_integer_program: no hypothesis on the size of the program, only that the right hand sides add up (absolutely) to at most 99 999 and the costs are multiples of 1/e with e <= 1e10. C73_equations_refuted: when everything is written as equations (a balance for every node, an equation for every supply and demand) solve raises ValueError for every such program that has a solution, because the equations are dependent (C73_dependent), and so does branch_and_bound (C73_integer_equations_refuted). That an answer is found (C73_complete_partial, C73_integer_complete_partial) needs independent equations and a shape for which the short cut of solve is harmless (C42_refuted)."
  },
  {
   "property": "C74",
   "status": "proved",
   "theorems": [
    "C74_rounding",
    "C74_evaluate",
    "C74_is_feasible",
    "C74_verify_infeasibility",
    "C74_verify_optimality",
    "C74_verify_unboundedness",
    "C74_evaluate_error",
    "C74_feasible_error",
    "C74_order_refuted",
    "C74_feasible_margin",
    "C74_answers"
   ],
   "note": "C74_evaluate, C74_is_feasible and C74_verify_*: exact for integer data whose sums stay below 2^53 (2^52 where a difference follows; equations: right hand sides up to 60000 in SEF, where numpy.isclose has a relative tolerance, and 5e8 otherwise). C74_evaluate_error, C74_feasible_margin, C74_feasible_error: any data. C74_order_refuted: 2^53 x1 + x2 - 2^53 x3 >= 1 at (1, 1, 1). Overflow, nan and infinities are excluded; the simplex method with rounding errors is C81."
  },
  {
   "property": "C75",
   "status": "partial",
   "theorems": [
    "C75_newton_refuted",
    "C75_descent",
    "C75_float_step_refuted",
    "C75_descent_refuted"
   ],
   "note": "C75_descent: what the call does from an integer array in terms of the relation full_descent (the same rounds with every step length 1). C75_newton_refuted: newton_method raises TypeError for every integer array (LinAlgError where the Hessian is singular). C75_float_step_refuted, C75_descent_refuted: steepest_descent raises as soon as the first reduction of the step or a float gradient makes the step a float. Gradients returned as lists and length-one broadcasting are not modelled."
  },
  {
   "property": "C76",
   "status": "partial",
   "theorems": [
    "C76_accepts",
    "C76_first_failure",
    "C76_rows_refuted"
   ],
   "note": "C76_accepts and C76_first_failure: raises exactly when parse does, with the exception of the first expression refused. C76_rows_refuted: the rows are dropped, the result is None for every list."
  },
  {
   "property": "C77",
   "status": "partial",
   "theorems": [
    "C77_rounding",
    "C77_order",
    "C77_complementary",
    "C77_nan_refuted",
    "C77_monotone",
    "C77_zero_exact",
    "C77_trichotomy",
    "C77_band",
    "C77_infinite_test",
    "C77_array",
    "C77_is_integer",
    "C77_is_integer_raises_refuted",
    "C77_is_integer_array"
   ],
   "note": "C77_rounding: the rounding of the model is to nearest, ties to even. C77_order, C77_complementary, C77_monotone, C77_trichotomy, C77_band, C77_infinite_test, C77_array. C77_zero_exact and C77_is_integer: against zero and for is_integer no finite double is answered differently from exact arithmetic. C77_nan_refuted: with nan all four comparisons are false. C77_is_integer_raises_refuted: is_integer raises for infinities and nan; C77_is_integer_array: which entry of an array decides."
  },
  {
   "property": "C78",
   "status": "partial",
   "theorems": [
    "C78_is_feasible",
    "C78_evaluate",
    "C78_verify_infeasibility",
    "C78_verify_unboundedness",
    "C78_verify_optimality",
    "C78_exact",
    "C78_feasible_finite",
    "C78_unboundedness_finite",
    "C78_infinite_certificate",
    "C78_nan_refuted",
    "C78_infinite_refuted",
    "C78_overflow_refuted",
    "C78_unboundedness_refuted",
    "C78_answers"
   ],
   "note": "C78_is_feasible, C78_evaluate and the three C78_verify_ theorems: no overflow for moderate sums, so C74 applies. C78_exact: whole numbers. C78_feasible_finite, C78_unboundedness_finite, C78_infinite_certificate: what infinite and nan entries can do in SEF. The last sentence fails: C78_nan_refuted (a free variable may be nan), C78_infinite_refuted (inf - inf in a row), C78_overflow_refuted (finite numbers whose products overflow), C78_unboundedness_refuted (in SEF, a bounded program declared unbounded because c d overflows to nan). C78_answers: the relations have results."
  },
  {
   "property": "C79",
   "status": "partial",
   "theorems": [
    "C79_rows",
    "C79_lengths",
    "C79_solutions_kept",
    "C79_whole",
    "C79_no_multiples",
    "C79_again",
    "C79_first_zero_refuted",
    "C79_tolerance_refuted",
    "C79_whole_refuted",
    "C79_nothing_removed",
    "C79_combination_refuted"
   ],
   "note": "C79_rows: the exact set of rows returned. C79_solutions_kept: no solution is lost. C79_whole: the same solutions for whole numbers up to 31622. C79_no_multiples: no equation 0 = 0 and no multiples among rows beginning with a number other than 0. C79_again: idempotent. C79_nothing_removed: nothing goes unless a row is nearly a multiple of another. C79_lengths: the error. Failing parts: C79_tolerance_refuted and C79_whole_refuted (an independent equation is dropped, solutions appear), C79_first_zero_refuted (rows beginning with 0 are never recognised), C79_combination_refuted (a sum of two rows stays)."
  },
  {
   "property": "C80",
   "status": "partial",
   "theorems": [
    "C80_complete_partial",
    "C80_program",
    "C80_solution_partial",
    "C80_near",
    "C80_from_zero_partial",
    "C80_inequalities_partial",
    "C80_objective_refuted",
    "C80_constant_refuted",
    "C80_none_refuted"
   ],
   "note": "well_written: expressions are linear, numbers are added at the outside only, no Variable object stands alone, the objective uses variables of the rows, signs name each variable once. C80_program: the program is the problem as written. C80_solution_partial: a returned point is optimal for whole numbers with m! M^m <= 300. C80_near: for all numbers, feasible up to 10^-10 and optimal up to 10^-10 times the size of the competitor. C80_from_zero_partial and C80_inequalities_partial: an optimal point or a correct None; C80_complete_partial: the same with independent equations, variables without signs, and subdeterminants of at most 300. Failing parts: C80_constant_refuted (a number inside a product gives an infeasible answer), C80_none_refuted (None although an optimum exists), C80_objective_refuted (variables only in the objective are refused)."
  },
  {
   "property": "C81",
   "status": "partial",
   "theorems": [
    "C81_solution",
    "C81_basis",
    "C81_whole",
    "C81_unbounded",
    "C81_unbounded_whole",
    "C81_exact",
    "C81_larger_errors",
    "C81_direction_refuted"
   ],
   "note": "C81_solution, C81_basis: errors of the reported point and basis. C81_whole: with all determinants of [A | b] at most K <= 10^9 and 32 e K w (1 + rows K) <= 1 the basis is exactly optimal and the point within 1/(4K) of the optimal basic solution; with K = 1 rounding it gives the solution. C81_unbounded, C81_unbounded_whole: the answer unbounded is right up to rounding, and exactly right for whole numbers. C81_exact: every result of the exact method is a possible result; C81_larger_errors. Failing part: C81_direction_refuted (in double arithmetic maximise x1 subject to 49 x1 - 49 x2 = 49 gives the direction (1, 0), which violates the row by 49, because the reduced cost of a basic column comes out as 2^-53). The sizes of the ratios and termination with rounding are under C83. Not followed: overflow. The dual vector reported with an optimal point is under C82."
  },
  {
   "property": "C82",
   "status": "partial",
   "theorems": [
    "C82_certificate",
    "C82_two_phase",
    "C82_infeasible",
    "C82_unbounded",
    "C82_verdict",
    "C82_solve",
    "C82_solve_none_partial",
    "C82_exact",
    "C82_exact_solve",
    "C82_solve_none_refuted"
   ],
   "note": "C82_certificate, C82_two_phase: point and dual certificate next to exact ones. C82_infeasible, C82_unbounded, C82_verdict: the verdict is exactly right. C82_solve: the same for solve and programs in any form, the accuracy being required of the standard form. C82_solve_none_partial: None is right unless the standard form has exactly twice as many columns as rows; in that case solve starts at the second half of the columns and the claim fails already without errors (C42_diet_refuted, C82_solve_none_refuted). C82_exact, C82_exact_solve: every result of the exact methods of LinearModel.v is a possible result, so the theorems apply to them. Termination with rounding is under C83. Not followed: overflow."
  },
  {
   "property": "C83",
   "status": "partial",
   "theorems": [
    "C83_hangs_refuted",
    "C83_simplex",
    "C83_rejected",
    "C83_two_phase",
    "C83_independent",
    "C83_returned",
    "C83_returned_two_phase",
    "C83_verdict",
    "C83_solve_partial",
    "C83_solve_verdict_partial",
    "C83_returned_solve",
    "C83_exact",
    "C83_exact_two_phase",
    "C83_exact_solve",
    "C83_tiny_refuted",
    "C83_program_partial"
   ],
   "note": "C83_simplex, C83_rejected: simplex from a feasible basis and from a rejected one. C83_two_phase, C83_independent, C83_verdict: two_phase_simplex. C83_solve_partial, C83_solve_verdict_partial, C83_program_partial: solve, with conditions on the standard form and on the program as given; left out is the standard form with exactly twice as many columns as rows (other than all \"<=\" with nonnegative right-hand sides), where solve may run forever already without errors (C83_hangs_refuted, C42_never_ends_refuted). C83_returned, C83_returned_two_phase, C83_returned_solve: what a run returns is a result of C81 and C82, so their theorems hold of it. C83_exact, C83_exact_two_phase, C83_exact_solve: what the exact methods return is the outcome of a run for every bound on the errors. C83_tiny_refuted: without whole numbers the claim fails (a coefficient of 1e-10 makes simplex raise ValueError or return, depending on the errors of the determinant). The certificates of runs are under C82. Not followed: overflow and LinAlgError for matrices with a determinant that is not zero."
  },
  {
   "property": "C84",
   "status": "partial",
   "theorems": [
    "C84_always_integral",
    "C84_any_partial",
    "C84_branch_partial",
    "C84_any_minors_partial",
    "C84_minors_partial",
    "C84_exact",
    "C84_exact_branch_and_bound"
   ],
   "note": "C84_always_integral: for every program and all errors the point returned is integral up to the tolerance. C84_minors_partial: the statement above. C84_any_partial, C84_any_minors_partial: for both objectives runs end, raise nothing and return a point next to an integral feasible one, or None when there is none. C84_branch_partial: the same for any program whose relaxations are solved reliably (C83), with equations allowed; without a bound on the variables what a run returns is still right. C84_exact, C84_exact_branch_and_bound: what exact branch and bound returns is the outcome of a run for every bound on the errors. Missing: the best value for minimisation, and free or negative variables, where branch and bound is wrong already with exact numbers (C46_min_refuted, C46_free_refuted), and relaxations with exactly twice as many columns as rows in standard form, where solve may run forever (C42)."
  },
  {
   "property": "C85",
   "status": "partial",
   "theorems": [
    "C85_exact",
    "C85_partial"
   ],
   "note": "C85_partial: the statement above. C85_exact: what the script returns with exact arithmetic is the outcome of a run for every bound on the errors. Missing: scripts whose standard form has exactly twice as many columns as rows (other than all \"<=\" that hold at zero), where solve may run forever already without errors (C42), dependent equations, where solve raises (C42_dependent), and the scripts refuted in C80. Building the program is exact."
  },
  {
   "property": "C86",
   "status": "partial",
   "theorems": [
    "C86_forward_runs_near",
    "C86_narrow_never_backwards",
    "C86_preflow_exact",
    "C86_preflow_maximum_partial",
    "C86_forward_runs_exact",
    "C86_narrow_networks_partial",
    "C86_ford_fulkerson_never_raises",
    "C86_preflow_raises_refuted",
    "C86_capacity_exceeded_refuted",
    "C86_forward_runs_stop",
    "C86_narrow_networks_near"
   ],
   "note": "C86_preflow_exact, C86_forward_runs_exact: for capacities that are whole numbers, or multiples of one power of two, less than 2^53 of them together, the run on doubles is the run on exact numbers, iteration by iteration; so C86_preflow_maximum_partial and C86_narrow_networks_partial. C86_ford_fulkerson_never_raises: with any doubles, antiparallel arcs included, ford_fulkerson returns one double per arc or goes on augmenting. C86_forward_runs_near: if no path goes backwards, which C86_narrow_never_backwards shows for narrow networks, the flow returned respects the capacities, is conserved and has the largest value, and the value reported is right, up to explicit rounding errors. C86_forward_runs_stop: such a run stops after at most m (2 m + 3) paths, m the number of arcs, whatever the capacities. C86_narrow_networks_near: so on narrow networks ford_fulkerson always returns a maximum flow up to rounding errors. For capacities like 0.1 the claim is false: C86_preflow_raises_refuted (KeyError, because 0.1 + 0.2 comes in and 0.1 and 0.2 go out), C86_capacity_exceeded_refuted (0.8600000000000001 through an arc of capacity 0.86). Not modelled: overflow and the correction term of sum in Python 3.12 and later (no sum in the refutations has two nonzero terms; where runs are exact so are the sums; the bound on the value reported is for plain sums)."
  }
 ]
}