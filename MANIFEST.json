{
 "claims": [
  {
   "property": "C01",
   "status": "proved",
   "theorems": [
    "C01_evaluation_accounting"
   ],
   "note": "Proved for every history of tell calls that return normally."
  },
  {
   "property": "C02",
   "status": "proved",
   "theorems": [
    "C02_history_running_optimum"
   ],
   "note": "Proved for every history of tell calls that return normally."
  },
  {
   "property": "C03",
   "status": "proved",
   "theorems": [
    "C03_recommendation_first_best",
    "C03_recommendation_any_history"
   ],
   "note": "Proved for normal histories in terms of the told values, and for histories with raising calls in terms of the rows of data."
  },
  {
   "property": "C04",
   "status": "proved",
   "theorems": [
    "C04_run_terminates",
    "C04_run_budget",
    "C04_run_returns_recommendation"
   ],
   "note": "Proposals, objective and model fitting are arbitrary functions of the iteration and the state."
  },
  {
   "property": "C05",
   "status": "partial",
   "theorems": [
    "C05_target_stop_partial",
    "C05_budget_stop",
    "C05_stop_is_permanent",
    "C05_target_stop_max_refuted",
    "C05_target_missed_max_refuted"
   ],
   "note": "Refuted when maximising (_compare tests f1 < f2 in both directions): the run stops before the target is reached and does not stop when it is. Exact when minimising; stopping is permanent in both directions."
  },
  {
   "property": "C06",
   "status": "partial",
   "theorems": [
    "C06_tell_atomic_refuted",
    "C06_tell_short_values_refuted",
    "C06_tell_atomic_partial"
   ],
   "note": "Refuted: the flat-fitness error and too few values leave data/eval_count changed. Proved: history, iteration count, stop flags and earlier rows are preserved."
  },
  {
   "property": "C07",
   "status": "proved",
   "theorems": [
    "C07_warm_data_free_and_first"
   ],
   "note": "Prefix preservation covers all later tell calls, raising ones included."
  },
  {
   "property": "C08",
   "status": "partial",
   "theorems": [
    "C08_n_eval_list_refuted",
    "C08_n_eval_exact_partial",
    "C08_n_eval_list_off_by_one"
   ],
   "note": "Refuted in list mode, where every row has n_eval 2; exact in dict mode."
  },
  {
   "property": "C09",
   "status": "partial",
   "theorems": [
    "C09_labels_unique_refuted",
    "C09_labels_unique_partial",
    "C09_default_labels_distinct"
   ],
   "note": "Refuted: run tells without labels and labels restart at 0 in each iteration. Holds if the caller labels all points differently."
  },
  {
   "property": "C10",
   "status": "proved",
   "theorems": [
    "C10_ask_count",
    "C10_ask_errors"
   ],
   "note": "For n >= 1; hypothesis: a sample of n points has at most n rows. Also proved: the only exceptions are the empty-proposal error and NotImplementedError for batches of a class without a batch strategy."
  },
  {
   "property": "C11",
   "status": "proved",
   "theorems": [
    "C11_no_repeat"
   ],
   "note": "For every sampler and acquisition outcome, with and without fixed values."
  },
  {
   "property": "C12",
   "status": "partial",
   "theorems": [
    "C12_batch_distinct_refuted",
    "C12_design_distinct_refuted",
    "C12_batch_distinct_partial",
    "C12_design_distinct_partial"
   ],
   "note": "Refuted: random top-up points are not compared with the other points of the batch, nor across the passes of the initial design. Proved for points that went through one duplicate check together."
  },
  {
   "property": "C13",
   "status": "partial",
   "theorems": [
    "C13_fixed_exact_refuted",
    "C13_fixed_exact_partial"
   ],
   "note": "Refuted for a real variable with a precision (rounded after the value was filled in). Proved for values that rounding leaves alone, together with the origin and order of the free components."
  },
  {
   "property": "C14",
   "status": "proved",
   "theorems": [
    "C14_in_space"
   ],
   "note": "Hypotheses: samples and non-empty inner-optimizer results lie in the space, lb <= ub."
  },
  {
   "property": "C15",
   "status": "proved",
   "theorems": [
    "C15_evaluate_order",
    "C15_evaluate_multi"
   ],
   "note": "Single objective for every completion order; several objectives for the zip of the per-objective lists."
  },
  {
   "property": "C16",
   "status": "partial",
   "theorems": [
    "C16_seed_reproducible_refuted",
    "C16_seed_zero_refuted",
    "C16_seed_reproducible_partial"
   ],
   "note": "Refuted for every optimizer seed when the space has none (each slice of the space re-seeds NumPy from entropy), and for seed 0. Proved when the space carries a seed."
  },
  {
   "property": "C17",
   "status": "proved",
   "theorems": [
    "C17_is_pareto_efficient"
   ],
   "note": "Values are rationals; the loop is modelled with its index and shown to terminate."
  },
  {
   "property": "C18",
   "status": "proved",
   "theorems": [
    "C18_fast_non_dominated_sort"
   ],
   "note": "The first front is empty only for an empty input."
  },
  {
   "property": "C19",
   "status": "partial",
   "theorems": [
    "C19_nd2_dominated_refuted",
    "C19_nd2_duplicates_refuted",
    "C19_nd2_input_refuted",
    "C19_nd2_complete_partial",
    "C19_nd2_exact_partial",
    "C19_nd2_input_partial"
   ],
   "note": "Refuted: dominated points with equal first coordinate, dropped duplicates, negated input. Proved: completeness up to equal coordinates, exactness for distinct first coordinates (for every argsort), input untouched when maximising."
  },
  {
   "property": "C20",
   "status": "proved",
   "theorems": [
    "C20_is_non_dominated"
   ],
   "note": "Both values of deduplicate, every shape."
  },
  {
   "property": "C21",
   "status": "partial",
   "theorems": [
    "C21_pareto_set_refuted",
    "C21_dominated_point_refuted",
    "C21_boundary_refuted",
    "C21_exact_partial"
   ],
   "note": "Refuted: with five objectives and a mutually non-dominated set in which two points agree in the first three objectives the computed value can be too small and depends on the order (C21_pareto_set_refuted); with four objectives a dominated input point can lower the value (C21_dominated_point_refuted); with six objectives and points that touch the reference point it can be too large although all values are different (C21_boundary_refuted). For one to three objectives the statement is proved in full, as C145 and C146; for more objectives it is proved for points that are inside and separated (C21_exact_partial, C220)."
  },
  {
   "property": "C22",
   "status": "proved",
   "theorems": [
    "C22_two_objectives",
    "C22_fast_two_objectives",
    "C22_nondominated_cells",
    "C22_dominated_cells"
   ],
   "note": "The 2-D branch of NondominatedPartitioning, FastNondominatedPartitioning with two objectives, and the two cell functions on their own (sorted strict staircases). Values are rationals, input unbatched; torch.argsort is any function meeting its contract."
  },
  {
   "property": "C23",
   "status": "proved",
   "theorems": [
    "C23_binary_partitioning",
    "C23_any_threshold"
   ],
   "note": "The partitioning loop with exact rational arithmetic; alpha = 0 (the default) gives the exact partition; for any alpha soundness and disjointness are proved (an approximation does not cover by design). torch.max/argsort enter through their contracts."
  },
  {
   "property": "C24",
   "status": "partial",
   "theorems": [
    "C24_duplicates_refuted",
    "C24_single_precision_refuted",
    "C24_recommendation_partial",
    "C24_rescaling_partial",
    "C24_resolution_partial"
   ],
   "note": "Refuted twice: repetitions of a non-dominated observation are dropped (is_non_dominated deduplicates), and values are rounded to single precision by torch.Tensor before the comparison. Holds up to repetitions whenever the rounding keeps the order of the values of each objective, which is so when different values of an objective are further apart than 2^-23 times its range; rescaling never changes the set."
  },
  {
   "property": "C25",
   "status": "partial",
   "theorems": [
    "C25_ref_point_refuted",
    "C25_ref_point_partial"
   ],
   "note": "Refuted for every minimised objective with two different values; holds for maximised and for constant objectives."
  },
  {
   "property": "C26",
   "status": "partial",
   "theorems": [
    "C26_failed_evaluation_refuted",
    "C26_accounting_partial"
   ],
   "note": "Refuted for a batch with a NaN or infinite value: IndexError after counting, whole batch lost. Proved for all sequences of calls with finite values."
  },
  {
   "property": "C27",
   "status": "proved",
   "theorems": [
    "C27_box_repair",
    "C27_box_repair_idempotent"
   ],
   "note": "One vector; exact rational arithmetic; None is an infinite bound."
  },
  {
   "property": "C28",
   "status": "proved",
   "theorems": [
    "C28_rows",
    "C28_zero_iff_feasible",
    "C28_grows_with_t",
    "C28_no_reward_for_violation"
   ],
   "note": "Over Coq's real numbers (their axioms are used)."
  },
  {
   "property": "C29",
   "status": "partial",
   "theorems": [
    "C29_best_feasible_restart",
    "C29_stopping_partial",
    "C29_budget_refuted"
   ],
   "note": "Result: for every inner optimizer, constraint and argsort. Refuted: infeasible restarts are not charged to the budget. Proved: the exact stopping rule counting feasible restarts."
  },
  {
   "property": "C30",
   "status": "proved",
   "theorems": [
    "C30_domain",
    "C30_in_space",
    "C30_with_parameters"
   ],
   "note": "Random moves are arbitrary; strategy parameters are not modelled. With step 1 the individuals are exactly admissible values; other steps: C90."
  },
  {
   "property": "C31",
   "status": "proved",
   "theorems": [
    "C31_best_of_all",
    "C31_monotone",
    "C31_budget",
    "C31_with_parameters",
    "C31_budget_with_parameters"
   ],
   "note": "Fitness is the penalised one (arbitrary function); tolfun and flat fitness are an arbitrary stopping predicate. Also proved: the run never raises for draws in range."
  },
  {
   "property": "C32",
   "status": "partial",
   "theorems": [
    "C32_incumbent_partial",
    "C32_all_feasible",
    "C32_box_and_step_size",
    "C32_feasible_missed_refuted"
   ],
   "note": "Refuted as stated: a feasible point whose value is worse than the penalised value of an infeasible incumbent is not reported. Holds: a feasible optimum stays feasible and never gets worse; it is the best value told if all points are feasible; box, step size and success rate."
  },
  {
   "property": "C33",
   "status": "partial",
   "theorems": [
    "C33_update_partial",
    "C33_same_as_base",
    "C33_zero_path_refuted",
    "C33_after_restart_refuted"
   ],
   "note": "Refuted as stated: a zero evolution path gives nan, and after a restart the update is not rank-one. Holds in every dimension for a non-zero path and a correct stored inverse, over any real closed field; the covariance then agrees with the base class along every sequence of successes."
  },
  {
   "property": "C34",
   "status": "partial",
   "theorems": [
    "C34_successes_partial",
    "C34_stale_refuted"
   ],
   "note": "Refuted after a restart or a reset: the inverse is not reset. Holds for every sequence of successes."
  },
  {
   "property": "C35",
   "status": "partial",
   "theorems": [
    "C35_no_restart_partial",
    "C35_restarts_refuted"
   ],
   "note": "Refuted: with n_restart = 1 the number of restarts is unbounded. Holds for n_restart <= 0."
  },
  {
   "property": "C36",
   "status": "partial",
   "theorems": [
    "C36_constraints_hold",
    "C36_domain_partial",
    "C36_mixed_levels_refuted",
    "C36_subset_refuted"
   ],
   "note": "At most N points, all satisfying the constraints: proved for all spaces. Domain: refuted for levels of mixed types (coerced by np.array) and Subset (raises); proved for the rest."
  },
  {
   "property": "C37",
   "status": "proved",
   "theorems": [
    "C37_scale_round_trip",
    "C37_samples_fill_bounds"
   ],
   "note": "Over Coq's real numbers; the end points 0 and 1 of logit are excluded."
  },
  {
   "property": "C38",
   "status": "partial",
   "theorems": [
    "C38_rounding",
    "C38_idempotent_refuted",
    "C38_idempotent_partial"
   ],
   "note": "Rational arithmetic, ties to even. Refuted: idempotence for values outside the bounds; proved inside, and everywhere if the bounds have the precision."
  },
  {
   "property": "C39",
   "status": "partial",
   "theorems": [
    "C39_samples_are_the_grid",
    "C39_samples_contained",
    "C39_integer_levels",
    "C39_membership_refuted",
    "C39_integer_space_refuted",
    "C39_integer_space_partial"
   ],
   "note": "Refuted: membership ignores the step; an all-integer space truncates samples when bounds or step are fractional. Proved: the samples of the variable are exactly its grid."
  },
  {
   "property": "C40",
   "status": "partial",
   "theorems": [
    "C40_discrete_levels",
    "C40_subset_levels_partial",
    "C40_subset_duplicates_refuted"
   ],
   "note": "Refuted for Subset with repeated elements; proved for distinct elements and for all discrete/ordinal lists."
  },
  {
   "property": "C41",
   "status": "partial",
   "theorems": [
    "C41_filter_splits",
    "C41_subtraction_partial",
    "C41_concatenation",
    "C41_subtraction_refuted"
   ],
   "note": "Filter and concatenation proved for all spaces; subtraction proved for spaces with distinct names and refuted for repeated names (reachable, see C43)."
  },
  {
   "property": "C42",
   "status": "partial",
   "theorems": [
    "C42_replication_partial",
    "C42_at_most_one",
    "C42_replication_refuted"
   ],
   "note": "Proved for N >= 2; refuted for N = 1 on every non-empty space (s *= 1 doubles it)."
  },
  {
   "property": "C43",
   "status": "partial",
   "theorems": [
    "C43_unique_names_refuted",
    "C43_unique_names_partial"
   ],
   "note": "Refuted: SearchSpace([x, x, x0]) has names x0, x1, x0. Proved when no repeated name extended by digits is another name."
  },
  {
   "property": "C44",
   "status": "partial",
   "theorems": [
    "C44_type_index_partial",
    "C44_type_index_refuted"
   ],
   "note": "Index groups proved; refuted for the categorical and subset masks of every space with a Subset variable (np.bitwise_or's third argument is the output array)."
  },
  {
   "property": "C45",
   "status": "partial",
   "theorems": [
    "C45_update_partial",
    "C45_update_refuted"
   ],
   "note": "Refuted when several names are shared (array comparison instead of set membership); proved for at most one shared and one new name."
  },
  {
   "property": "C46",
   "status": "partial",
   "theorems": [
    "C46_operands_partial",
    "C46_operands_refuted"
   ],
   "note": "Refuted: with a common name a + b renames the variables of b. Proved: bounds, kinds and the left operand are untouched, and everything is if names are distinct."
  },
  {
   "property": "C47",
   "status": "partial",
   "theorems": [
    "C47_membership_partial",
    "C47_membership_refuted"
   ],
   "note": "Refuted: every prefix of a member is a member. Proved for lists with one value per variable; longer lists raise."
  },
  {
   "property": "C48",
   "status": "partial",
   "theorems": [
    "C48_equivalence",
    "C48_hash_partial",
    "C48_hash_refuted"
   ],
   "note": "Equivalence proved; hash compatibility refuted for real and integer variables that differ in precision, scale or step, proved otherwise."
  },
  {
   "property": "C49",
   "status": "partial",
   "theorems": [
    "C49_deepcopy_refuted",
    "C49_keep_partial"
   ],
   "note": "Refuted for deepcopy: the method has no return statement for any tree, so its result is None. Proved for remove(..., invert=True): the kept children are exactly those reachable through kept names."
  },
  {
   "property": "C50",
   "status": "partial",
   "theorems": [
    "C50_round_trip_partial",
    "C50_round_trip_refuted"
   ],
   "note": "Proved for every forest with distinct names whose roots are internal nodes; refuted for a one-node tree, which to_dict drops."
  },
  {
   "property": "C51",
   "status": "partial",
   "theorems": [
    "C51_paths_group_leaves",
    "C51_subspaces_partial",
    "C51_subspaces_refuted"
   ],
   "note": "Grouping of leaves by condition path is proved for every tree. The enumeration of unconditional sub-spaces is proved for trees where no leaf shares its condition with an internal sibling, and refuted when one does."
  },
  {
   "property": "C52",
   "status": "partial",
   "theorems": [
    "C52_slice",
    "C52_row_partial",
    "C52_out_of_range",
    "C52_list",
    "C52_mask",
    "C52_row_refuted"
   ],
   "note": "Slices, index lists, boolean masks and out-of-range indices are proved for every well-formed set; a single index i is proved for i <> -1. s[-1] is refuted: 231-236 slice the attributes with slice(-1, 0), so the row comes without fitness, n_eval and label."
  },
  {
   "property": "C53",
   "status": "partial",
   "theorems": [
    "C53_concatenation_partial",
    "C53_incompatible_raises",
    "C53_objectives_refuted",
    "C53_names_refuted"
   ],
   "note": "Proved for sets that are not single rows of a multi-objective set (whose fitness is flattened: concatenating two of them raises, refuted). The same names in another order are accepted and b's values land under the wrong names (refuted)."
  },
  {
   "property": "C54",
   "status": "partial",
   "theorems": [
    "C54_write_through_partial",
    "C54_written_values",
    "C54_write_through_refuted"
   ],
   "note": "Any sequence of writes through a slice or a row (not -1), with the exact values written. A write through s[-1] is silently lost (refuted)."
  },
  {
   "property": "C55",
   "status": "partial",
   "theorems": [
    "C55_round_trip_partial",
    "C55_key_order_partial",
    "C55_key_order_refuted",
    "C55_round_trip_refuted",
    "C55_not_evaluated"
   ],
   "note": "Round trip and placement proved for distinct names, when all dictionaries list their keys in the same order. Refuted for dictionaries with another key order and for a single solution whose first component is a tuple."
  },
  {
   "property": "C56",
   "status": "partial",
   "theorems": [
    "C56_unique_partial",
    "C56_unique_refuted"
   ],
   "note": "Proved when numpy's comparison agrees with Python's on the components that occur. Refuted for a set holding both 1 and '1' (numpy compares the string forms)."
  },
  {
   "property": "C57",
   "status": "proved",
   "theorems": [
    "C57_gradients_are_derivatives"
   ],
   "note": "Proved over the reals for every surrogate, with the normal distribution function defined as an integral and the Gaussian integral proved (Lib_Normal); points exactly on a cut-off, kink or overflow bound are excluded by `regular`, see C114 for the kink. Floating point and finite differences of the surrogate are not modelled."
  },
  {
   "property": "C58",
   "status": "proved",
   "theorems": [
    "C58_better_means",
    "C58_strictly_better_means"
   ],
   "note": "EI for every plugin, epsilon-PI for epsilon at most one. UCB, MGFI and larger epsilons are C115-C117."
  },
  {
   "property": "C59",
   "status": "partial",
   "theorems": [
    "C59_pi_refuted",
    "C59_defaults_partial",
    "C59_parameters_checked"
   ],
   "note": "PI asks EpsilonPI for epsilon 0 and can never be constructed (refuted); the other four classes can, and their parameter checks are exact."
  },
  {
   "property": "C60",
   "status": "proved",
   "theorems": [
    "C60_ehvi_is_sum_of_products_of_expected_gains"
   ],
   "note": "Sum over cells of products of one-dimensional expectations, each stated as an improper integral, for every number of objectives. The upper bounds are the clamped ones, as in the code."
  },
  {
   "property": "C61",
   "status": "proved",
   "theorems": [
    "C61_interpolation"
   ],
   "note": "Proved for simple and universal kriging, all sizes and numbers of targets, over any real field and for any correlation with unit diagonal, for models that are still in noiseless mode after fit (a rejected likelihood silently switches to noisy mode). LAPACK's Cholesky and QR are contracts."
  },
  {
   "property": "C62",
   "status": "proved",
   "theorems": [
    "C62_correlation_matrix",
    "C62_range",
    "C62_zero_distance",
    "C62_defined"
   ],
   "note": "All five correlation functions, all training sets; the size errors are modelled. Real arithmetic."
  },
  {
   "property": "C63",
   "status": "partial",
   "theorems": [
    "C63_matern_partial",
    "C63_matern_refuted",
    "C63_missing_refuted"
   ],
   "note": "Matern (the default): proved for query points outside the training set, refuted at a training point, where the division by the zero distance makes the method return zeros for all training points. The generalized exponential and the cubic function raise UnboundLocalError. See C142 for the other two."
  },
  {
   "property": "C64",
   "status": "proved",
   "theorems": [
    "C64_best_restart",
    "C64_stopping",
    "C64_no_restart"
   ],
   "note": "Inner optimizer and random starting points are arbitrary functions; values include infinities. Restarts whose value is nan are excluded by hypothesis. random_start = 0 leaves the result unbound (C64_no_restart)."
  },
  {
   "property": "C65",
   "status": "partial",
   "theorems": [
    "C65_crash_window_refuted",
    "C65_content_partial"
   ],
   "note": "Refuted for every optimizer and every old file: the old checkpoint is truncated before the new one is written. Holds: the file is always the old one, empty or a beginning of the new pickle, and complete when save returns. File system and dill are parameters."
  },
  {
   "property": "C66",
   "status": "proved",
   "theorems": [
    "C66_save_keeps_optimizer",
    "C66_load_restores",
    "C66_save_returns"
   ],
   "note": "Assumes that dill and the logger functions round-trip; save is shown to return when all pickles succeed."
  },
  {
   "property": "C67",
   "status": "partial",
   "theorems": [
    "C67_file_only_refuted",
    "C67_new_process_partial"
   ],
   "note": "Refuted: a logger with a file and no console output has console output after loading. Proved: exactly which handlers the loaded logger has."
  },
  {
   "property": "C68",
   "status": "proved",
   "theorems": [
    "C68_exponential",
    "C68_budget"
   ],
   "note": "The other schedules: C102-C104."
  },
  {
   "property": "C69",
   "status": "partial",
   "theorems": [
    "C69_shared_default_refuted",
    "C69_own_dictionary_partial",
    "C69_adapt_own_parameter",
    "C69_annealing_start"
   ],
   "note": "Refuted: ParallelBO and AnnealingBO write into the dictionary given as default argument. Holds for optimizers with a dictionary that no other optimizer uses."
  },
  {
   "property": "C70",
   "status": "proved",
   "theorems": [
    "C70_complete_assignment"
   ],
   "note": "The proposals of the sub-space optimizers are arbitrary; what happens when they are told back: C105, C106."
  },
  {
   "property": "C71",
   "status": "proved",
   "theorems": [
    "C71_bounds_enclose"
   ],
   "note": "Over the reals; sklearn's PCA enters as any mean and components of unit length."
  },
  {
   "property": "C72",
   "status": "partial",
   "theorems": [
    "C72_design_missing_refuted",
    "C72_iterations_partial",
    "C72_fmin_partial"
   ],
   "note": "Refuted for every run with distinct points: the initial design is never in the history. Holds: the later entries list the remaining points in order."
  },
  {
   "property": "C73",
   "status": "proved",
   "theorems": [
    "C73_at_most_one"
   ],
   "note": "Atomic start and stop calls, crashes, kills and re-use of process numbers; overlapping starts: C101, the effect of stop: C100."
  },
  {
   "property": "C74",
   "status": "proved",
   "theorems": [
    "C74_code",
    "C74_injective"
   ],
   "note": "Rows as the forest encodes them; Python's == on levels is any symmetric transitive relation, astype(float) any partial function. sklearn's OneHotEncoder is modelled by its contract (explicit categories, unknown ones raise)."
  },
  {
   "property": "C75",
   "status": "proved",
   "theorems": [
    "C75_one_point",
    "C75_wrong_length",
    "C75_fill_in"
   ],
   "note": "One-dimensional calls, as made by the optimizers of the criterion; matrices: C108."
  },
  {
   "property": "C76",
   "status": "proved",
   "theorems": [
    "C76_distinct"
   ],
   "note": "When it returns: C111."
  },
  {
   "property": "C77",
   "status": "proved",
   "theorems": [
    "C77_rank_weights",
    "C77_single"
   ],
   "note": "Over the reals. With a single observation the weight is 0/0 (C77_single)."
  },
  {
   "property": "C78",
   "status": "proved",
   "theorems": [
    "C78_size",
    "C78_quadratic",
    "C78_jacobian"
   ],
   "note": ""
  },
  {
   "property": "C79",
   "status": "proved",
   "theorems": [
    "C79_round_robin"
   ],
   "note": "For any number of acquisition functions."
  },
  {
   "property": "C80",
   "status": "partial",
   "theorems": [
    "C80_round_trip_refuted",
    "C80_round_trip_partial"
   ],
   "note": "Refuted for every non-empty space: to_dict writes classes where from_dict expects strings, and the result is the empty space."
  },
  {
   "property": "C81",
   "status": "partial",
   "theorems": [
    "C81_recommend_unavailable_partial",
    "C81_recommend_unavailable_refuted"
   ],
   "note": "Refuted after a first tell without finite values: ValueError instead. Holds for histories of calls that return normally."
  },
  {
   "property": "C82",
   "status": "partial",
   "theorems": [
    "C82_warm_data_dict_mode_refuted",
    "C82_warm_data_accepted_partial"
   ],
   "note": "Refuted in dict mode (UnboundLocalError, for every warm data set). Proved in list mode for up to 5 points, where the flat-fitness error cannot occur, given that the model fit succeeds."
  },
  {
   "property": "C83",
   "status": "partial",
   "theorems": [
    "C83_fresh_samples_refuted",
    "C83_fresh_samples_partial"
   ],
   "note": "Refuted for every generator and every seeded space of several variable types; proved for single-type spaces."
  },
  {
   "property": "C84",
   "status": "partial",
   "theorems": [
    "C84_real_bounds_refuted",
    "C84_real_bounds_widened_refuted",
    "C84_real_bounds_partial"
   ],
   "note": "Refuted: Real((1, 2), scale='logit') has equal bounds, and bounds outside the range of the scale are widened. Proved: order, range, and bounds kept if inside the range."
  },
  {
   "property": "C85",
   "status": "partial",
   "theorems": [
    "C85_documented_format_partial",
    "C85_default_refuted",
    "C85_items_refuted"
   ],
   "note": "Proved for items without default and repeated integer items of step 1; refuted for defaults (misspelt key raises), for repeated integer items with another step, and for unknown types."
  },
  {
   "property": "C86",
   "status": "proved",
   "theorems": [
    "C86_select_by_names",
    "C86_remove_by_name"
   ],
   "note": "Proved for spaces with distinct names (exact content, order, error condition)."
  },
  {
   "property": "C87",
   "status": "partial",
   "theorems": [
    "C87_labels_partial",
    "C87_labels_refuted"
   ],
   "note": "Proved for labels no longer than the longest label at construction. Longer ones are cut (refuted)."
  },
  {
   "property": "C88",
   "status": "partial",
   "theorems": [
    "C88_labelled_dict_partial",
    "C88_labelled_dict_refuted"
   ],
   "note": "Proved for distinct labels; rows with equal labels overwrite each other (refuted)."
  },
  {
   "property": "C89",
   "status": "partial",
   "theorems": [
    "C89_constructor_partial",
    "C89_constructor_refuted"
   ],
   "note": "Proved except for n_eval lists (their length is not checked, refuted) and nested fitness lists with n_obj = 1."
  },
  {
   "property": "C90",
   "status": "partial",
   "theorems": [
    "C90_integer_step_refuted",
    "C90_integer_bounds_partial"
   ],
   "note": "Refuted: integer mutation adds any difference. Holds: integers stay between the bounds."
  },
  {
   "property": "C91",
   "status": "partial",
   "theorems": [
    "C91_initial_point_refuted"
   ],
   "note": "Refuted for every population: the row is indexed with two indices."
  },
  {
   "property": "C92",
   "status": "partial",
   "theorems": [
    "C92_budget_partial",
    "C92_budget_refuted"
   ],
   "note": "Refuted with restarts (budget 9, 10 evaluations). Holds: at most m + 2, at most max(2, m) without restarts; the budget ends the run."
  },
  {
   "property": "C93",
   "status": "partial",
   "theorems": [
    "C93_restarts_identical_refuted"
   ],
   "note": "Refuted: every restart reseeds the generator with 42, the seed keyword is ignored."
  },
  {
   "property": "C94",
   "status": "partial",
   "theorems": [
    "C94_grid_refuted"
   ],
   "note": "Refuted: the proposals ignore step and precision."
  },
  {
   "property": "C95",
   "status": "proved",
   "theorems": [
    "C95_evaluate"
   ],
   "note": "Sequential branch; the parallel branch returns the same lists by joblib's contract."
  },
  {
   "property": "C96",
   "status": "proved",
   "theorems": [
    "C96_updates"
   ],
   "note": "NondominatedPartitioning.update/reset with torch.equal deciding whether cells are recomputed; unbatched input, exact arithmetic."
  },
  {
   "property": "C97",
   "status": "proved",
   "theorems": [
    "C97_no_false_checkpoint"
   ],
   "note": "Assumes that dill cannot load a truncated pickle (pickles end with a STOP opcode)."
  },
  {
   "property": "C98",
   "status": "partial",
   "theorems": [
    "C98_failed_dump_refuted",
    "C98_early_failure_partial"
   ],
   "note": "Refuted whenever the pickling of the optimizer fails: the logger and the data stay replaced by their pickles and no later save returns. Holds for the earlier failure points."
  },
  {
   "property": "C99",
   "status": "proved",
   "theorems": [
    "C99_same_process"
   ],
   "note": ""
  },
  {
   "property": "C100",
   "status": "partial",
   "theorems": [
    "C100_stop_refuted",
    "C100_wrong_process_refuted",
    "C100_stop_partial"
   ],
   "note": "Refuted in every state with a live daemon: NameError after the first signal. Also refuted: a recycled process number is signalled. Holds: the daemon receives the signal and its handler removes the pid file; a stale pid file is removed."
  },
  {
   "property": "C101",
   "status": "partial",
   "theorems": [
    "C101_race_refuted",
    "C101_race_partial"
   ],
   "note": "Refuted: both find no pid file. Holds if a live daemon is recorded."
  },
  {
   "property": "C102",
   "status": "proved",
   "theorems": [
    "C102_linear"
   ],
   "note": ""
  },
  {
   "property": "C103",
   "status": "partial",
   "theorems": [
    "C103_linear_refuted",
    "C103_positive_partial"
   ],
   "note": "Refuted for the linear schedule after the end of its plan, for all t0 > tf; holds for the other two."
  },
  {
   "property": "C104",
   "status": "partial",
   "theorems": [
    "C104_log_refuted",
    "C104_log_step_partial"
   ],
   "note": "Refuted: it can rise above t0, and fall below tf after one of several planned steps. Proved: exactly when a step lowers the parameter."
  },
  {
   "property": "C105",
   "status": "partial",
   "theorems": [
    "C105_falsy_value_refuted",
    "C105_falsy_condition_refuted",
    "C105_told_back_partial"
   ],
   "note": "Refuted for every falsy value (0, 0.0, '', False), which is dropped, and for falsy conditions (KeyError). Holds for truthy values."
  },
  {
   "property": "C106",
   "status": "partial",
   "theorems": [
    "C106_column_order_refuted",
    "C106_same_order_partial"
   ],
   "note": "Refuted for points of different sub-spaces, whose keys come in different orders. Holds for points with the same key order."
  },
  {
   "property": "C107",
   "status": "proved",
   "theorems": [
    "C107_initial_round"
   ],
   "note": ""
  },
  {
   "property": "C108",
   "status": "partial",
   "theorems": [
    "C108_matrix_refuted",
    "C108_square_partial"
   ],
   "note": "Refuted: the number of rows is taken from the wrong axis. Any matrix whose number of rows is neither one nor the number of free variables is refused, a single row is multiplied. Holds for square matrices."
  },
  {
   "property": "C109",
   "status": "proved",
   "theorems": [
    "C109_gradient"
   ],
   "note": "Arrays only; a list result is not reduced correctly, but no acquisition function returns one."
  },
  {
   "property": "C110",
   "status": "proved",
   "theorems": [
    "C110_proportional"
   ],
   "note": "Exact rational arithmetic."
  },
  {
   "property": "C111",
   "status": "partial",
   "theorems": [
    "C111_equal_candidates_refuted",
    "C111_distinct_partial"
   ],
   "note": "Refuted for equally good candidates (0/0). Holds for pairwise different ones, in exact arithmetic."
  },
  {
   "property": "C112",
   "status": "proved",
   "theorems": [
    "C112_round_trip"
   ],
   "note": ""
  },
  {
   "property": "C113",
   "status": "proved",
   "theorems": [
    "C113_outside_never_wins",
    "C113_penalty_gradient"
   ],
   "note": "Points whose image touches a face of the box have no derivative and are excluded from the gradient statement."
  },
  {
   "property": "C114",
   "status": "partial",
   "theorems": [
    "C114_epsilon_pi_kink_refuted"
   ],
   "note": "Refuted: where the prediction is zero the value has two different one-sided derivatives."
  },
  {
   "property": "C115",
   "status": "partial",
   "theorems": [
    "C115_large_epsilon_refuted"
   ],
   "note": "Refuted for epsilon above one, which the constructor accepts; C58 has the rest."
  },
  {
   "property": "C116",
   "status": "partial",
   "theorems": [
    "C116_ucb_refuted"
   ],
   "note": "Refuted in the strongest form: UCB always has the smaller value at the better mean, for every surrogate and both directions."
  },
  {
   "property": "C117",
   "status": "partial",
   "theorems": [
    "C117_mgfi_better_means_partial",
    "C117_mgfi_overflow_refuted"
   ],
   "note": "Holds without overflow; refuted beyond, where the value drops to zero, for every overflow bound."
  },
  {
   "property": "C118",
   "status": "proved",
   "theorems": [
    "C118_values_nonneg"
   ],
   "note": "Uses Mills' ratio; not-a-number results, possible only for zero deviation, are excluded."
  },
  {
   "property": "C119",
   "status": "proved",
   "theorems": [
    "C119_ei_prefers_uncertainty"
   ],
   "note": "Includes the cut-off and the zero-deviation branch."
  },
  {
   "property": "C120",
   "status": "proved",
   "theorems": [
    "C120_values_are_expectations"
   ],
   "note": "Improper integrals stated with Coquelicot's RInt and an explicit limit."
  },
  {
   "property": "C121",
   "status": "proved",
   "theorems": [
    "C121_maximising_is_minimising_the_negation"
   ],
   "note": "Constructor, value and gradient."
  },
  {
   "property": "C122",
   "status": "proved",
   "theorems": [
    "C122_default_plugin_is_best_observation",
    "C122_bo_plugin"
   ],
   "note": "Empty observations raise ValueError and are excluded by hypothesis."
  },
  {
   "property": "C123",
   "status": "partial",
   "theorems": [
    "C123_single_point_refuted",
    "C123_batch_partial"
   ],
   "note": "Refuted for the sequential optimizer, which passes an empty dictionary; holds for batches."
  },
  {
   "property": "C124",
   "status": "partial",
   "theorems": [
    "C124_sampled_parameters_accepted_partial",
    "C124_epsilon_pi_refuted"
   ],
   "note": "MGFI and UCB for every draw; the sampler of EpsilonPI is None, so that a batch always raises (refuted)."
  },
  {
   "property": "C125",
   "status": "partial",
   "theorems": [
    "C125_mgfi_samples_follow_parameter_partial",
    "C125_ucb_samples_refuted"
   ],
   "note": "Holds for MGFI; for UCB the order is reversed for every draw (refuted)."
  },
  {
   "property": "C126",
   "status": "partial",
   "theorems": [
    "C126_standardised",
    "C126_rescaling_partial",
    "C126_small_scale_refuted"
   ],
   "note": "Standardisation is exact when the deviation exceeds 1e-8; the bound is absolute, so small scales end in FlatFitnessError (refuted)."
  },
  {
   "property": "C127",
   "status": "proved",
   "theorems": [
    "C127_ehvi_prefers_better_means"
   ],
   "note": "For clamped cells that are not empty."
  },
  {
   "property": "C128",
   "status": "partial",
   "theorems": [
    "C128_noiseless_partial",
    "C128_noisy_refuted",
    "C128_noise_estim_refuted"
   ],
   "note": "Proved in noiseless mode. Refuted for fixed and for estimated noise: the correlations with the query point are not scaled by sigma2 / (sigma2 + noise), so that the model interpolates noisy observations in the example."
  },
  {
   "property": "C129",
   "status": "proved",
   "theorems": [
    "C129_equivariance"
   ],
   "note": "Proved in noiseless mode."
  },
  {
   "property": "C130",
   "status": "proved",
   "theorems": [
    "C130_order"
   ],
   "note": "Proved in noiseless mode."
  },
  {
   "property": "C131",
   "status": "proved",
   "theorems": [
    "C131_variance_estimate"
   ],
   "note": "Proved."
  },
  {
   "property": "C132",
   "status": "proved",
   "theorems": [
    "C132_variance_bounds"
   ],
   "note": "Proved; positive semi-definiteness of the correlation is a hypothesis."
  },
  {
   "property": "C133",
   "status": "partial",
   "theorems": [
    "C133_batches_refuted",
    "C133_single_partial"
   ],
   "note": "Refuted for two or more points (float passed to range, or shapes that do not broadcast); holds for one point and one target."
  },
  {
   "property": "C134",
   "status": "partial",
   "theorems": [
    "C134_unusable_refuted",
    "C134_usable_partial"
   ],
   "note": "Refuted: restricted likelihood, nonparametric trend, estimated trend with several targets. Otherwise fit ends with a model."
  },
  {
   "property": "C135",
   "status": "partial",
   "theorems": [
    "C135_endless_refuted",
    "C135_escalation_partial"
   ],
   "note": "Refuted in noise-estimation mode for observations on the trend: never returns, for any optimizer. With fixed noise: returns at the first accepted attempt, with noise multiplied by ten each time."
  },
  {
   "property": "C136",
   "status": "partial",
   "theorems": [
    "C136_isotropic_partial",
    "C136_generalized_refuted"
   ],
   "note": "Proved for four functions; the generalized exponential always raises IndexError with its two documented isotropic parameters and more than one feature."
  },
  {
   "property": "C137",
   "status": "partial",
   "theorems": [
    "C137_anisotropic_partial",
    "C137_isotropic_refuted"
   ],
   "note": "Proved with one parameter per feature; with one parameter for all features only the first feature's slice reaches the likelihood gradient, instead of the sum."
  },
  {
   "property": "C139",
   "status": "partial",
   "theorems": [
    "C139_squared_exponential_partial",
    "C139_refuted"
   ],
   "note": "Proved for the squared exponential with one parameter per feature; one parameter for several features gives an IndexError and Matern an UnboundLocalError. The absolute exponential is not modelled."
  },
  {
   "property": "C140",
   "status": "proved",
   "theorems": [
    "C140_monotone"
   ],
   "note": "All five correlation functions."
  },
  {
   "property": "C141",
   "status": "proved",
   "theorems": [
    "C141_matern"
   ],
   "note": "Matern 3/2 is the kernel that fit uses."
  },
  {
   "property": "C142",
   "status": "proved",
   "theorems": [
    "C142_squared_exponential",
    "C142_absolute_exponential"
   ],
   "note": "Both forms of the parameter vector."
  },
  {
   "property": "C143",
   "status": "partial",
   "theorems": [
    "C143_rbf_refuted"
   ],
   "note": "Refuted: the distance is missing as a factor. The RBF kernel is not the one that fit uses."
  },
  {
   "property": "C144",
   "status": "partial",
   "theorems": [
    "C144_never_ends_refuted",
    "C144_budget_refuted",
    "C144_keeps_the_worst_refuted"
   ],
   "note": "Refuted: under Python 3 the stop test compares a dict view with True, which is never equal, so the generation loop is never left; and the doubly negated objective makes it keep the point with the smallest likelihood. Exceptions raised by the numerical code inside a generation are not modelled."
  },
  {
   "property": "C138",
   "status": "proved",
   "theorems": [
    "C138_gradient"
   ],
   "note": "The derivative is defined by the usual epsilon-delta condition over an arbitrary ordered field. gradient's two matrix formulas are compared with predict_mean and predict_mse, whose relation to the posterior of the process is C128. Jacobians of correlation and trend are hypotheses of the theorem; those of the correlation functions are C62 and C63. Several targets are outside the claim: the code then multiplies arrays of different shapes."
  },
  {
   "property": "C145",
   "status": "proved",
   "theorems": [
    "C145_exact",
    "C145_grids_exist"
   ],
   "note": "Exact rational arithmetic. The measure is a sum over the cells of any grid that contains all coordinates (Spec_HV); a grid exists for every input (C145_grids_exist). With four or more objectives the statement is false (C21) unless the points are separated (C220)."
  },
  {
   "property": "C146",
   "status": "proved",
   "theorems": [
    "C146_monotone",
    "C146_order",
    "C146_dominated_points"
   ],
   "note": "Follows from C145 for two inputs on a common grid. False for more objectives (C21) unless the points are separated (C220)."
  },
  {
   "property": "C147",
   "status": "partial",
   "theorems": [
    "C147_replication_partial",
    "C147_sets_raise",
    "C147_replication_refuted"
   ],
   "note": "Refuted for several objectives: a solution taken out of a set by its row index holds a flat vector of objective values, and s * N fails for N >= 2. Proved for the remaining single solutions."
  },
  {
   "property": "C148",
   "status": "partial",
   "theorems": [
    "C148_element",
    "C148_out_of_range",
    "C148_block_partial",
    "C148_block_refuted"
   ],
   "note": "Element access and the errors are proved in full. Blocks are refuted for the column number -1, which selects no column (slice(-1, 0)); proved for all other column numbers and all slices."
  },
  {
   "property": "C149",
   "status": "proved",
   "theorems": [
    "C149_any_schedule",
    "C149_mean"
   ],
   "note": "The trees are arbitrary functions; a schedule is any order of the writes of single entries of the shared buffer."
  },
  {
   "property": "C150",
   "status": "proved",
   "theorems": [
    "C150_within_the_observations",
    "C150_order_of_trees"
   ],
   "note": "That leaves average observations is the contract of scikit-learn's regression trees."
  },
  {
   "property": "C151",
   "status": "partial",
   "theorems": [
    "C151_uncertainty_partial",
    "C151_uncertainty_refuted"
   ],
   "note": "Refuted for a forest of one tree, whose sample variance is not a number. Proved for two trees or more."
  },
  {
   "property": "C152",
   "status": "proved",
   "theorems": [
    "C152_weighted_sum",
    "C152_wrong_number_of_weights"
   ],
   "note": "Finite probability spaces."
  },
  {
   "property": "C153",
   "status": "partial",
   "theorems": [
    "C153_accepted_partial",
    "C153_accepted_refuted",
    "C153_other_names_rejected"
   ],
   "note": "Refuted for Tchebycheff: accepted by the constructor, but every prediction raises UnboundLocalError. Proved for WS."
  },
  {
   "property": "C154",
   "status": "partial",
   "theorems": [
    "C154_proposals_partial",
    "C154_proposals_refuted",
    "C154_initial_design"
   ],
   "note": "Refuted: when some search finds nothing the replacement points cannot be appended and ask raises. Proved when every search finds a point; the initial design is proved in full."
  },
  {
   "property": "C155",
   "status": "proved",
   "theorems": [
    "C155_best_prediction",
    "C155_no_improvement_on_data"
   ],
   "note": "The model is an arbitrary function."
  },
  {
   "property": "C156",
   "status": "partial",
   "theorems": [
    "C156_adaptation_refuted"
   ],
   "note": "Refuted: the code sorts the second pair of results instead of the acquisition values, and every batch raises; nothing positive remains."
  },
  {
   "property": "C157",
   "status": "proved",
   "theorems": [
    "C157_gradient"
   ],
   "note": "Kernel Matern 3/2, the only one that fit uses. The triangular solves are assumed exact; real arithmetic."
  },
  {
   "property": "C158",
   "status": "proved",
   "theorems": [
    "C158_variance"
   ],
   "note": "No assumption on the triangular solver."
  },
  {
   "property": "C159",
   "status": "partial",
   "theorems": [
    "C159_several_points_partial",
    "C159_several_points_refuted"
   ],
   "note": "Refuted: with one variable, two or more points raise ValueError. Proved for two or more variables and for single points. The points of one call are assumed to have the dimension of the domain."
  },
  {
   "property": "C160",
   "status": "partial",
   "theorems": [
    "C160_is_running_refuted",
    "C160_is_running_partial"
   ],
   "note": "Refuted: after a kill an unrelated process can get the recorded number. Proved: a live daemon is always reported, it never raises, and the answer is right as long as the recorded number belongs to a daemon or to nobody."
  },
  {
   "property": "C161",
   "status": "partial",
   "theorems": [
    "C161_restart_refuted",
    "C161_restart_partial"
   ],
   "note": "Refuted in every state with a live daemon: stop raises NameError and nothing is started. Proved when no living process has the recorded number."
  },
  {
   "property": "C162",
   "status": "partial",
   "theorems": [
    "C162_interrupted_start_refuted",
    "C162_interrupted_start_partial"
   ],
   "note": "Refuted: killed between the creation of the pid file and the write, the empty file makes every later start, stop, restart and is_running raise ValueError. Proved for all other moments."
  },
  {
   "property": "C163",
   "status": "proved",
   "theorems": [
    "C163_strategy_parameters"
   ],
   "note": "Over the reals; the constants are the defaults of the constructor."
  },
  {
   "property": "C164",
   "status": "proved",
   "theorems": [
    "C164_within_bounds",
    "C164_inside_unchanged"
   ],
   "note": "Fitness, argsort, eigh and random numbers are arbitrary."
  },
  {
   "property": "C165",
   "status": "proved",
   "theorems": [
    "C165_covariance"
   ],
   "note": "Exact arithmetic; the repair branch for imaginary eigenvalues resets the state."
  },
  {
   "property": "C166",
   "status": "partial",
   "theorems": [
    "C166_value",
    "C166_gradient",
    "C166_one_function_refuted",
    "C166_one_function_partial"
   ],
   "note": "Refuted: every evaluation raises the penalty factor, so at an infeasible point two evaluations in a row return different values. Proved: the value at feasible points does not depend on the history and equals minus the acquisition value, infeasible points are strictly worse than their acquisition value, and the gradient is exact where the stencil is feasible."
  },
  {
   "property": "C167",
   "status": "proved",
   "theorems": [
    "C167_finite_difference",
    "C167_quadratic"
   ],
   "note": "Exact real arithmetic; the central difference has no cancellation error."
  },
  {
   "property": "C168",
   "status": "proved",
   "theorems": [
    "C168_fast_partitioning"
   ],
   "note": "Unbatched tensors; exact arithmetic. Two objectives: C22."
  },
  {
   "property": "C169",
   "status": "proved",
   "theorems": [
    "C169_incremental_updates",
    "C169_same_region_as_at_once"
   ],
   "note": "Unbatched tensors; exact arithmetic."
  },
  {
   "property": "C170",
   "status": "proved",
   "theorems": [
    "C170_pairs"
   ],
   "note": "Exact real arithmetic."
  },
  {
   "property": "C171",
   "status": "partial",
   "theorems": [
    "C171_covariance_partial",
    "C171_array_refuted"
   ],
   "note": "Refuted: a second argument that is an array raises (its truth value is tested), and the array [[0.]] is taken for a missing argument; holds without it or with a non-empty list. One target."
  },
  {
   "property": "C172",
   "status": "proved",
   "theorems": [
    "C172_fast_hypervolume",
    "C172_fast_two_objectives",
    "C172_grids_exist"
   ],
   "note": "exact arithmetic; unbatched outcomes"
  },
  {
   "property": "C173",
   "status": "proved",
   "theorems": [
    "C173_binary_hypervolume",
    "C173_classes_agree"
   ],
   "note": "exact arithmetic; unbatched outcomes; torch.argsort and torch.max by their contracts"
  },
  {
   "property": "C174",
   "status": "proved",
   "theorems": [
    "C174_noise_estimated",
    "C174_noiseless_known_trend",
    "C174_noisy"
   ],
   "note": "exact arithmetic; LAPACK by its contracts, which are shown to be satisfiable; noise variance a number"
  },
  {
   "property": "C175",
   "status": "proved",
   "theorems": [
    "C175_noise_estimated"
   ],
   "note": "exact arithmetic; one target"
  },
  {
   "property": "C176",
   "status": "partial",
   "theorems": [
    "C176_noiseless_known_trend_partial",
    "C176_estimated_trend_refuted"
   ],
   "note": "holds for a known trend; refuted for an estimated constant trend"
  },
  {
   "property": "C177",
   "status": "partial",
   "theorems": [
    "C177_scaled_partial",
    "C177_zero_noise",
    "C177_refuted"
   ],
   "note": "proved: the reported entries are the derivatives up to the factor (s + noise)/s, and exact for zero noise; refuted for noise 1"
  },
  {
   "property": "C178",
   "status": "partial",
   "theorems": [
    "C178_noise_entry_partial",
    "C178_refuted"
   ],
   "note": "proved: the entry of the noise is right for any number of targets; refuted for the correlation parameters with two equal targets"
  },
  {
   "property": "C179",
   "status": "partial",
   "theorems": [
    "C179_noise_estimated_partial",
    "C179_noiseless_known_trend_partial",
    "C179_refuted"
   ],
   "note": "proved: the derivative is the reported entry times ln 10 times the parameter; refuted that the reported entries are the derivatives"
  },
  {
   "property": "C180",
   "status": "partial",
   "theorems": [
    "C180_estimated_trend_partial",
    "C180_refuted"
   ],
   "note": "proved: the value plus k/2 is the largest log density over the trend at the unbiased variance, hence a lower bound; refuted that it is the largest"
  },
  {
   "property": "C181",
   "status": "partial",
   "theorems": [
    "C181_refuted",
    "C181_reported_partial"
   ],
   "note": "proved for a known trend when no target has a positive value; refuted for outputs on a small scale, where -inf is returned"
  },
  {
   "property": "C182",
   "status": "partial",
   "theorems": [
    "C182_categorical_partial",
    "C182_rows_partial",
    "C182_overflow_refuted",
    "C182_integer_refuted"
   ],
   "note": "Proved for spaces of categorical variables as long as no ratio of densities overflows: the law of a single row is preserved for every test function and any number of steps (expectation by integration over the uniform numbers), and each row of a population moves as it would alone. Refuted in two ways: an overflow of the exponential for one row (probability set to 1 for the whole array) moves a feasible row to an infeasible point whatever its random number; clipping the proposals of integer variables at the bounds makes them asymmetric, so the uniform distribution on 0, 1, 2 is not preserved. Real and mixed spaces are not covered: their proposals depend on the spread of the population."
  },
  {
   "property": "C183",
   "status": "proved",
   "theorems": [
    "C183_schedule",
    "C183_feasible",
    "C183_violated",
    "C183_leaving"
   ],
   "note": "Real arithmetic; the Gaussian tail bound is Mills' ratio (Lib_Normal)."
  },
  {
   "property": "C184",
   "status": "proved",
   "theorems": [
    "C184_perfect",
    "C184_constant",
    "C184_affine"
   ],
   "note": "Real arithmetic; constant targets give no finite value."
  },
  {
   "property": "C185",
   "status": "proved",
   "theorems": [
    "C185_value",
    "C185_trivial"
   ],
   "note": "Real arithmetic; the density is the standard normal density of Lib_Normal at the standardized residual, divided by the standard deviation."
  },
  {
   "property": "C186",
   "status": "partial",
   "theorems": [
    "C186_positive_partial",
    "C186_refuted"
   ],
   "note": "Holds for variances without a zero; refuted otherwise: zeros in the caller's array are overwritten by 1e-7."
  },
  {
   "property": "C187",
   "status": "partial",
   "theorems": [
    "C187_known_trend_partial",
    "C187_refuted",
    "C187_targets_refuted"
   ],
   "note": "Real arithmetic; LAPACK by its specification. Refuted: the determinant has the wrong sign (C187_refuted), and with several targets the terms of all pairs of targets are added (C187_targets_refuted). Proved: for one target the value exceeds the log density by exactly the log determinant of the scaled correlation matrix."
  },
  {
   "property": "C188",
   "status": "proved",
   "theorems": [
    "C188_trend_invariant"
   ],
   "note": "Real arithmetic; LAPACK by its specification; np.linalg.det is an arbitrary function."
  },
  {
   "property": "C189",
   "status": "partial",
   "theorems": [
    "C189_variance_partial",
    "C189_known_trend_partial",
    "C189_known_trend_refuted",
    "C189_estimated_trend_refuted"
   ],
   "note": "Refuted for a known trend (the entry of a correlation parameter has the opposite sign, C189_known_trend_refuted) and for an estimated trend (the entry of the variance, C189_estimated_trend_refuted). Proved, without noise: the derivative in the variance equals the entry plus p/2 (1/s - 1) for p trend coefficients, and for a known trend the gradient is that of the log density of the data. The noisy modes are modelled; nothing is proved for them."
  },
  {
   "property": "C190",
   "status": "proved",
   "theorems": [
    "C190_returned_best"
   ],
   "note": "End to end: fmin is the run loop of Model_Opt with the proposals of Model_Ask. Function values are exact rationals, NaN or an infinity."
  },
  {
   "property": "C191",
   "status": "partial",
   "theorems": [
    "C191_count_partial",
    "C191_iterations_partial",
    "C191_count_refuted",
    "C191_budget_refuted"
   ],
   "note": "Refuted: the calls for x0 are not counted (C191_count_refuted), and the default design is evaluated whatever the budget (C191_budget_refuted). Proved: the exact difference, and that the count exceeds the budget by less than the larger of a batch and the initial design."
  },
  {
   "property": "C192",
   "status": "proved",
   "theorems": [
    "C192_inside"
   ],
   "note": "Assumes that the samplers and the acquisition optimizers stay in the box, which other properties show for those modelled."
  },
  {
   "property": "C193",
   "status": "partial",
   "theorems": [
    "C193_bounds_partial",
    "C193_mixed_refuted"
   ],
   "note": "Refuted: a float on one side and a list on the other, and ints, tuples or arrays, raise UnboundLocalError. Proved for two floats and two lists."
  },
  {
   "property": "C194",
   "status": "partial",
   "theorems": [
    "C194_terminates_partial",
    "C194_default_refuted"
   ],
   "note": "Refuted: with max_FEs=None (the default) or 0, fmin never returns. Proved: with a positive budget b there are at most b iterations, provided each call of the function, the surrogate and the acquisition optimizer ends."
  },
  {
   "property": "C195",
   "status": "partial",
   "theorems": [
    "C195_initial_design_partial",
    "C195_zero_refuted"
   ],
   "note": "Refuted for x0 = 0, which gives five points per variable. Proved for n > 0."
  },
  {
   "property": "C196",
   "status": "proved",
   "theorems": [
    "C196_parameters"
   ],
   "note": "Proved for all runs from the default parameters. The normal numbers are assumed not to be zero (probability one) and the factors exp(...) positive."
  },
  {
   "property": "C197",
   "status": "partial",
   "theorems": [
    "C197_frozen_refuted",
    "C197_step_size_partial"
   ],
   "note": "Refuted: a variable rounded to a coarse precision gets step size zero after one generation and never moves again. Proved: without a precision the repair never increases a step size, and a step inside the box keeps it."
  },
  {
   "property": "C198",
   "status": "partial",
   "theorems": [
    "C198_given_refuted",
    "C198_default_partial"
   ],
   "note": "Refuted: any given non-empty parameter makes the constructor raise AssertionError (the names of its columns are missing). Proved: the default works for every non-empty sample."
  },
  {
   "property": "C199",
   "status": "partial",
   "theorems": [
    "C199_dead_refuted",
    "C199_tolerance_partial"
   ],
   "note": "Refuted: never reported unless the number of offspring divides the number of parents (default: 10 and 4), with a run on almost equal values that never ends. Proved: exact characterisation if it divides."
  },
  {
   "property": "C200",
   "status": "partial",
   "theorems": [
    "C200_one_parent_refuted",
    "C200_one_offspring_refuted",
    "C200_flat_partial"
   ],
   "note": "Refuted: with one parent every run ends after one generation; with one offspring and several parents the test raises IndexError. Proved: sound with at least two of each."
  },
  {
   "property": "C201",
   "status": "proved",
   "theorems": [
    "C201_ask",
    "C201_restarts",
    "C201_best"
   ],
   "note": "Composition of Model_Ask, Model_Box and Model_MiesPar. Points that ask adds at random when proposals are missing are not checked against the constraints by the program. With other integer steps see C90."
  },
  {
   "property": "C202",
   "status": "partial",
   "theorems": [
    "C202_given_refuted",
    "C202_default_partial",
    "C202_given_partial"
   ],
   "note": "Refuted: optimizer 'BFGS' with a constraint on a mixed space becomes OnePlusOne_Cholesky_CMA and ask fails with an AssertionError; without a constraint MIES gets a function that also returns a gradient; an unknown name passes the constructor if a budget is given and ask fails with an UnboundLocalError. Proved: the default choice always fits; exactly which given names work."
  },
  {
   "property": "C203",
   "status": "proved",
   "theorems": [
    "C203_run",
    "C203_feasible"
   ],
   "note": "sklearn's decomposition is any function with orthonormal components; the Gaussian process, the acquisition function and the samples are arbitrary. Runs without constraints."
  },
  {
   "property": "C204",
   "status": "partial",
   "theorems": [
    "C204_inside_refuted",
    "C204_inside_partial"
   ],
   "note": "Refuted: a proposal anywhere in the reduced space may be mapped outside of the box, and it is evaluated. Proved: the initial design is in the box and a proposal outside has a negative penalized value; with exact proposals see C203."
  },
  {
   "property": "C205",
   "status": "proved",
   "theorems": [
    "C205_accounting",
    "C205_two"
   ],
   "note": ""
  },
  {
   "property": "C206",
   "status": "partial",
   "theorems": [
    "C206_history_refuted"
   ],
   "note": "Refuted: PCABO.tell does not touch hist_f, so it stays empty for ever."
  },
  {
   "property": "C207",
   "status": "proved",
   "theorems": [
    "C207_in_space",
    "C207_samples"
   ],
   "note": "Composition of the loop, ask, the constrained sampler and the evolution strategy; integer variables with step 1; under constraints no Subset variables and levels of one type (else C36, C94 refute it). Other optimizers of the acquisition function are C29, C32."
  },
  {
   "property": "C208",
   "status": "partial",
   "theorems": [
    "C208_new_partial",
    "C208_new_refuted"
   ],
   "note": "Refuted: a point where the objective function returns NaN is removed from the data and proposed again in every iteration until the budget is used up. What holds is proved: points with a finite value, given points, and points close to them are not evaluated again."
  },
  {
   "property": "C209",
   "status": "partial",
   "theorems": [
    "C209_feasible_partial",
    "C209_feasible_refuted"
   ],
   "note": "Refuted: create_DoE rounds the feasible samples to the precision of the variable and does not check them again. Proved if no real variable has a precision."
  },
  {
   "property": "C210",
   "status": "proved",
   "theorems": [
    "C210_result",
    "C210_target"
   ],
   "note": ""
  },
  {
   "property": "C211",
   "status": "proved",
   "theorems": [
    "C211_budget"
   ],
   "note": ""
  },
  {
   "property": "C212",
   "status": "proved",
   "theorems": [
    "C212_kept"
   ],
   "note": ""
  },
  {
   "property": "C213",
   "status": "proved",
   "theorems": [
    "C213_in_space"
   ],
   "note": "Whole runs of Model_MoRun (Model_MOBO.tell with ask of Model_Propose and the constrained sampler); feasibility for spaces without a precision."
  },
  {
   "property": "C214",
   "status": "proved",
   "theorems": [
    "C214_new"
   ],
   "note": "Holds without exception, in contrast to C208, because every evaluation that fails ends the run (C217)."
  },
  {
   "property": "C215",
   "status": "proved",
   "theorems": [
    "C215_result"
   ],
   "note": "The front is described through the observations of the whole run; hypothesis keeps_order as in C24."
  },
  {
   "property": "C216",
   "status": "proved",
   "theorems": [
    "C216_budget"
   ],
   "note": "eval_count of BaseMOBO counts one for each objective."
  },
  {
   "property": "C217",
   "status": "partial",
   "theorems": [
    "C217_kept_partial",
    "C217_failed_refuted"
   ],
   "note": "Refuted: every non-finite value ends the run with an exception and the finite values of its iteration are lost (C217_failed_refuted). Proved: the observations of the completed iterations are kept."
  },
  {
   "property": "C218",
   "status": "partial",
   "theorems": [
    "C218_target_refuted"
   ],
   "note": "Refuted: with a target no run returns; after the first iteration the comparison of arrays raises ValueError."
  },
  {
   "property": "C219",
   "status": "partial",
   "theorems": [
    "C219_default_refuted",
    "C219_default_partial"
   ],
   "note": "Refuted: BFGS is chosen on a real space with a model that has a gradient, since n_obj is still 1 in the parent's constructor, and the first call of the acquisition function raises ValueError. Proved in all other cases."
  },
  {
   "property": "C220",
   "status": "proved",
   "theorems": [
    "C220_exact",
    "C220_distinct",
    "C220_four",
    "C220_monotone",
    "C220_order"
   ],
   "note": "Exact rational arithmetic. C220_exact is proved for any number of objectives by an invariant of the whole recursion: the cached areas and volumes below the bound of a dimension are right, and every skipped node is covered by another active node. The conditions are needed: without them the statement is false, see C21_pareto_set_refuted, C21_dominated_point_refuted and C21_boundary_refuted."
  },
  {
   "property": "C221",
   "status": "partial",
   "theorems": [
    "C221_readable_partial",
    "C221_quoting_refuted",
    "C221_row_refuted"
   ],
   "note": "str of components, counts and floats is arbitrary. C221_readable_partial: every set is read back when no text contains the delimiter or a newline (single-row solutions with several objectives excepted). C221_quoting_refuted: nothing is quoted, two different sets of categorical values give the same file. C221_row_refuted: a row of a set with several objectives raises ValueError."
  },
  {
   "property": "C222",
   "status": "proved",
   "theorems": [
    "C222_append"
   ],
   "note": "Sets (two-dimensional) with at least one row in total; rows of 2-d sets taken alone with several objectives are excluded, they can neither be added nor written (C53, C221). File I/O errors and line-end translation are not modelled."
  },
  {
   "property": "C223",
   "status": "partial",
   "theorems": [
    "C223_complete_partial",
    "C223_readable_partial",
    "C223_complete_refuted",
    "C223_fresh_refuted"
   ],
   "note": "C223_complete_partial and C223_readable_partial: complete when every tell returns. C223_complete_refuted: a tell that raises while the model is updated leaves its observations in the data but not in the file, and later calls do not add them. C223_fresh_refuted: the file of an earlier run is appended to, and there is no header to separate the runs."
  },
  {
   "property": "C224",
   "status": "proved",
   "theorems": [
    "C224_sound"
   ],
   "note": "All effects of tell are taken from the model of C01-C09."
  },
  {
   "property": "C225",
   "status": "proved",
   "theorems": [
    "C225_complete"
   ],
   "note": "In mobo.py the file is written before the points are added and the models are fitted, so the gap of C223 does not exist there."
  },
  {
   "property": "C226",
   "status": "partial",
   "theorems": [
    "C226_consistent_partial",
    "C226_consistent_refuted",
    "C226_single_partial"
   ],
   "note": "C226_consistent_partial: exact for sequences of objective functions and directions given as a bool or a sequence. C226_consistent_refuted: without objective functions one or no objective is accepted; a direction that is neither bool nor sequence gives an array without dimensions."
  },
  {
   "property": "C227",
   "status": "partial",
   "theorems": [
    "C227_warm_data_refuted"
   ],
   "note": "Refuted for every such call: the setter runs in the parent's constructor, where the number of objectives is still one, and the assignment of the values to the fitness cannot be broadcast. Built on the solution sets of C52-C56."
  },
  {
   "property": "C228",
   "status": "partial",
   "theorems": [
    "C228_batch_refuted",
    "C228_single_partial"
   ],
   "note": "C228_batch_refuted: every ask of MOBO_qEHVI after the initial design raises (its acquisition function does not exist), and so does MOBO for several points. C228_single_partial: MOBO proposes one point."
  },
  {
   "property": "C229",
   "status": "partial",
   "theorems": [
    "C229_named_partial",
    "C229_object_partial",
    "C229_multi_objective_refuted",
    "C229_checked_refuted"
   ],
   "note": "C229_named_partial: the five acquisition functions. C229_checked_refuted: any other name and any callable is accepted and fails at the first ask after the design; _check_params is never called. C229_multi_objective_refuted: MOBO and MOBO_qEHVI replace the request. Other objects are rejected. Names of base classes and imports of the module acquisition_fun are not distinguished."
  },
  {
   "property": "C230",
   "status": "partial",
   "theorems": [
    "C230_no_bounds_refuted",
    "C230_bounds_partial",
    "C230_refuses_partial"
   ],
   "note": "Refuted: without bounds every call raises TypeError, since np.isfinite is applied to an array that holds None. Proved for finite bounds."
  },
  {
   "property": "C231",
   "status": "partial",
   "theorems": [
    "C231_array_refuted",
    "C231_one_partial"
   ],
   "note": "Refuted for every array of two or more entries: ValueError (truth value of an array). One entry is the same as a number."
  },
  {
   "property": "C232",
   "status": "proved",
   "theorems": [
    "C232_accepts",
    "C232_refuses"
   ],
   "note": "Proved. check_X_y of scikit-learn is taken to have passed."
  },
  {
   "property": "C233",
   "status": "partial",
   "theorems": [
    "C233_start_refuted",
    "C233_length_partial"
   ],
   "note": "Refuted: theta0 = -1 passes all checks. Only the length is compared."
  },
  {
   "property": "C234",
   "status": "partial",
   "theorems": [
    "C234_isotropic_refuted",
    "C234_right_trend_partial"
   ],
   "note": "Refuted with the default trend, for every search: it is made for as many features as there are bounds, and raises. With a trend for the right number of features the search is started."
  },
  {
   "property": "C235",
   "status": "partial",
   "theorems": [
    "C235_transposed_refuted",
    "C235_raises_partial"
   ],
   "note": "Refuted if the number of features of the trend is the number of points: the array is transposed, every likelihood is rejected, and fit does not return. Otherwise it raises."
  },
  {
   "property": "C236",
   "status": "partial",
   "theorems": [
    "C236_noise_partial",
    "C236_forever_refuted",
    "C236_no_rejection_partial"
   ],
   "note": "Refuted: once a likelihood has been rejected (C181 says when), the model is noisy in all later fits. Proved: without rejections mode and noise stay as made; the known noise is the nugget times ten to the number of rejections. The search is an arbitrary function."
  },
  {
   "property": "C237",
   "status": "partial",
   "theorems": [
    "C237_failed_refuted",
    "C237_completed_partial"
   ],
   "note": "Refuted whenever the number of points differs: X is replaced before the checks. Shapes only."
  },
  {
   "property": "C238",
   "status": "partial",
   "theorems": [
    "C238_one_pair_partial",
    "C238_pairs_partial",
    "C238_one_variable_refuted"
   ],
   "note": "Proved for one pair, and for two or more variables and pairs. Refuted for one variable and several pairs, which are all kept."
  },
  {
   "property": "C239",
   "status": "proved",
   "theorems": [
    "C239_columns"
   ],
   "note": "Proved."
  },
  {
   "property": "C240",
   "status": "partial",
   "theorems": [
    "C240_binary_partial",
    "C240_separated_partial",
    "C240_two_partial",
    "C240_three_partial",
    "C240_five_refuted"
   ],
   "note": "Refuted for five objectives (the value of Hypervolume.compute is too small, C21). Proved for up to three objectives, and with any number of objectives for separated points inside the reference point (C220). Exact arithmetic, default threshold."
  },
  {
   "property": "C241",
   "status": "partial",
   "theorems": [
    "C241_batch_partial",
    "C241_vector_partial",
    "C241_misfit_partial",
    "C241_square_refuted",
    "C241_equal_bounds_refuted"
   ],
   "note": "Refuted when there are as many points as variables (the rows are taken for variables, feasible points leave their box) and for equal bounds (not-a-number). Proved for every other number of points and for vectors. Exact arithmetic, no infinite entries."
  },
  {
   "property": "C242",
   "status": "partial",
   "theorems": [
    "C242_copied_partial",
    "C242_raised_partial",
    "C242_inside_partial",
    "C242_float_array_refuted",
    "C242_changed_refuted"
   ],
   "note": "Refuted for arrays of floats, which are overwritten with the repaired values. Proved for anything numpy has to copy, for calls that raise, and for points inside of their box."
  },
  {
   "property": "C243",
   "status": "partial",
   "theorems": [
    "C243_number_partial",
    "C243_iterable_partial",
    "C243_length_partial",
    "C243_text_refuted",
    "C243_other_refuted"
   ],
   "note": "Refuted for the text of a number (TypeError) or of one entry (AssertionError) and for numpy integers (TypeError). Proved for numbers and iterables. The value of a text is an arbitrary function."
  },
  {
   "property": "C244",
   "status": "partial",
   "theorems": [
    "C244_number_partial",
    "C244_text_partial",
    "C244_refused_partial",
    "C244_other_refuted"
   ],
   "note": "Refuted for numpy integers (ValueError). Proved for Python numbers and their texts. The value of a text is an arbitrary function."
  },
  {
   "property": "C245",
   "status": "partial",
   "theorems": [
    "C245_UCB_partial",
    "C245_one_point_partial",
    "C245_several_refuted",
    "C245_classes_refuted"
   ],
   "note": "Refuted for EI, EpsilonPI, PI and MGFI: with two or more points the truth value of an array raises ValueError, for every surrogate. Proved for UCB, and for all with one point. Real arithmetic."
  },
  {
   "property": "C246",
   "status": "partial",
   "theorems": [
    "C246_squared_exponential_partial",
    "C246_raises_refuted",
    "C246_zeros_refuted"
   ],
   "note": "Proved for the squared exponential correlation with one parameter for each feature and constant or linear trend. Refuted otherwise: the Matern, generalized exponential and cubic functions, isotropic parameters, quadratic trends and the absolute exponential with several training points raise, and the absolute exponential returns zeros where a coordinate of the query is one of the first training point. Real arithmetic."
  },
  {
   "property": "C247",
   "status": "proved",
   "theorems": [
    "C247_symmetric"
   ],
   "note": "Real arithmetic."
  },
  {
   "property": "C248",
   "status": "proved",
   "theorems": [
    "C248_variables",
    "C248_accepts",
    "C248_one_range",
    "C248_refuses"
   ],
   "note": "Values are numbers, bools, texts and tuples; ranges of integer variables are ints."
  },
  {
   "property": "C249",
   "status": "partial",
   "theorems": [
    "C249_default_partial",
    "C249_default_refuted"
   ],
   "note": "Refuted: the default value is checked before the scale moves the bounds, so RealSpace([[-5, 5]], default_value=-1, scale='log') has a default value outside its range. Holds when the range lies in the working range of the scale."
  },
  {
   "property": "C250",
   "status": "partial",
   "theorems": [
    "C250_subset_partial",
    "C250_subset_refuted"
   ],
   "note": "Refuted: a tuple is taken for a list with one default value for each variable. Holds when the tuple is wrapped in a list."
  },
  {
   "property": "C251",
   "status": "partial",
   "theorems": [
    "C251_bool_partial",
    "C251_default_refused",
    "C251_bool_refuted"
   ],
   "note": "Refuted: several names raise AssertionError, because the bounds (False, True) are one range. Holds for one name."
  },
  {
   "property": "C252",
   "status": "proved",
   "theorems": [
    "C252_columns",
    "C252_labelled_columns"
   ],
   "note": "C252_columns and C252_labelled_columns state it by lookup in the dictionary."
  },
  {
   "property": "C253",
   "status": "partial",
   "theorems": [
    "C253_conditions_partial",
    "C253_conditions_refuted",
    "C253_cycles_raise"
   ],
   "note": "_partial: all conditions refer to variables of the space, distinct names, no cycles (for every such list of variables). _refuted: if c depends on a variable outside the space, the condition of d on c is lost although both are in the space. C253_cycles_raise: two variables depending on each other raise RecursionError at every recursion limit. Condition texts are not parsed; only the first variable of a condition is used, as in the code."
  },
  {
   "property": "C254",
   "status": "partial",
   "theorems": [
    "C254_slice_partial",
    "C254_slice_refuted",
    "C254_remove_partial",
    "C254_remove_refuted"
   ],
   "note": "_partial: conditions given by the argument structure (no conditions on the variables), distinct names. _refuted: for every space whose conditions come with its variables, the sub-space of all variables has a condition twice, because the conditions of the trees and those of the variables are both added."
  },
  {
   "property": "C255",
   "status": "partial",
   "theorems": [
    "C255_no_conditions",
    "C255_subspaces_partial",
    "C255_selector_refuted",
    "C255_twice_refuted",
    "C255_renames_refuted"
   ],
   "note": "_partial: a constructed space. _refuted: a sub-space with the selector but without its dependants raises TypeError; a sub-space of all variables lists a dependant twice; a space of a variable twice renames the variable object."
  },
  {
   "property": "C256",
   "status": "partial",
   "theorems": [
    "C256_sum_partial",
    "C256_sum_refuted"
   ],
   "note": "_refuted: whenever one of the spaces has a condition tree, the sum raises (deepcopy of a tree returns None, C49). _partial: neither has a tree."
  },
  {
   "property": "C257",
   "status": "partial",
   "theorems": [
    "C257_in_place_partial",
    "C257_minus_refuted",
    "C257_plus_refuted"
   ],
   "note": "_refuted: -= leaves the conditions of removed variables and the unconditional sub-spaces then raise IndexError; += loses conditions between the two spaces. _partial: no conditions."
  },
  {
   "property": "C258",
   "status": "partial",
   "theorems": [
    "C258_argument_partial",
    "C258_argument_refuted",
    "C258_again_refuted"
   ],
   "note": "_refuted: the dictionary changes as soon as one variable has a condition; a second construction has the condition twice. _partial: no variable has a condition."
  },
  {
   "property": "C259",
   "status": "partial",
   "theorems": [
    "C259_one_partial",
    "C259_copies_refuted"
   ],
   "note": "_refuted: two copies of a space with a condition have none, because the names are changed and the conditions are not. _partial: one copy."
  },
  {
   "property": "C260",
   "status": "proved",
   "theorems": [
    "C260_raised"
   ],
   "note": "Proved for the values stored, after any calls; the standard deviation is stated by squared differences of pairs, without roots, over rationals."
  },
  {
   "property": "C261",
   "status": "proved",
   "theorems": [
    "C261_points_checked",
    "C261_points_refused"
   ],
   "note": "Proved. Integer coordinates are refused as well."
  },
  {
   "property": "C262",
   "status": "partial",
   "theorems": [
    "C262_weighted_sum_partial",
    "C262_wrong_weights",
    "C262_refuses",
    "C262_tchebycheff_refuted"
   ],
   "note": "The weighted sum is proved (expectation abstract: linear and monotone). Refuted: with 'Tchebycheff', which the constructor accepts, predict raises UnboundLocalError."
  },
  {
   "property": "C263",
   "status": "partial",
   "theorems": [
    "C263_names_partial",
    "C263_prefix",
    "C263_wrong_number",
    "C263_repeated_refuted",
    "C263_conditions_refuted"
   ],
   "note": "Proved for distinct names in spaces without conditions. Refuted: repeated names are changed silently; conditions keep the old names, after which get_unconditional_subspace raises."
  },
  {
   "property": "C264",
   "status": "proved",
   "theorems": [
    "C264_one_reference",
    "C264_fast_one_reference"
   ],
   "note": "Proved for both classes, two objectives (batches are refused for more)."
  },
  {
   "property": "C265",
   "status": "partial",
   "theorems": [
    "C265_each_reference",
    "C265_fast_each_partial",
    "C265_fast_each_refuted"
   ],
   "note": "Proved for NondominatedPartitioning. FastNondominatedPartitioning: proved if the first batch has some outcome better than the reference point of its set, or for one set; refuted otherwise: the constructor raises (non_dominated.py:375 assigns a tensor of a shape that does not fit)."
  },
  {
   "property": "C266",
   "status": "partial",
   "theorems": [
    "C266_invalid_refuted",
    "C266_empty_range_partial"
   ],
   "note": "Refuted: apart from empty ranges such items are dropped silently (the exception is caught and the dictionary printed)."
  },
  {
   "property": "C267",
   "status": "proved",
   "theorems": [
    "C267_foreign_argument",
    "C267_values_used"
   ],
   "note": "Proved; MGFI reduces t to 22.36, and PI can never be constructed (C59)."
  },
  {
   "property": "C268",
   "status": "proved",
   "theorems": [
    "C268_at_least",
    "C268_at_most"
   ],
   "note": "Proved for all thresholds; for alpha at most 0 the value is exact (C173)."
  },
  {
   "property": "C269",
   "status": "partial",
   "theorems": [
    "C269_round_trip_refuted",
    "C269_round_trip_partial"
   ],
   "note": "Refuted for every space with a variable: to_dict writes the class object under \"type\", json.dump raises a TypeError after the file was truncated, and the file can no longer be read. Holds for the space without variables. json.load enters by its contract."
  },
  {
   "property": "C270",
   "status": "partial",
   "theorems": [
    "C270_counts_finite_partial",
    "C270_failed_refuted",
    "C270_warm_refuted"
   ],
   "note": "Refuted: failed evaluations (NaN or infinite) are not counted, and points told with warm_start are. Partial: data and eval_count are exactly the finite observations; so the claim holds when all values are finite and no call is a warm start."
  },
  {
   "property": "C271",
   "status": "partial",
   "theorems": [
    "C271_ends_partial",
    "C271_never_ends_refuted"
   ],
   "note": "Refuted for every budget m >= 3 with batches of two: failed evaluations are not counted, so an objective that fails after the first batch keeps run() going forever. Partial: with finite (or raising) objectives the run ends within m iterations and overshoots by less than one batch."
  },
  {
   "property": "C272",
   "status": "partial",
   "theorems": [
    "C272_routing_partial",
    "C272_two_asks_refuted"
   ],
   "note": "Refuted: after two asks the points of the first batch are given to the sub-optimizers of the second one without an exception. Partial: holds when a batch is told before the next ask, no value is falsy and the proposals do not contain the conditioning variables."
  },
  {
   "property": "C273",
   "status": "proved",
   "theorems": [
    "C273_recommendation",
    "C273_progress"
   ],
   "note": "Proved for every history whose calls return normally."
  },
  {
   "property": "C274",
   "status": "partial",
   "theorems": [
    "C274_never_counted_refuted"
   ],
   "note": "Refuted for every history: the counter stays 0."
  },
  {
   "property": "C275",
   "status": "proved",
   "theorems": [
    "C275_semidefinite",
    "C275_definite"
   ],
   "note": "Real arithmetic. Gaussian kernels by the exponential series; the other two as mixtures of Gaussian kernels; strictness by comparing powers at the point of largest norm."
  },
  {
   "property": "C276",
   "status": "proved",
   "theorems": [
    "C276_generalized",
    "C276_sharp"
   ],
   "note": "Real arithmetic. Fractional powers as mixtures of 1 - exp(-s x), products of kernels by Schur's theorem; beyond two, the points 0, 1, 2."
  },
  {
   "property": "C277",
   "status": "partial",
   "theorems": [
    "C277_cubic_refuted",
    "C277_others_partial",
    "C277_likelihood_refuted"
   ],
   "note": "Refuted for the cubic correlation: seven equally spaced points and theta = 1/5; with noise 1e-6 the likelihood of these data is -inf. Partial: all other correlations, with an exponent of at most two for the generalized exponential."
  },
  {
   "property": "C278",
   "status": "proved",
   "theorems": [
    "C278_noisy",
    "C278_noise_estimated",
    "C278_noiseless"
   ],
   "note": "Under the contracts of LAPACK in exact arithmetic (Spec_Likelihood.lapack); in floating point a nearly singular matrix can still fail."
  },
  {
   "property": "C279",
   "status": "proved",
   "theorems": [
    "C279_repeated",
    "C279_no_exception"
   ],
   "note": "Exact arithmetic, under the contracts of LAPACK; parameters whose number does not fit the points raise an exception instead."
  },
  {
   "property": "C280",
   "status": "proved",
   "theorems": [
    "C280_best",
    "C280_zero_exactly"
   ],
   "note": "Real arithmetic, under the contracts of LAPACK. The optimal predictor is characterised without matrix inverses (Spec_PredictVar.squared_error)."
  },
  {
   "property": "C281",
   "status": "proved",
   "theorems": [
    "C281_covariance"
   ],
   "note": "Real arithmetic; several targets give the root mean square of the covariances."
  },
  {
   "property": "C282",
   "status": "partial",
   "theorems": [
    "C282_optimistic_partial",
    "C282_every_fit",
    "C282_refuted"
   ],
   "note": "Refuted: with a known trend the reported variance is zero at the data for every fit, whatever the noise, because the correlations to the new point are not scaled by the share of the process variance. Partial: the reported variance lies between zero and the error of every linear predictor, so it is never too large."
  },
  {
   "property": "C283",
   "status": "proved",
   "theorems": [
    "C283_one_mutation",
    "C283_first_generation"
   ],
   "note": "The random numbers are arbitrary: the moves of the reals (any number), the differences of geometric numbers (any integer), the components that change and their levels (any valid position). It says which points are possible, not how likely they are; that the step sizes may become zero is C197."
  },
  {
   "property": "C284",
   "status": "proved",
   "theorems": [
    "C284_fast_improvement",
    "C284_fast_update",
    "C284_fast_two_objectives",
    "C284_binary_improvement"
   ],
   "note": "Both classes and every number of objectives (the binary one with the default threshold); two objectives of the fast class after construction. The volume below an outcome is defined by the spec, side by side, and the measure by any grid, so neither refers to the code."
  },
  {
   "property": "C285",
   "status": "proved",
   "theorems": [
    "C285_expected_improvement",
    "C285_two_objectives",
    "C285_expectations_are_unique",
    "C285_binary"
   ],
   "note": "The expectation is an iterated integral over the line, shown to be unique. Outcomes above the cut (1e8 or 1e10) count as the cut; variances below 1e-9 are raised to it as in the code. Agreement with the hypervolume is stated at rational outcomes, which with monotonicity determines the function almost everywhere; real arithmetic is exact."
  },
  {
   "property": "C286",
   "status": "proved",
   "theorems": [
    "C286_updates",
    "C286_improvement",
    "C286_expected_improvement"
   ],
   "note": "The object with its history, where C22, C172, C284 and C285 treat two objectives after construction only. Unbatched input, exact arithmetic."
  },
  {
   "property": "C287",
   "status": "proved",
   "theorems": [
    "C287_positive",
    "C287_positive_two_objectives",
    "C287_positive_all_classes"
   ],
   "note": "Exact arithmetic: in floating point the value of a far prediction underflows to zero."
  },
  {
   "property": "C288",
   "status": "proved",
   "theorems": [
    "C288_fewer_outcomes_more_to_gain",
    "C288_same_outcomes_same_value",
    "C288_updates_decrease",
    "C288_all_classes_return"
   ],
   "note": "Exact arithmetic, unbatched outcomes, threshold at most zero for the binary class (the default)."
  },
  {
   "property": "C289",
   "status": "proved",
   "theorems": [
    "C289_positive",
    "C289_units",
    "C289_expectation"
   ],
   "note": "Scaling and predictions in exact arithmetic, with the conversion of the scaled values and of the reference point to single precision."
  },
  {
   "property": "C290",
   "status": "partial",
   "theorems": [
    "C290_direction_refuted",
    "C290_recommendation_partial"
   ],
   "note": "Refuted for improvements: the reference point is 0.8 times the worst scaled value, which is -1 for minimised and 0 for maximised objectives. Proved for the recommendation, in exact arithmetic."
  },
  {
   "property": "C291",
   "status": "proved",
   "theorems": [
    "C291_underestimates"
   ],
   "note": "Exact arithmetic, unbatched outcomes."
  },
  {
   "property": "C292",
   "status": "proved",
   "theorems": [
    "C292_threshold_monotone"
   ],
   "note": "Exact arithmetic, unbatched outcomes; the same tie-breaking in both runs."
  }
 ]
}