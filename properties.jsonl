{"id": "C01", "title": "Evaluation accounting over a whole ask/tell history", "statement": "After any sequence of tell calls that return normally, eval_count equals the number of points told in non-warm-start calls (NaN and infinite ones included), and data holds exactly the told points whose value is finite, warm-start ones included, in the order they were told, with the values they were told with.", "quantifier": "every finite sequence of tell calls, every batch size, every mixture of finite/NaN/inf values and of warm-start flags", "why_tests_cant": "The claim is about the accumulated effect of unboundedly many calls with arbitrary values; tests only replay a few short histories.", "anchors": ["bayes_optim/base.py:BaseBO.tell", "bayes_optim/base.py:BaseBO.post_eval_check"]}
{"id": "C02", "title": "History of best values is the running optimum", "statement": "hist_f has exactly one entry per completed non-warm tell, iter_count equals its length, each entry is the best fitness among all finite observations at that moment, and hence the sequence never gets worse (non-increasing when minimising, non-decreasing when maximising).", "quantifier": "every sequence of tell calls and both optimisation directions", "why_tests_cant": "Monotonicity over arbitrary histories needs induction over the history.", "anchors": ["bayes_optim/base.py:BaseBO.tell", "bayes_optim/_base.py:BaseOptimizer.xopt", "bayes_optim/_base.py:BaseOptimizer._get_best"]}
{"id": "C03", "title": "The recommendation is the first best observation", "statement": "After any history with at least one finite observation, the recommended solution is an observed point, no observed point has a strictly better value in the optimisation direction, and it is the earliest observation with that value.", "quantifier": "every reachable optimizer state, both optimisation directions", "why_tests_cant": "Optimality over all rows of an arbitrary data set cannot be enumerated by tests.", "anchors": ["bayes_optim/_base.py:BaseOptimizer.xopt", "bayes_optim/_base.py:BaseOptimizer.recommend"]}
{"id": "C04", "title": "run terminates and respects the evaluation budget", "statement": "With a finite max_FEs, run never loops forever whatever the proposals and objective values are: after at most max_FEs iterations it returns or raises; when it returns because of the budget, eval_count is at least max_FEs and at most max_FEs - 1 plus the size of the last batch.", "quantifier": "every objective function, every sequence of proposed batches, every finite budget", "why_tests_cant": "Termination for every objective and every sampler outcome is a universally quantified liveness claim.", "anchors": ["bayes_optim/_base.py:BaseOptimizer.run", "bayes_optim/_base.py:BaseOptimizer.check_stop", "bayes_optim/base.py:BaseBO.step", "bayes_optim/base.py:BaseBO.ask"]}
{"id": "C05", "title": "check_stop is sound with respect to the target", "statement": "When an ftarget is given and the budget is not exhausted, check_stop reports the target as reached exactly when the best value found is better than the target in the direction of optimisation; once it has reported stop, it keeps reporting stop.", "quantifier": "every optimizer state, every target, both optimisation directions", "why_tests_cant": "The suite only runs a handful of minimisation targets.", "anchors": ["bayes_optim/_base.py:BaseOptimizer.check_stop", "bayes_optim/_base.py:BaseOptimizer._compare"]}
{"id": "C06", "title": "A tell that raises has no effect", "statement": "If tell raises an exception, the observable state of the optimizer (data, eval_count, iter_count, hist_f, recommendation) is what it was before the call.", "quantifier": "every state, every batch and every exception that tell can raise", "why_tests_cant": "Atomicity is a claim about every failure point of every call.", "anchors": ["bayes_optim/base.py:BaseBO.tell", "bayes_optim/base.py:BaseBO.update_model"]}
{"id": "C07", "title": "Warm-start data is free and comes first", "statement": "Constructing an optimizer with warm data consumes no budget and no iteration, records no history entry, and makes the finite warm points the first rows of data; every later state keeps them as a prefix.", "quantifier": "every warm data set and every later history", "why_tests_cant": "The prefix must survive arbitrary later histories.", "anchors": ["bayes_optim/base.py:BaseBO.warm_data", "bayes_optim/base.py:BaseBO.tell"]}
{"id": "C08", "title": "Per-point evaluation counters are exact", "statement": "Each row of data carries as n_eval the number of times this point was evaluated (told): a point told once has n_eval 1.", "quantifier": "every history and both evaluation modes (list and dict)", "why_tests_cant": "Needs to hold for every row of every reachable data set in both modes.", "anchors": ["bayes_optim/base.py:BaseBO.tell", "bayes_optim/base.py:BaseBO._to_geno", "bayes_optim/solution.py:Solution.from_dict"]}
{"id": "C09", "title": "Row labels identify observations", "statement": "In every reachable data set no two rows carry the same index label.", "quantifier": "every history produced by run or by ask/tell", "why_tests_cant": "Uniqueness over unbounded histories.", "anchors": ["bayes_optim/base.py:BaseBO.ask", "bayes_optim/base.py:BaseBO.tell", "bayes_optim/base.py:BaseBO.step", "bayes_optim/solution.py:Solution.__new__"]}
{"id": "C10", "title": "ask returns between one and the requested number of points", "statement": "For n >= 1, ask(n) either raises the empty-proposal error or returns at least one and at most n points (n being the configured batch size, or the DoE size for the first call, when not given).", "quantifier": "every state, every n, every outcome of the samplers and of the acquisition optimisation", "why_tests_cant": "Counts must hold for every random outcome.", "anchors": ["bayes_optim/base.py:BaseBO.ask", "bayes_optim/base.py:BaseBO.create_DoE", "bayes_optim/base.py:BaseBO.arg_max_acquisition"]}
{"id": "C11", "title": "No proposal repeats an evaluated point", "statement": "No point returned by ask of the noiseless optimizers is a near-duplicate (real components within the isclose tolerance, integer and categorical components equal) of a point already in data.", "quantifier": "every data set and every sampler / acquisition outcome", "why_tests_cant": "Must hold for every candidate set.", "anchors": ["bayes_optim/bayes_opt.py:BO.pre_eval_check", "bayes_optim/base.py:BaseBO.ask", "bayes_optim/base.py:BaseBO.create_DoE"]}
{"id": "C12", "title": "Points of one batch are pairwise distinct", "statement": "The points returned by one ask call are pairwise distinct.", "quantifier": "every state and every sampler / acquisition outcome", "why_tests_cant": "Random samplers repeat points with tiny probability; tests never see it.", "anchors": ["bayes_optim/base.py:BaseBO.ask", "bayes_optim/base.py:BaseBO.create_DoE", "bayes_optim/bayes_opt.py:BO.pre_eval_check"]}
{"id": "C13", "title": "Fixed variables are honoured exactly", "statement": "Every point returned by ask(fixed=F) assigns to each variable named in F exactly the value given in F, and all other components come from the sampled sub-space in their original order.", "quantifier": "every search space, every assignment F, every sample", "why_tests_cant": "Column placement must be right for every pattern of fixed variables.", "anchors": ["bayes_optim/base.py:BaseBO.create_DoE", "bayes_optim/base.py:BaseBO.arg_max_acquisition", "bayes_optim/utils/utils.py:fillin_fixed_value"]}
{"id": "C14", "title": "Every proposed point lies in the search space", "statement": "Every point returned by ask without fixed values lies in the search space, given that the samplers and the inner optimizer produce points of the space.", "quantifier": "every space, every sampler outcome", "why_tests_cant": "Rounding and fill-in are applied after sampling; their effect on membership must hold for all values.", "anchors": ["bayes_optim/base.py:BaseBO.create_DoE", "bayes_optim/search_space/search_space.py:SearchSpace.round", "bayes_optim/search_space/variable.py:Real.round"]}
{"id": "C15", "title": "Batch evaluation keeps the order", "statement": "evaluate(X) returns at position i the objective value of X[i], whatever order the worker jobs finish in; for several objectives row i column k is objective k at X[i].", "quantifier": "every batch, every objective and every completion order of the jobs", "why_tests_cant": "Completion orders are schedules; tests see few.", "anchors": ["bayes_optim/_base.py:BaseOptimizer.evaluate", "bayes_optim/mobo.py:BaseMOBO.evaluate"]}
{"id": "C16", "title": "A seed makes an optimizer reproducible", "statement": "Two optimizers constructed with the same random_seed and driven by the same calls draw the same random numbers and hence make the same proposals.", "quantifier": "every seed and every call sequence", "why_tests_cant": "A hidden reseed from OS entropy shows up only on particular call paths.", "anchors": ["bayes_optim/search_space/search_space.py:SearchSpace.random_seed", "bayes_optim/search_space/search_space.py:SearchSpace.__getitem__", "bayes_optim/base.py:BaseBO.create_DoE"]}
{"id": "C17", "title": "is_pareto_efficient returns exactly the non-dominated points", "statement": "A point is kept iff no other point of the input is at least as good in all objectives and better in one (minimisation); of identical non-dominated points exactly the first is kept; mask and index forms agree.", "quantifier": "every finite set of points of any dimension", "why_tests_cant": "All inputs of all sizes and ties.", "anchors": ["bayes_optim/utils/utils.py:is_pareto_efficient"]}
{"id": "C18", "title": "fast_non_dominated_sort produces the dominance layers", "statement": "For at least one point, the fronts are disjoint, cover all points, contain no empty front, and front k is exactly the set of points not dominated by any point outside fronts 0..k-1.", "quantifier": "every finite multiset of points of any dimension, with ties and duplicates", "why_tests_cant": "Layer structure for arbitrary inputs needs induction.", "anchors": ["bayes_optim/utils/multi_objective/pareto.py:fast_non_dominated_sort"]}
{"id": "C19", "title": "non_dominated_set_2d returns the non-dominated points and leaves its input alone", "statement": "The function returns exactly the points of the input that no other point dominates, and the caller's array is unchanged afterwards.", "quantifier": "every finite set of 2-D points", "why_tests_cant": "Ties in one coordinate are rarely generated by random tests.", "anchors": ["bayes_optim/utils/multi_objective/pareto.py:non_dominated_set_2d"]}
{"id": "C20", "title": "is_non_dominated marks exactly the maximal points", "statement": "For maximisation, row i is marked iff no row dominates it; with deduplicate=True of equal maximal rows only the first is marked, without it all of them.", "quantifier": "every finite matrix of any shape, ties and duplicates included", "why_tests_cant": "All inputs of all sizes.", "anchors": ["bayes_optim/utils/multi_objective/pareto.py:is_non_dominated"]}
{"id": "C21", "title": "Hypervolume equals the measure of the dominated region", "statement": "For every set of points and reference point, the computed hypervolume equals the measure of the union of the boxes between the points and the reference point; it does not depend on the order of the points, ignores points not better than the reference, and does not decrease when a point is added.", "quantifier": "every finite set of points, every reference point", "why_tests_cant": "Measure of a union over arbitrary sets; random tests use tiny fronts.", "anchors": ["bayes_optim/utils/multi_objective/hypervolume.py:Hypervolume.compute", "bayes_optim/utils/multi_objective/hypervolume.py:Hypervolume._hv_recursive"]}
{"id": "C22", "title": "Two-objective box decomposition partitions the non-dominated region", "statement": "The cells computed for a two-objective front are pairwise disjoint and a point strictly better than the reference lies in some cell iff no front point dominates it.", "quantifier": "every front, every reference point, every query point", "why_tests_cant": "A covering claim about a continuum of query points.", "anchors": ["bayes_optim/utils/multi_objective/box_decompositions/utils.py:compute_non_dominated_hypercell_bounds_2d", "bayes_optim/utils/multi_objective/box_decompositions/utils.py:compute_dominated_hypercell_bounds_2d"]}
{"id": "C23", "title": "Binary partitioning terminates and covers the non-dominated region", "statement": "The binary partitioning of the non-dominated space for any number of objectives terminates, its cells are pairwise disjoint, contain no dominated point in their interior and cover all non-dominated points better than the reference.", "quantifier": "every front of any size and dimension", "why_tests_cant": "Termination and covering for all fronts.", "anchors": ["bayes_optim/utils/multi_objective/box_decompositions/non_dominated.py:NondominatedPartitioning._partition_space"]}
{"id": "C24", "title": "The multi-objective recommendation is the non-dominated subset of data", "statement": "recommend of the multi-objective optimizer returns exactly the observed points that no other observed point dominates in the user's minimise/maximise orientation of each objective; rescaling the objectives to the unit interval does not change that set.", "quantifier": "every data set, every orientation vector", "why_tests_cant": "All data sets with ties and constant objectives.", "anchors": ["bayes_optim/mobo.py:BaseMOBO.xopt", "bayes_optim/mobo.py:BaseMOBO.y"]}
{"id": "C25", "title": "The default reference point is dominated by all observations", "statement": "The reference point used for the hypervolume-based acquisition is no better than any observation in any objective, so that every observation contributes.", "quantifier": "every data set, both orientations", "why_tests_cant": "All data sets.", "anchors": ["bayes_optim/mobo.py:BaseMOBO.ref_point"]}
{"id": "C26", "title": "Multi-objective evaluation accounting", "statement": "After any sequence of tell calls the evaluation counter equals the number of objective-function evaluations told (points times objectives) outside warm-start calls, and data holds the told points in order.", "quantifier": "every sequence of tell calls and every number of objectives", "why_tests_cant": "Unbounded histories.", "anchors": ["bayes_optim/mobo.py:BaseMOBO.tell"]}
{"id": "C27", "title": "Box repair lands in the box and leaves feasible points alone", "statement": "handle_box_constraint maps every vector into [lb, ub] componentwise, returns points already inside unchanged, is idempotent, and leaves components with an infinite bound untouched; reflecting distances are preserved modulo the box width.", "quantifier": "every real vector and all bounds lb < ub, finite or not", "why_tests_cant": "Continuum of inputs; off-by-one in the parity of the number of reflections is seldom hit.", "anchors": ["bayes_optim/utils/utils.py:handle_box_constraint", "bayes_optim/surrogate/gaussian_process/boundary_handling.py:boundary_handling"]}
{"id": "C28", "title": "The dynamic penalty is zero exactly on feasible points", "statement": "dynamic_penalty is zero iff every equality residual is within the tolerance and every inequality value is <= 0, strictly positive otherwise when minimising (strictly negative when maximising), grows with t, and never rewards a larger violation.", "quantifier": "every vector of constraint values, every t >= 1 and positive parameters", "why_tests_cant": "Continuum of inputs.", "anchors": ["bayes_optim/utils/utils.py:dynamic_penalty"]}
{"id": "C29", "title": "argmax_restart returns the best feasible restart result", "statement": "The returned pair is the outcome of one of the restarts, satisfies the constraints within tolerance, and no feasible restart outcome has a larger value; it is empty iff no restart was feasible; at most n_restart restarts are made, and it stops once the budget is used or wait_iter consecutive restarts bring no improvement.", "quantifier": "every sequence of inner-optimizer outcomes, every budget and restart limit", "why_tests_cant": "All outcome sequences.", "anchors": ["bayes_optim/acquisition/optim/__init__.py:argmax_restart"]}
{"id": "C30", "title": "MIES keeps every individual in the search space", "statement": "In every generation, every component of every individual is in its variable's domain (reals within bounds, integers within bounds, categorical values among the levels), for every random draw.", "quantifier": "every space, every random stream, every number of generations", "why_tests_cant": "Random streams are infinite.", "anchors": ["bayes_optim/acquisition/optim/mies.py:MIES._mutate_r", "bayes_optim/acquisition/optim/mies.py:MIES._mutate_i", "bayes_optim/acquisition/optim/mies.py:MIES._mutate_d", "bayes_optim/acquisition/optim/mies.py:MIES.recombine"]}
{"id": "C31", "title": "MIES returns the best individual it has seen and respects its budget", "statement": "The fitness returned by MIES is never worse than that of any evaluated individual, its incumbent never gets worse from one generation to the next, and it evaluates at most max_eval plus one generation of points.", "quantifier": "every objective, every random stream, every budget", "why_tests_cant": "All runs.", "anchors": ["bayes_optim/acquisition/optim/mies.py:MIES.optimize", "bayes_optim/acquisition/optim/mies.py:MIES.select", "bayes_optim/acquisition/optim/mies.py:MIES.stop"]}
{"id": "C32", "title": "The (1+1)-CMA-ES incumbent is feasible-first and never worsens", "statement": "Once a feasible point was found the reported optimum is feasible, and its value never gets worse; proposed points always lie in the box; step size stays positive and the smoothed success rate stays in [0,1].", "quantifier": "every objective, every random stream, every number of iterations", "why_tests_cant": "Invariants over unbounded runs.", "anchors": ["bayes_optim/acquisition/optim/one_plus_one_cma_es.py:OnePlusOne_CMA.tell", "bayes_optim/acquisition/optim/one_plus_one_cma_es.py:OnePlusOne_CMA.ask"]}
{"id": "C33", "title": "Rank-one Cholesky update is exact", "statement": "After each covariance update of the Cholesky variant, A times its transpose equals the rank-one updated covariance, and the stored inverse factor is the inverse of A, in every dimension.", "quantifier": "every dimension, every factor, every evolution path", "why_tests_cant": "Matrix identity in all dimensions.", "anchors": ["bayes_optim/acquisition/optim/one_plus_one_cma_es.py:OnePlusOne_Cholesky_CMA._update_covariance"]}
{"id": "C34", "title": "The Cholesky factor and its stored inverse stay consistent for ever", "statement": "In every reachable state of the Cholesky (1+1)-CMA-ES, including after restarts and numerical-error handling, the stored inverse factor is the inverse of the factor.", "quantifier": "every run including restarts and error handling", "why_tests_cant": "Restart paths combine with arbitrary pasts.", "anchors": ["bayes_optim/acquisition/optim/one_plus_one_cma_es.py:OnePlusOne_CMA.restart", "bayes_optim/acquisition/optim/one_plus_one_cma_es.py:OnePlusOne_CMA._handle_exception"]}
{"id": "C35", "title": "At most n_restart restarts are performed", "statement": "The (1+1)-CMA-ES performs at most n_restart restarts and, once they are used up, the next stagnation criterion stops the run.", "quantifier": "every run", "why_tests_cant": "Needs the interplay of counters over unbounded runs.", "anchors": ["bayes_optim/acquisition/optim/one_plus_one_cma_es.py:OnePlusOne_CMA.check_stop", "bayes_optim/acquisition/optim/one_plus_one_cma_es.py:OnePlusOne_CMA.restart"]}
{"id": "C36", "title": "Constrained sampling returns only feasible points of the space", "statement": "sample(N) under constraints returns at most N points, all within the domains of their variables and all satisfying the constraints within tolerance.", "quantifier": "every space, every constraint, every random stream", "why_tests_cant": "Random streams are infinite.", "anchors": ["bayes_optim/search_space/search_space.py:SearchSpace.sample", "bayes_optim/search_space/samplers.py:SCMC"]}
{"id": "C37", "title": "Scale transformations round-trip", "statement": "For every scale (linear, log, log10, logit, bilog) the inverse transformation undoes the transformation on its admissible range and vice versa, and both are strictly increasing, so bounds are mapped to bounds.", "quantifier": "every real number in the admissible range", "why_tests_cant": "Continuum of inputs.", "anchors": ["bayes_optim/search_space/variable.py:TRANS", "bayes_optim/search_space/variable.py:INV_TRANS"]}
{"id": "C38", "title": "Rounding to a precision stays in bounds", "statement": "Real.round with a precision maps every value to within the bounds, is idempotent, is monotone, and moves a value that stays inside by at most half a unit of the last kept digit.", "quantifier": "every value, bounds and precision", "why_tests_cant": "Continuum of inputs; boundary ties.", "anchors": ["bayes_optim/search_space/variable.py:Real.round"]}
{"id": "C39", "title": "Integer variables sample exactly their grid", "statement": "Integer(lb, ub, step) samples only values lb + k*step within [lb, ub], every such value can be sampled, and membership accepts exactly those values.", "quantifier": "every lb <= ub, step >= 1, every draw", "why_tests_cant": "All bounds and steps.", "anchors": ["bayes_optim/search_space/variable.py:Integer"]}
{"id": "C40", "title": "Discrete and Subset levels are exactly the distinct choices", "statement": "A discrete variable keeps each given level once in first-occurrence order and samples only among them; a Subset variable enumerates every non-empty subset of its elements exactly once.", "quantifier": "every list of levels, every draw", "why_tests_cant": "All lists.", "anchors": ["bayes_optim/search_space/variable.py:_Discrete", "bayes_optim/search_space/variable.py:Subset"]}
{"id": "C41", "title": "Set-like operations on search spaces", "statement": "filter(keys) and its inverted form split the variables of a space into two complementary order-preserving sub-sequences; a - b keeps exactly the variables of a whose name is not in b; concatenation keeps all variables of both in order.", "quantifier": "every space and every key set", "why_tests_cant": "All spaces.", "anchors": ["bayes_optim/search_space/search_space.py:SearchSpace.filter", "bayes_optim/search_space/search_space.py:SearchSpace.__sub__", "bayes_optim/search_space/search_space.py:SearchSpace.__add__"]}
{"id": "C42", "title": "In-place replication agrees with replication", "statement": "For every N >= 1, `s *= N` leaves s with the same variables as `s * N`, namely N copies of the original ones (N * dim variables).", "quantifier": "every space and every N >= 1", "why_tests_cant": "All N.", "anchors": ["bayes_optim/search_space/search_space.py:SearchSpace.__mul__", "bayes_optim/search_space/search_space.py:SearchSpace.__imul__"]}
{"id": "C43", "title": "Variable names are unique after construction", "statement": "After constructing a search space, all variable names are distinct.", "quantifier": "every list of variables", "why_tests_cant": "All name patterns.", "anchors": ["bayes_optim/search_space/search_space.py:SearchSpace._check_data"]}
{"id": "C44", "title": "Type indices partition the variables", "statement": "The index groups and masks by type (real, integer, discrete, ordinal, bool, subset) are disjoint and cover all positions; the categorical mask marks exactly the positions listed as categorical.", "quantifier": "every list of variables", "why_tests_cant": "All type patterns.", "anchors": ["bayes_optim/search_space/search_space.py:SearchSpace._set_index"]}
{"id": "C45", "title": "update has dictionary semantics", "statement": "a.update(b) replaces in place each variable of a that has the name of a variable of b, and appends the remaining variables of b in order.", "quantifier": "every pair of spaces", "why_tests_cant": "All pairs.", "anchors": ["bayes_optim/search_space/search_space.py:SearchSpace.update"]}
{"id": "C46", "title": "Building a combined space leaves its operands alone", "statement": "Evaluating a + b leaves the names and bounds of a and of b unchanged.", "quantifier": "every pair of spaces", "why_tests_cant": "Aliasing shows up only for clashing names.", "anchors": ["bayes_optim/search_space/search_space.py:SearchSpace.__add__", "bayes_optim/search_space/search_space.py:SearchSpace._check_data"]}
{"id": "C47", "title": "Membership means a complete, admissible assignment", "statement": "x in space holds iff x gives one value per variable and each value is admissible for its variable.", "quantifier": "every space and every candidate list", "why_tests_cant": "All candidates.", "anchors": ["bayes_optim/search_space/search_space.py:SearchSpace.__contains__"]}
{"id": "C48", "title": "Equal variables have equal hashes", "statement": "Two variables or spaces that compare equal have the same hash, and equality is an equivalence relation.", "quantifier": "every pair of variables", "why_tests_cant": "All pairs.", "anchors": ["bayes_optim/search_space/variable.py:Variable.__eq__", "bayes_optim/search_space/variable.py:Real.__hash__"]}
{"id": "C49", "title": "Copying a condition tree yields an equal tree", "statement": "deepcopy of a condition tree returns a structurally equal tree; keep-only removal returns the tree restricted to the kept names with the whole sub-tree of a dropped node dropped.", "quantifier": "every tree", "why_tests_cant": "All trees.", "anchors": ["bayes_optim/search_space/node.py:Node.deepcopy", "bayes_optim/search_space/node.py:Node.remove"]}
{"id": "C50", "title": "Condition trees survive the dictionary form", "statement": "from_dict(to_dict(t)) is t again for every tree with distinct node names.", "quantifier": "every tree", "why_tests_cant": "All shapes and depths.", "anchors": ["bayes_optim/search_space/node.py:Node.from_dict", "bayes_optim/search_space/node.py:Node.to_dict"]}
{"id": "C51", "title": "Unconditional sub-spaces enumerate the active variable sets", "statement": "The sub-spaces produced for a conditional space contain, for each combination of branch outcomes of the root variables, exactly the variables that are active under that combination, each combination once.", "quantifier": "every forest of condition trees", "why_tests_cant": "All shapes.", "anchors": ["bayes_optim/search_space/search_space.py:SearchSpace.get_unconditional_subspace", "bayes_optim/search_space/node.py:Node.get_all_path"]}
{"id": "C52", "title": "Row selection keeps values and attributes together", "statement": "For every valid row index i (negative ones counted from the end, as Python users expect) s[i] carries the values, fitness, n_eval and label of that row; slices carry those of all their rows.", "quantifier": "every solution set and every valid index or slice", "why_tests_cant": "All sizes and indices.", "anchors": ["bayes_optim/solution.py:Solution.__getitem__"]}
{"id": "C53", "title": "Concatenating solution sets concatenates all attributes", "statement": "a + b has the rows of a followed by those of b with their fitness, n_eval and labels; later writes to the sum do not change a or b, and it raises when the shapes or variable names are incompatible.", "quantifier": "every pair of solution sets", "why_tests_cant": "All shapes.", "anchors": ["bayes_optim/solution.py:Solution.__add__"]}
{"id": "C54", "title": "Writing an attribute through a slice updates the parent row and no other", "statement": "Assigning the fitness or n_eval of a sliced solution changes exactly the corresponding rows of the solution set it was sliced from.", "quantifier": "every solution set, every slice, every sequence of writes", "why_tests_cant": "Aliasing over arbitrary write sequences.", "anchors": ["bayes_optim/solution.py:Solution.__setattr__", "bayes_optim/solution.py:Solution.__getitem__"]}
{"id": "C55", "title": "Dictionary form of solutions is lossless and independent of key order", "statement": "from_dict(to_dict(s)) has the values of s, and from_dict places each value in the column of its variable whatever the order of keys in each dictionary.", "quantifier": "every list of dictionaries over the same keys", "why_tests_cant": "All key orders.", "anchors": ["bayes_optim/solution.py:Solution.from_dict", "bayes_optim/solution.py:Solution.to_dict"]}
{"id": "C56", "title": "unique keeps the first occurrence of every row", "statement": "unique returns each distinct row once, in first-occurrence order, with its attributes.", "quantifier": "every solution set", "why_tests_cant": "All duplicates patterns.", "anchors": ["bayes_optim/solution.py:Solution.unique"]}
{"id": "C57", "title": "Acquisition gradients are the derivatives of the acquisition values", "statement": "For EI, epsilon-PI, UCB and MGFI the returned gradient is the derivative of the returned value with respect to the point, given the surrogate's derivatives, wherever the point is not exactly on a cut-off of the deviation, on a sign change of the prediction (epsilon-PI) or on the overflow bound (MGFI).", "quantifier": "every point where the surrogate is differentiable and its standard deviation is positive", "why_tests_cant": "Continuum of points; finite-difference tests are approximate.", "anchors": ["bayes_optim/acquisition/acquisition_fun.py:UCB", "bayes_optim/acquisition/acquisition_fun.py:EI", "bayes_optim/acquisition/acquisition_fun.py:EpsilonPI", "bayes_optim/acquisition/acquisition_fun.py:MGFI"]}
{"id": "C58", "title": "Acquisition values favour better predicted means", "statement": "With equal uncertainty, a point with a better predicted mean has an EI or epsilon-PI (epsilon at most one) value at least as large, in both optimisation directions.", "quantifier": "every pair of predictions", "why_tests_cant": "Continuum.", "anchors": ["bayes_optim/acquisition/acquisition_fun.py:UCB", "bayes_optim/acquisition/acquisition_fun.py:EI", "bayes_optim/acquisition/acquisition_fun.py:EpsilonPI", "bayes_optim/acquisition/acquisition_fun.py:MGFI"]}
{"id": "C59", "title": "Every advertised acquisition function can be used", "statement": "Each acquisition class exported by the package can be constructed with its default arguments.", "quantifier": "every exported class", "why_tests_cant": "Defaults interact with validation.", "anchors": ["bayes_optim/acquisition/acquisition_fun.py:PI", "bayes_optim/acquisition/acquisition_fun.py:EpsilonPI"]}
{"id": "C60", "title": "EHVI cell formula", "statement": "The expected hypervolume improvement returned equals the sum over cells of the product over objectives of the one-dimensional expected improvements.", "quantifier": "every number of objectives and of cells", "why_tests_cant": "Needs induction on the number of objectives.", "anchors": ["bayes_optim/multi_objective/analytic.py:EHVI.forward"]}
{"id": "C61", "title": "Noiseless Gaussian-process predictions interpolate", "statement": "In noiseless mode the prediction at each training input equals the observed value and the predictive variance there is zero, for simple and for universal kriging.", "quantifier": "every training set with invertible correlation matrix, any dimension and trend", "why_tests_cant": "Exact identity for all matrices.", "anchors": ["bayes_optim/surrogate/gaussian_process/gpr.py:GaussianProcess.predict", "bayes_optim/surrogate/gaussian_process/gpr.py:GaussianProcess._compute_aux_var", "bayes_optim/surrogate/gaussian_process/gpr.py:GaussianProcess.compute_beta_gamma"]}
{"id": "C62", "title": "The correlation matrix is the pairwise kernel matrix", "statement": "The assembled correlation matrix is symmetric with unit diagonal and its (i,j) entry is the kernel of the componentwise distances of inputs i and j; all built-in kernels take values in (0,1] (cubic: [0,1]) and are 1 at distance zero.", "quantifier": "every training set and kernel parameter", "why_tests_cant": "Index bookkeeping for all sizes.", "anchors": ["bayes_optim/surrogate/gaussian_process/gpr.py:l1_cross_distances", "bayes_optim/surrogate/gaussian_process/gpr.py:GaussianProcess.correlation_matrix", "bayes_optim/surrogate/gaussian_process/kernel.py"]}
{"id": "C63", "title": "Kernel gradients are the derivatives of the kernels", "statement": "The gradient of the correlation with respect to the query point is the derivative of the correlation, for every built-in kernel that offers one.", "quantifier": "every query point, training point and parameter", "why_tests_cant": "Continuum.", "anchors": ["bayes_optim/surrogate/gaussian_process/gpr.py:GaussianProcess.corr_dx"]}
{"id": "C64", "title": "Hyper-parameter search keeps the best restart and terminates", "statement": "With the BFGS optimizer the hyper-parameters used after fitting are those of the restart with the best likelihood, at least one and at most random_start restarts are made, none is started after the evaluation budget has been used up, and the search stops early only for that reason or after wait_iter consecutive restarts that are worse than the best one.", "quantifier": "every sequence of inner-optimizer results", "why_tests_cant": "All outcome sequences.", "anchors": ["bayes_optim/surrogate/gaussian_process/gpr.py:GaussianProcess._optimize_hyperparameter"]}
{"id": "C65", "title": "Checkpoints are crash safe", "statement": "If the process dies at any point during save, the checkpoint file holds a complete old or a complete new checkpoint.", "quantifier": "every crash point", "why_tests_cant": "Crash points are schedules.", "anchors": ["bayes_optim/base.py:BaseBO.save"]}
{"id": "C66", "title": "Saving does not change the optimizer and loading restores it", "statement": "After save returns the optimizer in memory is as before; load of a completely written file yields an optimizer with the same data, counters and history.", "quantifier": "every state of the optimizer and every behaviour of the file system", "why_tests_cant": "All states; the pickled object is rewritten while it is saved.", "anchors": ["bayes_optim/base.py:BaseBO.save", "bayes_optim/base.py:BaseBO.load"]}
{"id": "C67", "title": "Logger configuration survives save and load", "statement": "Dumping a logger and loading it in a new process yields the same set of handlers.", "quantifier": "every handler configuration", "why_tests_cant": "Handler class hierarchy interactions.", "anchors": ["bayes_optim/utils/logger.py:get_logger", "bayes_optim/utils/logger.py:dump_logger", "bayes_optim/utils/logger.py:load_logger"]}
{"id": "C68", "title": "The exponential annealing schedule stays within its end points", "statement": "Under the exponential schedule the acquisition parameter starts at t0, never rises, is positive after any number of steps, is at least tf within the planned number of iterations and exactly tf at the end of the plan; in terms of the budget: as long as the evaluations made do not exceed max_FEs, and when they reach it.", "quantifier": "every t0 >= tf > 0, every number of iterations, budget, size of the initial design and of the batch", "why_tests_cant": "Real sequences of arbitrary length.", "anchors": ["bayes_optim/bayes_opt.py:AnnealingBO"]}
{"id": "C69", "title": "Optimizer instances do not influence each other", "statement": "Running one optimizer does not change the acquisition parameters of another optimizer.", "quantifier": "every interleaving of runs of several optimizers", "why_tests_cant": "Interleavings.", "anchors": ["bayes_optim/bayes_opt.py:ParallelBO", "bayes_optim/bayes_opt.py:AnnealingBO"]}
{"id": "C70", "title": "Conditional optimizer proposes complete assignments", "statement": "Each point proposed by the conditional optimizer has every variable of the space as key, with the values of its sub-space for active variables, the conditioning values for conditioning variables and None exactly for inactive variables.", "quantifier": "every conditional space and every proposal of a sub-space", "why_tests_cant": "All spaces and values; sets are enumerated in an arbitrary order.", "anchors": ["bayes_optim/extension.py:ConditionalBO.ask", "bayes_optim/extension.py:ConditionalBO.tell"]}
{"id": "C71", "title": "PCA bounds enclose the projected search box", "statement": "Every point of the original box is mapped by the PCA projection into the box that is searched in the reduced space.", "quantifier": "every box, every orthonormal projection, every dimension", "why_tests_cant": "Continuum.", "anchors": ["bayes_optim/extension.py:PCABO._compute_bounds"]}
{"id": "C72", "title": "fmin returns the complete history", "statement": "The history returned by fmin contains every evaluated point in order, the initial design first.", "quantifier": "every run", "why_tests_cant": "All runs.", "anchors": ["bayes_optim/__init__.py:fmin"]}
{"id": "C73", "title": "At most one daemon runs", "statement": "Calls of start and stop that do not overlap never lead to two live daemons: a live daemon is always recorded in the pid file and start refuses while it lives.", "quantifier": "every sequence of start/stop/crash events", "why_tests_cant": "Schedules of processes.", "anchors": ["bayes_optim/utils/_daemon.py:Daemon"]}
{"id": "C74", "title": "One-hot encoding distinguishes points", "statement": "Two points of the space receive the same encoding iff they are equal, the width of the encoding is the number of non-categorical variables plus the total number of levels, and each categorical block contains exactly one 1.", "quantifier": "every space and every pair of points", "why_tests_cant": "All spaces.", "anchors": ["bayes_optim/surrogate/random_forest.py:RandomForest._check_X"]}
{"id": "C75", "title": "Wrapped objective functions see every variable at its place", "statement": "A criterion or constraint function that is wrapped for fixed variables and called with one point is called once, with the full point in which fixed variables have their fixed values and free variables their proposed values; the same completion is applied to the proposals themselves.", "quantifier": "every mask, fixed assignment and input", "why_tests_cant": "All masks.", "anchors": ["bayes_optim/utils/utils.py:partial_argument", "bayes_optim/utils/utils.py:func_with_list_arg", "bayes_optim/utils/utils.py:fillin_fixed_value"]}
{"id": "C76", "title": "Proportional selection without replacement returns distinct indices", "statement": "Whenever proportional_selection without replacement returns, it returns exactly N indices, in range and pairwise distinct.", "quantifier": "every performance vector, every N, every random stream", "why_tests_cant": "Random streams and ties.", "anchors": ["bayes_optim/utils/utils.py:proportional_selection"]}
{"id": "C77", "title": "Rank weights are non-negative, decreasing in rank and normalised", "statement": "The weights used by the PCA transformation are non-negative, sum to one, a better objective value gets a larger weight and equal values get equal weights.", "quantifier": "every vector of at least two objective values, for minimisation and maximisation", "why_tests_cant": "All vectors.", "anchors": ["bayes_optim/extension.py:LinearTransform"]}
{"id": "C78", "title": "Polynomial trends have the advertised basis size", "statement": "The quadratic trend has (n+1)(n+2)/2 basis functions, the linear one n+1, the constant one 1; the quadratic basis consists of the constant, the variables and their pairwise products; the Jacobians of the constant and the linear trend are the derivatives of the trend (the quadratic one has none).", "quantifier": "every input dimension", "why_tests_cant": "All dimensions.", "anchors": ["bayes_optim/surrogate/gaussian_process/trend.py"]}
{"id": "C79", "title": "Multi-acquisition optimizer alternates its criteria", "statement": "In a batch of n points the acquisition functions are used round-robin, so their usage counts differ by at most one.", "quantifier": "every batch size", "why_tests_cant": "All sizes.", "anchors": ["bayes_optim/extension.py:MultiAcquisitionBO"]}
{"id": "C80", "title": "Search-space dictionaries round-trip", "statement": "from_dict applied to the dictionary form of a space gives an equal space.", "quantifier": "every space", "why_tests_cant": "All spaces.", "anchors": ["bayes_optim/search_space/search_space.py:SearchSpace.to_dict", "bayes_optim/search_space/search_space.py:SearchSpace.from_dict"]}
{"id": "C81", "title": "recommend without observations raises the documented error", "statement": "Whenever no finite observation has been told, whatever tell calls were made (including ones that raised), recommend raises the recommendation-unavailable error.", "quantifier": "every history of tell calls, raising ones included, without a finite value", "why_tests_cant": "All histories.", "anchors": ["bayes_optim/_base.py:BaseOptimizer.recommend", "bayes_optim/_base.py:BaseOptimizer.xopt"]}
{"id": "C82", "title": "Warm data is accepted in both evaluation modes", "statement": "Constructing an optimizer with non-empty warm data of matching lengths, admissible types and at least one finite value succeeds in list mode and in dict mode.", "quantifier": "every warm data set, both evaluation modes", "why_tests_cant": "All data sets and both modes.", "anchors": ["bayes_optim/base.py:BaseBO.warm_data", "bayes_optim/base.py:BaseBO._set_aux_vars", "bayes_optim/solution.py:Solution.from_dict"]}
{"id": "C83", "title": "Successive samples of a space are fresh", "statement": "Two successive calls of sample on a space use successive random numbers, so that sampling again can produce other points than before.", "quantifier": "every space, every seed and every random stream", "why_tests_cant": "A claim about all seeds and streams.", "anchors": ["bayes_optim/search_space/search_space.py:SearchSpace._sample", "bayes_optim/search_space/search_space.py:SearchSpace.random_seed", "bayes_optim/search_space/search_space.py:SearchSpace.__getitem__"]}
{"id": "C84", "title": "Bounds of a real variable survive its scale", "statement": "A constructed Real variable has lb < ub, both inside the working range of its scale, and accepts only values between the bounds it was given; bounds inside the range are kept; construction fails unless lb < ub.", "quantifier": "every pair of bounds and every scale", "why_tests_cant": "The clipping rules interact with the order of the bounds; the failing cases are on the edge of the range.", "anchors": ["bayes_optim/search_space/variable.py:Real", "bayes_optim/search_space/variable.py:TRANS"]}
{"id": "C85", "title": "from_dict reads the documented format", "statement": "SearchSpace.from_dict builds, for each item of a dictionary in the documented format and in order, N variables of the given type, range, precision, scale, step and default value.", "quantifier": "every dictionary in the documented format", "why_tests_cant": "All dictionaries: combinations of types, repetitions and optional keys.", "anchors": ["bayes_optim/search_space/search_space.py:SearchSpace.from_dict"]}
{"id": "C86", "title": "Selecting and removing by name are exact", "statement": "Indexing a space with a list of distinct names gives exactly these variables in that order and raises if a name is unknown; removing a name removes that variable only, keeps the order of the others and raises if the name is unknown. The given space is not renamed.", "quantifier": "every space with distinct names and every list of names", "why_tests_cant": "All spaces and name lists.", "anchors": ["bayes_optim/search_space/search_space.py:SearchSpace.__getitem__", "bayes_optim/search_space/search_space.py:SearchSpace.remove"]}
{"id": "C87", "title": "Labels assigned to a solution set are stored in full", "statement": "After assigning a list of strings to Solution.index, reading Solution.index returns exactly these strings.", "quantifier": "every solution set and every list of as many strings as it has rows", "why_tests_cant": "Labels live in a fixed-width numpy string array whose width depends on the labels given at construction; a test uses short labels.", "anchors": ["bayes_optim/solution.py:Solution.__setattr__", "bayes_optim/solution.py:Solution.__new__"]}
{"id": "C88", "title": "to_dict(with_index=True) keeps every row", "statement": "Solution.to_dict(with_index=True) contains, for every row of the set, an entry with the values of that row.", "quantifier": "every solution set, including the accumulated data of a run, whose labels may repeat", "why_tests_cant": "Whether two rows share a label depends on how the set was put together.", "anchors": ["bayes_optim/solution.py:Solution.to_dict"]}
{"id": "C89", "title": "A constructed solution set has one fitness, n_eval and label per row", "statement": "Every successful Solution(...) call returns a set with exactly one objective vector, one n_eval entry and one label for each of its rows; arguments whose length does not match are rejected.", "quantifier": "every combination of the constructor's arguments", "why_tests_cant": "The arguments can be scalars, lists and nested lists of any length, so the combinations cannot be enumerated.", "anchors": ["bayes_optim/solution.py:Solution.__new__"]}
{"id": "C90", "title": "MIES respects the step of Integer variables", "statement": "Every individual MIES evaluates has, in each Integer component, one of the values lb, lb + step, lb + 2 step, ... of the variable.", "quantifier": "every space with Integer variables, every random stream, every number of generations", "why_tests_cant": "Which integers a mutation reaches depends on the random stream.", "anchors": ["bayes_optim/acquisition/optim/mies.py:MIES._mutate_i", "bayes_optim/search_space/variable.py:Integer"]}
{"id": "C91", "title": "MIES can be started from a given point", "statement": "Constructing MIES with an initial point x0 of the space succeeds.", "quantifier": "every space and every point", "why_tests_cant": "All spaces and points; no test passes x0.", "anchors": ["bayes_optim/acquisition/optim/mies.py:MIES.__init__", "bayes_optim/acquisition/optim/mies.py:MIES.evaluate"]}
{"id": "C92", "title": "The (1+1)-CMA-ES keeps to its evaluation budget", "statement": "With max_FEs = m the optimizer evaluates the objective at most m times, and the run ends.", "quantifier": "every configuration with a budget, every objective, constraint, random stream and number of restarts", "why_tests_cant": "The count depends on when restarts happen, which depends on the values and the random stream.", "anchors": ["bayes_optim/acquisition/optim/one_plus_one_cma_es.py:OnePlusOne_CMA.check_stop", "bayes_optim/acquisition/optim/one_plus_one_cma_es.py:OnePlusOne_CMA.restart", "bayes_optim/acquisition/optim/one_plus_one_cma_es.py:OnePlusOne_CMA.step", "bayes_optim/acquisition/optim/one_plus_one_cma_es.py:OnePlusOne_CMA.run"]}
{"id": "C93", "title": "Restarts of the acquisition maximisation with the (1+1)-CMA-ES are independent trials", "statement": "When argmax_restart uses OnePlusOne_Cholesky_CMA, its restarts use different parts of the random stream, so a later restart can find something an earlier one with the same budget did not.", "quantifier": "every state of the random generator and every number of restarts", "why_tests_cant": "It concerns every state of the generator; a test sees only that some result comes back.", "anchors": ["bayes_optim/acquisition/optim/__init__.py:argmax_restart", "bayes_optim/acquisition/optim/one_plus_one_cma_es.py:OnePlusOne_CMA.random_seed"]}
{"id": "C94", "title": "Constrained samples keep to the precision and the step of the variables", "statement": "sample(N) under constraints only returns points whose Integer components lie on the grid of their variable and whose real components are rounded to its precision, as unconstrained sampling does.", "quantifier": "every space with a step or a precision, every constraint, every random stream", "why_tests_cant": "Random streams are infinite; the proposals leave the grid only after some accepted moves.", "anchors": ["bayes_optim/search_space/search_space.py:SearchSpace.sample", "bayes_optim/search_space/samplers.py:SCMC._rproposal_integer", "bayes_optim/search_space/samplers.py:SCMC._rproposal_real"]}
{"id": "C95", "title": "Multi-objective evaluation returns one row of all objectives per point", "statement": "evaluate of the multi-objective optimizer returns, for each point, the values of all objective functions at that point in the order of the functions, and calls each function exactly once per point.", "quantifier": "every list of objective functions and of points", "why_tests_cant": "All lists of functions and points.", "anchors": ["bayes_optim/mobo.py:BaseMOBO.evaluate"]}
{"id": "C96", "title": "Updating a box decomposition keeps it a partition for all outcomes", "statement": "After constructing a NondominatedPartitioning and any sequence of update() calls, the hypercell bounds partition the region above the reference point that none of the outcomes given so far dominates, including when an update leaves the Pareto front unchanged and the cells are kept.", "quantifier": "every number of objectives, every sequence of update batches, every reference point", "why_tests_cant": "An invariant over arbitrary histories and a continuum of query points.", "anchors": ["bayes_optim/utils/multi_objective/box_decompositions/box_decomposition.py:BoxDecomposition.update", "bayes_optim/utils/multi_objective/box_decompositions/box_decomposition.py:BoxDecomposition.reset", "bayes_optim/utils/multi_objective/box_decompositions/non_dominated.py:NondominatedPartitioning.get_hypercell_bounds"]}
{"id": "C97", "title": "An interrupted save is never mistaken for something else", "statement": "The file left behind by a save that was interrupted at any point is the old checkpoint, or the complete new one, or load refuses it.", "quantifier": "every crash point and every failure of the pickler", "why_tests_cant": "Crash points are schedules.", "anchors": ["bayes_optim/base.py:BaseBO.save", "bayes_optim/base.py:BaseBO.load"]}
{"id": "C98", "title": "A failed save leaves the optimizer unchanged", "statement": "If save raises, the optimizer in memory is as it was before the call and can be used and saved again.", "quantifier": "every failure point of save", "why_tests_cant": "Failure points.", "anchors": ["bayes_optim/base.py:BaseBO.save"]}
{"id": "C99", "title": "Loading a logger where it is in use changes nothing", "statement": "Loading a dumped logger in a process in which that logger exists keeps its handlers, whatever they are.", "quantifier": "every handler configuration", "why_tests_cant": "All configurations.", "anchors": ["bayes_optim/utils/logger.py:get_logger", "bayes_optim/utils/logger.py:dump_logger", "bayes_optim/utils/logger.py:load_logger"]}
{"id": "C100", "title": "stop ends the daemon", "statement": "stop of a live daemon ends that process and no other, removes the pid file and returns.", "quantifier": "every reachable state of the process table and the pid file", "why_tests_cant": "Schedules of processes.", "anchors": ["bayes_optim/utils/_daemon.py:Daemon"]}
{"id": "C101", "title": "Overlapping starts give one daemon", "statement": "Two callers that start the daemon at the same time do not end up with two daemons.", "quantifier": "every interleaving of two starts", "why_tests_cant": "Interleavings.", "anchors": ["bayes_optim/utils/_daemon.py:Daemon"]}
{"id": "C102", "title": "The linear annealing schedule keeps to its plan", "statement": "Under the linear schedule the acquisition parameter starts at t0, never rises, is at least tf within the planned number of iterations and equals tf at its end.", "quantifier": "every t0 >= tf > 0, every plan, every number of steps", "why_tests_cant": "Real sequences of arbitrary length.", "anchors": ["bayes_optim/bayes_opt.py:AnnealingBO"]}
{"id": "C103", "title": "The annealed parameter stays positive", "statement": "Whatever the schedule, the acquisition parameter stays positive however long the optimizer is used.", "quantifier": "every schedule, plan and number of steps", "why_tests_cant": "Unbounded runs.", "anchors": ["bayes_optim/bayes_opt.py:AnnealingBO"]}
{"id": "C104", "title": "The logarithmic annealing schedule goes from t0 to tf", "statement": "Under the logarithmic schedule the acquisition parameter moves monotonically from t0 towards tf and is not below tf within the planned number of iterations.", "quantifier": "every t0 >= tf > 0, every plan, every number of steps", "why_tests_cant": "Real sequences of arbitrary length.", "anchors": ["bayes_optim/bayes_opt.py:AnnealingBO"]}
{"id": "C105", "title": "Conditional optimizer passes observations on completely", "statement": "Telling a proposed point back stores it in the model of its sub-space with exactly the values that were proposed there.", "quantifier": "every conditional space and every proposed value", "why_tests_cant": "All values, in particular falsy ones.", "anchors": ["bayes_optim/extension.py:ConditionalBO.ask", "bayes_optim/extension.py:ConditionalBO.tell"]}
{"id": "C106", "title": "Conditional optimizer stores observations under their names", "statement": "In the data of the conditional optimizer every value of an observation stands in the column of its variable.", "quantifier": "every batch of points from any sub-spaces", "why_tests_cant": "All batches and key orders.", "anchors": ["bayes_optim/extension.py:ConditionalBO.tell", "bayes_optim/solution.py:Solution.from_dict"]}
{"id": "C107", "title": "Every sub-space is explored in the first round", "statement": "The first proposals of the conditional optimizer visit each sub-space exactly once, in order, however they are distributed over calls of ask; later ones are valid sub-spaces.", "quantifier": "every sequence of ask calls and all random choices", "why_tests_cant": "All call sequences.", "anchors": ["bayes_optim/extension.py:ConditionalBO.ask"]}
{"id": "C108", "title": "Wrapped functions accept several points", "statement": "A criterion or constraint function that is wrapped for fixed variables and called with a matrix of points is called with the full points, one per row.", "quantifier": "every mask, fixed assignment and matrix", "why_tests_cant": "All shapes.", "anchors": ["bayes_optim/utils/utils.py:partial_argument"]}
{"id": "C109", "title": "Gradients are reduced to the free variables", "statement": "The gradient of a criterion wrapped for fixed variables has exactly the components of the free variables, in order, whether it is a vector, a column or a row.", "quantifier": "every mask and gradient, at least two variables", "why_tests_cant": "All masks.", "anchors": ["bayes_optim/utils/utils.py:partial_argument"]}
{"id": "C110", "title": "Selection probabilities are proportional to the lead over the worst", "statement": "Proportional selection picks a candidate exactly for the draws in an interval whose length is its lead over the worst candidate divided by the sum of all leads; worst candidates are never picked.", "quantifier": "every performance vector that is not constant, every positive draw", "why_tests_cant": "Continuum of draws.", "anchors": ["bayes_optim/utils/utils.py:proportional_selection"]}
{"id": "C111", "title": "Proportional selection without replacement succeeds", "statement": "For N at most the number of candidates, proportional_selection without replacement returns, whatever the performance values and the draws.", "quantifier": "every performance vector, N and random stream", "why_tests_cant": "Random streams and ties.", "anchors": ["bayes_optim/utils/utils.py:proportional_selection"]}
{"id": "C112", "title": "Reduced coordinates round-trip", "statement": "A point proposed in the reduced space and mapped back to the original space is projected to itself.", "quantifier": "every orthonormal projection, mean, center and point", "why_tests_cant": "Continuum.", "anchors": ["bayes_optim/extension.py:LinearTransform"]}
{"id": "C113", "title": "PCA-BO never prefers points outside of the box", "statement": "A candidate whose image lies outside of the original box has a negative criterion value and so, for non-negative acquisition functions, loses against all candidates whose image is inside; the gradient returned there is the gradient of the penalty.", "quantifier": "every projection, box, candidate and direction", "why_tests_cant": "Continuum.", "anchors": ["bayes_optim/extension.py:penalized_acquisition"]}
{"id": "C114", "title": "The epsilon-PI gradient is a derivative everywhere", "statement": "The gradient that epsilon-PI returns is the derivative of its value at every point where the surrogate is differentiable with positive deviation, including those where the predicted value is zero.", "quantifier": "every surrogate, point and epsilon", "why_tests_cant": "Needs one particular prediction in a continuum.", "anchors": ["bayes_optim/acquisition/acquisition_fun.py:EpsilonPI"]}
{"id": "C115", "title": "Epsilon-PI favours better predicted means for every accepted epsilon", "statement": "For every epsilon that the constructor accepts, of two points with equal uncertainty the one with the better predicted mean has an epsilon-PI value at least as large.", "quantifier": "every accepted epsilon and every pair of predictions", "why_tests_cant": "Continuum of parameters.", "anchors": ["bayes_optim/acquisition/acquisition_fun.py:EpsilonPI"]}
{"id": "C116", "title": "UCB favours better predicted means", "statement": "With equal uncertainty, a point with a better predicted mean has a UCB value at least as large, in both optimisation directions.", "quantifier": "every pair of predictions, every alpha, both directions", "why_tests_cant": "Continuum.", "anchors": ["bayes_optim/acquisition/acquisition_fun.py:UCB"]}
{"id": "C117", "title": "MGFI favours better predicted means", "statement": "With equal uncertainty, a point with a better predicted mean has an MGFI value at least as large, in both optimisation directions.", "quantifier": "every pair of predictions, every t, both directions", "why_tests_cant": "Continuum; the overflow branch is only reached for extreme predictions.", "anchors": ["bayes_optim/acquisition/acquisition_fun.py:MGFI"]}
{"id": "C118", "title": "Acquisition values are never negative", "statement": "EI, epsilon-PI and MGFI values are never negative, and epsilon-PI values are at most one.", "quantifier": "every surrogate, point, plugin, parameter and direction", "why_tests_cant": "Continuum; needs the tail behaviour of the normal distribution.", "anchors": ["bayes_optim/acquisition/acquisition_fun.py:EI", "bayes_optim/acquisition/acquisition_fun.py:EpsilonPI", "bayes_optim/acquisition/acquisition_fun.py:MGFI"]}
{"id": "C119", "title": "EI favours uncertainty", "statement": "With equal predicted means, the point with the larger predicted uncertainty has an EI value at least as large, also across the cut-off below which EI is zero.", "quantifier": "every pair of predictions with equal means", "why_tests_cant": "Continuum.", "anchors": ["bayes_optim/acquisition/acquisition_fun.py:EI"]}
{"id": "C120", "title": "Acquisition values are the expectations they are named after", "statement": "Above the cut-offs EI is the expectation of the improvement over the plugin, epsilon-PI the probability of a value below the plugin plus epsilon times the size of the prediction, and MGFI the expectation of exp(t(plugin - y - 1)) over the improving values y, for a normally distributed value with the predicted mean and deviation.", "quantifier": "every prediction with positive deviation, every plugin and parameter", "why_tests_cant": "The statement is about improper integrals.", "anchors": ["bayes_optim/acquisition/acquisition_fun.py:EI", "bayes_optim/acquisition/acquisition_fun.py:EpsilonPI", "bayes_optim/acquisition/acquisition_fun.py:MGFI"]}
{"id": "C121", "title": "Maximising is minimising the negated problem", "statement": "For every acquisition class, constructing and calling it for maximisation gives the same values and gradients as for minimisation with the negated surrogate, observations and plugin.", "quantifier": "every surrogate, class, argument and point", "why_tests_cant": "Needs all surrogates and points.", "anchors": ["bayes_optim/acquisition/acquisition_fun.py:AcquisitionFunction._predict", "bayes_optim/acquisition/acquisition_fun.py:AcquisitionFunction._gradient", "bayes_optim/acquisition/acquisition_fun.py:ImprovementBased.plugin"]}
{"id": "C122", "title": "The default plugin is the best observation", "statement": "Without a plugin argument an improvement-based acquisition function measures improvement over the best observed value for the optimisation direction, and this is also what BO passes.", "quantifier": "every non-empty set of observations, both directions", "why_tests_cant": "All data sets.", "anchors": ["bayes_optim/acquisition/acquisition_fun.py:ImprovementBased.plugin", "bayes_optim/bayes_opt.py:BO._create_acquisition"]}
{"id": "C123", "title": "The user's acquisition parameters are used", "statement": "The entries of acquisition_par given to an optimizer are those with which its acquisition function is built, apart from the one sampled for a batch.", "quantifier": "every dictionary of parameters, sequential and batch mode", "why_tests_cant": "Only visible by comparing all parameter values.", "anchors": ["bayes_optim/base.py:BaseBO.arg_max_acquisition", "bayes_optim/bayes_opt.py:ParallelBO._batch_arg_max_acquisition"]}
{"id": "C124", "title": "Sampled acquisition parameters are accepted", "statement": "For every acquisition function that the parallel optimizer accepts and every random draw, the sampled parameter is accepted by the acquisition function.", "quantifier": "every draw and every current parameter value", "why_tests_cant": "Randomness: every draw.", "anchors": ["bayes_optim/bayes_opt.py:ParallelBO._batch_arg_max_acquisition", "bayes_optim/bayes_opt.py:ParallelBO.__init__"]}
{"id": "C125", "title": "Sampled acquisition parameters follow the user's parameter", "statement": "For the same random draw a larger acquisition parameter gives a larger sampled parameter.", "quantifier": "every draw and every pair of parameter values", "why_tests_cant": "Randomness: every draw.", "anchors": ["bayes_optim/bayes_opt.py:ParallelBO.__init__"]}
{"id": "C126", "title": "The scale of the objective does not matter", "statement": "Multiplying the objective by a positive number and adding a constant does not change the values that the surrogate is fitted to; these have mean zero, deviation one and the order of the observations.", "quantifier": "every list of observations, factor and offset", "why_tests_cant": "All scales.", "anchors": ["bayes_optim/base.py:BaseBO.update_model"]}
{"id": "C127", "title": "EHVI favours better predicted means", "statement": "The expected hypervolume improvement is never negative and does not fall when predicted means improve at equal uncertainty.", "quantifier": "every number of objectives and cells, every pair of predictions", "why_tests_cant": "Continuum and every dimension.", "anchors": ["bayes_optim/multi_objective/analytic.py:EHVI.forward"]}
{"id": "C128", "title": "Gaussian-process predictions are the posterior mean and variance", "statement": "After fitting, the predicted value and variance at any point are the mean and variance of the value there given the observations, under a Gaussian process with the fitted trend, correlation, process variance and noise variance.", "quantifier": "every training set, trend, number of targets, noise setting and query point", "why_tests_cant": "An identity between two formulas for all matrices.", "anchors": ["bayes_optim/surrogate/gaussian_process/gpr.py:GaussianProcess.predict", "bayes_optim/surrogate/gaussian_process/gpr.py:GaussianProcess.compute_beta_gamma", "bayes_optim/surrogate/gaussian_process/gpr.py:GaussianProcess.log_likelihood_concentrated"]}
{"id": "C129", "title": "Universal kriging is equivariant", "statement": "With an estimated trend and the same kernel parameters, scaling the observations by a and adding a combination of the trend functions does the same to all predictions and scales the predictive variances by a squared.", "quantifier": "every training set, scale, combination and query point", "why_tests_cant": "Relates two fits for all data.", "anchors": ["bayes_optim/surrogate/gaussian_process/gpr.py:GaussianProcess.predict", "bayes_optim/surrogate/gaussian_process/gpr.py:GaussianProcess._compute_aux_var"]}
{"id": "C130", "title": "Predictions do not depend on the order of the observations", "statement": "Fitting the same observations in another order (with the same kernel parameters) gives the same predictions and predictive variances everywhere.", "quantifier": "every training set, permutation and query point", "why_tests_cant": "All permutations of all data sets.", "anchors": ["bayes_optim/surrogate/gaussian_process/gpr.py:GaussianProcess.predict", "bayes_optim/surrogate/gaussian_process/gpr.py:GaussianProcess._compute_aux_var"]}
{"id": "C131", "title": "The estimated variance and trend coefficients are the generalised least squares ones", "statement": "In noiseless mode the trend coefficients are the generalised least squares estimate, and the process variance of each target is positive and equals the weighted residual sum of squares divided by n (known trend) or n - p (estimated trend).", "quantifier": "every training set and trend", "why_tests_cant": "Identity for all matrices.", "anchors": ["bayes_optim/surrogate/gaussian_process/gpr.py:GaussianProcess.log_likelihood_concentrated", "bayes_optim/surrogate/gaussian_process/gpr.py:GaussianProcess._compute_aux_var"]}
{"id": "C132", "title": "Predictive variances lie between zero and the process variance", "statement": "For a positive semi-definite correlation the noiseless predictive variance is never negative before clamping, and at most the process variance when the trend is known.", "quantifier": "every training set, query point and target", "why_tests_cant": "Holds by positive definiteness, for all point sets.", "anchors": ["bayes_optim/surrogate/gaussian_process/gpr.py:GaussianProcess.predict"]}
{"id": "C133", "title": "Prediction in batches gives the same result", "statement": "Predicting with a batch size returns the same values and variances as predicting all points at once.", "quantifier": "every fitted model, batch size and list of points", "why_tests_cant": "All lengths and batch sizes.", "anchors": ["bayes_optim/surrogate/gaussian_process/gpr.py:GaussianProcess.predict"]}
{"id": "C134", "title": "Every advertised model configuration can be fitted", "statement": "Fitting succeeds for both likelihood functions, for every kind of trend and for several targets.", "quantifier": "every data set and configuration", "why_tests_cant": "All data sets.", "anchors": ["bayes_optim/surrogate/gaussian_process/gpr.py:GaussianProcess.fit", "bayes_optim/surrogate/gaussian_process/gpr.py:GaussianProcess.log_likelihood_restricted", "bayes_optim/surrogate/gaussian_process/trend.py:BasisExpansionTrend"]}
{"id": "C135", "title": "Fitting terminates", "statement": "Fitting a Gaussian process returns.", "quantifier": "every data set, mode and behaviour of the hyper-parameter optimizer", "why_tests_cant": "Non-termination can not be observed by a test.", "anchors": ["bayes_optim/surrogate/gaussian_process/gpr.py:GaussianProcess.fit"]}
{"id": "C136", "title": "One correlation parameter means the same parameter for all features", "statement": "A correlation function called with one parameter gives the same value as when called with that parameter repeated for each feature; the generalized exponential does so for its two documented parameters.", "quantifier": "every distance vector and parameter", "why_tests_cant": "All dimensions and parameters.", "anchors": ["bayes_optim/surrogate/gaussian_process/kernel.py:squared_exponential", "bayes_optim/surrogate/gaussian_process/kernel.py:absolute_exponential", "bayes_optim/surrogate/gaussian_process/kernel.py:cubic", "bayes_optim/surrogate/gaussian_process/kernel.py:matern", "bayes_optim/surrogate/gaussian_process/kernel.py:generalized_exponential"]}
{"id": "C137", "title": "Parameter gradients of the correlation are its derivatives", "statement": "The gradient of the correlation with respect to the correlation parameters, as used by the likelihood gradient, is the derivative of the correlation in each parameter.", "quantifier": "every distance vector, parameter vector and differentiable correlation function", "why_tests_cant": "Continuum.", "anchors": ["bayes_optim/surrogate/gaussian_process/gpr.py:GaussianProcess.corr_grad_theta"]}
{"id": "C139", "title": "The second derivatives of the correlation are right", "statement": "The Hessian of the correlation with each training point is the matrix of second derivatives.", "quantifier": "every query point, training set and parameter vector", "why_tests_cant": "Continuum.", "anchors": ["bayes_optim/surrogate/gaussian_process/gpr.py:GaussianProcess.corr_Hessian"]}
{"id": "C140", "title": "Correlation never grows with distance", "statement": "If one pair of points is at least as far apart as another in every coordinate, its correlation is not larger, for every built-in correlation function with positive parameters.", "quantifier": "every pair of distance vectors and every parameter vector", "why_tests_cant": "Continuum.", "anchors": ["bayes_optim/surrogate/gaussian_process/kernel.py"]}
{"id": "C141", "title": "The scikit-learn based model's kernel gradient is right at every point", "statement": "For the Matern kernels the gradient of the kernel with respect to the query point is its derivative; for smoothness 3/2 and 5/2 this includes query points that coincide with a training point.", "quantifier": "every query point, training point, variance and positive length scales", "why_tests_cant": "Continuum, including the points where the formula divides by zero.", "anchors": ["bayes_optim/surrogate/gaussian_process/__init__.py:GaussianProcessSklearn.kernel_dx"]}
{"id": "C142", "title": "Gradient of the squared and the absolute exponential correlation", "statement": "The gradient of the correlation with respect to the query point is the derivative of the correlation with every training point: everywhere for the squared exponential, and where no coordinate coincides with that of a training point for the absolute exponential.", "quantifier": "every query point, training set and parameter vector", "why_tests_cant": "Continuum.", "anchors": ["bayes_optim/surrogate/gaussian_process/gpr.py:GaussianProcess.corr_dx"]}
{"id": "C143", "title": "Kernel gradient of the squared exponential (RBF) kernel of the scikit-learn based model", "statement": "The gradient of the RBF kernel with respect to the query point is its derivative.", "quantifier": "every query point and training point", "why_tests_cant": "Continuum.", "anchors": ["bayes_optim/surrogate/gaussian_process/__init__.py:GaussianProcessSklearn.kernel_dx"]}
{"id": "C144", "title": "Hyper-parameter search with CMA terminates within its budget and keeps the best likelihood", "statement": "With the CMA optimizer the search ends after at most the evaluation budget (plus one generation), and the kept hyper-parameters are those with the largest likelihood among all evaluated ones.", "quantifier": "every sequence of sampled populations and every likelihood", "why_tests_cant": "All executions; non-termination cannot be observed by a test.", "anchors": ["bayes_optim/surrogate/gaussian_process/gpr.py:GaussianProcess._optimize_hyperparameter", "bayes_optim/surrogate/gaussian_process/cma_es.py:cma_es.optimize"]}
{"id": "C138", "title": "The gradient of the surrogate's prediction is the derivative of the prediction", "statement": "For a fitted Gaussian process with one target, gradient(x) returns two arrays whose entries are the partial derivatives at x of the mean and of the variance that predict returns, given that corr_dx returns the partial derivatives of the correlation function (see C62, C63) and the trend's Jacobian those of the trend functions. This holds for known and estimated trend coefficients and for every noise mode. For the variance it is claimed where the variance is positive, because predict clips it at zero.", "quantifier": "every training set, correlation function, trend basis, noise mode, query point at which the correlation is differentiable, and direction", "why_tests_cant": "A finite-difference test compares a few points to a tolerance; the claim is an identity between two matrix expressions for every data set.", "anchors": ["bayes_optim/surrogate/gaussian_process/gpr.py:gradient", "bayes_optim/surrogate/gaussian_process/gpr.py:predict", "bayes_optim/surrogate/gaussian_process/trend.py:Jacobian"]}
{"id": "C145", "title": "With up to three objectives the hypervolume is exact", "statement": "For one, two or three objectives, compute returns for every list of points and every reference point, and the value is the measure of the union of the boxes between the reference point and the points. The points may be dominated, equal, tied in single objectives, or not better than the reference point.", "quantifier": "every list of points with one to three objectives, every reference point", "why_tests_cant": "The algorithm unlinks and relinks nodes of several doubly linked lists and reuses cached areas; tests compare a few fronts, the claim is about every configuration of ties and dominated points.", "anchors": ["bayes_optim/utils/multi_objective/hypervolume.py:Hypervolume.compute", "bayes_optim/utils/multi_objective/hypervolume.py:Hypervolume._hv_recursive", "bayes_optim/utils/multi_objective/hypervolume.py:MultiList.remove", "bayes_optim/utils/multi_objective/hypervolume.py:MultiList.reinsert"]}
{"id": "C146", "title": "With up to three objectives the hypervolume is order-free and monotone", "statement": "For one, two or three objectives: permuting the points does not change the hypervolume, adding a point that some other point matches or beats in every objective does not change it, and it never decreases when points are added or improved.", "quantifier": "every two lists of points with one to three objectives, every reference point", "why_tests_cant": "Relates two runs of the algorithm for every pair of inputs.", "anchors": ["bayes_optim/utils/multi_objective/hypervolume.py:Hypervolume.compute", "bayes_optim/utils/multi_objective/hypervolume.py:Hypervolume._hv_recursive", "bayes_optim/utils/multi_objective/hypervolume.py:MultiList.remove", "bayes_optim/utils/multi_objective/hypervolume.py:MultiList.reinsert"]}
{"id": "C147", "title": "Replicating a solution copies the whole solution", "statement": "s * N of a single solution has N rows, each with the components, the objective values and the evaluation count of s, labels 0 to N-1 and the variable names of s; later changes to the result do not change s. Replicating a set of solutions raises an exception.", "quantifier": "every single solution with any number of objectives, every N of at least one, every later sequence of writes to the result", "why_tests_cant": "Depends on the shape in which the objective values are stored, which depends on how the solution was obtained; tests replicate a few single-objective solutions.", "anchors": ["bayes_optim/solution.py:Solution.__mul__", "bayes_optim/solution.py:Solution.__new__"]}
{"id": "C148", "title": "Element and block access of a solution set", "statement": "s[i, j] is component j of row i for every valid i and j, and any other pair of integers raises IndexError. s[a:b:c, J] for a slice or a column number J has exactly the selected columns and their names, and the objective values, evaluation counts and labels of the selected rows.", "quantifier": "every solution set, every pair of integer indices, every row slice, every column slice or column number", "why_tests_cant": "Indices range over all integers and slices over all triples, with Python's conventions for negative values.", "anchors": ["bayes_optim/solution.py:Solution.__getitem__"]}
{"id": "C149", "title": "Forest predictions do not depend on the thread schedule", "statement": "Whatever the number of threads and the order in which they store the predictions of the single trees, the forest predicts, for every point, the average of the predictions of its trees and, as uncertainty, their unbiased sample variance.", "quantifier": "every forest of at least two trees, every set of points, every interleaving of the writes of the threads", "why_tests_cant": "The threads share one buffer; the number of interleavings is exponential and tests see a few of them.", "anchors": ["bayes_optim/surrogate/random_forest.py:RandomForest.predict", "bayes_optim/surrogate/random_forest.py:_save_prediction"]}
{"id": "C150", "title": "A forest never predicts beyond the observed values", "statement": "If the leaves of the trees average observed values, every predicted mean lies between the smallest and the largest observed value, and the predictions do not depend on the order of the trees.", "quantifier": "every forest whose trees predict averages of observations, every data set, every set of points, every thread schedule", "why_tests_cant": "Quantifies over all trees, data and query points, including points far from the data.", "anchors": ["bayes_optim/surrogate/random_forest.py:RandomForest.predict"]}
{"id": "C151", "title": "The forest's uncertainty is a number, zero exactly where the trees agree", "statement": "The predicted uncertainty is a non-negative number for every forest, and it is zero exactly at the points where all trees predict the same value.", "quantifier": "every non-empty forest, every set of points, every thread schedule", "why_tests_cant": "Needs all combinations of tree predictions and forest sizes.", "anchors": ["bayes_optim/surrogate/random_forest.py:RandomForest.predict"]}
{"id": "C152", "title": "A weighted aggregation predicts the weighted sum", "statement": "If the surrogates predict the mean and the variance of uncorrelated random variables, the aggregation with weights w predicts the mean and the variance of their weighted sum; a wrong number of weights raises ValueError.", "quantifier": "every number of surrogates, all weights, all joint distributions with pairwise uncorrelated components, every set of points", "why_tests_cant": "Quantifies over all distributions and weights.", "anchors": ["bayes_optim/surrogate/random_forest.py:SurrogateAggregation.predict"]}
{"id": "C153", "title": "Every accepted aggregation can be used", "statement": "If the constructor of the aggregation accepts the name of the aggregation, predictions succeed; other names are rejected by the constructor.", "quantifier": "every aggregation name, all surrogates and matching weights, every set of points", "why_tests_cant": "The names are arbitrary strings.", "anchors": ["bayes_optim/surrogate/random_forest.py:SurrogateAggregation.__init__", "bayes_optim/surrogate/random_forest.py:SurrogateAggregation.predict"]}
{"id": "C154", "title": "The noisy optimizer proposes what the searches find", "statement": "ask of the optimizer for noisy functions returns exactly the points found by the searches, in order, repeated points included; searches that find nothing are replaced by new random points. The initial design has the requested number of points.", "quantifier": "every search space, every outcome of every search, every number of points, every state of the optimizer", "why_tests_cant": "The outcome of the searches ranges over all lists of points, including repeated and missing ones.", "anchors": ["bayes_optim/bayes_opt.py:NoisyBO.pre_eval_check", "bayes_optim/base.py:BaseBO.ask"]}
{"id": "C155", "title": "The noisy optimizer compares with the best prediction", "statement": "The acquisition function of the optimizer for noisy functions compares with the best value that the model predicts at the observed points, for minimization and for maximization, not with the best observation; the expected improvement it uses is therefore relative to a value that no prediction at an observed point beats.", "quantifier": "every model, every data set, both directions, every acquisition function that has a reference value", "why_tests_cant": "Quantifies over all models and data.", "anchors": ["bayes_optim/bayes_opt.py:NoisyBO._create_acquisition"]}
{"id": "C156", "title": "The self-adaptive optimizer moves its parameter to the better half", "statement": "After every batch, the parameter t of the self-adaptive optimizer is the average of the values of t of the half of the searches with the largest acquisition values.", "quantifier": "every batch size, all outcomes of the searches", "why_tests_cant": "Quantifies over all outcomes of the searches.", "anchors": ["bayes_optim/bayes_opt.py:SelfAdaptiveBO._batch_arg_max_acquisition"]}
{"id": "C157", "title": "The gradient of the scikit-learn surrogate is the derivative of its prediction", "statement": "At every point, each component of the gradient of the mean is the partial derivative of the predicted mean; where the predicted variance is positive, each component of the gradient of the variance is its partial derivative. Training points are included.", "quantifier": "every fitted model: all training points, length scales, variances, noise levels and normalizations, any number of variables and of training points, every query point", "why_tests_cant": "A finite-difference test checks a few points of a few models up to an error.", "anchors": ["bayes_optim/surrogate/gaussian_process/__init__.py:GaussianProcessSklearn.gradient", "bayes_optim/surrogate/gaussian_process/__init__.py:GaussianProcessSklearn.kernel_dx", "bayes_optim/surrogate/gaussian_process/__init__.py:GaussianProcessSklearn.predict"]}
{"id": "C158", "title": "The scikit-learn surrogate never predicts more variance than the prior", "statement": "The predicted variance is between zero and the prior variance of an observation, in the scale of the data.", "quantifier": "every fitted model, every query point, even when the triangular solver is inexact", "why_tests_cant": "Quantifies over all models, points and results of the solver.", "anchors": ["bayes_optim/surrogate/gaussian_process/__init__.py:GaussianProcessSklearn.predict"]}
{"id": "C159", "title": "Gradients of the scikit-learn surrogate at several points at once", "statement": "gradient of several points returns, for every number of variables, the gradients of the single points.", "quantifier": "every fitted model, any number of variables, any number of points", "why_tests_cant": "The shapes of intermediate arrays depend on both numbers.", "anchors": ["bayes_optim/surrogate/gaussian_process/__init__.py:GaussianProcessSklearn.gradient"]}
{"id": "C160", "title": "is_running tells whether the daemon runs", "statement": "is_running is true exactly if a daemon started through this pid file is running.", "quantifier": "every reachable state of the process table and the pid file: all sequences of starts, stops, terminations, kills and unrelated processes", "why_tests_cant": "Process numbers are re-used by the system; the state space is unbounded.", "anchors": ["bayes_optim/utils/_daemon.py:Daemon.is_running", "bayes_optim/utils/_daemon.py:Daemon.get_pid"]}
{"id": "C161", "title": "restart leaves a newly started daemon", "statement": "restart ends the running daemon, if there is one, starts a new one and records its number.", "quantifier": "every reachable state of the process table and the pid file", "why_tests_cant": "Schedules of processes.", "anchors": ["bayes_optim/utils/_daemon.py:Daemon.restart", "bayes_optim/utils/_daemon.py:Daemon.stop", "bayes_optim/utils/_daemon.py:Daemon.start"]}
{"id": "C162", "title": "An interrupted start can be repaired", "statement": "If the process that is being started is killed at any moment, stop afterwards returns and a later start succeeds.", "quantifier": "every reachable state, every moment at which the new process is killed, every sequence of later events", "why_tests_cant": "Crash points between two system calls cannot be hit by a test.", "anchors": ["bayes_optim/utils/_daemon.py:Daemon.daemonize", "bayes_optim/utils/_daemon.py:Daemon.start", "bayes_optim/utils/_daemon.py:Daemon.stop"]}
{"id": "C163", "title": "Strategy parameters of the hyper-parameter search are consistent", "statement": "The CMA-ES that fits the length-scales uses recombination weights that are positive, strictly decreasing and sum to one, learning rates in (0,1], rank-one plus rank-mu rates of at most one and a positive damping.", "quantifier": "every number of offspring of at least two and every number of hyper-parameters", "why_tests_cant": "The numbers depend on two unbounded integers through logarithms.", "anchors": ["bayes_optim/surrogate/gaussian_process/cma_es.py:cma_es.__init__"]}
{"id": "C164", "title": "Length-scale candidates stay within their bounds", "statement": "Every candidate that the CMA-ES evaluates and every mean it moves to lies between the bounds; a mutation that is already inside is left as it is.", "quantifier": "every box, in either order of its ends, every history of generations, every likelihood, every random sample", "why_tests_cant": "Random mutations are unbounded and the state depends on the whole history.", "anchors": ["bayes_optim/surrogate/gaussian_process/cma_es.py:cma_es.mutation", "bayes_optim/surrogate/gaussian_process/cma_es.py:cma_es.update", "bayes_optim/surrogate/gaussian_process/boundary_handling.py:boundary_handling"]}
{"id": "C165", "title": "Covariance and step size of the hyper-parameter search stay valid", "statement": "After every generation the covariance matrix is symmetric and positive semidefinite and the step size is positive.", "quantifier": "every history of generations, every likelihood, every random sample, every result of the eigen-decomposition", "why_tests_cant": "An invariant over unboundedly many generations.", "anchors": ["bayes_optim/surrogate/gaussian_process/cma_es.py:cma_es.update", "bayes_optim/surrogate/gaussian_process/cma_es.py:cma_es.updateBD", "bayes_optim/surrogate/gaussian_process/cma_es.py:cma_es.reset_state"]}
{"id": "C166", "title": "The penalized acquisition function ranks feasible points by the acquisition", "statement": "The gradient search is given one function: minus the acquisition value at every feasible point, with the exact gradient inside the feasible region, and something larger at every infeasible point.", "quantifier": "every acquisition function, all constraints, all points, every sequence of earlier evaluations", "why_tests_cant": "Holds for arbitrary functions and histories of calls.", "anchors": ["bayes_optim/acquisition/optim/__init__.py:Penalized.__call__"]}
{"id": "C167", "title": "Finite-difference gradient is second-order accurate", "statement": "Each component of the finite-difference gradient of the penalty is within M delta^2/6 of the partial derivative if the third derivatives are bounded by M, and exact for functions that are quadratic in each coordinate.", "quantifier": "every smooth function, every point, every dimension, every positive step", "why_tests_cant": "A bound for all smooth functions.", "anchors": ["bayes_optim/acquisition/optim/__init__.py:finite_difference"]}
{"id": "C168", "title": "Fast decomposition partitions the non-dominated region", "statement": "FastNondominatedPartitioning(ref_point, Y) with three or more objectives raises nothing, and the cells of get_hypercell_bounds are disjoint, cover every point above the reference point that no outcome dominates, and contain no other point.", "quantifier": "every reference point with at least three objectives and every finite set of outcomes, with ties, duplicates, dominated outcomes and outcomes below the reference point", "why_tests_cant": "Any number of objectives and outcomes; the local upper bounds are built point by point and ties are where such algorithms go wrong.", "anchors": ["bayes_optim/utils/multi_objective/box_decompositions/box_decomposition.py:FastPartitioning._partition_space", "bayes_optim/utils/multi_objective/box_decompositions/non_dominated.py:FastNondominatedPartitioning._get_partitioning", "bayes_optim/utils/multi_objective/box_decompositions/utils.py:compute_local_upper_bounds", "bayes_optim/utils/multi_objective/box_decompositions/utils.py:get_partition_bounds"]}
{"id": "C169", "title": "Incremental updates keep the fast decomposition a partition", "statement": "After any number of update calls the cells partition the region that none of the outcomes given so far dominates, and contain the same points as the cells of an object built from all outcomes at once.", "quantifier": "every sequence of batches of outcomes, empty batches, repeated outcomes and batches below the reference point included", "why_tests_cant": "The update inserts only the new points into the bounds computed earlier: an invariant over every history of updates.", "anchors": ["bayes_optim/utils/multi_objective/box_decompositions/box_decomposition.py:FastPartitioning.update", "bayes_optim/utils/multi_objective/box_decompositions/utils.py:update_local_upper_bounds_incremental"]}
{"id": "C170", "title": "Predictions pair every new point with every training point", "statement": "Row i and column j of the matrix of correlations that predictions, gradients and the prior covariance are computed from is the correlation of new point i and known point j.", "quantifier": "every number of new points, every training set, every correlation function and parameter vector", "why_tests_cant": "The matrix is a flattened list of distances that is reshaped; a wrong order shows only for some shapes.", "anchors": ["bayes_optim/surrogate/gaussian_process/gpr.py:l1_cross_distances", "bayes_optim/surrogate/gaussian_process/gpr.py:GaussianProcess.predict"]}
{"id": "C171", "title": "The prior covariance of two sets of points", "statement": "prior_cov(X1, X2) is the process variance times the correlation of each point of X1 with each point of X2, and prior_cov(X1) the same for X1 with itself.", "quantifier": "all sets of points given as lists or arrays, every correlation function with positive parameters, every process variance", "why_tests_cant": "Continuum of inputs; depends on the type of the argument.", "anchors": ["bayes_optim/surrogate/gaussian_process/gpr.py:GaussianProcess.prior_cov"]}
{"id": "C172", "title": "The fast partitioning reports the exact hypervolume", "statement": "For every reference point and every sequence of batches of outcomes, compute_hypervolume of the fast partitioning equals the measure of the region above the reference that the outcomes given so far dominate; for two objectives after construction, for three and more also after any number of updates.", "quantifier": "every reference point with two or more objectives, every first batch and every list of further batches (ties, duplicates, dominated outcomes, outcomes below the reference, empty batches), every grid the measure is computed on", "why_tests_cant": "The cells are cut off at the best values and their volumes subtracted from the whole; a cell counted twice, missing or cut at the wrong value changes the result only for particular configurations of outcomes and update orders.", "anchors": ["bayes_optim/utils/multi_objective/box_decompositions/non_dominated.py:FastNondominatedPartitioning.compute_hypervolume", "bayes_optim/utils/multi_objective/box_decompositions/non_dominated.py:FastNondominatedPartitioning", "bayes_optim/utils/multi_objective/box_decompositions/box_decomposition.py:FastPartitioning"]}
{"id": "C173", "title": "The binary partitioning reports the exact hypervolume, and the two classes agree", "statement": "For every number of objectives, reference point and sequence of batches, compute_hypervolume of the binary partitioning with the default threshold equals the measure of the dominated region, and therefore the value that the fast partitioning reports.", "quantifier": "every number of objectives, reference point, list of batches, sorting order of ties, position of the maximum reported among ties, threshold alpha <= 0, grid", "why_tests_cant": "The volumes are products of differences that are not clamped at zero, so the result is right only if every cell of every run of the loop has increasing positions in every objective.", "anchors": ["bayes_optim/utils/multi_objective/box_decompositions/non_dominated.py:NondominatedPartitioning.compute_hypervolume", "bayes_optim/utils/multi_objective/box_decompositions/non_dominated.py:NondominatedPartitioning._get_hypercell_bounds", "bayes_optim/utils/multi_objective/box_decompositions/non_dominated.py:NondominatedPartitioning._partition_space"]}
{"id": "C174", "title": "The concentrated log likelihood is the largest log density of the data", "statement": "A finite value returned by log_likelihood_concentrated is, summed over the targets, the largest logarithm of the Gaussian density of the training outputs: over the trend and the total variance when the noise is estimated, over the variance without noise for a known trend, and over the trend for the given variance when the noise is known.", "quantifier": "all training inputs and outputs, numbers of targets, correlation functions, parameters, noise levels, known trends and trends with linearly independent basis functions, and all Cholesky, QR and triangular solvers meeting their contracts", "why_tests_cant": "The value is assembled from a Cholesky factor, a QR projection and a substituted variance; that the substitution maximises the density holds or fails for every data set and cannot be read off single values.", "anchors": ["bayes_optim/surrogate/gaussian_process/gpr.py:GaussianProcess.log_likelihood_concentrated", "bayes_optim/surrogate/gaussian_process/gpr.py:GaussianProcess._compute_aux_var"]}
{"id": "C175", "title": "The gradient of the likelihood with estimated noise is its derivative", "statement": "With estimated noise and one target, the second value of log_likelihood_concentrated(par, eval_grad=True) is the gradient of the first with respect to all parameters, wherever the value is negative.", "quantifier": "all training sets of one target, the squared exponential, absolute exponential and Matern correlations, positive parameters, known or estimated trends", "why_tests_cant": "A finite-difference test sees single points up to rounding; the derivative is a statement about limits at every point.", "anchors": ["bayes_optim/surrogate/gaussian_process/gpr.py:GaussianProcess.log_likelihood_concentrated"]}
{"id": "C176", "title": "The gradient of the likelihood without noise is its derivative", "statement": "Without noise and with one target, the second value of log_likelihood_concentrated(par, eval_grad=True) is the gradient of the first.", "quantifier": "all training sets of one target, the correlations with a gradient, positive parameters, known or estimated trends", "why_tests_cant": "The estimate of the variance divides by the degrees of freedom, which appears nowhere in the gradient; only trends with unknown coefficients show the difference.", "anchors": ["bayes_optim/surrogate/gaussian_process/gpr.py:GaussianProcess.log_likelihood_concentrated"]}
{"id": "C177", "title": "The gradient of the likelihood with known noise is its derivative", "statement": "With known noise, the second value of log_likelihood_concentrated(par, eval_grad=True) is the gradient of the first with respect to the correlation parameters and the variance.", "quantifier": "all training sets, numbers of targets, correlations with a gradient, positive parameters, noise variances, known or estimated trends", "why_tests_cant": "The entries differ from the derivatives by the ratio of the variance to the total variance, which is one for zero noise.", "anchors": ["bayes_optim/surrogate/gaussian_process/gpr.py:GaussianProcess.log_likelihood_concentrated"]}
{"id": "C178", "title": "The gradient of the likelihood is right for several targets", "statement": "For several targets the second value of log_likelihood_concentrated(par, eval_grad=True) is the gradient of the first (the sum over the targets) when the noise is zero or estimated.", "quantifier": "all training sets with any number of targets, correlations with a gradient, parameters", "why_tests_cant": "The products of the residuals are summed over the targets before each is divided by its variance, which is invisible with one target.", "anchors": ["bayes_optim/surrogate/gaussian_process/gpr.py:GaussianProcess.log_likelihood_concentrated"]}
{"id": "C179", "title": "The search for the parameters gets the gradient of the function it minimizes", "statement": "The function handed to L-BFGS-B takes the base-10 logarithms of the parameters and returns a value and the gradient of that value with respect to those logarithms.", "quantifier": "all training sets of one target, correlations with a gradient, points of the search space where the value is positive", "why_tests_cant": "A missing factor of the chain rule still gives descent directions, so that fits succeed and no test notices.", "anchors": ["bayes_optim/surrogate/gaussian_process/gpr.py:GaussianProcess._optimize_hyperparameter", "bayes_optim/surrogate/gaussian_process/gpr.py:GaussianProcess.log_likelihood_concentrated"]}
{"id": "C180", "title": "Without noise the value for an estimated trend is the largest log density", "statement": "Without noise, a finite value of log_likelihood_concentrated is the largest log density of the data over the trend and the variance also when the trend has unknown coefficients.", "quantifier": "all training sets, correlation functions and parameters, trends with linearly independent basis functions", "why_tests_cant": "The variance is estimated with n - k degrees of freedom and the sum of squares replaced by n; the value is off by an amount that depends on the number of coefficients.", "anchors": ["bayes_optim/surrogate/gaussian_process/gpr.py:GaussianProcess.log_likelihood_concentrated", "bayes_optim/surrogate/gaussian_process/gpr.py:GaussianProcess._compute_aux_var"]}
{"id": "C181", "title": "Every finite likelihood is reported", "statement": "log_likelihood_concentrated returns the largest log density whenever it exists, whatever the unit in which the outputs are measured.", "quantifier": "all training sets, correlation functions and parameters", "why_tests_cant": "Densities above one occur only for outputs on a small scale; test data seldom have it.", "anchors": ["bayes_optim/surrogate/gaussian_process/gpr.py:GaussianProcess.log_likelihood_concentrated"]}
{"id": "C182", "title": "A Metropolis-Hastings step leaves the target distribution unchanged", "statement": "If a row of the population is distributed as the target density times the probabilities of satisfying the constraints, it still is after any number of Metropolis-Hastings steps of SCMC, and the rows of the population do not influence each other.", "quantifier": "all spaces of variables with finitely many values, positive unnormalised target densities, constraints, deviations nu, iteration numbers, numbers of steps and populations", "why_tests_cant": "A sampler is wrong in distribution, not in single outputs: every sample a test sees is a legal point, and a bias shows only in the expectation over all random numbers.", "anchors": ["bayes_optim/search_space/samplers.py:SCMC._metropolis_hastings", "bayes_optim/search_space/samplers.py:SCMC._log_posterior", "bayes_optim/search_space/samplers.py:SCMC._rproposal_discrete", "bayes_optim/search_space/samplers.py:SCMC._rproposal_integer"]}
{"id": "C183", "title": "The sampler closes in on the constraints as far as the tolerance", "statement": "The deviation used by SCMC falls from 10 to tol/8. The density of a point that satisfies all K constraints grows meanwhile and never falls below 2^-K times the target density, and in the last stage the density of a point that violates a constraint by tol or more is at most exp(-32) times the target density, so that a move from the first kind of point to the second is accepted with probability at most 2^K exp(-32) if no ratio overflows.", "quantifier": "all tolerances below 80, constraint values, numbers of constraints and positive target densities", "why_tests_cant": "The bound concerns events of probability below 10^-13, which no sampling test will see.", "anchors": ["bayes_optim/search_space/samplers.py:SCMC._log_posterior", "bayes_optim/search_space/samplers.py:SCMC._metropolis_hastings", "bayes_optim/search_space/samplers.py:SCMC.__init__"]}
{"id": "C184", "title": "The standardized squared error has its three reference points", "statement": "SMSE(test, pred) is never negative; it is zero exactly if the predictions equal the targets; it is one if every prediction is the mean of the targets and more than one for every other constant; and it does not change if targets and predictions are rescaled and shifted together.", "quantifier": "all non-constant targets and predictions of any length, and all affine maps", "why_tests_cant": "The reference points are identities over all data sets; a test compares numbers for a few.", "anchors": ["bayes_optim/surrogate/gaussian_process/utils.py:SMSE"]}
{"id": "C185", "title": "The standardized log loss compares two predictive densities", "statement": "MSLL(train, test, pred, variances) is the average of minus the logarithm of the predicted normal density at the targets, minus that of the normal distribution with the mean and variance of the training targets; it is zero for predictions that equal the latter.", "quantifier": "all training targets that are not all equal, test targets, predictions and positive variances", "why_tests_cant": "The value is an identity between formulas over all data; single values do not show it.", "anchors": ["bayes_optim/surrogate/gaussian_process/utils.py:MSLL"]}
{"id": "C186", "title": "The error measures leave their arguments unchanged", "statement": "MSLL does not change the arrays that it is given.", "quantifier": "all training and test targets, predictions and variances", "why_tests_cant": "A write to an argument happens only for special values and is not visible in the result.", "anchors": ["bayes_optim/surrogate/gaussian_process/utils.py:MSLL"]}
{"id": "C187", "title": "The restricted likelihood of a model with known trend is the density of its data", "statement": "With likelihood 'restricted' and a known trend, the value at any parameters is the logarithm of the multivariate normal density of the observations with covariance sigma2*R + noise*I, summed over the targets.", "quantifier": "all data, known trends, kernels, noise modes and parameters for which the value is finite", "why_tests_cant": "The sign of one term is wrong for every data set, but a test that maximizes the value or compares it with itself does not see it.", "anchors": ["bayes_optim/surrogate/gaussian_process/gpr.py:GaussianProcess.log_likelihood_restricted"]}
{"id": "C188", "title": "The likelihood does not depend on the part of the data that the trend explains", "statement": "If the trend is estimated, adding any combination of its basis functions to the observations changes neither the concentrated nor the restricted likelihood, at any parameters; nor does it change whether they fail.", "quantifier": "all data, linearly independent basis functions, coefficients, kernels, noise modes and parameters", "why_tests_cant": "The invariance ranges over every shift of every data set.", "anchors": ["bayes_optim/surrogate/gaussian_process/gpr.py:GaussianProcess.log_likelihood_restricted", "bayes_optim/surrogate/gaussian_process/gpr.py:GaussianProcess.log_likelihood_concentrated", "bayes_optim/surrogate/gaussian_process/gpr.py:GaussianProcess._compute_aux_var"]}
{"id": "C189", "title": "The gradient of the restricted likelihood is its derivative", "statement": "The gradient returned with the restricted likelihood has, for every parameter, the derivative of the value in that parameter.", "quantifier": "all data, trends, smooth kernels and positive parameters with a finite negative value", "why_tests_cant": "A wrong entry only misleads the search for parameters; a test compares finite differences at a few points, and the entry of the variance is right at variance one.", "anchors": ["bayes_optim/surrogate/gaussian_process/gpr.py:GaussianProcess.log_likelihood_restricted"]}
{"id": "C190", "title": "fmin returns a best evaluated point", "statement": "When fmin returns, the function value it reports is the value of the function at the point it reports; that point is one of the points passed as x0 or evaluated by fmin; and no such point with a finite value has a smaller one. Non-finite values (NaN, infinities) are never reported.", "quantifier": "all functions (also with NaN and infinite values), bounds, x0, y0 that agree with the function, batch sizes, budgets, samplers and surrogates", "why_tests_cant": "It must hold for every function and every trajectory of the search.", "anchors": ["bayes_optim/__init__.py:fmin", "bayes_optim/_base.py:BaseOptimizer.run", "bayes_optim/_base.py:BaseOptimizer.xopt"]}
{"id": "C191", "title": "fmin reports the number of evaluations and keeps the budget", "statement": "The fourth value returned by fmin is the number of calls of the function, and it is at most max_FEs.", "quantifier": "all functions, bounds, x0, y0, batch sizes and budgets", "why_tests_cant": "The number of calls depends on the rejected proposals and on the last batch; a test with the documented example sees neither x0 nor a small budget.", "anchors": ["bayes_optim/__init__.py:fmin", "bayes_optim/base.py:BaseBO.step"]}
{"id": "C192", "title": "fmin evaluates the function only inside the bounds", "statement": "Every call of the function made by fmin is at a point of the box spanned by lower and upper or at a point passed as x0, also when fmin raises or does not end.", "quantifier": "all functions, bounds, x0, y0, batch sizes and budgets; samplers and acquisition optimizers that stay in the box", "why_tests_cant": "An evaluation outside the box depends on the trajectory of the search.", "anchors": ["bayes_optim/__init__.py:fmin", "bayes_optim/base.py:BaseBO.ask"]}
{"id": "C193", "title": "fmin accepts the documented bounds", "statement": "A float or a vector is accepted on either side; vectors need the same length, and each lower bound has to be less than the upper one; the space has one variable for each pair, in order, with distinct names; anything else raises an error that says what is wrong.", "quantifier": "all bounds: floats, lists, and other types", "why_tests_cant": "The forms of the arguments on both sides are combined; a test covers two of them.", "anchors": ["bayes_optim/__init__.py:fmin"]}
{"id": "C194", "title": "fmin terminates", "statement": "fmin returns or raises after finitely many iterations, for every function and budget, including the default one.", "quantifier": "all functions, bounds, x0, y0, batch sizes and budgets", "why_tests_cant": "Termination is about all runs; a test of the default cannot finish.", "anchors": ["bayes_optim/__init__.py:fmin", "bayes_optim/_base.py:BaseOptimizer.check_stop", "bayes_optim/_base.py:BaseOptimizer.run"]}
{"id": "C195", "title": "An integer x0 is the number of initial points", "statement": "With an integer x0 = n, fmin starts with evaluating the n points of the initial sample, for every n >= 0.", "quantifier": "all n, functions that do not raise, bounds, batch sizes, budgets and initial samples without near duplicates", "why_tests_cant": "It ranges over all sample sizes; zero falls through a truth test.", "anchors": ["bayes_optim/__init__.py:fmin", "bayes_optim/base.py:BaseBO.create_DoE"]}
{"id": "C196", "title": "The parameters of the evolution strategy stay usable", "statement": "In every run of MIES started with default parameters the random numbers of the next offspring are drawn with valid arguments: the parameters of the geometric distribution and the mutation probability are in (0, 1]. After every mutation the step sizes of the integer variables are in (0, 1], those of the real variables are not negative, and the mutation probability is between 1/(3 N) and 1/2 for N categorical variables.", "quantifier": "all search spaces, fitness functions, random numbers, population sizes and numbers of generations", "why_tests_cant": "An invalid argument would need a particular sequence of mutations and recombinations of any length.", "anchors": ["bayes_optim/acquisition/optim/mies.py:MIES._mutate_i", "bayes_optim/acquisition/optim/mies.py:MIES._mutate_d", "bayes_optim/acquisition/optim/mies.py:MIES.recombine"]}
{"id": "C197", "title": "MIES keeps moving real variables", "statement": "During a run of MIES the step size of a real variable stays positive, so that any point of the search space can still be reached.", "quantifier": "all search spaces, fitness functions and random numbers", "why_tests_cant": "The step sizes depend on the whole history of mutations, repairs and roundings.", "anchors": ["bayes_optim/acquisition/optim/mies.py:MIES._mutate_r"]}
{"id": "C198", "title": "MIES accepts initial strategy parameters", "statement": "MIES can be constructed with given initial step sizes (sigma0, eta0) and mutation probability (P0) as well as without.", "quantifier": "all search spaces, given parameters and initial samples", "why_tests_cant": "The constructor must work for every combination of variable types and given parameters.", "anchors": ["bayes_optim/acquisition/optim/mies.py:MIES.__init__"]}
{"id": "C199", "title": "MIES stops when the fitness stagnates", "statement": "A run of MIES ends with the reason tolfun if and only if the fitness values of the recent generations differ by less than the tolerance.", "quantifier": "all search spaces, fitness functions, population sizes and numbers of generations", "why_tests_cant": "Whether the criterion can ever be met depends on the number of evaluations over an unbounded run.", "anchors": ["bayes_optim/acquisition/optim/mies.py:MIES.stop"]}
{"id": "C200", "title": "MIES reports flat fitness only for equal offspring", "statement": "A run of MIES ends with the reason flatfitness only if different offspring of the last generation have the same fitness; the test does not raise.", "quantifier": "all search spaces, fitness functions, population sizes and numbers of generations", "why_tests_cant": "The compared position depends on both population sizes, which users can choose freely.", "anchors": ["bayes_optim/acquisition/optim/mies.py:MIES.stop"]}
{"id": "C201", "title": "Proposals made with the evolution strategy are valid", "statement": "If the acquisition function is optimized with MIES, every point ask returns is in the search space and is either a random sample or a proposal that satisfies the constraints up to the tolerance. Each restart ends without an error within its budget and one generation, and the proposal is the best feasible result of the restarts made.", "quantifier": "all search spaces whose integer variables have step 1, acquisition functions, constraints, budgets, numbers of restarts, samples and random numbers", "why_tests_cant": "The proposal is the outcome of several unbounded random runs nested in a restart loop; tests see a few of them.", "anchors": ["bayes_optim/base.py:BaseBO.ask", "bayes_optim/base.py:BaseBO.arg_max_acquisition", "bayes_optim/acquisition/optim/__init__.py:argmax_restart", "bayes_optim/acquisition/optim/mies.py:MIES.optimize"]}
{"id": "C202", "title": "The optimizer of the acquisition function fits the problem", "statement": "Whatever optimizer is requested for the acquisition function, the one that runs fits the search space, the constraints and the number of objectives, is given a function with the right result, and a wrong request is rejected by the constructor.", "quantifier": "all requests, kinds of search spaces, models, numbers of objectives, constraints and budgets", "why_tests_cant": "The choice is spread over the constructor, ask and the restart loop, and each combination of settings behaves differently.", "anchors": ["bayes_optim/base.py:BaseBO._set_internal_optimization", "bayes_optim/base.py:BaseBO.arg_max_acquisition", "bayes_optim/acquisition/optim/__init__.py:argmax_restart"]}
{"id": "C203", "title": "PCA-BO evaluates only points of the box when its proposals are optimal", "statement": "If the acquisition function is never negative and every proposal maximizes the penalized acquisition function over the reduced search space, every point PCABO evaluates in a run lies in the original search box. The reduced search space always has a point that is mapped into the box.", "quantifier": "all search boxes, objective functions, acquisition functions, numbers of components and iterations, initial designs and failed evaluations", "why_tests_cant": "Whether the reduced space still meets the box depends on all observations made so far and on their ranks.", "anchors": ["bayes_optim/extension.py:PCABO.ask", "bayes_optim/extension.py:PCABO.tell", "bayes_optim/extension.py:penalized_acquisition", "bayes_optim/extension.py:LinearTransform.fit"]}
{"id": "C204", "title": "PCA-BO proposes only points of the box", "statement": "Every point returned by PCABO.ask lies in the original search box.", "quantifier": "all search boxes, objective functions, histories and results of the acquisition optimization", "why_tests_cant": "The proposals come from a random search in a reduced space that is larger than the box.", "anchors": ["bayes_optim/extension.py:PCABO.ask", "bayes_optim/extension.py:PCABO._compute_bounds"]}
{"id": "C205", "title": "PCA-BO accounts for its evaluations", "statement": "After any sequence of calls of PCABO.tell, whether they return or raise, eval_count is the number of points told, iter_count the number of calls, data holds the points with a finite value in order, and xopt is the first best of them. tell does not return before there are two finite values.", "quantifier": "all sequences of calls, points, values, failures of the decomposition and of the model", "why_tests_cant": "The counters and the data must stay consistent over histories of any length with failures at any point.", "anchors": ["bayes_optim/extension.py:PCABO.tell", "bayes_optim/extension.py:PCABO.xopt"]}
{"id": "C206", "title": "PCA-BO records the history of best values", "statement": "After each iteration PCABO has appended the best value so far to hist_f, like the other optimizers.", "quantifier": "all histories", "why_tests_cant": "The history is observed after any number of iterations.", "anchors": ["bayes_optim/extension.py:PCABO.tell"]}
{"id": "C207", "title": "A run only evaluates points of the space", "statement": "During run() on a space of real, integer and categorical variables with constraints, the objective function is only called on points of the space, whether run returns, raises or is still going on; sampling under the constraints never raises and returns points of the space that satisfy them.", "quantifier": "every space of real, integer and categorical variables, constraint, objective function (noisy, failing and raising ones included), surrogate, random stream, budget, target, batch size and given data, and every number of iterations", "why_tests_cant": "a test observes a few runs; a point outside the space may come from any of the initial design, the constrained sampler, the evolution strategy, the top-up and the rounding, in any iteration", "anchors": ["bayes_optim/_base.py:BaseOptimizer.run", "bayes_optim/base.py:BaseBO.step", "bayes_optim/base.py:BaseBO.ask", "bayes_optim/base.py:BaseBO.create_DoE", "bayes_optim/base.py:BaseBO.tell"]}
{"id": "C208", "title": "A run never evaluates a point again", "statement": "During run(), no point is evaluated in two different iterations, and no point of the given data is evaluated.", "quantifier": "every space of real, integer and categorical variables, constraint, objective function (noisy, failing and raising ones included), surrogate, random stream, budget, target, batch size and given data, and every number of iterations", "why_tests_cant": "a repetition depends on the history of the run and on the values that the objective function returned", "anchors": ["bayes_optim/_base.py:BaseOptimizer.run", "bayes_optim/base.py:BaseBO.step", "bayes_optim/base.py:BaseBO.ask", "bayes_optim/base.py:BaseBO.create_DoE", "bayes_optim/base.py:BaseBO.tell"]}
{"id": "C209", "title": "A run only evaluates feasible points", "statement": "During run() with constraints, every point on which the objective function is called satisfies the constraints up to the tolerances of the code (0.1 for equalities).", "quantifier": "every space of real, integer and categorical variables, constraint, objective function (noisy, failing and raising ones included), surrogate, random stream, budget, target, batch size and given data, and every number of iterations", "why_tests_cant": "the points have four different origins, and only some combinations of precision, sample and constraint are affected", "anchors": ["bayes_optim/_base.py:BaseOptimizer.run", "bayes_optim/base.py:BaseBO.step", "bayes_optim/base.py:BaseBO.ask", "bayes_optim/base.py:BaseBO.create_DoE", "bayes_optim/base.py:BaseBO.tell"]}
{"id": "C210", "title": "run returns the first best observation of the whole run", "statement": "What run() returns is the earliest best point among the given data and all points on which it called the objective function with a finite result, with the value observed there; eval_count is the number of calls; run returned because this number reached max_FEs or because the returned value is better than the target. When values are minimised and there is a target, run calls the objective function again only while no known value is below the target.", "quantifier": "every space of real, integer and categorical variables, constraint, objective function (noisy, failing and raising ones included), surrogate, random stream, budget, target, batch size and given data, and every number of iterations", "why_tests_cant": "the claim is about all histories of proposals and values", "anchors": ["bayes_optim/_base.py:BaseOptimizer.run", "bayes_optim/base.py:BaseBO.step", "bayes_optim/base.py:BaseBO.ask", "bayes_optim/base.py:BaseBO.create_DoE", "bayes_optim/base.py:BaseBO.tell"]}
{"id": "C211", "title": "A run calls the objective function at most max_FEs - 1 + max(n_point, DoE_size) times", "statement": "With a budget of at least one, the number of calls of the objective function during run() is smaller than max_FEs plus the larger of n_point and DoE_size, also when run raises or has not returned yet.", "quantifier": "every space of real, integer and categorical variables, constraint, objective function (noisy, failing and raising ones included), surrogate, random stream, budget, target, batch size and given data, and every number of iterations", "why_tests_cant": "the bound must hold for each history, also for those that end with an exception", "anchors": ["bayes_optim/_base.py:BaseOptimizer.run", "bayes_optim/base.py:BaseBO.step", "bayes_optim/base.py:BaseBO.ask", "bayes_optim/base.py:BaseBO.create_DoE", "bayes_optim/base.py:BaseBO.tell"]}
{"id": "C212", "title": "A run that raises keeps its observations", "statement": "If run() raises, in whatever iteration and from whatever cause, the data of the optimizer are the given data followed by all finite observations of the completed iterations in order, and possibly some of the last iteration.", "quantifier": "every space of real, integer and categorical variables, constraint, objective function (noisy, failing and raising ones included), surrogate, random stream, budget, target, batch size and given data, and every number of iterations", "why_tests_cant": "an exception can come from the objective function, from ask, from the surrogate and from tell, in each iteration", "anchors": ["bayes_optim/_base.py:BaseOptimizer.run", "bayes_optim/base.py:BaseBO.step", "bayes_optim/base.py:BaseBO.ask", "bayes_optim/base.py:BaseBO.create_DoE", "bayes_optim/base.py:BaseBO.tell"]}
{"id": "C213", "title": "A multi-objective run only evaluates points of the space", "statement": "During run() of MOBO, every objective function is only called on points of the space, however the run ends; if no real variable is rounded to a precision, the points satisfy the constraints.", "quantifier": "every space of real, integer and categorical variables, constraint, list of two or more objective functions (noisy, failing and raising ones included), orientation of the objectives, surrogate, random stream, budget, and every number of iterations", "why_tests_cant": "a test observes a few runs; a point outside the space may come from the initial design, the proposals or the top-up in any iteration", "anchors": ["bayes_optim/_base.py:BaseOptimizer.run", "bayes_optim/_base.py:BaseOptimizer.check_stop", "bayes_optim/base.py:BaseBO.step", "bayes_optim/base.py:BaseBO.ask", "bayes_optim/mobo.py:BaseMOBO.tell", "bayes_optim/mobo.py:BaseMOBO.evaluate", "bayes_optim/mobo.py:BaseMOBO.xopt"]}
{"id": "C214", "title": "A multi-objective run never evaluates a point again", "statement": "During run() of MOBO, a point on which the objective functions were called in an earlier iteration is not proposed again, nor is a point equal to it up to the floating-point tolerance.", "quantifier": "every space of real, integer and categorical variables, constraint, list of two or more objective functions (noisy, failing and raising ones included), orientation of the objectives, surrogate, random stream, budget, and every number of iterations", "why_tests_cant": "a repetition depends on the whole history of the run", "anchors": ["bayes_optim/_base.py:BaseOptimizer.run", "bayes_optim/_base.py:BaseOptimizer.check_stop", "bayes_optim/base.py:BaseBO.step", "bayes_optim/base.py:BaseBO.ask", "bayes_optim/mobo.py:BaseMOBO.tell", "bayes_optim/mobo.py:BaseMOBO.evaluate", "bayes_optim/mobo.py:BaseMOBO.xopt"]}
{"id": "C215", "title": "A multi-objective run returns the non-dominated observations", "statement": "run() of MOBO returns only when the budget is used up. Each objective function was then called once for each proposed point, in order. As long as the rounding to single precision keeps the order of the normalised values, the result is the list of observations that no observation of the run beats in the user's orientation, in the order in which they were made and with the values observed; of equal observations it holds the first. It is not empty.", "quantifier": "every space of real, integer and categorical variables, constraint, list of two or more objective functions (noisy, failing and raising ones included), orientation of the objectives, surrogate, random stream, budget, and every number of iterations", "why_tests_cant": "a test observes a few fronts; the statement relates the result to every call made during the run", "anchors": ["bayes_optim/_base.py:BaseOptimizer.run", "bayes_optim/_base.py:BaseOptimizer.check_stop", "bayes_optim/base.py:BaseBO.step", "bayes_optim/base.py:BaseBO.ask", "bayes_optim/mobo.py:BaseMOBO.tell", "bayes_optim/mobo.py:BaseMOBO.evaluate", "bayes_optim/mobo.py:BaseMOBO.xopt"]}
{"id": "C216", "title": "Budget of a multi-objective run", "statement": "Whether run() of MOBO returns, raises or goes on, fewer than max_FEs + n_obj * max(n_point, DoE_size) calls of objective functions are made: the budget counts calls, not points.", "quantifier": "every space of real, integer and categorical variables, constraint, list of two or more objective functions (noisy, failing and raising ones included), orientation of the objectives, surrogate, random stream, budget, and every number of iterations", "why_tests_cant": "the bound must hold for every point at which a run can stop", "anchors": ["bayes_optim/_base.py:BaseOptimizer.run", "bayes_optim/_base.py:BaseOptimizer.check_stop", "bayes_optim/base.py:BaseBO.step", "bayes_optim/base.py:BaseBO.ask", "bayes_optim/mobo.py:BaseMOBO.tell", "bayes_optim/mobo.py:BaseMOBO.evaluate", "bayes_optim/mobo.py:BaseMOBO.xopt"]}
{"id": "C217", "title": "A failed evaluation does not end a multi-objective run", "statement": "If an objective function returns NaN or an infinite value at a point, run() of MOBO goes on, and the other observations are kept.", "quantifier": "every space of real, integer and categorical variables, constraint, list of two or more objective functions (noisy, failing and raising ones included), orientation of the objectives, surrogate, random stream, budget, and every number of iterations", "why_tests_cant": "a failure may happen in any objective, at any point of any iteration", "anchors": ["bayes_optim/_base.py:BaseOptimizer.run", "bayes_optim/_base.py:BaseOptimizer.check_stop", "bayes_optim/base.py:BaseBO.step", "bayes_optim/base.py:BaseBO.ask", "bayes_optim/mobo.py:BaseMOBO.tell", "bayes_optim/mobo.py:BaseMOBO.evaluate", "bayes_optim/mobo.py:BaseMOBO.xopt", "bayes_optim/base.py:BaseBO.post_eval_check"]}
{"id": "C218", "title": "A multi-objective run with a target", "statement": "With a target value run() of MOBO returns when the target is reached or the budget is used up.", "quantifier": "every space of real, integer and categorical variables, constraint, list of two or more objective functions (noisy, failing and raising ones included), orientation of the objectives, surrogate, random stream, budget, and every number of iterations, and every target value", "why_tests_cant": "it is a claim about all runs with a target, and a run with a target only fails after the first iteration", "anchors": ["bayes_optim/_base.py:BaseOptimizer.run", "bayes_optim/_base.py:BaseOptimizer.check_stop", "bayes_optim/base.py:BaseBO.step", "bayes_optim/base.py:BaseBO.ask", "bayes_optim/mobo.py:BaseMOBO.tell", "bayes_optim/mobo.py:BaseMOBO.evaluate", "bayes_optim/mobo.py:BaseMOBO.xopt"]}
{"id": "C219", "title": "The default optimizer of the acquisition function in MOBO", "statement": "Without an explicit choice of the optimizer, the acquisition function of MOBO can be optimized on every space, with every model and with or without constraints.", "quantifier": "every search space, model, number of objectives, constraint and choice of the optimizer", "why_tests_cant": "the tests always name the optimizer; the default depends on the order in which the constructors set the attributes", "anchors": ["bayes_optim/mobo.py:BaseMOBO.__init__", "bayes_optim/mobo.py:MOBO._create_acquisition", "bayes_optim/base.py:BaseBO._set_internal_optimization", "bayes_optim/acquisition/optim/__init__.py:Penalized.__call__", "bayes_optim/multi_objective/analytic.py:EHVI.forward"]}
{"id": "C220", "title": "Hypervolume with any number of objectives", "statement": "With any number of objectives, when every point that is at least as good as the reference point is better than it in every objective, and the values of different points differ in each objective from the third to the last but one (or, more generally, whenever one of two different points is at least as good as the other in the objectives up to the one after), the computed hypervolume is exactly the measure of the region dominated by the points, whatever their number, order, ties elsewhere and duplicates. For four objectives it is enough that no point dominates another one. The value is then independent of the order of the points and does not decrease when points are added or improved.", "quantifier": "all numbers of objectives, all reference points, all finite sets of points in any order that satisfy the conditions", "why_tests_cant": "the algorithm reuses cached areas and skips points that it believes to be covered, so its correctness depends on the interplay of all levels of the recursion for every order of the points; tests evaluate a few fronts", "anchors": ["bayes_optim/utils/multi_objective/hypervolume.py:Hypervolume.compute", "bayes_optim/utils/multi_objective/hypervolume.py:Hypervolume._hv_recursive"]}
{"id": "C221", "title": "A solution set written as CSV can be read back", "statement": "Solution.to_csv writes a header and one line per solution, in order; splitting the lines of the file at the delimiter gives back the variable names and, for every solution, its label, components, number of evaluations and objective values.", "quantifier": "all solution sets with any number of rows, variables and objectives, all values, labels and names, all delimiters and all ways of turning values into text", "why_tests_cant": "the file is ambiguous only for particular texts, which a test has to guess; that every other set is recovered is a statement about all sets and all texts", "anchors": ["bayes_optim/solution.py:Solution.to_csv"]}
{"id": "C222", "title": "Appending to a CSV file is concatenating", "statement": "Writing a solution set a to a file and appending a set b to it leaves the same file as writing a + b.", "quantifier": "all pairs of solution sets that can be concatenated, all delimiters, with and without header, all earlier contents of the file", "why_tests_cant": "relates two different ways of computing a file for all pairs of sets", "anchors": ["bayes_optim/solution.py:Solution.to_csv", "bayes_optim/solution.py:Solution.__add__"]}
{"id": "C223", "title": "The data file of a run holds every observation", "statement": "With data_file set, after any history of calls of tell the file holds one line (label, components, number of evaluations, objective value) for every observation of the optimizer, in order, and nothing else.", "quantifier": "all optimizers of BaseBO, all histories of calls of tell of any length, including calls that raise, all earlier contents of the file", "why_tests_cant": "depends on the whole history: which calls raised and at which point", "anchors": ["bayes_optim/base.py:BaseBO.tell", "bayes_optim/solution.py:Solution.to_csv"]}
{"id": "C224", "title": "The data file never holds more than was observed", "statement": "Whatever calls of tell were made and whichever of them raised, the earlier contents of the data file are kept and the lines added are lines of observations the optimizer holds, in the same order, each at most once.", "quantifier": "all histories of calls of tell of any length, including calls that raise, all earlier contents of the file", "why_tests_cant": "a statement about every history and every point at which a call can raise", "anchors": ["bayes_optim/base.py:BaseBO.tell", "bayes_optim/solution.py:Solution.to_csv"]}
{"id": "C225", "title": "The data file of a multi-objective run is complete", "statement": "The data file of a multi-objective optimizer holds, after any history of calls of tell, one line for every observation of the optimizer, in order, also when calls raise, for example because a model could not be fitted.", "quantifier": "all numbers of objectives, all histories of calls of tell without labels, including calls that raise, all earlier contents of the file", "why_tests_cant": "a statement about every history and every point at which a call can raise", "anchors": ["bayes_optim/mobo.py:BaseMOBO.tell", "bayes_optim/solution.py:Solution.to_csv"]}
{"id": "C226", "title": "A multi-objective optimizer is consistent", "statement": "A multi-objective optimizer that was constructed has at least two objectives, one direction (minimise or maximise) for each and, if objective functions are given, one for each objective; arguments that do not fit together are rejected.", "quantifier": "all numbers of objectives, all sequences of objective functions or none, all values of minimize", "why_tests_cant": "quantifies over all combinations of constructor arguments, including the ones nobody thought of testing", "anchors": ["bayes_optim/mobo.py:BaseMOBO.__init__", "bayes_optim/mobo.py:BaseMOBO._check_obj_fun", "bayes_optim/mobo.py:BaseMOBO._check_minimize"]}
{"id": "C227", "title": "Multi-objective optimizers accept warm data", "statement": "Data known beforehand, given as warm_data with one list of objective values for each point, is accepted by the multi-objective optimizers.", "quantifier": "all non-empty lists of points and all values, with two or more objectives", "why_tests_cant": "a test shows one rejected example; that no warm data at all can be used is a statement about all of them", "anchors": ["bayes_optim/mobo.py:BaseMOBO.__init__", "bayes_optim/base.py:BaseBO.warm_data"]}
{"id": "C228", "title": "Batches of multi-objective proposals", "statement": "After the initial design the multi-objective optimizers propose the requested number of points, one or several, by optimizing the expected hypervolume improvement.", "quantifier": "all requested acquisition functions, all numbers of points, for MOBO and MOBO_qEHVI", "why_tests_cant": "quantifies over all requests made to an optimizer after any history that fitted a model", "anchors": ["bayes_optim/mobo.py:MOBO_qEHVI", "bayes_optim/mobo.py:MOBO._create_acquisition", "bayes_optim/base.py:BaseBO._batch_arg_max_acquisition"]}
{"id": "C229", "title": "The requested acquisition function is used or rejected", "statement": "The acquisition function requested in the constructor is the one optimized by ask; a request that cannot be fulfilled is rejected by the constructor.", "quantifier": "all values of acquisition_fun: all names, callables and other objects", "why_tests_cant": "quantifies over all names; the failure shows only after the evaluations of the initial design have been paid for", "anchors": ["bayes_optim/base.py:BaseBO.acquisition_fun", "bayes_optim/base.py:BaseBO._create_acquisition", "bayes_optim/bayes_opt.py:BO._create_acquisition", "bayes_optim/base.py:BaseBO._check_params"]}
{"id": "C230", "title": "A Gaussian process can be made in the documented ways", "statement": "GaussianProcess(...) returns a model for finite bounds and, as documented, without bounds (theta0 is then used as it is). Bounds that are not finite and unknown likelihood functions are refused; a nugget of zero gives a model without noise, another nugget one with that noise, and noise_estim one with estimated noise.", "quantifier": "all bounds (given or not), nuggets, likelihood names and other arguments", "why_tests_cant": "The tests make models with bounds only.", "anchors": ["bayes_optim/surrogate/gaussian_process/gpr.py:GaussianProcess.__init__"]}
{"id": "C231", "title": "The nugget may be given for each observation", "statement": "As documented, GaussianProcess accepts an array of noise variances, one for each observation.", "quantifier": "all arrays and all other arguments", "why_tests_cant": "No test passes an array.", "anchors": ["bayes_optim/surrogate/gaussian_process/gpr.py:GaussianProcess.__init__"]}
{"id": "C232", "title": "Wrong parameters are refused before the search", "statement": "fit goes on to the search for the parameters exactly if the correlation function and the optimizer are known, the bounds have equal lengths with 0 < lower <= upper in every entry, and theta0, if given, has their length; otherwise it raises ValueError without starting the search.", "quantifier": "all arguments of the constructor, all data and all searches", "why_tests_cant": "The arguments range over lists of any length and arbitrary names.", "anchors": ["bayes_optim/surrogate/gaussian_process/gpr.py:GaussianProcess._check_params", "bayes_optim/surrogate/gaussian_process/gpr.py:GaussianProcess._check_data", "bayes_optim/surrogate/gaussian_process/gpr.py:GaussianProcess.fit"]}
{"id": "C233", "title": "A wrong starting point is refused", "statement": "fit raises if theta0 is not positive or lies outside the bounds.", "quantifier": "all starting points and bounds", "why_tests_cant": "One needs the starting points that no test tries.", "anchors": ["bayes_optim/surrogate/gaussian_process/gpr.py:GaussianProcess._check_params", "bayes_optim/surrogate/gaussian_process/gpr.py:GaussianProcess._optimize_hyperparameter"]}
{"id": "C234", "title": "One correlation parameter may serve all features", "statement": "As documented, a model whose bounds have one entry can be fitted to points with any number of features.", "quantifier": "all numbers of points and features, all searches", "why_tests_cant": "The tests give as many bounds as features.", "anchors": ["bayes_optim/surrogate/gaussian_process/gpr.py:GaussianProcess.__init__", "bayes_optim/surrogate/gaussian_process/gpr.py:GaussianProcess.fit", "bayes_optim/surrogate/gaussian_process/trend.py:BasisExpansionTrend.check_input"]}
{"id": "C235", "title": "A trend for another number of features is refused", "statement": "fit raises if the trend was made for a number of features different from that of the points.", "quantifier": "all numbers of points and features, all trends and searches", "why_tests_cant": "Only one coincidence of sizes goes wrong, and there fit does not end.", "anchors": ["bayes_optim/surrogate/gaussian_process/gpr.py:GaussianProcess.fit", "bayes_optim/surrogate/gaussian_process/trend.py:BasisExpansionTrend.check_input"]}
{"id": "C236", "title": "Refitting does not depend on earlier data", "statement": "Whether a model is fitted with noise, and with which noise variance, depends on the arguments it was made with and the data of the last fit, not on the data that it was fitted to before.", "quantifier": "all sequences of fits, all data and all results of the search", "why_tests_cant": "A history of fits is needed in which one likelihood was rejected.", "anchors": ["bayes_optim/surrogate/gaussian_process/gpr.py:GaussianProcess.fit"]}
{"id": "C237", "title": "A failed fit leaves the fitted model usable", "statement": "If fit raises, predict still works and answers as before.", "quantifier": "all sizes of the old and the new data, all failures", "why_tests_cant": "A failure after a completed fit is not tried in tests.", "anchors": ["bayes_optim/surrogate/gaussian_process/gpr.py:GaussianProcess.fit", "bayes_optim/surrogate/gaussian_process/gpr.py:GaussianProcess._check_data", "bayes_optim/surrogate/gaussian_process/gpr.py:GaussianProcess.predict"]}
{"id": "C238", "title": "Bounds of the length scales are relative to the ranges of the variables", "statement": "The scikit-learn wrapper bounds the length scale of each variable by the given pair (its own, or the only one) times the width of the variable's range, and refuses another number of pairs.", "quantifier": "all numbers of variables and pairs, all values", "why_tests_cant": "Broadcasting depends on the sizes; tests use the default.", "anchors": ["bayes_optim/surrogate/gaussian_process/__init__.py:GaussianProcessSklearn._set_length_scale_bounds"]}
{"id": "C239", "title": "The wrapper fits one model for each objective", "statement": "fit of the scikit-learn wrapper raises ValueError exactly if the number of columns of X is not the number of variables or the number of columns of y is not the number of objectives; otherwise model i gets column i of y.", "quantifier": "all numbers of variables, objectives and columns", "why_tests_cant": "All combinations of sizes are meant.", "anchors": ["bayes_optim/surrogate/gaussian_process/__init__.py:GaussianProcessSklearn._check_dims", "bayes_optim/surrogate/gaussian_process/__init__.py:GaussianProcessSklearn.fit"]}
{"id": "C240", "title": "All computations of the hypervolume agree", "statement": "For the same outcomes and reference point, Hypervolume.compute, the binary partitioning and the fast partitioning report the same hypervolume, also when the partitionings got the outcomes in batches.", "quantifier": "all numbers of objectives, reference points, outcomes and batches", "why_tests_cant": "Three different algorithms are compared on all inputs.", "anchors": ["bayes_optim/utils/multi_objective/hypervolume.py:Hypervolume.compute", "bayes_optim/utils/multi_objective/box_decompositions/non_dominated.py:NondominatedPartitioning.compute_hypervolume", "bayes_optim/utils/multi_objective/box_decompositions/non_dominated.py:FastNondominatedPartitioning.compute_hypervolume"]}
{"id": "C241", "title": "Repairing a batch of points is repairing each point", "statement": "handle_box_constraint on a matrix with one point per row returns the matrix of the repaired points, and on a vector the repaired point; a shape that fits the bounds in no direction is refused; every returned entry is a number inside its bounds.", "quantifier": "all numbers of points and variables, all bounds, all values", "why_tests_cant": "The shapes of the arguments and their values range over infinite sets, and the failure needs a coincidence of two sizes.", "anchors": ["bayes_optim/utils/utils.py:handle_box_constraint"]}
{"id": "C242", "title": "Box repair leaves the caller's data alone", "statement": "Calling handle_box_constraint does not change the object passed as the point or the matrix of points.", "quantifier": "all arguments, array or not, all shapes and bounds", "why_tests_cant": "A test looks at the returned value; the effect on the argument depends on how it is stored.", "anchors": ["bayes_optim/utils/utils.py:handle_box_constraint"]}
{"id": "C243", "title": "Bounds can be given once for all variables or one by one", "statement": "set_bounds returns one bound for each variable: a number, a list with one entry, or the text of one of these, stands for all variables; a list with an entry for each variable is kept; everything else is refused with an error.", "quantifier": "all arguments (numbers, texts, iterables, other values) and dimensions", "why_tests_cant": "The argument is of any type and length.", "anchors": ["bayes_optim/utils/utils.py:set_bounds"]}
{"id": "C244", "title": "Settings of the inner optimization are read as integers", "statement": "arg_to_int, used for max_FEs, n_restart and wait_iter of the acquisition optimization, returns an integer unchanged, the integer part of a finite float, and for a text what it returns for the value of the text; everything else is refused.", "quantifier": "all arguments and all texts", "why_tests_cant": "The argument is of any type and any size.", "anchors": ["bayes_optim/utils/utils.py:arg_to_int", "bayes_optim/base.py:BaseBO._set_internal_optimization"]}
{"id": "C245", "title": "An acquisition function takes several points at once", "statement": "Calling UCB, EI, EpsilonPI, PI or MGFI with a matrix of points returns the value at each of the points, which is the one that a call with this point returns.", "quantifier": "all surrogates, parameters, numbers of points", "why_tests_cant": "Surrogates and points range over infinite sets.", "anchors": ["bayes_optim/acquisition/acquisition_fun.py:UCB.__call__", "bayes_optim/acquisition/acquisition_fun.py:EI.__call__", "bayes_optim/acquisition/acquisition_fun.py:EpsilonPI.__call__", "bayes_optim/acquisition/acquisition_fun.py:MGFI.__call__"]}
{"id": "C246", "title": "The Hessian of a Gaussian process is that of its prediction", "statement": "Hessian(x) of a fitted Gaussian process returns the matrix of the second derivatives of the predicted mean at x.", "quantifier": "all correlation functions, trends, numbers of features and training points, all parameters and query points", "why_tests_cant": "The points and the parameters are real vectors of any size, and a comparison with finite differences settles single points only.", "anchors": ["bayes_optim/surrogate/gaussian_process/gpr.py:GaussianProcess.Hessian", "bayes_optim/surrogate/gaussian_process/gpr.py:GaussianProcess.corr_Hessian", "bayes_optim/surrogate/gaussian_process/trend.py:linear_trend.Hessian"]}
{"id": "C247", "title": "The Hessian of a Gaussian process is symmetric", "statement": "Whatever matrix Hessian(x) of a fitted Gaussian process returns is symmetric.", "quantifier": "all correlation functions, trends, training data, parameters and query points for which a matrix is returned", "why_tests_cant": "The points and the parameters are real vectors of any size.", "anchors": ["bayes_optim/surrogate/gaussian_process/gpr.py:GaussianProcess.Hessian", "bayes_optim/surrogate/gaussian_process/gpr.py:GaussianProcess.corr_Hessian"]}
{"id": "C248", "title": "The constructor of a search space creates the variables that were asked for", "statement": "RealSpace, IntegerSpace, DiscreteSpace, OrdinalSpace and SubsetSpace create one variable for each range, in the order of the ranges, with the name, the default value, the precision, the scale and the step given for that position (a single value holds for all of them, an omitted one is the default of the class); sensible arguments are accepted; a flat list is one range; an empty list, and a number in place of one of several ranges, are refused.", "quantifier": "all numbers of ranges, all ranges, names, default values and options, given once or one by one", "why_tests_cant": "The number of variables and the combination of options are unbounded.", "anchors": ["bayes_optim/search_space/search_space.py:RealSpace", "bayes_optim/search_space/search_space.py:IntegerSpace", "bayes_optim/search_space/search_space.py:DiscreteSpace", "bayes_optim/search_space/search_space.py:OrdinalSpace", "bayes_optim/search_space/search_space.py:SubsetSpace", "bayes_optim/search_space/search_space.py:SearchSpace._ready_args"]}
{"id": "C249", "title": "The default value of a variable is one of its values", "statement": "After constructing a search space the default value of every variable, if it has one, lies in the range of the variable.", "quantifier": "all ranges, scales and default values", "why_tests_cant": "The failure needs a scale whose working range cuts the given range.", "anchors": ["bayes_optim/search_space/search_space.py:RealSpace", "bayes_optim/search_space/variable.py:Real", "bayes_optim/search_space/variable.py:Variable.set_default_value"]}
{"id": "C250", "title": "The default value of a subset variable can be given as the subset", "statement": "SubsetSpace(bounds, default_value=subset) constructs a variable with that default value when the subset, a tuple, is one of the values of the variable.", "quantifier": "all sets of elements and all subsets", "why_tests_cant": "The elements and the subsets are of any size.", "anchors": ["bayes_optim/search_space/search_space.py:SubsetSpace", "bayes_optim/search_space/search_space.py:SearchSpace._ready_args", "bayes_optim/search_space/variable.py:Subset"]}
{"id": "C251", "title": "Boolean search spaces have one variable for each name", "statement": "BoolSpace(var_name, default_value) constructs a Boolean variable for each given name, whose default value is the given one and True if none is given; default values of other types are refused.", "quantifier": "all lists of names and default values", "why_tests_cant": "The number of names is unbounded.", "anchors": ["bayes_optim/search_space/search_space.py:BoolSpace", "bayes_optim/search_space/search_space.py:SearchSpace._ready_args", "bayes_optim/search_space/variable.py:Bool"]}
{"id": "C252", "title": "A dictionary of a population by variable lists each variable's values in the order of the rows", "statement": "For a population whose variables have distinct names, to_dict(orient='var') has exactly one entry per variable, in the order of the variables, and the entry of a variable is the list of its values in the rows, in the order of the rows; with with_index=True and distinct labels, each entry maps the label of every row to the value in that row.", "quantifier": "every population, number of variables and labels", "why_tests_cant": "Sizes, values and labels are arbitrary; tests look at one small table, where a shifted or reordered column can go unnoticed.", "anchors": ["bayes_optim/solution.py:Solution.to_dict"]}
{"id": "C253", "title": "A space has exactly the conditions given with its variables", "statement": "After SearchSpace(variables), the condition trees of the space contain, for every condition of a variable of the space on a variable of the space, this condition exactly once, and nothing else; variables whose conditions depend on each other in a cycle are refused.", "quantifier": "every list of variables with conditions, any depth of nesting", "why_tests_cant": "Nesting depth and the order of the variables are unbounded; tests construct one or two levels.", "anchors": ["bayes_optim/search_space/search_space.py:SearchSpace.__init__", "bayes_optim/search_space/search_space.py:SearchSpace._set_structure", "bayes_optim/search_space/node.py:Node.from_dict"]}
{"id": "C254", "title": "Sub-spaces keep the conditions among their variables, each once", "statement": "Taking some variables of a space (slice, list of positions, filter, difference, pop, remove) gives a space whose condition trees are those of the space restricted to nodes all of whose ancestors are taken; in particular taking all variables gives the same conditions.", "quantifier": "every space, every choice of variables", "why_tests_cant": "The number of sub-spaces is exponential and conditions nest arbitrarily.", "anchors": ["bayes_optim/search_space/search_space.py:SearchSpace.__getitem__", "bayes_optim/search_space/search_space.py:SearchSpace.__sub__", "bayes_optim/search_space/search_space.py:SearchSpace.filter", "bayes_optim/search_space/search_space.py:SearchSpace.pop", "bayes_optim/search_space/search_space.py:SearchSpace.remove"]}
{"id": "C255", "title": "The unconditional sub-spaces of a space can always be listed, and listing them changes nothing", "statement": "get_unconditional_subspace works for every space that was constructed from variables with conditions or taken as a sub-space of such a space; no variable appears twice in a sub-space; the variables keep their names.", "quantifier": "every space, every sub-space of it", "why_tests_cant": "Depends on the history of operations by which the space was made.", "anchors": ["bayes_optim/search_space/search_space.py:SearchSpace.get_unconditional_subspace", "bayes_optim/search_space/search_space.py:SearchSpace.__getitem__", "bayes_optim/search_space/search_space.py:SearchSpace._check_data"]}
{"id": "C256", "title": "The sum of two spaces has the conditions of both", "statement": "For two spaces with different variable names, s + t is the space of both lists of variables, with the conditions of both.", "quantifier": "every pair of spaces", "why_tests_cant": "All pairs of spaces with arbitrary conditions; tests add spaces without conditions.", "anchors": ["bayes_optim/search_space/search_space.py:SearchSpace.__add__", "bayes_optim/search_space/search_space.py:SearchSpace.concat", "bayes_optim/search_space/node.py:Node.deepcopy"]}
{"id": "C257", "title": "The in-place operations treat conditions as the others do", "statement": "After s -= t (s += t), the variables and condition trees of s are those of s - t (s + t).", "quantifier": "every pair of spaces", "why_tests_cant": "All pairs of spaces with arbitrary conditions.", "anchors": ["bayes_optim/search_space/search_space.py:SearchSpace.__isub__", "bayes_optim/search_space/search_space.py:SearchSpace.__iadd__", "bayes_optim/search_space/search_space.py:SearchSpace.__sub__", "bayes_optim/search_space/search_space.py:SearchSpace.__add__"]}
{"id": "C258", "title": "Constructing a space does not change the structure passed by the caller", "statement": "After SearchSpace(variables, structure=d) the dictionary d is as before, so that constructing a second time from the same arguments gives the same space.", "quantifier": "every dictionary, every list of variables", "why_tests_cant": "A second use of the arguments is needed to see it; all dictionaries and variable lists are possible.", "anchors": ["bayes_optim/search_space/search_space.py:SearchSpace.__init__", "bayes_optim/search_space/search_space.py:SearchSpace._set_structure"]}
{"id": "C259", "title": "Every copy in a replicated space has the conditions of the space", "statement": "In s * N each of the N copies of the variables has the conditions of s among its own variables.", "quantifier": "every space, every N", "why_tests_cant": "All spaces with conditions and all N.", "anchors": ["bayes_optim/search_space/search_space.py:SearchSpace.__mul__", "bayes_optim/search_space/search_space.py:SearchSpace._set_structure"]}
{"id": "C260", "title": "A flat objective is reported exactly when the values do not vary", "statement": "After any sequence of calls, tell raises the flat-fitness error if and only if more than five finite values have been observed and their standard deviation is at most 1e-8.", "quantifier": "every history of observations, any number and order of values", "why_tests_cant": "All histories of any length; tests use one constant function.", "anchors": ["bayes_optim/base.py:BaseBO.update_model", "bayes_optim/base.py:BaseBO.tell"]}
{"id": "C261", "title": "fmin accepts only starting points that fit its bounds", "statement": "fmin returns only if every starting point has exactly one floating-point coordinate for each bound; if starting points with known values do not fit, fmin raises before the function is evaluated.", "quantifier": "every function, every list of starting points and bounds", "why_tests_cant": "All shapes of starting points; tests pass correct points.", "anchors": ["bayes_optim/__init__.py:fmin", "bayes_optim/base.py:BaseBO.warm_data"]}
{"id": "C262", "title": "An aggregation of surrogate models predicts the aggregated value", "statement": "For any surrogate models with uncorrelated predictions, the weighted-sum aggregation predicts at each point the mean and variance of the weighted sum of their predictions; a number of weights other than the number of models, missing weights and an unknown kind of aggregation are refused; the other aggregations offered by the constructor predict the corresponding value.", "quantifier": "every list of models and weights, every set of points", "why_tests_cant": "Numbers of models, weights and points are arbitrary.", "anchors": ["bayes_optim/surrogate/random_forest.py:SurrogateAggregation.__init__", "bayes_optim/surrogate/random_forest.py:SurrogateAggregation.predict"]}
{"id": "C263", "title": "After renaming, the variables of a space have the names given, and so have their conditions", "statement": "Assigning a list of names to var_name gives the variables these names in order and changes nothing else; assigning a string numbers the variables with distinct names; a wrong number of names is refused; the conditions of the space refer to the new names.", "quantifier": "every space, every list of names", "why_tests_cant": "All spaces with any conditions; tests rename spaces without conditions.", "anchors": ["bayes_optim/search_space/search_space.py:SearchSpace.var_name"]}
{"id": "C264", "title": "A box decomposition of several sets treats every set as if it were alone", "statement": "For two objectives and one reference point, after construction with a batch of sets of outcomes and any further updates, both partitionings return for every set cells that partition what the outcomes of this set leave undominated above the reference point, and the hypervolume of this set; the number of cells is the same for all sets.", "quantifier": "every reference point, batch size, number of outcomes, sequence of batches, sorting order of ties", "why_tests_cant": "Fronts of different sizes are padded with repeated points; whether the padding creates cells or volume depends on the outcomes of all sets at once.", "anchors": ["bayes_optim/utils/multi_objective/box_decompositions/utils.py:_pad_batch_pareto_frontier", "bayes_optim/utils/multi_objective/box_decompositions/utils.py:_expand_ref_point", "bayes_optim/utils/multi_objective/box_decompositions/box_decomposition.py:BoxDecomposition", "bayes_optim/utils/multi_objective/box_decompositions/non_dominated.py:NondominatedPartitioning", "bayes_optim/utils/multi_objective/box_decompositions/non_dominated.py:FastNondominatedPartitioning"]}
{"id": "C265", "title": "A box decomposition of several sets may have a reference point for each set", "statement": "The same holds when every set has its own reference point, including sets that have no outcome better than their reference point.", "quantifier": "every list of reference points, number of outcomes, sequence of batches, sorting order of ties", "why_tests_cant": "Whether a set without better outcomes is padded or treated separately depends on the outcomes of all other sets.", "anchors": ["bayes_optim/utils/multi_objective/box_decompositions/utils.py:_pad_batch_pareto_frontier", "bayes_optim/utils/multi_objective/box_decompositions/utils.py:_expand_ref_point", "bayes_optim/utils/multi_objective/box_decompositions/non_dominated.py:NondominatedPartitioning", "bayes_optim/utils/multi_objective/box_decompositions/non_dominated.py:FastNondominatedPartitioning"]}
{"id": "C266", "title": "An item of a dictionary that describes no variable is refused", "statement": "SearchSpace.from_dict raises if an item has an empty range, a lower bound that is not below the upper bound, or a step of zero.", "quantifier": "every dictionary, every position of the item among valid ones", "why_tests_cant": "All dictionaries and positions; a test shows one accepted dictionary.", "anchors": ["bayes_optim/search_space/search_space.py:SearchSpace.from_dict"]}
{"id": "C267", "title": "The constructors of acquisition functions refuse foreign arguments and use their own", "statement": "A keyword argument of another acquisition function is refused with a TypeError; an object that is constructed holds the parameter and the plugin value given (negated for maximisation) and the documented default for a parameter that is not given.", "quantifier": "every class, combination of keyword arguments, direction, surrogate", "why_tests_cant": "All combinations and values of arguments.", "anchors": ["bayes_optim/acquisition/acquisition_fun.py:UCB.__init__", "bayes_optim/acquisition/acquisition_fun.py:EpsilonPI.__init__", "bayes_optim/acquisition/acquisition_fun.py:MGFI.__init__", "bayes_optim/acquisition/acquisition_fun.py:ImprovementBased.plugin"]}
{"id": "C268", "title": "A positive threshold only enlarges the reported hypervolume, and not beyond the ideal box", "statement": "With any threshold alpha (cells below that fraction of the volume are left out), after construction and any updates, the hypervolume reported by the binary partitioning is at least the measure of the region that the outcomes given so far dominate above the reference point, and at most the volume between the reference point and any point at least as good in every objective as all outcomes above the reference.", "quantifier": "every number of objectives, reference point, threshold, finite sequence of batches with ties and duplicates", "why_tests_cant": "All thresholds and histories of updates; a test computes one number.", "anchors": ["bayes_optim/utils/multi_objective/box_decompositions/non_dominated.py:NondominatedPartitioning._partition_space", "bayes_optim/utils/multi_objective/box_decompositions/non_dominated.py:NondominatedPartitioning.compute_hypervolume"]}
{"id": "C269", "title": "A search space saved with to_json is read back by from_json", "statement": "SearchSpace.to_json followed by SearchSpace.from_json on the same file gives a space with the same variables.", "quantifier": "every search space, file name, contents of the files before", "why_tests_cant": "All spaces; a test saves one.", "anchors": ["bayes_optim/search_space/search_space.py:SearchSpace.to_json", "bayes_optim/search_space/search_space.py:SearchSpace.from_json", "bayes_optim/search_space/search_space.py:SearchSpace.to_dict"]}
{"id": "C270", "title": "The conditional optimizer counts the points it was told", "statement": "After any sequence of calls of ask and tell on a ConditionalBO, eval_count is the number of points that were told in calls without warm_start, and data are the observations with a finite value in the order in which they were told.", "quantifier": "every sequence of calls of ask and tell, batch sizes, values (NaN and infinite ones included), proposals of the sub-optimizers, random choices", "why_tests_cant": "All histories; a test makes a few calls with finite values.", "anchors": ["bayes_optim/extension.py:ConditionalBO.ask", "bayes_optim/extension.py:ConditionalBO.tell", "bayes_optim/extension.py:ConditionalBO._create_optimizer"]}
{"id": "C271", "title": "A run of the conditional optimizer with a budget ends", "statement": "run() of a ConditionalBO with max_FEs = m ends, and eval_count then exceeds the budget by less than one batch.", "quantifier": "every budget, batch size, objective function (noisy, failing or raising), proposals, random choices", "why_tests_cant": "Termination for all objective functions; a test runs one that does not fail.", "anchors": ["bayes_optim/extension.py:ConditionalBO.tell", "bayes_optim/extension.py:ConditionalBO.ask", "bayes_optim/_base.py:BaseOptimizer.run"]}
{"id": "C272", "title": "Each observation reaches the optimizer of the sub-space that proposed the point", "statement": "When points returned by ask of a ConditionalBO are told with their values, each observation is added to the optimizer of the sub-space that proposed this point, and to no other one.", "quantifier": "every history, batch size, proposals, random choices, values, order of asks and tells", "why_tests_cant": "All histories with several batches under way; a test tells each batch at once.", "anchors": ["bayes_optim/extension.py:ConditionalBO.ask", "bayes_optim/extension.py:ConditionalBO.tell", "bayes_optim/extension.py:ConditionalBO.select_subspace"]}
{"id": "C273", "title": "The conditional optimizer recommends the first best observation", "statement": "After any history with a tell, xopt of a ConditionalBO is the first of the best finite observations, and hist_f has one entry for each tell without warm_start: a best value of all that was told until then.", "quantifier": "every history of asks and tells, minimization and maximization, values, proposals, random choices", "why_tests_cant": "All histories; a test looks at one.", "anchors": ["bayes_optim/extension.py:ConditionalBO.tell", "bayes_optim/_base.py:BaseOptimizer.xopt"]}
{"id": "C274", "title": "Evaluation counters of the observations of the conditional optimizer", "statement": "Each row of data of a ConditionalBO carries as n_eval the number of times this point was told.", "quantifier": "every history", "why_tests_cant": "All histories; no test reads the counter.", "anchors": ["bayes_optim/extension.py:ConditionalBO.tell", "bayes_optim/solution.py:Solution.from_dict"]}
{"id": "C275", "title": "Correlation matrices are positive definite", "statement": "For the squared exponential, the absolute exponential and the Matern correlation with positive parameters, the correlation matrix of any points is positive semi-definite, and it is positive definite if the points are pairwise different.", "quantifier": "every number of points and of dimensions, all points, all positive parameters (one for all dimensions or one for each)", "why_tests_cant": "Positive definiteness is a statement about every vector and every set of points; a test factors a few matrices in floating point.", "anchors": ["bayes_optim/surrogate/gaussian_process/gpr.py:GaussianProcess.correlation_matrix", "bayes_optim/surrogate/gaussian_process/kernel.py:squared_exponential", "bayes_optim/surrogate/gaussian_process/kernel.py:absolute_exponential", "bayes_optim/surrogate/gaussian_process/kernel.py:matern"]}
{"id": "C276", "title": "The generalized exponential correlation is valid exactly up to the exponent two", "statement": "With the generalized exponential correlation the matrix of any points is positive semi-definite if the exponent (the last parameter) is at most two, and for every larger exponent there are parameters and points for which it is not.", "quantifier": "every number of points and of dimensions, all points, all positive parameters, every exponent", "why_tests_cant": "All exponents, all points and all vectors.", "anchors": ["bayes_optim/surrogate/gaussian_process/gpr.py:GaussianProcess.correlation_matrix", "bayes_optim/surrogate/gaussian_process/kernel.py:generalized_exponential"]}
{"id": "C277", "title": "Every correlation function on offer gives positive semi-definite matrices", "statement": "Whatever correlation function is chosen, the correlation matrix of any points is positive semi-definite for all positive parameters, so the likelihood of data with noise can be computed.", "quantifier": "every correlation function, all points, all positive parameters", "why_tests_cant": "All points and vectors; the failures need at least several points in a special position.", "anchors": ["bayes_optim/surrogate/gaussian_process/gpr.py:GaussianProcess.correlation_matrix", "bayes_optim/surrogate/gaussian_process/gpr.py:GaussianProcess.log_likelihood_concentrated", "bayes_optim/surrogate/gaussian_process/kernel.py:cubic", "bayes_optim/surrogate/gaussian_process/kernel.py:generalized_exponential"]}
{"id": "C278", "title": "The likelihood can be computed", "statement": "For the squared exponential, the absolute exponential and the Matern correlation the factorisation behind the likelihood never fails: with a positive variance of the noise for any points, repeated ones included; with an estimated noise for any share of the noise above zero; without noise for pairwise different points.", "quantifier": "all points, values, trends, positive parameters, variances", "why_tests_cant": "All data sets and parameters; a test fits a few.", "anchors": ["bayes_optim/surrogate/gaussian_process/gpr.py:GaussianProcess.log_likelihood_concentrated", "bayes_optim/surrogate/gaussian_process/gpr.py:GaussianProcess._compute_aux_var", "bayes_optim/surrogate/gaussian_process/gpr.py:GaussianProcess.correlation_matrix"]}
{"id": "C279", "title": "Without noise a repeated point makes all parameters infeasible", "statement": "If two training points are equal and there is no noise, the likelihood is -inf for all positive parameters, whatever the correlation function and the values.", "quantifier": "all data sets with a repeated point, all correlation functions, all positive parameters", "why_tests_cant": "All data sets and parameters.", "anchors": ["bayes_optim/surrogate/gaussian_process/gpr.py:GaussianProcess.log_likelihood_concentrated", "bayes_optim/surrogate/gaussian_process/gpr.py:GaussianProcess._compute_aux_var"]}
{"id": "C280", "title": "Without noise the predicted variance is the smallest error, and zero exactly at the data", "statement": "For a model fitted without noise with the squared exponential, absolute exponential or Matern correlation, predict(X, eval_MSE=True) returns at every point the smallest mean squared error of a linear predictor that is unbiased for the trend. It is never negative, it is zero at the points of the data and positive at every other point.", "quantifier": "all training data, trends, targets, positive parameters, all new points, all weights of linear predictors", "why_tests_cant": "Positivity away from the data, and optimality among all predictors, concern every point and every vector of weights.", "anchors": ["bayes_optim/surrogate/gaussian_process/gpr.py:GaussianProcess.predict", "bayes_optim/surrogate/gaussian_process/gpr.py:GaussianProcess.log_likelihood_concentrated", "bayes_optim/surrogate/gaussian_process/gpr.py:GaussianProcess._compute_aux_var"]}
{"id": "C281", "title": "The prior covariance of a set of points is a covariance matrix", "statement": "For the squared exponential, absolute exponential and Matern correlation prior_cov(X) is symmetric and positive semi-definite; it is positive definite if the points are pairwise different and the variance of a target is not zero.", "quantifier": "all sets of points, positive parameters, variances and numbers of targets", "why_tests_cant": "All sets of points and all vectors.", "anchors": ["bayes_optim/surrogate/gaussian_process/gpr.py:GaussianProcess.prior_cov"]}
{"id": "C282", "title": "With noise an uncertainty remains at the data", "statement": "If the observations have noise, the variance that predict reports at an observed point is the mean squared error of the best linear predictor there, which is positive.", "quantifier": "all training data, noise variances, positive parameters, new points", "why_tests_cant": "All data and parameters; a test at a few points does not show what happens at every data point of every fit.", "anchors": ["bayes_optim/surrogate/gaussian_process/gpr.py:GaussianProcess.predict", "bayes_optim/surrogate/gaussian_process/gpr.py:GaussianProcess.log_likelihood_concentrated"]}
{"id": "C283", "title": "The evolution strategy can reach every point of the search space", "statement": "From any point of a search space one mutation of the mixed-integer evolution strategy can produce any other point of the space, rounded to the precisions of the real variables. So a run that is not stopped before its first generation may evaluate any point, whatever its initial population.", "quantifier": "all search spaces with proper variables of all types, all pairs of points, initial populations, objectives and stopping rules", "why_tests_cant": "That no value of any variable is out of reach concerns every pair of points; a test only sees the offspring that were drawn.", "anchors": ["bayes_optim/acquisition/optim/mies.py:MIES.mutate", "bayes_optim/acquisition/optim/mies.py:MIES._mutate_r", "bayes_optim/acquisition/optim/mies.py:MIES._mutate_i", "bayes_optim/acquisition/optim/mies.py:MIES._mutate_d", "bayes_optim/acquisition/optim/mies.py:MIES.optimize"]}
{"id": "C284", "title": "The cells of a box decomposition measure what an outcome adds to the hypervolume", "statement": "For every outcome, the total volume of the parts of the hypercells that lie below the outcome is the increase of the hypervolume when the outcome is added to those given so far; for the fast partitioning also the difference of compute_hypervolume after and before an update with the outcome.", "quantifier": "every reference point, every history of batches of outcomes (ties, duplicates, dominated outcomes, outcomes below the reference, empty batches), every outcome, in any position relative to the reference and to the front, every grid the measure is computed on", "why_tests_cant": "A cell that is missing, overlaps another one or ends at the wrong value only shows for outcomes that fall into it; there are infinitely many outcomes and configurations of fronts.", "anchors": ["bayes_optim/utils/multi_objective/box_decompositions/non_dominated.py:FastNondominatedPartitioning", "bayes_optim/utils/multi_objective/box_decompositions/non_dominated.py:NondominatedPartitioning.get_hypercell_bounds", "bayes_optim/utils/multi_objective/box_decompositions/box_decomposition.py:FastPartitioning.update"]}
{"id": "C285", "title": "EHVI is the expectation of the improvement of the hypervolume", "statement": "The value that EHVI returns for a prediction is the expectation, over independent normal outcomes with the predicted means and deviations, of a function of the outcome that equals the increase of the reported hypervolume when the decomposition is updated with the outcome, for all outcomes up to the cut that the code applies to infinite bounds; this function is never negative and grows with the outcome.", "quantifier": "every reference point with two or more objectives, every history of outcomes below the cut, every prediction (means and variances of any size), every outcome below the cut", "why_tests_cant": "The value is an integral over all outcomes of a quantity that depends on the whole decomposition; tests compare a few values with sampled estimates.", "anchors": ["bayes_optim/multi_objective/analytic.py:EHVI.forward", "bayes_optim/multi_objective/analytic.py:EHVI.psi", "bayes_optim/multi_objective/analytic.py:EHVI.nu", "bayes_optim/multi_objective/analytic.py:EHVI.__init__", "bayes_optim/utils/multi_objective/box_decompositions/non_dominated.py:FastNondominatedPartitioning"]}
{"id": "C286", "title": "Updating the fast partitioning with two objectives", "statement": "With two objectives, after construction and any number of further updates of the fast partitioning, the hypercells partition the region above the reference that no outcome given so far dominates, compute_hypervolume is the measure of the dominated region, the parts of the cells below an outcome add up to the increase of the hypervolume by an update with it, and EHVI over these cells is the expectation of this increase.", "quantifier": "every reference point, every first batch and list of further batches (ties, duplicates, dominated outcomes, outcomes below the reference, empty batches), every outcome, every prediction, every stable or unstable sort", "why_tests_cant": "Cells are recomputed only when the sorted front differs from the last one; a stale decomposition needs a particular history of updates.", "anchors": ["bayes_optim/utils/multi_objective/box_decompositions/box_decomposition.py:FastPartitioning.update", "bayes_optim/utils/multi_objective/box_decompositions/box_decomposition.py:BoxDecomposition.reset", "bayes_optim/utils/multi_objective/box_decompositions/non_dominated.py:FastNondominatedPartitioning._partition_space_2d", "bayes_optim/utils/multi_objective/box_decompositions/non_dominated.py:FastNondominatedPartitioning.compute_hypervolume", "bayes_optim/multi_objective/analytic.py:EHVI.forward"]}
{"id": "C287", "title": "The expected hypervolume improvement is positive while an improvement is possible", "statement": "If some outcome below the cut at which upper bounds are clamped would be above the reference and not dominated by the outcomes given so far, then EHVI over the cells of the fast partitioning is positive at every prediction, however bad its mean and however small its variance.", "quantifier": "every number of objectives from two on, every reference point and history of batches below the cut, every prediction of as many means and variances, given an improving outcome below the cut", "why_tests_cant": "A test samples predictions; a cell lost by an update, or a clamped variance or bound that cancels a side, would give zero at particular ones.", "anchors": ["bayes_optim/multi_objective/analytic.py:EHVI.forward", "bayes_optim/multi_objective/analytic.py:EHVI.psi", "bayes_optim/multi_objective/analytic.py:EHVI.nu", "bayes_optim/utils/multi_objective/box_decompositions/box_decomposition.py:FastPartitioning.update", "bayes_optim/utils/multi_objective/box_decompositions/non_dominated.py:FastNondominatedPartitioning.get_hypercell_bounds"]}
{"id": "C288", "title": "The expected hypervolume improvement depends on the outcomes only and falls as outcomes are added", "statement": "EHVI over the cells of a decomposition has the same value whichever partitioning class is used and however the same outcomes were split into batches, ordered and repeated. If every outcome of one history is matched or dominated by an outcome of another, the value of the other is not larger at any prediction; in particular a further update never increases it.", "quantifier": "every number of objectives from two on, every reference point, every two histories of batches of outcomes below the cut, each class, every prediction of as many means and variances", "why_tests_cant": "The classes cut the same region into different numbers of cells with different bounds; agreement on examples does not show that every pair of decompositions weighs every region alike.", "anchors": ["bayes_optim/multi_objective/analytic.py:EHVI.forward", "bayes_optim/mobo.py:MOBO._create_acquisition", "bayes_optim/utils/multi_objective/box_decompositions/box_decomposition.py:FastPartitioning.update", "bayes_optim/utils/multi_objective/box_decompositions/box_decomposition.py:BoxDecomposition.update", "bayes_optim/utils/multi_objective/box_decompositions/non_dominated.py:NondominatedPartitioning.get_hypercell_bounds"]}
{"id": "C289", "title": "The acquisition function of the multi-objective optimizer is defined, positive and independent of units", "statement": "Whatever finite objective values have been observed, the acquisition function that MOBO builds is defined and positive at every prediction, and it is the expectation of the increase of the hypervolume of the scaled observations. It does not change, for the same predictions of the scaled values, if every objective is multiplied by a positive factor and shifted.", "quantifier": "every number of objectives from two on, every combination of minimised and maximised objectives, every non-empty set of observations (ties, duplicates, constant objectives), every prediction, every cut of at least 2, every positive factor and shift per objective", "why_tests_cant": "Scaling, single precision, reference point and decomposition interact; a test fixes a few data sets and units.", "anchors": ["bayes_optim/mobo.py:MOBO._create_acquisition", "bayes_optim/mobo.py:BaseMOBO.y", "bayes_optim/mobo.py:BaseMOBO.ref_point", "bayes_optim/multi_objective/analytic.py:EHVI.forward", "bayes_optim/utils/multi_objective/box_decompositions/non_dominated.py:NondominatedPartitioning.get_hypercell_bounds"]}
{"id": "C290", "title": "Minimising an objective and maximising its negative are the same", "statement": "If all objectives are negated and their minimize flags flipped, the multi-objective optimizer recommends the same observations and counts the same outcomes as improvements.", "quantifier": "every number of objectives, every combination of flags, every set of observations and every outcome", "why_tests_cant": "The directions differ in the scaled range and with it in the reference point; results look plausible in both directions, and only comparing all outcomes shows that the regions differ.", "anchors": ["bayes_optim/mobo.py:BaseMOBO.ref_point", "bayes_optim/mobo.py:BaseMOBO.y", "bayes_optim/mobo.py:BaseMOBO.xopt", "bayes_optim/mobo.py:MOBO._create_acquisition"]}
{"id": "C291", "title": "A positive threshold only lowers the expected hypervolume improvement", "statement": "For every threshold alpha of the binary partitioning, EHVI over its cells is defined, never negative and never larger than EHVI over the cells of an exact decomposition (alpha zero, or the fast class) of the same outcomes, at any prediction.", "quantifier": "every number of objectives, every reference point, every history of batches below the cut, every threshold, every prediction of as many means and variances", "why_tests_cant": "Which boxes are left out depends on their relative volume at the time they are visited; a wrongly kept or doubled box would only show at particular thresholds and fronts.", "anchors": ["bayes_optim/multi_objective/analytic.py:EHVI.forward", "bayes_optim/utils/multi_objective/box_decompositions/non_dominated.py:NondominatedPartitioning._partition_space", "bayes_optim/utils/multi_objective/box_decompositions/non_dominated.py:NondominatedPartitioning.get_hypercell_bounds"]}
{"id": "C292", "title": "Raising the threshold of the partitioning never raises the expected hypervolume improvement", "statement": "For thresholds alpha <= beta of the binary partitioning, the same history of updates gives, at beta, the cells at alpha with some left out and none changed, and EHVI over the cells at beta is never larger than EHVI over the cells at alpha, at any prediction.", "quantifier": "every number of objectives, every reference point, every history of batches below the cut, every pair of ordered thresholds, every prediction of as many means and variances", "why_tests_cant": "The threshold acts inside the splitting loop, on cells that other splits produced; a test compares two thresholds on one front.", "anchors": ["bayes_optim/multi_objective/analytic.py:EHVI.forward", "bayes_optim/utils/multi_objective/box_decompositions/non_dominated.py:NondominatedPartitioning._partition_space", "bayes_optim/utils/multi_objective/box_decompositions/non_dominated.py:NondominatedPartitioning.get_hypercell_bounds"]}
