#!/usr/bin/env python3
"""Writes properties.jsonl from the table below (the table is the source of truth)."""
import json, os

P = []


def p(id, title, statement, quantifier, why, anchors):
    P.append(dict(id=id, title=title, statement=statement, quantifier=quantifier, why_tests_cant=why, anchors=anchors))


B = "bayes_optim/"
# ---------------------------------------------------------------- ask / tell / run
p("C01", "Evaluation accounting over a whole ask/tell history",
  "After any sequence of tell calls that return normally, eval_count equals the number of points told in non-warm-start calls (NaN and infinite ones included), and data holds exactly the told points whose value is finite, warm-start ones included, in the order they were told, with the values they were told with.",
  "every finite sequence of tell calls, every batch size, every mixture of finite/NaN/inf values and of warm-start flags",
  "The claim is about the accumulated effect of unboundedly many calls with arbitrary values; tests only replay a few short histories.",
  [B+"base.py:BaseBO.tell", B+"base.py:BaseBO.post_eval_check"])
p("C02", "History of best values is the running optimum",
  "hist_f has exactly one entry per completed non-warm tell, iter_count equals its length, each entry is the best fitness among all finite observations at that moment, and hence the sequence never gets worse (non-increasing when minimising, non-decreasing when maximising).",
  "every sequence of tell calls and both optimisation directions",
  "Monotonicity over arbitrary histories needs induction over the history.",
  [B+"base.py:BaseBO.tell", B+"_base.py:BaseOptimizer.xopt", B+"_base.py:BaseOptimizer._get_best"])
p("C03", "The recommendation is the first best observation",
  "After any history with at least one finite observation, the recommended solution is an observed point, no observed point has a strictly better value in the optimisation direction, and it is the earliest observation with that value.",
  "every reachable optimizer state, both optimisation directions",
  "Optimality over all rows of an arbitrary data set cannot be enumerated by tests.",
  [B+"_base.py:BaseOptimizer.xopt", B+"_base.py:BaseOptimizer.recommend"])
p("C04", "run terminates and respects the evaluation budget",
  "With a finite max_FEs, run never loops forever whatever the proposals and objective values are: after at most max_FEs iterations it returns or raises; when it returns because of the budget, eval_count is at least max_FEs and at most max_FEs - 1 plus the size of the last batch.",
  "every objective function, every sequence of proposed batches, every finite budget",
  "Termination for every objective and every sampler outcome is a universally quantified liveness claim.",
  [B+"_base.py:BaseOptimizer.run", B+"_base.py:BaseOptimizer.check_stop", B+"base.py:BaseBO.step", B+"base.py:BaseBO.ask"])
p("C05", "check_stop is sound with respect to the target",
  "When an ftarget is given and the budget is not exhausted, check_stop reports the target as reached exactly when the best value found is better than the target in the direction of optimisation; once it has reported stop, it keeps reporting stop.",
  "every optimizer state, every target, both optimisation directions",
  "The suite only runs a handful of minimisation targets.",
  [B+"_base.py:BaseOptimizer.check_stop", B+"_base.py:BaseOptimizer._compare"])
p("C06", "A tell that raises has no effect",
  "If tell raises an exception, the observable state of the optimizer (data, eval_count, iter_count, hist_f, recommendation) is what it was before the call.",
  "every state, every batch and every exception that tell can raise",
  "Atomicity is a claim about every failure point of every call.",
  [B+"base.py:BaseBO.tell", B+"base.py:BaseBO.update_model"])
p("C07", "Warm-start data is free and comes first",
  "Constructing an optimizer with warm data consumes no budget and no iteration, records no history entry, and makes the finite warm points the first rows of data; every later state keeps them as a prefix.",
  "every warm data set and every later history",
  "The prefix must survive arbitrary later histories.",
  [B+"base.py:BaseBO.warm_data", B+"base.py:BaseBO.tell"])
p("C08", "Per-point evaluation counters are exact",
  "Each row of data carries as n_eval the number of times this point was evaluated (told): a point told once has n_eval 1.",
  "every history and both evaluation modes (list and dict)",
  "Needs to hold for every row of every reachable data set in both modes.",
  [B+"base.py:BaseBO.tell", B+"base.py:BaseBO._to_geno", B+"solution.py:Solution.from_dict"])
p("C09", "Row labels identify observations",
  "In every reachable data set no two rows carry the same index label.",
  "every history produced by run or by ask/tell",
  "Uniqueness over unbounded histories.",
  [B+"base.py:BaseBO.ask", B+"base.py:BaseBO.tell", B+"base.py:BaseBO.step", B+"solution.py:Solution.__new__"])
# ---------------------------------------------------------------- proposals
p("C10", "ask returns between one and the requested number of points",
  "For n >= 1, ask(n) either raises the empty-proposal error or returns at least one and at most n points (n being the configured batch size, or the DoE size for the first call, when not given).",
  "every state, every n, every outcome of the samplers and of the acquisition optimisation",
  "Counts must hold for every random outcome.",
  [B+"base.py:BaseBO.ask", B+"base.py:BaseBO.create_DoE", B+"base.py:BaseBO.arg_max_acquisition"])
p("C11", "No proposal repeats an evaluated point",
  "No point returned by ask of the noiseless optimizers is a near-duplicate (real components within the isclose tolerance, integer and categorical components equal) of a point already in data.",
  "every data set and every sampler / acquisition outcome",
  "Must hold for every candidate set.",
  [B+"bayes_opt.py:BO.pre_eval_check", B+"base.py:BaseBO.ask", B+"base.py:BaseBO.create_DoE"])
p("C12", "Points of one batch are pairwise distinct",
  "The points returned by one ask call are pairwise distinct.",
  "every state and every sampler / acquisition outcome",
  "Random samplers repeat points with tiny probability; tests never see it.",
  [B+"base.py:BaseBO.ask", B+"base.py:BaseBO.create_DoE", B+"bayes_opt.py:BO.pre_eval_check"])
p("C13", "Fixed variables are honoured exactly",
  "Every point returned by ask(fixed=F) assigns to each variable named in F exactly the value given in F, and all other components come from the sampled sub-space in their original order.",
  "every search space, every assignment F, every sample",
  "Column placement must be right for every pattern of fixed variables.",
  [B+"base.py:BaseBO.create_DoE", B+"base.py:BaseBO.arg_max_acquisition", B+"utils/utils.py:fillin_fixed_value"])
p("C14", "Every proposed point lies in the search space",
  "Every point returned by ask without fixed values lies in the search space, given that the samplers and the inner optimizer produce points of the space.",
  "every space, every sampler outcome",
  "Rounding and fill-in are applied after sampling; their effect on membership must hold for all values.",
  [B+"base.py:BaseBO.create_DoE", B+"search_space/search_space.py:SearchSpace.round", B+"search_space/variable.py:Real.round"])
p("C15", "Batch evaluation keeps the order",
  "evaluate(X) returns at position i the objective value of X[i], whatever order the worker jobs finish in; for several objectives row i column k is objective k at X[i].",
  "every batch, every objective and every completion order of the jobs",
  "Completion orders are schedules; tests see few.",
  [B+"_base.py:BaseOptimizer.evaluate", B+"mobo.py:BaseMOBO.evaluate"])
p("C16", "A seed makes an optimizer reproducible",
  "Two optimizers constructed with the same random_seed and driven by the same calls draw the same random numbers and hence make the same proposals.",
  "every seed and every call sequence",
  "A hidden reseed from OS entropy shows up only on particular call paths.",
  [B+"search_space/search_space.py:SearchSpace.random_seed", B+"search_space/search_space.py:SearchSpace.__getitem__", B+"base.py:BaseBO.create_DoE"])
# ---------------------------------------------------------------- Pareto
p("C17", "is_pareto_efficient returns exactly the non-dominated points",
  "A point is kept iff no other point of the input is at least as good in all objectives and better in one (minimisation); of identical non-dominated points exactly the first is kept; mask and index forms agree.",
  "every finite set of points of any dimension",
  "All inputs of all sizes and ties.",
  [B+"utils/utils.py:is_pareto_efficient"])
p("C18", "fast_non_dominated_sort produces the dominance layers",
  "For at least one point, the fronts are disjoint, cover all points, contain no empty front, and front k is exactly the set of points not dominated by any point outside fronts 0..k-1.",
  "every finite multiset of points of any dimension, with ties and duplicates",
  "Layer structure for arbitrary inputs needs induction.",
  [B+"utils/multi_objective/pareto.py:fast_non_dominated_sort"])
p("C19", "non_dominated_set_2d returns the non-dominated points and leaves its input alone",
  "The function returns exactly the points of the input that no other point dominates, and the caller's array is unchanged afterwards.",
  "every finite set of 2-D points",
  "Ties in one coordinate are rarely generated by random tests.",
  [B+"utils/multi_objective/pareto.py:non_dominated_set_2d"])
p("C20", "is_non_dominated marks exactly the maximal points",
  "For maximisation, row i is marked iff no row dominates it; with deduplicate=True of equal maximal rows only the first is marked, without it all of them.",
  "every finite matrix of any shape, ties and duplicates included",
  "All inputs of all sizes.",
  [B+"utils/multi_objective/pareto.py:is_non_dominated"])
p("C21", "Hypervolume equals the measure of the dominated region",
  "For every set of points and reference point, the computed hypervolume equals the measure of the union of the boxes between the points and the reference point; it does not depend on the order of the points, ignores points not better than the reference, and does not decrease when a point is added.",
  "every finite set of points, every reference point",
  "Measure of a union over arbitrary sets; random tests use tiny fronts.",
  [B+"utils/multi_objective/hypervolume.py:Hypervolume.compute", B+"utils/multi_objective/hypervolume.py:Hypervolume._hv_recursive"])
p("C22", "Two-objective box decomposition partitions the non-dominated region",
  "The cells computed for a two-objective front are pairwise disjoint and a point strictly better than the reference lies in some cell iff no front point dominates it.",
  "every front, every reference point, every query point",
  "A covering claim about a continuum of query points.",
  [B+"utils/multi_objective/box_decompositions/utils.py:compute_non_dominated_hypercell_bounds_2d", B+"utils/multi_objective/box_decompositions/utils.py:compute_dominated_hypercell_bounds_2d"])
p("C23", "Binary partitioning terminates and covers the non-dominated region",
  "The binary partitioning of the non-dominated space for any number of objectives terminates, its cells are pairwise disjoint, contain no dominated point in their interior and cover all non-dominated points better than the reference.",
  "every front of any size and dimension",
  "Termination and covering for all fronts.",
  [B+"utils/multi_objective/box_decompositions/non_dominated.py:NondominatedPartitioning._partition_space"])
p("C24", "The multi-objective recommendation is the non-dominated subset of data",
  "recommend of the multi-objective optimizer returns exactly the observed points that no other observed point dominates in the user's minimise/maximise orientation of each objective; rescaling the objectives to the unit interval does not change that set.",
  "every data set, every orientation vector",
  "All data sets with ties and constant objectives.",
  [B+"mobo.py:BaseMOBO.xopt", B+"mobo.py:BaseMOBO.y"])
p("C25", "The default reference point is dominated by all observations",
  "The reference point used for the hypervolume-based acquisition is no better than any observation in any objective, so that every observation contributes.",
  "every data set, both orientations",
  "All data sets.",
  [B+"mobo.py:BaseMOBO.ref_point"])
p("C26", "Multi-objective evaluation accounting",
  "After any sequence of tell calls the evaluation counter equals the number of objective-function evaluations told (points times objectives) outside warm-start calls, and data holds the told points in order.",
  "every sequence of tell calls and every number of objectives",
  "Unbounded histories.",
  [B+"mobo.py:BaseMOBO.tell"])
# ---------------------------------------------------------------- constraints / box
p("C27", "Box repair lands in the box and leaves feasible points alone",
  "handle_box_constraint maps every vector into [lb, ub] componentwise, returns points already inside unchanged, is idempotent, and leaves components with an infinite bound untouched; reflecting distances are preserved modulo the box width.",
  "every real vector and all bounds lb < ub, finite or not",
  "Continuum of inputs; off-by-one in the parity of the number of reflections is seldom hit.",
  [B+"utils/utils.py:handle_box_constraint", B+"surrogate/gaussian_process/boundary_handling.py:boundary_handling"])
p("C28", "The dynamic penalty is zero exactly on feasible points",
  "dynamic_penalty is zero iff every equality residual is within the tolerance and every inequality value is <= 0, strictly positive otherwise when minimising (strictly negative when maximising), grows with t, and never rewards a larger violation.",
  "every vector of constraint values, every t >= 1 and positive parameters",
  "Continuum of inputs.",
  [B+"utils/utils.py:dynamic_penalty"])
p("C29", "argmax_restart returns the best feasible restart result",
  "The returned pair is the outcome of one of the restarts, satisfies the constraints within tolerance, and no feasible restart outcome has a larger value; it is empty iff no restart was feasible; at most n_restart restarts are made, and it stops once the budget is used or wait_iter consecutive restarts bring no improvement.",
  "every sequence of inner-optimizer outcomes, every budget and restart limit",
  "All outcome sequences.",
  [B+"acquisition/optim/__init__.py:argmax_restart"])
p("C30", "MIES keeps every individual in the search space",
  "In every generation, every component of every individual is in its variable's domain (reals within bounds, integers within bounds, categorical values among the levels), for every random draw.",
  "every space, every random stream, every number of generations",
  "Random streams are infinite.",
  [B+"acquisition/optim/mies.py:MIES._mutate_r", B+"acquisition/optim/mies.py:MIES._mutate_i", B+"acquisition/optim/mies.py:MIES._mutate_d", B+"acquisition/optim/mies.py:MIES.recombine"])
p("C31", "MIES returns the best individual it has seen and respects its budget",
  "The fitness returned by MIES is never worse than that of any evaluated individual, its incumbent never gets worse from one generation to the next, and it evaluates at most max_eval plus one generation of points.",
  "every objective, every random stream, every budget",
  "All runs.",
  [B+"acquisition/optim/mies.py:MIES.optimize", B+"acquisition/optim/mies.py:MIES.select", B+"acquisition/optim/mies.py:MIES.stop"])
p("C32", "The (1+1)-CMA-ES incumbent is feasible-first and never worsens",
  "Once a feasible point was found the reported optimum is feasible, and its value never gets worse; proposed points always lie in the box; step size stays positive and the smoothed success rate stays in [0,1].",
  "every objective, every random stream, every number of iterations",
  "Invariants over unbounded runs.",
  [B+"acquisition/optim/one_plus_one_cma_es.py:OnePlusOne_CMA.tell", B+"acquisition/optim/one_plus_one_cma_es.py:OnePlusOne_CMA.ask"])
p("C33", "Rank-one Cholesky update is exact",
  "After each covariance update of the Cholesky variant, A times its transpose equals the rank-one updated covariance, and the stored inverse factor is the inverse of A, in every dimension.",
  "every dimension, every factor, every evolution path",
  "Matrix identity in all dimensions.",
  [B+"acquisition/optim/one_plus_one_cma_es.py:OnePlusOne_Cholesky_CMA._update_covariance"])
p("C34", "The Cholesky factor and its stored inverse stay consistent for ever",
  "In every reachable state of the Cholesky (1+1)-CMA-ES, including after restarts and numerical-error handling, the stored inverse factor is the inverse of the factor.",
  "every run including restarts and error handling",
  "Restart paths combine with arbitrary pasts.",
  [B+"acquisition/optim/one_plus_one_cma_es.py:OnePlusOne_CMA.restart", B+"acquisition/optim/one_plus_one_cma_es.py:OnePlusOne_CMA._handle_exception"])
p("C35", "At most n_restart restarts are performed",
  "The (1+1)-CMA-ES performs at most n_restart restarts and, once they are used up, the next stagnation criterion stops the run.",
  "every run",
  "Needs the interplay of counters over unbounded runs.",
  [B+"acquisition/optim/one_plus_one_cma_es.py:OnePlusOne_CMA.check_stop", B+"acquisition/optim/one_plus_one_cma_es.py:OnePlusOne_CMA.restart"])
p("C36", "Constrained sampling returns only feasible points of the space",
  "sample(N) under constraints returns at most N points, all within the domains of their variables and all satisfying the constraints within tolerance.",
  "every space, every constraint, every random stream",
  "Random streams are infinite.",
  [B+"search_space/search_space.py:SearchSpace.sample", B+"search_space/samplers.py:SCMC"])
# ---------------------------------------------------------------- variables
p("C37", "Scale transformations round-trip",
  "For every scale (linear, log, log10, logit, bilog) the inverse transformation undoes the transformation on its admissible range and vice versa, and both are strictly increasing, so bounds are mapped to bounds.",
  "every real number in the admissible range",
  "Continuum of inputs.",
  [B+"search_space/variable.py:TRANS", B+"search_space/variable.py:INV_TRANS"])
p("C38", "Rounding to a precision stays in bounds",
  "Real.round with a precision maps every value to within the bounds, is idempotent, is monotone, and moves a value that stays inside by at most half a unit of the last kept digit.",
  "every value, bounds and precision",
  "Continuum of inputs; boundary ties.",
  [B+"search_space/variable.py:Real.round"])
p("C39", "Integer variables sample exactly their grid",
  "Integer(lb, ub, step) samples only values lb + k*step within [lb, ub], every such value can be sampled, and membership accepts exactly those values.",
  "every lb <= ub, step >= 1, every draw",
  "All bounds and steps.",
  [B+"search_space/variable.py:Integer"])
p("C40", "Discrete and Subset levels are exactly the distinct choices",
  "A discrete variable keeps each given level once in first-occurrence order and samples only among them; a Subset variable enumerates every non-empty subset of its elements exactly once.",
  "every list of levels, every draw",
  "All lists.",
  [B+"search_space/variable.py:_Discrete", B+"search_space/variable.py:Subset"])
# ---------------------------------------------------------------- search space
p("C41", "Set-like operations on search spaces",
  "filter(keys) and its inverted form split the variables of a space into two complementary order-preserving sub-sequences; a - b keeps exactly the variables of a whose name is not in b; concatenation keeps all variables of both in order.",
  "every space and every key set",
  "All spaces.",
  [B+"search_space/search_space.py:SearchSpace.filter", B+"search_space/search_space.py:SearchSpace.__sub__", B+"search_space/search_space.py:SearchSpace.__add__"])
p("C42", "In-place replication agrees with replication",
  "For every N >= 1, `s *= N` leaves s with the same variables as `s * N`, namely N copies of the original ones (N * dim variables).",
  "every space and every N >= 1",
  "All N.",
  [B+"search_space/search_space.py:SearchSpace.__mul__", B+"search_space/search_space.py:SearchSpace.__imul__"])
p("C43", "Variable names are unique after construction",
  "After constructing a search space, all variable names are distinct.",
  "every list of variables",
  "All name patterns.",
  [B+"search_space/search_space.py:SearchSpace._check_data"])
p("C44", "Type indices partition the variables",
  "The index groups and masks by type (real, integer, discrete, ordinal, bool, subset) are disjoint and cover all positions; the categorical mask marks exactly the positions listed as categorical.",
  "every list of variables",
  "All type patterns.",
  [B+"search_space/search_space.py:SearchSpace._set_index"])
p("C45", "update has dictionary semantics",
  "a.update(b) replaces in place each variable of a that has the name of a variable of b, and appends the remaining variables of b in order.",
  "every pair of spaces",
  "All pairs.",
  [B+"search_space/search_space.py:SearchSpace.update"])
p("C46", "Building a combined space leaves its operands alone",
  "Evaluating a + b leaves the names and bounds of a and of b unchanged.",
  "every pair of spaces",
  "Aliasing shows up only for clashing names.",
  [B+"search_space/search_space.py:SearchSpace.__add__", B+"search_space/search_space.py:SearchSpace._check_data"])
p("C47", "Membership means a complete, admissible assignment",
  "x in space holds iff x gives one value per variable and each value is admissible for its variable.",
  "every space and every candidate list",
  "All candidates.",
  [B+"search_space/search_space.py:SearchSpace.__contains__"])
p("C48", "Equal variables have equal hashes",
  "Two variables or spaces that compare equal have the same hash, and equality is an equivalence relation.",
  "every pair of variables",
  "All pairs.",
  [B+"search_space/variable.py:Variable.__eq__", B+"search_space/variable.py:Real.__hash__"])
# ---------------------------------------------------------------- Node
p("C49", "Copying a condition tree yields an equal tree",
  "deepcopy of a condition tree returns a structurally equal tree; keep-only removal returns the tree restricted to the kept names with the whole sub-tree of a dropped node dropped.",
  "every tree",
  "All trees.",
  [B+"search_space/node.py:Node.deepcopy", B+"search_space/node.py:Node.remove"])
p("C50", "Condition trees survive the dictionary form",
  "from_dict(to_dict(t)) is t again for every tree with distinct node names.",
  "every tree",
  "All shapes and depths.",
  [B+"search_space/node.py:Node.from_dict", B+"search_space/node.py:Node.to_dict"])
p("C51", "Unconditional sub-spaces enumerate the active variable sets",
  "The sub-spaces produced for a conditional space contain, for each combination of branch outcomes of the root variables, exactly the variables that are active under that combination, each combination once.",
  "every forest of condition trees",
  "All shapes.",
  [B+"search_space/search_space.py:SearchSpace.get_unconditional_subspace", B+"search_space/node.py:Node.get_all_path"])
# ---------------------------------------------------------------- Solution
p("C52", "Row selection keeps values and attributes together",
  "For every valid row index i (negative ones counted from the end, as Python users expect) s[i] carries the values, fitness, n_eval and label of that row; slices carry those of all their rows.",
  "every solution set and every valid index or slice",
  "All sizes and indices.",
  [B+"solution.py:Solution.__getitem__"])
p("C53", "Concatenating solution sets concatenates all attributes",
  "a + b has the rows of a followed by those of b with their fitness, n_eval and labels; later writes to the sum do not change a or b, and it raises when the shapes or variable names are incompatible.",
  "every pair of solution sets",
  "All shapes.",
  [B+"solution.py:Solution.__add__"])
p("C54", "Writing an attribute through a slice updates the parent row and no other",
  "Assigning the fitness or n_eval of a sliced solution changes exactly the corresponding rows of the solution set it was sliced from.",
  "every solution set, every slice, every sequence of writes",
  "Aliasing over arbitrary write sequences.",
  [B+"solution.py:Solution.__setattr__", B+"solution.py:Solution.__getitem__"])
p("C55", "Dictionary form of solutions is lossless and independent of key order",
  "from_dict(to_dict(s)) has the values of s, and from_dict places each value in the column of its variable whatever the order of keys in each dictionary.",
  "every list of dictionaries over the same keys",
  "All key orders.",
  [B+"solution.py:Solution.from_dict", B+"solution.py:Solution.to_dict"])
p("C56", "unique keeps the first occurrence of every row",
  "unique returns each distinct row once, in first-occurrence order, with its attributes.",
  "every solution set",
  "All duplicates patterns.",
  [B+"solution.py:Solution.unique"])
# ---------------------------------------------------------------- acquisition
p("C57", "Acquisition gradients are the derivatives of the acquisition values",
  "For EI, epsilon-PI, UCB and MGFI the returned gradient is the derivative of the returned value with respect to the point, given the surrogate's derivatives, wherever the point is not exactly on a cut-off of the deviation, on a sign change of the prediction (epsilon-PI) or on the overflow bound (MGFI).",
  "every point where the surrogate is differentiable and its standard deviation is positive",
  "Continuum of points; finite-difference tests are approximate.",
  [B+"acquisition/acquisition_fun.py:UCB", B+"acquisition/acquisition_fun.py:EI", B+"acquisition/acquisition_fun.py:EpsilonPI", B+"acquisition/acquisition_fun.py:MGFI"])
p("C58", "Acquisition values favour better predicted means",
  "With equal uncertainty, a point with a better predicted mean has an EI or epsilon-PI (epsilon at most one) value at least as large, in both optimisation directions.",
  "every pair of predictions",
  "Continuum.",
  [B+"acquisition/acquisition_fun.py:UCB", B+"acquisition/acquisition_fun.py:EI", B+"acquisition/acquisition_fun.py:EpsilonPI", B+"acquisition/acquisition_fun.py:MGFI"])
p("C59", "Every advertised acquisition function can be used",
  "Each acquisition class exported by the package can be constructed with its default arguments.",
  "every exported class",
  "Defaults interact with validation.",
  [B+"acquisition/acquisition_fun.py:PI", B+"acquisition/acquisition_fun.py:EpsilonPI"])
p("C60", "EHVI cell formula",
  "The expected hypervolume improvement returned equals the sum over cells of the product over objectives of the one-dimensional expected improvements.",
  "every number of objectives and of cells",
  "Needs induction on the number of objectives.",
  [B+"multi_objective/analytic.py:EHVI.forward"])
# ---------------------------------------------------------------- surrogate
p("C61", "Noiseless Gaussian-process predictions interpolate",
  "In noiseless mode the prediction at each training input equals the observed value and the predictive variance there is zero, for simple and for universal kriging.",
  "every training set with invertible correlation matrix, any dimension and trend",
  "Exact identity for all matrices.",
  [B+"surrogate/gaussian_process/gpr.py:GaussianProcess.predict", B+"surrogate/gaussian_process/gpr.py:GaussianProcess._compute_aux_var", B+"surrogate/gaussian_process/gpr.py:GaussianProcess.compute_beta_gamma"])
p("C62", "The correlation matrix is the pairwise kernel matrix",
  "The assembled correlation matrix is symmetric with unit diagonal and its (i,j) entry is the kernel of the componentwise distances of inputs i and j; all built-in kernels take values in (0,1] (cubic: [0,1]) and are 1 at distance zero.",
  "every training set and kernel parameter",
  "Index bookkeeping for all sizes.",
  [B+"surrogate/gaussian_process/gpr.py:l1_cross_distances", B+"surrogate/gaussian_process/gpr.py:GaussianProcess.correlation_matrix", B+"surrogate/gaussian_process/kernel.py"])
p("C63", "Kernel gradients are the derivatives of the kernels",
  "The gradient of the correlation with respect to the query point is the derivative of the correlation, for every built-in kernel that offers one.",
  "every query point, training point and parameter",
  "Continuum.",
  [B+"surrogate/gaussian_process/gpr.py:GaussianProcess.corr_dx"])
p("C64", "Hyper-parameter search keeps the best restart and terminates",
  "With the BFGS optimizer the hyper-parameters used after fitting are those of the restart with the best likelihood, at least one and at most random_start restarts are made, none is started after the evaluation budget has been used up, and the search stops early only for that reason or after wait_iter consecutive restarts that are worse than the best one.",
  "every sequence of inner-optimizer results",
  "All outcome sequences.",
  [B+"surrogate/gaussian_process/gpr.py:GaussianProcess._optimize_hyperparameter"])
# ---------------------------------------------------------------- checkpoint etc.
p("C65", "Checkpoints are crash safe",
  "If the process dies at any point during save, the checkpoint file holds a complete old or a complete new checkpoint.",
  "every crash point",
  "Crash points are schedules.",
  [B+"base.py:BaseBO.save"])
p("C66", "Saving does not change the optimizer and loading restores it",
  "After save returns the optimizer in memory is as before; load of a completely written file yields an optimizer with the same data, counters and history.",
  "every state of the optimizer and every behaviour of the file system",
  "All states; the pickled object is rewritten while it is saved.",
  [B+"base.py:BaseBO.save", B+"base.py:BaseBO.load"])
p("C67", "Logger configuration survives save and load",
  "Dumping a logger and loading it in a new process yields the same set of handlers.",
  "every handler configuration",
  "Handler class hierarchy interactions.",
  [B+"utils/logger.py:get_logger", B+"utils/logger.py:dump_logger", B+"utils/logger.py:load_logger"])
p("C68", "The exponential annealing schedule stays within its end points",
  "Under the exponential schedule the acquisition parameter starts at t0, never rises, is positive after any number of steps, is at least tf within the planned number of iterations and exactly tf at the end of the plan; in terms of the budget: as long as the evaluations made do not exceed max_FEs, and when they reach it.",
  "every t0 >= tf > 0, every number of iterations, budget, size of the initial design and of the batch",
  "Real sequences of arbitrary length.",
  [B+"bayes_opt.py:AnnealingBO"])
p("C69", "Optimizer instances do not influence each other",
  "Running one optimizer does not change the acquisition parameters of another optimizer.",
  "every interleaving of runs of several optimizers",
  "Interleavings.",
  [B+"bayes_opt.py:ParallelBO", B+"bayes_opt.py:AnnealingBO"])
p("C70", "Conditional optimizer proposes complete assignments",
  "Each point proposed by the conditional optimizer has every variable of the space as key, with the values of its sub-space for active variables, the conditioning values for conditioning variables and None exactly for inactive variables.",
  "every conditional space and every proposal of a sub-space",
  "All spaces and values; sets are enumerated in an arbitrary order.",
  [B+"extension.py:ConditionalBO.ask", B+"extension.py:ConditionalBO.tell"])
p("C71", "PCA bounds enclose the projected search box",
  "Every point of the original box is mapped by the PCA projection into the box that is searched in the reduced space.",
  "every box, every orthonormal projection, every dimension",
  "Continuum.",
  [B+"extension.py:PCABO._compute_bounds"])
p("C72", "fmin returns the complete history",
  "The history returned by fmin contains every evaluated point in order, the initial design first.",
  "every run",
  "All runs.",
  [B+"__init__.py:fmin"])
p("C73", "At most one daemon runs",
  "Calls of start and stop that do not overlap never lead to two live daemons: a live daemon is always recorded in the pid file and start refuses while it lives.",
  "every sequence of start/stop/crash events",
  "Schedules of processes.",
  [B+"utils/_daemon.py:Daemon"])
p("C74", "One-hot encoding distinguishes points",
  "Two points of the space receive the same encoding iff they are equal, the width of the encoding is the number of non-categorical variables plus the total number of levels, and each categorical block contains exactly one 1.",
  "every space and every pair of points",
  "All spaces.",
  [B+"surrogate/random_forest.py:RandomForest._check_X"])
p("C75", "Wrapped objective functions see every variable at its place",
  "A criterion or constraint function that is wrapped for fixed variables and called with one point is called once, with the full point in which fixed variables have their fixed values and free variables their proposed values; the same completion is applied to the proposals themselves.",
  "every mask, fixed assignment and input",
  "All masks.",
  [B+"utils/utils.py:partial_argument", B+"utils/utils.py:func_with_list_arg", B+"utils/utils.py:fillin_fixed_value"])
p("C76", "Proportional selection without replacement returns distinct indices",
  "Whenever proportional_selection without replacement returns, it returns exactly N indices, in range and pairwise distinct.",
  "every performance vector, every N, every random stream",
  "Random streams and ties.",
  [B+"utils/utils.py:proportional_selection"])
p("C77", "Rank weights are non-negative, decreasing in rank and normalised",
  "The weights used by the PCA transformation are non-negative, sum to one, a better objective value gets a larger weight and equal values get equal weights.",
  "every vector of at least two objective values, for minimisation and maximisation",
  "All vectors.",
  [B+"extension.py:LinearTransform"])
p("C78", "Polynomial trends have the advertised basis size",
  "The quadratic trend has (n+1)(n+2)/2 basis functions, the linear one n+1, the constant one 1; the quadratic basis consists of the constant, the variables and their pairwise products; the Jacobians of the constant and the linear trend are the derivatives of the trend (the quadratic one has none).",
  "every input dimension",
  "All dimensions.",
  [B+"surrogate/gaussian_process/trend.py"])
p("C79", "Multi-acquisition optimizer alternates its criteria",
  "In a batch of n points the acquisition functions are used round-robin, so their usage counts differ by at most one.",
  "every batch size",
  "All sizes.",
  [B+"extension.py:MultiAcquisitionBO"])
p("C80", "Search-space dictionaries round-trip",
  "from_dict applied to the dictionary form of a space gives an equal space.",
  "every space",
  "All spaces.",
  [B+"search_space/search_space.py:SearchSpace.to_dict", B+"search_space/search_space.py:SearchSpace.from_dict"])

p("C81", "recommend without observations raises the documented error",
  "Whenever no finite observation has been told, whatever tell calls were made (including ones that raised), recommend raises the recommendation-unavailable error.",
  "every history of tell calls, raising ones included, without a finite value",
  "All histories.",
  [B+"_base.py:BaseOptimizer.recommend", B+"_base.py:BaseOptimizer.xopt"])
p("C82", "Warm data is accepted in both evaluation modes",
  "Constructing an optimizer with non-empty warm data of matching lengths, admissible types and at least one finite value succeeds in list mode and in dict mode.",
  "every warm data set, both evaluation modes",
  "All data sets and both modes.",
  [B+"base.py:BaseBO.warm_data", B+"base.py:BaseBO._set_aux_vars", B+"solution.py:Solution.from_dict"])

p("C83", "Successive samples of a space are fresh",
  "Two successive calls of sample on a space use successive random numbers, so that sampling again can produce other points than before.",
  "every space, every seed and every random stream",
  "A claim about all seeds and streams.",
  [B+"search_space/search_space.py:SearchSpace._sample", B+"search_space/search_space.py:SearchSpace.random_seed", B+"search_space/search_space.py:SearchSpace.__getitem__"])

p("C84", "Bounds of a real variable survive its scale",
  "A constructed Real variable has lb < ub, both inside the working range of its scale, and accepts only values between the bounds it was given; bounds inside the range are kept; construction fails unless lb < ub.",
  "every pair of bounds and every scale",
  "The clipping rules interact with the order of the bounds; the failing cases are on the edge of the range.",
  [B+"search_space/variable.py:Real", B+"search_space/variable.py:TRANS"])
p("C85", "from_dict reads the documented format",
  "SearchSpace.from_dict builds, for each item of a dictionary in the documented format and in order, N variables of the given type, range, precision, scale, step and default value.",
  "every dictionary in the documented format",
  "All dictionaries: combinations of types, repetitions and optional keys.",
  [B+"search_space/search_space.py:SearchSpace.from_dict"])
p("C86", "Selecting and removing by name are exact",
  "Indexing a space with a list of distinct names gives exactly these variables in that order and raises if a name is unknown; removing a name removes that variable only, keeps the order of the others and raises if the name is unknown. The given space is not renamed.",
  "every space with distinct names and every list of names",
  "All spaces and name lists.",
  [B+"search_space/search_space.py:SearchSpace.__getitem__", B+"search_space/search_space.py:SearchSpace.remove"])

p("C87", "Labels assigned to a solution set are stored in full",
  "After assigning a list of strings to Solution.index, reading Solution.index returns exactly these strings.",
  "every solution set and every list of as many strings as it has rows",
  "Labels live in a fixed-width numpy string array whose width depends on the labels given at construction; a test uses short labels.",
  [B+"solution.py:Solution.__setattr__", B+"solution.py:Solution.__new__"])

p("C88", "to_dict(with_index=True) keeps every row",
  "Solution.to_dict(with_index=True) contains, for every row of the set, an entry with the values of that row.",
  "every solution set, including the accumulated data of a run, whose labels may repeat",
  "Whether two rows share a label depends on how the set was put together.",
  [B+"solution.py:Solution.to_dict"])

p("C89", "A constructed solution set has one fitness, n_eval and label per row",
  "Every successful Solution(...) call returns a set with exactly one objective vector, one n_eval entry and one label for each of its rows; arguments whose length does not match are rejected.",
  "every combination of the constructor's arguments",
  "The arguments can be scalars, lists and nested lists of any length, so the combinations cannot be enumerated.",
  [B+"solution.py:Solution.__new__"])

p("C90", "MIES respects the step of Integer variables",
  "Every individual MIES evaluates has, in each Integer component, one of the values lb, lb + step, lb + 2 step, ... of the variable.",
  "every space with Integer variables, every random stream, every number of generations",
  "Which integers a mutation reaches depends on the random stream.",
  [B+"acquisition/optim/mies.py:MIES._mutate_i", B+"search_space/variable.py:Integer"])
p("C91", "MIES can be started from a given point",
  "Constructing MIES with an initial point x0 of the space succeeds.",
  "every space and every point",
  "All spaces and points; no test passes x0.",
  [B+"acquisition/optim/mies.py:MIES.__init__", B+"acquisition/optim/mies.py:MIES.evaluate"])
p("C92", 'The (1+1)-CMA-ES keeps to its evaluation budget',
  'With max_FEs = m the optimizer evaluates the objective at most m times, and the run ends.',
  'every configuration with a budget, every objective, constraint, random stream and number of restarts',
  'The count depends on when restarts happen, which depends on the values and the random stream.',
  [B+'acquisition/optim/one_plus_one_cma_es.py:OnePlusOne_CMA.check_stop', B+'acquisition/optim/one_plus_one_cma_es.py:OnePlusOne_CMA.restart', B+'acquisition/optim/one_plus_one_cma_es.py:OnePlusOne_CMA.step', B+'acquisition/optim/one_plus_one_cma_es.py:OnePlusOne_CMA.run'])
p("C93", 'Restarts of the acquisition maximisation with the (1+1)-CMA-ES are independent trials',
  'When argmax_restart uses OnePlusOne_Cholesky_CMA, its restarts use different parts of the random stream, so a later restart can find something an earlier one with the same budget did not.',
  'every state of the random generator and every number of restarts',
  'It concerns every state of the generator; a test sees only that some result comes back.',
  [B+'acquisition/optim/__init__.py:argmax_restart', B+'acquisition/optim/one_plus_one_cma_es.py:OnePlusOne_CMA.random_seed'])
p("C94", 'Constrained samples keep to the precision and the step of the variables',
  'sample(N) under constraints only returns points whose Integer components lie on the grid of their variable and whose real components are rounded to its precision, as unconstrained sampling does.',
  'every space with a step or a precision, every constraint, every random stream',
  'Random streams are infinite; the proposals leave the grid only after some accepted moves.',
  [B+'search_space/search_space.py:SearchSpace.sample', B+'search_space/samplers.py:SCMC._rproposal_integer', B+'search_space/samplers.py:SCMC._rproposal_real'])
p("C95", 'Multi-objective evaluation returns one row of all objectives per point',
  'evaluate of the multi-objective optimizer returns, for each point, the values of all objective functions at that point in the order of the functions, and calls each function exactly once per point.',
  'every list of objective functions and of points',
  'All lists of functions and points.',
  [B+'mobo.py:BaseMOBO.evaluate'])
p("C96", 'Updating a box decomposition keeps it a partition for all outcomes',
  'After constructing a NondominatedPartitioning and any sequence of update() calls, the hypercell bounds partition the region above the reference point that none of the outcomes given so far dominates, including when an update leaves the Pareto front unchanged and the cells are kept.',
  'every number of objectives, every sequence of update batches, every reference point',
  'An invariant over arbitrary histories and a continuum of query points.',
  [B+'utils/multi_objective/box_decompositions/box_decomposition.py:BoxDecomposition.update', B+'utils/multi_objective/box_decompositions/box_decomposition.py:BoxDecomposition.reset', B+'utils/multi_objective/box_decompositions/non_dominated.py:NondominatedPartitioning.get_hypercell_bounds'])
p("C97", 'An interrupted save is never mistaken for something else',
  'The file left behind by a save that was interrupted at any point is the old checkpoint, or the complete new one, or load refuses it.',
  'every crash point and every failure of the pickler',
  'Crash points are schedules.',
  [B+'base.py:BaseBO.save', B+'base.py:BaseBO.load'])
p("C98", 'A failed save leaves the optimizer unchanged',
  'If save raises, the optimizer in memory is as it was before the call and can be used and saved again.',
  'every failure point of save',
  'Failure points.',
  [B+'base.py:BaseBO.save'])
p("C99", 'Loading a logger where it is in use changes nothing',
  'Loading a dumped logger in a process in which that logger exists keeps its handlers, whatever they are.',
  'every handler configuration',
  'All configurations.',
  [B+'utils/logger.py:get_logger', B+'utils/logger.py:dump_logger', B+'utils/logger.py:load_logger'])
p("C100", 'stop ends the daemon',
  'stop of a live daemon ends that process and no other, removes the pid file and returns.',
  'every reachable state of the process table and the pid file',
  'Schedules of processes.',
  [B+'utils/_daemon.py:Daemon'])
p("C101", 'Overlapping starts give one daemon',
  'Two callers that start the daemon at the same time do not end up with two daemons.',
  'every interleaving of two starts',
  'Interleavings.',
  [B+'utils/_daemon.py:Daemon'])
p("C102", 'The linear annealing schedule keeps to its plan',
  'Under the linear schedule the acquisition parameter starts at t0, never rises, is at least tf within the planned number of iterations and equals tf at its end.',
  'every t0 >= tf > 0, every plan, every number of steps',
  'Real sequences of arbitrary length.',
  [B+'bayes_opt.py:AnnealingBO'])
p("C103", 'The annealed parameter stays positive',
  'Whatever the schedule, the acquisition parameter stays positive however long the optimizer is used.',
  'every schedule, plan and number of steps',
  'Unbounded runs.',
  [B+'bayes_opt.py:AnnealingBO'])
p("C104", 'The logarithmic annealing schedule goes from t0 to tf',
  'Under the logarithmic schedule the acquisition parameter moves monotonically from t0 towards tf and is not below tf within the planned number of iterations.',
  'every t0 >= tf > 0, every plan, every number of steps',
  'Real sequences of arbitrary length.',
  [B+'bayes_opt.py:AnnealingBO'])
p("C105", 'Conditional optimizer passes observations on completely',
  'Telling a proposed point back stores it in the model of its sub-space with exactly the values that were proposed there.',
  'every conditional space and every proposed value',
  'All values, in particular falsy ones.',
  [B+'extension.py:ConditionalBO.ask', B+'extension.py:ConditionalBO.tell'])
p("C106", 'Conditional optimizer stores observations under their names',
  'In the data of the conditional optimizer every value of an observation stands in the column of its variable.',
  'every batch of points from any sub-spaces',
  'All batches and key orders.',
  [B+'extension.py:ConditionalBO.tell', B+'solution.py:Solution.from_dict'])
p("C107", 'Every sub-space is explored in the first round',
  'The first proposals of the conditional optimizer visit each sub-space exactly once, in order, however they are distributed over calls of ask; later ones are valid sub-spaces.',
  'every sequence of ask calls and all random choices',
  'All call sequences.',
  [B+'extension.py:ConditionalBO.ask'])
p("C108", 'Wrapped functions accept several points',
  'A criterion or constraint function that is wrapped for fixed variables and called with a matrix of points is called with the full points, one per row.',
  'every mask, fixed assignment and matrix',
  'All shapes.',
  [B+'utils/utils.py:partial_argument'])
p("C109", 'Gradients are reduced to the free variables',
  'The gradient of a criterion wrapped for fixed variables has exactly the components of the free variables, in order, whether it is a vector, a column or a row.',
  'every mask and gradient, at least two variables',
  'All masks.',
  [B+'utils/utils.py:partial_argument'])
p("C110", 'Selection probabilities are proportional to the lead over the worst',
  'Proportional selection picks a candidate exactly for the draws in an interval whose length is its lead over the worst candidate divided by the sum of all leads; worst candidates are never picked.',
  'every performance vector that is not constant, every positive draw',
  'Continuum of draws.',
  [B+'utils/utils.py:proportional_selection'])
p("C111", 'Proportional selection without replacement succeeds',
  'For N at most the number of candidates, proportional_selection without replacement returns, whatever the performance values and the draws.',
  'every performance vector, N and random stream',
  'Random streams and ties.',
  [B+'utils/utils.py:proportional_selection'])
p("C112", 'Reduced coordinates round-trip',
  'A point proposed in the reduced space and mapped back to the original space is projected to itself.',
  'every orthonormal projection, mean, center and point',
  'Continuum.',
  [B+'extension.py:LinearTransform'])
p("C113", 'PCA-BO never prefers points outside of the box',
  'A candidate whose image lies outside of the original box has a negative criterion value and so, for non-negative acquisition functions, loses against all candidates whose image is inside; the gradient returned there is the gradient of the penalty.',
  'every projection, box, candidate and direction',
  'Continuum.',
  [B+'extension.py:penalized_acquisition'])
p("C114", 'The epsilon-PI gradient is a derivative everywhere',
  'The gradient that epsilon-PI returns is the derivative of its value at every point where the surrogate is differentiable with positive deviation, including those where the predicted value is zero.',
  'every surrogate, point and epsilon',
  'Needs one particular prediction in a continuum.',
  [B+'acquisition/acquisition_fun.py:EpsilonPI'])
p("C115", 'Epsilon-PI favours better predicted means for every accepted epsilon',
  'For every epsilon that the constructor accepts, of two points with equal uncertainty the one with the better predicted mean has an epsilon-PI value at least as large.',
  'every accepted epsilon and every pair of predictions',
  'Continuum of parameters.',
  [B+'acquisition/acquisition_fun.py:EpsilonPI'])
p("C116", 'UCB favours better predicted means',
  'With equal uncertainty, a point with a better predicted mean has a UCB value at least as large, in both optimisation directions.',
  'every pair of predictions, every alpha, both directions',
  'Continuum.',
  [B+'acquisition/acquisition_fun.py:UCB'])
p("C117", 'MGFI favours better predicted means',
  'With equal uncertainty, a point with a better predicted mean has an MGFI value at least as large, in both optimisation directions.',
  'every pair of predictions, every t, both directions',
  'Continuum; the overflow branch is only reached for extreme predictions.',
  [B+'acquisition/acquisition_fun.py:MGFI'])
p("C118", 'Acquisition values are never negative',
  'EI, epsilon-PI and MGFI values are never negative, and epsilon-PI values are at most one.',
  'every surrogate, point, plugin, parameter and direction',
  'Continuum; needs the tail behaviour of the normal distribution.',
  [B+'acquisition/acquisition_fun.py:EI', B+'acquisition/acquisition_fun.py:EpsilonPI', B+'acquisition/acquisition_fun.py:MGFI'])
p("C119", 'EI favours uncertainty',
  'With equal predicted means, the point with the larger predicted uncertainty has an EI value at least as large, also across the cut-off below which EI is zero.',
  'every pair of predictions with equal means',
  'Continuum.',
  [B+'acquisition/acquisition_fun.py:EI'])
p("C120", 'Acquisition values are the expectations they are named after',
  'Above the cut-offs EI is the expectation of the improvement over the plugin, epsilon-PI the probability of a value below the plugin plus epsilon times the size of the prediction, and MGFI the expectation of exp(t(plugin - y - 1)) over the improving values y, for a normally distributed value with the predicted mean and deviation.',
  'every prediction with positive deviation, every plugin and parameter',
  'The statement is about improper integrals.',
  [B+'acquisition/acquisition_fun.py:EI', B+'acquisition/acquisition_fun.py:EpsilonPI', B+'acquisition/acquisition_fun.py:MGFI'])
p("C121", 'Maximising is minimising the negated problem',
  'For every acquisition class, constructing and calling it for maximisation gives the same values and gradients as for minimisation with the negated surrogate, observations and plugin.',
  'every surrogate, class, argument and point',
  'Needs all surrogates and points.',
  [B+'acquisition/acquisition_fun.py:AcquisitionFunction._predict', B+'acquisition/acquisition_fun.py:AcquisitionFunction._gradient', B+'acquisition/acquisition_fun.py:ImprovementBased.plugin'])
p("C122", 'The default plugin is the best observation',
  'Without a plugin argument an improvement-based acquisition function measures improvement over the best observed value for the optimisation direction, and this is also what BO passes.',
  'every non-empty set of observations, both directions',
  'All data sets.',
  [B+'acquisition/acquisition_fun.py:ImprovementBased.plugin', B+'bayes_opt.py:BO._create_acquisition'])
p("C123", "The user's acquisition parameters are used",
  'The entries of acquisition_par given to an optimizer are those with which its acquisition function is built, apart from the one sampled for a batch.',
  'every dictionary of parameters, sequential and batch mode',
  'Only visible by comparing all parameter values.',
  [B+'base.py:BaseBO.arg_max_acquisition', B+'bayes_opt.py:ParallelBO._batch_arg_max_acquisition'])
p("C124", 'Sampled acquisition parameters are accepted',
  'For every acquisition function that the parallel optimizer accepts and every random draw, the sampled parameter is accepted by the acquisition function.',
  'every draw and every current parameter value',
  'Randomness: every draw.',
  [B+'bayes_opt.py:ParallelBO._batch_arg_max_acquisition', B+'bayes_opt.py:ParallelBO.__init__'])
p("C125", "Sampled acquisition parameters follow the user's parameter",
  'For the same random draw a larger acquisition parameter gives a larger sampled parameter.',
  'every draw and every pair of parameter values',
  'Randomness: every draw.',
  [B+'bayes_opt.py:ParallelBO.__init__'])
p("C126", 'The scale of the objective does not matter',
  'Multiplying the objective by a positive number and adding a constant does not change the values that the surrogate is fitted to; these have mean zero, deviation one and the order of the observations.',
  'every list of observations, factor and offset',
  'All scales.',
  [B+'base.py:BaseBO.update_model'])
p("C127", 'EHVI favours better predicted means',
  'The expected hypervolume improvement is never negative and does not fall when predicted means improve at equal uncertainty.',
  'every number of objectives and cells, every pair of predictions',
  'Continuum and every dimension.',
  [B+'multi_objective/analytic.py:EHVI.forward'])
p("C128", 'Gaussian-process predictions are the posterior mean and variance',
  'After fitting, the predicted value and variance at any point are the mean and variance of the value there given the observations, under a Gaussian process with the fitted trend, correlation, process variance and noise variance.',
  'every training set, trend, number of targets, noise setting and query point',
  'An identity between two formulas for all matrices.',
  [B+'surrogate/gaussian_process/gpr.py:GaussianProcess.predict', B+'surrogate/gaussian_process/gpr.py:GaussianProcess.compute_beta_gamma', B+'surrogate/gaussian_process/gpr.py:GaussianProcess.log_likelihood_concentrated'])
p("C129", 'Universal kriging is equivariant',
  'With an estimated trend and the same kernel parameters, scaling the observations by a and adding a combination of the trend functions does the same to all predictions and scales the predictive variances by a squared.',
  'every training set, scale, combination and query point',
  'Relates two fits for all data.',
  [B+'surrogate/gaussian_process/gpr.py:GaussianProcess.predict', B+'surrogate/gaussian_process/gpr.py:GaussianProcess._compute_aux_var'])
p("C130", 'Predictions do not depend on the order of the observations',
  'Fitting the same observations in another order (with the same kernel parameters) gives the same predictions and predictive variances everywhere.',
  'every training set, permutation and query point',
  'All permutations of all data sets.',
  [B+'surrogate/gaussian_process/gpr.py:GaussianProcess.predict', B+'surrogate/gaussian_process/gpr.py:GaussianProcess._compute_aux_var'])
p("C131", 'The estimated variance and trend coefficients are the generalised least squares ones',
  'In noiseless mode the trend coefficients are the generalised least squares estimate, and the process variance of each target is positive and equals the weighted residual sum of squares divided by n (known trend) or n - p (estimated trend).',
  'every training set and trend',
  'Identity for all matrices.',
  [B+'surrogate/gaussian_process/gpr.py:GaussianProcess.log_likelihood_concentrated', B+'surrogate/gaussian_process/gpr.py:GaussianProcess._compute_aux_var'])
p("C132", 'Predictive variances lie between zero and the process variance',
  'For a positive semi-definite correlation the noiseless predictive variance is never negative before clamping, and at most the process variance when the trend is known.',
  'every training set, query point and target',
  'Holds by positive definiteness, for all point sets.',
  [B+'surrogate/gaussian_process/gpr.py:GaussianProcess.predict'])
p("C133", 'Prediction in batches gives the same result',
  'Predicting with a batch size returns the same values and variances as predicting all points at once.',
  'every fitted model, batch size and list of points',
  'All lengths and batch sizes.',
  [B+'surrogate/gaussian_process/gpr.py:GaussianProcess.predict'])
p("C134", 'Every advertised model configuration can be fitted',
  'Fitting succeeds for both likelihood functions, for every kind of trend and for several targets.',
  'every data set and configuration',
  'All data sets.',
  [B+'surrogate/gaussian_process/gpr.py:GaussianProcess.fit', B+'surrogate/gaussian_process/gpr.py:GaussianProcess.log_likelihood_restricted', B+'surrogate/gaussian_process/trend.py:BasisExpansionTrend'])
p("C135", 'Fitting terminates',
  'Fitting a Gaussian process returns.',
  'every data set, mode and behaviour of the hyper-parameter optimizer',
  'Non-termination can not be observed by a test.',
  [B+'surrogate/gaussian_process/gpr.py:GaussianProcess.fit'])
p("C136", 'One correlation parameter means the same parameter for all features',
  'A correlation function called with one parameter gives the same value as when called with that parameter repeated for each feature; the generalized exponential does so for its two documented parameters.',
  'every distance vector and parameter',
  'All dimensions and parameters.',
  [B+'surrogate/gaussian_process/kernel.py:squared_exponential', B+'surrogate/gaussian_process/kernel.py:absolute_exponential', B+'surrogate/gaussian_process/kernel.py:cubic', B+'surrogate/gaussian_process/kernel.py:matern', B+'surrogate/gaussian_process/kernel.py:generalized_exponential'])
p("C137", 'Parameter gradients of the correlation are its derivatives',
  'The gradient of the correlation with respect to the correlation parameters, as used by the likelihood gradient, is the derivative of the correlation in each parameter.',
  'every distance vector, parameter vector and differentiable correlation function',
  'Continuum.',
  [B+'surrogate/gaussian_process/gpr.py:GaussianProcess.corr_grad_theta'])
p("C139", 'The second derivatives of the correlation are right',
  'The Hessian of the correlation with each training point is the matrix of second derivatives.',
  'every query point, training set and parameter vector',
  'Continuum.',
  [B+'surrogate/gaussian_process/gpr.py:GaussianProcess.corr_Hessian'])
p("C140", 'Correlation never grows with distance',
  'If one pair of points is at least as far apart as another in every coordinate, its correlation is not larger, for every built-in correlation function with positive parameters.',
  'every pair of distance vectors and every parameter vector',
  'Continuum.',
  [B+'surrogate/gaussian_process/kernel.py'])
p("C141", "The scikit-learn based model's kernel gradient is right at every point",
  'For the Matern kernels the gradient of the kernel with respect to the query point is its derivative; for smoothness 3/2 and 5/2 this includes query points that coincide with a training point.',
  'every query point, training point, variance and positive length scales',
  'Continuum, including the points where the formula divides by zero.',
  [B+'surrogate/gaussian_process/__init__.py:GaussianProcessSklearn.kernel_dx'])
p("C142", 'Gradient of the squared and the absolute exponential correlation',
  'The gradient of the correlation with respect to the query point is the derivative of the correlation with every training point: everywhere for the squared exponential, and where no coordinate coincides with that of a training point for the absolute exponential.',
  'every query point, training set and parameter vector',
  'Continuum.',
  [B+'surrogate/gaussian_process/gpr.py:GaussianProcess.corr_dx'])
p("C143", 'Kernel gradient of the squared exponential (RBF) kernel of the scikit-learn based model',
  'The gradient of the RBF kernel with respect to the query point is its derivative.',
  'every query point and training point',
  'Continuum.',
  [B+'surrogate/gaussian_process/__init__.py:GaussianProcessSklearn.kernel_dx'])
p("C144", 'Hyper-parameter search with CMA terminates within its budget and keeps the best likelihood',
  'With the CMA optimizer the search ends after at most the evaluation budget (plus one generation), and the kept hyper-parameters are those with the largest likelihood among all evaluated ones.',
  'every sequence of sampled populations and every likelihood',
  'All executions; non-termination cannot be observed by a test.',
  [B+'surrogate/gaussian_process/gpr.py:GaussianProcess._optimize_hyperparameter', B+'surrogate/gaussian_process/cma_es.py:cma_es.optimize'])
p("C138", "The gradient of the surrogate's prediction is the derivative of the prediction",
  "For a fitted Gaussian process with one target, gradient(x) returns two arrays whose entries are the partial derivatives at x of the mean and of the variance that predict returns, given that corr_dx returns the partial derivatives of the correlation function (see C62, C63) and the trend's Jacobian those of the trend functions. This holds for known and estimated trend coefficients and for every noise mode. For the variance it is claimed where the variance is positive, because predict clips it at zero.",
  'every training set, correlation function, trend basis, noise mode, query point at which the correlation is differentiable, and direction',
  'A finite-difference test compares a few points to a tolerance; the claim is an identity between two matrix expressions for every data set.',
  [B+'surrogate/gaussian_process/gpr.py:gradient', B+'surrogate/gaussian_process/gpr.py:predict', B+'surrogate/gaussian_process/trend.py:Jacobian'])
p("C145", 'With up to three objectives the hypervolume is exact',
  'For one, two or three objectives, compute returns for every list of points and every reference point, and the value is the measure of the union of the boxes between the reference point and the points. The points may be dominated, equal, tied in single objectives, or not better than the reference point.',
  'every list of points with one to three objectives, every reference point',
  'The algorithm unlinks and relinks nodes of several doubly linked lists and reuses cached areas; tests compare a few fronts, the claim is about every configuration of ties and dominated points.',
  [B+'utils/multi_objective/hypervolume.py:Hypervolume.compute', B+'utils/multi_objective/hypervolume.py:Hypervolume._hv_recursive', B+'utils/multi_objective/hypervolume.py:MultiList.remove', B+'utils/multi_objective/hypervolume.py:MultiList.reinsert'])
p("C146", 'With up to three objectives the hypervolume is order-free and monotone',
  'For one, two or three objectives: permuting the points does not change the hypervolume, adding a point that some other point matches or beats in every objective does not change it, and it never decreases when points are added or improved.',
  'every two lists of points with one to three objectives, every reference point',
  'Relates two runs of the algorithm for every pair of inputs.',
  [B+'utils/multi_objective/hypervolume.py:Hypervolume.compute', B+'utils/multi_objective/hypervolume.py:Hypervolume._hv_recursive', B+'utils/multi_objective/hypervolume.py:MultiList.remove', B+'utils/multi_objective/hypervolume.py:MultiList.reinsert'])
p("C147", 'Replicating a solution copies the whole solution',
  's * N of a single solution has N rows, each with the components, the objective values and the evaluation count of s, labels 0 to N-1 and the variable names of s; later changes to the result do not change s. Replicating a set of solutions raises an exception.',
  'every single solution with any number of objectives, every N of at least one, every later sequence of writes to the result',
  'Depends on the shape in which the objective values are stored, which depends on how the solution was obtained; tests replicate a few single-objective solutions.',
  [B+'solution.py:Solution.__mul__', B+'solution.py:Solution.__new__'])
p("C148", 'Element and block access of a solution set',
  's[i, j] is component j of row i for every valid i and j, and any other pair of integers raises IndexError. s[a:b:c, J] for a slice or a column number J has exactly the selected columns and their names, and the objective values, evaluation counts and labels of the selected rows.',
  'every solution set, every pair of integer indices, every row slice, every column slice or column number',
  "Indices range over all integers and slices over all triples, with Python's conventions for negative values.",
  [B+'solution.py:Solution.__getitem__'])
p("C149", 'Forest predictions do not depend on the thread schedule',
  'Whatever the number of threads and the order in which they store the predictions of the single trees, the forest predicts, for every point, the average of the predictions of its trees and, as uncertainty, their unbiased sample variance.',
  'every forest of at least two trees, every set of points, every interleaving of the writes of the threads',
  'The threads share one buffer; the number of interleavings is exponential and tests see a few of them.',
  [B+'surrogate/random_forest.py:RandomForest.predict', B+'surrogate/random_forest.py:_save_prediction'])
p("C150", 'A forest never predicts beyond the observed values',
  'If the leaves of the trees average observed values, every predicted mean lies between the smallest and the largest observed value, and the predictions do not depend on the order of the trees.',
  'every forest whose trees predict averages of observations, every data set, every set of points, every thread schedule',
  'Quantifies over all trees, data and query points, including points far from the data.',
  [B+'surrogate/random_forest.py:RandomForest.predict'])
p("C151", "The forest's uncertainty is a number, zero exactly where the trees agree",
  'The predicted uncertainty is a non-negative number for every forest, and it is zero exactly at the points where all trees predict the same value.',
  'every non-empty forest, every set of points, every thread schedule',
  'Needs all combinations of tree predictions and forest sizes.',
  [B+'surrogate/random_forest.py:RandomForest.predict'])
p("C152", 'A weighted aggregation predicts the weighted sum',
  'If the surrogates predict the mean and the variance of uncorrelated random variables, the aggregation with weights w predicts the mean and the variance of their weighted sum; a wrong number of weights raises ValueError.',
  'every number of surrogates, all weights, all joint distributions with pairwise uncorrelated components, every set of points',
  'Quantifies over all distributions and weights.',
  [B+'surrogate/random_forest.py:SurrogateAggregation.predict'])
p("C153", 'Every accepted aggregation can be used',
  'If the constructor of the aggregation accepts the name of the aggregation, predictions succeed; other names are rejected by the constructor.',
  'every aggregation name, all surrogates and matching weights, every set of points',
  'The names are arbitrary strings.',
  [B+'surrogate/random_forest.py:SurrogateAggregation.__init__', B+'surrogate/random_forest.py:SurrogateAggregation.predict'])
p("C154", 'The noisy optimizer proposes what the searches find',
  'ask of the optimizer for noisy functions returns exactly the points found by the searches, in order, repeated points included; searches that find nothing are replaced by new random points. The initial design has the requested number of points.',
  'every search space, every outcome of every search, every number of points, every state of the optimizer',
  'The outcome of the searches ranges over all lists of points, including repeated and missing ones.',
  [B+'bayes_opt.py:NoisyBO.pre_eval_check', B+'base.py:BaseBO.ask'])
p("C155", 'The noisy optimizer compares with the best prediction',
  'The acquisition function of the optimizer for noisy functions compares with the best value that the model predicts at the observed points, for minimization and for maximization, not with the best observation; the expected improvement it uses is therefore relative to a value that no prediction at an observed point beats.',
  'every model, every data set, both directions, every acquisition function that has a reference value',
  'Quantifies over all models and data.',
  [B+'bayes_opt.py:NoisyBO._create_acquisition'])
p("C156", 'The self-adaptive optimizer moves its parameter to the better half',
  'After every batch, the parameter t of the self-adaptive optimizer is the average of the values of t of the half of the searches with the largest acquisition values.',
  'every batch size, all outcomes of the searches',
  'Quantifies over all outcomes of the searches.',
  [B+'bayes_opt.py:SelfAdaptiveBO._batch_arg_max_acquisition'])
p("C157", 'The gradient of the scikit-learn surrogate is the derivative of its prediction',
  'At every point, each component of the gradient of the mean is the partial derivative of the predicted mean; where the predicted variance is positive, each component of the gradient of the variance is its partial derivative. Training points are included.',
  'every fitted model: all training points, length scales, variances, noise levels and normalizations, any number of variables and of training points, every query point',
  'A finite-difference test checks a few points of a few models up to an error.',
  [B+'surrogate/gaussian_process/__init__.py:GaussianProcessSklearn.gradient', B+'surrogate/gaussian_process/__init__.py:GaussianProcessSklearn.kernel_dx', B+'surrogate/gaussian_process/__init__.py:GaussianProcessSklearn.predict'])
p("C158", 'The scikit-learn surrogate never predicts more variance than the prior',
  'The predicted variance is between zero and the prior variance of an observation, in the scale of the data.',
  'every fitted model, every query point, even when the triangular solver is inexact',
  'Quantifies over all models, points and results of the solver.',
  [B+'surrogate/gaussian_process/__init__.py:GaussianProcessSklearn.predict'])
p("C159", 'Gradients of the scikit-learn surrogate at several points at once',
  'gradient of several points returns, for every number of variables, the gradients of the single points.',
  'every fitted model, any number of variables, any number of points',
  'The shapes of intermediate arrays depend on both numbers.',
  [B+'surrogate/gaussian_process/__init__.py:GaussianProcessSklearn.gradient'])
p("C160", 'is_running tells whether the daemon runs',
  'is_running is true exactly if a daemon started through this pid file is running.',
  'every reachable state of the process table and the pid file: all sequences of starts, stops, terminations, kills and unrelated processes',
  'Process numbers are re-used by the system; the state space is unbounded.',
  [B+'utils/_daemon.py:Daemon.is_running', B+'utils/_daemon.py:Daemon.get_pid'])
p("C161", 'restart leaves a newly started daemon',
  'restart ends the running daemon, if there is one, starts a new one and records its number.',
  'every reachable state of the process table and the pid file',
  'Schedules of processes.',
  [B+'utils/_daemon.py:Daemon.restart', B+'utils/_daemon.py:Daemon.stop', B+'utils/_daemon.py:Daemon.start'])
p("C162", 'An interrupted start can be repaired',
  'If the process that is being started is killed at any moment, stop afterwards returns and a later start succeeds.',
  'every reachable state, every moment at which the new process is killed, every sequence of later events',
  'Crash points between two system calls cannot be hit by a test.',
  [B+'utils/_daemon.py:Daemon.daemonize', B+'utils/_daemon.py:Daemon.start', B+'utils/_daemon.py:Daemon.stop'])
p("C163", 'Strategy parameters of the hyper-parameter search are consistent',
  'The CMA-ES that fits the length-scales uses recombination weights that are positive, strictly decreasing and sum to one, learning rates in (0,1], rank-one plus rank-mu rates of at most one and a positive damping.',
  'every number of offspring of at least two and every number of hyper-parameters',
  'The numbers depend on two unbounded integers through logarithms.',
  [B+'surrogate/gaussian_process/cma_es.py:cma_es.__init__'])
p("C164", 'Length-scale candidates stay within their bounds',
  'Every candidate that the CMA-ES evaluates and every mean it moves to lies between the bounds; a mutation that is already inside is left as it is.',
  'every box, in either order of its ends, every history of generations, every likelihood, every random sample',
  'Random mutations are unbounded and the state depends on the whole history.',
  [B+'surrogate/gaussian_process/cma_es.py:cma_es.mutation', B+'surrogate/gaussian_process/cma_es.py:cma_es.update', B+'surrogate/gaussian_process/boundary_handling.py:boundary_handling'])
p("C165", 'Covariance and step size of the hyper-parameter search stay valid',
  'After every generation the covariance matrix is symmetric and positive semidefinite and the step size is positive.',
  'every history of generations, every likelihood, every random sample, every result of the eigen-decomposition',
  'An invariant over unboundedly many generations.',
  [B+'surrogate/gaussian_process/cma_es.py:cma_es.update', B+'surrogate/gaussian_process/cma_es.py:cma_es.updateBD', B+'surrogate/gaussian_process/cma_es.py:cma_es.reset_state'])
p("C166", 'The penalized acquisition function ranks feasible points by the acquisition',
  'The gradient search is given one function: minus the acquisition value at every feasible point, with the exact gradient inside the feasible region, and something larger at every infeasible point.',
  'every acquisition function, all constraints, all points, every sequence of earlier evaluations',
  'Holds for arbitrary functions and histories of calls.',
  [B+'acquisition/optim/__init__.py:Penalized.__call__'])
p("C167", 'Finite-difference gradient is second-order accurate',
  'Each component of the finite-difference gradient of the penalty is within M delta^2/6 of the partial derivative if the third derivatives are bounded by M, and exact for functions that are quadratic in each coordinate.',
  'every smooth function, every point, every dimension, every positive step',
  'A bound for all smooth functions.',
  [B+'acquisition/optim/__init__.py:finite_difference'])
p("C168", 'Fast decomposition partitions the non-dominated region',
  'FastNondominatedPartitioning(ref_point, Y) with three or more objectives raises nothing, and the cells of get_hypercell_bounds are disjoint, cover every point above the reference point that no outcome dominates, and contain no other point.',
  'every reference point with at least three objectives and every finite set of outcomes, with ties, duplicates, dominated outcomes and outcomes below the reference point',
  'Any number of objectives and outcomes; the local upper bounds are built point by point and ties are where such algorithms go wrong.',
  [B+'utils/multi_objective/box_decompositions/box_decomposition.py:FastPartitioning._partition_space', B+'utils/multi_objective/box_decompositions/non_dominated.py:FastNondominatedPartitioning._get_partitioning', B+'utils/multi_objective/box_decompositions/utils.py:compute_local_upper_bounds', B+'utils/multi_objective/box_decompositions/utils.py:get_partition_bounds'])
p("C169", 'Incremental updates keep the fast decomposition a partition',
  'After any number of update calls the cells partition the region that none of the outcomes given so far dominates, and contain the same points as the cells of an object built from all outcomes at once.',
  'every sequence of batches of outcomes, empty batches, repeated outcomes and batches below the reference point included',
  'The update inserts only the new points into the bounds computed earlier: an invariant over every history of updates.',
  [B+'utils/multi_objective/box_decompositions/box_decomposition.py:FastPartitioning.update', B+'utils/multi_objective/box_decompositions/utils.py:update_local_upper_bounds_incremental'])
p("C170", 'Predictions pair every new point with every training point',
  'Row i and column j of the matrix of correlations that predictions, gradients and the prior covariance are computed from is the correlation of new point i and known point j.',
  'every number of new points, every training set, every correlation function and parameter vector',
  'The matrix is a flattened list of distances that is reshaped; a wrong order shows only for some shapes.',
  [B+'surrogate/gaussian_process/gpr.py:l1_cross_distances', B+'surrogate/gaussian_process/gpr.py:GaussianProcess.predict'])
p("C171", 'The prior covariance of two sets of points',
  'prior_cov(X1, X2) is the process variance times the correlation of each point of X1 with each point of X2, and prior_cov(X1) the same for X1 with itself.',
  'all sets of points given as lists or arrays, every correlation function with positive parameters, every process variance',
  'Continuum of inputs; depends on the type of the argument.',
  [B+'surrogate/gaussian_process/gpr.py:GaussianProcess.prior_cov'])
p("C172", 'The fast partitioning reports the exact hypervolume',
  'For every reference point and every sequence of batches of outcomes, compute_hypervolume of the fast partitioning equals the measure of the region above the reference that the outcomes given so far dominate; for two objectives after construction, for three and more also after any number of updates.',
  'every reference point with two or more objectives, every first batch and every list of further batches (ties, duplicates, dominated outcomes, outcomes below the reference, empty batches), every grid the measure is computed on',
  'The cells are cut off at the best values and their volumes subtracted from the whole; a cell counted twice, missing or cut at the wrong value changes the result only for particular configurations of outcomes and update orders.',
  [B+'utils/multi_objective/box_decompositions/non_dominated.py:FastNondominatedPartitioning.compute_hypervolume', B+'utils/multi_objective/box_decompositions/non_dominated.py:FastNondominatedPartitioning', B+'utils/multi_objective/box_decompositions/box_decomposition.py:FastPartitioning'])
p("C173", 'The binary partitioning reports the exact hypervolume, and the two classes agree',
  'For every number of objectives, reference point and sequence of batches, compute_hypervolume of the binary partitioning with the default threshold equals the measure of the dominated region, and therefore the value that the fast partitioning reports.',
  'every number of objectives, reference point, list of batches, sorting order of ties, position of the maximum reported among ties, threshold alpha <= 0, grid',
  'The volumes are products of differences that are not clamped at zero, so the result is right only if every cell of every run of the loop has increasing positions in every objective.',
  [B+'utils/multi_objective/box_decompositions/non_dominated.py:NondominatedPartitioning.compute_hypervolume', B+'utils/multi_objective/box_decompositions/non_dominated.py:NondominatedPartitioning._get_hypercell_bounds', B+'utils/multi_objective/box_decompositions/non_dominated.py:NondominatedPartitioning._partition_space'])
p("C174", 'The concentrated log likelihood is the largest log density of the data',
  'A finite value returned by log_likelihood_concentrated is, summed over the targets, the largest logarithm of the Gaussian density of the training outputs: over the trend and the total variance when the noise is estimated, over the variance without noise for a known trend, and over the trend for the given variance when the noise is known.',
  'all training inputs and outputs, numbers of targets, correlation functions, parameters, noise levels, known trends and trends with linearly independent basis functions, and all Cholesky, QR and triangular solvers meeting their contracts',
  'The value is assembled from a Cholesky factor, a QR projection and a substituted variance; that the substitution maximises the density holds or fails for every data set and cannot be read off single values.',
  [B+'surrogate/gaussian_process/gpr.py:GaussianProcess.log_likelihood_concentrated', B+'surrogate/gaussian_process/gpr.py:GaussianProcess._compute_aux_var'])
p("C175", 'The gradient of the likelihood with estimated noise is its derivative',
  'With estimated noise and one target, the second value of log_likelihood_concentrated(par, eval_grad=True) is the gradient of the first with respect to all parameters, wherever the value is negative.',
  'all training sets of one target, the squared exponential, absolute exponential and Matern correlations, positive parameters, known or estimated trends',
  'A finite-difference test sees single points up to rounding; the derivative is a statement about limits at every point.',
  [B+'surrogate/gaussian_process/gpr.py:GaussianProcess.log_likelihood_concentrated'])
p("C176", 'The gradient of the likelihood without noise is its derivative',
  'Without noise and with one target, the second value of log_likelihood_concentrated(par, eval_grad=True) is the gradient of the first.',
  'all training sets of one target, the correlations with a gradient, positive parameters, known or estimated trends',
  'The estimate of the variance divides by the degrees of freedom, which appears nowhere in the gradient; only trends with unknown coefficients show the difference.',
  [B+'surrogate/gaussian_process/gpr.py:GaussianProcess.log_likelihood_concentrated'])
p("C177", 'The gradient of the likelihood with known noise is its derivative',
  'With known noise, the second value of log_likelihood_concentrated(par, eval_grad=True) is the gradient of the first with respect to the correlation parameters and the variance.',
  'all training sets, numbers of targets, correlations with a gradient, positive parameters, noise variances, known or estimated trends',
  'The entries differ from the derivatives by the ratio of the variance to the total variance, which is one for zero noise.',
  [B+'surrogate/gaussian_process/gpr.py:GaussianProcess.log_likelihood_concentrated'])
p("C178", 'The gradient of the likelihood is right for several targets',
  'For several targets the second value of log_likelihood_concentrated(par, eval_grad=True) is the gradient of the first (the sum over the targets) when the noise is zero or estimated.',
  'all training sets with any number of targets, correlations with a gradient, parameters',
  'The products of the residuals are summed over the targets before each is divided by its variance, which is invisible with one target.',
  [B+'surrogate/gaussian_process/gpr.py:GaussianProcess.log_likelihood_concentrated'])
p("C179", 'The search for the parameters gets the gradient of the function it minimizes',
  'The function handed to L-BFGS-B takes the base-10 logarithms of the parameters and returns a value and the gradient of that value with respect to those logarithms.',
  'all training sets of one target, correlations with a gradient, points of the search space where the value is positive',
  'A missing factor of the chain rule still gives descent directions, so that fits succeed and no test notices.',
  [B+'surrogate/gaussian_process/gpr.py:GaussianProcess._optimize_hyperparameter', B+'surrogate/gaussian_process/gpr.py:GaussianProcess.log_likelihood_concentrated'])
p("C180", 'Without noise the value for an estimated trend is the largest log density',
  'Without noise, a finite value of log_likelihood_concentrated is the largest log density of the data over the trend and the variance also when the trend has unknown coefficients.',
  'all training sets, correlation functions and parameters, trends with linearly independent basis functions',
  'The variance is estimated with n - k degrees of freedom and the sum of squares replaced by n; the value is off by an amount that depends on the number of coefficients.',
  [B+'surrogate/gaussian_process/gpr.py:GaussianProcess.log_likelihood_concentrated', B+'surrogate/gaussian_process/gpr.py:GaussianProcess._compute_aux_var'])
p("C181", 'Every finite likelihood is reported',
  'log_likelihood_concentrated returns the largest log density whenever it exists, whatever the unit in which the outputs are measured.',
  'all training sets, correlation functions and parameters',
  'Densities above one occur only for outputs on a small scale; test data seldom have it.',
  [B+'surrogate/gaussian_process/gpr.py:GaussianProcess.log_likelihood_concentrated'])
p("C182", 'A Metropolis-Hastings step leaves the target distribution unchanged',
  'If a row of the population is distributed as the target density times the probabilities of satisfying the constraints, it still is after any number of Metropolis-Hastings steps of SCMC, and the rows of the population do not influence each other.',
  'all spaces of variables with finitely many values, positive unnormalised target densities, constraints, deviations nu, iteration numbers, numbers of steps and populations',
  'A sampler is wrong in distribution, not in single outputs: every sample a test sees is a legal point, and a bias shows only in the expectation over all random numbers.',
  [B+'search_space/samplers.py:SCMC._metropolis_hastings', B+'search_space/samplers.py:SCMC._log_posterior', B+'search_space/samplers.py:SCMC._rproposal_discrete', B+'search_space/samplers.py:SCMC._rproposal_integer'])
p("C183", 'The sampler closes in on the constraints as far as the tolerance',
  'The deviation used by SCMC falls from 10 to tol/8. The density of a point that satisfies all K constraints grows meanwhile and never falls below 2^-K times the target density, and in the last stage the density of a point that violates a constraint by tol or more is at most exp(-32) times the target density, so that a move from the first kind of point to the second is accepted with probability at most 2^K exp(-32) if no ratio overflows.',
  'all tolerances below 80, constraint values, numbers of constraints and positive target densities',
  'The bound concerns events of probability below 10^-13, which no sampling test will see.',
  [B+'search_space/samplers.py:SCMC._log_posterior', B+'search_space/samplers.py:SCMC._metropolis_hastings', B+'search_space/samplers.py:SCMC.__init__'])
p("C184", 'The standardized squared error has its three reference points',
  'SMSE(test, pred) is never negative; it is zero exactly if the predictions equal the targets; it is one if every prediction is the mean of the targets and more than one for every other constant; and it does not change if targets and predictions are rescaled and shifted together.',
  'all non-constant targets and predictions of any length, and all affine maps',
  'The reference points are identities over all data sets; a test compares numbers for a few.',
  [B+'surrogate/gaussian_process/utils.py:SMSE'])
p("C185", 'The standardized log loss compares two predictive densities',
  'MSLL(train, test, pred, variances) is the average of minus the logarithm of the predicted normal density at the targets, minus that of the normal distribution with the mean and variance of the training targets; it is zero for predictions that equal the latter.',
  'all training targets that are not all equal, test targets, predictions and positive variances',
  'The value is an identity between formulas over all data; single values do not show it.',
  [B+'surrogate/gaussian_process/utils.py:MSLL'])
p("C186", 'The error measures leave their arguments unchanged',
  'MSLL does not change the arrays that it is given.',
  'all training and test targets, predictions and variances',
  'A write to an argument happens only for special values and is not visible in the result.',
  [B+'surrogate/gaussian_process/utils.py:MSLL'])
p("C187", 'The restricted likelihood of a model with known trend is the density of its data',
  "With likelihood 'restricted' and a known trend, the value at any parameters is the logarithm of the multivariate normal density of the observations with covariance sigma2*R + noise*I, summed over the targets.",
  'all data, known trends, kernels, noise modes and parameters for which the value is finite',
  'The sign of one term is wrong for every data set, but a test that maximizes the value or compares it with itself does not see it.',
  [B+'surrogate/gaussian_process/gpr.py:GaussianProcess.log_likelihood_restricted'])
p("C188", 'The likelihood does not depend on the part of the data that the trend explains',
  'If the trend is estimated, adding any combination of its basis functions to the observations changes neither the concentrated nor the restricted likelihood, at any parameters; nor does it change whether they fail.',
  'all data, linearly independent basis functions, coefficients, kernels, noise modes and parameters',
  'The invariance ranges over every shift of every data set.',
  [B+'surrogate/gaussian_process/gpr.py:GaussianProcess.log_likelihood_restricted', B+'surrogate/gaussian_process/gpr.py:GaussianProcess.log_likelihood_concentrated', B+'surrogate/gaussian_process/gpr.py:GaussianProcess._compute_aux_var'])
p("C189", 'The gradient of the restricted likelihood is its derivative',
  'The gradient returned with the restricted likelihood has, for every parameter, the derivative of the value in that parameter.',
  'all data, trends, smooth kernels and positive parameters with a finite negative value',
  'A wrong entry only misleads the search for parameters; a test compares finite differences at a few points, and the entry of the variance is right at variance one.',
  [B+'surrogate/gaussian_process/gpr.py:GaussianProcess.log_likelihood_restricted'])
p("C190", 'fmin returns a best evaluated point',
  'When fmin returns, the function value it reports is the value of the function at the point it reports; that point is one of the points passed as x0 or evaluated by fmin; and no such point with a finite value has a smaller one. Non-finite values (NaN, infinities) are never reported.',
  'all functions (also with NaN and infinite values), bounds, x0, y0 that agree with the function, batch sizes, budgets, samplers and surrogates',
  'It must hold for every function and every trajectory of the search.',
  [B+'__init__.py:fmin', B+'_base.py:BaseOptimizer.run', B+'_base.py:BaseOptimizer.xopt'])
p("C191", 'fmin reports the number of evaluations and keeps the budget',
  'The fourth value returned by fmin is the number of calls of the function, and it is at most max_FEs.',
  'all functions, bounds, x0, y0, batch sizes and budgets',
  'The number of calls depends on the rejected proposals and on the last batch; a test with the documented example sees neither x0 nor a small budget.',
  [B+'__init__.py:fmin', B+'base.py:BaseBO.step'])
p("C192", 'fmin evaluates the function only inside the bounds',
  'Every call of the function made by fmin is at a point of the box spanned by lower and upper or at a point passed as x0, also when fmin raises or does not end.',
  'all functions, bounds, x0, y0, batch sizes and budgets; samplers and acquisition optimizers that stay in the box',
  'An evaluation outside the box depends on the trajectory of the search.',
  [B+'__init__.py:fmin', B+'base.py:BaseBO.ask'])
p("C193", 'fmin accepts the documented bounds',
  'A float or a vector is accepted on either side; vectors need the same length, and each lower bound has to be less than the upper one; the space has one variable for each pair, in order, with distinct names; anything else raises an error that says what is wrong.',
  'all bounds: floats, lists, and other types',
  'The forms of the arguments on both sides are combined; a test covers two of them.',
  [B+'__init__.py:fmin'])
p("C194", 'fmin terminates',
  'fmin returns or raises after finitely many iterations, for every function and budget, including the default one.',
  'all functions, bounds, x0, y0, batch sizes and budgets',
  'Termination is about all runs; a test of the default cannot finish.',
  [B+'__init__.py:fmin', B+'_base.py:BaseOptimizer.check_stop', B+'_base.py:BaseOptimizer.run'])
p("C195", 'An integer x0 is the number of initial points',
  'With an integer x0 = n, fmin starts with evaluating the n points of the initial sample, for every n >= 0.',
  'all n, functions that do not raise, bounds, batch sizes, budgets and initial samples without near duplicates',
  'It ranges over all sample sizes; zero falls through a truth test.',
  [B+'__init__.py:fmin', B+'base.py:BaseBO.create_DoE'])
p("C196", 'The parameters of the evolution strategy stay usable',
  'In every run of MIES started with default parameters the random numbers of the next offspring are drawn with valid arguments: the parameters of the geometric distribution and the mutation probability are in (0, 1]. After every mutation the step sizes of the integer variables are in (0, 1], those of the real variables are not negative, and the mutation probability is between 1/(3 N) and 1/2 for N categorical variables.',
  'all search spaces, fitness functions, random numbers, population sizes and numbers of generations',
  'An invalid argument would need a particular sequence of mutations and recombinations of any length.',
  [B+'acquisition/optim/mies.py:MIES._mutate_i', B+'acquisition/optim/mies.py:MIES._mutate_d', B+'acquisition/optim/mies.py:MIES.recombine'])
p("C197", 'MIES keeps moving real variables',
  'During a run of MIES the step size of a real variable stays positive, so that any point of the search space can still be reached.',
  'all search spaces, fitness functions and random numbers',
  'The step sizes depend on the whole history of mutations, repairs and roundings.',
  [B+'acquisition/optim/mies.py:MIES._mutate_r'])
p("C198", 'MIES accepts initial strategy parameters',
  'MIES can be constructed with given initial step sizes (sigma0, eta0) and mutation probability (P0) as well as without.',
  'all search spaces, given parameters and initial samples',
  'The constructor must work for every combination of variable types and given parameters.',
  [B+'acquisition/optim/mies.py:MIES.__init__'])
p("C199", 'MIES stops when the fitness stagnates',
  'A run of MIES ends with the reason tolfun if and only if the fitness values of the recent generations differ by less than the tolerance.',
  'all search spaces, fitness functions, population sizes and numbers of generations',
  'Whether the criterion can ever be met depends on the number of evaluations over an unbounded run.',
  [B+'acquisition/optim/mies.py:MIES.stop'])
p("C200", 'MIES reports flat fitness only for equal offspring',
  'A run of MIES ends with the reason flatfitness only if different offspring of the last generation have the same fitness; the test does not raise.',
  'all search spaces, fitness functions, population sizes and numbers of generations',
  'The compared position depends on both population sizes, which users can choose freely.',
  [B+'acquisition/optim/mies.py:MIES.stop'])
p("C201", 'Proposals made with the evolution strategy are valid',
  'If the acquisition function is optimized with MIES, every point ask returns is in the search space and is either a random sample or a proposal that satisfies the constraints up to the tolerance. Each restart ends without an error within its budget and one generation, and the proposal is the best feasible result of the restarts made.',
  'all search spaces whose integer variables have step 1, acquisition functions, constraints, budgets, numbers of restarts, samples and random numbers',
  'The proposal is the outcome of several unbounded random runs nested in a restart loop; tests see a few of them.',
  [B+'base.py:BaseBO.ask', B+'base.py:BaseBO.arg_max_acquisition', B+'acquisition/optim/__init__.py:argmax_restart', B+'acquisition/optim/mies.py:MIES.optimize'])
p("C202", 'The optimizer of the acquisition function fits the problem',
  'Whatever optimizer is requested for the acquisition function, the one that runs fits the search space, the constraints and the number of objectives, is given a function with the right result, and a wrong request is rejected by the constructor.',
  'all requests, kinds of search spaces, models, numbers of objectives, constraints and budgets',
  'The choice is spread over the constructor, ask and the restart loop, and each combination of settings behaves differently.',
  [B+'base.py:BaseBO._set_internal_optimization', B+'base.py:BaseBO.arg_max_acquisition', B+'acquisition/optim/__init__.py:argmax_restart'])
p("C203", 'PCA-BO evaluates only points of the box when its proposals are optimal',
  'If the acquisition function is never negative and every proposal maximizes the penalized acquisition function over the reduced search space, every point PCABO evaluates in a run lies in the original search box. The reduced search space always has a point that is mapped into the box.',
  'all search boxes, objective functions, acquisition functions, numbers of components and iterations, initial designs and failed evaluations',
  'Whether the reduced space still meets the box depends on all observations made so far and on their ranks.',
  [B+'extension.py:PCABO.ask', B+'extension.py:PCABO.tell', B+'extension.py:penalized_acquisition', B+'extension.py:LinearTransform.fit'])
p("C204", 'PCA-BO proposes only points of the box',
  'Every point returned by PCABO.ask lies in the original search box.',
  'all search boxes, objective functions, histories and results of the acquisition optimization',
  'The proposals come from a random search in a reduced space that is larger than the box.',
  [B+'extension.py:PCABO.ask', B+'extension.py:PCABO._compute_bounds'])
p("C205", 'PCA-BO accounts for its evaluations',
  'After any sequence of calls of PCABO.tell, whether they return or raise, eval_count is the number of points told, iter_count the number of calls, data holds the points with a finite value in order, and xopt is the first best of them. tell does not return before there are two finite values.',
  'all sequences of calls, points, values, failures of the decomposition and of the model',
  'The counters and the data must stay consistent over histories of any length with failures at any point.',
  [B+'extension.py:PCABO.tell', B+'extension.py:PCABO.xopt'])
p("C206", 'PCA-BO records the history of best values',
  'After each iteration PCABO has appended the best value so far to hist_f, like the other optimizers.',
  'all histories',
  'The history is observed after any number of iterations.',
  [B+'extension.py:PCABO.tell'])
p("C207", 'A run only evaluates points of the space',
  'During run() on a space of real, integer and categorical variables with constraints, the objective function is only called on points of the space, whether run returns, raises or is still going on; sampling under the constraints never raises and returns points of the space that satisfy them.',
  'every space of real, integer and categorical variables, constraint, objective function (noisy, failing and raising ones included), surrogate, random stream, budget, target, batch size and given data, and every number of iterations',
  'a test observes a few runs; a point outside the space may come from any of the initial design, the constrained sampler, the evolution strategy, the top-up and the rounding, in any iteration',
  [B+'_base.py:BaseOptimizer.run', B+'base.py:BaseBO.step', B+'base.py:BaseBO.ask', B+'base.py:BaseBO.create_DoE', B+'base.py:BaseBO.tell'])
p("C208", 'A run never evaluates a point again',
  'During run(), no point is evaluated in two different iterations, and no point of the given data is evaluated.',
  'every space of real, integer and categorical variables, constraint, objective function (noisy, failing and raising ones included), surrogate, random stream, budget, target, batch size and given data, and every number of iterations',
  'a repetition depends on the history of the run and on the values that the objective function returned',
  [B+'_base.py:BaseOptimizer.run', B+'base.py:BaseBO.step', B+'base.py:BaseBO.ask', B+'base.py:BaseBO.create_DoE', B+'base.py:BaseBO.tell'])
p("C209", 'A run only evaluates feasible points',
  'During run() with constraints, every point on which the objective function is called satisfies the constraints up to the tolerances of the code (0.1 for equalities).',
  'every space of real, integer and categorical variables, constraint, objective function (noisy, failing and raising ones included), surrogate, random stream, budget, target, batch size and given data, and every number of iterations',
  'the points have four different origins, and only some combinations of precision, sample and constraint are affected',
  [B+'_base.py:BaseOptimizer.run', B+'base.py:BaseBO.step', B+'base.py:BaseBO.ask', B+'base.py:BaseBO.create_DoE', B+'base.py:BaseBO.tell'])
p("C210", 'run returns the first best observation of the whole run',
  'What run() returns is the earliest best point among the given data and all points on which it called the objective function with a finite result, with the value observed there; eval_count is the number of calls; run returned because this number reached max_FEs or because the returned value is better than the target. When values are minimised and there is a target, run calls the objective function again only while no known value is below the target.',
  'every space of real, integer and categorical variables, constraint, objective function (noisy, failing and raising ones included), surrogate, random stream, budget, target, batch size and given data, and every number of iterations',
  'the claim is about all histories of proposals and values',
  [B+'_base.py:BaseOptimizer.run', B+'base.py:BaseBO.step', B+'base.py:BaseBO.ask', B+'base.py:BaseBO.create_DoE', B+'base.py:BaseBO.tell'])
p("C211", 'A run calls the objective function at most max_FEs - 1 + max(n_point, DoE_size) times',
  'With a budget of at least one, the number of calls of the objective function during run() is smaller than max_FEs plus the larger of n_point and DoE_size, also when run raises or has not returned yet.',
  'every space of real, integer and categorical variables, constraint, objective function (noisy, failing and raising ones included), surrogate, random stream, budget, target, batch size and given data, and every number of iterations',
  'the bound must hold for each history, also for those that end with an exception',
  [B+'_base.py:BaseOptimizer.run', B+'base.py:BaseBO.step', B+'base.py:BaseBO.ask', B+'base.py:BaseBO.create_DoE', B+'base.py:BaseBO.tell'])
p("C212", 'A run that raises keeps its observations',
  'If run() raises, in whatever iteration and from whatever cause, the data of the optimizer are the given data followed by all finite observations of the completed iterations in order, and possibly some of the last iteration.',
  'every space of real, integer and categorical variables, constraint, objective function (noisy, failing and raising ones included), surrogate, random stream, budget, target, batch size and given data, and every number of iterations',
  'an exception can come from the objective function, from ask, from the surrogate and from tell, in each iteration',
  [B+'_base.py:BaseOptimizer.run', B+'base.py:BaseBO.step', B+'base.py:BaseBO.ask', B+'base.py:BaseBO.create_DoE', B+'base.py:BaseBO.tell'])
p("C213", 'A multi-objective run only evaluates points of the space',
  'During run() of MOBO, every objective function is only called on points of the space, however the run ends; if no real variable is rounded to a precision, the points satisfy the constraints.',
  'every space of real, integer and categorical variables, constraint, list of two or more objective functions (noisy, failing and raising ones included), orientation of the objectives, surrogate, random stream, budget, and every number of iterations',
  'a test observes a few runs; a point outside the space may come from the initial design, the proposals or the top-up in any iteration',
  [B+'_base.py:BaseOptimizer.run', B+'_base.py:BaseOptimizer.check_stop', B+'base.py:BaseBO.step', B+'base.py:BaseBO.ask', B+'mobo.py:BaseMOBO.tell', B+'mobo.py:BaseMOBO.evaluate', B+'mobo.py:BaseMOBO.xopt'])
p("C214", 'A multi-objective run never evaluates a point again',
  'During run() of MOBO, a point on which the objective functions were called in an earlier iteration is not proposed again, nor is a point equal to it up to the floating-point tolerance.',
  'every space of real, integer and categorical variables, constraint, list of two or more objective functions (noisy, failing and raising ones included), orientation of the objectives, surrogate, random stream, budget, and every number of iterations',
  'a repetition depends on the whole history of the run',
  [B+'_base.py:BaseOptimizer.run', B+'_base.py:BaseOptimizer.check_stop', B+'base.py:BaseBO.step', B+'base.py:BaseBO.ask', B+'mobo.py:BaseMOBO.tell', B+'mobo.py:BaseMOBO.evaluate', B+'mobo.py:BaseMOBO.xopt'])
p("C215", 'A multi-objective run returns the non-dominated observations',
  "run() of MOBO returns only when the budget is used up. Each objective function was then called once for each proposed point, in order. As long as the rounding to single precision keeps the order of the normalised values, the result is the list of observations that no observation of the run beats in the user's orientation, in the order in which they were made and with the values observed; of equal observations it holds the first. It is not empty.",
  'every space of real, integer and categorical variables, constraint, list of two or more objective functions (noisy, failing and raising ones included), orientation of the objectives, surrogate, random stream, budget, and every number of iterations',
  'a test observes a few fronts; the statement relates the result to every call made during the run',
  [B+'_base.py:BaseOptimizer.run', B+'_base.py:BaseOptimizer.check_stop', B+'base.py:BaseBO.step', B+'base.py:BaseBO.ask', B+'mobo.py:BaseMOBO.tell', B+'mobo.py:BaseMOBO.evaluate', B+'mobo.py:BaseMOBO.xopt'])
p("C216", 'Budget of a multi-objective run',
  'Whether run() of MOBO returns, raises or goes on, fewer than max_FEs + n_obj * max(n_point, DoE_size) calls of objective functions are made: the budget counts calls, not points.',
  'every space of real, integer and categorical variables, constraint, list of two or more objective functions (noisy, failing and raising ones included), orientation of the objectives, surrogate, random stream, budget, and every number of iterations',
  'the bound must hold for every point at which a run can stop',
  [B+'_base.py:BaseOptimizer.run', B+'_base.py:BaseOptimizer.check_stop', B+'base.py:BaseBO.step', B+'base.py:BaseBO.ask', B+'mobo.py:BaseMOBO.tell', B+'mobo.py:BaseMOBO.evaluate', B+'mobo.py:BaseMOBO.xopt'])
p("C217", 'A failed evaluation does not end a multi-objective run',
  'If an objective function returns NaN or an infinite value at a point, run() of MOBO goes on, and the other observations are kept.',
  'every space of real, integer and categorical variables, constraint, list of two or more objective functions (noisy, failing and raising ones included), orientation of the objectives, surrogate, random stream, budget, and every number of iterations',
  'a failure may happen in any objective, at any point of any iteration',
  [B+'_base.py:BaseOptimizer.run', B+'_base.py:BaseOptimizer.check_stop', B+'base.py:BaseBO.step', B+'base.py:BaseBO.ask', B+'mobo.py:BaseMOBO.tell', B+'mobo.py:BaseMOBO.evaluate', B+'mobo.py:BaseMOBO.xopt', B+'base.py:BaseBO.post_eval_check'])
p("C218", 'A multi-objective run with a target',
  'With a target value run() of MOBO returns when the target is reached or the budget is used up.',
  'every space of real, integer and categorical variables, constraint, list of two or more objective functions (noisy, failing and raising ones included), orientation of the objectives, surrogate, random stream, budget, and every number of iterations, and every target value',
  'it is a claim about all runs with a target, and a run with a target only fails after the first iteration',
  [B+'_base.py:BaseOptimizer.run', B+'_base.py:BaseOptimizer.check_stop', B+'base.py:BaseBO.step', B+'base.py:BaseBO.ask', B+'mobo.py:BaseMOBO.tell', B+'mobo.py:BaseMOBO.evaluate', B+'mobo.py:BaseMOBO.xopt'])
p("C219", 'The default optimizer of the acquisition function in MOBO',
  'Without an explicit choice of the optimizer, the acquisition function of MOBO can be optimized on every space, with every model and with or without constraints.',
  'every search space, model, number of objectives, constraint and choice of the optimizer',
  'the tests always name the optimizer; the default depends on the order in which the constructors set the attributes',
  [B+'mobo.py:BaseMOBO.__init__', B+'mobo.py:MOBO._create_acquisition', B+'base.py:BaseBO._set_internal_optimization', B+'acquisition/optim/__init__.py:Penalized.__call__', B+'multi_objective/analytic.py:EHVI.forward'])
p("C220", 'Hypervolume with any number of objectives',
  'With any number of objectives, when every point that is at least as good as the reference point is better than it in every objective, and the values of different points differ in each objective from the third to the last but one (or, more generally, whenever one of two different points is at least as good as the other in the objectives up to the one after), the computed hypervolume is exactly the measure of the region dominated by the points, whatever their number, order, ties elsewhere and duplicates. For four objectives it is enough that no point dominates another one. The value is then independent of the order of the points and does not decrease when points are added or improved.',
  'all numbers of objectives, all reference points, all finite sets of points in any order that satisfy the conditions',
  'the algorithm reuses cached areas and skips points that it believes to be covered, so its correctness depends on the interplay of all levels of the recursion for every order of the points; tests evaluate a few fronts',
  [B+'utils/multi_objective/hypervolume.py:Hypervolume.compute', B+'utils/multi_objective/hypervolume.py:Hypervolume._hv_recursive'])
p("C221", 'A solution set written as CSV can be read back',
  'Solution.to_csv writes a header and one line per solution, in order; splitting the lines of the file at the delimiter gives back the variable names and, for every solution, its label, components, number of evaluations and objective values.',
  'all solution sets with any number of rows, variables and objectives, all values, labels and names, all delimiters and all ways of turning values into text',
  'the file is ambiguous only for particular texts, which a test has to guess; that every other set is recovered is a statement about all sets and all texts',
  [B+'solution.py:Solution.to_csv'])
p("C222", 'Appending to a CSV file is concatenating',
  'Writing a solution set a to a file and appending a set b to it leaves the same file as writing a + b.',
  'all pairs of solution sets that can be concatenated, all delimiters, with and without header, all earlier contents of the file',
  'relates two different ways of computing a file for all pairs of sets',
  [B+'solution.py:Solution.to_csv', B+'solution.py:Solution.__add__'])
p("C223", 'The data file of a run holds every observation',
  'With data_file set, after any history of calls of tell the file holds one line (label, components, number of evaluations, objective value) for every observation of the optimizer, in order, and nothing else.',
  'all optimizers of BaseBO, all histories of calls of tell of any length, including calls that raise, all earlier contents of the file',
  'depends on the whole history: which calls raised and at which point',
  [B+'base.py:BaseBO.tell', B+'solution.py:Solution.to_csv'])
p("C224", 'The data file never holds more than was observed',
  'Whatever calls of tell were made and whichever of them raised, the earlier contents of the data file are kept and the lines added are lines of observations the optimizer holds, in the same order, each at most once.',
  'all histories of calls of tell of any length, including calls that raise, all earlier contents of the file',
  'a statement about every history and every point at which a call can raise',
  [B+'base.py:BaseBO.tell', B+'solution.py:Solution.to_csv'])
p("C225", 'The data file of a multi-objective run is complete',
  'The data file of a multi-objective optimizer holds, after any history of calls of tell, one line for every observation of the optimizer, in order, also when calls raise, for example because a model could not be fitted.',
  'all numbers of objectives, all histories of calls of tell without labels, including calls that raise, all earlier contents of the file',
  'a statement about every history and every point at which a call can raise',
  [B+'mobo.py:BaseMOBO.tell', B+'solution.py:Solution.to_csv'])
p("C226", 'A multi-objective optimizer is consistent',
  'A multi-objective optimizer that was constructed has at least two objectives, one direction (minimise or maximise) for each and, if objective functions are given, one for each objective; arguments that do not fit together are rejected.',
  'all numbers of objectives, all sequences of objective functions or none, all values of minimize',
  'quantifies over all combinations of constructor arguments, including the ones nobody thought of testing',
  [B+'mobo.py:BaseMOBO.__init__', B+'mobo.py:BaseMOBO._check_obj_fun', B+'mobo.py:BaseMOBO._check_minimize'])
p("C227", 'Multi-objective optimizers accept warm data',
  'Data known beforehand, given as warm_data with one list of objective values for each point, is accepted by the multi-objective optimizers.',
  'all non-empty lists of points and all values, with two or more objectives',
  'a test shows one rejected example; that no warm data at all can be used is a statement about all of them',
  [B+'mobo.py:BaseMOBO.__init__', B+'base.py:BaseBO.warm_data'])
p("C228", 'Batches of multi-objective proposals',
  'After the initial design the multi-objective optimizers propose the requested number of points, one or several, by optimizing the expected hypervolume improvement.',
  'all requested acquisition functions, all numbers of points, for MOBO and MOBO_qEHVI',
  'quantifies over all requests made to an optimizer after any history that fitted a model',
  [B+'mobo.py:MOBO_qEHVI', B+'mobo.py:MOBO._create_acquisition', B+'base.py:BaseBO._batch_arg_max_acquisition'])
p("C229", 'The requested acquisition function is used or rejected',
  'The acquisition function requested in the constructor is the one optimized by ask; a request that cannot be fulfilled is rejected by the constructor.',
  'all values of acquisition_fun: all names, callables and other objects',
  'quantifies over all names; the failure shows only after the evaluations of the initial design have been paid for',
  [B+'base.py:BaseBO.acquisition_fun', B+'base.py:BaseBO._create_acquisition', B+'bayes_opt.py:BO._create_acquisition', B+'base.py:BaseBO._check_params'])
p("C230", 'A Gaussian process can be made in the documented ways',
  'GaussianProcess(...) returns a model for finite bounds and, as documented, without bounds (theta0 is then used as it is). Bounds that are not finite and unknown likelihood functions are refused; a nugget of zero gives a model without noise, another nugget one with that noise, and noise_estim one with estimated noise.',
  'all bounds (given or not), nuggets, likelihood names and other arguments',
  'The tests make models with bounds only.',
  [B+'surrogate/gaussian_process/gpr.py:GaussianProcess.__init__'])
p("C231", 'The nugget may be given for each observation',
  'As documented, GaussianProcess accepts an array of noise variances, one for each observation.',
  'all arrays and all other arguments',
  'No test passes an array.',
  [B+'surrogate/gaussian_process/gpr.py:GaussianProcess.__init__'])
p("C232", 'Wrong parameters are refused before the search',
  'fit goes on to the search for the parameters exactly if the correlation function and the optimizer are known, the bounds have equal lengths with 0 < lower <= upper in every entry, and theta0, if given, has their length; otherwise it raises ValueError without starting the search.',
  'all arguments of the constructor, all data and all searches',
  'The arguments range over lists of any length and arbitrary names.',
  [B+'surrogate/gaussian_process/gpr.py:GaussianProcess._check_params', B+'surrogate/gaussian_process/gpr.py:GaussianProcess._check_data', B+'surrogate/gaussian_process/gpr.py:GaussianProcess.fit'])
p("C233", 'A wrong starting point is refused',
  'fit raises if theta0 is not positive or lies outside the bounds.',
  'all starting points and bounds',
  'One needs the starting points that no test tries.',
  [B+'surrogate/gaussian_process/gpr.py:GaussianProcess._check_params', B+'surrogate/gaussian_process/gpr.py:GaussianProcess._optimize_hyperparameter'])
p("C234", 'One correlation parameter may serve all features',
  'As documented, a model whose bounds have one entry can be fitted to points with any number of features.',
  'all numbers of points and features, all searches',
  'The tests give as many bounds as features.',
  [B+'surrogate/gaussian_process/gpr.py:GaussianProcess.__init__', B+'surrogate/gaussian_process/gpr.py:GaussianProcess.fit', B+'surrogate/gaussian_process/trend.py:BasisExpansionTrend.check_input'])
p("C235", 'A trend for another number of features is refused',
  'fit raises if the trend was made for a number of features different from that of the points.',
  'all numbers of points and features, all trends and searches',
  'Only one coincidence of sizes goes wrong, and there fit does not end.',
  [B+'surrogate/gaussian_process/gpr.py:GaussianProcess.fit', B+'surrogate/gaussian_process/trend.py:BasisExpansionTrend.check_input'])
p("C236", 'Refitting does not depend on earlier data',
  'Whether a model is fitted with noise, and with which noise variance, depends on the arguments it was made with and the data of the last fit, not on the data that it was fitted to before.',
  'all sequences of fits, all data and all results of the search',
  'A history of fits is needed in which one likelihood was rejected.',
  [B+'surrogate/gaussian_process/gpr.py:GaussianProcess.fit'])
p("C237", 'A failed fit leaves the fitted model usable',
  'If fit raises, predict still works and answers as before.',
  'all sizes of the old and the new data, all failures',
  'A failure after a completed fit is not tried in tests.',
  [B+'surrogate/gaussian_process/gpr.py:GaussianProcess.fit', B+'surrogate/gaussian_process/gpr.py:GaussianProcess._check_data', B+'surrogate/gaussian_process/gpr.py:GaussianProcess.predict'])
p("C238", 'Bounds of the length scales are relative to the ranges of the variables',
  "The scikit-learn wrapper bounds the length scale of each variable by the given pair (its own, or the only one) times the width of the variable's range, and refuses another number of pairs.",
  'all numbers of variables and pairs, all values',
  'Broadcasting depends on the sizes; tests use the default.',
  [B+'surrogate/gaussian_process/__init__.py:GaussianProcessSklearn._set_length_scale_bounds'])
p("C239", 'The wrapper fits one model for each objective',
  'fit of the scikit-learn wrapper raises ValueError exactly if the number of columns of X is not the number of variables or the number of columns of y is not the number of objectives; otherwise model i gets column i of y.',
  'all numbers of variables, objectives and columns',
  'All combinations of sizes are meant.',
  [B+'surrogate/gaussian_process/__init__.py:GaussianProcessSklearn._check_dims', B+'surrogate/gaussian_process/__init__.py:GaussianProcessSklearn.fit'])
p("C240", 'All computations of the hypervolume agree',
  'For the same outcomes and reference point, Hypervolume.compute, the binary partitioning and the fast partitioning report the same hypervolume, also when the partitionings got the outcomes in batches.',
  'all numbers of objectives, reference points, outcomes and batches',
  'Three different algorithms are compared on all inputs.',
  [B+'utils/multi_objective/hypervolume.py:Hypervolume.compute', B+'utils/multi_objective/box_decompositions/non_dominated.py:NondominatedPartitioning.compute_hypervolume', B+'utils/multi_objective/box_decompositions/non_dominated.py:FastNondominatedPartitioning.compute_hypervolume'])
p("C241", 'Repairing a batch of points is repairing each point',
  'handle_box_constraint on a matrix with one point per row returns the matrix of the repaired points, and on a vector the repaired point; a shape that fits the bounds in no direction is refused; every returned entry is a number inside its bounds.',
  'all numbers of points and variables, all bounds, all values',
  'The shapes of the arguments and their values range over infinite sets, and the failure needs a coincidence of two sizes.',
  [B+'utils/utils.py:handle_box_constraint'])
p("C242", "Box repair leaves the caller's data alone",
  'Calling handle_box_constraint does not change the object passed as the point or the matrix of points.',
  'all arguments, array or not, all shapes and bounds',
  'A test looks at the returned value; the effect on the argument depends on how it is stored.',
  [B+'utils/utils.py:handle_box_constraint'])
p("C243", 'Bounds can be given once for all variables or one by one',
  'set_bounds returns one bound for each variable: a number, a list with one entry, or the text of one of these, stands for all variables; a list with an entry for each variable is kept; everything else is refused with an error.',
  'all arguments (numbers, texts, iterables, other values) and dimensions',
  'The argument is of any type and length.',
  [B+'utils/utils.py:set_bounds'])
p("C244", 'Settings of the inner optimization are read as integers',
  'arg_to_int, used for max_FEs, n_restart and wait_iter of the acquisition optimization, returns an integer unchanged, the integer part of a finite float, and for a text what it returns for the value of the text; everything else is refused.',
  'all arguments and all texts',
  'The argument is of any type and any size.',
  [B+'utils/utils.py:arg_to_int', B+'base.py:BaseBO._set_internal_optimization'])
p("C245", 'An acquisition function takes several points at once',
  'Calling UCB, EI, EpsilonPI, PI or MGFI with a matrix of points returns the value at each of the points, which is the one that a call with this point returns.',
  'all surrogates, parameters, numbers of points',
  'Surrogates and points range over infinite sets.',
  [B+'acquisition/acquisition_fun.py:UCB.__call__', B+'acquisition/acquisition_fun.py:EI.__call__', B+'acquisition/acquisition_fun.py:EpsilonPI.__call__', B+'acquisition/acquisition_fun.py:MGFI.__call__'])
p("C246", 'The Hessian of a Gaussian process is that of its prediction',
  'Hessian(x) of a fitted Gaussian process returns the matrix of the second derivatives of the predicted mean at x.',
  'all correlation functions, trends, numbers of features and training points, all parameters and query points',
  'The points and the parameters are real vectors of any size, and a comparison with finite differences settles single points only.',
  [B+'surrogate/gaussian_process/gpr.py:GaussianProcess.Hessian', B+'surrogate/gaussian_process/gpr.py:GaussianProcess.corr_Hessian', B+'surrogate/gaussian_process/trend.py:linear_trend.Hessian'])
p("C247", 'The Hessian of a Gaussian process is symmetric',
  'Whatever matrix Hessian(x) of a fitted Gaussian process returns is symmetric.',
  'all correlation functions, trends, training data, parameters and query points for which a matrix is returned',
  'The points and the parameters are real vectors of any size.',
  [B+'surrogate/gaussian_process/gpr.py:GaussianProcess.Hessian', B+'surrogate/gaussian_process/gpr.py:GaussianProcess.corr_Hessian'])
p("C248", 'The constructor of a search space creates the variables that were asked for',
  'RealSpace, IntegerSpace, DiscreteSpace, OrdinalSpace and SubsetSpace create one variable for each range, in the order of the ranges, with the name, the default value, the precision, the scale and the step given for that position (a single value holds for all of them, an omitted one is the default of the class); sensible arguments are accepted; a flat list is one range; an empty list, and a number in place of one of several ranges, are refused.',
  'all numbers of ranges, all ranges, names, default values and options, given once or one by one',
  'The number of variables and the combination of options are unbounded.',
  [B+'search_space/search_space.py:RealSpace', B+'search_space/search_space.py:IntegerSpace', B+'search_space/search_space.py:DiscreteSpace', B+'search_space/search_space.py:OrdinalSpace', B+'search_space/search_space.py:SubsetSpace', B+'search_space/search_space.py:SearchSpace._ready_args'])
p("C249", 'The default value of a variable is one of its values',
  'After constructing a search space the default value of every variable, if it has one, lies in the range of the variable.',
  'all ranges, scales and default values',
  'The failure needs a scale whose working range cuts the given range.',
  [B+'search_space/search_space.py:RealSpace', B+'search_space/variable.py:Real', B+'search_space/variable.py:Variable.set_default_value'])
p("C250", 'The default value of a subset variable can be given as the subset',
  'SubsetSpace(bounds, default_value=subset) constructs a variable with that default value when the subset, a tuple, is one of the values of the variable.',
  'all sets of elements and all subsets',
  'The elements and the subsets are of any size.',
  [B+'search_space/search_space.py:SubsetSpace', B+'search_space/search_space.py:SearchSpace._ready_args', B+'search_space/variable.py:Subset'])
p("C251", 'Boolean search spaces have one variable for each name',
  'BoolSpace(var_name, default_value) constructs a Boolean variable for each given name, whose default value is the given one and True if none is given; default values of other types are refused.',
  'all lists of names and default values',
  'The number of names is unbounded.',
  [B+'search_space/search_space.py:BoolSpace', B+'search_space/search_space.py:SearchSpace._ready_args', B+'search_space/variable.py:Bool'])
p("C252", "A dictionary of a population by variable lists each variable's values in the order of the rows",
  "For a population whose variables have distinct names, to_dict(orient='var') has exactly one entry per variable, in the order of the variables, and the entry of a variable is the list of its values in the rows, in the order of the rows; with with_index=True and distinct labels, each entry maps the label of every row to the value in that row.",
  'every population, number of variables and labels',
  'Sizes, values and labels are arbitrary; tests look at one small table, where a shifted or reordered column can go unnoticed.',
  [B+'solution.py:Solution.to_dict'])
p("C253", 'A space has exactly the conditions given with its variables',
  'After SearchSpace(variables), the condition trees of the space contain, for every condition of a variable of the space on a variable of the space, this condition exactly once, and nothing else; variables whose conditions depend on each other in a cycle are refused.',
  'every list of variables with conditions, any depth of nesting',
  'Nesting depth and the order of the variables are unbounded; tests construct one or two levels.',
  [B+'search_space/search_space.py:SearchSpace.__init__', B+'search_space/search_space.py:SearchSpace._set_structure', B+'search_space/node.py:Node.from_dict'])
p("C254", 'Sub-spaces keep the conditions among their variables, each once',
  'Taking some variables of a space (slice, list of positions, filter, difference, pop, remove) gives a space whose condition trees are those of the space restricted to nodes all of whose ancestors are taken; in particular taking all variables gives the same conditions.',
  'every space, every choice of variables',
  'The number of sub-spaces is exponential and conditions nest arbitrarily.',
  [B+'search_space/search_space.py:SearchSpace.__getitem__', B+'search_space/search_space.py:SearchSpace.__sub__', B+'search_space/search_space.py:SearchSpace.filter', B+'search_space/search_space.py:SearchSpace.pop', B+'search_space/search_space.py:SearchSpace.remove'])
p("C255", 'The unconditional sub-spaces of a space can always be listed, and listing them changes nothing',
  'get_unconditional_subspace works for every space that was constructed from variables with conditions or taken as a sub-space of such a space; no variable appears twice in a sub-space; the variables keep their names.',
  'every space, every sub-space of it',
  'Depends on the history of operations by which the space was made.',
  [B+'search_space/search_space.py:SearchSpace.get_unconditional_subspace', B+'search_space/search_space.py:SearchSpace.__getitem__', B+'search_space/search_space.py:SearchSpace._check_data'])
p("C256", 'The sum of two spaces has the conditions of both',
  'For two spaces with different variable names, s + t is the space of both lists of variables, with the conditions of both.',
  'every pair of spaces',
  'All pairs of spaces with arbitrary conditions; tests add spaces without conditions.',
  [B+'search_space/search_space.py:SearchSpace.__add__', B+'search_space/search_space.py:SearchSpace.concat', B+'search_space/node.py:Node.deepcopy'])
p("C257", 'The in-place operations treat conditions as the others do',
  'After s -= t (s += t), the variables and condition trees of s are those of s - t (s + t).',
  'every pair of spaces',
  'All pairs of spaces with arbitrary conditions.',
  [B+'search_space/search_space.py:SearchSpace.__isub__', B+'search_space/search_space.py:SearchSpace.__iadd__', B+'search_space/search_space.py:SearchSpace.__sub__', B+'search_space/search_space.py:SearchSpace.__add__'])
p("C258", 'Constructing a space does not change the structure passed by the caller',
  'After SearchSpace(variables, structure=d) the dictionary d is as before, so that constructing a second time from the same arguments gives the same space.',
  'every dictionary, every list of variables',
  'A second use of the arguments is needed to see it; all dictionaries and variable lists are possible.',
  [B+'search_space/search_space.py:SearchSpace.__init__', B+'search_space/search_space.py:SearchSpace._set_structure'])
p("C259", 'Every copy in a replicated space has the conditions of the space',
  'In s * N each of the N copies of the variables has the conditions of s among its own variables.',
  'every space, every N',
  'All spaces with conditions and all N.',
  [B+'search_space/search_space.py:SearchSpace.__mul__', B+'search_space/search_space.py:SearchSpace._set_structure'])
p("C260", 'A flat objective is reported exactly when the values do not vary',
  'After any sequence of calls, tell raises the flat-fitness error if and only if more than five finite values have been observed and their standard deviation is at most 1e-8.',
  'every history of observations, any number and order of values',
  'All histories of any length; tests use one constant function.',
  [B+'base.py:BaseBO.update_model', B+'base.py:BaseBO.tell'])
p("C261", 'fmin accepts only starting points that fit its bounds',
  'fmin returns only if every starting point has exactly one floating-point coordinate for each bound; if starting points with known values do not fit, fmin raises before the function is evaluated.',
  'every function, every list of starting points and bounds',
  'All shapes of starting points; tests pass correct points.',
  [B+'__init__.py:fmin', B+'base.py:BaseBO.warm_data'])
p("C262", 'An aggregation of surrogate models predicts the aggregated value',
  'For any surrogate models with uncorrelated predictions, the weighted-sum aggregation predicts at each point the mean and variance of the weighted sum of their predictions; a number of weights other than the number of models, missing weights and an unknown kind of aggregation are refused; the other aggregations offered by the constructor predict the corresponding value.',
  'every list of models and weights, every set of points',
  'Numbers of models, weights and points are arbitrary.',
  [B+'surrogate/random_forest.py:SurrogateAggregation.__init__', B+'surrogate/random_forest.py:SurrogateAggregation.predict'])
p("C263", 'After renaming, the variables of a space have the names given, and so have their conditions',
  'Assigning a list of names to var_name gives the variables these names in order and changes nothing else; assigning a string numbers the variables with distinct names; a wrong number of names is refused; the conditions of the space refer to the new names.',
  'every space, every list of names',
  'All spaces with any conditions; tests rename spaces without conditions.',
  [B+'search_space/search_space.py:SearchSpace.var_name'])
p("C264", 'A box decomposition of several sets treats every set as if it were alone',
  'For two objectives and one reference point, after construction with a batch of sets of outcomes and any further updates, both partitionings return for every set cells that partition what the outcomes of this set leave undominated above the reference point, and the hypervolume of this set; the number of cells is the same for all sets.',
  'every reference point, batch size, number of outcomes, sequence of batches, sorting order of ties',
  'Fronts of different sizes are padded with repeated points; whether the padding creates cells or volume depends on the outcomes of all sets at once.',
  [B+'utils/multi_objective/box_decompositions/utils.py:_pad_batch_pareto_frontier', B+'utils/multi_objective/box_decompositions/utils.py:_expand_ref_point', B+'utils/multi_objective/box_decompositions/box_decomposition.py:BoxDecomposition', B+'utils/multi_objective/box_decompositions/non_dominated.py:NondominatedPartitioning', B+'utils/multi_objective/box_decompositions/non_dominated.py:FastNondominatedPartitioning'])
p("C265", 'A box decomposition of several sets may have a reference point for each set',
  'The same holds when every set has its own reference point, including sets that have no outcome better than their reference point.',
  'every list of reference points, number of outcomes, sequence of batches, sorting order of ties',
  'Whether a set without better outcomes is padded or treated separately depends on the outcomes of all other sets.',
  [B+'utils/multi_objective/box_decompositions/utils.py:_pad_batch_pareto_frontier', B+'utils/multi_objective/box_decompositions/utils.py:_expand_ref_point', B+'utils/multi_objective/box_decompositions/non_dominated.py:NondominatedPartitioning', B+'utils/multi_objective/box_decompositions/non_dominated.py:FastNondominatedPartitioning'])
p("C266", 'An item of a dictionary that describes no variable is refused',
  'SearchSpace.from_dict raises if an item has an empty range, a lower bound that is not below the upper bound, or a step of zero.',
  'every dictionary, every position of the item among valid ones',
  'All dictionaries and positions; a test shows one accepted dictionary.',
  [B+'search_space/search_space.py:SearchSpace.from_dict'])
p("C267", 'The constructors of acquisition functions refuse foreign arguments and use their own',
  'A keyword argument of another acquisition function is refused with a TypeError; an object that is constructed holds the parameter and the plugin value given (negated for maximisation) and the documented default for a parameter that is not given.',
  'every class, combination of keyword arguments, direction, surrogate',
  'All combinations and values of arguments.',
  [B+'acquisition/acquisition_fun.py:UCB.__init__', B+'acquisition/acquisition_fun.py:EpsilonPI.__init__', B+'acquisition/acquisition_fun.py:MGFI.__init__', B+'acquisition/acquisition_fun.py:ImprovementBased.plugin'])
p("C268", 'A positive threshold only enlarges the reported hypervolume, and not beyond the ideal box',
  'With any threshold alpha (cells below that fraction of the volume are left out), after construction and any updates, the hypervolume reported by the binary partitioning is at least the measure of the region that the outcomes given so far dominate above the reference point, and at most the volume between the reference point and any point at least as good in every objective as all outcomes above the reference.',
  'every number of objectives, reference point, threshold, finite sequence of batches with ties and duplicates',
  'All thresholds and histories of updates; a test computes one number.',
  [B+'utils/multi_objective/box_decompositions/non_dominated.py:NondominatedPartitioning._partition_space', B+'utils/multi_objective/box_decompositions/non_dominated.py:NondominatedPartitioning.compute_hypervolume'])
p("C269", 'A search space saved with to_json is read back by from_json',
  'SearchSpace.to_json followed by SearchSpace.from_json on the same file gives a space with the same variables.',
  'every search space, file name, contents of the files before',
  'All spaces; a test saves one.',
  [B+'search_space/search_space.py:SearchSpace.to_json', B+'search_space/search_space.py:SearchSpace.from_json', B+'search_space/search_space.py:SearchSpace.to_dict'])
p("C270", 'The conditional optimizer counts the points it was told',
  'After any sequence of calls of ask and tell on a ConditionalBO, eval_count is the number of points that were told in calls without warm_start, and data are the observations with a finite value in the order in which they were told.',
  'every sequence of calls of ask and tell, batch sizes, values (NaN and infinite ones included), proposals of the sub-optimizers, random choices',
  'All histories; a test makes a few calls with finite values.',
  [B+'extension.py:ConditionalBO.ask', B+'extension.py:ConditionalBO.tell', B+'extension.py:ConditionalBO._create_optimizer'])
p("C271", 'A run of the conditional optimizer with a budget ends',
  'run() of a ConditionalBO with max_FEs = m ends, and eval_count then exceeds the budget by less than one batch.',
  'every budget, batch size, objective function (noisy, failing or raising), proposals, random choices',
  'Termination for all objective functions; a test runs one that does not fail.',
  [B+'extension.py:ConditionalBO.tell', B+'extension.py:ConditionalBO.ask', B+'_base.py:BaseOptimizer.run'])
p("C272", 'Each observation reaches the optimizer of the sub-space that proposed the point',
  'When points returned by ask of a ConditionalBO are told with their values, each observation is added to the optimizer of the sub-space that proposed this point, and to no other one.',
  'every history, batch size, proposals, random choices, values, order of asks and tells',
  'All histories with several batches under way; a test tells each batch at once.',
  [B+'extension.py:ConditionalBO.ask', B+'extension.py:ConditionalBO.tell', B+'extension.py:ConditionalBO.select_subspace'])
p("C273", 'The conditional optimizer recommends the first best observation',
  'After any history with a tell, xopt of a ConditionalBO is the first of the best finite observations, and hist_f has one entry for each tell without warm_start: a best value of all that was told until then.',
  'every history of asks and tells, minimization and maximization, values, proposals, random choices',
  'All histories; a test looks at one.',
  [B+'extension.py:ConditionalBO.tell', B+'_base.py:BaseOptimizer.xopt'])
p("C274", 'Evaluation counters of the observations of the conditional optimizer',
  'Each row of data of a ConditionalBO carries as n_eval the number of times this point was told.',
  'every history',
  'All histories; no test reads the counter.',
  [B+'extension.py:ConditionalBO.tell', B+'solution.py:Solution.from_dict'])
p("C275", 'Correlation matrices are positive definite',
  'For the squared exponential, the absolute exponential and the Matern correlation with positive parameters, the correlation matrix of any points is positive semi-definite, and it is positive definite if the points are pairwise different.',
  'every number of points and of dimensions, all points, all positive parameters (one for all dimensions or one for each)',
  'Positive definiteness is a statement about every vector and every set of points; a test factors a few matrices in floating point.',
  [B+'surrogate/gaussian_process/gpr.py:GaussianProcess.correlation_matrix', B+'surrogate/gaussian_process/kernel.py:squared_exponential', B+'surrogate/gaussian_process/kernel.py:absolute_exponential', B+'surrogate/gaussian_process/kernel.py:matern'])
p("C276", 'The generalized exponential correlation is valid exactly up to the exponent two',
  'With the generalized exponential correlation the matrix of any points is positive semi-definite if the exponent (the last parameter) is at most two, and for every larger exponent there are parameters and points for which it is not.',
  'every number of points and of dimensions, all points, all positive parameters, every exponent',
  'All exponents, all points and all vectors.',
  [B+'surrogate/gaussian_process/gpr.py:GaussianProcess.correlation_matrix', B+'surrogate/gaussian_process/kernel.py:generalized_exponential'])
p("C277", 'Every correlation function on offer gives positive semi-definite matrices',
  'Whatever correlation function is chosen, the correlation matrix of any points is positive semi-definite for all positive parameters, so the likelihood of data with noise can be computed.',
  'every correlation function, all points, all positive parameters',
  'All points and vectors; the failures need at least several points in a special position.',
  [B+'surrogate/gaussian_process/gpr.py:GaussianProcess.correlation_matrix', B+'surrogate/gaussian_process/gpr.py:GaussianProcess.log_likelihood_concentrated', B+'surrogate/gaussian_process/kernel.py:cubic', B+'surrogate/gaussian_process/kernel.py:generalized_exponential'])
p("C278", 'The likelihood can be computed',
  'For the squared exponential, the absolute exponential and the Matern correlation the factorisation behind the likelihood never fails: with a positive variance of the noise for any points, repeated ones included; with an estimated noise for any share of the noise above zero; without noise for pairwise different points.',
  'all points, values, trends, positive parameters, variances',
  'All data sets and parameters; a test fits a few.',
  [B+'surrogate/gaussian_process/gpr.py:GaussianProcess.log_likelihood_concentrated', B+'surrogate/gaussian_process/gpr.py:GaussianProcess._compute_aux_var', B+'surrogate/gaussian_process/gpr.py:GaussianProcess.correlation_matrix'])
p("C279", 'Without noise a repeated point makes all parameters infeasible',
  'If two training points are equal and there is no noise, the likelihood is -inf for all positive parameters, whatever the correlation function and the values.',
  'all data sets with a repeated point, all correlation functions, all positive parameters',
  'All data sets and parameters.',
  [B+'surrogate/gaussian_process/gpr.py:GaussianProcess.log_likelihood_concentrated', B+'surrogate/gaussian_process/gpr.py:GaussianProcess._compute_aux_var'])
p("C280", 'Without noise the predicted variance is the smallest error, and zero exactly at the data',
  'For a model fitted without noise with the squared exponential, absolute exponential or Matern correlation, predict(X, eval_MSE=True) returns at every point the smallest mean squared error of a linear predictor that is unbiased for the trend. It is never negative, it is zero at the points of the data and positive at every other point.',
  'all training data, trends, targets, positive parameters, all new points, all weights of linear predictors',
  'Positivity away from the data, and optimality among all predictors, concern every point and every vector of weights.',
  [B+'surrogate/gaussian_process/gpr.py:GaussianProcess.predict', B+'surrogate/gaussian_process/gpr.py:GaussianProcess.log_likelihood_concentrated', B+'surrogate/gaussian_process/gpr.py:GaussianProcess._compute_aux_var'])
p("C281", 'The prior covariance of a set of points is a covariance matrix',
  'For the squared exponential, absolute exponential and Matern correlation prior_cov(X) is symmetric and positive semi-definite; it is positive definite if the points are pairwise different and the variance of a target is not zero.',
  'all sets of points, positive parameters, variances and numbers of targets',
  'All sets of points and all vectors.',
  [B+'surrogate/gaussian_process/gpr.py:GaussianProcess.prior_cov'])
p("C282", 'With noise an uncertainty remains at the data',
  'If the observations have noise, the variance that predict reports at an observed point is the mean squared error of the best linear predictor there, which is positive.',
  'all training data, noise variances, positive parameters, new points',
  'All data and parameters; a test at a few points does not show what happens at every data point of every fit.',
  [B+'surrogate/gaussian_process/gpr.py:GaussianProcess.predict', B+'surrogate/gaussian_process/gpr.py:GaussianProcess.log_likelihood_concentrated'])
p("C283", 'The evolution strategy can reach every point of the search space',
  'From any point of a search space one mutation of the mixed-integer evolution strategy can produce any other point of the space, rounded to the precisions of the real variables. So a run that is not stopped before its first generation may evaluate any point, whatever its initial population.',
  'all search spaces with proper variables of all types, all pairs of points, initial populations, objectives and stopping rules',
  'That no value of any variable is out of reach concerns every pair of points; a test only sees the offspring that were drawn.',
  [B+'acquisition/optim/mies.py:MIES.mutate', B+'acquisition/optim/mies.py:MIES._mutate_r', B+'acquisition/optim/mies.py:MIES._mutate_i', B+'acquisition/optim/mies.py:MIES._mutate_d', B+'acquisition/optim/mies.py:MIES.optimize'])
p("C284", 'The cells of a box decomposition measure what an outcome adds to the hypervolume',
  'For every outcome, the total volume of the parts of the hypercells that lie below the outcome is the increase of the hypervolume when the outcome is added to those given so far; for the fast partitioning also the difference of compute_hypervolume after and before an update with the outcome.',
  'every reference point, every history of batches of outcomes (ties, duplicates, dominated outcomes, outcomes below the reference, empty batches), every outcome, in any position relative to the reference and to the front, every grid the measure is computed on',
  'A cell that is missing, overlaps another one or ends at the wrong value only shows for outcomes that fall into it; there are infinitely many outcomes and configurations of fronts.',
  [B+'utils/multi_objective/box_decompositions/non_dominated.py:FastNondominatedPartitioning', B+'utils/multi_objective/box_decompositions/non_dominated.py:NondominatedPartitioning.get_hypercell_bounds', B+'utils/multi_objective/box_decompositions/box_decomposition.py:FastPartitioning.update'])
p("C285", 'EHVI is the expectation of the improvement of the hypervolume',
  'The value that EHVI returns for a prediction is the expectation, over independent normal outcomes with the predicted means and deviations, of a function of the outcome that equals the increase of the reported hypervolume when the decomposition is updated with the outcome, for all outcomes up to the cut that the code applies to infinite bounds; this function is never negative and grows with the outcome.',
  'every reference point with two or more objectives, every history of outcomes below the cut, every prediction (means and variances of any size), every outcome below the cut',
  'The value is an integral over all outcomes of a quantity that depends on the whole decomposition; tests compare a few values with sampled estimates.',
  [B+'multi_objective/analytic.py:EHVI.forward', B+'multi_objective/analytic.py:EHVI.psi', B+'multi_objective/analytic.py:EHVI.nu', B+'multi_objective/analytic.py:EHVI.__init__', B+'utils/multi_objective/box_decompositions/non_dominated.py:FastNondominatedPartitioning'])
p("C286", 'Updating the fast partitioning with two objectives',
  'With two objectives, after construction and any number of further updates of the fast partitioning, the hypercells partition the region above the reference that no outcome given so far dominates, compute_hypervolume is the measure of the dominated region, the parts of the cells below an outcome add up to the increase of the hypervolume by an update with it, and EHVI over these cells is the expectation of this increase.',
  'every reference point, every first batch and list of further batches (ties, duplicates, dominated outcomes, outcomes below the reference, empty batches), every outcome, every prediction, every stable or unstable sort',
  'Cells are recomputed only when the sorted front differs from the last one; a stale decomposition needs a particular history of updates.',
  [B+'utils/multi_objective/box_decompositions/box_decomposition.py:FastPartitioning.update', B+'utils/multi_objective/box_decompositions/box_decomposition.py:BoxDecomposition.reset', B+'utils/multi_objective/box_decompositions/non_dominated.py:FastNondominatedPartitioning._partition_space_2d', B+'utils/multi_objective/box_decompositions/non_dominated.py:FastNondominatedPartitioning.compute_hypervolume', B+'multi_objective/analytic.py:EHVI.forward'])
p("C287", 'The expected hypervolume improvement is positive while an improvement is possible',
  'If some outcome below the cut at which upper bounds are clamped would be above the reference and not dominated by the outcomes given so far, then EHVI over the cells of the fast partitioning is positive at every prediction, however bad its mean and however small its variance.',
  'every number of objectives from two on, every reference point and history of batches below the cut, every prediction of as many means and variances, given an improving outcome below the cut',
  'A test samples predictions; a cell lost by an update, or a clamped variance or bound that cancels a side, would give zero at particular ones.',
  [B+'multi_objective/analytic.py:EHVI.forward', B+'multi_objective/analytic.py:EHVI.psi', B+'multi_objective/analytic.py:EHVI.nu', B+'utils/multi_objective/box_decompositions/box_decomposition.py:FastPartitioning.update', B+'utils/multi_objective/box_decompositions/non_dominated.py:FastNondominatedPartitioning.get_hypercell_bounds'])
p("C288", 'The expected hypervolume improvement depends on the outcomes only and falls as outcomes are added',
  'EHVI over the cells of a decomposition has the same value whichever partitioning class is used and however the same outcomes were split into batches, ordered and repeated. If every outcome of one history is matched or dominated by an outcome of another, the value of the other is not larger at any prediction; in particular a further update never increases it.',
  'every number of objectives from two on, every reference point, every two histories of batches of outcomes below the cut, each class, every prediction of as many means and variances',
  'The classes cut the same region into different numbers of cells with different bounds; agreement on examples does not show that every pair of decompositions weighs every region alike.',
  [B+'multi_objective/analytic.py:EHVI.forward', B+'mobo.py:MOBO._create_acquisition', B+'utils/multi_objective/box_decompositions/box_decomposition.py:FastPartitioning.update', B+'utils/multi_objective/box_decompositions/box_decomposition.py:BoxDecomposition.update', B+'utils/multi_objective/box_decompositions/non_dominated.py:NondominatedPartitioning.get_hypercell_bounds'])
p("C289", 'The acquisition function of the multi-objective optimizer is defined, positive and independent of units',
  'Whatever finite objective values have been observed, the acquisition function that MOBO builds is defined and positive at every prediction, and it is the expectation of the increase of the hypervolume of the scaled observations. It does not change, for the same predictions of the scaled values, if every objective is multiplied by a positive factor and shifted.',
  'every number of objectives from two on, every combination of minimised and maximised objectives, every non-empty set of observations (ties, duplicates, constant objectives), every prediction, every cut of at least 2, every positive factor and shift per objective',
  'Scaling, single precision, reference point and decomposition interact; a test fixes a few data sets and units.',
  [B+'mobo.py:MOBO._create_acquisition', B+'mobo.py:BaseMOBO.y', B+'mobo.py:BaseMOBO.ref_point', B+'multi_objective/analytic.py:EHVI.forward', B+'utils/multi_objective/box_decompositions/non_dominated.py:NondominatedPartitioning.get_hypercell_bounds'])
p("C290", 'Minimising an objective and maximising its negative are the same',
  'If all objectives are negated and their minimize flags flipped, the multi-objective optimizer recommends the same observations and counts the same outcomes as improvements.',
  'every number of objectives, every combination of flags, every set of observations and every outcome',
  'The directions differ in the scaled range and with it in the reference point; results look plausible in both directions, and only comparing all outcomes shows that the regions differ.',
  [B+'mobo.py:BaseMOBO.ref_point', B+'mobo.py:BaseMOBO.y', B+'mobo.py:BaseMOBO.xopt', B+'mobo.py:MOBO._create_acquisition'])
p("C291", 'A positive threshold only lowers the expected hypervolume improvement',
  'For every threshold alpha of the binary partitioning, EHVI over its cells is defined, never negative and never larger than EHVI over the cells of an exact decomposition (alpha zero, or the fast class) of the same outcomes, at any prediction.',
  'every number of objectives, every reference point, every history of batches below the cut, every threshold, every prediction of as many means and variances',
  'Which boxes are left out depends on their relative volume at the time they are visited; a wrongly kept or doubled box would only show at particular thresholds and fronts.',
  [B+'multi_objective/analytic.py:EHVI.forward', B+'utils/multi_objective/box_decompositions/non_dominated.py:NondominatedPartitioning._partition_space', B+'utils/multi_objective/box_decompositions/non_dominated.py:NondominatedPartitioning.get_hypercell_bounds'])
p("C292", 'Raising the threshold of the partitioning never raises the expected hypervolume improvement',
  'For thresholds alpha <= beta of the binary partitioning, the same history of updates gives, at beta, the cells at alpha with some left out and none changed, and EHVI over the cells at beta is never larger than EHVI over the cells at alpha, at any prediction.',
  'every number of objectives, every reference point, every history of batches below the cut, every pair of ordered thresholds, every prediction of as many means and variances',
  'The threshold acts inside the splitting loop, on cells that other splits produced; a test compares two thresholds on one front.',
  [B+'multi_objective/analytic.py:EHVI.forward', B+'utils/multi_objective/box_decompositions/non_dominated.py:NondominatedPartitioning._partition_space', B+'utils/multi_objective/box_decompositions/non_dominated.py:NondominatedPartitioning.get_hypercell_bounds'])

root = os.path.join(os.path.dirname(os.path.abspath(__file__)), "..")
with open(os.path.join(root, "properties.jsonl"), "w") as f:
    for q in P:
        f.write(json.dumps(q, ensure_ascii=False) + "\n")
print(len(P))
