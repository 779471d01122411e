NOTES = {
 "C01": "Proved for every history of tell calls that return normally.",
 "C02": "Proved for every history of tell calls that return normally.",
 "C03": "Proved for normal histories in terms of the told values, and for histories with raising calls in terms of the rows of data.",
 "C04": "Proposals, objective and model fitting are arbitrary functions of the iteration and the state.",
 "C05": "Refuted when maximising (_compare tests f1 < f2 in both directions): the run stops before the target is reached and does not stop when it is. Exact when minimising; stopping is permanent in both directions.",
 "C06": "Refuted: the flat-fitness error and too few values leave data/eval_count changed. Proved: history, iteration count, stop flags and earlier rows are preserved.",
 "C07": "Prefix preservation covers all later tell calls, raising ones included.",
 "C08": "Refuted in list mode, where every row has n_eval 2; exact in dict mode.",
 "C09": "Refuted: run tells without labels and labels restart at 0 in each iteration. Holds if the caller labels all points differently.",
 "C10": "For n >= 1; hypothesis: a sample of n points has at most n rows. Also proved: the only exceptions are the empty-proposal error and NotImplementedError for batches of a class without a batch strategy.",
 "C11": "For every sampler and acquisition outcome, with and without fixed values.",
 "C12": "Refuted: random top-up points are not compared with the other points of the batch, nor across the passes of the initial design. Proved for points that went through one duplicate check together.",
 "C13": "Refuted for a real variable with a precision (rounded after the value was filled in). Proved for values that rounding leaves alone, together with the origin and order of the free components.",
 "C14": "Hypotheses: samples and non-empty inner-optimizer results lie in the space, lb <= ub.",
 "C15": "Single objective for every completion order; several objectives for the zip of the per-objective lists.",
 "C16": "Refuted for every optimizer seed when the space has none (each slice of the space re-seeds NumPy from entropy), and for seed 0. Proved when the space carries a seed.",
 "C17": "Values are rationals; the loop is modelled with its index and shown to terminate.",
 "C18": "The first front is empty only for an empty input.",
 "C19": "Refuted: dominated points with equal first coordinate, dropped duplicates, negated input. Proved: completeness up to equal coordinates, exactness for distinct first coordinates (for every argsort), input untouched when maximising.",
 "C20": "Both values of deduplicate, every shape.",
 "C83": "Refuted for every generator and every seeded space of several variable types; proved for single-type spaces.",
 "C27": "One vector; exact rational arithmetic; None is an infinite bound.",
 "C28": "Over Coq's real numbers (their axioms are used).",
 "C29": "Result: for every inner optimizer, constraint and argsort. Refuted: infeasible restarts are not charged to the budget. Proved: the exact stopping rule counting feasible restarts.",
 "C37": "Over Coq's real numbers; the end points 0 and 1 of logit are excluded.",
 "C38": "Rational arithmetic, ties to even. Refuted: idempotence for values outside the bounds; proved inside, and everywhere if the bounds have the precision.",
 "C39": "Refuted: membership ignores the step; an all-integer space truncates samples when bounds or step are fractional. Proved: the samples of the variable are exactly its grid.",
 "C40": "Refuted for Subset with repeated elements; proved for distinct elements and for all discrete/ordinal lists.",
 "C84": "Refuted: Real((1, 2), scale='logit') has equal bounds, and bounds outside the range of the scale are widened. Proved: order, range, and bounds kept if inside the range.",
 "C41": "Filter and concatenation proved for all spaces; subtraction proved for spaces with distinct names and refuted for repeated names (reachable, see C43).",
 "C42": "Proved for N >= 2; refuted for N = 1 on every non-empty space (s *= 1 doubles it).",
 "C43": "Refuted: SearchSpace([x, x, x0]) has names x0, x1, x0. Proved when no repeated name extended by digits is another name.",
 "C44": "Index groups proved; refuted for the categorical and subset masks of every space with a Subset variable (np.bitwise_or's third argument is the output array).",
 "C45": "Refuted when several names are shared (array comparison instead of set membership); proved for at most one shared and one new name.",
 "C46": "Refuted: with a common name a + b renames the variables of b. Proved: bounds, kinds and the left operand are untouched, and everything is if names are distinct.",
 "C47": "Refuted: every prefix of a member is a member. Proved for lists with one value per variable; longer lists raise.",
 "C48": "Equivalence proved; hash compatibility refuted for real and integer variables that differ in precision, scale or step, proved otherwise.",
 "C80": "Refuted for every non-empty space: to_dict writes classes where from_dict expects strings, and the result is the empty space.",
 "C85": "Proved for items without default and repeated integer items of step 1; refuted for defaults (misspelt key raises), for repeated integer items with another step, and for unknown types.",
 "C86": "Proved for spaces with distinct names (exact content, order, error condition).",
 "C49": "Refuted for deepcopy: the method has no return statement for any tree, so its result is None. Proved for remove(..., invert=True): the kept children are exactly those reachable through kept names.",
 "C50": "Proved for every forest with distinct names whose roots are internal nodes; refuted for a one-node tree, which to_dict drops.",
 "C51": "Grouping of leaves by condition path is proved for every tree. The enumeration of unconditional sub-spaces is proved for trees where no leaf shares its condition with an internal sibling, and refuted when one does.",
 "C52": "Slices, index lists, boolean masks and out-of-range indices are proved for every well-formed set; a single index i is proved for i <> -1. s[-1] is refuted: 231-236 slice the attributes with slice(-1, 0), so the row comes without fitness, n_eval and label.",
 "C53": "Proved for sets that are not single rows of a multi-objective set (whose fitness is flattened: concatenating two of them raises, refuted). The same names in another order are accepted and b's values land under the wrong names (refuted).",
 "C54": "Any sequence of writes through a slice or a row (not -1), with the exact values written. A write through s[-1] is silently lost (refuted).",
 "C55": "Round trip and placement proved for distinct names, when all dictionaries list their keys in the same order. Refuted for dictionaries with another key order and for a single solution whose first component is a tuple.",
 "C56": "Proved when numpy's comparison agrees with Python's on the components that occur. Refuted for a set holding both 1 and '1' (numpy compares the string forms).",
 "C87": "Proved for labels no longer than the longest label at construction. Longer ones are cut (refuted).",
 "C88": "Proved for distinct labels; rows with equal labels overwrite each other (refuted).",
 "C89": "Proved except for n_eval lists (their length is not checked, refuted) and nested fitness lists with n_obj = 1.",
 "C30": "Random moves are arbitrary; strategy parameters are not modelled. With step 1 the individuals are exactly admissible values; other steps: C90.",
 "C31": "Fitness is the penalised one (arbitrary function); tolfun and flat fitness are an arbitrary stopping predicate. Also proved: the run never raises for draws in range.",
 "C90": "Refuted: integer mutation adds any difference. Holds: integers stay between the bounds.",
 "C91": "Refuted for every population: the row is indexed with two indices.",
 "C32": "Refuted as stated: a feasible point whose value is worse than the penalised value of an infeasible incumbent is not reported. Holds: a feasible optimum stays feasible and never gets worse; it is the best value told if all points are feasible; box, step size and success rate.",
 "C35": "Refuted: with n_restart = 1 the number of restarts is unbounded. Holds for n_restart <= 0.",
 "C92": "Refuted with restarts (budget 9, 10 evaluations). Holds: at most m + 2, at most max(2, m) without restarts; the budget ends the run.",
 "C93": "Refuted: every restart reseeds the generator with 42, the seed keyword is ignored.",
 "C33": "Refuted as stated: a zero evolution path gives nan, and after a restart the update is not rank-one. Holds in every dimension for a non-zero path and a correct stored inverse, over any real closed field; the covariance then agrees with the base class along every sequence of successes.",
 "C34": "Refuted after a restart or a reset: the inverse is not reset. Holds for every sequence of successes.",
 "C36": "At most N points, all satisfying the constraints: proved for all spaces. Domain: refuted for levels of mixed types (coerced by np.array) and Subset (raises); proved for the rest.",
 "C94": "Refuted: the proposals ignore step and precision.",
 "C24": "Refuted twice: repetitions of a non-dominated observation are dropped (is_non_dominated deduplicates), and values are rounded to single precision by torch.Tensor before the comparison. Holds up to repetitions whenever the rounding keeps the order of the values of each objective, which is so when different values of an objective are further apart than 2^-23 times its range; rescaling never changes the set.",
 "C25": "Refuted for every minimised objective with two different values; holds for maximised and for constant objectives.",
 "C26": "Refuted for a batch with a NaN or infinite value: IndexError after counting, whole batch lost. Proved for all sequences of calls with finite values.",
 "C95": "Sequential branch; the parallel branch returns the same lists by joblib's contract.",
 "C22": "The 2-D branch of NondominatedPartitioning, FastNondominatedPartitioning with two objectives, and the two cell functions on their own (sorted strict staircases). Values are rationals, input unbatched; torch.argsort is any function meeting its contract.",
 "C23": "The partitioning loop with exact rational arithmetic; alpha = 0 (the default) gives the exact partition; for any alpha soundness and disjointness are proved (an approximation does not cover by design). torch.max/argsort enter through their contracts.",
 "C96": "NondominatedPartitioning.update/reset with torch.equal deciding whether cells are recomputed; unbatched input, exact arithmetic.",
 "C21": "Refuted: with five objectives and a mutually non-dominated set in which two points agree in the first three objectives the computed value can be too small and depends on the order (C21_pareto_set_refuted); with four objectives a dominated input point can lower the value (C21_dominated_point_refuted); with six objectives and points that touch the reference point it can be too large although all values are different (C21_boundary_refuted). For one to three objectives the statement is proved in full, as C145 and C146; for more objectives it is proved for points that are inside and separated (C21_exact_partial, C220).",
 "C65": "Refuted for every optimizer and every old file: the old checkpoint is truncated before the new one is written. Holds: the file is always the old one, empty or a beginning of the new pickle, and complete when save returns. File system and dill are parameters.",
 "C66": "Assumes that dill and the logger functions round-trip; save is shown to return when all pickles succeed.",
 "C67": "Refuted: a logger with a file and no console output has console output after loading. Proved: exactly which handlers the loaded logger has.",
 "C68": "The other schedules: C102-C104.",
 "C69": "Refuted: ParallelBO and AnnealingBO write into the dictionary given as default argument. Holds for optimizers with a dictionary that no other optimizer uses.",
 "C70": "The proposals of the sub-space optimizers are arbitrary; what happens when they are told back: C105, C106.",
 "C72": "Refuted for every run with distinct points: the initial design is never in the history. Holds: the later entries list the remaining points in order.",
 "C73": "Atomic start and stop calls, crashes, kills and re-use of process numbers; overlapping starts: C101, the effect of stop: C100.",
 "C79": "For any number of acquisition functions.",
 "C97": "Assumes that dill cannot load a truncated pickle (pickles end with a STOP opcode).",
 "C98": "Refuted whenever the pickling of the optimizer fails: the logger and the data stay replaced by their pickles and no later save returns. Holds for the earlier failure points.",
 "C99": "",
 "C100": "Refuted in every state with a live daemon: NameError after the first signal. Also refuted: a recycled process number is signalled. Holds: the daemon receives the signal and its handler removes the pid file; a stale pid file is removed.",
 "C101": "Refuted: both find no pid file. Holds if a live daemon is recorded.",
 "C102": "",
 "C103": "Refuted for the linear schedule after the end of its plan, for all t0 > tf; holds for the other two.",
 "C104": "Refuted: it can rise above t0, and fall below tf after one of several planned steps. Proved: exactly when a step lowers the parameter.",
 "C105": "Refuted for every falsy value (0, 0.0, '', False), which is dropped, and for falsy conditions (KeyError). Holds for truthy values.",
 "C106": "Refuted for points of different sub-spaces, whose keys come in different orders. Holds for points with the same key order.",
 "C107": "",
 "C71": "Over the reals; sklearn's PCA enters as any mean and components of unit length.",
 "C74": "Rows as the forest encodes them; Python's == on levels is any symmetric transitive relation, astype(float) any partial function. sklearn's OneHotEncoder is modelled by its contract (explicit categories, unknown ones raise).",
 "C75": "One-dimensional calls, as made by the optimizers of the criterion; matrices: C108.",
 "C76": "When it returns: C111.",
 "C77": "Over the reals. With a single observation the weight is 0/0 (C77_single).",
 "C78": "",
 "C108": "Refuted: the number of rows is taken from the wrong axis. Any matrix whose number of rows is neither one nor the number of free variables is refused, a single row is multiplied. Holds for square matrices.",
 "C109": "Arrays only; a list result is not reduced correctly, but no acquisition function returns one.",
 "C110": "Exact rational arithmetic.",
 "C111": "Refuted for equally good candidates (0/0). Holds for pairwise different ones, in exact arithmetic.",
 "C112": "",
 "C113": "Points whose image touches a face of the box have no derivative and are excluded from the gradient statement.",
 "C57": "Proved over the reals for every surrogate, with the normal distribution function defined as an integral and the Gaussian integral proved (Lib_Normal); points exactly on a cut-off, kink or overflow bound are excluded by `regular`, see C114 for the kink. Floating point and finite differences of the surrogate are not modelled.",
 "C58": "EI for every plugin, epsilon-PI for epsilon at most one. UCB, MGFI and larger epsilons are C115-C117.",
 "C59": "PI asks EpsilonPI for epsilon 0 and can never be constructed (refuted); the other four classes can, and their parameter checks are exact.",
 "C60": "Sum over cells of products of one-dimensional expectations, each stated as an improper integral, for every number of objectives. The upper bounds are the clamped ones, as in the code.",
 "C114": "Refuted: where the prediction is zero the value has two different one-sided derivatives.",
 "C115": "Refuted for epsilon above one, which the constructor accepts; C58 has the rest.",
 "C116": "Refuted in the strongest form: UCB always has the smaller value at the better mean, for every surrogate and both directions.",
 "C117": "Holds without overflow; refuted beyond, where the value drops to zero, for every overflow bound.",
 "C118": "Uses Mills' ratio; not-a-number results, possible only for zero deviation, are excluded.",
 "C119": "Includes the cut-off and the zero-deviation branch.",
 "C120": "Improper integrals stated with Coquelicot's RInt and an explicit limit.",
 "C121": "Constructor, value and gradient.",
 "C122": "Empty observations raise ValueError and are excluded by hypothesis.",
 "C123": "Refuted for the sequential optimizer, which passes an empty dictionary; holds for batches.",
 "C124": "MGFI and UCB for every draw; the sampler of EpsilonPI is None, so that a batch always raises (refuted).",
 "C125": "Holds for MGFI; for UCB the order is reversed for every draw (refuted).",
 "C126": "Standardisation is exact when the deviation exceeds 1e-8; the bound is absolute, so small scales end in FlatFitnessError (refuted).",
 "C127": "For clamped cells that are not empty.",
 "C61": "Proved for simple and universal kriging, all sizes and numbers of targets, over any real field and for any correlation with unit diagonal, for models that are still in noiseless mode after fit (a rejected likelihood silently switches to noisy mode). LAPACK's Cholesky and QR are contracts.",
 "C128": "Proved in noiseless mode. Refuted for fixed and for estimated noise: the correlations with the query point are not scaled by sigma2 / (sigma2 + noise), so that the model interpolates noisy observations in the example.",
 "C129": "Proved in noiseless mode.",
 "C130": "Proved in noiseless mode.",
 "C131": "Proved.",
 "C132": "Proved; positive semi-definiteness of the correlation is a hypothesis.",
 "C133": "Refuted for two or more points (float passed to range, or shapes that do not broadcast); holds for one point and one target.",
 "C134": "Refuted: restricted likelihood, nonparametric trend, estimated trend with several targets. Otherwise fit ends with a model.",
 "C135": "Refuted in noise-estimation mode for observations on the trend: never returns, for any optimizer. With fixed noise: returns at the first accepted attempt, with noise multiplied by ten each time.",
 "C62": "All five correlation functions, all training sets; the size errors are modelled. Real arithmetic.",
 "C63": "Matern (the default): proved for query points outside the training set, refuted at a training point, where the division by the zero distance makes the method return zeros for all training points. The generalized exponential and the cubic function raise UnboundLocalError. See C142 for the other two.",
 "C136": "Proved for four functions; the generalized exponential always raises IndexError with its two documented isotropic parameters and more than one feature.",
 "C137": "Proved with one parameter per feature; with one parameter for all features only the first feature's slice reaches the likelihood gradient, instead of the sum.",
 "C139": "Proved for the squared exponential with one parameter per feature; one parameter for several features gives an IndexError and Matern an UnboundLocalError. The absolute exponential is not modelled.",
 "C140": "All five correlation functions.",
 "C141": "Matern 3/2 is the kernel that fit uses.",
 "C142": "Both forms of the parameter vector.",
 "C143": "Refuted: the distance is missing as a factor. The RBF kernel is not the one that fit uses.",
 "C64": "Inner optimizer and random starting points are arbitrary functions; values include infinities. Restarts whose value is nan are excluded by hypothesis. random_start = 0 leaves the result unbound (C64_no_restart).",
 "C144": "Refuted: under Python 3 the stop test compares a dict view with True, which is never equal, so the generation loop is never left; and the doubly negated objective makes it keep the point with the smallest likelihood. Exceptions raised by the numerical code inside a generation are not modelled.",
 "C138": "The derivative is defined by the usual epsilon-delta condition over an arbitrary ordered field. gradient's two matrix formulas are compared with predict_mean and predict_mse, whose relation to the posterior of the process is C128. Jacobians of correlation and trend are hypotheses of the theorem; those of the correlation functions are C62 and C63. Several targets are outside the claim: the code then multiplies arrays of different shapes.",
 "C145": "Exact rational arithmetic. The measure is a sum over the cells of any grid that contains all coordinates (Spec_HV); a grid exists for every input (C145_grids_exist). With four or more objectives the statement is false (C21) unless the points are separated (C220).",
 "C146": "Follows from C145 for two inputs on a common grid. False for more objectives (C21) unless the points are separated (C220).",
 "C147": "Refuted for several objectives: a solution taken out of a set by its row index holds a flat vector of objective values, and s * N fails for N >= 2. Proved for the remaining single solutions.",
 "C148": "Element access and the errors are proved in full. Blocks are refuted for the column number -1, which selects no column (slice(-1, 0)); proved for all other column numbers and all slices.",
 "C149": "The trees are arbitrary functions; a schedule is any order of the writes of single entries of the shared buffer.",
 "C150": "That leaves average observations is the contract of scikit-learn's regression trees.",
 "C151": "Refuted for a forest of one tree, whose sample variance is not a number. Proved for two trees or more.",
 "C152": "Finite probability spaces.",
 "C153": "Refuted for Tchebycheff: accepted by the constructor, but every prediction raises UnboundLocalError. Proved for WS.",
 "C154": "Refuted: when some search finds nothing the replacement points cannot be appended and ask raises. Proved when every search finds a point; the initial design is proved in full.",
 "C155": "The model is an arbitrary function.",
 "C156": "Refuted: the code sorts the second pair of results instead of the acquisition values, and every batch raises; nothing positive remains.",
 "C157": "Kernel Matern 3/2, the only one that fit uses. The triangular solves are assumed exact; real arithmetic.",
 "C158": "No assumption on the triangular solver.",
 "C159": "Refuted: with one variable, two or more points raise ValueError. Proved for two or more variables and for single points. The points of one call are assumed to have the dimension of the domain.",
 "C160": "Refuted: after a kill an unrelated process can get the recorded number. Proved: a live daemon is always reported, it never raises, and the answer is right as long as the recorded number belongs to a daemon or to nobody.",
 "C161": "Refuted in every state with a live daemon: stop raises NameError and nothing is started. Proved when no living process has the recorded number.",
 "C162": "Refuted: killed between the creation of the pid file and the write, the empty file makes every later start, stop, restart and is_running raise ValueError. Proved for all other moments.",
 "C163": "Over the reals; the constants are the defaults of the constructor.",
 "C164": "Fitness, argsort, eigh and random numbers are arbitrary.",
 "C165": "Exact arithmetic; the repair branch for imaginary eigenvalues resets the state.",
 "C166": "Refuted: every evaluation raises the penalty factor, so at an infeasible point two evaluations in a row return different values. Proved: the value at feasible points does not depend on the history and equals minus the acquisition value, infeasible points are strictly worse than their acquisition value, and the gradient is exact where the stencil is feasible.",
 "C167": "Exact real arithmetic; the central difference has no cancellation error.",
 "C168": "Unbatched tensors; exact arithmetic. Two objectives: C22.",
 "C169": "Unbatched tensors; exact arithmetic.",
 "C170": "Exact real arithmetic.",
 "C171": "Refuted: a second argument that is an array raises (its truth value is tested), and the array [[0.]] is taken for a missing argument; holds without it or with a non-empty list. One target.",
 "C172": "exact arithmetic; unbatched outcomes",
 "C173": "exact arithmetic; unbatched outcomes; torch.argsort and torch.max by their contracts",
 "C174": "exact arithmetic; LAPACK by its contracts, which are shown to be satisfiable; noise variance a number",
 "C175": "exact arithmetic; one target",
 "C176": "holds for a known trend; refuted for an estimated constant trend",
 "C177": "proved: the reported entries are the derivatives up to the factor (s + noise)/s, and exact for zero noise; refuted for noise 1",
 "C178": "proved: the entry of the noise is right for any number of targets; refuted for the correlation parameters with two equal targets",
 "C179": "proved: the derivative is the reported entry times ln 10 times the parameter; refuted that the reported entries are the derivatives",
 "C180": "proved: the value plus k/2 is the largest log density over the trend at the unbiased variance, hence a lower bound; refuted that it is the largest",
 "C181": "proved for a known trend when no target has a positive value; refuted for outputs on a small scale, where -inf is returned",
 "C182": "Proved for spaces of categorical variables as long as no ratio of densities overflows: the law of a single row is preserved for every test function and any number of steps (expectation by integration over the uniform numbers), and each row of a population moves as it would alone. Refuted in two ways: an overflow of the exponential for one row (probability set to 1 for the whole array) moves a feasible row to an infeasible point whatever its random number; clipping the proposals of integer variables at the bounds makes them asymmetric, so the uniform distribution on 0, 1, 2 is not preserved. Real and mixed spaces are not covered: their proposals depend on the spread of the population.",
 "C183": "Real arithmetic; the Gaussian tail bound is Mills' ratio (Lib_Normal).",
 "C184": "Real arithmetic; constant targets give no finite value.",
 "C185": "Real arithmetic; the density is the standard normal density of Lib_Normal at the standardized residual, divided by the standard deviation.",
 "C186": "Holds for variances without a zero; refuted otherwise: zeros in the caller's array are overwritten by 1e-7.",
 "C187": "Real arithmetic; LAPACK by its specification. Refuted: the determinant has the wrong sign (C187_refuted), and with several targets the terms of all pairs of targets are added (C187_targets_refuted). Proved: for one target the value exceeds the log density by exactly the log determinant of the scaled correlation matrix.",
 "C188": "Real arithmetic; LAPACK by its specification; np.linalg.det is an arbitrary function.",
 "C189": "Refuted for a known trend (the entry of a correlation parameter has the opposite sign, C189_known_trend_refuted) and for an estimated trend (the entry of the variance, C189_estimated_trend_refuted). Proved, without noise: the derivative in the variance equals the entry plus p/2 (1/s - 1) for p trend coefficients, and for a known trend the gradient is that of the log density of the data. The noisy modes are modelled; nothing is proved for them.",
 "C190": "End to end: fmin is the run loop of Model_Opt with the proposals of Model_Ask. Function values are exact rationals, NaN or an infinity.",
 "C191": "Refuted: the calls for x0 are not counted (C191_count_refuted), and the default design is evaluated whatever the budget (C191_budget_refuted). Proved: the exact difference, and that the count exceeds the budget by less than the larger of a batch and the initial design.",
 "C192": "Assumes that the samplers and the acquisition optimizers stay in the box, which other properties show for those modelled.",
 "C193": "Refuted: a float on one side and a list on the other, and ints, tuples or arrays, raise UnboundLocalError. Proved for two floats and two lists.",
 "C194": "Refuted: with max_FEs=None (the default) or 0, fmin never returns. Proved: with a positive budget b there are at most b iterations, provided each call of the function, the surrogate and the acquisition optimizer ends.",
 "C195": "Refuted for x0 = 0, which gives five points per variable. Proved for n > 0.",
 "C196": "Proved for all runs from the default parameters. The normal numbers are assumed not to be zero (probability one) and the factors exp(...) positive.",
 "C197": "Refuted: a variable rounded to a coarse precision gets step size zero after one generation and never moves again. Proved: without a precision the repair never increases a step size, and a step inside the box keeps it.",
 "C198": "Refuted: any given non-empty parameter makes the constructor raise AssertionError (the names of its columns are missing). Proved: the default works for every non-empty sample.",
 "C199": "Refuted: never reported unless the number of offspring divides the number of parents (default: 10 and 4), with a run on almost equal values that never ends. Proved: exact characterisation if it divides.",
 "C200": "Refuted: with one parent every run ends after one generation; with one offspring and several parents the test raises IndexError. Proved: sound with at least two of each.",
 "C201": "Composition of Model_Ask, Model_Box and Model_MiesPar. Points that ask adds at random when proposals are missing are not checked against the constraints by the program. With other integer steps see C90.",
 "C202": "Refuted: optimizer 'BFGS' with a constraint on a mixed space becomes OnePlusOne_Cholesky_CMA and ask fails with an AssertionError; without a constraint MIES gets a function that also returns a gradient; an unknown name passes the constructor if a budget is given and ask fails with an UnboundLocalError. Proved: the default choice always fits; exactly which given names work.",
 "C203": "sklearn's decomposition is any function with orthonormal components; the Gaussian process, the acquisition function and the samples are arbitrary. Runs without constraints.",
 "C204": "Refuted: a proposal anywhere in the reduced space may be mapped outside of the box, and it is evaluated. Proved: the initial design is in the box and a proposal outside has a negative penalized value; with exact proposals see C203.",
 "C205": "",
 "C206": "Refuted: PCABO.tell does not touch hist_f, so it stays empty for ever.",
 "C207": "Composition of the loop, ask, the constrained sampler and the evolution strategy; integer variables with step 1; under constraints no Subset variables and levels of one type (else C36, C94 refute it). Other optimizers of the acquisition function are C29, C32.",
 "C208": "Refuted: a point where the objective function returns NaN is removed from the data and proposed again in every iteration until the budget is used up. What holds is proved: points with a finite value, given points, and points close to them are not evaluated again.",
 "C209": "Refuted: create_DoE rounds the feasible samples to the precision of the variable and does not check them again. Proved if no real variable has a precision.",
 "C210": "",
 "C211": "",
 "C212": "",
 "C213": "Whole runs of Model_MoRun (Model_MOBO.tell with ask of Model_Propose and the constrained sampler); feasibility for spaces without a precision.",
 "C214": "Holds without exception, in contrast to C208, because every evaluation that fails ends the run (C217).",
 "C215": "The front is described through the observations of the whole run; hypothesis keeps_order as in C24.",
 "C216": "eval_count of BaseMOBO counts one for each objective.",
 "C217": "Refuted: every non-finite value ends the run with an exception and the finite values of its iteration are lost (C217_failed_refuted). Proved: the observations of the completed iterations are kept.",
 "C218": "Refuted: with a target no run returns; after the first iteration the comparison of arrays raises ValueError.",
 "C219": "Refuted: BFGS is chosen on a real space with a model that has a gradient, since n_obj is still 1 in the parent's constructor, and the first call of the acquisition function raises ValueError. Proved in all other cases.",
 "C220": "Exact rational arithmetic. C220_exact is proved for any number of objectives by an invariant of the whole recursion: the cached areas and volumes below the bound of a dimension are right, and every skipped node is covered by another active node. The conditions are needed: without them the statement is false, see C21_pareto_set_refuted, C21_dominated_point_refuted and C21_boundary_refuted.",
 "C221": "str of components, counts and floats is arbitrary. C221_readable_partial: every set is read back when no text contains the delimiter or a newline (single-row solutions with several objectives excepted). C221_quoting_refuted: nothing is quoted, two different sets of categorical values give the same file. C221_row_refuted: a row of a set with several objectives raises ValueError.",
 "C222": "Sets (two-dimensional) with at least one row in total; rows of 2-d sets taken alone with several objectives are excluded, they can neither be added nor written (C53, C221). File I/O errors and line-end translation are not modelled.",
 "C223": "C223_complete_partial and C223_readable_partial: complete when every tell returns. C223_complete_refuted: a tell that raises while the model is updated leaves its observations in the data but not in the file, and later calls do not add them. C223_fresh_refuted: the file of an earlier run is appended to, and there is no header to separate the runs.",
 "C224": "All effects of tell are taken from the model of C01-C09.",
 "C225": "In mobo.py the file is written before the points are added and the models are fitted, so the gap of C223 does not exist there.",
 "C226": "C226_consistent_partial: exact for sequences of objective functions and directions given as a bool or a sequence. C226_consistent_refuted: without objective functions one or no objective is accepted; a direction that is neither bool nor sequence gives an array without dimensions.",
 "C227": "Refuted for every such call: the setter runs in the parent's constructor, where the number of objectives is still one, and the assignment of the values to the fitness cannot be broadcast. Built on the solution sets of C52-C56.",
 "C228": "C228_batch_refuted: every ask of MOBO_qEHVI after the initial design raises (its acquisition function does not exist), and so does MOBO for several points. C228_single_partial: MOBO proposes one point.",
 "C229": "C229_named_partial: the five acquisition functions. C229_checked_refuted: any other name and any callable is accepted and fails at the first ask after the design; _check_params is never called. C229_multi_objective_refuted: MOBO and MOBO_qEHVI replace the request. Other objects are rejected. Names of base classes and imports of the module acquisition_fun are not distinguished.",
 "C230": "Refuted: without bounds every call raises TypeError, since np.isfinite is applied to an array that holds None. Proved for finite bounds.",
 "C231": "Refuted for every array of two or more entries: ValueError (truth value of an array). One entry is the same as a number.",
 "C232": "Proved. check_X_y of scikit-learn is taken to have passed.",
 "C233": "Refuted: theta0 = -1 passes all checks. Only the length is compared.",
 "C234": "Refuted with the default trend, for every search: it is made for as many features as there are bounds, and raises. With a trend for the right number of features the search is started.",
 "C235": "Refuted if the number of features of the trend is the number of points: the array is transposed, every likelihood is rejected, and fit does not return. Otherwise it raises.",
 "C236": "Refuted: once a likelihood has been rejected (C181 says when), the model is noisy in all later fits. Proved: without rejections mode and noise stay as made; the known noise is the nugget times ten to the number of rejections. The search is an arbitrary function.",
 "C237": "Refuted whenever the number of points differs: X is replaced before the checks. Shapes only.",
 "C238": "Proved for one pair, and for two or more variables and pairs. Refuted for one variable and several pairs, which are all kept.",
 "C239": "Proved.",
 "C240": "Refuted for five objectives (the value of Hypervolume.compute is too small, C21). Proved for up to three objectives, and with any number of objectives for separated points inside the reference point (C220). Exact arithmetic, default threshold.",
 "C241": "Refuted when there are as many points as variables (the rows are taken for variables, feasible points leave their box) and for equal bounds (not-a-number). Proved for every other number of points and for vectors. Exact arithmetic, no infinite entries.",
 "C242": "Refuted for arrays of floats, which are overwritten with the repaired values. Proved for anything numpy has to copy, for calls that raise, and for points inside of their box.",
 "C243": "Refuted for the text of a number (TypeError) or of one entry (AssertionError) and for numpy integers (TypeError). Proved for numbers and iterables. The value of a text is an arbitrary function.",
 "C244": "Refuted for numpy integers (ValueError). Proved for Python numbers and their texts. The value of a text is an arbitrary function.",
 "C245": "Refuted for EI, EpsilonPI, PI and MGFI: with two or more points the truth value of an array raises ValueError, for every surrogate. Proved for UCB, and for all with one point. Real arithmetic.",
 "C246": "Proved for the squared exponential correlation with one parameter for each feature and constant or linear trend. Refuted otherwise: the Matern, generalized exponential and cubic functions, isotropic parameters, quadratic trends and the absolute exponential with several training points raise, and the absolute exponential returns zeros where a coordinate of the query is one of the first training point. Real arithmetic.",
 "C247": "Real arithmetic.",
 "C248": "Values are numbers, bools, texts and tuples; ranges of integer variables are ints.",
 "C249": "Refuted: the default value is checked before the scale moves the bounds, so RealSpace([[-5, 5]], default_value=-1, scale='log') has a default value outside its range. Holds when the range lies in the working range of the scale.",
 "C250": "Refuted: a tuple is taken for a list with one default value for each variable. Holds when the tuple is wrapped in a list.",
 "C251": "Refuted: several names raise AssertionError, because the bounds (False, True) are one range. Holds for one name.",
 "C252": "C252_columns and C252_labelled_columns state it by lookup in the dictionary.",
 "C253": "_partial: all conditions refer to variables of the space, distinct names, no cycles (for every such list of variables). _refuted: if c depends on a variable outside the space, the condition of d on c is lost although both are in the space. C253_cycles_raise: two variables depending on each other raise RecursionError at every recursion limit. Condition texts are not parsed; only the first variable of a condition is used, as in the code.",
 "C254": "_partial: conditions given by the argument structure (no conditions on the variables), distinct names. _refuted: for every space whose conditions come with its variables, the sub-space of all variables has a condition twice, because the conditions of the trees and those of the variables are both added.",
 "C255": "_partial: a constructed space. _refuted: a sub-space with the selector but without its dependants raises TypeError; a sub-space of all variables lists a dependant twice; a space of a variable twice renames the variable object.",
 "C256": "_refuted: whenever one of the spaces has a condition tree, the sum raises (deepcopy of a tree returns None, C49). _partial: neither has a tree.",
 "C257": "_refuted: -= leaves the conditions of removed variables and the unconditional sub-spaces then raise IndexError; += loses conditions between the two spaces. _partial: no conditions.",
 "C258": "_refuted: the dictionary changes as soon as one variable has a condition; a second construction has the condition twice. _partial: no variable has a condition.",
 "C259": "_refuted: two copies of a space with a condition have none, because the names are changed and the conditions are not. _partial: one copy.",
 "C260": "Proved for the values stored, after any calls; the standard deviation is stated by squared differences of pairs, without roots, over rationals.",
 "C261": "Proved. Integer coordinates are refused as well.",
 "C262": "The weighted sum is proved (expectation abstract: linear and monotone). Refuted: with 'Tchebycheff', which the constructor accepts, predict raises UnboundLocalError.",
 "C263": "Proved for distinct names in spaces without conditions. Refuted: repeated names are changed silently; conditions keep the old names, after which get_unconditional_subspace raises.",
 "C264": "Proved for both classes, two objectives (batches are refused for more).",
 "C265": "Proved for NondominatedPartitioning. FastNondominatedPartitioning: proved if the first batch has some outcome better than the reference point of its set, or for one set; refuted otherwise: the constructor raises (non_dominated.py:375 assigns a tensor of a shape that does not fit).",
 "C266": "Refuted: apart from empty ranges such items are dropped silently (the exception is caught and the dictionary printed).",
 "C267": "Proved; MGFI reduces t to 22.36, and PI can never be constructed (C59).",
 "C268": "Proved for all thresholds; for alpha at most 0 the value is exact (C173).",
 "C269": "Refuted for every space with a variable: to_dict writes the class object under \"type\", json.dump raises a TypeError after the file was truncated, and the file can no longer be read. Holds for the space without variables. json.load enters by its contract.",
 "C270": "Refuted: failed evaluations (NaN or infinite) are not counted, and points told with warm_start are. Partial: data and eval_count are exactly the finite observations; so the claim holds when all values are finite and no call is a warm start.",
 "C271": "Refuted for every budget m >= 3 with batches of two: failed evaluations are not counted, so an objective that fails after the first batch keeps run() going forever. Partial: with finite (or raising) objectives the run ends within m iterations and overshoots by less than one batch.",
 "C272": "Refuted: after two asks the points of the first batch are given to the sub-optimizers of the second one without an exception. Partial: holds when a batch is told before the next ask, no value is falsy and the proposals do not contain the conditioning variables.",
 "C273": "Proved for every history whose calls return normally.",
 "C274": "Refuted for every history: the counter stays 0.",
 "C275": "Real arithmetic. Gaussian kernels by the exponential series; the other two as mixtures of Gaussian kernels; strictness by comparing powers at the point of largest norm.",
 "C276": "Real arithmetic. Fractional powers as mixtures of 1 - exp(-s x), products of kernels by Schur's theorem; beyond two, the points 0, 1, 2.",
 "C277": "Refuted for the cubic correlation: seven equally spaced points and theta = 1/5; with noise 1e-6 the likelihood of these data is -inf. Partial: all other correlations, with an exponent of at most two for the generalized exponential.",
 "C278": "Under the contracts of LAPACK in exact arithmetic (Spec_Likelihood.lapack); in floating point a nearly singular matrix can still fail.",
 "C279": "Exact arithmetic, under the contracts of LAPACK; parameters whose number does not fit the points raise an exception instead.",
 "C280": "Real arithmetic, under the contracts of LAPACK. The optimal predictor is characterised without matrix inverses (Spec_PredictVar.squared_error).",
 "C281": "Real arithmetic; several targets give the root mean square of the covariances.",
 "C282": "Refuted: with a known trend the reported variance is zero at the data for every fit, whatever the noise, because the correlations to the new point are not scaled by the share of the process variance. Partial: the reported variance lies between zero and the error of every linear predictor, so it is never too large.",
 "C283": "The random numbers are arbitrary: the moves of the reals (any number), the differences of geometric numbers (any integer), the components that change and their levels (any valid position). It says which points are possible, not how likely they are; that the step sizes may become zero is C197.",
 "C284": "Both classes and every number of objectives (the binary one with the default threshold); two objectives of the fast class after construction. The volume below an outcome is defined by the spec, side by side, and the measure by any grid, so neither refers to the code.",
 "C285": "The expectation is an iterated integral over the line, shown to be unique. Outcomes above the cut (1e8 or 1e10) count as the cut; variances below 1e-9 are raised to it as in the code. Agreement with the hypervolume is stated at rational outcomes, which with monotonicity determines the function almost everywhere; real arithmetic is exact.",
 "C286": "The object with its history, where C22, C172, C284 and C285 treat two objectives after construction only. Unbatched input, exact arithmetic.",
 "C287": "Exact arithmetic: in floating point the value of a far prediction underflows to zero.",
 "C288": "Exact arithmetic, unbatched outcomes, threshold at most zero for the binary class (the default).",
 "C289": "Scaling and predictions in exact arithmetic, with the conversion of the scaled values and of the reference point to single precision.",
 "C290": "Refuted for improvements: the reference point is 0.8 times the worst scaled value, which is -1 for minimised and 0 for maximised objectives. Proved for the recommendation, in exact arithmetic.",
 "C291": "Exact arithmetic, unbatched outcomes.",
 "C292": "Exact arithmetic, unbatched outcomes; the same tie-breaking in both runs.",
 "C81": "Refuted after a first tell without finite values: ValueError instead. Holds for histories of calls that return normally.",
 "C82": "Refuted in dict mode (UnboundLocalError, for every warm data set). Proved in list mode for up to 5 points, where the flat-fitness error cannot occur, given that the model fit succeeds.",
}
NOT_APPLICABLE = {}
