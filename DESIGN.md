# Formal model of `bayes_optim` in Rocq (Coq 8.16.1)

## 1. Method

* `/repo` is read as text; nothing of it is built or run.
* Each area has four kinds of files under `rocq/theories/`:
  `Model_*.v` (executable Gallina transcription of the Python functions, each definition with the
  file and lines it mirrors, no proofs), `Spec_*.v` (small independent specification vocabulary),
  `Proofs_*.v` (lemmas), `Properties_*.v` (only `Theorem … exact lemma.`, `Print Assumptions`, and a
  non-vacuity `Example` beside every theorem that has hypotheses).
* Exceptions are values (`inl`/`inr` or an option with a named error); random numbers, the objective
  function, the surrogate model and the inner optimizers are explicit arguments (oracles), so a
  theorem holds for every random stream, objective and model.
* Python objects that are shared and mutated (numpy views, variable objects, the global random
  generator, a mutable default argument, the file system) are modelled with an explicit store.
* Floating point is *not* modelled: values are `Z`, `Q` or `R` (or an abstract ordered type) as noted
  at each definition. NaN and infinities are modelled where the code branches on them.
* If the faithful model violates a property, the violation is proved as `…_refuted` with a concrete
  witness, and the part that does hold is proved as `…_partial`. The manifest then says `partial`.

## 2. Trusted base

* Coq's kernel (`coqc`, re-checked with `coqchk`).
* The reading of the Python source: a theorem is about the model; the citation at each definition
  is the only tie to the code.
* Axioms: see the section "Axioms per theorem" (filled from `Print Assumptions`). Only axioms
  of Coq's standard library (those behind `Reals`, and functional extensionality) occur; none is added.
* Behaviour of numpy/sklearn/scipy/torch primitives as described at the definitions that use them; the
  assumptions that matter are collected in section 5.
* Libraries: Coq's standard library, mathcomp (matrices over a field, no axioms) and Coquelicot (derivatives and
  integrals, no axioms of its own).

## 3. Plan per property

(M = what is modelled, P = how it is proved.)

| id | plan |
|---|---|
| C01 | M: `tell` as a state transformer over (data, eval_count, iter_count, hist_f), values finite/NaN/inf. P: induction over the list of calls, against the specification "filter finite of the concatenation". |
| C02 | same model; P: invariant linking `hist_f` with prefixes of the history. |
| C03 | M: `xopt` as first index of the best value. P: characterisation of argmin/argmax, lifted to reachable states. |
| C04 | M: `run` with oracle batches. P: every non-raising step raises `eval_count` by at least one; bound on iterations and overshoot. |
| C05 | M: `check_stop`, `_compare`. P: sticky; minimisation sound; maximisation refuted by a witness. |
| C06 | M: `tell` with the model-update failure as a value. P: refuted by witness (flat fitness); partial: which failures are atomic. |
| C07 | M: warm-data constructor path. P: prefix invariant by induction. |
| C08 | M: `n_eval` bookkeeping in list and dict mode. P: dict mode proved, list mode refuted. |
| C09 | M: labels given by `ask` and defaults used by `tell`. P: refuted for `run`; proved for ask-labels passed on. |
| C10 | M: `ask`/`create_DoE` with sampler oracles. P: count bounds. |
| C11 | M: `pre_eval_check`. P: for all candidates. |
| C12 | same; P: one-source batches distinct; mixed batches refuted. |
| C13 | M: `fillin_fixed_value`, rounding. P: position-wise; refuted with precision rounding. |
| C14 | M: `create_DoE` with variable domains. P: closure under rounding/fill-in. |
| C15 | M: job scheduler with arbitrary completion order. P: permutation-independent result. |
| C16 | M: global random generator as a store, `SearchSpace` constructor reseeding. P: refuted. |
| C17–C20 | M: Pareto routines over lists of integer vectors. P: equality with the declarative dominance specification, loop invariants. |
| C21 | M: hypervolume recursion. P: equality with counted cells / measure. |
| C22, C23 | M: 2-D cells and binary partitioning. P: covering and disjointness by induction on the front / the worklist. |
| C24–C26 | M: MOBO scaling, incumbents, reference point, accounting over Q, rounding to single precision. P: relative error of the rounding against the distances of the scaled values (C24). |
| C27 | M: reflection with floor over R (and Q). P: bounds, fixed points, idempotence. |
| C28 | M: penalty over R. P: zero iff feasible, monotone. |
| C29 | M: restart loop over a list of outcomes. P: loop invariant. |
| C30, C31 | M: MIES operators over oracle draws. P: domain invariant by induction on generations. |
| C32, C35 | M: (1+1)-CMA state machine over abstract vectors. P: invariants by induction. |
| C33, C34 | M: matrices over a real closed field (mathcomp). P: matrix algebra; refuted after restart. |
| C36 | M: SCMC proposal/acceptance and the final filter. P: domain invariant. |
| C37–C40 | M: transforms over R, rounding over Q/R, integer grid, subsets. |
| C41–C48, C80 | M: search spaces as lists of variables; aliasing with a store. |
| C49–C51 | M: condition trees (nested inductive). |
| C52–C56 | M: solution sets as tables; views with a store. |
| C57–C60 | M: acquisition formulas over R with derivative hypotheses of the surrogate. |
| C61–C64 | M: kriging equations as matrices; kernels over R; restart loop; CMA loop. |
| C65–C67 | M: file system with crash points; object fields; handler lists. |
| C68, C69 | M: schedules over R; shared default store. |
| C70–C79 | M: the corresponding functions, see the files. |
| C81, C82 | M: `recommend`, warm data in list and dict mode (Model_Opt). P: case analysis, lifted to reachable states. |
| C83 | M: generator store of C16. P: the draws of two samples come from two consecutive states; refuted for reseeding spaces. |
| C84 | M: scale setter of `Real` over R. P: bijectivity of the transforms, per scale. |
| C85, C86 | M: `from_dict`, name lookup, `remove`, `filter` over the store of variables. P: by the list of variables. |
| C87–C89, C147, C148 | M: arrays as views of buffers in a heap. P: invariants of the constructors; writes through views tracked position by position. |
| C90, C91 | M: MIES with integer steps, start points. P: refuted by witnesses / per component. |
| C92, C93 | M: the (1+1)-CMA-ES loop with restarts. P: induction over the loop; refuted by witness. |
| C94 | M: constrained sampling with rounding and steps. P: refuted by witnesses. |
| C95 | M: `BaseMOBO.evaluate`. P: per objective. |
| C96 | M: `update` of the box decompositions. P: partition invariant re-established for every front. |
| C97, C98 | M: crash points of `save`; object fields. P: all prefixes of the written bytes; refuted for failing pickles. |
| C99 | M: logger registry. P: idempotence. |
| C100, C101, C160–C162 | M: processes, pid file, interleavings, kills between system calls. P: invariants over all event sequences; refuted by schedules. |
| C102–C104 | M: the three schedules over R. P: closed forms by induction over the iteration. |
| C105–C107 | M: `ConditionalBO.ask/tell` with arbitrary sub-optimizers. P: per observation. |
| C108–C111 | M: the function wrappers, gradient masks, proportional selection. P: list induction, probability sums over Q. |
| C112, C113 | M: PCA transform pair, penalized acquisition. P: linear algebra on orthonormal rows; sign of the penalty. |
| C114–C127 | M: acquisition formulas with the normal distribution as an integral, EHVI cells. P: real analysis (derivative signs, truncated moments). |
| C128–C135, C138 | M: universal kriging over a real field with arbitrary kernel. P: matrix identities; block inverse; QR and Cholesky contracts. |
| C136, C137, C139–C143 | M: correlation functions and gradients over R. P: derivatives, positivity, counterexamples. |
| C144 | M: budget loop of the CMA search. P: refuted by witness. |
| C145, C146 | M: as C21. P: dimension sweep invariant for up to three objectives against the number of unit cells / the measure. |
| C149–C153 | M: forest predictions with locks and arbitrary interleavings of the additions, aggregation. P: commutativity of the schedule; variance formulas. |
| C154–C156 | M: NoisyBO and SelfAdaptiveBO. P: per batch; refuted for the adaptation rule. |
| C157–C159 | M: scikit-learn model attributes over R. P: derivative of the kernel expansion; positive semidefinite variance; shapes. |
| C163–C165 | M: parameters, mutation, reflection and update of the CMA-ES over R. P: analysis of logarithmic weights; invariant over generations. |
| C166, C167 | M: penalized acquisition with its call counter, central differences. P: from C28; Taylor–Lagrange. |
| C168, C169 | M: local upper bounds (Lacour et al.) with their defining points, the two passes, `reset` and `update` over numbers with infinities. P: invariant over the inserted points: the zones cover exactly the points that no inserted point dominates, and their defining points touch their faces; the cells of the zones are disjoint; generic in the order. |
| C170, C171 | M: pairwise distances, `reshape`, truth value of the second argument. P: index arithmetic of `reshape`; refuted for arrays and several targets. |
| C172, C173 | M: clipped volumes and index volumes of the cells. P: inclusion of the box below the ideal point, split into finitely many rational grid cells; the sum of volumes of a partition is the measure. |
| C174, C180, C181 | M: `_compute_aux_var` and the three branches of `log_likelihood_concentrated`, LAPACK by contracts (shown satisfiable in Lib_Lapack). S: Gaussian log density through standard normal coordinates; `largest`. P: Cholesky uniqueness, projection on the trend, ln x <= x - 1. C180, C181 refuted in part by two observations. |
| C175-C178 | M: `eval_grad` branches. P: the Cholesky factor, the residuals and the log determinant are differentiable along each parameter; derivative of the concentrated value; comparison with the code's sums over the upper triangle. Refuted by two observations for an estimated trend, known noise, two targets. |
| C179 | M: `_obj_func`. P: chain rule through 10^x. Refuted by two observations. |
| C182 | M: `_log_posterior`, one Metropolis-Hastings step column by column for a population, random numbers as arguments. S: expectation by integration over the uniform numbers; posterior as a product. P: detailed balance of one column on a product space, induction over columns and steps. Refuted for overflowing ratios and clipped integers. |
| C183 | M: the schedule of deviations. P: Mills' ratio at 8 deviations, monotonicity of the normal distribution function. |
| C184–C186 | M: `SMSE` and `MSLL` with `None` for an exception or a result that is not a finite number, and the written argument. S: average of log losses, log loss as minus the log of the normal density. P: sums over lists; decomposition of the squared deviations. C186 refuted for zero variances. |
| C187–C189 | M: `log_likelihood_restricted` with its gradient (Restricted); `np.linalg.det` is an arbitrary function. S: log of the multivariate normal density and `has_gradient` of Spec_Likelihood, `is_derive`. P: the scaled correlation factor; the residual after the projection does not see the column space of the trend (C188); derivative along the variance in closed form (C189). C187 refuted (sign of the determinant, pairs of targets), C189 refuted (theta entries with a known trend, variance entry with an estimated one). Missing: density of the error contrasts for an estimated trend. |
| C190–C195 | M: `fmin` from its arguments to its result (Fmin): the run loop of Model_Opt with the proposals of Model_Ask and any function. S: the list of calls of the function. P: invariant of the run (calls = observations), `recommend_spec`, `run_terminates`. C191 refuted (x0 not counted, budget smaller than the initial design), C193 refuted (mixed bounds), C194 refuted (default budget), C195 refuted (x0 = 0). |
| C196–C200 | M: the strategy parameters, the operators that use them, the constructor and the stopping criteria of MIES (MiesPar), extending Model_MIES. S: `noise_ok` (what the random numbers guarantee), `stagnant` (the recorded values agree up to the tolerance). P: invariant of the parameters over all generations; every run is a run of Model_MIES with computed moves (`optimize_forget`), which transfers C30 and C31; invariant of the histogram of the tolerance criterion. C197–C200 refuted with the part that holds. |
| C201, C202 | M: the choice of the inner optimizer (Propose) and the composition of ask (Ask), the restarts (Box) and the evolution strategy (MiesPar). S: `plain_space`, `run_inputs_ok` (what sample and the random numbers guarantee). P: composition of C14, C29, C30 and C31; case analysis of the settings. C202 refuted with the part that holds. |
| C203–C206 | M: PCABO as a loop of ask, evaluate and tell over the real numbers (PcaLoop) on top of Model_PCA. S: `pca_ok` (orthonormal components), `exact_inner`, `kept`. P: the origin of the reduced space is mapped to a convex combination of the observations; invariant over the states reached. C204 and C206 refuted. |
| C207–C212 | The whole of run on mixed spaces with constraints (Model_Run): Model_Opt.run with ask of Model_Propose (evolution strategy), the constrained sampler of Model_Sampler and the log of all calls of the objective function, which may be noisy, fail and raise. Induction over the iterations: what is in the data when the i-th batch is proposed (Proofs_RunLoop.log_nth), how a run ends (run_end). C208 and C209 refuted by computed runs, proved for points with finite values and without precisions. |
| C213–C219 | The whole of run of MOBO (Model_MoRun): the loop with check_stop, ask of Model_Propose, evaluate objective by objective up to the first exception, tell and xopt of Model_MOBO, and the log of all calls. The observations are described from the calls alone (Spec_MoRun.observations). Induction over the iterations (Proofs_MoRun.mo_log_nth, mo_end). C217 and C218 refuted for every run; C219 (choice of the optimizer) refuted on real spaces with a gradient, proved otherwise. Warm data and batches of MOBO are not modelled. |
| C220 | M: as C21. P: invariant of the whole recursion (cached values below the bounds, covered nodes that are skipped), stability of the sorts, measure lemmas. |
| C221 | M: to_csv on the heap of solution sets, str arbitrary, the file a string. P: a reader inverts the writer when no text contains the delimiter; two sets with the same file. |
| C222 | M: as C221. P: the table of a concatenation is the concatenation of the tables (C53). |
| C223 | M: the data file next to the state machine of C01. P: induction over the history; witnesses with a raising call and with an old file. |
| C224 | M: as C223. P: induction over the history, subsequence of the data. |
| C225 | M: the data file next to the multi-objective tell of C95. P: induction over the history. |
| C226 | M: constructor of BaseMOBO, arguments as variants. P: case analysis, exact acceptance; witnesses. |
| C227 | M: warm data setter with the solution sets of C52. P: the broadcast of the values fails for all warm data. |
| C228 | M: which acquisition function ask builds, by class and number of points. P: case analysis. |
| C229 | M: as C228, with the setter of the acquisition function. P: case analysis over all names. |
| C230, C231 | M: constructor of `GaussianProcess` with every argument that it looks at. P: case analysis; induction on the bounds. Refuted without bounds and for arrays. |
| C232, C233 | M: `_check_params`, `_check_data`. S: `right_params`. P: both directions, by induction on the bounds. C233 refuted by a negative starting point. |
| C234, C235 | M: `check_input` of the trends, `fit` as far as shapes go, for an arbitrary search. P: induction on the number of attempts. |
| C236 | M: the loop of `fit` over a sequence of calls, the search an arbitrary function. P: invariant of the sequence. |
| C237 | M: numbers of points in X and gamma. P: direct. |
| C238, C239 | M: `_set_length_scale_bounds`, `_check_dims`, `fit` of the scikit-learn wrapper. P: induction, case analysis. |
| C240 | P: C145, C172, C173 and C220 on a common grid. Refuted by five objectives. |
| C241, C242 | M: `handle_box_constraint` on vectors and matrices with the transposition, the boolean mask and the views of the caller's array. P: entry by entry against the repair of a point (C27). |
| C243, C244 | M: `set_bounds` and `arg_to_int` on Python values, `eval` an arbitrary function. P: case analysis, truncated division. |
| C245 | M: the calls with the truth values of arrays. P: against the call with one point (C57-C59). |
| C246, C247 | M: the Hessian of trend and correlation, with the shapes that raise. P: second derivatives of the mean (Coquelicot), from the gradients of C136-C143; witnesses for the configurations that raise or return zeros; symmetry of the formula. |
| C248-C251 | M: `_ready_args`, the constructors of variables and of the spaces of one type, exceptions as values. P: by position, against a description of the arguments; computed witnesses. |
| C252 | M: `to_dict(orient="var")` with and without labels. P: by position in the dictionary. |
| C253-C259 | M: `_set_structure`, the constructor, slices, `-`, `pop`, `remove`, `+`, `-=`, `+=`, `*` and `get_unconditional_subspace` on names and conditions. P: the trees built from a dictionary are those of the relation it describes (induction over a rank that decreases along conditions); every condition is counted; general refutations where the code repeats conditions or raises. |
| C260 | M: `tell` as before. S: sum of the squared differences of all pairs of finite values. P: variance identity, invariant of the stored values. |
| C261 | M: `fmin` as before. P: a returned run has passed the check of the starting points. |
| C262 | M: `SurrogateAggregation` (Aggregate). S: an abstract expectation, weighted sums of uncorrelated variables. P: induction over the models. Refuted for Tchebycheff. |
| C263 | M: the setter of `var_name` (Rename). P: distinct names are kept by the renaming of repeated ones. Refuted for repeated names and for conditions. |
| C264, C265 | M: padding of fronts of several sets, reference points for all sets or for each, updates (BatchBoxes). P: weak staircases, where repeated points give empty cells; the volume of a padded front is that of the front; induction over updates. Refuted for the fast class with reference points for each set and no better outcome. |
| C266 | M: the try block of `from_dict` (SpaceDict). P: induction over the items before the invalid one. Refuted: the item is dropped. |
| C267 | P: case analysis over classes and arguments (Acquisition). |
| C268 | P: as C173, with cells that need not fill the non-dominated region: a sum over grid cells of inequalities. |
| C269 | M: `to_json`, `from_json`, json.dump chunk by chunk (SpaceJson); json.load by contract. P: unfolding at the first item. Refuted for every space with a variable. |
| C270 | M: `ask`, `tell` of `ConditionalBO` with the state of all its optimizers (CondRun). P: induction over the history. Refuted for failed and for warm-start points. |
| C271 | M: `run` on the same model. P: the counter grows by the batch in each iteration. Refuted (loop for ever) for an objective that fails after the first batch. |
| C272 | M: as C270. P: the loop of tell keeps, for each sub-space, the share of its own points; telling back from C105. Refuted for two asks before a tell. |
| C273 | M: as C270. P: invariant on data and hist_f over the history. |
| C274 | M: as C270. Refuted for every history (n_eval stays 0). |
| C275 | M: Model_Kernel. The quadratic form of the correlation matrix (Spec_Psd) is nonnegative, positive for different points. Exponential series of Gram matrices (Lib_Psd), mixtures over a scale by the normal distribution function (Lib_Mixture), strictness (Lib_Definite). |
| C276 | M: Model_Kernel. Schur's product theorem and an integral representation of fractional powers (Lib_Schur); sharpness by three points for every exponent above two. |
| C277 | M: Model_Kernel, Model_Likelihood. Refuted for the cubic correlation (seven points), also through the likelihood; the others proved. |
| C278 | M: Model_Likelihood. A positive definite matrix has a Cholesky factor, so the contract of the routine excludes a failure. |
| C279 | M: Model_Likelihood. A matrix with two equal rows has no Cholesky factor. |
| C280 | M: Model_PredictVar over Model_Likelihood and Model_PriorCov. The factor is a minimum over weights (completing the square with the Cholesky factor; Bessel's inequality for the trend); positivity by C275 for the data with the new point. |
| C281 | M: Model_PriorCov. Entries are a multiple of the correlations; C275. |
| C282 | M: as C280, all three modes. Refuted at every data point of every fit with a known trend; the reported variance is a lower bound. |
| C283 | M: Model_MIES. P: the draws that lead from a point to another, position by position; invariants of the three mutation loops. |
| C284 | M: Model_Boxes, Model_Lacour. S: Spec_Improve, Spec_HV. P: every cell of a grid lies below the outcome and in exactly one hypercell, or contributes to neither side; the bounds of all classes are reference or front values. |
| C285 | M: Model_EHVI with Model_Lacour and Model_Boxes. S: Spec_Expect. P: linearity of iterated integrals and C60; C284 at rational outcomes. |
| C286 | M: Model_Fast2 over Model_Boxes. P: the cells come from some of the outcomes that dominate the same points as all of them, an invariant of update; then C22, C172, C284, C285. |
| C287 | M: Model_EHVI over the cells of Model_Lacour and Model_Fast2. P: the cell that holds the improving outcome has room on every side below the cut, so its product is positive; the other cells are non-negative. |
| C288 | M: Model_EHVI over the cells of all classes (Spec_Decompose). P: the value is a sum over cells of products of increments of non-decreasing functions; by induction on the number of objectives, slicing at all bounds, such a sum is monotone in how often the cells cover each point. Also gives C285 and C287 for the binary class, which the optimizer uses. |
| C289 | M: Model_MoAcq (cells over the scaled and rounded outcomes and reference point of Model_MOBO). P: scaled values stay below 2, so an improving outcome below the cut exists and C287 applies; MinMax scaling is invariant under positive affine maps, and equal regions give equal values (C288). |
| C290 | M: Model_MoAcq, Model_MOBO. P: the recommendation by C24; the improvements are refuted by three observations, where the reference point lies above the worst values in one direction only. |
| C291 | M: Model_EHVI over the cells of Model_Boxes for any alpha. P: the cells are disjoint parts of the non-dominated region (C23); sums over cells grow with the region (as in C288). |
| C292 | M: as C291, two thresholds. P: the two runs of the loop keep the stack and the cells of the larger threshold as subsequences of those of the smaller; the fronts do not depend on the threshold (induction on the history); each cell contributes a non-negative amount. |

## 4. Axioms per theorem

From `Print Assumptions` for every theorem of the manifest (`tools/axioms.py` regenerates this section after a
build). The axioms are those of Coq's `Reals` and of `functional_extensionality`/`classic` in the standard library.

<!-- axioms:begin -->
**Closed under the global context (no axioms)** (465 theorems):
`C01_evaluation_accounting`, `C02_history_running_optimum`, `C03_recommendation_first_best`, `C03_recommendation_any_history`, `C04_run_terminates`, `C04_run_budget`, `C04_run_returns_recommendation`, `C05_target_stop_partial`, `C05_budget_stop`, `C05_stop_is_permanent`, `C05_target_stop_max_refuted`, `C05_target_missed_max_refuted`, `C06_tell_atomic_refuted`, `C06_tell_short_values_refuted`, `C06_tell_atomic_partial`, `C07_warm_data_free_and_first`, `C08_n_eval_list_refuted`, `C08_n_eval_exact_partial`, `C08_n_eval_list_off_by_one`, `C09_labels_unique_refuted`, `C09_labels_unique_partial`, `C09_default_labels_distinct`, `C10_ask_count`, `C10_ask_errors`, `C11_no_repeat`, `C12_batch_distinct_refuted`, `C12_design_distinct_refuted`, `C12_batch_distinct_partial`, `C12_design_distinct_partial`, `C13_fixed_exact_refuted`, `C13_fixed_exact_partial`, `C14_in_space`, `C15_evaluate_order`, `C15_evaluate_multi`, `C16_seed_reproducible_refuted`, `C16_seed_zero_refuted`, `C16_seed_reproducible_partial`, `C17_is_pareto_efficient`, `C18_fast_non_dominated_sort`, `C19_nd2_dominated_refuted`, `C19_nd2_duplicates_refuted`, `C19_nd2_input_refuted`, `C19_nd2_complete_partial`, `C19_nd2_exact_partial`, `C19_nd2_input_partial`, `C20_is_non_dominated`, `C21_pareto_set_refuted`, `C21_dominated_point_refuted`, `C21_boundary_refuted`, `C21_exact_partial`, `C22_two_objectives`, `C22_fast_two_objectives`, `C22_nondominated_cells`, `C22_dominated_cells`, `C23_binary_partitioning`, `C23_any_threshold`, `C24_duplicates_refuted`, `C24_single_precision_refuted`, `C24_recommendation_partial`, `C24_rescaling_partial`, `C24_resolution_partial`, `C25_ref_point_refuted`, `C25_ref_point_partial`, `C26_failed_evaluation_refuted`, `C26_accounting_partial`, `C27_box_repair`, `C27_box_repair_idempotent`, `C29_best_feasible_restart`, `C29_stopping_partial`, `C29_budget_refuted`, `C30_domain`, `C30_in_space`, `C30_with_parameters`, `C31_best_of_all`, `C31_monotone`, `C31_budget`, `C31_with_parameters`, `C31_budget_with_parameters`, `C33_update_partial`, `C33_same_as_base`, `C33_zero_path_refuted`, `C33_after_restart_refuted`, `C34_successes_partial`, `C34_stale_refuted`, `C36_constraints_hold`, `C36_domain_partial`, `C36_mixed_levels_refuted`, `C36_subset_refuted`, `C38_rounding`, `C38_idempotent_refuted`, `C38_idempotent_partial`, `C39_samples_are_the_grid`, `C39_samples_contained`, `C39_integer_levels`, `C39_membership_refuted`, `C39_integer_space_refuted`, `C39_integer_space_partial`, `C40_discrete_levels`, `C40_subset_levels_partial`, `C40_subset_duplicates_refuted`, `C41_filter_splits`, `C41_subtraction_partial`, `C41_concatenation`, `C41_subtraction_refuted`, `C42_replication_partial`, `C42_at_most_one`, `C42_replication_refuted`, `C43_unique_names_refuted`, `C43_unique_names_partial`, `C44_type_index_partial`, `C44_type_index_refuted`, `C45_update_partial`, `C45_update_refuted`, `C46_operands_partial`, `C46_operands_refuted`, `C47_membership_partial`, `C47_membership_refuted`, `C48_equivalence`, `C48_hash_partial`, `C48_hash_refuted`, `C49_deepcopy_refuted`, `C49_keep_partial`, `C50_round_trip_partial`, `C50_round_trip_refuted`, `C51_paths_group_leaves`, `C51_subspaces_partial`, `C51_subspaces_refuted`, `C52_slice`, `C52_row_partial`, `C52_out_of_range`, `C52_list`, `C52_mask`, `C52_row_refuted`, `C53_concatenation_partial`, `C53_incompatible_raises`, `C53_objectives_refuted`, `C53_names_refuted`, `C54_write_through_partial`, `C54_written_values`, `C54_write_through_refuted`, `C55_round_trip_partial`, `C55_key_order_partial`, `C55_key_order_refuted`, `C55_round_trip_refuted`, `C55_not_evaluated`, `C56_unique_partial`, `C56_unique_refuted`, `C61_interpolation`, `C64_best_restart`, `C64_stopping`, `C64_no_restart`, `C65_crash_window_refuted`, `C65_content_partial`, `C66_save_keeps_optimizer`, `C66_load_restores`, `C66_save_returns`, `C67_file_only_refuted`, `C67_new_process_partial`, `C69_shared_default_refuted`, `C69_own_dictionary_partial`, `C69_adapt_own_parameter`, `C69_annealing_start`, `C70_complete_assignment`, `C72_design_missing_refuted`, `C72_iterations_partial`, `C72_fmin_partial`, `C73_at_most_one`, `C74_code`, `C74_injective`, `C75_one_point`, `C75_wrong_length`, `C75_fill_in`, `C76_distinct`, `C78_size`, `C78_quadratic`, `C78_jacobian`, `C79_round_robin`, `C80_round_trip_refuted`, `C80_round_trip_partial`, `C81_recommend_unavailable_partial`, `C81_recommend_unavailable_refuted`, `C82_warm_data_dict_mode_refuted`, `C82_warm_data_accepted_partial`, `C83_fresh_samples_refuted`, `C83_fresh_samples_partial`, `C85_documented_format_partial`, `C85_default_refuted`, `C85_items_refuted`, `C86_select_by_names`, `C86_remove_by_name`, `C87_labels_partial`, `C87_labels_refuted`, `C88_labelled_dict_partial`, `C88_labelled_dict_refuted`, `C89_constructor_partial`, `C89_constructor_refuted`, `C90_integer_step_refuted`, `C90_integer_bounds_partial`, `C91_initial_point_refuted`, `C93_restarts_identical_refuted`, `C94_grid_refuted`, `C95_evaluate`, `C96_updates`, `C97_no_false_checkpoint`, `C98_failed_dump_refuted`, `C98_early_failure_partial`, `C99_same_process`, `C100_stop_refuted`, `C100_wrong_process_refuted`, `C100_stop_partial`, `C101_race_refuted`, `C101_race_partial`, `C105_falsy_value_refuted`, `C105_falsy_condition_refuted`, `C105_told_back_partial`, `C106_column_order_refuted`, `C106_same_order_partial`, `C107_initial_round`, `C108_matrix_refuted`, `C108_square_partial`, `C109_gradient`, `C110_proportional`, `C111_equal_candidates_refuted`, `C111_distinct_partial`, `C124_epsilon_pi_refuted`, `C128_noiseless_partial`, `C128_noisy_refuted`, `C128_noise_estim_refuted`, `C129_equivariance`, `C130_order`, `C131_variance_estimate`, `C132_variance_bounds`, `C133_batches_refuted`, `C133_single_partial`, `C134_unusable_refuted`, `C134_usable_partial`, `C135_endless_refuted`, `C135_escalation_partial`, `C144_never_ends_refuted`, `C144_budget_refuted`, `C144_keeps_the_worst_refuted`, `C138_gradient`, `C145_exact`, `C145_grids_exist`, `C146_monotone`, `C146_order`, `C146_dominated_points`, `C147_replication_partial`, `C147_sets_raise`, `C147_replication_refuted`, `C148_element`, `C148_out_of_range`, `C148_block_partial`, `C148_block_refuted`, `C153_other_names_rejected`, `C154_proposals_partial`, `C154_proposals_refuted`, `C154_initial_design`, `C156_adaptation_refuted`, `C160_is_running_refuted`, `C160_is_running_partial`, `C161_restart_refuted`, `C161_restart_partial`, `C162_interrupted_start_refuted`, `C162_interrupted_start_partial`, `C168_fast_partitioning`, `C169_incremental_updates`, `C169_same_region_as_at_once`, `C172_fast_hypervolume`, `C172_fast_two_objectives`, `C172_grids_exist`, `C173_binary_hypervolume`, `C173_classes_agree`, `C190_returned_best`, `C191_count_partial`, `C191_iterations_partial`, `C191_count_refuted`, `C191_budget_refuted`, `C192_inside`, `C193_bounds_partial`, `C193_mixed_refuted`, `C194_terminates_partial`, `C194_default_refuted`, `C195_initial_design_partial`, `C195_zero_refuted`, `C197_frozen_refuted`, `C197_step_size_partial`, `C198_given_refuted`, `C198_default_partial`, `C199_dead_refuted`, `C199_tolerance_partial`, `C200_one_parent_refuted`, `C200_one_offspring_refuted`, `C200_flat_partial`, `C201_ask`, `C201_restarts`, `C201_best`, `C202_given_refuted`, `C202_default_partial`, `C202_given_partial`, `C207_in_space`, `C207_samples`, `C208_new_partial`, `C208_new_refuted`, `C209_feasible_partial`, `C209_feasible_refuted`, `C210_result`, `C210_target`, `C211_budget`, `C212_kept`, `C213_in_space`, `C214_new`, `C215_result`, `C216_budget`, `C217_kept_partial`, `C217_failed_refuted`, `C218_target_refuted`, `C219_default_refuted`, `C219_default_partial`, `C220_exact`, `C220_distinct`, `C220_four`, `C220_monotone`, `C220_order`, `C221_readable_partial`, `C221_quoting_refuted`, `C221_row_refuted`, `C222_append`, `C223_complete_partial`, `C223_readable_partial`, `C223_complete_refuted`, `C223_fresh_refuted`, `C224_sound`, `C225_complete`, `C226_consistent_partial`, `C226_consistent_refuted`, `C226_single_partial`, `C227_warm_data_refuted`, `C228_batch_refuted`, `C228_single_partial`, `C229_named_partial`, `C229_object_partial`, `C229_multi_objective_refuted`, `C229_checked_refuted`, `C230_no_bounds_refuted`, `C230_bounds_partial`, `C230_refuses_partial`, `C231_array_refuted`, `C231_one_partial`, `C232_accepts`, `C232_refuses`, `C233_start_refuted`, `C233_length_partial`, `C234_isotropic_refuted`, `C234_right_trend_partial`, `C235_transposed_refuted`, `C235_raises_partial`, `C236_noise_partial`, `C236_forever_refuted`, `C236_no_rejection_partial`, `C237_failed_refuted`, `C237_completed_partial`, `C238_one_pair_partial`, `C238_pairs_partial`, `C238_one_variable_refuted`, `C239_columns`, `C240_binary_partial`, `C240_separated_partial`, `C240_two_partial`, `C240_three_partial`, `C240_five_refuted`, `C241_batch_partial`, `C241_vector_partial`, `C241_misfit_partial`, `C241_square_refuted`, `C241_equal_bounds_refuted`, `C242_copied_partial`, `C242_raised_partial`, `C242_inside_partial`, `C242_float_array_refuted`, `C242_changed_refuted`, `C243_number_partial`, `C243_iterable_partial`, `C243_length_partial`, `C243_text_refuted`, `C243_other_refuted`, `C244_number_partial`, `C244_text_partial`, `C244_refused_partial`, `C244_other_refuted`, `C248_variables`, `C248_accepts`, `C248_one_range`, `C248_refuses`, `C249_default_partial`, `C249_default_refuted`, `C250_subset_partial`, `C250_subset_refuted`, `C251_bool_partial`, `C251_default_refused`, `C251_bool_refuted`, `C252_columns`, `C252_labelled_columns`, `C253_conditions_partial`, `C253_conditions_refuted`, `C253_cycles_raise`, `C254_slice_partial`, `C254_slice_refuted`, `C254_remove_partial`, `C254_remove_refuted`, `C255_no_conditions`, `C255_subspaces_partial`, `C255_selector_refuted`, `C255_twice_refuted`, `C255_renames_refuted`, `C256_sum_partial`, `C256_sum_refuted`, `C257_in_place_partial`, `C257_minus_refuted`, `C257_plus_refuted`, `C258_argument_partial`, `C258_argument_refuted`, `C258_again_refuted`, `C259_one_partial`, `C259_copies_refuted`, `C260_raised`, `C261_points_checked`, `C261_points_refused`, `C262_refuses`, `C263_names_partial`, `C263_prefix`, `C263_wrong_number`, `C263_repeated_refuted`, `C263_conditions_refuted`, `C264_one_reference`, `C264_fast_one_reference`, `C265_each_reference`, `C265_fast_each_partial`, `C265_fast_each_refuted`, `C266_invalid_refuted`, `C266_empty_range_partial`, `C268_at_least`, `C268_at_most`, `C269_round_trip_refuted`, `C269_round_trip_partial`, `C270_counts_finite_partial`, `C270_failed_refuted`, `C270_warm_refuted`, `C271_ends_partial`, `C271_never_ends_refuted`, `C272_routing_partial`, `C272_two_asks_refuted`, `C273_recommendation`, `C273_progress`, `C274_never_counted_refuted`, `C283_one_mutation`, `C283_first_generation`, `C284_fast_improvement`, `C284_fast_update`, `C284_fast_two_objectives`, `C284_binary_improvement`, `C286_updates`, `C286_improvement`, `C290_direction_refuted`, `C290_recommendation_partial`

**`ClassicalDedekindReals.sig_forall_dec`** (5 theorems):
`C152_wrong_number_of_weights`, `C153_accepted_partial`, `C153_accepted_refuted`, `C262_wrong_weights`, `C262_tchebycheff_refuted`

**`ClassicalDedekindReals.sig_forall_dec`, `FunctionalExtensionality.functional_extensionality_dep`** (22 theorems):
`C59_pi_refuted`, `C59_defaults_partial`, `C59_parameters_checked`, `C84_real_bounds_refuted`, `C84_real_bounds_widened_refuted`, `C84_real_bounds_partial`, `C112_round_trip`, `C113_outside_never_wins`, `C113_penalty_gradient`, `C122_default_plugin_is_best_observation`, `C122_bo_plugin`, `C123_single_point_refuted`, `C152_weighted_sum`, `C155_best_prediction`, `C164_inside_unchanged`, `C184_perfect`, `C184_constant`, `C184_affine`, `C262_weighted_sum_partial`, `C267_foreign_argument`, `C267_values_used`, `C288_all_classes_return`

**`ClassicalDedekindReals.sig_forall_dec`, `ClassicalDedekindReals.sig_not_dec`, `FunctionalExtensionality.functional_extensionality_dep`** (22 theorems):
`C71_bounds_enclose`, `C116_ucb_refuted`, `C121_maximising_is_minimising_the_negation`, `C126_standardised`, `C126_rescaling_partial`, `C126_small_scale_refuted`, `C149_any_schedule`, `C149_mean`, `C150_within_the_observations`, `C150_order_of_trees`, `C151_uncertainty_partial`, `C151_uncertainty_refuted`, `C155_no_improvement_on_data`, `C158_variance`, `C159_several_points_partial`, `C159_several_points_refuted`, `C196_parameters`, `C245_UCB_partial`, `C245_one_point_partial`, `C245_several_refuted`, `C245_classes_refuted`, `C285_expectations_are_unique`

**`ClassicalDedekindReals.sig_forall_dec`, `ClassicalDedekindReals.sig_not_dec`, `Classical_Prop.classic`, `FunctionalExtensionality.functional_extensionality_dep`** (152 theorems):
`C28_rows`, `C28_zero_iff_feasible`, `C28_grows_with_t`, `C28_no_reward_for_violation`, `C32_incumbent_partial`, `C32_all_feasible`, `C32_box_and_step_size`, `C32_feasible_missed_refuted`, `C35_no_restart_partial`, `C35_restarts_refuted`, `C37_scale_round_trip`, `C37_samples_fill_bounds`, `C57_gradients_are_derivatives`, `C58_better_means`, `C58_strictly_better_means`, `C60_ehvi_is_sum_of_products_of_expected_gains`, `C62_correlation_matrix`, `C62_range`, `C62_zero_distance`, `C62_defined`, `C63_matern_partial`, `C63_matern_refuted`, `C63_missing_refuted`, `C68_exponential`, `C68_budget`, `C77_rank_weights`, `C77_single`, `C92_budget_partial`, `C92_budget_refuted`, `C102_linear`, `C103_linear_refuted`, `C103_positive_partial`, `C104_log_refuted`, `C104_log_step_partial`, `C114_epsilon_pi_kink_refuted`, `C115_large_epsilon_refuted`, `C117_mgfi_better_means_partial`, `C117_mgfi_overflow_refuted`, `C118_values_nonneg`, `C119_ei_prefers_uncertainty`, `C120_values_are_expectations`, `C123_batch_partial`, `C124_sampled_parameters_accepted_partial`, `C125_mgfi_samples_follow_parameter_partial`, `C125_ucb_samples_refuted`, `C127_ehvi_prefers_better_means`, `C136_isotropic_partial`, `C136_generalized_refuted`, `C137_anisotropic_partial`, `C137_isotropic_refuted`, `C139_squared_exponential_partial`, `C139_refuted`, `C140_monotone`, `C141_matern`, `C142_squared_exponential`, `C142_absolute_exponential`, `C143_rbf_refuted`, `C157_gradient`, `C163_strategy_parameters`, `C164_within_bounds`, `C165_covariance`, `C166_value`, `C166_gradient`, `C166_one_function_refuted`, `C166_one_function_partial`, `C167_finite_difference`, `C167_quadratic`, `C170_pairs`, `C171_covariance_partial`, `C171_array_refuted`, `C174_noise_estimated`, `C174_noiseless_known_trend`, `C174_noisy`, `C175_noise_estimated`, `C176_noiseless_known_trend_partial`, `C176_estimated_trend_refuted`, `C177_scaled_partial`, `C177_zero_noise`, `C177_refuted`, `C178_noise_entry_partial`, `C178_refuted`, `C179_noise_estimated_partial`, `C179_noiseless_known_trend_partial`, `C179_refuted`, `C180_estimated_trend_partial`, `C180_refuted`, `C181_refuted`, `C181_reported_partial`, `C182_categorical_partial`, `C182_rows_partial`, `C182_overflow_refuted`, `C182_integer_refuted`, `C183_schedule`, `C183_feasible`, `C183_violated`, `C183_leaving`, `C185_value`, `C185_trivial`, `C186_positive_partial`, `C186_refuted`, `C187_known_trend_partial`, `C187_refuted`, `C187_targets_refuted`, `C188_trend_invariant`, `C189_variance_partial`, `C189_known_trend_partial`, `C189_known_trend_refuted`, `C189_estimated_trend_refuted`, `C203_run`, `C203_feasible`, `C204_inside_refuted`, `C204_inside_partial`, `C205_accounting`, `C205_two`, `C206_history_refuted`, `C246_squared_exponential_partial`, `C246_raises_refuted`, `C246_zeros_refuted`, `C247_symmetric`, `C275_semidefinite`, `C275_definite`, `C276_generalized`, `C276_sharp`, `C277_cubic_refuted`, `C277_others_partial`, `C277_likelihood_refuted`, `C278_noisy`, `C278_noise_estimated`, `C278_noiseless`, `C279_repeated`, `C279_no_exception`, `C280_best`, `C280_zero_exactly`, `C281_covariance`, `C282_optimistic_partial`, `C282_every_fit`, `C282_refuted`, `C285_expected_improvement`, `C285_two_objectives`, `C285_binary`, `C286_expected_improvement`, `C287_positive`, `C287_positive_two_objectives`, `C287_positive_all_classes`, `C288_fewer_outcomes_more_to_gain`, `C288_same_outcomes_same_value`, `C288_updates_decrease`, `C289_positive`, `C289_units`, `C289_expectation`, `C291_underestimates`, `C292_threshold_monotone`

<!-- axioms:end -->

## 5. Assumptions about libraries

They are hypotheses or oracles of the models, never axioms.

* numpy: arrays behave as in `Model_Sol` (views share, fancy indexing copies, subclasses keep their attributes through
  `__array_finalize__`); `argsort`, `eigh` and random numbers in `Model_CMAES` are arbitrary.
* dill: what was pickled is loaded again unchanged; a truncated pickle does not load (`Model_Checkpoint`).
* scikit-learn: `MinMaxScaler` and `OneHotEncoder` formulas; PCA components are orthonormal rows (C112) of unit length
  (C71, C77); trees are arbitrary functions (C149–C151), bounded by the observed targets in C150; the attributes of a fitted
  `GaussianProcessRegressor` are arbitrary in C157, and `L_` is the Cholesky factor of the kernel matrix in C158.
* scipy: `solve_triangular` and `cho_solve` are exact; L-BFGS-B returns an arbitrary point and value.
* LAPACK: Cholesky and QR factorisations satisfy their defining equations when they succeed; in the prediction and search
  models whether they succeed and whether a likelihood value is accepted are arbitrary; in the likelihood model Cholesky
  succeeds exactly when a factor exists (`lapack` in `Spec_Likelihood`, met by the routines of `Lib_Lapack`).
* The normal cdf is the integral of the density (its limit 1 is proved in `Lib_Normal`).
* joblib, operating system: an arbitrary schedule of completions; processes as in `Model_Daemon` (a failing `kill` for
  lack of permission is left out).
* Real or rational arithmetic stands for floating point everywhere.

## 6. What is modelled and what is not

| file under `bayes_optim/` | modelled (in) | not modelled |
|---|---|---|
| `__init__.py` | history returned by `fmin` (Conditional), all of `fmin` (Fmin) | keyword arguments passed on, `args`, `seed`, the text printed |
| `_base.py` | all but `search_space` setter's type error (Opt, Seed); whole runs with the modelled ask, sampler and evolution strategy (Run) | |
| `base.py` | `DoE_size`, warm data, `step`, `ask`, `tell`, `create_DoE`, checks, `update_model` failure, `arg_max_acquisition` (Opt, Ask), `save`/`load` (Checkpoint), acquisition parameters (Acquisition, Shared); choice of the inner optimizer (Propose) | log messages |
| `bayes_opt.py` | all classes (Ask, Acquisition, Annealing, Shared, Noisy, NoisyPlugin) | joblib itself |
| `mobo.py` | `BaseMOBO`, `MOBO` (MOBO); acquisition (MoAcq); whole runs (MoRun); constructor, warm data, `MOBO_qEHVI` up to the missing acquisition function (MoSetup) | |
| `extension.py` | `LinearTransform`, `penalized_acquisition`, bounds, `PCABO` as a loop (PCA, PcaLoop), `ConditionalBO`, `MultiAcquisitionBO` (Conditional), whole runs of `ConditionalBO` (CondRun) | |
| `solution.py` | all (Sol), `to_csv` (Csv) but | `__str__` |
| `search_space/variable.py` | all (Var, Grid, Scale, Space) but | printing |
| `search_space/search_space.py` | construction (SpaceInit), indexing, algebra, `filter`, `remove`, `update`, sampling, rounding, dictionaries (Space, SpaceDict, Grid, Seed, Sampler), conditions of spaces and sub-spaces (Structure), the setter of `var_name` (Rename), `to_json` and `from_json` by tokens (SpaceJson) | printing, characters of JSON text, the parser of conditions |
| `search_space/node.py` | all (Node) but | `pprint` |
| `search_space/samplers.py` | proposals, filter (Sampler); log posterior, schedule, acceptance and the distribution of categorical and integer proposals (Metropolis) | real proposals in distribution; `_ess`, `get_weights` (not called) |
| `acquisition/acquisition_fun.py` | all (Acquisition), several points (AcqBatch) | gradients at several points |
| `acquisition/optim/__init__.py` | all (Box, Penalized) | L-BFGS-B itself |
| `acquisition/optim/mies.py` | operators and loop (MIES); strategy parameters, constructor and stopping criteria (MiesPar) | the values of the factors exp(tau * randn()) (any positive numbers); verbose output |
| `acquisition/optim/one_plus_one_cma_es.py` | both classes (CMA, Cholesky) | logging |
| `multi_objective/analytic.py` | `EHVI` (EHVI) | torch plumbing, automatic differentiation |
| `surrogate/random_forest.py` | all (Forest, Features, Aggregate) | growing the trees |
| `surrogate/gaussian_process/gpr.py` | `fit`, `predict`, `gradient`, correlation and its derivatives, `Hessian`, concentrated and restricted likelihood with their gradients and the function minimized, restart loop, `prior_cov`, constructor, checks, refitting (GP, GPSetup, PredictVar, Kernel, Hessian, Search, PriorCov, Likelihood, Restricted) | printing |
| `surrogate/gaussian_process/kernel.py` | correlation functions, `Matern` (Kernel) | kernel algebra classes |
| `surrogate/gaussian_process/trend.py` | constant, linear, quadratic (Features, GP), `check_input` (GPSetup) | `NonparametricTrend` |
| `surrogate/gaussian_process/cma_es.py`, `boundary_handling.py` | default configuration (CMAES, Search) | other sampling methods, history |
| `surrogate/gaussian_process/__init__.py` | `fit` attributes, `predict`, `gradient`, `kernel_dx`, parameter checks (SkGP, Kernel, GPSetup) | choice of kernels |
| `surrogate/gaussian_process/utils.py` | all (Error) | |
| `utils/utils.py` | Pareto test, selection, box repair, fixed values, wrappers, penalty, bounds and integer arguments (Pareto, Features, Box, Ask, Penalty, Batch) | `expand_replace`, `timeit`, `random_string` |
| `utils/logger.py` | handlers, dump and load (Logger) | text format |
| `utils/_daemon.py` | all (Daemon) | file descriptors |
| `utils/exception.py` | as error values | messages |
| `utils/multi_objective/hypervolume.py`, `pareto.py` | all (HV, Pareto) | |
| `utils/multi_objective/box_decompositions/` | both partitionings with `update`, padding, hypervolume of the cells (Boxes, Lacour, CellVolume), batches of sets (BatchBoxes) | feasibility masks, one objective |
