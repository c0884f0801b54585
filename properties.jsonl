{"id": "C01", "title": "Samples and observations stay paired and finite", "statement": "After any sequence of calls to optimize() on one optimizer object, including calls that end in an exception, samples() and observations() have the same length, the i-th observation is exactly the value the objective returned when it was called on the i-th sample, and no stored observation contains a NaN or an infinity.", "quantifier": "for every objective function (stateful, noisy, throwing, returning NaN/inf), every initialisation design, every acquisition optimizer, every model, every history of optimize calls with any reset flags", "why_tests_cant": "the exception may strike at any of unboundedly many evaluations and objectives may be arbitrary stateful code; a test fixes one objective and one failure point", "anchors": ["src/limbo/bayes_opt/bo_base.hpp: BoBase::add_new_sample, BoBase::eval_and_add", "src/limbo/tools/math.hpp: is_nan_or_inf", "src/limbo/bayes_opt/boptimizer.hpp: BOptimizer::optimize"]}
{"id": "C02", "title": "A rejected evaluation leaves no trace", "statement": "When an evaluation throws or returns a NaN/infinite observation, the exception reaches the caller and the optimizer holds exactly the samples, observations, iteration counters and model data it held just before that evaluation; nothing of the rejected point is stored.", "quantifier": "for every state, every candidate point, every objective result (finite, NaN, +/-inf in any component, thrown exception), at the initialisation stage or at any iteration", "why_tests_cant": "all positions of the offending component and all crash points of the loop must be covered", "anchors": ["src/limbo/bayes_opt/bo_base.hpp: BoBase::add_new_sample, EvaluationError", "src/limbo/bayes_opt/boptimizer.hpp: BOptimizer::optimize"]}
{"id": "C03", "title": "Exact evaluation budget", "statement": "With the MaxIterations criterion as the only stopping criterion and no exception, optimize() calls the objective exactly (number of initial points, if initialisation runs) + max(0, iterations) times, current_iteration() ends at max(0, iterations) and total_iterations() grows by that amount; an added criterion can only lower the number of iterations.", "quantifier": "for every objective, model, iterations parameter, list of extra criteria and previous history of the object", "why_tests_cant": "the iteration parameter, the histories and the extra criteria are unbounded", "anchors": ["src/limbo/bayes_opt/boptimizer.hpp: BOptimizer::optimize", "src/limbo/stop/max_iterations.hpp: MaxIterations", "src/limbo/bayes_opt/bo_base.hpp: BoBase::_stop"]}
{"id": "C04", "title": "Resuming keeps history, resetting discards it", "statement": "optimize(..., reset=false) keeps all earlier samples and observations as a prefix of the new ones and runs the initialisation again exactly when no iteration has been completed since the last reset; optimize(..., reset=true) starts from empty data.", "quantifier": "for every object history, objective and parameters", "why_tests_cant": "histories are unbounded and include runs aborted by exceptions", "anchors": ["src/limbo/bayes_opt/bo_base.hpp: BoBase::_init", "src/limbo/bayes_opt/boptimizer.hpp: BOptimizer::optimize"]}
{"id": "C05", "title": "The model is trained on exactly the collected data", "statement": "Whenever optimize() consults the model (stopping criteria, acquisition function, statistics) and whenever optimize() returns normally, the data the model has been given since it was last (re)computed are exactly samples()/observations(), in order (during the statistics of an iteration: all but the newest pair).", "quantifier": "for every model obeying the compute/add_sample contract, every history and every schedule of exceptions", "why_tests_cant": "needs an invariant over all iterations and all earlier aborted runs", "anchors": ["src/limbo/bayes_opt/boptimizer.hpp: BOptimizer::optimize", "src/limbo/model/gp.hpp: GP::compute, GP::add_sample"]}
{"id": "C06", "title": "Hyper-parameters are re-optimised exactly every hp_period iterations", "statement": "In one optimize() call hyper-parameter optimisation runs after iteration i (counting from 1 within the call) if and only if hp_period > 0 and hp_period divides i; with hp_period <= 0 it never runs.", "quantifier": "for all hp_period, iteration counts and histories", "why_tests_cant": "the period and number of iterations are unbounded, and the counter restarts at each call", "anchors": ["src/limbo/bayes_opt/boptimizer.hpp: BOptimizer::optimize, defaults::bayes_opt_boptimizer"]}
{"id": "C07", "title": "Stopping is the disjunction of the criteria and is memoryless", "statement": "The loop stops before an iteration iff at least one of the listed criteria holds in the current state; criteria after the first one that holds are not consulted; permuting the list does not change the decision; the decision depends only on the optimizer's observable state (criteria are invoked on copies, so a criterion cannot accumulate state).", "quantifier": "for all lists of criteria and all states", "why_tests_cant": "unboundedly many criteria and states", "anchors": ["src/limbo/bayes_opt/bo_base.hpp: BoBase::_stop", "src/limbo/stop/chain_criteria.hpp: ChainCriteria"]}
{"id": "C08", "title": "best_observation / best_sample return the incumbent", "statement": "For a non-empty optimizer and an aggregator whose values on the stored observations are not NaN, best_observation() is an element of observations() whose aggregated value is maximal (the earliest such), and best_sample() is the sample stored at the same position; on an empty optimizer the call is undefined behaviour.", "quantifier": "for all histories and aggregators", "why_tests_cant": "all lists with all tie patterns", "anchors": ["src/limbo/bayes_opt/boptimizer.hpp: BOptimizer::best_observation, BOptimizer::best_sample", "src/limbo/bayes_opt/bo_base.hpp: FirstElem"]}
{"id": "C09", "title": "Log files list every sample exactly once and in order", "statement": "After an optimize() call on a fresh optimizer that performs m >= 1 iterations after k initial points, samples.dat / observations.dat / aggregated_observations.dat contain one header, then k rows labelled -1 and m rows labelled 0..m-1, whose values are samples()/observations()/the aggregated observations in order; further reset=false calls append the following rows with continuing labels, and the best_* logs are monotone running maxima.", "quantifier": "for all k, m, histories of reset=false calls and observations", "why_tests_cant": "row bookkeeping must hold for every length and every history", "anchors": ["src/limbo/stat/samples.hpp", "src/limbo/stat/observations.hpp", "src/limbo/stat/aggregated_observations.hpp", "src/limbo/stat/best_aggregated_observations.hpp", "src/limbo/stat/best_samples.hpp", "src/limbo/stat/best_observations.hpp", "src/limbo/stat/stat_base.hpp"]}
{"id": "C10", "title": "Latin hypercube initialisation is stratified", "statement": "random_lhs(dim, n) returns n points such that, in every dimension, each of the n intervals [k/n,(k+1)/n) contains the coordinate of exactly one point; all points lie in [0,1)^dim.", "quantifier": "for all n >= 1, all dimensions, all random draws and all permutations", "why_tests_cant": "the property is about every outcome of the random generator", "anchors": ["src/limbo/tools/random_generator.hpp: random_lhs", "src/limbo/init/lhs.hpp: LHS"]}
{"id": "C11", "title": "Grid initialisation covers the full grid", "statement": "GridSampling evaluates the objective at every point of the regular grid {0,1/bins,...,1}^dim exactly once, i.e. (bins+1)^dim points, all inside [0,1]^dim, in double precision.", "quantifier": "for every bins in 1..2^20 and every dimension", "why_tests_cant": "floating-point accumulation x += 1/bins behaves differently for each of the values of bins; tests use bins=4", "anchors": ["src/limbo/init/grid_sampling.hpp: GridSampling::_explore"]}
{"id": "C12", "title": "Random initialisers perform exactly `samples` evaluations inside the unit box", "statement": "RandomSampling and RandomSamplingGrid call the objective exactly `samples` times on points of [0,1]^dim; RandomSamplingGrid coordinates are multiples j/bins with 0<=j<=bins (bins+1 distinct values per dimension).", "quantifier": "for every random stream, dimension, number of samples and bins>=1", "why_tests_cant": "every outcome of the random generator", "anchors": ["src/limbo/init/random_sampling.hpp", "src/limbo/init/random_sampling_grid.hpp", "src/limbo/tools/random_generator.hpp: random_vector_bounded"]}
{"id": "C13", "title": "Bounded gradient optimizers never leave the unit box", "statement": "With bounded=true, Rprop, Adam and GradientAscent only ever evaluate the objective at points whose coordinates are in [0,1] or NaN, and return such a point, for any objective and gradient; a NaN coordinate can only appear when the start or an arithmetic result is NaN.", "quantifier": "for all objectives/gradients (including NaN, inf), starting points, parameters, iteration counts, in IEEE double arithmetic", "why_tests_cant": "arbitrary objectives and all float special cases", "anchors": ["src/limbo/opt/rprop.hpp: Rprop", "src/limbo/opt/adam.hpp: Adam", "src/limbo/opt/gradient_ascent.hpp: GradientAscent"]}
{"id": "C14", "title": "Rprop returns the best point it evaluated", "statement": "Rprop evaluates the (clamped) starting point first, evaluates at most `iterations` points, and returns a point whose value is at least that of every evaluated point whose value is not NaN; in particular it never returns something worse than the start.", "quantifier": "for all objectives (including NaN/inf values and gradients), starts, parameters and iteration counts", "why_tests_cant": "arbitrary objectives and unbounded iteration counts", "anchors": ["src/limbo/opt/rprop.hpp: Rprop"]}
{"id": "C15", "title": "Grid search returns the best grid point", "statement": "GridSearch returns the point of the grid it explores with the highest objective value among non-NaN values above -DBL_MAX, and when no such value exists the returned vector has unspecified content.", "quantifier": "for all objectives, dimensions >= 1, bins >= 1", "why_tests_cant": "arbitrary objectives; the nested recursion must be right in each dimension", "anchors": ["src/limbo/opt/grid_search.hpp: GridSearch::_inner_search"]}
{"id": "C16", "title": "Grid search stays in the unit box", "statement": "GridSearch evaluates and returns only points of [0,1]^dim, and evaluates (bins+1) values per dimension.", "quantifier": "for every bins in 1..2^20, in double precision", "why_tests_cant": "float accumulation against the limit 1+1/bins; the unit tests only use bins=20", "anchors": ["src/limbo/opt/grid_search.hpp: GridSearch::_inner_search"]}
{"id": "C17", "title": "Parallel maximum is schedule independent", "statement": "tools::par::max returns an element whose value is maximal among the initial value and all f(i), whatever the split/steal/join tree chosen by the scheduler; the value (not necessarily the argument) is the same for all schedules and equals the sequential result; NaN values are never selected.", "quantifier": "for all f, all n, all reduction trees", "why_tests_cant": "schedules are chosen by TBB at run time", "anchors": ["src/limbo/tools/parallel.hpp: par::max", "src/limbo/opt/parallel_repeater.hpp: ParallelRepeater"]}
{"id": "C18", "title": "ParallelRepeater returns the best of its restarts", "statement": "The returned point is either the best among the `repeats` inner results (by objective value), or the unmodified starting point when no inner result has a value above -FLT_MAX; each inner run starts within epsilon of the starting point.", "quantifier": "for all inner optimizers, objectives, schedules and random streams", "why_tests_cant": "schedules and random streams", "anchors": ["src/limbo/opt/parallel_repeater.hpp: ParallelRepeater"]}
{"id": "C19", "title": "Chained optimizers compose", "statement": "Chained(o1,...,on) feeds the result of each optimizer as the start of the next and returns the last result; with bounded inner optimizers the result is bounded, and if no stage worsens the value the chain does not.", "quantifier": "for all lists of optimizers, objectives and starts", "why_tests_cant": "arbitrary number and behaviour of stages", "anchors": ["src/limbo/opt/chained.hpp: Chained"]}
{"id": "C20", "title": "Kernels are symmetric, bounded and noise-consistent", "statement": "For Exp, SquaredExpARD, MaternThreeHalves and MaternFiveHalves: k(x,y)=k(y,x), 0 < k(x,y) <= sigma^2, k(x,x)=sigma^2; the noise plus 1e-8 jitter is added exactly when the two index arguments are equal and never by default.", "quantifier": "for all points of all dimensions and all hyper-parameters", "why_tests_cant": "continuum of inputs", "anchors": ["src/limbo/kernel/kernel.hpp: BaseKernel::operator()", "src/limbo/kernel/exp.hpp", "src/limbo/kernel/squared_exp_ard.hpp", "src/limbo/kernel/matern_three_halves.hpp", "src/limbo/kernel/matern_five_halves.hpp"]}
{"id": "C21", "title": "Kernel hyper-parameter vectors round-trip", "statement": "h_params() after set_h_params(p) returns p, set_h_params(h_params()) changes no kernel value, and the initial h_params() describe the initial kernel (log-scale), for every kernel with and without noise optimisation.", "quantifier": "for all hyper-parameter vectors of the right size", "why_tests_cant": "continuum of parameters", "anchors": ["src/limbo/kernel/kernel.hpp: BaseKernel::h_params, set_h_params, grad", "src/limbo/kernel/*.hpp: params, set_params"]}
{"id": "C22", "title": "Kernel gradients are the derivatives", "statement": "grad(x,y,i,j) is, component by component, the partial derivative of the kernel value (including the noise term when it is optimised and i=j) with respect to h_params().", "quantifier": "for all points, parameters, dimensions and (ARD) numbers of factor columns", "why_tests_cant": "finite differences only sample a few points up to a tolerance", "anchors": ["src/limbo/kernel/exp.hpp: gradient", "src/limbo/kernel/squared_exp_ard.hpp: gradient", "src/limbo/kernel/matern_three_halves.hpp: gradient", "src/limbo/kernel/matern_five_halves.hpp: gradient", "src/limbo/kernel/kernel.hpp: grad"]}
{"id": "C23", "title": "Kernel matrices are positive definite, so the Cholesky factorisation cannot fail", "statement": "For any list of samples (with duplicates) and noise >= 0 the noisy kernel matrix is symmetric positive definite, all Cholesky pivots are positive and the factor L satisfies L L^T = K.", "quantifier": "for all sample lists, dimensions and parameters (Exp, SquaredExpARD; Matern given positive semi-definiteness)", "why_tests_cant": "positive definiteness quantifies over all finite point sets", "anchors": ["src/limbo/model/gp.hpp: _compute_full_kernel, _compute_incremental_kernel", "src/limbo/kernel/exp.hpp", "src/limbo/kernel/squared_exp_ard.hpp"]}
{"id": "C24", "title": "GP predictions are the exact posterior", "statement": "After compute() or any sequence of add_sample(), mu(v) and sigma(v) equal the textbook GP posterior mean m(v)+k_v^T K^-1 (Y-M) and variance k(v,v)-k_v^T K^-1 k_v (clamped at machine epsilon, plus noise), and query(v) returns exactly (mu(v), sigma(v)).", "quantifier": "for all data sets, query points, positive semi-definite kernels and mean functions (exact arithmetic)", "why_tests_cant": "continuum of data and queries", "anchors": ["src/limbo/model/gp.hpp: compute, add_sample, query, mu, sigma, _mu, _sigma"]}
{"id": "C25", "title": "Incremental and batch training agree", "statement": "Adding samples one by one with add_sample() yields the same predictions, Cholesky factor and alpha as compute() on the whole data set; any mixture of compute and add_sample depends only on the final data.", "quantifier": "for all data sequences, kernels, means (including data-dependent means)", "why_tests_cant": "unbounded sequences; tests compare a few with tolerances", "anchors": ["src/limbo/model/gp.hpp: add_sample, compute, _compute_incremental_kernel, _compute_full_kernel"]}
{"id": "C26", "title": "Training order does not matter", "statement": "Permuting the (sample, observation) pairs given to compute() does not change mu or sigma anywhere.", "quantifier": "for all data sets, permutations and query points", "why_tests_cant": "n! permutations and a continuum of queries", "anchors": ["src/limbo/model/gp.hpp: compute, mu, sigma"]}
{"id": "C27", "title": "Predicted variance is between noise and prior, and more data never increases it", "statement": "noise <= sigma(v) <= k(v,v)+noise for all v (no negative variance), sigma without data is k(v,v)+noise, and after add_sample sigma(v) is not larger than before, for every v.", "quantifier": "for all data sets, added samples and query points", "why_tests_cant": "continuum of data and queries", "anchors": ["src/limbo/model/gp.hpp: sigma, _sigma, add_sample"]}
{"id": "C28", "title": "The GP interpolates its data up to noise", "statement": "At each training point mu(x_i) = y_i - (noise+1e-8)*alpha_i; hence the residual is exactly the noise-weighted dual coefficient.", "quantifier": "for all data sets", "why_tests_cant": "continuum of data", "anchors": ["src/limbo/model/gp.hpp: mu, _compute_alpha"]}
{"id": "C29", "title": "Cached inverse kernel and stale state", "statement": "Whenever gradient/LOO routines use the cached inverse kernel it is the inverse of the kernel matrix of the current samples and current hyper-parameters.", "quantifier": "for all call histories of compute/add_sample/recompute/set_h_params/compute_inv_kernel/load", "why_tests_cant": "cache validity is a property of all call sequences", "anchors": ["src/limbo/model/gp.hpp: compute_inv_kernel, compute_kernel_grad_log_lik, load, recompute"]}
{"id": "C30", "title": "Log-likelihood gradient is the derivative of the log-likelihood", "statement": "compute_kernel_grad_log_lik() is the gradient of compute_log_lik() with respect to the kernel hyper-parameters, and compute_mean_grad_log_lik() with respect to the mean hyper-parameters; for one output, compute_log_lik() is the log Gaussian density of the observations.", "quantifier": "for all data sets, numbers of outputs, differentiable kernels", "why_tests_cant": "finite differences sample a few points with a tolerance", "anchors": ["src/limbo/model/gp.hpp: compute_log_lik, compute_kernel_grad_log_lik, compute_mean_grad_log_lik"]}
{"id": "C31", "title": "Leave-one-out objective is genuine leave-one-out", "statement": "For one output compute_log_loo_cv() equals the sum over i of the log predictive density of y_i under the GP trained on all other samples, and compute_kernel_grad_log_loo_cv() is its derivative.", "quantifier": "for all data sets of size >= 1", "why_tests_cant": "block-inverse identity over all sizes", "anchors": ["src/limbo/model/gp.hpp: compute_log_loo_cv, compute_kernel_grad_log_loo_cv"]}
{"id": "C32", "title": "Hyper-parameter optimisation never lowers the likelihood", "statement": "optimize_hyperparams() of KernelLFOpt (with Rprop) leaves the GP with hyper-parameters whose log-likelihood is at least the one it started from, and the GP's kernel matrices and predictions afterwards correspond to the returned hyper-parameters.", "quantifier": "for all data sets and Rprop settings", "why_tests_cant": "depends on all possible gradient trajectories", "anchors": ["src/limbo/model/gp/kernel_lf_opt.hpp", "src/limbo/opt/rprop.hpp", "src/limbo/opt/parallel_repeater.hpp"]}
{"id": "C33", "title": "Mean functions", "statement": "FunctionARD initially coincides with the wrapped mean, its hyper-parameter vector round-trips and its gradient is the derivative; the Data mean is the average of the observations.", "quantifier": "for all wrapped means, dimensions, parameters, points", "why_tests_cant": "continuum", "anchors": ["src/limbo/mean/function_ard.hpp", "src/limbo/mean/data.hpp", "src/limbo/mean/constant.hpp"]}
{"id": "C34", "title": "MultiGP add_sample agrees with compute", "statement": "A MultiGP trained by add_sample predicts the same as one trained by compute on the same data, and each output is predicted as an independent GP on that output, for any scheduling of the parallel per-output loop.", "quantifier": "for all data sequences, numbers of outputs, mean functions and schedules", "why_tests_cant": "unbounded sequences and schedules", "anchors": ["src/limbo/model/multi_gp.hpp: compute, add_sample, query, mu, sigma"]}
{"id": "C35", "title": "Sparsification keeps pairs and bounds the size", "statement": "SparsifiedGP with max_points p keeps at most p points after compute or add_sample (when the distances are at most 2^900 and the dimension of the samples is at most p); the kept (sample, observation) pairs form an ordered sub-list of the pairs given, each removal removes a pair of minimal mean distance to its dim nearest neighbours, and inputs of size <= p are kept unchanged.", "quantifier": "for all data, all schedules of the parallel density loop", "why_tests_cant": "schedule dependence and all data", "anchors": ["src/limbo/model/sparsified_gp.hpp: compute, add_sample, _sparsify, _get_most_dense_point, _remove_row, _remove_column"]}
{"id": "C36", "title": "Binary archive round trip is bit exact", "statement": "Loading what was saved with BinaryArchive gives back the same matrix, or non-empty list of vectors, bit for bit (NaN payloads, infinities, signed zeros included).", "quantifier": "for all shapes and all 64-bit contents", "why_tests_cant": "unbounded shapes and contents", "anchors": ["src/limbo/serialize/binary_archive.hpp: BinaryArchive::save, load"]}
{"id": "C37", "title": "Truncated archives are not silently accepted", "statement": "Loading a file that is a strict prefix of a saved binary archive (crash while writing) is reported.", "quantifier": "for all archives and all crash points", "why_tests_cant": "every crash point", "anchors": ["src/limbo/serialize/binary_archive.hpp: BinaryArchive::load, _read_binary"]}
{"id": "C38", "title": "Text archive preserves structure", "statement": "Loading what was saved with TextArchive gives a matrix (list of vectors) of the same shape in which each coefficient is the re-parsed printed value, hence the same data whenever printing is lossless; with a format of at least 15 significant digits (Eigen::FullPrecision) every coefficient of a saved list that is 0 or between 2^-1000 and 2^1000 in magnitude comes back within a relative error of 6e-15.", "quantifier": "for all shapes with at least one row and column and all contents", "why_tests_cant": "unbounded shapes", "anchors": ["src/limbo/serialize/text_archive.hpp: TextArchive::save, load"]}
{"id": "C39", "title": "A saved and reloaded GP predicts the same", "statement": "load(save(gp)) with or without recomputation predicts the same mean and variance everywhere as the original, and stays equivalent under further add_sample calls.", "quantifier": "for all trained GPs and query points", "why_tests_cant": "all states and all continuations", "anchors": ["src/limbo/model/gp.hpp: GP::save, GP::load"]}
{"id": "C40", "title": "UCB is mu + alpha*sqrt(sigma) and monotone", "statement": "UCB equals the aggregated predicted mean plus alpha times the predicted standard deviation, is monotone in both, and ranks an unexplored point at least as high as an explored one with the same mean.", "quantifier": "for all models and points", "why_tests_cant": "continuum", "anchors": ["src/limbo/acqui/ucb.hpp: UCB::operator()"]}
{"id": "C41", "title": "GP-UCB exploration weight is well defined", "statement": "GP_UCB returns a number (not NaN) at every iteration it is used by the optimizer, and its exploration weight grows with the iteration.", "quantifier": "for all iterations >= 0, delta in (0,1], dimensions", "why_tests_cant": "one special iteration out of infinitely many", "anchors": ["src/limbo/acqui/gp_ucb.hpp: GP_UCB"]}
{"id": "C42", "title": "EI is the expected improvement", "statement": "EI returns the expectation of max(0, y - f_max - jitter) under the predictive normal distribution of the aggregated output; it is never negative, at least the improvement of the mean, and 0 when the deviation is below 1e-10 or no data exist.", "quantifier": "for all predictions and incumbents", "why_tests_cant": "an integral identity over a continuum", "anchors": ["src/limbo/acqui/ei.hpp: EI::operator()"]}
{"id": "C43", "title": "EI uses the current incumbent", "statement": "The incumbent value used by EI is the maximum predicted value over the model's current samples.", "quantifier": "for all histories of model updates between two calls", "why_tests_cant": "all call histories", "anchors": ["src/limbo/acqui/ei.hpp: EI::operator() (cache _nb_samples, _f_max)"]}
{"id": "C44", "title": "Pareto set is exactly the set of non-dominated points", "statement": "pareto_set returns precisely the points not dominated by any point of the input, each as often as it occurs, sorted lexicographically by decreasing objectives, for any scheduling of the parallel loop.", "quantifier": "for all finite point sets, numbers of objectives, schedules", "why_tests_cant": "schedules and unbounded sets", "anchors": ["src/limbo/experimental/tools/pareto.hpp: pareto_set, pareto_set_std, non_dominated, dominate_flag, compare_objs_lex"]}
{"id": "C45", "title": "Pareto dominance is a strict partial order", "statement": "dominate_flag implements Pareto dominance: 1 iff first dominates second, -1 iff dominated, 0 otherwise; dominance is irreflexive, asymmetric and transitive.", "quantifier": "for all pairs/triples of objective vectors of equal length", "why_tests_cant": "continuum", "anchors": ["src/limbo/experimental/tools/pareto.hpp: dominate_flag"]}
{"id": "C46", "title": "Constrained optimizer reports feasible incumbents and trains on its data", "statement": "In the constrained BO optimizer, the model receives for each new sample the objective value observed at this sample, best_sample() is the sample at which best_observation() was measured, and it is feasible when a feasible one exists.", "quantifier": "for all histories, objectives and constraints", "why_tests_cant": "all histories", "anchors": ["src/limbo/experimental/bayes_opt/cboptimizer.hpp: optimize, best_observation, best_sample, _split_observations, _feasible_observations"]}
{"id": "C47", "title": "ParEGO scalarisation respects dominance", "statement": "The scalarised value used by GPParego is monotone: an observation that dominates another never gets a smaller scalar value under the same weights; weights are non-negative and sum to one.", "quantifier": "for all observations and weight draws", "why_tests_cant": "continuum", "anchors": ["src/limbo/experimental/model/gp_parego.hpp: GPParego::_scalarize_obs"]}
{"id": "C48", "title": "Seeded random generators are reproducible and seed sequence is recoverable", "statement": "seed_seq_fe::param() recovers seeds that re-create the same internal state, for every entropy content.", "quantifier": "for all 2^128 (2^256) states", "why_tests_cant": "2^128 states", "anchors": ["src/external/rand_utils.hpp: seed_seq_fe"]}
{"id": "C49", "title": "MaxPredictedValue stops exactly at the ratio", "statement": "MaxPredictedValue never stops without observations, and otherwise stops iff the best aggregated observation exceeds ratio times the predicted value found by its inner optimizer.", "quantifier": "for all models, inner optimizers, ratios", "why_tests_cant": "continuum", "anchors": ["src/limbo/stop/max_predicted_value.hpp"]}
{"id": "C50", "title": "IMGPO cells stay consistent", "statement": "Each ternary split of the IMGPO tree partitions the cell into three equal boxes along its longest side whose stored points are the centres; the leaves tile the root box.", "quantifier": "for all split sequences, dimensions", "why_tests_cant": "unbounded trees", "anchors": ["src/limbo/experimental/bayes_opt/imgpo.hpp: IMGPO::optimize"]}
{"id": "C51", "title": "IMGPO sampled leaves stand for evaluations", "statement": "During a call of IMGPO::optimize the objective is asked exactly for the new samples, in order, and its answers are the new observations, counted by both iteration counters; during a first call no point is evaluated twice, a leaf is flagged as sampled exactly when its point has been evaluated, and the value stored in a sampled leaf is the value observed at its point.", "quantifier": "for all objectives, models, stopping criteria, dimensions and run lengths", "why_tests_cant": "unbounded trees and runs", "anchors": ["src/limbo/experimental/bayes_opt/imgpo.hpp: IMGPO::optimize"]}
{"id": "C52", "title": "ParallelLFOpt optimises every output", "statement": "ParallelLFOpt applied to a trained MultiGP with KernelLFOpt and Rprop: the likelihood of no output decreases, the result does not depend on the schedule of the loop, it equals setting the found parameters of every output followed by recompute(false, true), and the predictions are the posteriors under the kernels with the parameters found.", "quantifier": "for all kernels and means, histories, numbers of outputs, Rprop settings and schedules", "why_tests_cant": "unbounded histories, schedules, real parameters", "anchors": ["src/limbo/model/multi_gp/parallel_lf_opt.hpp: ParallelLFOpt::operator()", "src/limbo/model/multi_gp.hpp: MultiGP"]}
{"id": "C53", "title": "A MultiGP saved and loaded predicts the same", "statement": "A trained MultiGP, saved and loaded into any MultiGP object with or without recomputation, gives the same predictions, and keeps giving the same predictions as the original under the same further calls.", "quantifier": "for all kernels and means, histories, target objects, queries, further calls", "why_tests_cant": "unbounded histories and continuations", "anchors": ["src/limbo/model/multi_gp.hpp: MultiGP::save, MultiGP::load"]}
{"id": "C54", "title": "Expected constrained improvement", "statement": "ECI returns the probability that the constraint is satisfied (a normal variable with the predicted mean and standard deviation of the constraint model is at least 1; 1 while the constraint model has no samples) times the expected improvement of EI, hence a value between 0 and EI.", "quantifier": "for all objective and constraint models, points, aggregators, jitters, call sequences on a model", "why_tests_cant": "continuum; an integral", "anchors": ["src/limbo/experimental/acqui/eci.hpp: ECI::operator(), ECI::_pf"]}
{"id": "C55", "title": "UCB_IMGPO is the bound IMGPO needs", "statement": "UCB_IMGPO returns mean + (sqrt(2 log(pi^2 M^2/(12 nu))) + 0.2) times the standard deviation, a number at least the mean and strictly increasing in M; and the label IMGPO stores for a cell it does not evaluate is this bound.", "quantifier": "for all models, points, counts M >= 1, parameters 0 < nu < 1", "why_tests_cant": "continuum", "anchors": ["src/limbo/experimental/acqui/ucb_imgpo.hpp: UCB_IMGPO::operator()", "src/limbo/experimental/bayes_opt/imgpo.hpp: IMGPO::optimize"]}
{"id": "C56", "title": "ehvi2d is the expected hypervolume improvement", "statement": "For a set of mutually non-dominated points above the reference point, ehvi2d returns the expectation, over two independent normal variables, of the area dominated by the new point but not by the set and lying above the reference point; acqui::Ehvi returns this expectation for the normal distributions predicted by its two models.", "quantifier": "for all fronts of any size (copies and any order of ties allowed), reference points, means, standard deviations", "why_tests_cant": "a double integral over the plane, unbounded number of points", "anchors": ["src/ehvi/ehvi_calculations.cc: ehvi2d", "src/ehvi/helper.cc", "src/limbo/experimental/acqui/ehvi.hpp: Ehvi::operator()"]}
{"id": "C57", "title": "Hypervolume indicator", "statement": "CalculateHypervolume returns the volume of the region between the origin and the given points, FilterNondominatedSet keeps exactly the non-dominated points, and the statistic HyperVolume logs the volume between the reference point and the observations.", "quantifier": "for all numbers of objectives, all fronts of any size and order, reference points and observations", "why_tests_cant": "unbounded fronts and dimensions; an integral", "anchors": ["src/hv/hypervol.c: Dominates, FilterNondominatedSet, SurfaceUnchangedTo, ReduceNondominatedSet, CalculateHypervolume", "src/limbo/experimental/stat/hyper_volume.hpp: HyperVolume::operator()"]}
{"id": "C58", "title": "Multi-objective optimizers use current models and the current Pareto set", "statement": "In every iteration of the EHVI optimizer, model j has been trained on all current samples with the j-th components of all current observations, pareto_data() is exactly the set of the non-dominated pairs, and the new sample is the best proposal of the inner optimizations started from the Pareto points; the stored data are the evaluations; when optimize() returns, pareto_data() is the Pareto set of all observations; Nsbo evaluates a point of its Pareto model.", "quantifier": "for all objectives, models, acquisition functions, inner optimizers, stopping criteria, histories and schedules", "why_tests_cant": "unbounded histories, schedules", "anchors": ["src/limbo/experimental/bayes_opt/bo_multi.hpp: BoMulti", "src/limbo/experimental/bayes_opt/ehvi.hpp: Ehvi::optimize", "src/limbo/experimental/bayes_opt/nsbo.hpp: Nsbo::optimize", "src/limbo/experimental/stat/pareto_front.hpp: ParetoFront"]}
{"id": "C59", "title": "Bindings to NLOpt and libcmaes ask for what they were asked", "statement": "Every call of an NLOpt or CMA-ES optimizer asks the library to maximise exactly the given objective (value and, where used, gradient) from the given start, with the configured limits, within the unit box if and only if the call is bounded; a bounded call returns a point of the unit box; calls of one object do not influence each other.", "quantifier": "for all objectives, starts, dimensions, sequences of calls of one object, and all libraries meeting their documented contract", "why_tests_cant": "external library, unbounded sequences of calls", "anchors": ["src/limbo/opt/nlopt_base.hpp: NLOptBase", "src/limbo/opt/nlopt_no_grad.hpp: NLOptNoGrad", "src/limbo/opt/nlopt_grad.hpp: NLOptGrad", "src/limbo/opt/cmaes.hpp: Cmaes"]}
{"id": "C60", "title": "A bounded optimization evaluates only points of the unit box", "statement": "With bayes_opt_bobase::bounded(), every point at which BOptimizer evaluates the objective, and every stored sample, has the dimension of the problem and all its coordinates in [0,1], for every initialisation function and every (stack of) acquisition optimizers of the library.", "quantifier": "for all objectives, models, acquisition functions, stopping criteria, histories of calls, random draws, schedules, and behaviours of NLOpt and libcmaes within their contract", "why_tests_cant": "unbounded histories, external libraries, rounding", "anchors": ["src/limbo/bayes_opt/boptimizer.hpp: BOptimizer::optimize", "src/limbo/opt", "src/limbo/init"]}
{"id": "C61", "title": "The optimizer always consults the exact posterior of its data", "statement": "Whenever BOptimizer with a Gaussian process consults its model (stopping criteria, acquisition function, statistics), the GP is well defined and predicts, at every point, mean and variance of the exact posterior of all samples and observations collected so far (for the statistics: all but the newest), with parameters that come from the constructors or from the hyper-parameter optimisation; without any sample it predicts the prior.", "quantifier": "for all kernels, mean functions and hyper-parameter optimizers of the library, objectives, acquisition functions, initialisations, stopping criteria, hyper-parameter periods and histories of calls", "why_tests_cant": "unbounded histories; equality of real-valued functions", "anchors": ["src/limbo/bayes_opt/boptimizer.hpp: BOptimizer::optimize", "src/limbo/model/gp.hpp: GP", "src/limbo/model/gp/kernel_mean_lf_opt.hpp: KernelMeanLFOpt"]}
{"id": "C62", "title": "The logs about the model show predictions, not fits", "statement": "During a history of calls in which only the first may reset, gp_prediction_differences.dat, gp_acquisitions.dat, gp_kernel_hparams.dat and gp_mean_hparams.dat have one header and one line per iteration, labelled 0, 1, ...; the line of an iteration shows the model and the iteration number with which the acquisition function chose its sample, i.e. the GP posterior of the earlier samples only; gp_<n>.dat covers exactly the grid; the console shows sample, value and incumbent.", "quantifier": "for all objectives, models, acquisition functions, histories (including exceptions) and run lengths", "why_tests_cant": "unbounded histories; relation between log lines and the internal state at another time", "anchors": ["src/limbo/stat/gp_prediction_differences.hpp: GPPredictionDifferences", "src/limbo/stat/gp_acquisitions.hpp: GPAcquisitions", "src/limbo/stat/gp_kernel_hparams.hpp: GPKernelHParams", "src/limbo/stat/gp_mean_hparams.hpp: GPMeanHParams", "src/limbo/stat/gp.hpp: GP", "src/limbo/stat/console_summary.hpp: ConsoleSummary"]}
{"id": "C63", "title": "The sparse GP with pseudo-inputs predicts with the exact posterior of its approximation", "statement": "After every history of compute, add_sample and recompute calls, experimental::model::SPGP predicts with the posterior of the fully independent training conditional (FITC) approximation for all data given so far and for the parameters that the optimizer returned last: mean k(v,xb) Q^-1 k(xb,X) A^-1 (y - m) + m(v), variance c + sig - q(v,v) + k(v,xb)(Q^-1 - Q^-1 (..) Q^-1)k(xb,v), which stays between sig and c + sig; mu, sigma, query and predict agree; the optimizer starts from the chosen subset of the samples; optimize_hyperparams preserves the agreement.", "quantifier": "for all mean functions, data sets, random subsets, optimizers, jitters, sparsity settings and histories of calls", "why_tests_cant": "unbounded histories; equality of real-valued matrix expressions that the program computes by another route (Cholesky factors of another matrix)", "anchors": ["src/limbo/experimental/model/spgp.hpp: SPGP::compute, add_sample, recompute, optimize_hyperparams", "src/limbo/experimental/model/spgp.hpp: SPGP::_init, _compute, _predict, query, mu, sigma", "src/limbo/experimental/model/spgp.hpp: SPGP::_optimize_hyperparams, _optimize_init"]}
{"id": "C64", "title": "The sparse GP tunes its parameters with the log-density of its approximation", "statement": "In every call of a history, the objective that experimental::model::SPGP gives to the optimizer is defined for every parameter vector of the right length and equals the log-density of the observations under the FITC approximation with these parameters (pseudo-inputs, inverse squared length scales, signal variance, noise variance).", "quantifier": "for all mean functions, data sets, parameter vectors, jitters, sparsity settings and histories of calls", "why_tests_cant": "unbounded sizes; equality of a determinant and a quadratic form of an n x n matrix with expressions in factors of m x m matrices", "anchors": ["src/limbo/experimental/model/spgp.hpp: SPGP::_likelihood, _likelihood_wp", "src/limbo/experimental/model/spgp.hpp: SPGP::_optimize_hyperparams"]}
{"id": "C65", "title": "The gradient of the sparse GP's likelihood is the exact gradient", "statement": "In every call of a history, at every parameter vector of the right length, the gradient that experimental::model::SPGP gives to the optimizer has one component per parameter, and each component is the partial derivative of the log-density of the observations under the FITC approximation: with respect to every coordinate of every pseudo-input, the logarithm of every inverse squared length scale, of the signal variance and of the noise variance.", "quantifier": "for all mean functions, data sets, parameter vectors, jitters, sparsity settings and histories of calls; every component", "why_tests_cant": "finite differences test one vector at a time with a tolerance; a wrong term in a component can be smaller than the tolerance or vanish for the tested data", "anchors": ["src/limbo/experimental/model/spgp.hpp: SPGP::_likelihood, _likelihood_wp", "src/limbo/experimental/model/spgp.hpp: HyperParams"]}
{"id": "C66", "title": "The declared solutions of the benchmark functions are the optima, and accuracy() is the gap to the optimum", "statement": "For the benchmark functions Sphere, Ellipsoid, Rastrigin, GoldsteinPrice, BraninNormalized and SixHumpCamel, solutions() lists exactly the global minimisers over the unit box that limbo searches, so that Benchmark::accuracy(v), for any value v that the benchmark can return, is the distance between v and the optimal value.", "quantifier": "for all points of the box (a continuum) and all values; for the first four, for all points of the space", "why_tests_cant": "global optimality over a continuum cannot be sampled; solutions rounded to six digits pass any test with a tolerance", "anchors": ["src/benchmarks/limbo/testfunctions.hpp: Sphere, Ellipsoid, Rastrigin, GoldsteinPrice, BraninNormalized, SixHumpCamel", "src/benchmarks/limbo/testfunctions.hpp: Benchmark::operator(), Benchmark::accuracy"]}
{"id": "C67", "title": "ParEGO consults the exact posterior of its scalarised data", "statement": "Parego<Params,...> is BOptimizer with GPParego around the model. In every history of calls (optimize with or without reset, eval_and_add, add_new_sample, exceptions included), whenever stopping criteria, acquisition function or statistics look at the model, its base process is trained on all samples known to the model, paired in order with the augmented Tchebycheff values (largest weighted objective plus rho times the weighted sum) of their raw observations, for one weight vector with non-negative entries and sum one common to all of them; its predictions are the exact posterior of these data with one output, for kernel and mean parameters that are the initial ones or learned by the hyper-parameter optimisation.", "quantifier": "all objectives, acquisition optimizers, initialisations, stopping criteria, random draws (not all zero), summation orders, histories, numbers of objectives and samples", "why_tests_cant": "the weights are random and the data grow without bound; a test sees single draws, and a stale or wrongly paired scalarisation gives plausible predictions", "anchors": ["src/limbo/experimental/bayes_opt/parego.hpp:61-91", "src/limbo/experimental/model/gp_parego.hpp:73-121", "src/limbo/bayes_opt/boptimizer.hpp:136-170"]}
{"id": "C68", "title": "A MultiGP of sparsified GPs predicts from thinned data", "statement": "After every history of compute and add_sample calls a MultiGP<SparsifiedGP> with max_points p has kept, for every output, min(p, n) of the n pairs given, obtained by repeatedly dropping a most crowded one, and predicts each output with the exact posterior given these pairs; all outputs keep the same samples, samples() and observations() list the pairs kept, and recompute() keeps the predictions.", "quantifier": "for all histories, data, dimensions, numbers of outputs, schedules of the loops over outputs and points, and contents of uninitialised memory", "why_tests_cant": "the kept subset depends on the schedule of nested parallel loops and on ties; the mismatch of samples and observations needs more than max_points samples followed by a recompute, which the tests of the library never combine", "anchors": ["src/limbo/model/multi_gp.hpp:80-127", "src/limbo/model/multi_gp.hpp:141-175", "src/limbo/model/multi_gp.hpp:254-273", "src/limbo/model/sparsified_gp.hpp:84-182"]}
{"id": "C69", "title": "Predictions of a GP in double precision", "statement": "Whatever the order and fusion of the operations in the sums left to Eigen, as long as the noise on the diagonal exceeds an explicit multiple of the unit roundoff times the number of samples and the size of the kernel, the kernel matrix computed in double precision is factorised without breakdown, at once or sample by sample, the variance returned is a finite number that is not negative, and mean and variance are within explicit bounds of the exact posterior mean and variance.", "quantifier": "for all numbers of samples, kernel values within a stated distance of a positive semi-definite kernel plus noise, observations, queried points, orders and associations of every sum, with and without fused multiply-add, and all ways of building the factor (full factorisation followed by any number of incremental updates)", "why_tests_cant": "the order of the additions depends on the version of Eigen, the processor and the compiler flags; a test sees one of them, on matrices that are far from singular", "anchors": ["src/limbo/model/gp.hpp:550-624", "src/limbo/kernel/kernel.hpp:83"]}
{"id": "C70", "title": "Kernels in double precision, and a GP on them", "statement": "Kernel values computed in double precision are finite and close to the exact kernel whatever the points, and a GP on them does not break down and predicts what the exact posterior predicts. In detail, for Exp, MaternThreeHalves, MaternFiveHalves and SquaredExpARD without factor A, coordinates up to 2^100, length scales and signal variance between 2^-100 and 2^100, and std::exp with relative error del: operator()(v1, v2, i, j) is finite and within ((8m+170) 2^-53 + 2 del) (sf2 + c) of k(v1, v2) + c, c = noise + 1e-8 when i == j and 0 otherwise, whatever the order in which Eigen adds the squares (at most m operations). With at most 1000 samples, signal variance at most 1, noise variance in [0.0099, 0.9], std::exp within 2^-52, and sums with at most 3000 operations: the Cholesky factorisation of the kernel matrix succeeds, the variance is finite, not negative, and within 1e-6 of the posterior variance of the exact kernel; the mean is finite and within 6e-6 times the 1-norm of the exact weights (K + noise)^-1 (y - m), plus 1e-12 (1 + |m(v)|), of the exact posterior mean.", "quantifier": "all points (any number up to 1000 for the GP, any dimension up to 2^40, duplicates included), all parameters in the range, all evaluation orders, with and without fused operations, every std::exp within its contract", "why_tests_cant": "Tests compare a few kernel values to reference implementations with a tolerance. The order of the sums depends on the compiler and on vector sizes, near-duplicates are where the matrix is nearly singular, and no test has the exact posterior to compare to.", "anchors": ["src/limbo/kernel/exp.hpp:94-99", "src/limbo/kernel/matern_three_halves.hpp:102-108", "src/limbo/kernel/matern_five_halves.hpp:104-113", "src/limbo/kernel/squared_exp_ard.hpp:138-151", "src/limbo/kernel/kernel.hpp:81-84", "src/limbo/model/gp.hpp:542-640"]}
{"id": "C71", "title": "The log-likelihood in double precision", "statement": "compute_log_lik of a GP on one of the kernels of C70 returns, in double precision, a finite number close to the exact logarithm of the density of the data (as in C30: summed over the outputs, the determinant and the constant counted once). In detail: (a) for any factor limbo may hold (computed at once or grown sample by sample), 2 sum log L_ii is within n e/(1-e) of log det(K + noise), e = n (err + eps)/noise < 1, where err is the rounding error of the factorisation and eps that of the kernel values; (b) in the usual range of C70 (at most 1000 samples, signal variance at most 1, noise variance in [0.0099, 0.9]), with logarithms accurate to 2^-50 (1 + |log|), up to 2^20 outputs and sums of up to 2^20 operations in any order, long double any binary format at least as wide as double, and residuals up to 2^200: the result is finite and within 3e-4 + 2e-9 sum_o X_o^2 of the exact log-likelihood, X_o the 1-norm of the exact weights (K + noise)^-1 (y_o - m).", "quantifier": "all points, parameters in the range, numbers of samples and outputs in the range, data, evaluation orders with and without fused operations, std::exp and logarithms within their contracts, formats of long double", "why_tests_cant": "a test compares one likelihood with a reference at one data set and one compiler; the sums are reordered by vectorisation and the conditioning depends on the samples", "anchors": ["src/limbo/model/gp.hpp:267-282", "src/limbo/model/gp.hpp:550-611"]}
{"id": "C72", "title": "Parallel loops: every interleaving has the outcome of a sequential order", "statement": "Let the iterations of tools::par::loop be interleaved access by access in any way, where a data race, a misused mutex or undefined behaviour inside an iteration makes the outcome undefined. (a) If every iteration only reads shared locations nobody writes, touches locations of its own, and touches guarded locations inside one critical section, then the loop cannot deadlock, cannot run for ever, has no data race, and its outcomes are exactly those of running the iterations one after the other in some order; without a critical section the outcome is that of the order 0, 1, ..., n-1. (b) The loops of limbo are of this kind: the per-output loops of MultiGP, ParallelLFOpt and the packing of Pareto data give the result of the plain loop; the distance matrix of SparsifiedGP is filled completely except for its diagonal; the result of _get_most_dense_point and of the Pareto filter is that of some order of the iterations.", "quantifier": "all numbers of iterations, bodies of the stated kind, memories, schedules of single memory accesses", "why_tests_cant": "a test sees the few schedules its machine happens to produce, usually the same one every time; a race shows up in one run out of millions", "anchors": ["src/limbo/tools/parallel.hpp:137-151", "src/limbo/model/sparsified_gp.hpp:129-167", "src/limbo/model/multi_gp.hpp:124-126", "src/limbo/experimental/tools/pareto.hpp:145-155"]}
{"id": "C73", "title": "UCB and EI in double precision are close to the exact upper confidence bound and the exact expected improvement", "statement": "On the GP of C70 (any of the four kernels, at most 1000 samples, noise between 0.0099 and 0.9, signal variance at most 1, coordinates, observations and means up to the stated powers of two), with every order of summation and every choice of fused operations: (1) the exact posterior variance V satisfies sf2*eta/(eta + n*sf2) <= V <= sf2, so it is bounded away from 0; (2) the double UCB returns (0 <= alpha <= 2^20) is finite and differs from M + alpha*sqrt(V) by at most 7e-6*W + 2e-12*(1+|m(v)|) + 1.1e-6*alpha/sqrt(V), where M, V are the exact posterior mean and variance and W the sum of the magnitudes of the exact weights; (3) with sf2 >= 0.01, the double EI returns is finite, the cut-off at 1e-10 is not taken, and it differs from the expectation of max(0, Y - f - jitter), Y normal with the exact posterior mean and variance, f the largest exact posterior mean at the samples, by at most 1.3e-5*W + 3e-12*(1+max|m|) + 2e-14*|jitter| + 6e-7/sqrt(V); (4) hence if the computed value at v is not below the one at w, the exact value at w exceeds the exact value at v by at most the two bounds.", "quantifier": "all GPs in the stated range, all query points, all parameters alpha and jitter in range, all implementations of exp, erfc, pow within the stated accuracy, all evaluation orders", "why_tests_cant": "A test compares a few values with a reference computed by the same formulas; it cannot bound the rounding error for every data set, nor show that the square root and the division by sigma do not amplify the error of the variance without limit, nor that the incumbent taken over computed means is close to the exact one.", "anchors": ["src/limbo/acqui/ucb.hpp:82-88", "src/limbo/acqui/gp_ucb.hpp:96-104", "src/limbo/acqui/ei.hpp:83-119", "src/limbo/model/gp.hpp:158-190", "src/limbo/model/gp.hpp:605-632"]}
{"id": "C74", "title": "Grid search on the computed UCB or EI returns a near-maximiser of the exact acquisition function over the whole unit box", "statement": "On the GP of C73 with a constant mean function, when the acquisition function is maximised by GridSearch with 1 to 2^20 bins: the search returns a point q, and for every point w of the unit box (not only grid points) the exact upper confidence bound at w exceeds the one at q by at most 2*(rounding bound of C73 at the smallest possible variance) + (W*sf2 + alpha*sqrt(sf2))*g, where W is the sum of the magnitudes of the exact weights and g = sqrt(s*d)*(1/(2*bins) + 2^-28)/lam, lam a lower bound of the length scales, s = 1 for Exp and SquaredExpARD, 3 for MaternThreeHalves, 5/3 for MaternFiveHalves. The same for the exact expected improvement with 1/2 for alpha. It rests on: for all points v, w with coordinates within h, the exact posterior means differ by at most W*sf2*g and the exact standard deviations by at most sqrt(sf2)*g. Hence if an objective lies within alpha standard deviations of the posterior mean everywhere, it exceeds its value at q nowhere in the box by more than 2*alpha*sqrt(V(q)) plus this loss.", "quantifier": "all GPs in the range of C73, all parameters, all grids, all points of the box, all evaluation orders and all libm implementations within the stated accuracy", "why_tests_cant": "a test evaluates finitely many points of the box and has no exact posterior to compare with; the loss must be bounded at every point of a continuum and for every data set", "anchors": ["src/limbo/opt/grid_search.hpp:60-110", "src/limbo/acqui/ucb.hpp:82-88", "src/limbo/acqui/ei.hpp:83-119", "src/limbo/model/gp.hpp:158-181", "src/limbo/bayes_opt/boptimizer.hpp:147-165"]}
{"id": "C75", "title": "The computed variance of a GP is positive wherever the exact one is; UCB and EI see the uncertainty", "statement": "On the GPs of C73, whose exact posterior variance is positive at every point: the double that query returns as variance is positive too, so that EI does not take its cut-off and UCB adds a multiple of a positive deviation. This is FALSE: gp.hpp:623 sets a variance of at most 2^-52 to 0, an absolute threshold. If the signal variance is at most 2^-53 the computed variance is exactly 0 at every point and for every data set, UCB equals the mean whatever alpha, EI is exactly 0 everywhere although the exact expected improvement is positive everywhere, and GridSearch on EI returns the origin whatever the data. Proved instead: if sf2*eta/(eta+n*sf2) >= 1.1e-6 the computed variance is positive everywhere, within a factor of the exact one, and the cut-off of EI is not taken.", "quantifier": "all GPs in the stated range, all query points, all evaluation orders, all libm implementations within the stated accuracy, all grids", "why_tests_cant": "tests use objectives of order 1; the loss occurs for objectives of small scale once the signal variance has been learned, and nothing fails visibly", "anchors": ["src/limbo/model/gp.hpp:618-624", "src/limbo/acqui/ei.hpp:92-98", "src/limbo/acqui/ucb.hpp:82-88", "src/limbo/opt/grid_search.hpp:74-111"]}
{"id": "C76", "title": "Prediction of the GP in double precision against the posterior of the raw observations, mean function and incremental updates included", "statement": "For a GP with any of the four isotropic or ARD kernels of C70 and the mean function NullFunction, Constant or Data (mean of the observations), that was computed from data or built up by add_sample in any mixture, with at most 1000 samples and observations of magnitude at most M <= 2^198: the value of the mean function differs from the exact one and every stored residual from the exact difference by at most centre = (2m+6)*(M*2^-53 + 2^-1075) (m bounding the number of summands); and there is the exact inverse B of K + nugget*I such that at every point v the computed prediction is finite, the computed variance is within 10^-6 of k(v,v) - k'Bk, and the computed mean within 7*10^-6*W + 2*10^-12*(1+M) + 2*(n/nugget + 1)*centre of a + k'B(y - a), with a the exact prior mean of the raw observations and W the sum of the magnitudes of the exact weights B(y - a).", "quantifier": "all data, all histories of compute and add_sample, all summation orders, all three mean functions, all libm exp implementations within the stated accuracy", "why_tests_cant": "the residuals are rounded before they are solved for; a test compares two computed numbers and never sees the exact posterior of the raw data, and the histories and data are unbounded", "anchors": ["src/limbo/model/gp.hpp:97-181,573-631", "src/limbo/mean/data.hpp:56-64", "src/limbo/mean/constant.hpp:60-85", "src/limbo/mean/null_function.hpp:55-63"]}
{"id": "C77", "title": "Every sample of every run of the optimizer in double precision nearly maximises the exact acquisition function of the data", "statement": "Consider BOptimizer with the GP of C76, the acquisition function UCB or EI maximised by GridSearch (1 to 2^20 bins), no hyper-parameter optimisation, and any sequence of calls of optimize, eval_and_add and add_new_sample on one object. Whenever an iteration chooses the next sample q from data X, Y with 1 to 1000 samples and observations of magnitude at most M: q is a finite point, and there is the exact inverse B of K + nugget*I for X such that at every point w of the unit box the exact UCB of the raw data (exact posterior mean + alpha*exact posterior standard deviation) exceeds the one at q by at most an explicit loss made of the rounding bound of C73, the cell of the grid (C74) and the rounding of mean function and residuals (C76). The same for the exact expected improvement over the best exact posterior mean of the samples. Hence, for UCB, whenever an objective lies within alpha exact standard deviations of the exact posterior mean everywhere, it exceeds its value at q nowhere in the box by more than 2*alpha*sqrt(V(q)) plus that loss.", "quantifier": "all objectives (stateful, failing), initialisations, stopping criteria, histories of calls, data, kernels and mean functions in range, all evaluation orders", "why_tests_cant": "a whole run mixes the loop, the model updates, the acquisition function and the optimizer; a test sees one run, has no exact acquisition function to compare with and only finitely many points of the box", "anchors": ["src/limbo/bayes_opt/boptimizer.hpp:139-170", "src/limbo/bayes_opt/bo_base.hpp:225-270", "src/limbo/model/gp.hpp:97-181", "src/limbo/acqui/ucb.hpp:82-88", "src/limbo/acqui/ei.hpp:83-119", "src/limbo/opt/grid_search.hpp:60-110"]}
{"id": "C78", "title": "Convergence of whole optimizer runs in double precision: the best sample is nearly a global maximum of the objective", "statement": "Consider BOptimizer with UCB (0 <= alpha <= 2^20) maximised by GridSearch, the GP of C76 with the mean function NullFunction or Constant (value a), no hyper-parameter optimisation, and any sequence of calls on one object that leaves N <= 1000 samples. Let the objective be H = a + sum c_i k(z_i, .), k the exact kernel, with norm sum c_i c_j k(z_i, z_j) <= Lam^2, and let every observation be within eps of H at its sample, where Lam + sqrt(N/nugget)*eps <= alpha. If the iterations completed since the last reset outnumber the grid points by more than a factor k, then best_sample() returns a sample b such that for EVERY point w of the unit box H(w) <= H(b) + 2*alpha*sqrt(nugget/k) + Lam*sqrt(sf2)*g + rounding + 2*eps, with g the width of a grid cell in units of the kernel (C74) and an explicit bound for all the rounding (C73, C76) that does not depend on the data. For any objective within del of such an H the same with 4*del more.", "quantifier": "all objectives of bounded norm (and all functions near them), kernels, mean functions, initialisations, stopping criteria, histories of calls, evaluation orders, libm implementations in the stated range", "why_tests_cant": "the claim compares the result with every point of a continuum, for every objective of a function space; it needs the confidence band, the variance reduction at revisited points and the rounding of every operation of the run together", "anchors": ["src/limbo/bayes_opt/boptimizer.hpp:139-190", "src/limbo/bayes_opt/bo_base.hpp:225-270", "src/limbo/model/gp.hpp:97-181", "src/limbo/acqui/ucb.hpp:82-88", "src/limbo/opt/grid_search.hpp:60-110", "src/limbo/mean/constant.hpp:60-85"]}
{"id": "C79", "title": "GradientAscent in double precision: monotone up to rounding, O(1/T) convergence on concave objectives, and the reach of the default parameters", "statement": "opt::GradientAscent without momentum (gamma = 0, no Nesterov step), in binary64, bounded (projection to the unit box) or not. For every objective whose gradient has Lipschitz constant K on the box of the run, alpha*K <= 1, and gradients returned with error at most eg and magnitude at most M: the run ends in the box; the objective at the result is at least its value at the start minus T*delta, where T is the number of iterations and delta = n*W*(eg + 4e-16*(P + alpha*M)/alpha), with W the width of the box and P the largest coordinate; no coordinate moves by more than T*(alpha*M + rounding). If the objective is also concave, then for every point z of the box phi(z) - phi(result) <= |z - start|^2/(2*alpha*T) + delta*(T+1)/2, and if the stopping test ended the run early, phi(z) - phi(result) <= W*(s + rounding)/alpha + delta, with s the step length the test stands for. With the default parameters (300 iterations, alpha = 0.001) no coordinate moves by more than 0.31*M, so that for the objective x_0 a run from 0 stays more than 2/3 away from the maximum.", "quantifier": "all dimensions, objectives, gradients, starting points, step sizes, iteration counts, stopping thresholds in the stated range", "why_tests_cant": "the statement quantifies over all smooth and concave objectives and all gradient errors; a test fixes an objective, and its failure to converge on another one or its loss of the last digits would not be seen", "anchors": ["src/limbo/opt/gradient_ascent.hpp:57-79", "src/limbo/opt/gradient_ascent.hpp:96-158"]}
{"id": "C80", "title": "Convergence of whole optimizer runs in double precision with any inner optimizer that nearly maximises the acquisition function", "statement": "Consider BOptimizer with UCB (0 <= alpha <= 2^20), the GP of C76 with the mean function NullFunction or Constant (value a), no hyper-parameter optimisation, and any inner optimizer that returns a point of the unit box whose computed acquisition value is within zeta of the computed value at every point of the box (the bounded optimizers of limbo aim at this: NLOpt, CMA-ES, ParallelRepeater or Chained of them). Let the objective be H = a + sum c_i k(z_i, .), k the exact kernel, with norm sum c_i c_j k(z_i, z_j) <= Lam^2, let every observation be within eps of H at its sample, and let Lam + sqrt(N/nugget)*eps <= alpha, for any sequence of calls on one object that leaves N <= 1000 samples. For ALL natural numbers k, r >= 1: if more than k*r^d iterations were completed since the last reset, then best_sample() returns a sample b such that for EVERY point w of the unit box H(w) <= H(b) + 2*alpha*sqrt(nugget/k + sf2*g^2) + zeta + rounding + 2*eps, with g the side 1/r of a cell in units of the kernel and an explicit bound for all the rounding that does not depend on the data. For any objective within del of such an H the same with 4*del more.", "quantifier": "all inner optimizers with the stated guarantee, all objectives of bounded norm (and all functions near them), kernels, mean functions, initialisations, stopping criteria, histories of calls, evaluation orders, libm implementations in the stated range, all k and r", "why_tests_cant": "the statement quantifies over all objectives, all inner optimizers and all runs, and its bound holds at every point of the box at once; a test sees single objectives, and never the true maximum", "anchors": ["src/limbo/bayes_opt/boptimizer.hpp:139-190", "src/limbo/bayes_opt/bo_base.hpp:225-270", "src/limbo/model/gp.hpp:97-181", "src/limbo/acqui/ucb.hpp:82-88", "src/limbo/opt/grid_search.hpp:60-110", "src/limbo/mean/constant.hpp:60-85"]}
{"id": "C81", "title": "Optimizer runs in double precision with hyper-parameters learnt on the way: near-maximal samples and convergence", "statement": "Consider BOptimizer with the GP of C76 and hyper-parameter learning of the kernel (KernelLFOpt: set_h_params of the learnt values, recompute(false)) at any period, the learnt signal variance, noise and length scales being ANY values of a set T in the range of C70 (nothing else is assumed about how they are chosen). (1) Learning turns a GP of C76 for the old values into a GP of C76 for the new values on the same data, whatever order the sums are evaluated in. (2) With UCB (or EI) and GridSearch, every sample chosen by every run, for any sequence of calls on one object and data up to 1000 samples, is a point whose exact UCB (EI) of the data, computed over the real numbers with the hyper-parameters the model holds at that moment, is at least that of EVERY point of the unit box minus the explicit loss of C77. (3) With UCB and any inner optimizer that comes within zeta of the maximum of the computed acquisition function: if the objective O is, for every t in T, within del of a combination of norm at most Lam(t) of the kernel functions with hyper-parameters t, observations are within eps of O, and Lam(t) + sqrt(N/nugget(t))*(eps+del) <= alpha for every t in T, then after more than k*r^d iterations since the last reset best_sample() returns a sample b with O(w) <= O(b) + Lo + 2*eps + 2*del for EVERY point w of the unit box, Lo any bound on the losses of C80 over T, for ALL k, r >= 1. (4) The same with UCB and GridSearch, with the losses of C78 over T.", "quantifier": "all sets of admissible hyper-parameters, all outcomes and periods of the learning, all objectives, kernels, mean functions, initialisations, stopping criteria, histories of calls, evaluation orders, libm implementations in the stated range, all inner optimizers with the stated guarantee, all k and r", "why_tests_cant": "A test runs one learner on one data set; here the learner may return any admissible values at any time, and the statement compares each sample with every point of the box.", "anchors": ["src/limbo/model/gp/kernel_lf_opt.hpp:59-69", "src/limbo/model/gp.hpp:240-253", "src/limbo/model/gp.hpp:118-123", "src/limbo/bayes_opt/boptimizer.hpp:139-170"]}
{"id": "C82", "title": "GP-UCB in double precision: the computed exploration weight, convergence of optimizer runs, and the first iteration with GridSearch", "statement": "(1) For delta in [2^-20,1], dimension up to 64 and iteration numbers 1 <= i <= 2^20, with std::pow and std::log of relative error 2^-50, the exploration weight GP_UCB computes is finite and within 2e-9 of sqrt(2 log(i^(d/2+2) pi^2/(3 delta))), which is between sqrt 2 and 40. (2) Runs of BOptimizer with GP_UCB and learnt hyper-parameters as in C81, with any inner optimizer that returns a point of the unit box in the first iteration of a call and comes within zeta of the maximum of the computed GP-UCB in later ones: if the objective O is, for every admissible hyper-parameter value t, within del of a combination of norm at most Lam(t) of the kernel functions, observations are within eps of O, and Lam(t) + sqrt(N/nugget(t))*(eps+del) + 2e-9 is at most the weight of iteration 1, then after more than k*r^d iterations beyond the number of calls since the last reset, best_sample() returns a sample b with O(w) <= O(b) + Lo + 2*eps + 2*del for EVERY point w of the unit box, Lo being any bound of the explicit loss at the largest weight, for ALL k, r >= 1. (3) [refuted] In the first iteration of every call, GridSearch returns a point of the grid. Its iteration number is 0, the weight is NaN, no value exceeds the initial best value, and the search returns memory that was never written.", "quantifier": "all libm implementations in the stated range, all delta, dimensions and iteration numbers in range; all objectives, kernels, hyper-parameter learners, mean functions, initialisations, stopping criteria, histories of calls, evaluation orders, all k and r; all grids and all acquisition values computed with the weight of iteration 0", "why_tests_cant": "The weight varies with the iteration and its error depends on libm; no test can compare the result with every point of the box for every objective.", "anchors": ["src/limbo/acqui/gp_ucb.hpp:83-103", "src/limbo/bayes_opt/boptimizer.hpp:139-170", "src/limbo/opt/grid_search.hpp:68-111", "src/limbo/model/gp/kernel_lf_opt.hpp:59-69"]}
{"id": "C83", "title": "Regret of whole optimizer runs in double precision: all but few chosen samples nearly maximise the objective", "statement": "Consider the runs of C81 (UCB with any inner optimizer that comes within zeta of the maximum, or with GridSearch; hyper-parameters learnt on the way) and of C82 (GP-UCB), with the objective O within del of kernel combinations as there. For ALL k, r >= 1 and EVERY point w of the unit box: of the points chosen since the last reset (with GP-UCB: in iterations that are not the first of their call), at most k*r^d (with GridSearch: k times the number of grid points) have a value O(q) < O(w) - Lo - 2*del, Lo being the loss of C81 or C82 for k and r. Hence, when no loss O(w) - O(q) exceeds D and Lo + 2*del >= 0, the sum of the losses O(w) - O(q) over all n of these points (the cumulative regret) is at most k*r^d*D + n*(Lo + 2*del).", "quantifier": "all objectives, kernels, hyper-parameter learners, mean functions, initialisations, stopping criteria, histories of calls, evaluation orders, libm implementations in the stated range, all inner optimizers with the stated guarantee, all points w, all k and r", "why_tests_cant": "The statement counts bad choices in every run against every point of the box; a test sees one run and a few points.", "anchors": ["src/limbo/bayes_opt/boptimizer.hpp:139-170", "src/limbo/acqui/ucb.hpp:82-90", "src/limbo/acqui/gp_ucb.hpp:83-103", "src/limbo/opt/grid_search.hpp:68-111", "src/limbo/model/gp.hpp:88-181"]}
{"id": "C84", "title": "UCB with a small alpha stays at its first sample for ever", "statement": "In every run of the optimizer with UCB and GridSearch in double precision (fixed hyper-parameters, zero or constant mean a) whose initial samples are all at one point x0 of the grid, with observation y0 >= a: let kap bound the exact kernel between x0 and every other grid point, and sf2, s be the signal variance and the noise with its 1e-8. If alpha*sqrt(sf2) + err < (y0 - a)*(sf2 - kap)/(sf2 + s), err being an explicit bound of the rounding errors, then EVERY sample of the run is x0, whatever the objective is elsewhere and however many iterations are made (up to 1000 samples). The statement 'UCB with the default alpha = 0.5 converges for every objective in the span of the kernel', i.e. C78 without its bound of the norm by alpha, is therefore false: the squared exponential kernel with its default parameters and the objective 64*k((0,1), .) give runs in which every sample is at least 21 below the maximum at a point of the grid.", "quantifier": "all kernels of the library with their parameters in the stated range, all objectives with the stated value at x0, all stopping criteria, histories of calls, evaluation orders, all exp implementations in the stated range, all numbers of iterations up to 1000 samples", "why_tests_cant": "That no iteration ever leaves x0 is a statement about every future iteration; a test run that has not found the maximum may only need more iterations.", "anchors": ["src/limbo/acqui/ucb.hpp:54-91", "src/limbo/opt/grid_search.hpp:68-111", "src/limbo/bayes_opt/boptimizer.hpp:139-170", "src/limbo/model/gp.hpp:88-181"]}
